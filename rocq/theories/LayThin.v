(** A layer of zero thickness has no effect on the layered responses in space. *)

From Coq Require Import Reals ZArith List Bool Lia Lra.
From Coquelicot Require Import Coquelicot.
From Verif Require Import PyBase CBase Kernel KernelSpec KernelPhys KernelClosed KernelPassive KernelSym KernelSplit KernelMain KernelBVP Utils UtilsAb Bessel KernelBessel KernelThm KernelThm2 KernelThin KernelFinal FullspaceThm FullspaceField FullspaceEM Homog HomogThm LayAsym LayConv LayField LayMaxwell LayCode LayVal LayEM LayCont LaySym.
Import ListNotations.
Local Open Scope R_scope.
Local Open Scope C_scope.

Theorem lay_thin_xyz : forall eH eV zH zV z N m (eh ev zh zv : C) xd a b xs ys zs x y zr V, passive_medium eH eV zH zV z N -> (1 <= m <= N)%nat ->
  (0 < fst eh)%R -> (0 < fst ev)%R -> (0 <= fst zh)%R -> (0 <= fst zv)%R -> zh <> 0 -> zv <> 0 -> (1 <= a <= 6)%Z -> (1 <= b <= 6)%Z ->
  lay_xyz (ins m eh eH) (ins m ev eV) (ins m zh zH) (ins m zv zV) (insz m z) (S N) xd a b xs ys zs x y zr V <-> lay_xyz eH eV zH zV z N xd a b xs ys zs x y zr V.
Proof.
  intros eH eV zH zV z N m eh ev zh zv xd a b xs ys zs x y zr V PM Hm H1 H2 H3 H4 H5 H6 Ha Hb. unfold lay_xyz. destruct (_ || _)%bool eqn:FP; [reflexivity|].
  apply hankel_same. intros lam ab ms mr CA. destruct (code_class _ ab ms mr CA (ex_intro _ a (ex_intro _ b (conj (fs_pair_dec a b Ha Hb FP) eq_refl)))) as [_ VC].
  rewrite !wcall_gcall. now rewrite thin_invariant.
Qed.
