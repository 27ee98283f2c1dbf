(** Property C84: layers that are moved far below or above lose their influence. *)

From Coq Require Import Reals ZArith List Bool Lia Lra Psatz QArith.
From Coquelicot Require Import Coquelicot.
From Verif Require Import PyBase CBase Kernel KernelSpec KernelPhys KernelClosed KernelPassive KernelSym KernelSplit KernelBVP KernelMain KernelThm KernelThm2 ODE Bessel KernelBessel UtilsAb KernelFinal PropsKernel FullspaceThm FullspaceEM HomogThm LayConv LayVal LayEM KernelDeep LayDeep LayDeep2 LayDeep3 PropsLayered.
Import ListNotations.
Local Open Scope R_scope.
Local Open Scope C_scope.
Local Open Scope res_scope.

(** [deep N z D]: the depths z with all interfaces below layer N moved down by D. *)
Lemma deep_above : forall N z D k, (k <= N)%nat -> deep N z D k = z k.
Proof. intros N z D k H. unfold deep. now rewrite (proj2 (Nat.leb_le k N) H). Qed.
Lemma deep_below : forall N z D k, (N < k)%nat -> deep N z D k = (D + z k)%R.
Proof. intros N z D k H. unfold deep. now rewrite (proj2 (Nat.leb_gt k N) H). Qed.

(** ** C84 *)
(** At every wavenumber the two values of greenfct tend to those of the model that ends with layer N; sources and
    receivers may be anywhere (those below the first interface that is moved end up in layer N). *)
Theorem C84_kernel : forall eH eV zH zV z N M lam ab xd msrc mrec zs zr, passive_medium eH eV zH zV z M -> (N < M)%nat -> valid_call ab msrc mrec ->
  exists p q, gcall eH eV zH zV z N lam ab xd msrc mrec (lay z N zs) (lay z N zr) zs zr = Ok (p, q) /\
  forall e : R, (0 < e)%R -> exists D0 : R, forall D : R, (D0 < D)%R ->
  exists p' q', gcall eH eV zH zV (deep N z D) M lam ab xd msrc mrec (lay (deep N z D) M zs) (lay (deep N z D) M zr) zs zr = Ok (p', q') /\ (Cmod (Cminus p' p) < e)%R /\ (Cmod (Cminus q' q) < e)%R.
Proof. exact deep_limit. Qed.
(** In space the convergence is exponential in the distance. *)
Theorem C84_space : forall eH eV zH zV z N M xd a b xs ys zs x y zr, layered eH eV zH zV z M -> (N < M)%nat -> (1 <= a <= 6)%Z -> (1 <= b <= 6)%Z -> zr <> zs ->
  exists (V : C) (K kap D0 : R), (0 < kap)%R /\ lay_xyz eH eV zH zV z N xd a b xs ys zs x y zr V /\
    forall D : R, (D0 <= D)%R -> exists V', lay_xyz eH eV zH zV (deep N z D) M xd a b xs ys zs x y zr V' /\ (Cmod (Cminus V' V) <= K * exp (- (kap * D)))%R.
Proof. exact layered_deep. Qed.
(** Moving all layers above layer n up by D ([high]): the limit is the model that starts with layer n. *)
Theorem C84_above : forall eH eV zH zV z n M s r a b xs ys zs x y zr, layered eH eV zH zV z M -> (0 < n <= M)%nat -> (1 <= a <= 6)%Z -> (1 <= b <= 6)%Z -> off_axis xs ys x y -> zr <> zs ->
  in_layer (fun k => z (k + n)%nat) (M - n) s zs -> in_layer (fun k => z (k + n)%nat) (M - n) r zr ->
  exists (V : C) (K kap D0 : R), (0 < kap)%R /\
    lay_xyz (fun k => eH (k + n)%nat) (fun k => eV (k + n)%nat) (fun k => zH (k + n)%nat) (fun k => zV (k + n)%nat) (fun k => z (k + n)%nat) (M - n) false a b xs ys zs x y zr V /\
    forall D : R, (D0 <= D)%R -> exists V', lay_xyz eH eV zH zV (fun k => if (k <=? n)%nat then (z k - D)%R else z k) M false a b xs ys zs x y zr V' /\ (Cmod (Cminus V' V) <= K * exp (- (kap * D)))%R.
Proof. exact layered_high. Qed.
(** the three-layer model with its deepest layer moved down: the limit is the two-layer model *)
Example C84_case : exists (V : C) (K kap D0 : R), (0 < kap)%R /\ lay_xyz x_eH x_eV x_zH x_zV x_z 1 false 4 1 0 0 30 300 400 150 V /\
  forall D : R, (D0 <= D)%R -> exists V', lay_xyz x_eH x_eV x_zH x_zV (fun k => if (k <=? 1)%nat then x_z k else (D + x_z k)%R) 2 false 4 1 0 0 30 300 400 150 V' /\ (Cmod (Cminus V' V) <= K * exp (- (kap * D)))%R.
Proof. exact (C84_space x_eH x_eV x_zH x_zV x_z 1 2 false 4 1 0 0 30 300 400 150 x_layered ltac:(lia) ltac:(lia) ltac:(lia) ltac:(lra)). Qed.
(** the air above moved away: the limit is the model of the two lower layers *)
Example C84_above_case : exists (V : C) (K kap D0 : R), (0 < kap)%R /\ lay_xyz (fun k => x_eH (k + 1)%nat) (fun k => x_eV (k + 1)%nat) (fun k => x_zH (k + 1)%nat) (fun k => x_zV (k + 1)%nat) (fun k => x_z (k + 1)%nat) (2 - 1) false 4 1 0 0 30 300 400 150 V /\
  forall D : R, (D0 <= D)%R -> exists V', lay_xyz x_eH x_eV x_zH x_zV (fun k => if (k <=? 1)%nat then (x_z k - D)%R else x_z k) 2 false 4 1 0 0 30 300 400 150 V' /\ (Cmod (Cminus V' V) <= K * exp (- (kap * D)))%R.
Proof.
  refine (C84_above x_eH x_eV x_zH x_zV x_z 1 2 0 1 4 1 0 0 30 300 400 150 x_layered ltac:(lia) ltac:(lia) ltac:(lia) _ ltac:(lra) _ _); [unfold off_axis; lra| |].
  - split; [lia|]. split; [now left|right; simpl; lra].
  - split; [lia|]. split; [right; simpl; lra|now left].
Qed.
Print Assumptions C84_kernel.
Print Assumptions C84_space.
Print Assumptions C84_above.
