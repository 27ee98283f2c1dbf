(** Weak contrasts: a model whose neighbouring layers become equal has the response without the interface in the limit. *)

From Coq Require Import Reals ZArith QArith List Bool Lia Lra.
From Coquelicot Require Import Coquelicot.
From Verif Require Import PyBase CBase ODE Kernel KernelSpec KernelClosed KernelPassive KernelPhys KernelMain KernelBVP KernelSplit KernelThm KernelThm2 KernelFinal UtilsAb Fullspace FullspaceThm FullspaceEM FullspaceField Homog HomogThm LayAsym LayConv KernelCont KernelCont7 KernelCont8 KernelCont9 FullCont.
Import ListNotations.
Local Open Scope R_scope.
Local Open Scope C_scope.
Local Open Scope res_scope.

Lemma old_le : forall m N k, (m <= N)%nat -> (k <= S N)%nat -> (old m k <= N)%nat.
Proof. intros m N k Hm Hk. unfold old. destruct (Nat.leb_spec k m); lia. Qed.
Lemma layered_split : forall eH eV zH zV z N m zi, layered eH eV zH zV z N -> in_layer z N m zi -> layered (spl m eH) (spl m eV) (spl m zH) (spl m zV) (splz m zi z) (S N).
Proof.
  intros eH eV zH zV z N m zi LY IL. constructor.
  - intros k Hk. unfold spl. apply LY. apply old_le; [apply IL|exact Hk].
  - apply splz_inc; [apply LY|apply IL|exact IL].
Qed.
Lemma value_split : forall eH eV zH zV z N m zi a b off phi zs zr V, layered eH eV zH zV z N -> in_layer z N m zi -> fs_pair a b ->
  hankel_value (spl m eH) (spl m eV) (spl m zH) (spl m zV) (splz m zi z) (S N) (10 * a + b) false off phi zs zr V <-> hankel_value eH eV zH zV z N (10 * a + b) false off phi zs zr V.
Proof.
  intros eH eV zH zV z N m zi a b off phi zs zr V LY IL HP. destruct (pair_class a b HP) as (ab & CA & _). destruct (code_class _ ab _ _ CA (ex_intro _ a (ex_intro _ b (conj HP eq_refl)))) as [KA VC].
  assert (E : forall lam, wcall (spl m eH) (spl m eV) (spl m zH) (spl m zV) (splz m zi z) (S N) lam ab false (3 <? b)%Z (3 <? a)%Z (lay (splz m zi z) (S N) zs) (lay (splz m zi z) (S N) zr) zs zr = wcall eH eV zH zV z N lam ab false (3 <? b)%Z (3 <? a)%Z (lay z N zs) (lay z N zr) zs zr).
  { intros lam. rewrite !wcall_gcall. now rewrite (split_invariant eH eV zH zV z N lam m zi ab _ _ zs zr (ly_passive _ _ _ _ _ _ LY) (ly_z _ _ _ _ _ _ LY) IL VC). }
  split; intros (ab' & ms & mr & G & CA' & B & I); rewrite CA in CA'; apply Ok_inj in CA'; assert (X : ab' = ab /\ ms = (3 <? b)%Z /\ mr = (3 <? a)%Z) by (repeat split; congruence); destruct X as (-> & -> & ->);
    exists ab, (3 <? b)%Z, (3 <? a)%Z, G; (split; [exact CA|]); (split; [|exact I]); intros lam; destruct (B lam) as (PJ & E1 & E2); exists PJ; (split; [|exact E2]).
  - now rewrite <- E.
  - now rewrite E.
Qed.
Section Weak.
Context {T : Type} (F : (T -> Prop) -> Prop) {FF : Filter F}.
Theorem contrast : forall (eH eV zH zV : T -> nat -> C) (z : T -> nat -> R) (zs zr off phi : T -> R) (eH0 eV0 zH0 zV0 : nat -> C) (z0 : nat -> R) (zs0 zr0 off0 phi0 : R) N m zi,
  (forall k, (k <= S N)%nat -> toC F (fun t => eH t k) (spl m eH0 k)) -> (forall k, (k <= S N)%nat -> toC F (fun t => eV t k) (spl m eV0 k)) ->
  (forall k, (k <= S N)%nat -> toC F (fun t => zH t k) (spl m zH0 k)) -> (forall k, (k <= S N)%nat -> toC F (fun t => zV t k) (spl m zV0 k)) ->
  (forall k, (1 <= k <= S N)%nat -> toR F (fun t => z t k) (splz m zi z0 k)) -> toR F zs zs0 -> toR F zr zr0 -> toR F off off0 -> toR F phi phi0 ->
  off0 <> 0%R -> zs0 <> zr0 -> (forall k, (1 <= k <= S N)%nat -> splz m zi z0 k <> zs0 /\ splz m zi z0 k <> zr0) ->
  layered eH0 eV0 zH0 zV0 z0 N -> in_layer z0 N m zi -> F (fun t => layered (eH t) (eV t) (zH t) (zV t) (z t) (S N)) ->
  forall a b, fs_pair a b -> exists V0, hankel_value eH0 eV0 zH0 zV0 z0 N (10 * a + b) false off0 phi0 zs0 zr0 V0 /\
  forall e : R, (0 < e)%R -> F (fun t => exists V, hankel_value (eH t) (eV t) (zH t) (zV t) (z t) (S N) (10 * a + b) false (off t) (phi t) (zs t) (zr t) V /\ (Cmod (Cminus V V0) < e)%R).
Proof using FF.
  intros eH eV zH zV z zs zr off phi eH0 eV0 zH0 zV0 z0 zs0 zr0 off0 phi0 N m zi IeH IeV IzH IzV Iz Is Ir Io Ip Ho NE D LY0 IL LYt a b HP.
  destruct (exact_medium F eH eV zH zV z zs zr off phi _ _ _ _ _ zs0 zr0 off0 phi0 (S N) IeH IeV IzH IzV Iz Is Ir Io Ip Ho NE D (layered_split _ _ _ _ _ _ _ _ LY0 IL) LYt a b false HP) as (V0 & A & B).
  exists V0. split; [|exact B]. now apply (value_split _ _ _ _ _ _ m zi).
Qed.
Theorem homogeneous : forall (eH eV zH zV : T -> nat -> C) (z : T -> nat -> R) (zs zr off phi : T -> R) (eH0 eV0 zH0 zV0 : C) (z0 : nat -> R) (zs0 zr0 off0 phi0 : R) N,
  (forall k, (k <= N)%nat -> toC F (fun t => eH t k) eH0) -> (forall k, (k <= N)%nat -> toC F (fun t => eV t k) eV0) ->
  (forall k, (k <= N)%nat -> toC F (fun t => zH t k) zH0) -> (forall k, (k <= N)%nat -> toC F (fun t => zV t k) zV0) ->
  (forall k, (1 <= k <= N)%nat -> toR F (fun t => z t k) (z0 k)) -> toR F zs zs0 -> toR F zr zr0 -> toR F off off0 -> toR F phi phi0 ->
  (0 < off0)%R -> zs0 <> zr0 -> (forall k, (1 <= k <= N)%nat -> z0 k <> zs0 /\ z0 k <> zr0) ->
  homog_medium eH0 eV0 zH0 zV0 -> increasing z0 N -> F (fun t => layered (eH t) (eV t) (zH t) (zV t) (z t) N) ->
  forall rdt a b etas zetas, fs_pair a b -> fs_pre rdt a b etas zetas eH0 zH0 ->
  exists W, fs_comp rdt (fs_anyneg (3 <? b)%Z (3 <? a)%Z etas zetas) a b off0 phi0 zs0 zr0 eH0 eV0 zH0 zV0 = Ok W /\
  forall e : R, (0 < e)%R -> F (fun t => exists V, hankel_value (eH t) (eV t) (zH t) (zV t) (z t) N (10 * a + b) false (off t) (phi t) (zs t) (zr t) V /\ (Cmod (Cminus V W) < e)%R).
Proof using FF.
  intros eH eV zH zV z zs zr off phi eH0 eV0 zH0 zV0 z0 zs0 zr0 off0 phi0 N IeH IeV IzH IzV Iz Is Ir Io Ip Ho NE D HM HI LYt rdt a b etas zetas HP [P1 P2].
  assert (LY0 : layered (cst eH0) (cst eV0) (cst zH0) (cst zV0) z0 N) by (constructor; [intros k Hk; exact HM|exact HI]).
  destruct (exact_medium F eH eV zH zV z zs zr off phi (cst eH0) (cst eV0) (cst zH0) (cst zV0) z0 zs0 zr0 off0 phi0 N IeH IeV IzH IzV Iz Is Ir Io Ip ltac:(lra) NE D LY0 LYt a b false HP) as (V0 & A & B).
  destruct (homog_value rdt a b eH0 eV0 zH0 zV0 z0 N off0 phi0 zs0 zr0 etas zetas HM HI NE Ho HP P1 P2) as (W & E & H). exists W. split; [exact E|]. rewrite (hankel_unique _ _ _ _ _ _ _ _ _ _ _ _ _ _ H A). exact B.
Qed.
End Weak.
