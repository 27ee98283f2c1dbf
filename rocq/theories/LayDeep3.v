(** Layers that are moved far above: the mirror image of LayDeep2. *)

From Coq Require Import Reals ZArith QArith List Bool Lia Lra Psatz.
From Coquelicot Require Import Coquelicot.
From Verif Require Import PyBase CBase ODE Kernel KernelSpec KernelPhys KernelClosed KernelPassive KernelSym KernelSplit KernelMain KernelBVP Utils UtilsAb Bessel KernelBessel KernelThm KernelThm2 KernelThin KernelDeep KernelFinal
  FullspaceThm FullspaceField FullspaceEM Cint Hankel Sommer Homog HomogThm LayAsym LayConv LayWave LayField LayMaxwell LayCode LayVal LayEM LaySym LayDeep LayDeep2.
Import ListNotations.
Local Open Scope R_scope.
Local Open Scope C_scope.

(** ** The values depend on the layers of the model only *)
Lemma arr_ext : forall A (f g : nat -> A) N, (forall k, (k <= N)%nat -> f k = g k) -> arr f N = arr g N.
Proof. intros A f g N H. unfold arr. apply map_ext_in. intros k Hk. apply in_seq in Hk. apply H. lia. Qed.
Lemma depth_ext : forall z z' N, (forall k, (1 <= k <= N)%nat -> z k = z' k) -> depth_arr z N = depth_arr z' N.
Proof. intros z z' N H. unfold depth_arr. f_equal. apply map_ext_in. intros k Hk. apply in_seq in Hk. rewrite H by lia. reflexivity. Qed.
Lemma lay_ext : forall z z' N x, (forall k, (1 <= k <= N)%nat -> z k = z' k) -> lay z N x = lay z' N x.
Proof. intros z z' N x. induction N; intros H; [reflexivity|]. cbn [lay]. rewrite (H (S N)) by lia. rewrite IHN by (intros; apply H; lia). reflexivity. Qed.
Lemma lay_xyz_ext : forall eH eV zH zV z eH' eV' zH' zV' z' N xd a b xs ys zs x y zr V,
  (forall k, (k <= N)%nat -> eH k = eH' k /\ eV k = eV' k /\ zH k = zH' k /\ zV k = zV' k) -> (forall k, (1 <= k <= N)%nat -> z k = z' k) ->
  lay_xyz eH eV zH zV z N xd a b xs ys zs x y zr V -> lay_xyz eH' eV' zH' zV' z' N xd a b xs ys zs x y zr V.
Proof.
  intros eH eV zH zV z eH' eV' zH' zV' z' N xd a b xs ys zs x y zr V E Z. unfold lay_xyz, hankel_value, wcall.
  rewrite (arr_ext _ eH eH'), (arr_ext _ eV eV'), (arr_ext _ zH zH'), (arr_ext _ zV zV'), (depth_ext z z' N Z), !(lay_ext z z' N _ Z) by (intros k Hk; apply E, Hk). intros H. exact H.
Qed.

(** the depths z with the interfaces above layer n moved up by D *)
Definition high (n : nat) (z : nat -> R) (D : R) (k : nat) : R := if (k <=? n)%nat then (z k - D)%R else z k.

Lemma layered_mir : forall eH eV zH zV z N, layered eH eV zH zV z N -> layered (mir N eH) (mir N eV) (mir N zH) (mir N zV) (mirz z N) N.
Proof.
  intros eH eV zH zV z N [A B]. split; [intros k Hk; unfold mir; apply A; lia|]. intros k Hk. unfold mirz. replace (S N - k)%nat with (S (N - k)) by lia. replace (S N - S k)%nat with (N - k)%nat by lia. pose proof (B (N - k)%nat ltac:(lia)). lra.
Qed.
Lemma in_mir : forall z N s x, in_layer z N s x -> in_layer (mirz z N) N (N - s) (- x).
Proof.
  intros z N s x (H0 & H1 & H2). split; [lia|]. split.
  - destruct (Nat.eq_dec s N) as [->|NE]; [left; lia|right]. destruct H2 as [H2|H2]; [congruence|]. unfold mirz. replace (S N - (N - s))%nat with (S s) by lia. lra.
  - destruct (Nat.eq_dec s 0) as [->|NE]; [left; lia|right]. destruct H1 as [H1|H1]; [congruence|]. unfold mirz. replace (S N - S (N - s))%nat with s by lia. lra.
Qed.
Lemma flip_mod : forall a b, Cmod (flip a b) = 1%R.
Proof.
  intros a b. pose proof (flip_sq a b) as H. apply (f_equal Cmod) in H. rewrite Cmod_mult, Cmod_1 in H. pose proof (Cmod_ge_0 (flip a b)). nra.
Qed.

Theorem layered_high : forall eH eV zH zV z n M s r a b xs ys zs x y zr, layered eH eV zH zV z M -> (0 < n <= M)%nat -> (1 <= a <= 6)%Z -> (1 <= b <= 6)%Z -> off_axis xs ys x y -> zr <> zs ->
  let up A (f : nat -> A) (k : nat) := f (k + n)%nat in
  in_layer (up R z) (M - n) s zs -> in_layer (up R z) (M - n) r zr ->
  exists (V : C) (K kap D0 : R), (0 < kap)%R /\ lay_xyz (up C eH) (up C eV) (up C zH) (up C zV) (up R z) (M - n) false a b xs ys zs x y zr V /\
    forall D : R, (D0 <= D)%R -> exists V', lay_xyz eH eV zH zV (high n z D) M false a b xs ys zs x y zr V' /\ (Cmod (Cminus V' V) <= K * exp (- (kap * D)))%R.
Proof.
  intros eH eV zH zV z n M s r a b xs ys zs x y zr LY Hn Ha Hb HO Hz up IS IR. pose proof (layered_mir _ _ _ _ _ _ LY) as LM.
  destruct (layered_deep _ _ _ _ _ (M - n) M false a b xs ys (- zs) x y (- zr) LM ltac:(lia) Ha Hb ltac:(lra)) as (V & K & kap & D0 & Pk & HV & B).
  pose proof (layered_top _ _ _ _ _ (M - n) M LM ltac:(lia)) as LT.
  (* the upside-down picture of the lower part *)
  assert (ZU : forall k, (1 <= k <= M - n)%nat -> mirz (up R z) (M - n) k = mirz z M k) by (intros k Hk; unfold mirz, up; do 2 f_equal; lia).
  assert (INT : forall q w, in_layer (up R z) (M - n) q w -> in_layer (mirz z M) (M - n) (M - n - q) (- w)).
  { intros q w I. pose proof (in_mir _ _ _ _ I) as (J0 & J1 & J2). split; [exact J0|]. split.
    - destruct J1 as [J1|J1]; [now left|]. destruct (Nat.eq_dec (M - n - q) 0) as [E|NE]; [now left|right]. rewrite <- ZU by lia. exact J1.
    - destruct J2 as [J2|J2]; [now left|]. destruct (Nat.eq_dec (M - n - q) (M - n)) as [E|NE]; [now left|right]. rewrite <- ZU by lia. exact J2. }
  exists (flip a b * V), K, kap, (Rmax D0 (Rmax 0 (Rmax (z n - zs + 1) (z n - zr + 1)))). split; [exact Pk|]. split.
  - pose proof (proj1 (lay_mirror_xyz _ _ _ _ _ _ a b xs ys (- zs) x y (- zr) _ _ V (ly_passive _ _ _ _ _ _ LT) (ly_z _ _ _ _ _ _ LT) (INT s zs IS) (INT r zr IR) Ha Hb HO) HV) as H. rewrite !Ropp_involutive in H.
    revert H. apply lay_xyz_ext.
    + intros k Hk. unfold mir, up. replace (M - (M - n - k))%nat with (k + n)%nat by lia. repeat split; reflexivity.
    + intros k Hk. unfold mirz, up. rewrite Ropp_involutive. f_equal. lia.
  - intros D HD. assert (H1 : (D0 <= D)%R) by (eapply Rle_trans; [apply Rmax_l|exact HD]).
    assert (H2 : (0 <= D)%R) by (eapply Rle_trans; [|exact HD]; eapply Rle_trans; [|apply Rmax_r]; apply Rmax_l).
    destruct (B D H1) as (V' & HV' & E). exists (flip a b * V'). split.
    + pose proof (layered_deep0 _ _ _ _ _ (M - n) M D LM H2) as LD.
      assert (H3 : (z n - zs + 1 <= D)%R) by (eapply Rle_trans; [|exact HD]; eapply Rle_trans; [|apply Rmax_r]; eapply Rle_trans; [|apply Rmax_r]; apply Rmax_l).
      assert (H4 : (z n - zr + 1 <= D)%R) by (eapply Rle_trans; [|exact HD]; eapply Rle_trans; [|apply Rmax_r]; eapply Rle_trans; [|apply Rmax_r]; apply Rmax_r).
      assert (IND : forall q w, (z n - w + 1 <= D)%R -> in_layer (up R z) (M - n) q w -> in_layer (deep (M - n) (mirz z M) D) M (M - n - q) (- w)).
      { intros q w HW I. destruct (INT q w I) as (J0 & J1 & J2). split; [lia|]. split.
        - destruct J1 as [J1|J1]; [now left|right]. unfold deep. rewrite (proj2 (Nat.leb_le _ _)) by lia. exact J1.
        - right. unfold deep. destruct (Nat.leb_spec (S (M - n - q)) (M - n)) as [L|L].
          + destruct J2 as [J2|J2]; [lia|exact J2].
          + replace (M - n - q)%nat with (M - n)%nat by lia. unfold mirz. replace (S M - S (M - n))%nat with n by lia. lra. }
      pose proof (proj1 (lay_mirror_xyz _ _ _ _ _ _ a b xs ys (- zs) x y (- zr) _ _ V' (ly_passive _ _ _ _ _ _ LD) (ly_z _ _ _ _ _ _ LD) (IND s zs H3 IS) (IND r zr H4 IR) Ha Hb HO) HV') as H. rewrite !Ropp_involutive in H.
      revert H. apply lay_xyz_ext.
      * intros k Hk. unfold mir. replace (M - (M - k))%nat with k by lia. repeat split; reflexivity.
      * intros k Hk. unfold mirz at 1. unfold deep, high, mirz. replace (S M - (S M - k))%nat with k by lia. destruct (Nat.leb_spec (S M - k) (M - n)), (Nat.leb_spec k n); first [lia|ring].
    + replace (Cminus (flip a b * V') (flip a b * V)) with (flip a b * Cminus V' V) by rg. rewrite Cmod_mult, flip_mod, Rmult_1_l. exact E.
Qed.
