(** Finite sums and roots of unity. *)

From Coq Require Import ZArith Reals List Bool Lia Lra Psatz.
From Coquelicot Require Import Coquelicot.
From Verif Require Import PyBase CBase Utils Transform Fourier.
Import ListNotations.
Local Open Scope R_scope.
Local Open Scope C_scope.

Definition sR (f : nat -> R) (n : nat) : R := rsuml (map f (seq 0 n)).
Definition sC (f : nat -> C) (n : nat) : C := csuml (map f (seq 0 n)).

Lemma rsuml_app : forall a b, rsuml (a ++ b) = (rsuml a + rsuml b)%R.
Proof.
  induction a as [|x a IH]; intros b; [symmetry; apply Rplus_0_l|].
  change (rsuml ((x :: a) ++ b)) with (x + rsuml (a ++ b))%R. change (rsuml (x :: a)) with (x + rsuml a)%R. rewrite IH. ring.
Qed.
Lemma csuml_app : forall a b, csuml (a ++ b) = csuml a + csuml b.
Proof.
  induction a as [|x a IH]; intros b; [change (csuml ([] ++ b)) with (csuml b); change (csuml []) with (RtoC 0); ring|].
  change (csuml ((x :: a) ++ b)) with (x + csuml (a ++ b)). change (csuml (x :: a)) with (x + csuml a). rewrite IH. ring.
Qed.

Lemma sR_S : forall f n, sR f (S n) = (sR f n + f n)%R.
Proof. intros. unfold sR. rewrite seq_S, map_app, rsuml_app. cbn. ring. Qed.
Lemma sC_S : forall f n, sC f (S n) = sC f n + f n.
Proof. intros. unfold sC. rewrite seq_S, map_app, csuml_app. cbn. ring. Qed.
Lemma sR_ext : forall f g n, (forall k, (k < n)%nat -> f k = g k) -> sR f n = sR g n.
Proof. intros f g n H. induction n as [|n IH]; [reflexivity|]. rewrite !sR_S, IH, (H n) by auto. reflexivity. Qed.
Lemma sC_ext : forall f g n, (forall k, (k < n)%nat -> f k = g k) -> sC f n = sC g n.
Proof. intros f g n H. induction n as [|n IH]; [reflexivity|]. rewrite !sC_S, IH, (H n) by auto. reflexivity. Qed.
Lemma sR_plus : forall f g n, sR (fun k => f k + g k)%R n = (sR f n + sR g n)%R.
Proof. intros f g n. induction n as [|n IH]; [unfold sR; cbn; ring|]. rewrite !sR_S, IH. ring. Qed.
Lemma sC_plus : forall f g n, sC (fun k => f k + g k) n = sC f n + sC g n.
Proof. intros f g n. induction n as [|n IH]; [unfold sC; cbn; ring|]. rewrite !sC_S, IH. ring. Qed.
Lemma sR_scal : forall c f n, sR (fun k => c * f k)%R n = (c * sR f n)%R.
Proof. intros c f n. induction n as [|n IH]; [unfold sR; cbn; ring|]. rewrite !sR_S, IH. ring. Qed.
Lemma sC_scal : forall c f n, sC (fun k => c * f k) n = c * sC f n.
Proof. intros c f n. induction n as [|n IH]; [unfold sC; cbn; ring|]. rewrite !sC_S, IH. ring. Qed.
Lemma sC_app : forall f n m, sC f (n + m) = sC f n + sC (fun k => f (n + k)%nat) m.
Proof.
  intros f n m. induction m as [|m IH]; [rewrite Nat.add_0_r; unfold sC at 3; cbn; ring|].
  rewrite Nat.add_succ_r, !sC_S, IH. ring.
Qed.
Lemma sR_app : forall f n m, sR f (n + m) = (sR f n + sR (fun k => f (n + k)%nat) m)%R.
Proof.
  intros f n m. induction m as [|m IH]; [rewrite Nat.add_0_r; unfold sR at 3; cbn; ring|].
  rewrite Nat.add_succ_r, !sR_S, IH. ring.
Qed.
Lemma sC_head : forall f n, sC f (S n) = f 0%nat + sC (fun k => f (S k)) n.
Proof. intros f n. change (S n) with (1 + n)%nat. rewrite sC_app. unfold sC at 1. cbn. ring. Qed.
Lemma sR_head : forall f n, sR f (S n) = (f 0%nat + sR (fun k => f (S k)) n)%R.
Proof. intros f n. change (S n) with (1 + n)%nat. rewrite sR_app. unfold sR at 1. cbn. ring. Qed.
Lemma sC_rev : forall f n, sC (fun k => f (n - 1 - k)%nat) n = sC f n.
Proof.
  intros f n. induction n as [|n IH]; [reflexivity|].
  rewrite sC_head, sC_S. replace (S n - 1 - 0)%nat with n by lia.
  rewrite (sC_ext _ (fun k => f (n - 1 - k)%nat) n) by (intros k Hk; f_equal; lia). rewrite IH. ring.
Qed.
Lemma sR_rev : forall f n, sR (fun k => f (n - 1 - k)%nat) n = sR f n.
Proof.
  intros f n. induction n as [|n IH]; [reflexivity|].
  rewrite sR_head, sR_S. replace (S n - 1 - 0)%nat with n by lia.
  rewrite (sR_ext _ (fun k => f (n - 1 - k)%nat) n) by (intros k Hk; f_equal; lia). rewrite IH. ring.
Qed.
Lemma sC_zero : forall f n, (forall k, (k < n)%nat -> f k = RtoC 0) -> sC f n = RtoC 0.
Proof. intros f n H. induction n as [|n IH]; [reflexivity|]. rewrite sC_S, IH, H by auto. ring. Qed.
Lemma sR_zero : forall f n, (forall k, (k < n)%nat -> f k = 0%R) -> sR f n = 0%R.
Proof. intros f n H. induction n as [|n IH]; [reflexivity|]. rewrite sR_S, IH, H by auto. ring. Qed.
Lemma sC_one : forall f n m, (m < n)%nat -> (forall k, (k < n)%nat -> k <> m -> f k = RtoC 0) -> sC f n = f m.
Proof.
  intros f n m H Z. induction n as [|n IH]; [lia|]. rewrite sC_S. destruct (Nat.eq_dec m n) as [->|D].
  - rewrite sC_zero; [ring|]. intros k Hk. apply Z; lia.
  - rewrite IH, (Z n); [ring|lia|lia|lia|]. intros k Hk. apply Z. lia.
Qed.
Lemma sC_const : forall c n, sC (fun _ => c) n = RtoC (INR n) * c.
Proof. intros c n. induction n as [|n IH]; [change (sC (fun _ => c) 0) with (RtoC 0); change (INR 0) with 0%R; ring|]. rewrite sC_S, IH, S_INR, RtoC_plus. ring. Qed.
Lemma sC_swap : forall f n m, sC (fun i => sC (fun j => f i j) m) n = sC (fun j => sC (fun i => f i j) n) m.
Proof.
  intros f n m. induction n as [|n IH].
  - rewrite sC_zero by (intros; lia). symmetry. apply sC_zero. intros. reflexivity.
  - rewrite sC_S, IH, <- sC_plus. apply sC_ext. intros k _. now rewrite sC_S.
Qed.
Lemma fst_sC : forall f n, fst (sC f n) = sR (fun k => fst (f k)) n.
Proof. intros f n. induction n as [|n IH]; [reflexivity|]. rewrite sC_S, sR_S, <- IH. reflexivity. Qed.
Lemma snd_sC : forall f n, snd (sC f n) = sR (fun k => snd (f k)) n.
Proof. intros f n. induction n as [|n IH]; [reflexivity|]. rewrite sC_S, sR_S, <- IH. reflexivity. Qed.
Lemma RtoC_sR : forall f n, RtoC (sR f n) = sC (fun k => RtoC (f k)) n.
Proof. intros f n. induction n as [|n IH]; [reflexivity|]. rewrite sC_S, sR_S, RtoC_plus, IH. reflexivity. Qed.
Lemma conj_sC : forall f n, Cconj (sC f n) = sC (fun k => Cconj (f k)) n.
Proof.
  intros f n. induction n as [|n IH]; [apply injective_projections; cbn [fst snd Cconj sC csuml map seq fold_right RtoC]; ring|].
  rewrite !sC_S, <- IH. apply injective_projections; cbn [fst snd Cconj Cplus]; ring.
Qed.
Lemma sR_le : forall f g n, (forall k, (k < n)%nat -> (f k <= g k)%R) -> (sR f n <= sR g n)%R.
Proof. intros f g n H. induction n as [|n IH]; [unfold sR; cbn; lra|]. rewrite !sR_S. pose proof (H n ltac:(lia)). assert (sR f n <= sR g n)%R by (apply IH; intros; apply H; lia). lra. Qed.
Lemma sR_abs : forall f n, (Rabs (sR f n) <= sR (fun k => Rabs (f k)) n)%R.
Proof.
  intros f n. induction n as [|n IH]; [unfold sR; cbn; rewrite Rabs_R0; lra|].
  rewrite !sR_S. eapply Rle_trans; [apply Rabs_triang|]. lra.
Qed.

(** ** cis *)
Lemma cis_plus : forall x y, cis (x + y) = cis x * cis y.
Proof. intros. unfold cis, Cmult. cbn. rewrite cos_plus, sin_plus. f_equal; ring. Qed.
Lemma cis_0 : cis 0 = RtoC 1.
Proof. unfold cis. now rewrite cos_0, sin_0. Qed.
Lemma cis_neg : forall x, cis (- x) = Cconj (cis x).
Proof. intros. unfold cis, Cconj. cbn. now rewrite cos_neg, sin_neg. Qed.
Lemma cis_sq : forall x, cis x * cis (- x) = RtoC 1.
Proof. intros. rewrite <- cis_plus. replace (x + - x)%R with 0%R by ring. apply cis_0. Qed.
Lemma cis_nat : forall n, cis (2 * PI * INR n) = RtoC 1.
Proof.
  intros n. induction n as [|n IH]; [cbn [INR]; rewrite Rmult_0_r; apply cis_0|].
  rewrite S_INR. replace (2 * PI * (INR n + 1))%R with (2 * PI * INR n + 2 * PI)%R by ring.
  rewrite cis_plus, IH. unfold cis. rewrite cos_2PI, sin_2PI. unfold Cmult, RtoC. cbn. f_equal; ring.
Qed.
Lemma cis_int : forall z, cis (2 * PI * IZR z) = RtoC 1.
Proof.
  intros z. destruct (Z_le_dec 0 z) as [H|H].
  - rewrite <- (Z2Nat.id z H), <- INR_IZR_INZ. apply cis_nat.
  - replace (2 * PI * IZR z)%R with (- (2 * PI * IZR (- z)))%R by (rewrite opp_IZR; ring).
    rewrite cis_neg, <- (Z2Nat.id (- z)) by lia. rewrite <- INR_IZR_INZ, cis_nat.
    apply injective_projections; cbn [fst snd Cconj RtoC]; ring.
Qed.
Lemma cis_per : forall x z, cis (x + 2 * PI * IZR z) = cis x.
Proof. intros. rewrite cis_plus, cis_int. ring. Qed.

(** ** Roots of unity *)
Lemma cis_ne1 : forall x, (0 < x < 2 * PI)%R -> cis x <> RtoC 1.
Proof.
  intros x H W. apply (f_equal fst) in W. cbn [cis fst RtoC] in W.
  replace x with (2 * (x / 2))%R in W by field. rewrite cos_2a_sin in W.
  assert (P : (0 < sin (x / 2))%R) by (apply sin_gt_0; lra). nra.
Qed.
Lemma root_sum_pos : forall n z, (0 < z < Z.of_nat n)%Z ->
  sC (fun k => cis (2 * PI * IZR z * INR k / INR n)) n = RtoC 0.
Proof.
  intros n z H. assert (Hn : (0 < INR n)%R) by (apply lt_0_INR; lia).
  set (x := (2 * PI * IZR z / INR n)%R). set (S0 := sC _ n).
  assert (E : S0 * cis x = S0).
  { assert (A : sC (fun k => cis (2 * PI * IZR z * INR k / INR n)) (S n) = S0 + cis (2 * PI * IZR z * INR n / INR n)) by apply sC_S.
    rewrite sC_head in A.
    replace (2 * PI * IZR z * INR n / INR n)%R with (2 * PI * IZR z)%R in A by (field; lra).
    rewrite cis_int in A. replace (2 * PI * IZR z * INR 0 / INR n)%R with 0%R in A by (cbn [INR]; field; lra).
    rewrite cis_0 in A.
    assert (B : sC (fun k => cis (2 * PI * IZR z * INR (S k) / INR n)) n = cis x * S0).
    { unfold S0. rewrite <- sC_scal. apply sC_ext. intros k _. rewrite <- cis_plus, S_INR. f_equal. unfold x. field. lra. }
    rewrite B in A.
    transitivity (RtoC 1 + cis x * S0 - RtoC 1); [ring|]. rewrite A. ring. }
  assert (W : cis x <> RtoC 1).
  { apply cis_ne1. unfold x. pose proof PI_RGT_0. destruct H as [H1 H2]. apply IZR_lt in H1, H2. rewrite <- INR_IZR_INZ in H2.
    split; [apply Rdiv_lt_0_compat; nra|]. apply Rmult_lt_reg_r with (INR n); [lra|]. unfold Rdiv. rewrite Rmult_assoc, Rinv_l by lra. nra. }
  assert (Z : S0 * (cis x - RtoC 1) = RtoC 0). { replace (S0 * (cis x - RtoC 1)) with (S0 * cis x - S0) by ring. rewrite E. ring. }
  destruct (Ceq_dec S0 (RtoC 0)) as [G|G]; [exact G|]. exfalso.
  refine (Cmult_neq_0 S0 (cis x - RtoC 1) G _ Z). intros Z'. apply W.
  transitivity ((cis x - RtoC 1) + RtoC 1); [ring|]. rewrite Z'. ring.
Qed.
Lemma root_sum : forall n z, (0 < n)%nat -> (z mod Z.of_nat n <> 0)%Z ->
  sC (fun k => cis (2 * PI * IZR z * INR k / INR n)) n = RtoC 0.
Proof.
  intros n z Hn Hz. assert (Pn : (0 < INR n)%R) by (now apply lt_0_INR).
  pose proof (Z.mod_pos_bound z (Z.of_nat n) ltac:(lia)) as B.
  pose proof (Z.div_mod z (Z.of_nat n) ltac:(lia)) as D.
  rewrite <- (root_sum_pos n (z mod Z.of_nat n)%Z) by lia.
  apply sC_ext. intros k _. rewrite D at 1.
  rewrite <- (cis_per (2 * PI * IZR (z mod Z.of_nat n) * INR k / INR n) (z / Z.of_nat n * Z.of_nat k)).
  f_equal. rewrite plus_IZR, !mult_IZR, <- !INR_IZR_INZ. field. lra.
Qed.
Lemma root_sum_full : forall n z, (0 < n)%nat -> (z mod Z.of_nat n = 0)%Z ->
  sC (fun k => cis (2 * PI * IZR z * INR k / INR n)) n = RtoC (INR n).
Proof.
  intros n z Hn Hz. assert (Pn : (0 < INR n)%R) by (now apply lt_0_INR).
  pose proof (Z.div_mod z (Z.of_nat n) ltac:(lia)) as D. rewrite Hz, Z.add_0_r in D.
  rewrite (sC_ext _ (fun _ => RtoC 1)); [rewrite sC_const; ring|].
  intros k _. rewrite <- (cis_int (z / Z.of_nat n * Z.of_nat k)). f_equal. rewrite D at 1.
  rewrite !mult_IZR, <- !INR_IZR_INZ. field. lra.
Qed.
