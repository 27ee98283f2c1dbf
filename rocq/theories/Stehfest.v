(** The Gaver-Stehfest coefficients of kernel.py:1165-1179: their sum is zero and the
    sum of D_k/k is one, for every order K = 2 N. *)

From Coq Require Import ZArith Reals List Bool Lia Lra Psatz Arith.
From Coquelicot Require Import Coquelicot.
From Verif Require Import PyBase CBase Halfspace.
Import ListNotations.
Local Open Scope R_scope.

(** ** Finite sums *)
Definition rs (f : nat -> R) (a m : nat) : R := rsum (map f (seq a m)).

Lemma rsum_app : forall l m, rsum (l ++ m) = rsum l + rsum m.
Proof. induction l as [|x l IH]; intros m; simpl; [ring|]. rewrite IH. ring. Qed.
Lemma rs_0 : forall f a, rs f a 0 = 0. Proof. reflexivity. Qed.
Lemma rs_S : forall f a m, rs f a (S m) = f a + rs f (S a) m. Proof. reflexivity. Qed.
Lemma rs_last : forall f a m, rs f a (S m) = rs f a m + f (a + m)%nat.
Proof. intros. unfold rs. rewrite seq_S, map_app, rsum_app. simpl. ring. Qed.
Lemma rs_ext : forall f g a m, (forall i, (a <= i < a + m)%nat -> f i = g i) -> rs f a m = rs g a m.
Proof.
  intros f g a m H. unfold rs. f_equal. apply map_ext_in. intros i Hi. apply H. apply in_seq in Hi. lia.
Qed.
Lemma rs_shift : forall f a m, rs f (S a) m = rs (fun i => f (S i)) a m.
Proof. intros. unfold rs. rewrite <- seq_shift, map_map. reflexivity. Qed.
Lemma rs_shiftn : forall b f a m, rs f (b + a) m = rs (fun i => f (b + i)%nat) a m.
Proof.
  induction b as [|b IH]; intros f a m; [reflexivity|]. change (S b + a)%nat with (S (b + a)). rewrite rs_shift.
  exact (IH (fun i => f (S i)) a m).
Qed.
Lemma rs_plus : forall f g a m, rs (fun i => f i + g i) a m = rs f a m + rs g a m.
Proof. intros f g a m. revert a. induction m as [|m IH]; intros a; [unfold rs; simpl; ring|]. rewrite !rs_S, IH. ring. Qed.
Lemma rs_scal : forall c f a m, rs (fun i => c * f i) a m = c * rs f a m.
Proof. intros c f a m. revert a. induction m as [|m IH]; intros a; [unfold rs; simpl; ring|]. rewrite !rs_S, IH. ring. Qed.
Lemma rs_zero : forall f a m, (forall i, (a <= i < a + m)%nat -> f i = 0) -> rs f a m = 0.
Proof. intros f a m H. rewrite (rs_ext f (fun _ => 0 * 0) a m) by (intros; rewrite H by lia; ring). rewrite (rs_scal 0 (fun _ => 0)). ring. Qed.
Lemma rs_split : forall f a m n, rs f a (m + n) = rs f a m + rs f (a + m) n.
Proof. intros. unfold rs. rewrite seq_app, map_app, rsum_app. reflexivity. Qed.
Lemma rs_exch : forall (f : nat -> nat -> R) a m b n, rs (fun i => rs (f i) b n) a m = rs (fun j => rs (fun i => f i j) a m) b n.
Proof.
  intros f a m b n. revert a. induction m as [|m IH]; intros a.
  - rewrite rs_0. symmetry. apply rs_zero. reflexivity.
  - rewrite rs_S, IH. rewrite <- rs_plus. apply rs_ext. intros j _. now rewrite rs_S.
Qed.
(** a sum over a sub-range as a sum with an indicator *)
Lemma rs_restrict : forall f a m lo hi, (a <= lo)%nat -> (lo <= S hi)%nat -> (hi < a + m)%nat ->
  rs (fun i => if (lo <=? i)%nat && (i <=? hi)%nat then f i else 0) a m = rs f lo (S hi - lo).
Proof.
  intros f a m lo hi H1 H2 H3.
  replace m with ((lo - a) + ((S hi - lo) + (a + m - S hi)))%nat by lia. rewrite !rs_split.
  rewrite (rs_zero _ a), (rs_zero _ (a + (lo - a) + (S hi - lo))%nat).
  - replace (a + (lo - a))%nat with lo by lia. rewrite (rs_ext _ f); [ring|].
    intros i Hi. assert ((lo <=? i)%nat = true) as -> by (apply Nat.leb_le; lia). assert ((i <=? hi)%nat = true) as -> by (apply Nat.leb_le; lia). reflexivity.
  - intros i Hi. assert ((i <=? hi)%nat = false) as -> by (apply Nat.leb_gt; lia). now rewrite andb_false_r.
  - intros i Hi. assert ((lo <=? i)%nat = false) as -> by (apply Nat.leb_gt; lia). reflexivity.
Qed.

(** ** Binomial coefficients and finite differences *)
Fixpoint bin (n j : nat) : R :=
  match n, j with
  | _, O => 1
  | O, S _ => 0
  | S n', S j' => bin n' j' + bin n' (S j')
  end.
Lemma bin_0 : forall n, bin n 0 = 1. Proof. now destruct n. Qed.
Lemma bin_S : forall n j, bin (S n) (S j) = bin n j + bin n (S j). Proof. reflexivity. Qed.
Lemma bin_big : forall n j, (n < j)%nat -> bin n j = 0.
Proof. induction n as [|n IH]; intros [|j] H; try lia; [reflexivity|]. rewrite bin_S, !IH by lia. ring. Qed.
Lemma bin_diag : forall n, bin n n = 1.
Proof. induction n as [|n IH]; [reflexivity|]. rewrite bin_S, IH, bin_big by lia. ring. Qed.
Lemma bin_pred : forall n, bin (S n) n = INR (S n).
Proof.
  induction n as [|n IH]; [simpl; ring|]. rewrite bin_S, IH, bin_diag. rewrite (S_INR (S n)). ring.
Qed.
Lemma fact_pos : forall n, 0 < INR (fact n). Proof. intros. apply INR_fact_lt_0. Qed.
Lemma fact_S_R : forall n, INR (fact (S n)) = INR (S n) * INR (fact n).
Proof. intros n. change (fact (S n)) with (S n * fact n)%nat. apply mult_INR. Qed.
Lemma bin_fact : forall n j, (j <= n)%nat -> bin n j * (INR (fact j) * INR (fact (n - j))) = INR (fact n).
Proof.
  induction n as [|n IH]; intros [|j] H; try lia.
  - simpl. ring.
  - rewrite bin_0. simpl (S n - 0)%nat. change (fact 0) with 1%nat. simpl (INR 1). ring.
  - rewrite bin_S. replace (S n - S j)%nat with (n - j)%nat by lia.
    assert (E1 := IH j ltac:(lia)). rewrite (fact_S_R j), (fact_S_R n).
    destruct (Nat.eq_dec j n) as [->|N].
    + rewrite bin_diag, bin_big by lia. rewrite bin_diag in E1. replace (n - n)%nat with 0%nat in * by lia. change (INR (fact 0)) with 1 in *. ring.
    + assert (E2 := IH (S j) ltac:(lia)). rewrite (fact_S_R j) in E2. replace (n - j)%nat with (S (n - S j)) in * by lia.
      rewrite fact_S_R in *. set (a := INR (fact j)) in *. set (b := INR (fact (n - S j))) in *.
      assert (ES : INR (S (n - S j)) = INR (S n) - INR (S j)) by (rewrite <- minus_INR by lia; f_equal; lia).
      rewrite ES in *. replace ((bin n j + bin n (S j)) * (INR (S j) * a * ((INR (S n) - INR (S j)) * b)))
        with (INR (S j) * (bin n j * (a * ((INR (S n) - INR (S j)) * b))) + (INR (S n) - INR (S j)) * (bin n (S j) * (INR (S j) * a * b))) by ring.
      rewrite E1, E2. ring.
Qed.

Definition bs (n : nat) (f : nat -> R) : R := rs (fun j => (-1) ^ (n + j) * bin n j * f j) 0 (S n).

Lemma bs_ext : forall n f g, (forall j, (j <= n)%nat -> f j = g j) -> bs n f = bs n g.
Proof. intros n f g H. apply rs_ext. intros j Hj. rewrite H by lia. reflexivity. Qed.
Lemma bs_scal : forall n c f, bs n (fun j => c * f j) = c * bs n f.
Proof. intros. unfold bs. rewrite <- rs_scal. apply rs_ext. intros; ring. Qed.
Lemma bs_rs : forall n (f : nat -> nat -> R) a m, bs n (fun j => rs (fun i => f i j) a m) = rs (fun i => bs n (f i)) a m.
Proof.
  intros n f a m. unfold bs. rewrite rs_exch with (f := fun i j => (-1) ^ (n + j) * bin n j * f i j).
  apply rs_ext. intros j _. now rewrite rs_scal.
Qed.

Lemma bs_S : forall n f, bs (S n) f = bs n (fun j => f (S j)) - bs n f.
Proof.
  intros n f. unfold bs at 1. rewrite rs_S, rs_shift.
  rewrite (rs_ext _ (fun j => (-1) ^ (n + j) * bin n j * f (S j) + - ((-1) ^ (n + S j) * bin n (S j) * f (S j))) 0 (S n)).
  - rewrite rs_plus. fold (bs n (fun j => f (S j))).
    assert (E : rs (fun j => - ((-1) ^ (n + S j) * bin n (S j) * f (S j))) 0 (S n) = - (bs n f - (-1) ^ (n + 0) * bin n 0 * f 0%nat)).
    { rewrite rs_last. rewrite (bin_big n (S (0 + n))) by lia. unfold bs. rewrite rs_S, rs_shift.
      rewrite (rs_ext _ (fun j => -1 * ((-1) ^ (n + S j) * bin n (S j) * f (S j)))) by (intros; ring). rewrite rs_scal. ring. }
    rewrite E. rewrite !bin_0, !Nat.add_0_r. change ((-1) ^ S n) with (-1 * (-1) ^ n). ring.
  - intros j _. rewrite bin_S. replace (S n + S j)%nat with (S (S (n + j))) by lia. replace (n + S j)%nat with (S (n + j)) by lia.
    change ((-1) ^ S (S (n + j))) with (-1 * (-1 * (-1) ^ (n + j))). change ((-1) ^ S (n + j)) with (-1 * (-1) ^ (n + j)). ring.
Qed.

Lemma bs_const : forall n c, (0 < n)%nat -> bs n (fun _ => c) = 0.
Proof. intros [|n] c H; [lia|]. rewrite bs_S. ring. Qed.

(** rising products *)
Fixpoint pr (x : R) (n : nat) : R := match n with O => x | S n' => pr x n' * (x + INR n) end.
Lemma pr_front : forall n x, pr x (S n) = x * pr (x + 1) n.
Proof.
  induction n as [|n IH]; intros x; [simpl; ring|]. change (pr x (S (S n))) with (pr x (S n) * (x + INR (S (S n)))).
  rewrite IH. change (pr (x + 1) (S n)) with (pr (x + 1) n * (x + 1 + INR (S n))). rewrite (S_INR (S n)). ring.
Qed.
Lemma pr_pos : forall n x, 0 < x -> 0 < pr x n.
Proof.
  induction n as [|n IH]; intros x H; [exact H|]. cbn [pr]. apply Rmult_lt_0_compat; [now apply IH|].
  pose proof (pos_INR (S n)). lra.
Qed.
Lemma bs_inv : forall n x, 0 < x -> bs n (fun j => / (x + INR j)) = (-1) ^ n * INR (fact n) / pr x n.
Proof.
  induction n as [|n IH]; intros x H.
  - unfold bs, rs. simpl. field. lra.
  - rewrite bs_S. rewrite (bs_ext n _ (fun j => / ((x + 1) + INR j))) by (intros j _; rewrite S_INR; f_equal; ring).
    rewrite !IH by lra. rewrite fact_S_R.
    assert (P0 := pr_pos n x H). assert (P1 := pr_pos n (x + 1) ltac:(lra)). assert (PS := pr_pos (S n) x H).
    assert (F := pr_front n x). cbn [pr] in F |- *.
    assert (E1 : / pr (x + 1) n = x / (pr x n * (x + INR (S n)))).
    { rewrite F. field. lra. }
    unfold Rdiv at 1. rewrite E1. change ((-1) ^ S n) with (-1 * (-1) ^ n).
    pose proof (pos_INR (S n)). field. split; lra.
Qed.

(** (y+1)^m by powers of y *)
Lemma pow_succ : forall m y, (y + 1) ^ m = rs (fun i => bin m i * y ^ i) 0 (S m).
Proof.
  induction m as [|m IH]; intros y.
  - unfold rs. simpl. ring.
  - change ((y + 1) ^ S m) with ((y + 1) * (y + 1) ^ m). rewrite IH.
    rewrite (rs_S _ 0 (S m)), rs_shift.
    rewrite (rs_ext (fun i => bin (S m) (S i) * y ^ S i) (fun i => y * (bin m i * y ^ i) + bin m (S i) * y ^ S i) 0 (S m)) by (intros; rewrite bin_S; simpl; ring).
    rewrite rs_plus, rs_scal. rewrite (rs_last (fun i => bin m (S i) * y ^ S i)). rewrite (bin_big m (S (0 + m))) by lia.
    rewrite (rs_S (fun i => bin m i * y ^ i)), rs_shift at 1. rewrite (rs_S (fun i => bin m i * y ^ i)), rs_shift. rewrite !bin_0. simpl (y ^ 0). ring.
Qed.

Lemma bs_pow : forall n m x, (m <= n)%nat -> bs n (fun j => (x + INR j) ^ m) = if (m =? n)%nat then INR (fact n) else 0.
Proof.
  induction n as [|n IH]; intros m x H.
  - assert (m = 0)%nat by lia. subst. unfold bs, rs. simpl. ring.
  - destruct m as [|m]; [exact (bs_const (S n) 1 ltac:(lia))|].
    rewrite bs_S.
    assert (E : bs n (fun j => (x + INR (S j)) ^ S m) = rs (fun i => bin (S m) i * bs n (fun j => (x + INR j) ^ i)) 0 (S (S m))).
    { rewrite (bs_ext n _ (fun j => rs (fun i => bin (S m) i * (x + INR j) ^ i) 0 (S (S m)))).
      - rewrite (bs_rs n (fun i j => bin (S m) i * (x + INR j) ^ i)). apply rs_ext. intros i _. now rewrite bs_scal.
      - intros j _. rewrite <- pow_succ. rewrite S_INR. f_equal. ring. }
    rewrite E. rewrite rs_last. simpl (0 + S m)%nat. rewrite bin_diag.
    rewrite (rs_ext _ (fun i => if (i =? n)%nat then bin (S m) i * INR (fact n) else 0) 0 (S m)).
    2: { intros i Hi. rewrite IH by lia. destruct (i =? n)%nat; ring. }
    rewrite rs_last. simpl (0 + m)%nat. rewrite rs_zero.
    2: { intros i Hi. assert ((i =? n)%nat = false) as -> by (apply Nat.eqb_neq; lia). reflexivity. }
    change (S m =? S n)%nat with (m =? n)%nat. destruct (Nat.eqb_spec m n) as [->|N]; [|ring].
    rewrite bin_pred, fact_S_R. ring.
Qed.

(** ** The coefficients *)
Section Dk.
Variable N : nat.

Definition amp (n : nat) : R := INR n ^ N * INR (fact (2 * n)) / (INR (fact n) * INR (fact (n - 1)) * INR (fact (N - n))).

Lemma dk_swap : forall phi : nat -> R,
  rs (fun k => coeff_dk N k * phi k) 1 (2 * N) =
  rs (fun n => (-1) ^ N * amp n / INR (fact n) * bs n (fun j => phi (n + j)%nat)) 1 N.
Proof.
  intros phi.
  transitivity (rs (fun k => rs (fun n => if (n <=? k)%nat && (k <=? 2 * n)%nat then dk_term N k n * (-1) ^ (k + N) * phi k else 0) 1 N) 1 (2 * N)).
  - apply rs_ext. intros k Hk. unfold coeff_dk, hs_arange. fold (rs (dk_term N k) ((k + 1) / 2) (S (Nat.min k N) - (k + 1) / 2)).
    pose proof (Nat.div_mod (k + 1) 2 ltac:(lia)) as D1. pose proof (Nat.mod_upper_bound (k + 1) 2 ltac:(lia)) as D2.
    rewrite <- (rs_restrict (dk_term N k) 1 N) by lia.
    replace (rs _ 1 N * (-1) ^ (k + N) * phi k) with (((-1) ^ (k + N) * phi k) * rs (fun i => if ((k + 1) / 2 <=? i)%nat && (i <=? Nat.min k N)%nat then dk_term N k i else 0) 1 N) by ring.
    rewrite <- rs_scal. apply rs_ext. intros n Hn.
    assert (E : (((k + 1) / 2 <=? n) && (n <=? Nat.min k N) = (n <=? k) && (k <=? 2 * n))%nat%bool).
    { destruct (Nat.leb_spec ((k + 1) / 2) n), (Nat.leb_spec n (Nat.min k N)), (Nat.leb_spec n k), (Nat.leb_spec k (2 * n)); try reflexivity; lia. }
    rewrite E. destruct ((n <=? k)%nat && (k <=? 2 * n)%nat); ring.
  - rewrite rs_exch with (f := fun k n => if (n <=? k)%nat && (k <=? 2 * n)%nat then dk_term N k n * (-1) ^ (k + N) * phi k else 0).
    apply rs_ext. intros n Hn.
    rewrite (rs_restrict (fun k => dk_term N k n * (-1) ^ (k + N) * phi k) 1 (2 * N) n (2 * n)) by lia.
    replace (S (2 * n) - n)%nat with (S n) by lia. 
    match goal with |- rs ?F n (S n) = _ => replace (rs F n (S n)) with (rs F (n + 0) (S n)) by (f_equal; lia) end. rewrite rs_shiftn.
    unfold bs. rewrite <- rs_scal. apply rs_ext. intros j Hj.
    unfold dk_term, amp. replace (n + j - n)%nat with j by lia. replace (2 * n - (n + j))%nat with (n - j)%nat by lia.
    assert (BF := bin_fact n j ltac:(lia)).
    pose proof (fact_pos n). pose proof (fact_pos (n - 1)). pose proof (fact_pos j). pose proof (fact_pos (n - j)). pose proof (fact_pos (N - n)). pose proof (fact_pos (2 * n)).
    assert (B : bin n j = INR (fact n) / (INR (fact j) * INR (fact (n - j)))) by (rewrite <- BF; field; lra).
    rewrite B. replace ((-1) ^ (n + j + N)) with ((-1) ^ N * (-1) ^ (n + j)) by (rewrite <- pow_add; f_equal; lia).
    field. repeat split; lra.
Qed.

Theorem stehfest_sum : rs (coeff_dk N) 1 (2 * N) = 0.
Proof.
  rewrite (rs_ext _ (fun k => coeff_dk N k * (fun _ => 1) k)) by (intros; ring). rewrite dk_swap.
  apply rs_zero. intros n Hn. rewrite bs_const by lia. ring.
Qed.

Lemma pr_fact : forall n, (0 < n)%nat -> pr (INR n) n * INR (fact (n - 1)) = INR (fact (2 * n)).
Proof.
  intros n Hn. assert (G : forall m, pr (INR n) m * INR (fact (n - 1)) = INR (fact (n + m))).
  { induction m as [|m IH].
    - cbn [pr]. rewrite Nat.add_0_r. replace n with (S (n - 1)) at 1 3 by lia. rewrite fact_S_R. reflexivity.
    - cbn [pr]. replace (n + S m)%nat with (S (n + m)) by lia. rewrite fact_S_R, <- IH. rewrite !S_INR, plus_INR. ring. }
  rewrite G. do 2 f_equal. lia.
Qed.

Theorem stehfest_const : (0 < N)%nat -> rs (fun k => coeff_dk N k / INR k) 1 (2 * N) = 1.
Proof.
  intros HN. rewrite (rs_ext _ (fun k => coeff_dk N k * (fun k => / INR k) k)) by reflexivity. rewrite dk_swap.
  rewrite (rs_ext _ (fun n => / INR (fact N) * ((-1) ^ (N + n) * bin N n * (0 + INR n) ^ N))).
  - rewrite rs_scal. pose proof (bs_pow N N 0 (le_n _)) as B. rewrite Nat.eqb_refl in B. unfold bs in B. rewrite rs_S in B.
    replace ((0 + INR 0) ^ N) with 0 in B by (rewrite Rplus_0_r; symmetry; apply pow_i; exact HN).
    replace ((-1) ^ (N + 0) * bin N 0 * 0 + rs (fun j => (-1) ^ (N + j) * bin N j * (0 + INR j) ^ N) 1 N) with (rs (fun j => (-1) ^ (N + j) * bin N j * (0 + INR j) ^ N) 1 N) in B by ring.
    rewrite B. pose proof (fact_pos N). field. lra.
  - intros n Hn. rewrite (bs_ext n _ (fun j => / (INR n + INR j))) by (intros; now rewrite plus_INR).
    assert (Pn : 0 < INR n) by (apply lt_0_INR; lia). rewrite bs_inv by exact Pn.
    assert (PF := pr_fact n ltac:(lia)). assert (PP := pr_pos n (INR n) Pn). assert (BF := bin_fact N n ltac:(lia)).
    pose proof (fact_pos n). pose proof (fact_pos (n - 1)). pose proof (fact_pos (N - n)). pose proof (fact_pos N).
    unfold amp. rewrite <- PF, <- BF. rewrite pow_add, Rplus_0_l.
    assert (BP : 0 < bin N n). { assert (bin N n = INR (fact N) / (INR (fact n) * INR (fact (N - n)))) as -> by (rewrite <- BF; field; lra). apply Rdiv_lt_0_compat; [lra|]. now apply Rmult_lt_0_compat. }
    field. repeat split; lra.
Qed.
End Dk.

Lemma fold_left_rs : forall (g : nat -> R) a m acc, fold_left (fun acc k => acc + g k) (seq a m) acc = acc + rs g a m.
Proof. intros g a m. revert a. induction m as [|m IH]; intros a acc; [cbn [seq fold_left]; rewrite rs_0; ring|]. cbn [seq fold_left]. rewrite IH, rs_S. ring. Qed.

Lemma stehfest_rs : forall N f t, stehfest N f t = rs (fun k => coeff_dk N k * f (INR k * ln 2 / t) / INR k) 1 (2 * N).
Proof. intros. unfold stehfest. rewrite (fold_left_rs (fun k => coeff_dk N k * f (INR k * ln 2 / t) / INR k)). ring. Qed.

(** the code divides the transform by s: for a constant transform value c the transform c/s is inverted to c *)
Theorem stehfest_step : forall N c t, (0 < N)%nat -> stehfest N (fun _ => c) t = c.
Proof.
  intros N c t HN. rewrite stehfest_rs. rewrite (rs_ext _ (fun k => c * (coeff_dk N k / INR k))) by (intros; unfold Rdiv; ring).
  rewrite rs_scal, stehfest_const by exact HN. ring.
Qed.
(** an impulse at time zero, transform value s, is inverted to zero at every later time *)
Theorem stehfest_impulse : forall N c t, stehfest N (fun s => c * s) t = 0.
Proof.
  intros N c t. rewrite stehfest_rs. rewrite (rs_ext _ (fun k => (c * ln 2 / t) * coeff_dk N k)).
  - rewrite rs_scal, stehfest_sum. ring.
  - intros k Hk. assert (INR k <> 0) by (apply not_0_INR; lia). unfold Rdiv. replace (coeff_dk N k * (c * (INR k * ln 2 * / t)) * / INR k) with (c * ln 2 * / t * coeff_dk N k * (INR k * / INR k)) by ring. rewrite Rinv_r by assumption. ring.
Qed.
Theorem stehfest_linear : forall N a b f g t, stehfest N (fun s => a * f s + b * g s) t = a * stehfest N f t + b * stehfest N g t.
Proof.
  intros. rewrite !stehfest_rs, <- !rs_scal, <- rs_plus. apply rs_ext. intros; unfold Rdiv; ring.
Qed.
