(** Modified Bessel functions of order 0, 1 and 2 as power series: the hypotheses on the scaled
    Bessel functions of the half-space solution can be met. *)

From Coq Require Import ZArith Reals List Bool Lia Lra Psatz.
From Coquelicot Require Import Coquelicot.
From Verif Require Import PyBase CBase ODE FullspaceMaxwell HalfspaceZero HalfspaceDc WaveField WaveField3 HalfspaceWave HalfspaceAir2.
Import ListNotations.
Local Open Scope R_scope.
Local Open Scope C_scope.

Definition cA (k : nat) : R := (/ (INR (fact k) * INR (fact k)))%R.
Definition cB (k : nat) : R := (/ (INR (fact k) * INR (fact (S k))))%R.

Definition psf (c : nat -> R) (w : C) (k : nat) : R := (fst (cpow w k) * c k)%R.
Definition pss (c : nat -> R) (w : C) (k : nat) : R := (snd (cpow w k) * c k)%R.
Definition psC (c : nat -> R) (w : C) (y : R) : C := (PSeries (psf c w) y, PSeries (pss c w) y).

Lemma cpow_mod : forall w n, Cmod (cpow w n) = (Cmod w ^ n)%R.
Proof. intros w n. induction n as [|n IH]; cbn [cpow pow]; [apply Cmod_1|]. now rewrite Cmod_mult, IH. Qed.
Lemma fst_le : forall z : C, (Rabs (fst z) <= Cmod z)%R. Proof. intros z. pose proof (Rmax_Cmod z). pose proof (Rmax_l (Rabs (fst z)) (Rabs (snd z))). lra. Qed.
Lemma snd_le : forall z : C, (Rabs (snd z) <= Cmod z)%R. Proof. intros z. pose proof (Rmax_Cmod z). pose proof (Rmax_r (Rabs (fst z)) (Rabs (snd z))). lra. Qed.

Lemma term_le : forall t k, (0 <= t)%R -> (t ^ k / INR (fact k) <= exp t)%R.
Proof.
  intros t k Ht. pose proof (exp_ge_taylor t k Ht) as H. refine (Rle_trans _ _ _ _ H). destruct k as [|k]; [cbn; lra|].
  rewrite tech5. assert (0 <= sum_f_R0 (fun k0 : nat => t ^ k0 / INR (fact k0)) k)%R; [|lra]. apply cond_pos_sum. intros n. apply Rmult_le_pos; [now apply pow_le|]. left. apply Rinv_0_lt_compat, INR_fact_lt_0.
Qed.

(** infinite radius of convergence *)
Lemma entire : forall (a c : nat -> R) (m : R), (0 <= m)%R -> (forall k, 0 <= c k <= / INR (fact k))%R -> (forall k, Rabs (a k) <= m ^ k * c k)%R -> CV_radius a = p_infty.
Proof.
  intros a c m Hm Hc Ha. destruct (CV_radius_bounded a) as [U _].
  assert (B : forall r : R, (0 <= r)%R -> Rbar_le r (CV_radius a)).
  { intros r Hr. apply U. exists (exp (m * r)). intros n. refine (Rle_trans _ _ _ _ (term_le (m * r) n (Rmult_le_pos _ _ Hm Hr))).
    rewrite Rabs_mult, (Rabs_pos_eq (r ^ n)) by now apply pow_le. rewrite Rpow_mult_distr. unfold Rdiv. rewrite Rmult_assoc, (Rmult_comm (r ^ n)), <- Rmult_assoc. apply Rmult_le_compat_r; [now apply pow_le|].
    refine (Rle_trans _ _ _ (Ha n) _). apply Rmult_le_compat_l; [now apply pow_le|]. apply Hc. }
  destruct (CV_radius a) as [r| |]; [exfalso|reflexivity|exfalso].
  - specialize (B (Rabs r + 1)%R). cbn in B. pose proof (Rabs_pos r). pose proof (Rle_abs r). lra.
  - exact (B 0%R (Rle_refl 0)).
Qed.
Lemma fact_ge1 : forall n, (1 <= INR (fact n))%R. Proof. intros n. apply (le_INR 1). apply lt_O_fact. Qed.
Lemma cA_le : forall k, (0 <= cA k <= / INR (fact k))%R.
Proof. intros k. unfold cA. pose proof (fact_ge1 k). split; [left; apply Rinv_0_lt_compat; nra|]. apply Rinv_le_contravar; nra. Qed.
Lemma cB_le : forall k, (0 <= cB k <= / INR (fact k))%R.
Proof. intros k. unfold cB. pose proof (fact_ge1 k). pose proof (fact_ge1 (S k)). split; [left; apply Rinv_0_lt_compat; nra|]. apply Rinv_le_contravar; nra. Qed.
Lemma ps_entire : forall c w, (forall k, 0 <= c k <= / INR (fact k))%R -> CV_radius (psf c w) = p_infty /\ CV_radius (pss c w) = p_infty.
Proof.
  intros c w Hc. split; apply (entire _ c (Cmod w) (Cmod_ge_0 w) Hc); intros k; unfold psf, pss; rewrite Rabs_mult, (Rabs_pos_eq (c k)) by apply Hc; apply Rmult_le_compat_r; try apply Hc; rewrite <- cpow_mod; [apply fst_le|apply snd_le].
Qed.
Lemma ps_ex : forall c w y, (forall k, 0 <= c k <= / INR (fact k))%R -> ex_pseries (psf c w) y /\ ex_pseries (pss c w) y.
Proof. intros c w y Hc. destruct (ps_entire c w Hc) as [E1 E2]. split; apply CV_radius_inside; [rewrite E1|rewrite E2]; exact I. Qed.

Lemma cAB : forall k, (INR (S k) * cA (S k) = cB k)%R.
Proof. intros k. unfold cA, cB. rewrite fact_simpl, mult_INR. pose proof (INR_fact_neq_0 k). assert (INR (S k) <> 0)%R by (apply not_0_INR; lia). field. auto. Qed.
Lemma cBA : forall k, ((1 + INR k) * cB k = cA k)%R.
Proof. intros k. unfold cA, cB. rewrite fact_simpl, mult_INR, S_INR. pose proof (INR_fact_neq_0 k). pose proof (pos_INR k). field. repeat split; first [assumption|lra]. Qed.

(** derivative of the series of order 0 *)
Lemma psA_d : forall w y, is_deriveC (psC cA w) y (w * psC cB w y).
Proof.
  intros w y. destruct (ps_entire cA w cA_le) as [E1 E2]. destruct (ps_ex cB w y cB_le) as [X1 X2].
  split; cbn [psC fst snd Cmult].
  - replace (fst w * PSeries (psf cB w) y - snd w * PSeries (pss cB w) y)%R with (PSeries (PS_derive (psf cA w)) y); [apply is_derive_PSeries; rewrite E1; exact I|].
    rewrite <- !PSeries_scal, <- PSeries_minus by (apply ex_pseries_scal; [apply Rmult_comm|assumption]). apply PSeries_ext. intros n. unfold PS_derive, psf, pss, PS_minus, PS_plus, PS_opp, PS_scal. cbn [cpow Cmult fst snd]. unfold scal, plus, opp. cbn. unfold mult. cbn. change (match n with 0%nat => 1 | S _ => INR n + 1 end)%R with (INR (S n)). rewrite <- cAB. ring.
  - replace (fst w * PSeries (pss cB w) y + snd w * PSeries (psf cB w) y)%R with (PSeries (PS_derive (pss cA w)) y); [apply is_derive_PSeries; rewrite E2; exact I|].
    rewrite <- !PSeries_scal, <- PSeries_plus by (apply ex_pseries_scal; [apply Rmult_comm|assumption]). apply PSeries_ext. intros n. unfold PS_derive, psf, pss, PS_plus, PS_scal. cbn [cpow Cmult fst snd]. unfold scal, plus. cbn. unfold mult. cbn. change (match n with 0%nat => 1 | S _ => INR n + 1 end)%R with (INR (S n)). rewrite <- cAB. ring.
Qed.
(** and of order 1: B + y B' = A *)
Lemma psB_d : forall w y, exists d : C, is_deriveC (psC cB w) y d /\ psC cB w y + RtoC y * d = psC cA w y.
Proof.
  intros w y. destruct (ps_entire cB w cB_le) as [E1 E2]. destruct (ps_ex cB w y cB_le) as [X1 X2].
  exists (PSeries (PS_derive (psf cB w)) y, PSeries (PS_derive (pss cB w)) y). split; [split; cbn [psC fst snd]; apply is_derive_PSeries; [rewrite E1|rewrite E2]; exact I|].
  assert (W : forall a : nat -> R, CV_radius a = p_infty -> ex_pseries (PS_incr_1 (PS_derive a)) y).
  { intros a Ea. apply CV_radius_inside. rewrite CV_radius_incr_1, CV_radius_derive, Ea. exact I. }
  apply injective_projections; unfold Cplus, Cmult, psC, RtoC; cbn [fst snd].
  - transitivity (PSeries (psf cB w) y + y * PSeries (PS_derive (psf cB w)) y)%R; [eR; ring|]. rewrite <- PSeries_incr_1, <- PSeries_plus by (try exact X1; apply W; exact E1). apply PSeries_ext. intros n. unfold PS_plus, PS_incr_1, PS_derive, psf. rewrite <- cBA. match goal with |- plus ?a ?b = ?c => change (a + b = c)%R end. destruct n as [|n]; [change (INR 0) with 0%R; change (@zero R_AbelianGroup) with 0%R; match goal with |- (?a + ?b = ?c)%R => change (a + 0 = c)%R end|]; ring.
  - transitivity (PSeries (pss cB w) y + y * PSeries (PS_derive (pss cB w)) y)%R; [eR; ring|]. rewrite <- PSeries_incr_1, <- PSeries_plus by (try exact X2; apply W; exact E2). apply PSeries_ext. intros n. unfold PS_plus, PS_incr_1, PS_derive, pss. rewrite <- cBA. match goal with |- plus ?a ?b = ?c => change (a + b = c)%R end. destruct n as [|n]; [change (INR 0) with 0%R; change (@zero R_AbelianGroup) with 0%R; match goal with |- (?a + ?b = ?c)%R => change (a + 0 = c)%R end|]; ring.
Qed.

Definition mI0 (z : C) : C := psC cA (z * z * / RtoC 4) 1.
Definition mI1 (z : C) : C := z * / RtoC 2 * psC cB (z * z * / RtoC 4) 1.
Definition mI (n : Z) (z : C) : C := if (n =? 0)%Z then mI0 z else if (n =? 1)%Z then mI1 z else mI0 z - RtoC 2 * / z * mI1 z.

(** along a ray the variable can be taken out of the argument *)
Lemma cpow_scal : forall (y : R) w n, cpow (RtoC y * w) n = RtoC (y ^ n) * cpow w n.
Proof. intros y w n. induction n as [|n IH]; cbn [cpow pow]; [ring|]. rewrite IH, RtoC_mult. ring. Qed.
Lemma ps_ray : forall c w (y : R), psC c (RtoC y * w) 1 = psC c w y.
Proof.
  intros c w y. unfold psC. f_equal; apply Series_ext; intros n; unfold psf, pss; rewrite cpow_scal, pow1; unfold RtoC; cbn [Cmult fst snd]; ring.
Qed.
Lemma ray_arg : forall (x : R) z, RtoC x * z * (RtoC x * z) * / RtoC 4 = RtoC (x * x) * (z * z * / RtoC 4).
Proof. intros x z. rewrite RtoC_mult. ring. Qed.

Lemma mI0_d : forall z x, is_deriveC (fun x => mI0 (RtoC x * z)) x (z * mI1 (RtoC x * z)).
Proof.
  intros z x. set (w := z * z * / RtoC 4).
  refine (is_deriveC_ext_loc (fun x => psC cA w (x * x)%R) _ _ _ _ _).
  - apply filter_forall. intros t. unfold mI0. now rewrite ray_arg, ps_ray.
  - eapply dCe; [apply (comp_C (psC cA w) (fun x => (x * x)%R) x (2 * x)%R _ (psA_d w (x * x)%R)); auto_derive; [exact I|ring]|].
    unfold mI1. rewrite ray_arg, ps_ray. fold w. unfold w at 1. rewrite RtoC_mult. replace (RtoC 4) with (RtoC 2 * RtoC 2) by (rewrite <- RtoC_mult; f_equal; lra). eC. field. apply RC_neq. lra.
Qed.
Lemma mI1_d : forall z x, (0 < x)%R -> is_deriveC (fun x => mI1 (RtoC x * z)) x (z * mI0 (RtoC x * z) - / RtoC x * mI1 (RtoC x * z)).
Proof.
  intros z x Hx. set (w := z * z * / RtoC 4). destruct (psB_d w (x * x)%R) as (d & D & E).
  refine (is_deriveC_ext_loc (fun x => (z * / RtoC 2) * (RtoC x * psC cB w (x * x)%R)) _ _ _ _ _).
  - apply filter_forall. intros t. unfold mI1. rewrite ray_arg, ps_ray. fold w. ring.
  - eapply dCe; [apply is_deriveC_scal; apply (dC_mult RtoC (fun x => psC cB w (x * x)%R)); [apply (dCR (fun q => q) x 1%R), (is_derive_id x)|apply (comp_C (psC cB w) (fun x => (x * x)%R) x (2 * x)%R _ D); auto_derive; [exact I|ring]]|].
    unfold mI1, mI0. rewrite !ray_arg, !ps_ray. fold w. rewrite <- E, !RtoC_mult. nums. eC. field. split; [intros W; apply (f_equal fst) in W; cbn in W; lra|apply RC_neq; lra].
Qed.

(** functions meeting the hypotheses: the modified Bessel functions of the first kind, scaled
    by exp(-|Re z|), and for the second kind the other solution pair (I0, -I1) of the same
    equations, scaled by exp(z) *)
Definition x_ive (n : Z) (z : C) : C := RtoC (exp (- Rabs (fst z))) * mI n z.
Definition x_kve (n : Z) (z : C) : C := Cexp z * (if (n =? 0)%Z then mI0 z else - mI1 z).
Theorem bessel_mod_ok : bessel_mod x_ive x_kve.
Proof.
  exists mI, (fun n z => if (n =? 0)%Z then mI0 z else - mI1 z). split; [reflexivity|]. split; [reflexivity|]. split; [reflexivity|]. intros z x Hz Hx. cbn [mI Z.eqb]. split; [|split; [|split]].
  - apply mI0_d.
  - now apply mI1_d.
  - eapply dCe; [apply mI0_d|]. ring.
  - eapply dCe; [apply dC_opp, mI1_d, Hx|]. ring.
Qed.
(** they are not zero *)
Lemma mI0_0 : mI0 (RtoC 0) = RtoC 1.
Proof.
  unfold mI0. replace (RtoC 0 * RtoC 0 * / RtoC 4) with (RtoC 0 * (RtoC 1)) by ring. rewrite ps_ray. unfold psC. rewrite !PSeries_0. unfold psf, pss, cA. cbn. unfold RtoC. f_equal; field.
Qed.
