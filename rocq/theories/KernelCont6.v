(** Large wavenumbers, uniformly for families of models: the Green's function of one mode decays exponentially.

    The index set is T * R with the filter of the family times "the wavenumber tends to infinity". *)

From Coq Require Import Reals ZArith List Bool Lia Lra Psatz.
From Coquelicot Require Import Coquelicot.
From Verif Require Import PyBase CBase ODE Sommer Cint Kernel KernelSpec KernelClosed KernelPassive KernelPhys KernelMain KernelBVP KernelThm KernelThm2 KernelDeep HalfspaceThm Homog LayAsym KernelCont KernelCont2 KernelCont4.
Import ListNotations.
Local Open Scope R_scope.
Local Open Scope C_scope.

Section Big.
Context {T : Type} (F : (T -> Prop) -> Prop) {FF : Filter F}.
Definition big : (T * R -> Prop) -> Prop := filter_prod F (Rbar_locally p_infty).
Global Instance big_filter : Filter big.
Proof using FF. unfold big. apply filter_prod_filter; [exact FF|apply Rbar_locally_filter]. Qed.
Notation toR := (toR big).
Notation toC := (toC big).

Lemma up_F : forall P : T -> Prop, F P -> big (fun p => P (fst p)).
Proof using FF. intros P H. exists P (fun _ => True); [exact H|apply filter_true|]. intros x y A _. exact A. Qed.
Lemma up_lam : forall K : R, big (fun p => (K < snd p)%R).
Proof using FF. intros K. exists (fun _ => True) (fun x => (K < x)%R); [apply filter_true|exists K; auto|]. intros x y _ A. exact A. Qed.
Lemma up_R : forall f a, KernelCont.toR F f a -> toR (fun p => f (fst p)) a.
Proof using FF. intros f a H. apply toR_eps; [typeclasses eauto|]. intros e He. exact (up_F (fun t => (Rabs (f t - a) < e)%R) (proj1 (toR_eps F f a) H e He)). Qed.
Lemma up_C : forall f a, KernelCont.toC F f a -> toC (fun p => f (fst p)) a.
Proof using FF. intros f a [A B]. split; [exact (up_R (fun t => fst (f t)) _ A)|exact (up_R (fun t => snd (f t)) _ B)]. Qed.
Lemma inv_lam : toR (fun p => / snd p)%R 0%R.
Proof using FF.
  apply toR_eps; [typeclasses eauto|]. intros e He. eapply filter_imp; [|exact (up_lam (/ e))]. intros p Hp. cbn beta in *. pose proof (Rinv_0_lt_compat e He) as Q.
  rewrite Rminus_0_r, Rabs_pos_eq by (left; apply Rinv_0_lt_compat; lra). rewrite <- (Rinv_inv e). apply Rinv_lt_contravar; [|exact Hp]. apply Rmult_lt_0_compat; lra.
Qed.

(** f is bounded by a polynomial in the wavenumber times exp(- c lam), where the rate c may change along the family *)
Definition ub (c : T -> R) (f : T * R -> C) : Prop :=
  exists (M : R) (n : nat), (0 <= M)%R /\ big (fun p => (Cmod (f p) <= M * (1 + snd p) ^ n * exp (- (c (fst p) * snd p)))%R).
Lemma ub_lim : forall f l, toC f l -> ub (fun _ => 0%R) f.
Proof using FF.
  intros f l H. exists (Cmod l + 1)%R, 0%nat. pose proof (Cmod_ge_0 l). split; [lra|]. pose proof (proj1 (toC_eps big f l) H 1%R Rlt_0_1) as E. eapply filter_imp; [|exact E]. intros p Hp. cbn beta in Hp.
  replace (- (0 * snd p))%R with 0%R by ring. rewrite exp_0. cbn [pow]. rewrite !Rmult_1_r. pose proof (Cmod_triangle (f p - l)%C l) as TR. replace (f p - l + l) with (f p) in TR by ring. lra.
Qed.
Lemma ub_mult : forall c d f g, ub c f -> ub d g -> ub (fun t => c t + d t)%R (fun p => f p * g p).
Proof using FF.
  intros c d f g (M & n & HM & Hf) (K & m & HK & Hg). exists (M * K)%R, (n + m)%nat. split; [now apply Rmult_le_pos|].
  eapply filter_imp; [|exact (filter_and _ _ (up_lam 0) (filter_and _ _ Hf Hg))]. intros p (Hx & A & B). cbn beta in *. rewrite Cmod_mult, pow_add.
  replace (- ((c (fst p) + d (fst p)) * snd p))%R with (- (c (fst p) * snd p) + - (d (fst p) * snd p))%R by ring. rewrite exp_plus.
  replace (M * K * ((1 + snd p) ^ n * (1 + snd p) ^ m) * (exp (- (c (fst p) * snd p)) * exp (- (d (fst p) * snd p))))%R with ((M * (1 + snd p) ^ n * exp (- (c (fst p) * snd p))) * (K * (1 + snd p) ^ m * exp (- (d (fst p) * snd p))))%R by ring.
  apply Rmult_le_compat; auto using Cmod_ge_0.
Qed.
Lemma ub_weak : forall c d f, ub c f -> (forall t, (d t <= c t)%R) -> ub d f.
Proof using FF.
  intros c d f (M & n & HM & Hf) L. exists M, n. split; [exact HM|]. eapply filter_imp; [|exact (filter_and _ _ (up_lam 0) Hf)]. intros p (Hx & A). cbn beta in *. eapply Rle_trans; [exact A|].
  apply Rmult_le_compat_l; [apply Rmult_le_pos; [exact HM|apply pow_le; lra]|]. apply exp_le_mono. apply Ropp_le_contravar, Rmult_le_compat_r; [lra|apply L].
Qed.
Lemma ub_ext : forall c f g, big (fun p => f p = g p) -> ub c f -> ub c g.
Proof using FF. intros c f g E (M & n & HM & H). exists M, n. split; [exact HM|]. eapply filter_imp; [|exact (filter_and _ _ E H)]. intros p [A B]. cbn beta in *. now rewrite <- A. Qed.
Lemma ub_eq : forall c f g, (forall p, f p = g p) -> ub c f -> ub c g.
Proof using FF. intros c f g E. apply ub_ext. now apply filter_forall. Qed.
Lemma ub_plus : forall c f g, ub c f -> ub c g -> ub c (fun p => f p + g p).
Proof using FF.
  intros c f g (M & n & HM & Hf) (K & m & HK & Hg). exists (M + K)%R, (n + m)%nat. split; [lra|].
  eapply filter_imp; [|exact (filter_and _ _ (up_lam 0) (filter_and _ _ Hf Hg))]. intros p (Hx & A & B). cbn beta in *. eapply Rle_trans; [apply Cmod_triangle|]. rewrite Rmult_plus_distr_r, Rmult_plus_distr_r. apply Rplus_le_compat.
  - eapply Rle_trans; [exact A|]. apply Rmult_le_compat_r; [left; apply exp_pos|]. apply Rmult_le_compat_l; [exact HM|]. apply Rle_pow; [lra|lia].
  - eapply Rle_trans; [exact B|]. apply Rmult_le_compat_r; [left; apply exp_pos|]. apply Rmult_le_compat_l; [exact HK|]. apply Rle_pow; [lra|lia].
Qed.
Lemma ub_const : forall a, ub (fun _ => 0%R) (fun _ => a). Proof using FF. intros a. eapply ub_lim, toC_const. typeclasses eauto. Qed.
Lemma ub_mult0 : forall c f g, ub (fun _ => 0%R) f -> ub c g -> ub c (fun p => f p * g p).
Proof using FF. intros. eapply ub_weak; [apply ub_mult; eassumption|]. intros t. cbn beta. lra. Qed.
Lemma ub_mult0r : forall c f g, ub c f -> ub (fun _ => 0%R) g -> ub c (fun p => f p * g p).
Proof using FF. intros. eapply ub_weak; [apply ub_mult; eassumption|]. intros t. cbn beta. lra. Qed.
Lemma ub_scal : forall c a f, ub c f -> ub c (fun p => a * f p).
Proof using FF. intros c a f H. apply ub_mult0; [apply ub_const|exact H]. Qed.
Lemma ub_opp : forall c f, ub c f -> ub c (fun p => - f p).
Proof using FF. intros c f H. eapply ub_eq; [|apply (ub_scal c (- RtoC 1)); exact H]. intros; cbv beta; ring. Qed.
Lemma ub_minus : forall c f g, ub c f -> ub c g -> ub c (fun p => f p - g p).
Proof using FF. intros c f g H1 H2. apply (ub_plus c f (fun x => - g x)); [exact H1|now apply ub_opp]. Qed.
Lemma ub_zero : forall c, ub c (fun _ => RtoC 0).
Proof using FF. intros c. exists 0%R, 0%nat. split; [lra|]. apply filter_forall. intros p. rewrite Cmod_0. lra. Qed.
Lemma ub_id : ub (fun _ => 0%R) (fun p => RtoC (snd p)).
Proof using FF.
  exists 1%R, 1%nat. split; [lra|]. eapply filter_imp; [|exact (up_lam 0)]. intros p Hp. cbn beta in Hp. rewrite Cmod_R, Rabs_pos_eq by lra. replace (- (0 * snd p))%R with 0%R by ring. rewrite exp_0. cbn [pow]. lra.
Qed.
(** with a positive rate in the limit: a bound by one exponential *)
Lemma ub_exp : forall c f c0, ub c f -> (0 < c0)%R -> F (fun t => (c0 <= c t)%R) -> exists K, (0 <= K)%R /\ big (fun p => (Cmod (f p) <= K * exp (- (c0 / 2 * snd p)))%R).
Proof using FF.
  intros c f c0 (M & n & HM & Hf) Hc HF. assert (N0 : (0 < INR (S n))%R) by (apply lt_0_INR; lia).
  assert (P0 : (0 <= exp c0 * (2 * INR (S n) / c0) ^ n)%R) by (apply Rmult_le_pos; [left; apply exp_pos|apply pow_le, Rlt_le, Rdiv_lt_0_compat; lra]).
  exists (M * (exp c0 * (2 * INR (S n) / c0) ^ n))%R. split; [now apply Rmult_le_pos|].
  eapply filter_imp; [|exact (filter_and _ _ (up_lam 0) (filter_and _ _ Hf (up_F _ HF)))]. intros [t x] (Hx & A & B). cbn [fst snd] in *.
  eapply Rle_trans; [exact A|]. rewrite !Rmult_assoc. apply Rmult_le_compat_l; [exact HM|].
  assert (X : (0 <= 1 + x)%R) by lra. pose proof (pow_exp n c0 (1 + x) Hc X) as Q.
  apply Rle_trans with ((1 + x) ^ n * exp (- (c0 * x)))%R. { apply Rmult_le_compat_l; [apply pow_le; lra|]. apply exp_le_mono. apply Ropp_le_contravar, Rmult_le_compat_r; lra. }
  replace (exp (- (c0 * x))) with (exp c0 * exp (- (c0 * (1 + x))))%R by (rewrite <- exp_plus; f_equal; ring).
  assert (Q2 : (exp (- (c0 / 2 * (1 + x))) <= exp (- (c0 / 2 * x)))%R) by (apply exp_le_mono; lra).
  replace ((1 + x) ^ n * (exp c0 * exp (- (c0 * (1 + x)))))%R with (exp c0 * ((1 + x) ^ n * exp (- (c0 * (1 + x)))))%R by ring.
  apply Rmult_le_compat_l; [left; apply exp_pos|]. eapply Rle_trans; [exact Q|]. apply Rmult_le_compat_l; [apply pow_le, Rlt_le, Rdiv_lt_0_compat; lra|exact Q2].
Qed.
Lemma ub_null : forall c f c0, ub c f -> (0 < c0)%R -> F (fun t => (c0 <= c t)%R) -> toC f (RtoC 0).
Proof using FF.
  intros c f c0 H Hc HF. destruct (ub_exp c f c0 H Hc HF) as (K & HK & B). apply toC_eps; [typeclasses eauto|]. intros e He.
  pose proof (exp_dec_lim (c0 / 2) ltac:(lra)) as L. assert (E1 : (0 < e / (K + 1))%R) by (apply Rdiv_lt_0_compat; lra).
  destruct (L (ball 0%R (mkposreal _ E1)) (locally_ball 0%R (mkposreal _ E1))) as [T1 HT].
  eapply filter_imp; [|exact (filter_and _ _ B (up_lam T1))]. intros [t x] [A X]. cbn [fst snd] in *. replace (f (t, x) - RtoC 0) with (f (t, x)) by ring.
  specialize (HT x X). cbv beta in HT. unfold ball in HT; cbn in HT; unfold AbsRing_ball, abs, minus, plus, opp in HT; cbn in HT. rewrite Ropp_0, Rplus_0_r, Rabs_pos_eq in HT by (left; apply exp_pos).
  pose proof (exp_pos (- (c0 / 2 * x))). eapply Rle_lt_trans; [exact A|]. apply Rle_lt_trans with ((K + 1) * exp (- (c0 / 2 * x)))%R; [nra|]. apply (Rmult_lt_compat_l (K + 1)) in HT; [|lra]. replace ((K + 1) * (e / (K + 1)))%R with (e : R) in HT by (field; lra). exact HT.
Qed.

(** ** The stack *)
Section Stack.
Variables (h v q : T -> nat -> C) (z : T -> nat -> R) (h0 v0 q0 : nat -> C) (z0 : nat -> R) (N : nat).
Hypothesis Ih : forall k, (k <= N)%nat -> KernelCont.toC F (fun t => h t k) (h0 k).
Hypothesis Iv : forall k, (k <= N)%nat -> KernelCont.toC F (fun t => v t k) (v0 k).
Hypothesis Iq : forall k, (k <= N)%nat -> KernelCont.toC F (fun t => q t k) (q0 k).
Hypothesis Iz : forall k, (1 <= k <= N)%nat -> KernelCont.toR F (fun t => z t k) (z0 k).
Hypothesis ML : forall k, (k <= N)%nat -> mlayer (h0 k) (v0 k) (q0 k).
Hypothesis Hz : forall k, (1 <= k < N)%nat -> (z0 k < z0 (S k))%R.
Hypothesis Hzt : forall t k, (1 <= k < N)%nat -> (z t k < z t (S k))%R.
Notation hh p := (h (fst p)).
Notation zz p := (z (fst p)).
Notation g p := (gam (h (fst p)) (v (fst p)) (q (fst p)) (snd p)).
Notation s k := (ms (h0 k) (v0 k)).
Let hnz : forall k, (k <= N)%nat -> h0 k <> RtoC 0. Proof. intros k Hk. apply (ml_h _ _ _ (ML k Hk)). Qed.
Let vnz : forall k, (k <= N)%nat -> v0 k <> RtoC 0. Proof. intros k Hk. apply (ml_v _ _ _ (ML k Hk)). Qed.
Let snz : forall k, (k <= N)%nat -> s k <> RtoC 0. Proof. intros k Hk. apply (s_nz _ _ _ (ML k Hk)). Qed.
Let lnz : forall x : R, (0 < x)%R -> RtoC x <> RtoC 0. Proof. intros x Hx W. apply (f_equal fst) in W. cbn in W. lra. Qed.

Lemma u_gl : forall k, (k <= N)%nat -> toC (fun p => g p k / RtoC (snd p)) (s k).
Proof using FF Ih Iv Iq ML.
  intros k Hk. apply (toC_ext_loc big (fun p => Csqrt (hh p k / v (fst p) k + q (fst p) k * hh p k * RtoC (/ snd p * / snd p)))).
  - eapply filter_imp; [|exact (up_lam 0)]. intros [t x] Hx. cbn [fst snd] in *. unfold gam.
    assert (E : h t k / v t k * RtoC (x * x) + q t k * h t k = RtoC (x * x) * (h t k / v t k + q t k * h t k * RtoC (/ x * / x))).
    { assert (W : RtoC (x * x) * RtoC (/ x * / x) = RtoC 1) by (rewrite <- RtoC_mult; f_equal; field; lra). transitivity (h t k / v t k * RtoC (x * x) + q t k * h t k * (RtoC (x * x) * RtoC (/ x * / x))); [rewrite W; ring|ring]. }
    rewrite E, Csqrt_scale by (apply Rmult_le_pos; lra). rewrite sqrt_square by lra. field. now apply lnz.
  - unfold ms. pose proof (s_re _ _ _ (ML k Hk)) as P. unfold ms in P. replace (h0 k / v0 k) with (h0 k / v0 k + q0 k * h0 k * RtoC (0 * 0)) by (rewrite Rmult_0_l; ring).
    apply toC_sqrt; [typeclasses eauto| |].
    + replace (h0 k / v0 k + q0 k * h0 k * RtoC (0 * 0)) with (h0 k / v0 k) by (rewrite Rmult_0_l; ring). exact P.
    + apply toC_plus; [typeclasses eauto|apply toC_div; [typeclasses eauto|now apply vnz|now apply (up_C (fun t => h t k)), Ih|now apply (up_C (fun t => v t k)), Iv]|].
      apply toC_mult; [typeclasses eauto|apply toC_mult; [typeclasses eauto|now apply (up_C (fun t => q t k)), Iq|now apply (up_C (fun t => h t k)), Ih]|].
      apply toC_RtoC; [typeclasses eauto|]. apply toR_mult; [typeclasses eauto|apply inv_lam|apply inv_lam].
Qed.
Lemma u_gi : forall k, (k <= N)%nat -> toC (fun p => / g p k) (RtoC 0).
Proof using FF Ih Iv Iq ML.
  intros k Hk. apply (toC_ext_loc big (fun p => RtoC (/ snd p) * / (g p k / RtoC (snd p)))).
  - pose proof (snz k Hk) as NS. pose proof (proj1 (toC_eps big _ _) (u_gl k Hk) (Cmod (s k)) (proj1 (Cmod_gt_0 _) NS)) as E.
    eapply filter_imp; [|exact (filter_and _ _ (up_lam 0) E)]. intros p [Hp D]. cbn beta in *. pose proof (lnz _ Hp) as L.
    assert (NG : g p k <> RtoC 0). { intros W. rewrite W in D. replace (RtoC 0 / RtoC (snd p) - s k) with (- s k) in D by (field; exact L). rewrite Cmod_opp in D. lra. }
    rewrite RtoC_inv by lra. field. split; assumption.
  - replace (RtoC 0) with (RtoC 0 * / s k) by ring. apply toC_mult; [typeclasses eauto|apply toC_RtoC; [typeclasses eauto|apply inv_lam]|]. apply toC_inv; [typeclasses eauto|now apply snz|now apply u_gl].
Qed.
Lemma ub_g : forall k, (k <= N)%nat -> ub (fun _ => 0%R) (fun p => g p k).
Proof using FF Ih Iv Iq ML.
  intros k Hk. apply (ub_ext _ (fun p => g p k / RtoC (snd p) * RtoC (snd p))).
  - eapply filter_imp; [|exact (up_lam 0)]. intros p Hp. cbn beta in *. field. now apply lnz.
  - apply ub_mult0; [eapply ub_lim, u_gl, Hk|apply ub_id].
Qed.

Variable a : R.
Hypothesis Ha : (0 < a)%R.
Hypothesis HA : forall k, (k <= N)%nat -> (a < fst (s k))%R.
Lemma u_low : forall k, (k <= N)%nat -> big (fun p => (0 < snd p)%R /\ (a * snd p <= fst (g p k))%R).
Proof using FF Ih Iv Iq ML HA.
  intros k Hk. destruct (u_gl k Hk) as [A _]. pose proof (toR_lt big (fun _ => a) _ a _ (toR_const big a) A (HA k Hk)) as L.
  eapply filter_imp; [|exact (filter_and _ _ (up_lam 0) L)]. intros p [Hp B]. cbn beta in *. split; [exact Hp|].
  assert (E : fst (g p k / RtoC (snd p)) = (fst (g p k) / snd p)%R).
  { unfold Cdiv. rewrite <- RtoC_inv by lra. cbn [fst Cmult RtoC snd]. unfold Rdiv. ring. }
  rewrite E in B. left. apply (Rmult_lt_compat_r (snd p)) in B; [|exact Hp]. replace (fst (g p k) / snd p * snd p)%R with (fst (g p k)) in B by (field; lra). exact B.
Qed.
Lemma ub_dk : forall k (d : T -> R), (k <= N)%nat -> (forall t, (0 <= d t)%R) -> ub (fun t => a * d t)%R (fun p => dec (g p) k (d (fst p))).
Proof using FF Ih Iv Iq ML HA.
  intros k d Hk Hd. exists 1%R, 0%nat. split; [lra|]. eapply filter_imp; [|exact (u_low k Hk)]. intros p [Hp B]. cbn [pow]. rewrite !Rmult_1_l. unfold dec. eapply Rle_trans; [apply Cmod_exp_le|]. apply exp_le_mono.
  replace (fst (- (g p k * RtoC (d (fst p))))) with (- (fst (g p k) * d (fst p)))%R by (unfold Copp, Cmult, RtoC; cbn [fst snd]; ring).
  pose proof (Rmult_le_compat_r (d (fst p)) _ _ (Hd (fst p)) B). lra.
Qed.
Lemma thp : forall t k, (1 <= k < N)%nat -> (0 <= thick (z t) k)%R.
Proof using Hzt. intros t k Hk. unfold thick. pose proof (Hzt t k Hk). lra. Qed.
Lemma u_E2 : forall k, (0 < k < N)%nat -> toC (fun p => E2 (g p) (zz p) k) (RtoC 0).
Proof using FF Ih Iv Iq Iz ML Hz Hzt Ha HA.
  intros k Hk. pose proof (Hz k ltac:(lia)) as P.
  apply (ub_null (fun t => a * (2 * thick (z t) k))%R _ (a * (z0 (S k) - z0 k))%R).
  - apply (ub_eq _ (fun p => dec (g p) k (2 * thick (zz p) k))); [|apply (ub_dk k (fun t => 2 * thick (z t) k)%R); [lia|intros t; pose proof (thp t k ltac:(lia)); lra]].
    intros p. unfold dec, E2. f_equal. rewrite RtoC_mult. ring.
  - apply Rmult_lt_0_compat; lra.
  - assert (L : KernelCont.toR F (fun t => 2 * thick (z t) k)%R (2 * (z0 (S k) - z0 k))%R).
    { apply toR_mult; [assumption|now apply toR_const|]. unfold thick. apply toR_minus; [assumption|apply Iz; lia|apply Iz; lia]. }
    eapply filter_imp; [|exact (toR_lt F (fun _ => z0 (S k) - z0 k)%R _ _ _ (toR_const F _) L ltac:(lra))]. intros t Ht. cbn beta in Ht. apply Rmult_le_compat_l; lra.
Qed.
Lemma u_rl : forall k, (k < N)%nat -> toC (fun p => rl (hh p) (g p) k) (lrl h0 v0 k).
Proof using FF Ih Iv Iq ML.
  intros k Hk. pose proof (u_gl k ltac:(lia)) as A1. pose proof (u_gl (S k) ltac:(lia)) as A2.
  assert (DN : h0 (S k) * s k + h0 k * s (S k) <> RtoC 0).
  { destruct (s_quad _ _ _ (ML k ltac:(lia))) as (Q1 & Q2 & Q3). destruct (s_quad _ _ _ (ML (S k) ltac:(lia))) as (R1 & R2 & R3).
    pose proof (quad4_sum _ _ Q1 Q2 Q3 R1 R2) as W. pose proof (hnz k ltac:(lia)) as H1. pose proof (hnz (S k) ltac:(lia)) as H2. intros E. apply W.
    replace (s k / h0 k + s (S k) / h0 (S k)) with ((h0 (S k) * s k + h0 k * s (S k)) / (h0 k * h0 (S k))) by (field; split; assumption). rewrite E. field. split; assumption. }
  assert (LD : toC (fun p => hh p (S k) * (g p k / RtoC (snd p)) + hh p k * (g p (S k) / RtoC (snd p))) (h0 (S k) * s k + h0 k * s (S k))).
  { apply toC_plus; [typeclasses eauto| |]; (apply toC_mult; [typeclasses eauto| |assumption]); [apply (up_C (fun t => h t (S k))), Ih; lia|apply (up_C (fun t => h t k)), Ih; lia]. }
  apply (toC_ext_loc big (fun p => (hh p (S k) * (g p k / RtoC (snd p)) - hh p k * (g p (S k) / RtoC (snd p))) / (hh p (S k) * (g p k / RtoC (snd p)) + hh p k * (g p (S k) / RtoC (snd p))))).
  - pose proof (proj1 (toC_eps big _ _) LD (Cmod (h0 (S k) * s k + h0 k * s (S k))) (proj1 (Cmod_gt_0 _) DN)) as E.
    eapply filter_imp; [|exact (filter_and _ _ (up_lam 0) E)]. intros p [Hp D]. cbn beta in *. pose proof (lnz _ Hp) as L. unfold rl.
    assert (ND : hh p (S k) * g p k + hh p k * g p (S k) <> RtoC 0).
    { intros W. replace (hh p (S k) * (g p k / RtoC (snd p)) + hh p k * (g p (S k) / RtoC (snd p))) with ((hh p (S k) * g p k + hh p k * g p (S k)) / RtoC (snd p)) in D by (field; exact L). rewrite W in D.
      replace (RtoC 0 / RtoC (snd p) - (h0 (S k) * s k + h0 k * s (S k))) with (- (h0 (S k) * s k + h0 k * s (S k))) in D by (field; exact L). rewrite Cmod_opp in D. lra. }
    field. split; assumption.
  - unfold lrl. apply toC_div; [typeclasses eauto|exact DN| |exact LD].
    apply toC_minus; [typeclasses eauto| |]; (apply toC_mult; [typeclasses eauto| |assumption]); [apply (up_C (fun t => h t (S k))), Ih; lia|apply (up_C (fun t => h t k)), Ih; lia].
Qed.
Ltac tf := typeclasses eauto.
Lemma u_Rd : forall k, (k <= N)%nat -> toC (fun p => Rdn (hh p) (g p) (zz p) N k) (lRd h0 v0 N k) /\ ((0 < k)%nat -> toC (fun p => Rdn (hh p) (g p) (zz p) N k * E2 (g p) (zz p) k) (RtoC 0)).
Proof using All.
  assert (H : forall m k, (k + m = N)%nat -> toC (fun p => Rdn (hh p) (g p) (zz p) N k) (lRd h0 v0 N k) /\ ((0 < k)%nat -> toC (fun p => Rdn (hh p) (g p) (zz p) N k * E2 (g p) (zz p) k) (RtoC 0))).
  { induction m; intros k Hk.
    - assert (k = N) by lia. subst k. split.
      + apply (toC_ext big (fun _ => RtoC 0)); [intros; symmetry; apply Rdn_N|]. unfold lRd. rewrite Nat.ltb_irrefl. apply toC_const; tf.
      + intros _. apply (toC_ext big (fun _ => RtoC 0)); [|apply toC_const; tf]. intros x. rewrite Rdn_N. ring.
    - destruct (IHm (S k) ltac:(lia)) as [_ I]. specialize (I ltac:(lia)).
      assert (A : toC (fun p => Rdn (hh p) (g p) (zz p) N k) (lRd h0 v0 N k)).
      { apply (toC_ext big (fun p => (rl (hh p) (g p) k + Rdn (hh p) (g p) (zz p) N (S k) * E2 (g p) (zz p) (S k)) / den_dn (hh p) (g p) (zz p) N k)); [intros x; symmetry; apply Rdn_step; lia|].
        unfold lRd. replace (k <? N)%nat with true by (symmetry; apply Nat.ltb_lt; lia).
        replace (lrl h0 v0 k) with ((lrl h0 v0 k + RtoC 0) / (RtoC 1 + lrl h0 v0 k * RtoC 0)) by apply div1.
        apply toC_div; [tf|apply c1nz; ring|apply toC_plus; [tf|apply u_rl; lia|exact I]|].
        apply toC_plus; [tf|apply toC_const; tf|]. apply toC_mult; [tf|apply u_rl; lia|exact I]. }
      split; [exact A|]. intros K. replace (RtoC 0) with (lRd h0 v0 N k * RtoC 0) by ring. apply toC_mult; [tf|exact A|apply u_E2; lia]. }
  intros k Hk. apply (H (N - k)%nat). lia.
Qed.
Lemma u_Ru : forall k, (k <= N)%nat -> toC (fun p => Rup (hh p) (g p) (zz p) k) (lRu h0 v0 k) /\ ((k < N)%nat -> toC (fun p => Rup (hh p) (g p) (zz p) k * E2 (g p) (zz p) k) (RtoC 0)).
Proof using All.
  induction k; intros Hk.
  - split; [exact (toC_const big (RtoC 0))|]. intros _. apply (toC_ext big (fun _ => RtoC 0)); [|apply toC_const; tf]. intros x. cbn [Rup]. ring.
  - destruct (IHk ltac:(lia)) as [_ I]. specialize (I ltac:(lia)).
    assert (A : toC (fun p => Rup (hh p) (g p) (zz p) (S k)) (lRu h0 v0 (S k))).
    { apply (toC_ext big (fun p => (- rl (hh p) (g p) k + Rup (hh p) (g p) (zz p) k * E2 (g p) (zz p) k) / den_up (hh p) (g p) (zz p) k)); [intros x; symmetry; apply Rup_step|].
      cbn [lRu]. replace (- lrl h0 v0 k) with ((- lrl h0 v0 k + RtoC 0) / (RtoC 1 + - lrl h0 v0 k * RtoC 0)) by apply div1.
      apply toC_div; [tf|apply c1nz; ring|apply toC_plus; [tf|apply toC_opp; [tf|apply u_rl; lia]|exact I]|].
      apply toC_plus; [tf|apply toC_const; tf|]. apply toC_mult; [tf|apply toC_opp; [tf|apply u_rl; lia]|exact I]. }
    split; [exact A|]. intros K. replace (RtoC 0) with (lRu h0 v0 (S k) * RtoC 0) by ring. apply toC_mult; [tf|exact A|apply u_E2; lia].
Qed.
Lemma u_Msi : forall k, (k <= N)%nat -> toC (fun p => / Ms (hh p) (g p) (zz p) N k) (/ RtoC 1).
Proof using All.
  intros k Hk. apply toC_inv; [tf|apply c1nz; reflexivity|]. unfold Ms. destruct (Nat.eq_dec k N) as [-> | NE].
  - apply (toC_ext big (fun _ => RtoC 1)); [|apply toC_const; tf]. intros x. rewrite Rdn_N. ring.
  - apply (toC_ext big (fun p => RtoC 1 - Rup (hh p) (g p) (zz p) k * E2 (g p) (zz p) k * Rdn (hh p) (g p) (zz p) N k)); [intros; ring|].
    assert (E : RtoC 1 - RtoC 0 * lRd h0 v0 N k = RtoC 1) by ring. refine (eq_ind _ (fun l => toC _ l) _ _ E). apply toC_minus; [tf|apply toC_const; tf|]. apply toC_mult; [tf|apply u_Ru; lia|apply u_Rd; lia].
Qed.
Lemma ub_Rd : forall k, (k <= N)%nat -> ub (fun _ => 0%R) (fun p => Rdn (hh p) (g p) (zz p) N k).
Proof using All. intros k Hk. eapply ub_lim, u_Rd, Hk. Qed.
Lemma ub_Ru : forall k, (k <= N)%nat -> ub (fun _ => 0%R) (fun p => Rup (hh p) (g p) (zz p) k).
Proof using All. intros k Hk. eapply ub_lim, u_Ru, Hk. Qed.
Lemma ub_Msi : forall k, (k <= N)%nat -> ub (fun _ => 0%R) (fun p => / Ms (hh p) (g p) (zz p) N k).
Proof using All. intros k Hk. eapply ub_lim, u_Msi, Hk. Qed.
Lemma ub_tdn : forall k, (k < N)%nat -> ub (fun _ => 0%R) (fun p => tdn (hh p) (g p) (zz p) N k).
Proof using All.
  intros k Hk. eapply (ub_lim _ ((RtoC 1 + lRd h0 v0 N k) / (RtoC 1 + RtoC 0))). unfold tdn. apply toC_div; [tf|apply c1nz; ring| |]; (apply toC_plus; [tf|apply toC_const; tf|apply u_Rd; lia]).
Qed.
Lemma ub_tup : forall k, (k < N)%nat -> ub (fun _ => 0%R) (fun p => tup (hh p) (g p) (zz p) k).
Proof using All.
  intros k Hk. eapply (ub_lim _ ((RtoC 1 + lRu h0 v0 (S k)) / (RtoC 1 + RtoC 0))). unfold tup. apply toC_div; [tf|apply c1nz; ring| |]; (apply toC_plus; [tf|apply toC_const; tf|apply u_Ru; lia]).
Qed.
Let ut : forall t k, (1 <= k < N)%nat -> (0 < thick (z t) k)%R. Proof. intros t k Hk. unfold thick. pose proof (Hzt t k Hk). lra. Qed.


Section Depths.
Variables (zs zr : T -> R) (k r : nat).
Hypothesis (Kk : (k <= N)%nat) (Kr : (r <= N)%nat).
Hypothesis (LS : forall t, inlay (z t) N k (zs t)) (LR : forall t, inlay (z t) N r (zr t)).
Let s1 : (0 < k)%nat -> forall t, (z t k <= zs t)%R. Proof. intros H t. destruct (LS t) as (_ & A & _). now apply A. Qed.
Let s2 : (k < N)%nat -> forall t, (zs t <= z t (S k))%R. Proof. intros H t. destruct (LS t) as (_ & _ & A). now apply A. Qed.
Let r1 : (0 < r)%nat -> forall t, (z t r <= zr t)%R. Proof. intros H t. destruct (LR t) as (_ & A & _). now apply A. Qed.
Let r2 : (r < N)%nat -> forall t, (zr t <= z t (S r))%R. Proof. intros H t. destruct (LR t) as (_ & _ & A). now apply A. Qed.
Ltac am := apply Rmult_le_compat_l; [lra|].

Lemma ub_bsd : forall pm, (k < N)%nat -> ub (fun t => a * (z t (S k) - zs t))%R (fun p => bsd (hh p) (g p) (zz p) pm k (zs (fst p))).
Proof using All.
  intros pm Hk. unfold bsd. apply ub_plus; [apply (ub_dk k (fun t => z t (S k) - zs t)%R); [lia|intros t; pose proof (s2 Hk t); lra]|].
  destruct (Nat.eq_dec k 0) as [E|NE].
  - eapply ub_eq; [|apply ub_zero]. intros x. rewrite E. cbn [Rup]. ring.
  - apply ub_mult0; [apply ub_scal, ub_Ru; lia|]. eapply ub_weak; [apply (ub_dk k (fun t => thick (z t) k + (zs t - z t k))%R); [lia|]|];
      intros t; pose proof (s1 ltac:(lia) t); pose proof (s2 Hk t); pose proof (ut t k ltac:(lia)) as TT; cbn beta; [lra|]. am. unfold thick in *. lra.
Qed.
Lemma ub_bsu : forall pm, (0 < k)%nat -> ub (fun t => a * (zs t - z t k))%R (fun p => bsu (hh p) (g p) (zz p) N pm k (zs (fst p))).
Proof using All.
  intros pm Hk. unfold bsu. apply ub_plus; [apply (ub_dk k (fun t => zs t - z t k)%R); [lia|intros t; pose proof (s1 Hk t); lra]|].
  destruct (Nat.eq_dec k N) as [E|NE].
  - eapply ub_eq; [|apply ub_zero]. intros x. cbv beta. rewrite E, Rdn_N. ring.
  - apply ub_mult0; [apply ub_scal, ub_Rd; lia|]. eapply ub_weak; [apply (ub_dk k (fun t => thick (z t) k + (z t (S k) - zs t))%R); [lia|]|];
      intros t; pose proof (s1 Hk t); pose proof (s2 ltac:(lia) t); pose proof (ut t k ltac:(lia)) as TT; cbn beta; [lra|]. am. unfold thick in *. lra.
Qed.
Lemma ub_same : forall pm sg, k = r -> ub (fun t => a * Rabs (zs t - zr t))%R (fun p => G_same (hh p) (g p) (zz p) N pm sg k (zs (fst p)) (zr (fst p))).
Proof using All.
  intros pm sg EQ. unfold G_same. apply ub_plus.
  - destruct (Nat.eq_dec k N) as [E|NE].
    + eapply ub_eq; [|apply ub_zero]. intros x. cbv beta. rewrite E, Rdn_N. unfold Cdiv. ring.
    + eapply ub_weak; [apply (ub_mult (fun t => a * (z t (S k) - zs t))%R (fun t => a * (z t (S k) - zr t))%R)|].
      * unfold Cdiv. apply ub_mult0r; [|apply ub_Msi; lia]. apply ub_mult0; [apply ub_Rd; lia|apply ub_bsd; lia].
      * apply (ub_dk k (fun t => z t (S k) - zr t)%R); [lia|]. intros t. pose proof (r2 ltac:(lia) t) as Q. rewrite <- EQ in Q. lra.
      * intros t. cbn beta. rewrite <- Rmult_plus_distr_l. am. pose proof (r2 ltac:(lia) t) as Q. rewrite <- EQ in Q. pose proof (s2 ltac:(lia) t). unfold Rabs. destruct (Rcase_abs _); lra.
  - apply ub_scal. destruct (Nat.eq_dec k 0) as [E|NE].
    + eapply ub_eq; [|apply ub_zero]. intros x. cbv beta. rewrite E. cbn [Rup]. unfold Cdiv. ring.
    + eapply ub_weak; [apply (ub_mult (fun t => a * (zs t - z t k))%R (fun t => a * (zr t - z t k))%R)|].
      * unfold Cdiv. apply ub_mult0r; [|apply ub_Msi; lia]. apply ub_mult0; [apply ub_Ru; lia|apply ub_bsu; lia].
      * apply (ub_dk k (fun t => zr t - z t k)%R); [lia|]. intros t. pose proof (r1 ltac:(lia) t) as Q. rewrite <- EQ in Q. lra.
      * intros t. cbn beta. rewrite <- Rmult_plus_distr_l. am. pose proof (r1 ltac:(lia) t) as Q. rewrite <- EQ in Q. pose proof (s1 ltac:(lia) t). unfold Rabs. destruct (Rcase_abs _); lra.
Qed.
Lemma ub_prod_dn : forall n j, (0 < j)%nat -> (j + n <= N)%nat -> ub (fun t => a * (z t (j + n)%nat - z t j))%R (fun p => prodC (fun i => E1 (g p) (zz p) i * tdn (hh p) (g p) (zz p) N i) j n).
Proof using All.
  induction n; intros j K0 Hk; cbn [prodC].
  - rewrite Nat.add_0_r. eapply ub_weak; [apply ub_const|]. intros t. cbn beta. lra.
  - eapply ub_weak; [apply (ub_mult (fun t => a * thick (z t) j)%R (fun t => a * (z t (S j + n)%nat - z t (S j)))%R)|].
    + apply ub_mult0r; [|apply ub_tdn; lia]. unfold E1. apply (ub_dk j (fun t => thick (z t) j)); [lia|]. intros t. left. apply ut. lia.
    + apply IHn; lia.
    + intros t. cbn beta. unfold thick. replace (S j + n)%nat with (j + S n)%nat by lia. right. ring.
Qed.
Lemma ub_prod_up : forall n j, (0 < j)%nat -> (j + n <= N)%nat -> ub (fun t => a * (z t (j + n)%nat - z t j))%R (fun p => prodC (fun i => E1 (g p) (zz p) i * tup (hh p) (g p) (zz p) (i - 1)) j n).
Proof using All.
  induction n; intros j K0 Hk; cbn [prodC].
  - rewrite Nat.add_0_r. eapply ub_weak; [apply ub_const|]. intros t. cbn beta. lra.
  - eapply ub_weak; [apply (ub_mult (fun t => a * thick (z t) j)%R (fun t => a * (z t (S j + n)%nat - z t (S j)))%R)|].
    + apply ub_mult0r; [|apply ub_tup; lia]. unfold E1. apply (ub_dk j (fun t => thick (z t) j)); [lia|]. intros t. left. apply ut. lia.
    + apply IHn; lia.
    + intros t. cbn beta. unfold thick. replace (S j + n)%nat with (j + S n)%nat by lia. right. ring.
Qed.
Lemma ub_dn : forall pm sg, (k < r)%nat -> ub (fun t => a * (zr t - zs t))%R (fun p => G_dn (hh p) (g p) (zz p) N pm sg k r (zs (fst p)) (zr (fst p))).
Proof using All.
  intros pm sg Hkr. pose proof (s2 ltac:(lia)) as S2. pose proof (r1 ltac:(lia)) as R1.
  unfold G_dn, amp_dn. eapply ub_weak; [apply (ub_mult (fun t => a * (z t r - zs t))%R (fun t => a * (zr t - z t r))%R)|].
  - eapply ub_weak; [apply (ub_mult (fun t => a * (z t (S k) - zs t))%R (fun t => a * (z t (S k + (r - S k))%nat - z t (S k)))%R)|].
    + apply ub_mult0r; [|apply ub_tdn; lia]. unfold Cdiv. apply ub_mult0r; [apply ub_bsd; lia|apply ub_Msi; lia].
    + apply ub_prod_dn; lia.
    + intros t. cbn beta. replace (S k + (r - S k))%nat with r by lia. right. ring.
  - apply ub_plus; [apply ub_scal, (ub_dk r (fun t => zr t - z t r)%R); [lia|intros t; specialize (R1 t); lra]|]. destruct (Nat.eq_dec r N) as [E|NE].
    + eapply ub_eq; [|apply ub_zero]. intros x. cbv beta. rewrite E, Rdn_N. ring.
    + pose proof (r2 ltac:(lia)) as R2. eapply ub_weak; [apply (ub_mult (fun t => a * thick (z t) r)%R (fun t => a * (z t (S r) - zr t))%R)|].
      * apply ub_mult0; [apply ub_Rd; lia|]. unfold E1. apply (ub_dk r (fun t => thick (z t) r)); [lia|]. intros t. left. apply ut. lia.
      * apply (ub_dk r (fun t => z t (S r) - zr t)%R); [lia|intros t; specialize (R2 t); lra].
      * intros t. cbn beta. rewrite <- Rmult_plus_distr_l. am. specialize (R2 t). unfold thick in *. lra.
  - intros t. cbn beta. right. ring.
Qed.
Lemma ub_up : forall pm sg, (r < k)%nat -> ub (fun t => a * (zs t - zr t))%R (fun p => G_up (hh p) (g p) (zz p) N pm sg k r (zs (fst p)) (zr (fst p))).
Proof using All.
  intros pm sg Hkr. pose proof (s1 ltac:(lia)) as S1. pose proof (r2 ltac:(lia)) as R2.
  unfold G_up, amp_up. eapply ub_weak; [apply (ub_mult (fun t => a * (zs t - z t (S r)))%R (fun t => a * (z t (S r) - zr t))%R)|].
  - eapply ub_weak; [apply (ub_mult (fun t => a * (zs t - z t k))%R (fun t => a * (z t (S r + (k - S r))%nat - z t (S r)))%R)|].
    + apply ub_mult0r; [|apply ub_tup; lia]. unfold Cdiv. apply ub_mult0r; [apply ub_scal, ub_bsu; lia|apply ub_Msi; lia].
    + apply ub_prod_up; lia.
    + intros t. cbn beta. replace (S r + (k - S r))%nat with k by lia. right. ring.
  - apply ub_plus; [apply (ub_dk r (fun t => z t (S r) - zr t)%R); [lia|intros t; specialize (R2 t); lra]|]. destruct (Nat.eq_dec r 0) as [E|NE].
    + eapply ub_eq; [|apply ub_zero]. intros x. cbv beta. rewrite E. cbn [Rup]. ring.
    + pose proof (r1 ltac:(lia)) as R1. eapply ub_weak; [apply (ub_mult (fun t => a * thick (z t) r)%R (fun t => a * (zr t - z t r))%R)|].
      * apply ub_mult0; [apply ub_scal, ub_Ru; lia|]. unfold E1. apply (ub_dk r (fun t => thick (z t) r)); [lia|]. intros t. left. apply ut. lia.
      * apply (ub_dk r (fun t => zr t - z t r)%R); [lia|intros t; specialize (R1 t); lra].
      * intros t. cbn beta. rewrite <- Rmult_plus_distr_l. am. specialize (R1 t). unfold thick in *. lra.
  - intros t. cbn beta. right. ring.
Qed.
Lemma ub_dsgn : forall pm sg (f : T -> R), ub (fun _ => 0%R) (fun p => dsgn pm sg (f (fst p))).
Proof using FF.
  intros pm sg f. unfold dsgn. apply ub_scal. destruct (Ceq_dec (pm * sg) 1); [apply ub_const|]. exists 1%R, 0%nat. split; [lra|]. apply filter_forall. intros p.
  replace (- (0 * snd p))%R with 0%R by ring. rewrite exp_0. cbn [pow]. rewrite !Rmult_1_r, Cmod_R. unfold Rsign. repeat destruct (Rlt_dec _ _); unfold Rabs; destruct (Rcase_abs _); lra.
Qed.
Theorem ub_mode : forall pm sg xd, ub (fun t => a * Rabs (zs t - zr t))%R (fun p => G_mode (hh p) (g p) (zz p) N pm sg k r (zs (fst p)) (zr (fst p)) xd).
Proof using All.
  intros pm sg xd. unfold G_mode. destruct (Nat.eqb_spec k r) as [E|NE].
  - apply ub_plus; [now apply ub_same|]. destruct xd; [apply ub_zero|]. unfold G_dir. apply ub_mult0r; [apply (ub_dk k (fun t => Rabs (zs t - zr t))); [exact Kk|intros t; apply Rabs_pos]|apply (ub_dsgn pm sg (fun t => zr t - zs t)%R)].
  - destruct (Nat.ltb_spec r k) as [H|H].
    + eapply ub_weak; [now apply ub_up|]. intros t. cbn beta. pose proof (s1 ltac:(lia) t). pose proof (r2 ltac:(lia) t). pose proof (z_incr (z t) N (Hzt t) (S r) k ltac:(lia) ltac:(lia)). rewrite Rabs_pos_eq; lra.
    + eapply ub_weak; [apply ub_dn; lia|]. intros t. cbn beta. pose proof (s2 ltac:(lia) t). pose proof (r1 ltac:(lia) t). pose proof (z_incr (z t) N (Hzt t) (S k) r ltac:(lia) ltac:(lia)). rewrite Rabs_left1; lra.
Qed.
End Depths.
End Stack.
End Big.
