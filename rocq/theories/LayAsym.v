(** Continuity and growth in the wavenumber of the Green's function of one mode.

    [asy f l]: f is continuous and tends to l.  [eb c f]: f is continuous and
    bounded on [0, oo) by a polynomial times exp(-c x). *)

From Coq Require Import Reals ZArith List Bool Lia Lra Psatz.
From Coquelicot Require Import Coquelicot.
From Verif Require Import PyBase CBase ODE Kernel KernelSpec KernelRefl KernelClosed KernelPhys KernelPassive KernelBVP KernelMain
  FullspaceField FullspaceMaxwell FullspaceCurl Bessel Cint Hankel Sommer Sommer2 Sommer3 Homog.
Import ListNotations.
Local Open Scope R_scope.
Local Open Scope C_scope.

(** ** Calculus *)
Lemma cC_inv : forall f, cC f -> (forall x, f x <> RtoC 0) -> cC (fun x => / f x).
Proof.
  intros f H NZ.
  assert (D : forall x, (fst (f x) ^ 2 + snd (f x) ^ 2 <> 0)%R).
  { intros x W. apply (NZ x). destruct (f x) as [a b]. cbn [fst snd] in W. assert (a = 0%R) by nra. assert (b = 0%R) by nra. subst. reflexivity. }
  assert (CD : forall x, continuous (fun t => (fst (f t) ^ 2 + snd (f t) ^ 2)%R) x).
  { intros x. apply (continuous_plus (V := R_NormedModule) (fun t => fst (f t) ^ 2)%R (fun t => snd (f t) ^ 2)%R).
    - apply (continuous_ext (fun t => fst (f t) * fst (f t))%R); [intros t; cbn [pow]; match goal with |- ?a = ?b => change (@eq R a b) end; ring|]. apply (continuous_mult (K := R_AbsRing)); apply (cC_fst f H).
    - apply (continuous_ext (fun t => snd (f t) * snd (f t))%R); [intros t; cbn [pow]; match goal with |- ?a = ?b => change (@eq R a b) end; ring|]. apply (continuous_mult (K := R_AbsRing)); apply (cC_snd f H). }
  apply cC_pair; intros x; unfold Cinv; cbn [fst snd]; unfold Rdiv; apply (continuous_mult (K := R_AbsRing)).
  - apply (cC_fst f H).
  - apply (continuous_Rinv_comp (fun t => (fst (f t) ^ 2 + snd (f t) ^ 2)%R)); [apply CD|apply D].
  - apply (continuous_opp (V := R_NormedModule) (fun t => snd (f t))), (cC_snd f H).
  - apply (continuous_Rinv_comp (fun t => (fst (f t) ^ 2 + snd (f t) ^ 2)%R)); [apply CD|apply D].
Qed.
Lemma cC_div : forall f g, cC f -> cC g -> (forall x, g x <> RtoC 0) -> cC (fun x => f x / g x).
Proof. intros f g H1 H2 NZ. unfold Cdiv. apply cC_mult; [exact H1|now apply cC_inv]. Qed.

Lemma cC_ext : forall f g, (forall x, f x = g x) -> cC f -> cC g.
Proof. intros f g E H x. unfold contC. rewrite <- E. eapply limC_ext_loc; [|apply H]. apply filter_forall. exact E. Qed.

Definition asy (f : R -> C) (l : C) : Prop := cC f /\ limC f pinf l.
Lemma asy_const : forall c, asy (fun _ => c) c.
Proof. intros c. split; [apply cC_const|apply limC_const]. Qed.
Lemma asy_plus : forall f g a b, asy f a -> asy g b -> asy (fun x => f x + g x) (a + b).
Proof. intros f g a b [H1 H2] [H3 H4]. split; [now apply cC_plus|now apply limC_plus]. Qed.
Lemma asy_minus : forall f g a b, asy f a -> asy g b -> asy (fun x => f x - g x) (a - b).
Proof. intros f g a b [H1 H2] [H3 H4]. split; [now apply cC_minus|now apply limC_minus]. Qed.
Lemma asy_mult : forall f g a b, asy f a -> asy g b -> asy (fun x => f x * g x) (a * b).
Proof. intros f g a b [H1 H2] [H3 H4]. split; [now apply cC_mult|now apply limC_mult]. Qed.
Lemma asy_ext : forall f g l, (forall x, f x = g x) -> asy f l -> asy g l.
Proof.
  intros f g l E [H1 H2]. split.
  - intros x. unfold contC. rewrite <- E. eapply limC_ext_loc; [|apply H1]. apply filter_forall. exact E.
  - eapply limC_ext_loc; [|exact H2]. apply filter_forall. exact E.
Qed.
Lemma asy_eq : forall f a b, asy f a -> a = b -> asy f b. Proof. intros; subst; assumption. Qed.
Lemma asy_opp : forall f a, asy f a -> asy (fun x => - f x) (- a).
Proof.
  intros f a H. apply (asy_ext (fun x => (- RtoC 1) * f x)); [intros; ring|]. eapply asy_eq; [apply asy_mult; [apply asy_const|exact H]|ring].
Qed.
Lemma Cmod_tri_low : forall a b : C, (Cmod b - Cmod (a - b)%C <= Cmod a)%R.
Proof. intros a b. pose proof (Cmod_triangle a (b - a)%C) as T. replace (a + (b - a)) with b in T by ring. replace (b - a) with (- (a - b)) in T by ring. rewrite Cmod_opp in T. lra. Qed.
Lemma asy_inv : forall f l, asy f l -> (forall x, f x <> RtoC 0) -> l <> RtoC 0 -> asy (fun x => / f x) (/ l).
Proof.
  intros f l [H1 H2] NZ NL. split; [now apply cC_inv|]. apply limC_eps. intros e He.
  assert (P : (0 < Cmod l)%R) by now apply Cmod_gt_0.
  destruct (proj1 (limC_eps f l) H2 (Rmin (Cmod l / 2) (e * (Cmod l * Cmod l) / 2))) as [T0 HT].
  { apply Rmin_glb_lt; [lra|]. apply Rdiv_lt_0_compat; [|lra]. apply Rmult_lt_0_compat; [exact He|]. now apply Rmult_lt_0_compat. }
  exists T0. intros T L. specialize (HT T L). pose proof (Rmin_l (Cmod l / 2) (e * (Cmod l * Cmod l) / 2)) as M1. pose proof (Rmin_r (Cmod l / 2) (e * (Cmod l * Cmod l) / 2)) as M2.
  pose proof (Cmod_tri_low (f T) l) as LO. specialize (NZ T).
  replace (/ f T - / l) with (- (f T - l) * / (f T * l)) by (field; split; assumption).
  rewrite Cmod_mult, Cmod_opp, Cmod_inv by (now apply Cmult_neq_0). rewrite Cmod_mult.
  set (d := Cmod (f T - l)%C) in *. assert (Q : (0 < Cmod (f T))%R) by now apply Cmod_gt_0.
  apply (Rmult_lt_reg_r (Cmod (f T) * Cmod l)); [now apply Rmult_lt_0_compat|].
  replace (d * / (Cmod (f T) * Cmod l) * (Cmod (f T) * Cmod l))%R with d by (field; lra).
  apply Rlt_le_trans with (e * (Cmod l * Cmod l) / 2)%R; [lra|].
  replace (e * (Cmod l * Cmod l) / 2)%R with (e * (Cmod l / 2 * Cmod l))%R by field. apply Rmult_le_compat_l; [lra|]. apply Rmult_le_compat_r; lra.
Qed.
Lemma asy_div : forall f g a b, asy f a -> asy g b -> (forall x, g x <> RtoC 0) -> b <> RtoC 0 -> asy (fun x => f x / g x) (a / b).
Proof. intros f g a b H1 H2 NZ NL. unfold Cdiv. apply asy_mult; [exact H1|now apply asy_inv]. Qed.

Definition eb (c : R) (f : R -> C) : Prop :=
  cC f /\ exists (M : R) (n : nat), (0 <= M)%R /\ forall x : R, (0 <= x)%R -> (Cmod (f x) <= M * (1 + x) ^ n * exp (- (c * x)))%R.
Lemma eb_cC : forall c f, eb c f -> cC f. Proof. intros c f [H _]. exact H. Qed.
Lemma asy_eb : forall f l, asy f l -> eb 0 f.
Proof.
  intros f l [H1 H2]. split; [exact H1|]. destruct (proj1 (limC_eps f l) H2 1%R ltac:(lra)) as [T0 HT].
  destruct (bounded_continuity (V := R_NormedModule) (fun x => fst (f x)) 0 (Rmax T0 0 + 1)) as [M1 B1]; [intros x _; apply (cC_fst f H1)|].
  destruct (bounded_continuity (V := R_NormedModule) (fun x => snd (f x)) 0 (Rmax T0 0 + 1)) as [M2 B2]; [intros x _; apply (cC_snd f H1)|].
  exists (2 * Rmax (Rabs M1) (Rabs M2) + Cmod l + 1)%R, 0%nat. pose proof (Cmod_ge_0 l) as L0. pose proof (Rabs_pos M1) as A1. pose proof (Rmax_l (Rabs M1) (Rabs M2)) as X1. pose proof (Rmax_r (Rabs M1) (Rabs M2)) as X2.
  split; [lra|]. intros x Hx. replace (- (0 * x))%R with 0%R by ring. rewrite exp_0. cbn [pow]. rewrite !Rmult_1_r.
  destruct (Rle_lt_dec x (Rmax T0 0 + 1)) as [L|L].
  - specialize (B1 x (conj Hx L)). specialize (B2 x (conj Hx L)). change (Rabs (fst (f x)) < M1)%R in B1. change (Rabs (snd (f x)) < M2)%R in B2.
    pose proof (Rle_abs M1). pose proof (Rle_abs M2). pose proof (Cmod_small (f x)) as S.
    assert (Rmax (Rabs (fst (f x))) (Rabs (snd (f x))) <= Rmax (Rabs M1) (Rabs M2))%R by (apply Rmax_lub; lra). lra.
  - pose proof (Rmax_l T0 0) as Y. specialize (HT x ltac:(lra)). pose proof (Cmod_triangle (f x - l)%C l) as T. replace (f x - l + l) with (f x) in T by ring. lra.
Qed.
Lemma eb_mult : forall c d f g, eb c f -> eb d g -> eb (c + d) (fun x => f x * g x).
Proof.
  intros c d f g [H1 (M & n & HM & Hf)] [H2 (K & m & HK & Hg)]. split; [now apply cC_mult|]. exists (M * K)%R, (n + m)%nat. split; [now apply Rmult_le_pos|].
  intros x Hx. rewrite Cmod_mult, pow_add. replace (- ((c + d) * x))%R with (- (c * x) + - (d * x))%R by ring. rewrite exp_plus.
  replace (M * K * ((1 + x) ^ n * (1 + x) ^ m) * (exp (- (c * x)) * exp (- (d * x))))%R with ((M * (1 + x) ^ n * exp (- (c * x))) * (K * (1 + x) ^ m * exp (- (d * x))))%R by ring.
  apply Rmult_le_compat; auto using Cmod_ge_0.
Qed.
Lemma eb_weak : forall c d f, eb c f -> (d <= c)%R -> eb d f.
Proof.
  intros c d f [H1 (M & n & HM & Hf)] L. split; [exact H1|]. exists M, n. split; [exact HM|]. intros x Hx. eapply Rle_trans; [apply Hf, Hx|].
  apply Rmult_le_compat_l; [apply Rmult_le_pos; [exact HM|apply pow_le; lra]|]. apply exp_le_mono. apply Ropp_le_contravar, Rmult_le_compat_r; assumption.
Qed.
Lemma eb_plus : forall c f g, eb c f -> eb c g -> eb c (fun x => f x + g x).
Proof.
  intros c f g [H1 (M & n & HM & Hf)] [H2 (K & m & HK & Hg)]. split; [now apply cC_plus|]. exists (M + K)%R, (n + m)%nat. split; [lra|].
  intros x Hx. eapply Rle_trans; [apply Cmod_triangle|]. rewrite Rmult_plus_distr_r, Rmult_plus_distr_r. apply Rplus_le_compat.
  - eapply Rle_trans; [apply Hf, Hx|]. apply Rmult_le_compat_r; [left; apply exp_pos|]. apply Rmult_le_compat_l; [exact HM|]. apply Rle_pow; [lra|lia].
  - eapply Rle_trans; [apply Hg, Hx|]. apply Rmult_le_compat_r; [left; apply exp_pos|]. apply Rmult_le_compat_l; [exact HK|]. apply Rle_pow; [lra|lia].
Qed.
Lemma eb_ext : forall c f g, (forall x, f x = g x) -> eb c f -> eb c g.
Proof.
  intros c f g E [H1 (M & n & HM & Hf)]. split.
  - intros x. unfold contC. rewrite <- E. eapply limC_ext_loc; [|apply H1]. apply filter_forall. exact E.
  - exists M, n. split; [exact HM|]. intros x Hx. rewrite <- E. now apply Hf.
Qed.
Lemma eb_const : forall a, eb 0 (fun _ => a). Proof. intros a. eapply asy_eb, asy_const. Qed.
Lemma eb_scal : forall c a f, eb c f -> eb c (fun x => a * f x).
Proof. intros c a f H. eapply eb_weak; [apply eb_mult; [apply (eb_const a)|exact H]|lra]. Qed.
Lemma eb_mult0 : forall c f g, eb 0 f -> eb c g -> eb c (fun x => f x * g x).
Proof. intros. eapply eb_weak; [apply eb_mult; eassumption|lra]. Qed.
Lemma eb_mult0r : forall c f g, eb c f -> eb 0 g -> eb c (fun x => f x * g x).
Proof. intros. eapply eb_weak; [apply eb_mult; eassumption|lra]. Qed.
Lemma eb_opp : forall c f, eb c f -> eb c (fun x => - f x).
Proof. intros c f H. eapply eb_ext; [|apply (eb_scal c (- RtoC 1)); exact H]. intros; cbv beta; ring. Qed.
Lemma eb_minus : forall c f g, eb c f -> eb c g -> eb c (fun x => f x - g x).
Proof. intros c f g H1 H2. apply (eb_plus c f (fun x => - g x)); [exact H1|now apply eb_opp]. Qed.
Lemma eb_zero : forall c, eb c (fun _ => RtoC 0).
Proof. intros c. split; [apply cC_const|]. exists 0%R, 0%nat. split; [lra|]. intros x _. rewrite Cmod_0. lra. Qed.
Lemma eb_id : eb 0 RtoC.
Proof. split; [apply cC_id|]. exists 1%R, 1%nat. split; [lra|]. intros x Hx. rewrite Cmod_R, Rabs_pos_eq by lra. replace (- (0 * x))%R with 0%R by ring. rewrite exp_0. cbn [pow]. lra. Qed.
Lemma eb_R : forall f : R -> R, (forall x, continuous f x) -> (forall x, (Rabs (f x) <= 1)%R) -> eb 0 (fun x => RtoC (f x)).
Proof. intros f H1 H2. split; [now apply cC_R|]. exists 1%R, 0%nat. split; [lra|]. intros x _. rewrite Cmod_R. replace (- (0 * x))%R with 0%R by ring. rewrite exp_0. cbn [pow]. rewrite !Rmult_1_r. apply H2. Qed.
(** negative exponents may be absorbed *)
Lemma eb_neg : forall c f, eb c f -> (0 <= c)%R -> eb 0 f. Proof. intros. now apply (eb_weak c). Qed.

(** ** Vertical wavenumber *)
(** what a mode needs to know about one layer *)
Record mlayer (h v q : C) : Prop := {
  ml_h : quad1 h; ml_v : quad1 v; ml_q : quad1 q;
  ml_r : (0 < fst (h / v)%C)%R; ml_g : offcut (q * v); ml_g0 : offcut (q * h) }.

Section Layer.
Variables (h v q : C).
Hypothesis ML : mlayer h v q.
Definition lg (lam : R) : C := Csqrt (h / v * RtoC (lam * lam) + q * h).
Notation s := (ms h v).
Let b := mbe v q.
Lemma lg_even : forall lam, lg (- lam) = lg lam.
Proof. intros. unfold lg. now replace (- lam * - lam)%R with (lam * lam)%R by ring. Qed.
Lemma lg_prod : forall lam, lg lam = s * b lam.
Proof using ML.
  intros lam. destruct ML as [Qh Qv Qq Hr Hg Hg0]. destruct (Rtotal_order lam 0) as [L | [-> | L]].
  - rewrite <- lg_even. unfold lg. rewrite (Gam_prod h v q 1 1 Qh Qv Qq Hr Hg Rlt_0_1 Rlt_0_1) by lra. f_equal. unfold b, mbe, root. now replace (- lam * - lam)%R with (lam * lam)%R by ring.
  - pose proof (ms_pos h v Hr) as P1. pose proof (root_pos (q * v) Hg 0) as B1. fold (mbe v q 0) in B1.
    assert (B2 : (0 <= snd (mbe v q 0))%R). { unfold mbe, root. apply Csqrt_upper. cbn [Cplus RtoC snd]. pose proof (quad1_mult_im q v Qq Qv). lra. }
    assert (SQ : s * mbe v q 0 * (s * mbe v q 0) = h / v * RtoC (0 * 0) + q * h).
    { transitivity (s * s * (mbe v q 0 * mbe v q 0)); [ring|]. rewrite ms_sq. unfold mbe. rewrite (root_sq (q * v) Hg). field. apply Qv. }
    unfold lg. apply Csqrt_uniq; [exact SQ|].
    replace (h / v * RtoC (0 * 0) + q * h) with (q * h) in SQ by (rewrite Rmult_0_l; ring).
    pose proof (quad1_mult_im q h Qq Qh) as I. set (w := q * h) in *. clearbody w. unfold b. set (m := ms h v) in *. set (r := mbe v q 0) in *. clearbody m r. destruct m as [h1 h2], r as [b1 b2], w as [w1 w2].
    pose proof (f_equal fst SQ) as S1. pose proof (f_equal snd SQ) as S2. cbn [fst snd Cmult] in *. unfold offcut in Hg0. cbn [fst snd] in Hg0.
    destruct (Rle_lt_dec h2 0) as [N0|N0]; [nra|]. assert (X : (0 < h1 * b2 + h2 * b1)%R) by nra.
    set (u := (h1 * b1 - h2 * b2)%R) in *. set (t := (h1 * b2 + h2 * b1)%R) in *. destruct (Rle_lt_dec u 0) as [U|U]; [exfalso|exact U].
    assert (w2 = 0 \/ w2 < 0)%R as [W|W] by nra; [|lra]. assert (u = 0%R) by nra. destruct Hg0; nra.
  - unfold lg. now rewrite (Gam_prod h v q 1 1 Qh Qv Qq Hr Hg Rlt_0_1 Rlt_0_1) by lra.
Qed.
Lemma b_nz : forall lam, b lam <> RtoC 0. Proof using ML. intros. apply (root_nz (q * v)), ML. Qed.
Lemma s_nz : s <> RtoC 0. Proof using ML. apply ms_nz, ML. Qed.
Lemma lg_nz : forall lam, lg lam <> RtoC 0.
Proof using ML. intros. rewrite lg_prod. apply Cmult_neq_0; [apply s_nz|apply b_nz]. Qed.
Lemma lg_cont : cC lg.
Proof using ML.
  apply (cC_ext (fun l => s * b l)); [intros; symmetry; apply lg_prod|]. apply cC_mult; [apply cC_const|]. apply (cC_derive b (droot (q * v))). apply root_derive, ML.
Qed.
Lemma b_near : forall x, (0 <= x)%R -> (Cmod (Cminus (b x) (RtoC x)) <= sqrt (Cmod (q * v)%C))%R.
Proof using ML. apply (root_near (q * v)), ML. Qed.
Lemma eb_lg : eb 0 lg.
Proof using ML.
  split; [exact lg_cont|]. set (K := sqrt (Cmod (q * v)%C)). assert (K0 : (0 <= K)%R) by apply sqrt_pos. exists (Cmod s * (1 + K))%R, 1%nat. split; [apply Rmult_le_pos; [apply Cmod_ge_0|lra]|].
  intros x Hx. replace (- (0 * x))%R with 0%R by ring. rewrite exp_0. cbn [pow]. rewrite !Rmult_1_r. rewrite lg_prod, Cmod_mult, Rmult_assoc. apply Rmult_le_compat_l; [apply Cmod_ge_0|].
  pose proof (b_near x Hx) as B. fold K in B. pose proof (Cmod_triangle (b x - RtoC x)%C (RtoC x)) as T. replace (b x - RtoC x + RtoC x) with (b x) in T by ring. rewrite Cmod_R, Rabs_pos_eq in T by lra. nra.
Qed.
Lemma lg_low : exists K : R, (0 <= K)%R /\ forall x : R, (0 <= x)%R -> (fst s * x - K <= fst (lg x))%R.
Proof using ML.
  exists (Cmod s * sqrt (Cmod (q * v)%C))%R. split; [apply Rmult_le_pos; [apply Cmod_ge_0|apply sqrt_pos]|]. intros x Hx. rewrite lg_prod.
  replace (s * b x) with (s * RtoC x + s * (b x - RtoC x)) by ring. pose proof (b_near x Hx) as B.
  pose proof (fst_le_Cmod (s * (b x - RtoC x))%C) as F. rewrite Cmod_mult in F. pose proof (Rmult_le_compat_l (Cmod s) _ _ (Cmod_ge_0 s) B) as M.
  set (w := s * (b x - RtoC x)) in *. replace (fst (s * RtoC x + w)) with (fst s * x + fst w)%R by (unfold Cplus, Cmult, RtoC; cbn [fst snd]; ring).
  pose proof (Rabs_maj2 (fst w)). lra.
Qed.
Lemma eb_dec : forall d, (0 <= d)%R -> eb (fst s * d) (fun x => Cexp (- (lg x * RtoC d))).
Proof using ML.
  intros d Hd. split; [pose proof lg_cont; cct|]. destruct lg_low as (K & K0 & L). exists (exp (K * d))%R, 0%nat. split; [left; apply exp_pos|]. intros x Hx. cbn [pow]. rewrite Rmult_1_r.
  eapply Rle_trans; [apply Cmod_exp_le|]. rewrite <- exp_plus. apply exp_le_mono. specialize (L x Hx).
  replace (fst (- (lg x * RtoC d))) with (- (fst (lg x) * d))%R by (unfold Copp, Cmult, RtoC; cbn [fst snd]; ring).
  pose proof (Rmult_le_compat_r d _ _ Hd L). nra.
Qed.
Lemma eb_lim0 : forall c f, eb c f -> (0 < c)%R -> asy f (RtoC 0).
Proof.
  intros c f [H1 (M & n & HM & Hf)] Hc. split; [exact H1|].
  apply (limC_bound f (RtoC 0) (fun T => (M * exp c) * ((1 + T) ^ n * exp (- (c * (1 + T)))))%R 0).
  - intros T HT. replace (f T - RtoC 0) with (f T) by ring. eapply Rle_trans; [apply Hf; lra|]. right.
    replace (- (c * T))%R with (c + - (c * (1 + T)))%R by ring. rewrite exp_plus. ring.
  - apply (filterlim_comp _ _ _ (fun T => 1 + T)%R (fun u => M * exp c * (u ^ n * exp (- (c * u))))%R pinf pinf).
    + intros P [T0 HP]. exists T0. intros x Hx. apply HP. lra.
    + now apply (pow_dec_lim (M * exp c) n c).
Qed.
Lemma s_re : (0 < fst s)%R. Proof using ML. apply ms_pos, ML. Qed.
Lemma asy_dec : forall d, (0 <= d)%R -> exists l, asy (fun x => Cexp (- (lg x * RtoC d))) l /\ ((0 < d)%R -> l = RtoC 0).
Proof using ML.
  intros d Hd. destruct (Req_dec d 0) as [-> | N].
  - exists (RtoC 1). split; [|lra]. apply (asy_ext (fun _ => RtoC 1)); [|apply asy_const]. intros x. replace (- (lg x * RtoC 0)) with (RtoC 0) by ring. symmetry. apply Cexp_0.
  - exists (RtoC 0). split; [|reflexivity]. apply (eb_lim0 (fst s * d)); [now apply eb_dec|]. apply Rmult_lt_0_compat; [apply s_re|lra].
Qed.
(** admittance at large wavenumbers *)
Lemma s_quad : (0 <= fst (s / h)%C)%R /\ (snd (s / h)%C <= 0)%R /\ s / h <> RtoC 0.
Proof using ML.
  destruct ML as [Qh Qv Qq Hr Hg Hg0]. pose proof (ms_pos h v Hr) as P. pose proof (ms_sq h v) as SQ. assert (Hh : h <> RtoC 0) by apply Qh. assert (Hv : v <> RtoC 0) by apply Qv.
  assert (NZ : s / h <> RtoC 0). { intros W. apply (ms_nz h v Hr). replace s with (s / h * h) by (field; exact Hh). rewrite W. ring. }
  set (y := s / h) in *. assert (E1 : y * h = s) by (unfold y; field; exact Hh). assert (E2 : y * y * (h * v) = RtoC 1).
  { transitivity ((y * h) * (y * h) * (v / h)); [field; exact Hh|]. rewrite E1, SQ. field. split; assumption. }
  pose proof (quad1_mult_im h v Qh Qv) as I. set (p := h * v) in *. clearbody p. rewrite <- E1 in P. clearbody y. destruct Qh as (h1 & h2 & _). destruct y as [y1 y2], h as [a b'], p as [p1 p2]. cbn [fst snd Cmult] in *.
  pose proof (f_equal fst E2) as F1. pose proof (f_equal snd E2) as F2. cbn [fst snd Cmult RtoC] in F1, F2.
  assert (K : (y1 * y2 <= 0)%R).
  { set (A := (y1 * y1 - y2 * y2)%R) in *. set (B := (y1 * y2 + y2 * y1)%R) in *. assert (B <= 0)%R; [|unfold B in *; lra].
    destruct (Rle_lt_dec B 0) as [|Q]; [assumption|exfalso]. assert (p2 = 0 \/ 0 < p2)%R as [Z|Z] by lra; [rewrite Z in *; assert (p1 = 0%R) by nra; subst; nra|].
    assert (0 < A)%R by nra. assert (p1 < 0)%R by nra. nra. }
  repeat split; [| |exact NZ].
  - destruct (Rle_lt_dec 0 y1) as [|Q]; [assumption|exfalso]. assert (0 <= y2)%R by nra. nra.
  - destruct (Rle_lt_dec y2 0) as [|Q]; [assumption|exfalso]. assert (y1 <= 0)%R by nra. nra.
Qed.

(** the wavenumber scale, without zeros *)
Lemma off1 : offcut (RtoC 1). Proof. left. cbn. lra. Qed.
Notation rho := (root (RtoC 1)).
Lemma rho_nz : forall x, rho x <> RtoC 0. Proof. apply root_nz, off1. Qed.
Lemma rho_near : forall x, (0 <= x)%R -> (Cmod (Cminus (rho x) (RtoC x)) <= 1)%R.
Proof. intros x Hx. pose proof (root_near (RtoC 1) off1 x Hx) as H. rewrite Cmod_1, sqrt_1 in H. exact H. Qed.
Lemma cC_rho : cC rho. Proof. apply (cC_derive rho (droot (RtoC 1))). apply root_derive, off1. Qed.
Lemma inv_lim : forall K, filterlim (fun T => K / (T - 1))%R pinf (locally 0%R).
Proof.
  intros K. apply (is_lim_ext_loc (fun T => K * / (T - 1))%R (fun T => K / (T - 1))%R p_infty 0%R); [exists 2%R; intros; reflexivity|].
  replace (Finite 0) with (Rbar_mult K 0) by (cbn; f_equal; ring). apply is_lim_scal_l.
  replace (Finite 0) with (Rbar_inv p_infty) by reflexivity. apply is_lim_inv; [|discriminate].
  apply (is_lim_ext (fun T => T + (-1))%R); [intros; ring|]. apply (is_lim_plus _ _ _ p_infty (-1)%R); [apply is_lim_id|apply is_lim_const|reflexivity].
Qed.
Lemma rho_low : forall x, (2 < x)%R -> (x - 1 <= Cmod (rho x))%R.
Proof. intros x Hx. pose proof (rho_near x ltac:(lra)) as N. pose proof (Cmod_tri_low (rho x) (RtoC x)) as T. rewrite Cmod_R, Rabs_pos_eq in T by lra. lra. Qed.
Lemma asy_rhoi : asy (fun x => / rho x) (RtoC 0).
Proof.
  split; [apply cC_inv; [apply cC_rho|apply rho_nz]|]. apply (limC_bound _ _ (fun T => 1 / (T - 1))%R 2).
  - intros T HT. replace (/ rho T - RtoC 0) with (/ rho T) by ring. rewrite Cmod_inv by apply rho_nz. unfold Rdiv. rewrite Rmult_1_l. apply Rinv_le_contravar; [lra|now apply rho_low].
  - apply inv_lim.
Qed.
Lemma asy_lg : asy (fun x => lg x / rho x) s.
Proof using ML.
  split; [apply cC_div; [apply lg_cont|apply cC_rho|apply rho_nz]|]. set (K := (Cmod s * (sqrt (Cmod (q * v)%C) + 1))%R). apply (limC_bound _ _ (fun T => K / (T - 1))%R 2).
  - intros T HT. replace (lg T / rho T - s) with (s * ((b T - RtoC T) - (rho T - RtoC T)) * / rho T) by (rewrite lg_prod; field; apply rho_nz).
    rewrite !Cmod_mult, Cmod_inv by apply rho_nz. unfold Rdiv. apply Rmult_le_compat; [apply Rmult_le_pos; apply Cmod_ge_0|left; apply Rinv_0_lt_compat, Cmod_gt_0, rho_nz| |].
    + unfold K. apply Rmult_le_compat_l; [apply Cmod_ge_0|]. pose proof (b_near T ltac:(lra)) as B. pose proof (rho_near T ltac:(lra)) as R1.
      pose proof (Cmod_triangle (b T - RtoC T)%C (- (rho T - RtoC T))%C) as TR. rewrite Cmod_opp in TR. change (b T - RtoC T + - (rho T - RtoC T)) with (b T - RtoC T - (rho T - RtoC T)) in TR. lra.
    + apply Rinv_le_contravar; [lra|now apply rho_low].
  - apply inv_lim.
Qed.
Lemma asy_lgi : asy (fun x => / lg x) (RtoC 0).
Proof using ML.
  apply (asy_ext (fun x => / rho x * / (lg x / rho x))).
  - intros x. field. split; first [apply rho_nz|apply lg_nz].
  - eapply asy_eq; [apply asy_mult; [apply asy_rhoi|]|].
    + apply asy_inv; [apply asy_lg| |apply s_nz]. intros x W. apply (lg_nz x). replace (lg x) with (lg x / rho x * rho x) by (field; apply rho_nz). rewrite W. ring.
    + ring.
Qed.
End Layer.

Ltac rg := first [ring|rgC].
(** ** The stack *)
Lemma quad4_sum : forall a b : C, (0 <= fst a)%R -> (snd a <= 0)%R -> a <> RtoC 0 -> (0 <= fst b)%R -> (snd b <= 0)%R -> a + b <> RtoC 0.
Proof.
  intros [a1 a2] [b1 b2] A1 A2 NA B1 B2 W. pose proof (f_equal fst W) as W1. pose proof (f_equal snd W) as W2. cbn [fst snd Cplus RtoC] in *.
  apply NA. assert (a1 = 0%R) by lra. assert (a2 = 0%R) by lra. subst. reflexivity.
Qed.

Section Stack.
Variables (h v q : nat -> C) (z : nat -> R) (N : nat).
Hypothesis ML : forall k, (k <= N)%nat -> mlayer (h k) (v k) (q k).
Hypothesis Hz : forall k, (1 <= k < N)%nat -> (z k < z (S k))%R.
Hypothesis REG : forall lam, regular h (gam h v q lam) z N.
Notation g := (gam h v q).
Notation s k := (ms (h k) (v k)).
Let gk : forall k lam, g lam k = lg (h k) (v k) (q k) lam. Proof. reflexivity. Qed.
Let hnz : forall k, (k <= N)%nat -> h k <> RtoC 0. Proof. intros k Hk. apply (ml_h _ _ _ (ML k Hk)). Qed.

Definition lrl (k : nat) : C := (h (S k) * s k - h k * s (S k)) / (h (S k) * s k + h k * s (S k)).
Lemma asy_rl : forall k, (k < N)%nat -> asy (fun lam => rl h (g lam) k) (lrl k).
Proof using All.
  intros k Hk. pose proof (asy_lg _ _ _ (ML k ltac:(lia))) as A1. pose proof (asy_lg _ _ _ (ML (S k) ltac:(lia))) as A2.
  apply (asy_ext (fun x => (h (S k) * (g x k / root (RtoC 1) x) - h k * (g x (S k) / root (RtoC 1) x)) / (h (S k) * (g x k / root (RtoC 1) x) + h k * (g x (S k) / root (RtoC 1) x)))).
  - intros x. unfold rl. pose proof (reg_rl _ _ _ _ (REG x) k Hk) as D. unfold den_rl in D. pose proof (rho_nz x) as RN. field. repeat split; try assumption.
  - unfold lrl. apply asy_div.
    + apply asy_minus; (apply asy_mult; [apply asy_const|assumption]).
    + apply asy_plus; (apply asy_mult; [apply asy_const|assumption]).
    + intros x W. apply (reg_rl _ _ _ _ (REG x) k Hk). unfold den_rl. pose proof (rho_nz x) as RN.
      replace (h (S k) * g x k + h k * g x (S k)) with ((h (S k) * (g x k / root (RtoC 1) x) + h k * (g x (S k) / root (RtoC 1) x)) * root (RtoC 1) x) by (field; exact RN). rewrite W. rg.
    + destruct (s_quad _ _ _ (ML k ltac:(lia))) as (Q1 & Q2 & Q3). destruct (s_quad _ _ _ (ML (S k) ltac:(lia))) as (R1 & R2 & R3).
      pose proof (quad4_sum _ _ Q1 Q2 Q3 R1 R2) as W. pose proof (hnz k ltac:(lia)) as H1. pose proof (hnz (S k) ltac:(lia)) as H2. intros E. apply W.
      replace (s k / h k + s (S k) / h (S k)) with ((h (S k) * s k + h k * s (S k)) / (h k * h (S k))) by (field; split; assumption). rewrite E. field. split; assumption.
Qed.

Lemma asy_E2 : forall k, (0 < k < N)%nat -> asy (fun lam => E2 (g lam) z k) (RtoC 0).
Proof using All.
  intros k Hk. destruct (asy_dec _ _ _ (ML k ltac:(lia)) (2 * thick z k)) as (l & A & L).
  { unfold thick. pose proof (Hz k ltac:(lia)). lra. }
  rewrite L in A by (unfold thick; pose proof (Hz k ltac:(lia)); lra). refine (asy_ext _ _ _ _ A). intros x. unfold E2. rewrite (gk k x). f_equal. rewrite RtoC_mult. rg.
Qed.

Definition lRd (k : nat) : C := if (k <? N)%nat then lrl k else RtoC 0.
Definition lRu (k : nat) : C := match k with O => RtoC 0 | S j => - lrl j end.
Lemma c1nz : forall l : C, l = RtoC 1 -> l <> RtoC 0. Proof. intros l -> W. apply (f_equal fst) in W. cbn in W. lra. Qed.

Lemma div1 : forall l r : C, (l + RtoC 0) / (RtoC 1 + r * RtoC 0) = l.
Proof. intros l r. replace (RtoC 1 + r * RtoC 0) with (RtoC 1) by ring. rewrite Cdiv_1_r. ring. Qed.

Lemma asy_Rd : forall k, (k <= N)%nat -> asy (fun lam => Rdn h (g lam) z N k) (lRd k) /\ ((0 < k)%nat -> asy (fun lam => Rdn h (g lam) z N k * E2 (g lam) z k) (RtoC 0)).
Proof using All.
  assert (H : forall m k, (k + m = N)%nat -> asy (fun lam => Rdn h (g lam) z N k) (lRd k) /\ ((0 < k)%nat -> asy (fun lam => Rdn h (g lam) z N k * E2 (g lam) z k) (RtoC 0))).
  { induction m; intros k Hk.
    - assert (k = N) by lia. subst k. split.
      + apply (asy_ext (fun _ => RtoC 0)); [intros; symmetry; apply Rdn_N|]. unfold lRd. rewrite Nat.ltb_irrefl. apply asy_const.
      + intros _. apply (asy_ext (fun _ => RtoC 0)); [|apply asy_const]. intros x. rewrite Rdn_N. rg.
    - destruct (IHm (S k) ltac:(lia)) as [_ I]. specialize (I ltac:(lia)).
      assert (A : asy (fun lam => Rdn h (g lam) z N k) (lRd k)).
      { apply (asy_ext (fun lam => (rl h (g lam) k + Rdn h (g lam) z N (S k) * E2 (g lam) z (S k)) / den_dn h (g lam) z N k)); [intros x; symmetry; apply Rdn_step; lia|].
        unfold lRd. replace (k <? N)%nat with true by (symmetry; apply Nat.ltb_lt; lia).
        apply (asy_eq _ ((lrl k + RtoC 0) / (RtoC 1 + lrl k * RtoC 0))); [|apply div1].
        apply asy_div; [apply asy_plus; [apply asy_rl; lia|exact I]| | |].
        - apply asy_plus; [apply asy_const|]. apply asy_mult; [apply asy_rl; lia|exact I].
        - intros x. apply (reg_dn _ _ _ _ (REG x)). lia.
        - apply c1nz. rg. }
      split; [exact A|]. intros K. eapply asy_eq; [apply asy_mult; [exact A|apply asy_E2; lia]|]. rg. }
  intros k Hk. apply (H (N - k)%nat). lia.
Qed.
Lemma asy_Ru : forall k, (k <= N)%nat -> asy (fun lam => Rup h (g lam) z k) (lRu k) /\ ((k < N)%nat -> asy (fun lam => Rup h (g lam) z k * E2 (g lam) z k) (RtoC 0)).
Proof using All.
  induction k; intros Hk.
  - split; [exact (asy_const (RtoC 0))|]. intros _. apply (asy_ext (fun _ => RtoC 0)); [|apply asy_const]. intros x. cbn [Rup]. rg.
  - destruct (IHk ltac:(lia)) as [_ I]. specialize (I ltac:(lia)).
    assert (A : asy (fun lam => Rup h (g lam) z (S k)) (lRu (S k))).
    { apply (asy_ext (fun lam => (- rl h (g lam) k + Rup h (g lam) z k * E2 (g lam) z k) / den_up h (g lam) z k)); [intros x; symmetry; apply Rup_step|].
      cbn [lRu]. apply (asy_eq _ ((- lrl k + RtoC 0) / (RtoC 1 + - lrl k * RtoC 0))); [|apply div1].
      apply asy_div; [apply asy_plus; [apply asy_opp, asy_rl; lia|exact I]| | |].
      - apply asy_plus; [apply asy_const|]. apply asy_mult; [apply asy_opp, asy_rl; lia|exact I].
      - intros x. apply (reg_up _ _ _ _ (REG x)). lia.
      - apply c1nz. rg. }
    split; [exact A|]. intros K. eapply asy_eq; [apply asy_mult; [exact A|apply asy_E2; lia]|]. rg.
Qed.
Lemma asy_Msi : forall k, (k <= N)%nat -> asy (fun lam => / Ms h (g lam) z N k) (RtoC 1).
Proof using All.
  intros k Hk. apply (asy_eq _ (/ RtoC 1)); [|field; apply c1nz; reflexivity]. apply asy_inv; [|intros x; apply (regM _ _ _ _ (REG x) k Hk)|apply c1nz; reflexivity].
  unfold Ms. destruct (Nat.eq_dec k N) as [-> | NE].
  - apply (asy_ext (fun _ => RtoC 1)); [|apply asy_const]. intros x. rewrite Rdn_N. rg.
  - apply (asy_ext (fun lam => RtoC 1 - Rup h (g lam) z k * E2 (g lam) z k * Rdn h (g lam) z N k)); [intros; rg|].
    apply (asy_eq _ (RtoC 1 - RtoC 0 * lRd k)); [|rg]. apply asy_minus; [apply asy_const|]. apply asy_mult; [apply asy_Ru; lia|apply asy_Rd; lia].
Qed.
Lemma asy_tdn : forall k, (k < N)%nat -> exists l, asy (fun lam => tdn h (g lam) z N k) l.
Proof using All.
  intros k Hk. eexists. unfold tdn. apply asy_div.
  - apply asy_plus; [apply asy_const|apply asy_Rd; lia].
  - apply asy_plus; [apply asy_const|apply asy_Rd; lia].
  - intros x. apply (regd _ _ _ _ (REG x)). lia.
  - apply c1nz. rg.
Qed.
Lemma asy_tup : forall k, (k < N)%nat -> exists l, asy (fun lam => tup h (g lam) z k) l.
Proof using All.
  intros k Hk. eexists. unfold tup. apply asy_div.
  - apply asy_plus; [apply asy_const|apply asy_Ru; lia].
  - apply asy_plus; [apply asy_const|apply asy_Ru; lia].
  - intros x. apply (regu _ _ _ _ (REG x)). lia.
  - apply c1nz. rg.
Qed.

(** a common decay rate *)
Lemma rate : exists a : R, (0 < a)%R /\ forall k, (k <= N)%nat -> (a <= fst (s k))%R.
Proof using ML.
  assert (H : forall n, (n <= N)%nat -> exists a : R, (0 < a)%R /\ forall k, (k <= n)%nat -> (a <= fst (s k))%R).
  { induction n; intros Hn.
    - exists (fst (s 0%nat)). split; [apply (s_re _ _ _ (ML 0%nat Hn))|]. intros k Hk. replace k with 0%nat by lia. lra.
    - destruct (IHn ltac:(lia)) as (a & P & L). exists (Rmin a (fst (s (S n)))). split; [apply Rmin_glb_lt; [exact P|apply (s_re _ _ _ (ML (S n) Hn))]|].
      intros k Hk. destruct (Nat.eq_dec k (S n)) as [-> | NE]; [apply Rmin_r|]. eapply Rle_trans; [apply Rmin_l|]. apply L. lia. }
  now apply H.
Qed.
Variable a : R.
Hypothesis Ha : (0 < a)%R.
Hypothesis HA : forall k, (k <= N)%nat -> (a <= fst (s k))%R.

Lemma eb_dk : forall k d, (k <= N)%nat -> (0 <= d)%R -> eb (a * d) (fun lam => dec (g lam) k d).
Proof using All.
  intros k d Hk Hd. eapply eb_weak; [apply (eb_dec _ _ _ (ML k Hk) d Hd)|]. apply Rmult_le_compat_r; [exact Hd|now apply HA].
Qed.
Lemma eb_Rd : forall k, (k <= N)%nat -> eb 0 (fun lam => Rdn h (g lam) z N k).
Proof using All. intros k Hk. eapply asy_eb, asy_Rd, Hk. Qed.
Lemma eb_Ru : forall k, (k <= N)%nat -> eb 0 (fun lam => Rup h (g lam) z k).
Proof using All. intros k Hk. eapply asy_eb, asy_Ru, Hk. Qed.
Lemma eb_Msi : forall k, (k <= N)%nat -> eb 0 (fun lam => / Ms h (g lam) z N k).
Proof using All. intros k Hk. eapply asy_eb, asy_Msi, Hk. Qed.
Lemma eb_tdn : forall k, (k < N)%nat -> eb 0 (fun lam => tdn h (g lam) z N k).
Proof using All. intros k Hk. destruct (asy_tdn k Hk) as [l A]. eapply asy_eb, A. Qed.
Lemma eb_tup : forall k, (k < N)%nat -> eb 0 (fun lam => tup h (g lam) z k).
Proof using All. intros k Hk. destruct (asy_tup k Hk) as [l A]. eapply asy_eb, A. Qed.

Definition inlay (k : nat) (x : R) : Prop := (k <= N)%nat /\ ((0 < k)%nat -> (z k <= x)%R) /\ ((k < N)%nat -> (x <= z (S k))%R).
Lemma th_pos : forall k, (1 <= k < N)%nat -> (0 < thick z k)%R.
Proof using Hz. intros k Hk. unfold thick. pose proof (Hz k Hk). lra. Qed.

(** wave at the bottom and top of the source layer *)
Lemma eb_bsd : forall pm k zs, inlay k zs -> (k < N)%nat -> eb (a * (z (S k) - zs)) (fun lam => bsd h (g lam) z pm k zs).
Proof using All.
  intros pm k zs (L0 & L1 & L2) Hk. specialize (L2 Hk). unfold bsd. apply eb_plus; [apply eb_dk; [lia|lra]|].
  destruct (Nat.eq_dec k 0) as [-> | NE].
  - eapply eb_ext; [|apply eb_zero]. intros x. cbn [Rup]. rg.
  - specialize (L1 ltac:(lia)). pose proof (th_pos k ltac:(lia)) as T. apply eb_mult0; [apply eb_scal, eb_Ru; lia|]. eapply eb_weak; [apply eb_dk; [lia|lra]|]. apply Rmult_le_compat_l; [lra|]. unfold thick in *. lra.
Qed.
Lemma eb_bsu : forall pm k zs, inlay k zs -> (0 < k)%nat -> eb (a * (zs - z k)) (fun lam => bsu h (g lam) z N pm k zs).
Proof using All.
  intros pm k zs (L0 & L1 & L2) Hk. specialize (L1 Hk). unfold bsu. apply eb_plus; [apply eb_dk; [lia|lra]|].
  destruct (Nat.eq_dec k N) as [-> | NE].
  - eapply eb_ext; [|apply eb_zero]. intros x. cbv beta. rewrite Rdn_N. rg.
  - specialize (L2 ltac:(lia)). pose proof (th_pos k ltac:(lia)) as T. apply eb_mult0; [apply eb_scal, eb_Rd; lia|]. eapply eb_weak; [apply eb_dk; [lia|lra]|]. apply Rmult_le_compat_l; [lra|]. unfold thick in *. lra.
Qed.

Lemma eb_same_gen : forall c pm sg k zs zr, inlay k zs -> inlay k zr ->
  ((k < N)%nat -> (c <= a * ((z (S k) - zs) + (z (S k) - zr)))%R) -> ((0 < k)%nat -> (c <= a * ((zs - z k) + (zr - z k)))%R) ->
  eb c (fun lam => G_same h (g lam) z N pm sg k zs zr).
Proof using All.
  intros c pm sg k zs zr LS LR B1 B2. pose proof LS as (L0 & L1 & L2). pose proof LR as (_ & R1 & R2). unfold G_same. apply eb_plus.
  - destruct (Nat.eq_dec k N) as [-> | NE].
    + eapply eb_ext; [|apply eb_zero]. intros x. cbv beta. rewrite Rdn_N. unfold Cdiv. rg.
    + specialize (L2 ltac:(lia)). specialize (R2 ltac:(lia)). specialize (B1 ltac:(lia)). eapply eb_weak; [apply (eb_mult (a * (z (S k) - zs)) (a * (z (S k) - zr)))|].
      * unfold Cdiv. apply eb_mult0r; [|apply eb_Msi; lia]. apply eb_mult0; [apply eb_Rd; lia|apply eb_bsd; [exact LS|lia]].
      * apply eb_dk; [lia|lra].
      * rewrite <- Rmult_plus_distr_l. exact B1.
  - apply eb_scal. destruct (Nat.eq_dec k 0) as [-> | NE].
    + eapply eb_ext; [|apply eb_zero]. intros x. cbv beta. cbn [Rup]. unfold Cdiv. rg.
    + specialize (L1 ltac:(lia)). specialize (R1 ltac:(lia)). specialize (B2 ltac:(lia)). eapply eb_weak; [apply (eb_mult (a * (zs - z k)) (a * (zr - z k)))|].
      * unfold Cdiv. apply eb_mult0r; [|apply eb_Msi; lia]. apply eb_mult0; [apply eb_Ru; lia|apply eb_bsu; [exact LS|lia]].
      * apply eb_dk; [lia|lra].
      * rewrite <- Rmult_plus_distr_l. exact B2.
Qed.
Lemma eb_same : forall pm sg k zs zr, inlay k zs -> inlay k zr -> eb (a * Rabs (zs - zr)) (fun lam => G_same h (g lam) z N pm sg k zs zr).
Proof using All.
  intros pm sg k zs zr LS LR. pose proof LS as (L0 & L1 & L2). pose proof LR as (_ & R1 & R2). apply eb_same_gen; try assumption; intros K; (apply Rmult_le_compat_l; [lra|]).
  - specialize (L2 K). specialize (R2 K). unfold Rabs. destruct (Rcase_abs _); lra.
  - specialize (L1 K). specialize (R1 K). unfold Rabs. destruct (Rcase_abs _); lra.
Qed.
Lemma eb_prod_dn : forall n k, (0 < k)%nat -> (k + n <= N)%nat -> eb (a * (z (k + n)%nat - z k)) (fun lam => prodC (fun j => E1 (g lam) z j * tdn h (g lam) z N j) k n).
Proof using All.
  induction n; intros k K0 Hk; cbn [prodC].
  - rewrite Nat.add_0_r. eapply eb_weak; [apply eb_const|]. lra.
  - eapply eb_weak; [apply (eb_mult (a * thick z k) (a * (z (S k + n)%nat - z (S k))))|].
    + apply eb_mult0r; [|apply eb_tdn; lia]. unfold E1. apply eb_dk; [lia|]. left. apply th_pos. lia.
    + apply IHn; lia.
    + unfold thick. replace (S k + n)%nat with (k + S n)%nat by lia. right. rg.
Qed.
Lemma eb_prod_up : forall n k, (0 < k)%nat -> (k + n <= N)%nat -> eb (a * (z (k + n)%nat - z k)) (fun lam => prodC (fun j => E1 (g lam) z j * tup h (g lam) z (j - 1)) k n).
Proof using All.
  induction n; intros k K0 Hk; cbn [prodC].
  - rewrite Nat.add_0_r. eapply eb_weak; [apply eb_const|]. lra.
  - eapply eb_weak; [apply (eb_mult (a * thick z k) (a * (z (S k + n)%nat - z (S k))))|].
    + apply eb_mult0r; [|apply eb_tup; lia]. unfold E1. apply eb_dk; [lia|]. left. apply th_pos. lia.
    + apply IHn; lia.
    + unfold thick. replace (S k + n)%nat with (k + S n)%nat by lia. right. rg.
Qed.
Lemma eb_dn : forall pm sg k r zs zr, (k < r)%nat -> inlay k zs -> inlay r zr -> eb (a * (zr - zs)) (fun lam => G_dn h (g lam) z N pm sg k r zs zr).
Proof using All.
  intros pm sg k r zs zr Hkr LS LR. pose proof LS as (L0 & L1 & L2). pose proof LR as (R0 & R1 & R2). specialize (L2 ltac:(lia)). specialize (R1 ltac:(lia)).
  unfold G_dn, amp_dn. eapply eb_weak; [apply (eb_mult (a * (z r - zs)) (a * (zr - z r)))|].
  - eapply eb_weak; [apply (eb_mult (a * (z (S k) - zs)) (a * (z (S k + (r - S k))%nat - z (S k))))|].
    + apply eb_mult0r; [|apply eb_tdn; lia]. unfold Cdiv. apply eb_mult0r; [apply eb_bsd; [exact LS|lia]|apply eb_Msi; lia].
    + apply eb_prod_dn; lia.
    + replace (S k + (r - S k))%nat with r by lia. right. rg.
  - apply eb_plus; [apply eb_scal, eb_dk; [lia|lra]|]. destruct (Nat.eq_dec r N) as [E|NE].
    + eapply eb_ext; [|apply eb_zero]. intros x. cbv beta. rewrite E, Rdn_N. rg.
    + specialize (R2 ltac:(lia)). pose proof (th_pos r ltac:(lia)) as T. eapply eb_weak; [apply (eb_mult (a * thick z r) (a * (z (S r) - zr)))|].
      * apply eb_mult0; [apply eb_Rd; lia|]. unfold E1. apply eb_dk; [lia|lra].
      * apply eb_dk; [lia|lra].
      * rewrite <- Rmult_plus_distr_l. apply Rmult_le_compat_l; [lra|]. unfold thick in *. lra.
  - right. rg.
Qed.
Lemma eb_up : forall pm sg k r zs zr, (r < k)%nat -> inlay k zs -> inlay r zr -> eb (a * (zs - zr)) (fun lam => G_up h (g lam) z N pm sg k r zs zr).
Proof using All.
  intros pm sg k r zs zr Hkr LS LR. pose proof LS as (L0 & L1 & L2). pose proof LR as (R0 & R1 & R2). specialize (L1 ltac:(lia)). specialize (R2 ltac:(lia)).
  unfold G_up, amp_up. eapply eb_weak; [apply (eb_mult (a * (zs - z (S r))) (a * (z (S r) - zr)))|].
  - eapply eb_weak; [apply (eb_mult (a * (zs - z k)) (a * (z (S r + (k - S r))%nat - z (S r))))|].
    + apply eb_mult0r; [|apply eb_tup; lia]. unfold Cdiv. apply eb_mult0r; [apply eb_scal, eb_bsu; [exact LS|lia]|apply eb_Msi; lia].
    + apply eb_prod_up; lia.
    + replace (S r + (k - S r))%nat with k by lia. right. rg.
  - apply eb_plus; [apply eb_dk; [lia|lra]|]. destruct (Nat.eq_dec r 0) as [E|NE].
    + eapply eb_ext; [|apply eb_zero]. intros x. cbv beta. rewrite E. cbn [Rup]. rg.
    + specialize (R1 ltac:(lia)). pose proof (th_pos r ltac:(lia)) as T. eapply eb_weak; [apply (eb_mult (a * thick z r) (a * (zr - z r)))|].
      * apply eb_mult0; [apply eb_scal, eb_Ru; lia|]. unfold E1. apply eb_dk; [lia|lra].
      * apply eb_dk; [lia|lra].
      * rewrite <- Rmult_plus_distr_l. apply Rmult_le_compat_l; [lra|]. unfold thick in *. lra.
  - right. rg.
Qed.
Lemma z_incr : forall i j, (1 <= i)%nat -> (i <= j <= N)%nat -> (z i <= z j)%R.
Proof using Hz. intros i j H1 H2. destruct (Nat.eq_dec i j) as [-> | NE]; [lra|]. left. apply (z_mono z N Hz); lia. Qed.
Theorem eb_mode : forall pm sg k r zs zr xd, inlay k zs -> inlay r zr -> eb (a * Rabs (zs - zr)) (fun lam => G_mode h (g lam) z N pm sg k r zs zr xd).
Proof using All.
  intros pm sg k r zs zr xd LS LR. pose proof LS as (L0 & L1 & L2). pose proof LR as (R0 & R1 & R2). unfold G_mode. destruct (Nat.eqb_spec k r) as [E|NE].
  - subst r. apply eb_plus; [now apply eb_same|]. destruct xd; [apply eb_zero|]. unfold G_dir. apply eb_mult0r; [apply eb_dk; [exact L0|apply Rabs_pos]|apply eb_const].
  - destruct (Nat.ltb_spec r k) as [H|H].
    + pose proof (z_incr (S r) k ltac:(lia) ltac:(lia)). specialize (L1 ltac:(lia)). specialize (R2 ltac:(lia)). rewrite Rabs_pos_eq by lra. now apply eb_up.
    + pose proof (z_incr (S k) r ltac:(lia) ltac:(lia)). specialize (L2 ltac:(lia)). specialize (R1 ltac:(lia)). replace (Rabs (zs - zr)) with (zr - zs)%R by (rewrite Rabs_left1; lra). apply eb_dn; [lia|assumption|assumption].
Qed.
(** without the direct wave: the distance via the nearest interface counts *)
Theorem eb_refl : forall pm sg k zs zr, in_layer z N k zs -> in_layer z N k zr ->
  exists c, (0 < c)%R /\ eb c (fun lam => G_mode h (g lam) z N pm sg k k zs zr true).
Proof using All.
  intros pm sg k zs zr (L0 & L1 & L2) (R0 & R1 & R2).
  assert (IS : inlay k zs) by (split; [exact L0|split; intros; [destruct L1 as [->|]; [lia|lra]|destruct L2 as [->|]; [lia|lra]]]).
  assert (IR : inlay k zr) by (split; [exact R0|split; intros; [destruct R1 as [->|]; [lia|lra]|destruct R2 as [->|]; [lia|lra]]]).
  set (c1 := if (k <? N)%nat then ((z (S k) - zs) + (z (S k) - zr))%R else 1%R). set (c2 := if (0 <? k)%nat then ((zs - z k) + (zr - z k))%R else 1%R).
  assert (P1 : (0 < c1)%R). { unfold c1. destruct (Nat.ltb_spec k N); [|lra]. destruct L2 as [->|]; [lia|]. destruct R2 as [->|]; [lia|]. lra. }
  assert (P2 : (0 < c2)%R). { unfold c2. destruct (Nat.ltb_spec 0 k); [|lra]. destruct L1 as [->|]; [lia|]. destruct R1 as [->|]; [lia|]. lra. }
  exists (a * Rmin c1 c2)%R. split; [apply Rmult_lt_0_compat; [exact Ha|now apply Rmin_glb_lt]|].
  unfold G_mode. rewrite Nat.eqb_refl. apply eb_plus; [|apply eb_zero]. apply eb_same_gen; try assumption; intros K; (apply Rmult_le_compat_l; [lra|]).
  - eapply Rle_trans; [apply Rmin_l|]. unfold c1. replace (k <? N)%nat with true by (symmetry; now apply Nat.ltb_lt). lra.
  - eapply Rle_trans; [apply Rmin_r|]. unfold c2. replace (0 <? k)%nat with true by (symmetry; now apply Nat.ltb_lt). lra.
Qed.
End Stack.
