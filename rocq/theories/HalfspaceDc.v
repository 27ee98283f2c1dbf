(** The static limit of the half-space solution: the reflected TE part and the airwave
    cancel, the direct TE part vanishes. *)

From Coq Require Import ZArith Reals List Bool Lia Lra Psatz.
From Coquelicot Require Import Coquelicot.
From Verif Require Import PyBase CBase ODE Halfspace HalfspaceThm HalfspaceSym.
Import ListNotations.
Local Open Scope R_scope.
Local Open Scope C_scope.

Notation z0 := (at_right 0).
Lemma lim0_mult : forall (f g : R -> C) a b, limC f z0 a -> limC g z0 b -> limC (fun t => f t * g t) z0 (a * b).
Proof.
  intros f g a b [F1 F2] [G1 G2]. split; cbn [fst snd Cmult].
  - apply filterlim_Rminus; apply filterlim_Rmult; assumption.
  - apply filterlim_Rplus; apply filterlim_Rmult; assumption.
Qed.
Lemma lim0_eq : forall (f : R -> C) a b, limC f z0 a -> a = b -> limC f z0 b. Proof. intros; now subst. Qed.
Lemma lim0_R : forall (f : R -> R) l, filterlim f z0 (locally l) -> limC (fun t => RtoC (f t)) z0 (RtoC l).
Proof. intros f l H. split; cbn [fst snd RtoC]; [exact H|apply filterlim_Rconst]. Qed.
Lemma sqrt_lim0 : filterlim sqrt z0 (locally 0%R).
Proof.
  eapply filterlim_filter_le_1; [apply filter_le_within|]. replace (locally 0%R) with (locally (sqrt 0)) at 2 by (rewrite sqrt_0; reflexivity). apply continuous_sqrt.
Qed.

(** what is used of the scaled modified Bessel functions: their values near zero *)
Definition bessel_near_zero (ive kve : Z -> C -> C) : Prop :=
  (forall n l, In (n, l) [(0%Z, RtoC 1); (1%Z, RtoC 0); (2%Z, RtoC 0)] ->
     forall e : R, (0 < e)%R -> exists d : R, (0 < d)%R /\ forall x : R, (0 <= x < d)%R -> (Cmod (Cminus (ive n (RtoC x)) l) < e)%R) /\
  (forall n l, In (n, l) [(0%Z, RtoC 0); (1%Z, RtoC 1)] ->
     forall e : R, (0 < e)%R -> exists d : R, (0 < d)%R /\ forall x : R, (0 < x < d)%R -> (Cmod (Cminus (Cmult (RtoC x) (kve n (RtoC x))) l) < e)%R).

Lemma limU : limC (fun s => RtoC (sqrt s)) z0 (RtoC 0). Proof. apply lim0_R, sqrt_lim0. Qed.
Lemma RC_neq : forall x, x <> 0%R -> RtoC x <> RtoC 0. Proof. intros x H E. apply H. exact (RtoC_inj _ _ E). Qed.
Section Dc.
Variables (ive kve : Z -> C -> C) (ab : Z) (off an zs zr res ai : R).
Hypothesis HB : bessel_near_zero ive kve.
Hypothesis Hab : In ab [11; 12; 21; 22]%Z.
Hypothesis Hres : (0 < res)%R.
Let g := hs_geo off an zs zr res ai.
Hypothesis Hrm : (0 < rm g)%R.
Hypothesis Hrp : (0 < rp g)%R.
Let m1 := sqrt (mu0 / res).
Let Hm1 : (0 < m1)%R. Proof. apply sqrt_lt_R0, Rdiv_lt_0_compat; [exact mu0_pos|exact Hres]. Qed.
Lemma hp_pos : (0 <= hp g)%R. Proof using All. unfold g, hs_geo. cbn [hp]. apply Rabs_pos. Qed.
Lemma rp_hp : (hp g <= rp g)%R.
Proof using All.
  unfold g, hs_geo. cbn [hp rp]. set (h := Rabs (zr + zs)). assert (0 <= h)%R by apply Rabs_pos. rewrite <- (sqrt_pow2 h) at 1 by assumption. apply sqrt_le_1_alt. pose proof (pow2_ge_0 (cos an * off)). pose proof (pow2_ge_0 (sin an * off)). lra.
Qed.
Let A := ((rp g + hp g) / 2)%R.
Let B := ((rp g - hp g) / 2)%R.
Lemma A_pos : (0 < A)%R. Proof using All. unfold A. pose proof hp_pos. lra. Qed.
Lemma B_pos : (0 <= B)%R. Proof using All. unfold B. pose proof rp_hp. lra. Qed.

(** k x with k >= 0 (or k > 0) and x = sqrt s *)
Lemma near : forall k : R, (0 <= k)%R -> forall d : R, (0 < d)%R -> z0 (fun s => (0 <= k * sqrt s < d)%R).
Proof using All.
  intros k Hk d Hd. assert (HS := sqrt_lim0). assert (He : (0 < d / (k + 1))%R) by (apply Rdiv_lt_0_compat; lra).
  generalize (proj1 (filterlim_locally sqrt 0%R) HS (mkposreal _ He)). apply filter_imp. intros s Hs. cbn in Hs. unfold ball, AbsRing_ball in Hs. cbn in Hs. unfold abs, minus, plus, opp in Hs. cbn in Hs.
  rewrite Ropp_0, Rplus_0_r in Hs. pose proof (sqrt_pos s) as P. rewrite Rabs_pos_eq in Hs by exact P. split; [now apply Rmult_le_pos|].
  assert (sqrt s * (k + 1) < d)%R. { apply (Rmult_lt_compat_r (k + 1)) in Hs; [|lra]. replace (d / (k + 1) * (k + 1))%R with d in Hs by (field; lra). exact Hs. } nra.
Qed.
Lemma limC_e0 : forall (f : R -> C) l, (forall e : R, (0 < e)%R -> z0 (fun s => (Cmod (Cminus (f s) l) < e)%R)) -> limC f z0 l.
Proof using.
  intros f l H. split; apply filterlim_locally; intros e; generalize (H e (cond_pos e)); apply filter_imp; intros s Hs; cbn; unfold ball, AbsRing_ball; cbn; unfold abs, minus, plus, opp; cbn.
  - eapply Rle_lt_trans; [|exact Hs]. apply (Rle_trans _ (Rabs (fst (Cminus (f s) l)))); [right; reflexivity|apply fst_le_Cmod].
  - eapply Rle_lt_trans; [|exact Hs]. apply (Rle_trans _ (Rabs (snd (Cminus (f s) l)))); [right; reflexivity|apply snd_le_Cmod].
Qed.
Lemma ive_lim : forall n l k, In (n, l) [(0%Z, RtoC 1); (1%Z, RtoC 0); (2%Z, RtoC 0)] -> (0 <= k)%R -> limC (fun s => ive n (RtoC (k * sqrt s))) z0 l.
Proof using All.
  intros n l k Hn Hk. apply limC_e0. intros e He. destruct (proj1 HB n l Hn e He) as (d & Hd & Hx). generalize (near k Hk d Hd). apply filter_imp. intros s Hs. now apply Hx.
Qed.
Lemma kve_lim : forall n l k, In (n, l) [(0%Z, RtoC 0); (1%Z, RtoC 1)] -> (0 < k)%R -> limC (fun s => RtoC (k * sqrt s) * kve n (RtoC (k * sqrt s))) z0 l.
Proof using All.
  intros n l k Hn Hk. apply limC_e0. intros e He. destruct (proj2 HB n l Hn e He) as (d & Hd & Hx).
  assert (P : z0 (fun s => (0 < s)%R)) by (exists (mkposreal 1 Rlt_0_1); intros y _ Hy; exact Hy).
  generalize (filter_and _ _ (near k (Rlt_le _ _ Hk) d Hd) P). apply filter_imp. intros s [[H1 H2] H3]. apply Hx. split; [|exact H2]. apply Rmult_lt_0_compat; [exact Hk|now apply sqrt_lt_R0].
Qed.

Lemma limE : forall k, limC (fun s => RtoC (exp (- (m1 * sqrt s) * k))) z0 (RtoC 1).
Proof using.
  intros k. apply lim0_R. replace 1%R with (exp (- (m1 * 0) * k)) by (rewrite <- exp_0; f_equal; ring).
  apply (filterlim_comp _ _ _ (fun s => - (m1 * sqrt s) * k)%R exp z0 (locally (- (m1 * 0) * k)%R)).
  - apply filterlim_Rmult; [|apply filterlim_Rconst]. apply filterlim_Ropp. apply filterlim_Rmult; [apply filterlim_Rconst|exact sqrt_lim0].
  - apply continuous_exp.
Qed.
Let bi (n : Z) (s : R) : C := RtoC (exp (- (m1 * sqrt s) * hp g)) * ive n (RtoC (m1 * B * sqrt s)).
Let bk (n : Z) (s : R) : C := RtoC (m1 * A * sqrt s) * kve n (RtoC (m1 * A * sqrt s)).
Lemma lim_bi : forall n l, In (n, l) [(0%Z, RtoC 1); (1%Z, RtoC 0); (2%Z, RtoC 0)] -> limC (bi n) z0 l.
Proof using All.
  intros n l H. eapply lim0_eq; [apply lim0_mult; [apply limE|apply (ive_lim n l _ H)]|ring]. apply Rmult_le_pos; [left; exact Hm1|exact B_pos].
Qed.
Lemma lim_bk : forall n l, In (n, l) [(0%Z, RtoC 0); (1%Z, RtoC 1)] -> limC (bk n) z0 l.
Proof using All. intros n l H. apply (kve_lim n l _ H). apply Rmult_lt_0_compat; [exact Hm1|exact A_pos]. Qed.

Let air_closed (fab delta s : R) : C :=
  let u := RtoC (sqrt s) in
  let c1 := RtoC (mu0 * sqrt mu0 * (fab * hp g) / (4 * sqrt res) / (m1 * A)) in
  let c2 := RtoC (mu0 * (fab * hp g) / (rp g + hp g) / (m1 * A)) in
  let P4 := RtoC (mu0 * (hp g * rp g) / (m1 * A)) * u * (bi 0 s * bk 0 s - bi 1 s * bk 1 s)
            + RtoC (sqrt (res * mu0) * (rp g + hp g) / (m1 * A)) * (bi 0 s * bk 1 s)
            + RtoC (sqrt (res * mu0) * (rp g - hp g) / (m1 * A)) * (bi 1 s * bk 0 s) in
  (c1 * (u * u) * (RtoC 4 * (bi 1 s * bk 0 s) - (RtoC 3 * bi 0 s + bi 2 s) * bk 1 s) + c2 * u * (bi 1 s * bk 1 s)
   - RtoC (3 * fab / (rp g) ^ 2 - delta) * P4) * RtoC (/ (4 * PI * (rp g) ^ 3)).
Lemma air_is_closed : forall isr fab delta s, (0 < s)%R -> hs_airwave ive kve isr (RtoC s) g res fab delta = air_closed fab delta s.
Proof using All.
  intros isr fab delta s Hs. set (u := sqrt s). assert (Hu : (0 < u)%R) by (apply sqrt_lt_R0; exact Hs). assert (Es : s = (u * u)%R) by (symmetry; apply sqrt_sqrt; lra).
  assert (Pm := mu0_pos). assert (PA := A_pos). assert (Ph := hp_pos).
  assert (Q1 : Csqrt (Cdiv (RtoC s * RtoC mu0) (RtoC res)) = RtoC (m1 * u)).
  { rewrite <- RtoC_mult, <- RtoC_div by lra. rewrite Csqrt_RtoC by (apply Rlt_le, Rdiv_lt_0_compat; [nra|exact Hres]). f_equal. unfold m1, u. rewrite <- sqrt_mult_alt by (apply Rlt_le, Rdiv_lt_0_compat; [exact Pm|exact Hres]). f_equal. field. lra. }
  assert (Q2 : Csqrt (RtoC s * RtoC mu0) = RtoC (sqrt mu0 * u)).
  { rewrite <- RtoC_mult, Csqrt_RtoC by nra. f_equal. unfold u. rewrite <- sqrt_mult_alt by lra. f_equal. ring. }
  assert (Q3 : Csqrt (RtoC res * (RtoC s * RtoC mu0)) = RtoC (sqrt (res * mu0) * u)).
  { rewrite <- !RtoC_mult. rewrite Csqrt_RtoC by (apply Rmult_le_pos; [lra|nra]). f_equal. unfold u. rewrite <- sqrt_mult_alt by nra. f_equal. ring. }
  unfold hs_airwave. cbv zeta. rewrite Q1, Q2, Q3.
  assert (X1 : Cdiv (RtoC (m1 * u) * RtoC (rp g + hp g)) (RtoC 2) = RtoC (m1 * A * u)). { rewrite <- RtoC_mult, <- RtoC_div by lra. f_equal. unfold A. field. }
  assert (X2 : Cdiv (RtoC (m1 * u) * RtoC (rp g - hp g)) (RtoC 2) = RtoC (m1 * B * u)). { rewrite <- RtoC_mult, <- RtoC_div by lra. f_equal. unfold B. field. }
  rewrite X1, X2. cbn [fst snd RtoC].
  assert (K0 : forall n, (if isr then kve n (RtoC (m1 * A * u)) else Cexp (Copp Ci * RtoC 0) * kve n (RtoC (m1 * A * u))) = RtoC (/ (m1 * A * u)) * bk n s).
  { intros n. unfold bk. fold u. assert (Hk : (m1 * A * u <> 0)%R) by (apply Rgt_not_eq; apply Rmult_lt_0_compat; [apply Rmult_lt_0_compat; [exact Hm1|exact PA]|exact Hu]). set (k := (m1 * A * u)%R) in *. clearbody k.
    assert (E : kve n (RtoC k) = RtoC (/ k) * (RtoC k * kve n (RtoC k))). { rewrite Cmult_assoc, <- RtoC_mult, Rinv_l by exact Hk. ring. }
    destruct isr; [exact E|]. rewrite <- E. replace (Copp Ci * RtoC 0) with (RtoC 0) by ring. rewrite Cexp_0. ring. }
  rewrite !K0. unfold air_closed. cbv zeta. fold u.
  change (RtoC (exp (- (m1 * u) * hp g)) * ive 0%Z (RtoC (m1 * B * u))) with (bi 0 s). change (RtoC (exp (- (m1 * u) * hp g)) * ive 1%Z (RtoC (m1 * B * u))) with (bi 1 s). change (RtoC (exp (- (m1 * u) * hp g)) * ive 2%Z (RtoC (m1 * B * u))) with (bi 2 s).
  generalize (bi 0 s) (bi 1 s) (bi 2 s) (bk 0 s) (bk 1 s). intros i0 i1 i2 b0 b1. rewrite Es. unfold rc.
  assert (Hr4 : (sqrt res <> 0)%R) by (apply Rgt_not_eq, sqrt_lt_R0; exact Hres). assert (Hsm : (sqrt mu0 <> 0)%R) by (apply Rgt_not_eq, sqrt_lt_R0; exact Pm).
  assert (Hk : (m1 * A <> 0)%R) by (apply Rgt_not_eq; apply Rmult_lt_0_compat; [exact Hm1|exact PA]).
  assert (Hh : (rp g + hp g <> 0)%R) by lra. assert (Hpi := PI_RGT_0).
  set (k := (m1 * A)%R) in *. clearbody k. set (S1 := sqrt mu0) in *. assert (ES : (mu0 = S1 * S1)%R) by (symmetry; apply sqrt_sqrt; lra). clearbody S1. set (S2 := sqrt res) in *. clearbody S2. set (S3 := sqrt (res * mu0)) in *. clearbody S3.
  set (P := (rp g + hp g)%R) in *. set (M := (rp g - hp g)%R) in *. set (D := (4 * PI * rp g ^ 3)%R). assert (HD : (D <> 0)%R). { unfold D. apply Rgt_not_eq. apply Rmult_lt_0_compat; [lra|]. apply pow_lt. exact Hrp. } clearbody D P M.
  set (P3 := (3 * fab / rp g ^ 2 - delta)%R). clearbody P3. set (F := (fab * hp g)%R). clearbody F. set (HR := (hp g * rp g)%R). clearbody HR. clearbody u. rewrite ES. clear - Hu Hr4 Hsm Hk Hh HD.
  assert (HuC : RtoC u <> RtoC 0) by (apply RC_neq; lra). assert (HkC : RtoC k <> RtoC 0) by (now apply RC_neq). assert (H2C : RtoC S2 <> RtoC 0) by (now apply RC_neq). assert (H1C : RtoC S1 <> RtoC 0) by (now apply RC_neq). assert (HPC : RtoC P <> RtoC 0) by (now apply RC_neq). assert (HDC : RtoC D <> RtoC 0) by (now apply RC_neq). assert (H4C : RtoC 4 <> RtoC 0) by (apply RC_neq; lra).
  rewrite ?RtoC_inv by (try assumption; apply Rmult_integral_contrapositive; split; lra). unfold Rdiv. rewrite ?RtoC_mult, ?RtoC_inv by (try assumption; apply Rmult_integral_contrapositive; split; lra). rewrite ?RtoC_mult. unfold Cdiv. field. repeat split; assumption.
Qed.

Ltac l0 := lazymatch goal with
  | |- limC (fun s => RtoC (sqrt s)) _ _ => apply limU
  | |- limC (fun s => Cplus (@?a s) (@?b s)) _ _ => apply limC_plus; l0
  | |- limC (fun s => Cminus (@?a s) (@?b s)) _ _ => apply limC_minus; l0
  | |- limC (fun s => Cmult (@?a s) (@?b s)) _ _ => apply lim0_mult; l0
  | |- limC (bi ?n) _ _ => first [apply (lim_bi 0%Z (RtoC 1)); now left|apply (lim_bi 1%Z (RtoC 0)); right; now left|apply (lim_bi 2%Z (RtoC 0)); right; right; now left]
  | |- limC (bk ?n) _ _ => first [apply (lim_bk 0%Z (RtoC 0)); now left|apply (lim_bk 1%Z (RtoC 1)); right; now left]
  | |- limC (fun s => bi ?n s) _ _ => change (fun s => bi n s) with (bi n); l0
  | |- limC (fun s => bk ?n s) _ _ => change (fun s => bk n s) with (bk n); l0
  | |- limC (fun s => ?c) _ _ => apply limC_const
  end.
Lemma air_lim : forall isr fab delta, limC (fun s => hs_airwave ive kve isr (RtoC s) g res fab delta) z0 (RtoC (- (res * (3 * fab - (rp g) ^ 2 * delta) / (2 * PI * (rp g) ^ 5)))).
Proof using All.
  intros isr fab delta. assert (P : z0 (fun s => (0 < s)%R)) by (exists (mkposreal 1 Rlt_0_1); intros y _ Hy; exact Hy).
  refine (limC_ext_loc (air_closed fab delta) _ _ _ _). { generalize P. apply filter_imp. intros s Hs. symmetry. now apply air_is_closed. }
  eapply lim0_eq. { unfold air_closed. cbv zeta. l0. }
  assert (Pm := mu0_pos). assert (PA := A_pos). assert (Hk : (m1 * A <> 0)%R) by (apply Rgt_not_eq; apply Rmult_lt_0_compat; [exact Hm1|exact PA]). assert (Hpi := PI_RGT_0).
  assert (HRes : (sqrt (res * mu0) * (rp g + hp g) / (m1 * A) = 2 * res)%R).
  { assert (E : (sqrt (res * mu0) = res * m1)%R). { unfold m1. rewrite <- (sqrt_pow2 res) at 2 by lra. rewrite <- sqrt_mult_alt by apply pow2_ge_0. f_equal. field. lra. } rewrite E. unfold A. field. unfold A in PA. split; lra. }
  rewrite HRes.
  match goal with |- ?a = _ => transitivity (RtoC (- (3 * fab / rp g ^ 2 - delta) * (2 * res) * / (4 * PI * rp g ^ 3))) end. { rewrite !RtoC_mult, RtoC_opp. ring. }
  f_equal. field. split; lra.
Qed.
End Dc.

Lemma Cexp_real : forall x, Cexp (RtoC x) = RtoC (exp x).
Proof. intros x. unfold Cexp. cbn [fst snd RtoC]. rewrite cos_0, sin_0. apply injective_projections; cbn; ring. Qed.
(** the functions f0, f1, f2 *)
Lemma f_lims : forall t, (0 <= t)%R -> limC (fun s => hs_f0 (AtS (RtoC s)) t) z0 (RtoC 1) /\ limC (fun s => hs_f1 (AtS (RtoC s)) t) z0 (RtoC 0) /\ limC (fun s => hs_f2 (AtS (RtoC s)) t) z0 (RtoC 0).
Proof.
  intros t Ht. assert (P : z0 (fun s => (0 < s)%R)) by (exists (mkposreal 1 Rlt_0_1); intros y _ Hy; exact Hy).
  assert (L0 : limC (fun s => hs_f0 (AtS (RtoC s)) t) z0 (RtoC 1)).
  { refine (limC_ext_loc (fun s => RtoC (exp (-2 * (sqrt s * sqrt t)))) _ _ _ _).
    - generalize P. apply filter_imp. intros s Hs. cbn [hs_f0]. rewrite <- RtoC_mult, Csqrt_RtoC by nra. rewrite sqrt_mult_alt by lra. rewrite <- RtoC_mult. symmetry. apply Cexp_real.
    - apply lim0_R. replace 1%R with (exp (-2 * (0 * sqrt t))) by (rewrite <- exp_0; f_equal; ring).
      apply (filterlim_comp _ _ _ (fun s => -2 * (sqrt s * sqrt t))%R exp z0 (locally (-2 * (0 * sqrt t))%R)); [|apply continuous_exp].
      apply filterlim_Rmult; [apply filterlim_Rconst|]. apply filterlim_Rmult; [exact sqrt_lim0|apply filterlim_Rconst]. }
  split; [exact L0|]. split.
  - cbn [hs_f1]. refine (limC_ext_loc (fun s => RtoC (sqrt s) * hs_f0 (AtS (RtoC s)) t) _ _ _ _).
    + generalize P. apply filter_imp. intros s Hs. rewrite Csqrt_RtoC by lra. reflexivity.
    + eapply lim0_eq; [apply lim0_mult; [apply limU|exact L0]|ring].
  - cbn [hs_f2]. eapply lim0_eq; [apply lim0_mult; [|exact L0]|instantiate (1 := RtoC 0); ring]. apply lim0_R. eapply filterlim_filter_le_1; [apply filter_le_within|apply filterlim_id].
Qed.
Lemma lim_rc : forall r f l, limC f z0 l -> limC (fun s => rc r (f s)) z0 (RtoC r * l). Proof. intros. unfold rc. apply lim0_mult; [apply limC_const|assumption]. Qed.

(** electrostatic field of a point dipole in a homogeneous anisotropic medium; [lam] the anisotropy *)
Definition comp (x y z : R) (a : Z) : R := if (a =? 1)%Z then x else if (a =? 2)%Z then y else z.
Definition ver (lam : R) (a : Z) : R := if (a =? 3)%Z then lam else 1%R.
Definition static_field (res lam x y z : R) (a b : Z) : R :=
  let R := sqrt (x ^ 2 + y ^ 2 + (lam * z) ^ 2) in
  (res * lam * ver lam a * ver lam b * (3 * comp x y (lam * z) a * comp x y (lam * z) b - (if (a =? b)%Z then 1 else 0) * R ^ 2) / (4 * PI * R ^ 5))%R.

Section Static.
Variables (ive kve : Z -> C -> C) (isr : bool) (a b : Z) (off an zs zr : R) (eH eV : C).
Hypothesis HB : bessel_near_zero ive kve.
Hypothesis Ha : (1 <= a <= 3)%Z.
Hypothesis Hb : (1 <= b <= 3)%Z.
Hypothesis Hz : (0 <= zs + zr)%R.
Let res := hs_res eH.
Let lam := hs_aniso eV res.
Hypothesis Hres : (0 < res)%R.
Hypothesis Hlam : (0 < lam)%R.
Let g := hs_geo off an zs zr res lam.
Let ab := (10 * a + b)%Z.
Hypothesis Hrm : rm g <> 0%R.
Hypothesis Hrp : rp g <> 0%R.
Let c := hs_coef ab g zs zr res lam.
Let Pt (s : R) : hpart := hs_part ive kve isr (AtS (RtoC s)) ab off an zs zr res lam.
Lemma t_pos : (0 <= tp g /\ 0 <= tm g /\ 0 <= tsp g /\ 0 <= tsm g)%R.
Proof using All.
  unfold g, hs_geo. cbn [tp tm tsp tsm]. pose proof mu0_pos. repeat split; apply Rmult_le_pos; try (apply Rmult_le_pos; [lra|apply pow2_ge_0]); apply Rlt_le, Rinv_0_lt_compat.
  - lra.
  - lra.
  - apply Rmult_lt_0_compat; [|lra]. apply Rmult_lt_0_compat; [exact Hres|]. apply pow_lt. exact Hlam.
  - apply Rmult_lt_0_compat; [|lra]. apply Rmult_lt_0_compat; [exact Hres|]. apply pow_lt. exact Hlam.
Qed.
Lemma parts_lim : limC (fun s => p_dTM (Pt s)) z0 (RtoC (s0m c)) /\ limC (fun s => p_dTE (Pt s)) z0 (RtoC 0) /\ limC (fun s => p_rTM (Pt s)) z0 (RtoC (s0p c)) /\ limC (fun s => p_rTE (Pt s)) z0 (RtoC (c0p c)).
Proof using All.
  destruct t_pos as (T1 & T2 & T3 & T4). unfold Pt, hs_part, hs_fields. fold g. fold c. cbn [p_dTM p_dTE p_rTM p_rTE].
  destruct (f_lims _ T1) as (A0 & A1 & A2), (f_lims _ T2) as (B0 & B1 & B2), (f_lims _ T3) as (C0 & C1 & C2), (f_lims _ T4) as (D0 & D1 & D2).
  split; [|split; [|split]].
  - eapply lim0_eq; [apply limC_plus; [apply limC_plus|]; apply lim_rc; eassumption|ring].
  - eapply lim0_eq; [apply limC_plus; apply lim_rc; eassumption|ring].
  - eapply lim0_eq; [apply limC_plus; [apply limC_plus|]; apply lim_rc; eassumption|ring].
  - eapply lim0_eq; [apply limC_plus; [apply limC_plus|]; apply lim_rc; eassumption|ring].
Qed.
Lemma ab_cases : In a [1; 2; 3]%Z /\ In b [1; 2; 3]%Z.
Proof using All. cbn. split; lia. Qed.
Lemma air_part_lim : limC (fun s => p_air (Pt s)) z0 (RtoC (- c0p c)).
Proof using All.
  assert (Prm : (0 < rm g)%R). { assert (0 <= rm g)%R by (unfold g, hs_geo; cbn [rm]; apply sqrt_pos). lra. }
  assert (Prp : (0 < rp g)%R). { assert (0 <= rp g)%R by (unfold g, hs_geo; cbn [rp]; apply sqrt_pos). lra. }
  unfold Pt, hs_part, hs_fields. cbn [p_air]. unfold hs_air, c, hs_coef. fold g. destruct (hs_xy ab (g_x g) (g_y g)) as [x y]. destruct (inb ab [11; 12; 21; 22]%Z) eqn:I.
  - cbn [c0p]. apply (air_lim ive kve 11%Z off an zs zr res lam HB (or_introl eq_refl) Hres Prm Prp).
  - replace (- _)%R with 0%R. { apply limC_const. } destruct (inb ab [13; 23; 31; 32]%Z); [cbn [c0p]; lra|]. destruct (ab =? 33)%Z; cbn [c0p]; lra.
Qed.
Lemma abs_sq : forall x, (Rabs x ^ 2 = x ^ 2)%R. Proof using. intros x. apply pow2_abs. Qed.
Lemma static_m : s0m c = static_field res lam (cos an * off) (sin an * off) (zr - zs) a b.
Proof using Ha Hb ive kve isr.
  assert (Ca : In a [1; 2; 3]%Z) by (cbn; lia). assert (Cb : In b [1; 2; 3]%Z) by (cbn; lia). clear Ha Hb Hrm Hrp.
  unfold c, ab, hs_coef, hs_delta, hs_xy, static_field. cbn [In] in Ca, Cb.
  assert (Q : (sqrt ((cos an * off) ^ 2 + (sin an * off) ^ 2 + (lam * (zr - zs)) ^ 2) = rsm g)%R). { unfold g, hs_geo. cbn [rsm]. f_equal. rewrite !Rpow_mult_distr, abs_sq. ring. }
  cbv zeta. rewrite Q. assert (Qh : (hsm g ^ 2 = (lam * (zr - zs)) ^ 2)%R). { unfold g, hs_geo. cbn [hsm]. rewrite !Rpow_mult_distr, abs_sq. ring. }
  assert (Qx : g_x g = (cos an * off)%R) by reflexivity. assert (Qy : g_y g = (sin an * off)%R) by reflexivity.
  destruct Ca as [<- | [<- | [<- | []]]]; destruct Cb as [<- | [<- | [<- | []]]];
    match goal with |- context [(10 * ?u + ?v)%Z] => let w := eval compute in (10 * u + v)%Z in change (10 * u + v)%Z with w end;
    cbn [inb existsb Z.eqb Pos.eqb orb comp ver s0m]; rewrite ?Qx, ?Qy, ?Qh; unfold Rdiv; ring.
Qed.
End Static.

Definition the_value (r : PyBase.res hs_out) (k : nat) : C := match r with Ok o => parts_of o k 0 | Err _ => RtoC 0 end.
Theorem hs_static : forall ive kve isr a b off an zs zr eH eV, bessel_near_zero ive kve -> (1 <= a <= 3)%Z -> (1 <= b <= 3)%Z -> (0 <= zs + zr)%R ->
  let res := hs_res eH in let lam := hs_aniso eV res in (0 < res)%R -> (0 < lam)%R ->
  (off <> 0 \/ zs <> zr /\ zs <> - zr)%R ->
  let H sol (s : R) := halfspace ive kve (HFreq isr [RtoC s]) sol (10 * a + b) off an zs zr eH eV in
  let x := (cos an * off)%R in let y := (sin an * off)%R in
  let direct := static_field res lam x y (zr - zs) a b in
  let image := ((if (b =? 3)%Z then -1 else 1) * static_field res lam x y (zr + zs) a b)%R in
  (forall sol s, exists o, H sol s = Ok o) /\
  limC (fun s => the_value (H Dfs s) 0) z0 (RtoC direct) /\
  limC (fun s => the_value (H Dhs s) 0) z0 (RtoC (direct + image)) /\
  limC (fun s => the_value (H Dtetm s) 0) z0 (RtoC 0) /\
  limC (fun s => the_value (H Dtetm s) 1) z0 (RtoC direct) /\
  limC (fun s => the_value (H Dtetm s) 3) z0 (RtoC image) /\
  limC (fun s => Cplus (the_value (H Dtetm s) 2) (the_value (H Dtetm s) 4)) z0 (RtoC 0).
Proof.
  intros ive kve isr a b off an zs zr eH eV HB Ha Hb Hz res lam Hres Hlam Hg H x y direct image.
  set (g := hs_geo off an zs zr res lam).
  assert (Sq : ((cos an * off) ^ 2 + (sin an * off) ^ 2 = off ^ 2)%R). { rewrite !Rpow_mult_distr. pose proof (sin2_cos2 an) as E. unfold Rsqr in E. replace (cos an ^ 2 * off ^ 2 + sin an ^ 2 * off ^ 2)%R with ((sin an * sin an + cos an * cos an) * off ^ 2)%R by ring. rewrite E. ring. }
  assert (NZ : forall h, (off <> 0 \/ h <> 0)%R -> (0 < off ^ 2 + Rabs h ^ 2)%R).
  { intros h [N|N]; rewrite pow2_abs. pose proof (pow2_ge_0 h). assert (0 < off ^ 2)%R by (apply pow2_gt_0; exact N). lra. pose proof (pow2_ge_0 off). assert (0 < h ^ 2)%R by (apply pow2_gt_0; exact N). lra. }
  assert (Hrm : rm g <> 0%R). { unfold g, hs_geo. cbn [rm]. rewrite Sq. apply Rgt_not_eq, sqrt_lt_R0, NZ. destruct Hg as [G|[G1 G2]]; [now left|right; lra]. }
  assert (Hrp : rp g <> 0%R). { unfold g, hs_geo. cbn [rp]. rewrite Sq. apply Rgt_not_eq, sqrt_lt_R0, NZ. destruct Hg as [G|[G1 G2]]; [now left|right; lra]. }
  set (ab := (10 * a + b)%Z) in *. set (Pt := fun s : R => hs_part ive kve isr (AtS (RtoC s)) ab off an zs zr res lam).
  assert (HH : forall sol s, H sol s = Ok match sol with
     | Dfs => One (map p_d [Pt s]) | Dsplit => Three (map p_d [Pt s]) (map p_r [Pt s]) (map p_air [Pt s])
     | Dtetm => Five (map p_dTE [Pt s]) (map p_dTM [Pt s]) (map p_rTE [Pt s]) (map p_rTM [Pt s]) (map p_air [Pt s])
     | Dhs => One (map (fun p => Cplus (Cplus (p_d p) (p_r p)) (p_air p)) [Pt s]) end).
  { intros sol s. unfold H, halfspace. fold res. fold lam. fold g. destruct (Req_EM_T (rm g) 0); [contradiction|]. destruct (Req_EM_T (rp g) 0); [contradiction|]. reflexivity. }
  set (c := hs_coef ab g zs zr res lam).
  destruct (parts_lim ive kve isr a b off an zs zr eH eV HB Ha Hb Hz Hres Hlam Hrm Hrp) as (L1 & L2 & L3 & L4).
  pose proof (air_part_lim ive kve isr a b off an zs zr eH eV HB Ha Hb Hz Hres Hlam Hrm Hrp) as L5.
  fold res lam g ab c in L1, L3, L4, L5.
  assert (Em : s0m c = direct) by (apply (static_m ive kve isr); assumption).
  assert (Ep : s0p c = image).
  { assert (Hn : In ab nine). { unfold ab, nine. cbn [In]. assert (a = 1 \/ a = 2 \/ a = 3)%Z by lia. assert (b = 1 \/ b = 2 \/ b = 3)%Z by lia. intuition (subst; auto 12). }
    unfold c, g. rewrite (proj1 (coef_mirror ab off an zs zr res lam Hn Hz Hrp Hrm)).
    pose proof (static_m ive kve isr a b off an (- zs) zr eH eV Ha Hb) as SM. fold res lam ab in SM. rewrite SM. unfold image, x, y. replace (zr - - zs)%R with (zr + zs)%R by ring. f_equal.
    unfold mirror_sign, ab. assert (A : (a = 1 \/ a = 2 \/ a = 3)%Z) by lia. assert (B : (b = 1 \/ b = 2 \/ b = 3)%Z) by lia. destruct A as [-> | [-> | ->]]; destruct B as [-> | [-> | ->]]; reflexivity. }
  rewrite Em in L1. rewrite Ep in L3.
  assert (EV : forall o i, the_value (Ok o) i = nth 0 (nth i (out_parts o) []) (RtoC 0)) by reflexivity.
  assert (LD : limC (fun s => p_d (Pt s)) z0 (RtoC direct)). { eapply lim0_eq; [apply (limC_plus (fun s => p_dTM (Pt s)) (fun s => p_dTE (Pt s))); eassumption|ring]. }
  assert (LR : limC (fun s => p_r (Pt s)) z0 (RtoC image + RtoC (c0p c))). { apply (limC_plus (fun s => p_rTM (Pt s)) (fun s => p_rTE (Pt s))); assumption. }
  split; [intros; eexists; apply HH|].
  assert (V : forall (v f : R -> C) l, (forall s, v s = f s) -> limC f z0 l -> limC v z0 l).
  { intros v f l E L. refine (limC_ext_loc f v l _ L). apply filter_forall. intros s. symmetry. apply E. }
  split; [|split; [|split; [|split; [|split]]]].
  - apply (V _ (fun s => p_d (Pt s))); [intros s; rewrite HH; reflexivity|exact LD].
  - apply (V _ (fun s => Cplus (Cplus (p_d (Pt s)) (p_r (Pt s))) (p_air (Pt s)))); [intros s; rewrite HH; reflexivity|].
    eapply lim0_eq; [apply limC_plus; [apply limC_plus; [exact LD|exact LR]|exact L5]|]. rewrite RtoC_opp, RtoC_plus. ring.
  - apply (V _ (fun s => p_dTE (Pt s))); [intros s; rewrite HH; reflexivity|exact L2].
  - apply (V _ (fun s => p_dTM (Pt s))); [intros s; rewrite HH; reflexivity|exact L1].
  - apply (V _ (fun s => p_rTM (Pt s))); [intros s; rewrite HH; reflexivity|exact L3].
  - apply (V _ (fun s => Cplus (p_rTE (Pt s)) (p_air (Pt s)))); [intros s; rewrite HH; reflexivity|].
    eapply lim0_eq; [apply limC_plus; [exact L4|exact L5]|]. rewrite RtoC_opp. ring.
Qed.
