(** The half-space solution for a vanishing horizontal offset: the limit of the parts, and
    what the zero-offset branch (kernel.py:1096-1116) returns instead. *)

From Coq Require Import ZArith Reals List Bool Lia Lra Psatz.
From Coquelicot Require Import Coquelicot.
From Verif Require Import PyBase CBase ODE FullspaceMaxwell Halfspace HalfspaceThm HalfspaceSym Gauss HalfspaceTime HalfspaceDc.
Import ListNotations.
Local Open Scope R_scope.
Local Open Scope C_scope.

(** ** The functions of the diffusion time *)
Definition at_ok (w : hs_at) : Prop := match w with AtS _ => True | AtStep t => (0 < t)%R | AtImp t => (0 < t)%R end.

Lemma dCR : forall (f : R -> R) x l, is_derive f x l -> is_deriveC (fun t => RtoC (f t)) x (RtoC l).
Proof. intros f x l H. split; cbn [fst snd RtoC]; [exact H|]. apply (is_derive_const 0%R x). Qed.
Lemma dCe : forall f x a b, is_deriveC f x a -> a = b -> is_deriveC f x b. Proof. intros; now subst. Qed.

Lemma f0S : forall s t, (0 <= t)%R -> hs_f0 (AtS s) t = Cexp (RtoC (-2) * (RtoC (sqrt t) * Csqrt s)).
Proof. intros s t H. cbn [hs_f0]. do 2 f_equal. rewrite Cmult_comm. apply Csqrt_scale. exact H. Qed.
Lemma d_sqrt : forall t, (0 < t)%R -> is_derive sqrt t (/ (2 * sqrt t))%R.
Proof. intros t H. apply is_derive_Reals. apply derivable_pt_lim_sqrt. exact H. Qed.

Lemma f0_dS : forall s t, (0 < t)%R -> is_deriveC (hs_f0 (AtS s)) t (Copp (Cmult (RtoC (/ sqrt t)) (Cmult (Csqrt s) (hs_f0 (AtS s) t)))).
Proof.
  intros s t H. pose proof (sqrt_lt_R0 _ H) as Q.
  apply (is_deriveC_ext_loc (fun t => Cexp (RtoC (-2) * (RtoC (sqrt t) * Csqrt s)))).
  { apply filter_imp with (2 := pos_loc t H). intros v Hv. symmetry. apply f0S. lra. }
  rewrite f0S by lra. eapply dCe.
  - apply (dC_exp (fun t => RtoC (-2) * (RtoC (sqrt t) * Csqrt s))). apply is_deriveC_scal. apply (dC_mult (fun t => RtoC (sqrt t)) (fun _ => Csqrt s)); [apply dCR, d_sqrt; exact H|apply is_deriveC_const].
  - set (E := Cexp _). replace (RtoC (/ sqrt t)) with (RtoC 2 * RtoC (/ (2 * sqrt t))). 2: { rewrite <- RtoC_mult. f_equal. field. lra. }
    replace (RtoC (-2)) with (Copp (RtoC 2)) by (rewrite <- RtoC_opp; f_equal; lra). ring.
Qed.

(** f1' = - f2 / sqrt t *)
Lemma f1_derive : forall w t, at_ok w -> (0 < t)%R -> is_deriveC (hs_f1 w) t (Copp (Cmult (RtoC (/ sqrt t)) (hs_f2 w t))).
Proof.
  intros w t Hw H. pose proof (sqrt_lt_R0 _ H) as Q. assert (QQ : (sqrt t * sqrt t = t)%R) by (apply sqrt_sqrt; lra). destruct w as [s|T|T]; cbn [at_ok] in Hw; pose proof PI_RGT_0.
  - cbn [hs_f1 hs_f2]. eapply dCe; [apply is_deriveC_scal, f0_dS; exact H|]. transitivity (Copp (RtoC (/ sqrt t) * (Csqrt s * Csqrt s * hs_f0 (AtS s) t))); [ring|]. rewrite Csqrt_sqr. reflexivity.
  - cbn [hs_f1 hs_f2]. eapply dCe; [apply dCR|].
    + assert (0 < sqrt (PI * T))%R by (apply sqrt_lt_R0; nra). auto_derive; [lra|]. reflexivity.
    + rewrite <- !RtoC_mult, <- RtoC_opp. f_equal. replace (- t * / T)%R with (- t / T)%R by reflexivity. assert (0 < sqrt (PI * T))%R by (apply sqrt_lt_R0; nra). field. repeat split; lra.
  - assert (K : forall v, (0 < v)%R -> (sqrt (v / (PI * T ^ 3)) = sqrt v * / sqrt (PI * T ^ 3))%R).
    { intros v Hv. rewrite sqrt_div_alt; [reflexivity|]. apply Rmult_lt_0_compat; [lra|]. now apply pow_lt. }
    assert (P3 : (0 < sqrt (PI * T ^ 3))%R) by (apply sqrt_lt_R0, Rmult_lt_0_compat; [lra|now apply pow_lt]).
    set (j := sqrt (PI * T ^ 3)) in *. clearbody j.
    apply (is_deriveC_ext_loc (fun v => RtoC ((v / T - 1 / 2) * / j * exp (- v / T))%R)).
    { apply filter_imp with (2 := pos_loc t H). intros v Hv. cbn [hs_f1 hs_f0]. rewrite <- RtoC_mult. f_equal. rewrite (K v Hv). pose proof (sqrt_lt_R0 _ Hv). set (e := exp (- v / T)). field. lra. }
    eapply dCe; [apply dCR; auto_derive; [lra|reflexivity]|]. cbn [hs_f2 hs_f0]. rewrite <- !RtoC_mult, <- RtoC_opp. f_equal. rewrite (K t H). replace (- t * / T)%R with (- t / T)%R by reflexivity. set (e := exp (- t / T)). match goal with |- ?a = ?b => change (@eq R a b) end. field. repeat split; lra.
Qed.

Lemma f0_ex : forall w t, at_ok w -> (0 < t)%R -> exists l, is_deriveC (hs_f0 w) t l.
Proof.
  intros w t Hw H. pose proof (sqrt_lt_R0 _ H) as Q. destruct w as [s|T|T]; cbn [at_ok] in Hw; pose proof PI_RGT_0.
  - eexists. apply f0_dS. exact H.
  - cbn [hs_f0]. eexists. apply dCR. apply (is_derive_comp erfc (fun t => sqrt (t / T)%R)); [apply erfc_derive|]. auto_derive; [|reflexivity]. repeat split; try lra. apply Rmult_lt_0_compat; [lra|now apply Rinv_0_lt_compat].
  - cbn [hs_f0]. eexists. apply dCR. auto_derive; [|reflexivity]. assert (0 < PI * T ^ 3)%R by (apply Rmult_lt_0_compat; [lra|now apply pow_lt]). cbn [pow] in *. repeat split; try lra. apply Rmult_lt_0_compat; [lra|now apply Rinv_0_lt_compat].
Qed.
Lemma f2_ex : forall w t, at_ok w -> (0 < t)%R -> exists l, is_deriveC (hs_f2 w) t l.
Proof.
  intros w t Hw H. pose proof (sqrt_lt_R0 _ H) as Q. destruct (f0_ex w t Hw H) as [l0 D0]. pose proof (f1_derive w t Hw H) as D1. destruct w as [s|T|T]; cbn [hs_f2].
  - eexists. apply is_deriveC_scal. exact D0.
  - cbn [at_ok] in Hw. eexists. apply (dC_mult _ (fun t => RtoC (sqrt t / T)%R)); [exact D1|]. apply dCR. auto_derive; [lra|reflexivity].
  - cbn [at_ok] in Hw. eexists. apply (dC_mult (fun t => RtoC ((t / T - 3 / 2) / T)%R)); [|exact D0]. apply dCR. auto_derive; [lra|reflexivity].
Qed.

(** ** Limits along t0 + a off^2 *)
Lemma sq_lim0 : forall t0 a : R, filterlim (fun off : R => t0 + a * off ^ 2)%R z0 (locally t0).
Proof.
  intros t0 a. eapply filterlim_filter_le_1; [apply filter_le_within|].
  assert (K : continuous (fun off : R => (t0 + a * off ^ 2)%R) 0%R) by (apply (ex_derive_continuous (V := R_NormedModule)); auto_derive; exact I).
  unfold continuous in K. replace (t0 + a * 0 ^ 2)%R with t0 in K by (match goal with |- ?a = ?b => change (@eq R a b) end; ring). exact K.
Qed.
Lemma contC_lim0 : forall f t0 a, contC f t0 -> limC (fun off : R => f (t0 + a * off ^ 2)%R) z0 (f t0).
Proof.
  intros f t0 a [H1 H2]. split; [apply (filterlim_comp _ _ _ (fun off : R => t0 + a * off ^ 2)%R (fun t => fst (f t)) z0 (locally t0)); [apply sq_lim0|exact H1]|].
  apply (filterlim_comp _ _ _ (fun off : R => t0 + a * off ^ 2)%R (fun t => snd (f t)) z0 (locally t0)); [apply sq_lim0|exact H2].
Qed.
Lemma quot0 : forall (f : R -> R) t0 a d, is_derive f t0 d -> filterlim (fun off : R => (f (t0 + a * off ^ 2) - f t0) / off ^ 2)%R z0 (locally (a * d)%R).
Proof.
  intros f t0 a d D.
  assert (G : is_derive (fun u => f (t0 + a * u)%R) 0%R (a * d)%R).
  { apply (is_derive_comp f (fun u => t0 + a * u)%R). { rewrite Rmult_0_r, Rplus_0_r. exact D. } { auto_derive; [exact I|]. match goal with |- ?a = ?b => change (@eq R a b) end. ring. } }
  apply is_derive_Reals in G. apply filterlim_locally. intros [e He]. destruct (G e He) as [[dl Hdl] K]. cbn [pos] in K.
  assert (Hm : (0 < Rmin 1 dl)%R) by (apply Rmin_pos; lra). exists (mkposreal _ Hm). intros off Hb Ho. unfold ball in *. cbn in *. unfold AbsRing_ball, abs, minus, plus, opp in *. cbn in *.
  rewrite Ropp_0, Rplus_0_r in Hb. rewrite Rabs_pos_eq in Hb by lra. pose proof (Rmin_l 1 dl). pose proof (Rmin_r 1 dl).
  specialize (K (off ^ 2)%R). assert (0 < off ^ 2)%R by (apply pow_lt; exact Ho). assert (off ^ 2 < dl)%R by (cbn [pow]; nra).
  assert (K' := K ltac:(lra) ltac:(rewrite Rabs_pos_eq; lra)). rewrite Rplus_0_l, Rmult_0_r, Rplus_0_r in K'. cbn [pow] in K'. exact K'.
Qed.
Lemma quotC0 : forall f t0 a d, is_deriveC f t0 d -> limC (fun off : R => RtoC (/ off ^ 2) * (f (t0 + a * off ^ 2)%R - f t0)) z0 (RtoC a * d).
Proof.
  intros f t0 a d [H1 H2]. split.
  - replace (fst (RtoC a * d)) with (a * fst d)%R by (cbn; ring). refine (filterlim_ext _ _ _ (quot0 _ t0 a _ H1)). intros off. cbn [fst snd Cmult Cminus Cplus Copp RtoC]. unfold Rdiv. ring.
  - replace (snd (RtoC a * d)) with (a * snd d)%R by (cbn; ring). refine (filterlim_ext _ _ _ (quot0 _ t0 a _ H2)). intros off. cbn [fst snd Cmult Cminus Cplus Copp RtoC]. unfold Rdiv. ring.
Qed.
Lemma pos0 : z0 (fun off => (0 < off)%R). Proof. exists (mkposreal 1 Rlt_0_1). intros y _ Hy. exact Hy. Qed.
Lemma lim0_ext : forall (f h : R -> C) l, (forall off, (0 < off)%R -> f off = h off) -> limC f z0 l -> limC h z0 l.
Proof. intros f h l E L. refine (limC_ext_loc f h l _ L). generalize pos0. apply filter_imp. exact E. Qed.

Lemma Rlim0 : forall f : R -> R, ex_derive f 0%R -> filterlim f z0 (locally (f 0%R)).
Proof. intros f H. eapply filterlim_filter_le_1; [apply filter_le_within|]. apply (ex_derive_continuous (V := R_NormedModule)). exact H. Qed.
Lemma RlimC0 : forall (f : R -> R) l, ex_derive f 0%R -> f 0%R = l -> limC (fun off => RtoC (f off)) z0 (RtoC l).
Proof. intros f l H <-. apply lim0_R, Rlim0. exact H. Qed.

Ltac nzp := cbn [pow]; repeat match goal with |- (_ * _)%R <> 0%R => apply Rmult_integral_contrapositive_currified end; try (apply Rgt_not_eq; lra); try lra.
(** ** The singular combination shared by the direct and the reflected field *)
Section Core.
Variables (w : hs_at) (res lam h c d : R).
Hypothesis Hw : at_ok w.
Hypothesis Hres : (0 < res)%R.
Hypothesis Hlam : (0 < lam)%R.
Hypothesis Hh : (0 < h)%R.
Let r (off : R) := sqrt (off ^ 2 + h ^ 2).
Let rs (off : R) := sqrt (off ^ 2 + (h * lam) ^ 2).
Let t0 := (mu0 * h ^ 2 / (res * 4))%R.
Let al := (mu0 / (res * 4))%R.
Let t (off : R) := (mu0 * (r off) ^ 2 / (res * 4))%R.
Let ts (off : R) := (mu0 * (rs off) ^ 2 / (res * lam ^ 2 * 4))%R.
Let sq := sqrt (mu0 * res).

Lemma core_t0 : (0 < t0)%R.
Proof using All. unfold t0. pose proof mu0_pos. apply Rdiv_lt_0_compat; [apply Rmult_lt_0_compat; [lra|now apply pow_lt]|lra]. Qed.
Lemma core_t : forall off, t off = (t0 + al * off ^ 2)%R.
Proof using All. intros off. unfold t, t0, al, r. rewrite <- Rsqr_pow2, Rsqr_sqrt. field. lra. pose proof (pow2_ge_0 off). pose proof (pow2_ge_0 h). lra. Qed.
Lemma core_ts : forall off, ts off = (t0 + al / lam ^ 2 * off ^ 2)%R.
Proof using All. intros off. unfold ts, t0, al, rs. rewrite <- Rsqr_pow2, Rsqr_sqrt. field. split; lra. pose proof (pow2_ge_0 off). pose proof (pow2_ge_0 (h * lam)). lra. Qed.
Lemma core_st0 : sqrt t0 = (mu0 * h / (2 * sq))%R.
Proof using All.
  pose proof mu0_pos. assert (0 < sq)%R by (apply sqrt_lt_R0, Rmult_lt_0_compat; assumption). assert (E : (sq * sq = mu0 * res)%R) by (apply sqrt_sqrt; apply Rlt_le, Rmult_lt_0_compat; assumption).
  apply sqrt_lem_1. apply Rlt_le, core_t0. apply Rlt_le, Rdiv_lt_0_compat; [now apply Rmult_lt_0_compat|lra].
  transitivity (mu0 * mu0 * h ^ 2 / (4 * (sq * sq)))%R; [field; lra|]. rewrite E. unfold t0. field. split; lra.
Qed.
Lemma core_rs : (0 < rs 0)%R /\ rs 0 = (h * lam)%R.
Proof using All. assert (0 < h * lam)%R by now apply Rmult_lt_0_compat. assert (E : rs 0 = (h * lam)%R). { unfold rs. replace (0 ^ 2 + (h * lam) ^ 2)%R with ((h * lam) ^ 2)%R by ring. apply sqrt_pow2. lra. } split; [rewrite E; assumption|exact E]. Qed.
Lemma core_r : (0 < r 0)%R /\ r 0 = h.
Proof using All. assert (E : r 0 = h). { unfold r. replace (0 ^ 2 + h ^ 2)%R with (h ^ 2)%R by ring. apply sqrt_pow2. lra. } split; [rewrite E; assumption|exact E]. Qed.
Lemma core_ders : ex_derive rs 0%R /\ ex_derive r 0%R.
Proof using All.
  assert (0 < h * lam)%R by now apply Rmult_lt_0_compat.
  split; unfold rs, r; auto_derive; (split; [|exact I]) || idtac; cbn [pow]; nra.
Qed.

Let S0 (off : R) := (res * lam * (3 * (off ^ 2 * c) - (rs off) ^ 2 * d) / (4 * PI * (rs off) ^ 5))%R.
Let S1a (off : R) := ((3 * (off ^ 2 * c) - (rs off) ^ 2 * d) / (rs off) ^ 4 * sq / (4 * PI))%R.
Let S2 (off : R) := (mu0 * c / (4 * PI * lam * rs off) * (off ^ 2 / (rs off) ^ 2 - 1))%R.
Let K1 := (sq * (2 * c - d) / (4 * PI))%R.
Let C2 (off : R) := (- mu0 * (d - c) / (4 * PI * r off))%R.

Definition core (off : R) : C :=
  rc (S0 off) (hs_f0 w (ts off)) + rc (S1a off) (hs_f1 w (ts off)) + RtoC K1 * (RtoC (/ off ^ 2) * (hs_f1 w (t off) - hs_f1 w (ts off)))
  + rc (S2 off) (hs_f2 w (ts off)) + rc (C2 off) (hs_f2 w (t off)).

Definition core_value (sign : R) : C :=
  rc (res * lam * (- (h * lam) ^ 2 * d) / (4 * PI * (h * lam) ^ 5)) (hs_f0 w t0)
  + rc (- sq * d / (4 * PI * (h * lam) ^ 2)) (hs_f1 w t0)
  + (rc (- mu0 * d / (8 * PI * lam * (h * lam))) (hs_f2 w t0) + rc (sign * (mu0 * d / (8 * PI * h))) (hs_f2 w t0)).

Lemma lim_f : forall a, limC (fun off => hs_f0 w (t0 + a * off ^ 2)%R) z0 (hs_f0 w t0) /\ limC (fun off => hs_f1 w (t0 + a * off ^ 2)%R) z0 (hs_f1 w t0) /\ limC (fun off => hs_f2 w (t0 + a * off ^ 2)%R) z0 (hs_f2 w t0).
Proof using All.
  intros a. pose proof core_t0 as P. destruct (f0_ex w t0 Hw P) as [l0 D0]. destruct (f2_ex w t0 Hw P) as [l2 D2]. pose proof (f1_derive w t0 Hw P) as D1.
  split; [|split]; apply contC_lim0; eapply is_deriveC_cont; eassumption.
Qed.
Lemma lim_q : limC (fun off => RtoC (/ off ^ 2) * (hs_f1 w (t off) - hs_f1 w (ts off))) z0 (Copp (RtoC ((al - al / lam ^ 2) * / sqrt t0) * hs_f2 w t0)).
Proof using All.
  pose proof (f1_derive w t0 Hw core_t0) as D1. pose proof (quotC0 _ _ al _ D1) as L1. pose proof (quotC0 _ _ (al / lam ^ 2)%R _ D1) as L2.
  eapply lim0_eq; [refine (lim0_ext _ _ _ _ (limC_minus _ _ _ _ L1 L2))|].
  - intros off _. cbv beta. rewrite core_t, core_ts. ring.
  - rewrite RtoC_mult. unfold Rminus. rewrite RtoC_plus, RtoC_opp. ring.
Qed.

Theorem core_lim : limC core z0 (core_value (-1)).
Proof using All.
  pose proof PI_RGT_0 as HP. pose proof mu0_pos as HM. destruct core_rs as [R1 R2], core_r as [R3 R4], core_ders as [D1 D2].
  assert (Hsq : (0 < sq)%R) by (apply sqrt_lt_R0, Rmult_lt_0_compat; assumption). assert (E : (sq * sq = mu0 * res)%R) by (apply sqrt_sqrt; apply Rlt_le, Rmult_lt_0_compat; assumption).
  destruct (lim_f (al / lam ^ 2)) as (F0 & F1 & F2). destruct (lim_f al) as (_ & _ & G2).
  unfold core. eapply lim0_eq.
  - apply limC_plus; [apply limC_plus; [apply limC_plus; [apply limC_plus|]|]|].
    + apply lim0_mult. { apply (RlimC0 S0 (S0 0%R)); [|reflexivity]. unfold S0. auto_derive. repeat split; try exact D1; nzp. }
      refine (lim0_ext _ _ _ _ F0). intros off _. rewrite core_ts. reflexivity.
    + apply lim0_mult. { apply (RlimC0 S1a (S1a 0%R)); [|reflexivity]. unfold S1a. auto_derive. repeat split; try exact D1; nzp. }
      refine (lim0_ext _ _ _ _ F1). intros off _. rewrite core_ts. reflexivity.
    + apply limC_scal, lim_q.
    + apply lim0_mult. { apply (RlimC0 S2 (S2 0%R)); [|reflexivity]. unfold S2. auto_derive. repeat split; try exact D1; nzp. }
      refine (lim0_ext _ _ _ _ F2). intros off _. rewrite core_ts. reflexivity.
    + apply lim0_mult. { apply (RlimC0 C2 (C2 0%R)); [|reflexivity]. unfold C2. auto_derive. repeat split; try exact D2; nzp. }
      refine (lim0_ext _ _ _ _ G2). intros off _. rewrite core_t. reflexivity.
  - unfold core_value, rc. set (x0 := hs_f0 w t0). set (x1 := hs_f1 w t0). set (x2 := hs_f2 w t0).
    assert (E0 : S0 0 = (res * lam * (- (h * lam) ^ 2 * d) / (4 * PI * (h * lam) ^ 5))%R) by (unfold S0; rewrite R2; field; repeat split; lra).
    assert (E1 : S1a 0 = (- sq * d / (4 * PI * (h * lam) ^ 2))%R) by (unfold S1a; rewrite R2; field; repeat split; lra).
    rewrite E0, E1.
    assert (EX : (RtoC K1 * Copp (RtoC ((al - al / lam ^ 2) * / sqrt t0) * x2) + RtoC (S2 0) * x2 + RtoC (C2 0) * x2
                  = RtoC (- mu0 * d / (8 * PI * lam * (h * lam))) * x2 + RtoC (-1 * (mu0 * d / (8 * PI * h))) * x2)%C).
    { transitivity (RtoC (K1 * - ((al - al / lam ^ 2) * / sqrt t0) + S2 0 + C2 0) * x2); [rewrite !RtoC_plus, (RtoC_mult K1), RtoC_opp; ring|].
      transitivity (RtoC (- mu0 * d / (8 * PI * lam * (h * lam)) + -1 * (mu0 * d / (8 * PI * h))) * x2); [|rewrite RtoC_plus; ring].
      do 2 f_equal. rewrite core_st0. unfold K1, S2, C2, al. rewrite R2, R4.
      assert (Er : res = (sq * sq / mu0)%R) by (rewrite E; field; lra). clearbody sq. rewrite Er. match goal with |- ?a = ?b => change (@eq R a b) end. field. repeat split; lra. }
    rewrite <- EX. ring.
Qed.
End Core.

(** ** The parts as functions of the offset *)
Definition four : list Z := [11; 12; 21; 22]%Z.
Definition cc (ab : Z) (an : R) : R := if (ab =? 11)%Z then (cos an * cos an)%R else if (ab =? 22)%Z then (sin an * sin an)%R else (cos an * sin an)%R.
Lemma inb4 : forall ab, In ab four -> inb ab [11; 12; 21; 22]%Z = true.
Proof. intros ab [<- | [<- | [<- | [<- | []]]]]; reflexivity. Qed.
Section Parts.
Variables (ab : Z) (an zs zr res lam : R) (w : hs_at).
Hypothesis Hw : at_ok w.
Hypothesis Hres : (0 < res)%R.
Hypothesis Hlam : (0 < lam)%R.
Hypothesis Hm : zs <> zr.
Hypothesis Hp : (zs <> - zr)%R.
Let G (off : R) := hs_geo off an zs zr res lam.
Let h := Rabs (zr - zs).
Let h' := Rabs (zr + zs).
Lemma h_pos : (0 < h)%R. Proof using All. apply Rabs_pos_lt. lra. Qed.
Lemma h'_pos : (0 < h')%R. Proof using All. apply Rabs_pos_lt. lra. Qed.
Lemma G_eq : forall off, (0 <= off)%R -> G off =
  {| g_x := cos an * off; g_y := sin an * off; rh := off; hp := h'; hm := h; hsp := h' * lam; hsm := h * lam;
     rp := sqrt (off ^ 2 + h' ^ 2); rm := sqrt (off ^ 2 + h ^ 2);
     rsp := sqrt (off ^ 2 + (h' * lam) ^ 2); rsm := sqrt (off ^ 2 + (h * lam) ^ 2);
     tp := mu0 * (sqrt (off ^ 2 + h' ^ 2)) ^ 2 / (res * 4); tm := mu0 * (sqrt (off ^ 2 + h ^ 2)) ^ 2 / (res * 4);
     tsp := mu0 * (sqrt (off ^ 2 + (h' * lam) ^ 2)) ^ 2 / (res * lam ^ 2 * 4);
     tsm := mu0 * (sqrt (off ^ 2 + (h * lam) ^ 2)) ^ 2 / (res * lam ^ 2 * 4) |}.
Proof using All.
  intros off Ho. unfold G, hs_geo. fold h. fold h'. rewrite !sqr_sum. rewrite (sqrt_pow2 off Ho). reflexivity.
Qed.
Lemma xy_cc : forall off, let '(x, y) := hs_xy ab (cos an * off) (sin an * off) in In ab four -> (x * y = off ^ 2 * cc ab an)%R.
Proof using.
  intros off. unfold hs_xy, cc. destruct (Z.eqb_spec ab 11) as [->|N1]; [intros _; ring|]. cbn [inb existsb]. destruct (Z.eqb_spec ab 22) as [->|N2]; [intros _; cbn [orb]; ring|].
  destruct (_ || _) eqn:E; [intros [<- | [<- | [<- | [<- | []]]]]; discriminate || congruence|]. destruct (ab =? 21)%Z; intros _; ring.
Qed.
Let d := hs_delta ab.
Let c := cc ab an.
Let Pt (off : R) := hs_fields (hs_coef ab (G off) zs zr res lam) (G off) w (RtoC 0).
Hypothesis Hab : In ab four.
Lemma S_pos : forall off k, (0 < k)%R -> (0 < sqrt (off ^ 2 + k ^ 2))%R.
Proof using. intros off k Hk. apply sqrt_lt_R0. pose proof (pow2_ge_0 off). assert (0 < k ^ 2)%R by now apply pow_lt. lra. Qed.

Definition extra (off : R) : C :=
  let r := sqrt (off ^ 2 + h' ^ 2) in let t := (mu0 * r ^ 2 / (res * 4))%R in let f := (off ^ 2 * (d - c))%R in
  rc (res * (3 * f - r ^ 2 * d) / (2 * PI * r ^ 5)) (hs_f0 w t)
  + rc (sqrt (mu0 * res) * (3 * f - r ^ 2 * d) / (2 * PI * r ^ 4)) (hs_f1 w t)
  + rc (mu0 * f / (4 * PI * r) * (2 / r ^ 2)) (hs_f2 w t).

Lemma d_core : forall off, (0 < off)%R -> p_d (Pt off) = core w res lam h c d off.
Proof using All.
  intros off Ho. unfold Pt. rewrite (G_eq off) by lra. unfold hs_fields, hs_coef. cbn [g_x g_y rh hp hm hsp hsm rp rm rsp rsm tp tm tsp tsm]. pose proof (xy_cc off) as XY. destruct (hs_xy ab (cos an * off) (sin an * off)) as [x y]. specialize (XY Hab).
  rewrite (inb4 ab Hab). destruct (Req_EM_T off 0); [lra|]. cbn [p_d s0m s0p s1m s1p s2m s2p c0p c1m c1p c2m c2p]. fold d. fold c in XY. unfold core.
  assert (P1 := S_pos off h h_pos). assert (P2 := S_pos off (h * lam) ltac:(pose proof h_pos; now apply Rmult_lt_0_compat)). pose proof PI_RGT_0.
  set (r := sqrt (off ^ 2 + h ^ 2)) in *. set (rs := sqrt (off ^ 2 + (h * lam) ^ 2)) in *. clearbody r rs.
  set (ts := (mu0 * rs ^ 2 / (res * lam ^ 2 * 4))%R). set (t := (mu0 * r ^ 2 / (res * 4))%R). clearbody t ts. set (sq := sqrt (mu0 * res)). clearbody sq.
  replace (3 * x * y)%R with (3 * (off ^ 2 * c))%R by (rewrite <- XY; ring). replace (mu0 * x * y)%R with (mu0 * (off ^ 2 * c))%R by (rewrite <- XY; ring). rewrite !XY.
  replace (off ^ 2 * c - (off ^ 2 * d - off ^ 2 * c))%R with (off ^ 2 * (2 * c - d))%R by ring.
  set (y0 := hs_f0 w ts). set (y1 := hs_f1 w ts). set (y2 := hs_f2 w ts). set (z1 := hs_f1 w t). set (z2 := hs_f2 w t). unfold rc.
  replace (((3 * (off ^ 2 * c) - rs ^ 2 * d) / rs ^ 4 - off ^ 2 * (2 * c - d) / off ^ 4) * sq / (4 * PI))%R
    with ((3 * (off ^ 2 * c) - rs ^ 2 * d) / rs ^ 4 * sq / (4 * PI) + - (sq * (2 * c - d) / (4 * PI) * / off ^ 2))%R by (field; repeat split; lra).
  replace (sq * (off ^ 2 * (2 * c - d)) / (4 * PI * off ^ 4))%R with (sq * (2 * c - d) / (4 * PI) * / off ^ 2)%R by (field; repeat split; lra).
  replace (mu0 * (off ^ 2 * c) / (4 * PI * lam * rs) * (1 / rs ^ 2 - 1 / off ^ 2))%R with (mu0 * c / (4 * PI * lam * rs) * (off ^ 2 / rs ^ 2 - 1))%R by (field; repeat split; lra).
  replace (- mu0 * (off ^ 2 * d - off ^ 2 * c) / (4 * PI * off ^ 2 * r))%R with (- mu0 * (d - c) / (4 * PI * r))%R by (field; repeat split; lra).
  rewrite RtoC_plus, RtoC_opp, (RtoC_mult (sq * (2 * c - d) / (4 * PI)) (/ off ^ 2)). ring.
Qed.
Lemma r_core : forall off, (0 < off)%R -> p_r (Pt off) = core w res lam h' c d off + extra off.
Proof using All.
  intros off Ho. unfold Pt. rewrite (G_eq off) by lra. unfold hs_fields, hs_coef. cbn [g_x g_y rh hp hm hsp hsm rp rm rsp rsm tp tm tsp tsm]. pose proof (xy_cc off) as XY. destruct (hs_xy ab (cos an * off) (sin an * off)) as [x y]. specialize (XY Hab).
  rewrite (inb4 ab Hab). destruct (Req_EM_T off 0); [lra|]. cbn [p_r s0m s0p s1m s1p s2m s2p c0p c1m c1p c2m c2p]. fold d. fold c in XY. unfold core, extra.
  assert (P1 := S_pos off h' h'_pos). assert (P2 := S_pos off (h' * lam) ltac:(pose proof h'_pos; now apply Rmult_lt_0_compat)). pose proof PI_RGT_0.
  set (r := sqrt (off ^ 2 + h' ^ 2)) in *. set (rs := sqrt (off ^ 2 + (h' * lam) ^ 2)) in *. clearbody r rs.
  cbv zeta.
  set (ts := (mu0 * rs ^ 2 / (res * lam ^ 2 * 4))%R). set (t := (mu0 * r ^ 2 / (res * 4))%R). clearbody t ts. set (sq := sqrt (mu0 * res)). clearbody sq.
  replace (3 * x * y)%R with (3 * (off ^ 2 * c))%R by (rewrite <- XY; ring). replace (mu0 * x * y)%R with (mu0 * (off ^ 2 * c))%R by (rewrite <- XY; ring). rewrite !XY.
  replace (off ^ 2 * c - (off ^ 2 * d - off ^ 2 * c))%R with (off ^ 2 * (2 * c - d))%R by ring. replace (off ^ 2 * d - off ^ 2 * c)%R with (off ^ 2 * (d - c))%R by ring.
  set (y0 := hs_f0 w ts). set (y1 := hs_f1 w ts). set (y2 := hs_f2 w ts). set (z0' := hs_f0 w t). set (z1 := hs_f1 w t). set (z2 := hs_f2 w t). unfold rc.
  replace (((3 * (off ^ 2 * c) - rs ^ 2 * d) / rs ^ 4 - off ^ 2 * (2 * c - d) / off ^ 4) * sq / (4 * PI))%R
    with ((3 * (off ^ 2 * c) - rs ^ 2 * d) / rs ^ 4 * sq / (4 * PI) + - (sq * (2 * c - d) / (4 * PI) * / off ^ 2))%R by (field; repeat split; lra).
  replace (sq * (off ^ 2 * (2 * c - d)) / (4 * PI * off ^ 4))%R with (sq * (2 * c - d) / (4 * PI) * / off ^ 2)%R by (field; repeat split; lra).
  replace (mu0 * (off ^ 2 * c) / (4 * PI * lam * rs) * (1 / rs ^ 2 - 1 / off ^ 2))%R with (mu0 * c / (4 * PI * lam * rs) * (off ^ 2 / rs ^ 2 - 1))%R by (field; repeat split; lra).
  replace (mu0 * (off ^ 2 * (d - c)) / (4 * PI * r) * (2 / r ^ 2 - 1 / off ^ 2))%R
    with (- mu0 * (d - c) / (4 * PI * r) + mu0 * (off ^ 2 * (d - c)) / (4 * PI * r) * (2 / r ^ 2))%R by (field; repeat split; lra).
  rewrite (RtoC_plus ((3 * (off ^ 2 * c) - rs ^ 2 * d) / rs ^ 4 * sq / (4 * PI))), RtoC_opp, (RtoC_plus (sq * (2 * c - d) / (4 * PI) * / off ^ 2)), (RtoC_plus (- mu0 * (d - c) / (4 * PI * r))), (RtoC_mult (sq * (2 * c - d) / (4 * PI)) (/ off ^ 2)). ring.
Qed.
Lemma S0_eq : forall k, (0 < k)%R -> sqrt (0 ^ 2 + k ^ 2) = k.
Proof using. intros k Hk. replace (0 ^ 2 + k ^ 2)%R with (k ^ 2)%R by ring. apply sqrt_pow2. lra. Qed.
Lemma ts0 : forall k, (mu0 * (k * lam) ^ 2 / (res * lam ^ 2 * 4) = mu0 * k ^ 2 / (res * 4))%R.
Proof using Hres Hlam. intros k. field. split; lra. Qed.
Lemma d_zero : p_d (Pt 0) = core_value w res lam h d 1.
Proof using All.
  unfold Pt. rewrite (G_eq 0) by lra. unfold hs_fields, hs_coef. cbn [g_x g_y rh hp hm hsp hsm rp rm rsp rsm tp tm tsp tsm]. pose proof (xy_cc 0) as XY. destruct (hs_xy ab (cos an * 0) (sin an * 0)) as [x y]. specialize (XY Hab).
  rewrite (inb4 ab Hab). destruct (Req_EM_T 0 0) as [_|N]; [|exfalso; apply N; reflexivity]. pose proof h_pos as Ph. destruct (Req_EM_T h 0) as [E|_]; [lra|]. cbn [p_d s0m s0p s1m s1p s2m s2p c0p c1m c1p c2m c2p]. fold d.
  assert (XY0 : (x * y = 0)%R) by (rewrite XY; ring). pose proof (Rmult_lt_0_compat _ _ Ph Hlam) as Pl. rewrite !(S0_eq h Ph), !(S0_eq (h * lam) Pl), (ts0 h).
  unfold core_value. set (t0 := (mu0 * h ^ 2 / (res * 4))%R). clearbody t0. pose proof PI_RGT_0.
  replace (3 * x * y - (h * lam) ^ 2 * d)%R with (- (h * lam) ^ 2 * d)%R by (transitivity (3 * (x * y) - (h * lam) ^ 2 * d)%R; [rewrite XY0; ring|ring]).
  rewrite (Rmult_1_l (mu0 * d / (8 * PI * h))). unfold rc. ring.
Qed.
Lemma r_zero : p_r (Pt 0) = core_value w res lam h' d 1 + extra 0.
Proof using All.
  unfold Pt. rewrite (G_eq 0) by lra. unfold hs_fields, hs_coef. cbn [g_x g_y rh hp hm hsp hsm rp rm rsp rsm tp tm tsp tsm]. pose proof (xy_cc 0) as XY. destruct (hs_xy ab (cos an * 0) (sin an * 0)) as [x y]. specialize (XY Hab).
  rewrite (inb4 ab Hab). destruct (Req_EM_T 0 0) as [_|N]; [|exfalso; apply N; reflexivity]. pose proof h_pos as Ph0. destruct (Req_EM_T h 0) as [E|_]; [lra|]. pose proof h'_pos as Ph. cbn [p_r s0m s0p s1m s1p s2m s2p c0p c1m c1p c2m c2p]. fold d.
  assert (XY0 : (x * y = 0)%R) by (rewrite XY; ring). pose proof (Rmult_lt_0_compat _ _ Ph Hlam) as Pl. unfold core_value, extra. cbv zeta. rewrite !(S0_eq h' Ph), !(S0_eq (h' * lam) Pl), (ts0 h').
  set (t0 := (mu0 * h' ^ 2 / (res * 4))%R). clearbody t0. pose proof PI_RGT_0.
  replace (3 * x * y - (h' * lam) ^ 2 * d)%R with (- (h' * lam) ^ 2 * d)%R by (transitivity (3 * (x * y) - (h' * lam) ^ 2 * d)%R; [rewrite XY0; ring|ring]).
  rewrite XY0. rewrite (Rmult_1_l (mu0 * d / (8 * PI * h'))). set (sq := sqrt (mu0 * res)). clearbody sq.
  replace (3 * (0 ^ 2 * d - 0) - h' ^ 2 * d)%R with (- h' ^ 2 * d)%R by ring. replace (3 * (0 ^ 2 * (d - c)) - h' ^ 2 * d)%R with (- h' ^ 2 * d)%R by ring.
  replace (mu0 * (0 ^ 2 * (d - c)) / (4 * PI * h') * (2 / h' ^ 2))%R with 0%R by (field; repeat split; lra).
  replace (sq * (- h' ^ 2 * d) / (2 * PI * h' ^ 4))%R with (- sq * d / (2 * PI * h' ^ 2))%R by (field; repeat split; lra).
  unfold rc. ring.
Qed.
Lemma extra_lim : limC extra z0 (extra 0).
Proof using All.
  pose proof h'_pos as Ph. pose proof PI_RGT_0. set (r := fun off : R => sqrt (off ^ 2 + h' ^ 2)). assert (R0 : (0 < r 0)%R) by apply (S_pos 0 h' Ph). assert (Dr : ex_derive r 0%R).
  { unfold r. auto_derive. cbn [pow]. nra. }
  destruct (lim_f w res lam h' c d Hw Hres Hlam Ph (mu0 / (res * 4))) as (F0 & F1 & F2).
  assert (T : forall off, (mu0 * r off ^ 2 / (res * 4) = mu0 * h' ^ 2 / (res * 4) + mu0 / (res * 4) * off ^ 2)%R) by (intros off; apply (core_t w res lam h' c d Hw Hres Hlam Ph)).
  assert (T0 : (mu0 * r 0 ^ 2 / (res * 4) = mu0 * h' ^ 2 / (res * 4))%R) by (unfold r; rewrite (S0_eq h' Ph); reflexivity).
  unfold extra. cbv zeta. fold (r 0). rewrite T0.
  apply limC_plus; [apply limC_plus|]; apply lim0_mult.
  - apply (RlimC0 (fun off => res * (3 * (off ^ 2 * (d - c)) - r off ^ 2 * d) / (2 * PI * r off ^ 5))%R); [|reflexivity]. auto_derive. repeat split; try exact Dr; nzp.
  - refine (lim0_ext _ _ _ _ F0). intros off _. fold (r off). rewrite T. reflexivity.
  - apply (RlimC0 (fun off => sqrt (mu0 * res) * (3 * (off ^ 2 * (d - c)) - r off ^ 2 * d) / (2 * PI * r off ^ 4))%R); [|reflexivity]. auto_derive. repeat split; try exact Dr; nzp.
  - refine (lim0_ext _ _ _ _ F1). intros off _. fold (r off). rewrite T. reflexivity.
  - apply (RlimC0 (fun off => mu0 * (off ^ 2 * (d - c)) / (4 * PI * r off) * (2 / r off ^ 2))%R); [|reflexivity]. auto_derive. repeat split; try exact Dr; nzp.
  - refine (lim0_ext _ _ _ _ F2). intros off _. fold (r off). rewrite T. reflexivity.
Qed.

(** what the value at zero offset lacks *)
Definition lacking (k : R) : C := rc (mu0 * d / (4 * PI * k)) (hs_f2 w (mu0 * k ^ 2 / (res * 4))).
Lemma core_jump : forall k, (0 < k)%R -> core_value w res lam k d (-1) = core_value w res lam k d 1 - lacking k.
Proof using.
  intros k Hk. unfold core_value, lacking. pose proof PI_RGT_0. replace (-1 * (mu0 * d / (8 * PI * k)))%R with (1 * (mu0 * d / (8 * PI * k)) + - (mu0 * d / (4 * PI * k)))%R by (field; split; lra).
  unfold rc. rewrite RtoC_plus, RtoC_opp. ring.
Qed.
Theorem parts_jump : limC (fun off => p_d (Pt off)) z0 (p_d (Pt 0) - lacking h) /\ limC (fun off => p_r (Pt off)) z0 (p_r (Pt 0) - lacking h').
Proof using All.
  rewrite d_zero, r_zero. split.
  - rewrite <- core_jump by exact h_pos. refine (lim0_ext _ _ _ _ (core_lim w res lam h c d Hw Hres Hlam h_pos)). intros off Ho. symmetry. apply d_core. exact Ho.
  - replace (core_value w res lam h' d 1 + extra 0 - lacking h') with (core_value w res lam h' d 1 - lacking h' + extra 0) by ring. rewrite <- core_jump by exact h'_pos.
    refine (lim0_ext _ _ _ _ (limC_plus _ _ _ _ (core_lim w res lam h' c d Hw Hres Hlam h'_pos) extra_lim)). intros off Ho. symmetry. apply r_core. exact Ho.
Qed.
End Parts.
