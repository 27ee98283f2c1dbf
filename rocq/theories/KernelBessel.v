(** Bessel decomposition: the three pieces returned by kernel.wavenumber are the
    angular integral of the plane-wave spectrum. *)

From Coq Require Import Reals ZArith List Bool Lia Lra Psatz.
From Coquelicot Require Import Coquelicot.
From Verif Require Import PyBase CBase Kernel KernelSpec KernelClosed KernelPassive KernelMain KernelThm Bessel.
Import ListNotations.
Local Open Scope R_scope.
Local Open Scope C_scope.

(** ** Specification *)

(** Integral over all directions theta of a complex function. *)
Definition CInt (f : R -> C) : C :=
  (RInt (fun t => fst (f t)) 0 (2 * PI), RInt (fun t => snd (f t)) 0 (2 * PI)).

(** Plane wave exp(i k.x) with k = (x/r)(cos t, sin t) at the point (r, phi). *)
Definition pw (x phi t : R) : C := (cos (x * cos (t - phi)), sin (x * cos (t - phi))).

(** Unit vectors along and across the horizontal wavenumber; index 1 = x, 2 = y. *)
Definition kh (i : Z) (t : R) : R := if (i =? 1)%Z then cos t else sin t.
Definition th (i : Z) (t : R) : R := if (i =? 1)%Z then (- sin t)%R else cos t.

(** Spectrum of the electric field component [recc ab] for the source
    [srcc ab] (1-3 electric, 4-6 magnetic) in direction t. *)
Definition spectrum (ab : Z) (lam : R) (TM TE : C) (t : R) : C :=
  let a := recc ab in let b := srcc ab in
  if (a =? 3)%Z then
    if (b =? 3)%Z then RtoC (lam * lam) * TM
    else if (b <? 3)%Z then - (Ci * RtoC (lam * kh b t)) * TM
    else - (Ci * RtoC (lam * th (b - 3) t)) * TM
  else
    if (b =? 3)%Z then - (Ci * RtoC (lam * kh a t)) * TM
    else if (b =? 6)%Z then Ci * RtoC (lam * th a t) * TE
    else if (b <? 3)%Z then RtoC (kh a t * kh b t) * TM - RtoC (th a t * th b t) * TE
    else RtoC (kh a t * th (b - 3) t) * TM + RtoC (th a t * kh (b - 3) t) * TE.

(** How transform.dlf/hankel_qwe/hankel_quad put the three pieces together
    (transform.py:981-1011): J0*PJ0 + A*(J0*PJ0b + J1*PJ1), with J1 divided by
    the offset for the eight components containing J2. *)
Definition oz (o : option C) : C := match o with Some c => c | None => 0 end.
Definition bessel_sum (ab : Z) (lam r A : R) (PJ : option C * option C * option C) : C :=
  let '(PJ0, PJ1, PJ0b) := PJ in
  oz PJ0 * RtoC (J0 (lam * r)) +
  RtoC A * (oz PJ0b * RtoC (J0 (lam * r)) +
    oz PJ1 * RtoC (J1 (lam * r)) / (if inb ab [11; 12; 21; 22; 14; 24; 15; 25]%Z then RtoC r else 1)).

(** Exact angular factor (without snapping to zero). *)
Definition ang_exact (phi : R) (ab : Z) : R :=
  if inb ab [33]%Z then 1%R
  else let a := if inb ab [11; 22; 15; 24; 12; 21; 14; 25]%Z then (phi * 2)%R else phi in
       if inb ab [11; 22; 15; 24; 13; 31; 26; 35]%Z then cos a else sin a.

(** ** Angular integrals *)
Section Ang.
Variables (x phi : R).

Ltac ringR := match goal with |- ?a = ?b => change (@eq R a b) end; ring.
Definition trig (u : R -> R) : Prop := cont u /\ periodic u.

Lemma cont_mult : forall u v, cont u -> cont v -> cont (fun t => (u t * v t)%R).
Proof. intros u v A B t. apply (continuous_mult (K := R_AbsRing)); [apply A|apply B]. Qed.
Lemma cont_pc : cont (fun t => cos (x * cos (t - phi))).
Proof. contt. Qed.
Lemma cont_ps : cont (fun t => sin (x * cos (t - phi))).
Proof. contt. Qed.

Definition Ku (u : R -> R) : C := CInt (fun t => RtoC (u t) * pw x phi t).

Lemma Ku_eq : forall u, cont u -> periodic u ->
  Ku u = (RInt (fun t => u (t + phi) * cos (x * cos t))%R 0 (2 * PI),
          RInt (fun t => u (t + phi) * sin (x * cos t))%R 0 (2 * PI)).
Proof.
  intros u Hc Hp. unfold Ku, CInt. f_equal.
  - rewrite (RInt_ext_all _ (fun t => u t * cos (x * cos (t - phi)))%R) by (intros; cbn; ring).
    rewrite <- (RInt_period _ phi).
    + apply RInt_ext_all. intros t. now replace (t + phi - phi)%R with t by ring.
    + apply cont_mult; [exact Hc|exact cont_pc].
    + intros t. rewrite Hp. replace (t + 2 * PI - phi)%R with (t - phi + 2 * PI)%R by ring.
      now rewrite cos_2pi_p.
  - rewrite (RInt_ext_all _ (fun t => u t * sin (x * cos (t - phi)))%R) by (intros; cbn; ring).
    rewrite <- (RInt_period _ phi).
    + apply RInt_ext_all. intros t. now replace (t + phi - phi)%R with t by ring.
    + apply cont_mult; [exact Hc|exact cont_ps].
    + intros t. rewrite Hp. replace (t + 2 * PI - phi)%R with (t - phi + 2 * PI)%R by ring.
      now rewrite cos_2pi_p.
Qed.

Lemma Ku_lin : forall (p q : C) u v, cont u -> cont v ->
  CInt (fun t => (p * RtoC (u t) + q * RtoC (v t)) * pw x phi t) = p * Ku u + q * Ku v.
Proof.
  intros [p1 p2] [q1 q2] u v Hu Hv. unfold Ku, CInt.
  assert (A : cont (fun t => u t * cos (x * cos (t - phi)))%R) by (apply cont_mult; [exact Hu|exact cont_pc]).
  assert (B : cont (fun t => u t * sin (x * cos (t - phi)))%R) by (apply cont_mult; [exact Hu|exact cont_ps]).
  assert (D : cont (fun t => v t * cos (x * cos (t - phi)))%R) by (apply cont_mult; [exact Hv|exact cont_pc]).
  assert (E : cont (fun t => v t * sin (x * cos (t - phi)))%R) by (apply cont_mult; [exact Hv|exact cont_ps]).
  rewrite (RInt_ext_all (fun t => fst (RtoC (u t) * pw x phi t)) (fun t => u t * cos (x * cos (t - phi)))%R) by (intros; cbn; ring).
  rewrite (RInt_ext_all (fun t => snd (RtoC (u t) * pw x phi t)) (fun t => u t * sin (x * cos (t - phi)))%R) by (intros; cbn; ring).
  rewrite (RInt_ext_all (fun t => fst (RtoC (v t) * pw x phi t)) (fun t => v t * cos (x * cos (t - phi)))%R) by (intros; cbn; ring).
  rewrite (RInt_ext_all (fun t => snd (RtoC (v t) * pw x phi t)) (fun t => v t * sin (x * cos (t - phi)))%R) by (intros; cbn; ring).
  set (a := RInt (fun t => u t * cos (x * cos (t - phi)))%R 0 (2 * PI)).
  set (b := RInt (fun t => u t * sin (x * cos (t - phi)))%R 0 (2 * PI)).
  set (d := RInt (fun t => v t * cos (x * cos (t - phi)))%R 0 (2 * PI)).
  set (e := RInt (fun t => v t * sin (x * cos (t - phi)))%R 0 (2 * PI)).
  assert (S : forall c f, cont f -> cont (fun t => c * f t)%R).
  { intros c f Hf t. apply (continuous_scal_r (K := R_AbsRing) (V := R_NormedModule)). apply Hf. }
  assert (P : forall f g, cont f -> cont g -> cont (fun t => f t + g t)%R).
  { intros f g Hf Hg t. apply (continuous_plus (V := R_NormedModule)); [apply Hf|apply Hg]. }
  assert (L : forall c1 c2 c3 c4, RInt (fun t =>
      c1 * (u t * cos (x * cos (t - phi))) + (c2 * (u t * sin (x * cos (t - phi))) +
      (c3 * (v t * cos (x * cos (t - phi))) + c4 * (v t * sin (x * cos (t - phi))))))%R 0 (2 * PI)
      = (c1 * a + (c2 * b + (c3 * d + c4 * e)))%R).
  { intros. rewrite IR_plus, IR_plus, IR_plus by auto. rewrite !IR_scal by assumption. reflexivity. }
  unfold Cmult, Cplus; cbn [fst snd]. f_equal.
  - rewrite (RInt_ext_all _ (fun t =>
      p1 * (u t * cos (x * cos (t - phi))) + (- p2 * (u t * sin (x * cos (t - phi))) +
      (q1 * (v t * cos (x * cos (t - phi))) + - q2 * (v t * sin (x * cos (t - phi))))))%R)
      by (intros; cbn; ring).
    rewrite L. ringR.
  - rewrite (RInt_ext_all _ (fun t =>
      p2 * (u t * cos (x * cos (t - phi))) + (p1 * (u t * sin (x * cos (t - phi))) +
      (q2 * (v t * cos (x * cos (t - phi))) + q1 * (v t * sin (x * cos (t - phi))))))%R)
      by (intros; cbn; ring).
    rewrite L. ringR.
Qed.

Lemma L2 : forall (f g : R -> R) c1 c2, cont f -> cont g ->
  RInt (fun t => c1 * f t + c2 * g t)%R 0 (2 * PI) = (c1 * RInt f 0 (2 * PI) + c2 * RInt g 0 (2 * PI))%R.
Proof.
  intros. rewrite IR_plus, !IR_scal; auto.
  - intros t; apply (continuous_scal_r (K := R_AbsRing) (V := R_NormedModule)); auto.
  - intros t; apply (continuous_scal_r (K := R_AbsRing) (V := R_NormedModule)); auto.
Qed.
Lemma L3 : forall (f g h : R -> R) c1 c2 c3, cont f -> cont g -> cont h ->
  RInt (fun t => c1 * f t + (c2 * g t + c3 * h t))%R 0 (2 * PI)
  = (c1 * RInt f 0 (2 * PI) + (c2 * RInt g 0 (2 * PI) + c3 * RInt h 0 (2 * PI)))%R.
Proof.
  intros. rewrite IR_plus, L2, IR_scal; auto.
  - intros t; apply (continuous_scal_r (K := R_AbsRing) (V := R_NormedModule)); auto.
  - intros t. apply (continuous_plus (V := R_NormedModule));
      apply (continuous_scal_r (K := R_AbsRing) (V := R_NormedModule)); auto.
Qed.

Lemma K_1 : Ku (fun _ => 1%R) = RtoC (2 * PI * J0 x).
Proof.
  rewrite Ku_eq; [|contt|intro; reflexivity].
  rewrite (RInt_ext_all _ (fun t => cos (x * cos t))) by (intros; ring). rewrite I_c.
  rewrite (RInt_ext_all _ (fun t => sin (x * cos t))) by (intros; ring). rewrite I_s. reflexivity.
Qed.
Lemma K_cos : Ku cos = Ci * RtoC (2 * PI * cos phi * J1 x).
Proof.
  rewrite Ku_eq; [|contt|intro; apply cos_2pi_p].
  rewrite (RInt_ext_all _ (fun t => cos phi * (cos t * cos (x * cos t)) + (- sin phi) * (sin t * cos (x * cos t)))%R)
    by (intros; rewrite cos_plus; ring).
  rewrite L2, I_cos_c, I_sin_c by contt.
  rewrite (RInt_ext_all _ (fun t => cos phi * (cos t * sin (x * cos t)) + (- sin phi) * (sin t * sin (x * cos t)))%R)
    by (intros; rewrite cos_plus; ring).
  rewrite L2, I_cos_s, I_sin_s by contt.
  unfold Ci, RtoC, Cmult; cbn [fst snd]. f_equal; ring.
Qed.
Lemma K_sin : Ku sin = Ci * RtoC (2 * PI * sin phi * J1 x).
Proof.
  rewrite Ku_eq; [|contt|intro; apply sin_2pi_p].
  rewrite (RInt_ext_all _ (fun t => sin phi * (cos t * cos (x * cos t)) + (cos phi) * (sin t * cos (x * cos t)))%R)
    by (intros; rewrite sin_plus; ring).
  rewrite L2, I_cos_c, I_sin_c by contt.
  rewrite (RInt_ext_all _ (fun t => sin phi * (cos t * sin (x * cos t)) + (cos phi) * (sin t * sin (x * cos t)))%R)
    by (intros; rewrite sin_plus; ring).
  rewrite L2, I_cos_s, I_sin_s by contt.
  unfold Ci, RtoC, Cmult; cbn [fst snd]. f_equal; ring.
Qed.

Hypothesis x_nz : x <> 0%R.
Definition J2 : R := (2 * J1 x / x - J0 x)%R.

Lemma cos2_1 : forall t, (cos t * cos t = 1 - sin t * sin t)%R.
Proof. intros. pose proof (sin2_cos2 t). unfold Rsqr in *. lra. Qed.

(** Products: both sides expanded in 1, sin^2 t, sin t cos t *)
Lemma K_quad : forall u c0 c1 c2, cont u -> periodic u ->
  (forall t, u (t + phi) = c0 + (c1 * (sin t * sin t) + c2 * (sin t * cos t)))%R ->
  Ku u = RtoC (c0 * (2 * PI * J0 x) + c1 * (2 * PI * (J1 x / x))).
Proof.
  intros u c0 c1 c2 Hc Hp Hu. rewrite Ku_eq by assumption.
  rewrite (RInt_ext_all _ (fun t => c0 * (cos (x * cos t)) + (c1 * (sin t * sin t * cos (x * cos t))
     + c2 * (sin t * cos t * cos (x * cos t))))%R) by (intros; rewrite Hu; ring).
  rewrite L3, I_c, (I_ss_c x x_nz), I_sc_c by contt.
  rewrite (RInt_ext_all _ (fun t => c0 * (sin (x * cos t)) + (c1 * (sin t * sin t * sin (x * cos t))
     + c2 * (sin t * cos t * sin (x * cos t))))%R) by (intros; rewrite Hu; ring).
  rewrite L3, I_s, I_ss_s, I_sc_s by contt.
  unfold RtoC. f_equal; ring.
Qed.

Lemma K_cc : Ku (fun t => cos t * cos t)%R = RtoC (PI * (J0 x - cos (phi * 2) * J2)).
Proof.
  rewrite (K_quad _ (cos phi * cos phi) (- cos (phi * 2)) (- 2 * cos phi * sin phi)).
  - apply f_equal. unfold J2. rewrite (Rmult_comm phi 2), cos_2a_cos. field. exact x_nz.
  - contt.
  - intro; rewrite cos_2pi_p; reflexivity.
  - intros t. rewrite cos_plus, (Rmult_comm phi 2), cos_2a.
    replace ((cos t * cos phi - sin t * sin phi) * (cos t * cos phi - sin t * sin phi))%R
      with (cos t * cos t * (cos phi * cos phi) - 2 * sin t * cos t * cos phi * sin phi + sin t * sin t * (sin phi * sin phi))%R by ring.
    rewrite (cos2_1 t). ring.
Qed.
Lemma K_ss : Ku (fun t => sin t * sin t)%R = RtoC (PI * (J0 x + cos (phi * 2) * J2)).
Proof.
  rewrite (K_quad _ (sin phi * sin phi) (cos (phi * 2)) (2 * cos phi * sin phi)).
  - apply f_equal. unfold J2. rewrite (Rmult_comm phi 2), cos_2a_sin. field. exact x_nz.
  - contt.
  - intro; rewrite sin_2pi_p; reflexivity.
  - intros t. rewrite sin_plus, (Rmult_comm phi 2), cos_2a.
    replace ((sin t * cos phi + cos t * sin phi) * (sin t * cos phi + cos t * sin phi))%R
      with (cos t * cos t * (sin phi * sin phi) + 2 * sin t * cos t * cos phi * sin phi + sin t * sin t * (cos phi * cos phi))%R by ring.
    rewrite (cos2_1 t). ring.
Qed.
Lemma K_sc : Ku (fun t => sin t * cos t)%R = RtoC (- PI * sin (phi * 2) * J2).
Proof.
  rewrite (K_quad _ (sin phi * cos phi) (- sin (phi * 2)) (cos phi * cos phi - sin phi * sin phi)).
  - apply f_equal. unfold J2. rewrite (Rmult_comm phi 2), sin_2a. field. exact x_nz.
  - contt.
  - intro; rewrite sin_2pi_p, cos_2pi_p; reflexivity.
  - intros t. rewrite sin_plus, cos_plus, (Rmult_comm phi 2), sin_2a.
    replace ((sin t * cos phi + cos t * sin phi) * (cos t * cos phi - sin t * sin phi))%R
      with (cos t * cos t * (sin phi * cos phi) + sin t * cos t * (cos phi * cos phi - sin phi * sin phi) - sin t * sin t * (sin phi * cos phi))%R by ring.
    rewrite (cos2_1 t). ring.
Qed.
End Ang.

(** ** The decomposition *)
Lemma CInt_ext : forall f g, (forall t, f t = g t) -> CInt f = CInt g.
Proof. intros f g H. unfold CInt. f_equal; apply RInt_ext_all; intros; now rewrite H. Qed.

Definition fac (lam : R) : C := RtoC (lam / (8 * PI * PI)).

Lemma kper1 : cont (fun _ => 1%R). Proof. contt. Qed.
Lemma kper2 : cont cos. Proof. contt. Qed.
Lemma kper3 : cont sin. Proof. contt. Qed.
Lemma kper4 : cont (fun t => cos t * cos t)%R. Proof. contt. Qed.
Lemma kper5 : cont (fun t => sin t * sin t)%R. Proof. contt. Qed.
Lemma kper6 : cont (fun t => sin t * cos t)%R. Proof. contt. Qed.

Lemma two_terms : forall x phi (S : R -> C) (p q : C) u v, cont u -> cont v ->
  (forall t, S t = p * RtoC (u t) + q * RtoC (v t)) ->
  CInt (fun t => S t * pw x phi t) = p * Ku x phi u + q * Ku x phi v.
Proof.
  intros x phi S p q u v Hu Hv H. rewrite <- Ku_lin by assumption.
  apply CInt_ext. intros t. now rewrite H.
Qed.

Ltac spec_term := intros t; unfold spectrum, kh, th;
  cbn -[Cmult Cplus Cminus Copp RtoC cos sin Ci Rmult Ropp];
  apply C_ext; cbn -[cos sin]; ring.

Lemma Cdiv_R : forall (c : C) (x : R), x <> 0%R -> c / RtoC x = c * RtoC (/ x).
Proof. intros. rewrite RtoC_inv by assumption. reflexivity. Qed.

Theorem bessel_decomposition : forall ab lam r phi (TM TE : C), In ab kernel_abs -> (0 < lam)%R -> (0 < r)%R ->
  (mode_used true ab = false -> TM = 0) -> (mode_used false ab = false -> TE = 0) ->
  bessel_sum ab lam r (ang_exact phi ab) (collect ab false lam TM TE)
  = fac lam * CInt (fun t => spectrum ab lam TM TE t * pw (lam * r) phi t).
Proof.
  intros ab lam r phi TM TE Hab Hl Hr HTM HTE.
  assert (X : (lam * r <> 0)%R) by nra.
  pose proof PI_RGT_0 as HP.
  assert (T : forall (p q : C) u v, cont u -> cont v ->
     (forall t, spectrum ab lam TM TE t = p * RtoC (u t) + q * RtoC (v t)) ->
     CInt (fun t => spectrum ab lam TM TE t * pw (lam * r) phi t)
     = p * Ku (lam * r) phi u + q * Ku (lam * r) phi v) by (intros; now apply two_terms).
  unfold kernel_abs in Hab. cbn [In] in Hab.
  repeat (destruct Hab as [Hab|Hab]; [subst ab|]); [..|contradiction].
  all: try (pose proof (HTM eq_refl); subst TM); try (pose proof (HTE eq_refl); subst TE); clear HTM HTE.
  all: match type of T with context [spectrum ?ab _ _ _ _] =>
    match ab with
    | 11%Z => rewrite (T TM (- TE) _ _ kper4 kper5) by spec_term
    | 12%Z => rewrite (T TM TE _ _ kper6 kper6) by spec_term
    | 21%Z => rewrite (T TM TE _ _ kper6 kper6) by spec_term
    | 22%Z => rewrite (T TM (- TE) _ _ kper5 kper4) by spec_term
    | 13%Z => rewrite (T (- (Ci * RtoC lam) * TM) (RtoC 0) _ _ kper2 kper1) by spec_term
    | 31%Z => rewrite (T (- (Ci * RtoC lam) * TM) (RtoC 0) _ _ kper2 kper1) by spec_term
    | 23%Z => rewrite (T (- (Ci * RtoC lam) * TM) (RtoC 0) _ _ kper3 kper1) by spec_term
    | 32%Z => rewrite (T (- (Ci * RtoC lam) * TM) (RtoC 0) _ _ kper3 kper1) by spec_term
    | 33%Z => rewrite (T (RtoC (lam * lam) * TM) (RtoC 0) _ _ kper1 kper1) by spec_term
    | 14%Z => rewrite (T (- TM) (- TE) _ _ kper6 kper6) by spec_term
    | 15%Z => rewrite (T TM (- TE) _ _ kper4 kper5) by spec_term
    | 24%Z => rewrite (T (- TM) TE _ _ kper5 kper4) by spec_term
    | 25%Z => rewrite (T TM TE _ _ kper6 kper6) by spec_term
    | 34%Z => rewrite (T ((Ci * RtoC lam) * TM) (RtoC 0) _ _ kper3 kper1) by spec_term
    | 35%Z => rewrite (T (- (Ci * RtoC lam) * TM) (RtoC 0) _ _ kper2 kper1) by spec_term
    | 16%Z => rewrite (T (- (Ci * RtoC lam) * TE) (RtoC 0) _ _ kper3 kper1) by spec_term
    | 26%Z => rewrite (T ((Ci * RtoC lam) * TE) (RtoC 0) _ _ kper2 kper1) by spec_term
    end end.
  all: clear T; rewrite ?K_1, ?K_cos, ?K_sin, ?(K_cc _ _ X), ?(K_ss _ _ X), ?(K_sc _ _ X);
    unfold bessel_sum, collect, ang_exact, fac, J2;
    cbn -[Cmult Cplus Cminus Copp RtoC cos sin Ci Rmult Ropp Cdiv Rdiv cz PI J0 J1];
    generalize (J0 (lam * r)) as j0, (J1 (lam * r)) as j1; intros j1 j0;
    rewrite ?Cdiv_1_r, ?(Cdiv_R _ (4 * PI)) by lra; rewrite ?(Cdiv_R _ r) by lra;
    try destruct TM as [m1 m2]; try destruct TE as [e1 e2]; unfold cz, Cmult, Cminus, Cplus, Copp, Ci, RtoC;
    cbn [fst snd]; f_equal; field; repeat split; lra.
Qed.

(** ** Magnetic receivers and the computed angular factor *)
Lemma collect_mrec : forall ab lam r A (TM TE : C), In ab kernel_abs ->
  bessel_sum ab lam r A (collect ab true lam TM TE) = - bessel_sum ab lam r A (collect ab false lam TM TE).
Proof.
  intros ab lam r A TM TE Hab. pose proof PI_RGT_0 as HP.
  unfold kernel_abs in Hab. cbn [In] in Hab.
  repeat (destruct Hab as [Hab|Hab]; [subst ab|]); [..|contradiction];
  unfold bessel_sum, collect;
  cbn -[Cmult Cplus Cminus Copp RtoC cos sin Ci Rmult Ropp Cdiv Rdiv cz PI J0 J1];
  unfold Cdiv; change (cz (-1)) with (RtoC (- (1))); change (cz 1) with (RtoC 1); change (cz 0) with (RtoC 0);
  rewrite ?(f_equal RtoC (Rdiv_opp_l _ _));
  try (replace (lam / (-1 * 8 * PI))%R with (- (lam / (1 * 8 * PI)))%R by (field; lra));
  try (replace (-1 / 2)%R with (- (1 / 2))%R by field);
  rewrite ?RtoC_opp; ring.
Qed.

Definition eval_angle (phi : R) (msrc mrec : bool) : R := if mrec && negb msrc then (phi + PI)%R else phi.

Theorem bessel_all : forall ab lam r phi msrc mrec (TM TE : C), In ab kernel_abs -> (0 < lam)%R -> (0 < r)%R ->
  (mode_used true ab = false -> TM = 0) -> (mode_used false ab = false -> TE = 0) ->
  bessel_sum ab lam r (ang_exact (eval_angle phi msrc mrec) ab) (collect ab mrec lam TM TE)
  = (if mrec then - (1) else RtoC 1) * fac lam *
    CInt (fun t => spectrum ab lam TM TE t * pw (lam * r) (eval_angle phi msrc mrec) t).
Proof.
  intros. destruct mrec.
  - rewrite collect_mrec by assumption. rewrite bessel_decomposition by assumption. ring.
  - rewrite bessel_decomposition by assumption. ring.
Qed.

Lemma abs_sin_le : forall u, (Rabs (sin u) <= Rabs u)%R.
Proof.
  assert (A : forall u, (0 <= u)%R -> (Rabs (sin u) <= u)%R).
  { intros u [Hu|<-]; [|rewrite sin_0, Rabs_R0; lra].
    pose proof (sin_lt_x u Hu) as L. apply Rabs_le. split; [|lra].
    destruct (Rle_dec u PI) as [HP|HP].
    - pose proof (sin_ge_0 u ltac:(lra) HP). lra.
    - pose proof (SIN_bound u). pose proof PI2_3_2. lra. }
  intros u. destruct (Rle_dec 0 u).
  - rewrite (Rabs_right u) by lra. now apply A.
  - rewrite (Rabs_left u) by lra. rewrite <- Rabs_Ropp, <- sin_neg. apply A. lra.
Qed.

Lemma isclose_true : forall a b rt at_, isclose a b rt at_ = true -> (Rabs (a - b) <= at_ + rt * Rabs b)%R.
Proof. intros a b rt at_ H. unfold isclose in H. destruct (Rle_dec _ _); [assumption|discriminate]. Qed.

Lemma cos_abs : forall a, cos (Rabs a) = cos a.
Proof. intros. unfold Rabs. destruct (Rcase_abs a); [apply cos_neg|reflexivity]. Qed.
Lemma sin_abs : forall a, (Rabs (sin (Rabs a)) = Rabs (sin a))%R.
Proof. intros. unfold Rabs at 2. destruct (Rcase_abs a); [|reflexivity]. now rewrite sin_neg, Rabs_Ropp. Qed.

Lemma tol_small : forall t, (0 <= t <= 8)%R -> (/ 10 ^ 14 + / 10 ^ 10 * t <= / 10 ^ 9)%R.
Proof. intros. lra. Qed.

Lemma PI_le_4 : (PI <= 4)%R. Proof. apply PI_4. Qed.

Theorem angle_factor_close : forall phi ab msrc mrec,
  (Rabs (angle_factor phi ab msrc mrec - ang_exact (eval_angle phi msrc mrec) ab) <= / 10 ^ 9)%R.
Proof.
  intros. unfold angle_factor, ang_exact. fold (eval_angle phi msrc mrec).
  pose proof PI_RGT_0 as HP. 
  assert (P9 : (0 <= / 10 ^ 9)%R) by lra.
  destruct (inb ab [33]%Z). { rewrite Rminus_eq_0, Rabs_R0. exact P9. }
  set (a := if inb ab [11; 22; 15; 24; 12; 21; 14; 25]%Z then _ else _). clearbody a.
  destruct (inb ab [11; 22; 15; 24; 13; 31; 26; 35]%Z).
  - destruct (isclose (Rabs a) (PI / 2) _ _) eqn:E1.
    { apply isclose_true in E1. rewrite Rminus_0_l, Rabs_Ropp, <- cos_abs.
      replace (Rabs a) with (PI / 2 - (PI / 2 - Rabs a))%R by ring. rewrite cos_shift.
      eapply Rle_trans; [apply abs_sin_le|]. rewrite Rabs_minus_sym. eapply Rle_trans; [exact E1|].
      rewrite (Rabs_right (PI / 2)) by lra. apply tol_small. pose proof PI_le_4. lra. }
    destruct (isclose (Rabs a) (3 * PI / 2) _ _) eqn:E2; [|rewrite Rminus_eq_0, Rabs_R0; exact P9].
    apply isclose_true in E2. rewrite Rminus_0_l, Rabs_Ropp, <- cos_abs.
    replace (Rabs a) with (PI / 2 - (3 * PI / 2 - Rabs a) + PI)%R by field.
    rewrite neg_cos, Rabs_Ropp, cos_shift.
    eapply Rle_trans; [apply abs_sin_le|]. rewrite Rabs_minus_sym. eapply Rle_trans; [exact E2|].
    rewrite (Rabs_right (3 * PI / 2)) by lra. apply tol_small. pose proof PI_le_4. lra.
  - destruct (isclose (Rabs a) PI _ _) eqn:E1.
    { apply isclose_true in E1. rewrite Rminus_0_l, Rabs_Ropp, <- sin_abs.
      replace (Rabs a) with (Rabs a - PI + PI)%R by ring. rewrite neg_sin, Rabs_Ropp.
      eapply Rle_trans; [apply abs_sin_le|]. eapply Rle_trans; [exact E1|].
      rewrite (Rabs_right PI) by lra. apply tol_small. pose proof PI_le_4. lra. }
    destruct (isclose (Rabs a) (2 * PI) _ _) eqn:E2; [|rewrite Rminus_eq_0, Rabs_R0; exact P9].
    apply isclose_true in E2. rewrite Rminus_0_l, Rabs_Ropp, <- sin_abs.
    replace (Rabs a) with (Rabs a - 2 * PI + 2 * PI)%R by ring. rewrite sin_2pi_p.
    eapply Rle_trans; [apply abs_sin_le|]. eapply Rle_trans; [exact E2|].
    rewrite (Rabs_right (2 * PI)) by lra. apply tol_small. pose proof PI_le_4. lra.
Qed.
