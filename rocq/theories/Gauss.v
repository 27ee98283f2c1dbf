(** The Gaussian integral, used for the complementary error function. *)

From Coq Require Import Reals Lra Psatz.
From Coquelicot Require Import Coquelicot.
From Verif Require Import CBase Halfspace.
Local Open Scope R_scope.

Definition gi (x : R) : R := RInt (fun t => exp (- (t * t))) 0 x.
Definition gk (x t : R) : R := exp (- (x * x) * (1 + t * t)) / (1 + t * t).
Definition gK (x : R) : R := RInt (gk x) 0 1.

Lemma g_cont : forall x, continuous (fun t : R => exp (- (t * t))) x.
Proof. intros x. apply (ex_derive_continuous (fun t : R => exp (- (t * t))) x). auto_derive. exact I. Qed.
Lemma g_ex : forall a b, ex_RInt (fun t : R => exp (- (t * t))) a b.
Proof. intros a b. apply (ex_RInt_continuous (V := R_CompleteNormedModule)). intros; apply g_cont. Qed.
Lemma gi_derive : forall x, is_derive gi x (exp (- (x * x))).
Proof.
  intros x. unfold gi. apply (is_derive_RInt (V := R_CompleteNormedModule) (fun t => exp (- (t * t))) _ 0 x).
  - apply filter_forall. intros y. apply RInt_correct. apply g_ex.
  - apply g_cont.
Qed.
Lemma one_t : forall t, 0 < 1 + t * t. Proof. intros. pose proof (Rle_0_sqr t) as H. unfold Rsqr in H. lra. Qed.
Lemma gk_cont : forall x t, continuous (gk x) t.
Proof. intros x t. apply (ex_derive_continuous (gk x) t). unfold gk. auto_derive. pose proof (one_t t). lra. Qed.
Lemma gk_ex : forall x, ex_RInt (gk x) 0 1.
Proof. intros x. apply (ex_RInt_continuous (V := R_CompleteNormedModule)). intros; apply gk_cont. Qed.
Lemma gk_derive : forall x t, is_derive (fun u => gk u t) x (- 2 * x * exp (- (x * x) * (1 + t * t))).
Proof. intros x t. unfold gk. pose proof (one_t t). auto_derive; [lra|]. field. lra. Qed.

Lemma gK_derive : forall x, is_derive gK x (- 2 * exp (- (x * x)) * gi x).
Proof.
  intros x. unfold gK.
  assert (E : RInt (fun t => Derive (fun u => gk u t) x) 0 1 = - 2 * exp (- (x * x)) * gi x).
  { rewrite (RInt_ext (V := R_CompleteNormedModule) _ (fun t => scal (- 2 * exp (- (x * x))) (scal x (exp (- ((x * t + 0) * (x * t + 0))))))).
    - rewrite (RInt_scal (V := R_CompleteNormedModule)).
      + assert (L := RInt_comp_lin (V := R_CompleteNormedModule) (fun u => exp (- (u * u))) x 0 0 1 (g_ex _ _)).
        assert (E0 : (x * 0 + 0)%R = 0%R) by ring. assert (E1 : (x * 1 + 0)%R = x) by ring. rewrite E0, E1 in L. unfold gi. rewrite <- L. reflexivity.
      + apply (ex_RInt_continuous (V := R_CompleteNormedModule)). intros z _. apply (ex_derive_continuous (fun t : R => scal x (exp (- ((x * t + 0) * (x * t + 0))))) z). unfold scal. simpl. unfold mult. simpl. auto_derive. exact I.
    - intros t _. assert (ED : Derive (fun u => gk u t) x = - 2 * x * exp (- (x * x) * (1 + t * t))) by (apply is_derive_unique, gk_derive). rewrite ED. unfold scal. simpl. unfold mult. simpl.
      replace (- (x * x) * (1 + t * t)) with (- (x * x) + - ((x * t + 0) * (x * t + 0))) by ring. rewrite exp_plus. ring. }
  rewrite <- E. apply is_derive_RInt_param.
  - apply filter_forall. intros y t _. eexists. apply gk_derive.
  - intros t _. apply continuity_2d_pt_ext with (fun u v => - 2 * u * exp (- (u * u) * (1 + v * v))).
    + intros u v. symmetry. apply is_derive_unique, gk_derive.
    + apply continuity_2d_pt_mult; [apply continuity_2d_pt_mult; [apply continuity_2d_pt_const|apply continuity_2d_pt_id1]|].
      apply (continuity_1d_2d_pt_comp exp). { apply derivable_continuous_pt, derivable_pt_exp. }
      apply continuity_2d_pt_mult.
      * apply continuity_2d_pt_opp. apply continuity_2d_pt_mult; apply continuity_2d_pt_id1.
      * apply continuity_2d_pt_plus; [apply continuity_2d_pt_const|]. apply continuity_2d_pt_mult; apply continuity_2d_pt_id2.
  - apply filter_forall. intros y. apply gk_ex.
Qed.

Lemma gK_0 : gK 0 = PI / 4.
Proof.
  unfold gK. rewrite (RInt_ext (V := R_CompleteNormedModule) _ (fun t => / (1 + t ^ 2))).
  - assert (H : is_RInt (fun t => / (1 + t ^ 2)) 0 1 (minus (atan 1) (atan 0))).
    { apply (is_RInt_derive (V := R_CompleteNormedModule) atan (fun t => / (1 + t ^ 2))).
      - intros x _. apply is_derive_atan || (apply is_derive_Reals; exact (derivable_pt_lim_atan x)).
      - intros x _. apply (ex_derive_continuous (fun t : R => / (1 + t ^ 2)) x). auto_derive. pose proof (one_t x). simpl. lra. }
    rewrite (is_RInt_unique _ _ _ _ H). rewrite atan_1, atan_0. unfold minus, plus, opp. simpl. ring.
  - intros t _. unfold gk. replace (- (0 * 0) * (1 + t * t)) with 0 by ring. rewrite exp_0. simpl. field. pose proof (one_t t). lra.
Qed.

Lemma gi_sq : forall x, gi x * gi x + gK x = PI / 4.
Proof.
  intros x. rewrite <- gK_0. replace (gK 0) with (gi 0 * gi 0 + gK 0).
  2: { unfold gi. rewrite RInt_point. unfold zero. simpl. ring. }
  set (F := fun x => gi x * gi x + gK x). change (F x = F 0).
  assert (D : forall y, is_derive F y 0).
  { intros y. unfold F. replace 0 with (plus (exp (- (y * y)) * gi y + gi y * exp (- (y * y))) (- 2 * exp (- (y * y)) * gi y)).
    - apply (is_derive_plus (V := R_NormedModule)); [|apply gK_derive]. apply (is_derive_mult gi gi); try apply gi_derive. intros; apply Rmult_comm.
    - unfold plus. simpl. ring. }
  destruct (MVT_gen F 0 x (fun _ => 0)) as [c [_ Hc]].
  - intros y _. apply D.
  - intros y _. apply continuity_pt_filterlim. apply (ex_derive_continuous F y). now exists 0.
  - lra.
Qed.

Lemma gK_bound : forall x, 0 <= gK x <= exp (- (x * x)).
Proof.
  intros x. unfold gK. split.
  - apply RInt_ge_0; [lra|apply gk_ex|]. intros t _. unfold gk. apply Rlt_le, Rdiv_lt_0_compat; [apply exp_pos|apply one_t].
  - replace (exp (- (x * x))) with (RInt (fun _ => exp (- (x * x))) 0 1) by (rewrite RInt_const; unfold scal; simpl; unfold mult; simpl; ring).
    apply RInt_le; [lra|apply gk_ex|apply ex_RInt_const|]. intros t _. unfold gk.
    assert (A := one_t t). assert (B := Rle_0_sqr t). unfold Rsqr in B.
    apply Rle_trans with (exp (- (x * x) * (1 + t * t)) / 1).
    + apply Rmult_le_compat_l; [apply Rlt_le, exp_pos|]. apply Rinv_le_contravar; lra.
    + unfold Rdiv. rewrite Rinv_1, Rmult_1_r. pose proof (Rle_0_sqr x) as X. unfold Rsqr in X.
      destruct (Req_dec (- (x * x) * (1 + t * t)) (- (x * x))) as [->|N]; [lra|]. apply Rlt_le, exp_increasing. nra.
Qed.

Lemma gi_nonneg : forall x, 0 <= x -> 0 <= gi x.
Proof. intros x H. unfold gi. apply RInt_ge_0; [exact H|apply g_ex|]. intros; apply Rlt_le, exp_pos. Qed.
Lemma gi_odd : forall x, gi (- x) = - gi x.
Proof.
  intros x. unfold gi.
  assert (H := RInt_comp_lin (V := R_CompleteNormedModule) (fun u => exp (- (u * u))) (-1) 0 0 x (g_ex _ _)).
  assert (E0 : (-1 * 0 + 0)%R = 0%R) by ring. assert (E1 : (-1 * x + 0)%R = (- x)%R) by ring. rewrite E0, E1 in H. rewrite <- H.
  rewrite <- (RInt_opp (V := R_CompleteNormedModule)) by apply g_ex. apply RInt_ext. intros t _. unfold scal, opp. simpl. unfold mult. simpl.
  replace ((-1 * t + 0) * (-1 * t + 0)) with (t * t) by ring. ring.
Qed.

Lemma exp_mx2_lim : filterlim (fun x => exp (- (x * x))) (Rbar_locally p_infty) (locally 0).
Proof.
  apply (is_lim_comp exp (fun x => - (x * x)) p_infty 0 m_infty).
  - exact is_lim_exp_m.
  - apply (is_lim_ext (fun x => - (x * x))); [reflexivity|]. 
    replace m_infty with (Rbar_opp (Rbar_mult p_infty p_infty)) by reflexivity.
    apply is_lim_opp. apply is_lim_mult; [apply is_lim_id|apply is_lim_id|exact I].
  - exists 0. intros; discriminate.
Qed.

Lemma gK_lim : filterlim gK (Rbar_locally p_infty) (locally 0).
Proof.
  apply (filterlim_le_le (fun _ => 0) gK (fun x => exp (- (x * x)))) || apply (is_lim_le_le_loc (fun _ => 0) (fun x => exp (- (x * x))) gK p_infty 0).
  all: idtac.
  - exists 0. intros x _. apply gK_bound.
  - apply is_lim_const.
  - exact exp_mx2_lim.
Qed.

Theorem gi_lim : filterlim gi (Rbar_locally p_infty) (locally (sqrt PI / 2)).
Proof.
  apply filterlim_ext_loc with (fun x => sqrt (PI / 4 - gK x)).
  - exists 0. intros x Hx. rewrite <- (gi_sq x). replace (gi x * gi x + gK x - gK x) with (gi x * gi x) by ring.
    apply sqrt_square, gi_nonneg. lra.
  - assert (E : sqrt PI / 2 = sqrt (PI / 4 - 0)).
    { rewrite Rminus_0_r. pose proof PI_RGT_0. unfold Rdiv. rewrite sqrt_mult by lra. replace (/ 4) with (/ 2 * / 2) by field. rewrite sqrt_square by lra. reflexivity. }
    rewrite E. apply (filterlim_comp _ _ _ gK (fun y => sqrt (PI / 4 - y)) _ (locally 0)); [exact gK_lim|].
    apply (ex_derive_continuous (fun y : R => sqrt (PI / 4 - y)) 0). auto_derive. pose proof PI_RGT_0. lra.
Qed.

(** ** Limits of erfc *)
Lemma erfc_gi : forall x, erfc x = 1 - 2 / sqrt PI * gi x. Proof. reflexivity. Qed.
Lemma sqrtPI : 0 < sqrt PI. Proof. apply sqrt_lt_R0, PI_RGT_0. Qed.

Lemma erfc_p : filterlim erfc (Rbar_locally p_infty) (locally 0).
Proof.
  pose proof sqrtPI as P.
  replace 0 with (1 - 2 / sqrt PI * (sqrt PI / 2)) by (field; lra).
  apply (filterlim_comp _ _ _ gi (fun y => 1 - 2 / sqrt PI * y) _ (locally (sqrt PI / 2))); [exact gi_lim|].
  apply (ex_derive_continuous (fun y : R => 1 - 2 / sqrt PI * y) (sqrt PI / 2)). auto_derive. exact I.
Qed.
Lemma erfc_m : filterlim erfc (Rbar_locally m_infty) (locally 2).
Proof.
  apply filterlim_ext with (fun x => 2 - erfc (- x)).
  - intros x. rewrite !erfc_gi, gi_odd. ring.
  - assert (E2 : 2%R = (2 - 0)%R) by ring. enough (G : filterlim (fun x => 2 - erfc (- x)) (Rbar_locally m_infty) (locally (2 - 0)%R)) by (rewrite <- E2 in G; exact G). apply (filterlim_comp _ _ _ (fun x => erfc (- x)) (fun y => 2 - y) _ (locally 0)).
    + apply (filterlim_comp _ _ _ (fun x => - x) erfc _ (Rbar_locally p_infty)); [|exact erfc_p].
      apply (filterlim_Rbar_opp m_infty).
    + apply (ex_derive_continuous (fun y : R => 2 - y) 0). auto_derive. exact I.
Qed.
Lemma erfc_derive : forall x, is_derive erfc x (- (2 / sqrt PI) * exp (- (x * x))).
Proof.
  intros x. pose proof (gi_derive x) as D.
  apply (is_derive_ext (fun x => 1 - 2 / sqrt PI * gi x)); [reflexivity|].
  assert (ED : Derive gi x = exp (- (x * x))) by (apply is_derive_unique; exact D).
  auto_derive; [now exists (exp (- (x * x)))|]. change (Derive (fun x0 => gi x0) x) with (Derive gi x). rewrite ED. unfold Rminus; ring.
Qed.
Lemma erfc_0 : erfc 0 = 1.
Proof. rewrite erfc_gi. unfold gi. rewrite RInt_point. unfold zero. simpl. ring. Qed.
