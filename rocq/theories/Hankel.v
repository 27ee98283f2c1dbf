(** Bessel functions: derivatives and bounds. *)

From Coq Require Import Reals List Bool Lia Lra Psatz.
From Coquelicot Require Import Coquelicot.
From Verif Require Import CBase ODE FullspaceMaxwell Bessel Cint.
Import ListNotations.
Local Open Scope R_scope.

Lemma RI_param : forall (F DF : R -> R -> R) a b u, (forall v x, is_derive (fun w => F w x) v (DF v x)) ->
  (forall x, continuity_2d_pt DF u x) -> (forall v x, continuous (F v) x) -> is_derive (fun v => RInt (F v) a b) u (RInt (DF u) a b).
Proof.
  intros F DF a b u HD HC HI. replace (RInt (DF u) a b) with (RInt (fun x => Derive (fun w => F w x) u) a b).
  - apply (is_derive_RInt_param F).
    + apply filter_forall. intros v x _. eexists. apply HD.
    + intros x _. apply (continuity_2d_pt_ext DF); [|apply HC]. intros v y. symmetry. now apply is_derive_unique.
    + apply filter_forall. intros v. apply (ex_RInt_continuous (V := V)). intros; apply HI.
  - apply (RInt_ext (V := V)). intros x _. now apply is_derive_unique.
Qed.
Lemma cont_sin : forall x, continuous sin x. Proof. intros. apply (ex_derive_continuous sin). auto_derive. exact I. Qed.
Lemma cont_cos : forall x, continuous cos x. Proof. intros. apply (ex_derive_continuous cos). auto_derive. exact I. Qed.

(** J1' *)
Definition dJ1 (x : R) : R := / (2 * PI) * RInt (fun t => cos t * cos t * cos (x * cos t)) 0 (2 * PI).
Lemma J0_derive : forall x, is_derive J0 x (- J1 x).
Proof.
  intros x. unfold J0, J1. replace (- (/ (2 * PI) * RInt (fun t => cos t * sin (x * cos t)) 0 (2 * PI))) with (/ (2 * PI) * RInt (fun t => -1 * (cos t * sin (x * cos t))) 0 (2 * PI)).
  - apply (is_derive_scal (fun v => RInt (fun t => cos (v * cos t)) 0 (2 * PI)) x (/ (2 * PI))).
    apply (RI_param (fun v t => cos (v * cos t)) (fun v t => -1 * (cos t * sin (v * cos t)))).
    + intros v t. auto_derive; [exact I|ring].
    + intros t. apply continuity_2d_pt_mult; [apply continuity_2d_pt_const|]. apply continuity_2d_pt_mult; [apply (c2_comp cos (fun _ b => b)); [exact cont_cos|apply continuity_2d_pt_id2]|].
      apply (c2_comp sin); [exact cont_sin|]. apply continuity_2d_pt_mult; [apply continuity_2d_pt_id1|]. apply (c2_comp cos (fun _ b => b)); [exact cont_cos|apply continuity_2d_pt_id2].
    + intros v t. apply (ex_derive_continuous (fun t => cos (v * cos t))). auto_derive. exact I.
  - rewrite IR_scal by contt. ring.
Qed.
Lemma J1_derive0 : forall x, is_derive J1 x (dJ1 x).
Proof.
  intros x. unfold J1, dJ1.
  apply (is_derive_scal (fun v => RInt (fun t => cos t * sin (v * cos t)) 0 (2 * PI)) x (/ (2 * PI))).
  apply (RI_param (fun v t => cos t * sin (v * cos t)) (fun v t => cos t * cos t * cos (v * cos t))).
  - intros v t. auto_derive; [exact I|ring].
  - intros t. apply continuity_2d_pt_mult; [apply continuity_2d_pt_mult|]; try (apply (c2_comp cos (fun _ b => b)); [exact cont_cos|apply continuity_2d_pt_id2]).
    apply (c2_comp cos); [exact cont_cos|]. apply continuity_2d_pt_mult; [apply continuity_2d_pt_id1|]. apply (c2_comp cos (fun _ b => b)); [exact cont_cos|apply continuity_2d_pt_id2].
  - intros v t. apply (ex_derive_continuous (fun t => cos t * sin (v * cos t))). auto_derive. exact I.
Qed.
Lemma J1_0 : J1 0 = 0.
Proof. unfold J1. rewrite (RInt_ext_all _ (fun _ => 0)) by (intros; rewrite Rmult_0_l, sin_0; ring). rewrite (RInt_const (V := V)). unfold scal; cbn; unfold mult; cbn. ring. Qed.
Lemma J0_0 : J0 0 = 1.
Proof. unfold J0. rewrite (RInt_ext_all _ (fun _ => 1)) by (intros; now rewrite Rmult_0_l, cos_0). rewrite (RInt_const (V := V)). unfold scal; cbn; unfold mult; cbn. field. pose proof PI_RGT_0. lra. Qed.
(** the Bessel equation: (x J1)' = x J0 *)
Lemma xdJ1 : forall x, x * dJ1 x + J1 x = x * J0 x.
Proof.
  intros x. destruct (Req_dec x 0) as [->|N]; [rewrite J1_0; ring|].
  assert (E : dJ1 x = J0 x - J1 x / x).
  { unfold dJ1. rewrite (RInt_ext_all _ (fun t => cos (x * cos t) + -1 * (sin t * sin t * cos (x * cos t)))).
    - rewrite IR_plus by contt. rewrite IR_scal by contt. rewrite I_c, (I_ss_c x N). pose proof PI_RGT_0. field. lra.
    - intros t. pose proof (sin2_cos2 t) as H. unfold Rsqr in H. replace (cos t * cos t) with (1 - sin t * sin t) by lra. ring. }
  rewrite E. field. exact N.
Qed.
Lemma xJ1_derive : forall b x, is_derive (fun x => x * J1 (b * x)) x (b * x * J0 (b * x)).
Proof.
  intros b x. pose proof (J1_derive0 (b * x)) as D. assert (ED : ex_derive J1 (b * x)) by (eexists; exact D). 
  auto_derive; [exact ED|]. change (Derive (fun x0 => J1 x0) (b * x)) with (Derive J1 (b * x)). rewrite (is_derive_unique _ _ _ D). pose proof (xdJ1 (b * x)). replace (1 * J1 (b * x) + x * (1 * (b * 1 * dJ1 (b * x)))) with (b * x * dJ1 (b * x) + J1 (b * x)) by ring. lra.
Qed.
Lemma J0b_derive : forall b x, is_derive (fun x => J0 (b * x)) x (- b * J1 (b * x)).
Proof. intros b x. pose proof (J0_derive (b * x)) as D. assert (ED : ex_derive J0 (b * x)) by (eexists; exact D). auto_derive; [exact ED|]. change (Derive (fun x0 => J0 x0) (b * x)) with (Derive J0 (b * x)). rewrite (is_derive_unique _ _ _ D). ring. Qed.
Lemma J0_cont : forall x, continuous J0 x. Proof. intros x. apply (ex_derive_continuous J0). eexists. apply J0_derive. Qed.
Lemma J1_cont : forall x, continuous J1 x. Proof. intros x. apply (ex_derive_continuous J1). eexists. apply J1_derive0. Qed.

Lemma RI_abs1 : forall f, cont f -> (forall t, Rabs (f t) <= 1) -> Rabs (/ (2 * PI) * RInt f 0 (2 * PI)) <= 1.
Proof.
  intros f Hf Hb. pose proof PI_RGT_0 as P. rewrite Rabs_mult, Rabs_pos_eq by (left; apply Rinv_0_lt_compat; lra).
  assert (H : Rabs (RInt f 0 (2 * PI)) <= 2 * PI).
  { eapply Rle_trans; [apply abs_RInt_le; [lra|now apply cont_int]|].
    eapply Rle_trans; [apply (RInt_le (fun t => Rabs (f t)) (fun _ => 1) 0 (2 * PI)); [lra| |apply ex_RInt_const|intros; apply Hb]|].
    - apply (ex_RInt_continuous (V := V)). intros x _. apply (continuous_comp f Rabs); [apply Hf|apply continuous_Rabs].
    - rewrite (RInt_const (V := V)). unfold scal; cbn; unfold mult; cbn. lra. }
  apply Rmult_le_compat_l with (r := / (2 * PI)) in H; [|left; apply Rinv_0_lt_compat; lra]. rewrite Rinv_l in H by lra. exact H.
Qed.
Lemma abs_cos : forall t, Rabs (cos t) <= 1. Proof. intros t. apply Rabs_le. apply COS_bound. Qed.
Lemma abs_sin : forall t, Rabs (sin t) <= 1. Proof. intros t. apply Rabs_le. apply SIN_bound. Qed.
Lemma J0_abs : forall x, Rabs (J0 x) <= 1.
Proof. intros x. apply RI_abs1; [contt|]. intros; apply abs_cos. Qed.
Lemma J1_abs : forall x, Rabs (J1 x) <= 1.
Proof.
  intros x. apply RI_abs1; [contt|]. intros t. rewrite Rabs_mult. pose proof (abs_cos t). pose proof (abs_sin (x * cos t)). pose proof (Rabs_pos (cos t)). pose proof (Rabs_pos (sin (x * cos t))). nra.
Qed.
