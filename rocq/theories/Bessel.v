(** Bessel functions J0 and J1 by their integral representation, and the
    angular integrals of plane waves. *)

From Coq Require Import Reals List Bool Lia Lra Psatz.
From Coquelicot Require Import Coquelicot.
Local Open Scope R_scope.

(** J0(x) = 1/(2 pi) int_0^{2 pi} cos(x cos t) dt,
    J1(x) = 1/(2 pi) int_0^{2 pi} cos t sin(x cos t) dt *)
Definition J0 (x : R) : R := / (2 * PI) * RInt (fun t => cos (x * cos t)) 0 (2 * PI).
Definition J1 (x : R) : R := / (2 * PI) * RInt (fun t => cos t * sin (x * cos t)) 0 (2 * PI).

Definition cont (f : R -> R) : Prop := forall t, continuous f t.

Lemma cont_int : forall f a b, cont f -> ex_RInt f a b.
Proof. intros f a b H. apply (ex_RInt_continuous (V := R_CompleteNormedModule)). intros. apply H. Qed.

Lemma cont_derive : forall f, (forall t, ex_derive f t) -> cont f.
Proof. intros f H t. apply (ex_derive_continuous (V := R_NormedModule)). apply H. Qed.

Lemma RInt_ext_all : forall (f g : R -> R) a b, (forall t, f t = g t) -> RInt f a b = RInt g a b.
Proof. intros. apply RInt_ext. intros. apply H. Qed.

Lemma IR_plus : forall (f g : R -> R) a b, cont f -> cont g ->
  RInt (fun t => f t + g t) a b = (RInt f a b : R) + RInt g a b.
Proof. intros. apply (RInt_plus (V := R_CompleteNormedModule)); now apply cont_int. Qed.
Lemma IR_scal : forall (f : R -> R) c a b, cont f -> RInt (fun t => c * f t) a b = c * RInt f a b.
Proof. intros. apply (RInt_scal (V := R_CompleteNormedModule)); now apply cont_int. Qed.

(** Substitutions *)
Lemma RInt_shift : forall f c a b, cont f -> RInt (fun t => f (t + c)) a b = RInt f (a + c) (b + c).
Proof.
  intros f c a b H.
  pose proof (RInt_comp_lin f 1 c a b) as E. rewrite !Rmult_1_l in E.
  rewrite <- E by (apply cont_int; exact H). apply RInt_ext_all. intros t.
  unfold scal; simpl; unfold mult; simpl. rewrite !Rmult_1_l. reflexivity.
Qed.
Lemma RInt_flip : forall f c, cont f -> RInt (fun t => f (c - t)) 0 c = RInt f 0 c.
Proof.
  intros f c H.
  pose proof (RInt_comp_lin f (-1) c 0 c) as E.
  replace (-1 * 0 + c) with c in E by ring. replace (-1 * c + c) with 0 in E by ring.
  specialize (E (cont_int _ _ _ H)).
  rewrite <- (opp_RInt_swap f) by (apply cont_int; exact H).
  rewrite <- E.
  transitivity (opp (opp (RInt (fun t => f (c - t)) 0 c))); [symmetry; apply (opp_opp (G := R_AbelianGroup))|].
  f_equal. rewrite <- (RInt_opp (V := R_CompleteNormedModule)).
  - apply RInt_ext_all. intros t. unfold scal, opp; simpl; unfold mult; simpl.
    replace (-1 * t + c) with (c - t) by ring. ring.
  - apply cont_int. intros t. apply (continuous_comp (fun t => c - t) f); [|apply H].
    apply (continuous_minus (V := R_NormedModule)); [apply continuous_const|apply continuous_id].
Qed.

Definition periodic (f : R -> R) : Prop := forall t, f (t + 2 * PI) = f t.

Lemma RInt_period : forall f c, cont f -> periodic f ->
  RInt (fun t => f (t + c)) 0 (2 * PI) = RInt f 0 (2 * PI).
Proof.
  intros f c H P. rewrite RInt_shift by exact H.
  assert (X : forall a b, ex_RInt f a b) by (intros; apply cont_int; exact H).
  assert (A : RInt f (0 + 2 * PI) (c + 2 * PI) = RInt f 0 c).
  { rewrite <- (RInt_shift f (2 * PI) 0 c) by exact H. apply RInt_ext_all. exact P. }
  assert (B : RInt f 0 (2 * PI) + RInt f (2 * PI) (2 * PI + c) = RInt f 0 (2 * PI + c))
    by (apply (RInt_Chasles f 0 (2 * PI) (2 * PI + c)); apply X).
  assert (D : RInt f 0 c + RInt f c (2 * PI + c) = RInt f 0 (2 * PI + c))
    by (apply (RInt_Chasles f 0 c (2 * PI + c)); apply X).
  rewrite !Rplus_0_l in *. rewrite (Rplus_comm c) in A. rewrite A in B. lra.
Qed.

(** Symmetries *)
Lemma RInt_half : forall f, cont f -> periodic f -> (forall t, f (t + PI) = - f t) ->
  RInt f 0 (2 * PI) = 0.
Proof.
  intros f H P A.
  pose proof (RInt_period f PI H P) as E.
  rewrite (RInt_ext_all _ (fun t => opp (f t)) _ _ A) in E.
  rewrite (RInt_opp (V := R_CompleteNormedModule)) in E by (apply cont_int; exact H).
  unfold opp in E; simpl in E. lra.
Qed.
Lemma RInt_odd : forall f, cont f -> (forall t, f (2 * PI - t) = - f t) -> RInt f 0 (2 * PI) = 0.
Proof.
  intros f H A.
  pose proof (RInt_flip f (2 * PI) H) as E.
  rewrite (RInt_ext_all _ (fun t => opp (f t)) _ _ A) in E.
  rewrite (RInt_opp (V := R_CompleteNormedModule)) in E by (apply cont_int; exact H).
  unfold opp in E; simpl in E. lra.
Qed.

Lemma cos_2pi_m : forall t, cos (2 * PI - t) = cos t.
Proof. intros. rewrite cos_minus, cos_2PI, sin_2PI. ring. Qed.
Lemma sin_2pi_m : forall t, sin (2 * PI - t) = - sin t.
Proof. intros. rewrite sin_minus, cos_2PI, sin_2PI. ring. Qed.
Lemma cos_2pi_p : forall t, cos (t + 2 * PI) = cos t.
Proof. intros. rewrite cos_plus, cos_2PI, sin_2PI. ring. Qed.
Lemma sin_2pi_p : forall t, sin (t + 2 * PI) = sin t.
Proof. intros. rewrite sin_plus, cos_2PI, sin_2PI. ring. Qed.
Lemma cos_pi_p : forall t, cos (t + PI) = - cos t.
Proof. intros. apply neg_cos. Qed.
Lemma sin_pi_p : forall t, sin (t + PI) = - sin t.
Proof. intros. apply neg_sin. Qed.

Ltac fieldR := match goal with |- ?a = ?b => change (@eq R a b) end; field.
Ltac contt := apply cont_derive; intros; auto_derive; repeat split; auto.
Ltac pert := intros t; rewrite ?cos_2pi_p, ?sin_2pi_p; reflexivity.
Ltac halft := intros t; rewrite ?cos_pi_p, ?sin_pi_p, ?Ropp_mult_distr_r_reverse, ?cos_neg, ?sin_neg; ring.
Ltac oddt := intros t; rewrite ?cos_2pi_m, ?sin_2pi_m; ring.

Section Base.
Variable x : R.
Notation I f := (RInt f 0 (2 * PI)).

Lemma PI2_nz : 2 * PI <> 0.
Proof. pose proof PI_RGT_0. lra. Qed.

Lemma I_c : I (fun t => cos (x * cos t)) = 2 * PI * J0 x.
Proof. unfold J0. now rewrite <- Rmult_assoc, Rinv_r, Rmult_1_l by apply PI2_nz. Qed.
Lemma I_s : I (fun t => sin (x * cos t)) = 0.
Proof. apply RInt_half; [contt|pert|halft]. Qed.
Lemma I_cos_c : I (fun t => cos t * cos (x * cos t)) = 0.
Proof. apply RInt_half; [contt|pert|halft]. Qed.
Lemma I_cos_s : I (fun t => cos t * sin (x * cos t)) = 2 * PI * J1 x.
Proof. unfold J1. now rewrite <- Rmult_assoc, Rinv_r, Rmult_1_l by apply PI2_nz. Qed.
Lemma I_sin_c : I (fun t => sin t * cos (x * cos t)) = 0.
Proof. apply RInt_odd; [contt|oddt]. Qed.
Lemma I_sin_s : I (fun t => sin t * sin (x * cos t)) = 0.
Proof. apply RInt_odd; [contt|oddt]. Qed.
Lemma I_sc_c : I (fun t => sin t * cos t * cos (x * cos t)) = 0.
Proof. apply RInt_odd; [contt|oddt]. Qed.
Lemma I_sc_s : I (fun t => sin t * cos t * sin (x * cos t)) = 0.
Proof. apply RInt_odd; [contt|oddt]. Qed.
Lemma I_ss_s : I (fun t => sin t * sin t * sin (x * cos t)) = 0.
Proof. apply RInt_half; [contt|pert|halft]. Qed.

Hypothesis x_nz : x <> 0.
(** Integration by parts *)
Lemma I_ss_c : I (fun t => sin t * sin t * cos (x * cos t)) = 2 * PI * (J1 x / x).
Proof.
  set (h := fun t => sin t * sin (x * cos t)).
  set (h' := fun t => cos t * sin (x * cos t) + - x * (sin t * sin t * cos (x * cos t))).
  assert (D : is_RInt h' 0 (2 * PI) (minus (h (2 * PI)) (h 0))).
  { apply (is_RInt_derive (V := R_CompleteNormedModule) h h').
    - intros t _. unfold h, h'. auto_derive; [auto|ring].
    - intros t _. apply cont_derive. unfold h'. intros; auto_derive; auto. }
  apply (is_RInt_unique (V := R_CompleteNormedModule)) in D. unfold h', h in D. rewrite sin_2PI, sin_0 in D.
  rewrite (IR_plus (fun t => cos t * sin (x * cos t)) (fun t => - x * (sin t * sin t * cos (x * cos t)))) in D
    by contt.
  rewrite (IR_scal (fun t => sin t * sin t * cos (x * cos t))) in D by contt.
  rewrite I_cos_s in D.
  set (w := RInt (fun t => sin t * sin t * cos (x * cos t)) 0 (2 * PI)) in *.
  change (@eq R (2 * PI * J1 x + - x * w) (0 * sin (x * cos (2 * PI)) + - (0 * sin (x * cos 0)))) in D.
  change (@eq R w (2 * PI * (J1 x / x))). clearbody w.
  apply (Rmult_eq_reg_l x); [|exact x_nz].
  transitivity (2 * PI * J1 x); [lra|field; exact x_nz].
Qed.
End Base.
