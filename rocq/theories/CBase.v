(** Complex exponential, principal square root and extended reals.

    Coquelicot supplies the type [C] with its field structure; the functions
    below are definitions, nothing is assumed about them. *)

From Coq Require Import Reals Lra ZArith.
From Coquelicot Require Import Coquelicot.
From Verif Require Import PyBase.
Local Open Scope R_scope.

(** [np.exp] on complex numbers. *)
Definition Cexp (z : C) : C := (exp (fst z) * cos (snd z), exp (fst z) * sin (snd z)).

(** [np.sqrt] on complex numbers: principal branch, Re >= 0. *)
Definition Csqrt (z : C) : C :=
  (sqrt ((Cmod z + fst z) / 2),
   (if Rlt_dec (snd z) 0 then -1 else 1) * sqrt ((Cmod z - fst z) / 2)).

(** Values of [depth]: finite, or the -inf/+inf that check_model handles. *)
Inductive ext : Type := NInf | Fin (r : R) | PInf.

(** Subtraction on extended reals; inf - inf is nan. *)
Definition xsub (a b : ext) : res ext :=
  match a, b with
  | Fin x, Fin y => Ok (Fin (x - y))
  | Fin _, NInf => Ok PInf
  | Fin _, PInf => Ok NInf
  | PInf, (Fin _ | NInf) => Ok PInf
  | NInf, (Fin _ | PInf) => Ok NInf
  | _, _ => Err NanE
  end.

(** Addition on extended reals; inf - inf is nan. *)
Definition xadd (a b : ext) : res ext :=
  match a, b with
  | Fin x, Fin y => Ok (Fin (x + y))
  | PInf, (Fin _ | PInf) | Fin _, PInf => Ok PInf
  | NInf, (Fin _ | NInf) | Fin _, NInf => Ok NInf
  | _, _ => Err NanE
  end.

(** [np.isfinite] *)
Definition isfinite (a : ext) : bool := match a with Fin _ => true | _ => false end.

(** [np.exp(-g*d)] for complex g (Re g > 0 is the physical case) and an
    extended distance d; the limit for d = +inf is 0.  d = -inf never occurs
    (theorems state that the kernel returns [Ok]). *)
Definition xexpm (g : C) (d : ext) : res C :=
  match d with
  | Fin x => Ok (Cexp (Copp (Cmult g (RtoC x))))
  | PInf => Ok (RtoC 0)
  | NInf => Err NanE
  end.

(** Complex division; a zero denominator is reported. *)
Definition Ceq_dec (a b : C) : {a = b} + {a <> b}.
Proof.
  destruct a as [a1 a2], b as [b1 b2].
  destruct (Req_EM_T a1 b1) as [->|H1].
  - destruct (Req_EM_T a2 b2) as [->|H2].
    + left; reflexivity.
    + right; intro E; injection E; auto.
  - right; intro E; injection E; auto.
Defined.

(** Checked division, as used by every quotient of the kernel (see DESIGN.md, section 1). *)
Definition cdiv (a b : C) : res C :=
  if Ceq_dec b (RtoC 0) then Err ZeroDivE else Ok (Cdiv a b).

Lemma cdiv_ok : forall a b, b <> RtoC 0 -> cdiv a b = Ok (Cdiv a b).
Proof. intros a b H. unfold cdiv. destruct (Ceq_dec b (RtoC 0)); [contradiction|reflexivity]. Qed.

Lemma cdiv_ok_inv : forall a b c, cdiv a b = Ok c -> b <> RtoC 0 /\ c = Cdiv a b.
Proof.
  intros a b c. unfold cdiv. destruct (Ceq_dec b (RtoC 0)); [discriminate|].
  intros E; injection E; auto.
Qed.

(** ** Facts *)

Lemma Cexp_0 : Cexp (RtoC 0) = RtoC 1.
Proof. unfold Cexp, RtoC; simpl. rewrite exp_0, cos_0, sin_0. f_equal; ring. Qed.

Lemma Cexp_plus : forall a b, Cexp (Cplus a b) = Cmult (Cexp a) (Cexp b).
Proof.
  intros [a1 a2] [b1 b2]. unfold Cexp, Cplus, Cmult; simpl.
  rewrite exp_plus, cos_plus, sin_plus. f_equal; ring.
Qed.

Lemma Cmod_Cexp : forall z, Cmod (Cexp z) = exp (fst z).
Proof.
  intros [a b]. unfold Cmod, Cexp; simpl.
  replace (exp a * cos b * (exp a * cos b * 1) + exp a * sin b * (exp a * sin b * 1))
    with ((exp a)² * ((sin b)² + (cos b)²)) by (unfold Rsqr; ring).
  rewrite sin2_cos2, Rmult_1_r. apply sqrt_Rsqr. apply Rlt_le, exp_pos.
Qed.

Lemma Cexp_neq_0 : forall z, Cexp z <> RtoC 0.
Proof.
  intros z H. assert (Cmod (Cexp z) = 0) by (rewrite H; apply Cmod_0).
  rewrite Cmod_Cexp in H0. pose proof (exp_pos (fst z)). lra.
Qed.

Lemma RtoC_Cexp : forall x, Cexp (RtoC x) = RtoC (exp x).
Proof. intros. unfold Cexp, RtoC; simpl. rewrite cos_0, sin_0. f_equal; ring. Qed.

Lemma Cmod_sq : forall z : C, (Cmod z)² = fst z * fst z + snd z * snd z.
Proof.
  intros [a b]; unfold Cmod; simpl. rewrite Rsqr_sqrt; [ring|].
  replace (a * (a * 1) + b * (b * 1)) with (a*a + b*b) by ring.
  nra.
Qed.

Lemma fst_le_Cmod : forall z : C, Rabs (fst z) <= Cmod z.
Proof.
  intros z. apply Rsqr_incr_0_var; [|apply Cmod_ge_0].
  rewrite <- Rsqr_abs, Cmod_sq. unfold Rsqr. nra.
Qed.

Lemma snd_le_Cmod : forall z : C, Rabs (snd z) <= Cmod z.
Proof.
  intros z. apply Rsqr_incr_0_var; [|apply Cmod_ge_0].
  rewrite <- Rsqr_abs, Cmod_sq. unfold Rsqr. nra.
Qed.

Lemma Csqrt_sqr : forall z, Cmult (Csqrt z) (Csqrt z) = z.
Proof.
  intros z. pose proof (fst_le_Cmod z) as H. pose proof (Cmod_sq z) as H2.
  assert (H1: 0 <= Cmod z + fst z /\ 0 <= Cmod z - fst z).
  { unfold Rabs in H. destruct (Rcase_abs (fst z)); lra. }
  destruct H1 as [Hp Hm].
  destruct z as [a b]. unfold Csqrt, Cmult. cbn [fst snd] in *.
  set (m := Cmod (a,b)) in *.
  assert (S1 : sqrt ((m+a)/2) * sqrt ((m+a)/2) = (m+a)/2) by (apply sqrt_sqrt; lra).
  assert (S2 : sqrt ((m-a)/2) * sqrt ((m-a)/2) = (m-a)/2) by (apply sqrt_sqrt; lra).
  assert (S3 : sqrt ((m+a)/2) * sqrt ((m-a)/2) = Rabs b / 2).
  { rewrite <- sqrt_mult by lra.
    replace ((m + a)/2 * ((m - a)/2)) with ((Rabs b / 2)²).
    - apply sqrt_Rsqr. pose proof (Rabs_pos b). lra.
    - unfold Rsqr in *. assert (Rabs b * Rabs b = b * b).
      { unfold Rabs; destruct (Rcase_abs b); ring. }
      replace (Rabs b / 2 * (Rabs b / 2)) with ((Rabs b * Rabs b)/4) by field.
      rewrite H0. replace ((m + a) / 2 * ((m - a) / 2)) with ((m*m - a*a)/4) by field.
      rewrite H2. field. }
  f_equal.
  - destruct (Rlt_dec b 0); nra.
  - unfold Rabs in S3. destruct (Rcase_abs b); destruct (Rlt_dec b 0); nra.
Qed.

Lemma Csqrt_Re_ge_0 : forall z, 0 <= fst (Csqrt z).
Proof. intros; simpl; apply sqrt_pos. Qed.

(** Away from the closed negative real axis the real part is positive. *)
Lemma Csqrt_Re_pos : forall z, (0 < fst z \/ snd z <> 0) -> 0 < fst (Csqrt z).
Proof.
  intros z H. simpl. apply sqrt_lt_R0.
  assert (0 < Cmod z + fst z); [|lra].
  destruct H as [H|H].
  - pose proof (Cmod_ge_0 z). lra.
  - assert (Rabs (fst z) < Cmod z).
    { apply Rsqr_incrst_0; [| apply Rabs_pos | apply Cmod_ge_0].
      rewrite <- Rsqr_abs, Cmod_sq. unfold Rsqr. nra. }
    unfold Rabs in H0; destruct (Rcase_abs (fst z)); lra.
Qed.

Lemma Csqrt_RtoC : forall x, 0 <= x -> Csqrt (RtoC x) = RtoC (sqrt x).
Proof.
  intros x H. unfold Csqrt, RtoC. simpl.
  assert (Cmod (x, 0) = x) by (change (x,0) with (RtoC x); rewrite Cmod_R; apply Rabs_pos_eq; lra).
  rewrite H0. destruct (Rlt_dec 0 0); [lra|].
  f_equal.
  - f_equal. field.
  - replace ((x - x)/2) with 0 by field. rewrite sqrt_0. ring.
Qed.

Lemma RtoC_neq_0 : forall x, x <> 0 -> RtoC x <> RtoC 0.
Proof. intros x H E. apply H. now injection E. Qed.

Lemma Re_pos_neq_0 : forall z : C, 0 < fst z -> z <> RtoC 0.
Proof. intros z H E. rewrite E in H. simpl in H. lra. Qed.

Lemma C1_neq_0 : RtoC 1 <> RtoC 0.
Proof. apply RtoC_neq_0. lra. Qed.
Lemma C2_neq_0 : RtoC 2 <> RtoC 0.
Proof. apply RtoC_neq_0. lra. Qed.

Lemma Cdiv_1_r : forall x : C, Cdiv x (RtoC 1) = x.
Proof. intros. unfold Cdiv. rewrite <- (Cmult_1_r x) at 2. f_equal.
  unfold Cinv, RtoC; simpl. f_equal; field. Qed.
