(** Instances: the identity, and the square root of x^2 + g off the negative real axis. *)

From Coq Require Import Reals List Bool Lia Lra Psatz.
From Coquelicot Require Import Coquelicot.
From Verif Require Import CBase ODE FullspaceMaxwell FullspaceCurl Bessel Cint Hankel Sommer Sommer2.
Import ListNotations.
Local Open Scope R_scope.
Local Open Scope C_scope.

(** what the transforms need to know about a function and its derivative *)
Definition inst (be ka : R -> C) (k M : R) : Prop :=
  (forall x, is_deriveC be x (ka x)) /\ cC ka /\ (forall x, Cmult (be x) (ka x) = RtoC x) /\
  (forall x : R, (0 <= x)%R -> (Cmod (Cminus (be x) (RtoC x)) <= k)%R) /\ (forall x : R, (0 <= x)%R -> (Cmod (ka x) <= M)%R).

Lemma id_inst : inst RtoC (fun _ => RtoC 1) 0 1.
Proof.
  split; [|split; [apply cC_const|split; [|split]]].
  - intros x. apply (dC_R (fun t => t) x 1%R), (is_derive_id (K := R_AbsRing)).
  - intros x. ring.
  - intros x _. replace (Cminus (RtoC x) (RtoC x)) with (RtoC 0) by ring. rewrite Cmod_0. lra.
  - intros x _. rewrite Cmod_1. lra.
Qed.

Definition e8 : C := (sqrt 2 / 2, sqrt 2 / 2)%R.
Lemma e8_sq : e8 * e8 = Ci.
Proof. unfold e8, Ci, Cmult. cbn [fst snd]. assert (S : (sqrt 2 * sqrt 2 = 2)%R) by (apply sqrt_sqrt; lra). f_equal; nra. Qed.
Lemma Csqrt_rot : forall w : C, (0 < snd w)%R -> Csqrt w = e8 * Csqrt (- Ci * w).
Proof.
  intros w H. set (r := Csqrt (- Ci * w)). assert (Q : r * r = - Ci * w) by apply Csqrt_sqr. apply Csqrt_uniq.
  - replace (e8 * r * (e8 * r)) with (e8 * e8 * (r * r)) by ring. rewrite e8_sq, Q. assert (I2 : Ci * Ci = - RtoC 1) by (unfold Ci, Cmult, Copp, RtoC; cbn; f_equal; ring). replace (Ci * (- Ci * w)) with (- (Ci * Ci) * w) by ring. rewrite I2. ring.
  - assert (P : (0 <= fst r)%R) by apply Csqrt_Re_ge_0. apply (f_equal fst) in Q. clearbody r. destruct r as [r1 r2], w as [w1 w2]. cbn in *. assert (S2 : (0 < sqrt 2)%R) by (apply sqrt_lt_R0; lra).
    assert (A : (r1 * r1 - r2 * r2 = w2)%R) by lra. assert (r2 < r1)%R by nra. nra.
Qed.
(** derivative of the square root along a curve off the negative axis *)
Lemma dC_sqrt_off : forall f x a, is_deriveC f x a -> (forall t, (0 < fst (f t))%R) \/ (forall t, (0 < snd (f t))%R) -> is_deriveC (fun t => Csqrt (f t)) x (a / (RtoC 2 * Csqrt (f x))).
Proof.
  intros f x a D [H|H]; [now apply dC_sqrt|].
  apply dC_ext with (f := fun t => e8 * Csqrt (- Ci * f t)); [intros t; now rewrite <- Csqrt_rot|].
  assert (P : forall t, (0 < fst (Cmult (- Ci)%C (f t)))%R) by (intros t; specialize (H t); unfold Ci, Cmult, Copp; cbn; lra).
  eapply dC_eq; [apply is_deriveC_scal, dC_sqrt; [apply is_deriveC_scal, D|apply P]|]. rewrite (Csqrt_rot (f x)) by apply H.
  assert (N : Csqrt (- Ci * f x) <> RtoC 0) by (apply Re_pos_nz, Csqrt_Re_pos; left; apply P). set (r := Csqrt (- Ci * f x)) in *.
  assert (N8 : e8 <> RtoC 0) by (apply Re_pos_nz; cbn; assert (0 < sqrt 2)%R by (apply sqrt_lt_R0; lra); lra).
  assert (E : - Ci = / Ci) by (unfold Ci, Cinv, Copp; cbn; f_equal; field). rewrite E, <- e8_sq. match goal with |- ?p = ?q => change (@eq C p q) end. field. repeat split; try assumption. apply Re_pos_nz. cbn. lra.
Qed.

Definition offcut (g : C) : Prop := (0 < fst g)%R \/ (0 < snd g)%R.
Definition root (g : C) (x : R) : C := Csqrt (RtoC (x * x) + g).
Definition droot (g : C) (x : R) : C := RtoC x / root g x.
Section Root.
Variable g : C.
Hypothesis Hg : offcut g.
Lemma root_arg : forall x, (0 < fst (RtoC (x * x) + g)%C \/ 0 < snd (RtoC (x * x) + g)%C)%R.
Proof using All. intros x. cbn [fst snd Cplus RtoC]. assert (0 <= x * x)%R by apply Rle_0_sqr. destruct Hg; [left|right]; lra. Qed.
Lemma root_pos : forall x, (0 < fst (root g x))%R.
Proof using All. intros x. unfold root. apply Csqrt_Re_pos. destruct (root_arg x) as [H|H]; [now left|right; lra]. Qed.
Lemma root_nz : forall x, root g x <> RtoC 0. Proof using All. intros. apply Re_pos_nz, root_pos. Qed.
Lemma root_sq : forall x, root g x * root g x = RtoC (x * x) + g. Proof using All. intros. apply Csqrt_sqr. Qed.
Lemma root_derive : forall x, is_deriveC (root g) x (droot g x).
Proof using All.
  intros x. unfold root. eapply dC_eq; [apply dC_sqrt_off with (a := RtoC (2 * x))|].
  - eapply dC_eq; [apply is_deriveC_plus; [apply (dC_R (fun x => x * x)%R x (2 * x)%R)|apply is_deriveC_const]|].
    + auto_derive; [exact I|ring].
    + ring.
  - destruct Hg as [H|H]; [left|right]; intros t; cbn [fst snd Cplus RtoC]; assert (0 <= t * t)%R by apply Rle_0_sqr; lra.
  - unfold droot. fold (root g x). rewrite RtoC_mult. pose proof (root_nz x). field. split; [assumption|apply Re_pos_nz; cbn; lra].
Qed.
Lemma droot_cont : cC (droot g).
Proof using All. unfold droot, Cdiv. apply cC_mult; [apply cC_id|]. eapply cC_derive. intros x. apply dC_inv; [apply root_derive|apply root_nz]. Qed.
Lemma root_near : forall x, (0 <= x)%R -> (Cmod (Cminus (root g x) (RtoC x)) <= sqrt (Cmod g))%R.
Proof using All.
  intros x Hx. set (r := root g x). assert (E : (r - RtoC x) * (r + RtoC x) = g) by (replace ((r - RtoC x) * (r + RtoC x)) with (r * r - RtoC x * RtoC x) by ring; unfold r; rewrite root_sq, RtoC_mult; ring).
  assert (P : (0 < fst r)%R) by apply root_pos. clearbody r.
  assert (L : (Cmod (Cminus r (RtoC x)) <= Cmod (Cplus r (RtoC x)))%R).
  { unfold Cmod. apply sqrt_le_1_alt. destruct r as [r1 r2]. cbn in *. nra. }
  rewrite <- E, Cmod_mult. rewrite <- (sqrt_square (Cmod (Cminus r (RtoC x)))) at 1 by apply Cmod_ge_0. apply sqrt_le_1_alt. apply Rmult_le_compat_l; [apply Cmod_ge_0|exact L].
Qed.
Lemma root_low : exists c : R, (0 < c)%R /\ forall x : R, (0 <= x)%R -> (c * x <= Cmod (root g x))%R.
Proof using All.
  assert (E : forall x, (Cmod (root g x) * Cmod (root g x))%R = Cmod (RtoC (x * x) + g)%C) by (intros x; rewrite <- Cmod_mult, root_sq; reflexivity).
  destruct Hg as [H|H].
  - exists 1%R. split; [lra|]. intros x Hx. rewrite Rmult_1_l. apply Rsqr_incr_0_var; [|apply Cmod_ge_0]. unfold Rsqr. rewrite E. eapply Rle_trans; [|apply fst_le_Cmod]. eapply Rle_trans; [|apply Rle_abs]. cbn. lra.
  - assert (M0 : (0 < Cmod g)%R) by (apply Cmod_gt_0; intros F; rewrite F in H; cbn in H; lra). exists (sqrt (snd g / Cmod g)). assert (Q0 : (0 < snd g / Cmod g)%R) by now apply Rdiv_lt_0_compat.
    split; [now apply sqrt_lt_R0|]. intros x Hx. apply Rsqr_incr_0_var; [|apply Cmod_ge_0]. unfold Rsqr. rewrite E. replace (sqrt (snd g / Cmod g) * x * (sqrt (snd g / Cmod g) * x))%R with (sqrt (snd g / Cmod g) * sqrt (snd g / Cmod g) * (x * x))%R by ring.
    rewrite sqrt_sqrt by lra. replace (snd g / Cmod g * (x * x))%R with (snd g * (x * x) / Cmod g)%R by (field; lra). apply (Rmult_le_reg_r (Cmod g)); [exact M0|]. replace (snd g * (x * x) / Cmod g * Cmod g)%R with (snd g * (x * x))%R by (field; lra).
    apply Rsqr_incr_0_var; [|apply Rmult_le_pos; apply Cmod_ge_0]. rewrite !Rsqr_mult, !Cmod_sq. unfold Rsqr. destruct g as [p q]. cbn [fst snd Cplus RtoC]. set (y := (x * x)%R). 
    assert (0 <= (y * p + (p * p + q * q)) * (y * p + (p * p + q * q)))%R by apply Rle_0_sqr. nra.
Qed.
Lemma root_inst : exists k M, inst (root g) (droot g) k M.
Proof using All.
  destruct root_low as (c & Hc & L). exists (sqrt (Cmod g)), (/ c)%R. split; [exact root_derive|]. split; [exact droot_cont|]. split; [|split].
  - intros x. unfold droot. field. apply root_nz.
  - apply root_near.
  - intros x Hx. unfold droot. rewrite Cmod_div by apply root_nz. rewrite Cmod_R, Rabs_pos_eq by exact Hx. assert (P : (0 < Cmod (root g x))%R) by apply Cmod_gt_0, root_nz. specialize (L x Hx).
    apply (Rmult_le_reg_r (Cmod (root g x))); [exact P|]. replace (x / Cmod (root g x) * Cmod (root g x))%R with x by (field; lra). apply (Rmult_le_reg_l c); [exact Hc|]. replace (c * (/ c * Cmod (root g x)))%R with (Cmod (root g x)) by (field; lra). exact L.
Qed.
End Root.
