(** The fields of the half-space solution as functions of a sequence f_0, f_1, ...
    with f_n' = - ka f_(n+1), and what their curl curl is: ka^2 times the same
    field of the sequence shifted by two. *)

From Coq Require Import ZArith Reals List Bool Lia Lra Psatz.
From Coquelicot Require Import Coquelicot.
From Verif Require Import PyBase CBase ODE FullspaceMaxwell FullspaceField HalfspaceZero WaveField WaveField2.
Import ListNotations.
Local Open Scope R_scope.
Local Open Scope C_scope.

Lemma numI : forall p, RtoC (IZR (Zpos (xI p))) = RtoC 1 + (RtoC 1 + RtoC 1) * RtoC (IZR (Zpos p)).
Proof. intros p. rewrite <- RtoC_plus, <- RtoC_mult, <- RtoC_plus. f_equal. rewrite <- !plus_IZR, <- mult_IZR, <- plus_IZR. f_equal; lia. Qed.
Lemma numO : forall p, RtoC (IZR (Zpos (xO p))) = (RtoC 1 + RtoC 1) * RtoC (IZR (Zpos p)).
Proof. intros p. rewrite <- RtoC_plus, <- RtoC_mult. f_equal. rewrite <- !plus_IZR, <- mult_IZR. f_equal. Qed.
Ltac nums := repeat first [rewrite numI | rewrite numO].

Section Base.
Variables (ka : R) (f : nat -> R -> C).
Let k : C := RtoC ka.
Let i1 (r : R) : C := / RtoC r.
Let D (r z : R) : C := RtoC r * RtoC r - RtoC z * RtoC z.
Let iD (r z : R) : C := / D r z.

(** spherical pair *)
Definition Ua (r z : R) : C := RtoC 3 * f 0%nat r * (i1 r * i1 r * i1 r * i1 r * i1 r) + RtoC 3 * k * f 1%nat r * (i1 r * i1 r * i1 r * i1 r) + k * k * f 2%nat r * (i1 r * i1 r * i1 r).
Definition Qa (r z : R) : C := - (f 0%nat r * (i1 r * i1 r * i1 r) + k * f 1%nat r * (i1 r * i1 r)).
Definition Na (r z : R) : C := - (f 0%nat r * (i1 r * i1 r * i1 r) + k * f 1%nat r * (i1 r * i1 r) + k * k * f 2%nat r * i1 r).
(** cylindrical pair *)
Definition Sb (r z : R) : C := - k * (RtoC 2 * f 1%nat r * (iD r z * iD r z) + k * f 2%nat r * (iD r z * i1 r)).
Definition Qb (r z : R) : C := k * (f 1%nat r * iD r z).
End Base.

Section Derivs.
Variables (ka : R) (f : nat -> R -> C).
Hypothesis Hf : forall n r, (n < 4)%nat -> (0 < r)%R -> is_deriveC (f n) r (- (RtoC ka * f (S n) r)).
Let k : C := RtoC ka.
Let i1 (r : R) : C := / RtoC r.
Let D (r z : R) : C := RtoC r * RtoC r - RtoC z * RtoC z.
Let iD (r z : R) : C := / D r z.
Let i2 r := i1 r * i1 r.
Let i4 r := i2 r * i2 r.
Let j2 r z := iD r z * iD r z.
Definition shift2 (n : nat) : R -> C := f (S (S n)).

Definition Ta (r z : R) : C := - (RtoC (15) * f 0%nat r * (i4 r * i2 r * i1 r) + RtoC 15 * k * f 1%nat r * (i4 r * i2 r) + RtoC 6 * k * k * f 2%nat r * (i4 r * i1 r) + k * k * k * f 3%nat r * i4 r).
Definition Tra (r z : R) : C := RtoC 105 * f 0%nat r * (i4 r * i4 r) + RtoC 105 * k * f 1%nat r * (i4 r * i2 r * i1 r) + RtoC 45 * k * k * f 2%nat r * (i4 r * i2 r) + RtoC 10 * k * k * k * f 3%nat r * (i4 r * i1 r) + k * k * k * k * f 4%nat r * i4 r.
Definition Nta (r z : R) : C := RtoC 3 * f 0%nat r * (i4 r * i1 r) + RtoC 3 * k * f 1%nat r * i4 r + RtoC 2 * k * k * f 2%nat r * (i2 r * i1 r) + k * k * k * f 3%nat r * i2 r.
Definition Nra (r z : R) : C := - (RtoC 15 * f 0%nat r * (i4 r * i2 r) + RtoC 15 * k * f 1%nat r * (i4 r * i1 r) + RtoC 9 * k * k * f 2%nat r * i4 r + RtoC 4 * k * k * k * f 3%nat r * (i2 r * i1 r) + k * k * k * k * f 4%nat r * i2 r).

Definition Tb (r z : R) : C := k * (RtoC 8 * f 1%nat r * (j2 r z * iD r z) + RtoC 4 * k * f 2%nat r * (i1 r * j2 r z) + k * f 2%nat r * (iD r z * i2 r * i1 r) + k * k * f 3%nat r * (iD r z * i2 r)).
Definition Wb (r z : R) : C := - k * RtoC z * (RtoC 8 * f 1%nat r * (j2 r z * iD r z) + RtoC 2 * k * f 2%nat r * (j2 r z * i1 r)).
Definition Zb (r z : R) : C := k * (RtoC 2 * RtoC z * f 1%nat r * j2 r z).
Definition Trb (r z : R) : C := k * (- (RtoC 48 * RtoC r * f 1%nat r * (j2 r z * j2 r z)) - RtoC 8 * k * f 2%nat r * (j2 r z * iD r z)
   + RtoC 4 * k * f 2%nat r * (- (i2 r * j2 r z) - RtoC 4 * (j2 r z * iD r z)) - RtoC 4 * k * k * f 3%nat r * (i1 r * j2 r z)
   + k * f 2%nat r * (- (RtoC 2 * (j2 r z * i2 r)) - RtoC 3 * (iD r z * i4 r)) - k * k * f 3%nat r * (iD r z * i2 r * i1 r)
   + k * k * f 3%nat r * (- (RtoC 2 * (j2 r z * i1 r)) - RtoC 2 * (iD r z * i2 r * i1 r)) - k * k * k * f 4%nat r * (iD r z * i2 r)).
Definition Tzb (r z : R) : C := k * RtoC z * (RtoC 48 * f 1%nat r * (j2 r z * j2 r z) + RtoC 16 * k * f 2%nat r * (i1 r * (j2 r z * iD r z)) + RtoC 2 * k * f 2%nat r * (j2 r z * i2 r * i1 r) + RtoC 2 * k * k * f 3%nat r * (j2 r z * i2 r)).
Definition Wrb (r z : R) : C := RtoC r * Tzb r z.
Definition Wzb (r z : R) : C := - k * (RtoC 8 * f 1%nat r * (j2 r z * iD r z) + RtoC 48 * RtoC z * RtoC z * f 1%nat r * (j2 r z * j2 r z) + RtoC 2 * k * f 2%nat r * (j2 r z * i1 r) + RtoC 8 * RtoC z * RtoC z * k * f 2%nat r * (j2 r z * iD r z * i1 r)).
Definition Zrb (r z : R) : C := RtoC r * Wb r z.
Definition Zzb (r z : R) : C := k * (RtoC 2 * f 1%nat r * j2 r z + RtoC 8 * RtoC z * RtoC z * f 1%nat r * (j2 r z * iD r z)).

Lemma dt_i1 : dtot (fun r _ => i1 r) (fun r _ => - (i1 r * i1 r)) (fun _ _ => RtoC 0).
Proof using.
  eapply dtot_eq; [eapply (dtot_inv (fun r _ => RtoC r)); [apply dtot_r|intros r z P B; now apply rz_nz with (z := z)]|]. intros r z P B. unfold i1. split; ring.
Qed.
Lemma dt_iD : dtot iD (fun r z => - (RtoC 2 * RtoC r * (iD r z * iD r z))) (fun r z => RtoC 2 * RtoC z * (iD r z * iD r z)).
Proof using.
  eapply dtot_eq; [eapply (dtot_inv D)|].
  - unfold D. eapply (dtot_minus (fun r z => RtoC r * RtoC r) _ _ (fun r z => RtoC z * RtoC z)); [eapply (dtot_mult (fun r _ => RtoC r) _ _ (fun r _ => RtoC r)); apply dtot_r|eapply (dtot_mult (fun _ z => RtoC z) _ _ (fun _ z => RtoC z)); apply dtot_z].
  - intros r z P B. now apply rz_nz.
  - intros r z P B. unfold iD. cbv beta. rewrite t2s. split; eC; ring.
Qed.
Lemma dt_f : forall n, (n < 4)%nat -> dtot (fun r _ => f n r) (fun r _ => - (k * f (S n) r)) (fun _ _ => RtoC 0).
Proof using Hf. intros n Hn. apply dtot_f. intros r P. now apply Hf. Qed.

Ltac dt := lazymatch goal with
  | |- dtot (fun r z => @?A r z + @?B r z) _ _ => eapply (dtot_plus A _ _ B); dt
  | |- dtot (fun r z => @?A r z - @?B r z) _ _ => eapply (dtot_minus A _ _ B); dt
  | |- dtot (fun r z => - @?A r z) _ _ => eapply (dtot_opp A); dt
  | |- dtot (fun r z => @?A r z * @?B r z) _ _ => eapply (dtot_mult A _ _ B); dt
  | |- dtot (fun r _ => RtoC r) _ _ => apply dtot_r
  | |- dtot (fun _ z => RtoC z) _ _ => apply dtot_z
  | |- dtot (fun r _ => i1 r) _ _ => apply dt_i1
  | |- dtot (fun r _ => / RtoC r) _ _ => apply dt_i1
  | |- dtot (fun r z => / (RtoC r * RtoC r - RtoC z * RtoC z)) _ _ => apply dt_iD
  | |- dtot (fun r z => iD r z) _ _ => apply dt_iD
  | |- dtot (fun r _ => f ?n r) _ _ => apply (dt_f n); lia
  | |- dtot (fun _ _ => ?c) _ _ => apply (dtot_const c)
  end.

Lemma pushD : forall r z, (0 < r)%R -> (- r < z < r)%R -> RtoC r * i1 r = RtoC 1 /\ D r z * iD r z = RtoC 1.
Proof using. intros r z P B. destruct (rz_nz r z P B) as [A1 A2]. unfold i1, iD, D. split; field; assumption. Qed.

Ltac fin := let P := fresh in let B := fresh in intros r z P B; destruct (rz_nz r z P B) as [A1 A2]; cbv beta;
  unfold Ua, Qa, Na, Sb, Qb, Wrb, Zrb, Ta, Tra, Nta, Nra, Tb, Wb, Zb, Trb, Tzb, Wzb, Zzb, i4, i2, j2, iD, D, i1, k; split; nums; eC; field; repeat split; assumption.
Ltac go := eapply dtot_eq; [unfold Ua, Qa, Na, Sb, Qb, Ta, Nta, Tb, Wb, Zb, i4, i2, j2, k; dt|fin].

Lemma dt_Qa : dtot (Qa ka f) (fun r z => RtoC r * Ua ka f r z) (fun _ _ => RtoC 0). Proof using Hf. go. Qed.
Lemma dt_Ua : dtot (Ua ka f) (fun r z => RtoC r * Ta r z) (fun _ _ => RtoC 0). Proof using Hf. go. Qed.
Lemma dt_Ta : dtot Ta Tra (fun _ _ => RtoC 0). Proof using Hf. go. Qed.
Lemma dt_Na : dtot (Na ka f) (fun r z => RtoC r * Nta r z) (fun _ _ => RtoC 0). Proof using Hf. go. Qed.
Lemma dt_Nta : dtot Nta Nra (fun _ _ => RtoC 0). Proof using Hf. go. Qed.
Lemma dt_Qb : dtot (Qb ka f) (fun r z => RtoC r * Sb ka f r z) Zb. Proof using Hf. go. Qed.
Lemma dt_Sb : dtot (Sb ka f) (fun r z => RtoC r * Tb r z) Wb. Proof using Hf. go. Qed.
Lemma dt_Tb : dtot Tb Trb Tzb. Proof using Hf. go. Qed.
Lemma dt_Wb : dtot Wb Wrb Wzb. Proof using Hf. go. Qed.
Lemma dt_Zb : dtot Zb Zrb Zzb. Proof using Hf. go. Qed.

(** ** the pairs satisfy the equations *)
Ltac fin1 := intros r z P B; destruct (rz_nz r z P B) as [A1 A2]; cbv beta;
  unfold Ua, Qa, Na, Sb, Qb, Wrb, Zrb, Ta, Tra, Nta, Nra, Tb, Wb, Zb, Trb, Tzb, Wzb, Zzb, shift2, i4, i2, j2, iD, D, i1, k; nums; eC; field; repeat split; assumption.
Notation g := (shift2).
Lemma csA : forall r z, (0 < r)%R -> (- r < z < r)%R -> RtoC 7 * Ta r z + RtoC r * Tra r z = k * k * Ua ka g r z. Proof using. fin1. Qed.
Lemma cqA : forall r z, (0 < r)%R -> (- r < z < r)%R -> RtoC 5 * Ua ka f r z + RtoC r * RtoC r * Ta r z = k * k * Qa ka g r z. Proof using. fin1. Qed.
Lemma csB : forall r z, (0 < r)%R -> (- r < z < r)%R -> RtoC 7 * Tb r z + RtoC r * Trb r z + RtoC z * Tzb r z + RtoC z * / RtoC r * Wrb r z + Wzb r z = k * k * Sb ka g r z. Proof using. fin1. Qed.
Lemma cqB : forall r z, (0 < r)%R -> (- r < z < r)%R -> RtoC 5 * Sb ka f r z + RtoC r * RtoC r * Tb r z + RtoC z * Wb r z + RtoC z * / RtoC r * Zrb r z + Zzb r z = k * k * Qb ka g r z. Proof using. fin1. Qed.
Lemma dvB : forall r z, (0 < r)%R -> (- r < z < r)%R -> Ua ka f r z + RtoC z * RtoC z * Ta r z + RtoC 4 * (Ua ka f r z + Sb ka f r z) + (RtoC r * RtoC r - RtoC z * RtoC z) * (Ta r z + Tb r z) = RtoC 0. Proof using. fin1. Qed.
Lemma dvrB : forall r z, (0 < r)%R -> (- r < z < r)%R -> Ta r z + RtoC z * RtoC z * / RtoC r * Tra r z + RtoC 4 * (Ta r z + Tb r z) + RtoC 2 * (Ta r z + Tb r z) + (RtoC r - RtoC z * RtoC z * / RtoC r) * (Tra r z + Trb r z) = RtoC 0. Proof using. fin1. Qed.
Lemma dvzB : forall r z, (0 < r)%R -> (- r < z < r)%R -> RtoC 2 * RtoC z * Ta r z + RtoC 4 * Wb r z - RtoC 2 * RtoC z * (Ta r z + Tb r z) + (RtoC r * RtoC r - RtoC z * RtoC z) * Tzb r z = RtoC 0. Proof using. fin1. Qed.
Lemma c1N : forall r z, (0 < r)%R -> (- r < z < r)%R -> / RtoC r * Nra r z - Ta r z = - (k * k * Ua ka g r z). Proof using. fin1. Qed.
Lemma c2N : forall r z, (0 < r)%R -> (- r < z < r)%R ->
  RtoC 2 * Ua ka f r z + (RtoC r * RtoC r - RtoC z * RtoC z) * Ta r z - RtoC 2 * Nta r z - (RtoC r * RtoC r - RtoC z * RtoC z) * / RtoC r * Nra r z = - (RtoC z * RtoC z * (k * k * Ua ka g r z) + k * k * Na ka g r z). Proof using. fin1. Qed.

Definition mixS (c : C) (h : nat -> R -> C) (r z : R) : C := c * Ua ka h r z + Sb ka h r z.
Definition mixQ (c : C) (h : nat -> R -> C) (r z : R) : C := c * Qa ka h r z + Qb ka h r z.

Theorem te_seq : forall c b, (1 <= b <= 2)%Z ->
  curlcurl_is (te_field (mixS c f) (mixQ c f) b) (fun a x y z => - te_field (fun r z => k * k * mixS c g r z) (fun r z => k * k * mixQ c g r z) b a x y z) off_z.
Proof using Hf.
  intros c b Hb.
  apply (te_solves (mixS c f) (mixQ c f) Zb (fun r z => c * Ta r z + Tb r z) Wb (fun r z => c * Tra r z + Trb r z) Tzb Wrb Wzb Zrb Zzb); try exact Hb.
  - eapply dtot_eq; [apply (dtot_plus (fun r z => c * Qa ka f r z)); [apply dtot_scal, dt_Qa|apply dt_Qb]|]. intros r z P B. unfold mixS. split; eC; ring.
  - eapply dtot_eq; [apply (dtot_plus (fun r z => c * Ua ka f r z)); [apply dtot_scal, dt_Ua|apply dt_Sb]|]. intros r z P B. split; eC; ring.
  - eapply dtot_eq; [apply (dtot_plus (fun r z => c * Ta r z)); [apply dtot_scal, dt_Ta|apply dt_Tb]|]. intros r z P B. split; eC; ring.
  - apply dt_Wb.
  - apply dt_Zb.
  - reflexivity.
  - reflexivity.
  - intros r z P B. unfold mixS. transitivity (c * (k * k * Ua ka g r z) + k * k * Sb ka g r z); [|ring]. rewrite <- (csA r z P B), <- (csB r z P B). ring.
  - intros r z P B. unfold mixS, mixQ. transitivity (c * (k * k * Qa ka g r z) + k * k * Qb ka g r z); [|ring]. rewrite <- (cqA r z P B), <- (cqB r z P B). ring.
Qed.

Theorem tm_seq : forall lam b, (1 <= b <= 2)%Z ->
  curlcurl_is (tm_field lam (mixS (RtoC 1) f) (mixQ (RtoC 1) f) (Ua ka f) b)
    (fun a x y z => - (RtoC (if (a =? 3)%Z then 1 else lam * lam) * tm_field lam (fun r z => k * k * mixS (RtoC 1) g r z) (fun r z => k * k * mixQ (RtoC 1) g r z) (fun r z => k * k * Ua ka g r z) b a x y z)) off_z.
Proof using Hf.
  intros lam b Hb. set (c := RtoC 1).
  apply (tm_solves lam (mixS c f) (mixQ c f) Zb (fun r z => c * Ta r z + Tb r z) Wb (fun r z => c * Tra r z + Trb r z) Tzb Wrb Wzb Zrb Zzb) with (Ut := Ta) (Ur := Tra); try exact Hb.
  - eapply dtot_eq; [apply (dtot_plus (fun r z => c * Qa ka f r z)); [apply dtot_scal, dt_Qa|apply dt_Qb]|]. intros r z P B. unfold mixS. split; eC; ring.
  - eapply dtot_eq; [apply (dtot_plus (fun r z => c * Ua ka f r z)); [apply dtot_scal, dt_Ua|apply dt_Sb]|]. intros r z P B. split; eC; ring.
  - eapply dtot_eq; [apply (dtot_plus (fun r z => c * Ta r z)); [apply dtot_scal, dt_Ta|apply dt_Tb]|]. intros r z P B. split; eC; ring.
  - apply dt_Wb.
  - apply dt_Zb.
  - apply dt_Ua.
  - apply dt_Ta.
  - reflexivity.
  - reflexivity.
  - intros r z P B. unfold mixS. transitivity (c * (k * k * Ua ka g r z) + k * k * Sb ka g r z); [|ring]. rewrite <- (csA r z P B), <- (csB r z P B). ring.
  - intros r z P B. unfold mixS, mixQ. transitivity (c * (k * k * Qa ka g r z) + k * k * Qb ka g r z); [|ring]. rewrite <- (cqA r z P B), <- (cqB r z P B). ring.
  - intros r z P B. apply csA; assumption.
  - intros r z P B. rewrite <- (dvB r z P B) at 1. unfold mixS, c. ring.
  - intros r z P B. rewrite <- (dvrB r z P B) at 1. unfold c. ring.
  - intros r z P B. rewrite <- (dvzB r z P B) at 1. unfold c. ring.
Qed.

Theorem tv_seq : forall lam,
  curlcurl_is (tv_field lam (Ua ka f) (Na ka f))
    (fun a x y z => - (RtoC (if (a =? 3)%Z then 1 else lam * lam) * tv_field lam (fun r z => k * k * Ua ka g r z) (fun r z => k * k * Na ka g r z) a x y z)) off_z.
Proof using Hf.
  intros lam. apply (tv_solves lam (Ua ka f) Ta Tra (Na ka f) Nta Nra).
  - apply dt_Ua.
  - apply dt_Ta.
  - apply dt_Na.
  - apply dt_Nta.
  - exact c1N.
  - exact c2N.
Qed.
End Derivs.
