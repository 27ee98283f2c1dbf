(** The airwave of the half-space solution solves the source-free diffusive Maxwell equations:
    products of modified Bessel functions, and the field made from them. *)

From Coq Require Import ZArith Reals List Bool Lia Lra Psatz.
From Coquelicot Require Import Coquelicot.
From Verif Require Import PyBase CBase ODE FullspaceMaxwell HalfspaceDc HalfspaceZero WaveField WaveField2 WaveField3.
Import ListNotations.
Local Open Scope R_scope.
Local Open Scope C_scope.

Definition q (r z : R) : C := / (RtoC r * RtoC r - RtoC z * RtoC z).
Definition ir (r z : R) : C := / RtoC r.

Lemma dtot_q : dtot q (fun r z => - (RtoC 2 * RtoC r * (q r z * q r z))) (fun r z => RtoC 2 * RtoC z * (q r z * q r z)).
Proof.
  unfold q. eapply dtot_eq; [apply (dtot_inv (fun r z => RtoC r * RtoC r - RtoC z * RtoC z))|].
  - exact (dtot_minus _ _ _ _ _ _ (dtot_mult _ _ _ _ _ _ dtot_r dtot_r) (dtot_mult _ _ _ _ _ _ dtot_z dtot_z)).
  - intros r z P B. exact (proj2 (rz_nz r z P B)).
  - intros r z P B. destruct (rz_nz r z P B). split; nums; eC; field; auto.
Qed.
Lemma dtot_ir : dtot ir (fun r z => - (ir r z * ir r z)) (fun _ _ => RtoC 0).
Proof.
  unfold ir. eapply dtot_eq; [apply (dtot_inv (fun r _ => RtoC r)); [apply dtot_r|]|].
  - intros r z P B. exact (proj1 (rz_nz r z P B)).
  - intros r z P B. destruct (rz_nz r z P B). cbv beta. split; eC; field; auto.
Qed.

Section Air.
Variables (h : C) (P00 P01 P10 P11 : R -> R -> C).
Hypothesis H00 : dtot P00 (fun r z => h * (P10 r z - P01 r z)) (fun r z => - (h * (P10 r z + P01 r z))).
Hypothesis H01 : dtot P01 (fun r z => h * (P11 r z - P00 r z) - (RtoC r - RtoC z) * q r z * P01 r z) (fun r z => - (h * (P11 r z + P00 r z)) - (RtoC r - RtoC z) * q r z * P01 r z).
Hypothesis H10 : dtot P10 (fun r z => h * (P00 r z - P11 r z) - (RtoC r + RtoC z) * q r z * P10 r z) (fun r z => - (h * (P00 r z + P11 r z)) + (RtoC r + RtoC z) * q r z * P10 r z).
Hypothesis H11 : dtot P11 (fun r z => h * (P01 r z - P10 r z) - RtoC 2 * RtoC r * q r z * P11 r z) (fun r z => - (h * (P01 r z + P10 r z)) + RtoC 2 * RtoC z * q r z * P11 r z).

Definition vec (c0 c1 c2 c3 : R -> R -> C) (r z : R) : C := c0 r z * P00 r z + c1 r z * P01 r z + c2 r z * P10 r z + c3 r z * P11 r z.

(** derivative of a combination of the products *)
Lemma vec_d : forall c0 c1 c2 c3 R0 R1 R2 R3 Z0 Z1 Z2 Z3 d0 d1 d2 d3 e0 e1 e2 e3, dtot c0 R0 Z0 -> dtot c1 R1 Z1 -> dtot c2 R2 Z2 -> dtot c3 R3 Z3 ->
  (forall r z, (0 < r)%R -> (- r < z < r)%R ->
     R0 r z + h * (c2 r z - c1 r z) = d0 r z /\ R1 r z + h * (c3 r z - c0 r z) - (RtoC r - RtoC z) * q r z * c1 r z = d1 r z /\
     R2 r z + h * (c0 r z - c3 r z) - (RtoC r + RtoC z) * q r z * c2 r z = d2 r z /\ R3 r z + h * (c1 r z - c2 r z) - RtoC 2 * RtoC r * q r z * c3 r z = d3 r z) ->
  (forall r z, (0 < r)%R -> (- r < z < r)%R ->
     Z0 r z - h * (c2 r z + c1 r z) = e0 r z /\ Z1 r z - h * (c3 r z + c0 r z) - (RtoC r - RtoC z) * q r z * c1 r z = e1 r z /\
     Z2 r z - h * (c0 r z + c3 r z) + (RtoC r + RtoC z) * q r z * c2 r z = e2 r z /\ Z3 r z - h * (c1 r z + c2 r z) + RtoC 2 * RtoC z * q r z * c3 r z = e3 r z) ->
  dtot (vec c0 c1 c2 c3) (vec d0 d1 d2 d3) (vec e0 e1 e2 e3).
Proof using H00 H01 H10 H11.
  intros c0 c1 c2 c3 R0 R1 R2 R3 Z0 Z1 Z2 Z3 d0 d1 d2 d3 e0 e1 e2 e3 D0 D1 D2 D3 ER EZ. unfold vec.
  eapply dtot_eq; [apply dtot_plus; [apply dtot_plus; [apply dtot_plus; apply dtot_mult|apply dtot_mult]|apply dtot_mult]; eassumption|].
  intros r z P B. destruct (ER r z P B) as (<- & <- & <- & <-). destruct (EZ r z P B) as (<- & <- & <- & <-). split; eC; ring.
Qed.
Lemma vec_eq : forall c0 c1 c2 c3 d0 d1 d2 d3 r z, c0 r z = d0 r z -> c1 r z = d1 r z -> c2 r z = d2 r z -> c3 r z = d3 r z -> vec c0 c1 c2 c3 r z = vec d0 d1 d2 d3 r z.
Proof using. intros c0 c1 c2 c3 d0 d1 d2 d3 r z E0 E1 E2 E3. unfold vec. now rewrite E0, E1, E2, E3. Qed.

Definition aQ0 (r z : R) : C := RtoC 2 * h * ir r z * ir r z * RtoC z.
Definition aQ1 (r z : R) : C := ir r z * ir r z + ir r z * ir r z * ir r z * RtoC z.
Definition aQ2 (r z : R) : C := ir r z * ir r z + - (ir r z * ir r z * ir r z * RtoC z).
Definition aQ3 (r z : R) : C := - (RtoC 2 * h * ir r z * ir r z * RtoC z).
Definition aS0 (r z : R) : C := - (RtoC 6 * h * ir r z * ir r z * ir r z * ir r z * RtoC z).
Definition aS1 (r z : R) : C := - (RtoC 4 * h * h * ir r z * ir r z * ir r z * RtoC z) + - (RtoC 3 * ir r z * ir r z * ir r z * ir r z) + - (RtoC 3 * ir r z * ir r z * ir r z * ir r z * ir r z * RtoC z).
Definition aS2 (r z : R) : C := RtoC 4 * h * h * ir r z * ir r z * ir r z * RtoC z + - (RtoC 3 * ir r z * ir r z * ir r z * ir r z) + RtoC 3 * ir r z * ir r z * ir r z * ir r z * ir r z * RtoC z.
Definition aS3 (r z : R) : C := RtoC 4 * h * ir r z * ir r z * q r z * RtoC z + RtoC 6 * h * ir r z * ir r z * ir r z * ir r z * RtoC z.
Definition aZ0 (r z : R) : C := RtoC 0.
Definition aZ1 (r z : R) : C := RtoC 0.
Definition aZ2 (r z : R) : C := RtoC 0.
Definition aZ3 (r z : R) : C := - (RtoC 4 * h * q r z).
Definition aT0 (r z : R) : C := RtoC 8 * h * h * h * ir r z * ir r z * ir r z * ir r z * RtoC z + RtoC 30 * h * ir r z * ir r z * ir r z * ir r z * ir r z * ir r z * RtoC z.
Definition aT1 (r z : R) : C := - (RtoC 4 * h * h * ir r z * ir r z * q r z) + RtoC 8 * h * h * ir r z * ir r z * ir r z * q r z * RtoC z + RtoC 4 * h * h * ir r z * ir r z * ir r z * ir r z + RtoC 24 * h * h * ir r z * ir r z * ir r z * ir r z * ir r z * RtoC z + RtoC 15 * ir r z * ir r z * ir r z * ir r z * ir r z * ir r z + RtoC 15 * ir r z * ir r z * ir r z * ir r z * ir r z * ir r z * ir r z * RtoC z.
Definition aT2 (r z : R) : C := - (RtoC 4 * h * h * ir r z * ir r z * q r z) + - (RtoC 8 * h * h * ir r z * ir r z * ir r z * q r z * RtoC z) + RtoC 4 * h * h * ir r z * ir r z * ir r z * ir r z + - (RtoC 24 * h * h * ir r z * ir r z * ir r z * ir r z * ir r z * RtoC z) + RtoC 15 * ir r z * ir r z * ir r z * ir r z * ir r z * ir r z + - (RtoC 15 * ir r z * ir r z * ir r z * ir r z * ir r z * ir r z * ir r z * RtoC z).
Definition aT3 (r z : R) : C := - (RtoC 8 * h * h * h * ir r z * ir r z * ir r z * ir r z * RtoC z) + - (RtoC 16 * h * ir r z * ir r z * q r z * q r z * RtoC z) + - (RtoC 20 * h * ir r z * ir r z * ir r z * ir r z * q r z * RtoC z) + - (RtoC 30 * h * ir r z * ir r z * ir r z * ir r z * ir r z * ir r z * RtoC z).
Definition aW0 (r z : R) : C := RtoC 0.
Definition aW1 (r z : R) : C := - (RtoC 4 * h * h * ir r z * q r z).
Definition aW2 (r z : R) : C := RtoC 4 * h * h * ir r z * q r z.
Definition aW3 (r z : R) : C := RtoC 16 * h * q r z * q r z.
Definition aTR0 (r z : R) : C := - (RtoC 16 * h * h * h * ir r z * ir r z * ir r z * q r z * RtoC z) + - (RtoC 80 * h * h * h * ir r z * ir r z * ir r z * ir r z * ir r z * RtoC z) + - (RtoC 210 * h * ir r z * ir r z * ir r z * ir r z * ir r z * ir r z * ir r z * RtoC z).
Definition aTR1 (r z : R) : C := - (RtoC 16 * h * h * h * h * ir r z * ir r z * ir r z * ir r z * RtoC z) + RtoC 20 * h * h * ir r z * q r z * q r z + - (RtoC 44 * h * h * ir r z * ir r z * q r z * q r z * RtoC z) + RtoC 20 * h * h * ir r z * ir r z * ir r z * q r z + - (RtoC 64 * h * h * ir r z * ir r z * ir r z * ir r z * q r z * RtoC z) + - (RtoC 40 * h * h * ir r z * ir r z * ir r z * ir r z * ir r z) + - (RtoC 180 * h * h * ir r z * ir r z * ir r z * ir r z * ir r z * ir r z * RtoC z) + - (RtoC 105 * ir r z * ir r z * ir r z * ir r z * ir r z * ir r z * ir r z) + - (RtoC 105 * ir r z * ir r z * ir r z * ir r z * ir r z * ir r z * ir r z * ir r z * RtoC z).
Definition aTR2 (r z : R) : C := RtoC 16 * h * h * h * h * ir r z * ir r z * ir r z * ir r z * RtoC z + RtoC 20 * h * h * ir r z * q r z * q r z + RtoC 44 * h * h * ir r z * ir r z * q r z * q r z * RtoC z + RtoC 20 * h * h * ir r z * ir r z * ir r z * q r z + RtoC 64 * h * h * ir r z * ir r z * ir r z * ir r z * q r z * RtoC z + - (RtoC 40 * h * h * ir r z * ir r z * ir r z * ir r z * ir r z) + RtoC 180 * h * h * ir r z * ir r z * ir r z * ir r z * ir r z * ir r z * RtoC z + - (RtoC 105 * ir r z * ir r z * ir r z * ir r z * ir r z * ir r z * ir r z) + RtoC 105 * ir r z * ir r z * ir r z * ir r z * ir r z * ir r z * ir r z * ir r z * RtoC z.
Definition aTR3 (r z : R) : C := RtoC 32 * h * h * h * ir r z * ir r z * ir r z * q r z * RtoC z + RtoC 80 * h * h * h * ir r z * ir r z * ir r z * ir r z * ir r z * RtoC z + RtoC 96 * h * ir r z * q r z * q r z * q r z * RtoC z + RtoC 112 * h * ir r z * ir r z * ir r z * q r z * q r z * RtoC z + RtoC 140 * h * ir r z * ir r z * ir r z * ir r z * ir r z * q r z * RtoC z + RtoC 210 * h * ir r z * ir r z * ir r z * ir r z * ir r z * ir r z * ir r z * RtoC z.
Definition aTz0 (r z : R) : C := RtoC 8 * h * h * h * ir r z * ir r z * q r z.
Definition aTz1 (r z : R) : C := RtoC 28 * h * h * ir r z * q r z * q r z + - (RtoC 4 * h * h * ir r z * ir r z * q r z * q r z * RtoC z) + RtoC 4 * h * h * ir r z * ir r z * ir r z * q r z.
Definition aTz2 (r z : R) : C := - (RtoC 28 * h * h * ir r z * q r z * q r z) + - (RtoC 4 * h * h * ir r z * ir r z * q r z * q r z * RtoC z) + - (RtoC 4 * h * h * ir r z * ir r z * ir r z * q r z).
Definition aTz3 (r z : R) : C := - (RtoC 8 * h * h * h * ir r z * ir r z * q r z) + - (RtoC 96 * h * q r z * q r z * q r z).
Definition aWz0 (r z : R) : C := RtoC 0.
Definition aWz1 (r z : R) : C := - (RtoC 12 * h * h * q r z * q r z) + - (RtoC 12 * h * h * ir r z * q r z * q r z * RtoC z).
Definition aWz2 (r z : R) : C := - (RtoC 12 * h * h * q r z * q r z) + RtoC 12 * h * h * ir r z * q r z * q r z * RtoC z.
Definition aWz3 (r z : R) : C := RtoC 96 * h * q r z * q r z * q r z * RtoC z.
Definition aZz0 (r z : R) : C := RtoC 0.
Definition aZz1 (r z : R) : C := RtoC 4 * h * h * q r z.
Definition aZz2 (r z : R) : C := RtoC 4 * h * h * q r z.
Definition aZz3 (r z : R) : C := - (RtoC 16 * h * q r z * q r z * RtoC z).
Definition aQ := vec (aQ0) (aQ1) (aQ2) (aQ3).
Definition aS := vec (aS0) (aS1) (aS2) (aS3).
Definition aZ := vec (aZ0) (aZ1) (aZ2) (aZ3).
Definition aT := vec (aT0) (aT1) (aT2) (aT3).
Definition aW := vec (aW0) (aW1) (aW2) (aW3).
Definition aTR := vec (aTR0) (aTR1) (aTR2) (aTR3).
Definition aTz := vec (aTz0) (aTz1) (aTz2) (aTz3).
Definition aWz := vec (aWz0) (aWz1) (aWz2) (aWz3).
Definition aZz := vec (aZz0) (aZz1) (aZz2) (aZz3).

Ltac dt := match goal with
  | |- dtot (fun r z => Cplus (@?A r z) (@?B r z)) _ _ => simple refine (dtot_plus A _ _ B _ _ _ _); [shelve|shelve|shelve|shelve|dt|dt]
  | |- dtot (fun r z => Cmult (@?A r z) (@?B r z)) _ _ => simple refine (dtot_mult A _ _ B _ _ _ _); [shelve|shelve|shelve|shelve|dt|dt]
  | |- dtot (fun r z => Copp (@?A r z)) _ _ => simple refine (dtot_opp A _ _ _); [shelve|shelve|dt]
  | |- dtot (fun r z => q r z) _ _ => exact dtot_q
  | |- dtot (fun r z => ir r z) _ _ => exact dtot_ir
  | |- dtot (fun r z => ?c) _ _ => exact (dtot_const c)
  | |- dtot (fun r z => RtoC r) _ _ => exact dtot_r
  | |- dtot (fun r z => RtoC z) _ _ => exact dtot_z
  end.
Ltac fin := cbv beta; unfold q, ir; nums; eC; first [ring | field; split; assumption | field; assumption].
Ltac dfin := let r := fresh "r" in let z := fresh "z" in let P := fresh in let B := fresh in let N1 := fresh "N" in let N2 := fresh "N" in
  intros r z P B; destruct (rz_nz r z P B) as [N1 N2]; split; [|split; [|split]]; fin.

Definition rm0 (F : R -> R -> C) (r z : R) : C := RtoC r * F r z.
Lemma vec_r : forall c0 c1 c2 c3 r z, vec (rm0 c0) (rm0 c1) (rm0 c2) (rm0 c3) r z = RtoC r * vec c0 c1 c2 c3 r z.
Proof using. intros. unfold vec, rm0. ring. Qed.

Lemma aQ_d : dtot aQ (vec (rm0 aS0) (rm0 aS1) (rm0 aS2) (rm0 aS3)) aZ.
Proof using H00 H01 H10 H11. unfold aQ, aZ. eapply vec_d; unfold aQ0, aQ1, aQ2, aQ3, aZ0, aZ1, aZ2, aZ3, rm0, aS0, aS1, aS2, aS3; [dt|dt|dt|dt|dfin|dfin]. Qed.
Lemma aZ_d : dtot aZ (vec (rm0 aW0) (rm0 aW1) (rm0 aW2) (rm0 aW3)) aZz.
Proof using H00 H01 H10 H11. unfold aZ, aZz. eapply vec_d; unfold aZ0, aZ1, aZ2, aZ3, aZz0, aZz1, aZz2, aZz3, rm0, aW0, aW1, aW2, aW3; [dt|dt|dt|dt|dfin|dfin]. Qed.
Lemma aS_d : dtot aS (vec (rm0 aT0) (rm0 aT1) (rm0 aT2) (rm0 aT3)) aW.
Proof using H00 H01 H10 H11. unfold aS, aW. eapply vec_d; unfold aS0, aS1, aS2, aS3, aW0, aW1, aW2, aW3, rm0, aT0, aT1, aT2, aT3; [dt|dt|dt|dt|dfin|dfin]. Qed.
Lemma aW_d : dtot aW (vec (rm0 aTz0) (rm0 aTz1) (rm0 aTz2) (rm0 aTz3)) aWz.
Proof using H00 H01 H10 H11. unfold aW, aWz. eapply vec_d; unfold aW0, aW1, aW2, aW3, aWz0, aWz1, aWz2, aWz3, rm0, aTz0, aTz1, aTz2, aTz3; [dt|dt|dt|dt|dfin|dfin]. Qed.
Lemma aT_d : dtot aT aTR aTz.
Proof using H00 H01 H10 H11. unfold aT, aTR, aTz. eapply vec_d; unfold aT0, aT1, aT2, aT3, aTR0, aTR1, aTR2, aTR3, aTz0, aTz1, aTz2, aTz3; [dt|dt|dt|dt|dfin|dfin]. Qed.

Theorem air_solves : forall b, (1 <= b <= 2)%Z ->
  curlcurl_is (te_field aS aQ b) (fun a x y z => - te_field (fun r z => RtoC 4 * (h * h) * aS r z) (fun r z => RtoC 4 * (h * h) * aQ r z) b a x y z) off_z.
Proof using H00 H01 H10 H11.
  refine (te_solves aS aQ aZ aT aW aTR aTz (fun r z => RtoC r * aTz r z) aWz (fun r z => RtoC r * aW r z) aZz _ _ _ _ aT_d _ _ _ _ _ _).
  - apply (dtot_eq _ _ _ _ _ aQ_d). intros r z P B. split; [apply vec_r|reflexivity].
  - apply (dtot_eq _ _ _ _ _ aS_d). intros r z P B. split; [apply vec_r|reflexivity].
  - apply (dtot_eq _ _ _ _ _ aW_d). intros r z P B. split; [apply vec_r|reflexivity].
  - apply (dtot_eq _ _ _ _ _ aZ_d). intros r z P B. split; [apply vec_r|reflexivity].
  - reflexivity.
  - reflexivity.
  - intros r z P B. destruct (rz_nz r z P B) as [N1 N2]. unfold aT, aTR, aTz, aWz, aS, vec.
    assert (E0 : RtoC 7 * aT0 r z + RtoC r * aTR0 r z + RtoC z * aTz0 r z + RtoC z * aTz0 r z + aWz0 r z = RtoC 4 * (h * h) * aS0 r z) by (unfold aT0, aTR0, aTz0, aWz0, aS0; fin).
    assert (E1 : RtoC 7 * aT1 r z + RtoC r * aTR1 r z + RtoC z * aTz1 r z + RtoC z * aTz1 r z + aWz1 r z = RtoC 4 * (h * h) * aS1 r z) by (unfold aT1, aTR1, aTz1, aWz1, aS1; fin).
    assert (E2 : RtoC 7 * aT2 r z + RtoC r * aTR2 r z + RtoC z * aTz2 r z + RtoC z * aTz2 r z + aWz2 r z = RtoC 4 * (h * h) * aS2 r z) by (unfold aT2, aTR2, aTz2, aWz2, aS2; fin).
    assert (E3 : RtoC 7 * aT3 r z + RtoC r * aTR3 r z + RtoC z * aTz3 r z + RtoC z * aTz3 r z + aWz3 r z = RtoC 4 * (h * h) * aS3 r z) by (unfold aT3, aTR3, aTz3, aWz3, aS3; fin).
    etransitivity; [|etransitivity; [exact (f_equal2 Cplus (f_equal2 Cplus (f_equal2 Cplus (f_equal (fun u => u * P00 r z) E0) (f_equal (fun u => u * P01 r z) E1)) (f_equal (fun u => u * P10 r z) E2)) (f_equal (fun u => u * P11 r z) E3))|]]; cbv beta; [eC; field; exact N1|eC; ring].
  - intros r z P B. destruct (rz_nz r z P B) as [N1 N2]. unfold aT, aW, aZz, aS, aQ, vec.
    assert (E0 : RtoC 5 * aS0 r z + RtoC r * RtoC r * aT0 r z + RtoC z * aW0 r z + RtoC z * aW0 r z + aZz0 r z = RtoC 4 * (h * h) * aQ0 r z) by (unfold aT0, aS0, aW0, aZz0, aQ0; fin).
    assert (E1 : RtoC 5 * aS1 r z + RtoC r * RtoC r * aT1 r z + RtoC z * aW1 r z + RtoC z * aW1 r z + aZz1 r z = RtoC 4 * (h * h) * aQ1 r z) by (unfold aT1, aS1, aW1, aZz1, aQ1; fin).
    assert (E2 : RtoC 5 * aS2 r z + RtoC r * RtoC r * aT2 r z + RtoC z * aW2 r z + RtoC z * aW2 r z + aZz2 r z = RtoC 4 * (h * h) * aQ2 r z) by (unfold aT2, aS2, aW2, aZz2, aQ2; fin).
    assert (E3 : RtoC 5 * aS3 r z + RtoC r * RtoC r * aT3 r z + RtoC z * aW3 r z + RtoC z * aW3 r z + aZz3 r z = RtoC 4 * (h * h) * aQ3 r z) by (unfold aT3, aS3, aW3, aZz3, aQ3; fin).
    etransitivity; [|etransitivity; [exact (f_equal2 Cplus (f_equal2 Cplus (f_equal2 Cplus (f_equal (fun u => u * P00 r z) E0) (f_equal (fun u => u * P01 r z) E1)) (f_equal (fun u => u * P10 r z) E2)) (f_equal (fun u => u * P11 r z) E3))|]]; cbv beta; [eC; field; exact N1|eC; ring].
Qed.
End Air.
