(** The airwave of the impulse response solves the source-free diffusive Maxwell equations:
    a Gaussian in depth times scaled Bessel functions of the squared offset. *)

From Coq Require Import ZArith Reals List Bool Lia Lra Psatz.
From Coquelicot Require Import Coquelicot.
From Verif Require Import PyBase CBase ODE FullspaceMaxwell HalfspaceDc HalfspaceZero WaveField WaveField2 WaveField3 HalfspaceAir.
Import ListNotations.
Local Open Scope R_scope.
Local Open Scope C_scope.

Section Imp.
Variables (m : C) (V0 V1 : R -> R -> C).
Hypothesis D0 : dtot V0 (fun r z => m * RtoC r * (V1 r z - V0 r z)) (fun r z => - (RtoC 2 * m * RtoC z * V0 r z) - m * RtoC z * (V1 r z - V0 r z)).
Hypothesis D1 : dtot V1 (fun r z => m * RtoC r * (V0 r z - V1 r z) - RtoC 2 * RtoC r * q r z * V1 r z) (fun r z => - (RtoC 2 * m * RtoC z * V1 r z) - m * RtoC z * (V0 r z - V1 r z) + RtoC 2 * RtoC z * q r z * V1 r z).
Definition vec2 (c0 c1 : R -> R -> C) (r z : R) : C := c0 r z * V0 r z + c1 r z * V1 r z.
Lemma vec2_d : forall c0 c1 R0 R1 Z0 Z1 d0 d1 e0 e1, dtot c0 R0 Z0 -> dtot c1 R1 Z1 ->
  (forall r z, (0 < r)%R -> (- r < z < r)%R -> R0 r z + m * RtoC r * (c1 r z - c0 r z) = d0 r z /\ R1 r z + m * RtoC r * (c0 r z - c1 r z) - RtoC 2 * RtoC r * q r z * c1 r z = d1 r z) ->
  (forall r z, (0 < r)%R -> (- r < z < r)%R -> Z0 r z - RtoC 2 * m * RtoC z * c0 r z - m * RtoC z * (c1 r z - c0 r z) = e0 r z /\
     Z1 r z - RtoC 2 * m * RtoC z * c1 r z - m * RtoC z * (c0 r z - c1 r z) + RtoC 2 * RtoC z * q r z * c1 r z = e1 r z) ->
  dtot (vec2 c0 c1) (vec2 d0 d1) (vec2 e0 e1).
Proof using D0 D1.
  intros c0 c1 R0 R1 Z0 Z1 d0 d1 e0 e1 C0 C1 ER EZ. unfold vec2.
  apply (dtot_eq _ _ _ _ _ (dtot_plus _ _ _ _ _ _ (dtot_mult _ _ _ _ _ _ C0 D0) (dtot_mult _ _ _ _ _ _ C1 D1))).
  intros r z P B. destruct (ER r z P B) as (<- & <-). destruct (EZ r z P B) as (<- & <-). cbv beta. split; eC; ring.
Qed.
Definition iQ0 (r z : R) : C := RtoC z.
Definition iQ1 (r z : R) : C := - (RtoC z).
Definition iS0 (r z : R) : C := - (RtoC 2 * m * RtoC z).
Definition iS1 (r z : R) : C := RtoC 2 * m * RtoC z + RtoC 2 * q r z * RtoC z.
Definition iZ0 (r z : R) : C := RtoC 1.
Definition iZ1 (r z : R) : C := - (RtoC 1) + - (RtoC 2 * q r z * RtoC z * RtoC z).
Definition iT0 (r z : R) : C := RtoC 4 * m * m * RtoC z + RtoC 2 * m * q r z * RtoC z.
Definition iT1 (r z : R) : C := - (RtoC 4 * m * m * RtoC z) + - (RtoC 6 * m * q r z * RtoC z) + - (RtoC 8 * q r z * q r z * RtoC z).
Definition iW0 (r z : R) : C := - (RtoC 2 * m) + - (RtoC 2 * m * q r z * RtoC z * RtoC z).
Definition iW1 (r z : R) : C := RtoC 2 * m + RtoC 2 * m * q r z * RtoC z * RtoC z + RtoC 2 * q r z + RtoC 8 * q r z * q r z * RtoC z * RtoC z.
Definition iTu0 (r z : R) : C := - (RtoC 8 * m * m * m * RtoC z) + - (RtoC 8 * m * m * q r z * RtoC z) + - (RtoC 12 * m * q r z * q r z * RtoC z).
Definition iTu1 (r z : R) : C := RtoC 8 * m * m * m * RtoC z + RtoC 16 * m * m * q r z * RtoC z + RtoC 32 * m * q r z * q r z * RtoC z + RtoC 48 * q r z * q r z * q r z * RtoC z.
Definition iTz0 (r z : R) : C := RtoC 4 * m * m + RtoC 4 * m * m * q r z * RtoC z * RtoC z + RtoC 2 * m * q r z + RtoC 12 * m * q r z * q r z * RtoC z * RtoC z.
Definition iTz1 (r z : R) : C := - (RtoC 4 * m * m) + - (RtoC 4 * m * m * q r z * RtoC z * RtoC z) + - (RtoC 6 * m * q r z) + - (RtoC 16 * m * q r z * q r z * RtoC z * RtoC z) + - (RtoC 8 * q r z * q r z) + - (RtoC 48 * q r z * q r z * q r z * RtoC z * RtoC z).
Definition iWz0 (r z : R) : C := - (RtoC 6 * m * q r z * RtoC z) + - (RtoC 12 * m * q r z * q r z * RtoC z * RtoC z * RtoC z).
Definition iWz1 (r z : R) : C := RtoC 6 * m * q r z * RtoC z + RtoC 24 * q r z * q r z * RtoC z + RtoC 48 * q r z * q r z * q r z * RtoC z * RtoC z * RtoC z.
Definition iZz0 (r z : R) : C := RtoC 2 * m * q r z * RtoC z * RtoC z * RtoC z.
Definition iZz1 (r z : R) : C := RtoC 2 * m * q r z * RtoC z * RtoC z * RtoC z + - (RtoC 6 * q r z * RtoC z) + - (RtoC 8 * q r z * q r z * RtoC z * RtoC z * RtoC z).
Definition iKQ0 (r z : R) : C := RtoC 4 * m * m * (RtoC r * RtoC r - RtoC z * RtoC z) * RtoC z + RtoC 4 * m * m * RtoC z * RtoC z * RtoC z + - (RtoC 12 * m * RtoC z).
Definition iKQ1 (r z : R) : C := - (RtoC 4 * m * m * (RtoC r * RtoC r - RtoC z * RtoC z) * RtoC z) + - (RtoC 4 * m * m * RtoC z * RtoC z * RtoC z) + RtoC 8 * m * RtoC z.
Definition iKS0 (r z : R) : C := - (RtoC 8 * m * m * m * (RtoC r * RtoC r - RtoC z * RtoC z) * RtoC z) + - (RtoC 8 * m * m * m * RtoC z * RtoC z * RtoC z) + RtoC 28 * m * m * RtoC z.
Definition iKS1 (r z : R) : C := RtoC 8 * m * m * m * (RtoC r * RtoC r - RtoC z * RtoC z) * RtoC z + RtoC 8 * m * m * m * RtoC z * RtoC z * RtoC z + - (RtoC 20 * m * m * RtoC z) + RtoC 8 * m * m * q r z * RtoC z * RtoC z * RtoC z + - (RtoC 16 * m * q r z * RtoC z).
Definition iQ := vec2 iQ0 iQ1.
Definition iS := vec2 iS0 iS1.
Definition iZ := vec2 iZ0 iZ1.
Definition iT := vec2 iT0 iT1.
Definition iW := vec2 iW0 iW1.
Definition iTu := vec2 iTu0 iTu1.
Definition iTz := vec2 iTz0 iTz1.
Definition iWz := vec2 iWz0 iWz1.
Definition iZz := vec2 iZz0 iZz1.
Definition iKQ := vec2 iKQ0 iKQ1.
Definition iKS := vec2 iKS0 iKS1.

Ltac dt := match goal with
  | |- dtot (fun r z => Cplus (@?A r z) (@?B r z)) _ _ => simple refine (dtot_plus A _ _ B _ _ _ _); [shelve|shelve|shelve|shelve|dt|dt]
  | |- dtot (fun r z => Cmult (@?A r z) (@?B r z)) _ _ => simple refine (dtot_mult A _ _ B _ _ _ _); [shelve|shelve|shelve|shelve|dt|dt]
  | |- dtot (fun r z => Copp (@?A r z)) _ _ => simple refine (dtot_opp A _ _ _); [shelve|shelve|dt]
  | |- dtot (fun r z => q r z) _ _ => exact dtot_q
  | |- dtot (fun r z => ir r z) _ _ => exact dtot_ir
  | |- dtot (fun r z => ?c) _ _ => exact (dtot_const c)
  | |- dtot (fun r z => RtoC r) _ _ => exact dtot_r
  | |- dtot (fun r z => RtoC z) _ _ => exact dtot_z
  end.
Ltac fin := cbv beta; unfold q, ir; nums; eC; first [ring | field; split; assumption | field; assumption].

Ltac dfin2 := let r := fresh "r" in let z := fresh "z" in let P := fresh in let B := fresh in let N1 := fresh "N" in let N2 := fresh "N" in
  intros r z P B; destruct (rz_nz r z P B) as [N1 N2]; split; fin.

Definition rm0 (F : R -> R -> C) (r z : R) : C := RtoC r * F r z.
Lemma vec2_r : forall c0 c1 r z, vec2 (rm0 c0) (rm0 c1) r z = RtoC r * vec2 c0 c1 r z.
Proof using. intros. unfold vec2, rm0. ring. Qed.
Lemma iQ_d : dtot iQ (vec2 (rm0 iS0) (rm0 iS1)) iZ.
Proof using D0 D1. unfold iQ, iZ. eapply vec2_d; unfold rm0, iQ0, iQ1, iS0, iS1, iZ0, iZ1; [dt|dt|dfin2|dfin2]. Qed.
Lemma iZ_d : dtot iZ (vec2 (rm0 iW0) (rm0 iW1)) iZz.
Proof using D0 D1. unfold iZ, iZz. eapply vec2_d; unfold rm0, iZ0, iZ1, iW0, iW1, iZz0, iZz1; [dt|dt|dfin2|dfin2]. Qed.
Lemma iS_d : dtot iS (vec2 (rm0 iT0) (rm0 iT1)) iW.
Proof using D0 D1. unfold iS, iW. eapply vec2_d; unfold rm0, iS0, iS1, iT0, iT1, iW0, iW1; [dt|dt|dfin2|dfin2]. Qed.
Lemma iW_d : dtot iW (vec2 (rm0 iTz0) (rm0 iTz1)) iWz.
Proof using D0 D1. unfold iW, iWz. eapply vec2_d; unfold rm0, iW0, iW1, iTz0, iTz1, iWz0, iWz1; [dt|dt|dfin2|dfin2]. Qed.
Lemma iT_d : dtot iT (vec2 (rm0 iTu0) (rm0 iTu1)) iTz.
Proof using D0 D1. unfold iT, iTz. eapply vec2_d; unfold rm0, iT0, iT1, iTu0, iTu1, iTz0, iTz1; [dt|dt|dfin2|dfin2]. Qed.

Theorem imp_solves : forall b, (1 <= b <= 2)%Z ->
  curlcurl_is (te_field iS iQ b) (fun a x y z => - te_field iKS iKQ b a x y z) off_z.
Proof using D0 D1.
  refine (te_solves iS iQ iZ iT iW (fun r z => RtoC r * iTu r z) iTz (fun r z => RtoC r * iTz r z) iWz (fun r z => RtoC r * iW r z) iZz _ _ _ _ _ _ _ _ _ _ _).
  - apply (dtot_eq _ _ _ _ _ iQ_d). intros r z P B. split; [apply vec2_r|reflexivity].
  - apply (dtot_eq _ _ _ _ _ iS_d). intros r z P B. split; [apply vec2_r|reflexivity].
  - apply (dtot_eq _ _ _ _ _ iT_d). intros r z P B. split; [apply vec2_r|reflexivity].
  - apply (dtot_eq _ _ _ _ _ iW_d). intros r z P B. split; [apply vec2_r|reflexivity].
  - apply (dtot_eq _ _ _ _ _ iZ_d). intros r z P B. split; [apply vec2_r|reflexivity].
  - reflexivity.
  - reflexivity.
  - intros r z P B. destruct (rz_nz r z P B) as [N1 N2]. unfold iT, iTu, iTz, iWz, iKS, vec2.
    assert (E0 : RtoC 7 * iT0 r z + RtoC r * RtoC r * iTu0 r z + RtoC 2 * RtoC z * iTz0 r z + iWz0 r z = iKS0 r z) by (unfold iT0, iTu0, iTz0, iWz0, iKS0; fin).
    assert (E1 : RtoC 7 * iT1 r z + RtoC r * RtoC r * iTu1 r z + RtoC 2 * RtoC z * iTz1 r z + iWz1 r z = iKS1 r z) by (unfold iT1, iTu1, iTz1, iWz1, iKS1; fin).
    rewrite <- E0, <- E1. replace (RtoC 2) with (RtoC 1 + RtoC 1) by (symmetry; apply t2s). eC. field. exact N1.
  - intros r z P B. destruct (rz_nz r z P B) as [N1 N2]. unfold iT, iW, iZz, iS, iKQ, vec2.
    assert (E0 : RtoC 5 * iS0 r z + RtoC r * RtoC r * iT0 r z + RtoC 2 * RtoC z * iW0 r z + iZz0 r z = iKQ0 r z) by (unfold iT0, iS0, iW0, iZz0, iKQ0; fin).
    assert (E1 : RtoC 5 * iS1 r z + RtoC r * RtoC r * iT1 r z + RtoC 2 * RtoC z * iW1 r z + iZz1 r z = iKQ1 r z) by (unfold iT1, iS1, iW1, iZz1, iKQ1; fin).
    rewrite <- E0, <- E1. replace (RtoC 2) with (RtoC 1 + RtoC 1) by (symmetry; apply t2s). eC. field. exact N1.
Qed.
End Imp.
