(** curl curl of the transverse electric fields, of the transverse magnetic fields and
    of the field of a vertical source *)

From Coq Require Import ZArith Reals List Bool Lia Lra Psatz.
From Coquelicot Require Import Coquelicot.
From Verif Require Import PyBase CBase ODE FullspaceMaxwell FullspaceField HalfspaceZero WaveField.
Import ListNotations.
Local Open Scope R_scope.
Local Open Scope C_scope.

Definition sel (b : bool) : R := if b then 1%R else 0%R.
(** rho^2 d_ab - x_a x_b *)
Definition te_al (a b : Z) := sel ((a =? 2) && (b =? 2))%Z.
Definition te_be (a b : Z) := (- sel (negb (a =? b)%Z))%R.
Definition te_ga (a b : Z) := sel ((a =? 1) && (b =? 1))%Z.
(** x_a x_b *)
Definition tm_al (a b : Z) := sel ((a =? 1) && (b =? 1))%Z.
Definition tm_be (a b : Z) := sel (negb (a =? b)%Z).
Definition tm_ga (a b : Z) := sel ((a =? 2) && (b =? 2))%Z.

Definition te_field (S Q : R -> R -> C) (b a : Z) (x y z : R) : C :=
  if (a =? 3)%Z then RtoC 0 else qf 1 S Q (te_al a b) (te_be a b) (te_ga a b) (ij a b) x y z.
Definition tm_field (lam : R) (S Q U : R -> R -> C) (b a : Z) (x y z : R) : C :=
  if (a =? 3)%Z then RtoC ((if (b =? 1)%Z then x else y) * (lam * lam * z)) * at_p lam U x y z
  else qf lam S Q (tm_al a b) (tm_be a b) (tm_ga a b) (ij a b) x y z.
Definition tv_field (lam : R) (U N : R -> R -> C) (a : Z) (x y z : R) : C :=
  if (a =? 3)%Z then RtoC (lam * lam * z * (lam * lam * z)) * at_p lam U x y z + RtoC (lam * lam) * at_p lam N x y z
  else RtoC ((if (a =? 1)%Z then x else y) * (lam * lam * z)) * at_p lam U x y z.

Lemma s0 : sel false = 0%R. Proof. reflexivity. Qed.
Lemma s1 : sel true = 1%R. Proof. reflexivity. Qed.

Lemma lin3 : forall l r c1 e1 c2 e2 c3 e3 : C, e1 = RtoC 0 -> e2 = RtoC 0 -> e3 = RtoC 0 -> l = r + c1 * e1 + c2 * e2 + c3 * e3 -> l = r.
Proof. intros l r c1 e1 c2 e2 c3 e3 -> -> -> ->. ring. Qed.

Section TE.
Variables (S Q Z T W TR Tz WR Wz ZR Zz KS KQ : R -> R -> C).
Hypothesis HQ : dtot Q (fun r z => RtoC r * S r z) Z.
Hypothesis HS : dtot S (fun r z => RtoC r * T r z) W.
Hypothesis HT : dtot T TR Tz.
Hypothesis HW : dtot W WR Wz.
Hypothesis HZ : dtot Z ZR Zz.
(** mixed derivatives *)
Hypothesis MZ : forall r z, (0 < r)%R -> (- r < z < r)%R -> ZR r z = RtoC r * W r z.
Hypothesis MW : forall r z, (0 < r)%R -> (- r < z < r)%R -> WR r z = RtoC r * Tz r z.
Hypothesis CS : forall r z, (0 < r)%R -> (- r < z < r)%R -> RtoC 7 * T r z + RtoC r * TR r z + RtoC z * Tz r z + RtoC z * / RtoC r * WR r z + Wz r z = KS r z.
Hypothesis CQ : forall r z, (0 < r)%R -> (- r < z < r)%R -> RtoC 5 * S r z + RtoC r * RtoC r * T r z + RtoC z * W r z + RtoC z * / RtoC r * ZR r z + Zz r z = KQ r z.

Theorem te_solves : forall b, (1 <= b <= 2)%Z ->
  curlcurl_is (te_field S Q b) (fun a x y z => - te_field KS KQ b a x y z) off_z.
Proof using All.
  intros b Hb.
  exists (fun i a x y z => if (a =? 3)%Z then RtoC 0 else qf1 1 S Z T W (te_al a b) (te_be a b) (te_ga a b) (ij a b) i x y z).
  exists (fun j i a x y z => if (a =? 3)%Z then RtoC 0 else qf2 1 S T W TR Tz WR Wz ZR Zz (te_al a b) (te_be a b) (te_ga a b) (ij a b) j i x y z).
  intros x y z Ho. split; [|split].
  - intros i a Hi Ha. unfold te_field. destruct (a =? 3)%Z; [apply pd_const|]. now apply (qf_d1 1 S Q Z T W).
  - intros i j a Hi Hj Ha. destruct (a =? 3)%Z; [apply pd_const|]. now apply (qf_d2 1 S Q Z T W TR Tz WR Wz ZR Zz).
  - intros a Ha. destruct (dist_facts 1 x y z Ho) as (P & B & E).
    specialize (CS _ _ P B). specialize (CQ _ _ P B). specialize (MZ _ _ P B). specialize (MW _ _ P B). rewrite MW in CS. rewrite MZ in CQ.
    unfold te_field, qf2, qf, at_p. rewrite <- CS, <- CQ, MZ, MW. clear CS CQ MZ MW.
    assert (RN : RtoC (dist 1 x y z) <> RtoC 0) by (apply HalfspaceDc.RC_neq; lra).
    assert (EC : RtoC (dist 1 x y z) * RtoC (dist 1 x y z) = RtoC x * RtoC x + RtoC y * RtoC y + RtoC z * RtoC z) by (rewrite <- !RtoC_mult, E; rewrite <- !RtoC_plus; f_equal; ring).
    generalize (S (dist 1 x y z) (1 * z)%R) (T (dist 1 x y z) (1 * z)%R) (W (dist 1 x y z) (1 * z)%R) (TR (dist 1 x y z) (1 * z)%R) (Tz (dist 1 x y z) (1 * z)%R) (Wz (dist 1 x y z) (1 * z)%R) (Zz (dist 1 x y z) (1 * z)%R).
    intros vS vT vW vTR vTz vWz vZz. clear HQ HS HT HW HZ B P E. replace (1 * z)%R with z by ring.
    assert (ET : RtoC (dist 1 x y z) * vTR = (RtoC x * RtoC x + RtoC y * RtoC y + RtoC z * RtoC z) * Cinv (RtoC (dist 1 x y z)) * vTR) by (rewrite <- EC; feC; exact RN).
    assert (RR : forall u v : C, u * / RtoC (dist 1 x y z) * (RtoC (dist 1 x y z) * v) = u * v) by (intros; feC; exact RN).
    rewrite !RR, ET, EC. clear ET EC RR. generalize (/ RtoC (dist 1 x y z)). intros ri.
    assert (Bb : b = 1%Z \/ b = 2%Z) by lia. destruct Bb as [-> | ->]; destruct (three a Ha) as [-> | [-> | ->]];
      unfold te_al, te_be, te_ga, ij, qij, qi, qp, xs, i3, mm; cbn [Z.eqb Pos.eqb andb negb orb sel];
      repeat first [rewrite RtoC_plus | rewrite RtoC_mult | rewrite RtoC_opp]; num; eC; ring.
Qed.
End TE.

Section TM.
Variables (lam : R) (S Q Z T W TR Tz WR Wz ZR Zz KS KQ U Ut Ur KU : R -> R -> C).
Hypothesis HQ : dtot Q (fun r z => RtoC r * S r z) Z.
Hypothesis HS : dtot S (fun r z => RtoC r * T r z) W.
Hypothesis HT : dtot T TR Tz.
Hypothesis HW : dtot W WR Wz.
Hypothesis HZ : dtot Z ZR Zz.
Hypothesis HU : dtot U (fun r z => RtoC r * Ut r z) (fun _ _ => RtoC 0).
Hypothesis HUt : dtot Ut Ur (fun _ _ => RtoC 0).
(** mixed derivatives *)
Hypothesis MZ : forall r z, (0 < r)%R -> (- r < z < r)%R -> ZR r z = RtoC r * W r z.
Hypothesis MW : forall r z, (0 < r)%R -> (- r < z < r)%R -> WR r z = RtoC r * Tz r z.
Hypothesis CS : forall r z, (0 < r)%R -> (- r < z < r)%R -> RtoC 7 * T r z + RtoC r * TR r z + RtoC z * Tz r z + RtoC z * / RtoC r * WR r z + Wz r z = KS r z.
Hypothesis CQ : forall r z, (0 < r)%R -> (- r < z < r)%R -> RtoC 5 * S r z + RtoC r * RtoC r * T r z + RtoC z * W r z + RtoC z * / RtoC r * ZR r z + Zz r z = KQ r z.
Hypothesis CU : forall r z, (0 < r)%R -> (- r < z < r)%R -> RtoC 7 * Ut r z + RtoC r * Ur r z = KU r z.
(** divergence, and its derivatives *)
Hypothesis DV : forall r z, (0 < r)%R -> (- r < z < r)%R -> U r z + RtoC z * RtoC z * Ut r z + RtoC 4 * S r z + (RtoC r * RtoC r - RtoC z * RtoC z) * T r z = RtoC 0.
Hypothesis DVr : forall r z, (0 < r)%R -> (- r < z < r)%R -> Ut r z + RtoC z * RtoC z * / RtoC r * Ur r z + RtoC 4 * T r z + RtoC 2 * T r z + (RtoC r - RtoC z * RtoC z * / RtoC r) * TR r z = RtoC 0.
Hypothesis DVz : forall r z, (0 < r)%R -> (- r < z < r)%R -> RtoC 2 * RtoC z * Ut r z + RtoC 4 * W r z - RtoC 2 * RtoC z * T r z + (RtoC r * RtoC r - RtoC z * RtoC z) * Tz r z = RtoC 0.

Let xb (b : BinNums.Z) (x y : R) : R := if (b =? 1)%Z then x else y.
Let pb (b : BinNums.Z) (x y z : R) : R := (xb b x y * (lam * lam * z))%R.
Let pbi (b i : BinNums.Z) (x y z : R) : R := (ij i b * (lam * lam * z) + xb b x y * (ij i 3 * (lam * lam)))%R.
Let pbij (b i j : BinNums.Z) : R := (ij i b * (ij j 3 * (lam * lam)) + ij j b * (ij i 3 * (lam * lam)))%R.

Lemma pb_d : forall b i x y z, (1 <= b <= 2)%Z -> (1 <= i <= 3)%Z -> pdR i (pb b) x y z (pbi b i x y z).
Proof using.
  intros b i x y z Hb Hi. assert (Bb : b = 1%Z \/ b = 2%Z) by lia. unfold pb, pbi, xb, ij. destruct Bb as [-> | ->]; destruct (three i Hi) as [-> | [-> | ->]]; cbn [Z.eqb Pos.eqb]; pdR_tac.
Qed.
Lemma pbi_d : forall b i j x y z, (1 <= b <= 2)%Z -> (1 <= i <= 3)%Z -> (1 <= j <= 3)%Z -> pdR j (pbi b i) x y z (pbij b i j).
Proof using.
  intros b i j x y z Hb Hi Hj. assert (Bb : b = 1%Z \/ b = 2%Z) by lia. unfold pbi, pbij, xb, ij. destruct Bb as [-> | ->]; destruct (three i Hi) as [-> | [-> | ->]]; destruct (three j Hj) as [-> | [-> | ->]]; cbn [Z.eqb Pos.eqb]; pdR_tac.
Qed.

Let e31 (b i : BinNums.Z) (x y z : R) : C := RtoC (pbi b i x y z) * at_p lam U x y z + RtoC (pb b x y z) * (RtoC (xs lam i x y z) * at_p lam Ut x y z).
Let e32 (b j i : BinNums.Z) (x y z : R) : C :=
  RtoC (pbij b i j) * at_p lam U x y z + RtoC (pbi b i x y z) * (RtoC (xs lam j x y z) * at_p lam Ut x y z)
  + RtoC (pbi b j x y z) * (RtoC (xs lam i x y z) * at_p lam Ut x y z)
  + RtoC (pb b x y z) * (RtoC (ij i j * mm lam i) * at_p lam Ut x y z + RtoC (xs lam i x y z) * (RtoC (xs lam j x y z) * / RtoC (dist lam x y z) * at_p lam Ur x y z)).

Lemma pU : forall i x y z, off_z x y z -> (1 <= i <= 3)%Z -> pd i (at_p lam U) x y z (RtoC (xs lam i x y z) * at_p lam Ut x y z).
Proof using HU.
  intros i x y z Ho Hi. destruct (dist_facts lam x y z Ho) as (P & _). eapply pd_eq; [exact (pd_at lam U _ _ i x y z HU Ho Hi)|]. unfold at_p. cbv beta. eC. field. apply HalfspaceDc.RC_neq; lra.
Qed.
Lemma e3_d1 : forall b i x y z, (1 <= b <= 2)%Z -> off_z x y z -> (1 <= i <= 3)%Z -> pd i (fun x y z => RtoC (pb b x y z) * at_p lam U x y z) x y z (e31 b i x y z).
Proof using HU.
  intros b i x y z Hb Ho Hi. eapply pd_eq; [apply (pd_mult i (fun x y z => RtoC (pb b x y z)) (at_p lam U)); [apply pd_R, pb_d; assumption|now apply pU]|]. reflexivity.
Qed.
Lemma e3_d2 : forall b i j x y z, (1 <= b <= 2)%Z -> off_z x y z -> (1 <= i <= 3)%Z -> (1 <= j <= 3)%Z -> pd j (e31 b i) x y z (e32 b j i x y z).
Proof using HU HUt.
  intros b i j x y z Hb Ho Hi Hj. unfold e31. eapply pd_eq; [apply (pd_plus j (fun x y z => RtoC (pbi b i x y z) * at_p lam U x y z) (fun x y z => RtoC (pb b x y z) * (RtoC (xs lam i x y z) * at_p lam Ut x y z)))|].
  - apply (pd_mult j (fun x y z => RtoC (pbi b i x y z)) (at_p lam U)); [apply pd_R, pbi_d; assumption|now apply pU].
  - apply (pd_mult j (fun x y z => RtoC (pb b x y z)) (fun x y z => RtoC (xs lam i x y z) * at_p lam Ut x y z)); [apply pd_R, pb_d; assumption|].
    apply (pd_mult j (fun x y z => RtoC (xs lam i x y z)) (at_p lam Ut)); [apply pd_R, xs_d; assumption|]. exact (pd_at lam Ut _ _ j x y z HUt Ho Hj).
  - unfold e32, at_p. eC. ring.
Qed.

Theorem tm_solves : forall b, (1 <= b <= 2)%Z ->
  curlcurl_is (tm_field lam S Q U b) (fun a x y z => - (RtoC (if (a =? 3)%Z then 1 else lam * lam) * tm_field lam KS KQ KU b a x y z)) off_z.
Proof using All.
  intros b Hb.
  exists (fun i a x y z => if (a =? 3)%Z then e31 b i x y z else qf1 lam S Z T W (tm_al a b) (tm_be a b) (tm_ga a b) (ij a b) i x y z).
  exists (fun j i a x y z => if (a =? 3)%Z then e32 b j i x y z else qf2 lam S T W TR Tz WR Wz ZR Zz (tm_al a b) (tm_be a b) (tm_ga a b) (ij a b) j i x y z).
  intros x y z Ho. split; [|split].
  - intros i a Hi Ha. unfold tm_field. destruct (a =? 3)%Z; [now apply e3_d1|]. now apply (qf_d1 lam S Q Z T W).
  - intros i j a Hi Hj Ha. destruct (a =? 3)%Z; [now apply e3_d2|]. now apply (qf_d2 lam S Q Z T W TR Tz WR Wz ZR Zz).
  - intros a Ha. destruct (dist_facts lam x y z Ho) as (P & B & E).
    specialize (CS _ _ P B). specialize (CQ _ _ P B). specialize (MZ _ _ P B). specialize (MW _ _ P B). rewrite MW in CS. rewrite MZ in CQ. specialize (CU _ _ P B). specialize (DV _ _ P B). specialize (DVr _ _ P B). specialize (DVz _ _ P B).
    unfold tm_field, qf2, qf, e32, at_p. rewrite <- CS, <- CQ, <- CU, MZ, MW. clear CS CQ CU MZ MW.
    assert (RN : RtoC (dist lam x y z) <> RtoC 0) by (apply HalfspaceDc.RC_neq; lra).
    assert (EC : RtoC (dist lam x y z) * RtoC (dist lam x y z) = RtoC x * RtoC x + RtoC y * RtoC y + RtoC lam * RtoC z * (RtoC lam * RtoC z)) by (rewrite <- !RtoC_mult, E; rewrite <- !RtoC_plus; f_equal).
    revert DV DVr DVz.
    generalize (S (dist lam x y z) (lam * z)%R) (T (dist lam x y z) (lam * z)%R) (W (dist lam x y z) (lam * z)%R) (TR (dist lam x y z) (lam * z)%R) (Tz (dist lam x y z) (lam * z)%R) (Wz (dist lam x y z) (lam * z)%R) (Zz (dist lam x y z) (lam * z)%R) (U (dist lam x y z) (lam * z)%R) (Ut (dist lam x y z) (lam * z)%R) (Ur (dist lam x y z) (lam * z)%R).
    intros vS vT vW vTR vTz vWz vZz vU vUt vUr DV DVr DVz. clear HQ HS HT HW HZ HU HUt B P E.
    assert (RR : forall u v : C, u * / RtoC (dist lam x y z) * (RtoC (dist lam x y z) * v) = u * v) by (intros; feC; exact RN).
    rewrite !RR. clear RR. rewrite !RtoC_mult in *. rewrite EC in *.
    assert (RE : RtoC (dist lam x y z) = (RtoC x * RtoC x + RtoC y * RtoC y + RtoC lam * RtoC z * (RtoC lam * RtoC z)) * / RtoC (dist lam x y z)) by (rewrite <- EC; feC; exact RN).
    remember (/ RtoC (dist lam x y z)) as ri eqn:Eri. rewrite RE in *. clear Eri RE EC RN.
    assert (Bb : b = 1%Z \/ b = 2%Z) by lia.
    apply (lin3 _ _ (RtoC (sel (negb (a =? 3)%Z) * ij a b * lam * lam)) _
                    (RtoC (if (a =? 3)%Z then xb b x y * lam * lam * z * 1 else lam * lam * qp (tm_al a b) (tm_be a b) (tm_ga a b) x y)) _
                    (RtoC (sel (a =? 3)%Z * xb b x y * lam)) _ DV DVr DVz). clear DV DVr DVz.
    destruct Bb as [-> | ->]; destruct (three a Ha) as [-> | [-> | ->]];
      unfold pb, pbi, pbij, xb, tm_al, tm_be, tm_ga, ij, qij, qi, qp, xs, i3, mm; cbn [Z.eqb Pos.eqb andb negb orb sel];
      repeat first [rewrite RtoC_plus | rewrite RtoC_mult | rewrite RtoC_opp]; num; eC; ring.
Qed.
End TM.

Section TV.
Variables (lam : R) (U Ut Ur N Nt Nr KU KN : R -> R -> C).
Hypothesis HU : dtot U (fun r z => RtoC r * Ut r z) (fun _ _ => RtoC 0).
Hypothesis HUt : dtot Ut Ur (fun _ _ => RtoC 0).
Hypothesis HN : dtot N (fun r z => RtoC r * Nt r z) (fun _ _ => RtoC 0).
Hypothesis HNt : dtot Nt Nr (fun _ _ => RtoC 0).
Hypothesis C1 : forall r z, (0 < r)%R -> (- r < z < r)%R -> / RtoC r * Nr r z - Ut r z = - KU r z.
Hypothesis C2 : forall r z, (0 < r)%R -> (- r < z < r)%R ->
  RtoC 2 * U r z + (RtoC r * RtoC r - RtoC z * RtoC z) * Ut r z - RtoC 2 * Nt r z - (RtoC r * RtoC r - RtoC z * RtoC z) * / RtoC r * Nr r z = - (RtoC z * RtoC z * KU r z + KN r z).

(** coefficient of U *)
Let pv (a : BinNums.Z) (x y z : R) : R := if (a =? 3)%Z then (lam * lam * z * (lam * lam * z))%R else ((if (a =? 1)%Z then x else y) * (lam * lam * z))%R.
Let pvi (a i : BinNums.Z) (x y z : R) : R := if (a =? 3)%Z then (2 * ij i 3 * (lam * lam) * (lam * lam * z))%R else (ij i a * (lam * lam * z) + (if (a =? 1)%Z then x else y) * (ij i 3 * (lam * lam)))%R.
Let pvij (a i j : BinNums.Z) : R := if (a =? 3)%Z then (2 * ij i 3 * ij j 3 * (lam * lam) * (lam * lam))%R else (ij i a * (ij j 3 * (lam * lam)) + ij j a * (ij i 3 * (lam * lam)))%R.
Let dv (a : BinNums.Z) : R := if (a =? 3)%Z then (lam * lam)%R else 0%R.

Lemma pv_d : forall a i x y z, (1 <= a <= 3)%Z -> (1 <= i <= 3)%Z -> pdR i (pv a) x y z (pvi a i x y z).
Proof using.
  intros a i x y z Ha Hi. unfold pv, pvi, ij. destruct (three a Ha) as [-> | [-> | ->]]; destruct (three i Hi) as [-> | [-> | ->]]; cbn [Z.eqb Pos.eqb]; pdR_tac.
Qed.
Lemma pvi_d : forall a i j x y z, (1 <= a <= 3)%Z -> (1 <= i <= 3)%Z -> (1 <= j <= 3)%Z -> pdR j (pvi a i) x y z (pvij a i j).
Proof using.
  intros a i j x y z Ha Hi Hj. unfold pvi, pvij, ij. destruct (three a Ha) as [-> | [-> | ->]]; destruct (three i Hi) as [-> | [-> | ->]]; destruct (three j Hj) as [-> | [-> | ->]]; cbn [Z.eqb Pos.eqb]; pdR_tac.
Qed.
Let v1 (a i : BinNums.Z) (x y z : R) : C := RtoC (pvi a i x y z) * at_p lam U x y z + RtoC (pv a x y z) * (RtoC (xs lam i x y z) * at_p lam Ut x y z)
  + RtoC (dv a) * (RtoC (xs lam i x y z) * at_p lam Nt x y z).
Let v2 (a j i : BinNums.Z) (x y z : R) : C :=
  RtoC (pvij a i j) * at_p lam U x y z + RtoC (pvi a i x y z) * (RtoC (xs lam j x y z) * at_p lam Ut x y z)
  + RtoC (pvi a j x y z) * (RtoC (xs lam i x y z) * at_p lam Ut x y z)
  + RtoC (pv a x y z) * (RtoC (ij i j * mm lam i) * at_p lam Ut x y z + RtoC (xs lam i x y z) * (RtoC (xs lam j x y z) * / RtoC (dist lam x y z) * at_p lam Ur x y z))
  + RtoC (dv a) * (RtoC (ij i j * mm lam i) * at_p lam Nt x y z + RtoC (xs lam i x y z) * (RtoC (xs lam j x y z) * / RtoC (dist lam x y z) * at_p lam Nr x y z)).

Lemma v_d1 : forall a i x y z, (1 <= a <= 3)%Z -> off_z x y z -> (1 <= i <= 3)%Z ->
  pd i (fun x y z => RtoC (pv a x y z) * at_p lam U x y z + RtoC (dv a) * at_p lam N x y z) x y z (v1 a i x y z).
Proof using HU HN.
  intros a i x y z Ha Ho Hi. eapply pd_eq; [apply (pd_plus i (fun x y z => RtoC (pv a x y z) * at_p lam U x y z) (fun x y z => RtoC (dv a) * at_p lam N x y z))|].
  - apply (pd_mult i (fun x y z => RtoC (pv a x y z)) (at_p lam U)); [apply pd_R, pv_d; assumption|]. exact (pU lam U Ut HU i x y z Ho Hi).
  - apply pd_scal. exact (pU lam N Nt HN i x y z Ho Hi).
  - reflexivity.
Qed.
Lemma v_d2 : forall a i j x y z, (1 <= a <= 3)%Z -> off_z x y z -> (1 <= i <= 3)%Z -> (1 <= j <= 3)%Z -> pd j (v1 a i) x y z (v2 a j i x y z).
Proof using HU HUt HNt.
  intros a i j x y z Ha Ho Hi Hj. unfold v1.
  eapply pd_eq; [apply (pd_plus j (fun x y z => RtoC (pvi a i x y z) * at_p lam U x y z + RtoC (pv a x y z) * (RtoC (xs lam i x y z) * at_p lam Ut x y z)) (fun x y z => RtoC (dv a) * (RtoC (xs lam i x y z) * at_p lam Nt x y z)));
    [apply (pd_plus j (fun x y z => RtoC (pvi a i x y z) * at_p lam U x y z) (fun x y z => RtoC (pv a x y z) * (RtoC (xs lam i x y z) * at_p lam Ut x y z)))|]|].
  - apply (pd_mult j (fun x y z => RtoC (pvi a i x y z)) (at_p lam U)); [apply pd_R, pvi_d; assumption|exact (pU lam U Ut HU j x y z Ho Hj)].
  - apply (pd_mult j (fun x y z => RtoC (pv a x y z)) (fun x y z => RtoC (xs lam i x y z) * at_p lam Ut x y z)); [apply pd_R, pv_d; assumption|].
    apply (pd_mult j (fun x y z => RtoC (xs lam i x y z)) (at_p lam Ut)); [apply pd_R, xs_d; assumption|]. exact (pd_at lam Ut _ _ j x y z HUt Ho Hj).
  - apply (pd_scal j (RtoC (dv a)) (fun x y z => RtoC (xs lam i x y z) * at_p lam Nt x y z)).
    apply (pd_mult j (fun x y z => RtoC (xs lam i x y z)) (at_p lam Nt)); [apply pd_R, xs_d; assumption|]. exact (pd_at lam Nt _ _ j x y z HNt Ho Hj).
  - unfold v2, at_p. eC. ring.
Qed.

Theorem tv_solves : curlcurl_is (tv_field lam U N) (fun a x y z => - (RtoC (if (a =? 3)%Z then 1 else lam * lam) * tv_field lam KU KN a x y z)) off_z.
Proof using All.
  apply (curlcurl_ext (fun a x y z => RtoC (pv a x y z) * at_p lam U x y z + RtoC (dv a) * at_p lam N x y z)
           (tv_field lam U N) (fun a x y z => - (RtoC (if (a =? 3)%Z then 1 else lam * lam) * tv_field lam KU KN a x y z)) _ off_z off_open).
  { intros a x y z Ha Ho. split; [|reflexivity]. unfold tv_field, pv, dv. destruct (a =? 3)%Z; [reflexivity|]. eC. ring. }
  exists (fun i a => v1 a i), (fun j i a => v2 a j i).
  intros x y z Ho. split; [|split].
  - intros i a Hi Ha. now apply v_d1.
  - intros i j a Hi Hj Ha. now apply v_d2.
  - intros a Ha. destruct (dist_facts lam x y z Ho) as (P & B & E).
    specialize (C1 _ _ P B). specialize (C2 _ _ P B).
    unfold tv_field, v2, at_p.
    assert (RN : RtoC (dist lam x y z) <> RtoC 0) by (apply HalfspaceDc.RC_neq; lra).
    assert (EC : RtoC (dist lam x y z) * RtoC (dist lam x y z) = RtoC x * RtoC x + RtoC y * RtoC y + RtoC lam * RtoC z * (RtoC lam * RtoC z)) by (rewrite <- !RtoC_mult, E; rewrite <- !RtoC_plus; f_equal).
    pose proof C1 as C1'; pose proof C2 as C2'; revert C1' C2'.
    generalize (U (dist lam x y z) (lam * z)%R) (Ut (dist lam x y z) (lam * z)%R) (Ur (dist lam x y z) (lam * z)%R) (N (dist lam x y z) (lam * z)%R) (Nt (dist lam x y z) (lam * z)%R) (Nr (dist lam x y z) (lam * z)%R) (KU (dist lam x y z) (lam * z)%R) (KN (dist lam x y z) (lam * z)%R).
    clear C1 C2. intros vU vUt vUr vN vNt vNr vKU vKN C1 C2. clear HU HUt HN HNt B P E.
    rewrite !RtoC_mult in *. rewrite EC in *. revert C1 C2; generalize (/ RtoC (dist lam x y z)). intros ri C1 C2. clear EC RN.
    assert (K1 : vKU = vUt - ri * vNr). { transitivity (- - vKU); [eC; ring|]. rewrite <- C1. eC; ring. }
    subst vKU. assert (K2 : vKN = - (RtoC lam * RtoC z * (RtoC lam * RtoC z) * (vUt - ri * vNr)) - (RtoC 2 * vU + (RtoC x * RtoC x + RtoC y * RtoC y) * vUt - RtoC 2 * vNt - (RtoC x * RtoC x + RtoC y * RtoC y) * ri * vNr)).
    { transitivity (- - (RtoC lam * RtoC z * (RtoC lam * RtoC z) * (vUt - ri * vNr) + vKN) - RtoC lam * RtoC z * (RtoC lam * RtoC z) * (vUt - ri * vNr)); [eC; ring|]. rewrite <- C2. eC; ring. }
    subst vKN. clear C1 C2.
    destruct (three a Ha) as [-> | [-> | ->]];
      unfold pv, pvi, pvij, dv, ij, xs, mm; cbn [Z.eqb Pos.eqb];
      repeat first [rewrite RtoC_plus | rewrite RtoC_mult | rewrite RtoC_opp]; num; eC; ring.
Qed.
End TV.
