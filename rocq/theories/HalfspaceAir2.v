(** The airwave returned by the half-space solution, and the complete solution, solve the
    source-free diffusive Maxwell equations in the ground. *)

From Coq Require Import ZArith Reals List Bool Lia Lra Psatz.
From Coquelicot Require Import Coquelicot.
From Verif Require Import PyBase CBase Utils ODE FullspaceMaxwell FullspaceEM Halfspace HalfspaceThm HalfspaceSym HalfspaceDc HalfspaceZero HalfspaceZero2 WaveField WaveField2 WaveField3 HalfspaceWave HalfspaceWave2 HalfspaceWave3 HalfspaceAir.
Import ListNotations.
Local Open Scope R_scope.
Local Open Scope C_scope.

(** [ive] and [kve] are the exponentially scaled modified Bessel functions of order 0, 1, 2 and
    0, 1 in the right half plane: derivatives along rays, and the recurrence of order 2 *)
Definition bessel_mod (ive kve : Z -> C -> C) : Prop := exists BI BK : Z -> C -> C,
  (forall n z, In n [0; 1; 2]%Z -> (0 < fst z)%R -> ive n z = RtoC (exp (- Rabs (fst z))) * BI n z) /\
  (forall n z, In n [0; 1]%Z -> (0 < fst z)%R -> kve n z = Cexp z * BK n z) /\
  (forall z, (0 < fst z)%R -> BI 2%Z z = BI 0%Z z - RtoC 2 * / z * BI 1%Z z) /\
  forall z (x : R), (0 < fst z)%R -> (0 < x)%R ->
    is_deriveC (fun x => BI 0%Z (RtoC x * z)) x (z * BI 1%Z (RtoC x * z)) /\
    is_deriveC (fun x => BI 1%Z (RtoC x * z)) x (z * BI 0%Z (RtoC x * z) - / RtoC x * BI 1%Z (RtoC x * z)) /\
    is_deriveC (fun x => BK 0%Z (RtoC x * z)) x (- (z * BK 1%Z (RtoC x * z))) /\
    is_deriveC (fun x => BK 1%Z (RtoC x * z)) x (- (z * BK 0%Z (RtoC x * z)) - / RtoC x * BK 1%Z (RtoC x * z)).

Lemma comp_C : forall (f : R -> C) (u : R -> R) t u' l, is_deriveC f (u t) l -> is_derive u t u' -> is_deriveC (fun t => f (u t)) t (RtoC u' * l).
Proof.
  intros f u t u' l [H1 H2] D. replace (RtoC u' * l) with ((u' * fst l)%R, (u' * snd l)%R) by (apply injective_projections; unfold Cmult, RtoC; cbn [fst snd]; eR; ring).
  split; cbn [fst snd].
  - apply (is_derive_comp (fun u => fst (f u)) u t _ _ H1 D).
  - apply (is_derive_comp (fun u => snd (f u)) u t _ _ H2 D).
Qed.
Lemma dtot_m : forall f f' : R -> C, (forall x, (0 < x)%R -> is_deriveC f x (f' x)) -> dtot (fun r z => f (r - z)%R) (fun r z => f' (r - z)%R) (fun r z => - f' (r - z)%R).
Proof.
  intros f f' H r z t r' z' Dr Dz P B. assert (Q : (0 < r t - z t)%R) by lra.
  eapply dCe; [apply (comp_C f (fun t => (r t - z t)%R) t (r' - z')%R _ (H _ Q)); apply (is_derive_minus (V := R_NormedModule)); assumption|]. rewrite RtoC_minus. cbv beta. eC. ring.
Qed.
Lemma dtot_p : forall f f' : R -> C, (forall x, (0 < x)%R -> is_deriveC f x (f' x)) -> dtot (fun r z => f (r + z)%R) (fun r z => f' (r + z)%R) (fun r z => f' (r + z)%R).
Proof.
  intros f f' H r z t r' z' Dr Dz P B. assert (Q : (0 < r t + z t)%R) by lra.
  eapply dCe; [apply (comp_C f (fun t => (r t + z t)%R) t (r' + z')%R _ (H _ Q)); apply (is_derive_plus (V := R_NormedModule)); assumption|]. rewrite RtoC_plus. cbv beta. eC. ring.
Qed.
Lemma inv_m : forall r z, (0 < r)%R -> (- r < z < r)%R -> / RtoC (r - z) = (RtoC r + RtoC z) * q r z /\ / RtoC (r + z) = (RtoC r - RtoC z) * q r z.
Proof.
  intros r z P B. destruct (rz_nz r z P B) as [_ N]. assert (N1 : RtoC (r - z) <> RtoC 0) by (apply RC_neq; lra). assert (N2 : RtoC (r + z) <> RtoC 0) by (apply RC_neq; lra).
  unfold q. rewrite RtoC_minus in *. rewrite RtoC_plus in *. split; field; split; assumption.
Qed.

Section Products.
Variables (BI BK : Z -> C -> C) (h : C).
Hypothesis Hh : (0 < fst h)%R.
Hypothesis HB : forall z (x : R), (0 < fst z)%R -> (0 < x)%R ->
    is_deriveC (fun x => BI 0%Z (RtoC x * z)) x (z * BI 1%Z (RtoC x * z)) /\
    is_deriveC (fun x => BI 1%Z (RtoC x * z)) x (z * BI 0%Z (RtoC x * z) - / RtoC x * BI 1%Z (RtoC x * z)) /\
    is_deriveC (fun x => BK 0%Z (RtoC x * z)) x (- (z * BK 1%Z (RtoC x * z))) /\
    is_deriveC (fun x => BK 1%Z (RtoC x * z)) x (- (z * BK 0%Z (RtoC x * z)) - / RtoC x * BK 1%Z (RtoC x * z)).
Definition bp (i j : Z) (r z : R) : C := BI i (RtoC (r - z) * h) * BK j (RtoC (r + z) * h).
Let I0d := dtot_m (fun x => BI 0%Z (RtoC x * h)) _ (fun x Hx => proj1 (HB h x Hh Hx)).
Let I1d := dtot_m (fun x => BI 1%Z (RtoC x * h)) _ (fun x Hx => proj1 (proj2 (HB h x Hh Hx))).
Let K0d := dtot_p (fun x => BK 0%Z (RtoC x * h)) _ (fun x Hx => proj1 (proj2 (proj2 (HB h x Hh Hx)))).
Let K1d := dtot_p (fun x => BK 1%Z (RtoC x * h)) _ (fun x Hx => proj2 (proj2 (proj2 (HB h x Hh Hx)))).
Lemma bp00 : dtot (bp 0 0) (fun r z => h * (bp 1 0 r z - bp 0 1 r z)) (fun r z => - (h * (bp 1 0 r z + bp 0 1 r z))).
Proof using All. apply (dtot_eq _ _ _ _ _ (dtot_mult _ _ _ _ _ _ I0d K0d)). intros r z P B. unfold bp. split; ring. Qed.
Lemma bp01 : dtot (bp 0 1) (fun r z => h * (bp 1 1 r z - bp 0 0 r z) - (RtoC r - RtoC z) * q r z * bp 0 1 r z) (fun r z => - (h * (bp 1 1 r z + bp 0 0 r z)) - (RtoC r - RtoC z) * q r z * bp 0 1 r z).
Proof using All. apply (dtot_eq _ _ _ _ _ (dtot_mult _ _ _ _ _ _ I0d K1d)). intros r z P B. destruct (inv_m r z P B) as [E1 E2]. rewrite <- E2. unfold bp. split; ring. Qed.
Lemma bp10 : dtot (bp 1 0) (fun r z => h * (bp 0 0 r z - bp 1 1 r z) - (RtoC r + RtoC z) * q r z * bp 1 0 r z) (fun r z => - (h * (bp 0 0 r z + bp 1 1 r z)) + (RtoC r + RtoC z) * q r z * bp 1 0 r z).
Proof using All. apply (dtot_eq _ _ _ _ _ (dtot_mult _ _ _ _ _ _ I1d K0d)). intros r z P B. destruct (inv_m r z P B) as [E1 E2]. rewrite <- E1. unfold bp. split; ring. Qed.
Lemma bp11 : dtot (bp 1 1) (fun r z => h * (bp 0 1 r z - bp 1 0 r z) - RtoC 2 * RtoC r * q r z * bp 1 1 r z) (fun r z => - (h * (bp 0 1 r z + bp 1 0 r z)) + RtoC 2 * RtoC z * q r z * bp 1 1 r z).
Proof using All.
  apply (dtot_eq _ _ _ _ _ (dtot_mult _ _ _ _ _ _ I1d K1d)). intros r z P B. destruct (inv_m r z P B) as [E1 E2].
  replace (RtoC 2 * RtoC r * q r z) with (/ RtoC (r - z) + / RtoC (r + z)) by (rewrite E1, E2; nums; eC; ring). replace (RtoC 2 * RtoC z * q r z) with (/ RtoC (r - z) - / RtoC (r + z)) by (rewrite E1, E2; nums; eC; ring). unfold bp. split; ring.
Qed.
Definition airS := aS h (bp 0 0) (bp 0 1) (bp 1 0) (bp 1 1).
Definition airQ := aQ h (bp 0 0) (bp 0 1) (bp 1 0) (bp 1 1).
Lemma bessel_solves : forall b, (1 <= b <= 2)%Z ->
  curlcurl_is (te_field airS airQ b) (fun a x y z => - (RtoC 4 * (h * h) * te_field airS airQ b a x y z)) off_z.
Proof using All.
  intros b Hb. refine (curlcurl_ext _ _ _ _ _ off_open _ (air_solves h _ _ _ _ bp00 bp01 bp10 bp11 b Hb)). intros a x y z Ha Ho. split; [reflexivity|]. cbv beta. now rewrite te_scal.
Qed.
End Products.

(** the airwave in closed form *)
Section Form.
Variables (ive kve BI BK : Z -> C -> C) (isr : bool) (s : C) (res : R).
Hypothesis Hres : (0 < res)%R.
Let gam := Csqrt (Cdiv (s * RtoC mu0) (RtoC res)).
Hypothesis Hg : (0 < fst gam)%R.
Hypothesis Hr : isr = true -> snd gam = 0%R.
Hypothesis HI : forall n z, In n [0; 1; 2]%Z -> (0 < fst z)%R -> ive n z = RtoC (exp (- Rabs (fst z))) * BI n z.
Hypothesis HK : forall n z, In n [0; 1]%Z -> (0 < fst z)%R -> kve n z = Cexp z * BK n z.
Hypothesis H2 : forall z, (0 < fst z)%R -> BI 2%Z z = BI 0%Z z - RtoC 2 * / z * BI 1%Z z.
Let h := gam * / RtoC 2.
Variables (g : hgeo) (r z : R).
Hypotheses (Er : rp g = r) (Ez : hp g = z) (Pr : (0 < r)%R) (Bz : (- r < z < r)%R).

Lemma half_l : forall u : R, Cdiv (gam * RtoC u) (RtoC 2) = RtoC u * h.
Proof using. intros u. unfold h, Cdiv. ring. Qed.
Lemma half_fst : forall u : R, fst (RtoC u * h) = (u * fst gam / 2)%R /\ snd (RtoC u * h) = (u * snd gam / 2)%R.
Proof using. intros u. unfold h. rewrite <- RtoC_inv0. unfold RtoC. cbn [Cmult fst snd]. split; eR; field. Qed.
Lemma scaled : forall i j, In i [0; 1; 2]%Z -> In j [0; 1]%Z ->
  RtoC (exp (- fst gam * z)) * ive i (RtoC (r - z) * h) *
  (if isr then kve j (RtoC (r + z) * h) else Cexp (- Ci * RtoC (snd (RtoC (r + z) * h))) * kve j (RtoC (r + z) * h))
  = bp BI BK h i j r z.
Proof using All.
  intros i j Hi Hj. destruct (half_fst (r - z)) as [F1 S1]. destruct (half_fst (r + z)) as [F2 S2].
  assert (P1 : (0 < fst (RtoC (r - z) * h)%C)%R) by (rewrite F1; unfold Rdiv; repeat apply Rmult_lt_0_compat; lra).
  assert (P2 : (0 < fst (RtoC (r + z) * h)%C)%R) by (rewrite F2; unfold Rdiv; repeat apply Rmult_lt_0_compat; lra).
  rewrite (HI i _ Hi P1), (HK j _ Hj P2). rewrite (Rabs_pos_eq (fst (RtoC (r - z) * h)%C)) by lra.
  assert (X : (if isr then Cexp (RtoC (r + z) * h) else Cexp (- Ci * RtoC (snd (RtoC (r + z) * h))) * Cexp (RtoC (r + z) * h)) = RtoC (exp (fst (RtoC (r + z) * h)%C))).
  { assert (W : isr = true -> Cexp (RtoC (r + z) * h) = RtoC (exp (fst (RtoC (r + z) * h)%C))).
    { intros E. specialize (Hr E). rewrite Hr in S2. unfold Cexp. rewrite S2. replace ((r + z) * 0 / 2)%R with 0%R by field. rewrite cos_0, sin_0. unfold RtoC. f_equal; ring. }
    destruct isr; [apply W; reflexivity|]. rewrite <- Cexp_plus. unfold Cexp. generalize (RtoC (r + z) * h). intros [u v]. unfold Ci, RtoC. cbn [Cmult Cplus Copp fst snd].
    replace (- 0 * v - - (1) * 0 + u)%R with u by ring. replace (- 0 * 0 + - (1) * v + v)%R with 0%R by ring. rewrite cos_0, sin_0. f_equal; ring. }
  unfold bp. transitivity ((RtoC (exp (- fst gam * z)) * RtoC (exp (- fst (RtoC (r - z) * h)%C)) * (if isr then Cexp (RtoC (r + z) * h) else Cexp (- Ci * RtoC (snd (RtoC (r + z) * h))) * Cexp (RtoC (r + z) * h))) * (BI i (RtoC (r - z) * h) * BK j (RtoC (r + z) * h))).
  { destruct isr; ring. }
  rewrite X, <- !RtoC_mult, <- !exp_plus, F1, F2. replace (- fst gam * z + - ((r - z) * fst gam / 2) + (r + z) * fst gam / 2)%R with 0%R by field. rewrite exp_0. ring.
Qed.

Lemma gam_zeta : s * RtoC mu0 = RtoC res * (gam * gam).
Proof using Hres. unfold gam. rewrite Csqrt_sqr. unfold Cdiv. rewrite <- RtoC_inv0. transitivity (s * RtoC mu0 * (RtoC res * RtoC (/ res))); [|ring]. rewrite <- RtoC_mult, Rinv_r by lra. ring. Qed.

Lemma airwave_form : forall fab d : R, hs_airwave ive kve isr s g res fab d = RtoC (res / (4 * PI)) * gam * (RtoC fab * airS BI BK h r z + RtoC d * airQ BI BK h r z).
Proof using All.
  intros fab d. pose proof PI_RGT_0 as HP. pose proof (sqrt_lt_R0 _ Hres) as Q.
  assert (GN : gam <> RtoC 0) by (intros E; rewrite E in Hg; cbn in Hg; lra).
  assert (Sz : Csqrt (s * RtoC mu0) = RtoC (sqrt res) * gam).
  { unfold gam. rewrite <- (Csqrt_scale res) by lra. f_equal. unfold Cdiv. eC. field. apply RC_neq. lra. }
  assert (Sr : Csqrt (RtoC res * (s * RtoC mu0)) = RtoC res * gam).
  { replace (RtoC res * (s * RtoC mu0)) with (RtoC (res * res) * (Cdiv (s * RtoC mu0) (RtoC res))). 2: { unfold Cdiv. rewrite RtoC_mult. eC. field. apply RC_neq. lra. } rewrite Csqrt_scale by nra. rewrite sqrt_square by lra. reflexivity. }
  unfold hs_airwave. cbv zeta. rewrite Er, Ez. fold gam. rewrite Sz, Sr. rewrite !half_l. rewrite gam_zeta.
  assert (I01 : In 0%Z [0; 1]%Z) by (cbn; auto). assert (I11 : In 1%Z [0; 1]%Z) by (cbn; auto). assert (I0 : In 0%Z [0; 1; 2]%Z) by (cbn; auto). assert (I1 : In 1%Z [0; 1; 2]%Z) by (cbn; auto). assert (I2 : In 2%Z [0; 1; 2]%Z) by (cbn; auto).
  pose proof (scaled 0 0 I0 I01) as E00. pose proof (scaled 0 1 I0 I11) as E01. pose proof (scaled 1 0 I1 I01) as E10. pose proof (scaled 1 1 I1 I11) as E11. pose proof (scaled 2 1 I2 I11) as E21.
  assert (B2 : bp BI BK h 2 1 r z = bp BI BK h 0 1 r z - RtoC 4 * / gam * / RtoC (r - z) * bp BI BK h 1 1 r z).
  { unfold bp. rewrite H2. 2: { destruct (half_fst (r - z)) as [F1 _]. rewrite F1. unfold Rdiv. repeat apply Rmult_lt_0_compat; lra. }
    assert (N : RtoC (r - z) <> RtoC 0) by (apply RC_neq; lra). replace (/ (RtoC (r - z) * h)) with (RtoC 2 * / gam * / RtoC (r - z)). 2: { unfold h. eC. field. split; [apply RC_neq; lra|]. split; assumption. }
    replace (RtoC 4) with (RtoC 2 * RtoC 2) by (rewrite <- RtoC_mult; f_equal; lra). ring. }
  rewrite B2 in E21. clear B2.
  set (b0 := RtoC (exp (- fst gam * z)) * ive 0%Z (RtoC (r - z) * h)) in *. set (b1 := RtoC (exp (- fst gam * z)) * ive 1%Z (RtoC (r - z) * h)) in *. set (b2 := RtoC (exp (- fst gam * z)) * ive 2%Z (RtoC (r - z) * h)) in *.
  set (k0 := if isr then kve 0%Z (RtoC (r + z) * h) else Cexp (- Ci * RtoC (snd (RtoC (r + z) * h))) * kve 0%Z (RtoC (r + z) * h)) in *.
  set (k1 := if isr then kve 1%Z (RtoC (r + z) * h) else Cexp (- Ci * RtoC (snd (RtoC (r + z) * h))) * kve 1%Z (RtoC (r + z) * h)) in *.
  clearbody b0 b1 b2 k0 k1.
  unfold airS, airQ, aS, aQ, vec, aS0, aS1, aS2, aS3, aQ0, aQ1, aQ2, aQ3. revert E00 E01 E10 E11 E21. generalize (bp BI BK h 0 0 r z) (bp BI BK h 0 1 r z) (bp BI BK h 1 0 r z) (bp BI BK h 1 1 r z). intros p00 p01 p10 p11 E00 E01 E10 E11 E21.
  destruct (rz_nz r z Pr Bz) as [N1 N2]. assert (N3 : RtoC (r + z) <> RtoC 0) by (apply RC_neq; lra). assert (N4 : RtoC (r - z) <> RtoC 0) by (apply RC_neq; lra).
  assert (P2 : RtoC 4 * (b1 * k0) - (RtoC 3 * b0 - Cdiv (RtoC (4 * sqrt res) * b1) (RtoC (sqrt res) * gam * RtoC (r + z)) + b2) * k1 = RtoC 4 * (p10 - p01 + RtoC 2 * RtoC r * / gam * q r z * p11)).
  { transitivity (RtoC 4 * (b1 * k0) - RtoC 3 * (b0 * k1) + RtoC 4 * / gam * / RtoC (r + z) * (b1 * k1) - b2 * k1).
    - rewrite RtoC_mult. unfold Cdiv. eC. field. split; [exact N3|]. split; [exact GN|apply RC_neq; lra].
    - rewrite E10, E01, E11, E21. unfold q. rewrite RtoC_plus in *. rewrite RtoC_minus in *. nums. eC. field. repeat split; assumption. }
  rewrite P2. clear P2.
  replace (Cmult (RtoC res * (gam * gam)) (RtoC (z * r)) * (b0 * k0 - b1 * k1) + RtoC res * gam * (b0 * k1) * RtoC (r + z) + RtoC res * gam * (b1 * k0) * RtoC (r - z))
    with (RtoC res * gam * (gam * RtoC z * RtoC r * (p00 - p11) + p01 * (RtoC r + RtoC z) + p10 * (RtoC r - RtoC z))).
  2: { rewrite <- E00, <- E01, <- E10, <- E11, RtoC_plus, RtoC_minus, RtoC_mult. ring. }
  clear E00 E01 E10 E11 E21.
  clear N3 N4 I01 I11 I0 I1 I2 Sz Sr.
  assert (HH : RtoC 2 * h = gam) by (unfold h; eC; field; apply RC_neq; lra). clearbody h.
  assert (NQ : RtoC (sqrt res) <> RtoC 0) by (apply RC_neq; lra). assert (NP : RtoC PI <> RtoC 0) by (apply RC_neq; lra).
  assert (EA : Cdiv (RtoC res * (gam * gam) * (RtoC (sqrt res) * gam) * RtoC (fab * z)) (RtoC (4 * sqrt res)) = RtoC res * (gam * gam * gam) * RtoC fab * RtoC z * / RtoC 4).
  { rewrite !RtoC_mult. unfold Cdiv. eC. field. split; [apply RC_neq; lra|exact NQ]. }
  assert (EB : forall u, rc (3 * fab / r ^ 2 - d) u = (RtoC 3 * RtoC fab * (ir r z * ir r z) - RtoC d) * u).
  { intros u. unfold rc, ir. f_equal. rewrite <- !RtoC_inv0, <- !RtoC_mult, <- RtoC_minus. f_equal. field. lra. }
  assert (EC : RtoC (res / (4 * PI)) = RtoC res * / RtoC 4 * / RtoC PI).
  { rewrite <- !RtoC_inv0, <- !RtoC_mult. f_equal. field. lra. }
  assert (ED : forall u, Cdiv u (RtoC (4 * PI * r ^ 3)) = u * (/ RtoC 4 * / RtoC PI * (ir r z * ir r z * ir r z))).
  { intros u. unfold Cdiv, ir. f_equal. rewrite <- !RtoC_inv0, <- !RtoC_mult. f_equal. field. lra. }
  rewrite ED, EC, EB, EA. clear ED EC EB EA.
  assert (I4 : / RtoC 4 * RtoC 4 = RtoC 1) by (eC; field; apply RC_neq; lra).
  assert (IR : ir r z * RtoC r = RtoC 1) by (unfold ir; eC; field; exact N1).
  assert (IG : gam * / gam = RtoC 1) by (eC; field; exact GN).
  transitivity (RtoC res * gam * / RtoC 4 * / RtoC PI * (RtoC fab * RtoC z * (ir r z * ir r z * ir r z) * (/ RtoC 4 * RtoC 4) * (gam * gam * (p10 - p01) + RtoC 2 * RtoC r * gam * (gam * / gam) * q r z * p11)
    - (RtoC 3 * RtoC fab * (ir r z * ir r z) - RtoC d) * (ir r z * ir r z) * (gam * RtoC z * (ir r z * RtoC r) * (p00 - p11) + p01 * (ir r z * RtoC r + ir r z * RtoC z) + p10 * (ir r z * RtoC r - ir r z * RtoC z)))); [ring|].
  rewrite I4, IG. 
  transitivity (RtoC res * gam * / RtoC 4 * / RtoC PI * (RtoC fab * RtoC z * (ir r z * ir r z) * (gam * gam * ir r z * (p10 - p01) + RtoC 2 * (ir r z * RtoC r) * gam * q r z * p11)
    - (RtoC 3 * RtoC fab * (ir r z * ir r z) - RtoC d) * (ir r z * ir r z) * (gam * RtoC z * (ir r z * RtoC r) * (p00 - p11) + p01 * (ir r z * RtoC r + ir r z * RtoC z) + p10 * (ir r z * RtoC r - ir r z * RtoC z)))); [ring|].
  rewrite IR, <- HH. generalize (ir r z) (q r z) (/ RtoC PI). intros. generalize (/ RtoC 4). intros. nums. eC. ring.
Qed.
End Form.

(** the factor res gam/(4 pi) times the transverse electric field of the products *)
Lemma air_value : forall ive kve BI BK isr s res lam zs z x y a b, (0 < res)%R -> (0 < lam)%R -> (0 < z + zs)%R -> off_z x y 0 -> (1 <= a <= 3)%Z -> (1 <= b <= 3)%Z ->
  let gam := Csqrt (Cdiv (s * RtoC mu0) (RtoC res)) in (0 < fst gam)%R -> (isr = true -> snd gam = 0%R) ->
  (forall n z, In n [0; 1; 2]%Z -> (0 < fst z)%R -> ive n z = RtoC (exp (- Rabs (fst z))) * BI n z) ->
  (forall n z, In n [0; 1]%Z -> (0 < fst z)%R -> kve n z = Cexp z * BK n z) ->
  (forall z, (0 < fst z)%R -> BI 2%Z z = BI 0%Z z - RtoC 2 * / z * BI 1%Z z) ->
  let h := gam * / RtoC 2 in
  p_air (hs_part ive kve isr (AtS s) (10 * a + b) (sqrt (x * x + y * y)) (atan2 y x) zs z res lam)
   = if (b =? 3)%Z then RtoC 0 else RtoC (res / (4 * PI)) * gam * te_field (airS BI BK h) (airQ BI BK h) b a x y (z + zs)%R.
Proof.
  intros ive kve BI BK isr s res lam zs z x y a b Hres Hlam Hz Ho Ha Hb gam Hg Hr HI HK H2 h.
  destruct (geoW res lam zs z x y Hres Hlam Hz Ho) as (rho & Hrho & R2 & G). unfold hs_part. rewrite G. cbn [p_air hs_fields].
  set (g := {| g_x := x |}). destruct (dist_facts 1 x y (z + zs) Ho) as (P & B & _). rewrite Rmult_1_l in B.
  assert (Er : rp g = dist 1 x y (z + zs)) by reflexivity. assert (Ez : hp g = (z + zs)%R) by reflexivity.
  pose proof (airwave_form ive kve BI BK isr s res Hres Hg Hr HI HK H2 g _ _ Er Ez P B) as F. fold gam in F. fold h in F.
  unfold hs_air. cbn [g_x g_y rh]. 
  destruct (three a Ha) as [-> | [-> | ->]]; destruct (three b Hb) as [-> | [-> | ->]]; cbn [Z.mul Z.add Pos.mul Pos.add Pos.add_carry Pos.succ];
    unfold hs_xy, hs_delta; cbn [inb existsb Z.eqb Pos.eqb orb g_x g_y rh]; try reflexivity;
    unfold te_field, te_al, te_be, te_ga, qf, at_p, qp, ij; cbn [Z.eqb Pos.eqb andb negb sel]; try ring;
    rewrite F, ?Rmult_1_l; cbn [rh g]; generalize (airS BI BK h (dist 1 x y (z + zs)) (z + zs)) (airQ BI BK h (dist 1 x y (z + zs)) (z + zs)); intros u v;
    match goal with |- ?k * (RtoC ?p * u + _) = ?k * (RtoC ?p' * u + _) => replace p with p' by (change (g_x g) with x; change (g_y g) with y; clear -R2; nra) end; reflexivity.
Qed.

Section AirFreq.
Variables (ive kve : Z -> C -> C) (xs ys zs : R) (eH eV : C) (b : Z) (isr : bool) (l : list C) (k : nat) (s : C).
Hypotheses (HB : bessel_mod ive kve) (HH : (0 < hs_res eH)%R) (HV : (0 < fst eV)%R) (Hb : (1 <= b <= 3)%Z).
Hypotheses (Hk : nth_error l k = Some s) (Hs : (0 < fst s)%R \/ snd s <> 0%R) (Hr : isr = true -> snd s = 0%R).
Let E i := hs_E ive kve (HFreq isr l) i k xs ys zs eH eV b.
Let res := hs_res eH.
Let gam := Csqrt (Cdiv (s * RtoC mu0) (RtoC res)).

Lemma gam_arg : Cdiv (s * RtoC mu0) (RtoC res) = RtoC (mu0 / res) * s.
Proof using. unfold Cdiv, Rdiv. rewrite RtoC_mult, RtoC_inv0. ring. Qed.
Lemma gam_pos : (0 < fst gam)%R /\ (isr = true -> snd gam = 0%R).
Proof using Hs HH Hr.
  pose proof mu0_pos as M. assert (P : (0 < mu0 / res)%R) by (apply Rdiv_lt_0_compat; assumption).
  unfold gam. rewrite gam_arg. split.
  - apply Csqrt_Re_pos. unfold RtoC. cbn [Cmult fst snd]. destruct Hs as [W|W]; [left|right].
    + replace (mu0 / res * fst s - 0 * snd s)%R with (mu0 / res * fst s)%R by ring. now apply Rmult_lt_0_compat.
    + replace (mu0 / res * snd s + 0 * fst s)%R with (mu0 / res * snd s)%R by ring. intros W'. apply W. apply Rmult_integral in W'. destruct W'; [lra|assumption].
  - intros T. specialize (Hr T). rewrite Csqrt_scale by lra. destruct Hs as [W|W]; [|lra]. assert (ES : s = RtoC (fst s)) by (apply injective_projections; [reflexivity|exact Hr]). rewrite ES. rewrite Csqrt_RtoC by lra. unfold RtoC. cbn [Cmult fst snd]. ring.
Qed.

Theorem air_freq : curlcurl_is (E 4) (fun a x y z => - (s * RtoC (mu0 * hs_sigma eH eV a) * E 4 a x y z)) (in_ground xs ys zs).
Proof using HB HH HV Hb Hk Hs Hr.
  destruct HB as (BI & BK & HI & HK & H2 & HD). destruct gam_pos as [G1 G2]. destruct (sig_sigma eH eV 1 HH HV) as [Hl _].
  assert (W : at_k (HFreq isr l) k = Some (AtS s)) by (cbn; now rewrite Hk).
  set (h := gam * / RtoC 2). assert (Hh : (0 < fst h)%R). { unfold h. rewrite <- RtoC_inv0. unfold RtoC. cbn [Cmult fst snd]. lra. }
  assert (V : forall a x y z, (1 <= a <= 3)%Z -> in_ground xs ys zs x y z -> E 4 a x y z = if (b =? 3)%Z then RtoC 0 else RtoC (res / (4 * PI)) * gam * te_field (airS BI BK h) (airQ BI BK h) b a (x + - xs)%R (y + - ys)%R (z + zs)%R).
  { intros a x y z Ha D. unfold E. rewrite (tetm_value ive kve _ k _ xs ys zs eH eV a b x y z 4 W HH Hl D) by lia. cbn [the_part nth]. destruct D as [D1 D2]. fold res.
    exact (air_value ive kve BI BK isr s res _ zs z (x - xs) (y - ys) a b HH Hl D2 D1 Ha Hb G1 G2 HI HK H2). }
  destruct (Z.eqb_spec b 3) as [Eb|Eb].
  - refine (curlcurl_ext _ _ _ _ _ (ground_open xs ys zs) _ (curlcurl_sub _ _ _ _ _ (curlcurl_shift _ _ _ (- xs)%R (- ys)%R 0%R (curlcurl_0 (RtoC 0))))).
    + intros a x y z Ha D. cbv beta. rewrite (V a x y z Ha D). split; [reflexivity|]. ring.
    + intros x y z [D _]. exact D.
  - assert (Hb' : (1 <= b <= 2)%Z) by lia.
    refine (curlcurl_ext _ _ _ _ _ (ground_open xs ys zs) _ (curlcurl_scal (RtoC (res / (4 * PI)) * gam) _ _ _ (curlcurl_sub _ _ _ _ _ (curlcurl_shift _ _ _ (- xs)%R (- ys)%R zs (bessel_solves BI BK h Hh HD b Hb'))))).
    + intros a x y z Ha D. cbv beta. rewrite (V a x y z Ha D). split; [reflexivity|]. unfold hs_sigma. destruct (Z.eqb_spec a 3) as [->|Ea].
      * unfold te_field. cbn [Z.eqb Pos.eqb]. ring.
      * fold res. rewrite RtoC_mult.
        assert (X : s * (RtoC mu0 * RtoC (/ res)) = RtoC 4 * (h * h)).
        { transitivity (gam * gam). { unfold gam. rewrite Csqrt_sqr. unfold Cdiv. rewrite <- RtoC_inv0. ring. } unfold h. replace (RtoC 4) with (RtoC 2 * RtoC 2) by (rewrite <- RtoC_mult; f_equal; lra). eC. field. apply RC_neq. lra. }
        rewrite X. ring.
    + intros x y z [D _]. exact D.
Qed.

(** all five parts and the returned sums *)
Theorem all_freq : forall i, (i < 5)%nat -> curlcurl_is (E i) (fun a x y z => - (s * RtoC (mu0 * hs_sigma eH eV a) * E i a x y z)) (in_ground xs ys zs).
Proof using HB HH HV Hb Hk Hs Hr.
  intros i Hi. assert (W : (i < 4)%nat \/ i = 4%nat) by lia. destruct W as [W| ->]; [|exact air_freq]. exact (four_freq ive kve xs ys zs eH eV b i HH HV Hb W isr l k s Hk).
Qed.
End AirFreq.

(** the electric field returned by the solutions "dfs" (full space) and "dhs" (half space) *)
Definition hs_sum (ive kve : Z -> C -> C) (inp : hs_in) (sol : hs_sol) (k : nat) (xs ys zs : R) (eH eV : C) (b a : Z) (x y z : R) : C :=
  split_part (halfspace ive kve inp sol (10 * a + b) (sqrt ((x - xs) * (x - xs) + (y - ys) * (y - ys))) (atan2 (y - ys) (x - xs)) zs z eH eV) 0 k.

Lemma nth_map_k : forall (f : hpart -> C) l k p, nth_error l k = Some p -> nth k (map f l) (RtoC 0) = f p.
Proof. intros f l k p H. apply nth_error_nth. now apply map_nth_error. Qed.
Lemma sum_parts : forall ive kve inp k w xs ys zs eH eV b a x y z, at_k inp k = Some w -> (0 < hs_res eH)%R -> (0 < fst eV)%R -> in_ground xs ys zs x y z ->
  let E i := hs_E ive kve inp i k xs ys zs eH eV b a x y z in
  hs_sum ive kve inp Dfs k xs ys zs eH eV b a x y z = E 0%nat + E 1%nat /\
  hs_sum ive kve inp Dhs k xs ys zs eH eV b a x y z = E 0%nat + E 1%nat + (E 2%nat + E 3%nat) + E 4%nat.
Proof.
  intros ive kve inp k w xs ys zs eH eV b a x y z Hk HH HV D E. destruct (sig_sigma eH eV 1 HH HV) as [Hl _].
  assert (V : forall i, (i < 5)%nat -> E i = the_part i (hs_part ive kve (isr_of inp) w (10 * a + b) (sqrt ((x - xs) * (x - xs) + (y - ys) * (y - ys))) (atan2 (y - ys) (x - xs)) zs z (hs_res eH) (hs_aniso eV (hs_res eH)))).
  { intros i Hi. exact (tetm_value ive kve inp k w xs ys zs eH eV a b x y z i Hk HH Hl D Hi). }
  rewrite !V by lia. clear V.
  unfold hs_sum, halfspace. pose proof (tetm_guard inp xs ys zs eH eV a b x y z HH Hl D) as G. unfold hs_guard in G.
  destruct (Req_EM_T (rm _) 0); [discriminate G|]. destruct (Req_EM_T (rp _) 0); [discriminate G|]. cbn [orb] in G. rewrite G. cbn [split_part parts_of out_parts nth].
  pose proof (tetm_nth ive kve inp k w xs ys zs eH eV a b x y z Hk) as N. cbv zeta in N. unfold parts_of. cbn [out_parts nth]. rewrite !(nth_map_k _ _ _ _ N). split.
  - unfold hs_part, hs_fields. cbn [p_d the_part nth p_dTE p_dTM]. ring.
  - unfold hs_part, hs_fields. cbn [p_d p_r p_air the_part nth p_dTE p_dTM p_rTE p_rTM]. ring.
Qed.

Section SumFreq.
Variables (ive kve : Z -> C -> C) (xs ys zs : R) (eH eV : C) (b : Z) (isr : bool) (l : list C) (k : nat) (s : C).
Hypotheses (HB : bessel_mod ive kve) (HH : (0 < hs_res eH)%R) (HV : (0 < fst eV)%R) (Hb : (1 <= b <= 3)%Z).
Hypotheses (Hk : nth_error l k = Some s) (Hs : (0 < fst s)%R \/ snd s <> 0%R) (Hr : isr = true -> snd s = 0%R).
Theorem sum_freq : forall sol, sol = Dfs \/ sol = Dhs -> let E := hs_sum ive kve (HFreq isr l) sol k xs ys zs eH eV b in
  curlcurl_is E (fun a x y z => - (s * RtoC (mu0 * hs_sigma eH eV a) * E a x y z)) (in_ground xs ys zs).
Proof using HB HH HV Hb Hk Hs Hr.
  intros sol Hsol E. assert (W : at_k (HFreq isr l) k = Some (AtS s)) by (cbn; now rewrite Hk).
  pose proof (fun i => all_freq ive kve xs ys zs eH eV b isr l k s HB HH HV Hb Hk Hs Hr i) as A.
  assert (A0 := A 0%nat ltac:(lia)). assert (A1 := A 1%nat ltac:(lia)). assert (A2 := A 2%nat ltac:(lia)). assert (A3 := A 3%nat ltac:(lia)). assert (A4 := A 4%nat ltac:(lia)).
  destruct Hsol as [-> | ->].
  - refine (curlcurl_ext _ _ _ _ _ (ground_open xs ys zs) _ (curlcurl_plus _ _ _ _ _ A0 A1)). intros a x y z Ha D. unfold E. destruct (sum_parts ive kve _ k _ xs ys zs eH eV b a x y z W HH HV D) as [-> _]. split; [reflexivity|ring].
  - refine (curlcurl_ext _ _ _ _ _ (ground_open xs ys zs) _ (curlcurl_plus _ _ _ _ _ (curlcurl_plus _ _ _ _ _ (curlcurl_plus _ _ _ _ _ A0 A1) (curlcurl_plus _ _ _ _ _ A2 A3)) A4)). intros a x y z Ha D. unfold E. destruct (sum_parts ive kve _ k _ xs ys zs eH eV b a x y z W HH HV D) as [_ ->]. split; [reflexivity|ring].
Qed.
End SumFreq.
