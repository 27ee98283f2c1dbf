(** The airwave of the returned impulse response satisfies curl curl E = - mu0 sigma dE/dt. *)

From Coq Require Import ZArith Reals List Bool Lia Lra Psatz.
From Coquelicot Require Import Coquelicot.
From Verif Require Import PyBase CBase Utils ODE FullspaceMaxwell FullspaceEM Halfspace HalfspaceThm HalfspaceSym HalfspaceDc HalfspaceZero HalfspaceZero2 WaveField WaveField2 WaveField3 HalfspaceWave HalfspaceWave2 HalfspaceWave3 HalfspaceAir HalfspaceAir2 HalfspaceAirImp.
Import ListNotations.
Local Open Scope R_scope.
Local Open Scope C_scope.

Ltac sp := repeat match goal with |- _ /\ _ => split end; first [exact I | assumption].

Section Link.
Variables (ive kve : Z -> C -> C) (res : R).
Hypothesis (HB : bessel_mod ive kve).
Hypothesis (Hres : (0 < res)%R).

(** the scaled functions on the positive axis *)
Definition fI (n : Z) (x : R) : C := ive n (RtoC x).
Lemma fI_d : forall x, (0 < x)%R -> is_deriveC (fI 0) x (fI 1 x - fI 0 x) /\ is_deriveC (fI 1) x (fI 0 x - fI 1 x - / RtoC x * fI 1 x).
Proof using HB.
  intros x Hx. destruct HB as (BI & BK & HI & _ & _ & HD).
  assert (P1 : (0 < fst (RtoC 1))%R) by (cbn; lra). destruct (HD (RtoC 1) x P1 Hx) as (D0 & D1 & _).
  assert (V : forall n t, In n [0; 1]%Z -> (0 < t)%R -> fI n t = RtoC (exp (- t)) * BI n (RtoC t * RtoC 1)).
  { intros n t Hn Ht. unfold fI. rewrite (HI n (RtoC t)); [|cbn in *; tauto|exact Ht]. cbn [RtoC fst]. rewrite Rabs_pos_eq by lra. f_equal. f_equal. ring. }
  assert (De : is_deriveC (fun t => RtoC (exp (- t))) x (- RtoC (exp (- x)))).
  { rewrite <- RtoC_opp. apply (dCR (fun t => exp (- t))). auto_derive; [exact I|]. ring. }
  assert (L : forall n, In n [0; 1]%Z -> locally x (fun t => RtoC (exp (- t)) * BI n (RtoC t * RtoC 1) = fI n t)).
  { intros n Hn. exists (mkposreal x Hx). intros t Ht. apply Rabs_def2 in Ht. unfold minus, plus, opp in Ht. cbn in Ht. symmetry. apply V; [exact Hn|lra]. }
  assert (I0 : In 0%Z [0; 1]%Z) by (cbn; auto). assert (I1 : In 1%Z [0; 1]%Z) by (cbn; auto).
  rewrite !(V 0%Z x I0 Hx), !(V 1%Z x I1 Hx). split.
  - refine (is_deriveC_ext_loc _ _ _ _ (L 0%Z I0) _). eapply dCe; [exact (dC_mult _ _ _ _ _ De D0)|]. cbv beta. ring.
  - refine (is_deriveC_ext_loc _ _ _ _ (L 1%Z I1) _). eapply dCe; [exact (dC_mult _ _ _ _ _ De D1)|]. cbv beta. ring.
Qed.

Definition im (T : R) : R := (mu0 / (4 * res * T))%R.
Definition iA (T : R) : R := (mu0 ^ 2 / (res * 32 * PI * T ^ 3))%R.
Definition iw (T r z : R) : R := (im T * (r * r - z * z) / 2)%R.
Definition iV (n : Z) (T r z : R) : C := RtoC (iA T * exp (- im T * (z * z))) * fI n (iw T r z).

Lemma im_pos : forall T, (0 < T)%R -> (0 < im T)%R.
Proof using Hres. intros T HT. unfold im. pose proof mu0_pos. apply Rdiv_lt_0_compat; [assumption|]. repeat apply Rmult_lt_0_compat; lra. Qed.
Lemma iw_pos : forall T r z, (0 < T)%R -> (0 < r)%R -> (- r < z < r)%R -> (0 < iw T r z)%R.
Proof using Hres. intros T r z HT P B. unfold iw. pose proof (im_pos T HT). assert (0 < r * r - z * z)%R by nra. apply Rdiv_lt_0_compat; [|lra]. now apply Rmult_lt_0_compat. Qed.
Lemma iw_C : forall T r z, RtoC (iw T r z) = RtoC (im T) * (RtoC r * RtoC r - RtoC z * RtoC z) * / RtoC 2.
Proof using. intros T r z. unfold iw, Rdiv. rewrite !RtoC_mult, RtoC_minus, !RtoC_mult, RtoC_inv0. reflexivity. Qed.

(** the derivatives in distance and depth *)
Lemma iV_d : forall n T l, (0 < T)%R -> (forall x, (0 < x)%R -> is_deriveC (fI n) x (l x)) ->
  dtot (iV n T) (fun r z => RtoC (iA T * exp (- im T * (z * z))) * (RtoC (im T) * RtoC r * l (iw T r z)))
    (fun r z => - (RtoC 2 * RtoC (im T) * RtoC z * iV n T r z) - RtoC (iA T * exp (- im T * (z * z))) * (RtoC (im T) * RtoC z * l (iw T r z))).
Proof using Hres.
  intros n T l HT Hl r z t r' z' Dr Dz P B. unfold iV.
  assert (Er : Derive (fun x => r x) t = r') by exact (is_derive_unique _ _ _ Dr). assert (Ez : Derive (fun x => z x) t = z') by exact (is_derive_unique _ _ _ Dz).
  assert (Xr : ex_derive (fun x => r x) t) by (exists r'; exact Dr). assert (Xz : ex_derive (fun x => z x) t) by (exists z'; exact Dz).
  assert (Ww : is_derive (fun t => iw T (r t) (z t)) t (im T * (r t * r' - z t * z'))%R).
  { unfold iw. auto_derive. - sp. - rewrite Er, Ez. field. }
  assert (We : is_derive (fun t => iA T * exp (- im T * (z t * z t)))%R t (iA T * (exp (- im T * (z t * z t)) * (- im T * (2 * z t * z'))))%R).
  { auto_derive. - sp. - rewrite Ez. ring. }
  eapply dCe; [exact (dC_mult _ _ _ _ _ (dCR _ _ _ We) (comp_C (fI n) _ t _ _ (Hl _ (iw_pos T _ _ HT P B)) Ww))|].
  cbv beta. push. ring.
Qed.
Lemma w_q : forall T r z, (0 < T)%R -> (0 < r)%R -> (- r < z < r)%R -> RtoC (im T) * / RtoC (iw T r z) = RtoC 2 * q r z.
Proof using Hres.
  intros T r z HT P B. rewrite iw_C. destruct (rz_nz r z P B) as [_ N]. unfold q. pose proof (im_pos T HT). eC. field. split; [exact N|]. split; apply RC_neq; lra.
Qed.

Section Solves.
Variable T : R.
Hypothesis HT : (0 < T)%R.
Let m := RtoC (im T).
Lemma iV0_d : dtot (iV 0 T) (fun r z => m * RtoC r * (iV 1 T r z - iV 0 T r z)) (fun r z => - (RtoC 2 * m * RtoC z * iV 0 T r z) - m * RtoC z * (iV 1 T r z - iV 0 T r z)).
Proof using HB Hres HT.
  apply (dtot_eq _ _ _ _ _ (iV_d 0 T _ HT (fun x Hx => proj1 (fI_d x Hx)))). intros r z P B. unfold iV, m. cbv beta. split; ring.
Qed.
Lemma iV1_d : dtot (iV 1 T) (fun r z => m * RtoC r * (iV 0 T r z - iV 1 T r z) - RtoC 2 * RtoC r * q r z * iV 1 T r z) (fun r z => - (RtoC 2 * m * RtoC z * iV 1 T r z) - m * RtoC z * (iV 0 T r z - iV 1 T r z) + RtoC 2 * RtoC z * q r z * iV 1 T r z).
Proof using HB Hres HT.
  apply (dtot_eq _ _ _ _ _ (iV_d 1 T _ HT (fun x Hx => proj2 (fI_d x Hx)))). intros r z P B. pose proof (w_q T r z HT P B) as W. cbv beta. unfold iV, m.
  replace (RtoC 2 * RtoC r * q r z) with (RtoC r * (RtoC 2 * q r z)) by ring. replace (RtoC 2 * RtoC z * q r z) with (RtoC z * (RtoC 2 * q r z)) by ring. rewrite <- W. split; ring.
Qed.

(** derivative with respect to time *)
Lemma iV_t : forall n r z l, is_deriveC (fI n) (iw T r z) l ->
  is_deriveC (fun T => iV n T r z) T (/ RtoC T * ((RtoC (-3) + m * (RtoC z * RtoC z)) * iV n T r z - RtoC (iA T * exp (- im T * (z * z))) * (RtoC (iw T r z) * l))).
Proof using Hres HT.
  intros n r z l Hl. unfold iV. pose proof PI_RGT_0 as HP.
  assert (Ww : is_derive (fun T => iw T r z) T (- iw T r z / T)%R).
  { unfold iw, im. auto_derive. - repeat split; try exact I. apply Rmult_integral_contrapositive_currified; lra. - field. split; lra. }
  assert (We : is_derive (fun T => iA T * exp (- im T * (z * z)))%R T (/ T * ((-3 + im T * (z * z)) * (iA T * exp (- im T * (z * z)))))%R).
  { unfold iA, im. auto_derive.
    - cbn [pow]. repeat match goal with |- _ /\ _ => split end; try exact I; apply Rgt_not_eq; unfold Rgt; repeat match goal with |- (0 < _ * _)%R => apply Rmult_lt_0_compat end; first [assumption|exact PI_RGT_0|lra].
    - unfold Rdiv. generalize (exp (- (mu0 * / (4 * res * T)) * (z * z))). intros e. cbn [pow]. field. repeat split; lra. }
  eapply dCe; [exact (dC_mult _ _ _ _ _ (dCR _ _ _ We) (comp_C (fI n) _ T _ _ Hl Ww))|].
  cbv beta. unfold m. push. ring.
Qed.
End Solves.
Definition aQt (T : R) := iQ (iV 0 T) (iV 1 T).
Definition aSt (T : R) := iS (RtoC (im T)) (iV 0 T) (iV 1 T).
Definition aKQ (T : R) := iKQ (RtoC (im T)) (iV 0 T) (iV 1 T).
Definition aKS (T : R) := iKS (RtoC (im T)) (iV 0 T) (iV 1 T).

(** the field solves curl curl E = - te_field aKS aKQ, and that is the time derivative times mu0/res *)
Lemma air_curl : forall T b, (0 < T)%R -> (1 <= b <= 2)%Z -> curlcurl_is (te_field (aSt T) (aQt T) b) (fun a x y z => - te_field (aKS T) (aKQ T) b a x y z) off_z.
Proof using HB Hres. intros T b HT Hb. exact (imp_solves (RtoC (im T)) (iV 0 T) (iV 1 T) (iV0_d T HT) (iV1_d T HT) b Hb). Qed.

Lemma iV0_t : forall T r z, (0 < T)%R -> (0 < r)%R -> (- r < z < r)%R -> let m := RtoC (im T) in let w := RtoC (iw T r z) in
  is_deriveC (fun T => iV 0 T r z) T (/ RtoC T * ((RtoC (-3) + m * (RtoC z * RtoC z)) * iV 0 T r z - w * (iV 1 T r z - iV 0 T r z))).
Proof using HB Hres.
  intros T r z HT P B m w. eapply dCe; [exact (iV_t T HT 0 r z _ (proj1 (fI_d _ (iw_pos T r z HT P B))))|]. unfold iV, m, w. ring.
Qed.
Lemma iV1_t : forall T r z, (0 < T)%R -> (0 < r)%R -> (- r < z < r)%R -> let m := RtoC (im T) in let w := RtoC (iw T r z) in
  is_deriveC (fun T => iV 1 T r z) T (/ RtoC T * ((RtoC (-3) + m * (RtoC z * RtoC z)) * iV 1 T r z - w * (iV 0 T r z - iV 1 T r z) + iV 1 T r z)).
Proof using HB Hres.
  intros T r z HT P B m w. pose proof (iw_pos T r z HT P B) as W. eapply dCe; [exact (iV_t T HT 1 r z _ (proj2 (fI_d _ W)))|]. unfold iV, m, w.
  replace (RtoC (iw T r z) * (fI 0 (iw T r z) - fI 1 (iw T r z) - / RtoC (iw T r z) * fI 1 (iw T r z))) with (RtoC (iw T r z) * (fI 0 (iw T r z) - fI 1 (iw T r z)) - fI 1 (iw T r z)). 2: { assert (N : RtoC (iw T r z) <> RtoC 0) by (apply RC_neq; lra). eC. field. exact N. }
  ring.
Qed.
Lemma im_t : forall T, (0 < T)%R -> is_deriveC (fun T => RtoC (im T)) T (- (/ RtoC T * RtoC (im T))).
Proof using Hres.
  intros T HT. rewrite <- RtoC_inv0, <- RtoC_mult, <- RtoC_opp. apply (dCR im). unfold im. auto_derive. - apply Rmult_integral_contrapositive_currified; lra. - field. split; lra.
Qed.
Lemma km : forall T, (0 < T)%R -> RtoC (res / mu0) = / (RtoC 4 * RtoC (im T) * RtoC T).
Proof using Hres.
  intros T HT. pose proof (im_pos T HT). pose proof mu0_pos. rewrite <- !RtoC_mult, <- RtoC_inv0. f_equal. unfold im. field. lra.
Qed.
Lemma aQ_t : forall T r z, (0 < T)%R -> (0 < r)%R -> (- r < z < r)%R -> is_deriveC (fun T => aQt T r z) T (RtoC (res / mu0) * aKQ T r z).
Proof using HB Hres.
  intros T r z HT P B. pose proof (iV0_t T r z HT P B) as T0. pose proof (iV1_t T r z HT P B) as T1. cbv zeta in T0, T1. unfold aQt, iQ, vec2, iQ0, iQ1.
  eapply dCe; [exact (is_deriveC_plus _ _ _ _ _ (is_deriveC_scal (RtoC z) _ _ _ T0) (is_deriveC_scal (- RtoC z) _ _ _ T1))|].
  rewrite (km T HT), iw_C. unfold aKQ, iKQ, vec2, iKQ0, iKQ1. generalize (iV 0 T r z) (iV 1 T r z). intros v0 v1.
  assert (NT : RtoC T <> RtoC 0) by (apply RC_neq; lra). pose proof (im_pos T HT). assert (NM : RtoC (im T) <> RtoC 0) by (apply RC_neq; lra). revert NM. generalize (RtoC (im T)). intros m NM.
  replace (RtoC (-3)) with (- RtoC 3) by (rewrite <- RtoC_opp; reflexivity). nums. eC. field. repeat split; try assumption. all: intros W; apply (f_equal fst) in W; cbn in W; lra.
Qed.
Lemma aS_t : forall T r z, (0 < T)%R -> (0 < r)%R -> (- r < z < r)%R -> is_deriveC (fun T => aSt T r z) T (RtoC (res / mu0) * aKS T r z).
Proof using HB Hres.
  intros T r z HT P B. pose proof (iV0_t T r z HT P B) as T0. pose proof (iV1_t T r z HT P B) as T1. pose proof (im_t T HT) as Tm. cbv zeta in T0, T1. unfold aSt, iS, vec2, iS0, iS1.
  refine (is_deriveC_ext_loc (fun T => (- RtoC 2 * RtoC z) * (RtoC (im T) * iV 0 T r z) + ((RtoC 2 * RtoC z) * (RtoC (im T) * iV 1 T r z) + (RtoC 2 * q r z * RtoC z) * iV 1 T r z)) _ _ _ _ _).
  { apply filter_forall. intros t. ring. }
  eapply dCe; [exact (is_deriveC_plus _ _ _ _ _ (is_deriveC_scal (- RtoC 2 * RtoC z) _ _ _ (dC_mult _ _ _ _ _ Tm T0)) (is_deriveC_plus _ _ _ _ _ (is_deriveC_scal (RtoC 2 * RtoC z) _ _ _ (dC_mult _ _ _ _ _ Tm T1)) (is_deriveC_scal (RtoC 2 * q r z * RtoC z) _ _ _ T1)))|].
  cbv beta. rewrite (km T HT), iw_C. unfold aKS, iKS, vec2, iKS0, iKS1. generalize (iV 0 T r z) (iV 1 T r z). intros v0 v1.
  assert (NT : RtoC T <> RtoC 0) by (apply RC_neq; lra). pose proof (im_pos T HT). assert (NM : RtoC (im T) <> RtoC 0) by (apply RC_neq; lra). revert NM. generalize (RtoC (im T)). intros m NM.
  destruct (rz_nz r z P B) as [N1 N2]. unfold q.
  replace (RtoC (-3)) with (- RtoC 3) by (rewrite <- RtoC_opp; reflexivity). nums. eC. field. repeat split; try assumption. all: intros W; apply (f_equal fst) in W; cbn in W; lra.
Qed.
Lemma te_t : forall T b a x y z, (0 < T)%R -> off_z x y z -> is_deriveC (fun T => te_field (aSt T) (aQt T) b a x y z) T (RtoC (res / mu0) * te_field (aKS T) (aKQ T) b a x y z).
Proof using HB Hres.
  intros T b a x y z HT Ho. destruct (dist_facts 1 x y z Ho) as (P & B & _). rewrite Rmult_1_l in B.
  pose proof (aQ_t T _ _ HT P B) as Q. pose proof (aS_t T _ _ HT P B) as S.
  unfold te_field. destruct (a =? 3)%Z; [eapply dCe; [apply is_deriveC_const|ring]|].
  unfold qf, at_p. rewrite Rmult_1_l.
  eapply dCe; [exact (is_deriveC_plus _ _ _ _ _ (is_deriveC_scal (RtoC (qp (te_al a b) (te_be a b) (te_ga a b) x y)) _ _ _ S) (is_deriveC_scal (RtoC (ij a b)) _ _ _ Q))|]. cbv beta. ring.
Qed.
End Link.

Lemma air_imp_value : forall ive kve isr T res lam zs z x y a b, (0 < res)%R -> (0 < lam)%R -> (0 < T)%R -> (0 < z + zs)%R -> off_z x y 0 -> (1 <= a <= 3)%Z -> (1 <= b <= 3)%Z ->
  p_air (hs_part ive kve isr (AtImp T) (10 * a + b) (sqrt (x * x + y * y)) (atan2 y x) zs z res lam)
   = if (b =? 3)%Z then RtoC 0 else te_field (aSt ive res T) (aQt ive res T) b a x y (z + zs)%R.
Proof.
  intros ive kve isr T res lam zs z x y a b Hres Hlam HT Hz Ho Ha Hb.
  destruct (geoW res lam zs z x y Hres Hlam Hz Ho) as (rho & Hrho & R2 & G). unfold hs_part. rewrite G. cbn [p_air hs_fields].
  set (g := {| g_x := x |}). destruct (dist_facts 1 x y (z + zs) Ho) as (P & B & D2). rewrite Rmult_1_l in B.
  assert (Er : rp g = dist 1 x y (z + zs)) by reflexivity. assert (Ez : hp g = (z + zs)%R) by reflexivity.
  assert (F : forall d u v, hs_air_imp ive T g res d u v = RtoC ((rh g) ^ 2 * d - u * v) * aSt ive res T (dist 1 x y (z + zs)) (z + zs) + RtoC d * aQt ive res T (dist 1 x y (z + zs)) (z + zs)).
  { intros d u v. assert (Hw : (mu0 * rho ^ 2 / (8 * res) / T)%R = iw res T (dist 1 x y (z + zs)) (z + zs)). { unfold iw, im. rewrite D2. cbn [pow]. rewrite Rmult_1_r. rewrite R2, !Rmult_1_l. field. lra. }
    assert (He : (- (mu0 * (z + zs) ^ 2 / (4 * res)) / T)%R = (- im res T * ((z + zs) * (z + zs)))%R). { unfold im. field. lra. }
    unfold hs_air_imp. cbv zeta. cbn [hp rh g]. change (hp g) with (z + zs)%R. change (rh g) with rho. rewrite Hw, He. unfold aSt, aQt, iS, iQ, vec2, iS0, iS1, iQ0, iQ1, iV, fI, rc.
    assert (Hq : q (dist 1 x y (z + zs)) (z + zs) = / RtoC (rho * rho)). { unfold q. f_equal. rewrite <- !RtoC_mult, <- RtoC_minus. f_equal. rewrite D2, R2. ring. }
    rewrite Hq, <- RtoC_inv0. generalize (ive 0%Z (RtoC (iw res T (dist 1 x y (z + zs)) (z + zs)))) (ive 1%Z (RtoC (iw res T (dist 1 x y (z + zs)) (z + zs)))). intros I0 I1.
    replace (mu0 ^ 2 * (z + zs) * exp (- im res T * ((z + zs) * (z + zs))) / (res * 32 * PI * T ^ 3))%R with (iA res T * exp (- im res T * ((z + zs) * (z + zs))) * (z + zs))%R by (unfold iA, Rdiv; ring).
    replace (2 * (d - u * v / rho ^ 2))%R with (2 * / (rho * rho) * (rho * rho * d - u * v))%R by (field; lra). 
    replace (mu0 / (2 * res * T) * (rho ^ 2 * d - u * v) - d)%R with (2 * im res T * (rho * rho * d - u * v) - d)%R by (unfold im; field; lra).
    replace (rho ^ 2 * d - u * v)%R with (rho * rho * d - u * v)%R by ring.
    generalize (iA res T * exp (- im res T * ((z + zs) * (z + zs))))%R (rho * rho * d - u * v)%R (/ (rho * rho))%R (im res T). intros A f k m.
    rewrite !RtoC_mult, !RtoC_minus, !RtoC_mult, !RtoC_plus. ring. }
  unfold hs_air. cbn [g_x g_y rh].
  destruct (three a Ha) as [-> | [-> | ->]]; destruct (three b Hb) as [-> | [-> | ->]]; cbn [Z.mul Z.add Pos.mul Pos.add Pos.add_carry Pos.succ];
    unfold hs_xy, hs_delta; cbn [inb existsb Z.eqb Pos.eqb orb g_x g_y rh]; try reflexivity;
    unfold te_field, te_al, te_be, te_ga, qf, at_p, qp, ij; cbn [Z.eqb Pos.eqb andb negb sel]; try ring;
    rewrite F, ?Rmult_1_l; cbn [rh g]; generalize (aSt ive res T (dist 1 x y (z + zs)) (z + zs)) (aQt ive res T (dist 1 x y (z + zs)) (z + zs)); intros u v;
    match goal with |- RtoC ?p * u + _ = RtoC ?p' * u + _ => replace p with p' by (change (g_x g) with x; change (g_y g) with y; clear -R2; nra) end; reflexivity.
Qed.

Section AirImp.
Variables (ive kve : Z -> C -> C) (xs ys zs : R) (eH eV : C) (b : Z).
Hypotheses (HB : bessel_mod ive kve) (HH : (0 < hs_res eH)%R) (HV : (0 < fst eV)%R) (Hb : (1 <= b <= 3)%Z).
Let E inp i k := hs_E ive kve inp i k xs ys zs eH eV b.
Let res := hs_res eH.

Lemma air_E : forall ts k T a x y z, nth_error ts k = Some T -> (0 < T)%R -> (1 <= a <= 3)%Z -> in_ground xs ys zs x y z ->
  E (HTime 0 ts) 4 k a x y z = if (b =? 3)%Z then RtoC 0 else te_field (aSt ive res T) (aQt ive res T) b a (x + - xs)%R (y + - ys)%R (z + zs)%R.
Proof using HH HV Hb.
  intros ts k T a x y z Hk HT Ha D. destruct (sig_sigma eH eV 1 HH HV) as [Hl _]. assert (W : at_k (HTime 0 ts) k = Some (AtImp T)) by (cbn; now rewrite Hk).
  unfold E. rewrite (tetm_value ive kve _ k _ xs ys zs eH eV a b x y z 4 W HH Hl D) by lia. cbn [the_part nth]. destruct D as [D1 D2]. fold res.
  exact (air_imp_value ive kve _ T res _ zs z (x - xs) (y - ys) a b HH Hl HT D2 D1 Ha Hb).
Qed.

Definition air_D (T : R) (a : Z) (x y z : R) : C := if (b =? 3)%Z then RtoC 0 else RtoC (res / mu0) * te_field (aKS ive res T) (aKQ ive res T) b a (x + - xs)%R (y + - ys)%R (z + zs)%R.

Theorem air_imp : forall ts k T, nth_error ts k = Some T -> (0 < T)%R ->
  (forall a x y z, (1 <= a <= 3)%Z -> in_ground xs ys zs x y z -> is_deriveC (fun t => E (HTime 0 [t]) 4 0 a x y z) T (air_D T a x y z)) /\
  curlcurl_is (E (HTime 0 ts) 4 k) (fun a x y z => - (RtoC (mu0 * hs_sigma eH eV a) * air_D T a x y z)) (in_ground xs ys zs).
Proof using HB HH HV Hb.
  intros ts k T Hk HT. pose proof mu0_pos as M. split.
  - intros a x y z Ha D.
    refine (is_deriveC_ext_loc (fun t => if (b =? 3)%Z then RtoC 0 else te_field (aSt ive res t) (aQt ive res t) b a (x + - xs)%R (y + - ys)%R (z + zs)%R) _ _ _ _ _).
    + exists (mkposreal T HT). intros t Ht. apply Rabs_def2 in Ht. unfold minus, plus, opp in Ht. cbn in Ht. assert (Pt : (0 < t)%R) by lra.
      symmetry. exact (air_E [t] 0 t a x y z eq_refl Pt Ha D).
    + unfold air_D. destruct (b =? 3)%Z; [apply is_deriveC_const|]. destruct D as [D1 D2]. exact (te_t ive kve res HB HH T b a _ _ _ HT D1).
  - destruct (Z.eqb_spec b 3) as [Eb|Eb].
    + refine (curlcurl_ext _ _ _ _ _ (ground_open xs ys zs) _ (curlcurl_sub _ _ _ _ _ (curlcurl_shift _ _ _ (- xs)%R (- ys)%R 0%R (curlcurl_0 (RtoC 0))))).
      * intros a x y z Ha D. cbv beta. rewrite (air_E ts k T a x y z Hk HT Ha D). unfold air_D. rewrite Eb. cbn [Z.eqb Pos.eqb]. split; [reflexivity|]. ring.
      * intros x y z [D _]. exact D.
    + assert (Hb' : (1 <= b <= 2)%Z) by lia.
      refine (curlcurl_ext _ _ _ _ _ (ground_open xs ys zs) _ (curlcurl_sub _ _ _ _ _ (curlcurl_shift _ _ _ (- xs)%R (- ys)%R zs (air_curl ive kve res HB HH T b HT Hb')))).
      * intros a x y z Ha D. cbv beta. rewrite (air_E ts k T a x y z Hk HT Ha D). unfold air_D. apply Z.eqb_neq in Eb. rewrite Eb. split; [reflexivity|].
        unfold hs_sigma. destruct (Z.eqb_spec a 3) as [->|Ea].
        -- unfold te_field. cbn [Z.eqb Pos.eqb]. ring.
        -- fold res. rewrite Cmult_assoc, <- RtoC_mult. replace (mu0 * / res * (res / mu0))%R with 1%R by (field; split; unfold res; lra). ring.
      * intros x y z [D _]. exact D.
Qed.

(** all five parts *)
Theorem all_imp : forall i, (i < 5)%nat -> forall ts k T, nth_error ts k = Some T -> (0 < T)%R -> exists D : Z -> R -> R -> R -> C,
  (forall a x y z, (1 <= a <= 3)%Z -> in_ground xs ys zs x y z -> is_deriveC (fun t => E (HTime 0 [t]) i 0 a x y z) T (D a x y z)) /\
  curlcurl_is (E (HTime 0 ts) i k) (fun a x y z => - (RtoC (mu0 * hs_sigma eH eV a) * D a x y z)) (in_ground xs ys zs).
Proof using HB HH HV Hb.
  intros i Hi ts k T Hk HT. assert (W : (i < 4)%nat \/ i = 4%nat) by lia. destruct W as [W| ->].
  - exact (four_imp ive kve xs ys zs eH eV b i HH HV Hb W ts k T Hk HT).
  - exists (air_D T). exact (air_imp ts k T Hk HT).
Qed.

(** the returned full-space and half-space impulse responses *)
Theorem sum_imp : forall sol, sol = Dfs \/ sol = Dhs -> let F inp k := hs_sum ive kve inp sol k xs ys zs eH eV b in
  forall ts k T, nth_error ts k = Some T -> (0 < T)%R -> exists D : Z -> R -> R -> R -> C,
  (forall a x y z, (1 <= a <= 3)%Z -> in_ground xs ys zs x y z -> is_deriveC (fun t => F (HTime 0 [t]) 0%nat a x y z) T (D a x y z)) /\
  curlcurl_is (F (HTime 0 ts) k) (fun a x y z => - (RtoC (mu0 * hs_sigma eH eV a) * D a x y z)) (in_ground xs ys zs).
Proof using HB HH HV Hb.
  intros sol Hsol F ts k T Hk HT. assert (W : at_k (HTime 0 ts) k = Some (AtImp T)) by (cbn; now rewrite Hk).
  assert (L : forall a x y z f, in_ground xs ys zs x y z -> (forall t, f t = if match sol with Dfs => true | _ => false end then E (HTime 0 [t]) 0 0 a x y z + E (HTime 0 [t]) 1 0 a x y z
     else E (HTime 0 [t]) 0 0 a x y z + E (HTime 0 [t]) 1 0 a x y z + (E (HTime 0 [t]) 2 0 a x y z + E (HTime 0 [t]) 3 0 a x y z) + E (HTime 0 [t]) 4 0 a x y z) ->
     forall l, is_deriveC f T l -> is_deriveC (fun t => F (HTime 0 [t]) 0%nat a x y z) T l).
  { intros a x y z f D Hf l Hd. refine (is_deriveC_ext_loc _ _ _ _ _ Hd). apply filter_forall. intros t. rewrite Hf. unfold F.
    destruct (sum_parts ive kve (HTime 0 [t]) 0 (AtImp t) xs ys zs eH eV b a x y z eq_refl HH HV D) as [E1 E2]. destruct Hsol as [-> | ->]; symmetry; assumption. }
  destruct (all_imp 0 ltac:(lia) ts k T Hk HT) as (D0 & P0 & Q0). destruct (all_imp 1 ltac:(lia) ts k T Hk HT) as (D1 & P1 & Q1). destruct (all_imp 2 ltac:(lia) ts k T Hk HT) as (D2 & P2 & Q2).
  destruct (all_imp 3 ltac:(lia) ts k T Hk HT) as (D3 & P3 & Q3). destruct (all_imp 4 ltac:(lia) ts k T Hk HT) as (D4 & P4 & Q4).
  destruct Hsol as [-> | ->].
  - exists (fun a x y z => D0 a x y z + D1 a x y z). split.
    + intros a x y z Ha D. refine (L a x y z _ D _ _ (is_deriveC_plus _ _ _ _ _ (P0 a x y z Ha D) (P1 a x y z Ha D))). reflexivity.
    + refine (curlcurl_ext _ _ _ _ _ (ground_open xs ys zs) _ (curlcurl_plus _ _ _ _ _ Q0 Q1)). intros a x y z Ha D. unfold F. destruct (sum_parts ive kve _ k _ xs ys zs eH eV b a x y z W HH HV D) as [-> _]. split; [reflexivity|ring].
  - exists (fun a x y z => D0 a x y z + D1 a x y z + (D2 a x y z + D3 a x y z) + D4 a x y z). split.
    + intros a x y z Ha D. refine (L a x y z _ D _ _ (is_deriveC_plus _ _ _ _ _ (is_deriveC_plus _ _ _ _ _ (is_deriveC_plus _ _ _ _ _ (P0 a x y z Ha D) (P1 a x y z Ha D)) (is_deriveC_plus _ _ _ _ _ (P2 a x y z Ha D) (P3 a x y z Ha D))) (P4 a x y z Ha D))). reflexivity.
    + refine (curlcurl_ext _ _ _ _ _ (ground_open xs ys zs) _ (curlcurl_plus _ _ _ _ _ (curlcurl_plus _ _ _ _ _ (curlcurl_plus _ _ _ _ _ Q0 Q1) (curlcurl_plus _ _ _ _ _ Q2 Q3)) Q4)). intros a x y z Ha D. unfold F. destruct (sum_parts ive kve _ k _ xs ys zs eH eV b a x y z W HH HV D) as [_ ->]. split; [reflexivity|ring].
Qed.
End AirImp.
