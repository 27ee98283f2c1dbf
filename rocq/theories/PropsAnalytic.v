(** Properties of the full-space solution: C39, C55, C56. *)

From Coq Require Import ZArith Reals List Bool Lia Lra Psatz QArith.
From Coquelicot Require Import Coquelicot.
From Verif Require Import PyBase CBase ODE Utils UtilsAb UtilsFreq Fullspace FullspaceThm FullspaceMaxwell FullspaceCurl FullspaceField FullspaceEM.
Import ListNotations.
Local Open Scope R_scope.
Local Open Scope C_scope.
Local Open Scope res_scope.

(** ** C39: symmetries *)

(** Exchange of source and receiver: positions and directions exchanged, sign -1 for one
    electric and one magnetic dipole. *)
Theorem C39_exchange : forall rdt an a b off angle zs zr eH eV zH zV, fs_pair a b ->
  fs_comp rdt an b a off (angle + PI) zr zs eH eV zH zV = rmul (mixed a b) (fs_comp rdt an a b off angle zs zr eH eV zH zV).
Proof. exact fs_exchange. Qed.

(** Rotation of the whole survey by 90 degrees. *)
Theorem C39_rotation : forall rdt an a b off angle zs zr eH eV zH zV, fs_pair a b ->
  fs_comp rdt an (rot a) (rot b) off (angle + PI / 2) zs zr eH eV zH zV =
  rmul (RtoC (rsgn a * rsgn b)) (fs_comp rdt an a b off angle zs zr eH eV zH zV).
Proof. exact fs_rotation. Qed.

(** Duality, one electric and one magnetic dipole. *)
Theorem C39_dual_mixed : forall rdt an an' a b off angle zs zr eH eV zH zV, fs_pair (a + 3) b -> (1 <= a <= 3)%Z -> (b <= 3)%Z ->
  fs_comp rdt an (a + 3) b off angle zs zr eH eV zH zV =
  rmul (RtoC (-1)) (fs_comp rdt an' a (b + 3) off angle zs zr zH zV eH eV).
Proof. exact fs_dual_mixed. Qed.

(** Duality, two magnetic dipoles, for positive permittivities at all frequencies. *)
Theorem C39_dual_magnetic : forall a b off angle zs zr eH eV zH zV etas zetas,
  (1 <= a <= 3)%Z -> (1 <= b <= 3)%Z ->
  In eH etas -> (forall e, In e etas -> 0 < snd e) -> 0 < snd zH ->
  fs_comp false (fs_anyneg true true etas zetas) (a + 3) (b + 3) off angle zs zr eH eV zH zV =
  fs_comp false (fs_anyneg false false zetas etas) a b off angle zs zr zH zV eH eV.
Proof. exact fs_dual_mm. Qed.

(** For zero permittivity the term with the two exponentials enters with the wrong sign. *)
Theorem C39_dual_conductive : forall a b off angle zs zr sH eV zH zV etas zetas,
  (1 <= a <= 2)%Z -> (1 <= b <= 2)%Z ->
  (forall e, In e etas -> snd e = 0%R) -> 0 < sH -> 0 < snd zH ->
  exists v, fs_comp false (fs_anyneg false false zetas etas) a b off angle zs zr zH zV (RtoC sH) eV = Ok v /\
  fs_comp false (fs_anyneg true true etas zetas) (a + 3) (b + 3) off angle zs zr (RtoC sH) eV zH zV =
  Ok (Cplus v (Cmult (RtoC 2) (term4_mm a b off (cos angle * off) (sin angle * off) zs zr (RtoC sH) eV zH zV))).
Proof. exact fs_mm_conductive. Qed.

Lemma sqrt_2i : Csqrt (0, 2)%R = (1, 1)%R.
Proof.
  unfold Csqrt. cbn [fst snd]. assert (Cmod (0, 2)%R = 2%R) as ->.
  { unfold Cmod. cbn [fst snd]. replace (0 ^ 2 + 2 ^ 2)%R with (2 * 2)%R by ring. apply sqrt_square. lra. }
  destruct (Rlt_dec 2 0); [lra|]. replace ((2 + 0) / 2)%R with 1%R by field. replace ((2 - 0) / 2)%R with 1%R by field. rewrite sqrt_1. f_equal. ring.
Qed.
Lemma sqrt_8i : Csqrt (0, 8)%R = (2, 2)%R.
Proof.
  unfold Csqrt. cbn [fst snd]. assert (Cmod (0, 8)%R = 8%R) as ->.
  { unfold Cmod. cbn [fst snd]. replace (0 ^ 2 + 8 ^ 2)%R with (8 * 8)%R by ring. apply sqrt_square. lra. }
  destruct (Rlt_dec 8 0); [lra|]. replace ((8 + 0) / 2)%R with (2 * 2)%R by field. replace ((8 - 0) / 2)%R with (2 * 2)%R by field. rewrite sqrt_square by lra. f_equal. ring.
Qed.

Lemma Cmod_Cexp : forall z, Cmod (Cexp z) = exp (fst z).
Proof.
  intros [a b]. unfold Cmod, Cexp. cbn [fst snd].
  replace ((exp a * cos b) ^ 2 + (exp a * sin b) ^ 2)%R with (exp a * exp a)%R.
  - apply sqrt_square. apply Rlt_le, exp_pos.
  - pose proof (sin2_cos2 b) as H. unfold Rsqr in H. transitivity (exp a * exp a * (sin b * sin b + cos b * cos b))%R; [rewrite H; ring|ring].
Qed.

(** Horizontal conductivity 1, vertical 4, no permittivity; both dipoles magnetic in x. *)
Theorem C39_magnetic_refuted :
  ~ (forall a b off angle zs zr eH eV zH zV, (1 <= a <= 3)%Z -> (1 <= b <= 3)%Z -> quad1 eH -> quad1 eV -> quad1 zH -> quad1 zV -> 0 < off ->
     fs_comp false (fs_anyneg true true [eH] [zH]) (a + 3) (b + 3) off angle zs zr eH eV zH zV =
     fs_comp false (fs_anyneg false false [zH] [eH]) a b off angle zs zr zH zV eH eV).
Proof.
  intros H.
  assert (Q0 : forall x y, 0 <= x -> 0 <= y -> (x, y) <> RtoC 0 -> quad1 (x, y)) by (intros; repeat split; assumption).
  assert (Q1 : quad1 (RtoC 1)) by (apply Q0; try lra; intros W; injection W; lra).
  assert (Q2 : quad1 (RtoC 4)) by (apply Q0; try lra; intros W; injection W; lra).
  assert (Q3 : quad1 (0, 2)%R) by (apply Q0; try lra; intros W; injection W; lra).
  specialize (H 1%Z 1%Z 1%R 0%R 0%R 0%R (RtoC 1) (RtoC 4) (0, 2)%R (0, 2)%R ltac:(lia) ltac:(lia) Q1 Q2 Q3 Q3 ltac:(lra)).
  destruct (fs_mm_conductive 1 1 1 0 0 0 1 (RtoC 4) (0, 2)%R (0, 2)%R [RtoC 1] [(0, 2)%R] ltac:(lia) ltac:(lia)) as [v [V1 V2]].
  { intros e [<- | []]. reflexivity. } { lra. } { simpl; lra. }
  assert (H' := eq_trans (eq_sym V2) (eq_trans H V1)). clear H. rename H' into H. apply Ok_inj in H.
  assert (T : term4_mm 1 1 1 (cos 0 * 1) (sin 0 * 1) 0 0 (RtoC 1) (RtoC 4) (0, 2)%R (0, 2)%R = RtoC 0).
  { assert (N2 : RtoC 2 <> RtoC 0) by apply c2nz.
    transitivity (Cdiv (Cminus (Cplus v (Cmult (RtoC 2) (term4_mm 1 1 1 (cos 0 * 1) (sin 0 * 1) 0 0 (RtoC 1) (RtoC 4) (0, 2)%R (0, 2)%R))) v) (RtoC 2)); [field; exact N2|].
    rewrite H. field. exact N2. }
  unfold term4_mm in T. cbn [Z.eqb Pos.eqb andb] in T. rewrite cos_0 in T.
  assert (L1 : fs_lGam (0, 2)%R (RtoC 1) = (1, 1)%R) by (unfold fs_lGam; rewrite Cmult_1_l; apply sqrt_2i).
  assert (L2 : fs_lGam (RtoC 4) (0, 2)%R = (2, 2)%R).
  { unfold fs_lGam. replace (Cmult (0, 2)%R (RtoC 4)) with (0, 8)%R by (apply injective_projections; simpl; ring). apply sqrt_8i. }
  assert (RR : forall h v, fs_R 1 0 0 h v = RtoC 1).
  { intros h w. unfold fs_R. replace ((0 - 0) * (0 - 0))%R with 0%R by ring. replace (1 * 1)%R with 1%R by ring. unfold Cdiv. rewrite !Cmult_0_l, Cplus_0_r. apply Csqrt_1. }
  rewrite L1, L2, !RR, Csqrt_1, sqrt_2i, !Cmult_1_r in T.
  replace (2 * (1 * 1) * (1 * 1) / (1 * 1) - 1)%R with 1%R in T by field. rewrite Cmult_1_l in T.
  assert (D : Cexp (Copp (1, 1)%R) = Cexp (Copp (2, 2)%R)).
  { pose proof c4pi_nz as N4. assert (N5 : (1, 1)%R <> RtoC 0) by (intros W; injection W; lra).
    replace (RtoC (1 * 1)) with (RtoC 1) in T by (apply (f_equal RtoC); ring). rewrite !Cmult_1_r in T. rewrite Cmult_1_l in T.
    set (u := Cexp (Copp (1, 1)%R)) in *. set (w := Cexp (Copp (2, 2)%R)) in *.
    assert (Cminus u w = RtoC 0).
    { transitivity (Cmult (Cdiv (Cminus u w) (Cmult c4pi (1, 1)%R)) (Cmult c4pi (1, 1)%R)); [field; auto|]. rewrite T. ring. }
    transitivity (Cplus (Cminus u w) w); [ring|]. rewrite H0. ring. }
  apply (f_equal Cmod) in D. rewrite !Cmod_Cexp in D. cbn [fst Copp] in D. apply exp_inv in D. lra.
Qed.

(** In the Laplace domain the horizontal magnetic components are not a number. *)
Theorem C39_laplace_refuted : forall an a b off angle zs zr eH eV zH zV,
  (4 <= a <= 5)%Z -> (4 <= b <= 5)%Z -> 0 < fst eH -> fs_comp true an a b off angle zs zr eH eV zH zV = Err NanE.
Proof. exact fs_laplace_mm. Qed.

Lemma q_ex1 : quad1 (1 / 2, 3)%R. Proof. split; [simpl; lra|split; [simpl; lra|]]. intros W; injection W; lra. Qed.
Lemma q_ex2 : quad1 (1, 3)%R. Proof. split; [simpl; lra|split; [simpl; lra|]]. intros W; injection W; lra. Qed.
Lemma q_ex3 : quad1 (0, 2)%R. Proof. split; [simpl; lra|split; [simpl; lra|]]. intros W; injection W; lra. Qed.
Lemma q_ex4 : quad1 (0, 1)%R. Proof. split; [simpl; lra|split; [simpl; lra|]]. intros W; injection W; lra. Qed.

(** an anisotropic medium with all hypotheses; the response is a number *)
Example C39_case : fs_pair 4 1 /\ fs_pair 6 2 /\
  exists v, fs_comp false (fs_anyneg true true [(1 / 2, 3)%R] [(0, 2)%R]) (1 + 3) (2 + 3) 10 1 2 5 (1 / 2, 3)%R (1, 3)%R (0, 2)%R (0, 1)%R = Ok v.
Proof.
  split; [|split]; [repeat split; lia..|].
  rewrite fs_dual_mm; try lia.
  - destruct (fs_modes false 1 2 10 1 2 5 (0, 2)%R (0, 1)%R (1 / 2, 3)%R (1, 3)%R q_ex3 q_ex4 q_ex1 q_ex2 ltac:(lra) ltac:(lia) ltac:(lia)) as [M _].
    unfold fs_anyneg. cbn [andb existsb snd]. destruct (Rlt_dec 3 0); [lra|]. cbn [orb]. rewrite M. eexists; reflexivity.
  - left; reflexivity.
  - intros e [<- | []]. simpl; lra.
  - simpl; lra.
Qed.

Print Assumptions C39_exchange.
Print Assumptions C39_rotation.
Print Assumptions C39_dual_mixed.
Print Assumptions C39_dual_magnetic.
Print Assumptions C39_dual_conductive.
Print Assumptions C39_magnetic_refuted.
Print Assumptions C39_laplace_refuted.

(** ** C55: the responses solve Maxwell's equations *)

(** Electric sources; frequency and Laplace domain. *)
Theorem C55_electric : forall rdt etas zetas b xs ys zs eH eV zH zV,
  quad1 eH -> quad1 eV -> quad1 zH -> quad1 zV -> (forall c, In c zetas -> 0 <= snd c) -> (1 <= b <= 3)%Z ->
  exists E H : Z -> R -> R -> R -> C,
    (forall a x y z, (1 <= a <= 3)%Z -> off_axis xs ys x y ->
       fs_xyz rdt etas zetas a b xs ys zs eH eV zH zV x y z = Ok (E a x y z) /\
       fs_xyz rdt etas zetas (a + 3) b xs ys zs eH eV zH zV x y z = Ok (H a x y z)) /\
    (forall x y z, off_axis xs ys x y -> maxwell eH eV zH zV E H x y z).
Proof. exact fs_maxwell_electric. Qed.

(** Magnetic sources; positive permittivity and permeability. *)
Theorem C55_magnetic : forall etas zetas b xs ys zs eH eV zH zV,
  quad1 eH -> quad1 eV -> quad1 zH -> quad1 zV ->
  In eH etas -> (forall e, In e etas -> 0 < snd e) -> 0 < snd zH -> (4 <= b <= 6)%Z ->
  exists E H : Z -> R -> R -> R -> C,
    (forall a x y z, (1 <= a <= 3)%Z -> off_axis xs ys x y ->
       fs_xyz false etas zetas a b xs ys zs eH eV zH zV x y z = Ok (E a x y z) /\
       fs_xyz false etas zetas (a + 3) b xs ys zs eH eV zH zV x y z = Ok (H a x y z)) /\
    (forall x y z, off_axis xs ys x y -> maxwell eH eV zH zV E H x y z).
Proof. exact fs_maxwell_magnetic. Qed.

Example C55_case : quad1 (1 / 2, 3)%R /\ quad1 (1, 3)%R /\ quad1 (0, 2)%R /\ quad1 (0, 1)%R /\ off_axis 1 2 3 4.
Proof. split; [exact q_ex1|]. split; [exact q_ex2|]. split; [exact q_ex3|]. split; [exact q_ex4|]. unfold off_axis. lra. Qed.
Print Assumptions C55_electric.
Print Assumptions C55_magnetic.

(** ** C56: isotropic media *)
Theorem C56_electric : forall rdt etas zetas a b xs ys zs eta zeta x y z,
  quad1 eta -> quad1 zeta -> (forall c, In c zetas -> 0 <= snd c) ->
  (1 <= a <= 3)%Z -> (1 <= b <= 3)%Z -> off_axis xs ys x y ->
  fs_xyz rdt etas zetas a b xs ys zs eta eta zeta zeta x y z = Ok (iso_ee eta zeta a b (x - xs) (y - ys) (z - zs)) /\
  fs_xyz rdt etas zetas (a + 3) b xs ys zs eta eta zeta zeta x y z = Ok (iso_me eta zeta a b (x - xs) (y - ys) (z - zs)).
Proof. exact fs_isotropic. Qed.
Theorem C56_magnetic : forall etas zetas a b xs ys zs eta zeta x y z,
  quad1 eta -> quad1 zeta -> In eta etas -> (forall e, In e etas -> 0 < snd e) -> 0 < snd zeta ->
  (1 <= a <= 3)%Z -> (1 <= b <= 3)%Z -> off_axis xs ys x y ->
  fs_xyz false etas zetas (a + 3) (b + 3) xs ys zs eta eta zeta zeta x y z = Ok (iso_ee zeta eta a b (x - xs) (y - ys) (z - zs)) /\
  fs_xyz false etas zetas a (b + 3) xs ys zs eta eta zeta zeta x y z = Ok (Copp (iso_me zeta eta a b (x - xs) (y - ys) (z - zs))).
Proof. exact fs_isotropic_magnetic. Qed.

(** static limit of the numbers: x-directed dipole seen broadside at distance 2 in a
    medium with eta = 1, zeta = 1: -exp(-2)(1/4 + 1/2 + 1)/(8 pi) *)
Example C56_case : iso_ee (RtoC 1) (RtoC 1) 1 1 0 2 0 = RtoC (- (exp (-2) * (7 / 4)) / (8 * PI)).
Proof.
  unfold iso_ee, iso_g, comp3. cbn [Z.eqb Pos.eqb]. cbv iota zeta. rewrite Cmult_1_l, Csqrt_1.
  replace (sqrt (0 * 0 + 2 * 2 + 0 * 0)) with 2%R by (replace (0 * 0 + 2 * 2 + 0 * 0)%R with (2 * 2)%R by ring; symmetry; apply sqrt_square; lra).
  pose proof PI_RGT_0 as PP.
  assert (E2 : Cexp (Copp (Cmult (RtoC 1) (RtoC 2))) = RtoC (exp (-2))).
  { unfold Cexp. cbn [fst snd Copp Cmult RtoC]. replace (- (1 * 2 - 0 * 0))%R with (-2)%R by ring. replace (- (1 * 0 + 0 * 2))%R with 0%R by ring.
    rewrite cos_0, sin_0. apply injective_projections; simpl; ring. }
  rewrite E2. rewrite !Cdiv_1_r. unfold Cdiv, Cminus. rewrite <- !RtoC_inv by lra.
  rewrite <- ?RtoC_mult, <- ?RtoC_plus, <- ?RtoC_mult, <- ?RtoC_plus, <- ?RtoC_opp, <- ?RtoC_mult, <- ?RtoC_plus, <- ?RtoC_mult. apply (f_equal RtoC). field. lra.
Qed.
Print Assumptions C56_electric.
Print Assumptions C56_magnetic.
