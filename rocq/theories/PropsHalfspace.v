(** Properties of the diffusive half-space solution and of the routine analytical:
    C38, C52, C57, C58, C59, C60. *)

From Coq Require Import ZArith Reals List Bool Lia Lra Psatz QArith.
From Coquelicot Require Import Coquelicot.
From Verif Require Import PyBase CBase ODE UtilsAb Utils UtilsModel UtilsFreq Fullspace FullspaceThm FullspaceField
  Halfspace Stehfest HalfspaceThm Gauss HalfspaceTime Model Routines RoutinesThm.
Import ListNotations.
Local Open Scope R_scope.
Local Open Scope res_scope.

(** ** C38: the parts add up *)

Theorem C38_sums : forall ive kve inp ab off angle zsrc zrec etaH etaV,
  let H sol := halfspace ive kve inp sol ab off angle zsrc zrec etaH etaV in
  forall out, H Dhs = Ok out ->
  exists dTE dTM rTE rTM a, H Dtetm = Ok (Five dTE dTM rTE rTM a) /\
    H Dsplit = Ok (Three (add2 dTE dTM) (add2 rTE rTM) a) /\
    H Dfs = Ok (One (add2 dTE dTM)) /\
    H Dhs = Ok (One (add2 (add2 (add2 dTE dTM) (add2 rTE rTM)) a)).
Proof. exact hs_sums. Qed.

(** Signal -1: the switch-on value at 10^4 s minus the switch-on value, part by part. *)
Theorem C38_switch_off : forall ive kve times sol ab off angle zsrc zrec etaH etaV,
  let H signal ts := halfspace ive kve (HTime signal ts) sol ab off angle zsrc zrec etaH etaV in
  forall out, H (-1)%Z times = Ok out ->
  exists on dc, H 1%Z times = Ok on /\ H 1%Z [10 ^ 4] = Ok dc /\
    List.length (out_parts on) = List.length (out_parts out) /\ List.length (out_parts dc) = List.length (out_parts out) /\
    forall i, (i < List.length (out_parts out))%nat ->
      exists c, nth i (out_parts dc) [] = [c] /\
      nth i (out_parts out) [] = map (fun v => Cminus c v) (nth i (out_parts on) []).
Proof. exact hs_switch_off. Qed.

Theorem C38_lengths : forall ive kve inp sol ab off angle zsrc zrec etaH etaV out l,
  halfspace ive kve inp sol ab off angle zsrc zrec etaH etaV = Ok out -> In l (out_parts out) ->
  List.length l = match inp with HFreq _ s => List.length s | HTime _ t => List.length t end.
Proof. exact hs_lengths. Qed.

(** The value at 10^4 s is not the DC value.  Vertical source and receiver, 1 m vertical and
    sqrt 2 m horizontal distance, resistivity 1: the DC field vanishes, the switch-on
    response does not, but the switch-off response at 10^4 s is returned as zero. *)
Definition dc_on (t : R) : R :=
  match halfspace zk zk (HTime 1 [t]) Dfs 33 (sqrt 2) 0 0 1 (RtoC 1) (RtoC 1) with Ok (One [v]) => fst v | _ => 0 end.

Lemma dc_closed : forall t,
  halfspace zk zk (HTime 1 [t]) Dfs 33 (sqrt 2) 0 0 1 (RtoC 1) (RtoC 1) =
  Ok (One [RtoC (- (mu0 * 2 / (4 * PI * (sqrt 3) ^ 3)) * (exp (- (mu0 * 3 / 4) / t) / sqrt (PI * t) * (sqrt (mu0 * 3 / 4) / t)))]).
Proof.
  intros t. unfold halfspace. assert (HR : hs_res (RtoC 1) = 1) by (unfold hs_res, Cinv, RtoC; cbn [fst snd]; field).
  rewrite HR. assert (HA : hs_aniso (RtoC 1) 1 = 1) by (unfold hs_aniso; cbn [fst RtoC]; rewrite Rmult_1_r, sqrt_1; field). rewrite HA.
  assert (P2 : 0 < sqrt 2) by (apply sqrt_lt_R0; lra).
  destruct (hs_dist_pos (sqrt 2) 0 0 1 1 1 P2) as [N1 N2].
  destruct (Req_EM_T _ 0) as [E|_]; [contradiction|]. destruct (Req_EM_T _ 0) as [E|_]; [contradiction|].
  change (hs_imp0 (HTime 1 [t]) 33) with false. cbn [andb].
  unfold hs_parts. change (1 =? -1)%Z with false. change (1 =? 1)%Z with true. cbv iota. cbn [map]. do 3 f_equal.
  unfold hs_part. set (g := hs_geo (sqrt 2) 0 0 1 1 1).
  assert (H0 : Rabs (1 - 0) = 1) by (rewrite Rminus_0_r; apply Rabs_R1).
  assert (Q2 : sqrt 2 * sqrt 2 = 2) by (apply sqrt_sqrt; lra).
  assert (Q3 : sqrt 3 * sqrt 3 = 3) by (apply sqrt_sqrt; lra).
  assert (P3 : 0 < sqrt 3) by (apply sqrt_lt_R0; lra).
  assert (G1 : hsm g = 1) by (unfold g, hs_geo; cbn [hsm]; rewrite H0; ring).
  assert (G2 : rsm g = sqrt 3).
  { unfold g, hs_geo. cbn [rsm]. rewrite cos_0, sin_0, H0. f_equal.
    transitivity (sqrt 2 * sqrt 2 + 1); [ring|rewrite Q2; ring]. }
  assert (G3 : tsm g = mu0 * 3 / 4).
  { change (tsm g) with (mu0 * (rsm g) ^ 2 / (1 * 1 ^ 2 * 4)). rewrite G2. cbn [pow]. rewrite Rmult_1_r, Q3. field. }
  assert (K0 : forall z : C, rc 0 z = RtoC 0) by (intros z; unfold rc; apply Cmult_0_l).
  unfold hs_fields. cbn [p_d]. unfold hs_coef, hs_delta, hs_xy.
  change (inb 33 [11; 12; 21; 22]%Z) with false. change (inb 33 [13; 23; 31; 32]%Z) with false.
  change (inb 33 [22; 23; 32]%Z) with false. change (inb 33 [11; 22; 33]%Z) with true. cbn [Z.eqb Pos.eqb]. cbv iota zeta beta.
  cbn [s0m s1m s2m c1m c2m]. rewrite G1, G2. rewrite !K0.
  replace (3 * 1 ^ 2 - sqrt 3 ^ 2) with 0 by (cbn [pow]; rewrite !Rmult_1_r, Q3; ring).
  replace (1 ^ 2 - sqrt 3 ^ 2) with (-2) by (cbn [pow]; rewrite !Rmult_1_r, Q3; ring).
  unfold Rdiv at 1 2. rewrite !Rmult_0_r, !Rmult_0_l, !K0. unfold hs_f2, hs_f1. rewrite G3.
  rewrite !Cplus_0_l, !Cplus_0_r. unfold rc, RtoC, Cmult. cbn [fst snd]. assert (PP := PI_RGT_0).
  apply injective_projections; cbn [fst snd]; [|ring]. unfold Rdiv. ring.
Qed.

Theorem C38_dc_refuted :
  is_lim dc_on p_infty 0 /\ dc_on (10 ^ 4) <> 0 /\
  halfspace zk zk (HTime (-1) [10 ^ 4]) Dfs 33 (sqrt 2) 0 0 1 (RtoC 1) (RtoC 1) = Ok (One [RtoC 0]).
Proof.
  assert (PP := PI_RGT_0). assert (P1 := PI2_3_2). pose proof mu0_pos as Pm. assert (P3 : 0 < sqrt 3) by (apply sqrt_lt_R0; lra).
  set (K := mu0 * 2 / (4 * PI * (sqrt 3) ^ 3)). assert (PK : 0 < K).
  { apply Rdiv_lt_0_compat; [lra|]. apply Rmult_lt_0_compat; [lra|]. apply pow_lt; lra. }
  assert (PT : 0 < sqrt (mu0 * 3 / 4)) by (apply sqrt_lt_R0; lra).
  assert (V : forall t, dc_on t = - K * (exp (- (mu0 * 3 / 4) / t) / sqrt (PI * t) * (sqrt (mu0 * 3 / 4) / t))).
  { intros t. unfold dc_on. rewrite (dc_closed t). reflexivity. }
  split; [|split].
  - set (c := K * sqrt (mu0 * 3 / 4)). assert (Pc : 0 < c) by (apply Rmult_lt_0_compat; assumption).
    apply (is_lim_le_le_loc (fun t => - (c * / t)) (fun _ => 0)).
    + exists 1. intros t Ht. rewrite V.
      assert (S1 : 1 <= sqrt (PI * t)) by (rewrite <- sqrt_1; apply sqrt_le_1_alt; nra).
      assert (E1 : 0 < exp (- (mu0 * 3 / 4) / t) <= 1).
      { split; [apply exp_pos|]. rewrite <- exp_0. left. apply exp_increasing. unfold Rdiv. assert (0 < / t) by (apply Rinv_0_lt_compat; lra). nra. }
      assert (I1 : 0 < / sqrt (PI * t) <= 1) by (split; [apply Rinv_0_lt_compat; lra|rewrite <- Rinv_1; apply Rinv_le_contravar; lra]).
      assert (I2 : 0 < / t) by (apply Rinv_0_lt_compat; lra).
      assert (EV : - K * (exp (- (mu0 * 3 / 4) / t) / sqrt (PI * t) * (sqrt (mu0 * 3 / 4) / t)) =
        - (c * / t * (exp (- (mu0 * 3 / 4) / t) * / sqrt (PI * t)))) by (unfold c, Rdiv; ring).
      rewrite EV. set (e := exp (- (mu0 * 3 / 4) / t)) in *. set (u := / sqrt (PI * t)) in *.
      assert (B : 0 < e * u <= 1) by (split; [apply Rmult_lt_0_compat; lra|nra]).
      assert (B2 : 0 < c * / t) by (apply Rmult_lt_0_compat; lra).
      set (bb := c * / t) in *. set (ee := e * u) in *. split; nra.
    + apply (is_lim_ext (fun t => (- c) * / t)); [intros; ring|]. replace (Finite 0) with (Rbar_mult (- c) 0) by (cbn; f_equal; ring).
      apply is_lim_scal_l. apply (is_lim_inv (fun t => t) p_infty p_infty); [apply is_lim_id|discriminate].
    + apply is_lim_const.
  - rewrite V. assert (T : 0 < 10 ^ 4) by (apply pow_lt; lra). apply Rlt_not_eq.
    assert (0 < exp (- (mu0 * 3 / 4) / 10 ^ 4) / sqrt (PI * 10 ^ 4) * (sqrt (mu0 * 3 / 4) / 10 ^ 4)); [|nra].
    apply Rmult_lt_0_compat; apply Rdiv_lt_0_compat; try assumption; [apply exp_pos|]. apply sqrt_lt_R0. apply Rmult_lt_0_compat; lra.
  - assert (O : exists out, halfspace zk zk (HTime (-1) [10 ^ 4]) Dfs 33 (sqrt 2) 0 0 1 (RtoC 1) (RtoC 1) = Ok out).
    { pose proof (dc_closed 1) as D. unfold halfspace in *. destruct (Req_EM_T _ 0); [discriminate|]. destruct (Req_EM_T _ 0); [discriminate|].
      cbn [hs_imp0 Z.eqb Pos.eqb negb andb]. eexists. reflexivity. }
    destruct O as [out O]. destruct (hs_switch_off _ _ _ _ _ _ _ _ _ _ _ _ O) as [on [dc [A [B [_ [_ D]]]]]].
    rewrite O. rewrite A in B. injection B as B. subst dc.
    assert (OO : exists l, out = One l).
    { unfold halfspace in O. destruct (Req_EM_T _ 0); [discriminate|]. destruct (Req_EM_T _ 0); [discriminate|].
      destruct (hs_imp0 _ _ && _); [discriminate|]. injection O as <-. eauto. }
    destruct OO as [l ->]. destruct (D 0%nat) as [c [D1 D2]]; [cbn; lia|]. rewrite D1 in D2. cbn [out_parts nth map] in D2. rewrite D2.
    do 3 f_equal. ring.
Qed.

(** Non-vacuity of C38: the call above is accepted. *)
Example C38_case : exists out, halfspace zk zk (HTime 1 [2]) Dhs 33 (sqrt 2) 0 0 1 (RtoC 1) (RtoC 1) = Ok out.
Proof.
  pose proof (dc_closed 2) as D. unfold halfspace in *. destruct (Req_EM_T _ 0); [discriminate|]. destruct (Req_EM_T _ 0); [discriminate|].
  cbn [hs_imp0 Z.eqb Pos.eqb negb andb]. eexists. reflexivity.
Qed.

(** ** C52: Gaver-Stehfest coefficients, any even order 2 N *)
Theorem C52_sum_zero : forall N, rs (coeff_dk N) 1 (2 * N) = 0.
Proof. exact stehfest_sum. Qed.
Theorem C52_constants : forall N, (0 < N)%nat -> rs (fun k => coeff_dk N k / INR k) 1 (2 * N) = 1.
Proof. exact stehfest_const. Qed.
(** The sum as the code forms it (the transform is divided by the Laplace parameter). *)
Theorem C52_step : forall N c t, (0 < N)%nat -> stehfest N (fun _ => c) t = c.
Proof. exact stehfest_step. Qed.
Theorem C52_impulse : forall N c t, stehfest N (fun s => c * s) t = 0.
Proof. exact stehfest_impulse. Qed.
Theorem C52_linear : forall N a b f g t, stehfest N (fun s => a * f s + b * g s) t = a * stehfest N f t + b * stehfest N g t.
Proof. exact stehfest_linear. Qed.

(** [rs] is the plain sum: *)
Example C52_rs : rs (fun k => INR k) 1 3 = 6.
Proof. unfold rs. simpl. ring. Qed.
(** K = 2: the coefficients are 2 and -2. *)
Example C52_case : coeff_dk 1 1 = 2 /\ coeff_dk 1 2 = -2.
Proof. unfold coeff_dk, hs_arange, dk_term. simpl. split; field. Qed.

(** ** C57: the diffusive full-space solution is the full one without displacement currents *)
Theorem C57_diffusive_is_full : forall m hook ive kve src rec q freq a b,
  0 < min_res m -> 0 < min_freq m -> 0 < min_off m -> inputs_wf (q_in q) -> diffusive_model q ->
  freq <> [] -> (1 <= a <= 3)%Z -> (1 <= b <= 3)%Z ->
  analytical m hook ive kve src rec q (FtArr freq) (SolD Dfs) None (AbNum (inject_Z (10 * a + b))) =
  analytical m hook ive kve src rec q (FtArr freq) SolFs None (AbNum (inject_Z (10 * a + b))).
Proof. exact diffusive_is_full. Qed.

Example C57_case : diffusive_model (wit_q 0) /\ inputs_wf (q_in (wit_q 0)) /\
  analytical default_mins (fun _ fo => fo) zk zk wit_src wit_rec (wit_q 0) (FtArr [- (1 / epsilon_0)]) (SolD Dfs) None (AbNum (inject_Z 33)) =
  Ok ([[[wit_val 0]]], 1%nat, 1%nat).
Proof.
  split; [|split; [apply wit_wf|rewrite wit_analytical by lra; reflexivity]]. unfold diffusive_model, wit_q. cbn. repeat split; eauto.
Qed.

(** ** C60: parameters that the diffusive solutions ignore *)
Theorem C60_mperm : forall m hook ive kve src rec q q' ft s sg ab r,
  inputs_wf (q_in q) -> inputs_wf (q_in q') -> q_res q = ResArr r ->
  q_res q' = q_res q -> q_aniso q' = q_aniso q -> q_eH q' = q_eH q -> q_eV q' = q_eV q ->
  fits 1 (q_mH q) = true -> fits 1 (q_mV q) = true -> fits 1 (q_mH q') = true -> fits 1 (q_mV q') = true ->
  analytical m hook ive kve src rec q' ft (SolD s) sg ab = analytical m hook ive kve src rec q ft (SolD s) sg ab.
Proof. exact mperm_ignored. Qed.

(** The documentation says the same of the permittivities.  Resistivity 1, relative
    permittivities 0 and 1: *)
Theorem C60_eperm_refuted :
  let run e := analytical default_mins (fun _ fo => fo) zk zk wit_src wit_rec (wit_q e) (FtArr [- (1 / epsilon_0)]) (SolD Dfs) None (AbNum (inject_Z 33)) in
  exists v0 v1, run 0 = Ok ([[[v0]]], 1%nat, 1%nat) /\ run 1 = Ok ([[[v1]]], 1%nat, 1%nat) /\ v0 <> v1.
Proof.
  cbv zeta. exists (wit_val 0), (wit_val 1). rewrite !wit_analytical by lra. split; [reflexivity|]. split; [reflexivity|exact eperm_matters].
Qed.

(** A python list of frequencies, documented as array_like, is never accepted by the
    diffusive solutions. *)
Theorem C60_list_refuted : forall m hook ive kve src rec q l s ab v,
  analytical m hook ive kve src rec q (FtList l) (SolD s) None ab <> Ok v.
Proof. exact list_rejected. Qed.

Example C60_case : fits 1 (Some (Nd [] [5])) = true /\ fits 1 None = true.
Proof. split; reflexivity. Qed.

(** ** C58: time domain and Laplace domain fit together (direct and reflected parts) *)
Theorem C58_impulse_is_derivative : forall ive kve ab off angle zs zr etaH etaV,
  0 < hs_res etaH -> 0 < fst etaV -> 0 < off -> forall i u, (i < 4)%nat -> 0 < u ->
  is_deriveC (fun v => hs_val (halfspace ive kve (HTime 1 [v]) Dtetm ab off angle zs zr etaH etaV) i) u
             (hs_val (halfspace ive kve (HTime 0 [u]) Dtetm ab off angle zs zr etaH etaV) i).
Proof. exact hs_impulse_is_derivative. Qed.

Theorem C58_laplace_of_impulse : forall ive kve ab off angle zs zr etaH etaV,
  0 < hs_res etaH -> 0 < fst etaV -> 0 < off -> forall i s, (i < 4)%nat -> 0 < s ->
  let im u := hs_val (halfspace ive kve (HTime 0 [u]) Dtetm ab off angle zs zr etaH etaV) i in
  let L := hs_val (halfspace ive kve (HFreq true [RtoC s]) Dtetm ab off angle zs zr etaH etaV) i in
  (forall u, snd (im u) = 0) /\ snd L = 0 /\
  is_RInt_gen (fun u => fst (im u) * exp (- (s * u))) (at_right 0) (Rbar_locally p_infty) (fst L).
Proof. exact hs_laplace_of_impulse. Qed.

Example C58_case : 0 < hs_res (RtoC 1) /\ 0 < fst (RtoC 1) /\ 0 < 1 /\
  exists a b c d e, halfspace zk zk (HTime 0 [2]) Dtetm 11 1 0 3 4 (RtoC 1) (RtoC 1) = Ok (Five a b c d e).
Proof.
  assert (H1 : 0 < hs_res (RtoC 1)) by (unfold hs_res, Cinv, RtoC; cbn; rewrite Rmult_0_l, Rplus_0_r, !Rmult_1_r; lra).
  split; [exact H1|]. split; [cbn; lra|]. split; [lra|].
  pose proof (hs_five zk zk 11 1 0 3 4 (RtoC 1) (RtoC 1) H1 ltac:(cbn; lra) ltac:(lra) (HTime 0 [2]) (AtImp 2) eq_refl) as [isr F]. rewrite F. do 5 eexists. reflexivity.
Qed.

(** ** C59: analytical full-space solution and dipole *)
Theorem C59_analytical_is_dipole : forall m hook mk ive kve src rec q ft ab lf lo r,
  inputs_wf (q_in q) -> q_res q = ResArr r ->
  analytical m hook ive kve src rec q ft SolFs None ab =
  ('(EM, nrec, nsrc) <- dipole m hook mk src rec [] q (ft_data ft) ab (Some true) lf lo ;; Ok ([EM], nrec, nsrc)).
Proof. exact analytical_is_dipole. Qed.

Example C59_case : exists EM, 
  dipole default_mins (fun _ fo => fo) (fun _ _ _ _ _ _ _ _ _ _ _ _ => Err ValueError) wit_src wit_rec [] (wit_q 0) [- (1 / epsilon_0)] (AbNum (inject_Z 33)) (Some true) false false
  = Ok (EM, 1%nat, 1%nat) /\ EM = [[wit_val 0]].
Proof.
  pose proof (C59_analytical_is_dipole default_mins (fun _ fo => fo) (fun _ _ _ _ _ _ _ _ _ _ _ _ => Err ValueError) zk zk wit_src wit_rec (wit_q 0) (FtArr [- (1 / epsilon_0)]) (AbNum (inject_Z 33)) false false (Nd [] [1]) (wit_wf 0) eq_refl) as H.
  change (inject_Z 33) with (inject_Z (10 * 3 + 3)) in H at 1. rewrite <- (C57_diffusive_is_full default_mins (fun _ fo => fo) zk zk wit_src wit_rec (wit_q 0) [- (1 / epsilon_0)] 3 3) in H.
  - change (inject_Z (10 * 3 + 3)) with (inject_Z 33) in H. rewrite wit_analytical in H by lra. cbn [ft_data] in H.
    destruct (dipole _ _ _ _ _ _ _ _ _ _ _ _) as [[[EM nr] ns]|]; cbn [bind] in H; [|discriminate].
    injection H as <- <- <-. exists [[wit_val 0]]. split; reflexivity.
  - cbn [min_res default_mins]. apply small20.
  - cbn [min_freq default_mins]. apply small20.
  - cbn [min_off default_mins]. apply Rinv_0_lt_compat. apply pow_lt. lra.
  - apply wit_wf.
  - apply C57_case.
  - discriminate.
  - lia.
  - lia.
Qed.

Print Assumptions C38_sums.
Print Assumptions C38_switch_off.
Print Assumptions C38_dc_refuted.
Print Assumptions C52_constants.
Print Assumptions C52_sum_zero.
Print Assumptions C57_diffusive_is_full.
Print Assumptions C58_impulse_is_derivative.
Print Assumptions C58_laplace_of_impulse.
Print Assumptions C59_analytical_is_dipole.
Print Assumptions C60_mperm.
Print Assumptions C60_eperm_refuted.
