(** Properties of the TM/TE split of scripts/tmtemod.py (C50 and C51), and vertical
    translation of the routines (C06). *)

From Coq Require Import ZArith Reals List Bool String QArith Lia Lra.
From Coquelicot Require Import Coquelicot.
From Verif Require Import PyBase CBase Kernel KernelSpec KernelClosed KernelMain KernelThm Utils UtilsAb UtilsLayer UtilsModel UtilsFreq UtilsGeo UtilsSurvey Transform TransformDlf
  Fullspace Model ModelFem ModelTem Routines RoutinesThm Bipole BipoleCol BipoleThm BipoleLoop BipoleFinal BipoleStrength BipoleDip RoutinesK RoutinesKThm PropsUtils PropsTransform PropsBipole PropsRoutines
  Tmtemod TmtemodThm Shift TmtemodShift.
Import ListNotations.
Local Open Scope R_scope.
Local Open Scope res_scope.

(** ** C50 *)
(** Two layers, the source and the receiver in the lower one *)
Definition w_q : params := tm_params (ResArr (Nd [2%nat] [1; 2])) None None None.
Definition w_dep : list ext := [Fin (-1)].
Lemma w_wf : inputs_wf (inp_of w_q).
Proof. constructor; cbn; auto; intros kv []. Qed.
Lemma w_model : exists mo, check_model default_mins w_dep (q_res w_q) None None None None None = Ok mo /\ m_depth mo = [NInf; Fin (-1)] /\ m_res mo = [Rmax 1 (min_res default_mins); Rmax 2 (min_res default_mins)] /\
  m_aniso mo = [1; 1] /\ m_epermH mo = [1; 1] /\ m_mpermH mo = [1; 1].
Proof.
  change (exists mo, cmodel default_mins w_dep (inp_of w_q) = Ok mo /\ m_depth mo = [NInf; Fin (-1)] /\ m_res mo = [Rmax 1 (min_res default_mins); Rmax 2 (min_res default_mins)] /\
  m_aniso mo = [1; 1] /\ m_epermH mo = [1; 1] /\ m_mpermH mo = [1; 1]). rewrite check_model_closed by exact w_wf.
  assert (CD : check_depth w_dep = Ok (false, [NInf; Fin (-1)])) by reflexivity. rewrite CD. cbn [List.length].
  assert (AF : all_fit 2 (inp_of w_q) = true) by reflexivity. rewrite AF. eexists. split; [reflexivity|]. repeat split; reflexivity.
Qed.
Lemma w_plain : plain_model default_mins w_dep w_q [2].
Proof.
  constructor; try (exact (proj2 small20)); try discriminate.
  - eexists. reflexivity.
  - exact w_wf.
  - left. intros i j H. cbn in H. lia.
  - intros o E1. destruct w_model as (mo & Em & _ & _ & _ & _ & HM). change (cmodel default_mins w_dep (inp_of w_q) = Ok mo) in Em.
    assert (o = mo) by congruence. subst o. intros x Hx. assert (HV : m_mpermV mo = [1; 1]).
    { rewrite check_model_closed in Em by exact w_wf. assert (CD : check_depth w_dep = Ok (false, [NInf; Fin (-1)])) by reflexivity. rewrite CD in Em. cbn [List.length] in Em.
      assert (AF : all_fit 2 (inp_of w_q) = true) by reflexivity. rewrite AF in Em. match type of Em with Ok ?u = Ok ?v => assert (HW : v = u) by congruence end. rewrite HW. reflexivity. }
    rewrite HM, HV in Hx. cbn in Hx. destruct Hx as [[Hx | [Hx | [] ]] | [Hx | [Hx | [] ]]]; lra.
Qed.
Lemma w_layer : forall x, -1 < x -> layer1 [NInf; Fin (-1)] x = Ok 1%Z.
Proof.
  intros x Hx. unfold layer1, get_layer_nr. cbn [tl app map2 combine map flat_map xltb xgeb fst snd].
  unfold map2. cbn [combine map fst snd xltb xgeb xltb negb andb]. unfold where_row. cbn [List.length seq combine].
  replace (Rltb (-1) x) with true by (symmetry; apply UtilsLayer.Rltb_true; lra).
  replace (xgeb (Fin (-1)) (Fin x)) with false; [reflexivity|]. unfold xgeb. cbn [xltb]. replace (Rltb (-1) x) with true by (symmetry; apply UtilsLayer.Rltb_true; lra). reflexivity.
Qed.

Theorem C50_sum : forall m hook spl filt src rec depth rs aniso eperm mperm freq lf lo off angle zs zr ns nr mo ls,
  well_formed filt -> plain_model m depth (tm_params rs aniso eperm mperm) freq -> 0 < min_off m -> (lf && lo = false)%bool ->
  check_model m depth rs aniso eperm eperm mperm mperm = Ok mo -> (2 <= List.length (m_depth mo))%nat -> (List.length freq <= 1)%nat ->
  geometry m src rec = Ok (off, angle, zs, zr, ns, nr) -> off <> [] ->
  layer1 (m_depth mo) zs = Ok ls -> layer1 (m_depth mo) zr = Ok ls ->
  exists T, tm_dipole m filt src rec depth rs aniso eperm mperm freq = Ok T /\
    dipole m hook (dlf_mk spl filt) src rec depth (tm_params rs aniso eperm mperm) freq (AbNum (inject_Z 11)) (Some false) lf lo = Ok (map (map both) T, nr, ns).
Proof. exact tm_dipole_sum. Qed.
Example C50_case : exists T, tm_dipole default_mins x_filt r_src r_rec w_dep (ResArr (Nd [2%nat] [1; 2])) None None None [2] = Ok T /\
  dipole default_mins nohook (dlf_mk x_spl x_filt) r_src r_rec w_dep w_q [2] (AbNum (inject_Z 11)) (Some false) false false = Ok (map (map both) T, 1%nat, 1%nat).
Proof.
  destruct w_model as (mo & Em & Ed & _).
  apply (C50_sum default_mins nohook x_spl x_filt r_src r_rec w_dep _ None None None [2] false false [1] [0] 0 1 1 1 mo 1%Z x_wf w_plain x_off_pos eq_refl Em);
    try rewrite Ed; try exact r_geo; try discriminate; try (apply w_layer; lra); cbn; lia.
Qed.

(** The corrections that the code adds to the parts of each mode cancel in the sum of
    all parts. *)
Theorem C50_corrections : forall eH eV zH zV z N s zs zr af off pe pm, passive_medium eH eV zH zV z N -> (s <= N)%nat -> 0 < off ->
  let w := mkrow (arr eH N) (arr eV N) (arr zH N) (arr zV N) in
  tm_corr w (depth_arr z N) (arr zH N) (Z.of_nat s) (Z.of_nat s) zs zr af off 1 = Ok pe ->
  tm_corr w (depth_arr z N) (arr eH N) (Z.of_nat s) (Z.of_nat s) zs zr af off (-1) = Ok pm ->
  Cplus (p_total pe) (p_total pm) = RtoC 0.
Proof.
  intros eH eV zH zV z N s zs zr af off pe pm PM Hs Ho w H1 H2. unfold w in *.
  rewrite (tm_corr_closed eH eV zH zV z N PM zH 1 s zs zr af off (reg0_TE _ _ _ _ _ _ PM) Hs Ho) in H1.
  rewrite (tm_corr_closed eH eV zH zV z N PM eH (-1) s zs zr af off (reg0_TM _ _ _ _ _ _ PM) Hs Ho) in H2.
  assert (E1 : pe = corr eH eV zH z N zH 1 s zs zr af off) by congruence. assert (E2 : pm = corr eH eV zH z N eH (-1) s zs zr af off) by congruence.
  rewrite E1, E2. exact (corr_cancel eH eV zH zV z N PM s zs zr af off Hs).
Qed.
Print Assumptions C50_sum.
Print Assumptions C50_corrections.

(** ** C51 *)
(** [up c] and [pt_up c] move the interfaces and a point down by [c].  The parts "--",
    "-+", "++" and the direct field of both modes stay the same; the part "+-" stays
    the same when the source is in the first layer.  Missing: the part "+-" in the other
    layers, which changes (below). *)
Theorem C51_shift_partial : forall c m filt src rec depth rs aniso eperm mperm freq T,
  tm_dipole m filt src rec depth rs aniso eperm mperm freq = Ok T ->
  exists T', tm_dipole m filt (pt_up c src) (pt_up c rec) (up c depth) rs aniso eperm mperm freq = Ok T' /\
    Forall2 (Forall2 (fun p p' => four_same (fst p) (fst p') /\ four_same (snd p) (snd p'))) T T' /\
    (forall mo off an zs zr ns nr, check_model m depth rs aniso eperm eperm mperm mperm = Ok mo -> geometry m src rec = Ok (off, an, zs, zr, ns, nr) -> layer1 (m_depth mo) zs = Ok 0%Z -> T' = T).
Proof. exact tm_dipole_shift. Qed.
Lemma strictx_up : forall c d, strictx d -> strictx (up c d).
Proof.
  intros c d H i j Hij. unfold up in *. rewrite map_length in Hij. change NInf with (xsh c NInf). rewrite !map_nth, xltb_sh. now apply H.
Qed.
Lemma plain_up : forall c m depth q freq, plain_model m depth q freq -> plain_model m (up c depth) q freq.
Proof.
  intros c m depth q freq [H1 H2 H3 H4 H5 H6 H7]. constructor; try assumption.
  - destruct H3 as [H3|H3]; [left; now apply strictx_up|right]. unfold up. rewrite <- map_rev. now apply strictx_up.
  - intros o E. unfold cmodel in E. rewrite check_model_up in E. destruct (check_model m depth _ _ _ _ _ _) as [mo|] eqn:Em; cbn [bind] in E; [|discriminate].
    assert (Eo : o = mo_up c mo) by congruence. rewrite Eo. cbn [mo_up m_mpermH m_mpermV]. now apply H6.
Qed.
(** The sum of all parts does not change either. *)
Theorem C51_sum : forall c m filt src rec depth rs aniso eperm mperm freq off angle zs zr ns nr mo ls,
  well_formed filt -> plain_model m depth (tm_params rs aniso eperm mperm) freq -> 0 < min_off m ->
  check_model m depth rs aniso eperm eperm mperm mperm = Ok mo -> (2 <= List.length (m_depth mo))%nat -> (List.length freq <= 1)%nat ->
  geometry m src rec = Ok (off, angle, zs, zr, ns, nr) -> off <> [] ->
  layer1 (m_depth mo) zs = Ok ls -> layer1 (m_depth mo) zr = Ok ls ->
  exists T T', tm_dipole m filt src rec depth rs aniso eperm mperm freq = Ok T /\
    tm_dipole m filt (pt_up c src) (pt_up c rec) (up c depth) rs aniso eperm mperm freq = Ok T' /\ map (map both) T' = map (map both) T.
Proof.
  intros c m filt src rec depth rs aniso eperm mperm freq off angle zs zr ns nr mo ls HF HP HO Em H2 H1 EG NO Es Er.
  destruct (tm_dipole_sum m nohook x_spl filt src rec depth rs aniso eperm mperm freq false false off angle zs zr ns nr mo ls HF HP HO eq_refl Em H2 H1 EG NO Es Er) as (T & ET & ED).
  exists T. destruct (tm_dipole_sum m nohook x_spl filt (pt_up c src) (pt_up c rec) (up c depth) rs aniso eperm mperm freq false false off angle (zs + c) (zr + c) ns nr (mo_up c mo) ls HF (plain_up c _ _ _ _ HP) HO eq_refl) as (T' & ET' & ED'); try assumption.
  - rewrite check_model_up, Em. reflexivity.
  - cbn [mo_up m_depth]. unfold up. now rewrite map_length.
  - rewrite geometry_up, EG. reflexivity.
  - cbn [mo_up m_depth]. now rewrite layer1_up.
  - cbn [mo_up m_depth]. now rewrite layer1_up.
  - exists T'. split; [exact ET|]. split; [exact ET'|]. rewrite dipole_up in ED'.
    + rewrite ED in ED'. congruence.
    + intros ? ? ? ? ? ? ? ?. apply (dlf_shiftable c x_spl filt 0).
    + intros ? ?. reflexivity.
Qed.
(** The part "+-" of the TM mode changes whenever the reflections from above do not
    vanish: the code forms exp(-gamma (zrec + zsrc)) without the depth of the interface. *)
Theorem C51_moves : forall eH eV zH zV z N filt s zs zr off af c tm te,
  passive_medium eH eV zH zV z N -> (s <= N)%nat -> 0 < off -> af <> 0 -> c <> 0 -> Rup eH (g0 eH eV zH) z s <> RtoC 0 ->
  tm_element filt (mkrow (arr eH N) (arr eV N) (arr zH N) (arr zV N)) (depth_arr z N) (Z.of_nat s) (Z.of_nat s) zs zr off af = Ok (tm, te) ->
  exists tm' te', tm_element filt (mkrow (arr eH N) (arr eV N) (arr zH N) (arr zV N)) (up c (depth_arr z N)) (Z.of_nat s) (Z.of_nat s) (zs + c) (zr + c) off af = Ok (tm', te') /\
    p_du tm' <> p_du tm.
Proof. exact du_moves. Qed.

Lemma af_11 : angle_factor 0 11 false false = 1.
Proof.
  assert (PP := PI_RGT_0). assert (P4 := PI_4).
  assert (HC : forall t, 0 < t -> isclose (Rabs 0) t (/ 10 ^ 10) (/ 10 ^ 14) = Rleb t (/ 10 ^ 14 + / 10 ^ 10 * t)).
  { intros t Ht. unfold isclose. rewrite Rabs_R0. replace (0 - t) with (- t) by ring. rewrite Rabs_Ropp, (Rabs_pos_eq t) by lra. reflexivity. }
  assert (T10 : / 10 ^ 10 <= / 4). { apply Rinv_le_contravar; [lra|]. apply Rle_trans with (10 ^ 1); [lra|]. apply Rle_pow; [lra|lia]. }
  assert (T14 : / 10 ^ 14 <= / 4). { apply Rinv_le_contravar; [lra|]. apply Rle_trans with (10 ^ 1); [lra|]. apply Rle_pow; [lra|lia]. }
  assert (P3 : 3 / 2 < PI / 2) by (pose proof PI2_3_2; lra).
  assert (HF : forall t, 3 / 2 < t -> Rleb t (/ 10 ^ 14 + / 10 ^ 10 * t) = false).
  { intros t Ht. apply UtilsLayer.Rleb_false. assert (/ 10 ^ 10 * t <= / 4 * t) by (apply Rmult_le_compat_r; lra). lra. }
  unfold angle_factor. change (inb 11 [33])%Z with false. change (inb 11 [11; 22; 15; 24; 13; 31; 26; 35])%Z with true.
  change (inb 11 [11; 22; 15; 24; 12; 21; 14; 25])%Z with true. change (false && negb false)%bool with false. cbv iota zeta. rewrite Rmult_0_l, !HC, !HF by lra. apply cos_0.
Qed.
Lemma w_row : forall mo, check_model default_mins w_dep (q_res w_q) None None None None None = Ok mo -> exists s eV zV,
  rows_of (check_frequency default_mins [2] (m_res mo) (m_aniso mo) (m_epermH mo) (m_epermV mo) (m_mpermH mo) (m_mpermV mo)) =
  [mkrow [Cplus (RtoC (1 / 1)) (Cmult s (RtoC (1 * epsilon_0))); Cplus (RtoC (1 / 2)) (Cmult s (RtoC (1 * epsilon_0)))] eV [Cmult s (RtoC (1 * mu_0)); Cmult s (RtoC (1 * mu_0))] zV].
Proof.
  intros mo Em. destruct w_model as (mo' & Em' & _ & HR & HA & HE & HM). assert (mo' = mo) by congruence. subst mo'. rewrite HR, HA, HE, HM.
  unfold default_mins at 2 3. assert (S20 : / 10 ^ 20 <= 1). { rewrite <- Rinv_1. apply Rinv_le_contravar; [lra|]. apply Rle_trans with (10 ^ 1); [lra|]. apply Rle_pow; [lra|lia]. }
  cbn [min_res]. rewrite !Rmax_left by lra.
  unfold check_frequency. set (lap := negb _). rewrite (proj1 (check_min_spec _ _)).
  assert (EF : exists f, map (fun p => Rmax p (min_freq default_mins)) (if lap then map Ropp [2] else [2]) = [f]) by (destruct lap; cbn [map]; eauto). destruct EF as [f ->].
  exists (sval lap f). unfold rows_of. cbn [f_etaH f_etaV f_zetaH f_zetaV]. eexists _, _. reflexivity.
Qed.
Theorem C51_refuted : exists c m filt src rec depth rs aniso eperm mperm freq T T',
  well_formed filt /\ plain_model m depth (tm_params rs aniso eperm mperm) freq /\
  tm_dipole m filt src rec depth rs aniso eperm mperm freq = Ok T /\
  tm_dipole m filt (pt_up c src) (pt_up c rec) (up c depth) rs aniso eperm mperm freq = Ok T' /\
  map (map fst) T' <> map (map fst) T.
Proof.
  destruct w_model as (mo & Em & Ed & _). destruct (w_row mo Em) as (s & eV' & zV' & ER).
  destruct (plain_setup default_mins w_dep w_q [2] mo w_plain Em) as (N & z & ED & LR & _ & PR & _).
  assert (HN : N = 1%nat). { rewrite Ed in ED. apply (f_equal (@List.length _)) in ED. unfold depth_arr in ED. cbn in ED. rewrite map_length, seq_length in ED. lia. }
  subst N. cbn [q_res q_aniso q_eH q_eV q_mH q_mV w_q tm_params] in *.
  destruct C50_case as (T & ET & _).
  destruct (C51_shift_partial 1 _ _ _ _ _ _ _ _ _ _ _ ET) as (T' & ET' & _).
  exists 1, default_mins, x_filt, r_src, r_rec, w_dep, (ResArr (Nd [2%nat] [1; 2])), None, None, None, [2], T, T'.
  split; [exact x_wf|]. split; [exact w_plain|]. split; [exact ET|]. split; [exact ET'|].
  unfold tm_dipole in ET, ET'. rewrite check_model_up, Em in ET'. rewrite Em in ET. cbn [bind] in ET, ET'. rewrite geometry_up, r_geo in ET'. rewrite r_geo in ET. cbn [bind] in ET, ET'.
  cbn [mo_up m_depth m_res m_aniso m_epermH m_epermV m_mpermH m_mpermV m_full m_extra] in ET'. rewrite !layer1_up, Ed, !w_layer in ET' by lra. rewrite Ed, !w_layer in ET by lra. cbn [bind Z.eqb Pos.eqb negb] in ET, ET'.
  rewrite ER in ET, ET', PR. cbn [List.length Nat.ltb Nat.leb up map combine] in ET, ET'. cbn [mapM combine fst snd] in ET, ET'. rewrite af_11 in ET, ET'.
  destruct (PR _ (or_introl eq_refl)) as (eH & eV & zH & zV & PM & EW). rewrite EW in ET, ET'. rewrite Ed in ED.
  assert (E1 : arr eH 1 = [Cplus (RtoC (1 / 1)) (Cmult s (RtoC (1 * epsilon_0))); Cplus (RtoC (1 / 2)) (Cmult s (RtoC (1 * epsilon_0)))]) by (injection EW; congruence).
  assert (E2 : arr zH 1 = [Cmult s (RtoC (1 * mu_0)); Cmult s (RtoC (1 * mu_0))]) by (injection EW; congruence).
  assert (NR : Rup eH (g0 eH eV zH) z 1 <> RtoC 0).
  { apply (Rup_two eH eV zH zV z PM).
    - unfold arr in E2. cbn [seq map] in E2. congruence.
    - unfold arr in E1. cbn [seq map] in E1. intros K. assert (A0 : eH 0%nat = Cplus (RtoC (1 / 1)) (Cmult s (RtoC (1 * epsilon_0)))) by congruence.
      assert (A1 : eH 1%nat = Cplus (RtoC (1 / 2)) (Cmult s (RtoC (1 * epsilon_0)))) by congruence. rewrite A0, A1 in K. apply (f_equal fst) in K. cbn [fst Cplus RtoC] in K. lra. }
  assert (EU : map (xsh 1) [NInf; Fin (-1)] = up 1 (depth_arr z 1)) by (rewrite <- ED; reflexivity). 
  change [NInf; Fin (-1 + 1)] with (map (xsh 1) [NInf; Fin (-1)]) in ET'. 
  destruct (tm_element x_filt _ [NInf; Fin (-1)] 1 1 0 1 1 1) as [[tm te]|] eqn:EE; cbn [bind] in ET; [|discriminate].
  rewrite ED in EE.
  destruct (du_moves eH eV zH zV z 1 x_filt 1 0 1 1 1 1 tm te PM (le_n 1) ltac:(lra) ltac:(lra) ltac:(lra) NR EE) as (tm' & te' & EE' & ND).
  rewrite <- EU in EE'. change (Z.of_nat 1) with 1%Z in EE'. cbn [map xsh] in ET', EE'. rewrite EE' in ET'. cbn [bind] in ET'.
  assert (HT : T = [[(tm, te)]]) by congruence. assert (HT' : T' = [[(tm', te')]]) by congruence. rewrite HT, HT'. cbn [map fst]. intros K. apply ND. congruence.
Qed.
Example C51_case : exists T', tm_dipole default_mins x_filt (pt_up 1 r_src) (pt_up 1 r_rec) (up 1 w_dep) (ResArr (Nd [2%nat] [1; 2])) None None None [2] = Ok T'.
Proof. destruct C50_case as (T & ET & _). destruct (C51_shift_partial 1 _ _ _ _ _ _ _ _ _ _ _ ET) as (T' & ET' & _). now exists T'. Qed.
Print Assumptions C51_shift_partial.
Print Assumptions C51_sum.
Print Assumptions C51_moves.
Print Assumptions C51_refuted.

(** ** C06 for the routines *)
(** Moving every interface, source and receiver by the same depth leaves the result of
    dipole, dipole_k and bipole unchanged, for every model and all switches (also when
    the call fails: the same error).  [hook_ok]: the function supplied by the user does
    not depend on the depths.  [shiftable] is the same requirement on the Hankel
    transform; it holds for the digital linear filters with every way of
    interpolation. *)
Theorem C06_dipole : forall c m hook spl filt ppd src rec depth q freq ab xd lf lo, hook_ok c hook ->
  dipole m hook (dlf_calc spl filt ppd) (pt_up c src) (pt_up c rec) (up c depth) q freq ab xd lf lo = dipole m hook (dlf_calc spl filt ppd) src rec depth q freq ab xd lf lo.
Proof. intros. apply dipole_up; [apply dlf_shiftable|assumption]. Qed.
Theorem C06_dipole_k : forall c m src rec depth q freq wl ab,
  dipole_k m (pt_up c src) (pt_up c rec) (up c depth) q freq wl ab = dipole_k m src rec depth q freq wl ab.
Proof. exact dipole_k_up. Qed.
(** [five]: sources and receivers given as x, y, z, azimuth and dip. *)
Theorem C06_bipole : forall c m gl hook spl filt ppd src rec depth q freq ms mr sp rp st xd lf lo, hook_ok c hook -> five src -> five rec ->
  bipole m gl hook (dlf_calc spl filt ppd) (pt_up c src) (pt_up c rec) (up c depth) q freq ms mr sp rp st xd lf lo =
  bipole m gl hook (dlf_calc spl filt ppd) src rec depth q freq ms mr sp rp st xd lf lo.
Proof. intros. unfold bipole. rewrite bipole_array_up; auto. apply dlf_shiftable. Qed.
Example C06_routines_case :
  dipole default_mins nohook (dlf_mk x_spl x_filt) [Nd [] [0]; Nd [] [0]; Nd [] [0 + 5]] [Nd [] [1]; Nd [] [0]; Nd [] [1 + 5]] [Fin (0 + 5); Fin (100 + 5)] x_q [2; 0] (AbNum (inject_Z 12)) (Some false) false true =
  dipole default_mins nohook (dlf_mk x_spl x_filt) r_src r_rec x_dep x_q [2; 0] (AbNum (inject_Z 12)) (Some false) false true /\
  exists EM, dipole default_mins nohook (dlf_mk x_spl x_filt) r_src r_rec x_dep x_q [2; 0] (AbNum (inject_Z 12)) (Some false) false true = Ok (EM, 1%nat, 1%nat).
Proof.
  split; [exact (C06_dipole 5 default_mins nohook x_spl x_filt 0 r_src r_rec x_dep x_q [2; 0] (AbNum (inject_Z 12)) (Some false) false true (fun _ _ => eq_refl))|]. destruct C40_case as (EM & E & _). now exists EM.
Qed.
Print Assumptions C06_dipole.
Print Assumptions C06_dipole_k.
Print Assumptions C06_bipole.
