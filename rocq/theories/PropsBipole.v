(** Properties of the routine bipole as a whole: C29, C31, and C27 and C30 end to end. *)

From Coq Require Import ZArith Reals List Bool String QArith Lia Lra.
From Coquelicot Require Import Coquelicot.
From Verif Require Import PyBase CBase Kernel KernelSpec Utils UtilsAb UtilsLayer UtilsModel UtilsFreq UtilsGeo UtilsSurvey Transform TransformDlf
  Fullspace Model ModelFem Routines RoutinesThm UtilsArgs ArgsWave Bipole BipoleCol BipoleThm BipoleLoop BipolePlace BipoleMain BipoleFinal BipoleStrength BipoleDip BipoleTotal
  PropsUtils PropsTransform.
Import ListNotations.
Local Open Scope R_scope.
Local Open Scope res_scope.

(** A layered model used in the cases below *)
Definition x_q : params := {| q_res := ResArr (Nd [3%nat] [1; 10; 3]); q_aniso := None; q_eH := None; q_eV := None; q_mH := None; q_mV := None |}.
Definition x_dep : list ext := [Fin 0; Fin 100].
Definition nohook : hookt := fun _ fo => fo.
(** midpoint-like rule with the requested number of points *)
Definition x_gl : Z -> list R * list R := fun k => (repeat 0 (Z.to_nat k), repeat (2 / IZR k) (Z.to_nat k)).
(** three dipoles at different depths, and two bipoles at one depth *)
Definition x_src : list ndin := [Nd [3%nat] [0; 10; 20]; Nd [] [5]; Nd [3%nat] [-10; 50; 300]; Nd [] [0]; Nd [] [0]].
Definition x_rec : list ndin := [Nd [2%nat] [100; 200]; Nd [2%nat] [101; 202]; Nd [] [0]; Nd [] [0]; Nd [] [7]; Nd [] [7]].
Definition x_bs : bip := {| b_arr := [[0; 10; 20]; [5; 5; 5]; [-10; 50; 300]; [0; 0; 0]; [0; 0; 0]]; b_n := 3; b_nz := 3; b_dip := true |}.
Definition x_br : bip := {| b_arr := [[100; 200]; [101; 202]; [0; 0]; [0; 0]; [7]; [7]]; b_n := 2; b_nz := 1; b_dip := false |}.

Lemma close_far : forall a, 1 <= a -> isclose0 a = false.
Proof.
  intros a H. unfold isclose0. apply UtilsLayer.Rleb_false. rewrite Rabs_pos_eq by lra. apply Rlt_le_trans with 1; [|exact H].
  rewrite <- Rinv_1. apply Rinv_lt_contravar; [|apply Rlt_pow_R1; [lra|lia]]. rewrite Rmult_1_l. apply pow_lt; lra.
Qed.
Lemma close_same : forall a, isclose0 (a - a) = true.
Proof. intros a. unfold isclose0. apply UtilsLayer.Rleb_true. rewrite Rminus_eq_0, Rabs_R0. left. apply Rinv_0_lt_compat, pow_lt. lra. Qed.
Lemma x_check_src : check_bipole x_src = Ok x_bs.
Proof.
  unfold check_bipole, x_src, chck_dipole. cbn -[isclose0]. rewrite close_same, (close_far (50 - -10)) by lra. reflexivity.
Qed.
Lemma x_check_rec : check_bipole x_rec = Ok x_br.
Proof.
  unfold check_bipole, x_rec, chck_dipole. cbn -[isclose0 Reqb]. rewrite close_same. cbn -[Reqb].
  assert (N1 : Reqb 100 101 = false) by (apply UtilsLayer.Reqb_false; lra). assert (N2 : Reqb 200 202 = false) by (apply UtilsLayer.Reqb_false; lra).
  rewrite N1, N2. reflexivity.
Qed.
Lemma x_src_wf : List.Forall nd_wf x_src.
Proof. repeat constructor. Qed.
Lemma x_rec_wf : List.Forall nd_wf x_rec.
Proof. repeat constructor. Qed.
Lemma x_rule : forall k, full_rule x_gl k.
Proof. intros k H. unfold x_gl. cbn [fst snd]. now rewrite !repeat_length. Qed.
Lemma x_good : forall k, good_rule x_gl k.
Proof. intros k H. now apply x_rule. Qed.
Lemma x_clean_0 : clean 0.
Proof. intros _. pose proof (quarter_mod 0) as Q. replace 0 with (quarter 0) at 1 by (unfold quarter, deg2rad; field). exact Q. Qed.
Lemma x_src_clean : clean_survey x_src x_bs.
Proof.
  split; [cbn; lia|]. split; [exact x_src_wf|]. split; [exact x_check_src|]. intros i Hi. cbn in Hi.
  assert (Ei : (i = 0 \/ i = 1 \/ i = 2)%nat) by lia.
  assert (D : deg2rad 0 = 0) by (unfold deg2rad; field).
  destruct Ei as [-> | [-> | ->]]; unfold clean_pole, pole_angles, x_bs; cbn; rewrite D; split; exact x_clean_0.
Qed.
Lemma x_bip_angles : forall l, 0 < l -> bip_azm l (0 - 0) = 0 /\ bip_dip l (0 - 0) (7 - 7) = 0.
Proof.
  intros l H. rewrite !Rminus_eq_0. split.
  - unfold bip_azm, atan2. rewrite (proj2 (UtilsLayer.Rltb_true 0 l) H). unfold Rdiv. rewrite Rmult_0_l. apply atan_0.
  - unfold bip_dip. unfold Rdiv at 2. rewrite Rmult_0_l, acos_0. ring.
Qed.
Lemma x_rec_clean : clean_survey x_rec x_br.
Proof.
  split; [cbn; lia|]. split; [exact x_rec_wf|]. split; [exact x_check_rec|]. intros i Hi. cbn in Hi.
  assert (Ei : (i = 0 \/ i = 1)%nat) by lia.
  destruct (x_bip_angles (101 - 100) ltac:(lra)) as [A1 A2]. destruct (x_bip_angles (202 - 200) ltac:(lra)) as [B1 B2].
  destruct Ei as [-> | ->]; unfold clean_pole, pole_angles, x_br; cbn -[bip_azm bip_dip]; rewrite ?A1, ?A2, ?B1, ?B2; split; exact x_clean_0.
Qed.
Lemma x_plain : plain_model default_mins x_dep x_q [2; 0].
Proof.
  constructor; try (exact (proj2 small20)); try discriminate.
  - eexists. reflexivity.
  - apply (x_inp_wf [1; 10; 3]).
  - left. exact x_depth_strict.
  - intros o E1. change (inp_of x_q) with (x_inp [1; 10; 3]) in E1. unfold x_dep in E1.
    rewrite check_model_closed in E1 by apply x_inp_wf. destruct (check_depth _) as [[sw d']|] eqn:CD; [|discriminate].
    destruct (all_fit (List.length d') (x_inp [1; 10; 3])); inversion E1; subst o.
    unfold model_of. cbn [m_mpermH m_mpermV x_inp i_mpermH i_mpermV default_to plain_val].
    intros x Hx. assert (H0 : In x (repeat 1 (List.length d'))).
    { destruct sw; simpl swp in Hx; destruct Hx as [Hx|Hx]; auto; apply in_rev in Hx; auto. }
    apply repeat_spec in H0. lra.
Qed.
Lemma x_off_pos : 0 < min_off default_mins.
Proof. apply Rinv_0_lt_compat. apply pow_lt. lra. Qed.

(** ** C29: element [f, r, s] is the response of source s and receiver r alone *)
Theorem C29_placement : forall m gl hook mk depth q freq msrc mrec srcpts recpts strength xdirect lf lo,
  0 < min_off m -> column_call m hook mk depth q freq msrc mrec xdirect -> good_rule gl srcpts -> good_rule gl recpts ->
  forall src rec bs br, clean_survey src bs -> clean_survey rec br -> forall E,
  bipole m gl hook mk src rec depth q freq msrc mrec srcpts recpts strength xdirect lf lo = Ok E ->
  (forall A, In A E -> List.length A = b_n br /\ forall row, In row A -> List.length row = b_n bs) /\
  forall s r, (s < b_n bs)%nat -> (r < b_n br)%nat ->
    bipole m gl hook mk (pole_in bs s) (pole_in br r) depth q freq msrc mrec srcpts recpts strength xdirect lf lo = Ok (at_rs r s E).
Proof. exact bipole_elementwise. Qed.

(** The hypothesis on the Hankel transform holds for the digital linear filter. *)
Theorem C29_filter : forall m gl hook spl filt depth q freq msrc mrec srcpts recpts strength xdirect lf lo,
  0 < min_off m -> well_formed filt -> plain_model m depth q freq -> good_rule gl srcpts -> good_rule gl recpts ->
  forall src rec bs br, clean_survey src bs -> clean_survey rec br -> forall E,
  bipole m gl hook (dlf_mk spl filt) src rec depth q freq msrc mrec srcpts recpts strength xdirect lf lo = Ok E ->
  (forall A, In A E -> List.length A = b_n br /\ forall row, In row A -> List.length row = b_n bs) /\
  forall s r, (s < b_n bs)%nat -> (r < b_n br)%nat ->
    bipole m gl hook (dlf_mk spl filt) (pole_in bs s) (pole_in br r) depth q freq msrc mrec srcpts recpts strength xdirect lf lo = Ok (at_rs r s E).
Proof.
  intros m gl hook spl filt depth q freq msrc mrec srcpts recpts strength xdirect lf lo HO HF HP Gs Gr src rec bs br Hs Hr E H.
  apply (C29_placement m gl hook (dlf_mk spl filt) depth q freq msrc mrec srcpts recpts strength xdirect lf lo HO (dlf_column_call m hook spl filt depth q freq msrc mrec xdirect HF HP) Gs Gr src rec bs br Hs Hr E H).
Qed.

(** Time domain, for any Fourier transform of the columns, with or without a waveform. *)
Theorem C29_time : forall m gl hook mk depth q freq msrc mrec srcpts recpts strength xdirect lf lo,
  0 < min_off m -> column_call m hook mk depth q freq msrc mrec xdirect -> good_rule gl srcpts -> good_rule gl recpts ->
  forall src rec bs br, clean_survey src bs -> clean_survey rec br -> forall calc nt signal w E,
  match w with
  | None => True
  | Some g => exists leg time nodes amp sg nq ct sg', check_waveform m leg time nodes amp sg nq = Ok (ct, sg', g)
  end -> (0 < nt)%nat ->
  bipole_time calc nt signal w m gl hook mk src rec depth q freq msrc mrec srcpts recpts strength xdirect lf lo = Ok E ->
  (forall A, In A E -> List.length A = b_n br /\ forall row, In row A -> List.length row = b_n bs) /\
  forall s r, (s < b_n bs)%nat -> (r < b_n br)%nat ->
    bipole_time calc nt signal w m gl hook mk (pole_in bs s) (pole_in br r) depth q freq msrc mrec srcpts recpts strength xdirect lf lo = Ok (at_rsT r s E).
Proof.
  intros m gl hook mk depth q freq msrc mrec srcpts recpts strength xdirect lf lo HO HC Gs Gr src rec bs br Hs Hr calc nt signal w E HW.
  apply bipole_time_elementwise; try assumption. destruct w as [g|]; [|exact I].
  destruct HW as (leg & time & nodes & amp & sg & nq & ct & sg' & H). apply (waveform_cols _ _ _ _ _ _ _ _ _ _ H).
Qed.

(** Every accepted survey has a result. *)
Theorem C29_total : forall m gl hook spl filt src rec depth q freq msrc mrec srcpts recpts st xdirect lf lo mo ms stp mr rt bs br,
  well_formed filt -> plain_model m depth q freq -> 0 < min_off m -> xdirect <> Some true ->
  full_rule gl srcpts -> full_rule gl recpts ->
  (0 < sizes src)%nat -> (0 < sizes rec)%nat -> List.Forall nd_wf src -> List.Forall nd_wf rec ->
  check_model m depth (q_res q) (q_aniso q) (q_eH q) (q_eV q) (q_mH q) (q_mV q) = Ok mo ->
  check_mx true msrc = Ok (ms, stp) -> check_mx false mrec = Ok (mr, rt) -> check_bipole src = Ok bs -> check_bipole rec = Ok br ->
  exists E, bipole m gl hook (dlf_mk spl filt) src rec depth q freq msrc mrec srcpts recpts st xdirect lf lo = Ok E /\ List.length E = List.length freq.
Proof. exact bipole_total. Qed.

Lemma x_result : forall msrc mrec ms stp mr rt st lf lo, check_mx true msrc = Ok (ms, stp) -> check_mx false mrec = Ok (mr, rt) ->
  exists E, bipole default_mins x_gl nohook (dlf_mk x_spl x_filt) x_src x_rec x_dep x_q [2; 0] msrc mrec 1 5 st (Some false) lf lo = Ok E /\ List.length E = 2%nat.
Proof.
  intros msrc mrec ms stp mr rt st lf lo H1 H2. destruct x_model_ok as [o [E1 _]].
  apply (C29_total default_mins x_gl nohook x_spl x_filt x_src x_rec x_dep x_q [2; 0] msrc mrec 1 5 st (Some false) lf lo o ms stp mr rt x_bs x_br);
    try assumption; try discriminate; try (cbn; lia); try apply x_rule.
  - apply x_wf.
  - apply x_plain.
  - exact x_off_pos.
  - exact x_src_wf.
  - exact x_rec_wf.
  - exact x_check_src.
  - exact x_check_rec.
Qed.
Example C29_case : exists E, bipole default_mins x_gl nohook (dlf_mk x_spl x_filt) x_src x_rec x_dep x_q [2; 0] (MxBool false) (MxBool true) 1 5 0 (Some false) false true = Ok E /\
  List.length E = 2%nat /\ (forall A, In A E -> List.length A = 2%nat) /\
  bipole default_mins x_gl nohook (dlf_mk x_spl x_filt)
    [Nd [] [20]; Nd [] [5]; Nd [] [300]; Nd [] [0]; Nd [] [0]]
    [Nd [] [200]; Nd [] [202]; Nd [] [0]; Nd [] [0]; Nd [] [7]; Nd [] [7]] x_dep x_q [2; 0] (MxBool false) (MxBool true) 1 5 0 (Some false) false true
  = Ok [[[elt 0 1 2 E]]; [[elt 1 1 2 E]]].
Proof.
  destruct (x_result (MxBool false) (MxBool true) false XNone true XNone 0 false true eq_refl eq_refl) as (E & H & L). exists E. split; [exact H|]. split; [exact L|].
  destruct (C29_filter default_mins x_gl nohook x_spl x_filt x_dep x_q [2; 0] (MxBool false) (MxBool true) 1 5 0 (Some false) false true x_off_pos x_wf x_plain (x_good 1) (x_good 5)
    x_src x_rec x_bs x_br x_src_clean x_rec_clean E H) as [S P].
  split; [intros A HA; apply (S A HA)|].
  specialize (P 2%nat 1%nat ltac:(cbn; lia) ltac:(cbn; lia)). destruct E as [|e0 [|e1 [|e2 E]]]; try discriminate L. exact P.
Qed.

(** ** C31: source strength and lengths *)
(** A positive strength multiplies every element by strength, source length and
    receiver length (1 for dipoles), whatever the Hankel transform returns. *)
Theorem C31_scaling : forall m gl hook mk depth q freq msrc mrec srcpts recpts xdirect lf lo src rec bs br,
  good_rule gl srcpts -> good_rule gl recpts -> (0 < sizes src)%nat -> (0 < sizes rec)%nat ->
  List.Forall nd_wf src -> List.Forall nd_wf rec -> check_bipole src = Ok bs -> check_bipole rec = Ok br ->
  forall st E, 0 < st ->
  bipole m gl hook mk src rec depth q freq msrc mrec srcpts recpts st xdirect lf lo = Ok E ->
  exists E0, bipole m gl hook mk src rec depth q freq msrc mrec srcpts recpts 0 xdirect lf lo = Ok E0 /\
  List.length E0 = List.length E /\
  forall f r s, (f < List.length E)%nat -> (r < b_n br)%nat -> (s < b_n bs)%nat ->
    elt f r s E = Cmult (RtoC (st * pole_len bs s * pole_len br r)) (elt f r s E0).
Proof. exact bipole_strength. Qed.
(** The lengths are those of the segments. *)
Theorem C31_length : forall b i x0 x1 y0 y1 z0 z1, b_arr b = [x0; x1; y0; y1; z0; z1] ->
  pole_len b i = sqrt ((coord x1 i - coord x0 i) ^ 2 + (coord y1 i - coord y0 i) ^ 2 + (coord z1 i - coord z0 i) ^ 2).
Proof. intros b i x0 x1 y0 y1 z0 z1 H. unfold pole_len. rewrite H. unfold bip_len. f_equal. ring. Qed.
(** Zero and negative strengths give the normalised response. *)
Theorem C31_nonpositive : forall m gl hook mk depth q freq msrc mrec srcpts recpts xdirect lf lo src rec bs br,
  good_rule gl srcpts -> good_rule gl recpts -> (0 < sizes src)%nat -> (0 < sizes rec)%nat ->
  List.Forall nd_wf src -> List.Forall nd_wf rec -> check_bipole src = Ok bs -> check_bipole rec = Ok br ->
  forall st, st <= 0 ->
  bipole m gl hook mk src rec depth q freq msrc mrec srcpts recpts st xdirect lf lo =
  bipole m gl hook mk src rec depth q freq msrc mrec srcpts recpts 0 xdirect lf lo.
Proof. exact bipole_nonpos. Qed.
Example C31_case : exists E E0,
  bipole default_mins x_gl nohook (dlf_mk x_spl x_filt) x_src x_rec x_dep x_q [2; 0] (MxBool false) (MxBool true) 1 5 3 (Some false) false true = Ok E /\
  bipole default_mins x_gl nohook (dlf_mk x_spl x_filt) x_src x_rec x_dep x_q [2; 0] (MxBool false) (MxBool true) 1 5 0 (Some false) false true = Ok E0 /\
  elt 1 1 2 E = Cmult (RtoC 6) (elt 1 1 2 E0).
Proof.
  destruct (x_result (MxBool false) (MxBool true) false XNone true XNone 3 false true eq_refl eq_refl) as (E & H & L).
  destruct (C31_scaling default_mins x_gl nohook (dlf_mk x_spl x_filt) x_dep x_q [2; 0] (MxBool false) (MxBool true) 1 5 (Some false) false true x_src x_rec x_bs x_br
    (x_good 1) (x_good 5) ltac:(cbn; lia) ltac:(cbn; lia) x_src_wf x_rec_wf x_check_src x_check_rec 3 E ltac:(lra) H) as (E0 & H0 & _ & P).
  exists E, E0. split; [exact H|]. split; [exact H0|]. rewrite (P 1%nat 1%nat 2%nat) by (rewrite ?L; cbn; lia). do 2 f_equal.
  rewrite (C31_length x_br 1 _ _ _ _ _ _ eq_refl). change (pole_len x_bs 2) with 1. unfold coord. cbn [List.length nth Nat.eqb].
  replace ((202 - 200) ^ 2 + (0 - 0) ^ 2 + (7 - 7) ^ 2) with (2 * 2) by ring. rewrite sqrt_square by lra. ring.
Qed.

(** The response of one full-space dipole pair with a Hankel transform that returns ones *)
Definition ones_mk : R -> R -> Z -> Z -> list ext -> Z -> bool -> bool -> hankel :=
  fun _ _ _ _ _ _ _ _ rows off _ _ => Ok (map (fun _ => map (fun _ => RtoC 1) off) rows, 1%Z, true).
Definition y_q : params := {| q_res := ResArr (Nd [] [1]); q_aniso := None; q_eH := None; q_eV := None; q_mH := None; q_mV := None |}.
Lemma y_dipole : forall r s, (1 <= r <= 3)%Z -> (1 <= s <= 3)%Z ->
  dipole default_mins nohook ones_mk wit_src wit_rec [] y_q [1] (AbNum (inject_Z (code false false r s))) (Some false) false false = Ok ([[RtoC 1]], 1%nat, 1%nat).
Proof.
  intros r s Hr Hs.
  unfold dipole. change (check_model default_mins [] (q_res y_q) (q_aniso y_q) (q_eH y_q) (q_eV y_q) (q_mH y_q) (q_mV y_q)) with (cmodel default_mins [] (inp_of y_q)).
  rewrite check_model_closed by (constructor; cbn; auto; intros kv []).
  change (check_depth []) with (@Ok (bool * list ext) (false, [NInf])). cbv iota beta. cbn [List.length].
  assert (AF : all_fit 1 (inp_of y_q) = true) by reflexivity. rewrite AF. cbn [bind]. set (mo := model_of _ _ _ _).
  assert (MD : m_depth mo = [NInf]) by reflexivity. rewrite MD. cbn [apply_hook y_q q_res].
  unfold code. rewrite (ab_entry_check false false r s Hr Hs). cbn [bind].
  assert (N36 : inb (ab_entry false false r s) [36]%Z = false).
  { assert (Er : (r = 1 \/ r = 2 \/ r = 3)%Z) by lia. assert (Es : (s = 1 \/ s = 2 \/ s = 3)%Z) by lia. destruct Er as [-> | [-> | ->]]; destruct Es as [-> | [-> | ->]]; reflexivity. }
  rewrite wit_geo. cbn [bind]. rewrite layer1_full. cbn [bind]. set (fo := check_frequency _ _ _ _ _ _ _ _).
  destruct (freq_lengths default_mins [1] (m_res mo) (m_aniso mo) (m_epermH mo) (m_epermV mo) (m_mpermH mo) (m_mpermV mo)) as (L1 & L2 & L3 & L4). fold fo in L1, L2, L3, L4.
  assert (LR : List.length (rows_of fo) = 1%nat) by (unfold rows_of; rewrite map_length, !combine_length, L1, L2, L3, L4; reflexivity).
  destruct (rows_of fo) as [|row [|row' rows]]; try discriminate LR. unfold fem, fem_calc, ones_mk.
  rewrite N36. cbn -[Cplus Cmult RtoC Copp]. unfold mat_add, map2. cbn -[Cplus Cmult RtoC Copp].
  rewrite andb_false_r. cbn [negb bind]. match goal with |- Ok ([[?a]], _, _) = _ => replace a with (RtoC 1) by ring end. reflexivity.
Qed.
(** The documentation promises the scaling for every strength other than zero. *)
Theorem C31_negative_refuted : exists m gl hook mk src rec q freq st E E0, 0 < min_off m /\ st < 0 /\
  bipole m gl hook mk src rec [] q freq (MxBool false) (MxBool false) 1 1 st (Some false) false false = Ok E /\
  bipole m gl hook mk src rec [] q freq (MxBool false) (MxBool false) 1 1 0 (Some false) false false = Ok E0 /\
  elt 0 0 0 E <> Cmult (RtoC st) (elt 0 0 0 E0).
Proof.
  exists default_mins, x_gl, nohook, ones_mk, (wit_src ++ [Nd [] [90 * IZR 0]; Nd [] [90 * IZR 0]]), (wit_rec ++ [Nd [] [90 * IZR 0]; Nd [] [90 * IZR 0]]), y_q, [1], (-2).
  pose proof (bipole_axis default_mins x_gl nohook ones_mk [] y_q [1] false false 1 1 (Some false) false false 0 0 0 0%Z 0%Z 1 0 0 0%Z 0%Z [[RtoC 1]]) as H.
  specialize (H ltac:(cbn [min_angle default_mins]; rewrite <- Rinv_1; left; apply Rinv_lt_contravar; [rewrite Rmult_1_l; apply pow_lt; lra|apply Rlt_pow_R1; [lra|lia]])).
  specialize (H (y_dipole 1 1 ltac:(lia) ltac:(lia))). cbn [map nth] in H.
  do 2 eexists. split; [exact x_off_pos|]. split; [lra|]. split; [|split; [exact H|]].
  { rewrite <- H. change (wit_src ++ [Nd [] [90 * IZR 0]; Nd [] [90 * IZR 0]]) with [Nd [] [0]; Nd [] [0]; Nd [] [0]; Nd [] [90 * IZR 0]; Nd [] [90 * IZR 0]].
    change (wit_rec ++ [Nd [] [90 * IZR 0]; Nd [] [90 * IZR 0]]) with [Nd [] [1]; Nd [] [0]; Nd [] [0]; Nd [] [90 * IZR 0]; Nd [] [90 * IZR 0]].
    eapply C31_nonpositive; try apply x_good; try (cbn; lia); try lra; try (repeat apply List.Forall_cons; try exact I; try reflexivity; apply List.Forall_nil).
    all: unfold check_bipole, chck_dipole; cbn -[isclose0 Rmult]; reflexivity. }
  { unfold elt. cbn [nth]. change (quarter_sign 0 0) with (quarter_sign 0 0). intros A. apply (f_equal fst) in A. revert A.
    unfold quarter_sign. cbn. unfold qsign. cbn. lra. }
Qed.

(** ** C30 and C27 end to end *)
(** A dipole along the axes is the response of [dipole] for the single component
    receiver axis x source axis, with sign. *)
Theorem C30_bipole : forall m gl hook mk depth q freq (ms mr : bool) srcpts recpts xdirect lf lo x y z sa sd x' y' z' ra rd M,
  min_angle m <= 1 ->
  dipole m hook mk [Nd [] [x]; Nd [] [y]; Nd [] [z]] [Nd [] [x']; Nd [] [y']; Nd [] [z']] depth q freq
    (AbNum (inject_Z (code ms mr (quarter_axis ra rd) (quarter_axis sa sd)))) xdirect lf lo = Ok (M, 1%nat, 1%nat) ->
  bipole m gl hook mk [Nd [] [x]; Nd [] [y]; Nd [] [z]; Nd [] [90 * IZR sa]; Nd [] [90 * IZR sd]]
    [Nd [] [x']; Nd [] [y']; Nd [] [z']; Nd [] [90 * IZR ra]; Nd [] [90 * IZR rd]] depth q freq (MxBool ms) (MxBool mr) srcpts recpts 0 xdirect lf lo
  = Ok (map (fun row => [[Cmult (RtoC (quarter_sign ra rd * quarter_sign sa sd)) (nth 0 row (RtoC 0))]]) M).
Proof. exact bipole_axis. Qed.
Example C30_bipole_case :
  bipole default_mins x_gl nohook ones_mk [Nd [] [0]; Nd [] [0]; Nd [] [0]; Nd [] [90 * 2]; Nd [] [90 * 0]]
    [Nd [] [1]; Nd [] [0]; Nd [] [0]; Nd [] [90 * 0]; Nd [] [90 * 0]] [] y_q [1] (MxBool false) (MxBool false) 1 1 0 (Some false) false false
  = Ok [[[RtoC (-1)]]].
Proof.
  rewrite (C30_bipole default_mins x_gl nohook ones_mk [] y_q [1] false false 1 1 (Some false) false false 0 0 0 2%Z 0%Z 1 0 0 0%Z 0%Z [[RtoC 1]]).
  - cbn [map nth]. do 4 f_equal. rewrite <- RtoC_mult. f_equal. unfold quarter_sign. cbn. unfold qsign. cbn. lra.
  - cbn [min_angle default_mins]. rewrite <- Rinv_1. left. apply Rinv_lt_contravar; [rewrite Rmult_1_l; apply pow_lt; lra|apply Rlt_pow_R1; [lra|lia]].
  - exact (y_dipole 1 1 ltac:(lia) ltac:(lia)).
Qed.

(** Any azimuth and dip: the contraction of the nine responses of [dipole] with the
    two unit vectors, up to the angular tolerances of the code. *)
Theorem C27_bipole : forall m gl hook mk depth q freq (ms mr : bool) srcpts recpts xdirect lf lo x y z az di x' y' z' az' di' D,
  0 <= min_angle m ->
  (forall r s, (1 <= r <= 3)%Z -> (1 <= s <= 3)%Z ->
    dipole m hook mk [Nd [] [x]; Nd [] [y]; Nd [] [z]] [Nd [] [x']; Nd [] [y']; Nd [] [z']] depth q freq
      (AbNum (inject_Z (code ms mr r s))) xdirect lf lo = Ok (D (ab_entry ms mr r s), 1%nat, 1%nat)) ->
  exists E, bipole m gl hook mk [Nd [] [x]; Nd [] [y]; Nd [] [z]; Nd [] [az]; Nd [] [di]]
    [Nd [] [x']; Nd [] [y']; Nd [] [z']; Nd [] [az']; Nd [] [di']] depth q freq (MxBool ms) (MxBool mr) srcpts recpts 0 xdirect lf lo = Ok E /\
  forall f, (f < List.length E)%nat -> let T := fun ab => nth 0 (nth f (D ab) []) (RtoC 0) in
    Cmod (Cminus (elt f 0 0 E) (contraction ms mr (deg2rad az) (deg2rad di) (deg2rad az') (deg2rad di') T)) <= Rmax (/ 10 ^ 8) (min_angle m) * tensor_norm ms mr T.
Proof. exact bipole_contraction. Qed.
Example C27_bipole_case : exists E,
  bipole default_mins x_gl nohook ones_mk [Nd [] [0]; Nd [] [0]; Nd [] [0]; Nd [] [30]; Nd [] [60]]
    [Nd [] [1]; Nd [] [0]; Nd [] [0]; Nd [] [-20]; Nd [] [10]] [] y_q [1] (MxBool false) (MxBool false) 1 1 0 (Some false) false false = Ok E.
Proof.
  destruct (C27_bipole default_mins x_gl nohook ones_mk [] y_q [1] false false 1 1 (Some false) false false 0 0 0 30 60 1 0 0 (-20) 10 (fun _ => [[RtoC 1]])) as (E & H & _).
  - left. cbn [min_angle default_mins]. apply Rinv_0_lt_compat, pow_lt. lra.
  - exact y_dipole.
  - now exists E.
Qed.

Print Assumptions C29_placement.
Print Assumptions C29_filter.
Print Assumptions C29_time.
Print Assumptions C29_total.
Print Assumptions C31_scaling.
Print Assumptions C31_length.
Print Assumptions C31_nonpositive.
Print Assumptions C31_negative_refuted.
Print Assumptions C30_bipole.
Print Assumptions C27_bipole.
