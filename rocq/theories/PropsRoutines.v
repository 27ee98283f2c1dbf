(** Properties of the routines dipole_k, gpr and ip_and_q: C40 to C42, and C12 in the
    wavenumber domain. *)

From Coq Require Import ZArith Reals List Bool String QArith Lia Lra.
From Coquelicot Require Import Coquelicot.
From Verif Require Import PyBase CBase Kernel KernelSpec KernelClosed KernelMain KernelThm Utils UtilsAb UtilsLayer UtilsModel UtilsFreq UtilsGeo UtilsSurvey Transform TransformDlf
  Fullspace Model ModelFem ModelTem Routines RoutinesThm Bipole BipoleCol BipoleThm BipoleLoop BipoleFinal BipoleStrength BipoleDip RoutinesK RoutinesKThm RoutinesKBad PropsUtils PropsTransform PropsBipole.
Import ListNotations.
Local Open Scope R_scope.
Local Open Scope res_scope.

(** A source above a receiver *)
Definition r_src : list ndin := [Nd [] [0]; Nd [] [0]; Nd [] [0]].
Definition r_rec : list ndin := [Nd [] [1]; Nd [] [0]; Nd [] [1]].
Lemma r_geo : geometry default_mins r_src r_rec = Ok ([1], [0], 0, 1, 1%nat, 1%nat).
Proof.
  unfold geometry, r_src, r_rec, check_dipole. cbn [check_var check_shape atleast1 bind List.length Nat.eqb].
  change (check_shape [1%nat] [1%nat] []) with (Ok tt). cbn [bind].
  unfold get_off_ang, map2. rewrite (proj1 (check_min_spec _ _)). cbn [combine flat_map map app fst snd].
  replace ((1 - 0) * (1 - 0) + (0 - 0) * (0 - 0)) with 1 by ring. rewrite sqrt_1.
  unfold default_mins. cbn [min_off]. rewrite Rmax_left.
  - unfold atan2. assert (L : Rltb 0 (1 - 0) = true) by (apply UtilsLayer.Rltb_true; lra). rewrite L. replace ((0 - 0) / (1 - 0)) with 0 by field. rewrite atan_0. reflexivity.
  - simpl. lra.
Qed.
(** ** C40: dipole_k is the kernel that dipole transforms

    For the 24 codes of [k_codes]: filter the two parts at the wavenumbers of the
    filter for one offset, divide by the offset, and the result is dipole's. *)
Theorem C40_agreement_partial : forall m hook spl filt src rec depth q freq z lf lo EM nrec nsrc off angle zs zr ns nr,
  well_formed filt -> plain_model m depth q freq -> 0 < min_off m -> In z k_codes -> (lf && lo = false)%bool ->
  geometry m src rec = Ok (off, angle, zs, zr, ns, nr) ->
  dipole m hook (dlf_mk spl filt) src rec depth q freq (AbNum (inject_Z z)) (Some false) lf lo = Ok (EM, nrec, nsrc) ->
  forall o, (o < List.length off)%nat ->
  exists K, dipole_k m src rec depth q freq (map (fun b => b / nth o off 0) (f_base filt)) (AbNum (inject_Z z)) = Ok K /\
    forall f, (f < List.length freq)%nat ->
      nth o (nth f EM []) (RtoC 0) = Cdiv (filter_sum (f_j0 filt) (f_j1 filt) (nth o (nth f K []) [])) (RtoC (nth o off 0)).
Proof. exact dipole_k_filter. Qed.


Example C40_case : exists EM, dipole default_mins nohook (dlf_mk x_spl x_filt) r_src r_rec x_dep x_q [2; 0] (AbNum (inject_Z 12)) (Some false) false true = Ok (EM, 1%nat, 1%nat) /\
  exists K, dipole_k default_mins r_src r_rec x_dep x_q [2; 0] [1 / 1; 2 / 1; 4 / 1] (AbNum (inject_Z 12)) = Ok K /\
    forall f, (f < 2)%nat -> nth 0 (nth f EM []) (RtoC 0) = Cdiv (filter_sum [1 / 2; 1 / 4; 1 / 8] [1; -1; 1 / 2] (nth 0 (nth f K []) [])) (RtoC 1).
Proof.
  destruct x_model_ok as [mo [Em _]].
  destruct (both_closed default_mins nohook x_spl x_filt r_src r_rec x_dep x_q [2; 0] (AbNum (inject_Z 12)) false true 12 false false [1] [0] 0 1 1 1 mo []
    x_wf x_plain x_off_pos eq_refl Em eq_refl ltac:(lia) ltac:(vm_compute; tauto) r_geo ltac:(discriminate)) as (N & z & s & r & _ & _ & _ & _ & _ & _ & E & _).
  eexists. split; [exact E|].
  apply (C40_agreement_partial default_mins nohook x_spl x_filt r_src r_rec x_dep x_q [2; 0] 12 false true _ _ _ _ _ _ _ _ _ x_wf x_plain x_off_pos
    ltac:(vm_compute; tauto) eq_refl r_geo E 0%nat). cbn. lia.
Qed.

Lemma y_model : exists mo, check_model default_mins [] (q_res y_q) (q_aniso y_q) (q_eH y_q) (q_eV y_q) (q_mH y_q) (q_mV y_q) = Ok mo /\ m_depth mo = [NInf].
Proof.
  change (exists mo, cmodel default_mins [] (inp_of y_q) = Ok mo /\ m_depth mo = [NInf]). rewrite check_model_closed by (constructor; cbn; auto; intros kv []).
  change (check_depth []) with (@Ok (bool * list ext) (false, [NInf])). cbv iota beta. cbn [List.length].
  assert (AF : all_fit 1 (inp_of y_q) = true) by reflexivity. rewrite AF. eexists. split; reflexivity.
Qed.
Lemma y_plain : plain_model default_mins [] y_q [1].
Proof.
  constructor; try (exact (proj2 small20)); try discriminate.
  - eexists. reflexivity.
  - constructor; cbn; auto; intros kv [].
  - left. intros i j H. cbn in H. lia.
  - intros o E1. rewrite check_model_closed in E1 by (constructor; cbn; auto; intros kv []).
    change (check_depth []) with (@Ok (bool * list ext) (false, [NInf])) in E1. cbv iota beta in E1. cbn [List.length] in E1.
    assert (AF : all_fit 1 (inp_of y_q) = true) by reflexivity. rewrite AF in E1. inversion E1; subst o.
    intros x [Hx|Hx]; cbn in Hx; destruct Hx as [<-|[]]; lra.
Qed.
(** The twelve other codes use the angle factor of a different component: for each of them
    a full space, a receiver and a filter for which the two routines differ. *)
Theorem C40_other_codes_refuted : forall z, In z [41; 42; 44; 45; 46; 51; 52; 53; 54; 55; 62; 64]%Z ->
  exists m hook spl filt src rec q freq a EM K,
  well_formed filt /\ plain_model m [] q freq /\ geometry m src rec = Ok ([1], [a], 0, 1, 1%nat, 1%nat) /\
  dipole m hook (dlf_mk spl filt) src rec [] q freq (AbNum (inject_Z z)) (Some false) false false = Ok (EM, 1%nat, 1%nat) /\
  dipole_k m src rec [] q freq (map (fun b => b / 1) (f_base filt)) (AbNum (inject_Z z)) = Ok K /\
  nth 0 (nth 0 EM []) (RtoC 0) <> Cdiv (filter_sum (f_j0 filt) (f_j1 filt) (nth 0 (nth 0 K []) [])) (RtoC 1).
Proof.
  intros z Hz. destruct (dipole_k_bad z Hz (proj2 small20) (proj2 small20) x_off_pos) as (hook & spl & filt & q & freq & a & EM & K & H).
  now exists default_mins, hook, spl, filt, bad_src, (bad_rec z), q, freq, a, EM, K.
Qed.

(** ** C12 in the wavenumber domain *)
Theorem C12_wavenumber : forall m src rec depth q freq wl ab ms mr K, check_ab ab = Ok (36%Z, ms, mr) ->
  dipole_k m src rec depth q freq wl ab = Ok K -> forall A row p, In A K -> In row A -> In p row -> p = (RtoC 0, RtoC 0).
Proof.
  intros m src rec depth q freq wl ab ms mr K EA H. unfold dipole_k in H. apply bind_ok in H. destruct H as (mo & _ & H). rewrite EA in H. cbn [bind] in H.
  apply bind_ok in H. destruct H as ([[[[[off angle] zs] zr] ns'] nr'] & _ & H). apply bind_ok in H. destruct H as (ls & _ & H). apply bind_ok in H. destruct H as (lr & _ & H).
  change (inb 36 [36]%Z) with true in H. cbv iota in H. 
  match type of H with Ok ?a = Ok ?b => assert (E : b = a) by (apply (f_equal (fun r => match r with Ok v => v | Err _ => a end)) in H; now symmetry) end.
  intros A row p HA Hr Hp. rewrite E in HA. apply in_map_iff in HA. destruct HA as (w & <- & _). apply in_map_iff in Hr. destruct Hr as (o & <- & _).
  apply in_map_iff in Hp. destruct Hp as (l & <- & _). reflexivity.
Qed.
Example C12_wavenumber_case : check_ab (AbNum (inject_Z 63)) = Ok (36%Z, false, true) /\
  dipole_k default_mins r_src r_rec [] y_q [1] [1; 2] (AbNum (inject_Z 63)) = Ok [[[(RtoC 0, RtoC 0); (RtoC 0, RtoC 0)]]].
Proof.
  split; [reflexivity|]. destruct y_model as [mo [Em Ed]]. unfold dipole_k. rewrite Em. cbn [bind].
  change (check_ab (AbNum (inject_Z 63))) with (@Ok (Z * bool * bool) (36%Z, false, true)). cbn [bind]. rewrite r_geo. cbn [bind]. rewrite Ed, !layer1_full. cbn [bind].
  destruct (plain_setup default_mins [] y_q [1] mo y_plain Em) as (N & z & _ & LR & _).
  change (inb 36 [36]%Z) with true. cbv iota. set (rows := rows_of _) in *. destruct rows as [|w [|w' rows]]; try discriminate LR. reflexivity.
Qed.

(** ** C41: gpr multiplies every time by its factor *)
Theorem C41_gain : forall calc time cf g m hook mk src rec depth q freq ab xd lf lo E v,
  q_res q = ResArr v -> gpr calc time cf (Some g) m hook mk src rec depth q freq ab xd lf lo = Ok E ->
  exists EM nr ns, dipole m hook mk src rec depth q freq ab xd lf lo = Ok (EM, nr, ns) /\ List.length E = List.length time /\
    forall t r s, (t < List.length time)%nat -> (r < nr)%nat -> (s < ns)%nat ->
    exists o c, calc (map (fun k => Cmult (RtoC (ricker_at cf freq k)) (nth (r + nr * s) (nth k EM []) (RtoC 0))) (seq 0 (List.length freq))) = Ok (o, c) /\
      eltT t r s E = (1 + Rabs (Rpower (nth t time 0 * 10 ^ 9) g)) * (2 / PI * nth t o 0).
Proof. exact gpr_value. Qed.

(** The default is no gain, which no call gets through. *)
Theorem C41_default_refuted : forall calc time cf m hook mk src rec depth q freq ab xd lf lo E,
  time <> [] -> gpr calc time cf None m hook mk src rec depth q freq ab xd lf lo <> Ok E.
Proof. exact gpr_default. Qed.

Definition z_calc (l : list C) : res (list R * bool) := Ok ([fst (nth 0 l (RtoC 0)); 1], true).
Example C41_case : exists E, gpr z_calc [2; 3] 1 (Some 2) default_mins nohook ones_mk wit_src wit_rec [] y_q [1] (AbNum (inject_Z 11)) (Some false) false false = Ok E /\
  eltT 1 0 0 E = (1 + Rabs (Rpower (3 * 10 ^ 9) 2)) * (2 / PI * 1).
Proof.
  pose proof (y_dipole 1 1 ltac:(lia) ltac:(lia)) as D. change (code false false 1 1) with 11%Z in D.
  assert (H : exists E, gpr z_calc [2; 3] 1 (Some 2) default_mins nohook ones_mk wit_src wit_rec [] y_q [1] (AbNum (inject_Z 11)) (Some false) false false = Ok E).
  { unfold gpr. rewrite D. cbn [bind]. unfold tem, z_calc. cbn [seq foldM bind List.length Nat.eqb need Nat.mul Nat.add mapM gain_factor]. eexists. reflexivity. }
  destruct H as (E & H). exists E. split; [exact H|]. destruct (C41_gain _ _ _ _ _ _ _ _ _ _ y_q _ _ _ _ _ _ (Nd [] [1]) eq_refl H) as (EM & nr & ns & D' & _ & HE).
  rewrite D in D'. assert (nr = 1%nat /\ ns = 1%nat) as [-> ->] by (injection D' as _ <- <-; split; reflexivity).
  destruct (HE 1%nat 0%nat 0%nat ltac:(cbn; lia) ltac:(lia) ltac:(lia)) as (o & c & EO & ->). unfold z_calc in EO.
  assert (EO' : nth 1 o 0 = 1) by (apply (f_equal (fun r => match r with Ok v => nth 1 (fst v) 0 | Err _ => 0 end)) in EO; now symmetry).
  rewrite EO'. reflexivity.
Qed.

(** ** C42: ip_and_q is the ratio of the secondary field to the primary field of the
    co-planar component in a full space of the first layer *)
Theorem C42_ratio : forall scale m hook mk src rec depth q freq z lf lo IP Q v ive kve,
  In z mm_codes -> q_res q = ResArr v ->
  ip_and_q scale m hook mk src rec depth q freq (AbNum (inject_Z z)) lf lo = Ok (IP, Q) ->
  exists Hs Hp nr ns,
    dipole m hook mk src rec depth q freq (AbNum (inject_Z z)) None lf lo = Ok (Hs, nr, ns) /\
    analytical m hook ive kve src rec (first_params q) (FtArr freq) SolFs None (AbNum (inject_Z (own_code z))) = Ok ([Hp], nr, ns) /\
    forall f r s, (f < List.length freq)%nat -> (r < nr)%nat -> (s < ns)%nat ->
      let hs := nth (r + nr * s) (nth f Hs []) (RtoC 0) in let hp := nth (r + nr * s) (nth f Hp []) (RtoC 0) in
      hp <> RtoC 0 -> Cmult (eltC f r s IP Q) hp = Cmult (RtoC scale) hs.
Proof. exact ip_and_q_ratio. Qed.

(** A dictionary of resistivities of several layers is never accepted. *)
Theorem C42_dictionary_refuted : forall scale m hook mk src rec depth q freq ab lf lo IQ n data ex,
  inputs_wf (q_in (first_params q)) -> q_res q = ResDict (Nd [n] data) ex -> n <> 1%nat ->
  ip_and_q scale m hook mk src rec depth q freq ab lf lo <> Ok IQ.
Proof. exact ip_and_q_dict. Qed.

(** The primary field of the vertical component in the plane of the source *)
Lemma one_l_l2 : forall l : C, 0 <= fst l -> Cplus (Cplus (RtoC 1) l) (Cmult l l) <> RtoC 0.
Proof.
  intros [a b] H E. cbn [fst] in H. injection E as E1 E2. cbn in E1, E2.
  assert (B : b * (1 + 2 * a) = 0) by lra. apply Rmult_integral in B. destruct B as [B|B]; [subst b; nra|lra].
Qed.
Lemma fs_33_level : forall rdt neg an z h v zh zv, h <> RtoC 0 -> v <> RtoC 0 ->
  exists g, fs_gin rdt neg an 1 1 0 z z h v zh zv 33 = Ok g /\ g <> RtoC 0.
Proof.
  intros rdt neg an z h v zh zv Hh Hv. unfold fs_gin. cbn [inb existsb Z.eqb Pos.eqb orb]. cbv zeta.
  assert (O1 : RtoC 1 <> RtoC 0) by (intros X; injection X; lra).
  assert (ER : fs_R 1 z z h v = RtoC 1).
  { unfold fs_R. rewrite Rminus_eq_0, !Rmult_0_l. replace (Cplus (RtoC (1 * 1)) (Cdiv (Cmult (RtoC 0) h) v)) with (RtoC 1).
    - rewrite Csqrt_RtoC by lra. now rewrite sqrt_1.
    - rewrite Rmult_1_r. unfold Cdiv. ring. }
  rewrite ER. set (l := fs_lGam v zh). assert (L2 : Cmult l l = Cmult zh v) by apply Csqrt_sqr.
  assert (Hu : fs_uGam l (RtoC 1) h v <> RtoC 0).
  { unfold fs_uGam. assert (Hq : Csqrt (Cdiv h v) <> RtoC 0).
    { intros X. pose proof (Csqrt_sqr (Cdiv h v)) as Q. rewrite X in Q. apply Hh. replace h with (Cmult (Cdiv h v) v) by (field; exact Hv). rewrite <- Q. ring. }
    assert (Hp : c4pi <> RtoC 0) by (intros X; injection X; pose proof PI_RGT_0; lra).
    intros X. apply (Cexp_neq_0 (Copp (Cmult l (RtoC 1)))).
    match type of X with Cdiv ?a ?b = _ => replace a with (Cmult (Cdiv a b) b) by (field; repeat split; assumption) end. rewrite X. ring. }
  eexists. split; [reflexivity|]. set (u := fs_uGam l (RtoC 1) h v) in *. rewrite Rminus_eq_0.
  assert (N : Cplus (Cplus (RtoC 1) l) (Cmult l l) <> RtoC 0) by (apply one_l_l2, Csqrt_Re_ge_0).
  intros X. apply (Cmult_neq_0 _ _ (Cmult_neq_0 _ _ Hh N) Hu).
  match type of X with ?a = _ => transitivity (Copp (Cmult (Cmult v v) a)); [|rewrite X; ring] end.
  rewrite L2. field. split; assumption.
Qed.
Lemma y_primary : forall mk, exists v, v <> RtoC 0 /\
  dipole default_mins nohook mk wit_src wit_rec [] y_q [1] (AbNum (inject_Z 66)) (Some true) false false = Ok ([[v]], 1%nat, 1%nat) /\
  dipole default_mins nohook mk wit_src wit_rec [] y_q [1] (AbStr (Some 46%Z)) (Some true) false false = Ok ([[RtoC 0]], 1%nat, 1%nat).
Proof.
  intros mk. destruct y_model as [mo [Em Ed]]. 
  assert (W : inputs_wf (q_in y_q)) by (constructor; cbn; auto; intros kv []).
  destruct (check_model_one _ _ _ W Em) as (_ & F & _). cbn in F.
  destruct (plain_setup default_mins [] y_q [1] mo y_plain Em) as (N & z & ED & LR & _ & PR & _).
  assert (HN : N = 0%nat). { rewrite Ed in ED. apply (f_equal (@List.length _)) in ED. unfold depth_arr in ED. cbn in ED. rewrite map_length, seq_length in ED. lia. }
  subst N. unfold dipole. rewrite Em. cbn [bind apply_hook y_q q_res]. set (rows := rows_of _) in *.
  change (check_ab (AbNum (inject_Z 66))) with (@Ok (Z * bool * bool) (33%Z, true, true)). change (check_ab (AbStr (Some 46%Z))) with (@Ok (Z * bool * bool) (13%Z, true, true)).
  cbn [bind]. rewrite wit_geo. cbn [bind]. rewrite Ed, !layer1_full. cbn [bind]. rewrite F.
  destruct rows as [|w [|w' rows]]; try discriminate LR. destruct (PR w (or_introl eq_refl)) as (eH & eV & zH & zV & PM & ->).
  unfold fem, fullspace_arr, arr. cbn -[fullspace mat_add fs_anyneg laplace_of RtoC].
  unfold fullspace. rewrite cos_0, sin_0. rewrite Rmult_1_r, Rmult_0_l.
  set (an := (_ && _)%bool). set (rdt := laplace_of [1]).
  assert (H1 : Copp (zH 0%nat) <> RtoC 0). { intros X. apply (pme_zH0 _ _ _ _ _ _ PM 0%nat (le_n 0)). replace (zH 0%nat) with (Copp (Copp (zH 0%nat))) by ring. rewrite X. ring. }
  assert (H2 : Copp (zV 0%nat) <> RtoC 0). { intros X. apply (pme_zV0 _ _ _ _ _ _ PM 0%nat (le_n 0)). replace (zV 0%nat) with (Copp (Copp (zV 0%nat))) by ring. rewrite X. ring. }
  destruct (fs_33_level rdt true an 0 _ _ (Copp (eH 0%nat)) (Copp (eV 0%nat)) H1 H2) as (g & Eg & Ng).
  exists (Copp g). split. { intros X. apply Ng. replace g with (Copp (Copp g)) by ring. rewrite X. ring. }
  rewrite Eg. split.
  - cbn -[Cplus RtoC Copp]. unfold mat_add, map2. cbn -[Cplus RtoC Copp]. rewrite Cplus_0_l. reflexivity.
  - unfold fs_gin. cbn -[Cplus Cmult RtoC Copp Cdiv fs_uGam fs_lGam fs_R]. unfold mat_add, map2. cbn -[Cplus Cmult RtoC Copp Cdiv fs_uGam fs_lGam fs_R].
    rewrite Rminus_eq_0, Rmult_0_l. match goal with |- Ok ([[?a]], _, _) = _ => replace a with (RtoC 0) by (unfold Cdiv; ring) end. reflexivity.
Qed.
Lemma x_ip : forall ab c, check_ab ab = Ok (c, true, true) -> c <> 36%Z -> exists Hs, dipole default_mins nohook ones_mk wit_src wit_rec x_dep x_q [1] ab None false false = Ok (Hs, 1%nat, 1%nat).
Proof.
  intros ab c EA NC. destruct x_model_ok as [mo [Em _]].
  change (check_model default_mins x_dep (q_res x_q) (q_aniso x_q) (q_eH x_q) (q_eV x_q) (q_mH x_q) (q_mV x_q) = Ok mo) in Em.
  assert (P : plain_model default_mins x_dep x_q [1]) by (destruct x_plain; constructor; auto; discriminate).
  destruct (plain_setup default_mins x_dep x_q [1] mo P Em) as (N & z & ED & LR & _ & PR & LY). destruct (LY 0) as (n & El & _).
  unfold dipole. rewrite Em. cbn [bind apply_hook x_q q_res]. set (rows := rows_of _) in *. rewrite EA. cbn [bind]. rewrite wit_geo. cbn [bind]. rewrite El. cbn [bind].
  assert (EI : inb c [36]%Z = false) by (unfold inb; cbn; destruct (Z.eqb_spec c 36); [contradiction|reflexivity]).
  destruct rows as [|w [|w' rows]]; try discriminate LR. unfold fem, fem_calc, ones_mk. rewrite EI. cbn -[Cplus Cmult RtoC Copp].
  destruct (m_full mo); cbn -[Cplus Cmult RtoC Copp]; eexists; reflexivity.
Qed.

Example C42_case : exists IP Q Hs Hp, ip_and_q 1000 default_mins nohook ones_mk wit_src wit_rec x_dep x_q [1] (AbNum (inject_Z 66)) false false = Ok (IP, Q) /\
  nth 0 (nth 0 Hp []) (RtoC 0) <> RtoC 0 /\ Cmult (eltC 0 0 0 IP Q) (nth 0 (nth 0 Hp []) (RtoC 0)) = Cmult (RtoC 1000) (nth 0 (nth 0 Hs []) (RtoC 0)).
Proof.
  destruct (x_ip (AbNum (inject_Z 66)) 33 eq_refl ltac:(lia)) as (Hs & E1). destruct (y_primary ones_mk) as (v & NV & E2 & _).
  assert (H : exists IP Q, ip_and_q 1000 default_mins nohook ones_mk wit_src wit_rec x_dep x_q [1] (AbNum (inject_Z 66)) false false = Ok (IP, Q)).
  { unfold ip_and_q. rewrite ab_int. cbn [bind]. change (negb (inb 66 mm_codes)) with false. cbv iota. rewrite E1. cbn [bind].
    change (first_params x_q) with y_q. change (coplanar (AbNum (inject_Z 66))) with (AbNum (inject_Z 66)). rewrite E2. cbn [bind]. eauto. }
  destruct H as (IP & Q & H). exists IP, Q.
  destruct (C42_ratio 1000 default_mins nohook ones_mk wit_src wit_rec x_dep x_q [1] 66 false false IP Q _ (fun _ _ => RtoC 0) (fun _ _ => RtoC 0) ltac:(vm_compute; tauto) eq_refl H) as (Hs' & Hp & nr & ns & D1 & D2 & HE).
  assert (HR' : q_res (first_params x_q) = ResArr (Nd [] [1])) by reflexivity.
  rewrite (analytical_is_dipole default_mins nohook ones_mk _ _ wit_src wit_rec (first_params x_q) (FtArr [1]) _ false false _ (first_params_wf x_q _ eq_refl) HR') in D2.
  change (first_params x_q) with y_q in D2. change (own_code 66) with 66%Z in D2. cbn [ft_data] in D2. rewrite E2 in D2. cbn [bind] in D2.
  assert (nr = 1%nat /\ ns = 1%nat) as [-> ->] by (split; [apply (f_equal (fun r => match r with Ok v => snd (fst v) | Err _ => 0%nat end)) in D2|apply (f_equal (fun r => match r with Ok v => snd v | Err _ => 0%nat end)) in D2]; now symmetry).
  assert (EP : Hp = [[v]]) by (apply (f_equal (fun r => match r with Ok x => nth 0 (fst (fst x)) [] | Err _ => [] end)) in D2; now symmetry).
  exists Hs', Hp. split; [exact H|]. subst Hp. split; [exact NV|]. apply (HE 0%nat 0%nat 0%nat ltac:(cbn; lia) ltac:(lia) ltac:(lia)). exact NV.
Qed.

(** The code given as a string, which dipole accepts, is not mapped to the co-planar
    one: the values are divided by the primary field of the cross component, here zero. *)
Theorem C42_string_refuted : exists m hook mk src rec depth q freq IQ v,
  ip_and_q 1000 m hook mk src rec depth q freq (AbStr (Some 46%Z)) false false = Ok IQ /\
  dipole m hook mk src rec [] (first_params q) freq (coplanar (AbStr (Some 46%Z))) (Some true) false false = Ok ([[RtoC 0]], 1%nat, 1%nat) /\
  dipole m hook mk src rec [] (first_params q) freq (coplanar (AbNum (inject_Z 46))) (Some true) false false = Ok ([[v]], 1%nat, 1%nat) /\ v <> RtoC 0.
Proof.
  destruct (x_ip (AbStr (Some 46%Z)) 13 eq_refl ltac:(lia)) as (Hs & E1). destruct (y_primary ones_mk) as (v & NV & E2 & E3).
  eexists default_mins, nohook, ones_mk, wit_src, wit_rec, x_dep, x_q, [1], _, v. change (first_params x_q) with y_q.
  change (coplanar (AbNum (inject_Z 46))) with (AbNum (inject_Z 66)). change (coplanar (AbStr (Some 46%Z))) with (AbStr (Some 46%Z)).
  split; [|split; [exact E3|split; [exact E2|exact NV]]].
  unfold ip_and_q. cbn [py_int bind]. change (negb (inb 46 mm_codes)) with false. cbv iota. rewrite E1. cbn [bind].
  change (first_params x_q) with y_q. change (coplanar (AbStr (Some 46%Z))) with (AbStr (Some 46%Z)). rewrite E3. cbn [bind]. reflexivity.
Qed.

Print Assumptions C40_agreement_partial.
Print Assumptions C40_other_codes_refuted.
Print Assumptions C12_wavenumber.
Print Assumptions C41_gain.
Print Assumptions C41_default_refuted.
Print Assumptions C42_ratio.
Print Assumptions C42_dictionary_refuted.
Print Assumptions C42_string_refuted.
