(** The routines dipole_k, gpr and ip_and_q. *)

From Coq Require Import ZArith Reals List Bool String QArith Lia Lra.
From Coquelicot Require Import Coquelicot.
From Verif Require Import PyBase CBase Kernel KernelSpec KernelClosed KernelPhys KernelMain KernelThm KernelThm2 Utils UtilsAb UtilsLayer UtilsModel UtilsFreq UtilsGeo UtilsSurvey Transform TransformDlf Fullspace Model ModelFem Routines RoutinesThm Bipole BipoleCol BipoleThm BipoleLoop BipoleFinal BipoleStrength RoutinesK.
Import ListNotations.
Local Open Scope R_scope.
Local Open Scope res_scope.

(** ** A checked model *)
Lemma plain_setup : forall m depth q freq mo, plain_model m depth q freq ->
  check_model m depth (q_res q) (q_aniso q) (q_eH q) (q_eV q) (q_mH q) (q_mV q) = Ok mo ->
  let rows := rows_of (check_frequency m freq (m_res mo) (m_aniso mo) (m_epermH mo) (m_epermV mo) (m_mpermH mo) (m_mpermV mo)) in
  exists N z, m_depth mo = depth_arr z N /\ List.length rows = List.length freq /\ rows <> [] /\
    (forall r, In r rows -> passive_row N z r) /\
    forall y, exists n, layer1 (m_depth mo) y = Ok (Z.of_nat n) /\ (n <= N)%nat.
Proof.
  intros m depth q freq mo [[v HR] HW HD M1 M2 MU FN] Em rows.
  set (fo := check_frequency _ _ _ _ _ _ _ _) in rows.
  destruct (freq_lengths m freq (m_res mo) (m_aniso mo) (m_epermH mo) (m_epermV mo) (m_mpermH mo) (m_mpermV mo)) as (L1 & L2 & L3 & L4). fold fo in L1, L2, L3, L4.
  change (cmodel m depth (inp_of q) = Ok mo) in Em.
  assert (LR : List.length rows = List.length freq) by (unfold rows, rows_of; rewrite map_length, !combine_length; lia).
  assert (F0 : (0 < List.length freq)%nat) by (destruct freq; [congruence|cbn; lia]).
  pose proof (fun j => checked_passive m depth (inp_of q) mo freq fo j HW HD M1 M2 Em eq_refl (MU mo Em)) as CP. cbv zeta in CP.
  set (N := (List.length (m_depth mo) - 1)%nat) in *. set (z := depth_fun (m_depth mo)) in *.
  exists N, z. destruct (CP 0%nat F0) as (ED & INC & _). split; [exact ED|]. split; [exact LR|]. split; [intros E; rewrite E in LR; cbn in LR; lia|]. split.
  - intros r Hr. destruct (In_nth _ _ r_d Hr) as (j & Hj & <-). rewrite LR in Hj. destruct (CP j Hj) as (_ & _ & E1 & E2 & E3 & E4 & PM).
    exists (row (f_etaH fo) j), (row (f_etaV fo) j), (row (f_zetaH fo) j), (row (f_zetaV fo) j). split; [exact PM|].
    rewrite <- E1, <- E2, <- E3, <- E4. unfold rows, rows_of.
    match goal with |- nth j (map ?f _) _ = _ => rewrite (nth_indep _ r_d (f (([], []), ([], [])))) by (rewrite map_length, !combine_length; lia); rewrite (map_nth f) end.
    rewrite !combine_nth by (rewrite ?combine_length; lia). reflexivity.
  - intros y. exists (KernelBVP.lay z N y). split; [|apply KernelBVP.lay_le]. unfold layer1. rewrite ED. rewrite layer_nr_lay by (intros i Hi; left; apply INC; lia). reflexivity.
Qed.

(** ** dipole_k *)

(** A filter applied to the two parts of the wavenumber-domain response *)
Fixpoint filter_sum (w0 w1 : list R) (P : list (C * C)) : C :=
  match w0, w1, P with
  | a :: w0', b :: w1', p :: P' => Cplus (Cplus (Cmult (fst p) (RtoC a)) (Cmult (snd p) (RtoC b))) (filter_sum w0' w1' P')
  | _, _, _ => RtoC 0
  end.

Lemma filter_elements : forall key ab (K : R -> triple) af af' r,
  0 < r -> inb key j2_components = inb ab j2_components ->
  (af = af' \/ forall l, t1 (K l) = None /\ t0b (K l) = None) ->
  forall base w0 w1, List.length w0 = List.length base -> List.length w1 = List.length base ->
  filter_sum w0 w1 (map (fun b => k_element key (K (b / r)) af r) base) =
  Cplus (fsum w0 base (part_of t0 K) r)
        (Cmult (RtoC af') (Cplus (let s := fsum w1 base (part_of t1 K) r in if inb ab j2_components then Cdiv s (RtoC r) else s)
                                 (fsum w0 base (part_of t0b K) r))).
Proof.
  intros key ab K af af' r Hr HK HA. assert (NZ : RtoC r <> RtoC 0) by (intros E; injection E; lra). cbv zeta. induction base as [|b base IH]; intros w0 w1 L0 L1.
  - destruct w0; [|discriminate]. destruct w1; [|discriminate]. cbn [map filter_sum fsum]. destruct (inb ab j2_components); unfold Cdiv; ring.
  - destruct w0 as [|x w0]; [discriminate|]. destruct w1 as [|y w1]; [discriminate|]. injection L0 as L0. injection L1 as L1.
    cbn [map filter_sum fsum]. rewrite (IH w0 w1 L0 L1). clear IH. unfold part_of.
    unfold k_element. change [11; 12; 21; 22; 14; 24; 15; 25]%Z with j2_components. rewrite HK.
    assert (HT : af = af' \/ (t1 (K (b / r)) = None /\ t0b (K (b / r)) = None)) by (destruct HA as [HA|HA]; [now left|right; apply HA]).
    destruct (K (b / r)) as [[J0 J1] J0b]. unfold t0, t1, t0b in *. cbn [fst snd] in *.
    set (A := fsum w0 base _ r). set (B := fsum w1 base _ r). set (D := fsum w0 base (fun l : R => oval (snd (K l))) r). clearbody A B D.
    destruct HT as [-> | [-> ->]].
    + destruct J0, J1, J0b; cbn [oval]; destruct (inb ab j2_components); unfold Cdiv; ring.
    + destruct J0; cbn [oval]; destruct (inb ab j2_components); unfold Cdiv; ring.
Qed.

(** the codes for which the raw code serves as well as the computed one *)
Definition k_codes : list Z := [11; 12; 13; 14; 15; 16; 21; 22; 23; 24; 25; 26; 31; 32; 33; 34; 35; 36; 43; 56; 61; 63; 65; 66]%Z.

Lemma raw_int : forall z, raw_key (AbNum (inject_Z z)) = z.
Proof.
  intros z. unfold raw_key, inject_Z. cbn [Qnum Qden]. rewrite Z.quot_1_r. 
  assert (E : Qeq_bool (z # 1) (z # 1) = true) by (apply Qeq_bool_iff; reflexivity). now rewrite E.
Qed.
Lemma ab_int : forall z, py_int (AbNum (inject_Z z)) = Ok z.
Proof. intros z. unfold py_int, inject_Z. cbn [Qnum Qden]. now rewrite Z.quot_1_r. Qed.

Definition same_codes (z : Z) : Prop := forall abc ms mr, check_ab (AbNum (inject_Z z)) = Ok (abc, ms, mr) ->
  inb z j2_components = inb abc j2_components /\
  ((forall a, angle_factor a z ms mr = angle_factor a abc ms mr) \/
   forall mr' l p q, t1 (collect abc mr' l p q) = None /\ t0b (collect abc mr' l p q) = None).

Lemma k_codes_same : forall z, In z k_codes -> same_codes z /\ exists abc ms mr, check_ab (AbNum (inject_Z z)) = Ok (abc, ms, mr) /\ (abc = 36%Z \/ valid_call abc ms mr).
Proof.
  intros z H. unfold k_codes in H. cbn [In] in H.
  repeat (destruct H as [<-|H]; [split; [intros abc ms mr E; vm_compute in E; injection E as <- <- <-; split; [reflexivity|]; try (left; intros a; reflexivity); right; intros; split; reflexivity
    |do 3 eexists; split; [vm_compute; reflexivity|unfold valid_call; vm_compute; tauto]]|]). contradiction.
Qed.

Lemma nth_map_any : forall {A B} (f : A -> B) l k d d', (k < List.length l)%nat -> nth k (map f l) d' = f (nth k l d).
Proof. intros A B f l k d d' H. rewrite (nth_indep _ d' (f d)) by (now rewrite map_length). apply map_nth. Qed.

Lemma mapM_all : forall {A B} (f : A -> res B) (g : A -> B) l, (forall x, In x l -> f x = Ok (g x)) -> mapM f l = Ok (map g l).
Proof.
  intros A B f g. induction l as [|x l IH]; intros H; [reflexivity|]. cbn [mapM map]. rewrite (H x (or_introl eq_refl)). cbn [bind].
  rewrite IH; [reflexivity|]. intros y Hy. apply H. now right.
Qed.

Lemma kern_ok : forall zs zr s r z N ab xd ms mr w l, passive_row N z w -> valid_call ab ms mr -> (s <= N)%nat -> (r <= N)%nat ->
  wavenumber zs zr (Z.of_nat s) (Z.of_nat r) (depth_arr z N) (r_eH w) (r_eV w) (r_zH w) (r_zV w) l ab xd ms mr = Ok (kern zs zr s r z N ab xd ms mr w l).
Proof.
  intros zs zr s r z N ab xd ms mr w l (eH & eV & zH & zV & PM & ->) HV Hs Hr. unfold kern. cbn [r_eH r_eV r_zH r_zV].
  destruct (passive_total eH eV zH zV z N l ab xd ms mr s r zs zr PM HV Hs Hr) as (p & q & Eg).
  unfold gcall in Eg. unfold wavenumber. rewrite Eg. reflexivity.
Qed.

Lemma kern_collect : forall zs zr s r z N ab xd ms mr w l, exists p q, kern zs zr s r z N ab xd ms mr w l = collect ab mr l p q.
Proof.
  intros. unfold kern, wavenumber. destruct (greenfct _ _ _ _ _ _ _ _ _ _ _ _ _ _) as [[p q]|e]; cbn [bind]; eauto.
Qed.

(** fem with a transform that treats rows and offsets separately, without direct field *)
Lemma fem_table : forall rdt valid calc F ab off angle zs zr ls lr rows full ms mr lf lo,
  separable valid calc false F -> rows <> [] -> off <> [] -> List.length angle = List.length off ->
  (forall r, In r rows -> valid r) -> (forall o, In o off -> 0 < o) -> ab <> 36%Z -> (lf && lo = false)%bool ->
  exists k, fem rdt calc ab off angle zs zr ls lr rows (Some false) full ms mr lf lo true =
    Ok (table F rows off (map (fun a => angle_factor a ab ms mr) angle), k, true).
Proof.
  intros rdt valid calc F ab off angle zs zr ls lr rows full ms mr lf lo HS NR NO La Hv Hp H36 HL.
  assert (LA : List.length (map (fun a => angle_factor a ab ms mr) angle) = List.length off) by (now rewrite map_length).
  assert (SH : shape_ok (List.length rows) (List.length off) (table F rows off (map (fun a => angle_factor a ab ms mr) angle)) = true).
  { apply shp_ok. split; [unfold table; apply map_length|]. intros r Hr. unfold table in Hr. apply in_map_iff in Hr. destruct Hr as (w & <- & _). rewrite map_length, combine_length. lia. }
  assert (E0 : fem rdt calc ab off angle zs zr ls lr rows (Some false) full ms mr false false true =
    Ok (table F rows off (map (fun a => angle_factor a ab ms mr) angle), 1%Z, true)).
  { unfold fem. assert (EI : inb ab [36]%Z = false) by (unfold inb; cbn; destruct (Z.eqb_spec ab 36); [contradiction|reflexivity]). rewrite EI. cbn [andb bind].
    rewrite andb_false_r. cbn [negb]. unfold fem_calc. rewrite (HS rows off _ NR NO LA Hv Hp). cbn [bind]. rewrite SH. cbn [need bind].
    rewrite mat_add_zeros; [reflexivity|..]; apply shp_ok in SH; [apply SH|intros r Hr; now apply SH]. }
  destruct (fem_loops rdt valid calc F ab off angle zs zr ls lr rows (Some false) full ms mr true HS NR NO La Hv Hp _ _ _ E0) as (_ & kf & ko & Ef & Eo & _).
  destruct lf, lo; try discriminate HL; eauto.
Qed.

(** Both routines in closed form, for a code that is not reduced to zero *)
Lemma both_closed : forall m hook spl filt src rec depth q freq ab lf lo abc ms mr off angle zs zr ns nr mo wl,
  well_formed filt -> plain_model m depth q freq -> 0 < min_off m -> (lf && lo = false)%bool ->
  check_model m depth (q_res q) (q_aniso q) (q_eH q) (q_eV q) (q_mH q) (q_mV q) = Ok mo ->
  check_ab ab = Ok (abc, ms, mr) -> abc <> 36%Z -> valid_call abc ms mr ->
  geometry m src rec = Ok (off, angle, zs, zr, ns, nr) -> off <> [] ->
  let rows := rows_of (check_frequency m freq (m_res mo) (m_aniso mo) (m_epermH mo) (m_epermV mo) (m_mpermH mo) (m_mpermV mo)) in
  exists N z s r, m_depth mo = depth_arr z N /\ (s <= N)%nat /\ (r <= N)%nat /\ List.length rows = List.length freq /\ (forall w, In w rows -> passive_row N z w) /\
    (layer1 (m_depth mo) zs = Ok (Z.of_nat s) /\ layer1 (m_depth mo) zr = Ok (Z.of_nat r)) /\
    dipole m hook (dlf_mk spl filt) src rec depth q freq ab (Some false) lf lo =
      Ok (table (fun w o a => dlf_value filt abc (kern zs zr s r z N abc false ms mr w) o a) rows off (map (fun a => angle_factor a abc ms mr) angle), nr, ns) /\
    dipole_k m src rec depth q freq wl ab =
      Ok (map (fun w => map (fun p => map (fun l => k_element (raw_key ab) (kern zs zr s r z N abc false ms mr w l) (snd p) (fst p)) wl)
                            (combine off (map (fun a => angle_factor a (raw_key ab) ms mr) angle))) rows).
Proof.
  intros m hook spl filt src rec depth q freq ab lf lo abc ms mr off angle zs zr ns nr mo wl HF HP HO HL Em EA N36 HV EG NO rows.
  destruct (geometry_spec _ _ _ _ _ _ _ _ _ EG) as (G1 & G2 & G3).
  assert (La : List.length angle = List.length off) by congruence. assert (Po : forall o, In o off -> 0 < o) by (intros o Ho; specialize (G3 o Ho); lra).
  destruct (plain_setup m depth q freq mo HP Em) as (N & zz & ED & LR & NR & PR & LY). destruct HP as [[v HR] _ _ _ _ _ _]. fold rows in LR, NR, PR.
  destruct (LY zs) as (s & Els & Bs). destruct (LY zr) as (r & Elr & Br). exists N, zz, s, r.
  split; [exact ED|]. split; [exact Bs|]. split; [exact Br|]. split; [exact LR|]. split; [exact PR|]. split; [now split|].
  assert (EI : inb abc [36]%Z = false) by (unfold inb; cbn; destruct (Z.eqb_spec abc 36); [contradiction|reflexivity]).
  split.
  - unfold dipole. rewrite Em. cbn [bind]. rewrite HR. cbn [apply_hook]. rewrite EA. cbn [bind]. rewrite EG. cbn [bind]. rewrite Els, Elr. cbn [bind]. fold rows.
    rewrite ED. unfold dlf_mk.
    destruct (fem_table (laplace_of freq) (passive_row N zz) _ _ abc off angle zs zr (Z.of_nat s) (Z.of_nat r) rows (m_full mo) ms mr lf lo
      (dlf_separable spl filt zz N abc ms mr s r zs zr false HF HV Bs Br) NR NO La PR Po N36 HL) as (kc & EF).
    rewrite EF. reflexivity.
  - unfold dipole_k. rewrite Em. cbn [bind]. rewrite EA. cbn [bind]. rewrite EG. cbn [bind]. rewrite Els, Elr. cbn [bind]. fold rows. rewrite EI, ED.
    rewrite (mapM_all _ (fun w => map (kern zs zr s r zz N abc false ms mr w) wl) rows).
    2:{ intros w Hw. apply mapM_all. intros l _. apply kern_ok; auto. }
    cbn [bind]. f_equal. rewrite map_map. apply map_ext. intros w. apply map_ext. intros p. apply map_map.
Qed.

Theorem dipole_k_filter : forall m hook spl filt src rec depth q freq z lf lo EM nrec nsrc off angle zs zr ns nr,
  well_formed filt -> plain_model m depth q freq -> 0 < min_off m -> In z k_codes -> (lf && lo = false)%bool ->
  geometry m src rec = Ok (off, angle, zs, zr, ns, nr) ->
  dipole m hook (dlf_mk spl filt) src rec depth q freq (AbNum (inject_Z z)) (Some false) lf lo = Ok (EM, nrec, nsrc) ->
  forall o, (o < List.length off)%nat ->
  exists K, dipole_k m src rec depth q freq (map (fun b => b / nth o off 0) (f_base filt)) (AbNum (inject_Z z)) = Ok K /\
    forall f, (f < List.length freq)%nat ->
      nth o (nth f EM []) (RtoC 0) = Cdiv (filter_sum (f_j0 filt) (f_j1 filt) (nth o (nth f K []) [])) (RtoC (nth o off 0)).
Proof.
  intros m hook spl filt src rec depth q freq z lf lo EM nrec nsrc off angle zs zr ns nr HF HP HO HZ HL EG H o Ho.
  destruct (geometry_spec _ _ _ _ _ _ _ _ _ EG) as (G1 & G2 & G3).
  assert (La : List.length angle = List.length off) by congruence. assert (Po : forall o, In o off -> 0 < o) by (intros o' Ho'; specialize (G3 o' Ho'); lra).
  assert (NO : off <> []) by (intros E; rewrite E in Ho; cbn in Ho; lia).
  destruct (k_codes_same z HZ) as [SC (abc & ms & mr & EA & HV)].
  assert (PO : 0 < nth o off 0) by (apply Po, nth_In; exact Ho).
  assert (Em : exists mo, check_model m depth (q_res q) (q_aniso q) (q_eH q) (q_eV q) (q_mH q) (q_mV q) = Ok mo) by (unfold dipole in H; apply bind_ok in H; destruct H as (mo & Em & _); eauto).
  destruct Em as (mo & Em). set (wl := map _ (f_base filt)).
  destruct (Z.eq_dec abc 36) as [->|N36].
  - destruct (plain_setup m depth q freq mo HP Em) as (N & zz & ED & LR & NR & PR & LY). destruct HP as [[v HR] _ _ _ _ _ _].
    destruct (LY zs) as (s & Els & Bs). destruct (LY zr) as (r & Elr & Br).
    unfold dipole in H. unfold dipole_k. rewrite Em in *. cbn [bind] in *. rewrite HR in H. cbn [apply_hook] in H. set (rows := rows_of _) in *. rewrite EA in *. cbn [bind] in *. rewrite EG in *. cbn [bind] in *. rewrite Els, Elr in *. cbn [bind] in *.
    change (inb 36 [36]%Z) with true. cbv iota. eexists. split; [reflexivity|]. intros f Hf.
    rewrite fem_36 in H. cbn [bind] in H. injection H as <- <- <-. rewrite <- LR in Hf.
    rewrite (nth_indep _ [] (repeat (RtoC 0) (List.length off))) by (now rewrite repeat_length). rewrite nth_repeat, nth_repeat.
    rewrite (nth_map_any _ rows f r_d [] Hf), (nth_map_any _ off o 0 [] Ho).
    assert (FS : forall w0 w1 l, filter_sum w0 w1 (map (fun _ : R => (RtoC 0, RtoC 0)) l) = RtoC 0).
    { induction w0 as [|a w0 IH]; intros [|b w1] [|x l]; cbn [filter_sum map]; try reflexivity. rewrite IH. cbn [fst snd]. ring. }
    rewrite FS. unfold Cdiv. ring.
  - destruct HV as [HV|HV]; [contradiction|].
    destruct (both_closed m hook spl filt src rec depth q freq (AbNum (inject_Z z)) lf lo abc ms mr off angle zs zr ns nr mo wl HF HP HO HL Em EA N36 HV EG NO) as (N & zz & s & r & ED & Bs & Br & LR & PR & _ & E1 & E2).
    rewrite E1 in H. injection H as <- <- <-. clear E1.
    rewrite E2. eexists. split; [reflexivity|]. intros f Hf. set (rows := rows_of _) in *. rewrite <- LR in Hf.
    unfold table. rewrite (nth_map_any _ rows f r_d [] Hf). rewrite (nth_map_any _ rows f r_d [] Hf). set (w := nth f rows r_d).
    set (an := map (fun a => angle_factor a abc ms mr) angle). set (an' := map (fun a => angle_factor a (raw_key _) ms mr) angle).
    assert (L1 : List.length an = List.length off) by (unfold an; now rewrite map_length). assert (L2 : List.length an' = List.length off) by (unfold an'; now rewrite map_length).
    assert (C1 : (o < List.length (combine off an))%nat) by (rewrite combine_length; lia). assert (C2 : (o < List.length (combine off an'))%nat) by (rewrite combine_length; lia).
    rewrite (nth_map_any _ (combine off an) o (0, 0) (RtoC 0) C1), (nth_map_any _ (combine off an') o (0, 0) [] C2).
    rewrite !combine_nth by lia. cbn [fst snd]. unfold dlf_value. f_equal. unfold wl. rewrite !map_map.
    destruct (SC abc ms mr EA) as [S1 S2]. rewrite raw_int. symmetry. apply filter_elements; try apply HF; try assumption.
    destruct S2 as [S2|S2].
    + left. unfold an', an. rewrite raw_int. assert (Lo : (o < List.length angle)%nat) by lia.
      rewrite !(nth_map_any _ angle o 0 0 Lo). apply S2.
    + right. intros l. destruct (kern_collect zs zr s r zz N abc false ms mr w l) as (p & qq & ->). apply S2.
Qed.

(** Code 64 is computed as 31, whose angle factor is a cosine; dipole_k takes the sine
    of the raw code. *)
Lemma af_64 : angle_factor 0 64 true true = 0.
Proof. unfold angle_factor. cbn -[isclose PI sin]. rewrite sin_0. repeat match goal with |- (if ?b then _ else _) = _ => destruct b end; reflexivity. Qed.
Lemma af_31 : angle_factor 0 31 true true = 1.
Proof.
  assert (PP := PI_RGT_0). assert (P4 := PI_4). 
  assert (HC : forall t, 0 < t -> isclose (Rabs 0) t (/ 10 ^ 10) (/ 10 ^ 14) = Rleb t (/ 10 ^ 14 + / 10 ^ 10 * t)).
  { intros t Ht. unfold isclose. rewrite Rabs_R0. replace (0 - t) with (- t) by ring. rewrite Rabs_Ropp, (Rabs_pos_eq t) by lra. reflexivity. }
  assert (T10 : / 10 ^ 10 <= / 4). { apply Rinv_le_contravar; [lra|]. apply Rle_trans with (10 ^ 1); [lra|]. apply Rle_pow; [lra|lia]. }
  assert (T14 : / 10 ^ 14 <= / 4). { apply Rinv_le_contravar; [lra|]. apply Rle_trans with (10 ^ 1); [lra|]. apply Rle_pow; [lra|lia]. }
  assert (P3 : 3 / 2 < PI / 2) by (pose proof PI2_3_2; lra).
  assert (HF : forall t, 3 / 2 < t -> Rleb t (/ 10 ^ 14 + / 10 ^ 10 * t) = false).
  { intros t Ht. apply UtilsLayer.Rleb_false. assert (/ 10 ^ 10 * t <= / 4 * t) by (apply Rmult_le_compat_r; lra). lra. }
  unfold angle_factor. change (inb 31 [33])%Z with false. change (inb 31 [11; 22; 15; 24; 13; 31; 26; 35])%Z with true.
  change (inb 31 [11; 22; 15; 24; 12; 21; 14; 25])%Z with false. change (true && negb true)%bool with false. cbv iota zeta. rewrite !HC, !HF by lra. apply cos_0.
Qed.

Lemma k_64_zero : forall mr l p q off, k_element 64 (collect 31 mr l p q) 0 off = (RtoC 0, RtoC 0).
Proof. intros. unfold k_element, collect. cbn -[Cplus Cmult Cdiv RtoC PI cz]. f_equal. rewrite Cmult_0_l. apply Cplus_0_l. Qed.

(** The magnetic vertical response of a horizontal magnetic source in a full space *)
Lemma full_space_31 : forall w z zs zr l, passive_row 0 z w -> zs <> zr -> 0 < l ->
  exists v, kern zs zr 0 0 z 0 31 false true true w l = (None, Some v, None) /\ v <> RtoC 0.
Proof.
  intros w z zs zr l (eH & eV & zH & zV & PM & ->) Hz Hl. pose proof (passive_model_ok _ _ _ _ _ _ l PM) as OK.
  assert (HV : valid_call 31 true true) by (unfold valid_call; cbn; tauto).
  pose proof (gcall_resp eH eV zH zV z 0 l 31 false true true 0 0 zs zr OK HV (le_n 0) (le_n 0)) as E. unfold gcall in E.
  unfold kern, wavenumber. cbn [r_eH r_eV r_zH r_zV]. change (Z.of_nat 0) with 0%Z in *. rewrite E. cbn [bind]. unfold resp.
  set (T := PTM zH zV eH z 0 l 31 false 0 0 zs zr).
  assert (ET : PTE eH eV zH z 0 l 31 false 0 0 zs zr = RtoC 0) by reflexivity. rewrite ET.
  assert (NT : T <> RtoC 0).
  { unfold T, PTM. change (mode_used true 31) with true. cbv iota. rewrite G_mode_1layer. set (g := gam zH zV eH l).
    assert (Hg : g 0%nat <> RtoC 0) by (apply (mo_gTE _ _ _ _ _ _ _ OK); lia).
    assert (Hv : zV 0%nat <> RtoC 0) by (apply (mo_zV _ _ _ _ _ _ _ OK); lia). assert (Hh : zH 0%nat <> RtoC 0) by (apply (mo_zH _ _ _ _ _ _ _ OK); lia).
    assert (Hi : forall a b : C, a <> RtoC 0 -> b <> RtoC 0 -> Cdiv a b <> RtoC 0).
    { intros a b Ha Hb F. apply Ha. replace a with (Cmult (Cdiv a b) b) by (field; exact Hb). rewrite F. ring. }
    assert (O1 : RtoC 1 <> RtoC 0) by (intros F; injection F; lra).
    assert (Om : Copp (RtoC 1) <> RtoC 0) by (intros F; injection F; lra).
    apply Cmult_neq_0.
    - unfold fTM. change (srcc 31 =? 3)%Z with false. change (recc 31 =? 3)%Z with true. cbv iota. apply Hi; [apply Hi; [|exact O1]|exact Hv].
      apply Cmult_neq_0; [apply Cmult_neq_0|]; [exact O1|unfold wsrc; destruct (Ceq_dec _ _); [now apply Hi|exact O1]|unfold wgt; destruct (Ceq_dec _ _); [exact O1|now apply Hi]].
    - unfold G_dir. apply Cmult_neq_0; [apply Cexp_neq_0|]. unfold dsgn. apply Cmult_neq_0.
      + destruct (csg_pm1 true 31) as [-> | ->]; [exact O1|exact Om].
      + destruct (Ceq_dec _ _); [exact O1|]. intros F. injection F. unfold Rsign.
        destruct (Rlt_dec (zr - zs) 0) as [|A]; [lra|]. destruct (Rlt_dec 0 (zr - zs)) as [|B]; [lra|]. intros _. apply Hz. lra. }
  eexists. split; [reflexivity|]. change (cz (-1)) with (RtoC (-1)).
  assert (D : RtoC (4 * PI) <> RtoC 0) by (intros F; injection F; pose proof PI_RGT_0; lra).
  apply Cmult_neq_0; [apply Cmult_neq_0|]; [intros F; injection F; lra| |intros F; injection F; nra].
  intros F. apply NT. replace T with (Cmult (Copp (Cdiv (Cplus (Copp T) (Copp (RtoC 0))) (RtoC (4 * PI)))) (RtoC (4 * PI))) by (field; exact D). rewrite F. ring.
Qed.

(** ** Shape of the result of dipole *)
Lemma dipole_shape : forall m mk src rec depth q freq ab xd lf lo EM nr ns v hook,
  q_res q = ResArr v -> dipole m hook mk src rec depth q freq ab xd lf lo = Ok (EM, nr, ns) -> shp (List.length freq) (nr * ns) EM.
Proof.
  intros m mk src rec depth q freq ab xd lf lo EM nr ns v hook HR H. unfold dipole in H.
  apply bind_ok in H. destruct H as (mo & Em & H). rewrite HR in H. cbn [apply_hook] in H. set (fo := check_frequency _ _ _ _ _ _ _ _) in *.
  apply bind_ok in H. destruct H as ([[abc ms] mr] & EA & H). apply bind_ok in H. destruct H as ([[[[[off angle] zs] zr] ns'] nr'] & EG & H).
  apply bind_ok in H. destruct H as (ls & _ & H). apply bind_ok in H. destruct H as (lr & _ & H).
  apply bind_ok in H. destruct H as ([[M k] c] & EF & H). injection H as -> -> ->.
  destruct (geometry_spec _ _ _ _ _ _ _ _ _ EG) as (G1 & G2 & _).
  apply fem_shape in EF; [|congruence]. rewrite G1 in EF.
  destruct (freq_lengths m freq (m_res mo) (m_aniso mo) (m_epermH mo) (m_epermV mo) (m_mpermH mo) (m_mpermV mo)) as (L1 & L2 & L3 & L4). fold fo in L1, L2, L3, L4.
  rewrite (rows_of_len fo (List.length freq)) in EF by lia. exact EF.
Qed.

(** ** gpr *)
Lemma ricker_length : forall cf freq, List.length (ricker cf freq) = List.length freq.
Proof.
  intros cf freq. unfold ricker. rewrite map_length, firstn_length. destruct freq as [|f l]; [reflexivity|].
  assert (E : List.length (removelast (f :: l)) = List.length l). { clear. revert f. induction l as [|g l IH]; intros f; [reflexivity|]. cbn [removelast]. cbn [List.length]. rewrite <- (IH g). reflexivity. }
  cbn [List.length]. rewrite E. apply Nat.min_id.
Qed.

(** weight of frequency k *)
Definition ricker_at (cf : R) (freq : list R) (k : nat) : R :=
  let f := match k with O => 0 | S j => nth j freq 0 end in - (f / cf) ^ 2 * exp (- (f / cf) ^ 2).
Lemma ricker_nth : forall cf freq k, (k < List.length freq)%nat -> nth k (ricker cf freq) 0 = ricker_at cf freq k.
Proof.
  intros cf freq k H. unfold ricker, ricker_at. rewrite (nth_map_any _ _ k 0 0).
  2:{ pose proof (ricker_length cf freq) as L. unfold ricker in L. rewrite map_length in L. lia. }
  assert (E : nth k (firstn (List.length freq) (0 :: removelast freq)) 0 = match k with O => 0 | S j => nth j freq 0 end).
  { destruct freq as [|f l]; [cbn in H; lia|]. cbn [List.length firstn]. destruct k as [|j]; [reflexivity|]. cbn [nth]. cbn [List.length] in H.
    assert (Hj : (j < List.length l)%nat) by lia. clear H. revert f j Hj. induction l as [|g l IH]; intros f j Hj; [cbn in Hj; lia|].
    change (removelast (f :: g :: l)) with (f :: removelast (g :: l)). cbn [List.length firstn]. destruct j as [|j]; [reflexivity|]. cbn [nth]. apply (IH g j). cbn [List.length] in Hj. lia. }
  rewrite E. replace ((match k with O => 0 | S j => nth j freq 0 end / cf) ^ 2) with (match k with O => 0 | S j => nth j freq 0 end / cf * (match k with O => 0 | S j => nth j freq 0 end / cf)) by ring.
  ring_simplify. reflexivity.
Qed.

Theorem gpr_value : forall calc time cf g m hook mk src rec depth q freq ab xd lf lo E v,
  q_res q = ResArr v -> gpr calc time cf (Some g) m hook mk src rec depth q freq ab xd lf lo = Ok E ->
  exists EM nr ns, dipole m hook mk src rec depth q freq ab xd lf lo = Ok (EM, nr, ns) /\ List.length E = List.length time /\
    forall t r s, (t < List.length time)%nat -> (r < nr)%nat -> (s < ns)%nat ->
    exists o c, calc (map (fun k => Cmult (RtoC (ricker_at cf freq k)) (nth (r + nr * s) (nth k EM []) (RtoC 0))) (seq 0 (List.length freq))) = Ok (o, c) /\
      eltT t r s E = (1 + Rabs (Rpower (nth t time 0 * 10 ^ 9) g)) * (2 / PI * nth t o 0).
Proof.
  intros calc time cf g m hook mk src rec depth q freq ab xd lf lo E v HR H. unfold gpr in H.
  apply bind_ok in H. destruct H as ([[EM nr] ns] & ED & H). exists EM, nr, ns. split; [exact ED|]. apply (dipole_shape _ _ _ _ _ _ _ _ _ _ _ _ _ _ _ _ HR) in ED.
  apply bind_ok in H. destruct H as ([T cv] & ET & H). rewrite (mapM_all _ (fun t => 1 + Rabs (Rpower (t * 10 ^ 9) g))) in H by reflexivity. cbn [bind] in H.
  set (F := map _ time) in H. assert (HE : E = reshapeT nr ns (map2 (fun x row => map (Rmult x) row) F T)) by (injection H as H; now symmetry). clear H.
  assert (LF : List.length F = List.length time) by apply map_length.
  assert (LT : List.length T = List.length time). { pose proof ET as ET'. unfold tem in ET'. apply bind_ok in ET'. destruct ET' as ([cols cv'] & _ & ET'). injection ET' as <- _. now rewrite map_length, seq_length. }
  assert (LE : List.length E = List.length time) by (rewrite HE; unfold reshapeT; rewrite map_length, map2_length; lia).
  split; [exact LE|]. intros t r s Ht Hr Hs.
  assert (Hj : (r + nr * s < nr * ns)%nat) by (clear -Hr Hs; assert (nr * S s <= nr * ns)%nat by (apply Nat.mul_le_mono_l; lia); lia). assert (Hnt : (0 < List.length time)%nat) by lia. set (j := (r + nr * s)%nat) in *.
  destruct (tem_column _ _ _ _ _ _ None _ _ j I Hnt Hj ET) as (c' & E1). unfold tem in E1. cbn [seq foldM] in E1.
  set (cl := map2 Cmult (column 0 _) (map (step_factor 0) freq)) in E1.
  assert (EC : cl = map (fun k => Cmult (RtoC (ricker_at cf freq k)) (nth j (nth k EM []) (RtoC 0))) (seq 0 (List.length freq))).
  { unfold cl. clear E1 cl ET. set (W := map2 _ (ricker cf freq) EM). assert (LW : List.length W = List.length freq) by (unfold W; rewrite map2_length, ricker_length, (proj1 ED); lia).
    apply (nth_ext _ _ (RtoC 0) (RtoC 0)).
    { rewrite map2_length. unfold column, colm. rewrite !map_length, seq_length, LW. lia. }
    intros k Hk. rewrite map2_length in Hk. unfold column, colm in Hk. rewrite !map_length in Hk. assert (Hk' : (k < List.length freq)%nat) by lia.
    rewrite (row_nth_map2 _ _ _ k (RtoC 0) (RtoC 0)) by (unfold column, colm; rewrite !map_length; lia).
    rewrite (nth_map_any _ (seq 0 (List.length freq)) k 0%nat) by (rewrite seq_length; lia). rewrite seq_nth, Nat.add_0_l by lia.
    rewrite (nth_map_any (step_factor 0) freq k 0) by lia. change (step_factor 0 (nth k freq 0)) with (RtoC 1). rewrite Cmult_1_r.
    unfold column, colm. rewrite map_map. cbn [nth]. rewrite (nth_map_any _ W k []) by lia. unfold W.
    rewrite (row_nth_map2 _ _ _ k 0 []) by (rewrite ?ricker_length, ?(proj1 ED); lia). rewrite ricker_nth by lia.
    assert (LR : List.length (nth k EM []) = (nr * ns)%nat) by (apply (proj2 ED), nth_In; rewrite (proj1 ED); lia).
    rewrite (nth_map_any (Cmult (RtoC (ricker_at cf freq k))) (nth k EM []) j (RtoC 0)) by lia. reflexivity. }
  rewrite EC in E1. apply bind_ok in E1. destruct E1 as ([cols c1] & E1 & E2). apply bind_ok in E1. destruct E1 as (st & E1 & E3). 
  apply bind_ok in E1. destruct E1 as ([o c] & EO & E1). exists o, c. split; [exact EO|].
  apply bind_ok in E1. destruct E1 as (o' & EN & E1). unfold need in EN. destruct (List.length o =? List.length time)%nat; [|discriminate]. injection EN as <-. injection E1 as <-. injection E3 as <- <-.
  cbn [app map] in E2. assert (E2' : map (fun row => [nth j row 0]) T = map (fun t0 => [2 / PI * nth t0 o 0]) (seq 0 (List.length time))) by (injection E2 as E2; now symmetry). clear E2.
  apply (f_equal (fun l => nth 0 (nth t l []) 0)) in E2'. rewrite (nth_map_any _ T t []), (nth_map_any _ (seq 0 (List.length time)) t 0%nat) in E2' by (rewrite ?seq_length; lia). rewrite seq_nth, Nat.add_0_l in E2' by lia. cbn [nth] in E2'.
  rewrite <- E2'. rewrite HE. unfold eltT, reshapeT. rewrite (nth_map_any _ _ t []) by (rewrite map2_length; lia).
  rewrite !nth_seq_map by assumption. rewrite (row_nth_map2 _ _ _ t 0 []) by lia. fold j. unfold F. rewrite (nth_map_any _ time t 0) by lia.
  destruct (lt_dec j (List.length (nth t T []))) as [HL|HL].
  - now rewrite (nth_map_any _ (nth t T []) j 0).
  - rewrite (nth_overflow (nth t T [])) by lia. rewrite nth_overflow by (rewrite map_length; lia). ring.
Qed.

Theorem gpr_default : forall calc time cf m hook mk src rec depth q freq ab xd lf lo E,
  time <> [] -> gpr calc time cf None m hook mk src rec depth q freq ab xd lf lo <> Ok E.
Proof.
  intros calc time cf m hook mk src rec depth q freq ab xd lf lo E HT H. unfold gpr in H.
  apply bind_ok in H. destruct H as ([[EM nr] ns] & _ & H). apply bind_ok in H. destruct H as ([T cv] & _ & H).
  destruct time as [|t time]; [congruence|]. discriminate H.
Qed.

(** ** ip_and_q *)
(** Code of the co-planar component of the source direction *)
Definition own_code (z : Z) : Z := (11 * (z mod 10))%Z.
Lemma coplanar_int : forall z, In z mm_codes -> coplanar (AbNum (inject_Z z)) = AbNum (inject_Z (own_code z)).
Proof. intros z H. unfold coplanar. rewrite raw_int. repeat (destruct H as [<-|H]; [reflexivity|]). contradiction. Qed.

Definition eltC (f r s : nat) (IP Q : list (list (list R))) : C := (eltT f r s IP, eltT f r s Q).

Lemma elt_part : forall (g : C -> R) f r s H, g (RtoC 0) = 0 -> eltT f r s (map (map (map g)) H) = g (elt f r s H).
Proof.
  intros g f r s H Hg. unfold eltT, elt. transitivity (nth s (nth r (nth f (map (map (map g)) H) []) []) (g (RtoC 0))); [now rewrite Hg|]. rewrite <- (map_nth g). rewrite <- (map_nth (map g)). rewrite <- (map_nth (map (map g))). reflexivity.
Qed.

Lemma ratio_elt : forall k nr ns Hs Hp f r s, (r < nr)%nat -> (s < ns)%nat ->
  let H := reshapeF nr ns (map2 (map2 (fun s p => Cdiv (Cmult (RtoC k) s) p)) Hs Hp) in
  List.length Hs = List.length Hp -> (f < List.length Hs)%nat -> (forall i, List.length (nth i Hs []) = List.length (nth i Hp [])) ->
  eltC f r s (map (map (map fst)) H) (map (map (map snd)) H) =
  Cdiv (Cmult (RtoC k) (nth (r + nr * s) (nth f Hs []) (RtoC 0))) (nth (r + nr * s) (nth f Hp []) (RtoC 0)).
Proof.
  intros k nr ns Hs Hp f r s Hr Hs' H L Hf LR. set (j := (r + nr * s)%nat). unfold eltC.
  apply (eq_trans (f_equal2 (@pair R R) (elt_part fst f r s H eq_refl) (elt_part snd f r s H eq_refl))). apply (eq_trans (eq_sym (surjective_pairing (elt f r s H)))).
  unfold H. clear H. set (M := map2 _ Hs Hp). assert (LM : List.length M = List.length Hs) by (unfold M; rewrite map2_length; lia).
  rewrite elt_reshape by lia. fold j. unfold M. rewrite (row_nth_map2 _ _ _ f [] []) by lia. specialize (LR f).
  destruct (lt_dec j (List.length (nth f Hs []))) as [HL|HL].
  - now rewrite (row_nth_map2 _ _ _ j (RtoC 0) (RtoC 0)) by lia.
  - rewrite (nth_overflow (nth f Hs [])), (nth_overflow (nth f Hp [])) by lia. rewrite nth_overflow by (rewrite map2_length; lia). match goal with |- ?a = ?b => change (@eq C a b) end. unfold Cdiv. ring.
Qed.

(** the survey alone decides the numbers of sources and receivers *)
Lemma dipole_counts : forall m hook mk src rec depth q freq ab xd lf lo EM nr ns,
  dipole m hook mk src rec depth q freq ab xd lf lo = Ok (EM, nr, ns) -> exists off angle zs zr, geometry m src rec = Ok (off, angle, zs, zr, ns, nr).
Proof.
  intros m hook mk src rec depth q freq ab xd lf lo EM nr ns H. unfold dipole in H.
  apply bind_ok in H. destruct H as (mo & _ & H). apply bind_ok in H. destruct H as ([[abc ms] mr] & _ & H).
  apply bind_ok in H. destruct H as ([[[[[off angle] zs] zr] ns'] nr'] & EG & H). exists off, angle, zs, zr. rewrite EG.
  apply bind_ok in H. destruct H as (ls & _ & H). apply bind_ok in H. destruct H as (lr & _ & H).
  apply bind_ok in H. destruct H as ([[M k] c] & _ & H). injection H as _ -> ->. reflexivity.
Qed.

Lemma first_wf : forall v, nd_wf (first_of v).
Proof. intros [sh [|x l]|]; exact I || reflexivity. Qed.
Lemma first_params_wf : forall q v, q_res q = ResArr v -> inputs_wf (q_in (first_params q)).
Proof.
  intros q v HR. unfold first_params. rewrite HR. constructor; cbn [q_in i_res i_aniso i_epermH i_epermV i_mpermH i_mpermV q_res q_aniso q_eH q_eV q_mH q_mV res_in extra_in].
  { apply first_wf. } { intros kv []. }
  all: match goal with |- onwf (option_map _ ?x) => destruct x; [apply first_wf|exact I] end.
Qed.

(** [ab] any value for which the test of 1570-1575 gives [cop] *)
Lemma ip_and_q_general : forall scale m hook mk src rec depth q freq ab lf lo IP Q v,
  q_res q = ResArr v ->
  ip_and_q scale m hook mk src rec depth q freq ab lf lo = Ok (IP, Q) ->
  exists Hs Hp nr ns,
    dipole m hook mk src rec depth q freq ab None lf lo = Ok (Hs, nr, ns) /\
    dipole m hook mk src rec [] (first_params q) freq (coplanar ab) (Some true) lf lo = Ok (Hp, nr, ns) /\
    forall f r s, (f < List.length freq)%nat -> (r < nr)%nat -> (s < ns)%nat ->
      eltC f r s IP Q = Cdiv (Cmult (RtoC scale) (nth (r + nr * s) (nth f Hs []) (RtoC 0))) (nth (r + nr * s) (nth f Hp []) (RtoC 0)).
Proof.
  intros scale m hook mk src rec depth q freq ab lf lo IP Q v HR H. unfold ip_and_q in H. apply bind_ok in H. destruct H as (i & _ & H).
  destruct (negb (inb i mm_codes)); [discriminate|]. apply bind_ok in H. destruct H as ([[Hs nr] ns] & E1 & H).
  apply bind_ok in H. destruct H as ([[Hp nr'] ns'] & E2 & H). exists Hs, Hp, nr, ns. split; [exact E1|].
  destruct (dipole_counts _ _ _ _ _ _ _ _ _ _ _ _ _ _ _ E1) as (off & an & zs & zr & G1).
  destruct (dipole_counts _ _ _ _ _ _ _ _ _ _ _ _ _ _ _ E2) as (off' & an' & zs' & zr' & G2).
  rewrite G1 in G2. injection G2 as _ _ _ _ <- <-. split; [exact E2|].
  assert (HR' : q_res (first_params q) = ResArr (first_of v)) by (unfold first_params; rewrite HR; reflexivity).
  apply (dipole_shape _ _ _ _ _ _ _ _ _ _ _ _ _ _ _ _ HR) in E1. apply (dipole_shape _ _ _ _ _ _ _ _ _ _ _ _ _ _ _ _ HR') in E2.
  intros f r s Hf Hr Hs'. set (M := reshapeF nr ns _) in H.
  assert (EI : IP = map (map (map fst)) M) by (apply (f_equal (fun x => match x with Ok v => fst v | Err _ => IP end)) in H; now symmetry).
  assert (EQ : Q = map (map (map snd)) M) by (apply (f_equal (fun x => match x with Ok v => snd v | Err _ => Q end)) in H; now symmetry).
  rewrite EI, EQ. unfold M. apply ratio_elt; try assumption.
  - rewrite (proj1 E1), (proj1 E2). reflexivity.
  - rewrite (proj1 E1). exact Hf.
  - intros k. destruct (lt_dec k (List.length freq)) as [Hk|Hk].
    + rewrite (proj2 E1), (proj2 E2); [reflexivity|apply nth_In; rewrite (proj1 E2); exact Hk|apply nth_In; rewrite (proj1 E1); exact Hk].
    + rewrite !nth_overflow; [reflexivity|rewrite (proj1 E2); lia|rewrite (proj1 E1); lia].
Qed.

Theorem ip_and_q_ratio : forall scale m hook mk src rec depth q freq z lf lo IP Q v ive kve,
  In z mm_codes -> q_res q = ResArr v ->
  ip_and_q scale m hook mk src rec depth q freq (AbNum (inject_Z z)) lf lo = Ok (IP, Q) ->
  exists Hs Hp nr ns,
    dipole m hook mk src rec depth q freq (AbNum (inject_Z z)) None lf lo = Ok (Hs, nr, ns) /\
    analytical m hook ive kve src rec (first_params q) (FtArr freq) SolFs None (AbNum (inject_Z (own_code z))) = Ok ([Hp], nr, ns) /\
    forall f r s, (f < List.length freq)%nat -> (r < nr)%nat -> (s < ns)%nat ->
      let hs := nth (r + nr * s) (nth f Hs []) (RtoC 0) in let hp := nth (r + nr * s) (nth f Hp []) (RtoC 0) in
      hp <> RtoC 0 -> Cmult (eltC f r s IP Q) hp = Cmult (RtoC scale) hs.
Proof.
  intros scale m hook mk src rec depth q freq z lf lo IP Q v ive kve HZ HR H.
  destruct (ip_and_q_general _ _ _ _ _ _ _ _ _ _ _ _ _ _ _ HR H) as (Hs & Hp & nr & ns & E1 & E2 & HE).
  exists Hs, Hp, nr, ns. split; [exact E1|]. split.
  - assert (HR' : q_res (first_params q) = ResArr (first_of v)) by (unfold first_params; rewrite HR; reflexivity).
    rewrite (analytical_is_dipole m hook mk ive kve src rec (first_params q) (FtArr freq) _ lf lo _ (first_params_wf q v HR) HR').
    rewrite (coplanar_int z HZ) in E2. cbn [ft_data]. rewrite E2. reflexivity.
  - intros f r s Hf Hr Hs' hs hp NZ. rewrite (HE f r s Hf Hr Hs'). fold hs hp. field. exact NZ.
Qed.

(** A dictionary of layered resistivities is kept as it is for the full space *)
Theorem ip_and_q_dict : forall scale m hook mk src rec depth q freq ab lf lo IQ n data ex,
  inputs_wf (q_in (first_params q)) -> q_res q = ResDict (Nd [n] data) ex -> n <> 1%nat ->
  ip_and_q scale m hook mk src rec depth q freq ab lf lo <> Ok IQ.
Proof.
  intros scale m hook mk src rec depth q freq ab lf lo IQ n data ex W HR Hn H. unfold ip_and_q in H. apply bind_ok in H. destruct H as (i & _ & H).
  destruct (negb (inb i mm_codes)); [discriminate|]. apply bind_ok in H. destruct H as ([[Hs nr] ns] & E1 & H).
  apply bind_ok in H. destruct H as ([[Hp nr'] ns'] & E2 & H). unfold dipole in E2. apply bind_ok in E2. destruct E2 as (mo & EM & _).
  change (cmodel m [] (q_in (first_params q)) = Ok mo) in EM. rewrite check_model_closed in EM by exact W.
  change (check_depth []) with (@Ok (bool * list ext) (false, [NInf])) in EM. cbv iota beta in EM.
  assert (AF : all_fit (List.length [NInf]) (q_in (first_params q)) = false).
  { unfold all_fit. cbn [q_in i_res first_params q_res]. rewrite HR. cbn [res_in fits].
    assert (E : shape_eqb [List.length [NInf]] (atleast1 [n]) = false) by (cbn; destruct n as [|[|n]]; [reflexivity|congruence|reflexivity]). now rewrite E. }
  rewrite AF in EM. discriminate EM.
Qed.
