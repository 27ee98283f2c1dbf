(** The routine bipole: accepted input gives a result. *)

From Coq Require Import ZArith Reals List Bool String Lia Lra.
From Coquelicot Require Import Coquelicot.
From Verif Require Import PyBase CBase Kernel KernelSpec KernelClosed KernelMain KernelThm KernelThm2 Utils UtilsLayer UtilsModel UtilsFreq UtilsGeo UtilsSurvey Transform TransformDlf Fullspace Model ModelFem Routines RoutinesThm Bipole BipoleCol BipoleThm BipoleLoop BipolePlace BipoleMain BipoleFinal BipoleStrength.
Import ListNotations.
Local Open Scope R_scope.
Local Open Scope res_scope.

(** The Hankel transform returns an array of the right shape; with [lf] (loop
    over frequencies) it is only called with one frequency. *)
Definition total_calc (lf : bool) (valid : frow -> Prop) (calc : hankel) (xd : bool) : Prop :=
  forall rows off ang, (lf = true -> List.length rows = 1%nat) -> rows <> [] -> off <> [] -> List.length ang = List.length off ->
  (forall r, In r rows -> valid r) -> (forall o, In o off -> 0 < o) ->
  exists M k c, calc rows off ang xd = Ok (M, k, c) /\ shape_ok (List.length rows) (List.length off) M = true.

Lemma separable_total : forall valid calc xd F, separable valid calc xd F -> forall lf, total_calc lf valid calc xd.
Proof.
  intros valid calc xd F HS lf rows off ang _ H1 H2 H3 H4 H5. rewrite (HS rows off ang H1 H2 H3 H4 H5). do 3 eexists. split; [reflexivity|].
  apply shp_ok. split; [unfold table; apply map_length|]. intros r Hr. unfold table in Hr. apply in_map_iff in Hr. destruct Hr as (w & <- & _).
  rewrite map_length, combine_length. lia.
Qed.

Lemma foldM_total : forall {S X} (P : S -> Prop) (f : S -> X -> res S) l, (forall x s, In x l -> P s -> exists s', f s x = Ok s' /\ P s') ->
  forall s, P s -> exists s', foldM f l s = Ok s' /\ P s'.
Proof.
  intros S X P f. induction l as [|x l IH]; intros H s Hs; [exists s; split; [reflexivity|exact Hs]|].
  destruct (H x s (or_introl eq_refl) Hs) as (s1 & E1 & P1). cbn [foldM]. rewrite E1. cbn [bind].
  apply IH; [|exact P1]. intros y t Hy. apply H. now right.
Qed.

Lemma fem_total : forall valid rdt calc ab off angle zs zr ls lr rows xdirect full ms mr lf lo cv,
  xdirect <> Some true -> (ab <> 36%Z -> total_calc lf valid calc (xd_of xdirect)) -> rows <> [] -> off <> [] ->
  List.length angle = List.length off -> (forall r, In r rows -> valid r) -> (forall o, In o off -> 0 < o) ->
  exists M k c, fem rdt calc ab off angle zs zr ls lr rows xdirect full ms mr lf lo cv = Ok (M, k, c).
Proof.
  intros valid rdt calc ab off angle zs zr ls lr rows xdirect full ms mr lf lo cv NX HC NR NO La Hv Hp.
  unfold fem. destruct (inb ab [36]%Z) eqn:E36; [do 3 eexists; reflexivity|].
  specialize (HC ltac:(intros ->; discriminate E36)).
  assert (EX : match xdirect with Some true => true | _ => false end = false) by (destruct xdirect as [[|]|]; congruence). rewrite EX. cbn [andb bind].
  fold (xd_of xdirect). set (xd := xd_of xdirect) in *. destruct (negb (full && xd)); [|do 3 eexists; reflexivity].
  set (ang := map _ angle). assert (LA : List.length ang = List.length off) by (unfold ang; now rewrite map_length). clearbody ang.
  unfold fem_calc. destruct lf; [|destruct lo].
  - destruct (foldM_total (fun _ : fem_state => True) (loop_freq_step calc rows off ang xd) (seq 0 (List.length rows))) with (s := (mat_zeros (List.length rows) (List.length off), 0%Z, cv)) as (st' & E & _); [|exact I|].
    + intros i [[f kc] c0] Hi _. apply in_seq in Hi. unfold loop_freq_step.
      destruct (nth_error rows i) as [row|] eqn:Er; [|apply nth_error_None in Er; lia]. cbn [bind].
      destruct (HC [row] off ang) as (M & k & c & E & SH); try assumption; try discriminate; try reflexivity.
      { intros r [<-|[]]. apply Hv. apply (nth_error_In _ _ Er). }
      rewrite E. cbn [bind]. change (List.length [row]) with 1%nat in SH. rewrite SH. cbn [need bind]. eexists. split; [reflexivity|exact I].
    + rewrite E. destruct st' as [[M k] c]. do 3 eexists. reflexivity.
  - destruct (foldM_total (fun _ : fem_state => True) (loop_off_step calc rows off ang xd) (seq 0 (List.length off))) with (s := (mat_zeros (List.length rows) (List.length off), 0%Z, cv)) as (st' & E & _); [|exact I|].
    + intros i [[f kc] c0] Hi _. apply in_seq in Hi. unfold loop_off_step.
      rewrite (idx_nth _ off i 0) by lia. rewrite (idx_nth _ ang i 0) by lia. cbn [bind].
      destruct (HC rows [nth i off 0] [nth i ang 0]) as (M & k & c & E & SH); try assumption; try discriminate; try reflexivity.
      { intros o [<-|[]]. apply Hp, nth_In. lia. }
      rewrite E. cbn [bind]. change (List.length [nth i off 0]) with 1%nat in SH. rewrite SH. cbn [need bind]. eexists. split; [reflexivity|exact I].
    + rewrite E. destruct st' as [[M k] c]. do 3 eexists. reflexivity.
  - destruct (HC rows off ang) as (M & k & c & E & SH); try assumption; try discriminate. rewrite E. cbn [bind]. rewrite SH. cbn [need bind]. do 3 eexists. reflexivity.
Qed.

Lemma geo_bcast : forall m ab sa sd ra rd ms mr cs cr, (0 < cs)%nat -> (0 < cr)%nat ->
  one_or cs sa -> one_or cs sd -> one_or cr ra -> one_or cr rd ->
  exists t, bcast2 cr cs (get_geo_fact m ab sa sd ra rd ms mr) = Ok t.
Proof.
  intros m ab sa sd ra rd ms mr cs cr Hs Hr Hsa Hsd Hra Hrd. unfold bcast2.
  pose proof (zip_length cs sa sd Hs Hsa Hsd) as Ls. pose proof (zip_length cr ra rd Hr Hra Hrd) as Lr.
  assert (O : forall n k, (k = 1 \/ k = n)%nat -> (Nat.eqb k 1 || Nat.eqb k n)%bool = true) by (intros n k [-> | ->]; rewrite ?Nat.eqb_refl, ?orb_true_r; reflexivity).
  unfold get_geo_fact, outer. rewrite map_length, (O _ _ Lr). cbn [andb].
  rewrite (proj2 (forallb_forall _ _)); [eexists; reflexivity|]. intros row Hrow. apply in_map_iff in Hrow. destruct Hrow as (p & <- & _). rewrite map_length. now apply O.
Qed.

(** the arrays of c poles for the integration *)
Record arrays_ok (c : nat) (T : azmdip) : Prop := {
  ao_pts : points_ok c T;
  ao_pos : (0 < t_pts T)%nat;
  ao_z : forall g, (g < t_pts T)%nat -> exists v, idx (t_z T) (Z.of_nat g) = Ok v;
  ao_gw : forall g, (g < t_pts T)%nat -> exists v, idx (t_gw T) (Z.of_nat g) = Ok v;
  ao_azm : one_or c (t_azm T); ao_dip : one_or c (t_dip T); ao_w : List.length (t_w T) = c }.

(** ** The loops *)
Section Total.
Variables (k : setting) (valid : frow -> Prop).
Hypothesis NX : k_xd k <> Some true.
Hypothesis Hrows : k_rows k <> [].
Hypothesis Hvalid : forall r, In r (k_rows k) -> valid r.
Hypothesis Hoff : 0 < min_off (k_m k).
Hypothesis Hlay : forall z, exists l, layer1 (k_depth k) z = Ok l /\
  forall r, In r (k_rows k) -> (exists v, idx (r_eH r) l = Ok v) /\ (exists v, idx (r_zH r) l = Ok v).
Hypothesis Hcol : forall zs zr ls lr ab, layer1 (k_depth k) zs = Ok ls -> layer1 (k_depth k) zr = Ok lr ->
  entry (k_ms k) (k_mr k) ab -> ab <> 36%Z ->
  total_calc (k_lf k) valid (k_mk k zs zr ls lr (k_depth k) ab (k_ms k) (k_mr k)) (xd_of (k_xd k)).

Lemma at_layer_ok : forall f z l, layer1 (k_depth k) z = Ok l -> (f = r_eH \/ f = r_zH) -> exists v, at_layer f l (k_rows k) = Ok v.
Proof using Hlay.
  intros f z l El Hf. destruct (Hlay z) as (l' & El' & HV). rewrite El in El'. injection El' as <-. unfold at_layer. clear -HV Hf. induction (k_rows k) as [|r rows IH]; [eexists; reflexivity|].
  cbn [mapM]. destruct (HV r (or_introl eq_refl)) as [(v1 & E1) (v2 & E2)]. destruct (IH (fun x Hx => HV x (or_intror Hx))) as (vs & ->).
  destruct Hf as [-> | ->]; [rewrite E1|rewrite E2]; eexists; reflexivity.
Qed.

Lemma block_total : forall st cr cs ts tr, (0 < cr)%nat -> (0 < cs)%nat -> arrays_ok cs ts -> arrays_ok cr tr ->
  exists M, block k st cr cs ts tr = Ok M /\ shp (List.length (k_rows k)) (cr * cs) M.
Proof using All.
  intros st cr cs ts tr Pcr Pcs As Ar. unfold block. set (abs := get_abs _ _ _ _ _ _).
  assert (Hab : forall ab, In ab abs -> entry (k_ms k) (k_mr k) ab) by (intros ab Ha; apply (abs_entries _ _ _ _ _ _ _ Ha)). clearbody abs.
  destruct (foldM_total (fun _ : list (list C) => True) (src_point k cr cs ts tr abs) (seq 0 (t_pts ts))) with (s := mat_zeros (List.length (k_rows k)) (cr * cs)) as (M & EM & _); [|exact I|].
  - intros isg EM Hi _. apply in_seq in Hi. assert (Hg : (isg < t_pts ts)%nat) by lia. clear Hi. unfold src_point.
    destruct (ao_pts _ _ As isg Hg) as [Lsx Lsy].
    set (sx := stride 0 isg (t_pts ts) (t_x ts)) in *. set (sy := stride 0 isg (t_pts ts) (t_y ts)) in *.
    destruct (ao_z _ _ As isg Hg) as (zs & ->). cbn [bind]. destruct (Hlay zs) as (ls & Els & _). rewrite Els. cbn [bind].
    destruct (foldM_total (fun _ : list (list C) => True) (rec_point k cr cs ts tr abs sx sy zs ls) (seq 0 (t_pts tr))) with (s := mat_zeros (List.length (k_rows k)) (cr * cs)) as (A & EA & _); [|exact I|].
    + intros irg E0 Hi _. apply in_seq in Hi. assert (Hh : (irg < t_pts tr)%nat) by lia. clear Hi. unfold rec_point.
      destruct (ao_pts _ _ Ar irg Hh) as [Lrx Lry].
      set (rx := stride 0 irg (t_pts tr) (t_x tr)) in *. set (ry := stride 0 irg (t_pts tr) (t_y tr)) in *.
      destruct (ao_z _ _ Ar irg Hh) as (zr & ->). cbn [bind]. destruct (Hlay zr) as (lr & Elr & _).
      destruct (off_ang_spec (k_m k) sx sy rx ry) as (Lo & La & _); try congruence.
      assert (Po : forall o, In o (fst (get_off_ang (k_m k) sx sy rx ry)) -> 0 < o).
      { intros o Ho. unfold get_off_ang in Ho. cbn [fst] in Ho. rewrite (proj1 (check_min_spec _ _)) in Ho.
        apply in_map_iff in Ho. destruct Ho as (x & <- & _). apply Rlt_le_trans with (1 := Hoff). apply Rmax_r. }
      destruct (get_off_ang (k_m k) sx sy rx ry) as [off angle]. cbn [fst snd] in *. rewrite Elr. cbn [bind].
      assert (NO : off <> []) by (intros ->; rewrite Lsx, Lrx in Lo; clear -Lo Pcr Pcs; cbn [List.length] in Lo; nia).
      destruct (foldM_total (fun _ : list (list C) => True) (fun EM ab =>
        '(o, _, _) <- fem (k_lap k) (k_mk k zs zr ls lr (k_depth k) ab (k_ms k) (k_mr k)) ab off angle zs zr ls lr
                        (k_rows k) (k_xd k) (k_full k) (k_ms k) (k_mr k) (k_lf k) (k_lo k) true ;;
        t <- bcast2 cr cs (get_geo_fact (k_m k) ab (t_azm ts) (t_dip ts) (t_azm tr) (t_dip tr) (k_ms k) (k_mr k)) ;;
        Ok (mat_add EM (scale_cols t o))) abs) with (s := mat_zeros (List.length (k_rows k)) (cr * cs)) as (B & EB & _); [|exact I|].
      * intros ab E1 Ha _.
        destruct (fem_total valid (k_lap k) (k_mk k zs zr ls lr (k_depth k) ab (k_ms k) (k_mr k)) ab off angle zs zr ls lr (k_rows k) (k_xd k) (k_full k) (k_ms k) (k_mr k) (k_lf k) (k_lo k) true
          NX (Hcol zs zr ls lr ab Els Elr (Hab ab Ha)) Hrows NO (eq_trans La (eq_sym Lo)) Hvalid Po) as (o & kc & c & ->). cbn [bind].
        destruct (geo_bcast (k_m k) ab (t_azm ts) (t_dip ts) (t_azm tr) (t_dip tr) (k_ms k) (k_mr k) cs cr Pcs Pcr (ao_azm _ _ As) (ao_dip _ _ As) (ao_azm _ _ Ar) (ao_dip _ _ Ar)) as (t & ->).
        cbn [bind]. eexists. split; [reflexivity|exact I].
      * unfold ab_loop. rewrite EB. cbn [bind].
        destruct (at_layer_ok r_eH zr lr Elr (or_introl eq_refl)) as (e1 & E1). destruct (at_layer_ok r_zH zr lr Elr (or_intror eq_refl)) as (e2 & E2).
        destruct (ao_gw _ _ Ar irg Hh) as (w & Ew).
        destruct (k_rt k); rewrite ?E1, ?E2; cbn [bind]; rewrite Ew; cbn [bind]; eexists; (split; [reflexivity|exact I]).
    + rewrite EA. cbn [bind]. destruct (at_layer_ok r_zH zs ls Els (or_intror eq_refl)) as (e2 & E2). destruct (ao_gw _ _ As isg Hg) as (w & Ew).
      destruct (k_st k); rewrite ?E2; cbn [bind]; rewrite Ew; cbn [bind]; eexists; (split; [reflexivity|exact I]).
  - pose proof (src_fold_shape _ _ _ _ _ _ _ (ao_pts _ _ As) (ao_pts _ _ Ar) EM) as SM. rewrite EM. cbn [bind].
    destruct (Rltb 0 st); [|exists M; split; [reflexivity|exact SM]].
    assert (L1 : List.length (np_repeat cr (t_w ts)) = (cr * cs)%nat) by (rewrite np_repeat_len, (ao_w _ _ As); lia).
    assert (L2 : List.length (np_tile cs (t_w tr)) = (cr * cs)%nat).
    { unfold np_tile. pose proof (ao_w _ _ Ar) as Lw. clear -Lw. induction cs as [|n IH]; [cbn; lia|]. cbn [repeat List.concat]. rewrite app_length, IH, Lw. lia. }
    rewrite L1, L2, !Nat.eqb_refl. cbn [andb]. eexists. split; [reflexivity|]. apply scale_cols_shp; [exact SM|]. rewrite map2_length, L1, L2. apply Nat.min_id.
Qed.
End Total.

(** number of nodes and of weights of the quadrature rule *)
Definition full_rule (gl : Z -> list R * list R) (kk : Z) : Prop :=
  (2 < kk)%Z -> List.length (fst (gl kk)) = Z.to_nat kk /\ List.length (snd (gl kk)) = Z.to_nat kk.

Lemma depth_arrays : forall m gl b kk st src iz, checked b -> full_rule gl kk -> (iz < b_nz b)%nat ->
  exists T, get_azm_dip m gl (b_arr b) iz (b_nz b) kk (b_dip b) st src = Ok T /\ arrays_ok (cnt (b_n b) (b_nz b)) T.
Proof.
  intros m gl b kk st src iz Cb G Hiz. assert (G1 : good_rule gl kk) by (intros HH; apply (G HH)).
  destruct (depth_any b iz Cb Hiz) as (i & Hi & Hd).
  destruct (elem_depth m gl b kk st src iz i Cb G1 Hi Hiz Hd) as (T & T1 & E & E1 & EL). exists T. split; [exact E|].
  assert (ONE : (0 < t_pts T1)%nat /\ forall g, (g < t_pts T1)%nat -> (exists v, idx (t_z T1) (Z.of_nat g) = Ok v) /\ exists v, idx (t_gw T1) (Z.of_nat g) = Ok v).
  { clear E EL Hiz Hd. assert (ID : forall (l : list R) g, (g < List.length l)%nat -> exists v, idx l (Z.of_nat g) = Ok v) by (intros l g Hg; eexists; apply (idx_nth _ l g 0 Hg)).
    destruct Cb as [x y z a d n Hn Lx Ly La Ld|x y z a d n Hn Lx Ly Lz La Ld|segs z0 z1 Hne HD|segs z0 z1 Hne L0 L1 HD]; unfold pole_arr, get_azm_dip in E1; cbn [b_nz b_n b_arr b_dip map mapM bind Nat.eqb] in E1.
    1,2: injection E1 as <-; cbn [t_pts t_z t_gw List.length repeat]; split; [lia|]; intros g Hg; split; apply ID; exact Hg.
    1,2: unfold map2 in E1; cbn [combine map List.length bcast repeat fst snd flat_map] in E1; idtac; destruct (Z.ltb_spec 2 kk) as [B|B];
      [destruct (G B) as [Gx Gw]; destruct (gl kk) as [gx gw]; cbn [fst snd] in Gx, Gw; injection E1 as <-; cbn [t_pts t_z t_gw]; split; [lia|]; intros g Hg; split; apply ID;
         [rewrite map_length, app_nil_r, firstn_length, map_length, Nat.min_id, Gx; exact Hg|rewrite map_length, Gw; exact Hg]
      |injection E1 as <-; cbn [t_pts t_z t_gw]; split; [lia|]; intros g Hg; split; apply ID; exact Hg]. }
  destruct ONE as [P1 ONE]. rewrite (e_pts _ _ _ _ EL) in *.
  constructor; try (apply EL); try exact P1.
  - intros g Hg. split; [apply (e_lx _ _ _ _ EL g Hg)|apply (e_ly _ _ _ _ EL g Hg)].
  - intros g Hg. rewrite <- (e_z _ _ _ _ EL g Hg). apply (ONE g Hg).
  - intros g Hg. rewrite <- (e_gw _ _ _ _ EL g Hg). apply (ONE g Hg).
Qed.

Lemma place_total : forall nf nrec nrecz nsrc nsrcz isz irz A EM, (isz < nsrc)%nat -> (irz < nrec)%nat ->
  shp nf (nrec * nsrc) EM -> shp nf (cnt nrec nrecz * cnt nsrc nsrcz) A ->
  exists EM', place nrec nrecz nsrc nsrcz isz irz A EM = Ok EM' /\ shp nf (nrec * nsrc) EM'.
Proof.
  intros nf nrec nrecz nsrc nsrcz isz irz A EM Hs Hr SE SA.
  assert (X : exists EM', place nrec nrecz nsrc nsrcz isz irz A EM = Ok EM').
  { assert (SC : forall cols, List.length cols = (cnt nrec nrecz * cnt nsrc nsrcz)%nat -> exists EM', set_cols cols A EM = Ok EM').
    { intros cols Lc. unfold set_cols. rewrite (proj1 SA), (proj1 SE), Nat.eqb_refl. cbn [andb].
      rewrite (proj2 (forallb_forall _ _)); [eexists; reflexivity|]. intros row Hrow. apply Nat.eqb_eq. rewrite Lc. now apply SA. }
    unfold place. unfold cnt in SC. destruct (Nat.eqb nrec nrecz); destruct (Nat.eqb nsrc nsrcz); try (eexists; reflexivity); apply SC.
    - rewrite slice_one, seq_length. lia.
    - rewrite slice_step by assumption. rewrite map_length, seq_length. lia.
    - rewrite slice_one, seq_length. nia. }
  destruct X as (EM' & E). exists EM'. split; [exact E|]. apply (place_spec nf _ _ _ _ isz irz A EM EM' Hs Hr SE SA E).
Qed.

Theorem loops_total : forall k gl srcpts recpts st bs br (valid : frow -> Prop),
  k_xd k <> Some true -> k_rows k <> [] -> (forall r, In r (k_rows k) -> valid r) -> 0 < min_off (k_m k) ->
  (forall z, exists l, layer1 (k_depth k) z = Ok l /\ forall r, In r (k_rows k) -> (exists v, idx (r_eH r) l = Ok v) /\ (exists v, idx (r_zH r) l = Ok v)) ->
  (forall zs zr ls lr ab, layer1 (k_depth k) zs = Ok ls -> layer1 (k_depth k) zr = Ok lr -> entry (k_ms k) (k_mr k) ab -> ab <> 36%Z ->
     total_calc (k_lf k) valid (k_mk k zs zr ls lr (k_depth k) ab (k_ms k) (k_mr k)) (xd_of (k_xd k))) ->
  checked bs -> checked br -> full_rule gl srcpts -> full_rule gl recpts ->
  exists EM, bipole_loops k gl srcpts recpts st bs br = Ok EM /\ shp (List.length (k_rows k)) (b_n br * b_n bs) EM.
Proof.
  intros k gl srcpts recpts st bs br valid NX HR HV HO HL HC Cs Cr Gs Gr. unfold bipole_loops.
  set (nf := List.length (k_rows k)). destruct (checked_pos bs Cs) as [Pbs Zs]. destruct (checked_pos br Cr) as [Pbr Zr].
  apply foldM_total with (P := fun EM => shp nf (b_n br * b_n bs) EM); [|apply shp_zeros].
  intros isz E0 Hi S0. apply in_seq in Hi. assert (Hisz : (isz < b_nz bs)%nat) by lia.
  destruct (depth_arrays (k_m k) gl bs srcpts st true isz Cs Gs Hisz) as (ts & -> & As). cbn [bind].
  apply foldM_total with (P := fun EM => shp nf (b_n br * b_n bs) EM); [|exact S0].
  intros irz E1 Hj S1. apply in_seq in Hj. assert (Hirz : (irz < b_nz br)%nat) by lia.
  destruct (depth_arrays (k_m k) gl br recpts st false irz Cr Gr Hirz) as (tr & -> & Ar). cbn [bind].
  rewrite (cnt_div bs Cs), (cnt_div br Cr).
  assert (C1 : (0 < cnt (b_n bs) (b_nz bs))%nat) by (unfold cnt; destruct (Nat.eqb _ _); lia). assert (C2 : (0 < cnt (b_n br) (b_nz br))%nat) by (unfold cnt; destruct (Nat.eqb _ _); lia).
  destruct (block_total k valid NX HR HV HO HL HC st _ _ ts tr C2 C1 As Ar) as (A & -> & SA). cbn [bind].
  apply place_total; try assumption; lia.
Qed.

(** ** The routine with any Hankel transform that always gives a result *)
Theorem bipole_total_gen : forall m gl hook mk src rec depth q freq msrc mrec srcpts recpts st xdirect lf lo mo ms stp mr rt bs br,
  (forall N z zs zr s r ab, (s <= N)%nat -> (r <= N)%nat -> entry ms mr ab -> ab <> 36%Z ->
     total_calc lf (passive_row N z) (mk zs zr (Z.of_nat s) (Z.of_nat r) (depth_arr z N) ab ms mr) (xd_of xdirect)) ->
  plain_model m depth q freq -> 0 < min_off m -> xdirect <> Some true ->
  full_rule gl srcpts -> full_rule gl recpts ->
  (0 < sizes src)%nat -> (0 < sizes rec)%nat -> List.Forall nd_wf src -> List.Forall nd_wf rec ->
  check_model m depth (q_res q) (q_aniso q) (q_eH q) (q_eV q) (q_mH q) (q_mV q) = Ok mo ->
  check_mx true msrc = Ok (ms, stp) -> check_mx false mrec = Ok (mr, rt) -> check_bipole src = Ok bs -> check_bipole rec = Ok br ->
  exists E, bipole m gl hook mk src rec depth q freq msrc mrec srcpts recpts st xdirect lf lo = Ok E /\ List.length E = List.length freq.
Proof.
  intros m gl hook mk src rec depth q freq msrc mrec srcpts recpts st xdirect lf lo mo ms stp mr rt bs br HT [[v HRA] HW HD M1 M2 MU FN] HO NX Gs Gr Ps Pr Ws Wr Em Ex Ey Es Er.
  unfold bipole, bipole_array. rewrite Em. cbn [bind]. rewrite Ex. cbn [bind]. rewrite Es. cbn [bind]. rewrite Ey. cbn [bind]. rewrite Er. cbn [bind]. rewrite HRA. cbn [apply_hook].
  set (fo := check_frequency _ _ _ _ _ _ _ _).
  destruct (freq_lengths m freq (m_res mo) (m_aniso mo) (m_epermH mo) (m_epermV mo) (m_mpermH mo) (m_mpermV mo)) as (L1 & L2 & L3 & L4). fold fo in L1, L2, L3, L4.
  change (cmodel m depth (inp_of q) = Ok mo) in Em.
  assert (LR : List.length (rows_of fo) = List.length freq) by (unfold rows_of; rewrite map_length, !combine_length; lia).
  assert (F0 : (0 < List.length freq)%nat) by (destruct freq; [congruence|cbn; lia]).
  pose proof (fun j => checked_passive m depth (inp_of q) mo freq fo j HW HD M1 M2 Em eq_refl (MU mo Em)) as CP. cbv zeta in CP.
  set (N := (List.length (m_depth mo) - 1)%nat) in *. set (z := depth_fun (m_depth mo)) in *.
  assert (PR : forall r, In r (rows_of fo) -> passive_row N z r).
  { intros r Hr. destruct (In_nth _ _ r_d Hr) as (j & Hj & <-). rewrite LR in Hj. destruct (CP j Hj) as (_ & _ & E1 & E2 & E3 & E4 & PM).
    exists (row (f_etaH fo) j), (row (f_etaV fo) j), (row (f_zetaH fo) j), (row (f_zetaV fo) j). split; [exact PM|].
    rewrite <- E1, <- E2, <- E3, <- E4. unfold rows_of.
    match goal with |- nth j (map ?f _) _ = _ => rewrite (nth_indep _ r_d (f (([], []), ([], [])))) by (rewrite map_length, !combine_length; lia); rewrite (map_nth f) end.
    rewrite !combine_nth by (rewrite ?combine_length; lia). reflexivity. }
  destruct (CP 0%nat F0) as (ED & INC & _).
  assert (LY : forall y, layer1 (m_depth mo) y = Ok (Z.of_nat (KernelBVP.lay z N y)) /\ (KernelBVP.lay z N y <= N)%nat).
  { intros y. split; [|apply KernelBVP.lay_le]. unfold layer1. rewrite ED. rewrite layer_nr_lay by (intros i Hi; left; apply INC; lia). reflexivity. }
  pose proof (check_bipole_checked _ _ Ps Ws Es) as Cs. pose proof (check_bipole_checked _ _ Pr Wr Er) as Cr.
  destruct (loops_total (mkSet m mk (m_depth mo) (rows_of fo) (laplace_of freq) (m_full mo) xdirect lf lo ms mr stp rt) gl srcpts recpts st bs br (passive_row N z)) as (EM & -> & SE); cbn [k_xd k_rows k_m k_depth k_ms k_mr k_mk]; try assumption.
  - intros E; rewrite E in LR; cbn in LR; lia.
  - intros y. destruct (LY y) as [EY LE]. eexists. split; [exact EY|]. intros r Hr. destruct (PR r Hr) as (eH & eV & zH & zV & _ & ->). cbn [r_eH r_zH].
    split; eexists; apply (idx_nth _ _ _ (RtoC 0)); unfold arr; rewrite map_length, seq_length; lia.
  - intros zs zr ls lr ab Els Elr He H36. destruct (LY zs) as [E1 B1]. destruct (LY zr) as [E2 B2]. rewrite E1 in Els. rewrite E2 in Elr. injection Els as <-. injection Elr as <-.
    rewrite ED. now apply HT.
  - cbn [bind]. eexists. split; [reflexivity|]. unfold reshapeF. rewrite map_length, (proj1 SE). exact LR.
Qed.

(** ** The routine with the digital linear filter *)
Theorem bipole_total : forall m gl hook spl filt src rec depth q freq msrc mrec srcpts recpts st xdirect lf lo mo ms stp mr rt bs br,
  well_formed filt -> plain_model m depth q freq -> 0 < min_off m -> xdirect <> Some true ->
  full_rule gl srcpts -> full_rule gl recpts ->
  (0 < sizes src)%nat -> (0 < sizes rec)%nat -> List.Forall nd_wf src -> List.Forall nd_wf rec ->
  check_model m depth (q_res q) (q_aniso q) (q_eH q) (q_eV q) (q_mH q) (q_mV q) = Ok mo ->
  check_mx true msrc = Ok (ms, stp) -> check_mx false mrec = Ok (mr, rt) -> check_bipole src = Ok bs -> check_bipole rec = Ok br ->
  exists E, bipole m gl hook (dlf_mk spl filt) src rec depth q freq msrc mrec srcpts recpts st xdirect lf lo = Ok E /\ List.length E = List.length freq.
Proof.
  intros m gl hook spl filt src rec depth q freq msrc mrec srcpts recpts st xdirect lf lo mo ms stp mr rt bs br HF HP HO NX Gs Gr Ps Pr Ws Wr Em Ex Ey Es Er.
  apply (bipole_total_gen m gl hook (dlf_mk spl filt) src rec depth q freq msrc mrec srcpts recpts st xdirect lf lo mo ms stp mr rt bs br); try assumption.
  intros N z zs zr s r ab Hs Hr He H36. unfold dlf_mk. eapply separable_total. apply dlf_separable; auto. now apply entry_valid.
Qed.
