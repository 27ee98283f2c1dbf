(** The routine bipole: source strength and lengths. *)

From Coq Require Import ZArith Reals List Bool String Lia Lra.
From Coquelicot Require Import Coquelicot.
From Verif Require Import PyBase CBase Kernel Utils UtilsLayer UtilsModel UtilsFreq UtilsGeo UtilsSurvey Transform TransformDlf Fullspace Model ModelFem Routines RoutinesThm Bipole BipoleCol BipoleThm BipoleLoop BipolePlace BipoleMain BipoleFinal.
Import ListNotations.
Local Open Scope R_scope.
Local Open Scope res_scope.

(** ** Shapes *)
Lemma fem_shape : forall rdt calc ab off angle zs zr ls lr rows xdirect full ms mr lf lo cv M k c,
  List.length angle = List.length off ->
  fem rdt calc ab off angle zs zr ls lr rows xdirect full ms mr lf lo cv = Ok (M, k, c) ->
  shp (List.length rows) (List.length off) M.
Proof.
  intros rdt calc ab off angle zs zr ls lr rows xdirect full ms mr lf lo cv M k c La H.
  unfold fem in H. destruct (inb ab [36]%Z). { injection H as <- _ _. apply shp_zeros. }
  apply bind_ok in H. destruct H as (fE & EF & H).
  assert (SF : shp (List.length rows) (List.length off) fE).
  { destruct (match xdirect with Some true => true | _ => false end && (full || (ls =? lr)%Z))%bool.
    - apply bind_ok in EF. destruct EF as (g & EG & EF). injection EF as <-.
      apply shp_add; [apply shp_zeros|]. apply (fullspace_arr_shape _ _ _ _ _ _ _ _ _ _ _ La EG).
    - injection EF as <-. apply shp_zeros. }
  clear EF. set (xd := match xdirect with None => true | Some b => b end) in *.
  destruct (negb (full && xd)); [|now injection H as <- _ _].
  unfold fem_calc in H. set (ang := map _ angle) in H. destruct lf; [|destruct lo].
  - revert H SF. generalize 0%Z. assert (Hl : forall i, In i (seq 0 (List.length rows)) -> (i < List.length rows)%nat) by (intros i Hi; apply in_seq in Hi; lia).
    revert Hl. generalize (seq 0 (List.length rows)). intros l. revert fE cv.
    induction l as [|i l IH]; intros fE cv Hl z H SF; [now injection H as <- _ _|].
    cbn [foldM] in H. apply bind_ok in H. destruct H as ([[M1 k1] c1] & E & H).
    refine (IH M1 c1 (fun x Hx => Hl x (or_intror Hx)) k1 H _).
    unfold loop_freq_step in E. apply bind_ok in E. destruct E as (row & _ & E).
    apply bind_ok in E. destruct E as ([[o k2] c2] & _ & E3). apply bind_ok in E3. destruct E3 as (o' & E2 & E3). unfold need in E2.
    destruct (shape_ok 1 (List.length off) o) eqn:SH; [|discriminate]. injection E2 as <-. injection E3 as <- _ _. apply shp_ok in SH.
    pose proof (Hl i (or_introl eq_refl)) as Hi.
    assert (Lo : List.length (nth 0 o []) = List.length off) by (apply SH, nth_In; rewrite (proj1 SH); lia).
    assert (Lf : List.length (nth i fE []) = List.length off) by (apply SF; apply nth_In; rewrite (proj1 SF); assumption).
    split; [rewrite replace_length; apply SF|]. intros r Hr. apply In_replace in Hr. destruct Hr as [Hr| ->]; [now apply SF|].
    rewrite vadd_length. lia.
  - revert H SF. generalize 0%Z. generalize (seq 0 (List.length off)). intros l. revert fE cv.
    induction l as [|i l IH]; intros fE cv z H SF; [now injection H as <- _ _|].
    cbn [foldM] in H. apply bind_ok in H. destruct H as ([[M1 k1] c1] & E & H).
    refine (IH M1 c1 k1 H _).
    unfold loop_off_step in E. apply bind_ok in E. destruct E as (of & _ & E). apply bind_ok in E. destruct E as (an & _ & E).
    apply bind_ok in E. destruct E as ([[o k2] c2] & _ & E3). apply bind_ok in E3. destruct E3 as (o' & E2 & E3). unfold need in E2.
    destruct (shape_ok (List.length rows) 1 o) eqn:SH; [|discriminate]. injection E2 as <-. injection E3 as <- _ _. apply shp_ok in SH.
    destruct SF as [L1 R1]. destruct SH as [L2 R2]. split; [rewrite map2_length; lia|]. intros r Hr.
    destruct (In_nth _ _ [] Hr) as (q & Hk & <-). rewrite map2_length in Hk.
    rewrite (map2_nth _ _ _ _ _ _ q [] [] []) by lia. rewrite replace_length. apply R1. apply nth_In. lia.
  - apply bind_ok in H. destruct H as ([[o k2] c2] & _ & E3). apply bind_ok in E3. destruct E3 as (o' & E2 & E3). unfold need in E2.
    destruct (shape_ok (List.length rows) (List.length off) o) eqn:SH; [|discriminate]. injection E2 as <-. injection E3 as <- _ _. apply shp_ok in SH.
    now apply shp_add.
Qed.

Lemma bcast2_len : forall nr ns A t, bcast2 nr ns A = Ok t -> List.length t = (nr * ns)%nat.
Proof.
  intros nr ns A t H. unfold bcast2 in H. destruct (_ && _)%bool; [|discriminate]. injection H as <-.
  erewrite flat_map_length_const with (n := nr); [rewrite seq_length; lia|]. intros. now rewrite map_length, seq_length.
Qed.

(** the points of the arrays for c poles *)
Definition points_ok (c : nat) (T : azmdip) : Prop := forall g, (g < t_pts T)%nat ->
  List.length (stride 0 g (t_pts T) (t_x T)) = c /\ List.length (stride 0 g (t_pts T) (t_y T)) = c.

Lemma src_fold_shape : forall k cr cs ts tr abs M, points_ok cs ts -> points_ok cr tr ->
  foldM (src_point k cr cs ts tr abs) (seq 0 (t_pts ts)) (mat_zeros (List.length (k_rows k)) (cr * cs)) = Ok M ->
  shp (List.length (k_rows k)) (cr * cs) M.
Proof.
  intros k cr cs ts tr abs M Ps Pr. set (nf := List.length (k_rows k)). set (w := (cr * cs)%nat).
  assert (FS : forall (f : list (list C) -> nat -> res (list (list C))) l, (forall i EM M, In i l -> shp nf w EM -> f EM i = Ok M -> shp nf w M) ->
    forall EM M, shp nf w EM -> foldM f l EM = Ok M -> shp nf w M).
  { intros f. induction l as [|i l IH]; intros H EM M' SE HM; [now injection HM as <-|].
    cbn [foldM] in HM. apply bind_ok in HM. destruct HM as (E1 & F1 & HM). apply (IH (fun a b c d => H a b c (or_intror d)) E1); [|assumption]. apply (H i EM); auto. now left. }
  apply FS; [|apply shp_zeros]. clear M. intros isg EM M Hi SE H. apply in_seq in Hi. unfold src_point in H.
  destruct (Ps isg ltac:(lia)) as [Lsx Lsy].
  set (sx := stride 0 isg (t_pts ts) (t_x ts)) in *. set (sy := stride 0 isg (t_pts ts) (t_y ts)) in *.
  apply bind_ok in H. destruct H as (zs & _ & H). apply bind_ok in H. destruct H as (ls & _ & H).
  apply bind_ok in H. destruct H as (A & EA & H). fold nf w in EA.
  apply FS in EA; [| |apply shp_zeros].
  - apply bind_ok in H. destruct H as (B & EB & H). apply bind_ok in H. destruct H as (wg & _ & H). injection H as <-.
    apply shp_add; [assumption|]. apply scale_mat_shp. destruct (k_st k); [now injection EB as <-| |now injection EB as <-].
    apply bind_ok in EB. destruct EB as (e & Ee & EB). injection EB as <-. pose proof (at_layer_length _ _ _ _ Ee). now apply scale_rows_shp.
  - clear EA H A M EM SE. intros irg EM M Hg SE H. apply in_seq in Hg. unfold rec_point in H. destruct (Pr irg ltac:(lia)) as [Lrx Lry].
    set (rx := stride 0 irg (t_pts tr) (t_x tr)) in *. set (ry := stride 0 irg (t_pts tr) (t_y tr)) in *.
    apply bind_ok in H. destruct H as (zr & _ & H).
    destruct (off_ang_spec (k_m k) sx sy rx ry) as (Lo & La & _); try congruence.
    destruct (get_off_ang (k_m k) sx sy rx ry) as [off angle]. cbn [fst snd] in *.
    apply bind_ok in H. destruct H as (lr & _ & H). apply bind_ok in H. destruct H as (A & EA & H).
    apply bind_ok in H. destruct H as (B & EB & H). apply bind_ok in H. destruct H as (wg & _ & H). injection H as <-.
    assert (SA : shp nf w A).
    { unfold ab_loop in EA. fold nf w in EA. assert (SZ : shp nf w (mat_zeros nf w)) by apply shp_zeros. revert EA SZ. generalize (mat_zeros nf w). clear EB SE EM.
      induction abs as [|ab abs IH]; intros EM EA SE; [now injection EA as <-|]. cbn [foldM] in EA.
      apply bind_ok in EA. destruct EA as (E1 & F1 & EA). apply (IH E1 EA).
      apply bind_ok in F1. destruct F1 as ([[o kk] cc] & EF & F1). apply bind_ok in F1. destruct F1 as (t & ET & F1). injection F1 as <-.
      apply shp_add; [assumption|]. apply fem_shape in EF; [|congruence]. apply scale_cols_shp; [|now apply bcast2_len in ET].
      fold nf in EF. rewrite Lo, Lsx, Lrx in EF. now rewrite Nat.mul_comm in EF. }
    apply shp_add; [assumption|]. apply scale_mat_shp.
    destruct (k_rt k); [now injection EB as <-| |];
      apply bind_ok in EB; destruct EB as (e & Ee & EB); injection EB as <-; pose proof (at_layer_length _ _ _ _ Ee); now apply scale_rows_shp.
Qed.

(** ** Weights *)
(** the length of pole number i; dipoles count as unit length *)
Definition pole_len (b : bip) (i : nat) : R :=
  match b_arr b with
  | [x0; x1; y0; y1; z0; z1] => bip_len (coord x1 i - coord x0 i) (coord y1 i - coord y0 i) (coord z1 i - coord z0 i)
  | _ => 1
  end.

Definition with_w (T : azmdip) (w : list R) : azmdip :=
  {| t_x := t_x T; t_y := t_y T; t_z := t_z T; t_azm := t_azm T; t_dip := t_dip T; t_gw := t_gw T; t_pts := t_pts T; t_w := w |}.

Lemma Rltb00 : forall x, x <= 0 -> Rltb 0 x = false.
Proof. intros x H. apply UtilsLayer.Rltb_false. exact H. Qed.

Lemma azm_strength : forall m gl arr iz nz k d st src T, get_azm_dip m gl arr iz nz k d st src = Ok T ->
  get_azm_dip m gl arr iz nz k d 0 src = Ok (with_w T (map (fun _ => 1) (t_w T))).
Proof.
  intros m gl arr iz nz k d st src T H. unfold get_azm_dip in *.
  apply bind_ok in H. destruct H as (tinp & E & H). rewrite E. cbn [bind]. clear E. rewrite (Rltb00 0) by lra.
  rewrite andb_false_r. destruct d.
  - destruct tinp as [|x [|y [|z [|a [|e [|? ?]]]]]]; try discriminate. injection H as <-. unfold with_w. cbn [t_x t_y t_z t_azm t_dip t_gw t_pts t_w].
    do 2 f_equal. clear. induction (List.length x) as [|n IH]; [reflexivity|]. cbn. now rewrite IH.
  - destruct tinp as [|x0 [|x1 [|y0 [|y1 [|z0 [|z1 [|? ?]]]]]]]; try discriminate. destruct (2 <? k)%Z.
    + destruct (gl k) as [gx gw]. injection H as <-. unfold with_w. cbn [t_x t_y t_z t_azm t_dip t_gw t_pts t_w]. do 2 f_equal. now rewrite !map_map.
    + injection H as <-. unfold with_w. cbn [t_x t_y t_z t_azm t_dip t_gw t_pts t_w]. do 2 f_equal. now rewrite !map_map.
Qed.

Lemma azm_nonpos : forall m gl arr iz nz k d st src, st <= 0 -> get_azm_dip m gl arr iz nz k d st src = get_azm_dip m gl arr iz nz k d 0 src.
Proof.
  intros m gl arr iz nz k d st src H. unfold get_azm_dip.
  f_equal. apply FunctionalExtensionality.functional_extensionality. intros tinp. rewrite !(Rltb00 st H), !(Rltb00 0 (Rle_refl 0)), !andb_false_r. reflexivity.
Qed.

Lemma pole_w : forall m gl b i k st src T, checked b -> 0 < st ->
  get_azm_dip m gl (pole_arr b i) 0 1 k (b_dip b) st src = Ok T -> t_w T = [(if src then st else 1) * pole_len b i].
Proof.
  intros m gl b i k st src T Cb Hst H. apply UtilsLayer.Rltb_true in Hst.
  destruct Cb as [x y z a d n Hn Lx Ly La Ld|x y z a d n Hn Lx Ly Lz La Ld|segs z0 z1 Hne Hd|segs z0 z1 Hne L0 L1 Hd]; unfold pole_arr, pole_len, get_azm_dip in *; cbn [b_nz b_n b_arr b_dip map mapM bind Nat.eqb] in *; rewrite Hst in H.
  1,2: injection H as <-; cbn [t_w List.length repeat]; destruct src; cbn [andb]; f_equal; ring.
  1,2: destruct (2 <? k)%Z; [destruct (gl k) as [gx gw]|]; injection H as <-; cbn [t_w]; unfold map2; cbn [combine map List.length bcast repeat fst snd]; destruct src; match goal with |- [?a] = [?b] => replace b with a; [reflexivity|cbn [coord]; ring] end.
Qed.

(** ** One block *)
Lemma block_strength : forall k st cr cs ts tr A, 0 < st -> points_ok cs ts -> points_ok cr tr ->
  List.length (t_w ts) = cs -> List.length (t_w tr) = cr ->
  block k st cr cs ts tr = Ok A ->
  exists A0, block k 0 cr cs (with_w ts (map (fun _ => 1) (t_w ts))) (with_w tr (map (fun _ => 1) (t_w tr))) = Ok A0 /\
    shp (List.length (k_rows k)) (cr * cs) A0 /\ shp (List.length (k_rows k)) (cr * cs) A /\
    forall s r, (s < cs)%nat -> (r < cr)%nat -> colm (s * cr + r) A = scale_mat (nth s (t_w ts) 0 * nth r (t_w tr) 0) (colm (s * cr + r) A0).
Proof.
  intros k st cr cs ts tr A Hst Ps Pr Ls Lr H. unfold block in *. rewrite (Rltb00 0) by lra. apply UtilsLayer.Rltb_true in Hst. rewrite Hst in H.
  apply bind_ok in H. destruct H as (S0 & E & H). exists S0.
  change (t_azm (with_w ts _)) with (t_azm ts). change (t_dip (with_w ts _)) with (t_dip ts). change (t_azm (with_w tr _)) with (t_azm tr). change (t_dip (with_w tr _)) with (t_dip tr).
  change (t_pts (with_w ts _)) with (t_pts ts).
  set (abs := get_abs _ _ _ _ _ _) in *.
  assert (E' : foldM (src_point k cr cs (with_w ts (map (fun _ => 1) (t_w ts))) (with_w tr (map (fun _ => 1) (t_w tr))) abs) (seq 0 (t_pts ts)) (mat_zeros (List.length (k_rows k)) (cr * cs)) = Ok S0) by exact E.
  split; [rewrite E'; reflexivity|]. pose proof (src_fold_shape _ _ _ _ _ _ _ Ps Pr E) as SS.
  destruct (Nat.eqb_spec (List.length (np_repeat cr (t_w ts))) (cr * cs)) as [L1|]; [|discriminate].
  destruct (Nat.eqb_spec (List.length (np_tile cs (t_w tr))) (cr * cs)) as [L2|]; [|discriminate]. cbn [andb] in H. injection H as <-.
  assert (LV : List.length (map2 Rmult (np_repeat cr (t_w ts)) (np_tile cs (t_w tr))) = (cr * cs)%nat) by (rewrite map2_length, L1, L2; apply Nat.min_id).
  split; [exact SS|]. split; [apply scale_cols_shp; assumption|]. intros s r Hs Hr.
  assert (Hj : (s * cr + r < cr * cs)%nat) by nia.
  rewrite (scale_cols_col _ _ _ _ _ SS LV Hj).
  rewrite (row_nth_map2 _ _ _ (s * cr + r) 0 0) by (rewrite L1; assumption || (symmetry; assumption)).
  rewrite np_repeat_nth by (rewrite ?Ls; assumption).
  replace (nth (s * cr + r) (np_tile cs (t_w tr)) 0) with (nth r (t_w tr) 0).
  2:{ rewrite <- Lr. symmetry. apply np_tile_nth; rewrite ?Lr; assumption. }
  unfold scale_cols, scale_mat. apply map_ext_in. intros row Hrow. unfold colm in Hrow. apply in_map_iff in Hrow. destruct Hrow as (q & <- & _). reflexivity.
Qed.

Lemma place_ok : forall nf nrec nrecz nsrc nsrcz isz irz A A0 EM EM0 EM' n,
  shp nf n A -> shp nf n A0 -> List.length EM0 = List.length EM ->
  place nrec nrecz nsrc nsrcz isz irz A EM = Ok EM' -> exists EM0', place nrec nrecz nsrc nsrcz isz irz A0 EM0 = Ok EM0'.
Proof.
  intros nf nrec nrecz nsrc nsrcz isz irz A A0 EM EM0 EM' n SA SA0 LE H.
  assert (SC : forall cols EM1, set_cols cols A EM = Ok EM1 -> exists EM2, set_cols cols A0 EM0 = Ok EM2).
  { intros cols EM1 HC. unfold set_cols in *. rewrite LE, (proj1 SA0), <- (proj1 SA). destruct (Nat.eqb (List.length A) (List.length EM)) eqn:EL; [|discriminate]. cbn [andb] in *.
    destruct (forallb (fun row => Nat.eqb (List.length row) (List.length cols)) A) eqn:F; [|discriminate].
    assert (F0 : forallb (fun row => Nat.eqb (List.length row) (List.length cols)) A0 = true).
    { apply forallb_forall. intros row Hrow. destruct A as [|a A]; [destruct SA as [SA _]; destruct SA0 as [SA0 _]; cbn in SA; destruct A0; [destruct Hrow|cbn in SA0; lia]|].
      cbn [forallb] in F. apply andb_prop in F. destruct F as [F _]. apply Nat.eqb_eq in F. apply Nat.eqb_eq. rewrite (proj2 SA0 row Hrow), <- F. symmetry. apply SA. now left. }
    rewrite F0. eexists. reflexivity. }
  unfold place in *. destruct (Nat.eqb nrec nrecz), (Nat.eqb nsrc nsrcz); try (eapply SC; eassumption). eexists. reflexivity.
Qed.

(** ** The loops *)
Section Strength.
Variables (k : setting) (gl : Z -> list R * list R) (srcpts recpts : Z) (st : R) (bs br : bip).
Hypothesis Hst : 0 < st.
Hypothesis Cs : checked bs.
Hypothesis Cr : checked br.
Hypothesis Gs : good_rule gl srcpts.
Hypothesis Gr : good_rule gl recpts.
Let nf := List.length (k_rows k).

Definition scaled (EM EM0 : list (list C)) : Prop :=
  shp nf (b_n br * b_n bs) EM /\ shp nf (b_n br * b_n bs) EM0 /\
  forall s r, (s < b_n bs)%nat -> (r < b_n br)%nat ->
    colm (r + b_n br * s) EM = scale_mat (st * pole_len bs s * pole_len br r) (colm (r + b_n br * s) EM0).

Lemma depth_weights : forall b kk src iz T, checked b -> good_rule gl kk -> (iz < b_nz b)%nat ->
  get_azm_dip (k_m k) gl (b_arr b) iz (b_nz b) kk (b_dip b) st src = Ok T ->
  points_ok (cnt (b_n b) (b_nz b)) T /\ List.length (t_w T) = cnt (b_n b) (b_nz b) /\
  forall i, (i < b_n b)%nat -> in_depth (b_n b) (b_nz b) iz i -> nth (pos (b_n b) (b_nz b) i) (t_w T) 0 = (if src then st else 1) * pole_len b i.
Proof using Hst.
  intros b kk src iz T Cb G Hiz E.
  assert (HE : forall i, (i < b_n b)%nat -> in_depth (b_n b) (b_nz b) iz i -> exists T1, get_azm_dip (k_m k) gl (pole_arr b i) 0 1 kk (b_dip b) st src = Ok T1 /\ elem (cnt (b_n b) (b_nz b)) (pos (b_n b) (b_nz b) i) T T1).
  { intros i Hi Hd. destruct (elem_depth (k_m k) gl b kk st src iz i Cb G Hi Hiz Hd) as (T' & T1 & E1 & E2 & E3). rewrite E in E1. injection E1 as <-. exists T1. auto. }
  destruct (depth_any b iz Cb Hiz) as (i0 & Hi0 & Hd0). destruct (HE i0 Hi0 Hd0) as (T1 & _ & EL).
  split; [intros g Hg; split; [apply (e_lx _ _ _ _ EL g Hg)|apply (e_ly _ _ _ _ EL g Hg)]|]. split; [apply (e_lw _ _ _ _ EL)|].
  intros i Hi Hd. destruct (HE i Hi Hd) as (U & EU & EK). pose proof (pole_w _ _ _ _ _ _ _ _ Cb Hst EU) as W. rewrite (e_w _ _ _ _ EK) in W. now injection W.
Qed.

Lemma strength_step : forall EM EM0 isz irz EM', (isz < b_nz bs)%nat -> (irz < b_nz br)%nat -> scaled EM EM0 ->
  forall ts, get_azm_dip (k_m k) gl (b_arr bs) isz (b_nz bs) srcpts (b_dip bs) st true = Ok ts ->
  (tr <- get_azm_dip (k_m k) gl (b_arr br) irz (b_nz br) recpts (b_dip br) st false ;;
   s <- block k st (b_n br / b_nz br) (b_n bs / b_nz bs) ts tr ;;
   place (b_n br) (b_nz br) (b_n bs) (b_nz bs) isz irz s EM) = Ok EM' ->
  exists EM0', (tr <- get_azm_dip (k_m k) gl (b_arr br) irz (b_nz br) recpts (b_dip br) 0 false ;;
   s <- block k 0 (b_n br / b_nz br) (b_n bs / b_nz bs) (with_w ts (map (fun _ => 1) (t_w ts))) tr ;;
   place (b_n br) (b_nz br) (b_n bs) (b_nz bs) isz irz s EM0) = Ok EM0' /\ scaled EM' EM0'.
Proof using All.
  intros EM EM0 isz irz EM' Hisz Hirz (SE & SE0 & HS) ts Ets H.
  apply bind_ok in H. destruct H as (tr & Etr & H). apply bind_ok in H. destruct H as (A & EA & H).
  rewrite (cnt_div bs Cs), (cnt_div br Cr) in *.
  destruct (depth_weights bs srcpts true isz ts Cs Gs Hisz Ets) as (Ps & Ls & Ws).
  destruct (depth_weights br recpts false irz tr Cr Gr Hirz Etr) as (Pr & Lr & Wr).
  destruct (block_strength k st _ _ ts tr A Hst Ps Pr Ls Lr EA) as (A0 & EA0 & SA0 & SA & CA).
  rewrite (azm_strength _ _ _ _ _ _ _ _ _ _ Etr). cbn [bind]. rewrite EA0. cbn [bind].
  destruct (place_ok nf _ _ _ _ _ _ A A0 EM EM0 EM' _ SA SA0 (eq_trans (proj1 SE0) (eq_sym (proj1 SE))) H) as (EM0' & EP).
  exists EM0'. split; [exact EP|].
  destruct (checked_pos bs Cs) as [Pbs Zs]. destruct (checked_pos br Cr) as [Pbr Zr].
  assert (Bs : (isz < b_n bs)%nat) by lia. assert (Br : (irz < b_n br)%nat) by lia.
  destruct (place_spec nf _ _ _ _ isz irz A EM EM' Bs Br SE SA H) as [SE' PS].
  destruct (place_spec nf _ _ _ _ isz irz A0 EM0 EM0' Bs Br SE0 SA0 EP) as [SE0' PS0].
  split; [exact SE'|]. split; [exact SE0'|]. intros s r Hs Hr. destruct (PS s r Hs Hr) as [PI PO]. destruct (PS0 s r Hs Hr) as [PI0 PO0].
  assert (DEC : (in_depth (b_n bs) (b_nz bs) isz s /\ in_depth (b_n br) (b_nz br) irz r) \/ ~ (in_depth (b_n bs) (b_nz bs) isz s /\ in_depth (b_n br) (b_nz br) irz r)).
  { unfold in_depth. destruct (Nat.eqb (b_n bs) (b_nz bs)), (Nat.eqb (b_n br) (b_nz br)); destruct (Nat.eq_dec s isz), (Nat.eq_dec r irz); tauto. }
  destruct DEC as [[D1 D2]|N].
  - rewrite (PI D1 D2), (PI0 D1 D2).
    rewrite CA by (apply pos_cnt; assumption). rewrite (Ws s Hs D1), (Wr r Hr D2). f_equal. ring.
  - rewrite (PO N), (PO0 N). now apply HS.
Qed.

Theorem loops_strength : forall EM, bipole_loops k gl srcpts recpts st bs br = Ok EM ->
  exists EM0, bipole_loops k gl srcpts recpts 0 bs br = Ok EM0 /\ scaled EM EM0.
Proof using All.
  intros EM H. unfold bipole_loops in *. 
  assert (S0 : scaled (mat_zeros nf (b_n br * b_n bs)) (mat_zeros nf (b_n br * b_n bs))).
  { split; [apply shp_zeros|]. split; [apply shp_zeros|]. intros s r Hs Hr. rewrite colm_zeros by (now apply lin_lt). unfold scale_mat, mat_zeros, czeros. cbn [repeat].
    clear. induction nf as [|n IH]; [reflexivity|]. cbn [repeat map]. rewrite <- IH at 1. f_equal. f_equal. ring. }
  fold nf in H |- *. revert H S0. generalize (mat_zeros nf (b_n br * b_n bs)) at 1 2. intros M0. generalize (mat_zeros nf (b_n br * b_n bs)) as N0.
  assert (LI : forall isz, In isz (seq 0 (b_nz bs)) -> (isz < b_nz bs)%nat) by (intros i Hi; apply in_seq in Hi; lia). revert LI.
  generalize (seq 0 (b_nz bs)). intros l. revert M0. induction l as [|isz l IH]; intros M0 LI N0 H S0.
  { injection H as <-. exists N0. split; [reflexivity|exact S0]. }
  cbn [foldM] in *. apply bind_ok in H. destruct H as (M1 & E1 & H). apply bind_ok in E1. destruct E1 as (ts & Ets & E1).
  assert (IN : exists N1, foldM (fun EM irz => tr <- get_azm_dip (k_m k) gl (b_arr br) irz (b_nz br) recpts (b_dip br) 0 false ;;
          s <- block k 0 (b_n br / b_nz br) (b_n bs / b_nz bs) (with_w ts (map (fun _ => 1) (t_w ts))) tr ;;
          place (b_n br) (b_nz br) (b_n bs) (b_nz bs) isz irz s EM) (seq 0 (b_nz br)) N0 = Ok N1 /\ scaled M1 N1).
  { clear H IH. assert (LJ : forall irz, In irz (seq 0 (b_nz br)) -> (irz < b_nz br)%nat) by (intros i Hi; apply in_seq in Hi; lia). revert LJ E1 S0.
    generalize (seq 0 (b_nz br)). intros q. revert M0 N0. induction q as [|irz q IH]; intros M0 N0 LJ E1 S0.
    { injection E1 as <-. exists N0. split; [reflexivity|exact S0]. }
    cbn [foldM] in *. apply bind_ok in E1. destruct E1 as (M2 & E2 & E1).
    destruct (strength_step M0 N0 isz irz M2 (LI isz (or_introl eq_refl)) (LJ irz (or_introl eq_refl)) S0 ts Ets E2) as (N2 & EN & S2).
    rewrite EN. cbn [bind]. apply (IH M2 N2 (fun x Hx => LJ x (or_intror Hx)) E1 S2). }
  destruct IN as (N1 & EN & S1). rewrite (azm_strength _ _ _ _ _ _ _ _ _ _ Ets). cbn [bind]. rewrite EN. cbn [bind].
  apply (IH M1 (fun x Hx => LI x (or_intror Hx)) N1 H S1).
Qed.
End Strength.

(** ** The routine *)
Definition elt (f r s : nat) (E : list (list (list C))) : C := nth s (nth r (nth f E []) []) (RtoC 0).
Definition eltT (t r s : nat) (E : list (list (list R))) : R := nth s (nth r (nth t E []) []) 0.

Lemma elt_reshape : forall nr ns EM f r s, (f < List.length EM)%nat -> (r < nr)%nat -> (s < ns)%nat ->
  elt f r s (reshapeF nr ns EM) = nth (r + nr * s) (nth f EM []) (RtoC 0).
Proof.
  intros nr ns EM f r s Hf Hr Hs. unfold elt, reshapeF.
  match goal with |- context [map ?F EM] => rewrite (nth_indep (map F EM) [] (F [])) by (now rewrite map_length); rewrite (map_nth F) end.
  rewrite nth_seq_map by assumption. now rewrite nth_seq_map by assumption.
Qed.

Lemma colm_scale_nth : forall j x A B f, colm j A = scale_mat x (colm j B) -> (f < List.length A)%nat ->
  nth j (nth f A []) (RtoC 0) = Cmult (RtoC x) (nth j (nth f B []) (RtoC 0)).
Proof.
  intros j x A B f H Hf. assert (LB : List.length B = List.length A) by (apply (f_equal (@List.length _)) in H; unfold colm, scale_mat in H; rewrite !map_length in H; lia).
  apply (f_equal (fun M => nth 0 (nth f M []) (RtoC 0))) in H. unfold scale_mat in H.
  rewrite colm_nth in H by assumption. pose proof (map_nth (map (fun a => Cmult a (RtoC x))) (colm j B) [] f) as Q.
  change (map (fun a : C => Cmult a (RtoC x)) []) with (@nil C) in Q. rewrite Q in H. rewrite colm_nth in H by lia. cbn [nth map] in H. rewrite H. ring.
Qed.

Section Routine.
Variables (m : mins) (gl : Z -> list R * list R) (hook : hookt) (mk : R -> R -> Z -> Z -> list ext -> Z -> bool -> bool -> hankel)
  (depth : list ext) (q : params) (freq : list R) (msrc mrec : mxv) (srcpts recpts : Z) (xdirect : option bool) (lf lo : bool).
Variables (src rec : list ndin) (bs br : bip).
Let go st := bipole m gl hook mk src rec depth q freq msrc mrec srcpts recpts st xdirect lf lo.
Let got st calc nt signal w := bipole_time calc nt signal w m gl hook mk src rec depth q freq msrc mrec srcpts recpts st xdirect lf lo.

Hypothesis Gs : good_rule gl srcpts.
Hypothesis Gr : good_rule gl recpts.
Hypothesis Ps : (0 < sizes src)%nat. Hypothesis Pr : (0 < sizes rec)%nat.
Hypothesis Ws : List.Forall nd_wf src. Hypothesis Wr : List.Forall nd_wf rec.
Hypothesis Es : check_bipole src = Ok bs. Hypothesis Er : check_bipole rec = Ok br.

Lemma array_strength : forall st EM nr ns fr, 0 < st ->
  bipole_array m gl hook mk src rec depth q freq msrc mrec srcpts recpts st xdirect lf lo = Ok (EM, nr, ns, fr) ->
  nr = b_n br /\ ns = b_n bs /\
  exists EM0, bipole_array m gl hook mk src rec depth q freq msrc mrec srcpts recpts 0 xdirect lf lo = Ok (EM0, nr, ns, fr) /\
    List.length EM0 = List.length EM /\
    forall s r, (s < ns)%nat -> (r < nr)%nat -> colm (r + nr * s) EM = scale_mat (st * pole_len bs s * pole_len br r) (colm (r + nr * s) EM0).
Proof using All.
  intros st EM nr ns fr Hst H. unfold bipole_array in *.
  apply bind_ok in H. destruct H as (mo & Em & H). apply bind_ok in H. destruct H as ([ms stp] & Ex & H).
  apply bind_ok in H. destruct H as (bs' & Eb & H). rewrite Es in Eb. injection Eb as <-.
  apply bind_ok in H. destruct H as ([mr rt] & Ey & H). apply bind_ok in H. destruct H as (br' & Eb & H). rewrite Er in Eb. injection Eb as <-.
  apply bind_ok in H. destruct H as (EM' & EL & H).
  pose proof (check_bipole_checked _ _ Ps Ws Es) as Cs. pose proof (check_bipole_checked _ _ Pr Wr Er) as Cr.
  destruct (loops_strength _ gl srcpts recpts st bs br Hst Cs Cr Gs Gr EM' EL) as (EM0 & E0 & S1 & S2 & HS).
  injection H as <- <- <- <-. split; [reflexivity|]. split; [reflexivity|]. exists EM0.
  rewrite Em. cbn [bind]. rewrite Ex. cbn [bind]. rewrite Es. cbn [bind]. rewrite Ey. cbn [bind]. rewrite Er. cbn [bind]. rewrite E0. cbn [bind].
  split; [reflexivity|]. split; [now rewrite (proj1 S1), (proj1 S2)|exact HS].
Qed.

Theorem bipole_strength : forall st E, 0 < st -> go st = Ok E ->
  exists E0, go 0 = Ok E0 /\ List.length E0 = List.length E /\
  forall f r s, (f < List.length E)%nat -> (r < b_n br)%nat -> (s < b_n bs)%nat ->
    elt f r s E = Cmult (RtoC (st * pole_len bs s * pole_len br r)) (elt f r s E0).
Proof using All.
  intros st E Hst H. unfold go, bipole in *. apply bind_ok in H. destruct H as ([[[EM nr] ns] fr] & EA & H). injection H as <-.
  destruct (array_strength st EM nr ns fr Hst EA) as (-> & -> & EM0 & E0 & LE & HS). rewrite E0. cbn [bind].
  eexists. split; [reflexivity|]. assert (LR : forall M, List.length (reshapeF (b_n br) (b_n bs) M) = List.length M) by (intros; unfold reshapeF; apply map_length).
  rewrite !LR. split; [exact LE|]. intros f r s Hf Hr Hs. rewrite !elt_reshape by (assumption || lia).
  apply colm_scale_nth; auto.
Qed.

(** a strength below zero is treated as zero *)
Theorem bipole_nonpos : forall st, st <= 0 -> go st = go 0.
Proof using All.
  intros st H. unfold go, bipole, bipole_array. f_equal.
  destruct (check_model _ _ _ _ _ _ _ _) as [mo|e]; [|reflexivity]. cbn [bind].
  destruct (check_mx true msrc) as [[ms stp]|e]; [|reflexivity]. cbn [bind]. rewrite Es. cbn [bind].
  destruct (check_mx false mrec) as [[mr rt]|e]; [|reflexivity]. cbn [bind]. rewrite Er. cbn [bind]. f_equal.
  unfold bipole_loops.
  assert (FE : forall l (f g : list (list C) -> nat -> res (list (list C))) a, (forall x i, f x i = g x i) -> foldM f l a = foldM g l a).
  { induction l as [|i l IH]; intros f g a HH; [reflexivity|]. cbn [foldM]. rewrite HH. destruct (g a i); [|reflexivity]. cbn [bind]. now apply IH. }
  apply FE. intros x i. rewrite (azm_nonpos _ _ _ _ _ _ _ _ _ H). f_equal. apply FunctionalExtensionality.functional_extensionality. intros ts.
  apply FE. intros y r. rewrite (azm_nonpos _ _ _ _ _ _ _ _ _ H). f_equal. apply FunctionalExtensionality.functional_extensionality. intros tr.
  f_equal. unfold block. f_equal. rewrite (Rltb00 st H), (Rltb00 0 (Rle_refl 0)). reflexivity.
Qed.
End Routine.
