(** The loops of bipole: every column of a block is the block of its own source and
    receiver. *)

From Coq Require Import ZArith Reals List Bool String Lia Lra.
From Coquelicot Require Import Coquelicot.
From Verif Require Import PyBase CBase Kernel Utils UtilsLayer UtilsModel UtilsFreq UtilsGeo UtilsSurvey Transform TransformDlf Fullspace Model ModelFem Routines RoutinesThm Bipole BipoleCol BipoleThm.
Import ListNotations.
Local Open Scope R_scope.
Local Open Scope res_scope.

Definition entry (ms mr : bool) (ab : Z) : Prop := exists r s, (1 <= r <= 3)%Z /\ (1 <= s <= 3)%Z /\ ab = ab_entry ms mr r s.
Definition xd_of (x : option bool) : bool := match x with None => true | Some b => b end.

Lemma geo_single : forall m ab sa sd ra rd ms mr,
  bcast2 1 1 (get_geo_fact m ab [sa] [sd] [ra] [rd] ms mr) = Ok [geo_fact1 m ab sa sd ra rd ms mr].
Proof. reflexivity. Qed.

Lemma coord_In : forall c l s, one_or c l -> (s < c)%nat -> In (coord l s) l.
Proof.
  intros c [|a [|b l]] s H Hs; destruct H as [H|H]; cbn in H; try lia; cbn [coord].
  all: try (now left). all: apply nth_In; cbn; lia.
Qed.

Lemma off_ang_single : forall m sx sy rx ry s r, List.length sx = List.length sy -> List.length rx = List.length ry ->
  (s < List.length sx)%nat -> (r < List.length rx)%nat ->
  let oa := get_off_ang m sx sy rx ry in
  get_off_ang m [nth s sx 0] [nth s sy 0] [nth r rx 0] [nth r ry 0] =
  ([nth (s * List.length rx + r) (fst oa) 0], [nth (s * List.length rx + r) (snd oa) 0]).
Proof.
  intros m sx sy rx ry s r L1 L2 Hs Hr. unfold get_off_ang. cbn [fst snd].
  rewrite !(proj1 (check_min_spec _ _)).
  set (per := fun s : R * R => map2 (fun rx0 ry0 => (rx0 - fst s, ry0 - snd s)) rx ry).
  set (co := flat_map per (combine sx sy)).
  assert (Lp : forall x, List.length (per x) = List.length rx) by (intros; unfold per; rewrite map2_length, L2; apply Nat.min_id).
  assert (E : nth (s * List.length rx + r) co (0, 0) = (nth r rx 0 - nth s sx 0, nth r ry 0 - nth s sy 0)).
  { unfold co. rewrite (nth_flat_map _ _ _ (List.length rx) _ s r (0, 0)); [|auto|rewrite combine_length; lia|assumption].
    rewrite combine_nth by assumption. unfold per. rewrite (row_nth_map2 _ _ _ r 0 0) by assumption. reflexivity. }
  assert (B : (s * List.length rx + r < List.length co)%nat).
  { unfold co. rewrite (flat_map_length_const _ _ _ (List.length rx)) by auto. rewrite combine_length, <- L1, Nat.min_id. nia. }
  assert (M : forall {X} (f : R * R -> X) d, nth (s * List.length rx + r) (map f co) d = f (nth r rx 0 - nth s sx 0, nth r ry 0 - nth s sy 0)).
  { intros X f d. rewrite (nth_indep _ d (f (0, 0))) by (now rewrite map_length). rewrite map_nth, E. reflexivity. }
  rewrite !map_map, !M. reflexivity.
Qed.

Section Cols.
Variables (k : setting) (valid : frow -> Prop) (nf : nat).
Hypothesis Hnf : List.length (k_rows k) = nf.
Hypothesis Hrows : k_rows k <> [].
Hypothesis Hvalid : forall r, In r (k_rows k) -> valid r.
Hypothesis Hoff : 0 < min_off (k_m k).
Hypothesis Hcol : forall zs zr ls lr ab, layer1 (k_depth k) zs = Ok ls -> layer1 (k_depth k) zr = Ok lr ->
  entry (k_ms k) (k_mr k) ab -> ab <> 36%Z ->
  columnwise valid (k_mk k zs zr ls lr (k_depth k) ab (k_ms k) (k_mr k)) (xd_of (k_xd k)).

Variables (cs cr s r : nat) (ts tr ts1 tr1 : azmdip).
Hypothesis Hs : (s < cs)%nat.
Hypothesis Hr : (r < cr)%nat.
Hypothesis Es : elem cs s ts ts1.
Hypothesis Er : elem cr r tr tr1.
Let w := (cr * cs)%nat.
Let j := (s * cr + r)%nat.

Lemma j_lt : (j < w)%nat.
Proof using Hr Hs. unfold j, w. clear -Hr Hs. nia. Qed.

Let sa := coord (t_azm ts) s. Let sd := coord (t_dip ts) s. Let ra := coord (t_azm tr) r. Let rd := coord (t_dip tr) r.
Definition nofact (ab : Z) : Prop := geo_fact1 (k_m k) ab sa sd ra rd (k_ms k) (k_mr k) = 0.

Lemma ab_column : forall off angle zs zr ls lr abs abs1, thin nofact abs abs1 ->
  List.length off = w -> List.length angle = w -> (forall o, In o off -> 0 < o) ->
  layer1 (k_depth k) zs = Ok ls -> layer1 (k_depth k) zr = Ok lr -> (forall ab, In ab abs -> entry (k_ms k) (k_mr k) ab) ->
  forall M, ab_loop k cr cs ts tr off angle zs zr ls lr abs = Ok M ->
  shp nf w M /\ ab_loop k 1 1 ts1 tr1 [nth j off 0] [nth j angle 0] zs zr ls lr abs1 = Ok (colm j M).
Proof using Hnf Hrows Hvalid Hcol Hs Hr Es Er.
  intros off angle zs zr ls lr abs abs1 HT Lo La Po Hls Hlr.
  pose proof j_lt as Hj.
  unfold ab_loop. rewrite Hnf. change (cr * cs)%nat with w.
  change (1 * 1)%nat with 1%nat. rewrite <- (colm_zeros nf w j Hj).
  rewrite (e_azm _ _ _ _ Es), (e_dip _ _ _ _ Es), (e_azm _ _ _ _ Er), (e_dip _ _ _ _ Er).
  assert (SZ : shp nf w (mat_zeros nf w)) by apply shp_zeros. revert SZ. generalize (mat_zeros nf w).
  induction HT as [|ab abs abs1 HT IH|ab abs abs1 P HT IH]; intros EM SE Hab M H.
  - injection H as <-. split; [assumption|reflexivity].
  - cbn [foldM] in *. apply bind_ok in H. destruct H as (EM' & E & H).
    apply bind_ok in E. destruct E as ([[o kk] cc] & EF & E). apply bind_ok in E. destruct E as (t & ET & E). injection E as <-.
    destruct (geo_nth _ _ _ _ _ _ _ _ cs cr t s r Hs Hr (e_lazm _ _ _ _ Es) (e_ldip _ _ _ _ Es) (e_lazm _ _ _ _ Er) (e_ldip _ _ _ _ Er) ET) as [LT NT].
    rewrite Nat.mul_comm in LT. change (cr * cs)%nat with w in LT. change (s * cr + r)%nat with j in NT.
    destruct (fem_column valid _ _ _ _ _ _ _ _ _ _ _ _ _ _ _ _ _ _ _ _ j (Hcol zs zr ls lr ab Hls Hlr (Hab ab (or_introl eq_refl))) Hrows (eq_trans La (eq_sym Lo)) Hvalid Po EF ltac:(rewrite Lo; exact Hj)) as [SO (k' & c' & EF1)].
    rewrite Hnf, Lo in SO. rewrite EF1. cbn [bind].
    rewrite geo_single. cbn [bind].
    assert (SS : shp nf w (scale_cols t o)) by (apply scale_cols_shp; assumption).
    specialize (IH (mat_add EM (scale_cols t o)) (shp_add _ _ _ _ SE SS) (fun a Ha => Hab a (or_intror Ha)) M H).
    rewrite (colm_add w j Hj nf EM _ SE SS), (scale_cols_col nf w j t o SO LT Hj), NT in IH. exact IH.
  - cbn [foldM] in H. apply bind_ok in H. destruct H as (EM' & E & H).
    apply bind_ok in E. destruct E as ([[o kk] cc] & EF & E). apply bind_ok in E. destruct E as (t & ET & E). injection E as <-.
    destruct (geo_nth _ _ _ _ _ _ _ _ cs cr t s r Hs Hr (e_lazm _ _ _ _ Es) (e_ldip _ _ _ _ Es) (e_lazm _ _ _ _ Er) (e_ldip _ _ _ _ Er) ET) as [LT NT].
    rewrite Nat.mul_comm in LT. change (cr * cs)%nat with w in LT. change (s * cr + r)%nat with j in NT.
    destruct (fem_column valid _ _ _ _ _ _ _ _ _ _ _ _ _ _ _ _ _ _ _ _ j (Hcol zs zr ls lr ab Hls Hlr (Hab ab (or_introl eq_refl))) Hrows (eq_trans La (eq_sym Lo)) Hvalid Po EF ltac:(rewrite Lo; exact Hj)) as [SO _].
    rewrite Hnf, Lo in SO.
    assert (SS : shp nf w (scale_cols t o)) by (apply scale_cols_shp; assumption).
    specialize (IH (mat_add EM (scale_cols t o)) (shp_add _ _ _ _ SE SS) (fun a Ha => Hab a (or_intror Ha)) M H).
    rewrite (colm_add w j Hj nf EM _ SE SS), (scale_cols_col nf w j t o SO LT Hj), NT in IH.
    unfold nofact in P. unfold sa, sd, ra, rd in P. rewrite P in IH.
    rewrite (scale_zero nf (colm j o) (colm j EM)) in IH by (eapply shp_colm; eassumption). exact IH.
Qed.

Lemma at_layer_length : forall f l rows v, at_layer f l rows = Ok v -> List.length v = List.length rows.
Proof. intros f l rows v H. unfold at_layer in H. apply mapM_len in H. exact H. Qed.

Lemma rec_column : forall abs abs1 sx sy zs ls EM irg M, thin nofact abs abs1 ->
  (forall ab, In ab abs -> entry (k_ms k) (k_mr k) ab) -> List.length sx = cs -> List.length sy = cs ->
  layer1 (k_depth k) zs = Ok ls -> (irg < t_pts tr)%nat -> shp nf w EM ->
  rec_point k cr cs ts tr abs sx sy zs ls EM irg = Ok M ->
  shp nf w M /\ rec_point k 1 1 ts1 tr1 abs1 [nth s sx 0] [nth s sy 0] zs ls (colm j EM) irg = Ok (colm j M).
Proof using Hnf Hrows Hvalid Hoff Hcol Hs Hr Es Er.
  intros abs abs1 sx sy zs ls EM irg M HT Hab Lsx Lsy Hls Hg SE H. pose proof j_lt as Hj.
  unfold rec_point in *. rewrite (e_pts _ _ _ _ Er), (e_x _ _ _ _ Er), (e_y _ _ _ _ Er), (e_z _ _ _ _ Er), (e_gw _ _ _ _ Er) by assumption.
  pose proof (e_lx _ _ _ _ Er irg Hg) as Lrx. pose proof (e_ly _ _ _ _ Er irg Hg) as Lry.
  set (rx := stride 0 irg (t_pts tr) (t_x tr)) in *. set (ry := stride 0 irg (t_pts tr) (t_y tr)) in *.
  apply bind_ok in H. destruct H as (zr & Ez & H). rewrite Ez. cbn [bind].
  rewrite (off_ang_single (k_m k) sx sy rx ry s r) by lia. rewrite Lrx. cbv zeta.
  destruct (off_ang_spec (k_m k) sx sy rx ry) as (Lo & La & HO); try lia.
  destruct (get_off_ang (k_m k) sx sy rx ry) as [off angle] eqn:EO. cbn [fst snd] in *.
  change (s * cr + r)%nat with j.
  apply bind_ok in H. destruct H as (lr & El & H). rewrite El. cbn [bind].
  apply bind_ok in H. destruct H as (A & EA & H).
  assert (LO : List.length off = w) by (unfold w; rewrite Lo, Lsx, Lrx; lia).
  assert (LA : List.length angle = w) by (unfold w; rewrite La, Lsx, Lrx; lia).
  assert (Po : forall o, In o off -> 0 < o).
  { intros o Ho. assert (EO1 : off = fst (get_off_ang (k_m k) sx sy rx ry)) by (now rewrite EO).
    unfold get_off_ang in EO1. cbn [fst] in EO1. rewrite (proj1 (check_min_spec _ _)) in EO1. rewrite EO1 in Ho.
    apply in_map_iff in Ho. destruct Ho as (x & <- & _). apply Rlt_le_trans with (1 := Hoff). apply Rmax_r. }
  destruct (ab_column off angle zs zr ls lr abs abs1 HT LO LA Po Hls El Hab A EA) as [SA EA1].
  rewrite EA1. cbn [bind].
  apply bind_ok in H. destruct H as (B & EB & H). apply bind_ok in H. destruct H as (wg & Ew & H). injection H as <-.
  assert (SB : shp nf w B /\ match k_rt k with
        | XJ => e <- at_layer r_eH lr (k_rows k) ;; Ok (scale_rows e (colm j A))
        | XB => e <- at_layer r_zH lr (k_rows k) ;; Ok (scale_rows e (colm j A))
        | XNone => Ok (colm j A) end = Ok (colm j B)).
  { destruct (k_rt k).
    - injection EB as <-. split; [assumption|reflexivity].
    - apply bind_ok in EB. destruct EB as (e & Ee & EB). injection EB as <-. rewrite Ee. cbn [bind]. pose proof (at_layer_length _ _ _ _ Ee) as Le.
      split; [apply scale_rows_shp; [assumption|congruence]|]. rewrite (scale_rows_col w j) by (apply SA || exact Hj). reflexivity.
    - apply bind_ok in EB. destruct EB as (e & Ee & EB). injection EB as <-. rewrite Ee. cbn [bind]. pose proof (at_layer_length _ _ _ _ Ee) as Le.
      split; [apply scale_rows_shp; [assumption|congruence]|]. rewrite (scale_rows_col w j) by (apply SA || exact Hj). reflexivity. }
  destruct SB as [SB EB1]. rewrite EB1. cbn [bind]. rewrite Ew. cbn [bind].
  split; [apply shp_add; [assumption|now apply scale_mat_shp]|].
  rewrite (colm_add w j Hj nf _ _ SE (scale_mat_shp _ _ _ _ SB)), (scale_mat_col nf w j wg B SB Hj). reflexivity.
Qed.

Lemma fold_column : forall (f f1 : list (list C) -> nat -> res (list (list C))) l,
  (forall i EM M, In i l -> shp nf w EM -> f EM i = Ok M -> shp nf w M /\ f1 (colm j EM) i = Ok (colm j M)) ->
  forall EM M, shp nf w EM -> foldM f l EM = Ok M -> shp nf w M /\ foldM f1 l (colm j EM) = Ok (colm j M).
Proof.
  intros f f1. induction l as [|i l IH]; intros H EM M SE HM.
  - injection HM as <-. split; [assumption|reflexivity].
  - cbn [foldM] in *. apply bind_ok in HM. destruct HM as (E1 & F1 & HM).
    destruct (H i EM E1 (or_introl eq_refl) SE F1) as [S1 G1]. rewrite G1. cbn [bind].
    apply IH; [intros; apply H; auto; now right|assumption|assumption].
Qed.

Lemma src_column : forall abs abs1 EM isg M, thin nofact abs abs1 ->
  (forall ab, In ab abs -> entry (k_ms k) (k_mr k) ab) -> (isg < t_pts ts)%nat -> shp nf w EM ->
  src_point k cr cs ts tr abs EM isg = Ok M ->
  shp nf w M /\ src_point k 1 1 ts1 tr1 abs1 (colm j EM) isg = Ok (colm j M).
Proof using Hnf Hrows Hvalid Hoff Hcol Hs Hr Es Er.
  intros abs abs1 EM isg M HT Hab Hg SE H. pose proof j_lt as Hj.
  unfold src_point in *. rewrite (e_pts _ _ _ _ Es), (e_pts _ _ _ _ Er), (e_x _ _ _ _ Es), (e_y _ _ _ _ Es), (e_z _ _ _ _ Es), (e_gw _ _ _ _ Es) by assumption.
  pose proof (e_lx _ _ _ _ Es isg Hg) as Lsx. pose proof (e_ly _ _ _ _ Es isg Hg) as Lsy.
  set (sx := stride 0 isg (t_pts ts) (t_x ts)) in *. set (sy := stride 0 isg (t_pts ts) (t_y ts)) in *.
  apply bind_ok in H. destruct H as (zs & Ez & H). rewrite Ez. cbn [bind].
  apply bind_ok in H. destruct H as (ls & El & H). rewrite El. cbn [bind].
  apply bind_ok in H. destruct H as (A & EA & H).
  rewrite Hnf in *. change (cr * cs)%nat with w in EA.
  destruct (fold_column (rec_point k cr cs ts tr abs sx sy zs ls) (rec_point k 1 1 ts1 tr1 abs1 [nth s sx 0] [nth s sy 0] zs ls) (seq 0 (t_pts tr))) with (EM := mat_zeros nf w) (M := A) as [SA EA1].
  { intros i E1 M1 Hi S1 F1. apply in_seq in Hi. apply (rec_column abs abs1 sx sy zs ls E1 i M1 HT Hab Lsx Lsy El ltac:(lia) S1 F1). }
  { apply shp_zeros. } { exact EA. }
  rewrite (colm_zeros nf w j Hj) in EA1. change (1 * 1)%nat with 1%nat. rewrite EA1. cbn [bind].
  apply bind_ok in H. destruct H as (B & EB & H). apply bind_ok in H. destruct H as (wg & Ew & H). injection H as <-.
  assert (SB : shp nf w B /\ match k_st k with
       | XB => e <- at_layer r_zH ls (k_rows k) ;; Ok (scale_rows e (colm j A))
       | _ => Ok (colm j A) end = Ok (colm j B)).
  { destruct (k_st k).
    - injection EB as <-. split; [assumption|reflexivity].
    - apply bind_ok in EB. destruct EB as (e & Ee & EB). injection EB as <-. rewrite Ee. cbn [bind]. pose proof (at_layer_length _ _ _ _ Ee) as Le.
      split; [apply scale_rows_shp; [assumption|congruence]|]. rewrite (scale_rows_col w j) by (apply SA || exact Hj). reflexivity.
    - injection EB as <-. split; [assumption|reflexivity]. }
  destruct SB as [SB EB1]. rewrite EB1. cbn [bind]. rewrite Ew. cbn [bind].
  split; [apply shp_add; [assumption|now apply scale_mat_shp]|].
  rewrite (colm_add w j Hj nf _ _ SE (scale_mat_shp _ _ _ _ SB)), (scale_mat_col nf w j wg B SB Hj). reflexivity.
Qed.

Lemma np_repeat_nth : forall (l : list R) n i a, (i < List.length l)%nat -> (a < n)%nat -> nth (i * n + a) (np_repeat n l) 0 = nth i l 0.
Proof.
  intros l n i a Hi Ha. unfold np_repeat. rewrite (nth_flat_map _ _ _ n _ i a 0); [|intros; apply repeat_length|assumption|assumption].
  apply nth_repeat'. assumption.
Qed.
Lemma np_tile_nth : forall (l : list R) n i a, (i < n)%nat -> (a < List.length l)%nat -> nth (i * List.length l + a) (np_tile n l) 0 = nth a l 0.
Proof.
  intros l n i a Hi Ha. unfold np_tile. rewrite <- flat_map_concat_map with (f := fun x => x) (l := repeat l n) || idtac.
  assert (E : List.concat (repeat l n) = flat_map (fun x => x) (repeat l n)) by (rewrite flat_map_concat_map, map_id; reflexivity).
  rewrite E, (nth_flat_map _ _ _ (List.length l) _ i a []); [|intros x Hx; apply repeat_spec in Hx; now subst|now rewrite repeat_length|assumption].
  now rewrite nth_repeat'.
Qed.
Lemma np_repeat_len : forall (l : list R) n, List.length (np_repeat n l) = (List.length l * n)%nat.
Proof. intros. unfold np_repeat. apply flat_map_length_const. intros. apply repeat_length. Qed.

Hypothesis Csa : clean sa. Hypothesis Csd : clean sd. Hypothesis Cra : clean ra. Hypothesis Crd : clean rd.

Theorem block_column : forall strength M, block k strength cr cs ts tr = Ok M ->
  shp nf w M /\ block k strength 1 1 ts1 tr1 = Ok (colm j M).
Proof using Hnf Hrows Hvalid Hoff Hcol Hs Hr Es Er Csa Csd Cra Crd.
  intros strength M H. pose proof j_lt as Hj. unfold block in *.
  set (abs := get_abs _ _ _ _ _ _) in H. set (abs1 := get_abs _ _ _ _ _ _).
  assert (HT : thin nofact abs abs1).
  { unfold abs, abs1, nofact. rewrite (e_azm _ _ _ _ Es), (e_dip _ _ _ _ Es), (e_azm _ _ _ _ Er), (e_dip _ _ _ _ Er).
    apply abs_thin; try assumption; eapply coord_In; eauto; first [eapply e_lazm; eassumption|eapply e_ldip; eassumption]. }
  assert (Hab : forall ab, In ab abs -> entry (k_ms k) (k_mr k) ab) by (intros ab Ha; apply (abs_entries _ _ _ _ _ _ _ Ha)).
  clearbody abs abs1. rewrite Hnf in *. change (cr * cs)%nat with w in H.
  apply bind_ok in H. destruct H as (A & EA & H).
  destruct (fold_column (src_point k cr cs ts tr abs) (src_point k 1 1 ts1 tr1 abs1) (seq 0 (t_pts ts))) with (EM := mat_zeros nf w) (M := A) as [SA EA1].
  { intros i E1 M1 Hi S1 F1. apply in_seq in Hi. apply (src_column abs abs1 E1 i M1 HT Hab ltac:(lia) S1 F1). }
  { apply shp_zeros. } { exact EA. }
  rewrite (colm_zeros nf w j Hj) in EA1. rewrite (e_pts _ _ _ _ Es). change (1 * 1)%nat with 1%nat. rewrite EA1. cbn [bind].
  destruct (Rltb 0 strength).
  - rewrite (e_w _ _ _ _ Es), (e_w _ _ _ _ Er). cbn [np_repeat np_tile flat_map repeat app List.concat List.length Nat.eqb andb].
    destruct (Nat.eqb_spec (List.length (np_repeat cr (t_w ts))) w) as [L1|]; [|discriminate].
    destruct (Nat.eqb_spec (List.length (np_tile cs (t_w tr))) w) as [L2|]; [|discriminate]. cbn [andb] in H. injection H as <-.
    assert (LV : List.length (map2 Rmult (np_repeat cr (t_w ts)) (np_tile cs (t_w tr))) = w) by (rewrite map2_length, L1, L2; apply Nat.min_id).
    split; [apply scale_cols_shp; assumption|]. rewrite (scale_cols_col nf w j _ _ SA LV Hj).
    rewrite (row_nth_map2 _ _ _ j 0 0) by (rewrite L1; assumption || (symmetry; assumption)).
    unfold j at 2 3. rewrite np_repeat_nth by (rewrite ?(e_lw _ _ _ _ Es); assumption).
    rewrite <- (e_lw _ _ _ _ Er) at 1. rewrite np_tile_nth by (rewrite ?(e_lw _ _ _ _ Er); assumption). reflexivity.
  - injection H as <-. split; [assumption|reflexivity].
Qed.
End Cols.
