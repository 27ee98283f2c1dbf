(** Flux and current densities: poles given as 'b' or 'j' against the plain fields. *)

From Coq Require Import ZArith Reals List Bool QArith Lia Lra.
From Coquelicot Require Import Coquelicot.
From Verif Require Import PyBase CBase Utils UtilsAb UtilsLayer UtilsModel UtilsFreq UtilsSurvey Transform TransformDlf
  Fullspace Model ModelFem Routines RoutinesThm Bipole BipoleCol BipoleThm BipoleLoop BipolePlace BipoleMain BipoleFinal BipoleStrength.
Import ListNotations.
Local Open Scope R_scope.
Local Open Scope res_scope.

(** the parameter a type of pole is multiplied with, in one layer of one row *)
Definition density (x : xtype) (row : frow) (l : nat) : C :=
  match x with XNone => RtoC 1 | XB => nth l (r_zH row) (RtoC 0) | XJ => nth l (r_eH row) (RtoC 0) end.
Definition dvec (x : xtype) (rows : list frow) (l : nat) : list C := map (fun row => density x row l) rows.
Definition scx (x : xtype) (v : list C) (A : list (list C)) : list (list C) := match x with XNone => A | _ => scale_rows v A end.
Definition plain (k : setting) : setting :=
  {| k_m := k_m k; k_mk := k_mk k; k_depth := k_depth k; k_rows := k_rows k; k_lap := k_lap k; k_full := k_full k; k_xd := k_xd k;
     k_lf := k_lf k; k_lo := k_lo k; k_ms := k_ms k; k_mr := k_mr k; k_st := XNone; k_rt := XNone |}.

Lemma sr_add : forall v A B, scale_rows v (mat_add A B) = mat_add (scale_rows v A) (scale_rows v B).
Proof.
  unfold scale_rows, mat_add. induction v as [|x v IH]; intros [|a A] [|b B]; try reflexivity.
  rewrite !map2_cons. rewrite IH. f_equal. clear. unfold vadd. revert b. induction a as [|c a IH]; intros [|d b]; try reflexivity.
  cbn [map]. rewrite !map2_cons. cbn [map]. rewrite IH. f_equal. ring.
Qed.
Lemma sr_mat : forall v w A, scale_rows v (scale_mat w A) = scale_mat w (scale_rows v A).
Proof.
  unfold scale_rows, scale_mat. induction v as [|x v IH]; intros w [|a A]; try reflexivity. cbn [map]. rewrite !map2_cons. cbn [map]. rewrite IH. f_equal. rewrite !map_map. apply map_ext. intros c. ring.
Qed.
Lemma sr_cols : forall v w A, scale_rows v (scale_cols w A) = scale_cols w (scale_rows v A).
Proof.
  unfold scale_rows, scale_cols. induction v as [|x v IH]; intros w [|a A]; try reflexivity. cbn [map]. rewrite !map2_cons. cbn [map]. rewrite IH. f_equal.
  clear. revert w. induction a as [|c a IH]; intros [|d w]; try reflexivity. cbn [map]. rewrite !map2_cons. cbn [map]. rewrite IH. f_equal. ring.
Qed.
Lemma sr_zeros : forall v w, scale_rows v (mat_zeros (List.length v) w) = mat_zeros (List.length v) w.
Proof.
  unfold scale_rows, mat_zeros. induction v as [|x v IH]; intros w; [reflexivity|]. cbn [List.length repeat]. rewrite map2_cons, IH. f_equal.
  unfold czeros. induction w as [|w IHw]; [reflexivity|]. cbn [repeat map]. rewrite IHw. f_equal. ring.
Qed.
Lemma scx_add : forall x v A B, scx x v (mat_add A B) = mat_add (scx x v A) (scx x v B). Proof. intros [| |] v A B; [reflexivity| |]; apply sr_add. Qed.
Lemma scx_mat : forall x v w A, scx x v (scale_mat w A) = scale_mat w (scx x v A). Proof. intros [| |] v w A; [reflexivity| |]; apply sr_mat. Qed.
Lemma scx_cols : forall x v w A, scx x v (scale_cols w A) = scale_cols w (scx x v A). Proof. intros [| |] v w A; [reflexivity| |]; apply sr_cols. Qed.
Lemma scx_zeros : forall x v n w, List.length v = n -> scx x v (mat_zeros n w) = mat_zeros n w. Proof. intros x v n w <-. destruct x; [reflexivity| |]; apply sr_zeros. Qed.
Lemma scx_shp : forall x v n w A, shp n w A -> List.length v = n -> shp n w (scx x v A). Proof. intros [| |] v n w A S L; [exact S| |]; now apply scale_rows_shp. Qed.
Lemma scx_colm : forall x v n w j A, shp n w A -> (j < w)%nat -> colm j (scx x v A) = scx x v (colm j A).
Proof. intros [| |] v n w j A S Hj; [reflexivity| |]; cbn [scx]; apply (scale_rows_col w); try exact Hj; apply S. Qed.
Lemma dvec_len : forall x rows l, List.length (dvec x rows l) = List.length rows. Proof. intros. apply map_length. Qed.
Lemma at_layer_dvec : forall x rows l e, x <> XNone -> at_layer (match x with XJ => r_eH | _ => r_zH end) (Z.of_nat l) rows = Ok e -> e = dvec x rows l.
Proof.
  intros x rows l e Hx. revert e. unfold at_layer, dvec. induction rows as [|row rows IH]; intros e H; [cbn in H; now injection H as <-|].
  cbn [mapM] in H. apply bind_ok in H. destruct H as (a & Ea & H). apply bind_ok in H. destruct H as (t & Et & H). injection H as <-. cbn [map]. rewrite <- (IH t Et). f_equal.
  assert (G : forall (f : list C), idx f (Z.of_nat l) = Ok a -> a = nth l f (RtoC 0)).
  { intros f F. unfold idx, norm_idx in F. assert (N : (Z.of_nat l <? 0)%Z = false) by (apply Z.ltb_ge; lia). rewrite !N in F. rewrite Nat2Z.id in F. destruct (nth_error f l) eqn:NE; [|discriminate]. injection F as <-. symmetry. now apply nth_error_nth. }
  destruct x; [contradiction| |]; cbn [density]; now apply G.
Qed.

Section Pole.
Variable k : setting.
Hypothesis Hst : k_st k <> XJ.
Let rows := k_rows k.
(** all integration points in layer l *)
Definition in_layer (T : azmdip) (l : nat) : Prop := forall g z, (g < t_pts T)%nat -> idx (t_z T) (Z.of_nat g) = Ok z -> layer1 (k_depth k) z = Ok (Z.of_nat l).

Lemma rec_pole : forall irec isrc ts tr abs sx sy zs ls lr EM0 irg M, in_layer tr lr -> (irg < t_pts tr)%nat ->
  let v := dvec (k_rt k) rows lr in
  rec_point k irec isrc ts tr abs sx sy zs ls (scx (k_rt k) v EM0) irg = Ok M ->
  exists M0, rec_point (plain k) irec isrc ts tr abs sx sy zs ls EM0 irg = Ok M0 /\ M = scx (k_rt k) v M0.
Proof using Hst.
  intros irec isrc ts tr abs sx sy zs ls lr EM0 irg M HL Hi v H. unfold rec_point in *. cbn [plain k_m k_depth k_rt].
  change (ab_loop (plain k)) with (ab_loop k).
  apply bind_ok in H. destruct H as (zr & Ez & H). rewrite Ez. cbn [bind]. specialize (HL _ _ Hi Ez).
  destruct (get_off_ang (k_m k) sx sy _ _) as [off angle]. rewrite HL in *. cbn [bind] in *.
  apply bind_ok in H. destruct H as (A & EA & H). rewrite EA. cbn [bind].
  apply bind_ok in H. destruct H as (B & EB & H). apply bind_ok in H. destruct H as (w & Ew & H). rewrite Ew. cbn [bind]. injection H as <-.
  assert (B = scx (k_rt k) v A) as ->.
  { unfold v. destruct (k_rt k) eqn:T; [now injection EB as <-| |]; apply bind_ok in EB; destruct EB as (e & Ee & EB); injection EB as <-; cbn [scx]; f_equal.
    - now apply (at_layer_dvec XB).
    - now apply (at_layer_dvec XJ). }
  eexists. split; [reflexivity|]. rewrite scx_add, scx_mat. reflexivity.
Qed.
Lemma fold_scx : forall x v (f f0 : list (list C) -> nat -> res (list (list C))) l,
  (forall i EM0 M, In i l -> f (scx x v EM0) i = Ok M -> exists M0, f0 EM0 i = Ok M0 /\ M = scx x v M0) ->
  forall EM0 M, foldM f l (scx x v EM0) = Ok M -> exists M0, foldM f0 l EM0 = Ok M0 /\ M = scx x v M0.
Proof using.
  intros x v f f0. induction l as [|i l IH]; intros Hf EM0 M H; [injection H as <-; exists EM0; now split|]. cbn [foldM] in *.
  apply bind_ok in H. destruct H as (M1 & E1 & H). destruct (Hf i EM0 M1 (or_introl eq_refl) E1) as (N1 & F1 & ->). rewrite F1. cbn [bind]. apply IH; [intros; eapply Hf; [right|]; eassumption|exact H].
Qed.
Lemma src_pole : forall irec isrc ts tr abs ls lr EM0 isg M, in_layer ts ls -> in_layer tr lr -> (isg < t_pts ts)%nat ->
  let vs := dvec (k_st k) rows ls in let vr := dvec (k_rt k) rows lr in
  src_point k irec isrc ts tr abs (scx (k_st k) vs (scx (k_rt k) vr EM0)) isg = Ok M ->
  exists M0, src_point (plain k) irec isrc ts tr abs EM0 isg = Ok M0 /\ M = scx (k_st k) vs (scx (k_rt k) vr M0).
Proof using Hst.
  intros irec isrc ts tr abs ls lr EM0 isg M HS HR Hi vs vr H. unfold src_point in *. cbn [plain k_depth k_rows k_st].
  apply bind_ok in H. destruct H as (zs & Ez & H). rewrite Ez. cbn [bind]. specialize (HS _ _ Hi Ez). rewrite HS in *. cbn [bind] in *.
  apply bind_ok in H. destruct H as (A & EA & H). apply bind_ok in H. destruct H as (B & EB & H). apply bind_ok in H. destruct H as (w & Ew & H). injection H as <-.
  fold rows in EA |- *. rewrite <- (scx_zeros (k_rt k) vr) in EA by apply dvec_len.
  apply (fold_scx _ _ _ (rec_point (plain k) irec isrc ts tr abs (stride 0 isg (t_pts ts) (t_x ts)) (stride 0 isg (t_pts ts) (t_y ts)) zs (Z.of_nat ls))) in EA.
  - destruct EA as (A0 & EA0 & ->). rewrite EA0. cbn [bind]. rewrite Ew. cbn [bind]. eexists. split; [reflexivity|]. rewrite !scx_add, !scx_mat. f_equal. f_equal.
    unfold vs. destruct (k_st k) eqn:T; [now injection EB as <-| |contradiction]. apply bind_ok in EB. destruct EB as (e & Ee & EB). injection EB as <-. cbn [scx]. f_equal. now apply (at_layer_dvec XB).
  - intros i E0 M1 Hin F. apply in_seq in Hin. apply rec_pole in F; [exact F|exact HR|lia].
Qed.
Lemma block_pole : forall strength irec isrc ts tr ls lr A, in_layer ts ls -> in_layer tr lr ->
  let vs := dvec (k_st k) rows ls in let vr := dvec (k_rt k) rows lr in
  block k strength irec isrc ts tr = Ok A ->
  exists A0, block (plain k) strength irec isrc ts tr = Ok A0 /\ A = scx (k_st k) vs (scx (k_rt k) vr A0).
Proof using Hst.
  intros strength irec isrc ts tr ls lr A HS HR vs vr H. unfold block in *. cbn [plain k_ms k_mr k_rows]. set (abs := get_abs _ _ _ _ _ _) in *.
  apply bind_ok in H. destruct H as (S & ES & H). fold rows in ES |- *.
  assert (Z0 : mat_zeros (List.length rows) (irec * isrc) = scx (k_st k) vs (scx (k_rt k) vr (mat_zeros (List.length rows) (irec * isrc)))) by (rewrite !scx_zeros by apply dvec_len; reflexivity).
  assert (FS : forall l EM0 M, (forall i, In i l -> (i < t_pts ts)%nat) -> foldM (src_point k irec isrc ts tr abs) l (scx (k_st k) vs (scx (k_rt k) vr EM0)) = Ok M ->
    exists M0, foldM (src_point (plain k) irec isrc ts tr abs) l EM0 = Ok M0 /\ M = scx (k_st k) vs (scx (k_rt k) vr M0)).
  { induction l as [|i l IH]; intros EM0 M HI F; [injection F as <-; exists EM0; now split|]. cbn [foldM] in *. apply bind_ok in F. destruct F as (M1 & E1 & F).
    apply (src_pole _ _ _ _ _ ls lr) in E1; try assumption; [|apply HI; now left]. destruct E1 as (N1 & F1 & ->). rewrite F1. cbn [bind]. apply IH; [intros; apply HI; now right|exact F]. }
  rewrite Z0 in ES. apply FS in ES; [|intros i Hi; apply in_seq in Hi; lia]. destruct ES as (S0 & ES0 & ->). rewrite ES0. cbn [bind].
  destruct (Rltb 0 strength).
  - destruct (_ && _)%bool; [|discriminate]. injection H as <-. eexists. split; [reflexivity|]. now rewrite !scx_cols.
  - injection H as <-. eexists. split; reflexivity.
Qed.
End Pole.

(** ** The loops *)
Section Loops.
Variables (k : setting) (gl : Z -> list R * list R) (srcpts recpts : Z) (st : R) (bs br : bip).
Hypothesis Hst : k_st k <> XJ.
Hypothesis Cs : checked bs.
Hypothesis Cr : checked br.
Hypothesis Gs : good_rule gl srcpts.
Hypothesis Gr : good_rule gl recpts.
Let nf := List.length (k_rows k).
Variables (Ls Lr : nat -> nat).
(** pole number i lies in layer L i *)
Definition pole_in_layer (b : bip) (kk : Z) (src : bool) (L : nat -> nat) : Prop :=
  forall i T, (i < b_n b)%nat -> get_azm_dip (k_m k) gl (pole_arr b i) 0 1 kk (b_dip b) st src = Ok T -> in_layer k T (L i).
Hypothesis HLs : pole_in_layer bs srcpts true Ls.
Hypothesis HLr : pole_in_layer br recpts false Lr.

Definition poled (EM EM0 : list (list C)) : Prop :=
  shp nf (b_n br * b_n bs) EM /\ shp nf (b_n br * b_n bs) EM0 /\
  forall s r, (s < b_n bs)%nat -> (r < b_n br)%nat ->
    colm (r + b_n br * s) EM = scx (k_st k) (dvec (k_st k) (k_rows k) (Ls s)) (scx (k_rt k) (dvec (k_rt k) (k_rows k) (Lr r)) (colm (r + b_n br * s) EM0)).

Lemma depth_layer : forall b kk src L iz T, checked b -> good_rule gl kk -> (iz < b_nz b)%nat -> pole_in_layer b kk src L ->
  get_azm_dip (k_m k) gl (b_arr b) iz (b_nz b) kk (b_dip b) st src = Ok T ->
  points_ok (cnt (b_n b) (b_nz b)) T /\ forall i, (i < b_n b)%nat -> in_depth (b_n b) (b_nz b) iz i -> in_layer k T (L i).
Proof using.
  intros b kk src L iz T Cb G Hiz HL E.
  assert (HE : forall i, (i < b_n b)%nat -> in_depth (b_n b) (b_nz b) iz i -> exists T1, get_azm_dip (k_m k) gl (pole_arr b i) 0 1 kk (b_dip b) st src = Ok T1 /\ elem (cnt (b_n b) (b_nz b)) (pos (b_n b) (b_nz b) i) T T1).
  { intros i Hi Hd. destruct (elem_depth (k_m k) gl b kk st src iz i Cb G Hi Hiz Hd) as (T' & T1 & E1 & E2 & E3). rewrite E in E1. injection E1 as <-. exists T1. auto. }
  destruct (depth_any b iz Cb Hiz) as (i0 & Hi0 & Hd0). destruct (HE i0 Hi0 Hd0) as (T1 & _ & EL).
  split; [intros g Hg; split; [apply (e_lx _ _ _ _ EL g Hg)|apply (e_ly _ _ _ _ EL g Hg)]|].
  intros i Hi Hd g z Hg Hz. destruct (HE i Hi Hd) as (U & EU & EK). apply (HL i U Hi EU g z); [rewrite (e_pts _ _ _ _ EK); exact Hg|]. rewrite (e_z _ _ _ _ EK g Hg). exact Hz.
Qed.

Lemma pole_step : forall EM EM0 isz irz EM', (isz < b_nz bs)%nat -> (irz < b_nz br)%nat -> poled EM EM0 ->
  forall ts, get_azm_dip (k_m k) gl (b_arr bs) isz (b_nz bs) srcpts (b_dip bs) st true = Ok ts ->
  (tr <- get_azm_dip (k_m k) gl (b_arr br) irz (b_nz br) recpts (b_dip br) st false ;;
   s <- block k st (b_n br / b_nz br) (b_n bs / b_nz bs) ts tr ;;
   place (b_n br) (b_nz br) (b_n bs) (b_nz bs) isz irz s EM) = Ok EM' ->
  exists EM0', (tr <- get_azm_dip (k_m k) gl (b_arr br) irz (b_nz br) recpts (b_dip br) st false ;;
   s <- block (plain k) st (b_n br / b_nz br) (b_n bs / b_nz bs) ts tr ;;
   place (b_n br) (b_nz br) (b_n bs) (b_nz bs) isz irz s EM0) = Ok EM0' /\ poled EM' EM0'.
Proof using All.
  intros EM EM0 isz irz EM' Hisz Hirz (SE & SE0 & HS) ts Ets H.
  apply bind_ok in H. destruct H as (tr & Etr & H). apply bind_ok in H. destruct H as (A & EA & H).
  rewrite (cnt_div bs Cs), (cnt_div br Cr) in *.
  destruct (depth_layer bs srcpts true Ls isz ts Cs Gs Hisz HLs Ets) as (Ps & Ks).
  destruct (depth_layer br recpts false Lr irz tr Cr Gr Hirz HLr Etr) as (Pr & Kr).
  destruct (depth_any bs isz Cs Hisz) as (s0 & Hs0 & Ds0). destruct (depth_any br irz Cr Hirz) as (r0 & Hr0 & Dr0).
  destruct (block_pole k Hst st _ _ ts tr (Ls s0) (Lr r0) A (Ks s0 Hs0 Ds0) (Kr r0 Hr0 Dr0) EA) as (A0 & EA0 & EQ).
  assert (SA0 : shp nf (cnt (b_n br) (b_nz br) * cnt (b_n bs) (b_nz bs)) A0).
  { unfold block in EA0. apply bind_ok in EA0. destruct EA0 as (S0 & ES & EA0). apply src_fold_shape in ES; try assumption. cbn [plain k_rows] in ES. fold nf in ES.
    destruct (Rltb 0 st); [|injection EA0 as <-; exact ES].
    destruct (Nat.eqb_spec (List.length (np_repeat (cnt (b_n br) (b_nz br)) (t_w ts))) (cnt (b_n br) (b_nz br) * cnt (b_n bs) (b_nz bs))) as [L1|]; [|discriminate].
    destruct (Nat.eqb_spec (List.length (np_tile (cnt (b_n bs) (b_nz bs)) (t_w tr))) (cnt (b_n br) (b_nz br) * cnt (b_n bs) (b_nz bs))) as [L2|]; [|discriminate]. cbn [andb] in EA0. injection EA0 as <-.
    apply scale_cols_shp; [exact ES|]. rewrite map2_length, L1, L2. apply Nat.min_id. }
  assert (SA : shp nf (cnt (b_n br) (b_nz br) * cnt (b_n bs) (b_nz bs)) A). { rewrite EQ. apply scx_shp; [apply scx_shp; [exact SA0|]|]; apply dvec_len. }
  rewrite Etr. cbn [bind]. rewrite EA0. cbn [bind].
  destruct (place_ok nf _ _ _ _ _ _ A A0 EM EM0 EM' _ SA SA0 (eq_trans (proj1 SE0) (eq_sym (proj1 SE))) H) as (EM0' & EP).
  exists EM0'. split; [exact EP|].
  destruct (checked_pos bs Cs) as [Pbs Zs]. destruct (checked_pos br Cr) as [Pbr Zr].
  assert (Bs : (isz < b_n bs)%nat) by lia. assert (Br : (irz < b_n br)%nat) by lia.
  destruct (place_spec nf _ _ _ _ isz irz A EM EM' Bs Br SE SA H) as [SE' PS].
  destruct (place_spec nf _ _ _ _ isz irz A0 EM0 EM0' Bs Br SE0 SA0 EP) as [SE0' PS0].
  split; [exact SE'|]. split; [exact SE0'|]. intros s r Hs Hr. destruct (PS s r Hs Hr) as [PI PO]. destruct (PS0 s r Hs Hr) as [PI0 PO0].
  assert (DEC : (in_depth (b_n bs) (b_nz bs) isz s /\ in_depth (b_n br) (b_nz br) irz r) \/ ~ (in_depth (b_n bs) (b_nz bs) isz s /\ in_depth (b_n br) (b_nz br) irz r)).
  { unfold in_depth. destruct (Nat.eqb (b_n bs) (b_nz bs)), (Nat.eqb (b_n br) (b_nz br)); destruct (Nat.eq_dec s isz), (Nat.eq_dec r irz); tauto. }
  destruct DEC as [[D1 D2]|N].
  - rewrite (PI D1 D2), (PI0 D1 D2).
    destruct (block_pole k Hst st _ _ ts tr (Ls s) (Lr r) A (Ks s Hs D1) (Kr r Hr D2) EA) as (A1 & EA1 & EQ1). rewrite EA0 in EA1. injection EA1 as <-.
    pose proof (pos_cnt (b_n bs) (b_nz bs) s ltac:(lia) Hs) as Q1. pose proof (pos_cnt (b_n br) (b_nz br) r ltac:(lia) Hr) as Q2.
    rewrite EQ1. rewrite (scx_colm _ _ nf (cnt (b_n br) (b_nz br) * cnt (b_n bs) (b_nz bs))); [|apply scx_shp; [exact SA0|apply dvec_len]|nia].
    rewrite (scx_colm _ _ nf (cnt (b_n br) (b_nz br) * cnt (b_n bs) (b_nz bs))); [reflexivity|exact SA0|nia].
  - rewrite (PO N), (PO0 N). now apply HS.
Qed.

Theorem loops_pole : forall EM, bipole_loops k gl srcpts recpts st bs br = Ok EM ->
  exists EM0, bipole_loops (plain k) gl srcpts recpts st bs br = Ok EM0 /\ poled EM EM0.
Proof using All.
  intros EM H. unfold bipole_loops in *. cbn [plain k_m k_rows].
  assert (S0 : poled (mat_zeros nf (b_n br * b_n bs)) (mat_zeros nf (b_n br * b_n bs))).
  { split; [apply shp_zeros|]. split; [apply shp_zeros|]. intros s r Hs Hr. rewrite colm_zeros by (now apply lin_lt). rewrite !scx_zeros by apply dvec_len. reflexivity. }
  fold nf in H |- *. revert H S0. generalize (mat_zeros nf (b_n br * b_n bs)) at 1 2. intros M0. generalize (mat_zeros nf (b_n br * b_n bs)) as N0.
  assert (LI : forall isz, In isz (seq 0 (b_nz bs)) -> (isz < b_nz bs)%nat) by (intros i Hi; apply in_seq in Hi; lia). revert LI.
  generalize (seq 0 (b_nz bs)). intros l. revert M0. induction l as [|isz l IH]; intros M0 LI N0 H S0.
  { injection H as <-. exists N0. split; [reflexivity|exact S0]. }
  cbn [foldM] in *. apply bind_ok in H. destruct H as (M1 & E1 & H). apply bind_ok in E1. destruct E1 as (ts & Ets & E1).
  assert (IN : exists N1, foldM (fun EM irz => tr <- get_azm_dip (k_m k) gl (b_arr br) irz (b_nz br) recpts (b_dip br) st false ;;
          s <- block (plain k) st (b_n br / b_nz br) (b_n bs / b_nz bs) ts tr ;;
          place (b_n br) (b_nz br) (b_n bs) (b_nz bs) isz irz s EM) (seq 0 (b_nz br)) N0 = Ok N1 /\ poled M1 N1).
  { clear H IH. assert (LJ : forall irz, In irz (seq 0 (b_nz br)) -> (irz < b_nz br)%nat) by (intros i Hi; apply in_seq in Hi; lia). revert LJ E1 S0.
    generalize (seq 0 (b_nz br)). intros q. revert M0 N0. induction q as [|irz q IH]; intros M0 N0 LJ E1 S0.
    { injection E1 as <-. exists N0. split; [reflexivity|exact S0]. }
    cbn [foldM] in *. apply bind_ok in E1. destruct E1 as (M2 & E2 & E1).
    destruct (pole_step M0 N0 isz irz M2 (LI isz (or_introl eq_refl)) (LJ irz (or_introl eq_refl)) S0 ts Ets E2) as (N2 & EN & S2).
    rewrite EN. cbn [bind]. apply (IH M2 N2 (fun x Hx => LJ x (or_intror Hx)) E1 S2). }
  destruct IN as (N1 & EN & S1). rewrite Ets. cbn [bind]. rewrite EN. cbn [bind].
  apply (IH M1 (fun x Hx => LI x (or_intror Hx)) N1 H S1).
Qed.
End Loops.

(** ** The routine *)
(** what is asked of a pole: the plain field behind it, and the parameter of its layer *)
Definition plain_pole (mx : mxv) : mxv := match mx with MxB => MxBool true | MxJ => MxBool false | _ => mx end.
Definition pole_density (mx : mxv) (etaH zetaH : list C) (l : nat) : C :=
  match mx with MxB => nth l zetaH (RtoC 0) | MxJ => nth l etaH (RtoC 0) | _ => RtoC 1 end.

Lemma scx_nth : forall x v f c (A : list (list C)), (f < List.length A)%nat -> List.length v = List.length A ->
  (x = XNone -> nth f v (RtoC 0) = RtoC 1) -> nth c (nth f (scx x v A) []) (RtoC 0) = Cmult (nth f v (RtoC 0)) (nth c (nth f A []) (RtoC 0)).
Proof.
  intros x v f c A Hf L H1. assert (G : nth c (nth f (scale_rows v A) []) (RtoC 0) = Cmult (nth f v (RtoC 0)) (nth c (nth f A []) (RtoC 0))).
  { clear H1. unfold scale_rows. revert f v L Hf. induction A as [|a A IH]; intros f [|y v] L Hf; cbn in L, Hf; try lia. rewrite map2_cons. destruct f as [|f].
    - cbn [nth]. clear IH. revert c. induction a as [|b a IHa]; intros [|c]; cbn [map nth]; try ring. apply IHa.
    - cbn [nth]. apply IH; lia. }
  destruct x; [|exact G|exact G]. cbn [scx]. rewrite (H1 eq_refl). ring.
Qed.
Lemma scx_len : forall x v (A : list (list C)), List.length v = List.length A -> List.length (scx x v A) = List.length A.
Proof. intros [| |] v A L; [reflexivity| |]; cbn [scx]; unfold scale_rows; rewrite map2_length, L; apply Nat.min_id. Qed.
Lemma rows_len : forall fo n, List.length (f_etaH fo) = n -> List.length (f_etaV fo) = n -> List.length (f_zetaH fo) = n -> List.length (f_zetaV fo) = n -> List.length (rows_of fo) = n.
Proof. intros fo n A B D E. unfold rows_of. rewrite map_length, !combine_length. lia. Qed.

Section Routine.
Variables (m : mins) (gl : Z -> list R * list R) (hook : hookt) (mk : R -> R -> Z -> Z -> list ext -> Z -> bool -> bool -> hankel)
  (depth : list ext) (q : params) (freq : list R) (msrc mrec : mxv) (srcpts recpts : Z) (st : R) (xdirect : option bool) (lf lo : bool).
Variables (src rec : list ndin) (bs br : bip) (mo : model_out).
Let go ms mr := bipole m gl hook mk src rec depth q freq ms mr srcpts recpts st xdirect lf lo.
Hypothesis Gs : good_rule gl srcpts.
Hypothesis Gr : good_rule gl recpts.
Hypothesis Ps : (0 < sizes src)%nat. Hypothesis Pr : (0 < sizes rec)%nat.
Hypothesis Ws : List.Forall nd_wf src. Hypothesis Wr : List.Forall nd_wf rec.
Hypothesis Es : check_bipole src = Ok bs. Hypothesis Er : check_bipole rec = Ok br.
Hypothesis Em : check_model m depth (q_res q) (q_aniso q) (q_eH q) (q_eV q) (q_mH q) (q_mV q) = Ok mo.
Let fo := apply_hook hook (q_res q) mo (check_frequency m freq (m_res mo) (m_aniso mo) (m_epermH mo) (m_epermV mo) (m_mpermH mo) (m_mpermV mo)).
(** every integration point of pole i in layer L i *)
Definition poles_in (b : bip) (pts : Z) (is_src : bool) (L : nat -> nat) : Prop :=
  forall i T g z, (i < b_n b)%nat -> get_azm_dip m gl (pole_arr b i) 0 1 pts (b_dip b) st is_src = Ok T ->
    (g < t_pts T)%nat -> idx (t_z T) (Z.of_nat g) = Ok z -> get_layer_nr (m_depth mo) [z] = [L i].
Variables (Ls Lr : nat -> nat).
Hypothesis Hs : poles_in bs srcpts true Ls.
Hypothesis Hr : poles_in br recpts false Lr.

Theorem bipole_poles : forall E, go msrc mrec = Ok E ->
  exists E0, go (plain_pole msrc) (plain_pole mrec) = Ok E0 /\ List.length E0 = List.length E /\
  forall f r s, (f < List.length E)%nat -> (r < b_n br)%nat -> (s < b_n bs)%nat -> 
    elt f r s E = Cmult (Cmult (pole_density msrc (r_eH (nth f (rows_of fo) (mkrow [] [] [] []))) (r_zH (nth f (rows_of fo) (mkrow [] [] [] []))) (Ls s))
                               (pole_density mrec (r_eH (nth f (rows_of fo) (mkrow [] [] [] []))) (r_zH (nth f (rows_of fo) (mkrow [] [] [] []))) (Lr r)))
                        (elt f r s E0).
Proof using All.
  intros E H. unfold go, bipole in *. apply bind_ok in H. destruct H as ([[[EM nr] ns] fr] & EA & H). injection H as <-.
  unfold bipole_array in *. rewrite Em in *. cbn [bind] in *. apply bind_ok in EA. destruct EA as ([ms stp] & Ex & EA). rewrite Es in *. cbn [bind] in EA.
  apply bind_ok in EA. destruct EA as ([mr rt] & Ey & EA). rewrite Er in *. cbn [bind] in EA. apply bind_ok in EA. destruct EA as (EM' & EL & EA). injection EA as <- <- <- <-. fold fo in EL |- *.
  set (k := mkSet m mk (m_depth mo) (rows_of fo) (laplace_of freq) (m_full mo) xdirect lf lo ms mr stp rt) in *.
  pose proof (check_bipole_checked _ _ Ps Ws Es) as Cs. pose proof (check_bipole_checked _ _ Pr Wr Er) as Cr.
  assert (NJ : k_st k <> XJ). { cbn. destruct msrc; cbn in Ex; congruence. }
  assert (LL : forall b pts is L, poles_in b pts is L -> pole_in_layer k gl st b pts is L).
  { intros b pts is L HL i T Hi HT g z Hg Hz. unfold layer1. cbn [k k_depth]. rewrite (HL i T g z Hi HT Hg Hz). reflexivity. }
  destruct (loops_pole k gl srcpts recpts st bs br NJ Cs Cr Gs Gr Ls Lr (LL _ _ _ _ Hs) (LL _ _ _ _ Hr) EM' EL) as (EM0 & E0 & S1 & S2 & HS).
  assert (PX : check_mx true (plain_pole msrc) = Ok (ms, XNone) /\ forall row l, density stp row l = pole_density msrc (r_eH row) (r_zH row) l).
  { destruct msrc; cbn in Ex |- *; try discriminate; injection Ex as <- <-; split; reflexivity. }
  assert (PY : check_mx false (plain_pole mrec) = Ok (mr, XNone) /\ forall row l, density rt row l = pole_density mrec (r_eH row) (r_zH row) l).
  { destruct mrec; cbn in Ey |- *; try discriminate; injection Ey as <- <-; split; reflexivity. }
  destruct PX as [PX DX], PY as [PY DY]. rewrite PX. cbn [bind]. rewrite PY. cbn [bind].
  change (mkSet m mk (m_depth mo) (rows_of fo) (laplace_of freq) (m_full mo) xdirect lf lo ms mr XNone XNone) with (plain k). rewrite E0. cbn [bind].
  eexists. split; [reflexivity|]. assert (LR : forall M, List.length (reshapeF (b_n br) (b_n bs) M) = List.length M) by (intros; unfold reshapeF; apply map_length).
  rewrite !LR. split; [now rewrite (proj1 S1), (proj1 S2)|]. intros f r s Hf Hr' Hs'. pose proof (proj1 S1) as N1. pose proof (proj1 S2) as N2. cbn [k k_rows] in N1, N2.
  rewrite !elt_reshape by (assumption || lia). specialize (HS s r Hs' Hr').
  apply (f_equal (fun M => nth 0 (nth f M []) (RtoC 0))) in HS. rewrite colm_nth in HS by lia. cbn [nth] in HS. rewrite HS.
  set (j := (r + b_n br * s)%nat). cbn [k k_rows k_st k_rt].
  assert (LC : List.length (colm j EM0) = List.length (rows_of fo)) by (unfold colm; rewrite map_length; exact N2).
  assert (DV : forall x l, nth f (dvec x (rows_of fo) l) (RtoC 0) = density x (nth f (rows_of fo) (mkrow [] [] [] [])) l).
  { intros x l. unfold dvec. rewrite (nth_indep _ (RtoC 0) (density x (mkrow [] [] [] []) l)) by (rewrite map_length; lia). apply (map_nth (fun row => density x row l)). }
  assert (ON : forall x l, x = XNone -> nth f (dvec x (rows_of fo) l) (RtoC 0) = RtoC 1) by (intros x l ->; rewrite DV; reflexivity).
  rewrite !scx_nth by (rewrite ?scx_len, ?dvec_len; try apply ON; rewrite ?dvec_len; lia).
  rewrite colm_nth by lia. cbn [nth]. rewrite !DV, DX, DY. ring.
Qed.
End Routine.

(** dipoles: the layer of their depth *)
Lemma dipoles_in : forall m gl mo st b pts src, checked b -> b_dip b = true ->
  (forall z, exists l, get_layer_nr (m_depth mo) [z] = [l]) ->
  poles_in m gl st mo b pts src (fun i => nth 0 (get_layer_nr (m_depth mo) [coord (nth 2 (b_arr b) []) i]) 0%nat).
Proof.
  intros m gl mo st b pts src Cb Hd HZ i T g z Hi HT Hg Hz.
  destruct Cb as [x y zz a d n Hn Lx Ly La Ld|x y zz a d n Hn Lx Ly Lz La Ld|segs z0 z1 Hne He|segs z0 z1 Hne L0 L1 He]; try discriminate;
    unfold pole_arr, get_azm_dip in HT; cbn [b_arr b_dip map mapM bind Nat.eqb] in HT |- *; injection HT as <-; cbn [t_pts t_z] in Hg, Hz; assert (g = 0%nat) by lia; subst g;
    cbn in Hz; injection Hz as <-; cbn [nth]; match goal with |- get_layer_nr ?D [?u] = [nth 0 (get_layer_nr _ [?c]) _] => change (get_layer_nr D [c] = [nth 0 (get_layer_nr D [c]) 0%nat]); destruct (HZ c) as [l El]; rewrite El; reflexivity end.
Qed.
