(** The routine bipole: every element of the result is the response of its own source
    and receiver. *)

From Coq Require Import ZArith Reals List Bool String Lia Lra.
From Coquelicot Require Import Coquelicot.
From Verif Require Import PyBase CBase Kernel Utils UtilsLayer UtilsModel UtilsFreq UtilsGeo UtilsSurvey Transform TransformDlf Fullspace Model ModelFem Routines RoutinesThm Bipole BipoleCol BipoleThm BipoleLoop BipolePlace.
Import ListNotations.
Local Open Scope R_scope.
Local Open Scope res_scope.

Ltac neq3 D := destruct D as [D|[D|D]]; [left|right; left|right; right]; let E := fresh in intros E; apply D; lra.

(** ** Checked sources and receivers *)
Lemma checked_dipole : forall x y z a d b, (0 < sizes [x; y; z; a; d])%nat -> List.Forall nd_wf [x; y; z; a; d] ->
  check_bipole [x; y; z; a; d] = Ok b -> checked b.
Proof.
  intros x y z a d b Hn HW H. set (n := sizes [x; y; z; a; d]) in *.
  inversion HW as [|? ? Wx HW1]; subst. inversion HW1 as [|? ? Wy HW2]; subst. inversion HW2 as [|? ? Wz HW3]; subst.
  inversion HW3 as [|? ? Wa HW4]; subst. inversion HW4 as [|? ? Wd HW5]; subst.
  unfold check_bipole in H. change (maxl (map nd_size [x; y; z; a; d])) with n in H.
  destruct (okshape n x && okshape n y && okshape n z) eqn:O.
  2:{ rewrite (chck_dipole_bad _ _ _ _ Wx Wy O) in H. discriminate. }
  apply andb_true_iff in O. destruct O as [O Oz]. apply andb_true_iff in O. destruct O as [Ox Oy].
  rewrite (chck_dipole_ok n x y z Hn Wx Wy Wz Ox Oy Oz) in H. cbn [bind] in H.
  destruct (okshape n a) eqn:Oa; [|rewrite (check_var_bad _ _ Oa) in H; discriminate].
  destruct (check_var_ok n a Wa Oa) as [s4 [E4 L4]]. rewrite E4 in H. cbn [bind] in H.
  destruct (okshape n d) eqn:Od; [|rewrite (check_var_bad _ _ Od) in H; discriminate].
  destruct (check_var_ok n d Wd Od) as [s5 [E5 L5]]. rewrite E5 in H. cbn [bind] in H.
  destruct (check_var_ok n x Wx Ox) as [_ [_ L1]]. destruct (check_var_ok n y Wy Oy) as [_ [_ L2]].
  destruct (check_var_ok n z Wz Oz) as [_ [_ L3]].
  pose proof (depths_length (nd_data z) n Hn L3) as Lz. set (z' := depths (nd_data z)) in *. clearbody z'.
  rewrite (expand_length (nd_data x) n L1) in H. injection H as <-.
  destruct (Nat.ltb_spec 1 (List.length z')) as [B|B]; cbn [andb].
  - destruct Lz as [Lz|[Lz _]]; [lia|]. rewrite Lz in B |- *. apply ck_dipn; try assumption; try (apply expand_length; assumption).
    + destruct (Nat.eqb_spec (List.length (nd_data a)) 1); [apply expand_length; auto|lia].
    + destruct (Nat.eqb_spec (List.length (nd_data d)) 1); [apply expand_length; auto|lia].
  - assert (L : List.length z' = 1%nat) by (destruct Lz as [Lz|[Lz _]]; lia).
    destruct z' as [|z0 [|? ?]]; try discriminate. cbn [List.length]. apply ck_dip1; try assumption; apply expand_length; assumption.
Qed.

Lemma map_nth_seq : forall (l : list R) n, List.length l = n -> map (fun i => nth i l 0) (seq 0 n) = l.
Proof.
  intros l n L. apply (nth_ext _ _ 0 0); rewrite map_length, seq_length; [auto|]. intros i Hi.
  match goal with |- nth i (map ?F _) 0 = _ => rewrite (nth_indep _ 0 (F 0%nat)) by (now rewrite map_length, seq_length); rewrite (map_nth F) end.
  now rewrite seq_nth.
Qed.

Lemma checked_bipole : forall x0 x1 y0 y1 z0 z1 b, (0 < sizes [x0; x1; y0; y1; z0; z1])%nat -> List.Forall nd_wf [x0; x1; y0; y1; z0; z1] ->
  check_bipole [x0; x1; y0; y1; z0; z1] = Ok b -> checked b.
Proof.
  intros x0 x1 y0 y1 z0 z1 b Hn HW H. pose proof (survey_bipole x0 x1 y0 y1 z0 z1) as Sv. cbv zeta in Sv. specialize (Sv Hn HW).
  set (n := sizes [x0; x1; y0; y1; z0; z1]) in *.
  destruct (forallb (okshape n) [x0; x1; y0; y1; z0; z1]); [|congruence].
  destruct Sv as (a0 & a1 & c0 & c1 & d0 & d1 & (La0 & La1 & Lc0 & Lc1) & Lz & _ & G1 & G2).
  assert (D : forall i, (i < n)%nat -> nth i a0 0 <> nth i a1 0 \/ nth i c0 0 <> nth i c1 0 \/ coord d0 i <> coord d1 i).
  { intros i Hi. destruct (Req_dec (nth i a0 0) (nth i a1 0)) as [E1|]; [|now left]. destruct (Req_dec (nth i c0 0) (nth i c1 0)) as [E2|]; [|right; now left].
    destruct (Req_dec (coord d0 i) (coord d1 i)) as [E3|]; [|right; now right]. exfalso. rewrite G2 in H; [discriminate|]. exists i. auto. }
  rewrite (G1 D) in H. injection H as <-.
  set (segs := map (fun i => {| g_x0 := nth i a0 0; g_x1 := nth i a1 0; g_y0 := nth i c0 0; g_y1 := nth i c1 0 |}) (seq 0 n)).
  assert (LS : List.length segs = n) by (unfold segs; now rewrite map_length, seq_length).
  assert (M0 : map g_x0 segs = a0) by (unfold segs; rewrite map_map; cbn [g_x0]; now apply map_nth_seq).
  assert (M1 : map g_x1 segs = a1) by (unfold segs; rewrite map_map; cbn [g_x1]; now apply map_nth_seq).
  assert (M2 : map g_y0 segs = c0) by (unfold segs; rewrite map_map; cbn [g_y0]; now apply map_nth_seq).
  assert (M3 : map g_y1 segs = c1) by (unfold segs; rewrite map_map; cbn [g_y1]; now apply map_nth_seq).
  assert (NS : forall i, (i < n)%nat -> nth i segs d_seg = {| g_x0 := nth i a0 0; g_x1 := nth i a1 0; g_y0 := nth i c0 0; g_y1 := nth i c1 0 |}).
  { intros i Hi. unfold segs. match goal with |- nth i (map ?F _) _ = _ => rewrite (nth_indep _ _ (F 0%nat)) by (now rewrite map_length, seq_length); rewrite (map_nth F) end. now rewrite seq_nth. }
  clearbody segs. clear G1 G2 HW. clearbody n.
  rewrite <- M0, <- M1, <- M2, <- M3. rewrite <- LS.
  destruct Lz as [[Z0 Z1]|[Z0 Z1]].
  - destruct d0 as [|zz0 [|? ?]]; try discriminate. destruct d1 as [|zz1 [|? ?]]; try discriminate. cbn [List.length].
    apply ck_bip1; [intros E; rewrite E in LS; cbn in LS; lia|]. intros s Hs. destruct (In_nth _ _ d_seg Hs) as (i & Hi & <-). rewrite LS in Hi.
    rewrite (NS i Hi). unfold distinct. cbn [g_x0 g_x1 g_y0 g_y1]. specialize (D i Hi). cbn [coord] in D. neq3 D.
  - destruct (Nat.eq_dec n 1) as [E|E].
    + rewrite E in *. destruct d0 as [|zz0 [|? ?]]; try discriminate. destruct d1 as [|zz1 [|? ?]]; try discriminate. cbn [List.length].
      apply ck_bip1; [intros E'; rewrite E' in LS; cbn in LS; lia|]. intros s Hs. destruct (In_nth _ _ d_seg Hs) as (i & Hi & <-). rewrite LS in Hi.
      rewrite (NS i Hi). unfold distinct. cbn [g_x0 g_x1 g_y0 g_y1]. specialize (D i Hi). cbn [coord] in D. neq3 D.
    + rewrite Z0. rewrite <- LS. apply ck_bipn; try lia. intros i Hi. rewrite LS in Hi. fold d_seg. rewrite (NS i Hi). unfold distinct. cbn [g_x0 g_x1 g_y0 g_y1].
      specialize (D i Hi). rewrite (coord_nth d0 n i Z0 Hi), (coord_nth d1 n i Z1 Hi) in D. neq3 D.
Qed.

Theorem check_bipole_checked : forall inp b, (0 < sizes inp)%nat -> List.Forall nd_wf inp -> check_bipole inp = Ok b -> checked b.
Proof.
  intros inp b Hn HW H. destruct (Nat.eq_dec (List.length inp) 5) as [E5|N5]; [|destruct (Nat.eq_dec (List.length inp) 6) as [E6|N6]].
  - destruct inp as [|x [|y [|z [|a [|d [|? ?]]]]]]; try discriminate. apply (checked_dipole x y z a d b Hn HW H).
  - destruct inp as [|x [|y [|z [|a [|d [|e [|? ?]]]]]]]; try discriminate. apply (checked_bipole x y z a d e b Hn HW H).
  - rewrite survey_wrong_length in H by assumption. discriminate.
Qed.

(** the pole given as numbers *)
Lemma scalar_var : forall v, check_var (Nd [] [v]) [1%nat] [1%nat] = Ok ([1%nat], [v]).
Proof. reflexivity. Qed.
Lemma scalar_dipole : forall x y z, chck_dipole 1 (Nd [] [x]) (Nd [] [y]) (Nd [] [z]) = Ok ([x], [y], [z]).
Proof.
  intros x y z. rewrite chck_dipole_ok; try (repeat constructor; fail); try reflexivity.
  cbn [nd_data bcast repeat depths]. cbn [forallb]. rewrite isclose_00. reflexivity.
Qed.
Lemma check_pole : forall b i, checked b -> (i < b_n b)%nat -> check_bipole (pole_in b i) = Ok (pole b i).
Proof.
  intros b i Cb Hi. pose proof (pole_checked b i Cb Hi) as Cp.
  unfold pole_in, pole, pole_arr in *. destruct Cb as [x y z a d n Hn Lx Ly La Ld|x y z a d n Hn Lx Ly Lz La Ld|segs z0 z1 Hne Hd|segs z0 z1 Hne L0 L1 Hd]; cbn [b_nz b_n b_arr b_dip map] in *.
  1,2: unfold check_bipole; cbn [map nd_size maxl]; change (maxl _) with 1%nat; rewrite scalar_dipole; cbn [bind]; rewrite !scalar_var; reflexivity.
  all: unfold check_bipole; change (maxl _) with 1%nat; rewrite !scalar_dipole; cbn [bind List.length Nat.ltb Nat.leb andb].
  all: inversion Cp as [| |sg w0 w1 Hsg Hdd E|sg w0 w1 Hsg ? ? ? E]; try (rewrite <- E in *; cbn in *; lia).
  all: destruct sg as [|sg [|? ?]]; try discriminate; cbn [map] in *.
  all: specialize (Hdd sg (or_introl eq_refl)); unfold distinct in Hdd.
  all: cbn [neq_bc bcast repeat map2 combine map forallb fst snd].
  all: unfold neq_bc, map2; cbn [List.length bcast repeat combine map fst snd forallb].
  all: match goal with |- (if negb (?c && true)%bool then _ else _) = _ => replace c with true; [reflexivity|] end.
  all: symmetry; apply orb_true_iff; rewrite orb_true_iff, !negb_true_iff.
  all: assert (RN : forall u v : R, u <> v -> Reqb u v = false) by (intros u v N; unfold Reqb; destruct (Req_EM_T u v); [contradiction|reflexivity]).
  all: destruct Hdd as [Hdd|[Hdd|Hdd]]; [left; left|left; right|right]; apply RN; intros E'; apply Hdd; cbn [coord] in *; lra.
Qed.

(** azimuth and dip of pole number i *)
Definition pole_angles (b : bip) (i : nat) : R * R :=
  match b_arr b with
  | [_; _; _; a; d] => (deg2rad (coord a i), deg2rad (coord d i))
  | [x0; x1; y0; y1; z0; z1] =>
      (bip_azm (coord x1 i - coord x0 i) (coord y1 i - coord y0 i),
       bip_dip (coord x1 i - coord x0 i) (coord y1 i - coord y0 i) (coord z1 i - coord z0 i))
  | _ => (0, 0)
  end.
(** both angles are exact multiples of 90 degrees, or not taken for one *)
Definition clean_pole (b : bip) (i : nat) : Prop := clean (fst (pole_angles b i)) /\ clean (snd (pole_angles b i)).

Lemma pole_angles_ok : forall m gl b i k strength src T, checked b -> (i < b_n b)%nat ->
  get_azm_dip m gl (pole_arr b i) 0 1 k (b_dip b) strength src = Ok T ->
  t_azm T = [fst (pole_angles b i)] /\ t_dip T = [snd (pole_angles b i)].
Proof.
  intros m gl b i k strength src T Cb Hi H. pose proof (pole_checked b i Cb Hi) as Cp. unfold pole, pole_arr in *.
  destruct Cb as [x y z a d n Hn Lx Ly La Ld|x y z a d n Hn Lx Ly Lz La Ld|segs z0 z1 Hne Hd|segs z0 z1 Hne L0 L1 Hd]; cbn [b_nz b_n b_arr b_dip map pole_angles] in *.
  1,2: apply (f_equal (fun r => match r with Ok v => v | Err _ => T end)) in H; cbn [get_azm_dip mapM bind Nat.eqb] in H; subst T; split; reflexivity.
  - clear Cp. unfold pole_angles. cbn [b_arr]. rewrite !(coord_map _ segs i d_seg) in * by assumption. cbn [coord] in *.
    pose proof (bipole_discretisation m gl [nth i segs d_seg] z0 z1 k strength src ltac:(discriminate)) as B.
    specialize (B ltac:(intros s [<-|[]]; apply Hd, nth_In; assumption)). cbn [map] in B. rewrite B in H. injection H as <-. split; reflexivity.
  - clear Cp. unfold pole_angles. cbn [b_arr]. rewrite !(coord_map _ segs i d_seg) in * by assumption.
    rewrite (coord_nth z0 _ i L0 Hi), (coord_nth z1 _ i L1 Hi) in *.
    pose proof (bipole_discretisation m gl [nth i segs d_seg] (nth i z0 0) (nth i z1 0) k strength src ltac:(discriminate)) as B.
    specialize (B ltac:(intros s [<-|[]]; apply Hd; assumption)). cbn [map] in B. rewrite B in H. injection H as <-. split; reflexivity.
Qed.

(** ** The loops *)
Lemma cnt_div : forall b, checked b -> (b_n b / b_nz b)%nat = cnt (b_n b) (b_nz b).
Proof.
  intros b Cb. destruct (checked_pos b Cb) as [P Z]. unfold cnt. destruct (Nat.eqb_spec (b_n b) (b_nz b)) as [E|E].
  - rewrite <- E. apply Nat.div_same. lia.
  - destruct Z as [Z|Z]; [|congruence]. rewrite Z. apply Nat.div_1_r.
Qed.
Lemma pos_cnt : forall n nz i, (0 < n)%nat -> (i < n)%nat -> (pos n nz i < cnt n nz)%nat.
Proof. intros n nz i Hn Hi. unfold pos, cnt. destruct (Nat.eqb n nz); lia. Qed.
Lemma depth_any : forall b iz, checked b -> (iz < b_nz b)%nat -> exists i, (i < b_n b)%nat /\ in_depth (b_n b) (b_nz b) iz i.
Proof.
  intros b iz Cb H. destruct (checked_pos b Cb) as [P Z]. unfold in_depth. destruct (Nat.eqb_spec (b_n b) (b_nz b)) as [E|E].
  - exists iz. split; [lia|reflexivity].
  - exists 0%nat. split; [assumption|exact I].
Qed.

Section Loops.
Variables (k : setting) (gl : Z -> list R * list R) (srcpts recpts : Z) (strength : R) (bs br : bip) (valid : frow -> Prop) (nf : nat).
Hypothesis Hnf : List.length (k_rows k) = nf.
Hypothesis Hrows : k_rows k <> [].
Hypothesis Hvalid : forall r, In r (k_rows k) -> valid r.
Hypothesis Hoff : 0 < min_off (k_m k).
Hypothesis Hcol : forall zs zr ls lr ab, layer1 (k_depth k) zs = Ok ls -> layer1 (k_depth k) zr = Ok lr ->
  entry (k_ms k) (k_mr k) ab -> ab <> 36%Z ->
  columnwise valid (k_mk k zs zr ls lr (k_depth k) ab (k_ms k) (k_mr k)) (xd_of (k_xd k)).
Hypothesis Cs : checked bs.
Hypothesis Cr : checked br.
Hypothesis Gs : good_rule gl srcpts.
Hypothesis Gr : good_rule gl recpts.
Hypothesis Ks : forall s, (s < b_n bs)%nat -> clean_pole bs s.
Hypothesis Kr : forall r, (r < b_n br)%nat -> clean_pole br r.

(** result for source s and receiver r alone *)
Definition single (s r : nat) (X : list (list C)) : Prop :=
  exists Ts Tr, get_azm_dip (k_m k) gl (pole_arr bs s) 0 1 srcpts (b_dip bs) strength true = Ok Ts /\
    get_azm_dip (k_m k) gl (pole_arr br r) 0 1 recpts (b_dip br) strength false = Ok Tr /\
    block k strength 1 1 Ts Tr = Ok X.

Definition good (D : nat -> nat -> Prop) (EM : list (list C)) : Prop :=
  shp nf (b_n br * b_n bs) EM /\
  forall s r, (s < b_n bs)%nat -> (r < b_n br)%nat -> D s r -> single s r (colm (r + b_n br * s) EM).

Lemma step_good : forall D EM isz irz EM', (isz < b_nz bs)%nat -> (irz < b_nz br)%nat -> good D EM ->
  forall ts, get_azm_dip (k_m k) gl (b_arr bs) isz (b_nz bs) srcpts (b_dip bs) strength true = Ok ts ->
  (tr <- get_azm_dip (k_m k) gl (b_arr br) irz (b_nz br) recpts (b_dip br) strength false ;;
   s <- block k strength (b_n br / b_nz br) (b_n bs / b_nz bs) ts tr ;;
   place (b_n br) (b_nz br) (b_n bs) (b_nz bs) isz irz s EM) = Ok EM' ->
  good (fun s r => D s r \/ in_depth (b_n bs) (b_nz bs) isz s /\ in_depth (b_n br) (b_nz br) irz r) EM'.
Proof using All.
  intros D EM isz irz EM' Hisz Hirz [SE GE] ts Ets H.
  apply bind_ok in H. destruct H as (tr & Etr & H). apply bind_ok in H. destruct H as (A & EA & H).
  rewrite (cnt_div bs Cs), (cnt_div br Cr) in EA.
  destruct (checked_pos bs Cs) as [Ps Zs]. destruct (checked_pos br Cr) as [Pr Zr].
  assert (COL : forall s r, (s < b_n bs)%nat -> (r < b_n br)%nat -> in_depth (b_n bs) (b_nz bs) isz s -> in_depth (b_n br) (b_nz br) irz r ->
    shp nf (cnt (b_n br) (b_nz br) * cnt (b_n bs) (b_nz bs)) A /\
    single s r (colm (pos (b_n bs) (b_nz bs) s * cnt (b_n br) (b_nz br) + pos (b_n br) (b_nz br) r) A)).
  { intros s r Hs Hr Ds Dr.
    destruct (elem_depth (k_m k) gl bs srcpts strength true isz s Cs Gs Hs Hisz Ds) as (T & T1 & ET & ET1 & EL). rewrite Ets in ET. injection ET as <-.
    destruct (elem_depth (k_m k) gl br recpts strength false irz r Cr Gr Hr Hirz Dr) as (U & U1 & EU & EU1 & EK). rewrite Etr in EU. injection EU as <-.
    destruct (pole_angles_ok _ _ _ _ _ _ _ _ Cs Hs ET1) as [As1 As2]. destruct (pole_angles_ok _ _ _ _ _ _ _ _ Cr Hr EU1) as [Ar1 Ar2].
    rewrite (e_azm _ _ _ _ EL) in As1. rewrite (e_dip _ _ _ _ EL) in As2. rewrite (e_azm _ _ _ _ EK) in Ar1. rewrite (e_dip _ _ _ _ EK) in Ar2.
    injection As1 as As1. injection As2 as As2. injection Ar1 as Ar1. injection Ar2 as Ar2.
    destruct (Ks s Hs) as [K1 K2]. destruct (Kr r Hr) as [K3 K4]. rewrite <- As1 in K1. rewrite <- As2 in K2. rewrite <- Ar1 in K3. rewrite <- Ar2 in K4.
    pose proof (pos_cnt (b_n bs) (b_nz bs) s Ps Hs) as P1. pose proof (pos_cnt (b_n br) (b_nz br) r Pr Hr) as P2.
    destruct (block_column k valid nf Hnf Hrows Hvalid Hoff Hcol _ _ _ _ ts tr T1 U1 P1 P2 EL EK K1 K2 K3 K4 strength A EA) as [SA EB].
    split; [exact SA|]. exists T1, U1. split; [assumption|]. split; assumption. }
  destruct (depth_any bs isz Cs Hisz) as (s0 & Hs0 & Ds0). destruct (depth_any br irz Cr Hirz) as (r0 & Hr0 & Dr0).
  destruct (COL s0 r0 Hs0 Hr0 Ds0 Dr0) as [SA _].
  assert (Bs : (isz < b_n bs)%nat) by lia. assert (Br : (irz < b_n br)%nat) by lia.
  destruct (place_spec nf _ _ _ _ isz irz A EM EM' Bs Br SE SA H) as [SE' PS].
  split; [assumption|]. intros s r Hs Hr Hd. destruct (PS s r Hs Hr) as [PI PO].
  assert (DEC : (in_depth (b_n bs) (b_nz bs) isz s /\ in_depth (b_n br) (b_nz br) irz r) \/ ~ (in_depth (b_n bs) (b_nz bs) isz s /\ in_depth (b_n br) (b_nz br) irz r)).
  { unfold in_depth. destruct (Nat.eqb (b_n bs) (b_nz bs)), (Nat.eqb (b_n br) (b_nz br)); destruct (Nat.eq_dec s isz), (Nat.eq_dec r irz); tauto. }
  destruct DEC as [[D1 D2]|N].
  - rewrite (PI D1 D2). apply (COL s r Hs Hr D1 D2).
  - rewrite (PO N). apply GE; try assumption. tauto.
Qed.

Lemma good_weaken : forall (D D' : nat -> nat -> Prop) EM, (forall s r, D' s r -> D s r) -> good D EM -> good D' EM.
Proof. intros D D' EM H [S G]. split; [assumption|]. intros. apply G; auto. Qed.

Lemma inner_good : forall ts isz, (isz < b_nz bs)%nat ->
  get_azm_dip (k_m k) gl (b_arr bs) isz (b_nz bs) srcpts (b_dip bs) strength true = Ok ts ->
  forall l D EM EM', (forall i, In i l -> (i < b_nz br)%nat) -> good D EM ->
  foldM (fun EM irz => tr <- get_azm_dip (k_m k) gl (b_arr br) irz (b_nz br) recpts (b_dip br) strength false ;;
          s <- block k strength (b_n br / b_nz br) (b_n bs / b_nz bs) ts tr ;;
          place (b_n br) (b_nz br) (b_n bs) (b_nz bs) isz irz s EM) l EM = Ok EM' ->
  good (fun s r => D s r \/ in_depth (b_n bs) (b_nz bs) isz s /\ exists irz, In irz l /\ in_depth (b_n br) (b_nz br) irz r) EM'.
Proof using All.
  intros ts isz Hisz Ets. induction l as [|irz l IH]; intros D EM EM' Hl G H; cbn [foldM] in H.
  - injection H as <-. apply (good_weaken D); [|assumption]. intros s r [Hd|[_ [i [[] _]]]]; assumption.
  - apply bind_ok in H. destruct H as (E1 & F1 & H).
    pose proof (step_good D EM isz irz E1 Hisz (Hl irz (or_introl eq_refl)) G ts Ets F1) as G1.
    pose proof (IH _ E1 EM' (fun i Hi => Hl i (or_intror Hi)) G1 H) as G2.
    eapply good_weaken; [|exact G2]. intros s r [Hd|[D1 [i [[<-|Hi] D2]]]].
    + left. left. assumption.
    + left. right. split; assumption.
    + right. split; [assumption|]. exists i. split; assumption.
Qed.

Lemma outer_good : forall l D EM EM', (forall i, In i l -> (i < b_nz bs)%nat) -> good D EM ->
  foldM (fun EM isz =>
      ts <- get_azm_dip (k_m k) gl (b_arr bs) isz (b_nz bs) srcpts (b_dip bs) strength true ;;
      foldM (fun EM irz =>
          tr <- get_azm_dip (k_m k) gl (b_arr br) irz (b_nz br) recpts (b_dip br) strength false ;;
          s <- block k strength (b_n br / b_nz br) (b_n bs / b_nz bs) ts tr ;;
          place (b_n br) (b_nz br) (b_n bs) (b_nz bs) isz irz s EM)
        (seq 0 (b_nz br)) EM) l EM = Ok EM' ->
  good (fun s r => D s r \/ exists isz, In isz l /\ in_depth (b_n bs) (b_nz bs) isz s) EM'.
Proof using All.
  induction l as [|isz l IH]; intros D EM EM' Hl G H; cbn [foldM] in H.
  - injection H as <-. apply (good_weaken D); [|assumption]. intros s r [Hd|[i [[] _]]]; assumption.
  - apply bind_ok in H. destruct H as (E1 & F1 & H). apply bind_ok in F1. destruct F1 as (ts & Ets & F1).
    pose proof (inner_good ts isz (Hl isz (or_introl eq_refl)) Ets (seq 0 (b_nz br)) D EM E1 ltac:(intros i Hi; apply in_seq in Hi; lia) G F1) as G1.
    pose proof (IH _ E1 EM' (fun i Hi => Hl i (or_intror Hi)) G1 H) as G2.
    destruct (checked_pos br Cr) as [Pr Zr].
    assert (ALL : forall r, (r < b_n br)%nat -> exists irz, In irz (seq 0 (b_nz br)) /\ in_depth (b_n br) (b_nz br) irz r).
    { intros r Hr. unfold in_depth. destruct (Nat.eqb_spec (b_n br) (b_nz br)) as [E|E].
      - exists r. split; [apply in_seq; lia|reflexivity].
      - exists 0%nat. split; [apply in_seq; lia|exact I]. }
    destruct G2 as [S2 G2]. split; [assumption|]. intros s r Hs Hr [Hd|[i [[<-|Hi] D1]]]; apply G2; try assumption.
    + left. left. assumption.
    + left. right. split; [assumption|]. apply ALL. assumption.
    + right. exists i. split; assumption.
Qed.

Lemma map2_cons : forall {A B D} (f : A -> B -> D) a l b m, map2 f (a :: l) (b :: m) = f a b :: map2 f l m.
Proof. reflexivity. Qed.
Lemma set_single : forall X n, shp n 1 X -> place 1 1 1 1 0 0 X (mat_zeros n (1 * 1)) = Ok X.
Proof.
  intros X n [L W]. unfold place. cbn [Nat.eqb Nat.mul Nat.add slice seq Nat.sub filter Nat.modulo Nat.divmod fst snd].
  unfold set_cols. cbn [List.length]. unfold mat_zeros at 1. rewrite repeat_length, L, Nat.eqb_refl. cbn [andb].
  assert (F : forallb (fun row : list C => Nat.eqb (List.length row) 1) X = true) by (apply forallb_forall; intros r Hr; apply Nat.eqb_eq; auto).
  rewrite F. f_equal. clear F. subst n. unfold mat_zeros. induction X as [|r X IH]; [reflexivity|].
  cbn [List.length repeat]. rewrite map2_cons. f_equal; [|apply IH; intros; apply W; now right].
  pose proof (W r (or_introl eq_refl)) as Lr. destruct r as [|x [|? ?]]; try discriminate. reflexivity.
Qed.

Theorem loops_elementwise : forall EM, bipole_loops k gl srcpts recpts strength bs br = Ok EM ->
  shp nf (b_n br * b_n bs) EM /\
  forall s r, (s < b_n bs)%nat -> (r < b_n br)%nat ->
    bipole_loops k gl srcpts recpts strength (pole bs s) (pole br r) = Ok (colm (r + b_n br * s) EM).
Proof using All.
  intros EM H. unfold bipole_loops in H. rewrite Hnf in H.
  assert (G0 : good (fun _ _ => False) (mat_zeros nf (b_n br * b_n bs))) by (split; [apply shp_zeros|intros; contradiction]).
  pose proof (outer_good (seq 0 (b_nz bs)) _ _ EM ltac:(intros i Hi; apply in_seq in Hi; lia) G0 H) as [S1 G1].
  split; [assumption|]. intros s r Hs Hr. destruct (checked_pos bs Cs) as [Ps Zs].
  destruct (G1 s r Hs Hr) as (Ts & Tr & E1 & E2 & EB).
  { right. unfold in_depth. destruct (Nat.eqb_spec (b_n bs) (b_nz bs)) as [E|E].
    - exists s. split; [apply in_seq; lia|reflexivity].
    - exists 0%nat. split; [apply in_seq; lia|exact I]. }
  unfold bipole_loops, pole. cbn [b_n b_nz b_arr b_dip]. change (1 / 1)%nat with 1%nat. cbn [seq foldM].
  rewrite E1. cbn [bind]. rewrite E2. cbn [bind]. rewrite EB. cbn [bind]. rewrite Hnf.
  rewrite set_single by (eapply shp_colm; eassumption). reflexivity.
Qed.
End Loops.
