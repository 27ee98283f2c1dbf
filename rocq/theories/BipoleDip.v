(** The routine bipole against the routine dipole. *)

From Coq Require Import ZArith QArith Reals List Bool String Lia Lra.
From Coquelicot Require Import Coquelicot.
From Verif Require Import PyBase CBase Kernel Utils UtilsAb UtilsLayer UtilsModel UtilsFreq UtilsGeo UtilsSurvey Transform TransformDlf Fullspace Model ModelFem Routines RoutinesThm Bipole BipoleCol BipoleThm BipoleLoop BipolePlace BipoleMain BipoleFinal BipoleStrength.
Import ListNotations.
Local Open Scope R_scope.
Local Open Scope res_scope.

(** the code the user gives to dipole for receiver direction r and source direction s *)
Definition code (ms mr : bool) (r s : Z) : Z := (10 * (r + (if mr then 3 else 0)) + (s + (if ms then 3 else 0)))%Z.

Lemma keep_some : forall A D, exists k, (1 <= k <= 3)%Z /\ keep_dir A D k = true.
Proof.
  intros A D. unfold keep_dir.
  destruct (axis_of A) as [[|[p|p|]|p]|], (axis_of D) as [[|[q|q|]|q]|];
    try (exists 3%Z; split; [lia|reflexivity]); try (exists 2%Z; split; [lia|reflexivity]); try (exists 1%Z; split; [lia|reflexivity]).
Qed.

Section Dip.
Variables (m : mins) (gl : Z -> list R * list R) (hook : hookt) (mk : R -> R -> Z -> Z -> list ext -> Z -> bool -> bool -> hankel)
  (depth : list ext) (q : params) (freq : list R) (ms mr : bool) (srcpts recpts : Z) (xdirect : option bool) (lf lo : bool).
Variables (x y z az di x' y' z' az' di' : R).
Let nd v := Nd [] [v].
Let src3 := [nd x; nd y; nd z]. Let rec3 := [nd x'; nd y'; nd z'].
Let src5 := [nd x; nd y; nd z; nd az; nd di]. Let rec5 := [nd x'; nd y'; nd z'; nd az'; nd di'].
Let dip ab := dipole m hook mk src3 rec3 depth q freq (AbNum (inject_Z ab)) xdirect lf lo.
Let bip := bipole m gl hook mk src5 rec5 depth q freq (MxBool ms) (MxBool mr) srcpts recpts 0 xdirect lf lo.
Let a := deg2rad az. Let d := deg2rad di. Let a' := deg2rad az'. Let d' := deg2rad di'.
Let abs := get_abs ms mr [a] [d] [a'] [d'].

Variable D : Z -> list (list C).
Hypothesis HD : forall r s, (1 <= r <= 3)%Z -> (1 <= s <= 3)%Z -> In (ab_entry ms mr r s) abs ->
  dip (code ms mr r s) = Ok (D (ab_entry ms mr r s), 1%nat, 1%nat).

Definition value (f : nat) : C := ab_response m ms mr [a] [d] [a'] [d'] a d a' d' (fun ab => nth 0 (nth f (D ab) []) (RtoC 0)).

Lemma some_abs : exists r s, (1 <= r <= 3)%Z /\ (1 <= s <= 3)%Z /\ In (ab_entry ms mr r s) abs.
Proof.
  destruct (keep_some [a'] [d']) as (r & Hr & Kr). destruct (keep_some [a] [d]) as (s & Hs & Ks). exists r, s. split; [assumption|]. split; [assumption|].
  unfold abs. rewrite get_abs_pairs. apply in_flat_map. exists (r, s). cbn [fst snd]. rewrite Kr, Ks. split; [|now left].
  unfold pairs9, dirs. destruct (dir123 r Hr) as [-> | [-> | ->]]; destruct (dir123 s Hs) as [-> | [-> | ->]]; cbn; tauto.
Qed.

Lemma one_col : forall n M, shp n 1 M -> M = map (fun row => [nth 0 row (RtoC 0)]) M.
Proof.
  intros n M [_ W]. induction M as [|r M IH]; [reflexivity|]. cbn [map]. rewrite <- IH by (intros; apply W; now right).
  f_equal. pose proof (W r (or_introl eq_refl)) as L. destruct r as [|c [|? ?]]; try discriminate. reflexivity.
Qed.

Lemma unit_add : forall n M, shp n 1 M -> mat_add (mat_zeros n 1) (scale_mat 1 M) = M.
Proof.
  intros n M [L W]. unfold mat_zeros, czeros. revert M L W. induction n as [|n IH]; intros [|r M] L W; try discriminate; [reflexivity|].
  cbn [repeat scale_mat map]. rewrite mat_add_cons. f_equal; [|apply IH; [now injection L|intros; apply W; now right]].
  pose proof (W r (or_introl eq_refl)) as Lr. destruct r as [|c [|? ?]]; try discriminate. cbn [map]. rewrite vadd_one. f_equal. ring.
Qed.

Theorem bipole_dipole : exists E, bip = Ok E /\ (forall ab, In ab abs -> List.length (D ab) = List.length E) /\
  forall f, (f < List.length E)%nat -> nth f E [] = [[value f]].
Proof using All.
  destruct some_abs as (r0 & s0 & Hr0 & Hs0 & I0).
  pose proof (HD r0 s0 Hr0 Hs0 I0) as H11. unfold dip, dipole in H11.
  apply bind_ok in H11. destruct H11 as (mo & Em & H11).
  set (fo := apply_hook _ _ _ _) in H11.
  unfold code in H11. rewrite (ab_entry_check ms mr r0 s0 Hr0 Hs0) in H11. cbn [bind] in H11.
  set (off := fst (get_off_ang m [x] [y] [x'] [y'])). set (angle := snd (get_off_ang m [x] [y] [x'] [y'])).
  assert (GE : geometry m src3 rec3 = Ok (off, angle, z, z', 1%nat, 1%nat)) by reflexivity.
  rewrite GE in H11. cbn [bind] in H11.
  apply bind_ok in H11. destruct H11 as (ls & Els & H11). apply bind_ok in H11. destruct H11 as (lr & Elr & _).
  set (nf := List.length (rows_of fo)).
  assert (FE : forall ab, In ab abs -> shp nf 1 (D ab) /\ exists kc cv,
     fem (laplace_of freq) (mk z z' ls lr (m_depth mo) ab ms mr) ab off angle z z' ls lr
         (rows_of fo) xdirect (m_full mo) ms mr lf lo true = Ok (D ab, kc, cv)).
  { intros ab Ha. destruct (abs_entries _ _ _ _ _ _ _ Ha) as (r & s & Hr & Hs & ->).
    pose proof (HD r s Hr Hs Ha) as H. unfold dip, dipole in H. rewrite Em in H. cbn [bind] in H. fold fo in H.
    unfold code in H. rewrite (ab_entry_check ms mr r s Hr Hs) in H. cbn [bind] in H. rewrite GE in H. cbn [bind] in H. rewrite Els in H. cbn [bind] in H. rewrite Elr in H. cbn [bind] in H.
    apply bind_ok in H. destruct H as ([[EM kc] cv] & EF & H).
    apply (f_equal (fun r => match r with Ok v => fst (fst v) | Err _ => [] end)) in H. cbn [fst] in H. subst EM.
    split; [|eauto]. apply fem_shape in EF; [|reflexivity]. exact EF. }
  clear HD I0.
  set (K := mkSet m mk (m_depth mo) (rows_of fo) (laplace_of freq) (m_full mo) xdirect lf lo ms mr XNone XNone).
  set (bsrc := {| b_arr := [[x]; [y]; [z]; [az]; [di]]; b_n := 1; b_nz := 1; b_dip := true |}).
  set (brec := {| b_arr := [[x']; [y']; [z']; [az']; [di']]; b_n := 1; b_nz := 1; b_dip := true |}).
  set (g := fun ab => geo_fact1 m ab a d a' d' ms mr).
  set (val := fun f => csum (map (fun ab => Cmult (RtoC (g ab)) (nth 0 (nth f (D ab) []) (RtoC 0))) abs)).
  assert (LOOP : exists M, ab_loop K 1 1 {| t_x := [x]; t_y := [y]; t_z := [z]; t_azm := [a]; t_dip := [d]; t_gw := [1]; t_pts := 1; t_w := [1] |}
      {| t_x := [x']; t_y := [y']; t_z := [z']; t_azm := [a']; t_dip := [d']; t_gw := [1]; t_pts := 1; t_w := [1] |} off angle z z' ls lr abs = Ok M /\
      M = map (fun f => [val f]) (seq 0 nf)).
  { unfold ab_loop. change (k_rows K) with (rows_of fo). fold nf. change (1 * 1)%nat with 1%nat. cbn [t_azm t_dip].
    assert (G : forall l M0, (forall ab, In ab l -> In ab abs) -> shp nf 1 M0 ->
       exists M, foldM (fun EM ab => '(o, _, _) <- fem (k_lap K) (k_mk K z z' ls lr (k_depth K) ab (k_ms K) (k_mr K)) ab off angle z z' ls lr
                        (rows_of fo) (k_xd K) (k_full K) (k_ms K) (k_mr K) (k_lf K) (k_lo K) true ;;
          t <- bcast2 1 1 (get_geo_fact (k_m K) ab [a] [d] [a'] [d'] (k_ms K) (k_mr K)) ;; Ok (mat_add EM (scale_cols t o))) l M0 = Ok M /\
          shp nf 1 M /\ forall f, (f < nf)%nat -> nth 0 (nth f M []) (RtoC 0) = Cplus (nth 0 (nth f M0 []) (RtoC 0)) (csum (map (fun ab => Cmult (RtoC (g ab)) (nth 0 (nth f (D ab) []) (RtoC 0))) l))).
    { induction l as [|ab l IH]; intros M0 HI S0.
      - exists M0. split; [reflexivity|]. split; [assumption|]. intros f Hf. cbn [map csum fold_right]. ring.
      - destruct (FE ab (HI ab (or_introl eq_refl))) as (SD & kc & cv & EF).
        cbn [foldM]. change (k_lap K) with (laplace_of freq). change (k_mk K) with mk. change (k_depth K) with (m_depth mo). change (k_ms K) with ms. change (k_mr K) with mr.
        change (k_xd K) with xdirect. change (k_full K) with (m_full mo). change (k_lf K) with lf. change (k_lo K) with lo. change (k_m K) with m.
        rewrite EF. cbn [bind]. rewrite geo_single. cbn [bind]. fold (g ab).
        assert (SS : shp nf 1 (scale_cols [g ab] (D ab))) by (apply scale_cols_shp; [assumption|reflexivity]).
        destruct (IH (mat_add M0 (scale_cols [g ab] (D ab))) (fun u Hu => HI u (or_intror Hu)) (shp_add _ _ _ _ S0 SS)) as (M & EM & SM & VM).
        exists M. split; [exact EM|]. split; [exact SM|]. intros f Hf. rewrite (VM f Hf). cbn [map csum fold_right]. rewrite Cplus_assoc. f_equal.
        rewrite (one_col _ _ S0), (one_col _ _ SD). unfold scale_cols. rewrite map_map.
        revert Hf. rewrite <- (proj1 S0). pose proof (proj1 SD) as LD. rewrite <- (proj1 S0) in LD. clear -LD. revert M0 LD f. generalize (D ab) as B.
        induction B as [|rb B IH]; intros [|r0 M0] LD f Hf; try discriminate; [cbn in Hf; lia|].
        cbn [map]. unfold map2 at 1. cbn [combine map fst snd]. rewrite mat_add_cons, vadd_one. destruct f as [|f]; cbn [nth].
        + f_equal. ring.
        + apply IH; [now injection LD|cbn in Hf; lia]. }
    destruct (G abs (mat_zeros nf 1) (fun u Hu => Hu) (shp_zeros _ _)) as (M & EM & SM & VM). exists M. split; [exact EM|].
    apply (nth_ext _ _ [] []); [rewrite map_length, seq_length; apply SM|]. intros f Hf. rewrite (proj1 SM) in Hf. rewrite nth_seq_map by assumption.
    rewrite (one_col _ _ SM). pose proof (map_nth (fun row : list C => [nth 0 row (RtoC 0)]) M [] f) as Q. rewrite (nth_indep _ [] [nth 0 [] (RtoC 0)]) by (rewrite map_length; rewrite (proj1 SM); assumption).
    rewrite Q, (VM f Hf). unfold mat_zeros, czeros. rewrite nth_repeat' by assumption. cbn [repeat nth]. unfold val. f_equal. ring. }
  destruct LOOP as (M & EL & EM).
  assert (SM : shp nf 1 M) by (rewrite EM; split; [now rewrite map_length, seq_length|]; intros r Hr; apply in_map_iff in Hr; destruct Hr as (f & <- & _); reflexivity).
  set (ts := {| t_x := [x]; t_y := [y]; t_z := [z]; t_azm := [a]; t_dip := [d]; t_gw := [1]; t_pts := 1; t_w := [1] |}) in *.
  set (tr := {| t_x := [x']; t_y := [y']; t_z := [z']; t_azm := [a']; t_dip := [d']; t_gw := [1]; t_pts := 1; t_w := [1] |}) in *.
  assert (RP : rec_point K 1 1 ts tr abs [x] [y] z ls (mat_zeros nf 1) 0 = Ok M).
  { unfold rec_point. change (idx (t_z tr) (Z.of_nat 0)) with (Ok z'). cbn [bind]. change (stride 0 0 (t_pts tr) (t_x tr)) with [x']. change (stride 0 0 (t_pts tr) (t_y tr)) with [y'].
    change (get_off_ang (k_m K) [x] [y] [x'] [y']) with (off, angle). change (k_depth K) with (m_depth mo). rewrite Elr. cbn [bind]. rewrite EL. cbn [bind].
    change (k_rt K) with XNone. cbn [bind]. change (idx (t_gw tr) (Z.of_nat 0)) with (Ok 1). cbn [bind]. f_equal. apply unit_add. exact SM. }
  assert (SP : src_point K 1 1 ts tr abs (mat_zeros nf 1) 0 = Ok M).
  { unfold src_point. change (idx (t_z ts) (Z.of_nat 0)) with (Ok z). cbn [bind]. change (k_depth K) with (m_depth mo). rewrite Els. cbn [bind].
    change (stride 0 0 (t_pts ts) (t_x ts)) with [x]. change (stride 0 0 (t_pts ts) (t_y ts)) with [y]. change (t_pts tr) with 1%nat. cbn [seq foldM].
    change (List.length (k_rows K)) with nf. change (1 * 1)%nat with 1%nat. rewrite RP. cbn [bind]. change (k_st K) with XNone. cbn [bind].
    change (idx (t_gw ts) (Z.of_nat 0)) with (Ok 1). cbn [bind]. f_equal. apply unit_add. exact SM. }
  assert (BL : block K 0 1 1 ts tr = Ok M).
  { unfold block. change (t_pts ts) with 1%nat. cbn [seq foldM]. change (get_abs _ _ _ _ _ _) with abs. change (List.length (k_rows K)) with nf. change (1 * 1)%nat with 1%nat.
    rewrite SP. cbn [bind]. rewrite (Rltb00 0 (Rle_refl 0)). reflexivity. }
  assert (TS : get_azm_dip m gl (b_arr bsrc) 0 1 srcpts true 0 true = Ok ts) by (unfold get_azm_dip; rewrite (Rltb00 0 (Rle_refl 0)); reflexivity).
  assert (TR : get_azm_dip m gl (b_arr brec) 0 1 recpts true 0 false = Ok tr) by reflexivity.
  assert (BLO : bipole_loops K gl srcpts recpts 0 bsrc brec = Ok M).
  { unfold bipole_loops. change (b_n bsrc / b_nz bsrc)%nat with 1%nat. change (b_n brec / b_nz brec)%nat with 1%nat. change (b_nz bsrc) with 1%nat. change (b_nz brec) with 1%nat.
    change (b_n bsrc) with 1%nat. change (b_n brec) with 1%nat. cbn [seq foldM]. change (k_m K) with m. change (b_dip bsrc) with true. change (b_dip brec) with true.
    rewrite TS. cbn [bind]. rewrite TR. cbn [bind]. rewrite BL. cbn [bind].
    change (List.length (k_rows K)) with nf. change (1 * 1)%nat with 1%nat. unfold place. cbn [Nat.eqb Nat.mul Nat.add]. change (slice 0 1 1) with [0%nat].
    unfold set_cols. change (List.length (mat_zeros nf 1)) with (List.length (repeat (czeros 1) nf)). rewrite repeat_length, (proj1 SM), Nat.eqb_refl. cbn [andb].
    rewrite (proj2 (forallb_forall _ _)) by (intros r Hr; apply Nat.eqb_eq; apply (proj2 SM r Hr)). cbn [bind]. f_equal.
    unfold mat_zeros. clear -SM. destruct SM as [L W]. revert M L W. induction nf as [|n IH]; intros [|r M] L W; try discriminate; [reflexivity|].
    cbn [repeat]. rewrite map2_cons. f_equal; [|apply IH; [now injection L|intros; apply W; now right]].
    pose proof (W r (or_introl eq_refl)) as Lr. destruct r as [|c [|? ?]]; try discriminate. reflexivity. }
  assert (CS : check_bipole src5 = Ok bsrc) by (apply (check_pole bsrc 0); [apply ck_dip1; try reflexivity; try lia; now left|cbn; lia]).
  assert (CR : check_bipole rec5 = Ok brec) by (apply (check_pole brec 0); [apply ck_dip1; try reflexivity; try lia; now left|cbn; lia]).
  exists (reshapeF 1 1 M). split; [|split].
  - unfold bip, bipole, bipole_array. rewrite Em. cbn [bind]. fold fo. cbn [check_mx bind]. rewrite CS, CR. cbn [bind]. fold K. rewrite BLO. reflexivity.
  - intros ab Ha. unfold reshapeF. rewrite map_length, (proj1 SM). apply (FE ab Ha).
  - unfold reshapeF at 1. rewrite map_length. intros f Hf. unfold reshapeF. rewrite EM, map_map. rewrite (proj1 SM) in Hf.
    rewrite nth_seq_map by assumption. reflexivity.
Qed.
End Dip.

(** azimuth and dip are multiples of 90 degrees *)
Theorem bipole_axis : forall m gl hook mk depth q freq (ms mr : bool) srcpts recpts xdirect lf lo x y z sa sd x' y' z' ra rd M,
  min_angle m <= 1 ->
  dipole m hook mk [Nd [] [x]; Nd [] [y]; Nd [] [z]] [Nd [] [x']; Nd [] [y']; Nd [] [z']] depth q freq
    (AbNum (inject_Z (code ms mr (quarter_axis ra rd) (quarter_axis sa sd)))) xdirect lf lo = Ok (M, 1%nat, 1%nat) ->
  bipole m gl hook mk [Nd [] [x]; Nd [] [y]; Nd [] [z]; Nd [] [90 * IZR sa]; Nd [] [90 * IZR sd]]
    [Nd [] [x']; Nd [] [y']; Nd [] [z']; Nd [] [90 * IZR ra]; Nd [] [90 * IZR rd]] depth q freq (MxBool ms) (MxBool mr) srcpts recpts 0 xdirect lf lo
  = Ok (map (fun row => [[Cmult (RtoC (quarter_sign ra rd * quarter_sign sa sd)) (nth 0 row (RtoC 0))]]) M).
Proof.
  intros m gl hook mk depth q freq ms mr srcpts recpts xdirect lf lo x y z sa sd x' y' z' ra rd M Hm H.
  destruct (axis_aligned m ms mr sa sd ra rd Hm) as (ab & CA & GA & GF).
  set (r0 := quarter_axis ra rd) in *. set (s0 := quarter_axis sa sd) in *.
  pose proof (axis_range sa sd) as Hs. pose proof (axis_range ra rd) as Hr. fold s0 in Hs. fold r0 in Hr.
  rewrite (ab_entry_check ms mr r0 s0 Hr Hs) in CA. apply (f_equal (fun t => match t with Ok v => fst (fst v) | Err _ => 0%Z end)) in CA. cbn [fst] in CA.
  destruct (bipole_dipole m gl hook mk depth q freq ms mr srcpts recpts xdirect lf lo x y z (90 * IZR sa) (90 * IZR sd) x' y' z' (90 * IZR ra) (90 * IZR rd) (fun _ => M)) as (E & EB & LE & VE).
  { intros r s Hr' Hs' HI. change (deg2rad (90 * IZR sa)) with (quarter sa) in HI. change (deg2rad (90 * IZR sd)) with (quarter sd) in HI.
    change (deg2rad (90 * IZR ra)) with (quarter ra) in HI. change (deg2rad (90 * IZR rd)) with (quarter rd) in HI. rewrite GA in HI. destruct HI as [HI|[]].
    assert (EQ : r = r0 /\ s = s0).
    { rewrite <- CA in HI. clearbody r0 s0. destruct (dir123 r0 Hr) as [-> | [-> | ->]]; destruct (dir123 s0 Hs) as [-> | [-> | ->]];
      destruct (dir123 r Hr') as [-> | [-> | ->]]; destruct (dir123 s Hs') as [-> | [-> | ->]]; destruct ms, mr; try discriminate HI; split; reflexivity. }
    destruct EQ as [-> ->]. exact H. }
  rewrite EB. f_equal. change (deg2rad (90 * IZR sa)) with (quarter sa) in *. change (deg2rad (90 * IZR sd)) with (quarter sd) in *.
  change (deg2rad (90 * IZR ra)) with (quarter ra) in *. change (deg2rad (90 * IZR rd)) with (quarter rd) in *.
  assert (LM : List.length M = List.length E) by (apply (LE ab); rewrite GA; now left).
  set (F := fun row : list C => [[Cmult (RtoC (quarter_sign ra rd * quarter_sign sa sd)) (nth 0 row (RtoC 0))]]).
  apply (nth_ext _ _ [] (F [])); [now rewrite map_length|]. intros f Hf. rewrite (map_nth F). rewrite (VE f Hf). unfold value, ab_response, F.
  change (deg2rad (90 * IZR sa)) with (quarter sa). change (deg2rad (90 * IZR sd)) with (quarter sd).
  change (deg2rad (90 * IZR ra)) with (quarter ra). change (deg2rad (90 * IZR rd)) with (quarter rd). rewrite GA. cbn [map csum fold_right].
  assert (G1 : geo_fact1 m ab (quarter sa) (quarter sd) (quarter ra) (quarter rd) ms mr = quarter_sign ra rd * quarter_sign sa sd).
  { unfold get_geo_fact, outer, zipbc in GF. cbn [List.length Nat.max bcast repeat combine map fst snd] in GF. injection GF as GF. exact GF. }
  rewrite G1. f_equal. f_equal. ring.
Qed.

(** arbitrary orientation: the contraction of the nine dipole responses with the two unit vectors *)
Theorem bipole_contraction : forall m gl hook mk depth q freq (ms mr : bool) srcpts recpts xdirect lf lo x y z az di x' y' z' az' di' D,
  0 <= min_angle m ->
  (forall r s, (1 <= r <= 3)%Z -> (1 <= s <= 3)%Z ->
    dipole m hook mk [Nd [] [x]; Nd [] [y]; Nd [] [z]] [Nd [] [x']; Nd [] [y']; Nd [] [z']] depth q freq
      (AbNum (inject_Z (code ms mr r s))) xdirect lf lo = Ok (D (ab_entry ms mr r s), 1%nat, 1%nat)) ->
  exists E, bipole m gl hook mk [Nd [] [x]; Nd [] [y]; Nd [] [z]; Nd [] [az]; Nd [] [di]]
    [Nd [] [x']; Nd [] [y']; Nd [] [z']; Nd [] [az']; Nd [] [di']] depth q freq (MxBool ms) (MxBool mr) srcpts recpts 0 xdirect lf lo = Ok E /\
  forall f, (f < List.length E)%nat -> let T := fun ab => nth 0 (nth f (D ab) []) (RtoC 0) in
    Cmod (Cminus (elt f 0 0 E) (contraction ms mr (deg2rad az) (deg2rad di) (deg2rad az') (deg2rad di') T)) <= Rmax (/ 10 ^ 8) (min_angle m) * tensor_norm ms mr T.
Proof.
  intros m gl hook mk depth q freq ms mr srcpts recpts xdirect lf lo x y z az di x' y' z' az' di' D Hm HD.
  destruct (bipole_dipole m gl hook mk depth q freq ms mr srcpts recpts xdirect lf lo x y z az di x' y' z' az' di' D) as (E & EB & LE & VE).
  { intros r s Hr Hs _. now apply HD. }
  exists E. split; [exact EB|]. intros f Hf T. unfold elt. rewrite (VE f Hf). cbn [nth]. unfold value.
  apply tensor_contraction; try assumption; now left.
Qed.
