(** The routine bipole: placement of the blocks, and the poles of a survey. *)

From Coq Require Import ZArith Reals List Bool String Lia Lra FinFun.
From Coquelicot Require Import Coquelicot.
From Verif Require Import PyBase CBase Kernel Utils UtilsLayer UtilsModel UtilsFreq UtilsGeo UtilsSurvey Transform TransformDlf Fullspace Model ModelFem Routines RoutinesThm Bipole BipoleCol BipoleThm BipoleLoop.
Import ListNotations.
Local Open Scope R_scope.
Local Open Scope res_scope.

(** ** Assignment to columns *)
Lemma fold_replace_other : forall (cols : list nat) (srow row : list C) c d, ~ In c cols ->
  nth c (fold_left (fun row p => replace row (fst p) (snd p)) (combine cols srow) row) d = nth c row d.
Proof.
  induction cols as [|k cols IH]; intros [|x srow] row c d N; try reflexivity. cbn [combine fold_left fst snd].
  rewrite IH by (intros H; apply N; now right). assert (c <> k) by (intros ->; apply N; now left).
  clear - H. revert k c H. induction row as [|y row IHr]; intros [|k] [|c] H; cbn; try reflexivity; try lia. apply IHr. lia.
Qed.
Lemma fold_replace_length : forall (cols : list nat) (srow row : list C),
  List.length (fold_left (fun row p => replace row (fst p) (snd p)) (combine cols srow) row) = List.length row.
Proof. induction cols as [|k cols IH]; intros [|x srow] row; try reflexivity. cbn [combine fold_left fst snd]. now rewrite IH, replace_length. Qed.
Lemma fold_replace_in : forall (cols : list nat) (srow row : list C) i d, NoDup cols -> (forall c, In c cols -> (c < List.length row)%nat) ->
  List.length srow = List.length cols -> (i < List.length cols)%nat ->
  nth (nth i cols 0%nat) (fold_left (fun row p => replace row (fst p) (snd p)) (combine cols srow) row) d = nth i srow d.
Proof.
  induction cols as [|k cols IH]; intros [|x srow] row i d ND B L Hi; try discriminate; cbn in Hi; [lia|].
  inversion ND as [|? ? N1 N2]; subst. cbn [combine fold_left fst snd]. destruct i as [|i]; cbn [nth].
  - rewrite fold_replace_other by assumption. rewrite nth_replace by (apply B; now left). rewrite Nat.eqb_refl || idtac.
    destruct (Nat.eq_dec k k); [reflexivity|congruence].
  - apply IH; [assumption| |now injection L|lia]. intros c Hc. rewrite replace_length. apply B. now right.
Qed.

Lemma set_cols_spec : forall nf N cols A EM EM', NoDup cols -> (forall c, In c cols -> (c < N)%nat) ->
  shp nf N EM -> set_cols cols A EM = Ok EM' ->
  shp nf N EM' /\ (forall i, (i < List.length cols)%nat -> colm (nth i cols 0%nat) EM' = colm i A) /\
  (forall c, ~ In c cols -> colm c EM' = colm c EM).
Proof.
  intros nf N cols A EM EM' ND B [L W] H. unfold set_cols in H.
  destruct (Nat.eqb_spec (List.length A) (List.length EM)) as [LA|]; [|discriminate].
  destruct (forallb _ A) eqn:F; [|discriminate]. cbn [andb] in H. injection H as <-. rewrite forallb_forall in F.
  unfold shp. rewrite <- L. clear nf L. unfold map2. revert EM LA W. induction A as [|srow A IH]; intros [|row EM] LA W; try discriminate.
  - cbn. repeat split; auto; try (intros r []); intros; reflexivity.
  - cbn [combine map fst snd colm List.length].
    destruct (IH (fun x Hx => F x (or_intror Hx)) EM ltac:(now injection LA) (fun r Hr => W r (or_intror Hr))) as [[S1 S2] [S3 S4]].
    pose proof (W row (or_introl eq_refl)) as Wr. pose proof (F srow (or_introl eq_refl)) as Fr. apply Nat.eqb_eq in Fr.
    split; [split|split].
    + cbn. now rewrite S1.
    + intros r [<-|Hr]; [rewrite fold_replace_length; assumption|auto].
    + intros i Hi. unfold colm in *. cbn [map]. f_equal; [|apply S3; assumption]. f_equal. apply fold_replace_in; auto. rewrite Wr. auto.
    + intros c Hc. unfold colm in *. cbn [map]. f_equal; [|apply S4; assumption]. f_equal. now apply fold_replace_other.
Qed.

(** ** The slices *)
Lemma slice_one : forall a b, slice a b 1 = seq a (b - a).
Proof.
  intros a b. unfold slice. induction (seq a (b - a)) as [|x l IH]; [reflexivity|]. cbn [filter].
  rewrite Nat.mod_1_r. cbn [Nat.eqb]. now rewrite IH.
Qed.
Lemma filter_none : forall n i b len, (0 < n)%nat -> (i < n)%nat -> (forall x, In x (seq b len) -> exists q t, x = i + n * q + t /\ 0 < t < n)%nat ->
  filter (fun k => Nat.eqb ((k - i) mod n) 0) (seq b len) = [].
Proof.
  intros n i b len Hn Hi H. induction (seq b len) as [|x l IH]; [reflexivity|]. cbn [filter].
  destruct (H x (or_introl eq_refl)) as (q & t & -> & Ht).
  replace (i + n * q + t - i)%nat with (t + q * n)%nat by lia. rewrite Nat.mod_add by lia. rewrite Nat.mod_small by lia.
  destruct (Nat.eqb_spec t 0); [lia|]. apply IH. intros. apply H. now right.
Qed.
Lemma slice_step : forall n c i, (i < n)%nat -> slice i (c * n) n = map (fun q => i + n * q)%nat (seq 0 c).
Proof.
  intros n c i Hi. unfold slice.
  (* blocks [i + n q, i + n (q+1)), the last one cut *)
  assert (G : forall c q, filter (fun k => Nat.eqb ((k - i) mod n) 0) (seq (i + n * q) (n * c)) = map (fun q => i + n * q)%nat (seq q c)).
  { clear c. induction c as [|c IH]; intros q; [now rewrite Nat.mul_0_r|].
    replace (n * S c)%nat with (S (n - 1) + n * c)%nat by lia. rewrite seq_app, filter_app. cbn [seq filter].
    replace (i + n * q - i)%nat with (q * n)%nat by lia. rewrite Nat.mod_mul by lia. cbn [Nat.eqb].
    rewrite filter_none; [|lia|assumption|].
    - cbn [app map]. f_equal. replace (i + n * q + S (n - 1))%nat with (i + n * (S q))%nat by lia. apply IH.
    - intros x Hx. apply in_seq in Hx. exists q, (x - (i + n * q))%nat. lia. }
  destruct c as [|c]; [reflexivity|].
  (* the first c blocks are full, the last one has n - i elements *)
  replace (S c * n - i)%nat with (n * c + (n - i))%nat by lia. rewrite seq_app, filter_app.
  pose proof (G c 0%nat) as G0. rewrite Nat.mul_0_r, Nat.add_0_r in G0. rewrite G0.
  replace (S c) with (c + 1)%nat by lia. rewrite seq_app, map_app. f_equal. cbn [seq map].
  replace (n - i)%nat with (S (n - i - 1)) by lia. cbn [seq filter].
  replace (i + n * c - i)%nat with (c * n)%nat by lia. rewrite Nat.mod_mul by lia. cbn [Nat.eqb]. f_equal.
  apply filter_none; [lia|assumption|]. intros x Hx. apply in_seq in Hx. exists c, (x - (i + n * c))%nat. lia.
Qed.

(** ** One block *)
(** pole number s belongs to depth number isz *)
Definition in_depth (n nz iz s : nat) : Prop := if Nat.eqb n nz then s = iz else True.
Definition pos (n nz s : nat) : nat := if Nat.eqb n nz then 0%nat else s.
Definition cnt (n nz : nat) : nat := if Nat.eqb n nz then 1%nat else n.

Lemma place_spec : forall nf nrec nrecz nsrc nsrcz isz irz A EM EM',
  (isz < nsrc)%nat -> (irz < nrec)%nat -> shp nf (nrec * nsrc) EM -> shp nf (cnt nrec nrecz * cnt nsrc nsrcz) A ->
  place nrec nrecz nsrc nsrcz isz irz A EM = Ok EM' ->
  shp nf (nrec * nsrc) EM' /\
  forall s r, (s < nsrc)%nat -> (r < nrec)%nat ->
    (in_depth nsrc nsrcz isz s -> in_depth nrec nrecz irz r ->
       colm (r + nrec * s) EM' = colm (pos nsrc nsrcz s * cnt nrec nrecz + pos nrec nrecz r) A) /\
    (~ (in_depth nsrc nsrcz isz s /\ in_depth nrec nrecz irz r) -> colm (r + nrec * s) EM' = colm (r + nrec * s) EM).
Proof.
  intros nf nrec nrecz nsrc nsrcz isz irz A EM EM' Hs Hr SE SA H. unfold place in H. unfold cnt, pos, in_depth in *.
  destruct (Nat.eqb nrec nrecz); destruct (Nat.eqb nsrc nsrcz).
  - rewrite slice_one in H. replace (isz * nrec + irz + 1 - (isz * nrec + irz))%nat with 1%nat in H by lia. cbn [seq] in H.
    apply (set_cols_spec nf (nrec * nsrc)) in H; [|repeat constructor; intros []|intros c [<-|[]]; nia|assumption].
    destruct H as [S1 [S2 S3]]. split; [assumption|]. intros s r Ls Lr. split.
    + intros -> ->. specialize (S2 0%nat ltac:(cbn; lia)). cbn [nth] in S2. change (0 * 1 + 0)%nat with 0%nat. rewrite <- S2. f_equal. lia.
    + intros N. apply S3. intros [E|[]]. apply N.
      assert (s = isz) by nia. subst s. split; [reflexivity|lia].
  - rewrite slice_step in H by assumption.
    apply (set_cols_spec nf (nrec * nsrc)) in H; [| | |assumption].
    2:{ apply FinFun.Injective_map_NoDup; [|apply seq_NoDup]. intros a b E. nia. }
    2:{ intros c Hc. apply in_map_iff in Hc. destruct Hc as (q & <- & Hq). apply in_seq in Hq. nia. }
    destruct H as [S1 [S2 S3]]. split; [assumption|]. intros s r Ls Lr. split.
    + intros _ ->. specialize (S2 s ltac:(now rewrite map_length, seq_length)). rewrite (nth_indep _ 0%nat (irz + nrec * 0)%nat) in S2 by (now rewrite map_length, seq_length).
      rewrite (map_nth (fun q => irz + nrec * q)%nat), seq_nth in S2 by assumption. rewrite Nat.add_0_l in S2. rewrite S2. f_equal. lia.
    + intros N. apply S3. intros E. apply in_map_iff in E. destruct E as (q & E & Hq). apply N. split; [exact I|].
      assert (q = s) by nia. subst. lia.
  - rewrite slice_one in H. replace (nrec * (isz + 1) - isz * nrec)%nat with nrec in H by nia.
    apply (set_cols_spec nf (nrec * nsrc)) in H; [|apply seq_NoDup|intros c Hc; apply in_seq in Hc; nia|assumption].
    destruct H as [S1 [S2 S3]]. split; [assumption|]. intros s r Ls Lr. split.
    + intros -> _. specialize (S2 r ltac:(now rewrite seq_length)). rewrite seq_nth in S2 by assumption. rewrite Nat.mul_0_l, Nat.add_0_l. rewrite <- S2. f_equal. lia.
    + intros N. apply S3. intros E. apply in_seq in E. apply N. split; [|exact I]. nia.
  - injection H as <-. split; [assumption|]. intros s r Ls Lr. split.
    + intros _ _. f_equal. lia.
    + intros N. exfalso. apply N. split; exact I.
Qed.

(** ** The poles *)
(** arrays of a checked source or receiver *)
Inductive checked : bip -> Prop :=
| ck_dip1 : forall x y z a d n, (0 < n)%nat -> List.length x = n -> List.length y = n -> one_or n a -> one_or n d ->
    checked {| b_arr := [x; y; [z]; a; d]; b_n := n; b_nz := 1; b_dip := true |}
| ck_dipn : forall x y z a d n, (1 < n)%nat -> List.length x = n -> List.length y = n -> List.length z = n -> List.length a = n -> List.length d = n ->
    checked {| b_arr := [x; y; z; a; d]; b_n := n; b_nz := n; b_dip := true |}
| ck_bip1 : forall segs z0 z1, segs <> [] -> (forall s, In s segs -> distinct z0 z1 s) ->
    checked {| b_arr := [map g_x0 segs; map g_x1 segs; map g_y0 segs; map g_y1 segs; [z0]; [z1]];
               b_n := List.length segs; b_nz := 1; b_dip := false |}
| ck_bipn : forall segs z0 z1, (1 < List.length segs)%nat -> List.length z0 = List.length segs -> List.length z1 = List.length segs ->
    (forall i, (i < List.length segs)%nat -> distinct (nth i z0 0) (nth i z1 0) (nth i segs {| g_x0 := 0; g_x1 := 0; g_y0 := 0; g_y1 := 0 |})) ->
    checked {| b_arr := [map g_x0 segs; map g_x1 segs; map g_y0 segs; map g_y1 segs; z0; z1];
               b_n := List.length segs; b_nz := List.length segs; b_dip := false |}.

(** the pole number i *)
Definition pole_arr (b : bip) (i : nat) : list (list R) := map (fun l => [coord l i]) (b_arr b).
Definition pole_in (b : bip) (i : nat) : list ndin := map (fun l => Nd [] [coord l i]) (b_arr b).
Definition pole (b : bip) (i : nat) : bip := {| b_arr := pole_arr b i; b_n := 1; b_nz := 1; b_dip := b_dip b |}.

Definition good_rule (gl : Z -> list R * list R) (k : Z) : Prop := (2 < k)%Z -> List.length (fst (gl k)) = Z.to_nat k.

Lemma stride_flat : forall {X} (f : X -> list R) l P g d, (0 < P)%nat -> (g < P)%nat -> (forall x, List.length (f x) = P) ->
  stride d g P (flat_map f l) = map (fun x => nth g (f x) d) l.
Proof.
  intros X f l P g d HP Hg L. unfold stride.
  assert (LF : List.length (flat_map f l) = (List.length l * P)%nat) by (apply flat_map_length_const; intros; apply L). rewrite LF.
  destruct l as [|x0 l']; [reflexivity|]. set (l := x0 :: l') in *.
  assert (E : (if (g <? List.length l * P)%nat then S ((List.length l * P - 1 - g) / P) else 0)%nat = List.length l).
  { destruct (Nat.ltb_spec g (List.length l * P)) as [_|B]; [|cbn [List.length l] in B; nia].
    replace (List.length l * P - 1 - g)%nat with ((List.length l - 1) * P + (P - 1 - g))%nat by (cbn [List.length l]; nia).
    rewrite Nat.div_add_l by lia. rewrite Nat.div_small by lia. cbn [List.length l]. lia. }
  rewrite E. clearbody l. clear E LF x0 l'.
  apply (nth_ext _ _ d d); rewrite !map_length, seq_length; [reflexivity|]. intros q Hq.
  match goal with |- nth q (map ?F _) d = _ => rewrite (nth_indep _ d (F 0%nat)) by (now rewrite map_length, seq_length); rewrite (map_nth F) end.
  rewrite seq_nth, Nat.add_0_l by assumption. replace (g + P * q)%nat with (q * P + g)%nat by lia.
  destruct l as [|x0 l']; [cbn in Hq; lia|].
  rewrite (nth_flat_map _ _ _ P _ q g x0) by (auto).
  match goal with |- _ = nth q (map ?F _) d => rewrite (nth_indep (map F _) d (F x0)) by (now rewrite map_length); rewrite (map_nth F) end. reflexivity.
Qed.
Lemma stride_id : forall l d, stride d 0 1 l = l.
Proof.
  intros l d. assert (E : l = flat_map (fun x => [x]) l) by (rewrite flat_map_single, map_id; reflexivity).
  rewrite E at 1. rewrite stride_flat by (auto; lia). cbn [nth]. apply map_id.
Qed.

Lemma coord_nth : forall l n i, List.length l = n -> (i < n)%nat -> coord l i = nth i l 0.
Proof. intros [|a [|b l]] n i L Hi; cbn in L; try reflexivity. assert (i = 0%nat) by lia. now subst i. Qed.
Lemma coord_one : forall x i, coord [x] i = x.
Proof. reflexivity. Qed.
Lemma coord_map : forall {X} (f : X -> R) l i d, (i < List.length l)%nat -> coord (map f l) i = f (nth i l d).
Proof.
  intros X f l i d Hi. rewrite (coord_nth _ (List.length l)) by (rewrite ?map_length; auto).
  rewrite (nth_indep _ 0 (f d)) by (now rewrite map_length). apply map_nth.
Qed.
Lemma one_or_deg : forall n l, one_or n l -> one_or n (map deg2rad l).
Proof. intros n l H. unfold one_or. now rewrite map_length. Qed.
Lemma coord_deg : forall n l i, one_or n l -> (i < n)%nat -> coord (map deg2rad l) i = deg2rad (coord l i).
Proof.
  intros n [|a [|b l]] i H Hi; destruct H as [H|H]; cbn in H; try lia; try reflexivity.
  all: rewrite (coord_map deg2rad _ i 0) by (cbn; lia); reflexivity.
Qed.

Definition d_seg : seg := {| g_x0 := 0; g_x1 := 0; g_y0 := 0; g_y1 := 0 |}.

(** the whole array at one depth *)
Lemma elem_one_depth : forall m gl b k strength src i, checked b -> b_nz b = 1%nat -> good_rule gl k -> (i < b_n b)%nat ->
  exists T T1, get_azm_dip m gl (b_arr b) 0 1 k (b_dip b) strength src = Ok T /\
    get_azm_dip m gl (pole_arr b i) 0 1 k (b_dip b) strength src = Ok T1 /\ elem (b_n b) i T T1.
Proof.
  intros m gl b k strength src i Cb Nz Gr Hi. destruct Cb as [x y z a d n Hn Lx Ly La Ld|x y z a d n Hn Lx Ly Lz La Ld|segs z0 z1 Hne Hd|segs z0 z1 Hne L0 L1 Hd]; cbn [b_nz b_n b_arr b_dip] in *; try lia.
  - unfold pole_arr. cbn [b_arr map]. eexists. eexists. split; [reflexivity|]. split; [reflexivity|]. cbn [coord].
    constructor; cbn [t_pts t_x t_y t_z t_gw t_azm t_dip t_w List.length repeat]; try reflexivity.
    + intros g Hg. replace g with 0%nat by lia. now rewrite stride_id.
    + intros g Hg. replace g with 0%nat by lia. now rewrite stride_id.
    + intros g Hg. replace g with 0%nat by lia. rewrite !stride_id. now rewrite (coord_nth x n).
    + intros g Hg. replace g with 0%nat by lia. rewrite !stride_id. now rewrite (coord_nth y n).
    + intros g Hg. replace g with 0%nat by lia. rewrite Lx. destruct n; [lia|]. reflexivity.
    + cbn [map]. now rewrite (coord_deg n).
    + now apply one_or_deg.
    + cbn [map]. now rewrite (coord_deg n).
    + now apply one_or_deg.
    + rewrite nth_repeat' by lia. reflexivity.
    + now rewrite repeat_length.
  - assert (PE : pole_arr {| b_arr := [map g_x0 segs; map g_x1 segs; map g_y0 segs; map g_y1 segs; [z0]; [z1]]; b_n := List.length segs; b_nz := 1; b_dip := false |} i =
       [map g_x0 [nth i segs d_seg]; map g_x1 [nth i segs d_seg]; map g_y0 [nth i segs d_seg]; map g_y1 [nth i segs d_seg]; [z0]; [z1]]).
    { unfold pole_arr. cbn [b_arr map]. rewrite !(coord_map _ segs i d_seg) by assumption. reflexivity. }
    rewrite PE.
    rewrite (bipole_discretisation m gl segs z0 z1 k strength src) by assumption.
    rewrite (bipole_discretisation m gl [nth i segs d_seg] z0 z1 k strength src); [|discriminate|intros s [<-|[]]; apply Hd, nth_In; assumption].
    eexists. eexists. split; [reflexivity|]. split; [reflexivity|].
    set (P := if (2 <? k)%Z then Z.to_nat k else 1%nat).
    assert (LP : List.length (nodes gl k) = P /\ (0 < P)%nat).
    { unfold nodes, P. destruct (Z.ltb_spec 2 k) as [H|H]; [split; [now apply Gr|lia]|cbn; lia]. }
    destruct LP as [LP P0].
    assert (SP : forall (f0 f1 : seg -> R) l, map (round_dec (rndco m)) (seg_points (nodes gl k) (map f0 l) (map f1 l)) =
       flat_map (fun s => map (round_dec (rndco m)) (map (fun g => (1 - g) / 2 * f0 s + (1 + g) / 2 * f1 s) (nodes gl k))) l).
    { intros f0 f1 l. unfold seg_points. rewrite combine_map, flat_map_map. cbn [fst snd].
      induction l as [|s l IH]; [reflexivity|]. cbn [flat_map]. rewrite map_app, IH. reflexivity. }
    constructor; cbn [t_pts t_x t_y t_z t_gw t_azm t_dip t_w]; fold P; try reflexivity; rewrite ?SP.
    + intros g Hg. rewrite stride_flat by (auto; intros; now rewrite !map_length). now rewrite map_length.
    + intros g Hg. rewrite stride_flat by (auto; intros; now rewrite !map_length). now rewrite map_length.
    + intros g Hg. rewrite !stride_flat by (auto; intros; now rewrite !map_length). cbn [map]. f_equal.
      match goal with |- _ = nth i (map ?F segs) 0 => rewrite (nth_indep (map F segs) 0 (F d_seg)) by (now rewrite map_length); rewrite (map_nth F) end. reflexivity.
    + intros g Hg. rewrite !stride_flat by (auto; intros; now rewrite !map_length). cbn [map]. f_equal.
      match goal with |- _ = nth i (map ?F segs) 0 => rewrite (nth_indep (map F segs) 0 (F d_seg)) by (now rewrite map_length); rewrite (map_nth F) end. reflexivity.
    + rewrite (coord_map sazm segs i d_seg) by assumption. reflexivity.
    + right. now rewrite map_length.
    + rewrite (coord_map (sdip z0 z1) segs i d_seg) by assumption. reflexivity.
    + right. now rewrite map_length.
    + cbn [map]. f_equal. match goal with |- _ = nth i (map ?F segs) 0 => rewrite (nth_indep (map F segs) 0 (F d_seg)) by (now rewrite map_length); rewrite (map_nth F) end. reflexivity.
    + now rewrite map_length.
Qed.

Lemma pole_checked : forall b i, checked b -> (i < b_n b)%nat -> checked (pole b i).
Proof.
  intros b i Cb Hi. destruct Cb as [x y z a d n Hn Lx Ly La Ld|x y z a d n Hn Lx Ly Lz La Ld|segs z0 z1 Hne Hd|segs z0 z1 Hne L0 L1 Hd]; cbn [b_nz b_n b_arr b_dip] in *.
  - unfold pole, pole_arr. cbn [b_arr map b_dip coord]. apply ck_dip1; try reflexivity; try lia; left; reflexivity.
  - unfold pole, pole_arr. cbn [b_arr map b_dip]. apply ck_dip1; try reflexivity; try lia; left; reflexivity.
  - unfold pole, pole_arr. cbn [b_arr map b_dip coord]. rewrite !(coord_map _ segs i d_seg) by assumption.
    apply (ck_bip1 [nth i segs d_seg]); [discriminate|]. intros s [<-|[]]. apply Hd, nth_In. assumption.
  - unfold pole, pole_arr. cbn [b_arr map b_dip]. rewrite !(coord_map _ segs i d_seg) by assumption.
    rewrite (coord_nth z0 _ i L0 Hi), (coord_nth z1 _ i L1 Hi).
    apply (ck_bip1 [nth i segs d_seg]); [discriminate|]. intros s [<-|[]]. apply Hd. assumption.
Qed.
Lemma pole_pole : forall b i, pole (pole b i) 0 = pole b i.
Proof. intros. unfold pole, pole_arr. cbn [b_arr b_dip]. rewrite map_map. reflexivity. Qed.

Lemma checked_pos : forall b, checked b -> (0 < b_n b)%nat /\ (b_nz b = 1%nat \/ b_nz b = b_n b).
Proof. intros b H. destruct H; cbn; try (split; [lia|auto]). split; [destruct segs; [congruence|cbn; lia]|auto]. Qed.
Lemma checked_len : forall b l, checked b -> b_nz b <> 1%nat -> In l (b_arr b) -> List.length l = b_n b.
Proof.
  intros b l H Nz I. destruct H; cbn [b_nz b_n b_arr] in *; try lia; cbn in I; decompose [or] I; subst; rewrite ?map_length; auto; contradiction.
Qed.

(** the poles of depth number iz *)
Lemma elem_depth : forall m gl b k strength src iz i, checked b -> good_rule gl k -> (i < b_n b)%nat -> (iz < b_nz b)%nat ->
  in_depth (b_n b) (b_nz b) iz i ->
  exists T T1, get_azm_dip m gl (b_arr b) iz (b_nz b) k (b_dip b) strength src = Ok T /\
    get_azm_dip m gl (pole_arr b i) 0 1 k (b_dip b) strength src = Ok T1 /\
    elem (cnt (b_n b) (b_nz b)) (pos (b_n b) (b_nz b) i) T T1.
Proof.
  intros m gl b k strength src iz i Cb Gr Hi Hiz Hin. destruct (checked_pos b Cb) as [Pn Pz].
  destruct (Nat.eq_dec (b_nz b) 1) as [E1|N1].
  - rewrite E1 in *. replace iz with 0%nat in * by lia. destruct (elem_one_depth m gl b k strength src i Cb E1 Gr Hi) as (T & T1 & A & B & D).
    exists T, T1. split; [assumption|]. split; [assumption|]. unfold cnt, pos. destruct (Nat.eqb_spec (b_n b) 1) as [E|E]; [|assumption].
    replace i with 0%nat in * by lia. rewrite E in D. exact D.
  - destruct Pz as [Pz|Pz]; [contradiction|]. unfold in_depth, cnt, pos in *. rewrite Pz, Nat.eqb_refl in *. subst i.
    rewrite (several_depths m gl (b_arr b) (b_n b) iz (b_n b) k (b_dip b) strength src ltac:(congruence) Hi)
      by (intros l Hl; apply (checked_len b l Cb); [congruence|assumption]).
    assert (PE : map (fun l => [nth iz l 0]) (b_arr b) = pole_arr b iz).
    { unfold pole_arr. apply map_ext_in. intros l Hl. f_equal. symmetry. apply (coord_nth l (b_n b)); [|assumption]. apply (checked_len b l Cb); [congruence|assumption]. }
    rewrite PE.
    destruct (elem_one_depth m gl (pole b iz) k strength src 0 (pole_checked b iz Cb Hi) eq_refl Gr ltac:(cbn; lia)) as (T & T1 & A & B & D).
    exists T, T1. split; [exact A|]. split; [|exact D]. rewrite <- B. pose proof (f_equal b_arr (pole_pole b iz)) as Q. cbn [b_arr pole] in Q. now rewrite Q.
Qed.
