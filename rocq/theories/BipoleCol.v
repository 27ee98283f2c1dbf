(** Columns of the field array: [fem] computes every offset on its own. *)

From Coq Require Import ZArith Reals List Bool String Lia Lra.
From Coquelicot Require Import Coquelicot.
From Verif Require Import PyBase CBase Kernel Utils UtilsLayer Transform TransformDlf Fullspace Model ModelFem Routines RoutinesThm Bipole.
Import ListNotations.
Local Open Scope R_scope.
Local Open Scope res_scope.

(** column j as an array with one column *)
Definition colm (j : nat) (M : list (list C)) : list (list C) := map (fun row => [nth j row (RtoC 0)]) M.

(** a Hankel transform that treats the offsets on their own *)
Definition columnwise (valid : frow -> Prop) (calc : hankel) (xd : bool) : Prop :=
  forall rows off ang M k c, rows <> [] -> List.length ang = List.length off ->
  (forall r, In r rows -> valid r) -> (forall o, In o off -> 0 < o) ->
  calc rows off ang xd = Ok (M, k, c) -> shape_ok (List.length rows) (List.length off) M = true ->
  forall j, (j < List.length off)%nat ->
  exists k' c', calc rows [nth j off 0] [nth j ang 0] xd = Ok (colm j M, k', c').

Lemma separable_columnwise : forall valid calc xd F, separable valid calc xd F -> columnwise valid calc xd.
Proof.
  intros valid calc xd F HS rows off ang M k c Hr La Hv Hp H _ j Hj.
  assert (No : off <> []) by (intros ->; cbn in Hj; lia).
  rewrite (HS rows off ang) in H by assumption. injection H as <- _ _.
  exists 1%Z, true. rewrite (HS rows [nth j off 0] [nth j ang 0]); try assumption; try discriminate; try reflexivity.
  - f_equal. f_equal. f_equal. unfold table, colm. rewrite map_map. apply map_ext. intros r. cbn [combine map fst snd].
    f_equal. set (g := fun p => F r (fst p) (snd p)). rewrite (nth_indep _ (RtoC 0) (g (0, 0))) by (rewrite map_length, combine_length; lia).
    rewrite map_nth, combine_nth by congruence. reflexivity.
  - intros o [<-|[]]. apply Hp. now apply nth_In.
Qed.

(** ** Shapes and columns *)
Section Shapes.
Variables (n w : nat).
Definition shp (M : list (list C)) : Prop := List.length M = n /\ forall r, In r M -> List.length r = w.
End Shapes.

Lemma shp_ok : forall n w M, shape_ok n w M = true <-> shp n w M.
Proof. intros. apply shape_ok_spec. Qed.
Lemma shp_zeros : forall n w, shp n w (mat_zeros n w).
Proof. intros. apply shp_ok. apply zeros_shape. Qed.
Lemma shp_add : forall n w A B, shp n w A -> shp n w B -> shp n w (mat_add A B).
Proof. intros. apply shp_ok. apply mat_add_shape; now apply shp_ok. Qed.
Lemma shp_colm : forall n w j M, shp n w M -> shp n 1 (colm j M).
Proof.
  intros n w j M [A B]. split; [unfold colm; now rewrite map_length|].
  intros r Hr. apply in_map_iff in Hr. destruct Hr as (x & <- & _). reflexivity.
Qed.

Lemma shp_ind : forall w (P : nat -> list (list C) -> list (list C) -> Prop),
  P 0%nat [] [] -> (forall n a A b B, List.length a = w -> List.length b = w -> shp n w A -> shp n w B -> P n A B -> P (S n) (a :: A) (b :: B)) ->
  forall n A B, shp n w A -> shp n w B -> P n A B.
Proof.
  intros w P H0 H1. induction n; intros [|a A] [|b B] [L1 R1] [L2 R2]; try discriminate; [assumption|].
  assert (SA : shp n w A) by (split; [injection L1; auto|intros; apply R1; right; assumption]).
  assert (SB : shp n w B) by (split; [injection L2; auto|intros; apply R2; right; assumption]).
  apply H1; auto; [apply R1|apply R2]; now left.
Qed.

Lemma nth_vadd : forall (a b : list C) j, List.length a = List.length b -> (j < List.length a)%nat ->
  nth j (vadd a b) (RtoC 0) = Cplus (nth j a (RtoC 0)) (nth j b (RtoC 0)).
Proof. intros a b j L Hj. unfold vadd. rewrite (map2_nth _ _ _ _ _ _ j (RtoC 0) (RtoC 0) (RtoC 0)) by lia. reflexivity. Qed.

Lemma mat_add_cons : forall a A b B, mat_add (a :: A) (b :: B) = vadd a b :: mat_add A B.
Proof. reflexivity. Qed.
Lemma vadd_one : forall x y, vadd [x] [y] = [Cplus x y].
Proof. reflexivity. Qed.

Lemma colm_add : forall w j, (j < w)%nat -> forall n A B, shp n w A -> shp n w B -> colm j (mat_add A B) = mat_add (colm j A) (colm j B).
Proof.
  intros w j Hj. apply shp_ind; [reflexivity|]. intros n a A b B La Lb _ _ IH. rewrite mat_add_cons.
  unfold colm in *. cbn [map]. rewrite mat_add_cons, vadd_one, IH. f_equal. rewrite nth_vadd by lia. reflexivity.
Qed.

Lemma nth_repeat' : forall {A} (x d : A) n k, (k < n)%nat -> nth k (repeat x n) d = x.
Proof. intros A x d. induction n; intros [|k] H; cbn; try lia; [reflexivity|]. apply IHn. lia. Qed.

Lemma colm_zeros : forall n w j, (j < w)%nat -> colm j (mat_zeros n w) = mat_zeros n 1.
Proof.
  intros n w j Hj. unfold mat_zeros, colm. induction n; [reflexivity|]. cbn [repeat map]. rewrite IHn. f_equal.
  unfold czeros. rewrite nth_repeat' by assumption. reflexivity.
Qed.

(** ** Full space *)
Lemma mapM_nth : forall {A B} (f : A -> res B) l r da db j, mapM f l = Ok r -> (j < List.length l)%nat -> f (nth j l da) = Ok (nth j r db).
Proof.
  induction l as [|x l IH]; intros r da db j H Hj; cbn in Hj; [lia|]. cbn [mapM] in H.
  destruct (f x) as [y|] eqn:E; cbn [bind] in H; [|discriminate]. destruct (mapM f l) as [ys|] eqn:E2; cbn [bind] in H; [|discriminate].
  injection H as <-. destruct j; [exact E|]. apply (IH ys); [reflexivity|lia].
Qed.

Lemma bind_ok : forall {A B} (r : res A) (f : A -> res B) b, bind r f = Ok b -> exists a, r = Ok a /\ f a = Ok b.
Proof. intros A B [a|e] f b H; [|discriminate]. exists a. split; [reflexivity|exact H]. Qed.

Lemma fullspace_column : forall rdt off angle zs zr l rows ab ms mr M j, List.length angle = List.length off -> (j < List.length off)%nat ->
  fullspace_arr rdt off angle zs zr l rows ab ms mr = Ok M ->
  fullspace_arr rdt [nth j off 0] [nth j angle 0] zs zr l rows ab ms mr = Ok (colm j M).
Proof.
  intros rdt off angle zs zr l rows ab ms mr M j La Hj H. unfold fullspace_arr in *.
  apply bind_ok in H. destruct H as (cols & E & H). rewrite E. cbn [bind].
  set (an := (negb rdt && fs_anyneg ms mr (map (fun c => fst (fst (fst c))) cols) (map (fun c => snd (fst c)) cols))%bool) in *.
  clearbody an. clear E. revert M H. induction cols as [|c cols IH]; intros M H; cbn [mapM] in H.
  { injection H as <-. reflexivity. }
  apply bind_ok in H. destruct H as (y & E1 & H). apply bind_ok in H. destruct H as (ys & E2 & H). injection H as <-.
  cbn [mapM]. rewrite (IH ys E2). destruct c as [[[eH eV] zH] zV].
  apply (mapM_nth _ _ _ (0, 0) (RtoC 0) j) in E1; [|rewrite combine_length; lia].
  rewrite combine_nth in E1 by congruence. cbn [fst snd] in E1. cbn [combine mapM fst snd]. rewrite E1. reflexivity.
Qed.

(** ** fem *)
Section FemCol.
Variables (valid : frow -> Prop) (calc : hankel) (xd : bool).
Variables (rows : list frow) (off ang : list R).
Hypothesis HC : columnwise valid calc xd.
Hypothesis Hrows : rows <> [].
Hypothesis Hang : List.length ang = List.length off.
Hypothesis Hval : forall r, In r rows -> valid r.
Hypothesis Hpos : forall o, In o off -> 0 < o.
Variable j : nat.
Hypothesis Hj : (j < List.length off)%nat.

Let nf := List.length rows.
Let w := List.length off.

Lemma vec_column : forall fEM kc cv M k c, shp nf w fEM ->
  fem_calc calc rows off ang xd false false (fEM, kc, cv) = Ok (M, k, c) ->
  shp nf w M /\ exists k' c', fem_calc calc rows [nth j off 0] [nth j ang 0] xd false false (colm j fEM, kc, cv) = Ok (colm j M, k', c').
Proof.
  intros fEM kc cv M k c S H. cbn [fem_calc] in *. apply bind_ok in H. destruct H as ([[o k1] c1] & E & H).
  apply bind_ok in H. destruct H as (o' & E2 & H). unfold need in E2.
  destruct (shape_ok (List.length rows) (List.length off) o) eqn:SH; [|discriminate]. injection E2 as <-. injection H as <- _ _.
  destruct (HC rows off ang o k1 c1 Hrows Hang Hval Hpos E SH j Hj) as (k' & c' & E').
  apply shp_ok in SH. split; [now apply shp_add|].
  exists (kc + k')%Z, (cv && c')%bool. rewrite E'. cbn [bind List.length].
  assert (S1 : shape_ok (List.length rows) 1 (colm j o) = true) by (apply shp_ok; apply (shp_colm _ w); assumption).
  rewrite S1. cbn [need bind]. rewrite (colm_add w j Hj nf) by assumption. reflexivity.
Qed.

(** loop over the frequencies *)
Lemma colm_replace : forall M i (x : list C), colm j (replace M i x) = replace (colm j M) i [nth j x (RtoC 0)].
Proof. induction M as [|r M IH]; intros [|i] x; try reflexivity. cbn. f_equal. apply IH. Qed.
Lemma colm_nth : forall (M : list (list C)) i, (i < List.length M)%nat -> nth i (colm j M) [] = [nth j (nth i M []) (RtoC 0)].
Proof.
  intros M i Hi. unfold colm. rewrite (nth_indep _ [] ((fun row => [nth j row (RtoC 0)]) [])) by (now rewrite map_length).
  now rewrite (map_nth (fun row => [nth j row (RtoC 0)])).
Qed.
Lemma In_replace : forall {A} (l : list A) i x y, In y (replace l i x) -> In y l \/ y = x.
Proof.
  induction l as [|a l IH]; intros [|i] x y H; cbn in H; try tauto.
  - destruct H as [<-|H]; [now right|left; now right].
  - destruct H as [<-|H]; [left; now left|]. destruct (IH i x y H); [left; now right|now right].
Qed.

Lemma freq_column : forall l fEM kc cv M k c kc' cv', (forall i, In i l -> (i < nf)%nat) -> shp nf w fEM ->
  foldM (loop_freq_step calc rows off ang xd) l (fEM, kc, cv) = Ok (M, k, c) ->
  shp nf w M /\ exists k' c', foldM (loop_freq_step calc rows [nth j off 0] [nth j ang 0] xd) l (colm j fEM, kc', cv') = Ok (colm j M, k', c').
Proof.
  induction l as [|i l IH]; intros fEM kc cv M k c kc' cv' Hl S H.
  { injection H as <- _ _. split; [assumption|]. exists kc', cv'. reflexivity. }
  cbn [foldM] in H. apply bind_ok in H. destruct H as ([[M1 k1] c1] & E & H).
  unfold loop_freq_step in E. assert (Hi : (i < nf)%nat) by (apply Hl; now left).
  destruct (nth_error rows i) as [row|] eqn:Er; [|discriminate]. cbn [bind] in E.
  apply bind_ok in E. destruct E as ([[o k2] c2] & E & E3). apply bind_ok in E3. destruct E3 as (o' & E2 & E3). unfold need in E2.
  destruct (shape_ok 1 (List.length off) o) eqn:SH; [|discriminate]. injection E2 as <-. injection E3 as <- _ _.
  assert (Vr : forall r, In r [row] -> valid r) by (intros r [<-|[]]; apply Hval; apply (nth_error_In _ _ Er)).
  destruct (HC [row] off ang o k2 c2 ltac:(discriminate) Hang Vr Hpos E SH j Hj) as (k' & c' & E').
  apply shp_ok in SH. destruct o as [|orow [|? ?]]; try (destruct SH as [SH _]; discriminate).
  assert (Lo : List.length orow = w) by (apply SH; now left).
  assert (Lf : List.length (nth i fEM []) = w) by (apply S; apply nth_In; rewrite (proj1 S); assumption).
  assert (S' : shp nf w (replace fEM i (vadd (nth i fEM []) orow))).
  { split; [rewrite replace_length; apply S|]. intros r Hr. apply In_replace in Hr. destruct Hr as [Hr| ->]; [now apply S|].
    rewrite vadd_length. lia. }
  destruct (IH _ _ _ _ _ _ (kc' + k')%Z (cv' && c')%bool (fun x Hx => Hl x (or_intror Hx)) S' H) as (SM & k'' & c'' & EE).
  split; [assumption|]. exists k'', c''. cbn [foldM]. unfold loop_freq_step at 1. rewrite Er. cbn [bind]. rewrite E'. cbn [bind List.length colm map].
  cbn [shape_ok List.length forallb Nat.eqb andb need bind nth].
  rewrite colm_replace in EE. rewrite nth_vadd in EE by lia.
  rewrite colm_nth by (rewrite (proj1 S); assumption). rewrite vadd_one. exact EE.
Qed.

(** loop over the offsets *)
Let off_step (i : nat) (fEM o : list (list C)) :=
  map2 (fun r oi => replace r i (Cplus (nth i r (RtoC 0)) (nth 0 oi (RtoC 0)))) fEM o.
Lemma off_step_shp : forall i fEM o, shp nf w fEM -> shp nf 1 o -> shp nf w (off_step i fEM o).
Proof.
  intros i fEM o [L1 R1] [L2 R2]. unfold off_step. split; [rewrite map2_length; lia|]. intros r Hr.
  destruct (In_nth _ _ [] Hr) as (k & Hk & <-). rewrite map2_length in Hk.
  rewrite (map2_nth _ _ _ _ _ _ k [] [] []) by lia. rewrite replace_length. apply R1. apply nth_In. lia.
Qed.
Lemma off_step_col : forall i p (o fEM : list (list C)), (i < w)%nat -> List.length o = List.length fEM ->
  (forall r, In r fEM -> List.length r = w) ->
  colm p (off_step i fEM o) = if Nat.eqb p i then mat_add (colm p fEM) (colm 0 o) else colm p fEM.
Proof.
  intros i p o. induction o as [|x o IH]; intros [|r fEM] Hp L R; try discriminate.
  { destruct (Nat.eqb p i); reflexivity. }
  unfold off_step in *. cbn [map2 combine map fst snd]. unfold colm in *. cbn [map].
  specialize (IH fEM Hp ltac:(injection L; auto) (fun a b => R a (or_intror b))). unfold map2 in IH. rewrite IH.
  rewrite nth_replace by (rewrite R by (now left); assumption).
  destruct (Nat.eqb_spec p i) as [-> | N]; [|reflexivity]. rewrite mat_add_cons, vadd_one. reflexivity.
Qed.

Lemma off_one : forall fEM o : list (list C), List.length fEM = List.length o ->
  map2 (fun r oi => replace r 0 (Cplus (nth 0 r (RtoC 0)) (nth 0 oi (RtoC 0)))) (colm j fEM) o = mat_add (colm j fEM) (colm 0 o).
Proof.
  induction fEM as [|r fEM IH]; intros [|x o] L; try discriminate; [reflexivity|].
  unfold colm in *. cbn [map]. rewrite mat_add_cons, vadd_one. unfold map2 in *. cbn [combine map fst snd]. f_equal.
  apply IH. injection L; auto.
Qed.

Lemma off_column_before : forall l fEM kc cv M k c, (forall i, In i l -> (i < w)%nat) -> ~ In j l -> shp nf w fEM ->
  foldM (loop_off_step calc rows off ang xd) l (fEM, kc, cv) = Ok (M, k, c) -> shp nf w M /\ colm j M = colm j fEM.
Proof.
  induction l as [|i l IH]; intros fEM kc cv M k c Hl Nj S H.
  { injection H as <- _ _. split; [assumption|reflexivity]. }
  cbn [foldM] in H. apply bind_ok in H. destruct H as ([[M1 k1] c1] & E & H). unfold loop_off_step in E.
  apply bind_ok in E. destruct E as (of & _ & E). apply bind_ok in E. destruct E as (an & _ & E).
  apply bind_ok in E. destruct E as ([[o k2] c2] & _ & E3). apply bind_ok in E3. destruct E3 as (o' & E2 & E3). unfold need in E2.
  destruct (shape_ok (List.length rows) 1 o) eqn:SH; [|discriminate]. injection E2 as <-. injection E3 as <- _ _. apply shp_ok in SH.
  assert (S' := off_step_shp i fEM o S SH).
  destruct (IH _ _ _ _ _ _ (fun x Hx => Hl x (or_intror Hx)) (fun Hx => Nj (or_intror Hx)) S' H) as [SM EM]. split; [assumption|].
  rewrite EM. fold (off_step i fEM o). rewrite off_step_col; [|apply Hl; now left|rewrite (proj1 S), (proj1 SH); reflexivity|apply S].
  destruct (Nat.eqb_spec j i) as [-> | N]; [exfalso; apply Nj; now left|reflexivity].
Qed.

Lemma off_column : forall fEM kc cv M k c kc' cv', shp nf w fEM ->
  foldM (loop_off_step calc rows off ang xd) (seq 0 w) (fEM, kc, cv) = Ok (M, k, c) ->
  shp nf w M /\ exists k' c', foldM (loop_off_step calc rows [nth j off 0] [nth j ang 0] xd) (seq 0 1) (colm j fEM, kc', cv') = Ok (colm j M, k', c').
Proof.
  intros fEM kc cv M k c kc' cv' HS H.
  replace (seq 0 w) with (seq 0 j ++ j :: seq (j + 1) (w - (j + 1))) in H.
  2:{ replace (j :: seq (j + 1) (w - (j + 1))) with (seq (0 + j) (w - j)).
      { rewrite <- seq_app. f_equal. unfold w. lia. }
      replace (w - j)%nat with (Datatypes.S (w - (j + 1))) by (unfold w; lia). cbn [seq]. rewrite Nat.add_1_r. reflexivity. }
  rewrite foldM_app in H. apply bind_ok in H. destruct H as ([[M1 k1] c1] & E1 & H).
  destruct (off_column_before (seq 0 j) fEM kc cv M1 k1 c1) as [S1 C1]; try assumption.
  { intros i Hi. apply in_seq in Hi. unfold w. lia. } { intros Hi. apply in_seq in Hi. lia. }
  cbn [foldM] in H. apply bind_ok in H. destruct H as ([[M2 k2] c2] & E & H). unfold loop_off_step in E.
  apply bind_ok in E. destruct E as (of & I1 & E). apply bind_ok in E. destruct E as (an & I2 & E).
  apply bind_ok in E. destruct E as ([[o k3] c3] & E4 & E3). apply bind_ok in E3. destruct E3 as (o' & E2 & E3). unfold need in E2.
  destruct (shape_ok (List.length rows) 1 o) eqn:SH; [|discriminate]. injection E2 as <-. injection E3 as <- _ _.
  pose proof SH as SH'. apply shp_ok in SH'.
  assert (S' := off_step_shp j M1 o S1 SH').
  apply (off_column_before) in H; try assumption.
  2:{ intros i Hi. apply in_seq in Hi. unfold w in *. lia. } 2:{ intros Hi. apply in_seq in Hi. lia. }
  destruct H as [SM CM]. split; [assumption|].
  rewrite (idx_nth _ off j 0 Hj) in I1. rewrite (idx_nth _ ang j 0) in I2 by lia.
  injection I1 as <-. injection I2 as <-.
  exists (kc' + k3)%Z, (cv' && c3)%bool. cbn [seq foldM]. unfold loop_off_step.
  rewrite (idx_nth _ [nth j off 0] 0 0) by (cbn; lia). rewrite (idx_nth _ [nth j ang 0] 0 0) by (cbn; lia). cbn [bind nth].
  rewrite E4. cbn [bind]. rewrite SH. cbn [need bind]. f_equal. f_equal. f_equal. rewrite CM.
  fold (off_step j M1 o). rewrite off_step_col; [|assumption|rewrite (proj1 S1), (proj1 SH'); reflexivity|apply S1].
  rewrite Nat.eqb_refl, C1. apply off_one. rewrite (proj1 HS), (proj1 SH'). reflexivity.
Qed.
End FemCol.

(** both loop flags at once are impossible (check_loop); with both the frequencies are looped *)
Theorem fem_column : forall valid rdt calc ab off angle zs zr ls lr rows xdirect full ms mr lf lo cv M k c j,
  (ab <> 36%Z -> columnwise valid calc (match xdirect with None => true | Some b => b end)) -> rows <> [] ->
  List.length angle = List.length off -> (forall r, In r rows -> valid r) -> (forall o, In o off -> 0 < o) ->
  fem rdt calc ab off angle zs zr ls lr rows xdirect full ms mr lf lo cv = Ok (M, k, c) -> (j < List.length off)%nat ->
  shp (List.length rows) (List.length off) M /\
  exists k' c', fem rdt calc ab [nth j off 0] [nth j angle 0] zs zr ls lr rows xdirect full ms mr lf lo cv = Ok (colm j M, k', c').
Proof.
  intros valid rdt calc ab off angle zs zr ls lr rows xdirect full ms mr lf lo cv M k c j HC Hr La Hv Hp H Hj.
  unfold fem in *. destruct (inb ab [36]%Z) eqn:E36.
  { injection H as <- _ _. split; [apply shp_zeros|]. exists 0%Z, cv. cbn [List.length]. rewrite colm_zeros by assumption. reflexivity. }
  specialize (HC ltac:(intros ->; discriminate E36)).
  apply bind_ok in H. destruct H as (fE & EF & H).
  assert (SF : shp (List.length rows) (List.length off) fE /\
    (if (match xdirect with Some true => true | _ => false end && (full || (ls =? lr)%Z))%bool
     then f <- fullspace_arr rdt [nth j off 0] [nth j angle 0] zs zr lr rows ab ms mr ;; Ok (mat_add (mat_zeros (List.length rows) 1) f)
     else Ok (mat_zeros (List.length rows) 1)) = Ok (colm j fE)).
  { destruct (match xdirect with Some true => true | _ => false end && (full || (ls =? lr)%Z))%bool.
    - apply bind_ok in EF. destruct EF as (g & EG & EF). injection EF as <-.
      assert (Sg : shp (List.length rows) (List.length off) g) by (apply (fullspace_arr_shape _ _ _ _ _ _ _ _ _ _ _ La EG)).
      split; [apply shp_add; [apply shp_zeros|assumption]|].
      rewrite (fullspace_column _ _ _ _ _ _ _ _ _ _ g j La Hj EG). cbn [bind].
      rewrite (colm_add (List.length off) j Hj (List.length rows)) by (try assumption; apply shp_zeros).
      rewrite colm_zeros by assumption. reflexivity.
    - injection EF as <-. split; [apply shp_zeros|]. rewrite colm_zeros by assumption. reflexivity. }
  destruct SF as [SF EF1]. cbn [List.length]. rewrite EF1. cbn [bind].
  set (xd := match xdirect with None => true | Some b => b end) in *.
  destruct (negb (full && xd)).
  2:{ injection H as <- _ _. split; [assumption|]. exists 0%Z, cv. reflexivity. }
  cbn [map]. set (ang := map (fun a => angle_factor a ab ms mr) angle) in *.
  assert (Lang : List.length ang = List.length off) by (unfold ang; now rewrite map_length).
  assert (An : angle_factor (nth j angle 0) ab ms mr = nth j ang 0).
  { unfold ang. rewrite <- (map_nth (fun a => angle_factor a ab ms mr)).
    apply nth_indep. rewrite map_length; lia. }
  rewrite An. unfold fem_calc in *. destruct lf.
  - apply (freq_column valid calc xd rows off ang HC Lang Hv Hp j Hj) with (kc := 0%Z) (cv := cv) (k := k) (c := c); try assumption.
    intros i Hi. apply in_seq in Hi. lia.
  - destruct lo.
    + cbn [List.length]. apply (off_column calc xd rows off ang Lang j Hj) with (kc := 0%Z) (cv := cv) (k := k) (c := c); assumption.
    + apply (vec_column valid calc xd rows off ang HC Hr Lang Hv Hp j Hj fE 0%Z cv M k c SF H).
Qed.
