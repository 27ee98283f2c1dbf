(** The routine bipole: every element of the result is the response of its own source
    and receiver. *)

From Coq Require Import ZArith Reals List Bool String Lia Lra.
From Coquelicot Require Import Coquelicot.
From Verif Require Import PyBase CBase Kernel Utils UtilsLayer UtilsFreq UtilsGeo UtilsSurvey Transform TransformDlf Fullspace Model ModelFem Routines RoutinesThm Bipole BipoleCol.
Import ListNotations.
Local Open Scope R_scope.
Local Open Scope res_scope.

(** ** Columns of the array operations *)
Lemma row_nth_map2 : forall {A B D} (f : A -> B -> D) a b j da db dd, List.length a = List.length b -> (j < List.length a)%nat ->
  nth j (map2 f a b) dd = f (nth j a da) (nth j b db).
Proof. intros. rewrite (map2_nth _ _ _ _ _ _ j da db dd) by lia. reflexivity. Qed.

Lemma nth_mapC : forall (f : C -> C) l j, (j < List.length l)%nat -> nth j (map f l) (RtoC 0) = f (nth j l (RtoC 0)).
Proof. intros f l j H. rewrite <- (map_nth f). apply nth_indep. now rewrite map_length. Qed.

Lemma scale_cols_col : forall n w j v M, shp n w M -> List.length v = w -> (j < w)%nat ->
  colm j (scale_cols v M) = scale_cols [nth j v 0] (colm j M).
Proof.
  intros n w j v M [_ R] L Hj. unfold colm, scale_cols. rewrite !map_map. apply map_ext_in. intros row Hr.
  cbn. rewrite (row_nth_map2 _ _ _ j (RtoC 0) 0) by (rewrite R by assumption; lia). reflexivity.
Qed.
Lemma scale_cols_shp : forall n w v M, shp n w M -> List.length v = w -> shp n w (scale_cols v M).
Proof.
  intros n w v M [A B] L. split; [unfold scale_cols; now rewrite map_length|]. intros r Hr. apply in_map_iff in Hr.
  destruct Hr as (x & <- & Hx). rewrite map2_length, (B x Hx), L. apply Nat.min_id.
Qed.
Lemma scale_mat_col : forall n w j x M, shp n w M -> (j < w)%nat -> colm j (scale_mat x M) = scale_mat x (colm j M).
Proof.
  intros n w j x M [_ R] Hj. unfold colm, scale_mat. rewrite !map_map. apply map_ext_in. intros row Hr.
  cbn [map]. rewrite nth_mapC by (rewrite R; assumption). reflexivity.
Qed.
Lemma scale_mat_shp : forall n w x M, shp n w M -> shp n w (scale_mat x M).
Proof.
  intros n w x M [A B]. split; [unfold scale_mat; now rewrite map_length|]. intros r Hr. apply in_map_iff in Hr.
  destruct Hr as (y & <- & Hy). rewrite map_length. auto.
Qed.
Lemma scale_rows_col : forall w j (v : list C) M, (forall r, In r M -> List.length r = w) -> (j < w)%nat ->
  colm j (scale_rows v M) = scale_rows v (colm j M).
Proof.
  intros w j v M R Hj. unfold colm, scale_rows, map2. revert M R. induction v as [|x v IH]; intros [|row M] R; try reflexivity.
  cbn [combine map fst snd]. rewrite IH by (intros; apply R; now right). f_equal. cbn [map].
  rewrite nth_mapC by (rewrite R; [assumption|now left]). reflexivity.
Qed.
Lemma scale_rows_shp : forall n w (v : list C) M, shp n w M -> List.length v = n -> shp n w (scale_rows v M).
Proof.
  intros n w v M [A B] L. unfold scale_rows. split; [rewrite map2_length; lia|]. intros r Hr.
  unfold map2 in Hr. apply in_map_iff in Hr. destruct Hr as ([x y] & <- & Hy). cbn. rewrite map_length. apply B. apply (in_combine_r _ _ _ _ Hy).
Qed.
Lemma scale_zero : forall n M E, shp n 1 M -> shp n 1 E -> mat_add E (scale_cols [0] M) = E.
Proof.
  intros n M E SM SE. revert n M E SM SE. apply (shp_ind 1 (fun n M E => mat_add E (scale_cols [0] M) = E)); [reflexivity|].
  intros n a A b B La Lb _ _ IH. unfold scale_cols in *. cbn [map]. rewrite mat_add_cons, IH. f_equal.
  destruct a as [|x [|? ?]]; try discriminate. destruct b as [|y [|? ?]]; try discriminate.
  unfold map2. cbn. unfold vadd, map2. cbn. f_equal. rewrite Cmult_0_r. apply Cplus_0_r.
Qed.

(** ** Geometrical factors *)
Lemma bcast_map : forall {A B} (f : A -> B) n l, bcast n (map f l) = map f (bcast n l).
Proof.
  intros A B f n l. destruct l as [|a [|b l]]; try reflexivity. cbn [map]. unfold bcast.
  induction n; [reflexivity|]. cbn. now rewrite IHn.
Qed.
Lemma bcast_length : forall {A} n (l : list A), (List.length l = 1 \/ List.length l = n)%nat -> List.length (bcast n l) = n.
Proof. intros A n [|a [|b l]] [H|H]; cbn in H; try lia; try discriminate; try assumption; cbn [bcast]; now rewrite ?repeat_length. Qed.

Definition one_or (c : nat) (l : list R) : Prop := (List.length l = 1 \/ List.length l = c)%nat.

Lemma zip_length : forall c a d, (0 < c)%nat -> one_or c a -> one_or c d ->
  (List.length (zipbc a d) = 1 \/ List.length (zipbc a d) = c)%nat.
Proof.
  intros c a d Hc Ha Hd. unfold zipbc. rewrite combine_length.
  assert (M : (Nat.max (List.length a) (List.length d) = 1 \/ Nat.max (List.length a) (List.length d) = c)%nat)
    by (destruct Ha as [-> | ->], Hd as [-> | ->]; lia).
  rewrite !bcast_length, Nat.min_id; [assumption| |];
  destruct Ha as [-> | ->], Hd as [-> | ->]; lia.
Qed.
Lemma zip_nth : forall c a d s, (s < c)%nat -> one_or c a -> one_or c d ->
  nth s (bcast c (zipbc a d)) (0, 0) = (coord a s, coord d s).
Proof.
  intros c a d s Hs Ha Hd. unfold zipbc.
  destruct (Nat.eq_dec c 1) as [-> | Nc].
  { assert (s = 0%nat) by lia. subst s. destruct a as [|x [|? ?]]; destruct Ha as [Ha|Ha]; try discriminate.
    all: destruct d as [|y [|? ?]]; destruct Hd as [Hd|Hd]; try discriminate; reflexivity. }
  destruct Ha as [Ha|Ha], Hd as [Hd|Hd].
  - destruct a as [|x [|? ?]]; try discriminate. destruct d as [|y [|? ?]]; try discriminate. cbn. now rewrite nth_repeat'.
  - assert (M : Nat.max (List.length a) (List.length d) = c) by lia. rewrite M.
    rewrite (bcast_id (combine _ _)) by (rewrite combine_length, !bcast_length; unfold one_or; auto; lia).
    rewrite combine_nth by (rewrite !bcast_length; unfold one_or; auto). now rewrite !coord_bcast by (try assumption; auto).
  - assert (M : Nat.max (List.length a) (List.length d) = c) by lia. rewrite M.
    rewrite (bcast_id (combine _ _)) by (rewrite combine_length, !bcast_length; unfold one_or; auto; lia).
    rewrite combine_nth by (rewrite !bcast_length; unfold one_or; auto). now rewrite !coord_bcast by (try assumption; auto).
  - assert (M : Nat.max (List.length a) (List.length d) = c) by lia. rewrite M.
    rewrite (bcast_id (combine _ _)) by (rewrite combine_length, !bcast_length; unfold one_or; auto; lia).
    rewrite combine_nth by (rewrite !bcast_length; unfold one_or; auto). now rewrite !coord_bcast by (try assumption; auto).
Qed.

Lemma geo_nth : forall m ab sa sd ra rd ms mr cs cr t s r, (s < cs)%nat -> (r < cr)%nat ->
  one_or cs sa -> one_or cs sd -> one_or cr ra -> one_or cr rd ->
  bcast2 cr cs (get_geo_fact m ab sa sd ra rd ms mr) = Ok t ->
  List.length t = (cs * cr)%nat /\
  nth (s * cr + r) t 0 = geo_fact1 m ab (coord sa s) (coord sd s) (coord ra r) (coord rd r) ms mr.
Proof.
  intros m ab sa sd ra rd ms mr cs cr t s r Hs Hr Hsa Hsd Hra Hrd H. unfold bcast2 in H.
  destruct (_ && _)%bool; [|discriminate]. injection H as <-.
  split.
  - rewrite (flat_map_length_const _ _ _ cr); [now rewrite seq_length|]. intros. now rewrite map_length, seq_length.
  - rewrite (nth_flat_map _ _ _ cr _ s r 0%nat); [|intros; now rewrite map_length, seq_length|now rewrite seq_length|assumption].
    rewrite seq_nth by assumption. cbn [plus].
    match goal with |- nth r (map ?F _) 0 = _ => rewrite (nth_indep _ 0 (F 0%nat)) by (now rewrite map_length, seq_length); rewrite (map_nth F) end.
    rewrite seq_nth by assumption. rewrite !Nat.add_0_l. unfold get_geo_fact, outer. rewrite bcast_map.
    match goal with |- nth s (bcast cs (nth r (map ?F ?L) [])) 0 = _ =>
      rewrite (nth_indep (map F L) [] (F (0, 0))) by (rewrite map_length, bcast_length; [assumption|now apply zip_length; try lia]); rewrite (map_nth F L) end.
    rewrite zip_nth by assumption. rewrite bcast_map.
    match goal with |- nth s (map ?F ?L) 0 = _ =>
      rewrite (nth_indep (map F L) 0 (F (0, 0))) by (rewrite map_length, bcast_length; [assumption|now apply zip_length; try lia]); rewrite (map_nth F L) end.
    rewrite zip_nth by assumption. reflexivity.
Qed.

(** ** One element of a list of poles *)
Record elem (c s : nat) (T T1 : azmdip) : Prop := {
  e_pts : t_pts T1 = t_pts T;
  e_lx : forall g, (g < t_pts T)%nat -> List.length (stride 0 g (t_pts T) (t_x T)) = c;
  e_ly : forall g, (g < t_pts T)%nat -> List.length (stride 0 g (t_pts T) (t_y T)) = c;
  e_x : forall g, (g < t_pts T)%nat -> stride 0 g (t_pts T) (t_x T1) = [nth s (stride 0 g (t_pts T) (t_x T)) 0];
  e_y : forall g, (g < t_pts T)%nat -> stride 0 g (t_pts T) (t_y T1) = [nth s (stride 0 g (t_pts T) (t_y T)) 0];
  e_z : forall g, (g < t_pts T)%nat -> idx (t_z T1) (Z.of_nat g) = idx (t_z T) (Z.of_nat g);
  e_gw : forall g, (g < t_pts T)%nat -> idx (t_gw T1) (Z.of_nat g) = idx (t_gw T) (Z.of_nat g);
  e_azm : t_azm T1 = [coord (t_azm T) s]; e_lazm : one_or c (t_azm T);
  e_dip : t_dip T1 = [coord (t_dip T) s]; e_ldip : one_or c (t_dip T);
  e_w : t_w T1 = [nth s (t_w T) 0]; e_lw : List.length (t_w T) = c }.

(** an angle is exactly a multiple of 90 degrees, or not taken for one *)
Definition clean (x : R) : Prop := isclose0 (mod90 x) = true -> mod90 x = 0.

(** [thin P l l']: l' is l without some of the elements with property P *)
Inductive thin (P : Z -> Prop) : list Z -> list Z -> Prop :=
| thin_nil : thin P [] []
| thin_keep : forall x l l', thin P l l' -> thin P (x :: l) (x :: l')
| thin_drop : forall x l l', P x -> thin P l l' -> thin P (x :: l) l'.

Lemma thin_app : forall P a a' b b', thin P a a' -> thin P b b' -> thin P (a ++ b) (a' ++ b').
Proof. intros P a a' b b' H K. induction H; cbn; [assumption|now constructor|now constructor]. Qed.
Lemma thin_refl : forall P l, thin P l l.
Proof. intros P. induction l; now constructor. Qed.

Lemma axis_one : forall l x v, axis_of l = Some v -> In x l -> axis_of [x] = Some v.
Proof.
  intros l x v H I. unfold axis_of in *. destruct (forallb (fun x => isclose0 (mod90 x)) l) eqn:E; [|discriminate].
  rewrite forallb_forall in E. cbn [forallb]. rewrite (E x I). cbn [andb].
  destruct (forallb (fun x => (quad90 x =? 0)%Z) l) eqn:E0.
  - injection H as <-. rewrite forallb_forall in E0. now rewrite (E0 x I).
  - destruct (forallb (fun x => (quad90 x =? 1)%Z) l) eqn:E1; [|discriminate]. injection H as <-.
    rewrite forallb_forall in E1. specialize (E1 x I). rewrite E1. apply Z.eqb_eq in E1. rewrite E1. reflexivity.
Qed.

Lemma keep_one : forall A D a d k, In a A -> In d D -> keep_dir [a] [d] k = true -> keep_dir A D k = true.
Proof.
  intros A D a d k Ha Hd H. unfold keep_dir in *. apply andb_true_iff in H. destruct H as [H1 H2]. apply andb_true_iff. split.
  - destruct (axis_of A) as [v|] eqn:E; [|reflexivity]. rewrite (axis_one A a v E Ha) in H1. exact H1.
  - destruct (axis_of D) as [v|] eqn:E; [|reflexivity]. rewrite (axis_one D d v E Hd) in H2. exact H2.
Qed.

Lemma axis_zero : forall x, clean x -> axis_of [x] = Some 0%Z -> sin x = 0.
Proof.
  intros x Cx H. unfold axis_of in H. cbn [forallb] in H. rewrite !andb_true_r in H. destruct (isclose0 (mod90 x)) eqn:E; [|discriminate].
  destruct (quad90 x =? 0)%Z eqn:E0; [|destruct (quad90 x =? 1)%Z; discriminate].
  apply Z.eqb_eq in E0. destruct (quad_even x E0) as [n Hn]. rewrite (Cx E), Rplus_0_r in Hn. rewrite Hn.
  rewrite <- (Rplus_0_r (IZR n * PI)). pose proof (sin_nPI n 0) as P. rewrite sin_0, Rabs_R0 in P.
  destruct (Req_dec (sin (IZR n * PI + 0)) 0) as [Z|Z]; [assumption|]. apply Rabs_no_R0 in Z. contradiction.
Qed.
Lemma axis_zero_odd : forall x, clean x -> axis_of [x] = Some 1%Z -> cos x = 0.
Proof.
  intros x Cx H. unfold axis_of in H. cbn [forallb] in H. rewrite !andb_true_r in H. destruct (isclose0 (mod90 x)) eqn:E; [|discriminate].
  destruct (quad90 x =? 0)%Z eqn:E0; [discriminate|]. destruct (quad90 x =? 1)%Z eqn:E1; [|discriminate].
  apply Z.eqb_eq in E1. destruct (quad_odd x E1) as [n Hn]. rewrite (Cx E) in Hn. rewrite Hn, cos_sin.
  replace (PI / 2 + (IZR n * PI + (PI / 2 + 0))) with (IZR n * PI + PI) by lra. pose proof (sin_nPI n PI) as P. rewrite sin_PI, Rabs_R0 in P.
  destruct (Req_dec (sin (IZR n * PI + PI)) 0) as [Z|Z]; [assumption|]. apply Rabs_no_R0 in Z. contradiction.
Qed.

Lemma drop_zero : forall a d k, clean a -> clean d -> (1 <= k <= 3)%Z -> keep_dir [a] [d] k = false -> unitv k a d = 0.
Proof.
  intros a d k Ca Cd Hk H. unfold keep_dir in H. apply andb_false_iff in H.
  assert (AX : forall x v, axis_of [x] = Some v -> v = 0%Z \/ v = 1%Z).
  { intros x v E. unfold axis_of in E. destruct (forallb _ _); [|discriminate]. destruct (forallb _ _); [injection E as <-; auto|].
    destruct (forallb _ _); [injection E as <-; auto|discriminate]. }
  destruct H as [H|H].
  - destruct (axis_of [a]) as [v|] eqn:E; [|discriminate]. destruct (AX a v E) as [-> | ->].
    + destruct (dir123 k Hk) as [-> | [-> | ->]]; try discriminate. unfold unitv. cbn. rewrite (axis_zero a Ca E). ring.
    + destruct (dir123 k Hk) as [-> | [-> | ->]]; try discriminate. unfold unitv. cbn. rewrite (axis_zero_odd a Ca E). ring.
  - destruct (axis_of [d]) as [v|] eqn:E; [|discriminate]. destruct (AX d v E) as [-> | ->].
    + destruct (dir123 k Hk) as [-> | [-> | ->]]; try discriminate. unfold unitv. cbn. apply (axis_zero d Cd E).
    + destruct (dir123 k Hk) as [-> | [-> | ->]]; try discriminate; unfold unitv; cbn; rewrite (axis_zero_odd d Cd E); ring.
Qed.

(** the components of the pair are those of the survey, up to components with factor zero *)
Lemma abs_thin : forall m ms mr SA SD RA RD sa sd ra rd, In sa SA -> In sd SD -> In ra RA -> In rd RD ->
  clean sa -> clean sd -> clean ra -> clean rd ->
  thin (fun ab => geo_fact1 m ab sa sd ra rd ms mr = 0) (get_abs ms mr SA SD RA RD) (get_abs ms mr [sa] [sd] [ra] [rd]).
Proof.
  intros m ms mr SA SD RA RD sa sd ra rd Isa Isd Ira Ird Csa Csd Cra Crd. rewrite !get_abs_pairs.
  assert (G : forall l, (forall p, In p l -> (1 <= fst p <= 3 /\ 1 <= snd p <= 3)%Z) ->
    thin (fun ab => geo_fact1 m ab sa sd ra rd ms mr = 0)
      (flat_map (fun rs => if (keep_dir RA RD (fst rs) && keep_dir SA SD (snd rs))%bool then [ab_entry ms mr (fst rs) (snd rs)] else []) l)
      (flat_map (fun rs => if (keep_dir [ra] [rd] (fst rs) && keep_dir [sa] [sd] (snd rs))%bool then [ab_entry ms mr (fst rs) (snd rs)] else []) l)).
  { induction l as [|p l IH]; intros Hl; [constructor|]. cbn [flat_map]. apply thin_app; [|apply IH; intros; apply Hl; now right].
    destruct (Hl p (or_introl eq_refl)) as [P1 P2].
    destruct (keep_dir [ra] [rd] (fst p)) eqn:K1; [destruct (keep_dir [sa] [sd] (snd p)) eqn:K2|]; cbn [andb].
    - rewrite (keep_one RA RD ra rd (fst p) Ira Ird K1), (keep_one SA SD sa sd (snd p) Isa Isd K2). apply thin_refl.
    - destruct (keep_dir RA RD (fst p) && keep_dir SA SD (snd p))%bool; [|constructor]. constructor; [|constructor].
      rewrite geo_entry by assumption. cbn zeta. rewrite (drop_zero sa sd (snd p)), Rmult_0_r by assumption. destruct (Rltb _ _); reflexivity.
    - destruct (keep_dir RA RD (fst p) && keep_dir SA SD (snd p))%bool; [|constructor]. constructor; [|constructor].
      rewrite geo_entry by assumption. cbn zeta. rewrite (drop_zero ra rd (fst p)), Rmult_0_l by assumption. destruct (Rltb _ _); reflexivity. }
  apply G. intros p Hp. unfold pairs9, dirs in Hp. cbn in Hp. decompose [or] Hp; subst; cbn; try lia; contradiction.
Qed.

Lemma abs_entries : forall ms mr SA SD RA RD ab, In ab (get_abs ms mr SA SD RA RD) ->
  exists r s, (1 <= r <= 3)%Z /\ (1 <= s <= 3)%Z /\ ab = ab_entry ms mr r s.
Proof.
  intros ms mr SA SD RA RD ab H. rewrite get_abs_pairs in H. apply in_flat_map in H. destruct H as (p & Hp & H).
  destruct (_ && _)%bool; [|contradiction]. destruct H as [<-|[]]. exists (fst p), (snd p).
  unfold pairs9, dirs in Hp. cbn in Hp. decompose [or] Hp; subst; cbn; repeat split; try lia; contradiction.
Qed.

Lemma thin_In : forall P l l' x, thin P l l' -> In x l' -> In x l.
Proof. intros P l l' x H. induction H; intros I; [assumption|destruct I; [left|right]; auto|right; auto]. Qed.
