(** Survey expansion and finite-length bipoles: list-level proofs. *)
From Coq Require Import Reals ZArith List Bool String Lia Lra Psatz.
From Coquelicot Require Import Coquelicot.
From Verif Require Import PyBase CBase Utils UtilsLayer UtilsModel UtilsFreq UtilsGeo.
Import ListNotations.
Local Open Scope R_scope.
Local Open Scope res_scope.

(** ** Finite bipoles *)
(** Quadrature points between c0 and c1 for nodes g in [-1, 1]; bipole after
    bipole. *)
Definition seg_points (gx c0 c1 : list R) : list R :=
  flat_map (fun p => map (fun g => (1 - g) / 2 * fst p + (1 + g) / 2 * snd p) gx) (combine c0 c1).

(** The vector with the given length, azimuth and dip is the one from the first
    to the second electrode. *)
Definition spans (l a d x0 x1 y0 y1 z0 z1 : R) : Prop :=
  0 < l /\ l * unitv 1 a d = x1 - x0 /\ l * unitv 2 a d = y1 - y0 /\ l * unitv 3 a d = z1 - z0.

Lemma bcast_id : forall {A} (l : list A) n, List.length l = n -> bcast n l = l.
Proof. intros A [|a [|b l]] n <-; reflexivity. Qed.
Lemma bcast_one : forall {A} (a : A) n, bcast n [a] = repeat a n.
Proof. reflexivity. Qed.

Record seg := { g_x0 : R; g_x1 : R; g_y0 : R; g_y1 : R }.
Definition distinct (z0 z1 : R) (s : seg) : Prop :=
  g_x1 s - g_x0 s <> 0 \/ g_y1 s - g_y0 s <> 0 \/ z1 - z0 <> 0.
Definition slen z0 z1 s := bip_len (g_x1 s - g_x0 s) (g_y1 s - g_y0 s) (z1 - z0).
Definition sazm s := bip_azm (g_x1 s - g_x0 s) (g_y1 s - g_y0 s).
Definition sdip z0 z1 s := bip_dip (g_x1 s - g_x0 s) (g_y1 s - g_y0 s) (z1 - z0).

Definition nodes (gl : Z -> list R * list R) (k : Z) : list R := if (2 <? k)%Z then fst (gl k) else [0].
Definition weights (gl : Z -> list R * list R) (k : Z) : list R :=
  if (2 <? k)%Z then map (fun v => v / 2) (snd (gl k)) else [1].
Definition bscale (src : bool) (strength l : R) : R :=
  if Rltb 0 strength then (if src then l * strength else l) else 1.

Lemma map2_map : forall {X A B D} (f : A -> B -> D) (u : X -> A) (v : X -> B) l,
  map2 f (map u l) (map v l) = map (fun x => f (u x) (v x)) l.
Proof. intros. unfold map2. induction l; simpl; congruence. Qed.
Lemma combine_map : forall {X A B} (u : X -> A) (v : X -> B) l,
  combine (map u l) (map v l) = map (fun x => (u x, v x)) l.
Proof. induction l; simpl; congruence. Qed.

Lemma rep_map : forall {X A} (b : A) (l : list X), repeat b (List.length l) = map (fun _ => b) l.
Proof. induction l; simpl; congruence. Qed.
Lemma flat_map_map : forall {X Y Z'} (f : Y -> list Z') (g : X -> Y) l, flat_map f (map g l) = flat_map (fun x => f (g x)) l.
Proof. induction l; simpl; congruence. Qed.
Lemma flat_map_ext_in : forall {X Y} (f g : X -> list Y) l, (forall x, In x l -> f x = g x) -> flat_map f l = flat_map g l.
Proof. induction l; intros H; simpl; [reflexivity|]. rewrite H by (simpl; auto). f_equal. apply IHl. intros. apply H. simpl; auto. Qed.

Lemma flat_map_single : forall {X Y} (f : X -> Y) l, flat_map (fun x => [f x]) l = map f l.
Proof. induction l; simpl; congruence. Qed.

Lemma map2_one : forall {A B D} (f : A -> B -> D) a b, map2 f [a] [b] = [f a b].
Proof. reflexivity. Qed.
Ltac norml := repeat first [rewrite map2_map | rewrite map2_one | rewrite (bcast_id (map _ _)) by (rewrite ?map_length; reflexivity)
  | rewrite bcast_one | rewrite map_length | rewrite rep_map | rewrite combine_map | rewrite map_map | rewrite flat_map_map]; cbn [fst snd].

Theorem bipole_discretisation : forall m gl segs z0 z1 k strength src, segs <> [] ->
  (forall s, In s segs -> distinct z0 z1 s) ->
  get_azm_dip m gl [map g_x0 segs; map g_x1 segs; map g_y0 segs; map g_y1 segs; [z0]; [z1]] 0 1 k false strength src =
  Ok {| t_x := map (round_dec (rndco m)) (seg_points (nodes gl k) (map g_x0 segs) (map g_x1 segs));
        t_y := map (round_dec (rndco m)) (seg_points (nodes gl k) (map g_y0 segs) (map g_y1 segs));
        t_z := map (round_dec (rndco m)) (seg_points (nodes gl k) [z0] [z1]);
        t_azm := map sazm segs; t_dip := map (sdip z0 z1) segs;
        t_gw := weights gl k; t_pts := if (2 <? k)%Z then Z.to_nat k else 1;
        t_w := map (fun s => bscale src strength (slen z0 z1 s)) segs |}.
Proof.
  intros m gl segs z0 z1 k strength src Hne Hd.
  unfold get_azm_dip. cbn [mapM Nat.eqb bind].
  norml.
  unfold nodes, weights.
  destruct (2 <? k)%Z.
  - destruct (gl k) as [gx gw]. cbn [fst snd]. f_equal.
    norml.
    unfold seg_points. rewrite !combine_map, !flat_map_map. cbn [fst snd combine flat_map]. rewrite app_nil_r.
    assert (B : forall s, In s segs -> spans (slen z0 z1 s) (sazm s) (sdip z0 z1 s) (g_x0 s) (g_x1 s) (g_y0 s) (g_y1 s) z0 z1).
    { intros s Hs. apply bip_direction. apply Hd, Hs. }
    f_equal; auto.
    + f_equal. apply flat_map_ext_in. intros s Hs. apply map_ext. intros g.
      destruct (B s Hs) as [_ [X _]]. unfold unitv in X. simpl in X. fold (slen z0 z1 s) (sazm s) (sdip z0 z1 s).
      replace (slen z0 z1 s / 2 * (cos (sdip z0 z1 s) * cos (sazm s))) with (slen z0 z1 s * (cos (sazm s) * cos (sdip z0 z1 s)) / 2) by lra.
      rewrite X. lra.
    + f_equal. apply flat_map_ext_in. intros s Hs. apply map_ext. intros g.
      destruct (B s Hs) as [_ [_ [Y _]]]. unfold unitv in Y. simpl in Y. fold (slen z0 z1 s) (sazm s) (sdip z0 z1 s).
      replace (slen z0 z1 s / 2 * (cos (sdip z0 z1 s) * sin (sazm s))) with (slen z0 z1 s * (sin (sazm s) * cos (sdip z0 z1 s)) / 2) by lra.
      rewrite Y. lra.
    + f_equal. destruct segs as [|s segs]; [congruence|]. cbn [flat_map]. rewrite firstn_app, map_length, Nat.sub_diag, firstn_O, app_nil_r.
      rewrite firstn_all2 by (rewrite map_length; lia). apply map_ext. intros g.
      destruct (B s) as [_ [_ [_ Zq]]]; [simpl; auto|]. unfold unitv in Zq. simpl in Zq. fold (slen z0 z1 s) (sdip z0 z1 s).
      replace (slen z0 z1 s / 2 * sin (sdip z0 z1 s)) with (slen z0 z1 s * sin (sdip z0 z1 s) / 2) by lra.
      rewrite Zq. lra.
  - f_equal. norml. unfold seg_points. rewrite !combine_map, !flat_map_map. cbn [map fst snd combine flat_map app].
    rewrite !flat_map_single. norml. f_equal.
    + apply map_ext. intros. apply f_equal. lra.
    + apply map_ext. intros. apply f_equal. lra.
    + apply f_equal2; [|reflexivity]. apply f_equal. lra.
Qed.

(** With several depths only the bipole or dipole number iz is used. *)
Lemma idx_in : forall (l : list R) iz n, List.length l = n -> (iz < n)%nat -> idx l (Z.of_nat iz) = Ok (nth iz l 0).
Proof. intros l iz n <- H. apply idx_nth; unfold zlen; lia. Qed.

Theorem several_depths : forall m gl arr n iz nz k isd strength src, nz <> 1%nat -> (iz < n)%nat ->
  (forall l, In l arr -> List.length l = n) ->
  get_azm_dip m gl arr iz nz k isd strength src =
  get_azm_dip m gl (map (fun l => [nth iz l 0]) arr) 0 1 k isd strength src.
Proof.
  intros m gl arr n iz nz k isd strength src Hnz Hiz Hl. unfold get_azm_dip.
  apply Nat.eqb_neq in Hnz. rewrite Hnz.
  assert (E : mapM (fun l => if false then Ok l else v <- idx l (Z.of_nat iz) ;; Ok [v]) arr = Ok (map (fun l => [nth iz l 0]) arr)).
  { clear Hnz. induction arr as [|l arr IH]; [reflexivity|]. cbn [mapM map]. rewrite (idx_in l iz n) by (auto; apply Hl; simpl; auto).
    cbn [bind]. rewrite IH by (intros; apply Hl; simpl; auto). reflexivity. }
  assert (E1 : forall a : list (list R), mapM (fun l => if (1 =? 1)%nat then Ok l else v <- idx l (Z.of_nat 0) ;; Ok [v]) a = Ok a).
  { induction a as [|l a IH]; [reflexivity|]. cbn [mapM Nat.eqb] in *. cbn [bind]. rewrite IH. reflexivity. }
  rewrite E, E1. cbn [bind]. destruct isd; [reflexivity|].
  destruct arr as [|x0 [|x1 [|y0 [|y1 [|z0 [|z1 [|w arr]]]]]]]; try reflexivity.
  cbn [map]. destruct (2 <? k)%Z; [|reflexivity]. destruct (gl k) as [gx gw].
  f_equal. f_equal. cbn [Nat.eqb]. f_equal. cbn -[firstn]. rewrite app_nil_r. rewrite firstn_all2; [reflexivity|rewrite map_length; lia].
Qed.

(** Spec-level facts about the points: they lie on the segment, the mid point
    for a single node, and the weights add up to one. *)
Lemma seg_between : forall g a b, -1 <= g <= 1 -> Rmin a b <= (1 - g) / 2 * a + (1 + g) / 2 * b <= Rmax a b.
Proof. intros g a b H. unfold Rmin, Rmax. destruct (Rle_dec a b); nra. Qed.

Lemma weights_sum : forall gl k, fold_right Rplus 0 (snd (gl k)) = 2 -> fold_right Rplus 0 (weights gl k) = 1.
Proof.
  intros gl k H. unfold weights. destruct (2 <? k)%Z; [|simpl; ring].
  assert (S : forall l, fold_right Rplus 0 (map (fun v => v / 2) l) = fold_right Rplus 0 l / 2).
  { induction l; simpl; [lra|]. rewrite IHl. lra. }
  rewrite S, H. lra.
Qed.

Lemma bip_spans : forall z0 z1 s, distinct z0 z1 s ->
  spans (slen z0 z1 s) (sazm s) (sdip z0 z1 s) (g_x0 s) (g_x1 s) (g_y0 s) (g_y1 s) z0 z1.
Proof. intros. now apply bip_direction. Qed.

(** ** Survey expansion *)
(** The value of an input for pole number i: a single value applies to all. *)
Definition coord (l : list R) (i : nat) : R := match l with [a] => a | _ => nth i l 0 end.
Definition sizes (inp : list ndin) : nat := fold_right Nat.max 0%nat (map nd_size inp).
(** One-dimensional with one value or as many as the largest input. *)
Definition okshape (n : nat) (v : ndin) : bool :=
  match v with
  | NdBad => false
  | Nd sh _ => shape_eqb [1%nat] (atleast1 sh) || shape_eqb [n] (atleast1 sh)
  end.

Lemma check_var_ok : forall n v, nd_wf v -> okshape n v = true ->
  exists sh, check_var v [1%nat] [n] = Ok (sh, nd_data v) /\ (List.length (nd_data v) = 1 \/ List.length (nd_data v) = n)%nat.
Proof.
  intros n [sh d|] Hw H; simpl in H; [|discriminate]. exists (atleast1 sh).
  unfold check_var, check_shape. unfold nd_wf in Hw.
  assert (L : List.length d = fold_right Nat.mul 1%nat (atleast1 sh)) by (rewrite Hw; destruct sh; reflexivity).
  apply orb_true_iff in H.
  destruct (shape_eqb [1%nat] (atleast1 sh)) eqn:E1.
  - split; [reflexivity|]. left. unfold shape_eqb in E1. destruct (list_eq_dec _ _ _) as [e|]; [|discriminate].
    rewrite <- e in L. exact L.
  - destruct H as [H|H]; [discriminate|]. rewrite H. split; [reflexivity|]. right.
    unfold shape_eqb in H. destruct (list_eq_dec _ _ _) as [e|]; [|discriminate].
    rewrite <- e in L. simpl in L. simpl. lia.
Qed.
Lemma check_var_bad : forall n v, okshape n v = false -> check_var v [1%nat] [n] = Err ValueError.
Proof.
  intros n [sh d|] H; [|reflexivity]. simpl in H. apply orb_false_iff in H. destruct H as [H1 H2].
  unfold check_var, check_shape. rewrite H1, H2. reflexivity.
Qed.

Lemma coord_bcast : forall (l : list R) n i, (i < n)%nat -> (List.length l = 1 \/ List.length l = n)%nat -> nth i (bcast n l) 0 = coord l i.
Proof.
  intros l n i Hi H. destruct l as [|a [|b l]].
  - simpl in H. lia.
  - simpl. clear H. revert i Hi. induction n; intros [|i] Hi; simpl; try lia; auto. apply IHn. lia.
  - reflexivity.
Qed.
Lemma expand_length : forall (l : list R) n, (List.length l = 1 \/ List.length l = n)%nat -> List.length (bcast n l) = n.
Proof. intros l n H. destruct l as [|a [|b l]]; simpl in *; [lia|apply repeat_length|lia]. Qed.

(** All depths equal within 1e-8: one value is kept. *)
Definition depths (z : list R) : list R :=
  match z with
  | [] => []
  | z0 :: _ => if forallb (fun v => isclose0 (v - z0)) z then [z0] else z
  end.
Lemma isclose_00 : forall a, isclose0 (a - a) = true.
Proof. intros. apply isclose0_true. rewrite Rminus_eq_0, Rabs_R0. left. apply Rinv_0_lt_compat, pow_lt. lra. Qed.
Lemma depths_length : forall (z : list R) n, (0 < n)%nat -> (List.length z = 1 \/ List.length z = n)%nat ->
  (List.length (depths z) = 1 \/ (List.length (depths z) = n /\ depths z = z))%nat.
Proof.
  intros [|z0 z] n Hn H; simpl in H; [lia|]. unfold depths. destruct (forallb _ _); [left; reflexivity|].
  simpl. destruct H as [H|H]; [left; exact H|right; split; [exact H|reflexivity]].
Qed.
Lemma depths_close : forall z n i, (0 < n)%nat -> (i < n)%nat -> (List.length z = 1 \/ List.length z = n)%nat ->
  Rabs (coord (depths z) i - coord z i) <= / 10 ^ 8.
Proof.
  intros [|z0 z] n i Hn Hi H; simpl in H; [lia|]. unfold depths.
  assert (P : 0 <= / 10 ^ 8) by (left; apply Rinv_0_lt_compat, pow_lt; lra).
  destruct (forallb (fun v => isclose0 (v - z0)) (z0 :: z)) eqn:E.
  - rewrite forallb_forall in E. simpl coord at 1. destruct z as [|z1 z].
    + simpl. rewrite Rminus_eq_0, Rabs_R0. exact P.
    + replace (coord (z0 :: z1 :: z) i) with (nth i (z0 :: z1 :: z) 0) by reflexivity.
      rewrite Rabs_minus_sym. apply isclose0_true, E, nth_In. simpl. simpl in H. lia.
  - rewrite Rminus_eq_0, Rabs_R0. exact P.
Qed.

Lemma len_coord : forall (l : list R) n, (List.length l = 1 \/ List.length l = n)%nat ->
  (if Nat.eqb (List.length l) n then l else bcast n l) = bcast n l.
Proof.
  intros l n H. destruct (Nat.eqb (List.length l) n) eqn:E; [|reflexivity].
  apply Nat.eqb_eq in E. symmetry. now apply bcast_id.
Qed.

Lemma chck_dipole_ok : forall n x y z, (0 < n)%nat -> nd_wf x -> nd_wf y -> nd_wf z ->
  okshape n x = true -> okshape n y = true -> okshape n z = true ->
  chck_dipole n x y z = Ok (bcast n (nd_data x), bcast n (nd_data y), depths (nd_data z)).
Proof.
  intros n x y z Hn Wx Wy Wz Ox Oy Oz. unfold chck_dipole.
  destruct (check_var_ok n x Wx Ox) as [s1 [-> L1]]. destruct (check_var_ok n y Wy Oy) as [s2 [-> L2]].
  destruct (check_var_ok n z Wz Oz) as [s3 [-> L3]]. cbn [bind].
  rewrite !len_coord by auto. destruct (nd_data z) as [|z0 zz] eqn:E; [simpl in L3; lia|]. reflexivity.
Qed.
Lemma chck_dipole_bad : forall n x y z, nd_wf x -> nd_wf y -> okshape n x && okshape n y && okshape n z = false ->
  chck_dipole n x y z = Err ValueError.
Proof.
  intros n x y z Wx Wy H. unfold chck_dipole.
  destruct (okshape n x) eqn:Ox; [|now rewrite (check_var_bad _ _ Ox)].
  destruct (check_var_ok n x Wx Ox) as [s1 [-> L1]]. cbn [bind].
  destruct (okshape n y) eqn:Oy; [|now rewrite (check_var_bad _ _ Oy)].
  destruct (check_var_ok n y Wy Oy) as [s2 [-> L2]]. cbn [bind].
  destruct (okshape n z) eqn:Oz; [discriminate|now rewrite (check_var_bad _ _ Oz)].
Qed.

Theorem survey_dipole : forall x y z a d, let inp := [x; y; z; a; d] in let n := sizes inp in
  (0 < n)%nat -> List.Forall nd_wf inp ->
  if forallb (okshape n) inp then
    exists x' y' z' a' d',
      check_bipole inp = Ok {| b_arr := [x'; y'; z'; a'; d']; b_n := n; b_nz := List.length z'; b_dip := true |} /\
      (List.length x' = n /\ List.length y' = n)%nat /\
      (List.length z' = 1 \/ List.length z' = n /\ List.length a' = n /\ List.length d' = n)%nat /\
      forall i, (i < n)%nat ->
        nth i x' 0 = coord (nd_data x) i /\ nth i y' 0 = coord (nd_data y) i /\
        Rabs (coord z' i - coord (nd_data z) i) <= / 10 ^ 8 /\
        coord a' i = coord (nd_data a) i /\ coord d' i = coord (nd_data d) i
  else check_bipole inp = Err ValueError.
Proof.
  intros x y z a d inp n Hn HW. unfold inp in HW. 
  inversion HW as [|? ? Wx HW1]; subst. inversion HW1 as [|? ? Wy HW2]; subst. inversion HW2 as [|? ? Wz HW3]; subst.
  inversion HW3 as [|? ? Wa HW4]; subst. inversion HW4 as [|? ? Wd HW5]; subst.
  unfold inp. cbn [forallb]. unfold check_bipole. fold inp. change (maxl (map nd_size inp)) with n.
  destruct (okshape n x && okshape n y && okshape n z) eqn:O.
  2:{ rewrite (chck_dipole_bad _ _ _ _ Wx Wy O). rewrite !andb_assoc, O. reflexivity. }
  rewrite !andb_assoc, O. cbn [andb]. apply andb_true_iff in O. destruct O as [O Oz]. apply andb_true_iff in O. destruct O as [Ox Oy].
  rewrite (chck_dipole_ok n x y z Hn Wx Wy Wz Ox Oy Oz). cbn [bind].
  destruct (okshape n a) eqn:Oa; [|now rewrite (check_var_bad _ _ Oa)].
  destruct (check_var_ok n a Wa Oa) as [s4 [-> L4]]. cbn [bind andb].
  destruct (okshape n d) eqn:Od; [|now rewrite (check_var_bad _ _ Od)].
  destruct (check_var_ok n d Wd Od) as [s5 [-> L5]]. cbn [bind andb].
  destruct (check_var_ok n x Wx Ox) as [_ [_ L1]]. destruct (check_var_ok n y Wy Oy) as [_ [_ L2]].
  destruct (check_var_ok n z Wz Oz) as [_ [_ L3]].
  set (z' := depths (nd_data z)).
  assert (Lz : (List.length z' = 1 \/ (List.length z' = n /\ z' = nd_data z))%nat) by (now apply depths_length).
  set (ex := fun l : list R => if (1 <? List.length z')%nat && Nat.eqb (List.length l) 1 then bcast (List.length z') l else l).
  assert (EL : forall l, (List.length l = 1 \/ List.length l = n)%nat ->
     (List.length z' = 1 \/ List.length (ex l) = n)%nat /\ forall i, (i < n)%nat -> coord (ex l) i = coord l i).
  { intros l Ll. unfold ex. destruct (1 <? List.length z')%nat eqn:E; cbn [andb].
    - apply Nat.ltb_lt in E. destruct Lz as [Lz|[Lz _]]; [lia|]. destruct (Nat.eqb (List.length l) 1) eqn:E1.
      + split; [right; rewrite Lz; apply expand_length; auto|]. intros i Hi. rewrite Lz.
        rewrite <- (coord_bcast l n i Hi Ll).
        pose proof (expand_length l n Ll) as L. destruct (bcast n l) as [|b0 [|b1 bl]] eqn:EB.
        * simpl in L. lia.
        * simpl in L. assert (i = 0)%nat as -> by lia. reflexivity.
        * reflexivity.
      + apply Nat.eqb_neq in E1. split; [right; lia|reflexivity].
    - apply Nat.ltb_ge in E. split; [left; lia|reflexivity]. }
  exists (bcast n (nd_data x)), (bcast n (nd_data y)), z', (ex (nd_data a)), (ex (nd_data d)).
  destruct (EL (nd_data a) L4) as [A1 A2]. destruct (EL (nd_data d) L5) as [D1 D2].
  split; [|split; [|split]].
  - f_equal. f_equal. rewrite expand_length; auto.
  - split; apply expand_length; auto.
  - destruct Lz as [Lz|[Lz _]]; [left; exact Lz|]. destruct A1 as [A1|A1]; [left; exact A1|]. destruct D1 as [D1|D1]; [left; exact D1|].
    right. auto.
  - intros i Hi. rewrite !coord_bcast by auto. repeat split; auto. now apply (depths_close _ n).
Qed.


Lemma coord_expand : forall (l : list R) n i, (i < n)%nat -> (List.length l = 1 \/ List.length l = n)%nat ->
  coord (bcast n l) i = coord l i.
Proof.
  intros l n i Hi Ll. rewrite <- (coord_bcast l n i Hi Ll).
  pose proof (expand_length l n Ll) as L. destruct (bcast n l) as [|b0 [|b1 bl]] eqn:EB.
  - simpl in L. lia.
  - simpl in L. assert (i = 0)%nat as -> by lia. reflexivity.
  - reflexivity.
Qed.

Lemma Reqb_true : forall a b, Reqb a b = true <-> a = b.
Proof. intros. unfold Reqb. destruct (Req_EM_T a b); split; auto; discriminate. Qed.

Lemma nth_neq_bc : forall n (a b : list R) i, (i < n)%nat -> (List.length a = 1 \/ List.length a = n)%nat ->
  (List.length b = 1 \/ List.length b = n)%nat ->
  nth i (neq_bc n a b) false = negb (Reqb (coord a i) (coord b i)) /\ List.length (neq_bc n a b) = n.
Proof.
  intros n a b i Hi La Lb. unfold neq_bc.
  assert (L : List.length (map2 (fun x y => negb (Reqb x y)) (bcast n a) (bcast n b)) = n).
  { rewrite map2_length, !expand_length by auto. apply Nat.min_id. }
  split; [|exact L].
  rewrite (map2_nth _ _ _ _ _ _ i 0 0 false) by (rewrite expand_length by auto; auto). now rewrite !coord_bcast by auto.
Qed.

Lemma forallb_nth_id : forall l, forallb (fun b : bool => b) l = true <-> forall i, (i < List.length l)%nat -> nth i l false = true.
Proof.
  intros l. rewrite forallb_forall. split.
  - intros H i Hi. apply H, nth_In, Hi.
  - intros H b Hb. apply (In_nth _ _ false) in Hb. destruct Hb as [i [Hi <-]]. auto.
Qed.

Theorem survey_bipole : forall x0 x1 y0 y1 z0 z1, let inp := [x0; x1; y0; y1; z0; z1] in let n := sizes inp in
  (0 < n)%nat -> List.Forall nd_wf inp ->
  if forallb (okshape n) inp then
    exists x0' x1' y0' y1' z0' z1',
      (List.length x0' = n /\ List.length x1' = n /\ List.length y0' = n /\ List.length y1' = n)%nat /\
      (List.length z0' = 1 /\ List.length z1' = 1 \/ List.length z0' = n /\ List.length z1' = n)%nat /\
      (forall i, (i < n)%nat ->
        nth i x0' 0 = coord (nd_data x0) i /\ nth i x1' 0 = coord (nd_data x1) i /\
        nth i y0' 0 = coord (nd_data y0) i /\ nth i y1' 0 = coord (nd_data y1) i /\
        Rabs (coord z0' i - coord (nd_data z0) i) <= / 10 ^ 8 /\
        Rabs (coord z1' i - coord (nd_data z1) i) <= / 10 ^ 8) /\
      ((forall i, (i < n)%nat -> nth i x0' 0 <> nth i x1' 0 \/ nth i y0' 0 <> nth i y1' 0 \/ coord z0' i <> coord z1' i) ->
       check_bipole inp = Ok {| b_arr := [x0'; x1'; y0'; y1'; z0'; z1']; b_n := n; b_nz := List.length z0'; b_dip := false |}) /\
      ((exists i, (i < n)%nat /\ nth i x0' 0 = nth i x1' 0 /\ nth i y0' 0 = nth i y1' 0 /\ coord z0' i = coord z1' i) ->
       check_bipole inp = Err ValueError)
  else check_bipole inp = Err ValueError.
Proof.
  intros x0 x1 y0 y1 z0 z1 inp n Hn HW. unfold inp in HW.
  inversion HW as [|? ? Wx HW1]; subst. inversion HW1 as [|? ? Wx1 HW2]; subst. inversion HW2 as [|? ? Wy HW3]; subst.
  inversion HW3 as [|? ? Wy1 HW4]; subst. inversion HW4 as [|? ? Wz HW5]; subst. inversion HW5 as [|? ? Wz1 HW6]; subst.
  unfold inp. cbn [forallb]. unfold check_bipole. fold inp. change (maxl (map nd_size inp)) with n.
  destruct (okshape n x0 && okshape n y0 && okshape n z0) eqn:O.
  2:{ rewrite (chck_dipole_bad _ _ _ _ Wx Wy O). cbn [bind].
      destruct (okshape n x0); [|reflexivity]. destruct (okshape n y0); cbn [andb] in O; [|now rewrite andb_false_r].
      rewrite O. now rewrite !andb_false_r. }
  apply andb_true_iff in O. destruct O as [O Oz]. apply andb_true_iff in O. destruct O as [Ox Oy].
  rewrite (chck_dipole_ok n x0 y0 z0 Hn Wx Wy Wz Ox Oy Oz). cbn [bind].
  destruct (okshape n x1 && okshape n y1 && okshape n z1) eqn:O.
  2:{ rewrite (chck_dipole_bad _ _ _ _ Wx1 Wy1 O). cbn [bind].
      rewrite Ox, Oy, Oz. destruct (okshape n x1); [|reflexivity]. destruct (okshape n y1); cbn [andb] in *; [|reflexivity].
      rewrite O. reflexivity. }
  apply andb_true_iff in O. destruct O as [O Oz1]. apply andb_true_iff in O. destruct O as [Ox1 Oy1].
  rewrite (chck_dipole_ok n x1 y1 z1 Hn Wx1 Wy1 Wz1 Ox1 Oy1 Oz1). cbn [bind].
  rewrite Ox, Oy, Oz, Ox1, Oy1, Oz1. cbn [andb].
  destruct (check_var_ok n x0 Wx Ox) as [_ [_ L1]]. destruct (check_var_ok n y0 Wy Oy) as [_ [_ L2]].
  destruct (check_var_ok n z0 Wz Oz) as [_ [_ L3]].
  destruct (check_var_ok n x1 Wx1 Ox1) as [_ [_ L4]]. destruct (check_var_ok n y1 Wy1 Oy1) as [_ [_ L5]].
  destruct (check_var_ok n z1 Wz1 Oz1) as [_ [_ L6]].
  set (a := depths (nd_data z0)). set (b := depths (nd_data z1)).
  assert (La : (List.length a = 1 \/ List.length a = n)%nat)
    by (destruct (depths_length _ n Hn L3) as [?|[? _]]; auto).
  assert (Lb : (List.length b = 1 \/ List.length b = n)%nat)
    by (destruct (depths_length _ n Hn L6) as [?|[? _]]; auto).
  set (ex := ((1 <? n) && ((1 <? List.length a) || (1 <? List.length b)))%nat%bool).
  set (a' := if ex && Nat.eqb (List.length a) 1 then bcast n a else a).
  set (b' := if ex && Nat.eqb (List.length b) 1 then bcast n b else b).
  assert (LL : (List.length a' = 1 /\ List.length b' = 1 \/ List.length a' = n /\ List.length b' = n)%nat).
  { unfold a', b', ex. destruct (Nat.ltb_spec 1 n); cbn [andb]; [|left; lia].
    destruct (Nat.ltb_spec 1 (List.length a)), (Nat.ltb_spec 1 (List.length b)); cbn [orb andb].
    - right. rewrite (proj2 (Nat.eqb_neq (List.length a) 1)), (proj2 (Nat.eqb_neq (List.length b) 1)) by lia. lia.
    - right. rewrite (proj2 (Nat.eqb_neq (List.length a) 1)) by lia. rewrite (proj2 (Nat.eqb_eq (List.length b) 1)) by lia.
      rewrite expand_length by auto. lia.
    - right. rewrite (proj2 (Nat.eqb_neq (List.length b) 1)) by lia. rewrite (proj2 (Nat.eqb_eq (List.length a) 1)) by lia.
      rewrite expand_length by auto. lia.
    - left. lia. }
  assert (Ca : forall i, (i < n)%nat -> coord a' i = coord a i).
  { intros i Hi. unfold a'. clearbody ex. destruct (ex && Nat.eqb (List.length a) 1); [|reflexivity]. now apply coord_expand. }
  assert (Cb : forall i, (i < n)%nat -> coord b' i = coord b i).
  { intros i Hi. unfold b'. clearbody ex. destruct (ex && Nat.eqb (List.length b) 1); [|reflexivity]. now apply coord_expand. }
  exists (bcast n (nd_data x0)), (bcast n (nd_data x1)), (bcast n (nd_data y0)), (bcast n (nd_data y1)), a', b'.
  split; [|split; [|split]].
  - rewrite !expand_length by auto. auto.
  - exact LL.
  - intros i Hi. rewrite !coord_bcast, Ca, Cb by auto. repeat split; auto; now apply (depths_close _ n).
  - assert (Sx0 : List.length (bcast n (nd_data x0)) = n) by (apply expand_length; auto).
    assert (Sx1 : List.length (bcast n (nd_data x1)) = n) by (apply expand_length; auto).
    assert (Sy0 : List.length (bcast n (nd_data y0)) = n) by (apply expand_length; auto).
    assert (Sy1 : List.length (bcast n (nd_data y1)) = n) by (apply expand_length; auto).
    set (ne := map2 orb _ _).
    assert (Nn : forall i, (i < n)%nat -> nth i ne false =
       (negb (Reqb (nth i (bcast n (nd_data x0)) 0) (nth i (bcast n (nd_data x1)) 0)) ||
        negb (Reqb (nth i (bcast n (nd_data y0)) 0) (nth i (bcast n (nd_data y1)) 0)) || negb (Reqb (coord a' i) (coord b' i)))).
    { intros i Hi. unfold ne.
      assert (La' : (List.length a' = 1 \/ List.length a' = n)%nat) by (destruct LL as [[? ?]|[? ?]]; auto).
      assert (Lb' : (List.length b' = 1 \/ List.length b' = n)%nat) by (destruct LL as [[? ?]|[? ?]]; auto).
      destruct (nth_neq_bc n _ _ i Hi (or_intror Sx0) (or_intror Sx1)) as [X1 X2].
      destruct (nth_neq_bc n _ _ i Hi (or_intror Sy0) (or_intror Sy1)) as [Y1 Y2].
      destruct (nth_neq_bc n a' b' i Hi La' Lb') as [Z1 Z2].
      rewrite (map2_nth _ _ _ _ _ _ i false false false) by (rewrite ?map2_length; lia).
      rewrite (map2_nth _ _ _ _ _ _ i false false false) by lia. rewrite X1, Y1, Z1, !coord_expand, !coord_bcast by auto. reflexivity. }
    assert (Ln : List.length ne = n).
    { unfold ne. rewrite !map2_length.
      assert (La' : (List.length a' = 1 \/ List.length a' = n)%nat) by (destruct LL as [[? ?]|[? ?]]; auto).
      assert (Lb' : (List.length b' = 1 \/ List.length b' = n)%nat) by (destruct LL as [[? ?]|[? ?]]; auto).
      rewrite (proj2 (nth_neq_bc n _ _ 0 Hn (or_intror Sx0) (or_intror Sx1))).
      rewrite (proj2 (nth_neq_bc n _ _ 0 Hn (or_intror Sy0) (or_intror Sy1))).
      rewrite (proj2 (nth_neq_bc n a' b' 0 Hn La' Lb')). lia. }
    split.
    + intros Hd. assert (forallb (fun b => b) ne = true) as ->.
      { apply forallb_nth_id. intros i Hi. rewrite Ln in Hi. rewrite Nn by auto.
        destruct (Hd i Hi) as [H|[H|H]].
        - destruct (Reqb (nth i (bcast n (nd_data x0)) 0) _) eqn:E; [apply Reqb_true in E; contradiction|reflexivity].
        - destruct (Reqb (nth i (bcast n (nd_data y0)) 0) _) eqn:E; [apply Reqb_true in E; contradiction|apply orb_true_iff; left; apply orb_true_r].
        - destruct (Reqb (coord a' i) _) eqn:E; [apply Reqb_true in E; contradiction|apply orb_true_r]. }
      cbn [negb]. rewrite Sx0. reflexivity.
    + intros [i [Hi [E1 [E2 E3]]]]. destruct (forallb (fun b => b) ne) eqn:F; [|reflexivity].
      rewrite forallb_nth_id in F. specialize (F i ltac:(lia)). rewrite Nn in F by auto.
      apply Reqb_true in E1, E2, E3. rewrite E1, E2, E3 in F. discriminate.
Qed.

(** check_dipole *)
Theorem survey_point : forall x y z, nd_wf x -> nd_wf y -> nd_wf z -> x <> NdBad -> y <> NdBad ->
  let lx := List.length (nd_data x) in let ly := List.length (nd_data y) in
  let n := if Nat.eqb lx 1 then ly else lx in
  (if (Nat.eqb lx ly || Nat.eqb lx 1 || Nat.eqb ly 1) && okshape 1 z then
    exists x' y', check_dipole [x; y; z] = Ok (x', y', nd_data z, n) /\
      List.length x' = n /\ List.length y' = n /\
      (forall i, (i < n)%nat -> nth i x' 0 = coord (nd_data x) i /\ nth i y' 0 = coord (nd_data y) i)
  else check_dipole [x; y; z] = Err ValueError).
Proof.
  intros x y z Wx Wy Wz Bx By lx ly n.
  assert (Vx : exists s, check_var x [] [] = Ok (s, nd_data x)) by (destruct x; [eexists; reflexivity|congruence]).
  assert (Vy : exists s, check_var y [] [] = Ok (s, nd_data y)) by (destruct y; [eexists; reflexivity|congruence]).
  destruct Vx as [sx Vx], Vy as [sy Vy].
  assert (Vz : if okshape 1 z then exists s, check_var z [1%nat] [] = Ok (s, nd_data z) else check_var z [1%nat] [] = Err ValueError).
  { destruct z as [sh d|]; [|reflexivity]. unfold okshape. rewrite orb_diag. unfold check_var, check_shape.
    destruct (shape_eqb [1%nat] (atleast1 sh)); [eexists|]; reflexivity. }
  unfold check_dipole. rewrite Vx, Vy. cbn [bind]. fold lx ly.
  destruct (Nat.eqb_spec lx ly) as [E|E]; cbn [orb andb].
  - cbn [bind]. assert (En : n = lx) by (unfold n; destruct (Nat.eqb_spec lx 1); lia).
    destruct (okshape 1 z); [destruct Vz as [s Vz]|]; rewrite Vz; cbn [bind]; [|reflexivity].
    exists (nd_data x), (nd_data y). fold lx. rewrite En. repeat split; auto.
    + rewrite <- (coord_bcast (nd_data x) lx i) by auto. now rewrite bcast_id by auto.
    + rewrite <- (coord_bcast (nd_data y) lx i) by auto. now rewrite bcast_id by auto.
  - destruct (Nat.eqb_spec lx 1) as [E1|E1]; cbn [orb andb bind].
    + assert (En : n = ly) by reflexivity.
      destruct (okshape 1 z); [destruct Vz as [s Vz]|]; rewrite Vz; cbn [bind]; [|reflexivity].
      exists (bcast ly (nd_data x)), (nd_data y). rewrite (expand_length (nd_data x) ly) by auto. rewrite En. repeat split; auto.
      * now rewrite coord_bcast by auto.
      * rewrite <- (coord_bcast (nd_data y) ly i) by auto. now rewrite bcast_id by auto.
    + assert (En : n = lx) by reflexivity.
      destruct (Nat.eqb_spec ly 1) as [E2|E2]; cbn [orb andb bind]; [|reflexivity].
      destruct (okshape 1 z); [destruct Vz as [s Vz]|]; rewrite Vz; cbn [bind]; [|reflexivity].
      exists (nd_data x), (bcast lx (nd_data y)). fold lx. rewrite (expand_length (nd_data y) lx) by auto. rewrite En. repeat split; auto.
      * rewrite <- (coord_bcast (nd_data x) lx i) by auto. now rewrite bcast_id by auto.
      * now rewrite coord_bcast by auto.
Qed.

Theorem survey_wrong_length : forall inp, List.length inp <> 5%nat -> List.length inp <> 6%nat -> check_bipole inp = Err ValueError.
Proof.
  intros inp H5 H6. unfold check_bipole.
  destruct inp as [|a [|b [|c [|d [|e [|f [|g inp]]]]]]]; try reflexivity; simpl in *; lia.
Qed.
