(** [fem]: the loop setting (C17) and the vanishing coupling (C12). *)

From Coq Require Import ZArith Reals List Bool String Lia Lra Psatz.
From Coquelicot Require Import Coquelicot.
From Verif Require Import PyBase CBase Kernel KernelSpec KernelMain KernelThm KernelThm2 KernelFinal Utils UtilsLayer Transform TransformDlf Fullspace Model.
Import ListNotations.
Local Open Scope R_scope.
Local Open Scope C_scope.
Local Open Scope res_scope.

(** ** Specification *)

(** field of a Hankel transform that treats offsets and frequencies independently *)
Definition table (F : frow -> R -> R -> C) (rows : list frow) (off ang : list R) : list (list C) :=
  map (fun r => map (fun p => F r (fst p) (snd p)) (combine off ang)) rows.

Definition separable (valid : frow -> Prop) (calc : hankel) (xd : bool) (F : frow -> R -> R -> C) : Prop :=
  forall rows off ang, rows <> [] -> off <> [] -> List.length ang = List.length off ->
  (forall r, In r rows -> valid r) -> (forall o, In o off -> 0 < o) ->
  calc rows off ang xd = Ok (table F rows off ang, 1%Z, true).

(** result of the call number [i] in each setting *)
Definition call_freq (calc : hankel) (rows : list frow) (off ang : list R) (xd : bool) (i : nat) :=
  match nth_error rows i with Some r => calc [r] off ang xd | None => Err IndexError end.
Definition call_off (calc : hankel) (rows : list frow) (off ang : list R) (xd : bool) (i : nat) :=
  calc rows [nth i off 0%R] [nth i ang 0%R] xd.

Definition total_count (l : list fem_state) : Z := fold_right Z.add 0%Z (map (fun s => snd (fst s)) l).
Definition all_conv (l : list fem_state) : bool := forallb snd l.

(** ** Lists *)
Lemma vadd_length : forall a b, List.length (vadd a b) = Nat.min (List.length a) (List.length b).
Proof. intros; apply map2_length. Qed.

Lemma shape_ok_spec : forall n m a, shape_ok n m a = true <->
  List.length a = n /\ forall r, In r a -> List.length r = m.
Proof.
  intros n m a. unfold shape_ok. rewrite andb_true_iff, Nat.eqb_eq, forallb_forall. split; intros [A B]; split; auto.
  - intros r Hr. apply Nat.eqb_eq. auto.
  - intros r Hr. apply Nat.eqb_eq. auto.
Qed.

Lemma table_shape : forall F rows off ang, List.length ang = List.length off ->
  shape_ok (List.length rows) (List.length off) (table F rows off ang) = true.
Proof.
  intros. apply shape_ok_spec. unfold table. split; [apply map_length|].
  intros r Hr. apply in_map_iff in Hr. destruct Hr as [x [<- _]]. rewrite map_length, combine_length, H. lia.
Qed.

Lemma zeros_shape : forall n m, shape_ok n m (mat_zeros n m) = true.
Proof.
  intros. apply shape_ok_spec. unfold mat_zeros. split; [apply repeat_length|].
  intros r Hr. apply repeat_spec in Hr. subst. apply repeat_length.
Qed.

Lemma mat_add_shape : forall n m a b, shape_ok n m a = true -> shape_ok n m b = true -> shape_ok n m (mat_add a b) = true.
Proof.
  intros n m a b Ha Hb. apply shape_ok_spec in Ha, Hb. destruct Ha as [A1 A2], Hb as [B1 B2]. apply shape_ok_spec.
  unfold mat_add. split; [rewrite map2_length; lia|]. intros r Hr.
  destruct (In_nth _ _ [] Hr) as [k [Hk E]]. rewrite map2_length in Hk.
  rewrite (map2_nth _ _ _ _ _ _ k [] [] []) in E by lia. subst r. rewrite vadd_length.
  rewrite (A2 (nth k a [])) by (apply nth_In; lia). rewrite (B2 (nth k b [])) by (apply nth_In; lia). lia.
Qed.

(** ** The three settings for a separable transform *)
Section Loops.
Variables (valid : frow -> Prop) (calc : hankel) (xd : bool) (F : frow -> R -> R -> C).
Variables (rows : list frow) (off ang : list R) (fEM : list (list C)) (kc : Z) (cv : bool).
Hypothesis HS : separable valid calc xd F.
Hypothesis Hrows : rows <> [].
Hypothesis Hoff : off <> [].
Hypothesis Hang : List.length ang = List.length off.
Hypothesis Hval : forall r, In r rows -> valid r.
Hypothesis Hpos : forall o, In o off -> 0 < o.
Hypothesis HE : shape_ok (List.length rows) (List.length off) fEM = true.

Definition goal_field := mat_add fEM (table F rows off ang).

Lemma fE_len : List.length fEM = List.length rows.
Proof. apply shape_ok_spec in HE. apply HE. Qed.
Lemma fE_row : forall i, (i < List.length rows)%nat -> List.length (nth i fEM []) = List.length off.
Proof. intros i Hi. pose proof fE_len. apply shape_ok_spec in HE. apply HE. apply nth_In. lia. Qed.

Definition r_d : frow := mkrow [] [] [] [].
Lemma table_nth : forall i, (i < List.length rows)%nat ->
  nth i (table F rows off ang) [] = map (fun p => F (nth i rows r_d) (fst p) (snd p)) (combine off ang).
Proof.
  intros i Hi. unfold table.
  set (g := fun r => map (fun p => F r (fst p) (snd p)) (combine off ang)).
  rewrite (nth_indep _ [] (g r_d)) by (now rewrite map_length). now rewrite map_nth.
Qed.

Lemma vectorised : fem_calc calc rows off ang xd false false (fEM, kc, cv) = Ok (goal_field, (kc + 1)%Z, cv).
Proof.
  unfold fem_calc. rewrite (HS rows off ang) by auto. cbn [bind]. rewrite table_shape by auto. cbn [need bind].
  now rewrite andb_true_r.
Qed.

Lemma looped_freq : fem_calc calc rows off ang xd true false (fEM, kc, cv)
  = Ok (goal_field, (kc + Z.of_nat (List.length rows))%Z, cv).
Proof.
  unfold fem_calc.
  destruct (foldM_inv _ _ (loop_freq_step calc rows off ang xd)
    (fun i st => List.length (fst (fst st)) = List.length rows /\ snd (fst st) = (kc + Z.of_nat i)%Z /\ snd st = cv /\
       forall j, (j < List.length rows)%nat -> nth j (fst (fst st)) [] =
         if (j <? i)%nat then vadd (nth j fEM []) (nth j (table F rows off ang) []) else nth j fEM [])
    (seq 0 (List.length rows)) (fEM, kc, cv)) as [[[f k] c] [E1 [L [K1 [C1 N]]]]].
  - cbn [fst snd]. split; [apply fE_len|]. split; [lia|]. split; [reflexivity|]. intros j Hj. reflexivity.
  - intros i [[f k] c] x Hx [L [K1 [C1 N]]]. cbn [fst snd] in *.
    assert (Hi : (i < List.length rows)%nat).
    { assert (i < List.length (seq 0 (List.length rows)))%nat by (apply nth_error_Some; congruence). now rewrite seq_length in H. }
    assert (x = i).
    { rewrite (nth_error_nth' _ 0%nat) in Hx by (rewrite seq_length; lia). rewrite seq_nth in Hx by lia. inversion Hx; lia. }
    subst x. unfold loop_freq_step. rewrite (nth_error_nth' rows r_d Hi). cbn [bind].
    rewrite (HS [nth i rows r_d] off ang); auto; [|discriminate|intros r [<- | []]; apply Hval; now apply nth_In].
    cbn [bind].
    assert (SH : shape_ok 1 (List.length off) (table F [nth i rows r_d] off ang) = true) by (apply (table_shape F [nth i rows r_d]); auto).
    rewrite SH. cbn [need bind]. eexists. split; [reflexivity|]. cbn [fst snd].
    rewrite replace_length. split; [exact L|]. split; [lia|]. split; [now rewrite C1, andb_true_r|].
    intros j Hj. rewrite nth_replace by lia. rewrite !N by lia. destruct (Nat.eqb_spec j i) as [-> | Ne].
    + destruct (Nat.ltb_spec i i); [lia|]. destruct (Nat.ltb_spec i (S i)); [|lia].
      f_equal. rewrite table_nth by lia. reflexivity.
    + destruct (Nat.ltb_spec j i), (Nat.ltb_spec j (S i)); try lia; reflexivity.
  - rewrite E1. cbn [fst snd] in *. rewrite seq_length in *. rewrite K1, C1. f_equal. f_equal. f_equal.
    unfold goal_field, mat_add. symmetry.
    assert (LT : List.length (table F rows off ang) = List.length rows) by (unfold table; apply map_length).
    pose proof fE_len as LE.
    apply (nth_ext _ _ [] []).
    + rewrite map2_length. lia.
    + rewrite map2_length. intros j Hj. rewrite (map2_nth _ _ _ _ _ _ j [] [] []) by lia. rewrite N by lia.
      destruct (Nat.ltb_spec j (List.length rows)); [reflexivity|lia].
Qed.

Lemma looped_off : fem_calc calc rows off ang xd false true (fEM, kc, cv)
  = Ok (goal_field, (kc + Z.of_nat (List.length off))%Z, cv).
Proof.
  unfold fem_calc.
  assert (LT : List.length (table F rows off ang) = List.length rows) by (unfold table; apply map_length).
  pose proof fE_len as LE.
  assert (TR : forall f, (f < List.length rows)%nat -> List.length (nth f (table F rows off ang) []) = List.length off).
  { intros f Hf. rewrite table_nth by lia. rewrite map_length, combine_length. lia. }
  destruct (foldM_inv _ _ (loop_off_step calc rows off ang xd)
    (fun i st => List.length (fst (fst st)) = List.length rows /\ snd (fst st) = (kc + Z.of_nat i)%Z /\ snd st = cv /\
       forall f, (f < List.length rows)%nat -> List.length (nth f (fst (fst st)) []) = List.length off /\
       forall j, (j < List.length off)%nat -> nth j (nth f (fst (fst st)) []) (RtoC 0) =
         if (j <? i)%nat then Cplus (nth j (nth f fEM []) (RtoC 0)) (nth j (nth f (table F rows off ang) []) (RtoC 0))
         else nth j (nth f fEM []) (RtoC 0))
    (seq 0 (List.length off)) (fEM, kc, cv)) as [[[f k] c] [E1 [L [K1 [C1 N]]]]].
  - cbn [fst snd]. split; [apply fE_len|]. split; [lia|]. split; [reflexivity|]. intros f Hf. split; [now apply fE_row|]. reflexivity.
  - intros i [[f k] c] x Hx [L [K1 [C1 N]]]. cbn [fst snd] in *.
    assert (Hi : (i < List.length off)%nat).
    { assert (i < List.length (seq 0 (List.length off)))%nat by (apply nth_error_Some; congruence). now rewrite seq_length in H. }
    assert (x = i).
    { rewrite (nth_error_nth' _ 0%nat) in Hx by (rewrite seq_length; lia). rewrite seq_nth in Hx by lia. inversion Hx; lia. }
    subst x. unfold loop_off_step. rewrite (idx_nth _ off i 0%R) by lia. rewrite (idx_nth _ ang i 0%R) by lia. cbn [bind].
    rewrite (HS rows [nth i off 0%R] [nth i ang 0%R]); auto; [|discriminate|intros o [<- | []]; apply Hpos; now apply nth_In].
    cbn [bind].
    pose proof (table_shape F rows [nth i off 0%R] [nth i ang 0%R] eq_refl) as SH. cbn [List.length] in SH. rewrite SH. cbn [need bind].
    set (T := table F rows [nth i off 0%R] [nth i ang 0%R]).
    assert (LT' : List.length T = List.length rows) by (unfold T, table; apply map_length).
    eexists. split; [reflexivity|]. cbn [fst snd].
    split; [rewrite map2_length; lia|]. split; [lia|]. split; [now rewrite C1, andb_true_r|].
    intros g Hg. destruct (N g Hg) as [N1 N2].
    rewrite (map2_nth _ _ _ _ _ _ g [] [] []) by lia. split; [now rewrite replace_length|].
    intros j Hj. rewrite nth_replace by lia. destruct (Nat.eqb_spec j i) as [-> | Ne].
    + rewrite N2 by lia. destruct (Nat.ltb_spec i i); [lia|]. destruct (Nat.ltb_spec i (S i)); [|lia].
      f_equal. rewrite table_nth by lia. unfold T, table.
      set (G := fun r => map (fun p => F r (fst p) (snd p)) (combine [nth i off 0%R] [nth i ang 0%R])).
      rewrite (nth_indep _ [] (G r_d)) by (rewrite map_length; lia). rewrite map_nth. unfold G. cbn [combine map nth fst snd].
      set (Hf := fun p : R * R => F (nth g rows r_d) (fst p) (snd p)).
      rewrite (nth_indep _ (RtoC 0) (Hf (0%R, 0%R))) by (rewrite map_length, combine_length; lia).
      rewrite map_nth, combine_nth by auto. reflexivity.
    + rewrite N2 by lia. destruct (Nat.ltb_spec j i), (Nat.ltb_spec j (S i)); try lia; reflexivity.
  - rewrite E1. cbn [fst snd] in *. rewrite seq_length in *. rewrite K1, C1. f_equal. f_equal. f_equal.
    unfold goal_field, mat_add. symmetry.
    apply (nth_ext _ _ [] []).
    + rewrite map2_length. lia.
    + rewrite map2_length. intros g Hg. rewrite (map2_nth _ _ _ _ _ _ g [] [] []) by lia.
      destruct (N g ltac:(lia)) as [N1 N2]. pose proof (fE_row g ltac:(lia)) as LR. pose proof (TR g ltac:(lia)) as LR2.
      apply (nth_ext _ _ (RtoC 0) (RtoC 0)).
      * rewrite vadd_length. lia.
      * rewrite vadd_length. intros j Hj. unfold vadd. rewrite (map2_nth _ _ _ _ _ _ j (RtoC 0) (RtoC 0) (RtoC 0)) by lia.
        rewrite N2 by lia. destruct (Nat.ltb_spec j (List.length off)); [reflexivity|lia].
Qed.
End Loops.

(** ** fem with the three loop settings *)
Theorem fem_loops : forall rdt valid calc F ab off angle zsrc zrec lsrc lrec rows xdirect isfull msrc mrec conv,
  let xd := match xdirect with None => true | Some b => b end in
  separable valid calc xd F -> rows <> [] -> off <> [] -> List.length angle = List.length off ->
  (forall r, In r rows -> valid r) -> (forall o, In o off -> 0 < o) ->
  forall fEM kc cv,
  fem rdt calc ab off angle zsrc zrec lsrc lrec rows xdirect isfull msrc mrec false false conv = Ok (fEM, kc, cv) ->
  cv = conv /\
  exists kf ko,
  fem rdt calc ab off angle zsrc zrec lsrc lrec rows xdirect isfull msrc mrec true false conv = Ok (fEM, kf, conv) /\
  fem rdt calc ab off angle zsrc zrec lsrc lrec rows xdirect isfull msrc mrec false true conv = Ok (fEM, ko, conv) /\
  if ((ab =? 36)%Z || (isfull && xd))%bool then kc = 0%Z /\ kf = 0%Z /\ ko = 0%Z
  else kc = 1%Z /\ kf = Z.of_nat (List.length rows) /\ ko = Z.of_nat (List.length off).
Proof.
  intros rdt valid calc F ab off angle zsrc zrec lsrc lrec rows xdirect isfull msrc mrec conv xd HS Hr Ho La Hv Hp fEM kc cv H.
  unfold fem in *. replace (ab =? 36)%Z with (inb ab [36]%Z) by (unfold inb; simpl; now rewrite orb_false_r).
  destruct (inb ab [36]%Z); cbn [orb].
  { inversion H; subst. split; [reflexivity|]. exists 0%Z, 0%Z. auto. }
  match type of H with bind ?m _ = _ => destruct m as [fE|] eqn:EF end; cbn [bind] in *; [|discriminate].
  fold xd in H |- *. destruct (isfull && xd); cbn [negb] in *.
  { inversion H; subst. split; [reflexivity|]. exists 0%Z, 0%Z. auto. }
  set (ang := map (fun a => angle_factor a ab msrc mrec) angle) in *.
  assert (Lang : List.length ang = List.length off) by (unfold ang; now rewrite map_length).
  assert (SH : shape_ok (List.length rows) (List.length off) fE = true).
  { destruct (match xdirect with Some true => true | _ => false end && (isfull || (lsrc =? lrec)%Z)).
    - destruct (fullspace_arr rdt off angle zsrc zrec lrec rows ab msrc mrec) as [g|] eqn:EG; cbn [bind] in EF; [|discriminate].
      inversion EF; subst fE. apply mat_add_shape; [apply zeros_shape|].
      unfold fullspace_arr in EG.
      match type of EG with bind ?m _ = _ => destruct m as [cols|] eqn:EC end; cbn [bind] in EG; [|discriminate].
      assert (ML : forall X Y (f : X -> res Y) l l', mapM f l = Ok l' -> List.length l' = List.length l).
      { clear. induction l as [|x l IH]; intros l' H; simpl in H; [inversion H; reflexivity|].
        destruct (f x); simpl in H; [|discriminate]. destruct (mapM f l); simpl in H; [|discriminate]. inversion H; subst. simpl. f_equal. now apply IH. }
      assert (MI : forall X Y (f : X -> res Y) l l' y, mapM f l = Ok l' -> In y l' -> exists x, In x l /\ f x = Ok y).
      { clear. induction l as [|x l IH]; intros l' y H Hy; simpl in H; [inversion H; subst; contradiction|].
        destruct (f x) eqn:Ex; simpl in H; [|discriminate]. destruct (mapM f l) eqn:El; simpl in H; [|discriminate]. inversion H; subst.
        destruct Hy as [<- | Hy]; [exists x; split; [now left|exact Ex]|].
        destruct (IH _ y eq_refl Hy) as [x' [I1 I2]]. exists x'. split; [now right|exact I2]. }
      apply shape_ok_spec. split.
      + rewrite (ML _ _ _ _ _ EG). apply (ML _ _ _ _ _ EC).
      + intros r0 Hr0. destruct (MI _ _ _ _ _ _ EG Hr0) as [[[[a b] c] d] [_ E2]].
        rewrite (ML _ _ _ _ _ E2), combine_length. lia.
    - inversion EF; subst. apply zeros_shape. }
  rewrite (vectorised valid calc xd F rows off ang fE 0%Z conv) in H by auto.
  injection H as Q1 Q2 Q3. subst cv fEM kc. split; [reflexivity|].
  exists (Z.of_nat (List.length rows)), (Z.of_nat (List.length off)).
  rewrite (looped_freq valid calc xd F rows off ang fE 0%Z conv) by auto.
  rewrite (looped_off valid calc xd F rows off ang fE 0%Z conv) by auto.
  split; [reflexivity|]. split; [reflexivity|]. auto.
Qed.

(** ** Kernel count and flag for any transform *)
Definition flags_of (calls : list (res fem_state)) (st st' : fem_state) : Prop :=
  exists outs, map Ok outs = calls /\
    snd (fst st') = (snd (fst st) + total_count outs)%Z /\ snd st' = snd st && all_conv outs.

Lemma loop_flags : forall (step : fem_state -> nat -> res fem_state) (call : nat -> res fem_state) l st st',
  (forall s i s', In i l -> step s i = Ok s' -> exists o, call i = Ok o /\ snd (fst s') = (snd (fst s) + snd (fst o))%Z /\ snd s' = snd s && snd o) ->
  foldM step l st = Ok st' -> flags_of (map call l) st st'.
Proof.
  intros step call l. induction l as [|i l IH]; intros st st' Hs H; simpl in H.
  - inversion H; subst. exists []. split; [reflexivity|]. unfold total_count, all_conv. simpl. split; [lia|now rewrite andb_true_r].
  - destruct (step st i) as [s1|] eqn:E; simpl in H; [|discriminate].
    destruct (Hs st i s1 (or_introl eq_refl) E) as [o [C1 [C2 C3]]].
    destruct (IH s1 st') as [outs [D1 [D2 D3]]]; [intros; eapply Hs; eauto; now right|exact H|].
    exists (o :: outs). split; [simpl; now rewrite D1, C1|]. unfold total_count, all_conv in *. simpl.
    split; [lia|]. rewrite D3, C3. now rewrite andb_assoc.
Qed.

Theorem fem_flags : forall calc rows off ang xd lf lo st st', List.length ang = List.length off ->
  fem_calc calc rows off ang xd lf lo st = Ok st' ->
  flags_of (if lf then map (call_freq calc rows off ang xd) (seq 0 (List.length rows))
            else if lo then map (call_off calc rows off ang xd) (seq 0 (List.length off))
            else [calc rows off ang xd]) st st'.
Proof.
  intros calc rows off ang xd lf lo st st' Hlen H. unfold fem_calc in H. destruct lf; [|destruct lo].
  - eapply loop_flags; [|exact H]. intros [[f k] c] i s' Hi E. unfold loop_freq_step in E. unfold call_freq.
    destruct (nth_error rows i); cbn [bind] in E; [|discriminate].
    destruct (calc [f0] off ang xd) as [[[o k'] c']|]; cbn [bind] in E; [|discriminate].
    unfold need in E. destruct (shape_ok _ _ _); cbn [bind] in E; [|discriminate]. inversion E; subst.
    eexists. split; [reflexivity|]. auto.
  - eapply loop_flags; [|exact H]. intros [[f k] c] i s' Hi E. unfold loop_off_step in E. unfold call_off. apply in_seq in Hi.
    rewrite (idx_nth _ off i 0%R) in E by lia. rewrite (idx_nth _ ang i 0%R) in E by lia. cbn [bind] in E.
    destruct (calc rows _ _ xd) as [[[o k'] c']|]; cbn [bind] in E; [|discriminate].
    unfold need in E. destruct (shape_ok _ _ _); cbn [bind] in E; [|discriminate]. inversion E; subst.
    eexists. split; [reflexivity|]. auto.
  - destruct st as [[f k] c]. destruct (calc rows off ang xd) as [[[o k'] c']|] eqn:EC; cbn [bind] in H; [|discriminate].
    unfold need in H. destruct (shape_ok _ _ _); cbn [bind] in H; [|discriminate]. inversion H; subst.
    exists [(o, k', c')]. split; [reflexivity|]. unfold total_count, all_conv. simpl. split; [lia|now rewrite andb_true_r].
Qed.

(** ** The digital linear filter is separable for passive media *)
Definition passive_row (N : nat) (z : nat -> R) (r : frow) : Prop :=
  exists eH eV zH zV, passive_medium eH eV zH zV z N /\
    r = mkrow (arr eH N) (arr eV N) (arr zH N) (arr zV N).

Lemma used_pattern : forall ab mrec lam p q, 
  isSome (t0 (collect ab mrec lam p q)) = fst (fst (used_of ab)) /\
  isSome (t1 (collect ab mrec lam p q)) = snd (fst (used_of ab)) /\
  isSome (t0b (collect ab mrec lam p q)) = snd (used_of ab).
Proof.
  intros ab mrec lam p q. unfold used_of, collect.
  destruct (inb ab [11; 12; 21; 22; 14; 24; 15; 25]%Z); destruct (inb ab [11; 22; 24; 15]%Z);
  destruct (inb ab [13; 23; 31; 32; 34; 35; 16; 26]%Z); destruct (inb ab [33]%Z); destruct (inb ab [11; 22; 24; 15; 33]%Z);
  cbn; auto.
Qed.

Lemma used_some : forall ab, some_used (used_of ab) = true.
Proof.
  intros ab. unfold used_of, collect, some_used.
  destruct (inb ab [11; 12; 21; 22; 14; 24; 15; 25]%Z); destruct (inb ab [11; 22; 24; 15]%Z);
  destruct (inb ab [13; 23; 31; 32; 34; 35; 16; 26]%Z); destruct (inb ab [33]%Z); destruct (inb ab [11; 22; 24; 15; 33]%Z);
  cbn; auto.
Qed.

(** the kernel of one frequency as a total function (for rows where it never raises) *)
Definition kern (zs zr : R) (s r : nat) (z : nat -> R) (N : nat) (ab : Z) (xd msrc mrec : bool) (w : frow) (lam : R) : triple :=
  match wavenumber zs zr (Z.of_nat s) (Z.of_nat r) (depth_arr z N) (r_eH w) (r_eV w) (r_zH w) (r_zV w) lam ab xd msrc mrec with
  | Ok t => t
  | Err _ => collect ab mrec lam (RtoC 0) (RtoC 0)
  end.

Theorem dlf_separable : forall spl filt z N ab msrc mrec s r zs zr xd,
  well_formed filt -> valid_call ab msrc mrec -> (s <= N)%nat -> (r <= N)%nat ->
  separable (passive_row N z)
    (dlf_calc spl filt 0 zs zr (Z.of_nat s) (Z.of_nat r) (depth_arr z N) ab msrc mrec) xd
    (fun w o a => dlf_value filt ab (kern zs zr s r z N ab xd msrc mrec w) o a).
Proof.
  intros spl filt z N ab msrc mrec s r zs zr xd HF HV Hs Hr rows off ang H1 H2 H3 H4 H5.
  unfold dlf_calc.
  set (K := fun f => kern zs zr s r z N ab xd msrc mrec (nth f rows r_d)).
  rewrite (dlf_standard spl _ K (used_of ab) (List.length rows) filt ab); auto.
  - f_equal. f_equal. f_equal. unfold table.
    apply (nth_ext _ _ [] []); rewrite ?map_length, ?seq_length; [reflexivity|].
    intros k Hk. rewrite nth_map_seq0 by exact Hk.
    set (G := fun w => map _ _). rewrite (nth_indep _ [] (G r_d)) by (now rewrite map_length). rewrite map_nth. reflexivity.
  - intros f l Hf Hl. unfold K, kern. rewrite (nth_error_nth' rows r_d Hf).
    destruct (H4 (nth f rows r_d)) as [eH [eV [zH [zV [PM E]]]]]; [now apply nth_In|]. rewrite E. cbn [r_eH r_eV r_zH r_zV].
    destruct (passive_total eH eV zH zV z N l ab xd msrc mrec s r zs zr PM HV Hs Hr) as [p [q Eg]].
    unfold gcall in Eg. unfold wavenumber. rewrite Eg. reflexivity.
  - intros f Hf. unfold pattern. destruct (used_of ab) as [[u0 u1] u0b] eqn:EU. intros l.
    unfold K, kern. destruct (wavenumber _ _ _ _ _ _ _ _ _ l ab xd msrc mrec) as [t|e] eqn:EW.
    + unfold wavenumber in EW. destruct (greenfct _ _ _ _ _ _ _ _ _ _ _ _ _ _) as [[p q]|]; cbn [bind] in EW; [|discriminate].
      inversion EW; subst t. pose proof (used_pattern ab mrec l p q) as U. rewrite EU in U. exact U.
    + pose proof (used_pattern ab mrec l (RtoC 0) (RtoC 0)) as U. rewrite EU in U. exact U.
  - apply used_some.
Qed.

(** ** C12 *)
Theorem fem_36 : forall rdt calc off angle zsrc zrec lsrc lrec rows xd isfull msrc mrec lf lo conv,
  fem rdt calc 36 off angle zsrc zrec lsrc lrec rows xd isfull msrc mrec lf lo conv
  = Ok (repeat (repeat (RtoC 0) (List.length off)) (List.length rows), 0%Z, conv).
Proof. reflexivity. Qed.
