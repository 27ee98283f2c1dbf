(** get_layer_nr and check_model: proofs. *)
From Coq Require Import Reals ZArith List Bool String Lia Lra Psatz.
From Coquelicot Require Import Coquelicot.
From Verif Require Import PyBase CBase Utils KernelSpec KernelBVP.
Import ListNotations.
Local Open Scope R_scope.
Local Open Scope res_scope.

Lemma Rltb_true : forall a b, Rltb a b = true <-> a < b.
Proof. intros; unfold Rltb; destruct (Rlt_dec a b); split; intro; auto; try discriminate; contradiction. Qed.
Lemma Rltb_false : forall a b, Rltb a b = false <-> b <= a.
Proof. intros; unfold Rltb; destruct (Rlt_dec a b); split; intro; auto; try discriminate; lra. Qed.
Lemma Rleb_true : forall a b, Rleb a b = true <-> a <= b.
Proof. intros; unfold Rleb; destruct (Rle_dec a b); split; intro; auto; try discriminate; contradiction. Qed.
Lemma Rleb_false : forall a b, Rleb a b = false <-> b < a.
Proof. intros; unfold Rleb; destruct (Rle_dec a b); split; intro; auto; try discriminate; lra. Qed.
Lemma Reqb_true : forall a b, Reqb a b = true <-> a = b.
Proof. intros; unfold Reqb; destruct (Req_EM_T a b); split; intro; auto; try discriminate; contradiction. Qed.
Lemma Reqb_false : forall a b, Reqb a b = false <-> a <> b.
Proof. intros; unfold Reqb; destruct (Req_EM_T a b); split; intro; auto; try discriminate; contradiction. Qed.

(** ** The extended order *)
Lemma xltb_irr : forall a, xltb a a = false.
Proof. intros [| |]; simpl; auto. apply Rltb_false; lra. Qed.
Lemma xltb_trans : forall a b c, xltb a b = true -> xltb b c = true -> xltb a c = true.
Proof.
  intros [|a|] [|b|] [|c|]; simpl; intros; auto; try discriminate.
  apply Rltb_true. apply Rltb_true in H. apply Rltb_true in H0. lra.
Qed.
Lemma xle_trans : forall a b c, xltb b a = false -> xltb c b = false -> xltb c a = false.
Proof.
  intros [|a|] [|b|] [|c|]; simpl; intros; auto; try discriminate.
  apply Rltb_false. apply Rltb_false in H. apply Rltb_false in H0. lra.
Qed.
Lemma xlt_le_trans : forall a b c, xltb a b = true -> xltb c b = false -> xltb a c = true.
Proof.
  intros [|a|] [|b|] [|c|]; simpl; intros; auto; try discriminate.
  apply Rltb_true. apply Rltb_true in H. apply Rltb_false in H0. lra.
Qed.
Lemma xle_lt_trans : forall a b c, xltb b a = false -> xltb b c = true -> xltb a c = true.
Proof.
  intros [|a|] [|b|] [|c|]; simpl; intros; auto; try discriminate.
  apply Rltb_true. apply Rltb_false in H. apply Rltb_true in H0. lra.
Qed.
Lemma xlt_asym : forall a b, xltb a b = true -> xltb b a = false.
Proof.
  intros [|a|] [|b|]; simpl; intros; auto; try discriminate.
  apply Rltb_false. apply Rltb_true in H. lra.
Qed.
Lemma xeqb_true : forall a b, xeqb a b = true <-> a = b.
Proof.
  intros [|a|] [|b|]; simpl; split; intro H; auto; try discriminate.
  - apply Reqb_true in H. now subst.
  - inversion H. now apply Reqb_true.
Qed.

(** ** Sorted depth lists *)
Definition sortedx (d : list ext) : Prop :=
  forall i j, (i <= j < List.length d)%nat -> xltb (nth j d NInf) (nth i d NInf) = false.
(** strictly increasing *)
Definition strictx (d : list ext) : Prop :=
  forall i j, (i < j < List.length d)%nat -> xltb (nth i d NInf) (nth j d NInf) = true.

Lemma any_dec_cons : forall a d, any_dec (a :: d) = match d with [] => false | b :: _ => xltb b a || any_dec d end.
Proof. intros a [|b d]; reflexivity. Qed.
Lemma all_dec_cons : forall a d, all_dec (a :: d) = match d with [] => true | b :: _ => xltb b a && all_dec d end.
Proof. intros a [|b d]; reflexivity. Qed.

Lemma any_dec_sorted : forall d, any_dec d = false -> sortedx d.
Proof.
  induction d as [|a d IH]; intros H i j Hij; simpl in Hij; [lia|].
  rewrite any_dec_cons in H. destruct d as [|b d].
  - simpl in Hij. assert (i = 0%nat) by lia. assert (j = 0%nat) by lia. subst. apply xltb_irr.
  - apply orb_false_iff in H. destruct H as [H1 H2]. specialize (IH H2).
    destruct i, j; try lia; try apply xltb_irr; simpl nth.
    + apply xle_trans with b; [exact H1|]. apply (IH 0%nat j). simpl in *; lia.
    + apply (IH i j). simpl in *. lia.
Qed.
Lemma sorted_any_dec : forall d, sortedx d -> any_dec d = false.
Proof.
  induction d as [|a d IH]; intros H; [reflexivity|]. rewrite any_dec_cons. destruct d as [|b d]; [reflexivity|].
  apply orb_false_iff. split.
  - apply (H 0%nat 1%nat). simpl; lia.
  - apply IH. intros i j Hij. apply (H (S i) (S j)). simpl in *; lia.
Qed.
Lemma any_dec_false : forall d, any_dec d = false <-> sortedx d.
Proof. split; [apply any_dec_sorted|apply sorted_any_dec]. Qed.

Lemma strict_sorted : forall d, strictx d -> sortedx d.
Proof.
  intros d H i j Hij. destruct (Nat.eq_dec i j) as [->|]; [apply xltb_irr|].
  apply xlt_asym, H. lia.
Qed.

Lemma all_dec_true : forall d, all_dec d = true ->
  forall i j, (i < j < List.length d)%nat -> xltb (nth j d NInf) (nth i d NInf) = true.
Proof.
  induction d as [|a d IH]; intros H i j Hij; simpl in Hij; [lia|].
  rewrite all_dec_cons in H. destruct d as [|b d]; [simpl in Hij; lia|].
  apply andb_true_iff in H. destruct H as [H1 H2]. specialize (IH H2).
  destruct j; [lia|]. destruct i; simpl nth.
  - destruct (Nat.eq_dec j 0) as [->|]; [exact H1|].
    apply xltb_trans with b; [|exact H1]. apply (IH 0%nat j). simpl in *; lia.
  - apply (IH i j). simpl in *. lia.
Qed.
Lemma all_dec_intro : forall d,
  (forall i j, (i < j < List.length d)%nat -> xltb (nth j d NInf) (nth i d NInf) = true) -> all_dec d = true.
Proof.
  induction d as [|a d IH]; intros H; [reflexivity|]. rewrite all_dec_cons. destruct d as [|b d]; [reflexivity|].
  apply andb_true_iff. split; [apply (H 0%nat 1%nat); simpl; lia|].
  apply IH. intros i j Hij. apply (H (S i) (S j)). simpl in *; lia.
Qed.

Lemma strict_rev_dec : forall d, strictx d -> all_dec (rev d) = true.
Proof.
  intros d H. apply all_dec_intro. intros i j Hij. rewrite rev_length in Hij.
  rewrite !rev_nth by lia. apply H. lia.
Qed.
Lemma dec_rev_strict : forall d, all_dec d = true -> strictx (rev d).
Proof.
  intros d H i j Hij. rewrite rev_length in Hij. rewrite !rev_nth by lia.
  apply (all_dec_true d H). lia.
Qed.
Lemma strict_not_dec : forall d, strictx d -> (1 < List.length d)%nat -> all_dec d = false.
Proof.
  intros [|a [|b d]] H L; simpl in L; try lia. simpl.
  assert (xltb a b = true) by (apply (H 0%nat 1%nat); simpl; lia).
  rewrite (xlt_asym _ _ H0). reflexivity.
Qed.

(** ** get_layer_nr *)
(** Depth [z] belongs to layer [k]: below its upper interface, not below its
    lower one. *)
Definition belongs (depth : list ext) (k : nat) (z : R) : Prop :=
  (k < List.length depth)%nat /\ xltb (nth k depth NInf) (Fin z) = true /\
  (S k = List.length depth \/ ((S k < List.length depth)%nat /\ xltb (nth (S k) depth NInf) (Fin z) = false)).

Lemma map2_nth : forall A B D (f : A -> B -> D) a b k da db dd,
  (k < List.length a)%nat -> (k < List.length b)%nat -> nth k (map2 f a b) dd = f (nth k a da) (nth k b db).
Proof.
  induction a as [|x a IH]; intros [|y b] k da db dd Ha Hb; simpl in *; try lia.
  destruct k; [reflexivity|]. unfold map2 in *. simpl. apply IH; lia.
Qed.
Lemma map2_length : forall A B D (f : A -> B -> D) a b,
  List.length (map2 f a b) = Nat.min (List.length a) (List.length b).
Proof. intros. unfold map2. rewrite map_length, combine_length. reflexivity. Qed.

Lemma where_gen : forall row s, map fst (filter snd (combine (seq s (List.length row)) row)) =
  filter (fun i => nth (i - s) row false) (seq s (List.length row)).
Proof.
  induction row as [|b row IH]; intros s; [reflexivity|].
  simpl length. simpl seq. simpl combine. cbn [filter snd]. rewrite Nat.sub_diag. simpl nth at 1.
  assert (E : filter (fun i => nth (i - s) (b :: row) false) (seq (S s) (List.length row))
    = filter (fun i => nth (i - S s) row false) (seq (S s) (List.length row))).
  { apply filter_ext_in. intros i Hi. apply in_seq in Hi. replace (i - s)%nat with (S (i - S s)) by lia. reflexivity. }
  rewrite E, <- IH. destruct b; reflexivity.
Qed.
Lemma where_row_spec : forall row, where_row row = filter (fun i => nth i row false) (seq 0 (List.length row)).
Proof.
  intros. unfold where_row. rewrite where_gen. apply filter_ext. intros. now rewrite Nat.sub_0_r.
Qed.

Lemma filter_unique : forall (f : nat -> bool) l k, NoDup l -> In k l -> f k = true ->
  (forall j, In j l -> f j = true -> j = k) -> filter f l = [k].
Proof.
  induction l as [|a l IH]; intros k ND Hin Hk Hu; [destruct Hin|]. inversion ND; subst. simpl.
  destruct (f a) eqn:E.
  - assert (a = k) by (apply Hu; simpl; auto). subst a. f_equal.
    destruct (filter f l) as [|b l'] eqn:F; [reflexivity|]. exfalso.
    assert (In b (filter f l)) by (rewrite F; simpl; auto). apply filter_In in H. destruct H as [Hb1 Hb2].
    assert (b = k) by (apply Hu; simpl; auto). subst. contradiction.
  - destruct Hin as [->|Hin]; [congruence|]. apply IH; auto. intros j Hj. apply Hu. simpl; auto.
Qed.

Lemma belongs_unique : forall d k k' z, sortedx d -> belongs d k z -> belongs d k' z -> k = k'.
Proof.
  assert (W : forall d k k' z, sortedx d -> belongs d k z -> belongs d k' z -> (k < k')%nat -> False).
  { intros d k k' z S0 [A [B D]] [A' [B' D']] L. destruct D as [D|[D1 D2]]; [lia|].
    assert (Hs : xltb (nth k' d NInf) (nth (S k) d NInf) = false) by (apply S0; lia).
    pose proof (xle_lt_trans _ _ _ Hs B') as X. congruence. }
  intros d k k' z S0 H H'. destruct (lt_eq_lt_dec k k') as [[L|E]|L]; auto; exfalso; eauto.
Qed.
Lemma belongs_exists : forall d z, (0 < List.length d)%nat -> hd PInf d = NInf -> exists k, belongs d k z.
Proof.
  intros d z L Hh.
  assert (G : forall n, (n < List.length d)%nat ->
    (exists k, belongs d k z) \/ xltb (nth n d NInf) (Fin z) = true).
  { induction n; intros Hn.
    - right. destruct d; simpl in *; [lia|]. now subst.
    - destruct IHn as [E|E]; [lia|auto|].
      destruct (xltb (nth (S n) d NInf) (Fin z)) eqn:F; [auto|].
      left. exists n. split; [lia|]. split; [exact E|]. right. auto. }
  destruct (G (List.length d - 1)%nat) as [E|E]; [lia|auto|].
  exists (List.length d - 1)%nat. split; [lia|]. split; [exact E|]. left. lia.
Qed.

Lemma layer_row : forall d z k, sortedx d -> hd PInf d = NInf -> belongs d k z ->
  where_row (map2 (fun a p => xltb a (Fin z) && xgeb p (Fin z)) d (tl d ++ [PInf])) = [k].
Proof.
  intros d z k S0 Hh B. rewrite where_row_spec.
  assert (Lt : List.length (tl d ++ [PInf]) = List.length d).
  { rewrite app_length. destruct d; simpl; [discriminate Hh|lia]. }
  rewrite map2_length, Lt, Nat.min_id.
  assert (Hp : forall j, (j < List.length d)%nat -> nth j (tl d ++ [PInf]) PInf =
     if (S j <? List.length d)%nat then nth (S j) d NInf else PInf).
  { intros j Hj. destruct d as [|a d]; [simpl in Hj; lia|]. simpl tl.
    destruct (Nat.ltb_spec (S j) (List.length (a :: d))) as [Hl|Hl]; simpl in Hl, Hj.
    - rewrite app_nth1 by lia. simpl. apply nth_indep. lia.
    - rewrite app_nth2 by lia. replace (j - List.length d)%nat with 0%nat by lia. reflexivity. }
  assert (Hf : forall j, (j < List.length d)%nat ->
    nth j (map2 (fun a p => xltb a (Fin z) && xgeb p (Fin z)) d (tl d ++ [PInf])) false = true <-> belongs d j z).
  { intros j Hj. rewrite (map2_nth _ _ _ _ _ _ j NInf PInf false) by lia. rewrite Hp by assumption.
    rewrite andb_true_iff. unfold belongs, xgeb. destruct (Nat.ltb_spec (S j) (List.length d)); split.
    - intros [A1 A2]. apply negb_true_iff in A2. repeat split; auto.
    - intros [_ [A1 [A2|[_ A2]]]]; [lia|]. split; [auto|]. now apply negb_true_iff.
    - intros [A1 _]. repeat split; auto. left; lia.
    - intros [_ [A1 _]]. split; [auto|reflexivity]. }
  apply filter_unique.
  - apply seq_NoDup.
  - apply in_seq. destruct B. lia.
  - apply Hf; auto. apply B.
  - intros j Hj Fj. apply in_seq in Hj. apply Hf in Fj; [|lia]. eapply belongs_unique; eauto.
Qed.

Theorem layer_nr_spec : forall depth zinp,
  any_dec depth = false -> hd PInf depth = NInf ->
  Forall2 (fun z k => belongs depth k z /\ forall k', belongs depth k' z -> k' = k)
    zinp (get_layer_nr depth zinp).
Proof.
  intros d zs AD Hh. apply any_dec_sorted in AD.
  assert (L : (0 < List.length d)%nat) by (destruct d; simpl in *; [discriminate|lia]).
  unfold get_layer_nr. induction zs as [|z zs IH]; [constructor|]. simpl.
  destruct (belongs_exists d z L Hh) as [k B].
  rewrite (layer_row d z k AD Hh B). simpl. constructor; [|exact IH].
  split; [exact B|]. intros k' B'. exact (belongs_unique _ _ _ _ AD B' B).
Qed.

(** Connection with the layer function used in the kernel theorems. *)
Lemma depth_arr_nth : forall z N k, (1 <= k <= N)%nat -> nth k (depth_arr z N) NInf = Fin (z k).
Proof.
  intros z N k H. unfold depth_arr. destruct k; [lia|]. simpl.
  rewrite (nth_indep _ NInf (Fin (z 0%nat))) by (rewrite map_length, seq_length; lia).
  rewrite (map_nth (fun k => Fin (z k))). rewrite seq_nth by lia. reflexivity.
Qed.
Lemma depth_arr_length : forall z N, List.length (depth_arr z N) = S N.
Proof. intros. unfold depth_arr. simpl. now rewrite map_length, seq_length. Qed.
Lemma depth_arr_sorted : forall z N, (forall k, (1 <= k < N)%nat -> z k <= z (S k)) -> sortedx (depth_arr z N).
Proof.
  intros z N H i j Hij. rewrite depth_arr_length in Hij.
  destruct i; [simpl nth at 2; destruct (nth j _ _); reflexivity|].
  rewrite !depth_arr_nth by lia. simpl. apply Rltb_false.
  assert (G : forall n, (S i + n <= N)%nat -> z (S i) <= z (S i + n)%nat).
  { induction n; intros Hn; [rewrite Nat.add_0_r; lra|].
    apply Rle_trans with (z (S i + n)%nat); [apply IHn; lia|].
    replace (S i + S n)%nat with (S (S i + n)) by lia. apply H; lia. }
  specialize (G (j - S i)%nat). replace (S i + (j - S i))%nat with j in G by lia. apply G. lia.
Qed.
Lemma lay_gap : forall z n x k, (lay z n x < k <= n)%nat -> ~ z k < x.
Proof.
  intros z n. induction n; intros x k H; simpl in H; [lia|].
  destruct (Rlt_dec (z (S n)) x) as [|Hn]; [lia|].
  destruct (Nat.eq_dec k (S n)) as [->|]; [exact Hn|]. apply IHn. lia.
Qed.
Lemma lay_up : forall z n x, lay z n x = 0%nat \/ z (lay z n x) < x.
Proof. intros z n x. induction n; simpl; [auto|]. destruct (Rlt_dec (z (S n)) x); auto. Qed.

Theorem layer_nr_lay : forall z N zinp, (forall k, (1 <= k < N)%nat -> z k <= z (S k)) ->
  get_layer_nr (depth_arr z N) zinp = map (lay z N) zinp.
Proof.
  intros z N zs H. induction zs as [|x zs IH]; [reflexivity|]. cbn [map].
  change (where_row (map2 (fun a p => xltb a (Fin x) && xgeb p (Fin x)) (depth_arr z N)
    (tl (depth_arr z N) ++ [PInf])) ++ get_layer_nr (depth_arr z N) zs = lay z N x :: map (lay z N) zs).
  rewrite (layer_row (depth_arr z N) x (lay z N x)); [|now apply depth_arr_sorted|reflexivity|].
  { rewrite IH. reflexivity. }
  pose proof (lay_le z N x) as LL. unfold belongs. rewrite depth_arr_length.
  split; [lia|]. split.
  - destruct (lay_up z N x) as [E|E]; [rewrite E; reflexivity|].
    destruct (lay z N x) as [|k] eqn:F; [reflexivity|]. rewrite depth_arr_nth by lia. simpl. now apply Rltb_true.
  - destruct (Nat.eq_dec (lay z N x) N) as [->|]; [left; reflexivity|]. right. split; [lia|].
    rewrite depth_arr_nth by lia. simpl. apply Rltb_false.
    apply Rnot_lt_le. apply (lay_gap z N). lia.
Qed.

(** ** check_depth *)
Lemma last_nth' : forall (d : list ext), last d NInf = nth (List.length d - 1) d NInf.
Proof.
  induction d as [|a [|b d] IH]; [reflexivity|reflexivity|]. change (last (a :: b :: d) NInf) with (last (b :: d) NInf).
  rewrite IH. simpl. rewrite Nat.sub_0_r. reflexivity.
Qed.
Lemma removelast_nth : forall (d : list ext) i, (i < List.length d - 1)%nat -> nth i (removelast d) NInf = nth i d NInf.
Proof.
  induction d as [|a [|b d] IH]; intros i H; simpl in H; try lia.
  change (removelast (a :: b :: d)) with (a :: removelast (b :: d)).
  destruct i; [reflexivity|]. simpl. apply IH. simpl. lia.
Qed.
Lemma removelast_len : forall (d : list ext), List.length (removelast d) = (List.length d - 1)%nat.
Proof.
  induction d as [|a [|b d] IH]; [reflexivity|reflexivity|].
  change (removelast (a :: b :: d)) with (a :: removelast (b :: d)).
  change (S (List.length (removelast (b :: d))) = (List.length (a :: b :: d) - 1)%nat).
  rewrite IH. simpl. lia.
Qed.

Lemma sorted_removelast : forall d, sortedx d -> sortedx (removelast d).
Proof.
  intros d H i j Hij. rewrite removelast_len in Hij. rewrite !removelast_nth by lia. apply H. lia.
Qed.
Lemma strict_removelast : forall d, strictx d -> strictx (removelast d).
Proof.
  intros d H i j Hij. rewrite removelast_len in Hij. rewrite !removelast_nth by lia. apply H. lia.
Qed.
Lemma sorted_cons_ninf : forall d, sortedx d -> sortedx (NInf :: d).
Proof.
  intros d H i j Hij. destruct i; [destruct j; simpl; [reflexivity|destruct (nth j d NInf); reflexivity]|].
  destruct j; [lia|]. simpl in *. apply H. lia.
Qed.
Lemma strict_cons_ninf : forall d, strictx d -> hd PInf d <> NInf -> strictx (NInf :: d).
Proof.
  intros d H Hh i j Hij. destruct j; [lia|]. destruct i; simpl.
  - destruct d as [|a d]; [simpl in Hij; lia|]. destruct j; simpl.
    + destruct a; simpl in *; auto; congruence.
    + assert (xltb a (nth j d NInf) = true) by (apply (H 0%nat (S j)); simpl in *; lia).
      destruct (nth j d NInf); auto. destruct a; discriminate.
  - apply H. simpl in Hij. lia.
Qed.

(** Well-formed depth array: starts at -inf, never decreases. *)
Definition depth_wf (d : list ext) : Prop := hd PInf d = NInf /\ sortedx d.
(** ... is strictly increasing, and has only finite entries after the first. *)
Definition depth_strict (d : list ext) : Prop :=
  exists l : list R, d = NInf :: map Fin l /\ strictx d.

Lemma drop_pinf_wf : forall d, (2 <= List.length d)%nat \/ hd PInf d <> PInf -> depth_wf d -> depth_wf (drop_pinf d).
Proof.
  intros d L [Hh S0]. unfold drop_pinf. destruct (xeqb (last d NInf) PInf) eqn:E; [|split; auto].
  apply xeqb_true in E. split; [|now apply sorted_removelast].
  destruct d as [|a [|b d]]; simpl in *; auto; try congruence.
Qed.

Lemma check_depth_wf : forall d sw d', check_depth d = Ok (sw, d') -> depth_wf d'.
Proof.
  intros d sw d'. unfold check_depth.
  set (sw0 := (1 <? List.length d)%nat && all_dec d). set (e := if sw0 then rev d else d).
  destruct (any_dec e) eqn:AD; [discriminate|]. apply any_dec_sorted in AD.
  destruct e as [|a e'] eqn:Ee; intros H; inversion H; subst.
  - split; [reflexivity|]. apply any_dec_sorted. reflexivity.
  - apply drop_pinf_wf.
    + destruct (xeqb a NInf) eqn:X; [apply xeqb_true in X; subst a; right; simpl; discriminate|left; simpl; lia].
    + destruct (xeqb a NInf) eqn:X.
      * apply xeqb_true in X. subst a. split; [reflexivity|exact AD].
      * split; [reflexivity|]. now apply sorted_cons_ninf.
Qed.

Lemma strict_fin : forall d, strictx d -> hd PInf d = NInf -> last d NInf <> PInf -> depth_strict d.
Proof.
  intros d S0 Hh Hl. destruct d as [|a d]; [discriminate|]. simpl in Hh. subst a.
  assert (F : forall i, (i < List.length d)%nat -> exists r, nth i d NInf = Fin r).
  { intros i Hi.
    assert (A : xltb NInf (nth i d NInf) = true) by (apply (S0 0%nat (S i)); simpl; lia).
    destruct (nth i d NInf) eqn:E; [discriminate|eauto|].
    exfalso. destruct (Nat.eq_dec (S i) (List.length d)) as [L|L].
    - apply Hl. rewrite last_nth'. simpl. rewrite Nat.sub_0_r. destruct (List.length d); [lia|].
      replace n with i by lia. exact E.
    - assert (B : xltb (nth (S i) (NInf :: d) NInf) (nth (S (S i)) (NInf :: d) NInf) = true)
        by (apply S0; simpl; lia). simpl in B. rewrite E in B. discriminate. }
  exists (map (fun e => match e with Fin r => r | _ => 0 end) d). split; [|exact S0]. f_equal.
  rewrite map_map. symmetry. rewrite <- (map_id d) at 2. apply map_ext_in. intros e He.
  apply (In_nth _ _ NInf) in He. destruct He as [i [Hi <-]]. destruct (F i Hi) as [r ->]. reflexivity.
Qed.

(** Accepted exactly if the depths never decrease or always decrease. *)
Lemma check_depth_accept : forall d,
  (exists sw d', check_depth d = Ok (sw, d')) <-> (sortedx d \/ strictx (rev d)).
Proof.
  intros d. unfold check_depth. destruct (Nat.ltb_spec 1 (List.length d)) as [L|L].
  - cbn [andb]. destruct (all_dec d) eqn:A.
    + pose proof (dec_rev_strict _ A) as S0. rewrite (sorted_any_dec _ (strict_sorted _ S0)).
      split; [auto|]. intros _. destruct (rev d); eauto.
    + destruct (any_dec d) eqn:B.
      * split; [intros [? [? H]]; discriminate|]. intros [H|H].
        -- apply sorted_any_dec in H. congruence.
        -- apply strict_rev_dec in H. rewrite rev_involutive in H. congruence.
      * apply any_dec_sorted in B. split; [auto|]. intros _. destruct d; eauto.
  - cbn [andb].
    assert (any_dec d = false) as -> by (destruct d as [|a [|b d]]; simpl in *; auto; lia).
    split; [|intros _; destruct d; eauto]. intros _. left.
    destruct d as [|a [|b d]]; simpl in *; try lia; intros i j Hij; simpl in Hij; try lia.
    assert (i = 0%nat) by lia. assert (j = 0%nat) by lia. subst. apply xltb_irr.
Qed.

Lemma drop_pinf_strict : forall d, strictx d -> (2 <= List.length d)%nat -> hd PInf d = NInf -> depth_strict (drop_pinf d).
Proof.
  intros d S0 L Hh. unfold drop_pinf. destruct (xeqb (last d NInf) PInf) eqn:E.
  - apply xeqb_true in E. apply strict_fin.
    + now apply strict_removelast.
    + destruct d as [|a [|b d]]; simpl in *; auto; lia.
    + rewrite last_nth', removelast_len. destruct (Nat.eq_dec (List.length d) 2) as [E2|].
      * destruct d as [|a [|b [|c d]]]; simpl in *; try lia. congruence.
      * rewrite removelast_nth by lia. intro X.
        assert (Y : xltb (nth (List.length d - 1 - 1) d NInf) (nth (List.length d - 1) d NInf) = true) by (apply S0; lia).
        rewrite X in Y. discriminate.
  - apply strict_fin; auto. intro X. rewrite X in E. discriminate.
Qed.
Lemma single_strict : depth_strict [NInf].
Proof. exists []. split; [reflexivity|]. intros i j H. simpl in H. lia. Qed.

Lemma check_depth_strict : forall d sw d', strictx d \/ strictx (rev d) ->
  check_depth d = Ok (sw, d') -> depth_strict d'.
Proof.
  intros d sw d' HS. unfold check_depth.
  set (sw0 := (1 <? List.length d)%nat && all_dec d). set (e := if sw0 then rev d else d).
  assert (Se : strictx e).
  { unfold e, sw0. destruct (Nat.ltb_spec 1 (List.length d)); cbn [andb].
    - destruct (all_dec d) eqn:A; [now apply dec_rev_strict|].
      destruct HS as [HS|HS]; [auto|]. apply strict_rev_dec in HS. rewrite rev_involutive in HS. congruence.
    - intros i j Hij. lia. }
  destruct (any_dec e); [discriminate|].
  destruct e as [|a e']; intros H; inversion H; subst; [apply single_strict|].
  destruct (xeqb a NInf) eqn:X.
  - apply xeqb_true in X. subst a. destruct e' as [|b e'].
    + apply single_strict.
    + apply drop_pinf_strict; auto. simpl; lia.
  - apply drop_pinf_strict; [|simpl; lia|reflexivity]. apply strict_cons_ninf; auto.
    simpl. intro Y. rewrite Y in X. discriminate.
Qed.

(** Giving strictly increasing depths in reverse order yields the same array. *)
Lemma check_depth_rev : forall d, strictx d -> (1 < List.length d)%nat ->
  exists d', check_depth d = Ok (false, d') /\ check_depth (rev d) = Ok (true, d').
Proof.
  intros d S0 L. unfold check_depth. rewrite rev_length.
  destruct (Nat.ltb_spec 1 (List.length d)); [|lia]. cbn [andb].
  rewrite (strict_not_dec d S0 L), (strict_rev_dec d S0). cbv iota. rewrite rev_involutive.
  rewrite (sorted_any_dec _ (strict_sorted _ S0)). destruct d; eauto.
Qed.
