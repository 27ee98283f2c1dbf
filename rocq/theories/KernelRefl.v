(** Refinement of kernel.reflections: the array-writing loop returns the
    recursively defined reflection coefficients. *)

From Coq Require Import Reals ZArith List Bool Lia Lra.
From Coquelicot Require Import Coquelicot.
From Verif Require Import PyBase CBase Kernel KernelSpec.
Import ListNotations.

Lemma cz_RtoC : forall x, cz x = RtoC (IZR x).
Proof. reflexivity. Qed.

Lemma replace_map_seq : forall A (f : nat -> A) n a k v, (k < n)%nat ->
  replace (map f (seq a n)) k v
  = map (fun i => if Nat.eqb i (a + k) then v else f i) (seq a n).
Proof.
  induction n; intros a k v Hk; [lia|]. cbn [seq map].
  destruct k.
  - cbn [replace]. rewrite Nat.add_0_r, Nat.eqb_refl. f_equal.
    apply map_ext_in. intros i Hi. apply in_seq in Hi.
    destruct (Nat.eqb_spec i a); [lia|reflexivity].
  - cbn [replace]. rewrite IHn by lia.
    destruct (Nat.eqb_spec a (a + S k)); [lia|]. f_equal.
    apply map_ext. intros i. replace (S a + k)%nat with (a + S k)%nat by lia. reflexivity.
Qed.

Lemma setidx_map_seq : forall A (f : nat -> A) n k v, (k < n)%nat ->
  setidx (map f (seq 0 n)) (Z.of_nat k) v
  = Ok (map (fun i => if Nat.eqb i k then v else f i) (seq 0 n)).
Proof.
  intros. rewrite setidx_ok by (rewrite map_length, seq_length; lia).
  rewrite replace_map_seq by lia. reflexivity.
Qed.

Lemma repeat_map_seq : forall A (v : A) n a, repeat v n = map (fun _ => v) (seq a n).
Proof. induction n; intros; simpl; [reflexivity|]. now rewrite <- IHn. Qed.

Lemma zrange_down_nth : forall a b j x,
  nth_error (zrange_down a b) j = Some x -> x = (a - Z.of_nat j)%Z /\ (Z.of_nat j < a - b)%Z.
Proof.
  intros a b j x H. unfold zrange_down in H.
  assert (Hl : (j < List.length (map (fun k => (a - Z.of_nat k)%Z) (seq 0 (Z.to_nat (a-b)))))%nat)
    by (apply nth_error_Some; congruence).
  rewrite map_length, seq_length in Hl.
  rewrite nth_error_map in H.
  rewrite (nth_error_nth' _ 0%nat) in H by (rewrite seq_length; lia).
  rewrite seq_nth in H by lia. simpl in H. injection H as <-. split; [lia|lia].
Qed.

Lemma zrange_nth : forall a b j x,
  nth_error (zrange a b) j = Some x -> x = (a + Z.of_nat j)%Z /\ (Z.of_nat j < b - a)%Z.
Proof.
  intros a b j x H. unfold zrange in H.
  assert (Hl : (j < List.length (map (fun k => (a + Z.of_nat k)%Z) (seq 0 (Z.to_nat (b-a)))))%nat)
    by (apply nth_error_Some; congruence).
  rewrite map_length, seq_length in Hl.
  rewrite nth_error_map in H.
  rewrite (nth_error_nth' _ 0%nat) in H by (rewrite seq_length; lia).
  rewrite seq_nth in H by lia. simpl in H. injection H as <-. split; lia.
Qed.

Lemma zrange_down_length : forall a b, List.length (zrange_down a b) = Z.to_nat (a - b).
Proof. intros; unfold zrange_down; now rewrite map_length, seq_length. Qed.
Lemma zrange_length : forall a b, List.length (zrange a b) = Z.to_nat (b - a).
Proof. intros; unfold zrange; now rewrite map_length, seq_length. Qed.

Lemma zrange_down_first : forall a b, (b < a)%Z ->
  exists l, zrange_down a b = a :: l.
Proof.
  intros. unfold zrange_down. replace (Z.to_nat (a - b)) with (S (Z.to_nat (a-b-1))) by lia.
  cbn [seq map]. rewrite Z.sub_0_r. eauto.
Qed.
Lemma zrange_first : forall a b, (a < b)%Z -> exists l, zrange a b = a :: l.
Proof.
  intros. unfold zrange. replace (Z.to_nat (b - a)) with (S (Z.to_nat (b-a-1))) by lia.
  cbn [seq map]. rewrite Z.add_0_r. eauto.
Qed.
Lemma zrange_down_nil : forall a b, (a <= b)%Z -> zrange_down a b = [].
Proof. intros. unfold zrange_down. replace (Z.to_nat (a-b)) with 0%nat by lia. reflexivity. Qed.
Lemma zrange_nil : forall a b, (b <= a)%Z -> zrange a b = [].
Proof. intros. unfold zrange. replace (Z.to_nat (b-a)) with 0%nat by lia. reflexivity. Qed.

Lemma map_seq_shift : forall A (f : nat -> A) m n,
  map (fun i => f (i + m)%nat) (seq 0 n) = map f (seq m n).
Proof.
  intros A f m n.
  assert (H : forall a, map (fun i => f (i + m)%nat) (seq a n) = map f (seq (m + a) n)).
  { induction n; intros a; cbn [seq map]; [reflexivity|].
    rewrite IHn. replace (m + S a)%nat with (S (m + a)) by lia.
    f_equal. f_equal. lia. }
  rewrite H. now rewrite Nat.add_0_r.
Qed.

(** Slots: how the list returned by [reflections] is indexed.  [off] is 0, or
    1 (plus) if the source is in the last layer above ... see below. *)
Section Refl.
Variables (e g : nat -> C) (z : nat -> R) (N : nat).
Notation eL := (arr e N).
Notation gL := (arr g N).
Notation dL := (depth_arr z N).
Notation Rd := (Rdn e g z N).
Notation Ru := (Rup e g z).

Local Open Scope R_scope.
Local Open Scope C_scope.
Local Open Scope res_scope.

(** The coefficient update of one layer-loop iteration (plus). *)
Lemma refl_update_plus : forall k, (S k < N)%nat ->
  den_rl e g k <> 0 -> den_dn e g z N k <> 0 ->
  forall lrec lsrc minmax first Ref izout,
  Z.of_nat k <> first ->
  refl_step 1 dL eL gL lrec lsrc minmax first (Some (Rd (S k)), Ref, izout) (Z.of_nat k)
  = (if negb (lrec =? lsrc)%Z && (1 * Z.of_nat k <=? minmax)%Z
     then (Ref' <- setidx Ref izout (Rd k) ;; Ok (Some (Rd k), Ref', (izout - 1)%Z))
     else Ok (Some (Rd k), Ref, izout)).
Proof.
  intros k Hk Hrl Hdn lrec lsrc minmax first Ref izout Hf.
  unfold refl_step.
  replace (Z.of_nat k + 1)%Z with (Z.of_nat (S k)) by lia.
  rewrite !idx_arr by lia. cbn [bind].
  rewrite cdiv_ok by exact Hrl. cbn [bind].
  destruct (Z.eqb_spec (Z.of_nat k) first) as [|_]; [contradiction|].
  replace (Z.of_nat (S k) + 1)%Z with (Z.of_nat (S (S k))) by lia.
  rewrite !idx_depth by lia. cbn [bind xsub xexpm].
  rewrite cdiv_ok by exact Hdn. cbn [bind].
  rewrite (Rdn_step e g z N k) by lia. reflexivity.
Qed.

Lemma refl_update_plus_first : forall k, (S k = N)%nat ->
  den_rl e g k <> 0 ->
  forall lrec lsrc minmax Ref izout,
  refl_step 1 dL eL gL lrec lsrc minmax (Z.of_nat k) (None, Ref, izout) (Z.of_nat k)
  = (if negb (lrec =? lsrc)%Z && (1 * Z.of_nat k <=? minmax)%Z
     then (Ref' <- setidx Ref izout (Rd k) ;; Ok (Some (Rd k), Ref', (izout - 1)%Z))
     else Ok (Some (Rd k), Ref, izout)).
Proof.
  intros k Hk Hrl lrec lsrc minmax Ref izout.
  unfold refl_step.
  replace (Z.of_nat k + 1)%Z with (Z.of_nat (S k)) by lia.
  rewrite !idx_arr by lia. cbn [bind].
  rewrite cdiv_ok by exact Hrl. cbn [bind].
  rewrite Z.eqb_refl. cbn [bind].
  assert (E : Rd k = rl e g k).
  { rewrite Rdn_step by lia. unfold den_dn. rewrite Hk, Rdn_N.
    replace (rl e g k + 0 * E2 g z N) with (rl e g k) by ring.
    replace (1 + rl e g k * (0 * E2 g z N)) with (RtoC 1) by ring. apply Cdiv_1_r. }
  rewrite E. reflexivity.
Qed.

(** Loop over the layers, plus direction. [ns] = number of stored slots,
    [o] = slot offset, [top] = first stored layer. *)
Lemma refl_loop_plus : forall (mi top o len : nat) (lrec lsrc minmax : Z),
  (mi < N)%nat ->
  (forall k, (mi <= k < N)%nat -> den_rl e g k <> 0 /\ den_dn e g z N k <> 0) ->
  (lrec <> lsrc -> (mi <= top < N)%nat /\ (top - mi + o < len)%nat /\
     (forall k, (mi <= k < N)%nat -> (1 * Z.of_nat k <=? minmax)%Z = Nat.leb k top)) ->
  exists ref izo,
    foldM (refl_step 1 dL eL gL lrec lsrc minmax (Z.of_nat N + 1 - 2))
      (zrange_down (Z.of_nat N + 1 - 2) (Z.of_nat mi - 1))
      (None, repeat (cz 0) len, (Z.of_nat top - Z.of_nat mi + Z.of_nat o)%Z)
    = Ok (Some (Rd mi), ref, izo) /\
    (lrec <> lsrc ->
     ref = map (fun i => if (o <=? i)%nat && (i <=? top - mi + o)%nat
                         then Rd (i + mi - o) else cz 0) (seq 0 len)).
Proof.
  intros mi top o len lrec lsrc minmax Hmi Hden Hst.
  set (I := fun (j : nat) (st : option C * list C * Z) =>
     let '(tR, ref, izo) := st in
     (j <= N - mi)%nat /\
     tR = (if Nat.eqb j 0 then None else Some (Rd (N - j))) /\
     (lrec <> lsrc ->
        izo = (Z.min (Z.of_nat top) (Z.of_nat N - 1 - Z.of_nat j) - Z.of_nat mi + Z.of_nat o)%Z /\
        ref = map (fun i => if (N - j - mi + o <=? i)%nat && (i <=? top - mi + o)%nat
                         then Rd (i + mi - o) else cz 0) (seq 0 len))).
  destruct (foldM_inv _ _ (refl_step 1 dL eL gL lrec lsrc minmax (Z.of_nat N + 1 - 2)) I
     (zrange_down (Z.of_nat N + 1 - 2) (Z.of_nat mi - 1))
     (None, repeat (cz 0) len, (Z.of_nat top - Z.of_nat mi + Z.of_nat o)%Z))
    as [[[tR ref] izo] [EQ HI]].
  - unfold I. split; [lia|]. split; [reflexivity|]. intros Hne.
    destruct (Hst Hne) as [H1 [H2 H3]]. split; [lia|].
    rewrite (repeat_map_seq _ (cz 0) len 0). apply map_ext_in. intros i Hi.
    apply in_seq in Hi.
    destruct (Nat.leb_spec (N - 0 - mi + o) i); [|reflexivity].
    destruct (Nat.leb_spec i (top - mi + o)); [lia|reflexivity].
  - intros j [[tR ref] izo] x Hx HI. apply zrange_down_nth in Hx. destruct Hx as [-> Hj].
    unfold I in HI. destruct HI as [Hj2 [HtR Hlist]].
    set (k := (N - 1 - j)%nat).
    assert (Hk : (Z.of_nat N + 1 - 2 - Z.of_nat j)%Z = Z.of_nat k) by (unfold k; lia).
    rewrite Hk.
    assert (Hk2 : (mi <= k < N)%nat) by (unfold k; lia).
    destruct (Hden k Hk2) as [Hrl Hdn].
    assert (STEP : refl_step 1 dL eL gL lrec lsrc minmax (Z.of_nat N + 1 - 2) (tR, ref, izo) (Z.of_nat k)
      = (if negb (lrec =? lsrc)%Z && (1 * Z.of_nat k <=? minmax)%Z
         then (Ref' <- setidx ref izo (Rd k) ;; Ok (Some (Rd k), Ref', (izo - 1)%Z))
         else Ok (Some (Rd k), ref, izo))).
    { subst tR. destruct (Nat.eqb_spec j 0) as [->|Hj0].
      - replace (Z.of_nat N + 1 - 2)%Z with (Z.of_nat k) by (unfold k in *; lia).
        apply refl_update_plus_first; [unfold k; lia|assumption].
      - replace (N - j)%nat with (S k) by (unfold k; lia).
        apply refl_update_plus; try assumption; unfold k in *; lia. }
    rewrite STEP. clear STEP.
    destruct (Z.eqb_spec lrec lsrc) as [Heq|Hne]; cbn [negb andb].
    + eexists; split; [reflexivity|]. unfold I. split; [unfold k in *; lia|].
      split; [destruct (Nat.eqb_spec (S j) 0); [lia|]; unfold k; do 2 f_equal; lia|].
      intros; contradiction.
    + destruct (Hst Hne) as [H1 [H2 H3]]. rewrite (H3 k Hk2).
      destruct (Hlist Hne) as [Hizo Href].
      destruct (Nat.leb_spec k top) as [Hkt|Hkt].
      * replace izo with (Z.of_nat (k - mi + o)) by (unfold k in *; lia).
        rewrite Href. rewrite setidx_map_seq by lia. cbn [bind].
        eexists; split; [reflexivity|]. unfold I.
        split; [unfold k in *; lia|].
        split; [destruct (Nat.eqb_spec (S j) 0); [lia|]; unfold k; do 2 f_equal; lia|].
        intros _. split; [unfold k in *; lia|].
        apply map_ext_in. intros i Hi. apply in_seq in Hi.
        destruct (Nat.eqb_spec i (k - mi + o)) as [->|Hi2].
        -- destruct (Nat.leb_spec (N - S j - mi + o) (k - mi + o)); [|unfold k in *; lia].
           destruct (Nat.leb_spec (k - mi + o) (top - mi + o)); [|lia]. simpl.
           f_equal. lia.
        -- destruct (Nat.leb_spec (N - j - mi + o) i), (Nat.leb_spec (N - S j - mi + o) i);
             try reflexivity; unfold k in *; lia.
      * eexists; split; [reflexivity|]. unfold I.
        split; [unfold k in *; lia|].
        split; [destruct (Nat.eqb_spec (S j) 0); [lia|]; unfold k; do 2 f_equal; lia|].
        intros _. split; [unfold k in *; lia|].
        rewrite Href. apply map_ext_in. intros i Hi. apply in_seq in Hi.
        destruct (Nat.leb_spec (N - j - mi + o) i), (Nat.leb_spec (N - S j - mi + o) i),
           (Nat.leb_spec i (top - mi + o)); try reflexivity; unfold k in *; lia.
  - rewrite zrange_down_length in HI.
    replace (Z.to_nat (Z.of_nat N + 1 - 2 - (Z.of_nat mi - 1))) with (N - mi)%nat in HI by lia.
    destruct HI as [_ [HtR Hlist]].
    exists ref, izo. rewrite EQ. split.
    + rewrite HtR. destruct (Nat.eqb_spec (N - mi) 0); [lia|].
      replace (N - (N - mi))%nat with mi by lia. reflexivity.
    + intros Hne. destruct (Hlist Hne) as [_ ->]. apply map_ext_in. intros i Hi.
      replace (N - (N - mi) - mi + o)%nat with o by lia. reflexivity.
Qed.

(** *** Same layer *)
Lemma reflections_plus_same : forall s, (s <= N)%nat ->
  (forall k, (s <= k < N)%nat -> den_rl e g k <> 0 /\ den_dn e g z N k <> 0) ->
  reflections_dir true dL eL gL (Z.of_nat s) (Z.of_nat s) = Ok [Rd s].
Proof.
  intros s Hs Hden. unfold reflections_dir. rewrite zlen_arr.
  rewrite Z.max_id, Z.min_id.
  destruct (Nat.eq_dec s N) as [->|HsN].
  - rewrite zrange_down_nil by lia.
    replace (Z.to_nat (Z.min (Z.of_nat N + 1) (Z.of_nat N - Z.of_nat N + 1))) with 1%nat by lia.
    cbn [repeat]. now rewrite Rdn_N.
  - destruct (zrange_down_first (Z.of_nat N + 1 - 2) (Z.of_nat s - 1)) as [l Hl]; [lia|].
    destruct (refl_loop_plus s s 0 1 (Z.of_nat s) (Z.of_nat s) (1 * Z.of_nat s)) as [ref [izo [HE _]]];
      [lia|exact Hden|congruence|].
    rewrite Hl in *. 
    replace ((Z.of_nat s >? Z.of_nat s)%Z) with false by (destruct (Z.gtb_spec (Z.of_nat s) (Z.of_nat s)); [lia|reflexivity]).
    replace ((Z.of_nat s <? Z.of_nat s)%Z) with false by (destruct (Z.ltb_spec (Z.of_nat s) (Z.of_nat s)); [lia|reflexivity]).
    cbn [andb orb].
    replace (Z.abs (Z.of_nat s - Z.of_nat s))%Z with (Z.of_nat s - Z.of_nat s + Z.of_nat 0)%Z by lia.
    replace (Z.to_nat (Z.min (Z.of_nat N + 1) (Z.of_nat s - Z.of_nat s + 1))) with 1%nat by lia.
    rewrite HE. cbn [bind]. now rewrite Z.eqb_refl.
Qed.

(** *** Different layers *)
Lemma reflections_plus_diff : forall s r, (s <= N)%nat -> (r <= N)%nat -> s <> r ->
  ~ (s = N /\ (r < s)%nat) ->
  (forall k, (Nat.min s r <= k < N)%nat -> den_rl e g k <> 0 /\ den_dn e g z N k <> 0) ->
  reflections_dir true dL eL gL (Z.of_nat r) (Z.of_nat s)
  = Ok (map Rd (seq (Nat.min s r) (Nat.max s r - Nat.min s r + 1))).
Proof.
  intros s r Hs Hr Hsr Hodd Hden. unfold reflections_dir. rewrite zlen_arr.
  set (mi := Nat.min s r) in *. set (ma := Nat.max s r).
  replace (Z.max (Z.of_nat r) (Z.of_nat s)) with (Z.of_nat ma) by (unfold ma; lia).
  replace (Z.min (Z.of_nat r) (Z.of_nat s)) with (Z.of_nat mi) by (unfold mi; lia).
  assert (Hmi : (mi < N)%nat) by (unfold mi; lia).
  destruct (zrange_down_first (Z.of_nat N + 1 - 2) (Z.of_nat mi - 1)) as [l Hl]; [lia|].
  replace (Z.to_nat (Z.min (Z.of_nat N + 1) (Z.of_nat ma - Z.of_nat mi + 1)))
     with (ma - mi + 1)%nat by (unfold ma, mi; lia).
  set (top := Nat.min ma (N - 1)).
  destruct (refl_loop_plus mi top 0 (ma - mi + 1) (Z.of_nat r) (Z.of_nat s) (1 * Z.of_nat ma))
    as [ref [izo [HE HR]]]; [lia|exact Hden| |].
  { intros _. split; [unfold top, ma, mi in *; lia|]. split; [unfold top, ma, mi in *; lia|].
    intros k Hk. destruct (Nat.leb_spec k top); destruct (Z.leb_spec (1 * Z.of_nat k) (1 * Z.of_nat ma));
      try reflexivity; unfold top, ma in *; lia. }
  rewrite Hl in *.
  match goal with |- context[if ?b then (?x - 1)%Z else ?x] =>
    replace (if b then (x - 1)%Z else x) with (Z.of_nat top - Z.of_nat mi + Z.of_nat 0)%Z end.
  - rewrite HE. cbn [bind].
    destruct (Z.eqb_spec (Z.of_nat s) (Z.of_nat r)); [lia|].
    rewrite HR by lia. f_equal.
    transitivity (map (fun i => Rd (i + mi)) (seq 0 (ma - mi + 1))).
    + apply map_ext_in. intros i Hi. apply in_seq in Hi.
      destruct (Nat.leb_spec 0 i); [|lia]. cbn [andb].
      destruct (Nat.leb_spec i (top - mi + 0)).
      * f_equal. lia.
      * replace (i + mi)%nat with N by (unfold top, ma in *; lia). now rewrite Rdn_N.
    + apply map_seq_shift.
  - destruct (Z.ltb_spec (Z.of_nat r) (Z.of_nat s)); destruct (Z.gtb_spec (Z.of_nat r) (Z.of_nat s));
      destruct (Z.eqb_spec (Z.of_nat r) (Z.of_nat N + 1 - 1));
      rewrite ?andb_false_r; cbn [andb orb negb]; unfold top, ma, mi in *; lia.
Qed.

(** Source in the last layer, receiver above: the list is shifted by one slot
    (it is not read by greenfct in this case). *)
Lemma reflections_plus_odd : forall r, (r < N)%nat ->
  (forall k, (r <= k < N)%nat -> den_rl e g k <> 0 /\ den_dn e g z N k <> 0) ->
  reflections_dir true dL eL gL (Z.of_nat r) (Z.of_nat N)
  = Ok (cz 0 :: map Rd (seq r (N - r))).
Proof.
  intros r Hr Hden. unfold reflections_dir. rewrite zlen_arr.
  replace (Z.max (Z.of_nat r) (Z.of_nat N)) with (Z.of_nat N) by lia.
  replace (Z.min (Z.of_nat r) (Z.of_nat N)) with (Z.of_nat r) by lia.
  destruct (zrange_down_first (Z.of_nat N + 1 - 2) (Z.of_nat r - 1)) as [l Hl]; [lia|].
  replace (Z.to_nat (Z.min (Z.of_nat N + 1) (Z.of_nat N - Z.of_nat r + 1)))
     with (N - r + 1)%nat by lia.
  destruct (refl_loop_plus r (N-1) 1 (N - r + 1) (Z.of_nat r) (Z.of_nat N) (1 * Z.of_nat N))
    as [ref [izo [HE HR]]]; [lia|exact Hden| |].
  { intros _. split; [lia|]. split; [lia|].
    intros k Hk. destruct (Nat.leb_spec k (N-1)); destruct (Z.leb_spec (1 * Z.of_nat k) (1 * Z.of_nat N));
      try reflexivity; lia. }
  rewrite Hl in *.
  match goal with |- context[if ?b then (?x - 1)%Z else ?x] =>
    replace (if b then (x - 1)%Z else x) with (Z.of_nat (N-1) - Z.of_nat r + Z.of_nat 1)%Z end.
  - rewrite HE. cbn [bind].
    destruct (Z.eqb_spec (Z.of_nat N) (Z.of_nat r)); [lia|].
    rewrite HR by lia. f_equal.
    replace (N - r + 1)%nat with (S (N - r)) by lia. cbn [seq map].
    f_equal. rewrite <- seq_shift, map_map.
    transitivity (map (fun i => Rd (i + r)) (seq 0 (N - r))).
    + apply map_ext_in. intros i Hi. apply in_seq in Hi.
      destruct (Nat.leb_spec 1 (S i)); [|lia]. cbn [andb].
      destruct (Nat.leb_spec (S i) (N - 1 - r + 1)); [|lia]. f_equal. lia.
    + apply map_seq_shift.
  - destruct (Z.ltb_spec (Z.of_nat r) (Z.of_nat N)); destruct (Z.gtb_spec (Z.of_nat r) (Z.of_nat N));
      destruct (Z.eqb_spec (Z.of_nat r) (Z.of_nat N + 1 - 1));
      rewrite ?andb_false_r; cbn [andb orb negb]; lia.
Qed.

(** *** Minus direction *)
Lemma refl_update_minus : forall k, (1 <= k < N)%nat ->
  den_rl e g k <> 0 -> den_up e g z k <> 0 ->
  forall lrec lsrc minmax first Ref izout,
  Z.of_nat (S k) <> first ->
  refl_step (-1) dL eL gL lrec lsrc minmax first (Some (Ru k), Ref, izout) (Z.of_nat (S k))
  = (if negb (lrec =? lsrc)%Z && (-1 * Z.of_nat (S k) <=? minmax)%Z
     then (Ref' <- setidx Ref izout (Ru (S k)) ;; Ok (Some (Ru (S k)), Ref', (izout - -1)%Z))
     else Ok (Some (Ru (S k)), Ref, izout)).
Proof.
  intros k Hk Hrl Hup lrec lsrc minmax first Ref izout Hf.
  unfold refl_step.
  replace (Z.of_nat (S k) + -1)%Z with (Z.of_nat k) by lia.
  rewrite !idx_arr by lia. cbn [bind].
  assert (D : e k * g (S k) + e (S k) * g k = den_rl e g k) by (unfold den_rl; ring).
  assert (RL : (e k * g (S k) - e (S k) * g k) / (e k * g (S k) + e (S k) * g k) = - rl e g k).
  { rewrite D. unfold rl. fold (den_rl e g k). field. exact Hrl. }
  rewrite cdiv_ok by (rewrite D; exact Hrl). cbn [bind]. rewrite RL.
  destruct (Z.eqb_spec (Z.of_nat (S k)) first) as [|_]; [contradiction|].
  replace (Z.of_nat (S k) + 1 + -1)%Z with (Z.of_nat (S k)) by lia.
  rewrite !idx_depth by lia. cbn [bind xsub xexpm].
  rewrite cdiv_ok by exact Hup. cbn [bind].
  rewrite (Rup_step e g z k). reflexivity.
Qed.

Lemma refl_update_minus_first : (1 <= N)%nat -> den_rl e g 0 <> 0 ->
  forall lrec lsrc minmax Ref izout,
  refl_step (-1) dL eL gL lrec lsrc minmax 1 (None, Ref, izout) 1
  = (if negb (lrec =? lsrc)%Z && (-1 * 1 <=? minmax)%Z
     then (Ref' <- setidx Ref izout (Ru 1) ;; Ok (Some (Ru 1), Ref', (izout - -1)%Z))
     else Ok (Some (Ru 1), Ref, izout)).
Proof.
  intros HN Hrl lrec lsrc minmax Ref izout. unfold refl_step.
  replace (1 + -1)%Z with (Z.of_nat 0) by lia. replace 1%Z with (Z.of_nat 1) by lia.
  rewrite !idx_arr by lia. cbn [bind].
  assert (D : e 0%nat * g 1%nat + e 1%nat * g 0%nat = den_rl e g 0) by (unfold den_rl; ring).
  assert (RL : (e 0%nat * g 1%nat - e 1%nat * g 0%nat) / (e 0%nat * g 1%nat + e 1%nat * g 0%nat) = - rl e g 0).
  { rewrite D. unfold rl. fold (den_rl e g 0). field. exact Hrl. }
  rewrite cdiv_ok by (rewrite D; exact Hrl). cbn [bind]. rewrite RL.
  rewrite Z.eqb_refl. cbn [bind].
  assert (E : Ru 1 = - rl e g 0).
  { rewrite Rup_step. unfold den_up. cbn [Rup].
    replace (- rl e g 0 + 0 * E2 g z 0) with (- rl e g 0) by ring.
    replace (1 + - rl e g 0 * (0 * E2 g z 0)) with (RtoC 1) by ring. apply Cdiv_1_r. }
  rewrite E. reflexivity.
Qed.

(** Loop over layers 1..ma; the first stored layer is [bot >= 1], it goes to
    slot [o]. *)
Lemma refl_loop_minus : forall (ma bot o len : nat) (lrec lsrc minmax : Z),
  (1 <= ma <= N)%nat ->
  (forall k, (k < ma)%nat -> den_rl e g k <> 0 /\ den_up e g z k <> 0) ->
  (lrec <> lsrc -> (1 <= bot <= ma)%nat /\ (ma - bot + o < len)%nat /\
     (forall k, (1 <= k <= ma)%nat -> (-1 * Z.of_nat k <=? minmax)%Z = Nat.leb bot k)) ->
  exists ref izo,
    foldM (refl_step (-1) dL eL gL lrec lsrc minmax 1)
      (zrange 1 (Z.of_nat ma + 1)) (None, repeat (cz 0) len, Z.of_nat o)
    = Ok (Some (Ru ma), ref, izo) /\
    (lrec <> lsrc ->
     ref = map (fun i => if (o <=? i)%nat && (i <=? ma - bot + o)%nat
                         then Ru (i + bot - o) else cz 0) (seq 0 len)).
Proof.
  intros ma bot o len lrec lsrc minmax Hma Hden Hst.
  set (I := fun (j : nat) (st : option C * list C * Z) =>
     let '(tR, ref, izo) := st in
     (j <= ma)%nat /\
     tR = (if Nat.eqb j 0 then None else Some (Ru j)) /\
     (lrec <> lsrc ->
        izo = (Z.of_nat (j + 1 - bot) + Z.of_nat o)%Z /\
        ref = map (fun i => if (o <=? i)%nat && (i + bot <? j + 1 + o)%nat
                         then Ru (i + bot - o) else cz 0) (seq 0 len))).
  destruct (foldM_inv _ _ (refl_step (-1) dL eL gL lrec lsrc minmax 1) I
     (zrange 1 (Z.of_nat ma + 1)) (None, repeat (cz 0) len, Z.of_nat o))
    as [[[tR ref] izo] [EQ HI]].
  - unfold I. split; [lia|]. split; [reflexivity|]. intros Hne.
    destruct (Hst Hne) as [H1 [H2 H3]]. split; [lia|].
    rewrite (repeat_map_seq _ (cz 0) len 0). apply map_ext_in. intros i Hi.
    destruct (Nat.leb_spec o i); [|reflexivity].
    destruct (Nat.ltb_spec (i + bot) (0 + 1 + o)); [lia|reflexivity].
  - intros j [[tR ref] izo] x Hx HI. apply zrange_nth in Hx. destruct Hx as [-> Hj].
    unfold I in HI. destruct HI as [Hj2 [HtR Hlist]].
    replace (1 + Z.of_nat j)%Z with (Z.of_nat (S j)) by lia.
    destruct (Hden j) as [Hrl Hup]; [lia|].
    assert (STEP : refl_step (-1) dL eL gL lrec lsrc minmax 1 (tR, ref, izo) (Z.of_nat (S j))
      = (if negb (lrec =? lsrc)%Z && (-1 * Z.of_nat (S j) <=? minmax)%Z
         then (Ref' <- setidx ref izo (Ru (S j)) ;; Ok (Some (Ru (S j)), Ref', (izo - -1)%Z))
         else Ok (Some (Ru (S j)), ref, izo))).
    { subst tR. destruct (Nat.eqb_spec j 0) as [->|Hj0].
      - apply refl_update_minus_first; [lia|assumption].
      - apply refl_update_minus; try assumption; lia. }
    rewrite STEP. clear STEP.
    destruct (Z.eqb_spec lrec lsrc) as [Heq|Hne]; cbn [negb andb].
    + eexists; split; [reflexivity|]. unfold I. split; [lia|].
      split; [reflexivity|]. intros; contradiction.
    + destruct (Hst Hne) as [H1 [H2 H3]]. rewrite H3 by lia.
      destruct (Hlist Hne) as [Hizo Href].
      destruct (Nat.leb_spec bot (S j)) as [Hkt|Hkt].
      * replace izo with (Z.of_nat (S j - bot + o)) by lia.
        rewrite Href. rewrite setidx_map_seq by lia. cbn [bind].
        eexists; split; [reflexivity|]. unfold I.
        split; [lia|]. split; [reflexivity|].
        intros _. split; [lia|].
        apply map_ext_in. intros i Hi. apply in_seq in Hi.
        destruct (Nat.eqb_spec i (S j - bot + o)) as [->|Hi2].
        -- destruct (Nat.leb_spec o (S j - bot + o)); [|lia].
           destruct (Nat.ltb_spec (S j - bot + o + bot) (S j + 1 + o)); [|lia]. cbn [andb].
           f_equal. lia.
        -- destruct (Nat.leb_spec o i); [|reflexivity].
           destruct (Nat.ltb_spec (i + bot) (j + 1 + o)), (Nat.ltb_spec (i + bot) (S j + 1 + o));
             try reflexivity; lia.
      * eexists; split; [reflexivity|]. unfold I.
        split; [lia|]. split; [reflexivity|]. intros _. split; [lia|].
        rewrite Href. apply map_ext_in. intros i Hi.
        destruct (Nat.leb_spec o i); [|reflexivity].
        destruct (Nat.ltb_spec (i + bot) (j + 1 + o)), (Nat.ltb_spec (i + bot) (S j + 1 + o));
          try reflexivity; lia.
  - rewrite zrange_length in HI.
    replace (Z.to_nat (Z.of_nat ma + 1 - 1)) with ma in HI by lia.
    destruct HI as [_ [HtR Hlist]].
    exists ref, izo. rewrite EQ. split.
    + rewrite HtR. destruct (Nat.eqb_spec ma 0); [lia|]. reflexivity.
    + intros Hne. destruct (Hst Hne) as [H1 _]. destruct (Hlist Hne) as [_ ->].
      apply map_ext_in. intros i Hi.
      destruct (Nat.ltb_spec (i + bot) (ma + 1 + o)), (Nat.leb_spec i (ma - bot + o));
        try reflexivity; lia.
Qed.

Lemma reflections_minus_same : forall s, (s <= N)%nat ->
  (forall k, (k < s)%nat -> den_rl e g k <> 0 /\ den_up e g z k <> 0) ->
  reflections_dir false dL eL gL (Z.of_nat s) (Z.of_nat s) = Ok [Ru s].
Proof.
  intros s Hs Hden. unfold reflections_dir. rewrite zlen_arr.
  rewrite Z.max_id, Z.min_id.
  replace (Z.to_nat (Z.min (Z.of_nat N + 1) (Z.of_nat s - Z.of_nat s + 1))) with 1%nat by lia.
  destruct (Nat.eq_dec s 0) as [->|Hs0].
  - rewrite zrange_nil by lia. reflexivity.
  - destruct (zrange_first 1 (Z.of_nat s + 1)) as [l Hl]; [lia|].
    destruct (refl_loop_minus s 1 0 1 (Z.of_nat s) (Z.of_nat s) (-1 * Z.of_nat s)) as [ref [izo [HE _]]];
      [lia|exact Hden|congruence|].
    rewrite Hl in *.
    replace ((Z.of_nat s >? Z.of_nat s)%Z) with false by (destruct (Z.gtb_spec (Z.of_nat s) (Z.of_nat s)); [lia|reflexivity]).
    replace ((Z.of_nat s <? Z.of_nat s)%Z) with false by (destruct (Z.ltb_spec (Z.of_nat s) (Z.of_nat s)); [lia|reflexivity]).
    cbn [andb orb].
    change (Z.of_nat 0) with 0%Z in HE.
    rewrite HE. cbn [bind]. now rewrite Z.eqb_refl.
Qed.

Lemma reflections_minus_diff : forall s r, (s <= N)%nat -> (r <= N)%nat -> s <> r ->
  ~ (s = 0%nat /\ (s < r)%nat) ->
  (forall k, (k < Nat.max s r)%nat -> den_rl e g k <> 0 /\ den_up e g z k <> 0) ->
  reflections_dir false dL eL gL (Z.of_nat r) (Z.of_nat s)
  = Ok (map Ru (seq (Nat.min s r) (Nat.max s r - Nat.min s r + 1))).
Proof.
  intros s r Hs Hr Hsr Hodd Hden. unfold reflections_dir. rewrite zlen_arr.
  set (mi := Nat.min s r) in *. set (ma := Nat.max s r) in *.
  replace (Z.max (Z.of_nat r) (Z.of_nat s)) with (Z.of_nat ma) by (unfold ma; lia).
  replace (Z.min (Z.of_nat r) (Z.of_nat s)) with (Z.of_nat mi) by (unfold mi; lia).
  destruct (zrange_first 1 (Z.of_nat ma + 1)) as [l Hl]; [unfold ma; lia|].
  replace (Z.to_nat (Z.min (Z.of_nat N + 1) (Z.of_nat ma - Z.of_nat mi + 1)))
     with (ma - mi + 1)%nat by (unfold ma, mi; lia).
  set (bot := Nat.max 1 mi).
  destruct (refl_loop_minus ma bot (bot - mi) (ma - mi + 1) (Z.of_nat r) (Z.of_nat s) (-1 * Z.of_nat mi))
    as [ref [izo [HE HR]]]; [unfold ma; lia|exact Hden| |].
  { intros _. split; [unfold bot, ma, mi in *; lia|]. split; [unfold bot, ma, mi in *; lia|].
    intros k Hk. destruct (Nat.leb_spec bot k); destruct (Z.leb_spec (-1 * Z.of_nat k) (-1 * Z.of_nat mi));
      try reflexivity; unfold bot in *; lia. }
  rewrite Hl in *.
  match goal with |- context[if ?b then (?x - -1)%Z else ?x] =>
    replace (if b then (x - -1)%Z else x) with (Z.of_nat (bot - mi)) end.
  - rewrite HE. cbn [bind].
    destruct (Z.eqb_spec (Z.of_nat s) (Z.of_nat r)); [lia|].
    rewrite HR by lia. f_equal.
    rewrite <- (map_seq_shift _ Ru mi).
    apply map_ext_in. intros i Hi. apply in_seq in Hi.
    destruct (Nat.leb_spec (bot - mi) i).
    + cbn [andb]. destruct (Nat.leb_spec i (ma - bot + (bot - mi))); [|unfold bot, ma, mi in *; lia].
      f_equal. unfold bot in *; lia.
    + cbn [andb]. replace (i + mi)%nat with 0%nat by (unfold bot in *; lia). reflexivity.
  - destruct (Z.ltb_spec (Z.of_nat r) (Z.of_nat s)); destruct (Z.gtb_spec (Z.of_nat r) (Z.of_nat s));
      destruct (Z.eqb_spec (Z.of_nat r) 0);
      rewrite ?andb_false_r; cbn [andb orb negb]; unfold bot, ma, mi in *; lia.
Qed.

(** Source in the first layer, receiver below: shifted by one slot (not read
    by greenfct in this case). *)
Lemma reflections_minus_odd : forall r, (0 < r <= N)%nat ->
  (forall k, (k < r)%nat -> den_rl e g k <> 0 /\ den_up e g z k <> 0) ->
  reflections_dir false dL eL gL (Z.of_nat r) 0
  = Ok (map Ru (seq 1 r) ++ [cz 0]).
Proof.
  intros r Hr Hden. unfold reflections_dir. rewrite zlen_arr.
  replace (Z.max (Z.of_nat r) 0) with (Z.of_nat r) by lia.
  replace (Z.min (Z.of_nat r) 0) with 0%Z by lia.
  destruct (zrange_first 1 (Z.of_nat r + 1)) as [l Hl]; [lia|].
  replace (Z.to_nat (Z.min (Z.of_nat N + 1) (Z.of_nat r - 0 + 1)))
     with (r + 1)%nat by lia.
  destruct (refl_loop_minus r 1 0 (r + 1) (Z.of_nat r) 0 (-1 * 0))
    as [ref [izo [HE HR]]]; [lia|exact Hden| |].
  { intros _. split; [lia|]. split; [lia|].
    intros k Hk. destruct (Nat.leb_spec 1 k); destruct (Z.leb_spec (-1 * Z.of_nat k) (-1 * 0));
      try reflexivity; lia. }
  rewrite Hl in *.
  match goal with |- context[if ?b then (?x - -1)%Z else ?x] =>
    replace (if b then (x - -1)%Z else x) with (Z.of_nat 0) end.
  - rewrite HE. cbn [bind].
    destruct (Z.eqb_spec 0 (Z.of_nat r)); [lia|].
    rewrite HR by lia. f_equal.
    rewrite seq_app, map_app. f_equal.
    + rewrite <- (map_seq_shift _ Ru 1). apply map_ext_in. intros i Hi. apply in_seq in Hi.
      destruct (Nat.leb_spec 0 i); [|lia]. cbn [andb].
      destruct (Nat.leb_spec i (r - 1 + 0)); [|lia]. f_equal. lia.
    + cbn [seq map]. destruct (Nat.leb_spec (0 + r) (r - 1 + 0)); [lia|].
      now rewrite andb_false_r.
  - destruct (Z.ltb_spec (Z.of_nat r) 0); destruct (Z.gtb_spec (Z.of_nat r) 0);
      destruct (Z.eqb_spec (Z.of_nat r) 0);
      rewrite ?andb_false_r; cbn [andb orb negb]; lia.
Qed.

End Refl.
