(** * Arbitrary waveforms: the function returned by check_waveform *)
From Coq Require Import ZArith List Lia Lra Reals String Bool.
From Coquelicot Require Import Coquelicot.
From Verif Require Import PyBase CBase Utils Transform UtilsArgs UtilsLayer UtilsFreq ArgsPha.
Import ListNotations.
Local Open Scope res_scope.
Local Open Scope R_scope.

(** ** Lists *)
Lemma map_nth_seq : forall A B (G : A -> B) (l : list A) d, map (fun i => G (nth i l d)) (seq 0 (List.length l)) = map G l.
Proof.
  intros A B G l d. induction l as [|x l IH]; [reflexivity|].
  cbn [List.length seq map nth]. f_equal. rewrite <- seq_shift, map_map. exact IH.
Qed.
Lemma map2_seq_l : forall A B (F : nat -> A -> B) (l : list A) d,
  map2 F (seq 0 (List.length l)) l = map (fun i => F i (nth i l d)) (seq 0 (List.length l)).
Proof.
  intros A B F l d. unfold map2.
  assert (G : forall k (l : list A), map (fun p => F (fst p) (snd p)) (combine (seq k (List.length l)) l)
    = map (fun i => F (k + i)%nat (nth i l d)) (seq 0 (List.length l))).
  { clear l. intros k l. revert k. induction l as [|x l IH]; intros k; [reflexivity|].
    cbn [List.length seq combine map fst snd nth]. f_equal; [f_equal; lia|].
    rewrite IH. rewrite <- seq_shift, map_map. apply map_ext. intros i. f_equal. lia. }
  exact (G 0%nat l).
Qed.
Lemma rsuml_cons : forall x l, rsuml (x :: l) = x + rsuml l.
Proof. reflexivity. Qed.
Lemma rsuml_nil : rsuml [] = 0.
Proof. reflexivity. Qed.
Lemma rsuml_app : forall a b, rsuml (a ++ b) = rsuml a + rsuml b.
Proof. induction a as [|x a IH]; intros b; cbn [app]; rewrite ?rsuml_cons, ?rsuml_nil, ?IH; lra. Qed.
Lemma rsuml_ext : forall A (f g : A -> R) l, (forall x, In x l -> f x = g x) -> rsuml (map f l) = rsuml (map g l).
Proof. intros A f g l H. f_equal. apply map_ext_in. exact H. Qed.
Lemma rsuml_scal : forall A (f : A -> R) c l, rsuml (map (fun x => c * f x) l) = c * rsuml (map f l).
Proof. induction l as [|x l IH]; cbn [map]; rewrite ?rsuml_cons, ?rsuml_nil; [ring|]. rewrite IH. ring. Qed.
Lemma rsuml_somes : forall A B (F : A -> option B) (G : B -> R) (H : A -> R) l,
  (forall x, In x l -> H x = match F x with Some b => G b | None => 0 end) ->
  rsuml (map G (somes (map F l))) = rsuml (map H l).
Proof.
  intros A B F G H l. induction l as [|x l IH]; intros E; [reflexivity|].
  cbn [map somes flat_map]. fold (somes (map F l)). rewrite map_app, rsuml_app, rsuml_cons.
  rewrite IH by (intros y Hy; apply E; right; exact Hy). rewrite (E x (or_introl eq_refl)).
  destruct (F x); cbn [map]; rewrite ?rsuml_cons, ?rsuml_nil; lra.
Qed.
Lemma map2_cons : forall A B D (F : A -> B -> D) x a y b, map2 F (x :: a) (y :: b) = F x y :: map2 F a b.
Proof. reflexivity. Qed.
Lemma mapM_pure : forall X Y (f : X -> res Y) (F : X -> Y) l, (forall x, In x l -> f x = Ok (F x)) -> mapM f l = Ok (map F l).
Proof.
  induction l as [|x l IH]; intros H; [reflexivity|]. cbn [mapM]. rewrite (H x (or_introl eq_refl)). cbn [bind].
  rewrite IH by (intros y Hy; apply H; right; exact Hy). reflexivity.
Qed.

(** ** np.unique *)
Lemma uinsert_in : forall x y l, In y (uinsert x l) <-> y = x \/ In y l.
Proof.
  induction l as [|z t IH]; cbn [uinsert]; [cbn; intuition|].
  destruct (Rltb x z); [cbn; intuition|]. destruct (Reqb x z) eqn:E.
  - apply Reqb_true in E. subst z. cbn. intuition.
  - cbn. rewrite IH. intuition.
Qed.
Lemma unique_in : forall y l, In y (unique l) <-> In y l.
Proof.
  induction l as [|x l IH]; [reflexivity|]. cbn [unique fold_right]. rewrite uinsert_in. fold (unique l). rewrite IH. cbn. intuition.
Qed.
Lemma position_nth : forall B (G : R -> B) x l d, In x l -> nth (position x l) (map G l) d = G x.
Proof.
  induction l as [|y t IH]; intros d H; [destruct H|]. cbn [position map].
  destruct (Reqb x y) eqn:E; [apply Reqb_true in E; subst; reflexivity|].
  apply Reqb_false in E. cbn [nth]. apply IH. destruct H as [->|H]; [contradiction|exact H].
Qed.
(** strictly increasing *)
Inductive sincr : list R -> Prop :=
| sincr0 : sincr []
| sincr1 : forall x, sincr [x]
| sincr2 : forall x y l, x < y -> sincr (y :: l) -> sincr (x :: y :: l).
Lemma uinsert_sincr : forall x l, sincr l -> sincr (uinsert x l).
Proof.
  intros x l H. induction H as [|y|y z l Hyz H IH].
  - constructor.
  - cbn [uinsert]. rb; repeat constructor; lra.
  - cbn [uinsert] in *. rb; try (repeat constructor; auto; lra).
Qed.
Lemma unique_sincr : forall l, sincr (unique l).
Proof. induction l; [constructor|]. cbn. apply uinsert_sincr. exact IHl. Qed.

(** ** The specification *)

(** the part of the past of time [t] in which the current ran through the
    segment from [n0] to [n1]: between the delays [t_b] and [t_a] *)
Definition t_a (t n0 : R) : R := Rmax 0 (t - n0).
Definition t_b (t n1 : R) : R := Rmax 0 (t - n1).
(** the quadrature of [h] from [a] to [b] *)
Definition quadrature (gx gw : list R) (h : R -> R) (a b : R) : R :=
  (b - a) / 2 * rsuml (map2 (fun x w => h ((b - a) / 2 * x + (a + b) / 2) * w) gx gw).
Definition pairs {A} (l : list A) : list (A * A) := combine l (tl l).
(** sum over the segments, [Q a b] standing for the integral of the response
    from [a] to [b] *)
Definition wave_sum (Q : R -> R -> R) (nodes amps : list R) (t : R) : R :=
  rsuml (map2 (fun n a => (snd a - fst a) / (snd n - fst n) * Q (t_a t (fst n)) (t_b t (snd n)))
              (pairs nodes) (pairs amps)).
(** the current: linear between the nodes, constant before and after *)
Fixpoint current (nodes amps : list R) (t : R) : R :=
  match nodes, amps with
  | n0 :: ((n1 :: _) as nt), a0 :: ((a1 :: _) as at_) =>
      if Rlt_dec t n0 then a0
      else if Rlt_dec t n1 then a0 + (a1 - a0) / (n1 - n0) * (t - n0)
      else current nt at_ t
  | _, a0 :: _ => a0
  | _, [] => 0
  end.

(** ** The model against the specification *)
Lemma diffl_len : forall l, List.length (diffl l) = (List.length l - 1)%nat.
Proof. intros [|x l]; [reflexivity|]. unfold diffl. rewrite map2_length. cbn. lia. Qed.
Lemma diffl_nth : forall l k, (S k < List.length l)%nat -> nth k (diffl l) 0 = nth (S k) l 0 - nth k l 0.
Proof.
  intros [|x l] k H; [cbn in H; lia|]. unfold diffl. cbn [tl].
  rewrite (map2_nth _ _ _ _ _ _ k 0 0 0); [reflexivity|cbn in H; lia|cbn in *; lia].
Qed.
Lemma sincr_nth : forall l k, sincr l -> (S k < List.length l)%nat -> nth k l 0 < nth (S k) l 0.
Proof.
  intros l k H. revert k. induction H as [|y|y z l Hyz H IH]; intros k Hk; [cbn in Hk; lia|cbn in Hk; lia|].
  destruct k as [|k]; [exact Hyz|]. apply (IH k). cbn in *. lia.
Qed.

Lemma pairs_len : forall A (l : list A), List.length (pairs l) = (List.length l - 1)%nat.
Proof. intros A [|x l]; [reflexivity|]. unfold pairs. rewrite combine_length. cbn [tl List.length]. lia. Qed.

Section Wave.
Variables (gx gw time nodes amps : list R).
Hypothesis Hinc : sincr nodes.
Hypothesis Hlen : List.length amps = List.length nodes.
Hypothesis Hg : List.length gw = List.length gx.

Let nd k := nth k nodes 0.
Let am k := nth k amps 0.
Let N := (List.length nodes - 1)%nat.
Let slope k := (am (S k) - am k) / (nd (S k) - nd k).

Lemma bdiv_slopes : (2 <= List.length nodes)%nat -> bdiv (diffl amps) (diffl nodes) = Ok (map slope (seq 0 N)).
Proof.
  intros H2. unfold bdiv. rewrite !diffl_len, Hlen. fold N.
  assert (LA : List.length (diffl amps) = N) by (rewrite diffl_len, Hlen; reflexivity).
  assert (LN : List.length (diffl nodes) = N) by (apply diffl_len).
  assert (RA : (if (N =? 1)%nat then repeat (nth 0 (diffl amps) 0) N else diffl amps) = diffl amps).
  { destruct (Nat.eqb_spec N 1) as [E|]; [|reflexivity]. rewrite E in *.
    destruct (diffl amps) as [|x [|? ?]]; try discriminate LA. reflexivity. }
  assert (RN : (if (N =? 1)%nat then repeat (nth 0 (diffl nodes) 0) N else diffl nodes) = diffl nodes).
  { destruct (Nat.eqb_spec N 1) as [E|]; [|reflexivity]. rewrite E in *.
    destruct (diffl nodes) as [|x [|? ?]]; try discriminate LN. reflexivity. }
  rewrite RA, RN, LA, LN, Nat.eqb_refl.
  replace (forallb (fun x => negb (Reqb x 0)) (diffl nodes)) with true.
  - f_equal. apply (nth_ext _ _ 0 0).
    + rewrite map2_length, map_length, seq_length. lia.
    + intros k Hk. rewrite map2_length in Hk.
      rewrite (map2_nth _ _ _ _ _ _ k 0 0 0) by lia.
      rewrite !diffl_nth by lia.
      rewrite (nth_indep (map slope (seq 0 N)) 0 (slope 0)) by (rewrite map_length, seq_length; lia).
      rewrite map_nth, seq_nth by lia. reflexivity.
  - symmetry. apply forallb_forall. intros x Hx. apply (In_nth _ _ 0) in Hx. destruct Hx as (k & Hk & <-).
    rewrite negb_true_iff. apply Reqb_false. rewrite LN in Hk. unfold N in Hk. rewrite diffl_nth by lia.
    assert (nth k nodes 0 < nth (S k) nodes 0) by (apply sincr_nth; [exact Hinc|lia]). lra.
Qed.

(** one segment, pure *)
Let tbm t n1 := if Rltb t n1 then 0 else t - n1.
Let seg_abs t k := if Rltb (nd k) t
   then map (fun g => (tbm t (nd (S k)) - (t - nd k)) / 2 * g + ((t - nd k) + tbm t (nd (S k))) / 2) gx else map (fun _ => 0) gx.
Let seg_wgt t k := if Rltb (nd k) t then (tbm t (nd (S k)) - (t - nd k)) / 2 * slope k else 0.
Let segF (k : nat) : option (list (list R) * list R) :=
  if Reqb (slope k) 0 then None
  else if existsb (fun t => Rltb (nd k) t) time
       then Some (map (fun t => seg_abs t k) time, map (fun t => seg_wgt t k) time)
       else None.

Lemma segs_eq : (2 <= List.length nodes)%nat ->
  mapM (fun p => segment gx time nodes (fst p) (snd p))
    (combine (zrange 0 (zlen (map slope (seq 0 N)))) (map slope (seq 0 N))) = Ok (map segF (seq 0 N)).
Proof.
  intros H2.
  assert (E : combine (zrange 0 (zlen (map slope (seq 0 N)))) (map slope (seq 0 N))
              = map (fun k => (Z.of_nat k, slope k)) (seq 0 N)).
  { unfold zrange, zlen. rewrite map_length, seq_length.
    replace (Z.to_nat (Z.of_nat N - 0)) with N by lia.
    rewrite (map_ext (fun k => (0 + Z.of_nat k)%Z) Z.of_nat) by (intros; lia).
    generalize (seq 0 N). induction l as [|x l IH]; [reflexivity|]. cbn. f_equal. exact IH. }
  rewrite E. clear E.
  assert (P : forall k, In k (seq 0 N) -> segment gx time nodes (Z.of_nat k) (slope k) = Ok (segF k)).
  { intros k Hk. apply in_seq in Hk. unfold segment, segF. destruct (Reqb (slope k) 0); [reflexivity|].
    rewrite (idx_nth _ _ k 0) by (unfold N in *; lia). cbn [bind]. fold (nd k).
    destruct (existsb (fun t => Rltb (nd k) t) time); [|reflexivity].
    replace (Z.of_nat k + 1)%Z with (Z.of_nat (S k)) by lia.
    rewrite (idx_nth _ _ (S k) 0) by (unfold N in *; lia). cbn [bind]. reflexivity. }
  generalize (seq 0 N) P. induction l as [|k l IH]; intros Q; [reflexivity|].
  cbn [map mapM fst snd]. rewrite (Q k (or_introl eq_refl)). cbn [bind].
  rewrite IH by (intros j Hj; apply Q; right; exact Hj). reflexivity.
Qed.

Lemma somes_in : forall A (l : list (option A)) a, In a (somes l) <-> In (Some a) l.
Proof.
  intros A l a. unfold somes. rewrite in_flat_map. split.
  - intros ([b|] & Hb & Ha); [|destruct Ha]. destruct Ha as [->|[]]. exact Hb.
  - intros H. exists (Some a). split; [exact H|left; reflexivity].
Qed.

Lemma seg_shape : forall s k, In s (somes (map segF (seq 0 N))) -> (k < List.length time)%nat ->
  List.length (nth k (fst s) []) = List.length gx.
Proof.
  intros s k Hs Hk. apply somes_in in Hs. apply in_map_iff in Hs. destruct Hs as (i & E & _).
  unfold segF in E. destruct (Reqb (slope i) 0); [discriminate|]. destruct (existsb _ time); [|discriminate].
  injection E as <-. cbn [fst].
  rewrite (nth_indep (map (fun t => seg_abs t i) time) [] (seg_abs 0 i)) by (rewrite map_length; exact Hk). rewrite (map_nth (fun t => seg_abs t i) time 0).
  unfold seg_abs. destruct (Rltb _ _); rewrite map_length; reflexivity.
Qed.

(** what the waveform function computes for one element *)
Definition wave_value (h : R -> R) (t : R) : R :=
  rsuml (map (fun k => slope k * quadrature gx gw h (t_a t (nd k)) (t_b t (nd (S k)))) (seq 0 N)).

Lemma seg_value : forall (h : R -> R) k i, (k < List.length time)%nat -> (i < N)%nat ->
  slope i * quadrature gx gw h (t_a (nth k time 0) (nd i)) (t_b (nth k time 0) (nd (S i)))
  = match segF i with
    | Some s => rsuml (map2 (fun x g => h x * g) (nth k (fst s) []) gw) * nth k (snd s) 0
    | None => 0
    end.
Proof.
  intros h k i Hk Hi. set (t := nth k time 0).
  assert (Hn : nd i < nd (S i)) by (apply sincr_nth; [exact Hinc|unfold N in *; lia]).
  unfold segF. destruct (Reqb (slope i) 0) eqn:E0; [apply Reqb_true in E0; rewrite E0; ring|].
  assert (Z0 : ~ nd i < t -> slope i * quadrature gx gw h (t_a t (nd i)) (t_b t (nd (S i))) = 0).
  { intros H. unfold quadrature, t_a, t_b. rewrite !Rmax_left by lra. replace ((0 - 0) / 2) with 0 by field. ring. }
  destruct (existsb (fun u => Rltb (nd i) u) time) eqn:Ee.
  - cbn [fst snd].
    rewrite (nth_indep (map (fun t => seg_abs t i) time) [] (seg_abs 0 i)) by (rewrite map_length; exact Hk). rewrite (map_nth (fun t => seg_abs t i) time 0).
    rewrite (nth_indep (map (fun t => seg_wgt t i) time) 0 (seg_wgt 0 i)) by (rewrite map_length; exact Hk). rewrite (map_nth (fun t => seg_wgt t i) time 0).
    fold t. unfold seg_abs, seg_wgt. destruct (Rltb (nd i) t) eqn:El.
    + apply Rltb_true in El.
      assert (Ta : t_a t (nd i) = t - nd i) by (apply Rmax_right; lra).
      assert (Tb : t_b t (nd (S i)) = tbm t (nd (S i))).
      { unfold t_b, tbm. destruct (Rltb t (nd (S i))) eqn:Eb.
        - apply Rltb_true in Eb. apply Rmax_left. lra.
        - apply Rltb_false in Eb. apply Rmax_right. lra. }
      rewrite Ta, Tb. unfold quadrature. rewrite map2_map_l. ring.
    + apply Rltb_false in El. rewrite Z0 by lra. ring.
  - apply Z0. intros H. apply not_true_iff_false in Ee. apply Ee. apply existsb_exists. exists t.
    split; [apply nth_In; exact Hk|apply Rltb_true; exact H].
Qed.

(** the node and amplitude differences give the specification's sum *)
Lemma wave_value_spec : forall h t, wave_value h t = wave_sum (quadrature gx gw h) nodes amps t.
Proof.
  intros h t. unfold wave_value, wave_sum. f_equal. apply (nth_ext _ _ 0 0).
  - rewrite map_length, seq_length, map2_length. rewrite !pairs_len, Hlen. unfold N. lia.
  - intros k Hk. rewrite map_length, seq_length in Hk.
    assert (L1 : List.length (pairs nodes) = N) by apply pairs_len.
    assert (L2 : List.length (pairs amps) = N).
    { rewrite pairs_len, Hlen. reflexivity. }
    rewrite (map2_nth _ _ _ _ _ _ k (0, 0) (0, 0) 0) by lia.
    assert (P : forall l, (S k < List.length l)%nat -> nth k (pairs l) (0, 0) = (nth k l 0, nth (S k) l 0)).
    { intros l Hl. unfold pairs. 
      destruct l as [|x l]; [cbn in Hl; lia|]. cbn [tl nth].
      revert Hl. generalize x. clear. revert k. induction l as [|y l IH]; intros k x Hl; [cbn in Hl; lia|].
      destruct k as [|k]; [reflexivity|]. cbn [combine nth]. apply (IH k y). cbn in *. lia. }
    rewrite !P by (unfold N in *; lia). cbn [fst snd].
    match goal with |- nth k (map ?F _) 0 = _ => rewrite (nth_indep _ 0 (F 0%nat)) by (rewrite map_length, seq_length; lia);
      rewrite (map_nth F) end.
    rewrite seq_nth by lia. reflexivity.
Qed.

Variable m : mins.
Let clip x := if Rltb x (min_time m) then min_time m else x.
Lemma clip_max : forall x, clip x = Rmax x (min_time m).
Proof. intros x. unfold clip. destruct (Rltb x (min_time m)) eqn:E; [apply Rltb_true in E; rewrite Rmax_right|apply Rltb_false in E; rewrite Rmax_left]; lra. Qed.

(** some segment with a change of current lies before some time *)
Definition some_segment : Prop := exists i t, (i < N)%nat /\ slope i <> 0 /\ In t time /\ nd i < t.

Lemma some_segment_segs : some_segment <-> somes (map segF (seq 0 N)) <> [].
Proof.
  split.
  - intros (i & t & Hi & Hs & Ht & Hn) E.
    assert (Hin : In (map (fun t => seg_abs t i) time, map (fun t => seg_wgt t i) time) (somes (map segF (seq 0 N)))).
    { apply somes_in. apply in_map_iff. exists i. split; [|apply in_seq; lia]. unfold segF.
      destruct (Reqb (slope i) 0) eqn:Ez; [apply Reqb_true in Ez; contradiction|].
      assert (Ex : existsb (fun t => Rltb (nd i) t) time = true)
        by (apply existsb_exists; exists t; split; [exact Ht|apply Rltb_true; exact Hn]).
      rewrite Ex. reflexivity. }
    rewrite E in Hin. destruct Hin.
  - intros H. destruct (somes (map segF (seq 0 N))) as [|s l] eqn:E; [contradiction|].
    assert (Hs : In s (somes (map segF (seq 0 N)))) by (rewrite E; left; reflexivity).
    apply somes_in in Hs. apply in_map_iff in Hs. destruct Hs as (i & F & Hi). apply in_seq in Hi.
    unfold segF in F. destruct (Reqb (slope i) 0) eqn:Ez; [discriminate|]. apply Reqb_false in Ez.
    destruct (existsb (fun t => Rltb (nd i) t) time) eqn:Ex; [|discriminate].
    apply existsb_exists in Ex. destruct Ex as (t & Ht & Hn). apply Rltb_true in Hn.
    exists i, t. repeat split; auto. lia.
Qed.

Theorem waveform_value : forall leg nquad signal,
  (2 <= List.length nodes)%nat -> gx <> [] -> leg nquad = Ok (gx, gw) ->
  (~ some_segment -> check_waveform m leg time nodes amps signal nquad = Err ValueError) /\
  (some_segment -> exists ctime f, check_waveform m leg time nodes amps signal nquad = Ok (ctime, signal, f) /\
     ctime <> [] /\ (forall x, In x ctime -> min_time m <= x) /\
     (exists l, sincr l /\ ctime = map (fun x => Rmax x (min_time m)) l) /\
     forall (nr : nat) (g : nat -> R -> R),
       f (map (fun t => map (fun r => g r t) (seq 0 nr)) ctime)
       = map (fun t => map (fun r => wave_sum (quadrature gx gw (fun x => g r (Rmax x (min_time m)))) nodes amps t)
                           (seq 0 nr)) time).
Proof.
  intros leg nquad signal H2 Hgx Hleg. unfold check_waveform.
  rewrite (bdiv_slopes H2), Hleg. cbn [bind]. rewrite (segs_eq H2). cbn [bind].
  set (segs := somes (map segF (seq 0 N))).
  set (comp := map _ (seq 0 (List.length time))).
  set (wgt := map (fun t => map (fun s => nth t (snd s) 0) segs) (seq 0 (List.length time))).
  set (flat := unique (List.concat (List.concat comp))). cbv zeta.
  fold clip.
  split.
  - intros Hno.
    assert (Es : segs = []).
    { destruct segs eqn:E; [reflexivity|]. exfalso. apply Hno. apply some_segment_segs. fold segs. rewrite E. discriminate. }
    assert (Ef : flat = []).
    { destruct flat as [|x l] eqn:E; [reflexivity|]. exfalso.
      assert (Hin : In x flat) by (rewrite E; left; reflexivity). unfold flat in Hin. apply (proj1 (unique_in x _)) in Hin.
      apply in_concat in Hin. destruct Hin as (y & Hy & Hx). apply in_concat in Hy. destruct Hy as (z & Hz & Hy).
      unfold comp in Hz. apply in_map_iff in Hz. destruct Hz as (k & <- & _). apply in_map_iff in Hy.
      destruct Hy as (q & <- & _). rewrite Es in Hx. destruct Hx. }
    rewrite Ef. reflexivity.
  - intros Hsome.
    assert (Es : segs <> []) by (apply some_segment_segs; exact Hsome).
    assert (Hin : forall k q s, (k < List.length time)%nat -> (q < List.length gx)%nat -> In s segs ->
              In (nth q (nth k (fst s) []) 0) flat).
    { intros k q s Hk Hq Hs. unfold flat. apply unique_in. apply in_concat.
      exists (map (fun s => nth q (nth k (fst s) []) 0) segs). split.
      - apply in_concat. exists (nth k comp []). split.
        + apply nth_In. unfold comp. rewrite map_length, seq_length. exact Hk.
        + unfold comp. match goal with |- In _ (nth k (map ?F _) []) =>
            rewrite (nth_indep _ [] (F 0%nat)) by (rewrite map_length, seq_length; lia); rewrite (map_nth F) end.
          rewrite seq_nth by lia. cbn [plus]. apply in_map_iff. exists q. split; [reflexivity|apply in_seq; lia].
      - apply in_map_iff. exists s. auto. }
    assert (Hflat : flat <> []).
    { intros E. destruct segs as [|s l] eqn:Ess; [contradiction|].
      destruct Hsome as (i & t & _ & _ & Ht & _). apply (In_nth _ _ 0) in Ht. destruct Ht as (k & Hk & _).
      specialize (Hin k 0%nat s Hk). rewrite E in Hin. apply Hin; [|left; reflexivity].
      destruct gx; [contradiction|cbn; lia]. }
    set (ctime := map clip flat).
    assert (Hct : ctime <> []) by (unfold ctime; destruct flat; [contradiction|discriminate]).
    destruct ctime as [|c0 cl] eqn:Ect; [contradiction|].
    eexists (c0 :: cl), _. split; [reflexivity|]. rewrite <- Ect.
    split; [rewrite Ect; discriminate|]. split.
    { intros x Hx. unfold ctime in Hx. apply in_map_iff in Hx. destruct Hx as (y & <- & _). rewrite clip_max. apply Rmax_r. }
    split; [exists flat; split; [apply unique_sincr|unfold ctime; apply map_ext; intros x; apply clip_max]|].
    intros nr g. unfold comp, wgt.
    assert (M2 : forall (F : list (list R) -> list R -> list R) A B,
       map2 F (map A (seq 0 (List.length time))) (map B (seq 0 (List.length time)))
       = map (fun k => F (A k) (B k)) (seq 0 (List.length time))).
    { intros F A B. generalize (seq 0 (List.length time)). induction l as [|x l IH]; [reflexivity|].
      cbn [map]. rewrite map2_cons, IH. reflexivity. }
    rewrite M2.
    match goal with |- _ = map ?G time => rewrite <- (map_nth_seq _ _ G time 0) end.
    apply map_ext_in. intros k Hk. apply in_seq in Hk.
    (* number of survey elements *)
    set (RR := fun t => map (fun r => g r t) (seq 0 nr)).
    assert (HL : List.length (nth 0 (map RR ctime) []) = nr).
    { rewrite Ect. cbn [map nth]. unfold RR. rewrite map_length, seq_length. reflexivity. }
    rewrite HL. apply map_ext_in. intros r Hr. apply in_seq in Hr.
    set (h := fun x => g r (Rmax x (min_time m))).
    rewrite <- wave_value_spec. unfold wave_value.
    rewrite map_length.
    assert (LW : List.length (map (fun s : list (list R) * list R => nth k (snd s) 0) segs) = List.length segs) by apply map_length.
    rewrite <- LW at 1. rewrite (map2_seq_l _ _ _ _ 0). rewrite LW.
    transitivity (rsuml (map (fun s => rsuml (map2 (fun x g => h x * g) (nth k (fst s) []) gw) * nth k (snd s) 0) segs)).
    + f_equal. match goal with |- _ = map ?G segs => rewrite <- (map_nth_seq _ _ G segs ([], [])) end. apply map_ext_in. intros i Hi. apply in_seq in Hi.
      assert (Hsi : In (nth i segs ([], [])) segs) by (apply nth_In; lia).
      assert (W : nth i (map (fun s : list (list R) * list R => nth k (snd s) 0) segs) 0 = nth k (snd (nth i segs ([], []))) 0).
      { rewrite (nth_indep _ 0 (nth k (snd (@nil (list R), @nil R)) 0)) by (rewrite map_length; lia).
        rewrite (map_nth (fun s : list (list R) * list R => nth k (snd s) 0)). reflexivity. }
      rewrite W. f_equal. f_equal. rewrite map2_map_l.
      (* left: over the index q of the quadrature; right: over the abscissae *)
      set (s := nth i segs ([], [])) in *.
      assert (Ls : List.length (nth k (fst s) []) = List.length gx) by (apply seg_shape; [exact Hsi|lia]).
      apply (nth_ext _ _ 0 0).
      * rewrite !map2_length, seq_length. lia.
      * intros q Hq. rewrite map2_length, seq_length in Hq.
        rewrite (map2_nth _ _ _ _ _ _ q 0%nat 0 0) by (rewrite ?seq_length; lia).
        rewrite (map2_nth _ _ _ _ _ _ q 0 0 0) by lia.
        rewrite seq_nth by lia. rewrite Nat.add_0_l. f_equal.
        assert (X : nth i (map (fun s : list (list R) * list R => nth q (nth k (fst s) []) 0) segs) 0 = nth q (nth k (fst s) []) 0).
        { unfold s. rewrite (nth_indep _ 0 (nth q (nth k (fst (@nil (list R), @nil R)) []) 0)) by (rewrite map_length; lia).
          rewrite (map_nth (fun s : list (list R) * list R => nth q (nth k (fst s) []) 0)). reflexivity. }
        rewrite X. unfold ctime. rewrite map_map.
        rewrite (position_nth _ (fun x => RR (clip x))) by (apply Hin; [lia|lia|exact Hsi]).
        unfold RR, h. rewrite clip_max.
        match goal with |- nth r (map ?F _) 0 = _ => rewrite (nth_indep _ 0 (F 0%nat)) by (rewrite map_length, seq_length; lia);
          rewrite (map_nth F) end.
        rewrite seq_nth by lia. reflexivity.
    + unfold segs. apply rsuml_somes. intros i Hi. apply in_seq in Hi. apply seg_value; lia.
Qed.
End Wave.

(** ** Consequences *)

(** a rule that integrates [h] exactly between any two delays *)
Definition exact_for (gx gw : list R) (h : R -> R) : Prop :=
  forall a b, 0 <= b <= a -> quadrature gx gw h a b = RInt h a b.

Lemma t_ba : forall t n0 n1, n0 < n1 -> 0 <= t_b t n1 <= t_a t n0.
Proof. intros. unfold t_a, t_b. split; [apply Rmax_l|]. apply Rle_max_compat_l. lra. Qed.

Lemma pairs_cons : forall A (x y : A) l, pairs (x :: y :: l) = (x, y) :: pairs (y :: l).
Proof. reflexivity. Qed.

Lemma wave_sum_ext : forall Q Q' nodes amps t, sincr nodes ->
  (forall a b, 0 <= b <= a -> Q a b = Q' a b) -> wave_sum Q nodes amps t = wave_sum Q' nodes amps t.
Proof.
  intros Q Q' nodes amps t H E. revert amps. unfold wave_sum.
  induction H as [|x|x y l Hxy H IH]; intros amps; [reflexivity|reflexivity|].
  destruct amps as [|a0 [|a1 am]]; [reflexivity|reflexivity|].
  rewrite !pairs_cons, !map2_cons, !rsuml_cons. cbn [fst snd]. rewrite IH.
  rewrite E by (apply t_ba; exact Hxy). reflexivity.
Qed.

(** with an exact rule, the sum of the slopes times the integrals *)
Theorem wave_exact : forall gx gw h nodes amps t, sincr nodes -> exact_for gx gw h ->
  wave_sum (quadrature gx gw h) nodes amps t = wave_sum (fun a b => RInt h a b) nodes amps t.
Proof. intros gx gw h nodes amps t H E. apply wave_sum_ext; [exact H|exact E]. Qed.

Lemma quadrature_const : forall gx gw c a b, List.length gw = List.length gx -> rsuml gw = 2 ->
  quadrature gx gw (fun _ => c) a b = c * (b - a).
Proof.
  intros gx gw c a b L H. unfold quadrature.
  assert (E : forall (gx gw : list R) (F : R -> R -> R), List.length gw = List.length gx -> (forall x w, F x w = c * w) ->
     rsuml (map2 F gx gw) = c * rsuml gw).
  { clear. induction gx as [|x gx IH]; intros [|w gw] F L HF; try discriminate; [cbn; ring|].
    rewrite map2_cons, !rsuml_cons, HF, IH by (cbn in L; auto; lia). ring. }
  rewrite (E gx gw); [rewrite H; field|exact L|reflexivity].
Qed.

Lemma current_first : forall n0 nodes a0 amps t, t < n0 -> current (n0 :: nodes) (a0 :: amps) t = a0.
Proof.
  intros n0 nodes a0 amps t Ht. destruct nodes as [|n1 nl], amps as [|a1 al]; try reflexivity.
  cbn [current]. destruct (Rlt_dec t n0); [reflexivity|lra].
Qed.

(** a response constant in time: minus the response times the change of the
    current since the first node *)
Theorem wave_const : forall nodes amps c t a0, sincr nodes -> List.length amps = List.length nodes ->
  wave_sum (fun a b => c * (b - a)) nodes (a0 :: tl amps) t = - (c * (current nodes (a0 :: tl amps) t - a0)).
Proof.
  intros nodes amps c t a0 H. revert amps a0.
  induction H as [|x|x y l Hxy H IH]; intros amps a0 L.
  - unfold wave_sum. cbn. ring.
  - unfold wave_sum. cbn. ring.
  - destruct amps as [|a [|a1 am]]; try discriminate. cbn [tl].
    unfold wave_sum in *. rewrite !pairs_cons, map2_cons, rsuml_cons. cbn [fst snd].
    specialize (IH (a1 :: am) a1). cbn [tl] in IH.
    rewrite IH by (cbn in *; lia).
    change (current (x :: y :: l) (a0 :: a1 :: am) t) with
      (if Rlt_dec t x then a0 else if Rlt_dec t y then a0 + (a1 - a0) / (y - x) * (t - x)
       else current (y :: l) (a1 :: am) t).
    destruct (Rlt_dec t x) as [Ha|Ha].
    + rewrite current_first by lra. unfold t_a, t_b. rewrite !Rmax_left by lra. ring.
    + destruct (Rlt_dec t y) as [Hb|Hb].
      * rewrite current_first by lra. unfold t_a, t_b. rewrite (Rmax_left 0 (t - y)), Rmax_right by lra. ring.
      * unfold t_a, t_b. rewrite !Rmax_right by lra. field. lra.
Qed.

(** the midpoint rule is exact for affine responses *)
Lemma midpoint_exact : forall p q, exact_for [0] [2] (fun x => p + q * x).
Proof.
  intros p q a b _. unfold quadrature, map2. cbn [combine map fst snd]. rewrite rsuml_cons, rsuml_nil.
  symmetry. apply is_RInt_unique.
  assert (D : is_RInt (fun x => p + q * x) a b (minus (p * b + q * b ^ 2 / 2) (p * a + q * a ^ 2 / 2))).
  { apply (is_RInt_derive (fun x => p * x + q * x ^ 2 / 2) (fun x => p + q * x)).
    - intros x _. auto_derive; [trivial|]. field.
    - intros x _. apply (ex_derive_continuous (fun x => p + q * x)). auto_derive. trivial. }
  eapply is_RInt_ext; [|replace ((b - a) / 2 * ((p + q * ((b - a) / 2 * 0 + (a + b) / 2)) * 2 + 0)) with
     (minus (p * b + q * b ^ 2 / 2) (p * a + q * a ^ 2 / 2)); [exact D|]].
  - reflexivity.
  - unfold minus, plus, opp. cbn. field.
Qed.
