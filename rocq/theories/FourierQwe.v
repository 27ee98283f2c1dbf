(** [qwe] element by element, and [fourier_qwe] (C69). *)

From Coq Require Import ZArith Reals List Bool String Lia Lra Psatz.
From Coquelicot Require Import Coquelicot.
From Verif Require Import PyBase CBase Kernel Utils UtilsLayer Transform TransformDlf TransformQwe UtilsArgs Fourier FourierSum FourierFft FourierLog3.
Import ListNotations.
Local Open Scope R_scope.
Local Open Scope C_scope.
Local Open Scope res_scope.

(** ** QWE treats its elements separately *)
Section Each.
Variables (rtol atol : R) (zc : C -> bool) (maxint : nat).

(** the first interval at which the tolerance is met *)
Definition stops (c : nat -> C) (i : nat) : bool := negb (not_conv rtol atol zc (extrapolated c i) (extrapolated c (i - 1))).
Definition first_stop (c : nat -> C) (hi : nat) : option nat := find (stops c) (seq 2 (hi - 1)).
Definition qwe_value (c : nat -> C) : C :=
  match first_stop c (maxint - 1) with
  | Some i => clean (if (i =? 2)%nat then RtoC 0 else extrapolated c (i - 1))
  | None => clean (extrapolated c (maxint - 1))
  end.
Definition qwe_stops (c : nat -> C) : bool := match first_stop c (maxint - 2) with Some _ => true | None => false end.

Lemma find_seq : forall (p : nat -> bool) n a, match find p (seq a n) with
  | Some i => (a <= i < a + n)%nat /\ p i = true /\ forall m, (a <= m < i)%nat -> p m = false
  | None => forall m, (a <= m < a + n)%nat -> p m = false end.
Proof.
  intros p n. induction n as [|n IH]; intros a; cbn [seq find]; [intros m Hm; lia|].
  destruct (p a) eqn:E.
  - split; [lia|]. split; [exact E|]. intros m Hm. lia.
  - specialize (IH (S a)). destruct (find p (seq (S a) n)).
    + destruct IH as (A & B & D). split; [lia|]. split; [exact B|]. intros m Hm. destruct (Nat.eq_dec m a) as [->|]; [exact E|apply D; lia].
    + intros m Hm. destruct (Nat.eq_dec m a) as [->|]; [exact E|apply IH; lia].
Qed.

Lemma passes_stops : forall contrib e i, passes rtol atol zc contrib e i <-> stops (contrib e) i = true.
Proof. intros. unfold passes, stops, E. rewrite negb_true_iff. reflexivity. Qed.

Theorem qwe_each : forall contrib n, (2 <= maxint)%nat ->
  exists kc, qwe rtol atol maxint zc contrib n =
    Ok (map (fun e => qwe_value (contrib e)) (seq 0 n), kc, (3 <=? maxint)%nat && forallb (fun e => qwe_stops (contrib e)) (seq 0 n)).
Proof.
  intros contrib n Hm. destruct (qwe_spec rtol atol maxint zc contrib n Hm) as (out & last & conv & Q & HL & LO & OUT & ACT & CV & CP).
  exists (Z.of_nat (last + 1)). rewrite Q. 
  assert (EO : out = map (fun e => qwe_value (contrib e)) (seq 0 n)).
  { apply (nth_ext _ _ (RtoC 0) (RtoC 0)); [now rewrite map_length, seq_length|]. intros e He. rewrite LO in He. rewrite nth_map_seq by exact He.
    unfold qwe_value, first_stop. pose proof (find_seq (stops (contrib e)) (maxint - 1 - 1) 2) as F.
    destruct (OUT e He) as [(i0 & B1 & P1 & NP & V)|[NP V]].
    - destruct (find _ _) as [i|].
      + destruct F as (F1 & F2 & F3). assert (i = i0).
        { destruct (Nat.lt_trichotomy i i0) as [L|[L|L]]; [|exact L|].
          - exfalso. apply (NP i); [lia|]. now apply passes_stops.
          - apply passes_stops in P1. rewrite F3 in P1 by lia. discriminate. }
        subst i. exact V.
      + apply passes_stops in P1. rewrite F in P1 by lia. discriminate.
    - destruct (Nat.eq_dec (last + 1) maxint) as [EL|NL].
      + destruct (find _ _) as [i|].
        * destruct F as (F1 & F2 & F3). exfalso. apply (NP i); [lia|]. now apply passes_stops.
        * rewrite V. unfold E. do 2 f_equal. lia.
      + destruct (CP (proj2 CV ltac:(lia)) e He) as (i0 & B & P1). exfalso. exact (NP i0 B P1). }
  rewrite EO. do 2 f_equal.
  destruct (Nat.leb_spec 3 maxint) as [L3|L3].
  - cbn [andb]. destruct conv.
    + symmetry. apply forallb_forall. intros e He. apply in_seq in He. destruct (CP eq_refl e ltac:(lia)) as (i0 & B & P1).
      pose proof (proj1 CV eq_refl). unfold qwe_stops, first_stop. pose proof (find_seq (stops (contrib e)) (maxint - 2 - 1) 2) as F.
      destruct (find _ _); [reflexivity|]. apply passes_stops in P1. rewrite F in P1 by lia. discriminate.
    + symmetry. apply not_true_is_false. intros W. rewrite forallb_forall in W.
      assert (EL : (last + 1 = maxint)%nat). { destruct (Nat.eq_dec (last + 1) maxint) as [|NL]; [assumption|]. assert (false = true) by (apply CV; lia). discriminate. }
      destruct (ACT (maxint - 2)%nat ltac:(lia)) as (e & He & NA). specialize (W e ltac:(apply in_seq; lia)).
      unfold qwe_stops, first_stop in W. pose proof (find_seq (stops (contrib e)) (maxint - 2 - 1) 2) as F. destruct (find _ _) as [i|]; [|discriminate].
      destruct F as (F1 & F2 & _). apply (NA i); [lia|]. now apply passes_stops.
  - cbn [andb]. destruct conv; [|reflexivity]. pose proof (proj1 CV eq_refl). lia.
Qed.
End Each.

(** ** Fourier transform by QWE *)
Section FQ.
Variable rquad : (R -> R) -> R -> R -> R * nat.
Variables gx gw : list R.

(** the half period [i] and its Gauss quadrature: what QWE extrapolates, by its
    description (Key 2012) *)
Definition half_node (sine : bool) (i j : nat) : R :=
  ((fq_xint sine (S i) - fq_xint sine i) / 2 * (nth j gx 0 + 1) + fq_xint sine i)%R.
Definition half_width (sine : bool) (t : R) (i : nat) : R := ((fq_xint sine (S i) / t - fq_xint sine i / t) / 2)%R.
Definition half_period (f : R -> R) (sine : bool) (nquad : nat) (t : R) (i : nat) : R :=
  (half_width sine t i * sR (fun j => f (half_node sine i j / t) * fq_sc sine (half_node sine i j) * nth j gw 0)%R nquad)%R.

(** one Gauss node *)
Definition one_node (f : R -> R) (sine : bool) (t : R) (i j : nat) : R :=
  (f (half_node sine i j / t) * fq_sc sine (half_node sine i j) * nth j gw 0)%R.

(** what is handed to QWE: single nodes, node i with the width of interval i *)
Theorem contrib_node : forall f sine nquad t i,
  fq_contrib gx gw f sine nquad t i = RtoC (half_width sine t i * one_node f sine t (i / nquad) (i mod nquad)).
Proof. intros f sine nquad t i. unfold fq_contrib, fq_SS, fq_Bx, half_width, one_node, half_node. f_equal. ring. Qed.

(** value of one time *)
Definition fq_value (fr fi : R -> R) (sine : bool) (rtol atol : R) (zc : C -> bool) (nquad maxint : nat)
    (diff_quad : R) (a b : option R) (t : R) : R :=
  let f := if sine then fi else fr in
  if fq_steep (fun w => (fr w, fi w)) diff_quad sine maxint t
  then fst (qwe_value rtol atol zc maxint (fq_contrib gx gw f sine nquad t))
  else fst (rquad (fun w => f w * fq_sc sine (w * t))%R
              (match given a with Some v => v | None => (fq_xint sine 0 / t)%R end)
              (match given b with Some v => v | None => (fq_xint sine maxint / t)%R end)).
Definition fq_conv (fr fi : R -> R) (sine : bool) (rtol atol : R) (zc : C -> bool) (nquad maxint : nat)
    (diff_quad : R) (a b : option R) (t : R) : bool :=
  let f := if sine then fi else fr in
  if fq_steep (fun w => (fr w, fi w)) diff_quad sine maxint t
  then (3 <=? maxint)%nat && qwe_stops rtol atol zc maxint (fq_contrib gx gw f sine nquad t)
  else (snd (rquad (fun w => f w * fq_sc sine (w * t))%R
              (match given a with Some v => v | None => (fq_xint sine 0 / t)%R end)
              (match given b with Some v => v | None => (fq_xint sine maxint / t)%R end)) <=? 3)%nat.

Lemma map_nth_seq : forall A B (g : A -> B) (l : list A) d, map (fun e => g (nth e l d)) (seq 0 (List.length l)) = map g l.
Proof.
  intros A B g l d. induction l as [|x l IH]; [reflexivity|]. cbn [List.length seq map nth]. f_equal. rewrite <- seq_shift, map_map. exact IH.
Qed.
Lemma forallb_nth_seq : forall A (g : A -> bool) (l : list A) d, forallb (fun e => g (nth e l d)) (seq 0 (List.length l)) = forallb g l.
Proof.
  intros A g l d. induction l as [|x l IH]; [reflexivity|]. cbn [List.length seq forallb nth]. f_equal. rewrite <- IH, <- seq_shift.
  generalize (seq 0 (List.length l)). intros s. induction s as [|y s IS]; [reflexivity|]. cbn [map forallb nth]. now rewrite IS.
Qed.

Lemma scatter : forall (p : R -> bool) (g h : R -> R) (time acc rest : list R),
  fold_left (fun (st : list R * list R) t => if p t then (tl (fst st), snd st ++ [hd 0%R (fst st)]) else (fst st, snd st ++ [h t]))
    time (map g (filter p time) ++ rest, acc) = (rest, acc ++ map (fun t => if p t then g t else h t) time).
Proof.
  intros p g h time. induction time as [|t time IH]; intros acc rest; [cbn; now rewrite app_nil_r|].
  cbn [fold_left filter map]. destruct (p t) eqn:Ep; cbn [map app fst snd tl hd]; rewrite IH, <- app_assoc; reflexivity.
Qed.
Lemma forallb_filter : forall A (p g : A -> bool) l, forallb g (filter p l) = forallb (fun x => negb (p x) || g x) l.
Proof. intros A p g l. induction l as [|x l IH]; [reflexivity|]. cbn [filter forallb]. destruct (p x); cbn [forallb negb orb andb]; now rewrite IH. Qed.
Lemma forallb_and : forall A (f g : A -> bool) l, forallb f l && forallb g l = forallb (fun x => f x && g x) l.
Proof. intros A f g l. induction l as [|x l IH]; [reflexivity|]. cbn [forallb]. rewrite <- IH. destruct (f x), (g x), (forallb f l), (forallb g l); reflexivity. Qed.
Lemma forallb_ext' : forall A (f g : A -> bool) l, (forall x, In x l -> f x = g x) -> forallb f l = forallb g l.
Proof. intros A f g l H. induction l as [|x l IH]; [reflexivity|]. cbn [forallb]. rewrite H, IH; auto with datatypes. Qed.

(** every time is transformed by itself *)
Theorem fourier_qwe_each : forall fr fi sine rtol atol zc nquad maxint diff_quad a b time, (2 <= maxint)%nat ->
  fourier_qwe rquad gx gw fr fi sine rtol atol zc nquad maxint diff_quad a b time =
  Ok (map (fq_value fr fi sine rtol atol zc nquad maxint diff_quad a b) time,
      forallb (fq_conv fr fi sine rtol atol zc nquad maxint diff_quad a b) time).
Proof.
  intros fr fi sine rtol atol zc nquad maxint dq a b time Hm. unfold fourier_qwe.
  set (f := if sine then fi else fr).
  set (doqwe := fq_steep (fun w => (fr w, fi w)) dq sine maxint).
  set (quadv := fun t => rquad (fun w => f w * fq_sc sine (w * t))%R
                       (match given a with Some v => v | None => (fq_xint sine 0 / t)%R end)
                       (match given b with Some v => v | None => (fq_xint sine maxint / t)%R end)).
  set (tq := filter doqwe time).
  set (g := fun t => fst (qwe_value rtol atol zc maxint (fq_contrib gx gw f sine nquad t))).
  set (cg := fun t => (3 <=? maxint)%nat && qwe_stops rtol atol zc maxint (fq_contrib gx gw f sine nquad t)).
  assert (M : (match tq with [] => Ok ([], true)
               | _ => '(EM, _, c) <- qwe rtol atol maxint zc (fun e i => fq_contrib gx gw f sine nquad (nth e tq 0%R) i) (List.length tq) ;; Ok (map fst EM, c)
               end) = Ok (map g tq, forallb cg tq)).
  { destruct tq as [|t0 tq0] eqn:ET; [reflexivity|]. rewrite <- ET.
    destruct (qwe_each rtol atol zc maxint (fun e i => fq_contrib gx gw f sine nquad (nth e tq 0%R) i) (List.length tq) Hm) as [kc Q].
    rewrite Q. cbn [bind]. do 2 f_equal.
    - rewrite map_map. exact (map_nth_seq R R g tq 0%R).
    - pose proof (forallb_nth_seq R (fun t => qwe_stops rtol atol zc maxint (fq_contrib gx gw f sine nquad t)) tq 0%R) as F. cbv beta in F.
      etransitivity; [apply (f_equal (andb (3 <=? maxint)%nat)); exact F|]. rewrite ET. destruct (3 <=? maxint)%nat eqn:E3.
      + cbn [andb]. apply forallb_ext'. intros t _. unfold cg. reflexivity.
      + cbn [andb forallb]. unfold cg. reflexivity. }
  rewrite M. cbn [bind]. f_equal. f_equal.
  - pose proof (scatter doqwe g (fun t => fst (quadv t)) time [] []) as SC. rewrite app_nil_r in SC. fold tq in SC.
    etransitivity; [apply (f_equal snd); exact SC|]. cbn [snd app]. apply map_ext. intros t. reflexivity.
  - unfold tq. rewrite forallb_filter, forallb_and. apply forallb_ext'. intros t _. unfold fq_conv. fold f. fold (doqwe t). fold (quadv t). fold (cg t).
    destruct (doqwe t); cbn [negb orb andb]; [reflexivity|]. apply andb_true_r.
Qed.

(** ** Sine: nquad K nodes are the composite rule over K half periods *)
Lemma sum_blocks : forall g q K, (0 < q)%nat -> sR g (q * K) = sR (fun k => sR (fun j => g (q * k + j)%nat) q) K.
Proof.
  intros g q K Hq. induction K as [|K IH]; [rewrite Nat.mul_0_r; reflexivity|].
  rewrite Nat.mul_succ_r, sR_app, sR_S, IH. reflexivity.
Qed.
Lemma sine_width : forall t i, t <> 0%R -> half_width true t i = (PI / (2 * t) - if (i =? 0)%nat then / 10 ^ 20 / (2 * t) else 0)%R.
Proof.
  intros t i Ht. unfold half_width, fq_xint. destruct i as [|i].
  - cbn [Nat.eqb]. rewrite S_INR. change (INR 0) with 0%R. field. exact Ht.
  - cbn [Nat.eqb]. rewrite (S_INR (S i)). field. exact Ht.
Qed.

Theorem sine_total : forall f nquad t K, (0 < nquad)%nat -> t <> 0%R ->
  sR (fun i => fst (fq_contrib gx gw f true nquad t i)) (nquad * K) =
  (sR (half_period f true nquad t) K +
   (if (K =? 0)%nat then 0 else / 10 ^ 20 / (2 * t) * sR (fun j => one_node f true t 0 (S j)) (nquad - 1)))%R.
Proof.
  intros f nquad t K Hq Ht. rewrite sum_blocks by exact Hq.
  assert (DM : forall k j, (j < nquad)%nat -> ((nquad * k + j) / nquad = k /\ (nquad * k + j) mod nquad = j)%nat).
  { intros k j Hj. rewrite Nat.mul_comm. split; [rewrite Nat.div_add_l by lia; rewrite Nat.div_small by lia; lia|].
    rewrite Nat.add_comm, Nat.mod_add by lia. now apply Nat.mod_small. }
  assert (BL : forall k, (0 < k)%nat -> sR (fun j => fst (fq_contrib gx gw f true nquad t (nquad * k + j))) nquad = half_period f true nquad t k).
  { intros k Hk. unfold half_period. rewrite <- sR_scal. apply sR_ext. intros j Hj. destruct (DM k j Hj) as [D1 D2].
    rewrite contrib_node, D1, D2. cbn [fst RtoC]. rewrite !sine_width by exact Ht.
    destruct (Nat.eqb_spec (nquad * k + j) 0) as [E|_]; [nia|]. destruct (Nat.eqb_spec k 0); [lia|]. unfold one_node. reflexivity. }
  destruct K as [|K]; [cbn [Nat.eqb]; unfold sR; cbn; ring|]. rewrite !sR_head. cbn [Nat.eqb].
  rewrite (sR_ext (fun k => sR (fun j => fst (fq_contrib gx gw f true nquad t (nquad * S k + j))) nquad) (fun k => half_period f true nquad t (S k)) K)
    by (intros; apply BL; lia).
  assert (B0 : sR (fun j => fst (fq_contrib gx gw f true nquad t (nquad * 0 + j))) nquad =
     (half_period f true nquad t 0 + / 10 ^ 20 / (2 * t) * sR (fun j => one_node f true t 0 (S j)) (nquad - 1))%R).
  { unfold half_period. rewrite <- !sR_scal. destruct nquad as [|q]; [lia|]. replace (S q - 1)%nat with q by lia. rewrite !sR_head.
    rewrite (sR_ext (fun k => fst (fq_contrib gx gw f true (S q) t (S q * 0 + S k)))
       (fun k => half_width true t 0 * (f (half_node true 0 (S k) / t) * fq_sc true (half_node true 0 (S k)) * nth (S k) gw 0)
          + / 10 ^ 20 / (2 * t) * one_node f true t 0 (S k))%R q).
    - rewrite sR_plus. destruct (DM 0%nat 0%nat Hq) as [D1 D2]. rewrite contrib_node, D1, D2, Nat.mul_0_r. cbn [fst RtoC Nat.add]. unfold one_node at 1. ring.
    - intros k Hk. destruct (DM 0%nat (S k) ltac:(lia)) as [D1 D2]. rewrite contrib_node, D1, D2. cbn [fst RtoC]. rewrite !sine_width by exact Ht.
      rewrite Nat.mul_0_r. cbn [Nat.add Nat.eqb]. unfold one_node. ring. }
  rewrite B0. ring.
Qed.

(** ** Cosine: in the first interval all nodes but the first have twice the weight *)
Theorem cosine_first : forall f nquad t i, t <> 0%R -> (0 < i < nquad)%nat ->
  fq_contrib gx gw f false nquad t i = RtoC (PI / (2 * t) * one_node f false t 0 i) /\
  half_width false t 0 = (PI / (4 * t) - / 10 ^ 20 / (2 * t))%R.
Proof.
  intros f nquad t i Ht Hi. split.
  - rewrite contrib_node, Nat.div_small, Nat.mod_small by lia. f_equal. f_equal. unfold half_width, fq_xint. destruct i as [|i]; [lia|]. cbn [Nat.eqb].
    rewrite (S_INR (S i)). field. exact Ht.
  - unfold half_width, fq_xint. cbn [Nat.eqb INR]. field. exact Ht.
Qed.
End FQ.

(** ** Two half periods, two nodes: only the first half period is used *)
Lemma value_two : forall rtol atol zc c, qwe_value rtol atol zc 2 c = clean (Cplus (Cplus (RtoC 0) (c 1%nat)) (c 0%nat)).
Proof. intros. reflexivity. Qed.
Definition leg2x : list R := [(- / sqrt 3)%R; (/ sqrt 3)%R].
Definition leg2w : list R := [1%R; 1%R].

Lemma dbl_max_16 : (16 < dbl_max)%R.
Proof.
  unfold dbl_max. assert (A : (2 ^ 5 <= 2 ^ 1023)%R) by (apply Rle_pow; [lra|]; lia).
  assert (B : (0 < / 2 ^ 52 <= 1)%R).
  { assert (1 <= 2 ^ 52)%R by (apply pow_R1_Rle; lra). split; [apply Rinv_0_lt_compat; lra|]. rewrite <- Rinv_1. apply Rinv_le_contravar; lra. }
  replace (2 ^ 5)%R with 32%R in A by ring. revert A B. generalize (2 ^ 1023)%R (/ 2 ^ 52)%R. intros p q A B. nra.
Qed.

Lemma two_value : forall rtol atol zc (c : nat -> R), (Rabs (c 0%nat) <= 8)%R -> (Rabs (c 1%nat) <= 8)%R ->
  fst (qwe_value rtol atol zc 2 (fun i => RtoC (c i))) = (c 0%nat + c 1%nat)%R.
Proof.
  intros rtol atol zc c H0 H1. rewrite value_two. unfold clean, Cplus, RtoC. cbn [fst snd].
  pose proof dbl_max_16. pose proof (Rle_abs (c 0%nat)). pose proof (Rle_abs (c 1%nat)).
  rewrite Reqb_false by lra. cbn [fst]. rgR.
Qed.

Lemma node_in : forall i j, (j < 2)%nat -> (fq_xint true i < half_node leg2x true i j < fq_xint true (S i))%R.
Proof.
  intros i j Hj. assert (L : (fq_xint true i < fq_xint true (S i))%R).
  { unfold fq_xint. pose proof PI_RGT_0. pose proof PI2_3_2 as P2. destruct i as [|i].
    - cbn [Nat.eqb INR]. assert (/ 10 ^ 20 < 1)%R by (rewrite <- Rinv_1; apply Rinv_lt_contravar; lra). lra.
    - cbn [Nat.eqb]. rewrite (S_INR (S i)). lra. }
  assert (S3 : (0 < / sqrt 3 < 1)%R).
  { assert (1 < sqrt 3)%R by (rewrite <- sqrt_1; apply sqrt_lt_1; lra). split; [apply Rinv_0_lt_compat; lra|]. rewrite <- Rinv_1. apply Rinv_lt_contravar; lra. }
  assert (N : (-1 < nth j leg2x 0 < 1)%R) by (destruct j as [|[|j]]; [cbn; lra|cbn; lra|lia]).
  unfold half_node. revert L N. generalize (fq_xint true i) (fq_xint true (S i)) (nth j leg2x 0%R). intros a b c L N. split; nra.
Qed.

Theorem two_halves : forall rquad rtol atol zc,
  let x := fq_value rquad leg2x leg2w (fun _ => 1%R) (fun _ => 1%R) true rtol atol zc 2 2 100 None None 1 in
  let y := fst (qwe_value rtol atol zc 2 (fun i => RtoC (half_period leg2x leg2w (fun _ => 1%R) true 2 1 i))) in
  x = (half_width true 1 0 * sin (half_node leg2x true 0 0) + half_width true 1 1 * sin (half_node leg2x true 0 1))%R /\
  y = (half_period leg2x leg2w (fun _ => 1%R) true 2 1 0 + half_period leg2x leg2w (fun _ => 1%R) true 2 1 1)%R /\
  (y < x)%R.
Proof.
  intros rquad rtol atol zc x y. pose proof PI_RGT_0 as PP. pose proof PI_4 as P4.
  assert (W0 : half_width true 1 0 = (PI / 2 - / 10 ^ 20 / 2)%R) by (rewrite sine_width by lra; cbn [Nat.eqb]; field).
  assert (W1 : half_width true 1 1 = (PI / 2)%R) by (rewrite sine_width by lra; cbn [Nat.eqb]; field).
  assert (T20 : (0 < / 10 ^ 20 < 1)%R) by (split; [apply Rinv_0_lt_compat; lra|rewrite <- Rinv_1; apply Rinv_lt_contravar; lra]).
  assert (X0 : fq_xint true 0 = (/ 10 ^ 20)%R) by reflexivity.
  assert (X1 : fq_xint true 1 = PI) by (unfold fq_xint; cbn [Nat.eqb INR]; ring).
  assert (X2 : fq_xint true 2 = (2 * PI)%R) by (unfold fq_xint; cbn [Nat.eqb INR]; ring).
  set (B := half_node leg2x true).
  assert (B0 : forall j, (j < 2)%nat -> (0 < sin (B 0%nat j))%R).
  { intros j Hj. pose proof (node_in 0 j Hj) as N. fold B in N. rewrite X0, X1 in N. apply sin_gt_0; lra. }
  assert (B1 : forall j, (j < 2)%nat -> (sin (B 1%nat j) < 0)%R).
  { intros j Hj. pose proof (node_in 1 j Hj) as N. fold B in N. rewrite X1, X2 in N. apply sin_lt_0; lra. }
  assert (SB : forall z, (-1 <= sin z <= 1)%R) by (intros; apply SIN_bound).
  assert (HP : forall i, half_period leg2x leg2w (fun _ => 1%R) true 2 1 i = (half_width true 1 i * (sin (B i 0%nat) + sin (B i 1%nat)))%R).
  { intros i. unfold half_period, sR. cbn [seq map rsuml fold_right nth leg2w]. fold B. unfold fq_sc. ring. }
  set (w0 := half_width true 1 0) in *. set (w1 := half_width true 1 1) in *.
  assert (EX : x = (w0 * sin (B 0%nat 0%nat) + w1 * sin (B 0%nat 1%nat))%R).
  { unfold x, fq_value.
    assert (ST : fq_steep (fun _ => (1%R, 1%R)) 100 true 2 1 = true).
    { unfold fq_steep. apply forallb_forall. intros k _. assert (P1 : (0 < Cmod (1%R, 1%R))%R).
      { apply Cmod_gt_0. intros W. apply (f_equal fst) in W. cbn in W. lra. }
      rewrite Reqb_false by lra. apply TransformDlf.Rltb_true. unfold Rdiv. rewrite Rinv_r by lra. lra. }
    rewrite ST.
    pose proof (two_value rtol atol zc (fun i => if (i =? 0)%nat then (w0 * sin (B 0%nat 0%nat))%R else (w1 * sin (B 0%nat 1%nat))%R)) as TV.
    cbn [Nat.eqb] in TV. rewrite <- TV.
    - rewrite !value_two. rewrite !contrib_node. cbn [Nat.eqb]. change (1 / 2)%nat with 0%nat. change (1 mod 2)%nat with 1%nat. change (0 / 2)%nat with 0%nat. change (0 mod 2)%nat with 0%nat.
      unfold one_node. cbn [nth leg2w]. fold B. fold w0. fold w1. unfold fq_sc.
      replace (w0 * (1 * sin (B 0%nat 0%nat) * 1))%R with (w0 * sin (B 0%nat 0%nat))%R by ring.
      replace (w1 * (1 * sin (B 0%nat 1%nat) * 1))%R with (w1 * sin (B 0%nat 1%nat))%R by ring. reflexivity.
    - pose proof (SB (B 0%nat 0%nat)). apply Rabs_le. nra.
    - pose proof (SB (B 0%nat 1%nat)). apply Rabs_le. nra. }
  assert (EY : y = (half_period leg2x leg2w (fun _ => 1%R) true 2 1 0 + half_period leg2x leg2w (fun _ => 1%R) true 2 1 1)%R).
  { unfold y. apply (two_value rtol atol zc (fun i => half_period leg2x leg2w (fun _ => 1%R) true 2 1 i)); rewrite HP.
    - fold w0. pose proof (SB (B 0%nat 0%nat)). pose proof (SB (B 0%nat 1%nat)). apply Rabs_le. nra.
    - fold w1. pose proof (SB (B 1%nat 0%nat)). pose proof (SB (B 1%nat 1%nat)). apply Rabs_le. nra. }
  split; [exact EX|]. split; [exact EY|]. rewrite EX, EY, !HP. fold w0 w1.
  pose proof (B0 0%nat ltac:(lia)). pose proof (B0 1%nat ltac:(lia)). pose proof (B1 0%nat ltac:(lia)). pose proof (B1 1%nat ltac:(lia)).
  assert (w0 < w1)%R by lra. assert (0 < w1)%R by lra. nra.
Qed.
