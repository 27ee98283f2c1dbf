(** The rating of a filter and the search. *)

From Coq Require Import ZArith Reals List Bool Ascii String Lia Lra Psatz Sorting.Sorted.
From Coquelicot Require Import Coquelicot.
From Verif Require Import PyBase CBase Text Utils Transform UtilsArgs DataIo FilterIo Fdesign Fourier FourierSum FourierFft ArgsFreq ArgsKw UtilsLayer RoutinesKThm BipoleCol FdesignD FdesignDThm FdesignDThm2.
Import ListNotations.
Local Open Scope R_scope.
Local Open Scope res_scope.

(** ** One pair *)
Lemma is_zeroC_spec : forall c, is_zeroC c = true <-> c = RtoC 0.
Proof. intros c. unfold is_zeroC. destruct (Ceq_dec c (RtoC 0)); split; congruence. Qed.
(** The value v is off the value t by more than the fraction [error] of it. *)
Lemma is_bad_spec : forall error v t, is_bad error v t = true <-> error * Cmod t < Cmod (Cminus v t).
Proof.
  intros error v t. unfold is_bad. destruct (is_zeroC t) eqn:E.
  - apply is_zeroC_spec in E. subst t. rewrite Cmod_0, Rmult_0_r. rewrite negb_true_iff. split.
    + intros H. apply Cmod_gt_0. intros W. apply (proj2 (is_zeroC_spec _)) in W. congruence.
    + intros H. destruct (is_zeroC (v - RtoC 0)%C) eqn:Z; [|reflexivity]. apply is_zeroC_spec in Z. rewrite Z, Cmod_0 in H. lra.
  - assert (N : t <> RtoC 0) by (intros W; apply (proj2 (is_zeroC_spec _)) in W; congruence).
    assert (P : 0 < Cmod t) by (now apply Cmod_gt_0). rewrite UtilsLayer.Rltb_true, Cmod_div by exact N. split; intros H.
    + apply (Rmult_lt_compat_r (Cmod t)) in H; [|exact P]. unfold Rdiv in H. rewrite Rmult_assoc, Rinv_l, Rmult_1_r in H by lra. exact H.
    + apply (Rmult_lt_reg_r (Cmod t)); [exact P|]. unfold Rdiv. rewrite Rmult_assoc, Rinv_l, Rmult_1_r by lra. exact H.
Qed.

Definition off (error : R) (v t : list C) (j : nat) : Prop := error * Cmod (nth j t (RtoC 0)) < Cmod (Cminus (nth j v (RtoC 0)) (nth j t (RtoC 0))).
Lemma bad_In : forall error v t j, In j (bad_idx error v t) <-> (j < List.length v)%nat /\ off error v t j.
Proof.
  intros error v t j. unfold bad_idx. rewrite filter_In, in_seq, is_bad_spec. unfold off. intuition lia.
Qed.
Lemma seq_sorted : forall n a, StronglySorted lt (seq a n).
Proof.
  induction n as [|n IH]; intros a; [constructor|]. cbn [seq]. constructor; [apply IH|]. apply List.Forall_forall. intros x Hx. apply in_seq in Hx. lia.
Qed.
Lemma filter_sorted : forall p l, StronglySorted lt l -> StronglySorted lt (filter p l).
Proof.
  intros p l H. induction H as [|x l H IH F]; [constructor|]. cbn [filter]. destruct (p x); [|exact IH]. constructor; [exact IH|].
  apply List.Forall_forall. intros y Hy. apply filter_In in Hy. exact (proj1 (List.Forall_forall _ _) F y (proj1 Hy)).
Qed.
Lemma bad_sorted : forall error v t, StronglySorted lt (bad_idx error v t).
Proof. intros. apply filter_sorted, seq_sorted. Qed.
Lemma forall_lt : forall b l, List.Forall (lt b) l -> forall x, In x l -> (b < x)%nat.
Proof. intros b l H. exact (proj1 (List.Forall_forall _ _) H). Qed.

(** the number of bad points among the first ones, up to and including i *)
Definition count_to (bad : list nat) (i : nat) : nat := List.length (filter (fun j => (j <=? i)%nat) bad).
Lemma count_none : forall bad i, (forall j, In j bad -> (i < j)%nat) -> count_to bad i = 0%nat.
Proof.
  intros bad i H. unfold count_to. induction bad as [|b t IH]; [reflexivity|]. cbn [filter]. rewrite (proj2 (Nat.leb_gt b i)) by (apply H; now left).
  apply IH. intros j Hj. apply H. now right.
Qed.
Lemma count_app : forall a b i, count_to (a ++ b) i = (count_to a i + count_to b i)%nat.
Proof. intros. unfold count_to. now rewrite filter_app, app_length. Qed.
Lemma count_le : forall a i, (count_to a i <= List.length a)%nat.
Proof. intros a i. unfold count_to. induction a as [|x a IH]; [reflexivity|]. cbn [filter]. destruct (x <=? i)%nat; cbn [List.length]; lia. Qed.

Lemma imin_spec : forall v bad, StronglySorted lt bad -> (forall j, In j bad -> (j < List.length v)%nat) -> forallb is_zeroC v = false ->
  let i := imin_of v bad in
  (i < List.length v)%nat /\
  ((0 < i)%nat -> (count_to bad i <= 4)%nat /\
     ((List.length bad < 5)%nat -> (forall j, (j <= i)%nat -> ~ In j bad) /\ (i = (List.length v - 1)%nat \/ In (S i) bad)) /\
     ((5 <= List.length bad)%nat -> In (i + 5)%nat bad /\ count_to bad (i + 5) = 5%nat)) /\
  (i = 0%nat -> List.length v = 1%nat \/ In 0%nat bad \/ In 1%nat bad).
Proof.
  intros v bad S B Z i. unfold i, imin_of. rewrite Z.
  assert (NV : (0 < List.length v)%nat) by (destruct v; [discriminate Z|cbn; lia]).
  destruct bad as [|b0 t].
  - split; [lia|]. split; [|lia]. intros _. split; [cbn; lia|]. split; [|cbn; lia]. intros _. split; [intros; cbn; tauto|now left].
  - destruct (nth_error t 3) as [b4|] eqn:E.
    + destruct t as [|b1 [|b2 [|b3 [|c t]]]]; cbn in E; try discriminate E. injection E as ->.
      inversion S as [|? ? S1 F0]; subst. inversion S1 as [|? ? S2 F1]; subst. inversion S2 as [|? ? S3 F2]; subst. inversion S3 as [|? ? S4 F3]; subst. inversion S4 as [|? ? S5 F4]; subst.
      assert (b0 < b1)%nat by (apply (forall_lt _ _ F0); now left). assert (b1 < b2)%nat by (apply (forall_lt _ _ F1); now left).
      assert (b2 < b3)%nat by (apply (forall_lt _ _ F2); now left). assert (b3 < b4)%nat by (apply (forall_lt _ _ F3); now left).
      pose proof (forall_lt _ _ F4) as G4.
      assert (b4 < List.length v)%nat by (apply B; cbn; tauto).
      split; [lia|]. split.
      * intros P. split; [|split].
        -- change (b0 :: b1 :: b2 :: b3 :: b4 :: t) with ([b0; b1; b2; b3] ++ (b4 :: t))%list. rewrite count_app, (count_none (b4 :: t)).
           ++ pose proof (count_le [b0; b1; b2; b3] (b4 - 5)). cbn [List.length] in *. lia.
           ++ intros j [<- | Hj]; [lia|]. specialize (G4 j Hj). lia.
        -- cbn [List.length]. lia.
        -- intros _. replace (b4 - 5 + 5)%nat with b4 by lia. split; [cbn; tauto|].
           change (b0 :: b1 :: b2 :: b3 :: b4 :: t) with ([b0; b1; b2; b3; b4] ++ t)%list. rewrite count_app, (count_none t) by exact G4.
           unfold count_to. cbn [filter]. rewrite !(proj2 (Nat.leb_le _ b4)) by lia. reflexivity.
      * intros P. right. cbn [In]. lia.
    + assert (L : (List.length t < 4)%nat) by (apply nth_error_None in E; lia).
      assert (b0 < List.length v)%nat by (apply B; cbn; tauto). inversion S as [|? ? S1 F0]; subst. pose proof (forall_lt _ _ F0) as G0.
      split; [lia|]. split.
      * intros P. assert (A : forall j, In j (b0 :: t) -> (b0 - 1 < j)%nat) by (intros j [<- | Hj]; [lia|specialize (G0 j Hj); lia]).
        split; [rewrite (count_none _ _ A); lia|]. split; [|cbn [List.length]; lia].
        intros _. split; [intros j Hj W; specialize (A j W); lia|]. right. left. lia.
      * intros P. right. cbn [In]. lia.
Qed.

(** the share of the bad points *)
Definition n_off (error : R) (v t : list C) (i : nat) : nat := count_to (bad_idx error v t) i.
Lemma n_off_all : forall error v t, n_off error v t (List.length v) = List.length (bad_idx error v t).
Proof.
  intros error v t. unfold n_off, count_to. f_equal. assert (P : forall l, (forall j, In j l -> (j < List.length v)%nat) -> filter (fun j => (j <=? List.length v)%nat) l = l).
  { induction l as [|x l IH]; intros H; [reflexivity|]. cbn [filter]. rewrite (proj2 (Nat.leb_le x _)) by (specialize (H x (or_introl eq_refl)); lia). f_equal. apply IH. intros j Hj. apply H. now right. }
  apply P. intros j Hj. now apply bad_In in Hj.
Qed.
Lemma n_off_spec : forall error v t i, (i <= List.length v)%nat -> exists l, NoDup l /\ List.length l = n_off error v t i /\
  forall j, In j l <-> (j <= i)%nat /\ (j < List.length v)%nat /\ off error v t j.
Proof.
  intros error v t i Hi. exists (filter (fun j => (j <=? i)%nat) (bad_idx error v t)). split; [|split; [reflexivity|]].
  - apply NoDup_filter. unfold bad_idx. apply NoDup_filter, seq_NoDup.
  - intros j. rewrite filter_In, bad_In, Nat.leb_le. tauto.
Qed.

Definition rating (amp : bool) (v : list C) (r : list R) (i : nat) : R := if amp then Cmod (nth i v (RtoC 0)) else 1 / nth i r 0.

Lemma out_length : forall d r f v, fd_out d r f = Ok v -> List.length v = List.length r.
Proof.
  intros d r f v H. assert (P : forall (A B : Type) (g : A -> res B) l u, mapM g l = Ok u -> List.length u = List.length l).
  { intros A B g. induction l as [|x l IH]; intros u E; cbn [mapM] in E; [injection E as <-; reflexivity|]. apply bind_ok in E. destruct E as (y & _ & E).
    apply bind_ok in E. destruct E as (ys & E & E'). injection E' as <-. cbn. now rewrite (IH ys). }
  unfold fd_out in H. apply bind_ok in H. destruct H as (base & _ & H). destruct (teqb (dp_name f) (T "j2")).
  - apply bind_ok in H. destruct H as (x0 & _ & H). apply bind_ok in H. destruct H as (x1 & _ & H). exact (P _ _ _ _ _ H).
  - apply bind_ok in H. destruct H as (x & _ & H). exact (P _ _ _ _ _ H).
Qed.
Lemma nth_res_ok : forall A (l : list A) i d, (i < List.length l)%nat -> nth_res l i = Ok (nth i l d).
Proof. intros A l i d H. unfold nth_res. now rewrite (nth_error_nth' l d H). Qed.
Lemma nth_res_inv : forall A (l : list A) i x d, nth_res l i = Ok x -> x = nth i l d /\ (i < List.length l)%nat.
Proof.
  intros A l i x d H. unfold nth_res in H. destruct (nth_error l i) eqn:E; [|discriminate]. injection H as ->. split; [symmetry; now apply nth_error_nth|].
  apply nth_error_Some. congruence.
Qed.
Lemma one_eq : forall d r error amp f v t, fd_out d r f = Ok v -> dp_rhs f = RhsArr t -> v <> [] -> (forall x, In x r -> x <> 0) ->
  let i := imin_of v (bad_idx error v t) in fd_one d r error amp f = Ok (i, rating amp v r i) /\ (i < List.length v)%nat.
Proof.
  intros d r error amp f v t E Ht NE Pr i. assert (L : (i < List.length v)%nat).
  { unfold i. destruct (forallb is_zeroC v) eqn:Z; [unfold imin_of; rewrite Z; destruct v; [congruence|cbn; lia]|].
    apply imin_spec; [apply bad_sorted| |exact Z]. intros j Hj. now apply bad_In in Hj. }
  split; [|exact L]. unfold fd_one. rewrite E, Ht. cbn [bind]. fold i. pose proof (out_length d r f v E) as Lv.
  destruct amp.
  - rewrite (nth_res_ok _ v i (RtoC 0)) by exact L. reflexivity.
  - rewrite (nth_res_ok _ r i 0) by lia. cbn [bind]. destruct (Req_EM_T (nth i r 0) 0) as [W|W]; [|reflexivity].
    exfalso. apply (Pr (nth i r 0)); [|exact W]. apply nth_In. lia.
Qed.

(** What the value of one pair means. *)
Lemma rate_one : forall d r error amp f v t, fd_out d r f = Ok v -> dp_rhs f = RhsArr t -> r <> [] -> (forall x, In x r -> x <> 0) ->
  exists o, objective d r error amp [f] = Ok o /\
  match o with
  | Fin m => exists i, (0 < i < List.length r)%nat /\ m = rating amp v r i /\
      (n_off error v t i <= 4)%nat /\
      ((n_off error v t (List.length v) < 5)%nat -> (forall j, (j <= i)%nat -> ~ off error v t j) /\ (i = (List.length r - 1)%nat \/ off error v t (S i))) /\
      ((5 <= n_off error v t (List.length v))%nat -> off error v t (i + 5) /\ n_off error v t (i + 5) = 5%nat)
  | PInf => (forall j, nth j v (RtoC 0) = RtoC 0) \/ List.length r = 1%nat \/ off error v t 0 \/ off error v t 1
  | NInf => False
  end.
Proof.
  intros d r error amp f v t E Ht NR Pr. pose proof (out_length d r f v E) as Lv.
  assert (NE : v <> []) by (destruct v; [destruct r; [congruence|discriminate]|discriminate]).
  destruct (one_eq d r error amp f v t E Ht NE Pr) as [O L]. set (i := imin_of v (bad_idx error v t)) in *.
  assert (EO : objective d r error amp [f] = Ok (if (i =? 0)%nat then PInf else Fin (rating amp v r i))).
  { unfold objective. cbn [fd_worst]. rewrite O. reflexivity. }
  eexists. split; [exact EO|]. destruct (forallb is_zeroC v) eqn:Z.
  - assert (i = 0%nat) by (unfold i, imin_of; now rewrite Z). rewrite H. cbn [Nat.eqb]. left. intros j.
    destruct (Nat.lt_ge_cases j (List.length v)) as [Hj|Hj]; [|now apply nth_overflow]. rewrite forallb_forall in Z. apply is_zeroC_spec. apply Z. now apply nth_In.
  - pose proof (imin_spec v (bad_idx error v t) (bad_sorted error v t) (fun j Hj => proj1 (proj1 (bad_In error v t j) Hj)) Z) as P. cbv zeta in P. fold i in P.
    destruct P as (_ & P1 & P2). rewrite n_off_all. destruct (Nat.eqb_spec i 0) as [I|I].
    + right. destruct (P2 I) as [P|[P|P]]; [left; lia|right; left; now apply bad_In in P|right; right; now apply bad_In in P].
    + destruct (P1 ltac:(lia)) as (Q1 & Q2 & Q3). exists i. split; [lia|]. split; [reflexivity|]. split; [exact Q1|]. split.
      * intros H. destruct (Q2 H) as [Q4 Q5]. split.
        -- intros j Hj W. apply (Q4 j Hj). apply bad_In. split; [lia|exact W].
        -- destruct Q5 as [Q5|Q5]; [left; lia|right; now apply bad_In in Q5].
      * intros H. destruct (Q3 H) as [Q4 Q5]. split; [now apply bad_In in Q4|exact Q5].
Qed.

(** If the first five bad points follow each other, nothing is skipped. *)
Lemma rate_consistent : forall v bad b, StronglySorted lt bad -> forallb is_zeroC v = false -> (0 < b)%nat ->
  firstn 5 bad = [b; b + 1; b + 2; b + 3; b + 4]%nat -> imin_of v bad = (b - 1)%nat.
Proof.
  intros v bad b S Z Hb H. unfold imin_of. rewrite Z. destruct bad as [|b0 [|b1 [|b2 [|b3 [|b4 t]]]]]; try discriminate H.
  cbn in H. injection H as -> -> -> -> ->. cbn. lia.
Qed.

(** ** Several pairs *)
Lemma worst_spec : forall d r error amp fC cur c, fd_worst d r error amp fC cur = Ok c ->
  exists l, mapM (fd_one d r error amp) fC = Ok l /\
   let all := match cur with Some x => x :: l | None => l end in
   In c all /\ forall x, In x all -> snd x <= snd c.
Proof.
  intros d r error amp. induction fC as [|f t IH]; intros cur c H; cbn [fd_worst] in H.
  - destruct cur as [x|]; [|discriminate]. injection H as ->. exists []. split; [reflexivity|]. cbn. split; [now left|]. intros x [<- | []]. lra.
  - apply bind_ok in H. destruct H as (n & E & H). destruct (IH _ _ H) as (l & El & P). exists (n :: l). cbn [mapM]. rewrite E, El. split; [reflexivity|]. cbv zeta in *.
    destruct cur as [x|]; [|exact P]. destruct (Rltb (snd x) (snd n)) eqn:L.
    + apply UtilsLayer.Rltb_true in L. destruct P as [P1 P2]. split; [now right|]. intros y [<- | Hy]; [|now apply P2]. specialize (P2 n (or_introl eq_refl)). lra.
    + apply UtilsLayer.Rltb_false in L. destruct P as [P1 P2]. split; [cbn in P1 |- *; tauto|].
      intros y [<- | [<- | Hy]]; [apply P2; now left| |apply P2; now right]. specialize (P2 x (or_introl eq_refl)). lra.
Qed.
Lemma rate_several : forall d r error amp fC o, objective d r error amp fC = Ok o ->
  exists l i m, mapM (fd_one d r error amp) fC = Ok l /\ In (i, m) l /\ (forall i' m', In (i', m') l -> m' <= m) /\ o = (if (i =? 0)%nat then PInf else Fin m).
Proof.
  intros d r error amp fC o H. unfold objective in H. apply bind_ok in H. destruct H as ([i m] & E & H). injection H as <-.
  destruct (worst_spec _ _ _ _ _ _ _ E) as (l & El & P1 & P2). exists l, i, m. split; [exact El|]. split; [exact P1|]. split; [|reflexivity].
  intros i' m' Hi. exact (P2 _ Hi).
Qed.
Lemma mapM_In : forall A B (g : A -> res B) l u y, mapM g l = Ok u -> In y u -> exists x, In x l /\ g x = Ok y.
Proof.
  intros A B g. induction l as [|x l IH]; intros u y E Hy; cbn [mapM] in E; [injection E as <-; destruct Hy|].
  apply bind_ok in E. destruct E as (z & Ez & E). apply bind_ok in E. destruct E as (zs & Es & E). injection E as <-. destruct Hy as [<- | Hy]; [exists x; split; [now left|exact Ez]|].
  destruct (IH zs y Es Hy) as (x' & H1 & H2). exists x'. split; [now right|exact H2].
Qed.
Lemma mapM_In_fwd : forall A B (g : A -> res B) l u x, mapM g l = Ok u -> In x l -> exists y, In y u /\ g x = Ok y.
Proof.
  intros A B g. induction l as [|x' l IH]; intros u x E Hx; cbn [mapM] in E; [destruct Hx|].
  apply bind_ok in E. destruct E as (z & Ez & E). apply bind_ok in E. destruct E as (zs & Es & E). injection E as <-. destruct Hx as [<- | Hx]; [exists z; split; [now left|exact Ez]|].
  destruct (IH zs x Es Hx) as (y & H1 & H2). exists y. split; [now right|exact H2].
Qed.
Lemma one_r : forall d r error f i m, fd_one d r error false f = Ok (i, m) -> m = 1 / nth i r 0 /\ (i < List.length r)%nat /\
  objective d r error false [f] = Ok (if (i =? 0)%nat then PInf else Fin m).
Proof.
  intros d r error f i m H. assert (H' := H). unfold fd_one in H. apply bind_ok in H. destruct H as (v & _ & H). destruct (dp_rhs f) as [|t]; [discriminate|].
  apply bind_ok in H. destruct H as (x & E & H). destruct (Req_EM_T x 0); [discriminate|]. destruct (nth_res_inv _ _ _ _ 0 E) as [E1 E2].
  injection H as H1 H2. rewrite <- H1. split; [now rewrite <- E1|]. split; [exact E2|].
  unfold objective. cbn [fd_worst]. rewrite H'. cbn [bind fst snd]. rewrite H1. reflexivity.
Qed.
(** With cvar='r' and increasing points, the pairs are rated together as the worst of them. *)
Lemma rate_r : forall d r error fC o, (forall i j, (i < j)%nat -> (j < List.length r)%nat -> nth i r 0 < nth j r 0) -> (forall i, (i < List.length r)%nat -> 0 < nth i r 0) ->
  objective d r error false fC = Ok o ->
  (exists f, In f fC /\ objective d r error false [f] = Ok o) /\
  (forall f, In f fC -> exists o', objective d r error false [f] = Ok o' /\ ext_ltb o o' = false).
Proof.
  intros d r error fC o Inc Pos H. destruct (rate_several _ _ _ _ _ _ H) as (l & i & m & El & Hi & Hm & ->).
  destruct (mapM_In _ _ _ _ _ _ El Hi) as (f & Hf & Ef). destruct (one_r _ _ _ _ _ _ Ef) as (M & L & O). split; [exists f; auto|].
  intros g Hg. destruct (mapM_In_fwd _ _ _ _ _ _ El Hg) as ([i' m'] & Hi' & Eg). destruct (one_r _ _ _ _ _ _ Eg) as (M' & L' & O').
  eexists. split; [exact O'|]. pose proof (Hm i' m' Hi') as LE.
  destruct (Nat.eqb_spec i 0) as [Z|Z]; [destruct (i' =? 0)%nat; reflexivity|].
  assert (LI : (i <= i')%nat).
  { destruct (Nat.le_gt_cases i i') as [|G]; [assumption|exfalso]. specialize (Inc i' i G L). pose proof (Pos i' L') as P'.
    rewrite M, M' in LE. unfold Rdiv in LE. rewrite !Rmult_1_l in LE. assert (/ nth i r 0 < / nth i' r 0) by (apply Rinv_lt_contravar; [apply Rmult_lt_0_compat; [exact P'|lra]|exact Inc]). lra. }
  destruct (Nat.eqb_spec i' 0); [lia|]. cbn [ext_ltb]. apply UtilsLayer.Rltb_false. exact LE.
Qed.
