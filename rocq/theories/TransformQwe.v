(** Quadrature with extrapolation: the epsilon algorithm, what is returned and
    what the convergence flag means (C18, C19). *)

From Coq Require Import ZArith Reals List Bool String Lia Lra Psatz.
From Coquelicot Require Import Coquelicot.
From Verif Require Import PyBase CBase Kernel Utils UtilsLayer Transform.
Import ListNotations.
Local Open Scope R_scope.
Local Open Scope C_scope.

(** ** Specification: Wynn's epsilon table

    eps_{-1}^(n) = 0, eps_0^(n) = s_n,
    eps_{k+1}^(n) = eps_{k-1}^(n+1) + 1/(eps_k^(n+1) - eps_k^(n)),
    with the largest double in place of the reciprocal of a vanishing difference. *)
Definition recip_or_max (a d : C) : C :=
  if Rltb (Cmod d) dbl_tiny then RtoC dbl_max else Cplus a (Cdiv (RtoC 1) d).

Fixpoint wynn2 (s : nat -> C) (k : nat) : (nat -> C) * (nat -> C) :=
  match k with
  | O => (fun _ => RtoC 0, s)
  | Datatypes.S k' => let p := wynn2 s k' in
            (snd p, fun n => recip_or_max (fst p (n + 1)%nat) (Cminus (snd p (n + 1)%nat) (snd p n)))
  end.
Definition eps (s : nat -> C) (k n : nat) : C := snd (wynn2 s k) n.
Definition eps_prev (s : nat -> C) (k n : nat) : C := fst (wynn2 s k) n.

Lemma eps_S : forall s k n, eps s (k + 1) n =
  recip_or_max (eps_prev s k (n + 1)) (Cminus (eps s k (n + 1)) (eps s k n)).
Proof. intros. rewrite Nat.add_1_r. reflexivity. Qed.
Lemma eps_prev_S : forall s k n, eps_prev s (k + 1) n = eps s k n.
Proof. intros. rewrite Nat.add_1_r. reflexivity. Qed.

(** partial sums without the first interval, and the extrapolated sum after interval [i] *)
Fixpoint psum (c : nat -> C) (n : nat) : C :=
  match n with O => RtoC 0 | Datatypes.S m => Cplus (psum c m) (c n) end.
Definition extrapolated (c : nat -> C) (i : nat) : C :=
  Cplus (eps (psum c) (i - i mod 2) (i mod 2)) (c 0%nat).

(** the tolerance test of element values [e] (now) and [p] (before) *)
Definition within (rtol atol : R) (e p : C) : Prop := Cmod (Cminus e p) < rtol * Cmod e + atol.

Lemma not_conv_false : forall rtol atol zc e p, not_conv rtol atol zc e p = false ->
  within rtol atol e p \/ (e = RtoC 0 /\ zc p = false).
Proof.
  intros rtol atol zc e p. unfold not_conv, within. destruct (Ceq_dec e (RtoC 0)) as [E | E]; [auto|].
  unfold Rleb. destruct (Rle_dec _ _) as [H | H]; [discriminate|]. intros _. left.
  apply Rnot_le_lt in H. assert (P : 0 < Cmod e) by now apply Cmod_gt_0.
  rewrite Cmod_div in H by exact E.
  apply (Rmult_lt_compat_r (Cmod e)) in H; [|exact P].
  replace (Cmod (Cminus e p) / Cmod e * Cmod e)%R with (Cmod (Cminus e p)) in H by (field; lra).
  replace ((rtol + atol / Cmod e) * Cmod e)%R with (rtol * Cmod e + atol)%R in H by (field; lra). exact H.
Qed.

Lemma not_conv_intro : forall rtol atol zc e p, e <> RtoC 0 -> within rtol atol e p ->
  not_conv rtol atol zc e p = false.
Proof.
  intros rtol atol zc e p E W. unfold not_conv, within in *. destruct (Ceq_dec e (RtoC 0)); [contradiction|].
  unfold Rleb. destruct (Rle_dec _ _) as [H | H]; [|reflexivity]. exfalso.
  assert (P : 0 < Cmod e) by now apply Cmod_gt_0.
  rewrite Cmod_div in H by exact E.
  apply (Rmult_le_compat_r (Cmod e)) in H; [|lra].
  replace (Cmod (Cminus e p) / Cmod e * Cmod e)%R with (Cmod (Cminus e p)) in H by (field; lra).
  replace ((rtol + atol / Cmod e) * Cmod e)%R with (rtol * Cmod e + atol)%R in H by (field; lra). lra.
Qed.

(** ** The working array holds a diagonal of the epsilon table *)

(** after interval [i]: S[j] = eps_{i-j}^(j) *)
Definition diag (s : nat -> C) (i : nat) (Sw : list C) : Prop :=
  forall j, (j <= i)%nat -> nth j Sw (RtoC 0) = eps s (i - j) j.

Lemma eps_step_eq : forall Sw aux k, eps_step (Sw, aux) k =
  (replace Sw (k - 1) (recip_or_max aux (Cminus (nth k Sw (RtoC 0)) (nth (k - 1) Sw (RtoC 0)))),
   nth (k - 1) Sw (RtoC 0)).
Proof. reflexivity. Qed.

Lemma eps_loop_diag : forall s i Sw, (0 < i)%nat -> (i < List.length Sw)%nat ->
  diag s (i - 1) Sw -> nth i Sw (RtoC 0) = s i ->
  diag s i (eps_loop Sw i) /\ List.length (eps_loop Sw i) = List.length Sw.
Proof.
  intros s i Sw Hi HL HD Hs.
  (* state after the steps k = i, i-1, ..., m+1 *)
  assert (INV : forall m st, (m <= i)%nat ->
     List.length (fst st) = List.length Sw ->
     (forall j, (m <= j <= i)%nat -> nth j (fst st) (RtoC 0) = eps s (i - j) j) ->
     (forall j, (j < m)%nat -> nth j (fst st) (RtoC 0) = eps s (i - 1 - j) j) ->
     (snd st = eps_prev s (i - m) m) ->
     let st' := fold_left eps_step (rev (seq 1 m)) st in
     diag s i (fst st') /\ List.length (fst st') = List.length Sw).
  { induction m as [|m IH]; intros [T aux] Hm L1 A B E; cbn [fst snd] in *.
    - simpl. split; [|exact L1]. intros j Hj. apply A. lia.
    - rewrite seq_S, rev_app_distr. cbn [rev app fold_left]. replace (1 + m)%nat with (m + 1)%nat by lia.
      rewrite eps_step_eq. replace (m + 1 - 1)%nat with m by lia.
      apply IH; cbn [fst snd].
      + lia.
      + rewrite replace_length. exact L1.
      + intros j Hj. rewrite nth_replace by lia. destruct (Nat.eqb_spec j m) as [-> | N].
        * replace (i - m)%nat with ((i - 1 - m) + 1)%nat by lia. rewrite eps_S.
          rewrite E. rewrite (A (m + 1)%nat) by lia. rewrite (B m) by lia.
          replace (i - (m + 1))%nat with (i - 1 - m)%nat by lia.
          replace (i - S m)%nat with (i - 1 - m)%nat by lia. replace (S m) with (m + 1)%nat by lia. reflexivity.
        * apply A. lia.
      + intros j Hj. rewrite nth_replace by lia. destruct (Nat.eqb_spec j m); [lia|]. apply B. lia.
      + rewrite (B m) by lia. replace (i - m)%nat with (i - 1 - m + 1)%nat by lia. now rewrite eps_prev_S. }
  unfold eps_loop. apply INV; cbn [fst snd]; auto.
  - intros j Hj. replace j with i by lia. rewrite Nat.sub_diag. exact Hs.
  - intros j Hj. rewrite HD by lia. reflexivity.
  - now rewrite Nat.sub_diag.
Qed.

(** ** Invariant of the loop *)
Section Qwe.
Variables (rtol atol : R) (maxint : nat) (zc : C -> bool) (contrib : nat -> nat -> C) (n : nat).

Definition E (e i : nat) : C := extrapolated (contrib e) i.
(** element [e] passes its test at interval [i] *)
Definition passes (e i : nat) : Prop := not_conv rtol atol zc (E e i) (E e (i - 1)) = false.

(** state of element [e] after pass [i] *)
Definition elem_inv (e i : nat) (q : qel) : Prop :=
  List.length (q_S q) = maxint /\ List.length (q_ex q) = maxint /\
  if q_om q then
    diag (psum (contrib e)) i (q_S q) /\
    (forall m, (1 <= m <= i)%nat -> nth (m - 1) (q_ex q) (RtoC 0) = E e m) /\
    (forall m, (2 <= m <= i)%nat -> ~ passes e m) /\
    q_EM q = (if (i <? 2)%nat then RtoC 0 else E e i)
  else exists i0, (2 <= i0 <= i)%nat /\ passes e i0 /\ (forall m, (2 <= m < i0)%nat -> ~ passes e m) /\
    q_EM q = (if (i0 =? 2)%nat then RtoC 0 else E e (i0 - 1)).

Lemma elem_step : forall e i q, (1 <= i < maxint)%nat -> elem_inv e (i - 1) q -> q_om q = true ->
  elem_inv e i (qwe_elem rtol atol zc i (contrib e 0%nat) (contrib e i) q).
Proof.
  intros e i q Hi [L1 [L2 H]] Om. rewrite Om in H. destruct H as [D [X [NP EM]]].
  unfold qwe_elem.
  set (S1 := replace (q_S q) i (Cplus (nth (i - 1) (q_S q) (RtoC 0)) (contrib e i))).
  assert (LS1 : List.length S1 = maxint) by (unfold S1; now rewrite replace_length).
  destruct (eps_loop_diag (psum (contrib e)) i S1) as [D2 LS2]; [lia|lia| | |].
  { intros j Hj. unfold S1. rewrite nth_replace by lia. destruct (Nat.eqb_spec j i); [lia|]. apply D. lia. }
  { unfold S1. rewrite nth_replace by lia. rewrite Nat.eqb_refl. rewrite D by lia. rewrite Nat.sub_diag.
    destruct i as [|i']; [lia|]. replace (S i' - 1)%nat with i' by lia. reflexivity. }
  set (S2 := eps_loop S1 i) in *.
  assert (M2 : (i mod 2 <= i)%nat) by (apply Nat.mod_le; lia).
  assert (EE : Cplus (nth (i mod 2) S2 (RtoC 0)) (contrib e 0%nat) = E e i).
  { rewrite D2 by lia. reflexivity. }
  rewrite EE.
  assert (XX : forall m, (1 <= m <= i)%nat -> nth (m - 1) (replace (q_ex q) (i - 1) (E e i)) (RtoC 0) = E e m).
  { intros m Hm. rewrite nth_replace by lia. destruct (Nat.eqb_spec (m - 1) (i - 1)) as [Q | Q].
    - now replace m with i by lia.
    - apply X. lia. }
  destruct (Nat.ltb_spec 1 i) as [G | G].
  - assert (PV : nth (i - 2) (q_ex q) (RtoC 0) = E e (i - 1)).
    { replace (i - 2)%nat with (i - 1 - 1)%nat by lia. apply X. lia. }
    rewrite PV. unfold elem_inv. cbn [q_S q_EM q_om q_ex].
    split; [now rewrite LS2|]. split; [now rewrite replace_length|].
    destruct (not_conv rtol atol zc (E e i) (E e (i - 1))) eqn:NC.
    + split; [exact D2|]. split; [exact XX|]. split.
      * intros m Hm. destruct (Nat.eq_dec m i) as [-> | N]; [unfold passes; congruence|]. apply NP. lia.
      * destruct (Nat.ltb_spec i 2); [lia|reflexivity].
    + exists i. split; [lia|]. split; [exact NC|]. split; [intros m Hm; apply NP; lia|].
      rewrite EM. destruct (Nat.ltb_spec (i - 1) 2); destruct (Nat.eqb_spec i 2); try lia; reflexivity.
  - unfold elem_inv. cbn [q_S q_EM q_om q_ex].
    split; [now rewrite LS2|]. split; [now rewrite replace_length|].
    split; [exact D2|]. split; [exact XX|]. split; [intros m Hm; lia|].
    rewrite EM. destruct (Nat.ltb_spec (i - 1) 2); [|lia]. destruct (Nat.ltb_spec i 2); [reflexivity|lia].
Qed.

Lemma elem_keep : forall e i q, elem_inv e (i - 1) q -> q_om q = false -> elem_inv e i q.
Proof.
  intros e i q [L1 [L2 H]] Om. split; [exact L1|]. split; [exact L2|]. rewrite Om in *.
  destruct H as [i0 [A B]]. exists i0. split; [lia|exact B].
Qed.

Definition dq : qel := mkQ [] (RtoC 0) false [].
Definition st_inv (i : nat) (st : list qel) : Prop :=
  List.length st = n /\ forall e, (e < n)%nat -> elem_inv e i (nth e st dq).

Lemma pass_inv : forall i st, (1 <= i < maxint)%nat -> st_inv (i - 1) st ->
  st_inv i (qwe_pass rtol atol zc contrib i st).
Proof.
  intros i st Hi [L H]. unfold qwe_pass. split.
  - rewrite map2_length, seq_length, Nat.min_id. exact L.
  - intros e He. rewrite (map2_nth _ _ _ _ _ _ e 0%nat dq dq) by (rewrite ?seq_length; lia).
    rewrite seq_nth by lia. simpl. specialize (H e He). destruct (q_om (nth e st dq)) eqn:Om.
    + apply elem_step; auto.
    + apply elem_keep; auto.
Qed.

(** some element has not passed any test up to interval [i] *)
Definition active (i : nat) : Prop :=
  exists e, (e < n)%nat /\ forall m, (2 <= m <= i)%nat -> ~ passes e m.

Lemma loop_inv : forall k i st last kc, st_inv (i - 1) st -> (1 <= i)%nat -> (i + k = maxint)%nat ->
  (0 < k)%nat ->
  exists i' st', qwe_loop rtol atol zc contrib (seq i k) last kc st = (Some i', (kc + Z.of_nat (i' - i + 1))%Z, st') /\
  st_inv i' st' /\ (i <= i' < maxint)%nat /\
  (forall m, (i <= m < i')%nat -> active m) /\
  ((forall q, In q st' -> q_om q = false) \/ (i' + 1 = maxint)%nat).
Proof.
  induction k as [|k IH]; intros i st last kc H Hi HK Hk; [lia|]. cbn [seq qwe_loop].
  set (st' := qwe_pass rtol atol zc contrib i st).
  assert (P : st_inv i st') by (apply pass_inv; [lia|exact H]).
  destruct (forallb (fun q => negb (q_om q)) st') eqn:F.
  - exists i, st'. split; [do 2 f_equal; lia|]. split; [exact P|]. split; [lia|]. split; [intros; lia|]. left.
    rewrite forallb_forall in F. intros q Hq. specialize (F q Hq). now destruct (q_om q).
  - assert (X : active i).
    { assert (X : exists q, In q st' /\ negb (q_om q) = false).
      { clear -F. induction st' as [|q st' IHs]; [discriminate|]. simpl in F. destruct (negb (q_om q)) eqn:Q.
        - destruct IHs as [q' [I1 I2]]; [exact F|]. exists q'. split; [now right|exact I2].
        - exists q. split; [now left|exact Q]. }
      destruct X as [q [I1 I2]]. destruct P as [Lq Pq]. destruct (In_nth _ _ dq I1) as [e [He Eq]].
      exists e. split; [lia|]. destruct (Pq e) as [_ [_ Z]]; [lia|]. rewrite Eq in Z.
      destruct (q_om q); [|discriminate]. apply Z. }
    destruct k as [|k].
    + exists i, st'. split; [simpl; do 2 f_equal; lia|]. split; [exact P|]. split; [lia|]. split; [intros; lia|]. right. lia.
    + destruct (IH (i + 1)%nat st' (Some i) (kc + 1)%Z) as [i' [st2 [E1 [E2 [E3 [E4 E5]]]]]].
      * replace (i + 1 - 1)%nat with i by lia. exact P.
      * lia.
      * lia.
      * lia.
      * exists i', st2. replace (S i) with (i + 1)%nat by lia. rewrite E1. split; [do 2 f_equal; lia|]. split; [exact E2|]. split; [lia|].
        split; [|exact E5]. intros m Hm. destruct (Nat.eq_dec m i) as [-> | N]; [exact X|]. apply E4. lia.
Qed.

(** What QWE returns, element by element. *)
Definition outcome (e last : nat) (v : C) : Prop :=
  (exists i0, (2 <= i0 <= last)%nat /\ passes e i0 /\ (forall m, (2 <= m < i0)%nat -> ~ passes e m) /\
     v = clean (if (i0 =? 2)%nat then RtoC 0 else E e (i0 - 1)))
  \/ ((forall m, (2 <= m <= last)%nat -> ~ passes e m) /\ v = clean (E e last)).

Theorem qwe_spec : (2 <= maxint)%nat ->
  exists out last conv, qwe rtol atol maxint zc contrib n = Ok (out, Z.of_nat (last + 1), conv) /\
  (1 <= last < maxint)%nat /\ List.length out = n /\
  (forall e, (e < n)%nat -> outcome e last (nth e out (RtoC 0))) /\
  (forall m, (1 <= m < last)%nat -> active m) /\
  (conv = true <-> (last + 1 < maxint)%nat) /\
  (conv = true -> forall e, (e < n)%nat -> exists i0, (2 <= i0 <= last)%nat /\ passes e i0).
Proof.
  intros Hm. unfold qwe. set (init := mkQ _ _ _ _).
  destruct (loop_inv (maxint - 1) 1 (repeat init n) None 1) as [i [st [EQ [[L INV] [Hi [Hac Hd]]]]]]; try lia.
  { split; [apply repeat_length|]. intros e He.
    assert (Ei : nth e (repeat init n) dq = init) by (rewrite (nth_indep _ dq init) by (now rewrite repeat_length); apply nth_repeat).
    rewrite Ei. unfold elem_inv, init. cbn [q_S q_EM q_om q_ex].
    split; [apply repeat_length|]. split; [apply repeat_length|]. split.
    - intros j Hj. replace j with 0%nat by lia. rewrite nth_repeat. reflexivity.
    - split; [intros m Hm'; lia|]. split; [intros m Hm'; lia|reflexivity]. }
  rewrite EQ.
  eexists _, i, _. split; [f_equal; f_equal; f_equal; lia|]. split; [lia|]. split; [now rewrite map_length|].
  split.
  - intros e He.
    set (g := fun q => clean (if q_om q then nth (i - 1) (q_ex q) (RtoC 0) else q_EM q)).
    rewrite (nth_indep _ (RtoC 0) (g dq)) by (rewrite map_length; lia). rewrite map_nth. unfold g.
    destruct (INV e He) as [L1 [L2 H]]. destruct (q_om (nth e st dq)).
    + right. destruct H as [_ [X [NP _]]]. split; [exact NP|]. f_equal. apply X. lia.
    + left. destruct H as [i0 [A [B [C0 D]]]]. exists i0. split; [exact A|]. split; [exact B|]. split; [exact C0|]. now rewrite D.
  - split; [exact Hac|]. split.
    { split; intros Hc; [apply negb_true_iff, Nat.eqb_neq in Hc; lia|]. apply negb_true_iff, Nat.eqb_neq. lia. }
    intros Hc. apply negb_true_iff, Nat.eqb_neq in Hc. intros e He.
    destruct Hd as [Hd | Hd]; [|lia].
    destruct (INV e He) as [L1 [L2 H]]. rewrite (Hd (nth e st dq)) in H by (apply nth_In; lia).
    destruct H as [i0 [A [B _]]]. exists i0. auto.
Qed.
End Qwe.

Lemma qwe_truthful : forall rtol atol maxint zc contrib n out kc, (2 <= maxint)%nat ->
  qwe rtol atol maxint zc contrib n = Ok (out, kc, true) ->
  forall e, (e < n)%nat -> exists i0, (2 <= i0)%nat /\ (Z.of_nat i0 < kc)%Z /\
    (within rtol atol (extrapolated (contrib e) i0) (extrapolated (contrib e) (i0 - 1)) \/
     extrapolated (contrib e) i0 = RtoC 0 /\ zc (extrapolated (contrib e) (i0 - 1)) = false).
Proof.
  intros rtol atol maxint zc contrib n out kc Hm H e He.
  destruct (qwe_spec rtol atol maxint zc contrib n Hm) as [out' [last [conv [Q [_ [_ [_ [_ [_ P]]]]]]]]].
  rewrite Q in H. injection H as E1 E2 E3. subst out' kc conv.
  destruct (P eq_refl e He) as [i0 [B1 B2]]. exists i0. split; [lia|]. split; [lia|].
  now apply not_conv_false in B2.
Qed.
