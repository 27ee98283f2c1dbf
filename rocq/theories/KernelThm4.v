(** Meaning of the reflection coefficients. *)

From Coq Require Import Reals ZArith List Bool Lia Lra Psatz.
From Coquelicot Require Import Coquelicot.
From Verif Require Import PyBase CBase Kernel KernelSpec KernelRefl KernelClosed KernelPhys
  KernelPassive KernelSym KernelSplit ODE KernelBVP KernelMain KernelThm.
Import ListNotations.
Local Open Scope R_scope.
Local Open Scope C_scope.
Local Open Scope res_scope.

(** a k, b k: amplitudes of the down- and up-going wave in layer k.  Field and
    flux (g/e times difference) are continuous at interface j+1. *)
Definition matched (e g : nat -> C) (z : nat -> R) (a b : nat -> C) (j : nat) : Prop :=
  wave g j 0 (a j) (b j) 1 (z (S j)) = wave g (S j) 0 (a (S j)) (b (S j)) 1 (z (S j)) /\
  g j / e j * wave g j 0 (a j) (b j) (- (1)) (z (S j))
  = g (S j) / e (S j) * wave g (S j) 0 (a (S j)) (b (S j)) (- (1)) (z (S j)).

(** Down- and up-going parts at depth x. *)
Definition down_at (g a : nat -> C) (k : nat) (x : R) : C := a k * dec g k (x - 0).
Definition up_at (g b : nat -> C) (k : nat) (x : R) : C := b k * dec g k (0 - x).

Definition outgoing_below e g z N k (a b : nat -> C) : Prop :=
  b N = 0 /\ forall j, (k <= j < N)%nat -> matched e g z a b j.
Definition outgoing_above e g z k (a b : nat -> C) : Prop :=
  a 0%nat = 0 /\ forall j, (j < k)%nat -> matched e g z a b j.

(** R is the reflection coefficient of everything below (above) layer k, taken
    at the bottom (top) of that layer. *)
Definition refl_below e g z N k (R : C) : Prop :=
  (forall a b, outgoing_below e g z N k a b -> up_at g b k (z (S k)) = R * down_at g a k (z (S k))) /\
  exists a b, outgoing_below e g z N k a b /\ down_at g a k (z (S k)) <> 0.
Definition refl_above e g z k (R : C) : Prop :=
  (forall a b, outgoing_above e g z k a b -> down_at g a k (z k) = R * up_at g b k (z k)) /\
  exists a b, outgoing_above e g z k a b /\ up_at g b k (z k) <> 0.

Lemma refl_below_unique : forall e g z N k R R',
  refl_below e g z N k R -> refl_below e g z N k R' -> R = R'.
Proof.
  intros e g z N k R R' [H1 [a [b [H2 H3]]]] [H4 _].
  pose proof (H1 a b H2) as E1. pose proof (H4 a b H2) as E2. rewrite E1 in E2.
  transitivity (R * down_at g a k (z (S k)) / down_at g a k (z (S k))); [field; exact H3|].
  rewrite E2. field. exact H3.
Qed.
Lemma refl_above_unique : forall e g z k R R',
  refl_above e g z k R -> refl_above e g z k R' -> R = R'.
Proof.
  intros e g z k R R' [H1 [a [b [H2 H3]]]] [H4 _].
  pose proof (H1 a b H2) as E1. pose proof (H4 a b H2) as E2. rewrite E1 in E2.
  transitivity (R * up_at g b k (z k) / up_at g b k (z k)); [field; exact H3|].
  rewrite E2. field. exact H3.
Qed.

Section Refl.
Variables (e g : nat -> C) (z : nat -> R) (N : nat).
Hypothesis REG : regular e g z N.
Hypothesis e_nz : forall k, (k <= N)%nat -> e k <> 0.
Hypothesis g_nz : forall k, (k <= N)%nat -> g k <> 0.

Lemma two_nz : 1 + 1 <> RtoC 0.
Proof. rewrite <- RtoC_plus. apply RtoC_neq_0. lra. Qed.

(** One interface, in terms of the four wave values at it. *)
Lemma matched_iff : forall (a b : nat -> C) j,
  matched e g z a b j <->
  (down_at g a j (z (S j)) + up_at g b j (z (S j))
   = down_at g a (S j) (z (S j)) + up_at g b (S j) (z (S j)) /\
   g j / e j * (up_at g b j (z (S j)) - down_at g a j (z (S j)))
   = g (S j) / e (S j) * (up_at g b (S j) (z (S j)) - down_at g a (S j) (z (S j)))).
Proof.
  intros. unfold matched, wave, down_at, up_at.
  split; intros [H1 H2]; (split; [rewrite ?Cmult_1_l in *; try exact H1|]).
  - match goal with |- ?x = ?y => match type of H2 with ?p = ?q =>
      transitivity p; [ring|]; rewrite H2; ring end end.
  - match goal with |- ?x = ?y => match type of H2 with ?p = ?q =>
      transitivity p; [ring|]; rewrite H2; ring end end.
Qed.

Lemma step_alg : forall e1 g1 e2 g2 d u d' u' T : C,
  e1 <> 0 -> g1 <> 0 -> e2 <> 0 -> g2 <> 0 -> e2 * g1 + e1 * g2 <> 0 ->
  let r := (e2 * g1 - e1 * g2) / (e2 * g1 + e1 * g2) in
  1 + r * T <> 0 ->
  u' = T * d' -> d + u = d' + u' -> g1 / e1 * (u - d) = g2 / e2 * (u' - d') ->
  u = (r + T) / (1 + r * T) * d.
Proof.
  intros e1 g1 e2 g2 d u d' u' T E1 G1 E2 G2 D r Hr HT H1 H2. subst u'.
  assert (A : (1 + 1) * (e2 * g1) * u = (e2 * g1 + e1 * g2) * (r + T) * d').
  { transitivity (e2 * g1 * (d + u) + e2 * e1 * (g1 / e1 * (u - d))); [field; exact E1|].
    rewrite H1, H2. unfold r. field. split; assumption. }
  assert (B : (1 + 1) * (e2 * g1) * d = (e2 * g1 + e1 * g2) * (1 + r * T) * d').
  { transitivity (e2 * g1 * (d + u) - e2 * e1 * (g1 / e1 * (u - d))); [field; exact E1|].
    rewrite H1, H2. unfold r. field. split; assumption. }
  assert (K : (1 + 1) * (e2 * g1) <> 0).
  { apply Cmult_neq_0; [exact two_nz|]. apply Cmult_neq_0; assumption. }
  transitivity ((1 + 1) * (e2 * g1) * u / ((1 + 1) * (e2 * g1))).
  { field. split; [|split]; assumption || exact two_nz. }
  rewrite A.
  transitivity ((r + T) / (1 + r * T) * ((e2 * g1 + e1 * g2) * (1 + r * T) * d' / ((1 + 1) * (e2 * g1)))).
  { field. repeat split; try assumption. exact two_nz. }
  rewrite <- B. field. repeat split; try assumption. exact two_nz.
Qed.

Lemma down_shift : forall a k x y, down_at g a k y = down_at g a k x * dec g k (y - x).
Proof.
  intros. unfold down_at. replace (y - 0)%R with ((x - 0) + (y - x))%R by ring. rewrite dec_plus. ring.
Qed.
Lemma up_shift : forall b k x y, up_at g b k x = up_at g b k y * dec g k (y - x).
Proof.
  intros. unfold up_at. replace (0 - x)%R with ((0 - y) + (y - x))%R by ring. rewrite dec_plus. ring.
Qed.

Lemma E2_sq : forall k, E2 g z k = dec g k (z (S k) - z k) * dec g k (z (S k) - z k).
Proof. intros. rewrite E2_E1. reflexivity. Qed.

Lemma below_eq : forall m k a b, (k + m = N)%nat -> outgoing_below e g z N k a b ->
  up_at g b k (z (S k)) = Rdn e g z N k * down_at g a k (z (S k)).
Proof.
  induction m; intros k a b Hk [HN HM].
  - assert (k = N) by lia. subst k. rewrite Rdn_N. unfold up_at. rewrite HN. ring.
  - assert (IH : up_at g b (S k) (z (S (S k))) = Rdn e g z N (S k) * down_at g a (S k) (z (S (S k)))).
    { apply IHm; [lia|]. split; [exact HN|]. intros j Hj. apply HM. lia. }
    pose proof (HM k ltac:(lia)) as M. apply matched_iff in M. destruct M as [M1 M2].
    rewrite (Rdn_step e g z N k) by lia.
    refine (step_alg (e k) (g k) (e (S k)) (g (S k)) _ _ _ _ (Rdn e g z N (S k) * E2 g z (S k))
      _ _ _ _ _ _ _ M1 M2); try (apply e_nz; lia); try (apply g_nz; lia).
    + apply (reg_rl _ _ _ _ REG). lia.
    + apply (reg_dn _ _ _ _ REG k). lia.
    + rewrite (up_shift b (S k) (z (S k)) (z (S (S k)))), IH,
        (down_shift a (S k) (z (S k)) (z (S (S k)))), E2_sq. ring.
Qed.

Lemma above_eq : forall k a b, (k <= N)%nat -> outgoing_above e g z k a b ->
  down_at g a k (z k) = Rup e g z k * up_at g b k (z k).
Proof.
  induction k; intros a b Hk [H0 HM].
  - change (Rup e g z 0) with (RtoC 0). unfold down_at. rewrite H0. ring.
  - assert (IH : down_at g a k (z k) = Rup e g z k * up_at g b k (z k)).
    { apply IHk; [lia|]. split; [exact H0|]. intros j Hj. apply HM. lia. }
    pose proof (HM k ltac:(lia)) as M. apply matched_iff in M. destruct M as [M1 M2].
    rewrite (Rup_step e g z k) by lia.
    assert (NR : - rl e g k = (e k * g (S k) - e (S k) * g k) / (e k * g (S k) + e (S k) * g k)).
    { unfold rl. rewrite (Cplus_comm (e k * g (S k))). unfold Cdiv. ring. }
    pose proof (reg_up _ _ _ _ REG k ltac:(lia)) as DU. unfold den_up in *.
    rewrite NR in *.
    refine (step_alg (e (S k)) (g (S k)) (e k) (g k) _ _ (up_at g b k (z (S k))) (down_at g a k (z (S k))) (Rup e g z k * E2 g z k)
      _ _ _ _ _ _ _ _ _); try (apply e_nz; lia); try (apply g_nz; lia).
    + pose proof (reg_rl _ _ _ _ REG k ltac:(lia)) as D. unfold den_rl in D.
      replace (e k * g (S k) + e (S k) * g k) with (e (S k) * g k + e k * g (S k)) by ring. exact D.
    + exact DU.
    + rewrite (down_shift a k (z k) (z (S k))), IH, (up_shift b k (z k) (z (S k))), E2_sq. ring.
    + transitivity (down_at g a (S k) (z (S k)) + up_at g b (S k) (z (S k))); [ring|]. rewrite <- M1. ring.
    + transitivity (- (g (S k) / e (S k) * (up_at g b (S k) (z (S k)) - down_at g a (S k) (z (S k))))); [ring|].
      rewrite <- M2. ring.
Qed.

(** Existence: a wave with non-zero incoming amplitude. *)
Definition upd (f : nat -> C) (k : nat) (v : C) (j : nat) : C := if (j =? k)%nat then v else f j.
Lemma upd_eq : forall f k v, upd f k v k = v.
Proof. intros. unfold upd. now rewrite Nat.eqb_refl. Qed.
Lemma upd_ne : forall f k v j, j <> k -> upd f k v j = f j.
Proof. intros. unfold upd. destruct (Nat.eqb_spec j k); [contradiction|reflexivity]. Qed.

Lemma matched_ext : forall a b a' b' j, a j = a' j -> a (S j) = a' (S j) -> b j = b' j -> b (S j) = b' (S j) ->
  matched e g z a b j -> matched e g z a' b' j.
Proof. intros a b a' b' j H1 H2 H3 H4. unfold matched. now rewrite H1, H2, H3, H4. Qed.

Lemma dec_inv : forall k x (c : C), c * dec g k (0 - x) * dec g k (x - 0) = c.
Proof.
  intros. rewrite <- Cmult_assoc, <- dec_plus. replace (0 - x + (x - 0))%R with 0%R by ring.
  rewrite dec_0. ring.
Qed.
Lemma dec_inv2 : forall k x (c : C), c * dec g k (x - 0) * dec g k (0 - x) = c.
Proof.
  intros. rewrite <- Cmult_assoc, <- dec_plus. replace (x - 0 + (0 - x))%R with 0%R by ring.
  rewrite dec_0. ring.
Qed.
Lemma dec_nz0 : forall k x, dec g k x <> 0.
Proof. intros. apply dec_neq_0. Qed.

(** The amplitudes on one side of an interface from those on the other. *)
Lemma solve_up : forall e1 g1 e2 g2 d' u' : C, e1 <> 0 -> g1 <> 0 -> e2 <> 0 -> g2 <> 0 ->
  exists d u : C, d + u = d' + u' /\ g1 / e1 * (u - d) = g2 / e2 * (u' - d').
Proof.
  intros e1 g1 e2 g2 d' u' E1 G1 E2 G2.
  exists (((d' + u') - g2 / e2 * (u' - d') * e1 / g1) / (1 + 1)),
         (((d' + u') + g2 / e2 * (u' - d') * e1 / g1) / (1 + 1)).
  split; field; repeat split; try assumption; exact two_nz.
Qed.

Lemma below_ex : forall m k, (k + m = N)%nat ->
  exists a b, outgoing_below e g z N k a b /\ down_at g a k (z (S k)) <> 0.
Proof.
  induction m; intros k Hk.
  - assert (k = N) by lia. subst k.
    exists (fun _ => RtoC 1), (fun _ => RtoC 0). split; [split; [reflexivity|intros; lia]|].
    unfold down_at. rewrite Cmult_1_l. apply dec_nz0.
  - destruct (IHm (S k) ltac:(lia)) as [a [b [[HN HM] Hd]]].
    destruct (solve_up (e k) (g k) (e (S k)) (g (S k)) (down_at g a (S k) (z (S k))) (up_at g b (S k) (z (S k))))
      as [d [u [A B]]]; try (apply e_nz; lia); try (apply g_nz; lia).
    set (a' := upd a k (d * dec g k (0 - z (S k)))). set (b' := upd b k (u * dec g k (z (S k) - 0))).
    assert (O : outgoing_below e g z N k a' b').
    { split.
      - unfold b'. rewrite upd_ne by lia. exact HN.
      - intros j Hj. destruct (Nat.eq_dec j k) as [->|].
        + apply matched_iff. unfold down_at, up_at in *. unfold a', b'.
          rewrite !upd_eq, !upd_ne by lia. rewrite dec_inv, dec_inv2. split; assumption.
        + apply (matched_ext a b); unfold a', b'; rewrite ?upd_ne by lia; try reflexivity. apply HM. lia. }
    exists a', b'. split; [exact O|]. intro Z0.
    pose proof (below_eq (S m) k a' b' Hk O) as U. rewrite Z0, Cmult_0_r in U.
    pose proof (proj2 O k ltac:(lia)) as M. apply matched_iff in M. rewrite Z0, U in M.
    destruct M as [M1 M2].
    assert (Da : down_at g a' (S k) (z (S k)) = down_at g a (S k) (z (S k)))
      by (unfold down_at, a'; rewrite upd_ne by lia; reflexivity).
    rewrite Da in M1, M2. set (dd := down_at g a (S k) (z (S k))) in *.
    set (uu := up_at g b' (S k) (z (S k))) in *.
    assert (U1 : uu = - dd). { transitivity (dd + uu - dd); [ring|]. rewrite <- M1. ring. }
    rewrite U1 in M2.
    apply Hd. rewrite (down_shift a (S k) (z (S k)) (z (S (S k)))). fold dd.
    assert (D0 : dd = 0); [|rewrite D0; ring].
    transitivity (- (g (S k) / e (S k) * (- dd - dd) * (e (S k) / (g (S k) * (1 + 1))))).
    + field. repeat split; try (apply g_nz; lia); try (apply e_nz; lia); try exact two_nz.
    + rewrite <- M2. ring.
Qed.

Lemma above_ex : forall k, (k <= N)%nat ->
  exists a b, outgoing_above e g z k a b /\ up_at g b k (z k) <> 0.
Proof.
  induction k; intros Hk.
  - exists (fun _ => RtoC 0), (fun _ => RtoC 1). split; [split; [reflexivity|intros; lia]|].
    unfold up_at. rewrite Cmult_1_l. apply dec_nz0.
  - destruct (IHk ltac:(lia)) as [a [b [[HN HM] Hd]]].
    destruct (solve_up (e (S k)) (g (S k)) (e k) (g k) (down_at g a k (z (S k))) (up_at g b k (z (S k))))
      as [d [u [A B]]]; try (apply e_nz; lia); try (apply g_nz; lia).
    set (a' := upd a (S k) (d * dec g (S k) (0 - z (S k)))).
    set (b' := upd b (S k) (u * dec g (S k) (z (S k) - 0))).
    assert (O : outgoing_above e g z (S k) a' b').
    { split.
      - unfold a'. rewrite upd_ne by lia. exact HN.
      - intros j Hj. destruct (Nat.eq_dec j k) as [->|].
        + apply matched_iff. unfold down_at, up_at in *. unfold a', b'.
          rewrite !upd_eq, !upd_ne by lia. rewrite dec_inv, dec_inv2.
          split; symmetry; assumption.
        + apply (matched_ext a b); unfold a', b'; rewrite ?upd_ne by lia; try reflexivity. apply HM. lia. }
    exists a', b'. split; [exact O|]. intro Z0.
    pose proof (above_eq (S k) a' b' Hk O) as U. rewrite Z0, Cmult_0_r in U.
    pose proof (proj2 O k ltac:(lia)) as M. apply matched_iff in M. rewrite Z0, U in M.
    destruct M as [M1 M2].
    assert (Da : up_at g b' k (z (S k)) = up_at g b k (z (S k)))
      by (unfold up_at, b'; rewrite upd_ne by lia; reflexivity).
    rewrite Da in M1, M2. set (dd := up_at g b k (z (S k))) in *.
    set (uu := down_at g a' k (z (S k))) in *.
    assert (U1 : uu = - dd). { transitivity (uu + dd - dd); [ring|]. rewrite M1. ring. }
    rewrite U1 in M2.
    apply Hd. rewrite (up_shift b k (z k) (z (S k))). fold dd.
    assert (D0 : dd = 0); [|rewrite D0; ring].
    transitivity (g k / e k * (dd - - dd) * (e k / (g k * (1 + 1)))).
    + field. repeat split; try (apply g_nz; lia); try (apply e_nz; lia); try exact two_nz.
    + rewrite M2. ring.
Qed.

Theorem Rdn_meaning : forall k, (k <= N)%nat -> refl_below e g z N k (Rdn e g z N k).
Proof.
  intros k Hk. split.
  - intros a b H. apply (below_eq (N - k)); [lia|exact H].
  - apply (below_ex (N - k)). lia.
Qed.
Theorem Rup_meaning : forall k, (k <= N)%nat -> refl_above e g z k (Rup e g z k).
Proof.
  intros k Hk. split.
  - intros a b H. now apply above_eq.
  - now apply above_ex.
Qed.

(** Entries of the two arrays returned by [reflections]. *)
Definition refl_list_below (s r : nat) (L : list C) : Prop :=
  (s = N /\ (r < N)%nat -> exists L', L = cz 0 :: L' /\ length L' = (N - r)%nat /\
       forall i R, nth_error L' i = Some R -> refl_below e g z N (r + i) R) /\
  (~ (s = N /\ (r < N)%nat) -> length L = (Nat.max s r - Nat.min s r + 1)%nat /\
       forall i R, nth_error L i = Some R -> refl_below e g z N (Nat.min s r + i) R).
Definition refl_list_above (s r : nat) (L : list C) : Prop :=
  (s = 0%nat /\ (0 < r)%nat -> exists L', L = L' ++ [cz 0] /\ length L' = r /\
       forall i R, nth_error L' i = Some R -> refl_above e g z (1 + i) R) /\
  (~ (s = 0%nat /\ (0 < r)%nat) -> length L = (Nat.max s r - Nat.min s r + 1)%nat /\
       forall i R, nth_error L i = Some R -> refl_above e g z (Nat.min s r + i) R).

Lemma nth_map_seq : forall (f : nat -> C) a n i R, nth_error (map f (seq a n)) i = Some R ->
  (i < n)%nat /\ R = f (a + i)%nat.
Proof.
  intros f a n i R H.
  assert (i < n)%nat.
  { assert (nth_error (map f (seq a n)) i <> None) by congruence. apply nth_error_Some in H0.
    rewrite map_length, seq_length in H0. exact H0. }
  split; [assumption|].
  rewrite nth_error_map in H. rewrite (nth_error_nth' _ 0%nat) in H by (rewrite seq_length; lia).
  rewrite seq_nth in H by lia. cbn in H. congruence.
Qed.

Theorem reflections_meaning : forall s r, (s <= N)%nat -> (r <= N)%nat ->
  exists Rp Rm, reflections (depth_arr z N) (arr e N) (arr g N) (Z.of_nat r) (Z.of_nat s) = Ok (Rp, Rm) /\
    refl_list_below s r Rp /\ refl_list_above s r Rm.
Proof.
  intros s r Hs Hr.
  assert (D1 : forall lo k, (lo <= k < N)%nat -> den_rl e g k <> 0 /\ den_dn e g z N k <> 0).
  { intros; split; [apply (reg_rl _ _ _ _ REG)|apply (reg_dn _ _ _ _ REG)]; lia. }
  assert (D2 : forall hi k, (hi <= N)%nat -> (k < hi)%nat -> den_rl e g k <> 0 /\ den_up e g z k <> 0).
  { intros; split; [apply (reg_rl _ _ _ _ REG)|apply (reg_up _ _ _ _ REG)]; lia. }
  assert (P : exists Rp, reflections_dir true (depth_arr z N) (arr e N) (arr g N) (Z.of_nat r) (Z.of_nat s) = Ok Rp
     /\ refl_list_below s r Rp).
  { destruct (Nat.eq_dec s r) as [->|Hsr].
    - exists [Rdn e g z N r]. split; [apply reflections_plus_same; [lia|exact (D1 r)]|]. split; [intros [? ?]; exfalso; lia|].
      intros _. split; [rewrite Nat.max_id, Nat.min_id; cbn; lia|]. intros [|i] R Hi.
      + injection Hi as <-. rewrite Nat.min_id, Nat.add_0_r. now apply Rdn_meaning.
      + destruct i; discriminate.
    - destruct (Nat.eq_dec s N) as [->|HsN].
      + exists (cz 0 :: map (Rdn e g z N) (seq r (N - r))). split; [apply reflections_plus_odd; [lia|exact (D1 r)]|].
        split; [|intros HH; exfalso; apply HH; split; [reflexivity|lia]]. intros _. eexists. split; [reflexivity|].
        split; [rewrite map_length, seq_length; reflexivity|].
        intros i R Hi. apply nth_map_seq in Hi as [Hi ->]. apply Rdn_meaning. lia.
      + exists (map (Rdn e g z N) (seq (Nat.min s r) (Nat.max s r - Nat.min s r + 1))).
        split; [apply reflections_plus_diff; try lia; exact (D1 _)|]. split; [intros [? ?]; exfalso; lia|]. intros _.
        split; [rewrite map_length, seq_length; reflexivity|].
        intros i R Hi. apply nth_map_seq in Hi as [Hi ->]. apply Rdn_meaning. lia. }
  assert (Q : exists Rm, reflections_dir false (depth_arr z N) (arr e N) (arr g N) (Z.of_nat r) (Z.of_nat s) = Ok Rm
     /\ refl_list_above s r Rm).
  { destruct (Nat.eq_dec s r) as [->|Hsr].
    - exists [Rup e g z r]. split; [apply reflections_minus_same; [lia|]; intros; apply (D2 r); lia|].
      split; [intros [? ?]; exfalso; lia|].
      intros _. split; [rewrite Nat.max_id, Nat.min_id; cbn; lia|]. intros [|i] R Hi.
      + injection Hi as <-. rewrite Nat.min_id, Nat.add_0_r. now apply Rup_meaning.
      + destruct i; discriminate.
    - destruct (Nat.eq_dec s 0) as [->|HsN].
      + exists (map (Rup e g z) (seq 1 r) ++ [cz 0]).
        split; [apply reflections_minus_odd; [lia|]; intros; apply (D2 r); lia|].
        split; [|intros HH; exfalso; apply HH; split; [reflexivity|lia]]. intros _. eexists. split; [reflexivity|].
        split; [rewrite map_length, seq_length; reflexivity|].
        intros i R Hi. apply nth_map_seq in Hi as [Hi ->]. apply Rup_meaning. lia.
      + exists (map (Rup e g z) (seq (Nat.min s r) (Nat.max s r - Nat.min s r + 1))).
        split; [apply reflections_minus_diff; try lia; intros; apply (D2 (Nat.max s r)); lia|].
        split; [intros [? ?]; exfalso; lia|]. intros _.
        split; [rewrite map_length, seq_length; reflexivity|].
        intros i R Hi. apply nth_map_seq in Hi as [Hi ->]. apply Rup_meaning. lia. }
  destruct P as [Rp [EP HP]]. destruct Q as [Rm [EQ HQ]]. exists Rp, Rm.
  unfold reflections. rewrite EP. cbn [bind]. rewrite EQ. cbn [bind]. auto.
Qed.

End Refl.

(** Modulus bound in the real case. *)
Lemma pflow_mod : forall (y R : C), snd y = 0%R -> (0 < fst y)%R -> (0 < pflow y R)%R -> (Cmod R < 1)%R.
Proof.
  intros y R H1 H2 H. unfold pflow in H. rewrite H1 in H.
  unfold Cmod. rewrite <- sqrt_1. apply sqrt_lt_1_alt.
  destruct R as [a b]; cbn in *. split; nra.
Qed.
