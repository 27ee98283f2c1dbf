(** Cutting layer m in two at depth zi changes nothing. *)

From Coq Require Import Reals ZArith List Bool Lia Lra.
From Coquelicot Require Import Coquelicot.
From Verif Require Import PyBase CBase Kernel KernelSpec KernelClosed KernelPhys KernelSym.
Import ListNotations.
Local Open Scope R_scope.
Local Open Scope C_scope.

(** Layer k of the new stack is layer [old m k] of the original one. *)
Definition old (m k : nat) : nat := if (k <=? m)%nat then k else (k - 1)%nat.
Definition spl {A} (m : nat) (f : nat -> A) (k : nat) : A := f (old m k).
Definition splz (m : nat) (zi : R) (z : nat -> R) (k : nat) : R :=
  if (k <=? m)%nat then z k else if (k =? S m)%nat then zi else z (k - 1)%nat.

Lemma amp_dn_1 : forall e g z N pm s zs, amp_dn e g z N pm s (S s) zs = bsd e g z pm s zs / Ms e g z N s * tdn e g z N s.
Proof. intros. unfold amp_dn. rewrite Nat.sub_diag. cbn [prodC]. ring. Qed.
Lemma amp_up_1 : forall e g z N pm s zs, amp_up e g z N pm (S s) s zs
  = pm * bsu e g z N pm (S s) zs / Ms e g z N (S s) * tup e g z s.
Proof. intros. unfold amp_up. rewrite Nat.sub_diag. cbn [prodC]. replace (S s - 1)%nat with s by lia. ring. Qed.

Section Split.
Variables (e g : nat -> C) (z : nat -> R) (N m : nat) (zi : R).
Hypothesis Hm : (m <= N)%nat.
Notation e' := (spl m e).
Notation g' := (spl m g).
Notation z' := (splz m zi z).
Notation N' := (S N).
Hypothesis REG' : regular e' g' z' N'.

Lemma old_le : forall k, (k <= m)%nat -> old m k = k.
Proof. intros k H. unfold old. destruct (Nat.leb_spec k m); [reflexivity|lia]. Qed.
Lemma old_gt : forall k, (m < k)%nat -> old m k = (k - 1)%nat.
Proof. intros k H. unfold old. destruct (Nat.leb_spec k m); [lia|reflexivity]. Qed.
Lemma old_S : forall k, (m <= k)%nat -> old m (S k) = k.
Proof. intros. rewrite old_gt by lia. lia. Qed.

Lemma splz_le : forall k, (k <= m)%nat -> z' k = z k.
Proof. intros k H. unfold splz. destruct (Nat.leb_spec k m); [reflexivity|lia]. Qed.
Lemma splz_S : z' (S m) = zi.
Proof. unfold splz. destruct (Nat.leb_spec (S m) m); [lia|]. now rewrite Nat.eqb_refl. Qed.
Lemma splz_gt : forall k, (m < k)%nat -> z' (S k) = z k.
Proof.
  intros k H. unfold splz. destruct (Nat.leb_spec (S k) m); [lia|].
  destruct (Nat.eqb_spec (S k) (S m)); [lia|]. f_equal. lia.
Qed.

Lemma sp_dec_le : forall k d, (k <= m)%nat -> dec g' k d = dec g k d.
Proof. intros. unfold dec, spl. now rewrite old_le. Qed.
Lemma sp_dec_S : forall k d, (m <= k)%nat -> dec g' (S k) d = dec g k d.
Proof. intros. unfold dec, spl. now rewrite old_S. Qed.

Lemma sp_rl_lt : forall k, (k < m)%nat -> rl e' g' k = rl e g k.
Proof. intros. unfold rl, spl. now rewrite !old_le by lia. Qed.
Lemma sp_rl_m : rl e' g' m = 0.
Proof. unfold rl, spl. rewrite !(old_le m), !(old_S m) by lia. unfold Cdiv. ring. Qed.
Lemma sp_rl_gt : forall k, (m <= k)%nat -> rl e' g' (S k) = rl e g k.
Proof. intros. unfold rl, spl. now rewrite !old_S by lia. Qed.

Lemma sp_E1_lt : forall k, (k < m)%nat -> E1 g' z' k = E1 g z k.
Proof. intros. unfold E1, thick. rewrite sp_dec_le, !splz_le by lia. reflexivity. Qed.
Lemma sp_E1_gt : forall k, (m < k)%nat -> E1 g' z' (S k) = E1 g z k.
Proof. intros. unfold E1, thick. rewrite sp_dec_S, !splz_gt by lia. reflexivity. Qed.
Lemma sp_E1_m : E1 g' z' m = dec g m (zi - z m).
Proof. unfold E1, thick. rewrite sp_dec_le, splz_S, splz_le by lia. reflexivity. Qed.
Lemma sp_E1_Sm : E1 g' z' (S m) = dec g m (z (S m) - zi).
Proof. unfold E1, thick. rewrite sp_dec_S, splz_S, splz_gt by lia. reflexivity. Qed.
Lemma sp_E1_mm : E1 g' z' m * E1 g' z' (S m) = E1 g z m.
Proof.
  rewrite sp_E1_m, sp_E1_Sm, <- dec_plus. unfold E1. f_equal. unfold thick. ring.
Qed.
Lemma sp_E2_mm : E2 g' z' m * E2 g' z' (S m) = E2 g z m.
Proof. rewrite !E2_E1, <- sp_E1_mm. ring. Qed.

Lemma sp_Rdn_S : forall j, (m <= N - j)%nat -> (j <= N)%nat ->
  Rdn e' g' z' N' (S (N - j)) = Rdn e g z N (N - j).
Proof.
  induction j; intros Hj1 Hj2.
  - rewrite Nat.sub_0_r. now rewrite !Rdn_N.
  - rewrite (Rdn_step e' g'), (Rdn_step e g) by lia. unfold den_dn.
    replace (S (N - S j)) with (N - j)%nat by lia.
    specialize (IHj ltac:(lia) ltac:(lia)).
    rewrite IHj. rewrite !E2_E1, sp_E1_gt by lia.
    pose proof (sp_rl_gt (N - S j) ltac:(lia)) as H.
    replace (S (N - S j)) with (N - j)%nat in H by lia. now rewrite H.
Qed.
Lemma sp_Rdn_gt : forall k, (m <= k <= N)%nat -> Rdn e' g' z' N' (S k) = Rdn e g z N k.
Proof.
  intros k Hk. pose proof (sp_Rdn_S (N - k) ltac:(lia) ltac:(lia)) as H.
  now replace (N - (N - k))%nat with k in H by lia.
Qed.
Lemma sp_Rdn_m : Rdn e' g' z' N' m = Rdn e g z N m * E2 g' z' (S m).
Proof.
  rewrite Rdn_step by lia. unfold den_dn. rewrite sp_rl_m, sp_Rdn_gt by lia.
  set (T := Rdn e g z N m * E2 g' z' (S m)).
  replace (1 + 0 * T) with (RtoC 1) by ring. rewrite Cdiv_1_r. ring.
Qed.
Lemma sp_T : forall k, (k < m)%nat ->
  Rdn e' g' z' N' k = Rdn e g z N k.
Proof.
  intros k Hk. remember (m - k - 1)%nat as n eqn:En. revert k Hk En.
  induction n; intros k Hk En.
  - assert (Em : S k = m) by lia. rewrite (Rdn_step e' g'), (Rdn_step e g) by lia. unfold den_dn.
    rewrite sp_rl_lt, Em by lia. rewrite sp_Rdn_m.
    replace (Rdn e g z N m * E2 g' z' (S m) * E2 g' z' m) with (Rdn e g z N m * E2 g z m)
      by (rewrite <- sp_E2_mm; ring). reflexivity.
  - rewrite (Rdn_step e' g'), (Rdn_step e g) by lia. unfold den_dn.
    rewrite sp_rl_lt by lia. rewrite (IHn (S k)) by lia.
    rewrite !E2_E1, sp_E1_lt by lia. reflexivity.
Qed.

Lemma sp_Rup_le : forall k, (k <= m)%nat -> Rup e' g' z' k = Rup e g z k.
Proof.
  induction k; intros Hk; [reflexivity|]. rewrite (Rup_step e' g'), (Rup_step e g). unfold den_up.
  rewrite IHk, sp_rl_lt by lia. rewrite !E2_E1, sp_E1_lt by lia. reflexivity.
Qed.
Lemma sp_Rup_Sm : Rup e' g' z' (S m) = Rup e g z m * E2 g' z' m.
Proof.
  rewrite Rup_step. unfold den_up. rewrite sp_rl_m, sp_Rup_le by lia.
  set (T := Rup e g z m * E2 g' z' m).
  replace (1 + - 0 * T) with (RtoC 1) by ring. rewrite Cdiv_1_r. ring.
Qed.
Lemma sp_Rup_gt : forall k, (m < k)%nat -> Rup e' g' z' (S k) = Rup e g z k.
Proof.
  intros k Hk. remember (k - m - 1)%nat as n eqn:En. revert k Hk En.
  induction n; intros k Hk En.
  - assert (Em : k = S m) by lia. subst k. rewrite Rup_step, (Rup_step e g). unfold den_up.
    rewrite sp_rl_gt, sp_Rup_Sm by lia.
    replace (Rup e g z m * E2 g' z' m * E2 g' z' (S m)) with (Rup e g z m * E2 g z m)
      by (rewrite <- sp_E2_mm; ring). reflexivity.
  - destruct k; [lia|]. rewrite Rup_step, (Rup_step e g). unfold den_up.
    rewrite sp_rl_gt by lia. rewrite (IHn k) by lia.
    rewrite !E2_E1, sp_E1_gt by lia. reflexivity.
Qed.

Lemma sp_Ms_lt : forall k, (k < m)%nat -> Ms e' g' z' N' k = Ms e g z N k.
Proof.
  intros. unfold Ms. rewrite sp_Rup_le, sp_T by lia. rewrite !E2_E1, sp_E1_lt by lia. reflexivity.
Qed.
Lemma sp_Ms_gt : forall k, (m < k <= N)%nat -> Ms e' g' z' N' (S k) = Ms e g z N k.
Proof.
  intros. unfold Ms. rewrite sp_Rup_gt, sp_Rdn_gt by lia. rewrite !E2_E1, sp_E1_gt by lia. reflexivity.
Qed.
Lemma sp_Ms_m : Ms e' g' z' N' m = Ms e g z N m.
Proof. unfold Ms. rewrite sp_Rup_le, sp_Rdn_m, <- sp_E2_mm by lia. ring. Qed.
Lemma sp_Ms_Sm : Ms e' g' z' N' (S m) = Ms e g z N m.
Proof. unfold Ms. rewrite sp_Rup_Sm, sp_Rdn_gt, <- sp_E2_mm by lia. ring. Qed.

Lemma sp_tdn_lt : forall k, (k < m)%nat -> tdn e' g' z' N' k = tdn e g z N k.
Proof.
  intros k Hk. unfold tdn. rewrite sp_T by lia. f_equal. f_equal.
  destruct (Nat.eq_dec (S k) m) as [->|].
  - rewrite sp_Rdn_m, <- sp_E2_mm. ring.
  - rewrite sp_T by lia. rewrite !E2_E1, sp_E1_lt by lia. reflexivity.
Qed.
Lemma sp_tdn_gt : forall k, (m <= k < N)%nat -> tdn e' g' z' N' (S k) = tdn e g z N k.
Proof.
  intros k Hk. unfold tdn. rewrite !sp_Rdn_gt by lia. rewrite !E2_E1, sp_E1_gt by lia. reflexivity.
Qed.
Lemma sp_tdn_m : tdn e' g' z' N' m = 1.
Proof.
  unfold tdn. rewrite sp_Rdn_m, sp_Rdn_gt by lia.
  pose proof (regd _ _ _ _ REG' (S m) ltac:(lia)) as H. rewrite sp_Rdn_gt in H by lia.
  field. exact H.
Qed.
Lemma sp_tup_lt : forall k, (k < m)%nat -> tup e' g' z' k = tup e g z k.
Proof.
  intros k Hk. unfold tup. rewrite !sp_Rup_le by lia. rewrite !E2_E1, sp_E1_lt by lia. reflexivity.
Qed.
Lemma sp_tup_gt : forall k, (m <= k)%nat -> tup e' g' z' (S k) = tup e g z k.
Proof.
  intros k Hk. unfold tup. rewrite sp_Rup_gt by lia. f_equal. f_equal.
  destruct (Nat.eq_dec k m) as [->|].
  - rewrite sp_Rup_Sm, <- sp_E2_mm. ring.
  - rewrite sp_Rup_gt by lia. rewrite !E2_E1, sp_E1_gt by lia. reflexivity.
Qed.
Lemma sp_tup_m : tup e' g' z' m = 1.
Proof.
  unfold tup. rewrite sp_Rup_Sm, sp_Rup_le by lia.
  pose proof (regu _ _ _ _ REG' m ltac:(lia)) as H. rewrite sp_Rup_le in H by lia.
  field. exact H.
Qed.

(** Source terms. *)
Lemma sp_bsd_lt : forall pm s zs, (s < m)%nat -> bsd e' g' z' pm s zs = bsd e g z pm s zs.
Proof.
  intros. unfold bsd, thick. rewrite !sp_dec_le, sp_Rup_le, !splz_le by lia. reflexivity.
Qed.
Lemma sp_bsu_lt : forall pm s zs, (s < m)%nat -> bsu e' g' z' N' pm s zs = bsu e g z N pm s zs.
Proof.
  intros. unfold bsu, thick. rewrite !sp_dec_le, sp_T, !splz_le by lia. reflexivity.
Qed.
Lemma sp_bsd_gt : forall pm s zs, (m < s)%nat -> bsd e' g' z' pm (S s) zs = bsd e g z pm s zs.
Proof.
  intros. unfold bsd, thick. rewrite !sp_dec_S, sp_Rup_gt, !splz_gt by lia. reflexivity.
Qed.
Lemma sp_bsu_gt : forall pm s zs, (m < s <= N)%nat -> bsu e' g' z' N' pm (S s) zs = bsu e g z N pm s zs.
Proof.
  intros. unfold bsu, thick. rewrite !sp_dec_S, sp_Rdn_gt, !splz_gt by lia. reflexivity.
Qed.
Lemma sp_bsd_m : forall pm zs, bsd e' g' z' pm m zs * E1 g' z' (S m) = bsd e g z pm m zs.
Proof.
  intros. unfold bsd, thick. rewrite !sp_dec_le, sp_Rup_le, splz_S, !splz_le, sp_E1_Sm by lia.
  replace (z (S m) - zs)%R with ((zi - zs) + (z (S m) - zi))%R by ring.
  replace (z (S m) - z m + (zs - z m))%R with (zi - z m + (zs - z m) + (z (S m) - zi))%R by ring.
  rewrite !(dec_plus g m _ (z (S m) - zi)). ring.
Qed.
Lemma sp_bsu_m : forall pm zs, bsu e' g' z' N' pm m zs = bsu e g z N pm m zs.
Proof.
  intros. unfold bsu, thick. rewrite !sp_dec_le, sp_Rdn_m, splz_S, !splz_le by lia.
  rewrite E2_E1, sp_E1_Sm.
  replace (z (S m) - z m + (z (S m) - zs))%R
    with ((zi - z m + (zi - zs)) + ((z (S m) - zi) + (z (S m) - zi)))%R by ring.
  rewrite (dec_plus g m (zi - z m + (zi - zs))), (dec_plus g m (z (S m) - zi) (z (S m) - zi)). ring.
Qed.
Lemma sp_bsd_Sm : forall pm zs, bsd e' g' z' pm (S m) zs = bsd e g z pm m zs.
Proof.
  intros. unfold bsd, thick. rewrite !sp_dec_S, sp_Rup_Sm, splz_S, !splz_gt by lia.
  rewrite E2_E1, sp_E1_m.
  replace (z (S m) - z m + (zs - z m))%R
    with ((z (S m) - zi + (zs - zi)) + ((zi - z m) + (zi - z m)))%R by ring.
  rewrite (dec_plus g m (z (S m) - zi + (zs - zi))), (dec_plus g m (zi - z m) (zi - z m)). ring.
Qed.
Lemma sp_bsu_Sm : forall pm zs, bsu e' g' z' N' pm (S m) zs * E1 g' z' m = bsu e g z N pm m zs.
Proof.
  intros. unfold bsu, thick. rewrite !sp_dec_S, sp_Rdn_gt, splz_S, !splz_gt, sp_E1_m by lia.
  replace (zs - z m)%R with ((zs - zi) + (zi - z m))%R by ring.
  replace (z (S m) - z m + (z (S m) - zs))%R with (z (S m) - zi + (z (S m) - zs) + (zi - z m))%R by ring.
  rewrite !(dec_plus g m _ (zi - z m)). ring.
Qed.

(** Amplitudes, source above the receiver. *)
Notation A' := (amp_dn e' g' z' N').
Notation A := (amp_dn e g z N).

(* source above m *)
Lemma sp_A_lt_le : forall pm s r zs, (s < r <= m)%nat -> A' pm s r zs = A pm s r zs.
Proof.
  intros pm s r zs Hr. replace r with (S s + (r - S s))%nat by lia.
  assert (Hn : (S s + (r - S s) <= m)%nat) by lia. revert Hn. generalize (r - S s)%nat.
  induction n; intros Hn.
  - rewrite Nat.add_0_r. rewrite !amp_dn_1, sp_bsd_lt, sp_Ms_lt, sp_tdn_lt by lia. reflexivity.
  - replace (S s + S n)%nat with (S (S s + n)) by lia. rewrite !amp_dn_S by lia.
    rewrite IHn, sp_E1_lt, sp_tdn_lt by lia. reflexivity.
Qed.
Lemma sp_A_lt_Sm : forall pm s zs, (s < m)%nat -> A' pm s (S m) zs = A pm s m zs * E1 g' z' m.
Proof. intros. rewrite amp_dn_S by lia. rewrite sp_A_lt_le, sp_tdn_m by lia. ring. Qed.
Lemma sp_A_lt_gt : forall pm s r zs, (s < m)%nat -> (m < r <= N)%nat -> A' pm s (S r) zs = A pm s r zs.
Proof.
  intros pm s r zs Hs Hr. replace r with (S m + (r - S m))%nat by lia.
  assert (Hn : (S m + (r - S m) <= N)%nat) by lia. revert Hn. generalize (r - S m)%nat.
  induction n; intros Hn.
  - rewrite Nat.add_0_r. rewrite !(amp_dn_S _ _ _ _ pm s) by lia.
    rewrite sp_A_lt_le, sp_tdn_m, sp_tdn_gt, <- sp_E1_mm by lia. ring.
  - replace (S m + S n)%nat with (S (S m + n)) by lia.
    rewrite (amp_dn_S e' g' z' N' pm s (S (S m + n))), (amp_dn_S e g z N pm s (S m + n)) by lia.
    rewrite IHn, sp_E1_gt, sp_tdn_gt by lia. reflexivity.
Qed.
(* source in the upper half *)
Lemma sp_A_m_Sm : forall pm zs, A' pm m (S m) zs = bsd e' g' z' pm m zs / Ms e g z N m.
Proof. intros. rewrite amp_dn_1, sp_tdn_m, sp_Ms_m. ring. Qed.
Lemma sp_A_m_gt : forall pm r zs, (m < r <= N)%nat -> A' pm m (S r) zs = A pm m r zs.
Proof.
  intros pm r zs Hr. replace r with (S m + (r - S m))%nat by lia.
  assert (Hn : (S m + (r - S m) <= N)%nat) by lia. revert Hn. generalize (r - S m)%nat.
  induction n; intros Hn.
  - rewrite Nat.add_0_r. rewrite (amp_dn_S _ _ _ _ pm m) by lia.
    rewrite sp_A_m_Sm, amp_dn_1, sp_tdn_gt, <- sp_bsd_m by lia. unfold Cdiv. ring.
  - replace (S m + S n)%nat with (S (S m + n)) by lia.
    rewrite (amp_dn_S e' g' z' N' pm m (S (S m + n))), (amp_dn_S e g z N pm m (S m + n)) by lia.
    rewrite IHn, sp_E1_gt, sp_tdn_gt by lia. reflexivity.
Qed.
(* source in the lower half or below *)
Lemma sp_A_ge : forall pm s r zs, (m <= s)%nat -> (s < r <= N)%nat -> A' pm (S s) (S r) zs = A pm s r zs.
Proof.
  intros pm s r zs Hs Hr. replace r with (S s + (r - S s))%nat by lia.
  assert (Hn : (S s + (r - S s) <= N)%nat) by lia. revert Hn. generalize (r - S s)%nat.
  induction n; intros Hn.
  - rewrite Nat.add_0_r. rewrite !amp_dn_1. destruct (Nat.eq_dec s m) as [->|].
    + rewrite sp_bsd_Sm, sp_Ms_Sm, sp_tdn_gt by lia. reflexivity.
    + rewrite sp_bsd_gt, sp_Ms_gt, sp_tdn_gt by lia. reflexivity.
  - replace (S s + S n)%nat with (S (S s + n)) by lia.
    rewrite (amp_dn_S e' g' z' N' pm (S s) (S (S s + n))), (amp_dn_S e g z N pm s (S s + n)) by lia.
    rewrite IHn, sp_E1_gt, sp_tdn_gt by lia. reflexivity.
Qed.

(** Amplitudes, source below the receiver. *)
Notation B' := (amp_up e' g' z' N').
Notation B := (amp_up e g z N).

(* source below m *)
Lemma sp_B_gt_gt : forall n pm s zs, (m < s - n)%nat -> (0 < n)%nat -> (s <= N)%nat ->
  B' pm (S s) (S (s - n)) zs = B pm s (s - n) zs.
Proof.
  induction n; intros pm s zs H1 H2 H3; [lia|].
  destruct n.
  - destruct s; [lia|]. replace (S s - 1)%nat with s by lia. rewrite !amp_up_1.
    rewrite sp_bsu_gt, sp_Ms_gt, sp_tup_gt by lia. reflexivity.
  - specialize (IHn pm s zs ltac:(lia) ltac:(lia) ltac:(lia)).
    rewrite (amp_up_S e' g' z' N' pm (S s)), (amp_up_S e g z N pm s (s - S (S n))) by lia.
    replace (S (s - S (S n))) with (s - S n)%nat by lia. rewrite IHn.
    pose proof (sp_tup_gt (s - S (S n)) ltac:(lia)) as HT.
    replace (S (s - S (S n))) with (s - S n)%nat in HT by lia. rewrite HT.
    rewrite sp_E1_gt by lia. reflexivity.
Qed.
Lemma sp_B_gt : forall pm s r zs, (m < r < s)%nat -> (s <= N)%nat ->
  B' pm (S s) (S r) zs = B pm s r zs.
Proof.
  intros pm s r zs H1 H2. pose proof (sp_B_gt_gt (s - r) pm s zs ltac:(lia) ltac:(lia) H2) as H.
  now replace (s - (s - r))%nat with r in H by lia.
Qed.
Lemma sp_B_gt_Sm : forall pm s zs, (m < s <= N)%nat -> B' pm (S s) (S m) zs = B pm s m zs.
Proof.
  intros pm s zs H. destruct (Nat.eq_dec s (S m)) as [->|].
  - rewrite !amp_up_1, sp_bsu_gt, sp_Ms_gt, sp_tup_gt by lia. reflexivity.
  - rewrite (amp_up_S e' g' z' N' pm (S s) (S m)), (amp_up_S e g z N pm s m) by lia.
    rewrite sp_B_gt, sp_tup_gt, sp_E1_gt by lia. reflexivity.
Qed.
Lemma sp_B_gt_m : forall pm s zs, (m < s <= N)%nat ->
  B' pm (S s) m zs = B pm s m zs * E1 g' z' (S m).
Proof.
  intros pm s zs H. rewrite (amp_up_S _ _ _ _ pm (S s) m) by lia.
  rewrite sp_B_gt_Sm, sp_tup_m by lia. ring.
Qed.
Lemma sp_B_gt_lt : forall n pm s zs, (m < s <= N)%nat -> (n < m)%nat ->
  B' pm (S s) (m - 1 - n) zs = B pm s (m - 1 - n) zs.
Proof.
  induction n; intros pm s zs H1 H2.
  - rewrite Nat.sub_0_r. rewrite (amp_up_S e' g' z' N' pm (S s) (m - 1)), (amp_up_S e g z N pm s (m - 1)) by lia.
    replace (S (m - 1)) with m by lia. rewrite sp_B_gt_m, sp_tup_lt, <- sp_E1_mm by lia. ring.
  - rewrite (amp_up_S e' g' z' N' pm (S s) (m - 1 - S n)), (amp_up_S e g z N pm s (m - 1 - S n)) by lia.
    replace (S (m - 1 - S n)) with (m - 1 - n)%nat by lia.
    rewrite IHn, sp_tup_lt, sp_E1_lt by lia. reflexivity.
Qed.
(* source in the lower half *)
Lemma sp_B_Sm_m : forall pm zs, B' pm (S m) m zs = pm * bsu e' g' z' N' pm (S m) zs / Ms e g z N m.
Proof. intros. rewrite amp_up_1, sp_tup_m, sp_Ms_Sm. ring. Qed.
Lemma sp_B_Sm_lt : forall n pm zs, (n < m)%nat -> B' pm (S m) (m - 1 - n) zs = B pm m (m - 1 - n) zs.
Proof.
  induction n; intros pm zs H2.
  - rewrite Nat.sub_0_r. rewrite (amp_up_S _ _ _ _ pm (S m) (m - 1)) by lia.
    assert (HB : B pm m (m - 1) zs = pm * bsu e g z N pm m zs / Ms e g z N m * tup e g z (m - 1)).
    { destruct m as [|m']; [lia|]. replace (S m' - 1)%nat with m' by lia. apply amp_up_1. }
    rewrite HB. replace (S (m - 1)) with m by lia.
    rewrite sp_B_Sm_m, sp_tup_lt, <- sp_bsu_Sm by lia. unfold Cdiv. ring.
  - rewrite (amp_up_S e' g' z' N' pm (S m) (m - 1 - S n)), (amp_up_S e g z N pm m (m - 1 - S n)) by lia.
    replace (S (m - 1 - S n)) with (m - 1 - n)%nat by lia.
    rewrite IHn, sp_tup_lt, sp_E1_lt by lia. reflexivity.
Qed.
(* source in the upper half or above *)
Lemma sp_B_le : forall n pm s zs, (s <= m)%nat -> (n < s)%nat ->
  B' pm s (s - 1 - n) zs = B pm s (s - 1 - n) zs.
Proof.
  induction n; intros pm s zs H1 H2.
  - rewrite Nat.sub_0_r. destruct s; [lia|]. replace (S s - 1)%nat with s by lia.
    rewrite !amp_up_1. destruct (Nat.eq_dec (S s) m) as [Em|].
    + rewrite sp_tup_lt by lia. rewrite Em, sp_bsu_m, sp_Ms_m. reflexivity.
    + rewrite sp_bsu_lt, sp_Ms_lt, sp_tup_lt by lia. reflexivity.
  - rewrite (amp_up_S e' g' z' N' pm s (s - 1 - S n)), (amp_up_S e g z N pm s (s - 1 - S n)) by lia.
    replace (S (s - 1 - S n)) with (s - 1 - n)%nat by lia.
    rewrite IHn, sp_tup_lt, sp_E1_lt by lia. reflexivity.
Qed.

(** Receiver terms: waves in the halves of layer m. *)
Lemma sp_rcv_m_dn : forall zr sg,
  sg * dec g m (zr - z m) + Rdn e' g' z' N' m * E1 g' z' m * dec g m (zi - zr)
  = sg * dec g m (zr - z m) + Rdn e g z N m * E1 g z m * dec g m (z (S m) - zr).
Proof.
  intros. rewrite sp_Rdn_m, E2_E1, <- sp_E1_mm, sp_E1_m, sp_E1_Sm.
  replace (z (S m) - zr)%R with ((z (S m) - zi) + (zi - zr))%R by ring. rewrite !dec_plus. ring.
Qed.
Lemma sp_rcv_Sm_dn : forall zr sg,
  E1 g' z' m * (sg * dec g m (zr - zi) + Rdn e g z N m * E1 g' z' (S m) * dec g m (z (S m) - zr))
  = sg * dec g m (zr - z m) + Rdn e g z N m * E1 g z m * dec g m (z (S m) - zr).
Proof.
  intros. rewrite <- sp_E1_mm, sp_E1_m.
  replace (zr - z m)%R with ((zi - z m) + (zr - zi))%R by ring. rewrite (dec_plus g m _ (zr - zi)). ring.
Qed.
Lemma sp_rcv_Sm_up : forall zr sg,
  dec g m (z (S m) - zr) + sg * Rup e' g' z' (S m) * E1 g' z' (S m) * dec g m (zr - zi)
  = dec g m (z (S m) - zr) + sg * Rup e g z m * E1 g z m * dec g m (zr - z m).
Proof.
  intros. rewrite sp_Rup_Sm, E2_E1, <- sp_E1_mm, sp_E1_m, sp_E1_Sm.
  replace (zr - z m)%R with ((zi - z m) + (zr - zi))%R by ring. rewrite !dec_plus. ring.
Qed.
Lemma sp_rcv_m_up : forall zr sg,
  E1 g' z' (S m) * (dec g m (zi - zr) + sg * Rup e g z m * E1 g' z' m * dec g m (zr - z m))
  = dec g m (z (S m) - zr) + sg * Rup e g z m * E1 g z m * dec g m (zr - z m).
Proof.
  intros. rewrite <- sp_E1_mm, sp_E1_Sm.
  replace (z (S m) - zr)%R with ((z (S m) - zi) + (zi - zr))%R by ring. rewrite (dec_plus g m _ (zi - zr)). ring.
Qed.

(** New layer number of a point in old layer k: unchanged above m, one more
    below m; in layer m both halves are allowed. *)
Definition newlay (k k' : nat) : Prop :=
  ((k < m)%nat /\ k' = k) \/ ((m < k)%nat /\ k' = S k) \/ (k = m /\ (k' = m \/ k' = S m)).

Lemma G_dn_split : forall pm sg s r s' r' zs zr, newlay s s' -> newlay r r' ->
  (s < r)%nat -> (r <= N)%nat ->
  G_dn e' g' z' N' pm sg s' r' zs zr = G_dn e g z N pm sg s r zs zr.
Proof.
  intros pm sg s r s' r' zs zr Hs Hr Hsr HN. unfold G_dn.
  assert (HR : forall s0, r = m -> (s0 = s -> s < m)%nat -> s' = s ->
     A' pm s r' zs * (sg * dec g' r' (zr - z' r') + Rdn e' g' z' N' r' * E1 g' z' r' * dec g' r' (z' (S r') - zr))
     = A pm s r zs * (sg * dec g r (zr - z r) + Rdn e g z N r * E1 g z r * dec g r (z (S r) - zr))).
  { intros _ Er _ _. subst r. destruct Hr as [[Hr _]|[[Hr _]|[_ [->| ->]]]]; try lia.
    - rewrite sp_A_lt_le by lia. rewrite !sp_dec_le, splz_S, splz_le by lia. f_equal.
      apply sp_rcv_m_dn.
    - rewrite sp_A_lt_Sm by lia. rewrite !sp_dec_S, splz_S, splz_gt, sp_Rdn_gt by lia.
      rewrite <- sp_rcv_Sm_dn. ring. }
  destruct (Nat.eq_dec r m) as [Er|Er].
  { destruct Hs as [[Hs ->]|[[Hs _]|[Hs _]]]; try lia. apply (HR s); auto; lia. }
  destruct (Nat.lt_ge_cases r m) as [Hrm|Hrm].
  - assert (r' = r) by (destruct Hr as [[_ ->]|[[Hr _]|[Hr _]]]; lia). subst r'.
    assert (s' = s) by (destruct Hs as [[_ ->]|[[Hs _]|[Hs _]]]; lia). subst s'.
    rewrite sp_A_lt_le, !sp_dec_le, !splz_le, sp_T, sp_E1_lt by lia. reflexivity.
  - assert (r' = S r) by (destruct Hr as [[Hr _]|[[_ ->]|[Hr _]]]; lia). subst r'.
    assert (HA : A' pm s' (S r) zs = A pm s r zs).
    { destruct Hs as [[Hs ->]|[[Hs ->]|[-> [->| ->]]]].
      - apply sp_A_lt_gt; lia.
      - apply sp_A_ge; lia.
      - apply sp_A_m_gt; lia.
      - apply sp_A_ge; lia. }
    rewrite HA, !sp_dec_S, !splz_gt, sp_Rdn_gt, sp_E1_gt by lia. reflexivity.
Qed.

Lemma G_up_split : forall pm sg s r s' r' zs zr, newlay s s' -> newlay r r' ->
  (r < s)%nat -> (s <= N)%nat ->
  G_up e' g' z' N' pm sg s' r' zs zr = G_up e g z N pm sg s r zs zr.
Proof.
  intros pm sg s r s' r' zs zr Hs Hr Hsr HN. unfold G_up.
  destruct (Nat.eq_dec r m) as [Er|Er].
  { subst r. assert (s' = S s) by (destruct Hs as [[Hs _]|[[_ ->]|[Hs _]]]; lia). subst s'.
    destruct Hr as [[Hr _]|[[Hr _]|[_ [->| ->]]]]; try lia.
    - rewrite sp_B_gt_m by lia. rewrite !sp_dec_le, splz_S, splz_le, sp_Rup_le by lia.
      rewrite <- sp_rcv_m_up. ring.
    - rewrite sp_B_gt_Sm by lia. rewrite !sp_dec_S, splz_S, splz_gt by lia. f_equal.
      apply sp_rcv_Sm_up. }
  destruct (Nat.lt_ge_cases r m) as [Hrm|Hrm].
  - assert (r' = r) by (destruct Hr as [[_ ->]|[[Hr _]|[Hr _]]]; lia). subst r'.
    assert (HB : B' pm s' r zs = B pm s r zs).
    { destruct Hs as [[Hs ->]|[[Hs ->]|[-> [->| ->]]]].
      - pose proof (sp_B_le (s - 1 - r) pm s zs ltac:(lia) ltac:(lia)) as H.
        now replace (s - 1 - (s - 1 - r))%nat with r in H by lia.
      - pose proof (sp_B_gt_lt (m - 1 - r) pm s zs ltac:(lia) ltac:(lia)) as H.
        now replace (m - 1 - (m - 1 - r))%nat with r in H by lia.
      - pose proof (sp_B_le (m - 1 - r) pm m zs ltac:(lia) ltac:(lia)) as H.
        now replace (m - 1 - (m - 1 - r))%nat with r in H by lia.
      - pose proof (sp_B_Sm_lt (m - 1 - r) pm zs ltac:(lia)) as H.
        now replace (m - 1 - (m - 1 - r))%nat with r in H by lia. }
    rewrite HB, !sp_dec_le, !splz_le, sp_Rup_le, sp_E1_lt by lia. reflexivity.
  - assert (r' = S r) by (destruct Hr as [[Hr _]|[[_ ->]|[Hr _]]]; lia). subst r'.
    assert (s' = S s) by (destruct Hs as [[Hs _]|[[_ ->]|[Hs _]]]; lia). subst s'.
    rewrite sp_B_gt, !sp_dec_S, !splz_gt, sp_Rup_gt, sp_E1_gt by lia. reflexivity.
Qed.

Lemma G_same_split : forall pm sg s s' zs zr, newlay s s' -> (s <= N)%nat ->
  G_same e' g' z' N' pm sg s' zs zr = G_same e g z N pm sg s zs zr.
Proof.
  intros pm sg s s' zs zr Hs HN. unfold G_same.
  destruct Hs as [[Hs ->]|[[Hs ->]|[-> [->| ->]]]].
  - rewrite sp_T, sp_bsd_lt, sp_bsu_lt, sp_Ms_lt, sp_Rup_le, !sp_dec_le, !splz_le by lia. reflexivity.
  - rewrite sp_Rdn_gt, sp_bsd_gt, sp_bsu_gt, sp_Ms_gt, sp_Rup_gt, !sp_dec_S, !splz_gt by lia. reflexivity.
  - rewrite sp_Rdn_m, sp_bsu_m, sp_Ms_m, sp_Rup_le, !sp_dec_le, splz_S, splz_le by lia.
    rewrite <- (sp_bsd_m pm zs). rewrite E2_E1, sp_E1_Sm.
    replace (z (S m) - zr)%R with ((z (S m) - zi) + (zi - zr))%R by ring. rewrite dec_plus.
    unfold Cdiv. ring.
  - rewrite sp_Rdn_gt, sp_bsd_Sm, sp_Ms_Sm, sp_Rup_Sm, !sp_dec_S, splz_S, splz_gt by lia.
    rewrite <- (sp_bsu_Sm pm zs). rewrite E2_E1, sp_E1_m.
    replace (zr - z m)%R with ((zi - z m) + (zr - zi))%R by ring. rewrite dec_plus.
    unfold Cdiv. ring.
Qed.

Hypothesis REG : regular e g z N.

(** Source and receiver in the two halves of layer m. *)
Lemma G_cross_dn : forall pm sg zs zr, pm1 pm -> pm1 sg -> (zs < zr)%R ->
  G_dn e' g' z' N' pm sg m (S m) zs zr = G_mode e g z N pm sg m m zs zr false.
Proof.
  intros pm sg zs zr Hp Hg Hz. unfold G_mode. rewrite Nat.eqb_refl.
  unfold G_dn. rewrite sp_A_m_Sm, !sp_dec_S, splz_S, splz_gt, sp_Rdn_gt by lia.
  unfold G_same, G_dir. rewrite dsgn_pos by lra. rewrite Rabs_left by lra.
  replace (- (zs - zr))%R with (zr - zs)%R by ring.
  rewrite <- !(sp_bsd_m pm zs). rewrite sp_E1_Sm.
  unfold bsd, bsu, thick. rewrite !sp_dec_le, sp_Rup_le, splz_S, !splz_le by lia.
  pose proof (regM _ _ _ _ REG m Hm) as HM. pose proof (pm1_sq _ Hp) as HP.
  (* basic decays: zs - z m, zi - zs, zr - zi, z (S m) - zr *)
  set (a := dec g m (zs - z m)). set (b := dec g m (zi - zs)).
  set (c := dec g m (zr - zi)). set (d := dec g m (z (S m) - zr)).
  assert (F1 : dec g m (zi - z m + (zs - z m)) = a * b * a).
  { unfold a, b. rewrite <- !dec_plus. f_equal. ring. }
  assert (F2 : dec g m (z (S m) - zi) = c * d).
  { unfold c, d. rewrite <- !dec_plus. f_equal. ring. }
  assert (F3 : dec g m (z (S m) - z m + (z (S m) - zs)) = a * (b * c * d) * (b * c * d)).
  { unfold a, b, c, d. rewrite <- !dec_plus. f_equal. ring. }
  assert (F4 : dec g m (zr - z m) = a * b * c).
  { unfold a, b, c. rewrite <- !dec_plus. f_equal. ring. }
  assert (F5 : dec g m (zr - zs) = b * c).
  { unfold b, c. rewrite <- !dec_plus. f_equal. ring. }
  assert (F6 : E2 g z m = (a*b*c*d) * (a*b*c*d)).
  { rewrite E2_E1. unfold E1. unfold a, b, c, d. rewrite <- !dec_plus. f_equal; f_equal; unfold thick; ring. }
  rewrite F1, F2, F3, F4, F5. 
  assert (HMe : Ms e g z N m = 1 - Rup e g z m * Rdn e g z N m * ((a*b*c*d) * (a*b*c*d))).
  { unfold Ms. now rewrite F6. }
  set (U := Rup e g z m) in *. set (D := Rdn e g z N m) in *. set (M := Ms e g z N m) in *.
  transitivity ((D * ((b + pm * U * (a * b * a)) * (c * d)) * d
     + (pm * U * a * (a*b*c) + (pm * pm) * (U * D * (a * (b*c*d) * (b*c*d)) * (a*b*c))) * sg
     + (1 - U * D * ((a*b*c*d) * (a*b*c*d))) * (b * c * sg)) / M).
  - rewrite HP. unfold Cdiv. ring.
  - rewrite <- HMe. field. exact HM.
Qed.

Lemma G_cross_up : forall pm sg zs zr, pm1 pm -> pm1 sg -> (zr < zs)%R ->
  G_up e' g' z' N' pm sg (S m) m zs zr = G_mode e g z N pm sg m m zs zr false.
Proof.
  intros pm sg zs zr Hp Hg Hz. unfold G_mode. rewrite Nat.eqb_refl.
  unfold G_up. rewrite sp_B_Sm_m, !sp_dec_le, splz_S, splz_le, sp_Rup_le by lia.
  unfold G_same, G_dir. rewrite dsgn_neg by (try assumption; lra). rewrite Rabs_right by lra.
  rewrite <- !(sp_bsu_Sm pm zs). rewrite sp_E1_m.
  unfold bsd, bsu, thick. rewrite !sp_dec_S, sp_Rdn_gt, splz_S, !splz_gt by lia.
  pose proof (regM _ _ _ _ REG m Hm) as HM. pose proof (pm1_sq _ Hp) as HP.
  (* basic decays: zr - z m, zi - zr, zs - zi, z (S m) - zs *)
  set (a := dec g m (zr - z m)). set (b := dec g m (zi - zr)).
  set (c := dec g m (zs - zi)). set (d := dec g m (z (S m) - zs)).
  assert (F1 : dec g m (z (S m) - zi + (z (S m) - zs)) = c * d * d).
  { unfold c, d. rewrite <- !dec_plus. f_equal. ring. }
  assert (F2 : dec g m (zi - z m) = a * b).
  { unfold a, b. rewrite <- !dec_plus. f_equal. ring. }
  assert (F3 : dec g m (z (S m) - z m + (zs - z m)) = d * (a * b * c) * (a * b * c)).
  { unfold a, b, c, d. rewrite <- !dec_plus. f_equal. ring. }
  assert (F4 : dec g m (z (S m) - zr) = b * c * d).
  { unfold b, c, d. rewrite <- !dec_plus. f_equal. ring. }
  assert (F5 : dec g m (zs - zr) = b * c).
  { unfold b, c. rewrite <- !dec_plus. f_equal. ring. }
  assert (F6 : E2 g z m = (a*b*c*d) * (a*b*c*d)).
  { rewrite E2_E1. unfold E1. unfold a, b, c, d. rewrite <- !dec_plus. f_equal; f_equal; unfold thick; ring. }
  rewrite F1, F2, F3, F4, F5.
  assert (HMe : Ms e g z N m = 1 - Rup e g z m * Rdn e g z N m * ((a*b*c*d) * (a*b*c*d))).
  { unfold Ms. now rewrite F6. }
  set (U := Rup e g z m) in *. set (D := Rdn e g z N m) in *. set (M := Ms e g z N m) in *.
  transitivity ((D * (pm * pm) * d * (b * c * d) + D * pm * U * (d * (a*b*c) * (a*b*c)) * (b*c*d)
     + pm * sg * (U * ((c + pm * D * (c*d*d)) * (a*b)) * a)
     + (1 - U * D * ((a*b*c*d) * (a*b*c*d))) * (b * c * pm)) / M).
  - unfold Cdiv. ring.
  - rewrite HP, <- HMe. field. exact HM.
Qed.

(** An interface inside a homogeneous layer is invisible. *)
Theorem G_mode_split : forall pm sg s r s' r' zs zr, pm1 pm -> pm1 sg ->
  (s <= N)%nat -> (r <= N)%nat -> newlay s s' -> newlay r r' ->
  (s = m -> r = m -> s' = m -> r' = S m -> zs < zr)%R ->
  (s = m -> r = m -> s' = S m -> r' = m -> zr < zs)%R ->
  G_mode e' g' z' N' pm sg s' r' zs zr false = G_mode e g z N pm sg s r zs zr false.
Proof.
  intros pm sg s r s' r' zs zr Hp Hg Hs Hr Ns Nr H1 H2.
  destruct (lt_eq_lt_dec s r) as [[L|L]|L].
  - assert (s' < r')%nat by (unfold newlay in *; lia).
    unfold G_mode. destruct (Nat.eqb_spec s' r'); [lia|]. destruct (Nat.ltb_spec r' s'); [lia|].
    destruct (Nat.eqb_spec s r); [lia|]. destruct (Nat.ltb_spec r s); [lia|].
    apply G_dn_split; assumption.
  - subst r. destruct (Nat.eq_dec s' r') as [->|Hne].
    + unfold G_mode. rewrite !Nat.eqb_refl. rewrite (G_same_split pm sg s r') by assumption.
      f_equal. unfold G_dir, dec, spl. f_equal.
      assert (Ho : old m r' = s).
      { unfold newlay in Ns. destruct (Nat.le_gt_cases r' m);
          [rewrite old_le by assumption|rewrite old_gt by assumption]; lia. }
      now rewrite Ho.
    + assert (s = m) by (unfold newlay in *; lia). subst s.
      assert (D : (s' = m /\ r' = S m) \/ (s' = S m /\ r' = m)) by (unfold newlay in *; lia).
      destruct D as [[-> ->]|[-> ->]].
      * rewrite <- G_cross_dn by auto. unfold G_mode at 1.
        destruct (Nat.eqb_spec m (S m)); [lia|]. destruct (Nat.ltb_spec (S m) m); [lia|]. reflexivity.
      * rewrite <- G_cross_up by auto. unfold G_mode at 1.
        destruct (Nat.eqb_spec (S m) m); [lia|]. destruct (Nat.ltb_spec m (S m)); [|lia]. reflexivity.
  - assert (r' < s')%nat by (unfold newlay in *; lia).
    unfold G_mode. destruct (Nat.eqb_spec s' r'); [lia|]. destruct (Nat.ltb_spec r' s'); [|lia].
    destruct (Nat.eqb_spec s r); [lia|]. destruct (Nat.ltb_spec r s); [|lia].
    apply G_up_split; assumption.
Qed.
End Split.
