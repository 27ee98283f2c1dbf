(** A layer of zero thickness has no effect. *)

From Coq Require Import Reals ZArith List Bool Lia Lra.
From Coquelicot Require Import Coquelicot.
From Verif Require Import PyBase CBase Kernel KernelSpec KernelClosed KernelPhys KernelSym KernelSplit KernelMain KernelBVP KernelThm KernelThm2.
Import ListNotations.
Local Open Scope R_scope.
Local Open Scope C_scope.

(** A layer with the value v is inserted as layer m, between the layers m - 1 and m; both its interfaces are at the depth z m. *)
Definition ins {A} (m : nat) (v : A) (f : nat -> A) (k : nat) : A := if (k <? m)%nat then f k else if (k =? m)%nat then v else f (k - 1)%nat.
Definition insz (m : nat) (z : nat -> R) (k : nat) : R := if (k <=? m)%nat then z k else z (k - 1)%nat.
Definition skp (m k : nat) : nat := if (k <? m)%nat then k else S k.

Section Thin.
Variables (e g : nat -> C) (z : nat -> R) (N m : nat) (ei gi : C).
Hypothesis Hm : (1 <= m <= N)%nat.
Notation e' := (ins m ei e).
Notation g' := (ins m gi g).
Notation z' := (insz m z).
Notation N' := (S N).
Hypothesis REG : regular e g z N.
Hypothesis REG' : regular e' g' z' N'.

Lemma ins_lt : forall A (v : A) f k, (k < m)%nat -> ins m v f k = f k.
Proof. intros A v f k H. unfold ins. destruct (Nat.ltb_spec k m); [reflexivity|lia]. Qed.
Lemma ins_eq : forall A (v : A) f, ins m v f m = v.
Proof. intros. unfold ins. destruct (Nat.ltb_spec m m); [lia|]. now rewrite Nat.eqb_refl. Qed.
Lemma ins_S : forall A (v : A) f k, (m <= k)%nat -> ins m v f (S k) = f k.
Proof. intros A v f k H. unfold ins. destruct (Nat.ltb_spec (S k) m); [lia|]. destruct (Nat.eqb_spec (S k) m); [lia|]. f_equal. lia. Qed.
Lemma insz_le : forall k, (k <= m)%nat -> z' k = z k.
Proof. intros k H. unfold insz. destruct (Nat.leb_spec k m); [reflexivity|lia]. Qed.
Lemma insz_S : forall k, (m <= k)%nat -> z' (S k) = z k.
Proof. intros k H. unfold insz. destruct (Nat.leb_spec (S k) m); [lia|]. f_equal. lia. Qed.

Lemma ins_skp : forall A (v : A) f k, ins m v f (skp m k) = f k.
Proof. intros. unfold skp. destruct (Nat.ltb_spec k m); [now apply ins_lt|now apply ins_S]. Qed.
Lemma z_skp : forall k, z' (skp m k) = z k.
Proof. intros k. unfold skp. destruct (Nat.ltb_spec k m); [apply insz_le|apply insz_S]; lia. Qed.
Lemma z_skpS : forall k, z' (S (skp m k)) = z (S k).
Proof. intros k. unfold skp. destruct (Nat.ltb_spec k m); [apply insz_le|apply insz_S]; lia. Qed.
Lemma th_thick : forall k, thick z' (skp m k) = thick z k.
Proof. intros. unfold thick. now rewrite z_skp, z_skpS. Qed.
Lemma th_thick0 : thick z' m = 0%R.
Proof. unfold thick. rewrite insz_S, insz_le by lia. ring. Qed.
Lemma th_dec : forall k d, dec g' (skp m k) d = dec g k d.
Proof. intros. unfold dec. now rewrite ins_skp. Qed.
Lemma th_E1 : forall k, E1 g' z' (skp m k) = E1 g z k.
Proof. intros. unfold E1. now rewrite th_thick, th_dec. Qed.
Lemma th_E2 : forall k, E2 g' z' (skp m k) = E2 g z k.
Proof. intros. unfold E2. now rewrite th_thick, ins_skp. Qed.
Lemma Cexp_00 : Cexp 0 = 1.
Proof. apply injective_projections; cbn; rewrite exp_0, ?cos_0, ?sin_0; ring. Qed.
Lemma th_E10 : E1 g' z' m = 1.
Proof using Hm. unfold E1, dec. rewrite th_thick0. replace (- (g' m * RtoC 0)) with (RtoC 0) by ring. apply Cexp_00. Qed.
Lemma th_E20 : E2 g' z' m = 1.
Proof using Hm. unfold E2. rewrite th_thick0. replace (- (2 * g' m * RtoC 0)) with (RtoC 0) by ring. apply Cexp_00. Qed.

Lemma skp_lt : forall k, (k < m)%nat -> skp m k = k.
Proof. intros k H. unfold skp. destruct (Nat.ltb_spec k m); [reflexivity|lia]. Qed.
Lemma skp_ge : forall k, (m <= k)%nat -> skp m k = S k.
Proof. intros k H. unfold skp. destruct (Nat.ltb_spec k m); [lia|reflexivity]. Qed.

Lemma th_E2_lt : forall k, (k < m)%nat -> E2 g' z' k = E2 g z k.
Proof. intros k H. rewrite <- (skp_lt k H) at 1. apply th_E2. Qed.
Lemma th_E1_lt : forall k, (k < m)%nat -> E1 g' z' k = E1 g z k.
Proof. intros k H. rewrite <- (skp_lt k H) at 1. apply th_E1. Qed.
Lemma th_rl_lt : forall k, (S k < m)%nat -> rl e' g' k = rl e g k.
Proof. intros k H. unfold rl. now rewrite !ins_lt by lia. Qed.
Lemma th_rl_ge : forall k, (m <= k)%nat -> rl e' g' (S k) = rl e g k.
Proof. intros k H. unfold rl. now rewrite !ins_S by lia. Qed.

(** Two interfaces at the same depth reflect like one *)
Lemma rl_two : rl e' g' (m - 1) + rl e' g' m = rl e g (m - 1) * (1 + rl e' g' (m - 1) * rl e' g' m).
Proof using Hm REG REG'.
  pose proof (reg_rl _ _ _ _ REG (m - 1)%nat ltac:(lia)) as D. pose proof (reg_rl _ _ _ _ REG' (m - 1)%nat ltac:(lia)) as D1. pose proof (reg_rl _ _ _ _ REG' m ltac:(lia)) as D2.
  unfold den_rl, rl in *. replace (S (m - 1)) with m in * by lia. rewrite ?ins_eq, ?(ins_S _ _ _ m), ?(ins_lt _ _ _ (m - 1)%nat) in * by lia.
  field. repeat split; assumption.
Qed.
Lemma compose : forall r r1 r2 U : C, r1 + r2 = r * (1 + r1 * r2) -> 1 + r2 * U <> 0 -> 1 + r1 * ((r2 + U) / (1 + r2 * U)) <> 0 -> 1 + r * U <> 0 ->
  (r1 + (r2 + U) / (1 + r2 * U)) / (1 + r1 * ((r2 + U) / (1 + r2 * U))) = (r + U) / (1 + r * U).
Proof.
  intros r r1 r2 U H A B D.
  assert (B' : 1 + r2 * U + r1 * (r2 + U) <> 0). { intros W. apply B. transitivity ((1 + r2 * U + r1 * (r2 + U)) / (1 + r2 * U)); [field; exact A|rewrite W; unfold Cdiv; ring]. }
  transitivity (((r1 + r2) + (1 + r1 * r2) * U) / (1 + r2 * U + r1 * (r2 + U))); [field; split; [exact B'|exact A]|].
  assert (E : 1 + r2 * U + r1 * (r2 + U) = (1 + r1 * r2) * (1 + r * U)). { transitivity ((1 + r1 * r2) + (r1 + r2) * U); [ring|]. rewrite H. ring. }
  rewrite E in B' |- *. rewrite H.
  assert (K : 1 + r1 * r2 <> 0). { intros W. apply B'. rewrite W. ring. }
  field. split; assumption.
Qed.

Lemma Rdn_rec : forall e g z M k, (k < M)%nat -> Rdn e g z M k = (rl e g k + Rdn e g z M (S k) * E2 g z (S k)) / (1 + rl e g k * (Rdn e g z M (S k) * E2 g z (S k))).
Proof. intros e0 g0 z0 M k H. unfold Rdn. replace (M - k)%nat with (S (M - S k)) by lia. reflexivity. Qed.
Lemma Rup_rec : forall e g z k, Rup e g z (S k) = (- rl e g k + Rup e g z k * E2 g z k) / (1 + - rl e g k * (Rup e g z k * E2 g z k)).
Proof. reflexivity. Qed.

Lemma th_Rd_ge : forall j k, (m <= k)%nat -> (j + k = N)%nat -> Rdn e' g' z' N' (S k) = Rdn e g z N k.
Proof using Hm.
  induction j; intros k Hk Hj.
  - replace k with N by lia. rewrite !Rdn_N. reflexivity.
  - rewrite (Rdn_rec e' g' z'), (Rdn_rec e g z) by lia. rewrite (IHj (S k)), th_rl_ge by lia. rewrite <- (skp_ge (S k)), th_E2 by lia. reflexivity.
Qed.
Lemma th_Rd_m : Rdn e' g' z' N' (m - 1) = Rdn e g z N (m - 1).
Proof using Hm REG REG'.
  pose proof (reg_dn _ _ _ _ REG (m - 1)%nat ltac:(lia)) as D. pose proof (reg_dn _ _ _ _ REG' (m - 1)%nat ltac:(lia)) as D1. pose proof (reg_dn _ _ _ _ REG' m ltac:(lia)) as D2. pose proof rl_two as RT.
  unfold den_dn in *. rewrite (Rdn_rec e' g' z') by lia. rewrite (Rdn_rec e g z) by lia. replace (S (m - 1)) with m in * by lia.
  rewrite th_E20, Cmult_1_r in *. rewrite (Rdn_rec e' g' z' N' m) in * by lia.
  rewrite (th_Rd_ge (N - m) m) in * by lia. rewrite <- (skp_ge m), (th_E2 m) in * by lia.
  apply compose; assumption.
Qed.
Lemma th_Rd_lt : forall j, (j < m)%nat -> Rdn e' g' z' N' (m - 1 - j) = Rdn e g z N (m - 1 - j).
Proof using Hm REG REG'.
  induction j; intros Hj; [rewrite Nat.sub_0_r; apply th_Rd_m|].
  rewrite (Rdn_rec e' g' z'), (Rdn_rec e g z) by lia. replace (S (m - 1 - S j)) with (m - 1 - j)%nat by lia. rewrite IHj, th_rl_lt, th_E2_lt by lia. reflexivity.
Qed.
Lemma th_Rd : forall k, (k <= N)%nat -> Rdn e' g' z' N' (skp m k) = Rdn e g z N k.
Proof using Hm REG REG'.
  intros k H. unfold skp. destruct (Nat.ltb_spec k m); [|apply (th_Rd_ge (N - k)); lia].
  pose proof (th_Rd_lt (m - 1 - k) ltac:(lia)) as E. now replace (m - 1 - (m - 1 - k))%nat with k in E by lia.
Qed.
Lemma th_Ru_lt : forall k, (k < m)%nat -> Rup e' g' z' k = Rup e g z k.
Proof using Hm.
  induction k; intros H; [reflexivity|]. rewrite !Rup_rec, IHk, th_rl_lt, th_E2_lt by lia. reflexivity.
Qed.
Lemma th_Ru_m : Rup e' g' z' (S m) = Rup e g z m.
Proof using Hm REG REG'.
  pose proof (reg_up _ _ _ _ REG (m - 1)%nat ltac:(lia)) as D. pose proof (reg_up _ _ _ _ REG' (m - 1)%nat ltac:(lia)) as D1. pose proof (reg_up _ _ _ _ REG' m ltac:(lia)) as D2. pose proof rl_two as RT.
  unfold den_up in *. rewrite (Rup_rec e' g' z'). rewrite th_E20, Cmult_1_r in *.
  assert (M1 : m = S (m - 1)) by lia. assert (R1 : Rup e g z m = (- rl e g (m - 1) + Rup e g z (m - 1) * E2 g z (m - 1)) / (1 + - rl e g (m - 1) * (Rup e g z (m - 1) * E2 g z (m - 1)))) by (rewrite M1 at 1; apply Rup_rec).
  assert (R2 : Rup e' g' z' m = (- rl e' g' (m - 1) + Rup e' g' z' (m - 1) * E2 g' z' (m - 1)) / (1 + - rl e' g' (m - 1) * (Rup e' g' z' (m - 1) * E2 g' z' (m - 1)))) by (rewrite M1 at 4; rewrite Rup_rec; reflexivity).
  rewrite R1. rewrite R2 in *. rewrite (th_Ru_lt (m - 1)) in * by lia. assert (E : E2 g' z' (m - 1) = E2 g z (m - 1)) by (apply th_E2_lt; lia). rewrite E in *.
  apply compose; [|assumption..]. transitivity (- (rl e' g' (m - 1) + rl e' g' m)); [ring|]. rewrite RT. ring.
Qed.
Lemma th_Ru_ge : forall j, Rup e' g' z' (S (m + j)) = Rup e g z (m + j).
Proof using Hm REG REG'.
  induction j; [rewrite Nat.add_0_r; apply th_Ru_m|]. rewrite Nat.add_succ_r. rewrite (Rup_rec e' g' z'), (Rup_rec e g z), IHj, th_rl_ge by lia. rewrite <- (skp_ge (m + j)), th_E2 by lia. reflexivity.
Qed.
Lemma th_Ru : forall k, Rup e' g' z' (skp m k) = Rup e g z k.
Proof using Hm REG REG'. intros k. unfold skp. destruct (Nat.ltb_spec k m); [now apply th_Ru_lt|]. pose proof (th_Ru_ge (k - m)) as E. now replace (m + (k - m))%nat with k in E by lia. Qed.
Lemma th_Ms : forall s, (s <= N)%nat -> Ms e' g' z' N' (skp m s) = Ms e g z N s.
Proof using Hm REG REG'. intros s H. unfold Ms. now rewrite th_Ru, th_Rd, th_E2. Qed.
Lemma th_bsd : forall pm s zs, bsd e' g' z' pm (skp m s) zs = bsd e g z pm s zs.
Proof using Hm REG REG'. intros. unfold bsd. now rewrite th_Ru, !th_dec, th_thick, z_skp, z_skpS. Qed.
Lemma th_bsu : forall pm s zs, (s <= N)%nat -> bsu e' g' z' N' pm (skp m s) zs = bsu e g z N pm s zs.
Proof using Hm REG REG'. intros pm s zs H. unfold bsu. now rewrite th_Rd, !th_dec, th_thick, z_skp, z_skpS. Qed.

(** ** Products of transmission factors *)
Lemma th_tdn : forall k, (k < N)%nat -> S k <> m -> tdn e' g' z' N' (skp m k) = tdn e g z N k.
Proof using Hm REG REG'.
  intros k H Hk. unfold tdn. rewrite th_Rd by lia. assert (E : S (skp m k) = skp m (S k)) by (unfold skp; destruct (Nat.ltb_spec k m), (Nat.ltb_spec (S k) m); lia).
  rewrite E, th_Rd, th_E2 by lia. reflexivity.
Qed.
Lemma th_tdn_m : tdn e' g' z' N' (m - 1) * tdn e' g' z' N' m = tdn e g z N (m - 1).
Proof using Hm REG REG'.
  unfold tdn. replace (S (m - 1)) with m by lia. rewrite th_E20, th_Rd_m. rewrite <- (skp_ge m) by lia. rewrite th_Rd, th_E2 by lia.
  pose proof (reg_d _ _ _ _ REG' m ltac:(lia)) as D. rewrite th_E20, Cmult_1_r in *. pose proof (regd _ _ _ _ REG m ltac:(lia)) as D'. field. split; assumption.
Qed.
Lemma th_tup : forall k, (S k < m \/ m <= k)%nat -> tup e' g' z' (skp m k) = tup e g z k.
Proof using Hm REG REG'.
  intros k Hk. unfold tup. rewrite th_Ru. assert (E : S (skp m k) = skp m (S k)) by (unfold skp; destruct (Nat.ltb_spec k m), (Nat.ltb_spec (S k) m); lia).
  now rewrite E, th_Ru, th_E2.
Qed.
Lemma th_tup_m : tup e' g' z' (m - 1) * tup e' g' z' m = tup e g z (m - 1).
Proof using Hm REG REG'.
  unfold tup. replace (S (m - 1)) with m by lia. rewrite th_E20. rewrite <- (skp_ge m) by lia. rewrite th_Ru.
  assert (E : Rup e' g' z' (m - 1) = Rup e g z (m - 1)) by (apply th_Ru_lt; lia). rewrite E. assert (F : E2 g' z' (m - 1) = E2 g z (m - 1)) by (apply th_E2_lt; lia). rewrite F.
  pose proof (reg_u _ _ _ _ REG' m ltac:(lia)) as D. rewrite th_E20, Cmult_1_r in *. pose proof (regu _ _ _ _ REG (m - 1)%nat ltac:(lia)) as D'. field. split; assumption.
Qed.

Lemma prod_shift : forall (f : nat -> C) n a, prodC f (S a) n = prodC (fun k => f (S k)) a n.
Proof. intros f n. induction n; intros a; cbn [prodC]; [reflexivity|]. now rewrite IHn. Qed.
Lemma prod_cat : forall (f : nat -> C) n1 n2 a, prodC f a (n1 + n2) = prodC f a n1 * prodC f (a + n1) n2.
Proof. intros f n1. induction n1; intros n2 a; [cbn [prodC]; rewrite Nat.add_0_r, Cmult_1_l; reflexivity|]. change (S n1 + n2)%nat with (S (n1 + n2)). cbn [prodC]. rewrite IHn1. replace (a + S n1)%nat with (S a + n1)%nat by lia. apply Cmult_assoc. Qed.

Lemma th_Fdn_ge : forall k, (m <= k < N)%nat -> E1 g' z' (S k) * tdn e' g' z' N' (S k) = E1 g z k * tdn e g z N k.
Proof using Hm REG REG'. intros k H. rewrite <- (skp_ge k) by lia. rewrite th_E1, th_tdn by lia. reflexivity. Qed.
Lemma th_tdn_lt : forall k, (S k < m)%nat -> tdn e' g' z' N' k = tdn e g z N k.
Proof using Hm REG REG'. intros k H. pose proof (th_tdn k ltac:(lia) ltac:(lia)) as E. now rewrite skp_lt in E by lia. Qed.
Lemma th_Fdn_lt : forall k, (S k < m)%nat -> E1 g' z' k * tdn e' g' z' N' k = E1 g z k * tdn e g z N k.
Proof using Hm REG REG'. intros k H. now rewrite th_E1_lt, th_tdn_lt by lia. Qed.
Lemma th_amp_dn : forall pm s r zs, (s < r <= N)%nat -> amp_dn e' g' z' N' pm (skp m s) (skp m r) zs = amp_dn e g z N pm s r zs.
Proof using Hm REG REG'.
  intros pm s r zs H. unfold amp_dn. rewrite th_bsd, th_Ms by lia. rewrite <- !Cmult_assoc. apply f_equal.
  destruct (Nat.lt_ge_cases r m) as [Hr|Hr].
  - rewrite !skp_lt by lia. f_equal.
    + apply th_tdn_lt; lia.
    + apply prodC_ext. intros k Hk. apply th_Fdn_lt. lia.
  - rewrite (skp_ge r) by lia. destruct (Nat.lt_ge_cases s m) as [Hs|Hs].
    + rewrite (skp_lt s) by lia. destruct (Nat.eq_dec (S s) m) as [E|E].
      * replace (S r - S s)%nat with (1 + (r - m))%nat by lia. rewrite prod_cat. rewrite E. cbn [prodC]. rewrite th_E10. replace (m + 1)%nat with (S m) by lia. rewrite prod_shift.
        rewrite (prodC_ext _ (fun k => E1 g z k * tdn e g z N k)) by (intros k Hk; apply th_Fdn_ge; lia). replace s with (m - 1)%nat by lia.
        rewrite <- th_tdn_m. ring.
      * replace (S r - S s)%nat with ((m - 1 - S s) + (2 + (r - m)))%nat by lia. replace (r - S s)%nat with ((m - 1 - S s) + (1 + (r - m)))%nat by lia.
        rewrite !prod_cat. replace (S s + (m - 1 - S s))%nat with (m - 1)%nat by lia. replace (m - 1 + 2)%nat with (S m) by lia. replace (m - 1 + 1)%nat with m by lia. cbn [prodC]. replace (S (m - 1)) with m by lia.
        rewrite (prod_shift _ _ m), th_E10. rewrite (prodC_ext (fun k => E1 g' z' (S k) * tdn e' g' z' N' (S k)) (fun k => E1 g z k * tdn e g z N k)) by (intros k Hk; apply th_Fdn_ge; lia).
        rewrite (prodC_ext (fun k => E1 g' z' k * tdn e' g' z' N' k) (fun k => E1 g z k * tdn e g z N k)) by (intros k Hk; apply th_Fdn_lt; lia).
        rewrite <- th_tdn_m. rewrite th_E1_lt by lia. assert (T : tdn e' g' z' N' s = tdn e g z N s) by (apply th_tdn_lt; lia). rewrite T. ring.
    + rewrite (skp_ge s) by lia. f_equal.
      * rewrite <- (skp_ge s) by lia. apply th_tdn; lia.
      * replace (S r - S (S s))%nat with (r - S s)%nat by lia. rewrite prod_shift. apply prodC_ext. intros k Hk. apply th_Fdn_ge. lia.
Qed.
Lemma th_tup_lt : forall k, (S k < m)%nat -> tup e' g' z' k = tup e g z k.
Proof using Hm REG REG'. intros k H. pose proof (th_tup k ltac:(lia)) as E. now rewrite skp_lt in E by lia. Qed.
Lemma th_tup_ge : forall k, (m < k)%nat -> tup e' g' z' k = tup e g z (k - 1).
Proof using Hm REG REG'. intros k H. pose proof (th_tup (k - 1) ltac:(lia)) as E. rewrite skp_ge in E by lia. now replace (S (k - 1)) with k in E by lia. Qed.
Lemma th_Fup_ge : forall k, (m < k)%nat -> E1 g' z' (S k) * tup e' g' z' (S k - 1) = E1 g z k * tup e g z (k - 1).
Proof using Hm REG REG'. intros k H. replace (S k - 1)%nat with k by lia. rewrite th_tup_ge by lia. rewrite <- (skp_ge k) by lia. now rewrite th_E1. Qed.
Lemma th_Fup_lt : forall k, (0 < k < m)%nat -> E1 g' z' k * tup e' g' z' (k - 1) = E1 g z k * tup e g z (k - 1).
Proof using Hm REG REG'. intros k H. now rewrite th_E1_lt, th_tup_lt by lia. Qed.
Lemma th_amp_up : forall pm s r zs, (r < s <= N)%nat -> amp_up e' g' z' N' pm (skp m s) (skp m r) zs = amp_up e g z N pm s r zs.
Proof using Hm REG REG'.
  intros pm s r zs H. unfold amp_up. rewrite th_bsu, th_Ms by lia. rewrite <- !Cmult_assoc. apply f_equal.
  destruct (Nat.lt_ge_cases s m) as [Hs|Hs].
  - rewrite !skp_lt by lia. rewrite th_tup_lt by lia. f_equal. apply prodC_ext. intros k Hk. apply th_Fup_lt. lia.
  - rewrite (skp_ge s) by lia. replace (S s - 1)%nat with s by lia. destruct (Nat.lt_ge_cases r m) as [Hr|Hr].
    + rewrite (skp_lt r) by lia. destruct (Nat.eq_dec s m) as [E|E].
      * subst s. replace (S m - S r)%nat with ((m - S r) + 1)%nat by lia. rewrite prod_cat. replace (S r + (m - S r))%nat with m by lia. cbn [prodC]. rewrite th_E10.
        rewrite (prodC_ext _ (fun k => E1 g z k * tup e g z (k - 1))) by (intros k Hk; apply th_Fup_lt; lia). rewrite <- th_tup_m. ring.
      * replace (S s - S r)%nat with ((m - S r) + (2 + (s - S m)))%nat by lia. replace (s - S r)%nat with ((m - S r) + (1 + (s - S m)))%nat by lia.
        rewrite !prod_cat. replace (S r + (m - S r))%nat with m by lia. replace (m + 2)%nat with (S (S m)) by lia. replace (m + 1)%nat with (S m) by lia. cbn [prodC]. replace (S m - 1)%nat with m by lia.
        rewrite (prod_shift _ _ (S m)), th_E10. rewrite (prodC_ext (fun k => E1 g' z' (S k) * tup e' g' z' (S k - 1)) (fun k => E1 g z k * tup e g z (k - 1))) by (intros k Hk; apply th_Fup_ge; lia).
        rewrite (prodC_ext (fun k => E1 g' z' k * tup e' g' z' (k - 1)) (fun k => E1 g z k * tup e g z (k - 1))) by (intros k Hk; apply th_Fup_lt; lia).
        rewrite <- th_tup_m. rewrite (th_tup_ge s) by lia. assert (T : E1 g' z' (S m) = E1 g z m) by (rewrite <- (skp_ge m) by lia; apply th_E1). rewrite T. ring.
    + rewrite (skp_ge r) by lia. rewrite th_tup_ge by lia. f_equal. replace (S s - S (S r))%nat with (s - S r)%nat by lia. rewrite prod_shift. apply prodC_ext. intros k Hk. apply th_Fup_ge. lia.
Qed.
Lemma skp_inj : forall s r, (skp m s =? skp m r)%nat = (s =? r)%nat /\ (skp m r <? skp m s)%nat = (r <? s)%nat.
Proof. intros s r. unfold skp. destruct (Nat.ltb_spec s m), (Nat.ltb_spec r m); split; repeat (match goal with |- context [(?a =? ?b)%nat] => destruct (Nat.eqb_spec a b) | |- context [(?a <? ?b)%nat] => destruct (Nat.ltb_spec a b) end); try reflexivity; lia. Qed.
Theorem G_mode_thin : forall pm sg s r zs zr xd, (s <= N)%nat -> (r <= N)%nat ->
  G_mode e' g' z' N' pm sg (skp m s) (skp m r) zs zr xd = G_mode e g z N pm sg s r zs zr xd.
Proof using Hm REG REG'.
  intros pm sg s r zs zr xd Hs Hr. unfold G_mode. destruct (skp_inj s r) as [-> ->]. destruct (Nat.eqb_spec s r).
  - f_equal.
    + unfold G_same. now rewrite th_Rd, th_Ru, th_bsd, th_bsu, th_Ms, !th_dec, z_skp, z_skpS.
    + destruct xd; [reflexivity|]. unfold G_dir. now rewrite th_dec.
  - destruct (Nat.ltb_spec r s).
    + unfold G_up. now rewrite th_amp_up, th_Ru, th_E1, !th_dec, z_skp, z_skpS by lia.
    + unfold G_dn. now rewrite th_amp_dn, th_Rd, th_E1, !th_dec, z_skp, z_skpS by lia.
Qed.
End Thin.

(** ** The kernel *)
Lemma gam_ins : forall h v q (m : nat) (hi vi qi : C) lam k, gam (ins m hi h) (ins m vi v) (ins m qi q) lam k = ins m (Csqrt (hi / vi * RtoC (lam * lam) + qi * hi)) (gam h v q lam) k.
Proof. intros. unfold gam, ins. destruct (k <? m)%nat; [reflexivity|]. destruct (k =? m)%nat; reflexivity. Qed.
Lemma insk : forall A (v : A) f m k, ins m v f (skp m k) = f k.
Proof. intros A v f m k. unfold ins, skp. destruct (Nat.ltb_spec k m). - destruct (Nat.ltb_spec k m); [reflexivity|lia]. - destruct (Nat.ltb_spec (S k) m); [lia|]. destruct (Nat.eqb_spec (S k) m); [lia|]. f_equal. lia. Qed.
Lemma skl : forall m k, (k < m)%nat -> skp m k = k.
Proof. intros m k H. unfold skp. destruct (Nat.ltb_spec k m); lia. Qed.
Lemma skg : forall m k, (m <= k)%nat -> skp m k = S k.
Proof. intros m k H. unfold skp. destruct (Nat.ltb_spec k m); lia. Qed.
Lemma izl : forall z m k, (k <= m)%nat -> insz m z k = z k.
Proof. intros z m k H. unfold insz. destruct (Nat.leb_spec k m); [reflexivity|lia]. Qed.
Lemma izS : forall z m k, (m <= k)%nat -> insz m z (S k) = z k.
Proof. intros z m k H. unfold insz. destruct (Nat.leb_spec (S k) m); [lia|]. f_equal. lia. Qed.
Lemma wsrc_ins : forall e g (m : nat) (ei gi : C) pm k, wsrc (ins m ei e) (ins m gi g) pm (skp m k) = wsrc e g pm k.
Proof. intros. unfold wsrc. now rewrite !insk. Qed.
Lemma wgt_ins : forall e g (m : nat) (ei gi : C) sg k, wgt (ins m ei e) (ins m gi g) sg (skp m k) = wgt e g sg k.
Proof. intros. unfold wgt. now rewrite !insk. Qed.

Section Call.
Variables (eH eV zH zV : nat -> C) (z : nat -> R) (N m : nat) (eh ev zh zv : C) (lam : R).
Hypothesis Hm : (1 <= m <= N)%nat.
Lemma gam_fun : forall h v q (hi vi qi : C), gam (ins m hi h) (ins m vi v) (ins m qi q) lam = ins m (Csqrt (hi / vi * RtoC (lam * lam) + qi * hi)) (gam h v q lam).
Proof. intros. apply FunctionalExtensionality.functional_extensionality. intros k. apply gam_ins. Qed.
Lemma PTM_thin : forall h v q (hi vi qi : C), regular h (gam h v q lam) z N -> regular (ins m hi h) (gam (ins m hi h) (ins m vi v) (ins m qi q) lam) (insz m z) (S N) ->
  forall ab xd s r zs zr, (s <= N)%nat -> (r <= N)%nat ->
  PTM (ins m hi h) (ins m vi v) (ins m qi q) (insz m z) (S N) lam ab xd (skp m s) (skp m r) zs zr = PTM h v q z N lam ab xd s r zs zr.
Proof using Hm.
  intros h v q hi vi qi R R' ab xd s r zs zr Hs Hr. unfold PTM, fTM. rewrite gam_fun in *. rewrite wsrc_ins, wgt_ins, !insk. now rewrite G_mode_thin.
Qed.
Lemma PTE_thin : forall h v q (hi vi qi : C), regular h (gam h v q lam) z N -> regular (ins m hi h) (gam (ins m hi h) (ins m vi v) (ins m qi q) lam) (insz m z) (S N) ->
  forall ab xd s r zs zr, (s <= N)%nat -> (r <= N)%nat ->
  PTE (ins m hi h) (ins m vi v) (ins m qi q) (insz m z) (S N) lam ab xd (skp m s) (skp m r) zs zr = PTE h v q z N lam ab xd s r zs zr.
Proof using Hm.
  intros h v q hi vi qi R R' ab xd s r zs zr Hs Hr. unfold PTE, fTE. rewrite gam_fun in *. rewrite wsrc_ins, !insk. now rewrite G_mode_thin.
Qed.
End Call.

Lemma lay_same : forall (z z' : nat -> R) n x, (forall k, (1 <= k <= n)%nat -> z' k = z k) -> lay z' n x = lay z n x.
Proof. intros z z' n x. induction n; intros H; [reflexivity|]. cbn [lay]. rewrite H by lia. now rewrite IHn by (intros; apply H; lia). Qed.
Lemma lay_thin : forall z N m x, (1 <= m <= N)%nat -> lay (insz m z) (S N) x = skp m (lay z N x).
Proof.
  intros z N m x Hm. assert (H : forall j, lay (insz m z) (S (m + j)) x = skp m (lay z (m + j) x)).
  { induction j.
    - rewrite Nat.add_0_r. cbn [lay]. destruct m as [|m']; [lia|]. rewrite izS by lia. cbn [lay]. rewrite (izl z (S m') (S m')) by lia.
      destruct (Rlt_dec (z (S m')) x); [now rewrite skg by lia|]. rewrite (lay_same z) by (intros; apply izl; lia). pose proof (lay_le z m' x). now rewrite skl by lia.
    - rewrite Nat.add_succ_r. remember (S (m + j)) as n. cbn [lay]. subst n. rewrite izS by lia. rewrite IHj. cbn [lay]. destruct (Rlt_dec _ _); [now rewrite skg by lia|reflexivity]. }
  specialize (H (N - m)%nat). now replace (m + (N - m))%nat with N in H by lia.
Qed.

Lemma passive_thin : forall eH eV zH zV z N m (eh ev zh zv : C), passive_medium eH eV zH zV z N -> (1 <= m <= N)%nat ->
  (0 < fst eh)%R -> (0 < fst ev)%R -> (0 <= fst zh)%R -> (0 <= fst zv)%R -> zh <> 0 -> zv <> 0 ->
  passive_medium (ins m eh eH) (ins m ev eV) (ins m zh zH) (ins m zv zV) (insz m z) (S N).
Proof.
  intros eH eV zH zV z N m eh ev zh zv PM Hm H1 H2 H3 H4 H5 H6. destruct PM.
  assert (I : forall (P : C -> Prop) v f, P v -> (forall k, (k <= N)%nat -> P (f k)) -> forall k, (k <= S N)%nat -> P (ins m v f k)).
  { intros P v f Hv Hf k Hk. unfold ins. destruct (Nat.ltb_spec k m); [apply Hf; lia|]. destruct (Nat.eqb_spec k m); [exact Hv|apply Hf; lia]. }
  constructor.
  - apply (I (fun c => (0 < fst c)%R)); assumption.
  - apply (I (fun c => (0 < fst c)%R)); assumption.
  - apply (I (fun c => (0 <= fst c)%R)); assumption.
  - apply (I (fun c => (0 <= fst c)%R)); assumption.
  - apply (I (fun c => c <> 0)); assumption.
  - apply (I (fun c => c <> 0)); assumption.
  - intros k Hk. unfold insz. destruct (Nat.leb_spec k m), (Nat.leb_spec (S k) m); try lia.
    + apply pme_z. lia.
    + assert (k = m) by lia. subst k. replace (S m - 1)%nat with m by lia. lra.
    + replace (S k - 1)%nat with (S (k - 1)) by lia. apply pme_z. lia.
Qed.

Theorem thin_invariant : forall eH eV zH zV z N m (eh ev zh zv : C) lam ab xd msrc mrec zs zr, passive_medium eH eV zH zV z N -> (1 <= m <= N)%nat ->
  (0 < fst eh)%R -> (0 < fst ev)%R -> (0 <= fst zh)%R -> (0 <= fst zv)%R -> zh <> 0 -> zv <> 0 -> valid_call ab msrc mrec ->
  gcall (ins m eh eH) (ins m ev eV) (ins m zh zH) (ins m zv zV) (insz m z) (S N) lam ab xd msrc mrec (lay (insz m z) (S N) zs) (lay (insz m z) (S N) zr) zs zr
  = gcall eH eV zH zV z N lam ab xd msrc mrec (lay z N zs) (lay z N zr) zs zr.
Proof.
  intros eH eV zH zV z N m eh ev zh zv lam ab xd msrc mrec zs zr PM Hm H1 H2 H3 H4 H5 H6 HV.
  pose proof (passive_model_ok _ _ _ _ _ _ lam PM) as OK. pose proof (passive_model_ok _ _ _ _ _ _ lam (passive_thin _ _ _ _ _ _ _ _ _ _ _ PM Hm H1 H2 H3 H4 H5 H6)) as OK'.
  rewrite !gcall_resp by (auto using lay_le). apply f_equal. rewrite !lay_thin by exact Hm. pose proof (lay_le z N zs) as L1. pose proof (lay_le z N zr) as L2.
  unfold resp. destruct mrec; [destruct msrc|].
  - rewrite PTM_thin, PTE_thin; first [reflexivity|assumption|apply OK|apply OK'].
  - rewrite PTM_thin, PTE_thin; first [reflexivity|assumption|apply OK|apply OK'].
  - rewrite PTM_thin, PTE_thin; first [reflexivity|assumption|apply OK|apply OK'].
Qed.
