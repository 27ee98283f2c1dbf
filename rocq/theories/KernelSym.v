(** Symmetries of the closed form: translation, mirror image, uniform stacks,
    artificial interfaces. *)

From Coq Require Import Reals ZArith List Bool Lia Lra.
From Coquelicot Require Import Coquelicot.
From Verif Require Import PyBase CBase Kernel KernelSpec KernelClosed KernelPhys.
Import ListNotations.
Local Open Scope R_scope.
Local Open Scope C_scope.

(** ** Extensionality *)

(** Reversal of a product, stated with an explicit index map. *)
Lemma prodC_cons_snoc : forall f n a, prodC f a (S n) = f a * prodC f (S a) n.
Proof. reflexivity. Qed.

Lemma prodC_rev : forall n f h a b,
  (forall i, (i < n)%nat -> f (a + i)%nat = h (b + (n - 1 - i))%nat) ->
  prodC f a n = prodC h b n.
Proof.
  induction n; intros f h a b H; [reflexivity|].
  rewrite prodC_snoc, prodC_cons_snoc.
  rewrite (IHn f h a (S b)).
  - rewrite Cmult_comm. f_equal. rewrite H by lia. f_equal. lia.
  - intros i Hi. rewrite H by lia. f_equal. lia.
Qed.

Lemma prodC_shift : forall n f h a b,
  (forall i, (i < n)%nat -> f (a + i)%nat = h (b + i)%nat) ->
  prodC f a n = prodC h b n.
Proof.
  induction n; intros f h a b H; [reflexivity|].
  cbn [prodC]. f_equal.
  - specialize (H 0%nat ltac:(lia)). rewrite !Nat.add_0_r in H. exact H.
  - apply IHn. intros i Hi. specialize (H (S i) ltac:(lia)).
    replace (S a + i)%nat with (a + S i)%nat by lia.
    replace (S b + i)%nat with (b + S i)%nat by lia. exact H.
Qed.

(** ** Translation *)
Section Translate.
Variables (e g : nat -> C) (z : nat -> R) (N : nat) (c : R).
Let z' k := (z k + c)%R.

Lemma tr_thick : forall k, thick z' k = thick z k.
Proof. intros. unfold thick, z'. ring. Qed.
Lemma tr_E2 : forall k, E2 g z' k = E2 g z k.
Proof. intros. unfold E2. now rewrite tr_thick. Qed.
Lemma tr_E1 : forall k, E1 g z' k = E1 g z k.
Proof. intros. unfold E1. now rewrite tr_thick. Qed.
Lemma tr_RdnF : forall m k, RdnF e g z' m k = RdnF e g z m k.
Proof. induction m; intros; simpl; [reflexivity|]. now rewrite IHm, tr_E2. Qed.
Lemma tr_Rdn : forall k, Rdn e g z' N k = Rdn e g z N k.
Proof. intros. unfold Rdn. apply tr_RdnF. Qed.
Lemma tr_Rup : forall k, Rup e g z' k = Rup e g z k.
Proof. induction k; simpl; [reflexivity|]. now rewrite IHk, tr_E2. Qed.
Lemma tr_tdn : forall k, tdn e g z' N k = tdn e g z N k.
Proof. intros. unfold tdn. now rewrite !tr_Rdn, tr_E2. Qed.
Lemma tr_tup : forall k, tup e g z' k = tup e g z k.
Proof. intros. unfold tup. now rewrite !tr_Rup, tr_E2. Qed.
Lemma tr_Ms : forall k, Ms e g z' N k = Ms e g z N k.
Proof. intros. unfold Ms. now rewrite tr_Rup, tr_Rdn, tr_E2. Qed.
Lemma tr_sub : forall a b, ((a + c) - (b + c) = a - b)%R.
Proof. intros. ring. Qed.

Lemma G_mode_translate : forall pm sg s r zs zr xd,
  G_mode e g z' N pm sg s r (zs + c) (zr + c) xd = G_mode e g z N pm sg s r zs zr xd.
Proof.
  intros. unfold G_mode, G_same, G_up, G_dn, G_dir, amp_dn, amp_up, bsd, bsu.
  rewrite !tr_Rdn, !tr_Rup, !tr_Ms, !tr_tdn, !tr_tup, !tr_E1, !tr_thick.
  unfold z'. rewrite !tr_sub.
  rewrite (prodC_ext _ (fun k => E1 g z k * tdn e g z N k) (r - S s))
    by (intros; fold z'; now rewrite tr_tdn, tr_E1).
  rewrite (prodC_ext _ (fun k => E1 g z k * tup e g z (k - 1)) (s - S r))
    by (intros; fold z'; now rewrite tr_tup, tr_E1).
  reflexivity.
Qed.
End Translate.

(** ** Mirror image *)
Section Mirror.
Variables (e g : nat -> C) (z : nat -> R) (N : nat).
Definition mir {A} (f : nat -> A) (k : nat) : A := f (N - k)%nat.
Definition mirz (k : nat) : R := (- z (S N - k)%nat)%R.
Notation e' := (mir e).
Notation g' := (mir g).
Notation z' := mirz.

Lemma mi_rl : forall j, (j < N)%nat -> rl e' g' (N - S j) = - rl e g j.
Proof.
  intros j Hj. unfold rl, mir.
  replace (N - S (N - S j))%nat with j by lia. replace (N - (N - S j))%nat with (S j) by lia.
  rewrite (Cplus_comm (e j * g (S j))). unfold Cdiv. ring.
Qed.
Lemma mi_thick : forall j, (j <= N)%nat -> thick z' (N - j) = thick z j.
Proof.
  intros j Hj. unfold thick, mirz. replace (S N - S (N - j))%nat with j by lia.
  replace (S N - (N - j))%nat with (S j) by lia. ring.
Qed.
Lemma mi_dec : forall j d, (j <= N)%nat -> dec g' (N - j) d = dec g j d.
Proof. intros. unfold dec, mir. now replace (N - (N - j))%nat with j by lia. Qed.
Lemma mi_E1 : forall j, (j <= N)%nat -> E1 g' z' (N - j) = E1 g z j.
Proof. intros. unfold E1. now rewrite mi_thick, mi_dec. Qed.
Lemma mi_E2 : forall j, (j <= N)%nat -> E2 g' z' (N - j) = E2 g z j.
Proof. intros. rewrite !E2_E1, mi_E1; auto. Qed.

Lemma mi_Rdn : forall j, (j <= N)%nat -> Rdn e' g' z' N (N - j) = Rup e g z j.
Proof.
  induction j; intros Hj.
  - rewrite Nat.sub_0_r. apply Rdn_N.
  - rewrite Rdn_step by lia. unfold den_dn.
    replace (S (N - S j)) with (N - j)%nat by lia.
    rewrite IHj, mi_E2, mi_rl by lia. reflexivity.
Qed.
Lemma mi_Rup : forall k, (k <= N)%nat -> Rup e' g' z' k = Rdn e g z N (N - k).
Proof.
  induction k; intros Hk.
  - rewrite Nat.sub_0_r. now rewrite Rdn_N.
  - rewrite Rup_step. unfold den_up. rewrite IHk by lia.
    rewrite (Rdn_step e g z N (N - S k)) by lia. unfold den_dn.
    replace (S (N - S k)) with (N - k)%nat by lia.
    pose proof (mi_rl (N - S k) ltac:(lia)) as H.
    replace (N - S (N - S k))%nat with k in H by lia. rewrite H.
    pose proof (mi_E2 (N - k) ltac:(lia)) as H2.
    replace (N - (N - k))%nat with k in H2 by lia. rewrite H2.
    replace (- - rl e g (N - S k)) with (rl e g (N - S k)) by ring. reflexivity.
Qed.
Lemma mi_Rup' : forall j, (j <= N)%nat -> Rup e' g' z' (N - j) = Rdn e g z N j.
Proof. intros j Hj. rewrite mi_Rup by lia. f_equal. lia. Qed.
Lemma mi_Ms : forall j, (j <= N)%nat -> Ms e' g' z' N (N - j) = Ms e g z N j.
Proof.
  intros j Hj. unfold Ms. rewrite mi_Rdn, mi_E2 by assumption.
  rewrite mi_Rup' by lia. ring.
Qed.
Lemma mi_tdn : forall j, (0 < j <= N)%nat -> tdn e' g' z' N (N - j) = tup e g z (j - 1).
Proof.
  intros j Hj. unfold tdn, tup. rewrite mi_Rdn by lia.
  replace (S (N - j)) with (N - (j - 1))%nat by lia. rewrite mi_Rdn, mi_E2 by lia.
  now replace (S (j - 1)) with j by lia.
Qed.
Lemma mi_tup : forall j, (j < N)%nat -> tup e' g' z' (N - S j) = tdn e g z N j.
Proof.
  intros j Hj. unfold tdn, tup. replace (S (N - S j)) with (N - j)%nat by lia.
  rewrite !mi_Rup', mi_E2 by lia. reflexivity.
Qed.

Lemma mi_zS : forall s, (s <= N)%nat -> z' (S (N - s)) = (- z s)%R.
Proof. intros. unfold mirz. now replace (S N - S (N - s))%nat with s by lia. Qed.
Lemma mi_z : forall s, (s <= N)%nat -> z' (N - s) = (- z (S s))%R.
Proof. intros. unfold mirz. now replace (S N - (N - s))%nat with (S s) by lia. Qed.

Lemma mi_bsd : forall pm s zs, (s <= N)%nat -> bsd e' g' z' pm (N - s) (- zs) = bsu e g z N pm s zs.
Proof.
  intros. unfold bsd, bsu. rewrite mi_zS, mi_z, mi_thick, !mi_dec, mi_Rup' by lia.
  replace (- z s - - zs)%R with (zs - z s)%R by ring.
  replace (- zs - - z (S s))%R with (z (S s) - zs)%R by ring. reflexivity.
Qed.
Lemma mi_bsu : forall pm s zs, (s <= N)%nat -> bsu e' g' z' N pm (N - s) (- zs) = bsd e g z pm s zs.
Proof.
  intros. unfold bsd, bsu. rewrite mi_zS, mi_z, mi_thick, !mi_dec, mi_Rdn by lia.
  replace (- z s - - zs)%R with (zs - z s)%R by ring.
  replace (- zs - - z (S s))%R with (z (S s) - zs)%R by ring. reflexivity.
Qed.

Lemma mi_dsgn : forall pm sg x, pm1 pm -> pm1 sg -> dsgn pm sg (- x) = pm * sg * dsgn pm sg x.
Proof.
  intros pm sg x Hp Hg. destruct (Rtotal_order x 0) as [H|[->|H]].
  - rewrite (dsgn_neg pm sg x) by assumption. rewrite dsgn_pos by lra.
    transitivity (pm * pm * sg); [rewrite (pm1_sq _ Hp)|]; ring.
  - rewrite Ropp_0. unfold dsgn. destruct (Ceq_dec (pm * sg) 1) as [E|E].
    + rewrite E. ring.
    + unfold Rsign. destruct (Rlt_dec 0 0); [lra|]. ring.
  - rewrite (dsgn_pos pm sg x) by assumption. rewrite dsgn_neg by (try assumption; lra).
    transitivity (sg * sg * pm); [rewrite (pm1_sq _ Hg)|]; ring.
Qed.

Lemma G_mode_mirror : forall pm sg s r zs zr xd, pm1 pm -> pm1 sg ->
  (s <= N)%nat -> (r <= N)%nat ->
  G_mode e' g' z' N pm sg (N - s) (N - r) (- zs) (- zr) xd
  = pm * sg * G_mode e g z N pm sg s r zs zr xd.
Proof.
  intros pm sg s r zs zr xd Hp Hg Hs Hr. pose proof (pm1_sq _ Hp) as HP. pose proof (pm1_sq _ Hg) as HG.
  unfold G_mode. destruct (Nat.eqb_spec s r) as [->|Hne].
  - rewrite Nat.eqb_refl.
    assert (A : G_same e' g' z' N pm sg (N - r) (- zs) (- zr) = pm * sg * G_same e g z N pm sg r zs zr).
    { unfold G_same. rewrite mi_bsd, mi_bsu, mi_Rdn, mi_Rup', mi_Ms, mi_zS, mi_z, !mi_dec by lia.
      replace (- z r - - zr)%R with (zr - z r)%R by ring.
      replace (- zr - - z (S r))%R with (z (S r) - zr)%R by ring.
      set (X := Rup e g z r * bsu e g z N pm r zs / Ms e g z N r * dec g r (zr - z r)).
      set (Y := Rdn e g z N r * bsd e g z pm r zs / Ms e g z N r * dec g r (z (S r) - zr)).
      transitivity ((pm * pm) * (sg * sg) * X + pm * sg * Y); [rewrite HP, HG; ring|ring]. }
    rewrite A. destruct xd; [ring|].
    unfold G_dir. rewrite mi_dec by lia.
    replace (- zs - - zr)%R with (- (zs - zr))%R by ring. rewrite Rabs_Ropp.
    replace (- zr - - zs)%R with (- (zr - zs))%R by ring. rewrite mi_dsgn by assumption. ring.
  - destruct (Nat.eqb_spec (N - s) (N - r)); [lia|].
    destruct (Nat.ltb_spec r s) as [L|L].
    + destruct (Nat.ltb_spec (N - r) (N - s)); [lia|].
      unfold G_dn, G_up, amp_dn, amp_up.
      rewrite mi_bsd, mi_Ms, mi_tdn, mi_Rdn, mi_E1, mi_zS, mi_z, !mi_dec by lia.
      rewrite (prodC_rev _ (fun k => E1 g' z' k * tdn e' g' z' N k)
                 (fun k => E1 g z k * tup e g z (k - 1)) (S (N - s)) (S r)).
      2:{ intros i Hi. replace (S (N - s) + i)%nat with (N - (s - 1 - i))%nat by lia.
          rewrite mi_E1, mi_tdn by lia.
          replace (S r + (N - r - S (N - s) - 1 - i))%nat with (s - 1 - i)%nat by lia. reflexivity. }
      replace (N - r - S (N - s))%nat with (s - S r)%nat by lia.
      replace (- z r - - zr)%R with (zr - z r)%R by ring.
      replace (- zr - - z (S r))%R with (z (S r) - zr)%R by ring.
      set (P := prodC _ _ _). unfold Cdiv.
      transitivity ((pm * pm) * bsu e g z N pm s zs * / Ms e g z N s * tup e g z (s - 1) * P *
        (sg * dec g r (z (S r) - zr) + (sg * sg) * Rup e g z r * E1 g z r * dec g r (zr - z r)));
        [rewrite HP, HG; ring|ring].
    + destruct (Nat.ltb_spec (N - r) (N - s)); [|lia].
      unfold G_dn, G_up, amp_dn, amp_up.
      replace (N - s - 1)%nat with (N - S s)%nat by lia.
      rewrite mi_bsu, mi_Ms, mi_tup, mi_Rup', mi_E1, mi_zS, mi_z, !mi_dec by lia.
      rewrite (prodC_rev _ (fun k => E1 g' z' k * tup e' g' z' (k - 1))
                 (fun k => E1 g z k * tdn e g z N k) (S (N - r)) (S s)).
      2:{ intros i Hi. replace (S (N - r) + i)%nat with (N - (r - 1 - i))%nat by lia.
          replace (N - (r - 1 - i) - 1)%nat with (N - S (r - 1 - i))%nat by lia.
          rewrite mi_E1, mi_tup by lia.
          replace (S s + (N - s - S (N - r) - 1 - i))%nat with (r - 1 - i)%nat by lia. reflexivity. }
      replace (N - s - S (N - r))%nat with (r - S s)%nat by lia.
      replace (- z r - - zr)%R with (zr - z r)%R by ring.
      replace (- zr - - z (S r))%R with (z (S r) - zr)%R by ring.
      set (P := prodC _ _ _). unfold Cdiv.
      transitivity (pm * bsd e g z pm s zs * / Ms e g z N s * tdn e g z N s * P *
        ((sg * sg) * dec g r (zr - z r) + sg * Rdn e g z N r * E1 g z r * dec g r (z (S r) - zr)));
        [rewrite HG; ring|ring].
Qed.
End Mirror.

(** ** Uniform stacks *)
Section Uniform.
Variables (e0 g0 : C) (z : nat -> R) (N : nat).
Notation e := (fun _ : nat => e0).
Notation g := (fun _ : nat => g0).

Lemma un_rl : forall k, rl e g k = 0.
Proof. intros. unfold rl, Cdiv. ring. Qed.
Lemma un_Rdn : forall k, Rdn e g z N k = 0.
Proof.
  intros. unfold Rdn. generalize (N - k)%nat. intros m. revert k.
  induction m; intros k; simpl; [reflexivity|]. rewrite IHm, un_rl. unfold Cdiv. ring.
Qed.
Lemma un_Rup : forall k, Rup e g z k = 0.
Proof. induction k; simpl; [reflexivity|]. rewrite IHk, un_rl. unfold Cdiv. ring. Qed.
Lemma un_Ms : forall k, Ms e g z N k = 1.
Proof. intros. unfold Ms. rewrite un_Rdn, un_Rup. ring. Qed.
Lemma un_tdn : forall k, tdn e g z N k = 1.
Proof.
  intros. unfold tdn. rewrite !un_Rdn. replace (1 + 0 * E2 g z (S k)) with (RtoC 1) by ring.
  rewrite Cdiv_1_r. ring.
Qed.
Lemma un_tup : forall k, tup e g z k = 1.
Proof.
  intros. unfold tup. rewrite !un_Rup. replace (1 + 0 * E2 g z k) with (RtoC 1) by ring.
  rewrite Cdiv_1_r. ring.
Qed.
Lemma un_dec : forall k d, dec g k d = dec g 0 d.
Proof. reflexivity. Qed.
Lemma un_prod : forall n a, prodC (fun k => E1 g z k * 1) a n = dec g 0 (z (a + n)%nat - z a).
Proof.
  induction n; intros a; cbn [prodC].
  - rewrite Nat.add_0_r. replace (z a - z a)%R with 0%R by ring. now rewrite dec_0.
  - rewrite IHn. unfold E1. rewrite un_dec, Cmult_1_r, <- dec_plus.
    replace (S a + n)%nat with (a + S n)%nat by lia. f_equal. unfold thick. ring.
Qed.

(** Only the direct wave is left, whatever the (artificial) layering. *)
Lemma G_mode_uniform : forall pm sg s r zs zr, pm1 pm -> pm1 sg ->
  ((s < r)%nat -> (zs < zr)%R) -> ((r < s)%nat -> (zr < zs)%R) ->
  G_mode e g z N pm sg s r zs zr false = G_dir g pm sg 0 zs zr.
Proof.
  intros pm sg s r zs zr Hp Hg H1 H2. unfold G_mode.
  destruct (Nat.eqb_spec s r) as [->|Hne].
  - unfold G_same. rewrite un_Rdn, un_Rup. unfold G_dir. rewrite !(un_dec r). unfold Cdiv. ring.
  - unfold G_dir. destruct (Nat.ltb_spec r s) as [L|L].
    + specialize (H2 L). rewrite Rabs_right by lra. rewrite dsgn_neg by (try assumption; lra).
      unfold G_up, amp_up, bsu. rewrite un_Rdn, un_Rup, un_Ms, un_tup.
      rewrite (prodC_ext _ (fun k => E1 g z k * 1)) by (intros; now rewrite un_tup).
      rewrite un_prod. replace (S r + (s - S r))%nat with s by lia. rewrite (un_dec s), !(un_dec r).
      rewrite Cdiv_1_r.
      replace (zs - zr)%R with ((zs - z s) + ((z s - z (S r)) + (z (S r) - zr)))%R by ring.
      rewrite !dec_plus. ring.
    + specialize (H1 ltac:(lia)). rewrite Rabs_left by lra. rewrite dsgn_pos by lra.
      unfold G_dn, amp_dn, bsd. rewrite un_Rdn, un_Rup, un_Ms, un_tdn.
      rewrite (prodC_ext _ (fun k => E1 g z k * 1)) by (intros; now rewrite un_tdn).
      rewrite un_prod. replace (S s + (r - S s))%nat with r by lia. rewrite (un_dec s), !(un_dec r).
      rewrite Cdiv_1_r.
      replace (- (zs - zr))%R with ((z (S s) - zs) + ((z r - z (S s)) + (zr - z r)))%R by ring.
      rewrite !dec_plus. ring.
Qed.
End Uniform.
