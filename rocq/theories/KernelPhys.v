(** Interface continuity and reciprocity of the closed form. *)

From Coq Require Import Reals ZArith List Bool Lia Lra.
From Coquelicot Require Import Coquelicot.
From Verif Require Import PyBase CBase Kernel KernelSpec KernelRefl KernelClosed.
Import ListNotations.
Local Open Scope R_scope.
Local Open Scope C_scope.

Lemma dec_plus : forall g k a b, dec g k (a + b)%R = dec g k a * dec g k b.
Proof.
  intros. unfold dec. rewrite <- Cexp_plus, RtoC_plus. apply (f_equal Cexp). ring.
Qed.
Lemma dec_0 : forall g k, dec g k 0%R = 1.
Proof. intros. unfold dec. rewrite Cmult_0_r, Copp_0. apply Cexp_0. Qed.
Lemma E2_E1 : forall g z k, E2 g z k = E1 g z k * E1 g z k.
Proof.
  intros. unfold E2, E1, dec. rewrite <- Cexp_plus. apply (f_equal Cexp).
  replace (RtoC 2) with (1 + 1) by (rewrite <- RtoC_plus; f_equal; Lra.lra). ring.
Qed.
Lemma dec_neq_0 : forall g k d, dec g k d <> 0.
Proof. intros. apply Cexp_neq_0. Qed.

Section Phys.
Variables (e g : nat -> C) (z : nat -> R) (N : nat).
Hypothesis REG : regular e g z N.
Hypothesis e_nz : forall k, (k <= N)%nat -> e k <> 0.
Notation Rd := (Rdn e g z N).
Notation Ru := (Rup e g z).
Notation ee2 := (E2 g z).
Notation ee1 := (E1 g z).
Notation td := (tdn e g z N).
Notation tu := (tup e g z).
Notation y k := (g k / e k).

(** The two interface conditions behind the recursion, plus direction. *)
Lemma intf_p_dn : forall k, (k < N)%nat ->
  1 + Rd k = td k * (1 + Rd (S k) * ee2 (S k)).
Proof.
  intros k Hk. unfold tdn. field. apply (regd _ _ _ _ REG). lia.
Qed.

Lemma intf_q_dn : forall k, (k < N)%nat ->
  y k * (1 - Rd k) = y (S k) * (td k * (1 - Rd (S k) * ee2 (S k))).
Proof.
  intros k Hk. unfold tdn. rewrite (Rdn_step e g z N k Hk).
  pose proof (reg_rl _ _ _ _ REG k Hk) as H1.
  pose proof (reg_dn _ _ _ _ REG k Hk) as H2.
  pose proof (regd _ _ _ _ REG (S k) ltac:(lia)) as H3.
  pose proof (e_nz k ltac:(lia)) as H4. pose proof (e_nz (S k) ltac:(lia)) as H5.
  unfold den_dn, rl, den_rl in *. set (T := Rd (S k) * ee2 (S k)) in *.
  field_simplify_eq.
  - ring.
  - repeat split; try assumption.
    intro H. apply H2.
    apply (f_equal (fun x => x / (e (S k) * g k + e k * g (S k)))) in H.
    transitivity (0 / (e (S k) * g k + e k * g (S k))); [rewrite <- H; field; assumption|].
    field. assumption.
Qed.

Lemma intf_p_up : forall k, (k < N)%nat ->
  1 + Ru (S k) = tu k * (1 + Ru k * ee2 k).
Proof.
  intros k Hk. unfold tup. field. apply (regu _ _ _ _ REG). lia.
Qed.

Lemma intf_q_up : forall k, (k < N)%nat ->
  y (S k) * (1 - Ru (S k)) = y k * (tu k * (1 - Ru k * ee2 k)).
Proof.
  intros k Hk. unfold tup. rewrite (Rup_step e g z k).
  pose proof (reg_rl _ _ _ _ REG k Hk) as H1.
  pose proof (reg_up _ _ _ _ REG k Hk) as H2.
  pose proof (regu _ _ _ _ REG k Hk) as H3.
  pose proof (e_nz k ltac:(lia)) as H4. pose proof (e_nz (S k) ltac:(lia)) as H5.
  unfold den_up, rl, den_rl in *. set (T := Ru k * ee2 k) in *.
  field_simplify_eq.
  - ring.
  - repeat split; try assumption.
    intro H. apply H2.
    apply (f_equal (fun x => x / (e (S k) * g k + e k * g (S k)))) in H.
    transitivity (0 / (e (S k) * g k + e k * g (S k))); [rewrite <- H; field; assumption|].
    field. assumption.
Qed.

Hypothesis g_nz : forall k, (k <= N)%nat -> g k <> 0.

(** ** Field continuity across an interface *)

(** Multiplier turning the sg = -1 output into the flux. *)
Definition wgt (sg : C) (k : nat) : C := if Ceq_dec sg 1 then 1 else y k.

Definition pm1 (x : C) : Prop := x = 1 \/ x = - (1).

Lemma m1_neq_1 : - (1) <> RtoC 1.
Proof. intro H. injection H. lra. Qed.

Lemma wgt_1 : forall k, wgt 1 k = 1.
Proof. intros. unfold wgt. destruct (Ceq_dec 1 1); [reflexivity|contradiction]. Qed.
Lemma wgt_m1 : forall k, wgt (- (1)) k = y k.
Proof.
  intros. unfold wgt. destruct (Ceq_dec (- (1)) 1) as [H|]; [|reflexivity].
  exfalso. now apply m1_neq_1.
Qed.

Lemma intf_dn : forall sg k, pm1 sg -> (k < N)%nat ->
  wgt sg k * (sg + Rd k) = wgt sg (S k) * (td k * (sg + Rd (S k) * ee2 (S k))).
Proof.
  intros sg k [->| ->] Hk.
  - rewrite !wgt_1. pose proof (intf_p_dn k Hk) as H. rewrite H. ring.
  - rewrite !wgt_m1. pose proof (intf_q_dn k Hk) as H.
    replace (- (1) + Rd k) with (- (1 - Rd k)) by ring.
    replace (- (1) + Rd (S k) * ee2 (S k)) with (- (1 - Rd (S k) * ee2 (S k))) by ring.
    transitivity (- (y k * (1 - Rd k))); [ring|]. rewrite H. ring.
Qed.

Lemma intf_up : forall sg k, pm1 sg -> (k < N)%nat ->
  wgt sg (S k) * (1 + sg * Ru (S k)) = wgt sg k * (tu k * (1 + sg * (Ru k * ee2 k))).
Proof.
  intros sg k [->| ->] Hk.
  - rewrite !wgt_1. pose proof (intf_p_up k Hk) as H.
    replace (1 + 1 * Ru (S k)) with (1 + Ru (S k)) by ring. rewrite H. ring.
  - rewrite !wgt_m1. pose proof (intf_q_up k Hk) as H.
    replace (1 + - (1) * Ru (S k)) with (1 - Ru (S k)) by ring. rewrite H. ring.
Qed.

Lemma pm1_sq : forall x, pm1 x -> x * x = 1.
Proof. intros x [->| ->]; ring. Qed.

Lemma dsgn_pos : forall pm sg x, (0 < x)%R -> dsgn pm sg x = sg.
Proof.
  intros. unfold dsgn. destruct (Ceq_dec (pm*sg) 1); [ring|].
  unfold Rsign. destruct (Rlt_dec x 0); [lra|]. destruct (Rlt_dec 0 x); [ring|lra].
Qed.
Lemma dsgn_neg : forall pm sg x, pm1 pm -> pm1 sg -> (x < 0)%R -> dsgn pm sg x = pm.
Proof.
  intros pm sg x Hp Hs Hx. unfold dsgn, Rsign. destruct (Rlt_dec x 0); [|lra].
  replace (RtoC (-1)) with (- (1)) by (unfold RtoC, Copp; simpl; f_equal; lra).
  destruct Hp as [->| ->], Hs as [->| ->]; destruct (Ceq_dec _ _) as [H|H]; try ring;
    exfalso; first [apply H; ring
                   | apply m1_neq_1; refine (eq_trans _ H); ring].
Qed.

(** Splitting of the distances in the source layer. *)
Lemma bsd_ab : forall pm s zs, bsd e g z pm s zs =
  dec g s (z (S s) - zs) * (1 + pm * Ru s * (dec g s (zs - z s) * dec g s (zs - z s))).
Proof.
  intros. unfold bsd. replace (thick z s + (zs - z s))%R
    with ((z (S s) - zs) + ((zs - z s) + (zs - z s)))%R by (unfold thick; ring).
  rewrite !dec_plus. ring.
Qed.
Lemma bsu_ab : forall pm s zs, bsu e g z N pm s zs =
  dec g s (zs - z s) * (1 + pm * Rd s * (dec g s (z (S s) - zs) * dec g s (z (S s) - zs))).
Proof.
  intros. unfold bsu. replace (thick z s + (z (S s) - zs))%R
    with ((zs - z s) + ((z (S s) - zs) + (z (S s) - zs)))%R by (unfold thick; ring).
  rewrite !dec_plus. ring.
Qed.
Lemma E1_ab : forall s zs, ee1 s = dec g s (z (S s) - zs) * dec g s (zs - z s).
Proof. intros. unfold E1. rewrite <- dec_plus. f_equal. unfold thick. ring. Qed.

Notation M := (Ms e g z N).

(** Total field of a source in layer s at the bottom of that layer. *)
Lemma same_bottom : forall pm sg s zs, pm1 pm -> pm1 sg -> (s <= N)%nat -> (zs < z (S s))%R ->
  G_mode e g z N pm sg s s zs (z (S s)) false
  = bsd e g z pm s zs / M s * (sg + Rd s).
Proof.
  intros pm sg s zs Hp Hg Hs Hz. unfold G_mode. rewrite Nat.eqb_refl.
  unfold G_same, G_dir. rewrite dsgn_pos by lra.
  rewrite Rabs_left by lra. replace (- (zs - z (S s)))%R with (z (S s) - zs)%R by ring.
  replace (z (S s) - z (S s))%R with 0%R by ring. rewrite dec_0.
  replace (z (S s) - z s)%R with ((z (S s) - zs) + (zs - z s))%R by ring.
  rewrite dec_plus, bsd_ab, bsu_ab.
  set (a := dec g s (z (S s) - zs)). set (b := dec g s (zs - z s)).
  pose proof (regM _ _ _ _ REG s Hs) as HM. pose proof (pm1_sq _ Hp) as HP.
  assert (EM : M s = 1 - Ru s * Rd s * (a * b * (a * b))).
  { unfold Ms. rewrite E2_E1, (E1_ab s zs). reflexivity. }
  transitivity ((Rd s * (a * (1 + pm * Ru s * (b * b)))
     + sg * (pm * Ru s * (b * (1 + pm * Rd s * (a * a))) * (a * b) + M s * a)) / M s).
  - field. exact HM.
  - rewrite EM at 1. transitivity ((Rd s * (a * (1 + pm * Ru s * (b * b)))
       + sg * (pm * Ru s * b * (a * b) + (pm*pm) * (Ru s * Rd s * (a*b*(a*b)) * a)
               + a - Ru s * Rd s * (a*b*(a*b)) * a)) / M s).
    + unfold Cdiv. ring.
    + rewrite HP. unfold Cdiv. ring.
Qed.

Lemma same_top : forall pm sg s zs, pm1 pm -> pm1 sg -> (s <= N)%nat -> (z s < zs)%R ->
  G_mode e g z N pm sg s s zs (z s) false
  = pm * (bsu e g z N pm s zs / M s) * (1 + sg * Ru s).
Proof.
  intros pm sg s zs Hp Hg Hs Hz. unfold G_mode. rewrite Nat.eqb_refl.
  unfold G_same, G_dir. rewrite dsgn_neg by (try assumption; lra).
  rewrite Rabs_right by lra.
  replace (z s - z s)%R with 0%R by ring. rewrite dec_0.
  replace (z (S s) - z s)%R with ((z (S s) - zs) + (zs - z s))%R by ring.
  rewrite dec_plus, bsd_ab, bsu_ab.
  set (a := dec g s (z (S s) - zs)). set (b := dec g s (zs - z s)).
  pose proof (regM _ _ _ _ REG s Hs) as HM. pose proof (pm1_sq _ Hp) as HP.
  assert (EM : M s = 1 - Ru s * Rd s * (a * b * (a * b))).
  { unfold Ms. rewrite E2_E1, (E1_ab s zs). reflexivity. }
  transitivity ((Rd s * (a * (1 + pm * Ru s * (b * b))) * (a * b)
     + pm * sg * (Ru s * (b * (1 + pm * Rd s * (a * a)))) + pm * (M s * b)) / M s).
  - field. exact HM.
  - rewrite EM at 1. transitivity ((Rd s * a * (a * b)
       + pm * sg * (Ru s * (b * (1 + pm * Rd s * (a * a)))) + pm * b) / M s).
    + unfold Cdiv. ring.
    + replace (Rd s * a * (a * b)) with (pm * pm * (Rd s * a * (a * b))) by (rewrite HP; ring).
      unfold Cdiv. ring.
Qed.

Lemma dn_top : forall pm sg s r zs, (s < r)%nat ->
  G_mode e g z N pm sg s r zs (z r) false
  = amp_dn e g z N pm s r zs * (sg + Rd r * ee2 r).
Proof.
  intros. unfold G_mode. destruct (Nat.eqb_spec s r); [lia|].
  destruct (Nat.ltb_spec r s); [lia|]. unfold G_dn.
  replace (z r - z r)%R with 0%R by ring. rewrite dec_0, E2_E1. unfold E1, thick. ring.
Qed.
Lemma dn_bottom : forall pm sg s r zs, (s < r)%nat ->
  G_mode e g z N pm sg s r zs (z (S r)) false
  = amp_dn e g z N pm s r zs * ee1 r * (sg + Rd r).
Proof.
  intros. unfold G_mode. destruct (Nat.eqb_spec s r); [lia|].
  destruct (Nat.ltb_spec r s); [lia|]. unfold G_dn.
  replace (z (S r) - z (S r))%R with 0%R by ring. rewrite dec_0.
  change (z (S r) - z r)%R with (thick z r). unfold E1. ring.
Qed.
Lemma up_bottom : forall pm sg s r zs, (r < s)%nat ->
  G_mode e g z N pm sg s r zs (z (S r)) false
  = amp_up e g z N pm s r zs * (1 + sg * (Ru r * ee2 r)).
Proof.
  intros. unfold G_mode. destruct (Nat.eqb_spec s r); [lia|].
  destruct (Nat.ltb_spec r s); [|lia]. unfold G_up.
  replace (z (S r) - z (S r))%R with 0%R by ring. rewrite dec_0, E2_E1.
  change (z (S r) - z r)%R with (thick z r). unfold E1. ring.
Qed.
Lemma up_top : forall pm sg s r zs, (r < s)%nat ->
  G_mode e g z N pm sg s r zs (z r) false
  = amp_up e g z N pm s r zs * ee1 r * (1 + sg * Ru r).
Proof.
  intros. unfold G_mode. destruct (Nat.eqb_spec s r); [lia|].
  destruct (Nat.ltb_spec r s); [|lia]. unfold G_up.
  replace (z r - z r)%R with 0%R by ring. rewrite dec_0.
  change (z (S r) - z r)%R with (thick z r). unfold E1. ring.
Qed.

Lemma amp_dn_S : forall pm s r zs, (s < r)%nat ->
  amp_dn e g z N pm s (S r) zs = amp_dn e g z N pm s r zs * (ee1 r * td r).
Proof.
  intros. unfold amp_dn. replace (S r - S s)%nat with (S (r - S s)) by lia.
  rewrite prodC_snoc. replace (S s + (r - S s))%nat with r by lia. ring.
Qed.
Lemma amp_up_S : forall pm s r zs, (S r < s)%nat ->
  amp_up e g z N pm s r zs = amp_up e g z N pm s (S r) zs * (ee1 (S r) * tu r).
Proof.
  intros. unfold amp_up. replace (s - S r)%nat with (S (s - S (S r))) by lia.
  cbn [prodC]. replace (S r - 1)%nat with r by lia. ring.
Qed.

(** Both the potential (sg = 1) and the flux (sg = -1) of every mode are
    continuous across every interface not containing the source. *)
Theorem G_mode_continuous : forall pm sg s j zs, pm1 pm -> pm1 sg ->
  (s <= N)%nat -> (j < N)%nat ->
  (s = j -> zs < z (S j))%R -> (s = S j -> z (S j) < zs)%R ->
  wgt sg j * G_mode e g z N pm sg s j zs (z (S j)) false
  = wgt sg (S j) * G_mode e g z N pm sg s (S j) zs (z (S j)) false.
Proof.
  intros pm sg s j zs Hp Hg Hs Hj Hb Ht.
  destruct (lt_eq_lt_dec s j) as [[H|H]|H].
  - rewrite dn_bottom, dn_top by lia. rewrite amp_dn_S by lia.
    pose proof (intf_dn sg j Hg Hj) as HI.
    transitivity (amp_dn e g z N pm s j zs * ee1 j * (wgt sg j * (sg + Rd j))); [ring|].
    rewrite HI. ring.
  - subst j. rewrite same_bottom by (auto; lia). rewrite dn_top by lia.
    unfold amp_dn. rewrite Nat.sub_diag. cbn [prodC].
    pose proof (intf_dn sg s Hg Hj) as HI.
    transitivity (bsd e g z pm s zs / M s * (wgt sg s * (sg + Rd s))); [ring|].
    rewrite HI. ring.
  - destruct (Nat.eq_dec s (S j)) as [->|].
    + rewrite same_top by (auto; lia). rewrite up_bottom by lia.
      unfold amp_up. rewrite Nat.sub_diag. cbn [prodC].
      replace (S j - 1)%nat with j by lia.
      pose proof (intf_up sg j Hg Hj) as HI. symmetry.
      transitivity (pm * (bsu e g z N pm (S j) zs / M (S j)) * (wgt sg (S j) * (1 + sg * Ru (S j)))); [ring|].
      rewrite HI. unfold Cdiv. ring.
    + rewrite up_bottom, up_top by lia. rewrite amp_up_S by lia.
      pose proof (intf_up sg j Hg Hj) as HI. symmetry.
      transitivity (amp_up e g z N pm s (S j) zs * ee1 (S j) * (wgt sg (S j) * (1 + sg * Ru (S j)))); [ring|].
      rewrite HI. ring.
Qed.

(** ** Reciprocity *)

Lemma rl_1p : forall k, (k < N)%nat -> 1 + rl e g k = (1 + 1) * (e (S k) * g k) / den_rl e g k.
Proof.
  intros k Hk. pose proof (reg_rl _ _ _ _ REG k Hk) as H. unfold rl, den_rl in *. field. exact H.
Qed.
Lemma rl_1m : forall k, (k < N)%nat -> 1 - rl e g k = (1 + 1) * (e k * g (S k)) / den_rl e g k.
Proof.
  intros k Hk. pose proof (reg_rl _ _ _ _ REG k Hk) as H. unfold rl, den_rl in *. field. exact H.
Qed.

Lemma td_alt : forall k, (k < N)%nat -> td k = (1 + rl e g k) / den_dn e g z N k.
Proof.
  intros k Hk. unfold tdn. rewrite (Rdn_step e g z N k Hk).
  pose proof (reg_dn _ _ _ _ REG k Hk) as H2.
  pose proof (regd _ _ _ _ REG (S k) ltac:(lia)) as H3.
  unfold den_dn in *. field. split; assumption.
Qed.
Lemma tu_alt : forall k, (k < N)%nat -> tu k = (1 - rl e g k) / den_up e g z k.
Proof.
  intros k Hk. unfold tup. rewrite (Rup_step e g z k).
  pose proof (reg_up _ _ _ _ REG k Hk) as H2.
  pose proof (regu _ _ _ _ REG k Hk) as H3.
  unfold den_up in *. field. split; assumption.
Qed.

Lemma M_dn : forall k, (k < N)%nat ->
  M k * den_dn e g z N k = M (S k) * den_up e g z k.
Proof.
  intros k Hk. unfold Ms. rewrite (Rdn_step e g z N k Hk), (Rup_step e g z k).
  pose proof (reg_dn _ _ _ _ REG k Hk) as H2.
  pose proof (reg_up _ _ _ _ REG k Hk) as H3.
  unfold den_dn, den_up in *. field. split; assumption.
Qed.

Lemma recip_step : forall k, (k < N)%nat ->
  e k / g k * (td k / M k) = e (S k) / g (S k) * (tu k / M (S k)).
Proof.
  intros k Hk. rewrite td_alt, tu_alt by assumption.
  pose proof (M_dn k Hk) as HM.
  pose proof (regM _ _ _ _ REG k ltac:(lia)) as M0.
  pose proof (regM _ _ _ _ REG (S k) ltac:(lia)) as M1.
  pose proof (reg_dn _ _ _ _ REG k Hk) as D0.
  pose proof (reg_up _ _ _ _ REG k Hk) as D1.
  pose proof (reg_rl _ _ _ _ REG k Hk) as D2.
  pose proof (g_nz k ltac:(lia)) as G0. pose proof (g_nz (S k) ltac:(lia)) as G1.
  rewrite rl_1p, rl_1m by assumption.
  transitivity ((1+1) * (e k * e (S k)) / den_rl e g k / (M k * den_dn e g z N k)).
  - field. repeat split; assumption.
  - rewrite HM. field. repeat split; assumption.
Qed.

Lemma recip_prod : forall n s, (s + n < N)%nat ->
  e s / g s * (td s * prodC (fun k => ee1 k * td k) (S s) n / M s)
  = e (S s + n)%nat / g (S s + n)%nat
    * (tu (s + n)%nat * prodC (fun k => ee1 k * tu (k - 1)) (S s) n / M (S s + n)%nat).
Proof.
  induction n; intros s Hs.
  - cbn [prodC]. rewrite !Nat.add_0_r in *. pose proof (recip_step s Hs) as H.
    rewrite !Cmult_1_r. exact H.
  - rewrite !prodC_snoc. specialize (IHn s ltac:(lia)).
    replace (S s + S n)%nat with (S (S s + n)) by lia.
    set (m := (S s + n)%nat) in *.
    replace (s + S n)%nat with m by lia. replace (m - 1)%nat with (s + n)%nat by lia.
    pose proof (recip_step m ltac:(lia)) as H.
    pose proof (regM _ _ _ _ REG m ltac:(lia)) as Mm.
    pose proof (g_nz m ltac:(lia)) as Gm. pose proof (e_nz m ltac:(lia)) as Em.
    transitivity (e s / g s * (td s * prodC (fun k => ee1 k * td k) (S s) n / M s)
                  * (ee1 m * td m)).
    { unfold Cdiv. ring. }
    rewrite IHn.
    transitivity (tu (s + n)%nat * prodC (fun k => ee1 k * tu (k - 1)) (S s) n * ee1 m
      * (e m / g m * (td m / M m))).
    { unfold Cdiv. ring. }
    rewrite H. unfold Cdiv. ring.
Qed.

(** Source weight. *)
Definition wsrc (pm : C) (k : nat) : C := if Ceq_dec pm 1 then e k / g k else 1.

Lemma wsrc_1 : forall k, wsrc 1 k = e k / g k.
Proof. intros. unfold wsrc. destruct (Ceq_dec 1 1); [reflexivity|contradiction]. Qed.
Lemma wsrc_m1 : forall k, wsrc (- (1)) k = 1.
Proof.
  intros. unfold wsrc. destruct (Ceq_dec (- (1)) 1) as [H|]; [|reflexivity].
  exfalso. now apply m1_neq_1.
Qed.

Lemma wsrc_wgt : forall pm k, pm1 pm -> (k <= N)%nat -> wsrc pm k = e k / g k * wgt pm k.
Proof.
  intros pm k [->| ->] Hk; rewrite ?wsrc_1, ?wsrc_m1, ?wgt_1, ?wgt_m1; [ring|].
  field. split; [apply e_nz|apply g_nz]; assumption.
Qed.

Lemma recip_lt : forall pm sg s r zs zr xd, pm1 pm -> pm1 sg -> (s < r <= N)%nat ->
  wsrc pm s * wgt sg r * G_mode e g z N pm sg s r zs zr xd
  = wsrc sg r * wgt pm s * G_mode e g z N sg pm r s zr zs xd.
Proof.
  intros pm sg s r zs zr xd Hp Hg Hsr. unfold G_mode.
  destruct (Nat.eqb_spec s r); [lia|]. destruct (Nat.eqb_spec r s); [lia|].
  destruct (Nat.ltb_spec r s); [lia|]. destruct (Nat.ltb_spec s r); [|lia].
  unfold G_dn, G_up, amp_dn, amp_up.
  pose proof (recip_prod (r - S s) s ltac:(lia)) as HQ.
  replace (S s + (r - S s))%nat with r in HQ by lia.
  replace (s + (r - S s))%nat with (r - 1)%nat in HQ by lia.
  rewrite (wsrc_wgt pm s), (wsrc_wgt sg r) by (try assumption; lia).
  unfold bsd at 1. unfold bsu at 1.
  assert (B1 : sg * (dec g r (zr - z r) + sg * Rd r * dec g r (thick z r + (z (S r) - zr)))
     = sg * dec g r (zr - z r) + Rd r * ee1 r * dec g r (z (S r) - zr)).
  { rewrite dec_plus. change (dec g r (thick z r)) with (ee1 r).
    transitivity (sg * dec g r (zr - z r) + sg * sg * (Rd r * ee1 r * dec g r (z (S r) - zr))); [ring|].
    rewrite (pm1_sq _ Hg). ring. }
  rewrite B1.
  assert (B2 : dec g s (z (S s) - zs) + pm * Ru s * dec g s (thick z s + (zs - z s))
     = dec g s (z (S s) - zs) + pm * Ru s * ee1 s * dec g s (zs - z s)).
  { rewrite dec_plus. change (dec g s (thick z s)) with (ee1 s). ring. }
  rewrite B2.
  set (X := dec g s (z (S s) - zs) + pm * Ru s * ee1 s * dec g s (zs - z s)).
  set (Y := sg * dec g r (zr - z r) + Rd r * ee1 r * dec g r (z (S r) - zr)).
  transitivity (X * Y * (wgt pm s * wgt sg r) *
    (e s / g s * (td s * prodC (fun k : nat => ee1 k * td k) (S s) (r - S s) / M s))).
  { unfold Cdiv. ring. }
  rewrite HQ. unfold Cdiv. ring.
Qed.

Lemma same_sym : forall pm sg s zs zr, pm1 pm -> pm1 sg ->
  G_same e g z N pm sg s zs zr = G_same e g z N sg pm s zr zs.
Proof.
  intros pm sg s zs zr Hp Hg. unfold G_same, bsd, bsu. rewrite !dec_plus.
  change (dec g s (thick z s)) with (ee1 s).
  set (a := dec g s (z (S s) - zs)). set (b := dec g s (zs - z s)).
  set (a' := dec g s (z (S s) - zr)). set (b' := dec g s (zr - z s)).
  transitivity ((Rd s * a * a' + pm * sg * (Ru s * b * b')
    + Rd s * Ru s * ee1 s * (pm * b * a' + (pm * pm) * (sg * a * b'))) / M s).
  { unfold Cdiv. ring. }
  rewrite (pm1_sq _ Hp).
  transitivity ((Rd s * a * a' + pm * sg * (Ru s * b * b')
    + Rd s * Ru s * ee1 s * (sg * sg * (pm * b * a') + sg * a * b')) / M s).
  { rewrite (pm1_sq _ Hg). unfold Cdiv. ring. }
  unfold Cdiv. ring.
Qed.

Lemma dsgn_sym : forall pm sg x, pm1 pm -> pm1 sg -> dsgn pm sg x = dsgn sg pm (- x).
Proof.
  intros pm sg x Hp Hg. destruct (Rtotal_order x 0) as [H|[->|H]].
  - rewrite (dsgn_neg pm sg) by assumption. rewrite dsgn_pos by lra. reflexivity.
  - rewrite Ropp_0. unfold dsgn. rewrite (Cmult_comm sg pm).
    destruct (Ceq_dec (pm * sg) 1) as [E|E].
    + f_equal. transitivity (pm * sg * sg); [rewrite E; ring|].
      transitivity (pm * (sg * sg)); [ring|]. rewrite (pm1_sq _ Hg). ring.
    + unfold Rsign. destruct (Rlt_dec 0 0); [lra|]. ring.
  - rewrite dsgn_pos by assumption. rewrite dsgn_neg by (try assumption; lra). reflexivity.
Qed.

(** Exchanging source and receiver, for every mode and every pair of layers. *)
Theorem G_mode_recip : forall pm sg s r zs zr xd, pm1 pm -> pm1 sg ->
  (s <= N)%nat -> (r <= N)%nat ->
  wsrc pm s * wgt sg r * G_mode e g z N pm sg s r zs zr xd
  = wsrc sg r * wgt pm s * G_mode e g z N sg pm r s zr zs xd.
Proof.
  intros pm sg s r zs zr xd Hp Hg Hs Hr.
  destruct (lt_eq_lt_dec s r) as [[H|H]|H].
  - apply recip_lt; auto.
  - subst r. unfold G_mode. rewrite Nat.eqb_refl. rewrite same_sym by assumption.
    unfold G_dir. rewrite (Rabs_minus_sym zr zs).
    rewrite (dsgn_sym pm sg) by assumption. replace (- (zr - zs))%R with (zs - zr)%R by ring.
    rewrite !wsrc_wgt by assumption. ring.
  - symmetry. apply recip_lt; auto.
Qed.

End Phys.
