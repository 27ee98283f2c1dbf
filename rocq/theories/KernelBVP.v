(** The closed form of the Green's function solves the boundary-value problem
    of ODE.v. *)

From Coq Require Import Reals ZArith List Bool Lia Lra Psatz.
From Coquelicot Require Import Coquelicot.
From Verif Require Import PyBase CBase Kernel KernelSpec KernelRefl KernelClosed KernelPhys KernelPassive ODE.
Import ListNotations.
Local Open Scope R_scope.
Local Open Scope C_scope.

(** ** Exponentials *)

Lemma dec_neg : forall g k a, dec g k (- a)%R * dec g k a = 1.
Proof. intros. rewrite <- dec_plus. replace (- a + a)%R with 0%R by ring. apply dec_0. Qed.

Lemma dec_fst : forall g k x, fst (dec g k x) = (exp (- (fst (g k) * x)) * cos (snd (g k) * x))%R.
Proof.
  intros. unfold dec, Cexp. simpl.
  replace (- (fst (g k) * x - snd (g k) * 0))%R with (- (fst (g k) * x))%R by ring.
  replace (- (fst (g k) * 0 + snd (g k) * x))%R with (- (snd (g k) * x))%R by ring.
  now rewrite cos_neg.
Qed.
Lemma dec_snd : forall g k x, snd (dec g k x) = (- (exp (- (fst (g k) * x)) * sin (snd (g k) * x)))%R.
Proof.
  intros. unfold dec, Cexp. simpl.
  replace (- (fst (g k) * x - snd (g k) * 0))%R with (- (fst (g k) * x))%R by ring.
  replace (- (fst (g k) * 0 + snd (g k) * x))%R with (- (snd (g k) * x))%R by ring.
  rewrite sin_neg. ring.
Qed.

Lemma dec_deriv : forall g k c x, is_deriveC (fun t => dec g k (t - c)) x (- (g k * dec g k (x - c))).
Proof.
  intros. split.
  - apply (is_derive_ext (fun t => (exp (- (fst (g k) * (t - c))) * cos (snd (g k) * (t - c)))%R)).
    { intros; now rewrite dec_fst. }
    unfold Copp, Cmult; cbn [fst snd]. rewrite dec_fst, dec_snd. auto_derive; [auto|]. unfold Rminus. ring.
  - apply (is_derive_ext (fun t => (- (exp (- (fst (g k) * (t - c))) * sin (snd (g k) * (t - c))))%R)).
    { intros; now rewrite dec_snd. }
    unfold Copp, Cmult; cbn [fst snd]. rewrite dec_fst, dec_snd. auto_derive; [auto|]. unfold Rminus. ring.
Qed.
Lemma dec_deriv' : forall g k c x, is_deriveC (fun t => dec g k (c - t)) x (g k * dec g k (c - x)).
Proof.
  intros. split.
  - apply (is_derive_ext (fun t => (exp (- (fst (g k) * (c - t))) * cos (snd (g k) * (c - t)))%R)).
    { intros; now rewrite dec_fst. }
    unfold Copp, Cmult; cbn [fst snd]. rewrite dec_fst, dec_snd. auto_derive; [auto|]. unfold Rminus. ring.
  - apply (is_derive_ext (fun t => (- (exp (- (fst (g k) * (c - t))) * sin (snd (g k) * (c - t))))%R)).
    { intros; now rewrite dec_snd. }
    unfold Copp, Cmult; cbn [fst snd]. rewrite dec_fst, dec_snd. auto_derive; [auto|]. unfold Rminus. ring.
Qed.

Lemma exp_small : forall a eps : R, (0 < a)%R -> (0 < eps)%R ->
  exists M, forall t, (M < t)%R -> (exp (- (a * t)) < eps)%R.
Proof.
  intros a eps Ha He. exists (- ln eps / a)%R. intros t Ht.
  replace eps with (exp (ln eps)) by (now apply exp_ln).
  apply exp_increasing. apply (Rmult_lt_compat_l a) in Ht; [|exact Ha].
  replace (a * (- ln eps / a))%R with (- ln eps)%R in Ht by (field; lra). lra.
Qed.

Lemma lim0_bound : forall (F : (R -> Prop) -> Prop) {FF : Filter F} (f b : R -> R),
  (forall t, (Rabs (f t) <= b t)%R) ->
  (forall eps, (0 < eps)%R -> F (fun t => (b t < eps)%R)) -> filterlim f F (locally 0%R).
Proof.
  intros F FF f b Hb HF P [d HP]. unfold filtermap. eapply filter_imp; [|exact (HF d (cond_pos d))].
  intros t Ht. apply HP. unfold ball; simpl. unfold AbsRing_ball, abs, minus, plus, opp; simpl.
  replace (f t + - 0)%R with (f t) by ring. eapply Rle_lt_trans; [apply Hb|exact Ht].
Qed.

Lemma dec_bound : forall g k x, (Rabs (fst (dec g k x)) <= exp (- (fst (g k) * x)))%R /\
  (Rabs (snd (dec g k x)) <= exp (- (fst (g k) * x)))%R.
Proof.
  intros. rewrite dec_fst, dec_snd. rewrite Rabs_Ropp, !Rabs_mult.
  rewrite (Rabs_right (exp _)) by (left; apply exp_pos).
  pose proof (exp_pos (- (fst (g k) * x))).
  assert (forall u, (-1 <= u <= 1 -> Rabs u <= 1)%R) by (intros u Hu; apply Rabs_le; lra).
  pose proof (H0 _ (COS_bound (snd (g k) * x))). pose proof (H0 _ (SIN_bound (snd (g k) * x))).
  split; rewrite <- (Rmult_1_r (exp (- (fst (g k) * x)))) at 2; apply Rmult_le_compat_l; lra.
Qed.

Lemma dec_inf : forall g k c, (0 < fst (g k))%R ->
  limC (fun t => dec g k (t - c)) (Rbar_locally p_infty) 0 /\
  limC (fun t => dec g k (c - t)) (Rbar_locally m_infty) 0.
Proof.
  intros g k c Hg. split; split; simpl.
  - apply (lim0_bound _ _ (fun t => exp (- (fst (g k) * (t - c))))); [intros; apply dec_bound|].
    intros eps He. destruct (exp_small _ eps Hg He) as [M HM]. exists (M + c)%R. intros t Ht. apply HM. lra.
  - apply (lim0_bound _ _ (fun t => exp (- (fst (g k) * (t - c))))); [intros; apply dec_bound|].
    intros eps He. destruct (exp_small _ eps Hg He) as [M HM]. exists (M + c)%R. intros t Ht. apply HM. lra.
  - apply (lim0_bound _ _ (fun t => exp (- (fst (g k) * (c - t))))); [intros; apply dec_bound|].
    intros eps He. destruct (exp_small _ eps Hg He) as [M HM]. exists (c - M)%R. intros t Ht. apply HM. lra.
  - apply (lim0_bound _ _ (fun t => exp (- (fst (g k) * (c - t))))); [intros; apply dec_bound|].
    intros eps He. destruct (exp_small _ eps Hg He) as [M HM]. exists (c - M)%R. intros t Ht. apply HM. lra.
Qed.

(** ** Up- and down-going waves in a layer *)

Definition wave (g : nat -> C) (k : nat) (c : R) (a b sg : C) (x : R) : C :=
  sg * a * dec g k (x - c) + b * dec g k (c - x).

Lemma wave_deriv : forall g k c a b sg x,
  is_deriveC (wave g k c a b sg) x (g k * wave g k c a b (- sg) x).
Proof.
  intros. unfold wave.
  replace (g k * (- sg * a * dec g k (x - c) + b * dec g k (c - x)))
   with (sg * a * (- (g k * dec g k (x - c))) + b * (g k * dec g k (c - x))) by ring.
  apply is_deriveC_plus; apply is_deriveC_scal; [apply dec_deriv|apply dec_deriv'].
Qed.

(** ** The layer of a depth *)
Section Lay.
Variables (z : nat -> R) (N : nat).
Fixpoint lay (n : nat) (x : R) : nat :=
  match n with
  | O => O
  | S n' => if Rlt_dec (z n) x then n else lay n' x
  end.

Hypothesis Hz : forall k, (1 <= k < N)%nat -> (z k < z (S k))%R.
Lemma z_mono : forall i j, (1 <= i)%nat -> (i < j <= N)%nat -> (z i < z j)%R.
Proof.
  intros i j Hi. induction j; intros Hj; [lia|]. destruct (Nat.eq_dec i j) as [->|].
  - apply Hz; lia.
  - apply Rlt_trans with (z j); [apply IHj; lia|apply Hz; lia].
Qed.
Lemma lay_le : forall n x, (lay n x <= n)%nat.
Proof. induction n; intros; simpl; [lia|]. destruct (Rlt_dec _ _); [lia|]. specialize (IHn x). lia. Qed.

Lemma lay_in' : forall n k x, (n <= N)%nat -> (k <= n)%nat -> (k = 0%nat \/ z k < x)%R ->
  (k = N \/ x <= z (S k))%R -> lay n x = k.
Proof.
  induction n; intros k x Hn Hk H1 H2; simpl; [lia|].
  destruct (Rlt_dec (z (S n)) x).
  - destruct (Nat.eq_dec k (S n)) as [|]; [auto|]. exfalso.
    destruct H2 as [|H2]; [lia|]. destruct (Nat.eq_dec k n) as [->|]; [lra|].
    pose proof (z_mono (S k) (S n) ltac:(lia) ltac:(lia)). lra.
  - destruct (Nat.eq_dec k (S n)) as [->|].
    + destruct H1; [lia|lra].
    + apply IHn; auto; lia.
Qed.
Lemma lay_in : forall k x, in_layer z N k x -> lay N x = k.
Proof.
  intros k x [Hk [H1 H2]]. apply lay_in'; auto. destruct H2; [auto|right; lra].
Qed.
Lemma lay_z : forall j, (j < N)%nat -> lay N (z (S j)) = j.
Proof.
  intros j Hj. apply lay_in'; try lia.
  - destruct j; [auto|right]. apply Hz; lia.
  - right. lra.
Qed.

Lemma lay_right : forall j, (j < N)%nat -> at_right (z (S j)) (fun t => lay N t = S j).
Proof.
  intros j Hj. destruct (Nat.eq_dec (S j) N) as [E|].
  - apply filter_imp with (fun t => (z (S j) < t)%R).
    + intros t Ht. apply lay_in. split; [lia|split; [right; exact Ht|left; exact E]].
    + unfold at_right, within. apply filter_forall. auto.
  - assert (L : (z (S j) < z (S (S j)))%R) by (apply Hz; lia).
    unfold at_right, within. eapply filter_imp; [|apply (open_lt (z (S (S j)))); exact L].
    intros t Ht1 Ht2. apply lay_in. split; [lia|split; right; assumption].
Qed.
Lemma lay_left : forall j, (j < N)%nat -> at_left (z (S j)) (fun t => lay N t = j).
Proof.
  intros j Hj. destruct (Nat.eq_dec j 0) as [E|].
  - apply filter_imp with (fun t => (t < z (S j))%R).
    + intros t Ht. apply lay_in. split; [lia|split; [left; exact E|right; exact Ht]].
    + unfold at_left, within. apply filter_forall. auto.
  - assert (L : (z j < z (S j))%R) by (apply Hz; lia).
    unfold at_left, within. eapply filter_imp; [|apply (open_gt (z j)); exact L].
    intros t Ht1 Ht2. apply lay_in. split; [lia|split; right; assumption].
Qed.

End Lay.

Section BVP.
Variables (e w g : nat -> C) (z : nat -> R) (N : nat).
Hypothesis PAS : passive_mode e w g z N.
Variables (pm : C) (s : nat) (zs : R).
Hypothesis Hpm : pm1 pm.
Hypothesis Hs : (s <= N)%nat.
Notation Gm sg k x := (G_mode e g z N pm sg s k zs x false).

Let REG : regular e g z N := passive_regular e w g z N PAS.

Lemma dec_split_d : forall k x a b, dec g k (x - a) = dec g k (b - a) * dec g k (x - b).
Proof. intros. rewrite <- dec_plus. apply f_equal. ring. Qed.
Lemma dec_split_u : forall k x a b, dec g k (a - x) = dec g k (a - b) * dec g k (b - x).
Proof. intros. rewrite <- dec_plus. apply f_equal. ring. Qed.

Lemma wf_same : exists a b : C, (s = 0%nat -> a = 0) /\ (s = N -> b = 0) /\
  forall sg x, Gm sg s x = wave g s zs a b sg x + G_dir g pm sg s zs x.
Proof.
  exists (pm * (Rup e g z s * bsu e g z N pm s zs / Ms e g z N s) * dec g s (zs - z s)),
         (Rdn e g z N s * bsd e g z pm s zs / Ms e g z N s * dec g s (z (S s) - zs)).
  split; [|split].
  - intros ->. change (Rup e g z 0) with (RtoC 0). unfold Cdiv. ring.
  - intros ->. rewrite Rdn_N. unfold Cdiv. ring.
  - intros sg x. unfold G_mode. rewrite Nat.eqb_refl. f_equal. unfold G_same, wave.
    rewrite (dec_split_u s x (z (S s)) zs), (dec_split_d s x (z s) zs). ring.
Qed.

Lemma wf_dn : forall k, (s < k <= N)%nat -> exists a b : C, (k = N -> b = 0) /\
  forall sg x, Gm sg k x = wave g k zs a b sg x.
Proof.
  intros k Hk.
  exists (amp_dn e g z N pm s k zs * dec g k (zs - z k)),
         (amp_dn e g z N pm s k zs * (Rdn e g z N k * E1 g z k) * dec g k (z (S k) - zs)).
  split.
  - intros ->. rewrite Rdn_N. ring.
  - intros sg x. unfold G_mode. destruct (Nat.eqb_spec s k); [lia|].
    destruct (Nat.ltb_spec k s); [lia|]. unfold G_dn, wave.
    rewrite (dec_split_u k x (z (S k)) zs), (dec_split_d k x (z k) zs). ring.
Qed.

Lemma wf_up : forall k, (k < s)%nat -> exists a b : C, (k = 0%nat -> a = 0) /\
  forall sg x, Gm sg k x = wave g k zs a b sg x.
Proof.
  intros k Hk.
  exists (amp_up e g z N pm s k zs * (Rup e g z k * E1 g z k) * dec g k (zs - z k)),
         (amp_up e g z N pm s k zs * dec g k (z (S k) - zs)).
  split.
  - intros ->. change (Rup e g z 0) with (RtoC 0). ring.
  - intros sg x. unfold G_mode. destruct (Nat.eqb_spec s k); [lia|].
    destruct (Nat.ltb_spec k s); [|lia]. unfold G_up, wave.
    rewrite (dec_split_u k x (z (S k)) zs), (dec_split_d k x (z k) zs). ring.
Qed.

Lemma dir_right : forall sg x, (zs < x)%R -> G_dir g pm sg s zs x = wave g s zs 1 0 sg x.
Proof.
  intros. unfold G_dir, wave. rewrite dsgn_pos by lra.
  rewrite Rabs_left by lra. replace (- (zs - x))%R with (x - zs)%R by ring. ring.
Qed.
Lemma dir_left : forall sg x, pm1 sg -> (x < zs)%R -> G_dir g pm sg s zs x = wave g s zs 0 pm sg x.
Proof.
  intros. unfold G_dir, wave. rewrite dsgn_neg by (auto; lra).
  rewrite Rabs_right by lra. ring.
Qed.
Lemma wave_plus : forall k a b a' b' sg x,
  wave g k zs a b sg x + wave g k zs a' b' sg x = wave g k zs (a + a') (b + b') sg x.
Proof. intros. unfold wave. ring. Qed.

(** Either form, on one side of the source. *)
Lemma wf_below : forall k, (s <= k <= N)%nat -> exists a b : C, (k = N -> b = 0) /\
  forall sg x, (k = s -> zs < x)%R -> Gm sg k x = wave g k zs a b sg x.
Proof.
  intros k Hk. destruct (Nat.eq_dec k s) as [->|].
  - destruct wf_same as [a [b [H1 [H2 H3]]]]. exists (a + 1), (b + 0). split.
    + intros E. rewrite H2 by assumption. ring.
    + intros sg x Hx. rewrite H3, dir_right by auto. apply wave_plus.
  - destruct (wf_dn k ltac:(lia)) as [a [b [H1 H2]]]. exists a, b. split; auto.
Qed.
Lemma wf_above : forall k, (k <= s)%nat -> exists a b : C, (k = 0%nat -> a = 0) /\
  forall sg x, pm1 sg -> (k = s -> x < zs)%R -> Gm sg k x = wave g k zs a b sg x.
Proof.
  intros k Hk. destruct (Nat.eq_dec k s) as [->|].
  - destruct wf_same as [a [b [H1 [H2 H3]]]]. exists (a + 0), (b + pm). split.
    + intros E. rewrite H1 by assumption. ring.
    + intros sg x Hp Hx. rewrite H3, dir_left by auto. apply wave_plus.
  - destruct (wf_up k ltac:(lia)) as [a [b [H1 H2]]]. exists a, b. split; auto.
Qed.

(** Locally around any depth other than the source depth. *)
Lemma wf_loc : forall k x, (k <= N)%nat -> (k = s -> x <> zs) -> exists a b : C,
  locally x (fun t => forall sg, pm1 sg -> Gm sg k t = wave g k zs a b sg t).
Proof.
  intros k x Hk Hx. destruct (le_lt_dec k s) as [H|H].
  - destruct (Nat.eq_dec k s) as [->|].
    + specialize (Hx eq_refl). destruct (Rlt_dec x zs).
      * destruct (wf_above s ltac:(lia)) as [a [b [_ Hab]]]. exists a, b.
        eapply filter_imp; [|apply (open_lt zs); eassumption]. intros t Ht sg Hg. apply Hab; auto.
      * destruct (wf_below s ltac:(lia)) as [a [b [_ Hab]]]. exists a, b.
        eapply filter_imp; [|apply (open_gt zs); lra]. intros t Ht sg Hg. apply Hab; auto.
    + destruct (wf_above k H) as [a [b [_ Hab]]]. exists a, b. apply filter_forall. intros t sg Hg.
      apply Hab; auto; contradiction.
  - destruct (wf_below k ltac:(lia)) as [a [b [_ Hab]]]. exists a, b. apply filter_forall. intros t sg Hg.
      apply Hab; lia.
Qed.

Lemma pm1_opp : forall sg, pm1 sg -> pm1 (- sg).
Proof. intros sg [->| ->]; [right|left]; ring. Qed.

Lemma Gm_deriv : forall sg k x, pm1 sg -> (k <= N)%nat -> (k = s -> x <> zs) ->
  is_deriveC (fun t => Gm sg k t) x (g k * Gm (- sg) k x).
Proof.
  intros sg k x Hg Hk Hx. destruct (wf_loc k x Hk Hx) as [a [b H]].
  apply (is_deriveC_ext_loc (wave g k zs a b sg)).
  - eapply filter_imp; [|exact H]. intros t Ht. symmetry. now apply Ht.
  - apply locally_singleton in H. rewrite H by now apply pm1_opp. apply wave_deriv.
Qed.

Lemma Gm_cont : forall sg k x, pm1 sg -> (k <= N)%nat -> (k = s -> x <> zs) ->
  contC (fun t => Gm sg k t) x.
Proof. intros. eapply is_deriveC_cont. apply Gm_deriv; assumption. Qed.

Hypothesis Hz : forall k, (1 <= k < N)%nat -> (z k < z (S k))%R.

(** ** The solution *)
Hypothesis Hin : in_layer z N s zs.

Definition fP (x : R) : C := wsrc e g pm s * Gm 1 (lay z N x) x.
Definition fQ (x : R) : C := wsrc e g pm s * (wgt e g (- (1)) (lay z N x) * Gm (- (1)) (lay z N x) x).

Lemma lay_loc : forall k x, in_layer z N k x -> locally x (fun t => lay z N t = k).
Proof. intros k x H. eapply filter_imp; [|apply in_layer_open; exact H]. intros. now apply (lay_in z N Hz). Qed.

Lemma p1 : pm1 1. Proof. left; reflexivity. Qed.
Lemma pm1' : pm1 (- (1)). Proof. right; reflexivity. Qed.
Lemma e_nz' : forall k, (k <= N)%nat -> e k <> 0. Proof. exact (pas_e0 _ _ _ _ _ PAS). Qed.
Lemma g_nz' : forall k, (k <= N)%nat -> g k <> 0. Proof. exact (pas_gnz e w g z N PAS). Qed.

Lemma contC_lr : forall (f : R -> C) x, limC f (at_right x) (f x) -> limC f (at_left x) (f x) -> contC f x.
Proof.
  intros f x [R1 R2] [L1 L2]. split.
  - eapply filterlim_ext; [|exact (glue_cont (fun t => fst (f t)) x (fst (f x)) R1 L1)].
    intros t. simpl. destruct (Req_EM_T t x) as [->|]; reflexivity.
  - eapply filterlim_ext; [|exact (glue_cont (fun t => snd (f t)) x (snd (f x)) R2 L2)].
    intros t. simpl. destruct (Req_EM_T t x) as [->|]; reflexivity.
Qed.

Lemma src_not_iface : forall k, (1 <= k <= N)%nat -> zs <> z k.
Proof.
  intros k Hk E. destruct Hin as [_ [H1 H2]].
  destruct (le_lt_dec k s).
  - destruct H1; [lia|]. destruct (Nat.eq_dec k s) as [->|]; [lra|].
    pose proof (z_mono z N Hz k s ltac:(lia) ltac:(lia)). lra.
  - destruct H2; [lia|]. destruct (Nat.eq_dec k (S s)) as [->|]; [lra|].
    pose proof (z_mono z N Hz (S s) k ltac:(lia) ltac:(lia)). lra.
Qed.

(** Continuity of c * wgt sg * G at interfaces, for both parities. *)
Lemma iface_cont : forall c sg j, pm1 sg -> (j < N)%nat ->
  contC (fun x => c * (wgt e g sg (lay z N x) * Gm sg (lay z N x) x)) (z (S j)).
Proof.
  intros c sg j Hg Hj.
  assert (Hne : zs <> z (S j)) by (apply src_not_iface; lia).
  assert (CONT : forall k, (k <= N)%nat -> contC (fun x => c * (wgt e g sg k * Gm sg k x)) (z (S j))).
  { intros k Hk. apply limC_scal. apply limC_scal. apply Gm_cont; auto. }
  apply contC_lr.
  - apply (limC_ext_loc (fun x => c * (wgt e g sg (S j) * Gm sg (S j) x))).
    + eapply filter_imp; [|apply (lay_right z N Hz); exact Hj]. intros t Ht. now rewrite Ht.
    + rewrite (lay_z z N Hz) by exact Hj. rewrite (G_mode_continuous e g z N REG); auto.
      * eapply limC_sub; [|apply (CONT (S j)); lia]. apply at_right_locally.
      * exact e_nz'.
      * intros E. destruct Hin as [_ [_ H]]. rewrite E in H. destruct H; [lia|assumption].
      * intros E. destruct Hin as [_ [H _]]. rewrite E in H. destruct H; [lia|assumption].
  - apply (limC_ext_loc (fun x => c * (wgt e g sg j * Gm sg j x))).
    + eapply filter_imp; [|apply (lay_left z N Hz); exact Hj]. intros t Ht. now rewrite Ht.
    + rewrite (lay_z z N Hz) by exact Hj.
      eapply limC_sub; [|apply (CONT j); lia]. apply at_left_locally.
Qed.

Lemma wave_lim : forall k a b sg, limC (wave g k zs a b sg) (locally zs) (sg * a + b).
Proof.
  intros. replace (sg * a + b) with (wave g k zs a b sg zs).
  - exact (is_deriveC_cont _ _ _ (wave_deriv g k zs a b sg zs)).
  - unfold wave. replace (zs - zs)%R with 0%R by ring. rewrite dec_0. ring.
Qed.

(** Jump of c * wgt sg * G at the source. *)
Lemma src_jump : forall c sg, pm1 sg ->
  let f := (fun x => c * (wgt e g sg (lay z N x) * Gm sg (lay z N x) x)) in
  exists a b : C, limC f (at_right zs) a /\ limC f (at_left zs) b /\
    Cminus a b = c * (wgt e g sg s * (sg - pm)).
Proof.
  intros c sg Hg f. destruct wf_same as [a [b [_ [_ H]]]].
  exists (c * (wgt e g sg s * (sg * (a + 1) + (b + 0)))), (c * (wgt e g sg s * (sg * (a + 0) + (b + pm)))).
  pose proof (lay_loc s zs Hin) as LL.
  split; [|split].
  - apply (limC_ext_loc (fun x => c * (wgt e g sg s * wave g s zs (a + 1) (b + 0) sg x))).
    + assert (K : at_right zs (fun t => lay z N t = s /\ (zs < t)%R)).
      { apply filter_and; [apply at_right_locally; exact LL|unfold at_right, within; apply filter_forall; auto]. }
      eapply filter_imp; [|exact K]. intros t [T1 T2]. unfold f. rewrite T1, H, dir_right by exact T2.
      now rewrite wave_plus.
    + eapply limC_sub; [apply at_right_locally|]. apply limC_scal, limC_scal, wave_lim.
  - apply (limC_ext_loc (fun x => c * (wgt e g sg s * wave g s zs (a + 0) (b + pm) sg x))).
    + assert (K : at_left zs (fun t => lay z N t = s /\ (t < zs)%R)).
      { apply filter_and; [apply at_left_locally; exact LL|unfold at_left, within; apply filter_forall; auto]. }
      eapply filter_imp; [|exact K]. intros t [T1 T2]. unfold f. rewrite T1, H, dir_left by auto.
      now rewrite wave_plus.
    + eapply limC_sub; [apply at_left_locally|]. apply limC_scal, limC_scal, wave_lim.
  - ring.
Qed.

Lemma z1_bound : forall k, (1 <= k <= N)%nat -> (z 1%nat <= z k)%R.
Proof. intros k Hk. destruct (Nat.eq_dec k 1) as [->|]; [lra|]. left. apply (z_mono z N Hz); lia. Qed.

Lemma far_inf : forall c sg, pm1 sg ->
  let f := (fun x => c * (wgt e g sg (lay z N x) * Gm sg (lay z N x) x)) in
  limC f (Rbar_locally p_infty) 0 /\ limC f (Rbar_locally m_infty) 0.
Proof.
  intros c sg Hg f. split.
  - destruct (wf_below N ltac:(lia)) as [a [b [Hb H]]].
    apply (limC_ext_loc (fun x => c * (wgt e g sg N * (sg * a * dec g N (x - zs))))).
    + exists (Rmax zs (z N)). intros t Ht. pose proof (Rmax_l zs (z N)). pose proof (Rmax_r zs (z N)).
      unfold f. rewrite (lay_in z N Hz N t).
      2:{ split; [lia|split; [right; lra|left; reflexivity]]. }
      rewrite H by (intros; lra). rewrite Hb by reflexivity. unfold wave. ring.
    + replace (RtoC 0) with (c * (wgt e g sg N * (sg * a * 0))) by ring.
      do 3 apply limC_scal. apply dec_inf. apply (pas_g _ _ _ _ _ PAS). lia.
  - destruct (wf_above 0 ltac:(lia)) as [a [b [Hb H]]].
    apply (limC_ext_loc (fun x => c * (wgt e g sg 0 * (b * dec g 0 (zs - x))))).
    + exists (Rmin zs (z 1%nat)). intros t Ht. pose proof (Rmin_l zs (z 1%nat)). pose proof (Rmin_r zs (z 1%nat)).
      unfold f. rewrite (lay_in z N Hz 0 t).
      2:{ split; [lia|split; [left; reflexivity|right; lra]]. }
      rewrite H by (auto; intros; lra). rewrite Hb by reflexivity. unfold wave. ring.
    + replace (RtoC 0) with (c * (wgt e g sg 0 * (b * 0))) by ring.
      do 3 apply limC_scal. apply dec_inf. apply (pas_g _ _ _ _ _ PAS). lia.
Qed.

Lemma fP_alt : forall x, fP x = wsrc e g pm s * (wgt e g 1 (lay z N x) * Gm 1 (lay z N x) x).
Proof. intros. unfold fP. rewrite wgt_1. ring. Qed.

Definition jumpP : C := wsrc e g pm s * (1 - pm).
Definition jumpQ : C := wsrc e g pm s * (wgt e g (- (1)) s * (- (1) - pm)).

Theorem fPQ_bvp : bvp e w z N zs jumpP jumpQ fP fQ.
Proof.
  constructor.
  - intros k x Hk Hx. pose proof (e_nz' k (proj1 Hk)) as En.
    apply (is_deriveC_ext_loc (fun t => wsrc e g pm s * Gm 1 k t)).
    + eapply filter_imp; [|apply lay_loc; exact Hk]. intros t Ht. unfold fP. now rewrite Ht.
    + unfold fQ. rewrite (lay_in z N Hz k x Hk), wgt_m1.
      replace (e k * (wsrc e g pm s * (g k / e k * Gm (- (1)) k x)))
        with (wsrc e g pm s * (g k * Gm (- (1)) k x)) by (field; exact En).
      apply is_deriveC_scal. apply Gm_deriv; [apply p1|apply Hk|auto].
  - intros k x Hk Hx. pose proof (e_nz' k (proj1 Hk)) as En.
    apply (is_deriveC_ext_loc (fun t => wsrc e g pm s * (g k / e k * Gm (- (1)) k t))).
    + eapply filter_imp; [|apply lay_loc; exact Hk]. intros t Ht. unfold fQ. now rewrite Ht, wgt_m1.
    + unfold fP. rewrite (lay_in z N Hz k x Hk).
      replace (w k * (wsrc e g pm s * Gm 1 k x))
        with (wsrc e g pm s * (g k / e k * (g k * Gm (- - (1)) k x))).
      * apply is_deriveC_scal. apply is_deriveC_scal. apply Gm_deriv; [apply pm1'|apply Hk|auto].
      * replace (- - (1)) with (RtoC 1) by ring.
        replace (wsrc e g pm s * (g k / e k * (g k * Gm 1 k x)))
          with (wsrc e g pm s * ((g k * g k) / e k * Gm 1 k x)) by (field; exact En).
        rewrite (pas_gg _ _ _ _ _ PAS k (proj1 Hk)). field. exact En.
  - intros k Hk Hx. destruct k as [|j]; [lia|]. split.
    + pose proof (iface_cont (wsrc e g pm s) 1 j p1 ltac:(lia)) as [A B].
      change (limC fP (locally (z (S j))) (fP (z (S j)))). rewrite (fP_alt (z (S j))).
      eapply limC_ext_loc; [|split; [exact A|exact B]].
      apply filter_forall. intros; now rewrite fP_alt.
    + apply iface_cont; [apply pm1'|lia].
  - destruct (src_jump (wsrc e g pm s) 1 p1) as [a [b [A [B E]]]]. exists a, b. split; [|split].
    + eapply limC_ext_loc; [|exact A]. apply filter_forall. intros; now rewrite fP_alt.
    + eapply limC_ext_loc; [|exact B]. apply filter_forall. intros; now rewrite fP_alt.
    + rewrite E. unfold jumpP. rewrite wgt_1. ring.
  - destruct (src_jump (wsrc e g pm s) (- (1)) pm1') as [a [b [A [B E]]]]. exists a, b.
    split; [exact A|split; [exact B|]]. rewrite E. reflexivity.
  - destruct (far_inf (wsrc e g pm s) 1 p1) as [A B].
    destruct (far_inf (wsrc e g pm s) (- (1)) pm1') as [C D].
    split; [|split; [exact C|split; [|exact D]]].
    + eapply limC_ext_loc; [|exact A]. apply filter_forall. intros; now rewrite fP_alt.
    + eapply limC_ext_loc; [|exact B]. apply filter_forall. intros; now rewrite fP_alt.
Qed.
End BVP.

(** The jumps. *)
Lemma jump_plus : forall (e g : nat -> C) s, e s <> 0 -> g s <> 0 ->
  jumpP e g 1 s = 0 /\ jumpQ e g 1 s = - (1 + 1).
Proof.
  intros e g s He Hg. unfold jumpP, jumpQ. rewrite wsrc_1, wgt_m1. split.
  - ring.
  - field. repeat split; assumption.
Qed.
Lemma jump_minus : forall e g s, jumpP e g (- (1)) s = 1 + 1 /\ jumpQ e g (- (1)) s = 0.
Proof.
  intros e g s. unfold jumpP, jumpQ. rewrite wsrc_m1. split; ring.
Qed.
