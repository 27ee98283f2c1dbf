(** The response of the kernel depends continuously on all parameters of the model and of the survey. *)

From Coq Require Import Reals ZArith List Bool Lia Lra.
From Coquelicot Require Import Coquelicot.
From Verif Require Import PyBase CBase ODE Sommer Cint Kernel KernelSpec KernelClosed KernelPassive KernelPhys KernelMain KernelBVP KernelThm KernelThm2 KernelDeep.
Import ListNotations.
Local Open Scope R_scope.
Local Open Scope C_scope.

Section Lim.
Context {T : Type} (F : (T -> Prop) -> Prop) {FF : Filter F}.

(** Limits along F, of reals and (by components) of complex numbers. *)
Definition toR (f : T -> R) (l : R) : Prop := filterlim f F (locally l).
Definition toC (f : T -> C) (l : C) : Prop := toR (fun t => fst (f t)) (fst l) /\ toR (fun t => snd (f t)) (snd l).

Lemma toR_const : forall a, toR (fun _ => a) a. Proof using FF. intros. apply filterlim_const. Qed.
Lemma toR_plus : forall f h a b, toR f a -> toR h b -> toR (fun t => f t + h t)%R (a + b)%R.
Proof using FF. intros. eapply filterlim_comp_2; eauto. apply (filterlim_plus (K:=R_AbsRing) (V:=R_NormedModule)). Qed.
Lemma toR_mult : forall f h a b, toR f a -> toR h b -> toR (fun t => f t * h t)%R (a * b)%R.
Proof using FF. intros. eapply filterlim_comp_2; eauto. apply (filterlim_mult (K:=R_AbsRing)). Qed.
Lemma toR_comp : forall f (u : R -> R) a, continuous u a -> toR f a -> toR (fun t => u (f t)) (u a).
Proof using FF. intros f u a H1 H2. apply (filterlim_comp _ _ _ f u F (locally a)); assumption. Qed.
Lemma toR_opp : forall f a, toR f a -> toR (fun t => - f t)%R (- a)%R.
Proof using FF. intros f a H. apply (toR_comp f Ropp); [|exact H]. apply (filterlim_opp (V := R_NormedModule) a). Qed.
Lemma toR_minus : forall f h a b, toR f a -> toR h b -> toR (fun t => f t - h t)%R (a - b)%R.
Proof using FF. intros f h a b H1 H2. unfold Rminus. apply toR_plus; [assumption|now apply toR_opp]. Qed.
Lemma toR_inv : forall f a, a <> 0%R -> toR f a -> toR (fun t => / f t)%R (/ a)%R.
Proof using FF. intros f a Ha H. apply (toR_comp f Rinv); [|exact H]. now apply continuous_Rinv. Qed.
Lemma toR_eps : forall f l, toR f l <-> (forall e : R, (0 < e)%R -> F (fun t => (Rabs (f t - l) < e)%R)).
Proof using FF.
  intros f l. split.
  - intros H e He. apply (H (fun x => Rabs (x - l) < e)%R). exists (mkposreal e He). intros y Hy. exact Hy.
  - intros H P [d HP]. unfold filtermap. apply (filter_imp (fun t => (Rabs (f t - l) < d)%R)); [intros t Ht; apply HP; exact Ht|]. apply H. apply cond_pos.
Qed.
Lemma toR_lt : forall f h a b, toR f a -> toR h b -> (a < b)%R -> F (fun t => (f t < h t)%R).
Proof using FF.
  intros f h a b H1 H2 L. apply (filter_imp (fun t => (Rabs (f t - a) < (b - a) / 2)%R /\ (Rabs (h t - b) < (b - a) / 2)%R)).
  - intros t [A B]. apply Rabs_def2 in A, B. lra.
  - apply filter_and; [apply (proj1 (toR_eps f a) H1)|apply (proj1 (toR_eps h b) H2)]; lra.
Qed.
Lemma toC_eps : forall f l, toC f l <-> (forall e : R, (0 < e)%R -> F (fun t => (Cmod (Cminus (f t) l) < e)%R)).
Proof using FF.
  intros f l. split.
  - intros [A B] e He. apply (filter_imp (fun t => (Rabs (fst (f t) - fst l) < e / 2)%R /\ (Rabs (snd (f t) - snd l) < e / 2)%R)).
    + intros t [X Y]. eapply Rle_lt_trans; [apply Cmod_le_sum|]. cbn [fst snd Cminus Cplus Copp]. unfold Rminus in *. lra.
    + apply filter_and; [apply (proj1 (toR_eps _ _) A)|apply (proj1 (toR_eps _ _) B)]; lra.
  - intros H. split; apply toR_eps; intros e He; (eapply filter_imp; [|exact (H e He)]); intros t Ht; (eapply Rle_lt_trans; [|exact Ht]); pose proof (Rmax_Cmod (f t - l)) as M; cbn [fst snd Cminus Cplus Copp] in M; unfold Rminus; (eapply Rle_trans; [|exact M]); [apply Rmax_l|apply Rmax_r].
Qed.
Lemma toC_const : forall c, toC (fun _ => c) c. Proof using FF. intros. split; apply toR_const. Qed.
Lemma toC_ext : forall f h l, (forall t, f t = h t) -> toC f l -> toC h l.
Proof using FF. intros f h l E H. apply toC_eps. intros e He. eapply filter_imp; [|exact (proj1 (toC_eps f l) H e He)]. intros t Ht. cbn beta in *. now rewrite <- E. Qed.
Lemma toC_plus : forall f h a b, toC f a -> toC h b -> toC (fun t => f t + h t) (a + b).
Proof using FF. intros f h a b [A B] [A' B']. split; cbn [fst snd Cplus]; now apply toR_plus. Qed.
Lemma toC_opp : forall f a, toC f a -> toC (fun t => - f t) (- a).
Proof using FF. intros f a [A B]. split; cbn [fst snd Copp]; now apply toR_opp. Qed.
Lemma toC_minus : forall f h a b, toC f a -> toC h b -> toC (fun t => f t - h t) (a - b).
Proof using FF. intros. unfold Cminus. apply toC_plus; [assumption|now apply toC_opp]. Qed.
Lemma toC_mult : forall f h a b, toC f a -> toC h b -> toC (fun t => f t * h t) (a * b).
Proof using FF. intros f h a b [A B] [A' B']. split; cbn [fst snd Cmult]; [apply toR_minus|apply toR_plus]; now apply toR_mult. Qed.
Lemma toC_inv : forall f (l : C), l <> 0 -> toC f l -> toC (fun t => / f t) (/ l).
Proof using FF.
  intros f l Hl [A B].
  assert (Q : (fst l ^ 2 + snd l ^ 2)%R <> 0%R).
  { intros W. apply Hl. pose proof (pow2_ge_0 (fst l)). pose proof (pow2_ge_0 (snd l)). assert (X : (fst l ^ 2 = 0)%R) by lra. assert (Y : (snd l ^ 2 = 0)%R) by lra.
    apply injective_projections; cbn [fst snd RtoC]; [destruct (Req_dec (fst l) 0) as [E|E]|destruct (Req_dec (snd l) 0) as [E|E]]; try assumption; exfalso; apply (pow_nonzero _ 2) in E; lra. }
  assert (D : toR (fun t => / (fst (f t) ^ 2 + snd (f t) ^ 2))%R (/ (fst l ^ 2 + snd l ^ 2))%R).
  { apply toR_inv; [exact Q|]. cbn [pow]. apply toR_plus; (apply toR_mult; [assumption|apply toR_mult; [assumption|apply toR_const]]). }
  split; unfold Cinv; cbn [fst snd]; unfold Rdiv; apply toR_mult; try assumption. now apply toR_opp.
Qed.
Lemma toC_div : forall f h (a b : C), b <> 0 -> toC f a -> toC h b -> toC (fun t => f t / h t) (a / b).
Proof using FF. intros. unfold Cdiv. apply toC_mult; [assumption|now apply toC_inv]. Qed.
Lemma toC_RtoC : forall f a, toR f a -> toC (fun t => RtoC (f t)) (RtoC a).
Proof using FF. intros. split; cbn [fst snd RtoC]; [assumption|apply toR_const]. Qed.
Lemma toC_exp : forall f a, toC f a -> toC (fun t => Cexp (f t)) (Cexp a).
Proof using FF.
  intros f a [A B]. split; unfold Cexp; cbn [fst snd]; apply toR_mult.
  1,3: apply (toR_comp _ exp); [apply continuous_exp|exact A].
  - apply (toR_comp _ cos); [apply continuous_cos|exact B].
  - apply (toR_comp _ sin); [apply continuous_sin|exact B].
Qed.
(** The principal root is continuous wherever its real part is positive. *)
Lemma toC_sqrt : forall f a, (0 < fst (Csqrt a))%R -> toC f a -> toC (fun t => Csqrt (f t)) (Csqrt a).
Proof using FF.
  intros f a P H. apply toC_eps. intros e He. eapply filter_imp; [|exact (proj1 (toC_eps f a) H (e * fst (Csqrt a))%R ltac:(now apply Rmult_lt_0_compat))].
  intros t Ht. cbn beta in Ht. set (u := Csqrt (f t)) in *. set (w := Csqrt a) in *.
  assert (E : f t - a = (u - w) * (u + w)). { unfold u, w. rewrite <- (Csqrt_sqr (f t)) at 1. rewrite <- (Csqrt_sqr a) at 1. ring. }
  rewrite E, Cmod_mult in Ht. assert (L : (fst w <= Cmod (Cplus u w))%R).
  { eapply Rle_trans; [|eapply Rle_trans; [apply Rmax_l|apply Rmax_Cmod]]. cbn [fst Cplus]. eapply Rle_trans; [|apply Rle_abs]. pose proof (Csqrt_Re_ge_0 (f t)) as X. fold u in X. lra. }
  apply (Rmult_lt_reg_r (fst w)); [exact P|]. eapply Rle_lt_trans; [|exact Ht]. apply Rmult_le_compat_l; [apply Cmod_ge_0|exact L].
Qed.
Lemma toC_prod : forall (f : T -> nat -> C) (l : nat -> C) n a, (forall k, (a <= k < a + n)%nat -> toC (fun t => f t k) (l k)) -> toC (fun t => prodC (f t) a n) (prodC l a n).
Proof using FF. intros f l n. induction n; intros a H; cbn [prodC]; [apply toC_const|]. apply toC_mult; [apply H; lia|]. apply IHn. intros k Hk. apply H. lia. Qed.

(** ** One mode *)
Section Mode.
Variables (e g : T -> nat -> C) (z : T -> nat -> R) (e0 g0 : nat -> C) (z0 : nat -> R) (N : nat).
Hypothesis He : forall k, (k <= N)%nat -> toC (fun t => e t k) (e0 k).
Hypothesis Hg : forall k, (k <= N)%nat -> toC (fun t => g t k) (g0 k).
Hypothesis Hz : forall k, toR (fun t => z t k) (z0 k).
Hypothesis REG : regular e0 g0 z0 N.

Lemma c_dec : forall k d d0, (k <= N)%nat -> toR d d0 -> toC (fun t => dec (g t) k (d t)) (dec g0 k d0).
Proof using FF Hg. intros k d d0 Hk Hd. unfold dec. apply toC_exp, toC_opp, toC_mult; [now apply Hg|now apply toC_RtoC]. Qed.
Lemma c_thick : forall k, toR (fun t => thick (z t) k) (thick z0 k).
Proof using FF Hz. intros k. unfold thick. now apply toR_minus. Qed.
Lemma c_E1 : forall k, (k <= N)%nat -> toC (fun t => E1 (g t) (z t) k) (E1 g0 z0 k).
Proof using FF Hg Hz. intros k Hk. unfold E1. apply c_dec; [exact Hk|apply c_thick]. Qed.
Lemma c_E2 : forall k, (k <= N)%nat -> toC (fun t => E2 (g t) (z t) k) (E2 g0 z0 k).
Proof using FF Hg Hz. intros k Hk. unfold E2. apply toC_exp, toC_opp, toC_mult; [apply toC_mult; [apply toC_const|now apply Hg]|apply toC_RtoC, c_thick]. Qed.
Lemma c_rl : forall k, (k < N)%nat -> toC (fun t => rl (e t) (g t) k) (rl e0 g0 k).
Proof using FF He Hg REG.
  intros k Hk. unfold rl. apply toC_div; [apply (reg_rl _ _ _ _ REG k Hk)|apply toC_minus|apply toC_plus]; apply toC_mult; first [apply He; lia|apply Hg; lia].
Qed.
Lemma c_Rd : forall j, (j <= N)%nat -> toC (fun t => Rdn (e t) (g t) (z t) N (N - j)) (Rdn e0 g0 z0 N (N - j)).
Proof using FF He Hg Hz REG.
  induction j; intros Hj.
  - rewrite Nat.sub_0_r, Rdn_N. apply (toC_ext (fun _ => RtoC 0)); [intros t; now rewrite Rdn_N|apply toC_const].
  - specialize (IHj ltac:(lia)). rewrite Rdn_r by lia. apply (toC_ext (fun t => (rl (e t) (g t) (N - S j) + Rdn (e t) (g t) (z t) N (S (N - S j)) * E2 (g t) (z t) (S (N - S j))) / (1 + rl (e t) (g t) (N - S j) * (Rdn (e t) (g t) (z t) N (S (N - S j)) * E2 (g t) (z t) (S (N - S j)))))).
    + intros t. now rewrite <- Rdn_r by lia.
    + pose proof (reg_dn _ _ _ _ REG (N - S j)%nat ltac:(lia)) as DN. unfold den_dn in DN. replace (S (N - S j)) with (N - j)%nat in * by lia.
      pose proof (c_rl (N - S j) ltac:(lia)). pose proof (c_E2 (N - j) ltac:(lia)).
      apply toC_div; [exact DN|apply toC_plus; [assumption|now apply toC_mult]|apply toC_plus; [apply toC_const|apply toC_mult; [assumption|now apply toC_mult]]].
Qed.
Lemma c_Rdn : forall k, (k <= N)%nat -> toC (fun t => Rdn (e t) (g t) (z t) N k) (Rdn e0 g0 z0 N k).
Proof using FF He Hg Hz REG. intros k Hk. pose proof (c_Rd (N - k) ltac:(lia)) as L. now replace (N - (N - k))%nat with k in L by lia. Qed.
Lemma c_Rup : forall k, (k <= N)%nat -> toC (fun t => Rup (e t) (g t) (z t) k) (Rup e0 g0 z0 k).
Proof using FF He Hg Hz REG.
  induction k; intros Hk; cbn [Rup]; [apply toC_const|]. specialize (IHk ltac:(lia)). pose proof (c_rl k ltac:(lia)) as A. pose proof (c_E2 k ltac:(lia)) as B.
  apply toC_div; [apply (reg_up _ _ _ _ REG k ltac:(lia))|apply toC_plus|apply toC_plus; [apply toC_const|apply toC_mult]].
  1,3: now apply toC_opp. all: now apply toC_mult.
Qed.
Lemma c_Ms : forall s, (s <= N)%nat -> toC (fun t => Ms (e t) (g t) (z t) N s) (Ms e0 g0 z0 N s).
Proof using FF He Hg Hz REG. intros s Hs. unfold Ms. apply toC_minus; [apply toC_const|]. repeat apply toC_mult; [now apply c_Rup|now apply c_Rdn|now apply c_E2]. Qed.
Lemma c_bsd : forall pm s zs zs0, (s <= N)%nat -> toR zs zs0 -> toC (fun t => bsd (e t) (g t) (z t) pm s (zs t)) (bsd e0 g0 z0 pm s zs0).
Proof using FF He Hg Hz REG.
  intros pm s zs zs0 Hs H. unfold bsd. apply toC_plus; [apply c_dec; [exact Hs|now apply toR_minus]|]. apply toC_mult; [apply toC_mult; [apply toC_const|now apply c_Rup]|].
  apply c_dec; [exact Hs|]. apply toR_plus; [apply c_thick|now apply toR_minus].
Qed.
Lemma c_bsu : forall pm s zs zs0, (s <= N)%nat -> toR zs zs0 -> toC (fun t => bsu (e t) (g t) (z t) N pm s (zs t)) (bsu e0 g0 z0 N pm s zs0).
Proof using FF He Hg Hz REG.
  intros pm s zs zs0 Hs H. unfold bsu. apply toC_plus; [apply c_dec; [exact Hs|now apply toR_minus]|]. apply toC_mult; [apply toC_mult; [apply toC_const|now apply c_Rdn]|].
  apply c_dec; [exact Hs|]. apply toR_plus; [apply c_thick|now apply toR_minus].
Qed.
Lemma c_tdn : forall k, (k < N)%nat -> toC (fun t => tdn (e t) (g t) (z t) N k) (tdn e0 g0 z0 N k).
Proof using FF He Hg Hz REG.
  intros k Hk. unfold tdn. apply toC_div; [apply (regd _ _ _ _ REG); lia| |]; apply toC_plus; try apply toC_const; [apply c_Rdn; lia|apply toC_mult; [apply c_Rdn; lia|apply c_E2; lia]].
Qed.
Lemma c_tup : forall k, (k < N)%nat -> toC (fun t => tup (e t) (g t) (z t) k) (tup e0 g0 z0 k).
Proof using FF He Hg Hz REG.
  intros k Hk. unfold tup. apply toC_div; [apply (regu _ _ _ _ REG); lia| |]; apply toC_plus; try apply toC_const; [apply c_Rup; lia|apply toC_mult; [apply c_Rup; lia|apply c_E2; lia]].
Qed.
Lemma c_amp_dn : forall pm s r zs zs0, (s < r <= N)%nat -> toR zs zs0 -> toC (fun t => amp_dn (e t) (g t) (z t) N pm s r (zs t)) (amp_dn e0 g0 z0 N pm s r zs0).
Proof using FF He Hg Hz REG.
  intros pm s r zs zs0 H Hs. unfold amp_dn. apply toC_mult; [apply toC_mult; [apply toC_div; [apply (regM _ _ _ _ REG); lia|apply c_bsd; [lia|exact Hs]|apply c_Ms; lia]|apply c_tdn; lia]|].
  apply toC_prod. intros k Hk. apply toC_mult; [apply c_E1; lia|apply c_tdn; lia].
Qed.
Lemma c_amp_up : forall pm s r zs zs0, (r < s <= N)%nat -> toR zs zs0 -> toC (fun t => amp_up (e t) (g t) (z t) N pm s r (zs t)) (amp_up e0 g0 z0 N pm s r zs0).
Proof using FF He Hg Hz REG.
  intros pm s r zs zs0 H Hs. unfold amp_up. apply toC_mult; [apply toC_mult; [apply toC_div; [apply (regM _ _ _ _ REG); lia|apply toC_mult; [apply toC_const|apply c_bsu; [lia|exact Hs]]|apply c_Ms; lia]|apply c_tup; lia]|].
  apply toC_prod. intros k Hk. apply toC_mult; [apply c_E1; lia|apply c_tup; lia].
Qed.
Lemma toR_sign : forall f a, a <> 0%R -> toR f a -> toR (fun t => Rsign (f t)) (Rsign a).
Proof using FF.
  intros f a Ha H. apply toR_eps. intros d Hd. apply (filter_imp (fun t => Rsign (f t) = Rsign a)).
  - intros t ->. rewrite Rminus_diag_eq by reflexivity. now rewrite Rabs_R0.
  - destruct (Rtotal_order a 0) as [L|[L|L]]; [|contradiction|].
    + eapply filter_imp; [|exact (toR_lt f (fun _ => 0%R) a 0 H (toR_const 0) L)]. intros t Ht. unfold Rsign. repeat destruct (Rlt_dec _ _); try reflexivity; lra.
    + eapply filter_imp; [|exact (toR_lt (fun _ => 0%R) f 0 a (toR_const 0) H L)]. intros t Ht. unfold Rsign. repeat destruct (Rlt_dec _ _); try reflexivity; lra.
Qed.
Theorem c_mode : forall pm sg s r zs zr zs0 zr0 xd, (s <= N)%nat -> (r <= N)%nat -> toR zs zs0 -> toR zr zr0 -> (xd = false -> s = r -> zs0 <> zr0) ->
  toC (fun t => G_mode (e t) (g t) (z t) N pm sg s r (zs t) (zr t) xd) (G_mode e0 g0 z0 N pm sg s r zs0 zr0 xd).
Proof using FF He Hg Hz REG.
  intros pm sg s r zs zr zs0 zr0 xd Hs Hr Is Ir X. unfold G_mode. destruct (Nat.eqb_spec s r) as [E|E].
  - apply toC_plus.
    + unfold G_same. apply toC_plus.
      * apply toC_mult; [apply toC_div; [apply (regM _ _ _ _ REG); lia|apply toC_mult; [now apply c_Rdn|now apply c_bsd]|now apply c_Ms]|]. apply c_dec; [exact Hs|now apply toR_minus].
      * apply toC_mult; [apply toC_const|]. apply toC_mult; [apply toC_div; [apply (regM _ _ _ _ REG); lia|apply toC_mult; [now apply c_Rup|now apply c_bsu]|now apply c_Ms]|]. apply c_dec; [exact Hs|now apply toR_minus].
    + destruct xd; [apply toC_const|]. specialize (X eq_refl E). unfold G_dir. apply toC_mult.
      * apply c_dec; [exact Hs|]. apply (toR_comp _ Rabs); [apply continuous_Rabs|now apply toR_minus].
      * unfold dsgn. apply toC_mult; [apply toC_const|]. destruct (Ceq_dec _ _); [apply toC_const|]. apply toC_RtoC, toR_sign; [lra|now apply toR_minus].
  - destruct (Nat.ltb_spec r s).
    + unfold G_up. apply toC_mult; [apply c_amp_up; [lia|exact Is]|]. apply toC_plus; [apply c_dec; [exact Hr|now apply toR_minus]|].
      apply toC_mult; [apply toC_mult; [apply toC_mult; [apply toC_const|now apply c_Rup]|now apply c_E1]|apply c_dec; [exact Hr|now apply toR_minus]].
    + unfold G_dn. apply toC_mult; [apply c_amp_dn; [lia|exact Is]|]. apply toC_plus; [apply toC_mult; [apply toC_const|apply c_dec; [exact Hr|now apply toR_minus]]|].
      apply toC_mult; [apply toC_mult; [now apply c_Rdn|now apply c_E1]|apply c_dec; [exact Hr|now apply toR_minus]].
Qed.
End Mode.
End Lim.
