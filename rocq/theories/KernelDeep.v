(** The layers below a thick layer have no influence when its thickness grows. *)

From Coq Require Import Reals ZArith List Bool Lia Lra.
From Coquelicot Require Import Coquelicot.
From Verif Require Import PyBase CBase ODE Sommer Kernel KernelSpec KernelClosed KernelPassive KernelPhys KernelSym KernelSplit KernelMain KernelBVP KernelThm KernelThm2 KernelThin.
Import ListNotations.
Local Open Scope R_scope.
Local Open Scope C_scope.

(** All interfaces below layer N are moved down by D. *)
Definition deep (N : nat) (z : nat -> R) (D : R) (k : nat) : R := if (k <=? N)%nat then z k else (D + z k)%R.

Notation lim f l := (limC f (Rbar_locally p_infty) l).
Lemma lim_inv : forall (f : R -> C) (l : C), l <> 0 -> lim f l -> lim (fun t => / f t) (/ l).
Proof.
  intros f l Hl [F1 F2].
  assert (Q : (fst l ^ 2 + snd l ^ 2)%R <> 0%R).
  { intros W. apply Hl. pose proof (pow2_ge_0 (fst l)). pose proof (pow2_ge_0 (snd l)). assert (A : (fst l ^ 2 = 0)%R) by lra. assert (B : (snd l ^ 2 = 0)%R) by lra.
    apply injective_projections; cbn [fst snd RtoC]; [destruct (Req_dec (fst l) 0) as [E|E]|destruct (Req_dec (snd l) 0) as [E|E]]; try assumption; exfalso; apply (pow_nonzero _ 2) in E; lra. }
  assert (S2 : filterlim (fun t => / (fst (f t) ^ 2 + snd (f t) ^ 2))%R (Rbar_locally p_infty) (locally (/ (fst l ^ 2 + snd l ^ 2))%R)).
  { apply (filterlim_comp _ _ _ (fun t => fst (f t) ^ 2 + snd (f t) ^ 2)%R Rinv _ (locally (fst l ^ 2 + snd l ^ 2)%R)).
    - cbn [pow]. apply filterlim_Rplus; (apply filterlim_Rmult; [assumption|apply filterlim_Rmult; [assumption|apply filterlim_Rconst]]).
    - apply (continuous_Rinv _ Q). }
  split; unfold Cinv; cbn [fst snd]; unfold Rdiv.
  - apply filterlim_Rmult; assumption.
  - apply filterlim_Rmult; [|assumption]. apply (filterlim_comp _ _ _ (fun t => snd (f t)) Ropp _ (locally (snd l))); [assumption|]. apply (filterlim_opp (V := R_NormedModule) (snd l)).
Qed.
Lemma lim_div : forall (f h : R -> C) (a b : C), b <> 0 -> lim f a -> lim h b -> lim (fun t => f t / h t) (a / b).
Proof. intros f h a b H F G. unfold Cdiv. apply limC_mult; [assumption|]. now apply lim_inv. Qed.
Lemma lim_plus : forall (f h : R -> C) (a b : C), lim f a -> lim h b -> lim (fun t => f t + h t) (a + b).
Proof. intros. now apply (limC_plus _ (F := Rbar_locally p_infty)). Qed.
Lemma lim_same : forall (c : C), lim (fun _ => c) c.
Proof. intros. apply limC_const. Qed.
Lemma lim_prod : forall (f : R -> nat -> C) (l : nat -> C) n a, (forall k, (a <= k < a + n)%nat -> lim (fun t => f t k) (l k)) -> lim (fun t => prodC (f t) a n) (prodC l a n).
Proof. intros f l n. induction n; intros a H; cbn [prodC]; [apply lim_same|]. apply limC_mult; [apply H; lia|]. apply IHn. intros k Hk. apply H. lia. Qed.
Lemma lim_0l : forall (f h : R -> C) a, lim f 0 -> lim h a -> lim (fun t => f t * h t) 0.
Proof. intros f h a F G. apply (limC_eq _ (0 * a)); [now apply limC_mult|ring]. Qed.

Lemma Rdn_r : forall e g z M k, (k < M)%nat -> Rdn e g z M k = (rl e g k + Rdn e g z M (S k) * E2 g z (S k)) / (1 + rl e g k * (Rdn e g z M (S k) * E2 g z (S k))).
Proof. intros e0 g0 z0 M k H. unfold Rdn. replace (M - k)%nat with (S (M - S k)) by lia. reflexivity. Qed.

Section Deep.
Variables (e g : nat -> C) (z : nat -> R) (N M : nat).
Hypothesis HM : (N < M)%nat.
Hypothesis REG : regular e g z N.
Hypothesis Hg : (0 < fst (g N))%R.
Notation zB := (deep N z).
Notation c0 := (Rdn e g z M N).

Lemma z_le : forall D k, (k <= N)%nat -> zB D k = z k.
Proof. intros D k H. unfold deep. destruct (Nat.leb_spec k N); [reflexivity|lia]. Qed.
Lemma z_N : forall D, zB D (S N) = (D + z (S N))%R.
Proof. intros D. unfold deep. destruct (Nat.leb_spec (S N) N); [lia|reflexivity]. Qed.
Lemma tk_lt : forall D k, (k < N)%nat -> thick (zB D) k = thick z k.
Proof. intros D k H. unfold thick. now rewrite !z_le by lia. Qed.
Lemma tk_gt : forall D k, (N < k)%nat -> thick (zB D) k = thick z k.
Proof. intros D k H. unfold thick, deep. destruct (Nat.leb_spec k N), (Nat.leb_spec (S k) N); try lia. ring. Qed.
Lemma tk_N : forall D, thick (zB D) N = (D + thick z N)%R.
Proof. intros D. unfold thick. rewrite z_N, z_le by lia. ring. Qed.
Lemma E2_lt : forall D k, (k < N)%nat -> E2 g (zB D) k = E2 g z k.
Proof. intros D k H. unfold E2. now rewrite tk_lt by lia. Qed.
Lemma E1_lt : forall D k, (k < N)%nat -> E1 g (zB D) k = E1 g z k.
Proof. intros D k H. unfold E1. now rewrite tk_lt by lia. Qed.
Lemma Rd_const : forall D m k, (N <= k)%nat -> RdnF e g (zB D) m k = RdnF e g z m k.
Proof. intros D m. induction m; intros k H; [reflexivity|]. cbn [RdnF]. rewrite IHm by lia. unfold E2. now rewrite tk_gt by lia. Qed.
Lemma Rd_N' : forall D, Rdn e g (zB D) M N = c0.
Proof. intros D. unfold Rdn. now apply Rd_const. Qed.
Lemma Ru_B : forall D k, (k <= N)%nat -> Rup e g (zB D) k = Rup e g z k.
Proof. intros D k. induction k; intros H; [reflexivity|]. cbn [Rup]. rewrite IHk, E2_lt by lia. reflexivity. Qed.

(** ** Limits *)
Lemma dec_lim : forall a, lim (fun D => dec g N (D + a)%R) 0.
Proof using HM REG Hg.
  intros a. apply (limC_bound _ _ (fun D => exp (- (fst (g N) * (D + a))))%R 0%R).
  - intros D HD. unfold dec. replace (Cexp (- (g N * RtoC (D + a))) - 0) with (Cexp (- (g N * RtoC (D + a)))) by ring. rewrite Cmod_Cexp. apply Req_le. f_equal. cbn. ring.
  - apply (filterlim_comp _ _ _ (fun D => - (fst (g N) * (D + a)))%R exp _ (Rbar_locally m_infty)); [|apply is_lim_exp_m].
    intros P [B HB]. exists (- B / fst (g N) - a)%R. intros D HD. apply HB. assert (H : (- B / fst (g N) < D + a)%R) by lra. apply (Rmult_lt_compat_l _ _ _ Hg) in H. replace (fst (g N) * (- B / fst (g N)))%R with (- B)%R in H by (field; lra). lra.
Qed.
Lemma dec_lim' : forall a b, lim (fun D => dec g N (D + a + (D + b))%R) 0.
Proof using HM REG Hg.
  intros a b. apply (limC_ext_loc (fun D => dec g N (D + a)%R * dec g N (D + b)%R)).
  - apply filter_forall. intros D. unfold dec. rewrite <- Cexp_plus. f_equal. rewrite !RtoC_plus. ring.
  - eapply lim_0l; apply dec_lim.
Qed.
Lemma E2_lim : lim (fun D => E2 g (zB D) N) 0.
Proof using HM REG Hg.
  apply (limC_ext_loc (fun D => dec g N (D + thick z N + (D + thick z N))%R)); [|apply dec_lim']. apply filter_forall. intros D. unfold E2, dec. rewrite tk_N. f_equal. apply injective_projections; cbn; ring.
Qed.
Lemma E1_lim : lim (fun D => E1 g (zB D) N) 0.
Proof using HM REG Hg. apply (limC_ext_loc (fun D => dec g N (D + thick z N)%R)); [|apply dec_lim]. apply filter_forall. intros D. unfold E1. now rewrite tk_N. Qed.

Lemma Rd_lim : forall j, (j <= N)%nat ->
  lim (fun D => Rdn e g (zB D) M (N - j) * E2 g (zB D) (N - j)) (Rdn e g z N (N - j) * E2 g z (N - j)) /\ ((0 < j)%nat -> lim (fun D => Rdn e g (zB D) M (N - j)) (Rdn e g z N (N - j))).
Proof using HM REG Hg.
  induction j; intros Hj.
  - rewrite Nat.sub_0_r. split; [|lia]. rewrite Rdn_N. apply (limC_eq _ 0); [|ring]. apply (limC_ext_loc (fun D => E2 g (zB D) N * c0)); [apply filter_forall; intros D; rewrite Rd_N'; ring|]. eapply lim_0l; [apply E2_lim|apply lim_same].
  - destruct (IHj ltac:(lia)) as [L _]. assert (A : lim (fun D => Rdn e g (zB D) M (N - S j)) (Rdn e g z N (N - S j))).
    { rewrite (Rdn_r e g z N (N - S j)) by lia. apply (limC_ext_loc (fun D => (rl e g (N - S j) + Rdn e g (zB D) M (S (N - S j)) * E2 g (zB D) (S (N - S j))) / (1 + rl e g (N - S j) * (Rdn e g (zB D) M (S (N - S j)) * E2 g (zB D) (S (N - S j)))))).
      - apply filter_forall. intros D. now rewrite (Rdn_r e g (zB D) M (N - S j)) by lia.
      - pose proof (reg_dn _ _ _ _ REG (N - S j)%nat ltac:(lia)) as DN. unfold den_dn in DN. replace (S (N - S j)) with (N - j)%nat in * by lia.
        apply lim_div; [exact DN| |]; apply lim_plus; try apply lim_same; [exact L|]. apply limC_mult; [apply lim_same|exact L]. }
    split; [|intros _; exact A]. apply limC_mult; [exact A|]. apply (limC_ext_loc (fun D => E2 g z (N - S j))); [|apply lim_same]. apply filter_forall. intros D. now rewrite E2_lt by lia.
Qed.
Lemma T_lim : forall k, (k <= N)%nat -> lim (fun D => Rdn e g (zB D) M k * E2 g (zB D) k) (Rdn e g z N k * E2 g z k).
Proof using HM REG Hg. intros k H. pose proof (proj1 (Rd_lim (N - k) ltac:(lia))) as L. now replace (N - (N - k))%nat with k in L by lia. Qed.
Lemma R_lim : forall k, (k < N)%nat -> lim (fun D => Rdn e g (zB D) M k) (Rdn e g z N k).
Proof using HM REG Hg. intros k H. pose proof (proj2 (Rd_lim (N - k) ltac:(lia)) ltac:(lia)) as L. now replace (N - (N - k))%nat with k in L by lia. Qed.
Lemma Ms_lim : forall s, (s <= N)%nat -> lim (fun D => Ms e g (zB D) M s) (Ms e g z N s).
Proof using HM REG Hg.
  intros s H. unfold Ms. apply (limC_ext_loc (fun D => 1 - Rup e g z s * (Rdn e g (zB D) M s * E2 g (zB D) s))); [apply filter_forall; intros D; rewrite Ru_B by lia; ring|].
  apply (limC_eq _ (1 - Rup e g z s * (Rdn e g z N s * E2 g z s))); [|ring]. apply (limC_minus _ (F := Rbar_locally p_infty)); [apply lim_same|]. apply limC_mult; [apply lim_same|now apply T_lim].
Qed.
Lemma bsd_lt : forall D pm s zs, (s < N)%nat -> bsd e g (zB D) pm s zs = bsd e g z pm s zs.
Proof. intros D pm s zs H. unfold bsd. now rewrite Ru_B, tk_lt, !z_le by lia. Qed.
Lemma bsd_lim : forall pm zs, lim (fun D => bsd e g (zB D) pm N zs) 0.
Proof using HM REG Hg.
  intros pm zs. unfold bsd. apply (limC_eq _ (0 + pm * Rup e g z N * 0)); [|ring]. apply lim_plus.
  - apply (limC_ext_loc (fun D => dec g N (D + (z (S N) - zs))%R)); [|apply dec_lim]. apply filter_forall. intros D. rewrite z_N. f_equal. ring.
  - apply (limC_ext_loc (fun D => pm * Rup e g z N * dec g N (D + (thick z N + (zs - z N)))%R)).
    + apply filter_forall. intros D. rewrite Ru_B, tk_N, z_le by lia. f_equal. f_equal. ring.
    + apply limC_mult; [apply lim_same|apply dec_lim].
Qed.
Lemma bsu_lim : forall pm s zs, (s <= N)%nat -> lim (fun D => bsu e g (zB D) M pm s zs) (bsu e g z N pm s zs).
Proof using HM REG Hg.
  intros pm s zs H. unfold bsu. apply lim_plus.
  - apply (limC_ext_loc (fun D => dec g s (zs - z s)%R)); [|apply lim_same]. apply filter_forall. intros D. now rewrite z_le by lia.
  - destruct (Nat.eq_dec s N) as [E|E].
    + rewrite E, Rdn_N. apply (limC_eq _ 0); [|ring]. apply (limC_ext_loc (fun D => dec g N (D + thick z N + (D + (z (S N) - zs)))%R * (pm * c0))).
      * apply filter_forall. intros D. rewrite Rd_N', tk_N, z_N. rewrite (Cmult_comm (dec _ _ _)). f_equal. f_equal. ring.
      * eapply lim_0l; [apply dec_lim'|apply lim_same].
    + apply (limC_ext_loc (fun D => pm * Rdn e g (zB D) M s * dec g s (thick z s + (z (S s) - zs))%R)); [apply filter_forall; intros D; now rewrite tk_lt, z_le by lia|].
      apply limC_mult; [|apply lim_same]. apply limC_mult; [apply lim_same|]. apply R_lim. lia.
Qed.
Lemma tdn_lim : forall k, (k < N)%nat -> lim (fun D => tdn e g (zB D) M k) (tdn e g z N k).
Proof using HM REG Hg.
  intros k H. unfold tdn. apply lim_div; [apply (regd _ _ _ _ REG); lia| |]; apply lim_plus; try apply lim_same; [now apply R_lim|apply T_lim; lia].
Qed.
Lemma tup_B : forall D k, (k < N)%nat -> tup e g (zB D) k = tup e g z k.
Proof. intros D k H. unfold tup. now rewrite !Ru_B, E2_lt by lia. Qed.
Lemma amp_dn_lim : forall pm s r zs, (s < r <= N)%nat -> lim (fun D => amp_dn e g (zB D) M pm s r zs) (amp_dn e g z N pm s r zs).
Proof using HM REG Hg.
  intros pm s r zs H. unfold amp_dn. apply limC_mult; [apply limC_mult|].
  - apply lim_div; [apply (regM _ _ _ _ REG); lia| |apply Ms_lim; lia]. apply (limC_ext_loc (fun D => bsd e g z pm s zs)); [|apply lim_same]. apply filter_forall. intros D. now rewrite bsd_lt by lia.
  - apply tdn_lim. lia.
  - apply lim_prod. intros k Hk. apply limC_mult; [|apply tdn_lim; lia]. apply (limC_ext_loc (fun D => E1 g z k)); [|apply lim_same]. apply filter_forall. intros D. now rewrite E1_lt by lia.
Qed.
Lemma amp_up_lim : forall pm s r zs, (r < s <= N)%nat -> lim (fun D => amp_up e g (zB D) M pm s r zs) (amp_up e g z N pm s r zs).
Proof using HM REG Hg.
  intros pm s r zs H. unfold amp_up. apply limC_mult; [apply limC_mult|].
  - apply lim_div; [apply (regM _ _ _ _ REG); lia| |apply Ms_lim; lia]. apply limC_mult; [apply lim_same|apply bsu_lim; lia].
  - apply (limC_ext_loc (fun D => tup e g z (s - 1))); [|apply lim_same]. apply filter_forall. intros D. now rewrite tup_B by lia.
  - apply lim_prod. intros k Hk. apply (limC_ext_loc (fun D => E1 g z k * tup e g z (k - 1))); [|apply lim_same]. apply filter_forall. intros D. now rewrite E1_lt, tup_B by lia.
Qed.
Theorem G_mode_deep : forall pm sg s r zs zr xd, (s <= N)%nat -> (r <= N)%nat ->
  lim (fun D => G_mode e g (zB D) M pm sg s r zs zr xd) (G_mode e g z N pm sg s r zs zr xd).
Proof using HM REG Hg.
  intros pm sg s r zs zr xd Hs Hr. unfold G_mode. destruct (Nat.eqb_spec s r).
  - apply lim_plus; [|apply lim_same]. unfold G_same. apply lim_plus.
    + destruct (Nat.eq_dec s N) as [E|E].
      * rewrite E, Rdn_N. apply (limC_eq _ (c0 * 0 / Ms e g z N N * 0)); [|unfold Cdiv; ring]. apply limC_mult; [apply lim_div; [apply (regM _ _ _ _ REG); lia| |apply Ms_lim; lia]|].
        -- apply limC_mult; [|apply bsd_lim]. apply (limC_ext_loc (fun D => c0)); [|apply lim_same]. apply filter_forall. intros D. now rewrite Rd_N'.
        -- apply (limC_ext_loc (fun D => dec g N (D + (z (S N) - zr))%R)); [|apply dec_lim]. apply filter_forall. intros D. rewrite z_N. f_equal. ring.
      * apply limC_mult; [apply lim_div; [apply (regM _ _ _ _ REG); lia| |apply Ms_lim; lia]|].
        -- apply limC_mult; [apply R_lim; lia|]. apply (limC_ext_loc (fun D => bsd e g z pm s zs)); [|apply lim_same]. apply filter_forall. intros D. now rewrite bsd_lt by lia.
        -- apply (limC_ext_loc (fun D => dec g s (z (S s) - zr)%R)); [|apply lim_same]. apply filter_forall. intros D. now rewrite z_le by lia.
    + apply limC_mult; [apply lim_same|]. apply limC_mult; [apply lim_div; [apply (regM _ _ _ _ REG); lia| |apply Ms_lim; lia]|].
      * apply limC_mult; [|apply bsu_lim; lia]. apply (limC_ext_loc (fun D => Rup e g z s)); [|apply lim_same]. apply filter_forall. intros D. now rewrite Ru_B by lia.
      * apply (limC_ext_loc (fun D => dec g s (zr - z s)%R)); [|apply lim_same]. apply filter_forall. intros D. now rewrite z_le by lia.
  - destruct (Nat.ltb_spec r s).
    + unfold G_up. apply limC_mult; [apply amp_up_lim; lia|]. apply (limC_ext_loc (fun D => dec g r (z (S r) - zr)%R + sg * Rup e g z r * E1 g z r * dec g r (zr - z r)%R)); [|apply lim_same]. apply filter_forall. intros D. now rewrite Ru_B, E1_lt, !z_le by lia.
    + unfold G_dn. apply limC_mult; [apply amp_dn_lim; lia|]. apply lim_plus.
      * apply (limC_ext_loc (fun D => sg * dec g r (zr - z r)%R)); [|apply lim_same]. apply filter_forall. intros D. now rewrite z_le by lia.
      * destruct (Nat.eq_dec r N) as [E|E].
        -- rewrite E, Rdn_N. apply (limC_eq _ (c0 * 0 * 0)); [|ring]. apply limC_mult; [apply limC_mult; [|apply E1_lim]|].
           ++ apply (limC_ext_loc (fun D => c0)); [|apply lim_same]. apply filter_forall. intros D. now rewrite Rd_N'.
           ++ apply (limC_ext_loc (fun D => dec g N (D + (z (S N) - zr))%R)); [|apply dec_lim]. apply filter_forall. intros D. rewrite z_N. f_equal. ring.
        -- apply limC_mult; [apply limC_mult; [apply R_lim; lia|]|].
           ++ apply (limC_ext_loc (fun D => E1 g z r)); [|apply lim_same]. apply filter_forall. intros D. now rewrite E1_lt by lia.
           ++ apply (limC_ext_loc (fun D => dec g r (z (S r) - zr)%R)); [|apply lim_same]. apply filter_forall. intros D. now rewrite z_le by lia.
Qed.
End Deep.

(** ** The kernel *)
Lemma passive_top : forall eH eV zH zV z M N, passive_medium eH eV zH zV z M -> (N <= M)%nat -> passive_medium eH eV zH zV z N.
Proof. intros eH eV zH zV z M N [] H. constructor; intros k Hk; auto with arith; match goal with X : forall k, _ -> ?P |- _ => apply X; lia end. Qed.
Lemma passive_deep : forall eH eV zH zV z M N D, passive_medium eH eV zH zV z M -> (0 <= D)%R -> passive_medium eH eV zH zV (deep N z D) M.
Proof.
  intros eH eV zH zV z M N D [] H. constructor; try assumption. intros k Hk. unfold deep. specialize (pme_z k Hk).
  destruct (Nat.leb_spec k N), (Nat.leb_spec (S k) N); try lia; lra.
Qed.
Lemma lay_deep : forall z N M x D, (forall k, (1 <= k < M)%nat -> (z k <= z (S k))%R) -> (N < M)%nat -> (x <= D + z (S N))%R -> lay (deep N z D) M x = lay z N x.
Proof.
  intros z N M x D Hz HM HD. assert (Hk : forall j, (S N + j <= M)%nat -> (z (S N) <= z (S N + j)%nat)%R).
  { induction j; intros Hj; [rewrite Nat.add_0_r; lra|]. specialize (IHj ltac:(lia)). specialize (Hz (S N + j)%nat ltac:(lia)). rewrite Nat.add_succ_r. lra. }
  assert (H : forall j, (N + j <= M)%nat -> lay (deep N z D) (N + j) x = lay z N x).
  { induction j; intros Hj.
    - rewrite Nat.add_0_r. apply lay_same. intros k Hk'. unfold deep. destruct (Nat.leb_spec k N); [reflexivity|lia].
    - rewrite Nat.add_succ_r. cbn [lay]. destruct (Rlt_dec _ _) as [L|L]; [|apply IHj; lia]. exfalso. unfold deep in L. destruct (Nat.leb_spec (S (N + j)) N); [lia|]. specialize (Hk j ltac:(lia)). change (S N + j)%nat with (S (N + j)) in Hk. lra. }
  specialize (H (M - N)%nat ltac:(lia)). now replace (N + (M - N))%nat with M in H by lia.
Qed.
Lemma PTM_deep : forall h v q z N M lam ab xd s r zs zr, (N < M)%nat -> regular h (gam h v q lam) z N -> (0 < fst (gam h v q lam N))%R -> (s <= N)%nat -> (r <= N)%nat ->
  lim (fun D => PTM h v q (deep N z D) M lam ab xd s r zs zr) (PTM h v q z N lam ab xd s r zs zr).
Proof. intros h v q z N M lam ab xd s r zs zr HM R G Hs Hr. unfold PTM. destruct (mode_used true ab); [|apply lim_same]. apply limC_mult; [apply lim_same|]. now apply G_mode_deep. Qed.
Lemma PTE_deep : forall h v q z N M lam ab xd s r zs zr, (N < M)%nat -> regular h (gam h v q lam) z N -> (0 < fst (gam h v q lam N))%R -> (s <= N)%nat -> (r <= N)%nat ->
  lim (fun D => PTE h v q (deep N z D) M lam ab xd s r zs zr) (PTE h v q z N lam ab xd s r zs zr).
Proof. intros h v q z N M lam ab xd s r zs zr HM R G Hs Hr. unfold PTE. destruct (mode_used false ab); [|apply lim_same]. apply limC_mult; [apply lim_same|]. now apply G_mode_deep. Qed.
Lemma lim_opp : forall (f : R -> C) l, lim f l -> lim (fun t => - f t) (- l).
Proof. intros f l H. apply (limC_ext_loc (fun t => 0 - f t)); [apply filter_forall; intros; ring|]. apply (limC_eq _ (0 - l)); [|ring]. apply (limC_minus _ (F := Rbar_locally p_infty)); [apply lim_same|exact H]. Qed.
Theorem deep_limit : forall eH eV zH zV z N M lam ab xd msrc mrec zs zr, passive_medium eH eV zH zV z M -> (N < M)%nat -> valid_call ab msrc mrec ->
  exists p q, gcall eH eV zH zV z N lam ab xd msrc mrec (lay z N zs) (lay z N zr) zs zr = Ok (p, q) /\
  forall e : R, (0 < e)%R -> exists D0 : R, forall D : R, (D0 < D)%R ->
  exists p' q', gcall eH eV zH zV (deep N z D) M lam ab xd msrc mrec (lay (deep N z D) M zs) (lay (deep N z D) M zr) zs zr = Ok (p', q') /\ (Cmod (Cminus p' p) < e)%R /\ (Cmod (Cminus q' q) < e)%R.
Proof.
  intros eH eV zH zV z N M lam ab xd msrc mrec zs zr PM HM HV. pose proof (passive_top _ _ _ _ _ _ N PM ltac:(lia)) as PN.
  pose proof (passive_model_ok _ _ _ _ _ _ lam PN) as OK. pose proof (lay_le z N zs) as L1. pose proof (lay_le z N zr) as L2.
  set (s := lay z N zs) in *. set (r := lay z N zr) in *.
  exists (fst (resp eH eV zH zV z N lam ab xd msrc mrec s r zs zr)), (snd (resp eH eV zH zV z N lam ab xd msrc mrec s r zs zr)).
  split. { rewrite gcall_resp by assumption. apply f_equal, surjective_pairing. }
  assert (G1 : (0 < fst (gam eH eV zH lam N))%R) by (apply (pas_g _ _ _ _ _ (passive_TM _ _ _ _ _ _ lam PN)); lia).
  assert (G2 : (0 < fst (gam zH zV eH lam N))%R) by (apply (pas_g _ _ _ _ _ (passive_TE _ _ _ _ _ _ lam PN)); lia).
  assert (R1 : regular eH (gam eH eV zH lam) z N) by apply OK. assert (R2 : regular zH (gam zH zV eH lam) z N) by apply OK.
  assert (LL : lim (fun D => fst (resp eH eV zH zV (deep N z D) M lam ab xd msrc mrec s r zs zr)) (fst (resp eH eV zH zV z N lam ab xd msrc mrec s r zs zr)) /\
    lim (fun D => snd (resp eH eV zH zV (deep N z D) M lam ab xd msrc mrec s r zs zr)) (snd (resp eH eV zH zV z N lam ab xd msrc mrec s r zs zr))).
  { unfold resp. destruct mrec; [destruct msrc|]; cbn [fst snd]; split; try apply lim_opp; first [apply PTM_deep|apply PTE_deep]; assumption. }
  destruct LL as [LA LB]. intros e He. destruct (proj1 (limC_eps _ _) LA e He) as [DA HA]. destruct (proj1 (limC_eps _ _) LB e He) as [DB HB].
  exists (Rmax (Rmax DA DB) (Rmax 0 (Rmax (zs - z (S N)) (zr - z (S N))))). intros D HD.
  assert (D1 : (DA < D)%R) by (eapply Rle_lt_trans; [|exact HD]; eapply Rle_trans; [|apply Rmax_l]; apply Rmax_l).
  assert (D2 : (DB < D)%R) by (eapply Rle_lt_trans; [|exact HD]; eapply Rle_trans; [|apply Rmax_l]; apply Rmax_r).
  assert (D3 : (0 < D)%R) by (eapply Rle_lt_trans; [|exact HD]; eapply Rle_trans; [|apply Rmax_r]; apply Rmax_l).
  assert (D4 : (zs - z (S N) < D)%R) by (eapply Rle_lt_trans; [|exact HD]; eapply Rle_trans; [|apply Rmax_r]; eapply Rle_trans; [|apply Rmax_r]; apply Rmax_l).
  assert (D5 : (zr - z (S N) < D)%R) by (eapply Rle_lt_trans; [|exact HD]; eapply Rle_trans; [|apply Rmax_r]; eapply Rle_trans; [|apply Rmax_r]; apply Rmax_r).
  exists (fst (resp eH eV zH zV (deep N z D) M lam ab xd msrc mrec s r zs zr)), (snd (resp eH eV zH zV (deep N z D) M lam ab xd msrc mrec s r zs zr)).
  split; [|split; [now apply HA|now apply HB]].
  pose proof (pme_z _ _ _ _ _ _ PM) as ZM. rewrite !lay_deep by first [assumption|lra]. fold s r.
  rewrite gcall_resp; [apply f_equal; apply surjective_pairing| |assumption|lia|lia].
  apply passive_model_ok. apply passive_deep; [assumption|lra].
Qed.
