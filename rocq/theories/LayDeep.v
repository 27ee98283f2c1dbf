(** Layered responses when the layers below a given one are moved down: convergence, exponentially in the
    distance, to the responses of the model without them. *)

From Coq Require Import Reals ZArith List Bool Lia Lra Psatz.
From Coquelicot Require Import Coquelicot.
From Verif Require Import PyBase CBase ODE Kernel KernelSpec KernelPhys KernelClosed KernelPassive KernelSym KernelSplit KernelMain KernelBVP Utils UtilsAb Bessel KernelBessel KernelThm KernelThm2 KernelThin KernelDeep KernelFinal
  FullspaceThm FullspaceField FullspaceEM Cint Hankel Sommer Homog HomogThm LayAsym LayConv LayWave LayField LayMaxwell LayCode LayVal LayEM.
Import ListNotations.
Local Open Scope R_scope.
Local Open Scope C_scope.

(** F D tends to f like exp(-k D), uniformly, both with the decay c in the wavenumber; [au]: bounded only *)
Definition ap (k c : R) (F : R -> R -> C) (f : R -> C) : Prop := exists (K : R) (n : nat) (D0 : R), (0 <= K)%R /\ (0 <= D0)%R /\
  (forall x : R, (0 <= x)%R -> (Cmod (f x) <= bnd K n c x)%R) /\ forall D x : R, (D0 <= D)%R -> (0 <= x)%R -> (Cmod (Cminus (F D x) (f x)) <= bnd K n c x * exp (- (k * D)))%R.
Definition au (k : R) (F : R -> R -> C) (f : R -> C) : Prop := exists (K : R) (D0 : R), (0 <= K)%R /\ (0 <= D0)%R /\
  (forall x : R, (0 <= x)%R -> (Cmod (f x) <= K)%R) /\ forall D x : R, (D0 <= D)%R -> (0 <= x)%R -> (Cmod (Cminus (F D x) (f x)) <= K * exp (- (k * D)))%R.

Lemma bnd_pos : forall K n c x, (0 <= K)%R -> (0 <= x)%R -> (0 <= bnd K n c x)%R.
Proof. intros K n c x HK Hx. unfold bnd. apply Rmult_le_pos; [apply Rmult_le_pos; [exact HK|apply pow_le; lra]|left; apply exp_pos]. Qed.
Lemma bnd_mult : forall K n c x K' n' c', (bnd K n c x * bnd K' n' c' x = bnd (K * K') (n + n') (c + c') x)%R.
Proof. intros. unfold bnd. rewrite pow_add. replace (- ((c + c') * x))%R with (- (c * x) + - (c' * x))%R by ring. rewrite exp_plus. ring. Qed.
Lemma bnd_scal : forall a K n c x, (a * bnd K n c x = bnd (a * K) n c x)%R.
Proof. intros. unfold bnd. ring. Qed.
Lemma Cm0 : forall c : C, Cminus c (RtoC 0) = c. Proof. intros. rg. Qed.

Section K.
Variable k : R.
Hypothesis Hk : (0 < k)%R.
Lemma ek : forall D, (0 <= D)%R -> (0 < exp (- (k * D)) <= 1)%R.
Proof using Hk. intros D HD. split; [apply exp_pos|]. rewrite <- exp_0. apply exp_le_mono. nra. Qed.

Lemma ap_plus : forall c F G f g, ap k c F f -> ap k c G g -> ap k c (fun D x => F D x + G D x) (fun x => f x + g x).
Proof using Hk.
  intros c F G f g (K & n & D0 & HK & H0 & B & E) (K' & n' & D0' & HK' & H0' & B' & E'). exists (K + K')%R, (n + n')%nat, (Rmax D0 D0'). split; [lra|]. split; [eapply Rle_trans; [exact H0|apply Rmax_l]|].
  assert (L : forall x, (0 <= x)%R -> (bnd K n c x + bnd K' n' c x <= bnd (K + K') (n + n') c x)%R).
  { intros x Hx. pose proof (bnd_le K n c x K (n + n') c HK Hx ltac:(lra) ltac:(lia) ltac:(lra)) as A1. pose proof (bnd_le K' n' c x K' (n + n') c HK' Hx ltac:(lra) ltac:(lia) ltac:(lra)) as A2.
    replace (bnd (K + K') (n + n') c x) with (bnd K (n + n') c x + bnd K' (n + n') c x)%R by (unfold bnd; ring). lra. }
  split.
  - intros x Hx. eapply Rle_trans; [apply Cmod_triangle|]. specialize (B x Hx). specialize (B' x Hx). specialize (L x Hx). lra.
  - intros D x HD Hx. replace (F D x + G D x - (f x + g x)) with ((F D x - f x) + (G D x - g x)) by rg. eapply Rle_trans; [apply Cmod_triangle|].
    pose proof (Rmax_l D0 D0'). pose proof (Rmax_r D0 D0'). specialize (E D x ltac:(lra) Hx). specialize (E' D x ltac:(lra) Hx). specialize (L x Hx). pose proof (ek D ltac:(lra)). nra.
Qed.
Lemma ap_mult : forall c c' F G f g, ap k c F f -> ap k c' G g -> ap k (c + c') (fun D x => F D x * G D x) (fun x => f x * g x).
Proof using Hk.
  intros c c' F G f g (K & n & D0 & HK & H0 & B & E) (K' & n' & D0' & HK' & H0' & B' & E'). exists (3 * (K * K'))%R, (n + n')%nat, (Rmax D0 D0'). split; [nra|]. split; [eapply Rle_trans; [exact H0|apply Rmax_l]|].
  split.
  - intros x Hx. rewrite Cmod_mult. specialize (B x Hx). specialize (B' x Hx). rewrite <- bnd_scal, <- bnd_mult. pose proof (bnd_pos K n c x HK Hx). pose proof (bnd_pos K' n' c' x HK' Hx).
    pose proof (Cmod_ge_0 (f x)). pose proof (Cmod_ge_0 (g x)). assert (Cmod (f x) * Cmod (g x) <= bnd K n c x * bnd K' n' c' x)%R by (apply Rmult_le_compat; assumption). nra.
  - intros D x HD Hx. pose proof (Rmax_l D0 D0'). pose proof (Rmax_r D0 D0'). specialize (E D x ltac:(lra) Hx). specialize (E' D x ltac:(lra) Hx). specialize (B x Hx). specialize (B' x Hx).
    replace (F D x * G D x - f x * g x) with ((F D x - f x) * (G D x - g x) + ((F D x - f x) * g x + f x * (G D x - g x))) by rg.
    eapply Rle_trans; [apply Cmod_triangle|]. eapply Rle_trans; [apply Rplus_le_compat_l, Cmod_triangle|]. rewrite !Cmod_mult, <- bnd_scal, <- bnd_mult.
    pose proof (bnd_pos K n c x HK Hx). pose proof (bnd_pos K' n' c' x HK' Hx). pose proof (ek D ltac:(lra)) as [P1 P2]. set (ee := exp (- (k * D))) in *. clearbody ee.
    pose proof (Cmod_ge_0 (f x)). pose proof (Cmod_ge_0 (g x)). pose proof (Cmod_ge_0 (F D x - f x)%C). pose proof (Cmod_ge_0 (G D x - g x)%C). set (u := bnd K n c x) in *. set (w := bnd K' n' c' x) in *. clearbody u w.
    assert (X1 : (Cmod (F D x - f x)%C * Cmod (G D x - g x)%C <= (u * ee) * (w * ee))%R) by (apply Rmult_le_compat; assumption).
    assert (X2 : (Cmod (F D x - f x)%C * Cmod (g x) <= (u * ee) * w)%R) by (apply Rmult_le_compat; assumption).
    assert (X3 : (Cmod (f x) * Cmod (G D x - g x)%C <= u * (w * ee))%R) by (apply Rmult_le_compat; assumption).
    assert (X4 : (u * ee * (w * ee) <= u * w * ee)%R). { replace (u * ee * (w * ee))%R with (u * w * ee * ee)%R by ring. assert (0 <= u * w * ee)%R by (apply Rmult_le_pos; [apply Rmult_le_pos; assumption|lra]). nra. }
    lra.
Qed.
Lemma ap_weak : forall c c' F f, ap k c F f -> (c' <= c)%R -> ap k c' F f.
Proof using Hk.
  intros c c' F f (K & n & D0 & HK & H0 & B & E) L. exists K, n, D0. split; [exact HK|]. split; [exact H0|]. split; [intros x Hx; eapply Rle_trans; [now apply B|]|intros D x HD Hx; eapply Rle_trans; [now apply E|]; apply Rmult_le_compat_r; [left; apply exp_pos|]].
  all: apply bnd_le; first [assumption|lra|lia].
Qed.
Lemma ap_ext : forall c F G f g, (forall D x, F D x = G D x) -> (forall x, f x = g x) -> ap k c F f -> ap k c G g.
Proof. intros c F G f g H1 H2 (K & n & D0 & HK & H0 & B & E). exists K, n, D0. split; [exact HK|]. split; [exact H0|]. split; intros; rewrite <- ?H1, <- H2; auto. Qed.
Lemma ap_eb : forall c f, eb c f -> ap k c (fun _ => f) f.
Proof.
  intros c f [_ (M & n & HM & B)]. exists M, n, 0%R. split; [exact HM|]. split; [lra|]. split; [exact B|]. intros D x _ Hx. replace (f x - f x) with (RtoC 0) by rg. rewrite Cmod_0. apply Rmult_le_pos; [now apply bnd_pos|left; apply exp_pos].
Qed.
Lemma ap_mult0 : forall c F G f g, ap k 0 F f -> ap k c G g -> ap k c (fun D x => F D x * G D x) (fun x => f x * g x).
Proof using Hk. intros c F G f g A B. eapply ap_weak; [apply (ap_mult 0 c F G f g A B)|lra]. Qed.
Lemma ap_mult0r : forall c F G f g, ap k c F f -> ap k 0 G g -> ap k c (fun D x => F D x * G D x) (fun x => f x * g x).
Proof using Hk. intros c F G f g A B. eapply ap_weak; [apply (ap_mult c 0 F G f g A B)|lra]. Qed.
Lemma ap_const : forall a : C, ap k 0 (fun _ _ => a) (fun _ => a).
Proof. intros a. apply (ap_eb 0 (fun _ => a)), eb_const. Qed.
Lemma ap_scal : forall c (a : C) F f, ap k c F f -> ap k c (fun D x => a * F D x) (fun x => a * f x).
Proof using Hk. intros c a F f A. apply (ap_mult0 c (fun _ _ => a) F (fun _ => a) f); [apply ap_const|exact A]. Qed.
Lemma ap_opp : forall c F f, ap k c F f -> ap k c (fun D x => - F D x) (fun x => - f x).
Proof using Hk. intros c F f A. apply (ap_ext c (fun D x => (- RtoC 1) * F D x) _ (fun x => (- RtoC 1) * f x)); [intros; rg|intros; rg|]. now apply ap_scal. Qed.

Lemma au_ap : forall F f, au k F f -> ap k 0 F f.
Proof.
  intros F f (K & D0 & HK & H0 & B & E). exists K, 0%nat, D0. assert (Q : forall x, bnd K 0 0 x = K) by (intros; unfold bnd; cbn [pow]; rewrite Rmult_0_l, Ropp_0, exp_0; ring).
  split; [exact HK|]. split; [exact H0|]. split; intros; rewrite Q; auto.
Qed.
Lemma au_plus : forall F G f g, au k F f -> au k G g -> au k (fun D x => F D x + G D x) (fun x => f x + g x).
Proof using Hk.
  intros F G f g (K & D0 & HK & H0 & B & E) (K' & D0' & HK' & H0' & B' & E'). exists (K + K')%R, (Rmax D0 D0'). split; [lra|]. split; [eapply Rle_trans; [exact H0|apply Rmax_l]|]. split.
  - intros x Hx. eapply Rle_trans; [apply Cmod_triangle|]. specialize (B x Hx). specialize (B' x Hx). lra.
  - intros D x HD Hx. replace (F D x + G D x - (f x + g x)) with ((F D x - f x) + (G D x - g x)) by rg. eapply Rle_trans; [apply Cmod_triangle|].
    pose proof (Rmax_l D0 D0'). pose proof (Rmax_r D0 D0'). specialize (E D x ltac:(lra) Hx). specialize (E' D x ltac:(lra) Hx). lra.
Qed.
Lemma au_mult : forall F G f g, au k F f -> au k G g -> au k (fun D x => F D x * G D x) (fun x => f x * g x).
Proof using Hk.
  intros F G f g (K & D0 & HK & H0 & B & E) (K' & D0' & HK' & H0' & B' & E'). exists (3 * (K * K'))%R, (Rmax D0 D0'). split; [nra|]. split; [eapply Rle_trans; [exact H0|apply Rmax_l]|]. split.
  - intros x Hx. rewrite Cmod_mult. specialize (B x Hx). specialize (B' x Hx). pose proof (Cmod_ge_0 (f x)). pose proof (Cmod_ge_0 (g x)). assert (Cmod (f x) * Cmod (g x) <= K * K')%R by (apply Rmult_le_compat; assumption). nra.
  - intros D x HD Hx. pose proof (Rmax_l D0 D0'). pose proof (Rmax_r D0 D0'). specialize (E D x ltac:(lra) Hx). specialize (E' D x ltac:(lra) Hx). specialize (B x Hx). specialize (B' x Hx).
    replace (F D x * G D x - f x * g x) with ((F D x - f x) * (G D x - g x) + ((F D x - f x) * g x + f x * (G D x - g x))) by rg.
    eapply Rle_trans; [apply Cmod_triangle|]. eapply Rle_trans; [apply Rplus_le_compat_l, Cmod_triangle|]. rewrite !Cmod_mult.
    pose proof (ek D ltac:(lra)) as [P1 P2]. set (ee := exp (- (k * D))) in *. clearbody ee.
    pose proof (Cmod_ge_0 (f x)). pose proof (Cmod_ge_0 (g x)). pose proof (Cmod_ge_0 (F D x - f x)%C). pose proof (Cmod_ge_0 (G D x - g x)%C).
    assert (X1 : (Cmod (F D x - f x)%C * Cmod (G D x - g x)%C <= (K * ee) * (K' * ee))%R) by (apply Rmult_le_compat; assumption).
    assert (X2 : (Cmod (F D x - f x)%C * Cmod (g x) <= (K * ee) * K')%R) by (apply Rmult_le_compat; assumption).
    assert (X3 : (Cmod (f x) * Cmod (G D x - g x)%C <= K * (K' * ee))%R) by (apply Rmult_le_compat; assumption).
    assert (X4 : (K * ee * (K' * ee) <= K * K' * ee)%R). { replace (K * ee * (K' * ee))%R with (K * K' * ee * ee)%R by ring. assert (0 <= K * K' * ee)%R by (apply Rmult_le_pos; [apply Rmult_le_pos; assumption|lra]). nra. }
    lra.
Qed.
Lemma asy_bounded : forall f l, asy f l -> exists K : R, (0 <= K)%R /\ forall x : R, (0 <= x)%R -> (Cmod (f x) <= K)%R.
Proof.
  intros f l [H1 H2]. destruct (proj1 (limC_eps f l) H2 1%R ltac:(lra)) as [T0 HT].
  destruct (bounded_continuity (V := R_NormedModule) (fun x => fst (f x)) 0 (Rmax T0 0 + 1)) as [M1 B1]; [intros x _; apply (cC_fst f H1)|].
  destruct (bounded_continuity (V := R_NormedModule) (fun x => snd (f x)) 0 (Rmax T0 0 + 1)) as [M2 B2]; [intros x _; apply (cC_snd f H1)|].
  exists (Rmax (Cmod l + 1) (Rabs M1 + Rabs M2)). split; [eapply Rle_trans; [|apply Rmax_l]; pose proof (Cmod_ge_0 l); lra|]. intros x Hx. pose proof (Rmax_l T0 0). pose proof (Rmax_r T0 0).
  destruct (Rle_lt_dec x (Rmax T0 0 + 1)) as [L|L].
  - eapply Rle_trans; [|apply Rmax_r]. eapply Rle_trans; [apply Cmod_le_sum|]. specialize (B1 x ltac:(lra)). specialize (B2 x ltac:(lra)). unfold norm in B1, B2; cbn in B1, B2. unfold abs in B1, B2; cbn in B1, B2. pose proof (Rle_abs M1). pose proof (Rle_abs M2). lra.
  - eapply Rle_trans; [|apply Rmax_l]. specialize (HT x ltac:(lra)). pose proof (Cmod_triangle (f x - l)%C l) as T. replace (f x - l + l) with (f x) in T by rg. lra.
Qed.
Lemma au_asy : forall f l, asy f l -> au k (fun _ => f) f.
Proof.
  intros f l A. destruct (asy_bounded f l A) as (K & HK & B). exists K, 0%R. split; [exact HK|]. split; [lra|]. split; [exact B|]. intros D x _ Hx. replace (f x - f x) with (RtoC 0) by rg. rewrite Cmod_0. apply Rmult_le_pos; [exact HK|left; apply exp_pos].
Qed.
Lemma au_ext : forall F G f g, (forall D x, F D x = G D x) -> (forall x, f x = g x) -> au k F f -> au k G g.
Proof. intros F G f g H1 H2 (K & D0 & HK & H0 & B & E). exists K, D0. split; [exact HK|]. split; [exact H0|]. split; intros; rewrite <- ?H1, <- H2; auto. Qed.
Lemma au_const : forall a : C, au k (fun _ _ => a) (fun _ => a).
Proof. intros a. exact (au_asy _ _ (asy_const a)). Qed.
Lemma au_inv : forall F f l, au k F f -> asy (fun x => / f x) l -> (forall x, f x <> RtoC 0) -> au k (fun D x => / F D x) (fun x => / f x).
Proof using Hk.
  intros F f l (K & D0 & HK & H0 & B & E) A NZ. destruct (asy_bounded _ l A) as (L & HL & BL). set (L1 := (L + 1)%R).
  assert (BI : forall x : R, (0 <= x)%R -> (/ L1 <= Cmod (f x))%R).
  { intros x Hx. specialize (BL x Hx). rewrite Cmod_inv in BL by apply NZ. pose proof (proj1 (Cmod_gt_0 _) (NZ x)) as P. rewrite <- (Rinv_inv (Cmod (f x))). apply Rinv_le_contravar; [now apply Rinv_0_lt_compat|unfold L1; lra]. }
  assert (PL : (0 < L1)%R) by (unfold L1; lra). pose proof (Rinv_0_lt_compat _ PL) as PI1.
  exists (L1 + 2 * K * (L1 * L1))%R, (Rmax D0 (2 * (K + 1) * L1 / k)). split; [apply Rplus_le_le_0_compat; [lra|apply Rmult_le_pos; [lra|nra]]|]. split; [eapply Rle_trans; [exact H0|apply Rmax_l]|]. split.
  - intros x Hx. specialize (BL x Hx). assert (0 <= 2 * K * (L1 * L1))%R by (apply Rmult_le_pos; [lra|nra]). unfold L1 in *. lra.
  - intros D x HD Hx. pose proof (Rmax_l D0 (2 * (K + 1) * L1 / k)). pose proof (Rmax_r D0 (2 * (K + 1) * L1 / k)). specialize (E D x ltac:(lra) Hx). specialize (BI x Hx).
    assert (KD : (2 * (K + 1) * L1 <= k * D)%R). { apply (Rmult_le_reg_r (/ k)); [now apply Rinv_0_lt_compat|]. replace (k * D * / k)%R with D by (field; lra). change (2 * (K + 1) * L1 / k <= D)%R. lra. }
    assert (SM : (K * exp (- (k * D)) <= / L1 / 2)%R).
    { pose proof (exp_ineq1_le (k * D)) as X. rewrite exp_Ropp. assert (P : (0 < exp (k * D))%R) by apply exp_pos. apply (Rmult_le_reg_r (exp (k * D))); [exact P|]. replace (K * / exp (k * D) * exp (k * D))%R with K by (field; lra).
      assert (2 * (K + 1) * L1 <= exp (k * D))%R by lra. apply Rle_trans with (/ L1 / 2 * (2 * (K + 1) * L1))%R; [|apply Rmult_le_compat_l; lra]. replace (/ L1 / 2 * (2 * (K + 1) * L1))%R with (K + 1)%R by (field; lra). lra. }
    assert (LO : (/ L1 / 2 <= Cmod (F D x))%R) by (pose proof (Cmod_tri_low (F D x) (f x)); lra).
    assert (NF : F D x <> RtoC 0) by (intros W; rewrite W, Cmod_0 in LO; lra).
    replace (/ F D x - / f x) with (- (F D x - f x) * (/ F D x * / f x)) by (field; split; [apply NZ|exact NF]).
    rewrite !Cmod_mult, Cmod_opp, !Cmod_inv by first [exact NF|apply NZ].
    assert (I1 : (/ Cmod (F D x) <= 2 * L1)%R). { replace (2 * L1)%R with (/ (/ L1 / 2))%R by (field; lra). apply Rinv_le_contravar; [lra|exact LO]. }
    assert (I2 : (/ Cmod (f x) <= L1)%R). { rewrite <- (Rinv_inv L1). apply Rinv_le_contravar; [lra|exact BI]. }
    assert (J1 : (0 <= / Cmod (F D x))%R) by (left; apply Rinv_0_lt_compat; lra). assert (J2 : (0 <= / Cmod (f x))%R) by (left; apply Rinv_0_lt_compat; lra).
    assert (X : (/ Cmod (F D x) * / Cmod (f x) <= 2 * L1 * L1)%R) by (apply Rmult_le_compat; assumption).
    pose proof (Cmod_ge_0 (F D x - f x)%C). assert (Y : (Cmod (F D x - f x)%C * (/ Cmod (F D x) * / Cmod (f x)) <= K * exp (- (k * D)) * (2 * L1 * L1))%R) by (apply Rmult_le_compat; [assumption|now apply Rmult_le_pos|assumption|assumption]).
    pose proof (exp_pos (- (k * D))). assert (0 <= L1 * exp (- (k * D)))%R by (apply Rmult_le_pos; lra). lra.
Qed.
End K.

(** ** One mode *)
Section Stack.
Variables (h v q : nat -> C) (z : nat -> R) (N M : nat).
Hypothesis HM : (N < M)%nat.
Hypothesis MLM : forall k, (k <= M)%nat -> mlayer (h k) (v k) (q k).
Hypothesis HzM : forall k, (1 <= k < M)%nat -> (z k < z (S k))%R.
Hypothesis REG : forall lam, regular h (gam h v q lam) z N.
Hypothesis REGM : forall lam, regular h (gam h v q lam) z M.
Notation g := (gam h v q).
Notation zB := (deep N z).
Variable a : R.
Hypothesis Ha : (0 < a)%R.
Hypothesis HAM : forall k, (k <= M)%nat -> (a <= fst (ms (h k) (v k)))%R.
Variable kap : R.
Hypothesis Hk : (0 < kap)%R.
Hypothesis KG : forall x : R, (0 <= x)%R -> (kap <= fst (g x N))%R.

Let ML : forall k, (k <= N)%nat -> mlayer (h k) (v k) (q k). Proof. intros k H. apply MLM. lia. Qed.
Let Hz : forall k, (1 <= k < N)%nat -> (z k < z (S k))%R. Proof. intros k H. apply HzM. lia. Qed.
Let HA : forall k, (k <= N)%nat -> (a <= fst (ms (h k) (v k)))%R. Proof. intros k H. apply HAM. lia. Qed.

Lemma dec_split : forall lam k x y, dec (g lam) k (x + y)%R = dec (g lam) k x * dec (g lam) k y.
Proof. intros. unfold dec. rewrite <- Cexp_plus. f_equal. rewrite RtoC_plus. rg. Qed.
Lemma dec_mod : forall lam k x, Cmod (dec (g lam) k x) = exp (- (fst (g lam k) * x)).
Proof. intros. unfold dec. rewrite Cmod_Cexp. f_equal. unfold Copp, Cmult, RtoC. cbn [fst snd]. ring. Qed.
Lemma sm_dec : forall c x0, (0 <= c)%R -> ap kap c (fun D lam => dec (g lam) N (D + x0)%R) (fun _ => RtoC 0).
Proof using All.
  intros c x0 Hc. set (D1 := (Rabs x0 + c / a)%R). assert (Q : (0 <= c / a)%R) by (apply Rmult_le_pos; [exact Hc|left; now apply Rinv_0_lt_compat]).
  assert (P0 : (0 <= D1)%R) by (unfold D1; pose proof (Rabs_pos x0); lra). assert (P1 : (c / a <= D1 + x0)%R) by (unfold D1; pose proof (Rabs_maj2 x0); lra).
  assert (P2 : (c <= a * (D1 + x0))%R) by (replace c with (a * (c / a))%R by (field; lra); apply Rmult_le_compat_l; lra).
  destruct (eb_weak _ c _ (eb_dk h v q z N ML Hz REG a Ha HA N (D1 + x0) (le_n N) ltac:(lra)) P2) as [_ (K & n & HK & B)].
  exists (K * exp (kap * D1))%R, n, D1. split; [apply Rmult_le_pos; [exact HK|left; apply exp_pos]|]. split; [exact P0|]. split.
  - intros x Hx. rewrite Cmod_0. apply bnd_pos; [|exact Hx]. apply Rmult_le_pos; [exact HK|left; apply exp_pos].
  - intros D x HD Hx. rewrite Cm0. replace (D + x0)%R with ((D - D1) + (D1 + x0))%R by ring. rewrite dec_split, Cmod_mult. rewrite dec_mod at 1. specialize (B x Hx). specialize (KG x Hx).
    replace (bnd (K * exp (kap * D1)) n c x * exp (- (kap * D)))%R with (exp (- (kap * (D - D1))) * (K * (1 + x) ^ n * exp (- (c * x))))%R.
    + apply Rmult_le_compat; [left; apply exp_pos|apply Cmod_ge_0| |exact B]. apply exp_le_mono. assert (0 <= D - D1)%R by lra. nra.
    + unfold bnd. replace (- (kap * (D - D1)))%R with (kap * D1 + - (kap * D))%R by ring. rewrite exp_plus. ring.
Qed.
Lemma au_E2N : au kap (fun D lam => E2 (g lam) (zB D) N) (fun _ => RtoC 0).
Proof using All.
  set (t := thick z N). exists (exp (- (kap * t)))%R, (Rabs t). split; [left; apply exp_pos|]. split; [apply Rabs_pos|]. split; [intros; rewrite Cmod_0; left; apply exp_pos|].
  intros D x HD Hx. rewrite Cm0. unfold E2. rewrite Cmod_Cexp, <- exp_plus. apply exp_le_mono. rewrite (tk_N z N M HM). fold t. specialize (KG x Hx). pose proof (Rabs_maj2 t).
  replace (fst (- (2 * g x N * RtoC (D + t)))) with (- (2 * fst (g x N) * (D + t)))%R by (unfold Copp, Cmult, RtoC; cbn [fst snd]; ring). assert (0 <= D + t)%R by lra. nra.
Qed.
Lemma den_asy : forall k, (k < N)%nat -> asy (fun lam => / (1 + rl h (g lam) k * (Rdn h (g lam) z N (S k) * E2 (g lam) z (S k)))) (/ (RtoC 1 + lrl h v k * RtoC 0)).
Proof using All.
  intros k H. apply asy_inv.
  - apply asy_plus; [apply asy_const|]. apply asy_mult; [apply (asy_rl h v q z N ML Hz REG); lia|]. apply (asy_Rd h v q z N ML Hz REG); lia.
  - intros x. apply (reg_dn _ _ _ _ (REG x) k H).
  - apply c1nz. rg.
Qed.
Lemma au_Rd : forall j, (j <= N)%nat -> ((0 < N - j)%nat -> au kap (fun D lam => Rdn h (g lam) (zB D) M (N - j) * E2 (g lam) (zB D) (N - j)) (fun lam => Rdn h (g lam) z N (N - j) * E2 (g lam) z (N - j))) /\
  ((0 < j)%nat -> au kap (fun D lam => Rdn h (g lam) (zB D) M (N - j)) (fun lam => Rdn h (g lam) z N (N - j))).
Proof using All.
  induction j; intros Hj.
  - rewrite Nat.sub_0_r. split; [|lia]. intros H0. destruct (asy_Rd h v q z M MLM HzM REGM N ltac:(lia)) as [A _].
    apply (au_ext kap (fun D lam => Rdn h (g lam) z M N * E2 (g lam) (zB D) N) _ (fun lam => Rdn h (g lam) z M N * RtoC 0)).
    + intros D x. now rewrite (Rd_N' h (g x) z N M HM).
    + intros x. rewrite Rdn_N. rg.
    + apply (au_mult kap Hk (fun _ lam => Rdn h (g lam) z M N) _ (fun lam => Rdn h (g lam) z M N)); [exact (au_asy kap _ _ A)|exact au_E2N].
  - destruct (IHj ltac:(lia)) as [L _]. specialize (L ltac:(lia)). assert (A : au kap (fun D lam => Rdn h (g lam) (zB D) M (N - S j)) (fun lam => Rdn h (g lam) z N (N - S j))).
    { apply (au_ext kap (fun D lam => (rl h (g lam) (N - S j) + Rdn h (g lam) (zB D) M (S (N - S j)) * E2 (g lam) (zB D) (S (N - S j))) * / (1 + rl h (g lam) (N - S j) * (Rdn h (g lam) (zB D) M (S (N - S j)) * E2 (g lam) (zB D) (S (N - S j))))) _
        (fun lam => (rl h (g lam) (N - S j) + Rdn h (g lam) z N (S (N - S j)) * E2 (g lam) z (S (N - S j))) * / (1 + rl h (g lam) (N - S j) * (Rdn h (g lam) z N (S (N - S j)) * E2 (g lam) z (S (N - S j)))))).
      - intros D x. now rewrite (Rdn_r h (g x) (zB D) M (N - S j)) by lia.
      - intros x. now rewrite (Rdn_r h (g x) z N (N - S j)) by lia.
      - pose proof (den_asy (N - S j) ltac:(lia)) as DA. assert (DN : forall x, 1 + rl h (g x) (N - S j) * (Rdn h (g x) z N (S (N - S j)) * E2 (g x) z (S (N - S j))) <> RtoC 0) by (intros x; apply (reg_dn _ _ _ _ (REG x)); lia).
        replace (S (N - S j)) with (N - j)%nat in * by lia. pose proof (au_asy kap _ _ (asy_rl h v q z N ML Hz REG (N - S j) ltac:(lia))) as AR.
        apply (au_mult kap Hk (fun D lam => rl h (g lam) (N - S j) + Rdn h (g lam) (zB D) M (N - j) * E2 (g lam) (zB D) (N - j)) _ (fun lam => rl h (g lam) (N - S j) + Rdn h (g lam) z N (N - j) * E2 (g lam) z (N - j))).
        + exact (au_plus kap Hk _ _ _ _ AR L).
        + apply (au_inv kap Hk (fun D lam => 1 + rl h (g lam) (N - S j) * (Rdn h (g lam) (zB D) M (N - j) * E2 (g lam) (zB D) (N - j))) _ _ (au_plus kap Hk (fun _ _ => RtoC 1) _ (fun _ => RtoC 1) _ (au_const kap (RtoC 1)) (au_mult kap Hk _ _ _ _ AR L)) DA DN). }
    split; [|intros _; exact A]. intros H0. apply (au_ext kap (fun D lam => Rdn h (g lam) (zB D) M (N - S j) * E2 (g lam) z (N - S j)) _ (fun lam => Rdn h (g lam) z N (N - S j) * E2 (g lam) z (N - S j))).
    + intros D x. now rewrite (E2_lt (g x) z N M HM) by lia.
    + reflexivity.
    + apply (au_mult kap Hk _ (fun _ lam => E2 (g lam) z (N - S j)) _ (fun lam => E2 (g lam) z (N - S j)) A). eapply au_asy. apply (asy_E2 h v q z N ML Hz REG). lia.
Qed.
Lemma au_T : forall k, (0 < k <= N)%nat -> au kap (fun D lam => Rdn h (g lam) (zB D) M k * E2 (g lam) (zB D) k) (fun lam => Rdn h (g lam) z N k * E2 (g lam) z k).
Proof using All. intros k H. pose proof (proj1 (au_Rd (N - k) ltac:(lia))) as L. replace (N - (N - k))%nat with k in L by lia. apply L. lia. Qed.
Lemma au_R : forall k, (k < N)%nat -> au kap (fun D lam => Rdn h (g lam) (zB D) M k) (fun lam => Rdn h (g lam) z N k).
Proof using All. intros k H. pose proof (proj2 (au_Rd (N - k) ltac:(lia)) ltac:(lia)) as L. now replace (N - (N - k))%nat with k in L by lia. Qed.
Lemma au_Msi : forall k, (k <= N)%nat -> au kap (fun D lam => / Ms h (g lam) (zB D) M k) (fun lam => / Ms h (g lam) z N k).
Proof using All.
  intros k H. pose proof (asy_Msi h v q z N ML Hz REG k H) as A. apply (au_inv kap Hk _ _ (RtoC 1)); [|exact A|intros x; apply (regM _ _ _ _ (REG x) k H)].
  destruct (Nat.eq_dec k 0) as [->|NE].
  - apply (au_ext kap (fun _ _ => RtoC 1) _ (fun _ => RtoC 1)); [intros D x; unfold Ms; cbn [Rup]; rg|intros x; unfold Ms; cbn [Rup]; rg|apply au_const].
  - apply (au_ext kap (fun D lam => RtoC 1 + (- Rup h (g lam) z k) * (Rdn h (g lam) (zB D) M k * E2 (g lam) (zB D) k)) _ (fun lam => RtoC 1 + (- Rup h (g lam) z k) * (Rdn h (g lam) z N k * E2 (g lam) z k))).
    + intros D x. unfold Ms. rewrite (Ru_B h (g x) z N M HM) by lia. rg.
    + intros x. unfold Ms. rg.
    + apply (au_plus kap Hk (fun _ _ => RtoC 1) _ (fun _ => RtoC 1)); [apply au_const|]. apply (au_mult kap Hk (fun _ lam => - Rup h (g lam) z k) _ (fun lam => - Rup h (g lam) z k)); [|apply au_T; lia].
      eapply au_asy. apply asy_opp, (asy_Ru h v q z N ML Hz REG). lia.
Qed.
Lemma au_tdn : forall k, (k < N)%nat -> au kap (fun D lam => tdn h (g lam) (zB D) M k) (fun lam => tdn h (g lam) z N k).
Proof using All.
  intros k H. unfold tdn, Cdiv.
  apply (au_mult kap Hk (fun D lam => 1 + Rdn h (g lam) (zB D) M k) (fun D lam => / (1 + Rdn h (g lam) (zB D) M (S k) * E2 (g lam) (zB D) (S k))) (fun lam => 1 + Rdn h (g lam) z N k) (fun lam => / (1 + Rdn h (g lam) z N (S k) * E2 (g lam) z (S k)))).
  - apply (au_plus kap Hk (fun _ _ => RtoC 1) _ (fun _ => RtoC 1)); [apply au_const|now apply au_R].
  - assert (NZ : forall x, 1 + Rdn h (g x) z N (S k) * E2 (g x) z (S k) <> RtoC 0) by (intros x; apply (regd _ _ _ _ (REG x)); lia).
    apply (au_inv kap Hk (fun D lam => 1 + Rdn h (g lam) (zB D) M (S k) * E2 (g lam) (zB D) (S k)) (fun lam => 1 + Rdn h (g lam) z N (S k) * E2 (g lam) z (S k)) (/ (RtoC 1 + RtoC 0))); [| |exact NZ].
    + apply (au_plus kap Hk (fun _ _ => RtoC 1) _ (fun _ => RtoC 1)); [apply au_const|apply au_T; lia].
    + apply asy_inv; [|exact NZ|apply c1nz; rg]. apply asy_plus; [apply asy_const|]. apply (asy_Rd h v q z N ML Hz REG); lia.
Qed.

Lemma ap_dk : forall k d, (k <= N)%nat -> (0 <= d)%R -> ap kap (a * d) (fun _ lam => dec (g lam) k d) (fun lam => dec (g lam) k d).
Proof using All. intros k d H Hd. exact (ap_eb kap _ _ (eb_dk h v q z N ML Hz REG a Ha HA k d H Hd)). Qed.
Lemma ap_RN : ap kap 0 (fun D lam => Rdn h (g lam) (zB D) M N) (fun lam => Rdn h (g lam) z M N).
Proof using All.
  apply (ap_ext kap 0 (fun _ lam => Rdn h (g lam) z M N) _ (fun lam => Rdn h (g lam) z M N)); [intros D x; now rewrite (Rd_N' h (g x) z N M HM)|reflexivity|].
  apply au_ap. eapply au_asy. apply (asy_Rd h v q z M MLM HzM REGM N). lia.
Qed.
Lemma ap_R : forall k, (k < N)%nat -> ap kap 0 (fun D lam => Rdn h (g lam) (zB D) M k) (fun lam => Rdn h (g lam) z N k).
Proof using All. intros k H. apply au_ap. now apply au_R. Qed.
Lemma ap_Ru : forall k, (k <= N)%nat -> ap kap 0 (fun D lam => Rup h (g lam) (zB D) k) (fun lam => Rup h (g lam) z k).
Proof using All.
  intros k H. apply (ap_ext kap 0 (fun _ lam => Rup h (g lam) z k) _ (fun lam => Rup h (g lam) z k)); [intros D x; now rewrite (Ru_B h (g x) z N M HM) by lia|reflexivity|]. exact (ap_eb kap _ _ (eb_Ru h v q z N ML Hz REG a Ha HA k H)).
Qed.
Lemma ap_Msi : forall k, (k <= N)%nat -> ap kap 0 (fun D lam => / Ms h (g lam) (zB D) M k) (fun lam => / Ms h (g lam) z N k).
Proof using All. intros k H. apply au_ap. now apply au_Msi. Qed.
Lemma ap_bsd : forall pm k zs, inlay z N k zs -> (k < N)%nat -> ap kap (a * (z (S k) - zs)) (fun D lam => bsd h (g lam) (zB D) pm k zs) (fun lam => bsd h (g lam) z pm k zs).
Proof using All.
  intros pm k zs I H. apply (ap_ext kap _ (fun _ lam => bsd h (g lam) z pm k zs) _ (fun lam => bsd h (g lam) z pm k zs)); [intros D x; now rewrite (bsd_lt h (g x) z N M HM) by lia|reflexivity|].
  exact (ap_eb kap _ _ (eb_bsd h v q z N ML Hz REG a Ha HA pm k zs I H)).
Qed.
Lemma sm_end : forall c x, (0 <= c)%R -> ap kap c (fun D lam => dec (g lam) N (zB D (S N) - x)%R) (fun _ => RtoC 0).
Proof using All.
  intros c x Hc. apply (ap_ext kap c (fun D lam => dec (g lam) N (D + (z (S N) - x))%R) _ (fun _ => RtoC 0)); [|reflexivity|now apply sm_dec]. intros D y. rewrite (z_N z N M HM). f_equal. ring.
Qed.
Lemma sm_E1 : forall c, (0 <= c)%R -> ap kap c (fun D lam => E1 (g lam) (zB D) N) (fun _ => RtoC 0).
Proof using All.
  intros c Hc. apply (ap_ext kap c (fun D lam => dec (g lam) N (D + thick z N)%R) _ (fun _ => RtoC 0)); [|reflexivity|now apply sm_dec]. intros D y. unfold E1. now rewrite (tk_N z N M HM).
Qed.
Lemma sm_bsd : forall c pm zs, (0 <= c)%R -> ap kap c (fun D lam => bsd h (g lam) (zB D) pm N zs) (fun _ => RtoC 0).
Proof using All.
  intros c pm zs Hc. unfold bsd.
  apply (ap_ext kap c (fun D lam => dec (g lam) N (zB D (S N) - zs)%R + pm * Rup h (g lam) (zB D) N * dec (g lam) N (D + (thick z N + (zs - z N)))%R) _ (fun lam => RtoC 0 + pm * Rup h (g lam) z N * RtoC 0)).
  - intros D x. rewrite (tk_N z N M HM), (z_le z N M HM D N) by lia. f_equal. f_equal. f_equal. ring.
  - intros x. rg.
  - apply (ap_plus kap Hk); [now apply sm_end|]. apply (ap_mult0 kap Hk c (fun D lam => pm * Rup h (g lam) (zB D) N) _ (fun lam => pm * Rup h (g lam) z N)); [|now apply sm_dec]. apply (ap_scal kap Hk). now apply ap_Ru.
Qed.
Lemma ap_bsu : forall pm k zs, inlay z N k zs -> (0 < k)%nat -> ap kap (a * (zs - z k)) (fun D lam => bsu h (g lam) (zB D) M pm k zs) (fun lam => bsu h (g lam) z N pm k zs).
Proof using All.
  intros pm k zs (L0 & L1 & L2) H0. specialize (L1 H0). unfold bsu. apply (ap_plus kap Hk).
  - apply (ap_ext kap _ (fun _ lam => dec (g lam) k (zs - z k)%R) _ (fun lam => dec (g lam) k (zs - z k)%R)); [intros D x; now rewrite (z_le z N M HM) by lia|reflexivity|]. apply ap_dk; [exact L0|lra].
  - assert (Q : (0 <= a * (zs - z k))%R) by (apply Rmult_le_pos; lra). destruct (Nat.eq_dec k N) as [E|NE].
    + rewrite E in *. apply (ap_ext kap _ (fun D lam => (pm * Rdn h (g lam) (zB D) M N) * (dec (g lam) N (D + thick z N)%R * dec (g lam) N (D + (z (S N) - zs))%R)) _ (fun lam => pm * Rdn h (g lam) z M N * (RtoC 0 * RtoC 0))).
      * intros D x. rewrite (tk_N z N M HM), (z_N z N M HM). apply f_equal. rewrite <- dec_split. f_equal. ring.
      * intros x. rewrite Rdn_N. rg.
      * apply (ap_mult0 kap Hk _ (fun D lam => pm * Rdn h (g lam) (zB D) M N) _ (fun lam => pm * Rdn h (g lam) z M N)); [apply (ap_scal kap Hk), ap_RN|]. apply (ap_mult0 kap Hk _ (fun D lam => dec (g lam) N (D + thick z N)%R) _ (fun _ => RtoC 0)); [apply sm_dec; lra|now apply sm_dec].
    + specialize (L2 ltac:(lia)). apply (ap_ext kap _ (fun D lam => (pm * Rdn h (g lam) (zB D) M k) * dec (g lam) k (thick z k + (z (S k) - zs))%R) _ (fun lam => pm * Rdn h (g lam) z N k * dec (g lam) k (thick z k + (z (S k) - zs))%R)).
      * intros D x. now rewrite (tk_lt z N M HM), (z_le z N M HM) by lia.
      * reflexivity.
      * apply (ap_mult0 kap Hk _ (fun D lam => pm * Rdn h (g lam) (zB D) M k) _ (fun lam => pm * Rdn h (g lam) z N k)); [apply (ap_scal kap Hk), ap_R; lia|].
        pose proof (th_pos z N Hz k ltac:(lia)) as T. eapply (ap_weak kap Hk); [apply ap_dk; [lia|lra]|]. apply Rmult_le_compat_l; [lra|]. unfold thick in *. lra.
Qed.
Lemma ap_same : forall pm sg k zs zr, inlay z N k zs -> inlay z N k zr -> ap kap (a * Rabs (zs - zr)) (fun D lam => G_same h (g lam) (zB D) M pm sg k zs zr) (fun lam => G_same h (g lam) z N pm sg k zs zr).
Proof using All.
  intros pm sg k zs zr LS LR. pose proof LS as (L0 & L1 & L2). pose proof LR as (_ & R1 & R2). unfold G_same. assert (Q : (0 <= a * Rabs (zs - zr))%R) by (apply Rmult_le_pos; [lra|apply Rabs_pos]). apply (ap_plus kap Hk).
  - destruct (Nat.eq_dec k N) as [E|NE].
    + rewrite E in *. apply (ap_ext kap _ (fun D lam => Rdn h (g lam) (zB D) M N * bsd h (g lam) (zB D) pm N zs * / Ms h (g lam) (zB D) M N * dec (g lam) N (zB D (S N) - zr)%R) _ (fun lam => Rdn h (g lam) z M N * RtoC 0 * / Ms h (g lam) z N N * RtoC 0)).
      * reflexivity.
      * intros x. rewrite Rdn_N. unfold Cdiv. rg.
      * apply (ap_mult0r kap Hk _ (fun D lam => Rdn h (g lam) (zB D) M N * bsd h (g lam) (zB D) pm N zs * / Ms h (g lam) (zB D) M N) _ (fun lam => Rdn h (g lam) z M N * RtoC 0 * / Ms h (g lam) z N N)); [|apply sm_end; lra].
        apply (ap_mult0r kap Hk _ (fun D lam => Rdn h (g lam) (zB D) M N * bsd h (g lam) (zB D) pm N zs) _ (fun lam => Rdn h (g lam) z M N * RtoC 0)); [|apply ap_Msi; lia].
        apply (ap_mult0 kap Hk _ (fun D lam => Rdn h (g lam) (zB D) M N) _ (fun lam => Rdn h (g lam) z M N)); [exact ap_RN|now apply sm_bsd].
    + specialize (L2 ltac:(lia)). specialize (R2 ltac:(lia)). eapply (ap_weak kap Hk).
      * apply (ap_mult kap Hk (a * (z (S k) - zs)) (a * (z (S k) - zr)) (fun D lam => Rdn h (g lam) (zB D) M k * bsd h (g lam) (zB D) pm k zs * / Ms h (g lam) (zB D) M k) _ (fun lam => Rdn h (g lam) z N k * bsd h (g lam) z pm k zs * / Ms h (g lam) z N k)).
        -- apply (ap_mult0r kap Hk _ (fun D lam => Rdn h (g lam) (zB D) M k * bsd h (g lam) (zB D) pm k zs) _ (fun lam => Rdn h (g lam) z N k * bsd h (g lam) z pm k zs)); [|apply ap_Msi; lia].
           apply (ap_mult0 kap Hk _ (fun D lam => Rdn h (g lam) (zB D) M k) _ (fun lam => Rdn h (g lam) z N k)); [apply ap_R; lia|apply ap_bsd; [exact LS|lia]].
        -- apply (ap_ext kap _ (fun _ lam => dec (g lam) k (z (S k) - zr)%R) _ (fun lam => dec (g lam) k (z (S k) - zr)%R)); [intros D x; now rewrite (z_le z N M HM) by lia|reflexivity|]. apply ap_dk; [lia|lra].
      * rewrite <- Rmult_plus_distr_l. apply Rmult_le_compat_l; [lra|]. unfold Rabs. destruct (Rcase_abs _); lra.
  - apply (ap_scal kap Hk). destruct (Nat.eq_dec k 0) as [E|NE].
    + rewrite E. apply (ap_ext kap _ (fun _ _ => RtoC 0) _ (fun _ => RtoC 0)); [intros D x; cbn [Rup]; unfold Cdiv; rg|intros x; cbn [Rup]; unfold Cdiv; rg|]. exact (ap_eb kap _ _ (eb_zero _)).
    + specialize (L1 ltac:(lia)). specialize (R1 ltac:(lia)). eapply (ap_weak kap Hk).
      * apply (ap_mult kap Hk (a * (zs - z k)) (a * (zr - z k)) (fun D lam => Rup h (g lam) (zB D) k * bsu h (g lam) (zB D) M pm k zs * / Ms h (g lam) (zB D) M k) _ (fun lam => Rup h (g lam) z k * bsu h (g lam) z N pm k zs * / Ms h (g lam) z N k)).
        -- apply (ap_mult0r kap Hk _ (fun D lam => Rup h (g lam) (zB D) k * bsu h (g lam) (zB D) M pm k zs) _ (fun lam => Rup h (g lam) z k * bsu h (g lam) z N pm k zs)); [|apply ap_Msi; lia].
           apply (ap_mult0 kap Hk _ (fun D lam => Rup h (g lam) (zB D) k) _ (fun lam => Rup h (g lam) z k)); [apply ap_Ru; lia|apply ap_bsu; [exact LS|lia]].
        -- apply (ap_ext kap _ (fun _ lam => dec (g lam) k (zr - z k)%R) _ (fun lam => dec (g lam) k (zr - z k)%R)); [intros D x; now rewrite (z_le z N M HM) by lia|reflexivity|]. apply ap_dk; [lia|lra].
      * rewrite <- Rmult_plus_distr_l. apply Rmult_le_compat_l; [lra|]. unfold Rabs. destruct (Rcase_abs _); lra.
Qed.
Lemma ap_E1 : forall k, (0 < k < N)%nat -> ap kap (a * thick z k) (fun D lam => E1 (g lam) (zB D) k) (fun lam => E1 (g lam) z k).
Proof using All.
  intros k H. apply (ap_ext kap _ (fun _ lam => dec (g lam) k (thick z k)) _ (fun lam => dec (g lam) k (thick z k))); [intros D x; unfold E1; now rewrite (tk_lt z N M HM) by lia|reflexivity|]. apply ap_dk; [lia|]. left. apply (th_pos z N Hz). lia.
Qed.
Lemma ap_prod_dn : forall n k, (0 < k)%nat -> (k + n <= N)%nat -> ap kap (a * (z (k + n)%nat - z k)) (fun D lam => prodC (fun j => E1 (g lam) (zB D) j * tdn h (g lam) (zB D) M j) k n) (fun lam => prodC (fun j => E1 (g lam) z j * tdn h (g lam) z N j) k n).
Proof using All.
  induction n; intros k K0 H; cbn [prodC].
  - rewrite Nat.add_0_r. eapply (ap_weak kap Hk); [apply ap_const|]. lra.
  - eapply (ap_weak kap Hk); [apply (ap_mult kap Hk (a * thick z k) (a * (z (S k + n)%nat - z (S k))) (fun D lam => E1 (g lam) (zB D) k * tdn h (g lam) (zB D) M k) _ (fun lam => E1 (g lam) z k * tdn h (g lam) z N k))|].
    + apply (ap_mult0r kap Hk); [apply ap_E1; lia|]. apply au_ap, au_tdn. lia.
    + apply IHn; lia.
    + unfold thick. replace (S k + n)%nat with (k + S n)%nat by lia. right. rg.
Qed.
Lemma ap_dn : forall pm sg k r zs zr, (k < r)%nat -> inlay z N k zs -> inlay z N r zr -> ap kap (a * (zr - zs)) (fun D lam => G_dn h (g lam) (zB D) M pm sg k r zs zr) (fun lam => G_dn h (g lam) z N pm sg k r zs zr).
Proof using All.
  intros pm sg k r zs zr Hkr LS LR. pose proof LS as (L0 & L1 & L2). pose proof LR as (R0 & R1 & R2). specialize (L2 ltac:(lia)). specialize (R1 ltac:(lia)).
  unfold G_dn, amp_dn. eapply (ap_weak kap Hk).
  - apply (ap_mult kap Hk (a * (z r - zs)) (a * (zr - z r))
      (fun D lam => bsd h (g lam) (zB D) pm k zs / Ms h (g lam) (zB D) M k * tdn h (g lam) (zB D) M k * prodC (fun j => E1 (g lam) (zB D) j * tdn h (g lam) (zB D) M j) (S k) (r - S k)) _
      (fun lam => bsd h (g lam) z pm k zs / Ms h (g lam) z N k * tdn h (g lam) z N k * prodC (fun j => E1 (g lam) z j * tdn h (g lam) z N j) (S k) (r - S k))).
    + eapply (ap_weak kap Hk).
      * apply (ap_mult kap Hk (a * (z (S k) - zs)) (a * (z (S k + (r - S k))%nat - z (S k))) (fun D lam => bsd h (g lam) (zB D) pm k zs / Ms h (g lam) (zB D) M k * tdn h (g lam) (zB D) M k) _ (fun lam => bsd h (g lam) z pm k zs / Ms h (g lam) z N k * tdn h (g lam) z N k)).
        -- apply (ap_mult0r kap Hk _ (fun D lam => bsd h (g lam) (zB D) pm k zs / Ms h (g lam) (zB D) M k) _ (fun lam => bsd h (g lam) z pm k zs / Ms h (g lam) z N k)); [|apply au_ap, au_tdn; lia].
           apply (ap_mult0r kap Hk _ _ (fun D lam => / Ms h (g lam) (zB D) M k) _ (fun lam => / Ms h (g lam) z N k)); [apply ap_bsd; [exact LS|lia]|apply ap_Msi; lia].
        -- apply ap_prod_dn; lia.
      * replace (S k + (r - S k))%nat with r by lia. right. rg.
    + apply (ap_plus kap Hk).
      * apply (ap_scal kap Hk). apply (ap_ext kap _ (fun _ lam => dec (g lam) r (zr - z r)%R) _ (fun lam => dec (g lam) r (zr - z r)%R)); [intros D x; now rewrite (z_le z N M HM) by lia|reflexivity|]. apply ap_dk; [lia|lra].
      * assert (Q : (0 <= a * (zr - z r))%R) by (apply Rmult_le_pos; lra). destruct (Nat.eq_dec r N) as [E|NE].
        -- rewrite E in *. apply (ap_ext kap _ (fun D lam => Rdn h (g lam) (zB D) M N * E1 (g lam) (zB D) N * dec (g lam) N (zB D (S N) - zr)%R) _ (fun lam => Rdn h (g lam) z M N * RtoC 0 * RtoC 0)); [reflexivity|intros x; rewrite Rdn_N; rg|].
           apply (ap_mult0r kap Hk _ (fun D lam => Rdn h (g lam) (zB D) M N * E1 (g lam) (zB D) N) _ (fun lam => Rdn h (g lam) z M N * RtoC 0)); [|apply sm_end; lra].
           apply (ap_mult0 kap Hk _ (fun D lam => Rdn h (g lam) (zB D) M N) _ (fun lam => Rdn h (g lam) z M N)); [exact ap_RN|now apply sm_E1].
        -- specialize (R2 ltac:(lia)). pose proof (th_pos z N Hz r ltac:(lia)) as T. eapply (ap_weak kap Hk).
           ++ apply (ap_mult kap Hk (a * thick z r) (a * (z (S r) - zr)) (fun D lam => Rdn h (g lam) (zB D) M r * E1 (g lam) (zB D) r) _ (fun lam => Rdn h (g lam) z N r * E1 (g lam) z r)).
              ** apply (ap_mult0 kap Hk); [apply ap_R; lia|apply ap_E1; lia].
              ** apply (ap_ext kap _ (fun _ lam => dec (g lam) r (z (S r) - zr)%R) _ (fun lam => dec (g lam) r (z (S r) - zr)%R)); [intros D x; now rewrite (z_le z N M HM) by lia|reflexivity|]. apply ap_dk; [lia|lra].
           ++ rewrite <- Rmult_plus_distr_l. apply Rmult_le_compat_l; [lra|]. unfold thick in *. lra.
  - right. rg.
Qed.
Lemma ap_up : forall pm sg k r zs zr, (r < k)%nat -> inlay z N k zs -> inlay z N r zr -> ap kap (a * (zs - zr)) (fun D lam => G_up h (g lam) (zB D) M pm sg k r zs zr) (fun lam => G_up h (g lam) z N pm sg k r zs zr).
Proof using All.
  intros pm sg k r zs zr Hkr LS LR. pose proof LS as (L0 & L1 & L2). pose proof LR as (R0 & R1 & R2). specialize (L1 ltac:(lia)). specialize (R2 ltac:(lia)).
  apply (ap_ext kap _ (fun D lam => pm * bsu h (g lam) (zB D) M pm k zs * / Ms h (g lam) (zB D) M k * tup h (g lam) z (k - 1) * prodC (fun j => E1 (g lam) z j * tup h (g lam) z (j - 1)) (S r) (k - S r) * (dec (g lam) r (z (S r) - zr)%R + sg * Rup h (g lam) z r * E1 (g lam) z r * dec (g lam) r (zr - z r)%R)) _
    (fun lam => pm * bsu h (g lam) z N pm k zs * / Ms h (g lam) z N k * tup h (g lam) z (k - 1) * prodC (fun j => E1 (g lam) z j * tup h (g lam) z (j - 1)) (S r) (k - S r) * (dec (g lam) r (z (S r) - zr)%R + sg * Rup h (g lam) z r * E1 (g lam) z r * dec (g lam) r (zr - z r)%R))).
  - intros D x. unfold G_up, amp_up, Cdiv. rewrite (tup_B h (g x) z N M HM), (Ru_B h (g x) z N M HM), (E1_lt (g x) z N M HM), !(z_le z N M HM) by lia. f_equal. f_equal. apply prodC_ext. intros j Hj. now rewrite (E1_lt (g x) z N M HM), (tup_B h (g x) z N M HM) by lia.
  - reflexivity.
  - eapply (ap_weak kap Hk).
    + apply (ap_mult kap Hk (a * (zs - z (S r))) (a * (z (S r) - zr)) (fun D lam => pm * bsu h (g lam) (zB D) M pm k zs * / Ms h (g lam) (zB D) M k * tup h (g lam) z (k - 1) * prodC (fun j => E1 (g lam) z j * tup h (g lam) z (j - 1)) (S r) (k - S r))
        (fun _ lam => dec (g lam) r (z (S r) - zr)%R + sg * Rup h (g lam) z r * E1 (g lam) z r * dec (g lam) r (zr - z r)%R)
        (fun lam => pm * bsu h (g lam) z N pm k zs * / Ms h (g lam) z N k * tup h (g lam) z (k - 1) * prodC (fun j => E1 (g lam) z j * tup h (g lam) z (j - 1)) (S r) (k - S r))
        (fun lam => dec (g lam) r (z (S r) - zr)%R + sg * Rup h (g lam) z r * E1 (g lam) z r * dec (g lam) r (zr - z r)%R)).
      * eapply (ap_weak kap Hk).
        -- apply (ap_mult kap Hk (a * (zs - z k)) (a * (z (S r + (k - S r))%nat - z (S r))) (fun D lam => pm * bsu h (g lam) (zB D) M pm k zs * / Ms h (g lam) (zB D) M k * tup h (g lam) z (k - 1))
             (fun _ lam => prodC (fun j => E1 (g lam) z j * tup h (g lam) z (j - 1)) (S r) (k - S r)) (fun lam => pm * bsu h (g lam) z N pm k zs * / Ms h (g lam) z N k * tup h (g lam) z (k - 1)) (fun lam => prodC (fun j => E1 (g lam) z j * tup h (g lam) z (j - 1)) (S r) (k - S r))).
           ++ apply (ap_mult0r kap Hk _ (fun D lam => pm * bsu h (g lam) (zB D) M pm k zs * / Ms h (g lam) (zB D) M k) (fun _ lam => tup h (g lam) z (k - 1)) (fun lam => pm * bsu h (g lam) z N pm k zs * / Ms h (g lam) z N k) (fun lam => tup h (g lam) z (k - 1))).
              ** apply (ap_mult0r kap Hk _ (fun D lam => pm * bsu h (g lam) (zB D) M pm k zs) _ (fun lam => pm * bsu h (g lam) z N pm k zs)); [|apply ap_Msi; lia]. apply (ap_scal kap Hk). apply ap_bsu; [exact LS|lia].
              ** exact (ap_eb kap _ _ (eb_tup h v q z N ML Hz REG a Ha HA (k - 1) ltac:(lia))).
           ++ exact (ap_eb kap _ _ (eb_prod_up h v q z N ML Hz REG a Ha HA (k - S r) (S r) ltac:(lia) ltac:(lia))).
        -- replace (S r + (k - S r))%nat with k by lia. right. rg.
      * apply (ap_eb kap (a * (z (S r) - zr)) (fun lam => dec (g lam) r (z (S r) - zr)%R + sg * Rup h (g lam) z r * E1 (g lam) z r * dec (g lam) r (zr - z r)%R)).
        apply eb_plus; [apply (eb_dk h v q z N ML Hz REG a Ha HA); [lia|lra]|]. destruct (Nat.eq_dec r 0) as [E|NE].
        -- eapply eb_ext; [|apply eb_zero]. intros x. cbv beta. rewrite E. cbn [Rup]. rg.
        -- specialize (R1 ltac:(lia)). pose proof (th_pos z N Hz r ltac:(lia)) as T. eapply eb_weak; [apply (eb_mult (a * thick z r) (a * (zr - z r)))|].
           ++ apply eb_mult0; [apply eb_scal, (eb_Ru h v q z N ML Hz REG a Ha HA); lia|]. unfold E1. apply (eb_dk h v q z N ML Hz REG a Ha HA); [lia|lra].
           ++ apply (eb_dk h v q z N ML Hz REG a Ha HA); [lia|lra].
           ++ rewrite <- Rmult_plus_distr_l. apply Rmult_le_compat_l; [lra|]. unfold thick in *. lra.
    + right. rg.
Qed.
Theorem ap_mode : forall pm sg k r zs zr xd, inlay z N k zs -> inlay z N r zr -> ap kap (a * Rabs (zs - zr)) (fun D lam => G_mode h (g lam) (zB D) M pm sg k r zs zr xd) (fun lam => G_mode h (g lam) z N pm sg k r zs zr xd).
Proof using All.
  intros pm sg k r zs zr xd LS LR. pose proof LS as (L0 & L1 & L2). pose proof LR as (R0 & R1 & R2). unfold G_mode. destruct (Nat.eqb_spec k r) as [E|NE].
  - subst r. apply (ap_plus kap Hk _ _ (fun _ lam => if xd then RtoC 0 else G_dir (g lam) pm sg k zs zr)); [now apply ap_same|]. destruct xd; [exact (ap_eb kap _ _ (eb_zero _))|].
    apply (ap_eb kap _ (fun lam => G_dir (g lam) pm sg k zs zr)). unfold G_dir. apply eb_mult0r; [apply (eb_dk h v q z N ML Hz REG a Ha HA); [exact L0|apply Rabs_pos]|apply eb_const].
  - destruct (Nat.ltb_spec r k) as [H|H].
    + pose proof (z_incr z N Hz (S r) k ltac:(lia) ltac:(lia)). specialize (L1 ltac:(lia)). specialize (R2 ltac:(lia)). rewrite Rabs_pos_eq by lra. now apply ap_up.
    + pose proof (z_incr z N Hz (S k) r ltac:(lia) ltac:(lia)). specialize (L2 ltac:(lia)). specialize (R1 ltac:(lia)). replace (Rabs (zs - zr)) with (zr - zs)%R by (rewrite Rabs_left1; lra). apply ap_dn; [lia|assumption|assumption].
Qed.
Lemma ap_PTM : forall ab xd s r zs zr, inlay z N s zs -> inlay z N r zr -> ap kap (a * Rabs (zs - zr)) (fun D lam => PTM h v q (zB D) M lam ab xd s r zs zr) (fun lam => PTM h v q z N lam ab xd s r zs zr).
Proof using All.
  intros ab xd s r zs zr IS IR. unfold PTM. destruct (mode_used true ab); [|exact (ap_eb kap _ _ (eb_zero _))].
  apply (ap_mult0 kap Hk _ (fun _ lam => fTM h v (g lam) ab s r) _ (fun lam => fTM h v (g lam) ab s r)); [|now apply ap_mode]. apply (ap_eb kap 0 (fun lam => fTM h v (g lam) ab s r)). apply (eb_fTM h v q N ML); [apply IS|apply IR].
Qed.
Lemma ap_PTE : forall ab xd s r zs zr, inlay z N s zs -> inlay z N r zr -> ap kap (a * Rabs (zs - zr)) (fun D lam => PTE h v q (zB D) M lam ab xd s r zs zr) (fun lam => PTE h v q z N lam ab xd s r zs zr).
Proof using All.
  intros ab xd s r zs zr IS IR. unfold PTE. destruct (mode_used false ab); [|exact (ap_eb kap _ _ (eb_zero _))].
  apply (ap_mult0 kap Hk _ (fun _ lam => fTE h v (g lam) ab s) _ (fun lam => fTE h v (g lam) ab s)); [|now apply ap_mode]. apply (ap_eb kap 0 (fun lam => fTE h v (g lam) ab s)). apply (eb_fTE h v q N ML); apply IS.
Qed.
End Stack.
