(** Hankel transforms of exponentials of square roots: the Sommerfeld integral and its
    relatives, by integration by parts and rotation of the observation point. *)

From Coq Require Import Reals List Bool Lia Lra Psatz.
From Coquelicot Require Import Coquelicot.
From Verif Require Import CBase ODE FullspaceMaxwell FullspaceCurl Bessel Cint Hankel.
Import ListNotations.
Local Open Scope R_scope.
Local Open Scope C_scope.

(** ** Limits of complex functions *)
Lemma Cmod_small : forall z : C, (Cmod z <= 2 * Rmax (Rabs (fst z)) (Rabs (snd z)))%R.
Proof. intros z. pose proof (Cmod_le_sum z). pose proof (Rmax_l (Rabs (fst z)) (Rabs (snd z))). pose proof (Rmax_r (Rabs (fst z)) (Rabs (snd z))). lra. Qed.
Lemma limC_eps : forall (f : R -> C) l, limC f pinf l <-> (forall e : R, (0 < e)%R -> exists T0 : R, forall T : R, (T0 < T)%R -> (Cmod (Cminus (f T) l) < e)%R).
Proof.
  intros f l. unfold limC. rewrite !lim_eps. split.
  - intros [H1 H2] e He. destruct (H1 (e / 2)%R) as [A HA]; [lra|]. destruct (H2 (e / 2)%R) as [B HB]; [lra|]. exists (Rmax A B). intros T HT.
    specialize (HA T). specialize (HB T). assert (A < T)%R by (eapply Rle_lt_trans; [apply Rmax_l|exact HT]). assert (B < T)%R by (eapply Rle_lt_trans; [apply Rmax_r|exact HT]).
    eapply Rle_lt_trans; [apply Cmod_le_sum|]. cbn [fst snd Cminus Cplus Copp]. specialize (HA H). specialize (HB H0). unfold Rminus in *. lra.
  - intros H. split; intros e He; destruct (H e He) as [A HA]; exists A; intros T HT; specialize (HA T HT).
    + eapply Rle_lt_trans; [|exact HA]. apply (fst_le_Cmod (Cminus (f T) l)).
    + eapply Rle_lt_trans; [|exact HA]. apply (snd_le_Cmod (Cminus (f T) l)).
Qed.
Lemma limC_bound : forall (f : R -> C) l (g : R -> R) T1, (forall T : R, (T1 < T)%R -> (Cmod (Cminus (f T) l) <= g T)%R) -> filterlim g pinf (locally 0%R) -> limC f pinf l.
Proof.
  intros f l g T1 H Hg. apply limC_eps. intros e He. destruct (proj1 (lim_eps g 0) Hg e He) as [A HA]. exists (Rmax A T1). intros T HT.
  assert (HA' : (A < T)%R) by (eapply Rle_lt_trans; [apply Rmax_l|exact HT]). assert (HB : (T1 < T)%R) by (eapply Rle_lt_trans; [apply Rmax_r|exact HT]).
  eapply Rle_lt_trans; [now apply H|]. specialize (HA T HA'). rewrite Rminus_0_r in HA. eapply Rle_lt_trans; [apply Rle_abs|exact HA].
Qed.
Lemma limC_eq : forall (f : R -> C) a b, limC f pinf a -> a = b -> limC f pinf b.
Proof. intros; now subst. Qed.
Lemma limC_mult : forall (f g : R -> C) a b, limC f pinf a -> limC g pinf b -> limC (fun t => f t * g t) pinf (a * b).
Proof.
  intros f g a b [H1 H2] [H3 H4]. split; cbn.
  - apply filterlim_Rminus; apply filterlim_Rmult; assumption.
  - apply filterlim_Rplus; apply filterlim_Rmult; assumption.
Qed.

(** ** Decay *)
Lemma pow_exp : forall n c T, (0 < c)%R -> (0 <= T)%R -> (T ^ n * exp (- (c * T)) <= (2 * INR (S n) / c) ^ n * exp (- (c / 2 * T)))%R.
Proof.
  intros n c T Hc HT. assert (N0 : (0 < INR (S n))%R) by (apply lt_0_INR; lia). set (d := (c / (2 * INR (S n)))%R). assert (D0 : (0 < d)%R) by (apply Rdiv_lt_0_compat; lra).
  assert (B : (T ^ n <= (2 * INR (S n) / c) ^ n * exp (c / 2 * T))%R).
  { replace (T ^ n)%R with ((2 * INR (S n) / c) ^ n * (d * T) ^ n)%R.
    - apply Rmult_le_compat_l; [apply pow_le, Rlt_le, Rdiv_lt_0_compat; lra|].
      assert (G : forall m x, (0 <= x)%R -> (x ^ m <= exp (INR m * x))%R).
      { intros m x Hx. induction m as [|m IH]; [cbn [pow INR]; rewrite Rmult_0_l, exp_0; lra|]. cbn [pow]. replace (INR (S m) * x)%R with (x + INR m * x)%R by (rewrite S_INR; ring). rewrite exp_plus.
        apply Rmult_le_compat; try assumption; [now apply pow_le|]. pose proof (exp_ineq1_le x). lra. }
      eapply Rle_trans; [apply G; apply Rmult_le_pos; lra|]. destruct (Req_dec T 0) as [->|NT]; [rewrite !Rmult_0_r; lra|].
      apply Rlt_le, exp_increasing. unfold d. replace (INR n * (c / (2 * INR (S n)) * T))%R with (INR n / INR (S n) * (c / 2 * T))%R by (field; lra).
      assert (K : (INR n / INR (S n) < 1)%R) by (apply (Rmult_lt_reg_r (INR (S n))); [exact N0|]; unfold Rdiv; rewrite Rmult_assoc, Rinv_l, S_INR by lra; lra).
      assert (0 < c / 2 * T)%R by nra. nra.
    - rewrite <- Rpow_mult_distr. f_equal. unfold d. field. lra. }
  apply Rmult_le_compat_r with (r := exp (- (c * T))) in B; [|apply Rlt_le, exp_pos]. eapply Rle_trans; [exact B|]. rewrite Rmult_assoc, <- exp_plus. apply Rmult_le_compat_l; [apply pow_le, Rlt_le, Rdiv_lt_0_compat; lra|].
  right. f_equal. lra.
Qed.
Lemma exp_dec_lim : forall c, (0 < c)%R -> filterlim (fun T => exp (- (c * T))) pinf (locally 0%R).
Proof.
  intros c Hc. apply lim_eps. intros e He. exists (- ln e / c)%R. intros T HT. rewrite Rminus_0_r, Rabs_pos_eq by (apply Rlt_le, exp_pos).
  rewrite <- (exp_ln e) at 1 by exact He. apply exp_increasing. apply Rmult_lt_compat_l with (r := c) in HT; [|exact Hc]. replace (c * (- ln e / c))%R with (- ln e)%R in HT by (field; lra). lra.
Qed.
Lemma pow_dec_lim : forall A n c, (0 < c)%R -> filterlim (fun T => A * (T ^ n * exp (- (c * T))))%R pinf (locally 0%R).
Proof.
  intros A n c Hc. replace 0%R with (A * 0)%R at 1 by ring. apply filterlim_Rmult; [apply filterlim_Rconst|].
  apply lim_eps. intros e He. set (B := ((2 * INR (S n) / c) ^ n)%R). assert (C2 : (0 < c / 2)%R) by lra.
  assert (HL : filterlim (fun T => B * exp (- (c / 2 * T)))%R pinf (locally 0%R)) by (replace 0%R with (B * 0)%R at 1 by ring; apply filterlim_Rmult; [apply filterlim_Rconst|exact (exp_dec_lim (c / 2) C2)]).
  destruct (proj1 (lim_eps _ _) HL e He) as [T0 H]. exists (Rmax 0 T0). intros T HT. assert (0 < T)%R by (eapply Rle_lt_trans; [apply Rmax_l|exact HT]). assert (T0 < T)%R by (eapply Rle_lt_trans; [apply Rmax_r|exact HT]).
  specialize (H T H1). rewrite Rminus_0_r in *. rewrite Rabs_pos_eq by (apply Rmult_le_pos; [apply pow_le; lra|apply Rlt_le, exp_pos]).
  eapply Rle_lt_trans; [apply pow_exp; lra|]. eapply Rle_lt_trans; [apply Rle_abs|exact H].
Qed.
(** a bound of the integral that does not depend on the upper limit *)
Lemma exp_int : forall A c T, (0 < c)%R -> (0 <= A)%R -> (0 <= T)%R -> (RInt (fun x => A * exp (- (c * x))) 0 T <= A / c)%R.
Proof.
  intros A c T Hc HA HT. assert (E : is_RInt (fun x => A * exp (- (c * x)))%R 0 T (minus (- (A / c) * exp (- (c * T)))%R (- (A / c) * exp (- (c * 0)))%R)).
  { apply (is_RInt_derive (V := V) (fun x => - (A / c) * exp (- (c * x)))%R).
    - intros x _. auto_derive; [exact I|]. field. lra.
    - intros x _. apply (ex_derive_continuous (fun x => A * exp (- (c * x)))%R). auto_derive. exact I. }
  rewrite (is_RInt_unique (V := V) _ _ _ _ E). unfold minus, plus, opp; cbn. rewrite Rmult_0_r, Ropp_0, exp_0. pose proof (exp_pos (- (c * T))). assert (0 <= A / c)%R by (apply Rmult_le_pos; [lra|left; now apply Rinv_0_lt_compat]). nra.
Qed.
Lemma pow_int : forall n A c T, (0 < c)%R -> (0 <= A)%R -> (0 <= T)%R -> (RInt (fun x => A * (x ^ n * exp (- (c * x)))) 0 T <= A * (2 * INR (S n) / c) ^ n / (c / 2))%R.
Proof.
  intros n A c T Hc HA HT. assert (N0 : (0 < INR (S n))%R) by (apply lt_0_INR; lia). eapply Rle_trans; [|apply (exp_int (A * (2 * INR (S n) / c) ^ n) (c / 2) T); [lra| |exact HT]].
  - apply RInt_le; [exact HT| | |].
    + apply (ex_RInt_continuous (V := V)). intros x _. apply (ex_derive_continuous (fun x => A * (x ^ n * exp (- (c * x))))%R). auto_derive. exact I.
    + apply (ex_RInt_continuous (V := V)). intros x _. apply (ex_derive_continuous (fun x => A * (2 * INR (S n) / c) ^ n * exp (- (c / 2 * x)))%R). auto_derive. exact I.
    + intros x Hx. rewrite Rmult_assoc. apply Rmult_le_compat_l; [exact HA|]. apply pow_exp; lra.
  - apply Rmult_le_pos; [exact HA|apply pow_le, Rlt_le, Rdiv_lt_0_compat; lra].
Qed.

(** ** Helpers *)
Lemma dC_R : forall (f : R -> R) x l, is_derive f x l -> is_deriveC (fun t => RtoC (f t)) x (RtoC l).
Proof. intros f x l H. split; cbn; [exact H|apply (is_derive_const (K := R_AbsRing) (V := R_NormedModule))]. Qed.
Lemma dC_eq : forall f x a b, is_deriveC f x a -> a = b -> is_deriveC f x b.
Proof. intros; now subst. Qed.
Lemma dC_ext : forall f g x a, (forall t, f t = g t) -> is_deriveC f x a -> is_deriveC g x a.
Proof. intros f g x a H. apply is_deriveC_ext_loc. now apply filter_forall. Qed.
Lemma exp_le_mono : forall x y, (x <= y)%R -> (exp x <= exp y)%R.
Proof. intros x y [H|H]; [left; now apply exp_increasing|right; now subst]. Qed.
Lemma Cmod_exp_le : forall z : C, (Cmod (Cexp z) <= exp (fst z))%R.
Proof. intros z. rewrite Cmod_Cexp. lra. Qed.
Lemma c2_id1 : forall u v, c2 (fun a _ => RtoC a) u v. Proof. intros. apply (c2_1 RtoC), cC_id. Qed.
Lemma c2_id2 : forall u v, c2 (fun _ b => RtoC b) u v. Proof. intros. apply (c2_2 RtoC), cC_id. Qed.
Ltac cct := repeat first [assumption | lazymatch goal with
  | |- cC (fun _ => ?c) => apply (cC_const c)
  | |- cC (fun t => Cmult (@?f t) (@?g t)) => apply (cC_mult f g)
  | |- cC (fun t => Cplus (@?f t) (@?g t)) => apply (cC_plus f g)
  | |- cC (fun t => Cminus (@?f t) (@?g t)) => apply (cC_minus f g)
  | |- cC (fun t => Copp (@?f t)) => apply (cC_opp f)
  | |- cC (fun t => Cexp (@?f t)) => apply (cC_exp f)
  | |- cC (fun t => RtoC t) => apply cC_id
  | |- cC (fun t => RtoC (@?f t)) => apply (cC_R f); intros
  | |- continuous (fun _ => ?c) ?y => apply continuous_const
  | |- continuous (fun t => t) ?y => apply continuous_id
  | |- continuous (fun t => J0 (@?g t)) ?y => apply (continuous_comp g J0); [|apply J0_cont]
  | |- continuous (fun t => J1 (@?g t)) ?y => apply (continuous_comp g J1); [|apply J1_cont]
  | |- continuous (fun t => Rmult (@?g t) (@?h t)) ?y => apply (continuous_mult (K := R_AbsRing) g h)
  end].
Ltac rgC := cbv beta; match goal with |- ?a = ?b => change (@eq C a b) end; ring.
Lemma cmod_split : forall a b : C, (Cmod a <= Cmod b + Cmod (a - b)%C)%R.
Proof. intros a b. replace a with (Cplus b (a - b)%C) at 1 by ring. apply Cmod_triangle. Qed.

Lemma Csqrt_uniq : forall z w : C, z * z = w -> (0 < fst z)%R -> Csqrt w = z.
Proof.
  intros z w H P. pose proof (Csqrt_sqr w) as Q. pose proof (Csqrt_Re_ge_0 w) as G. set (r := Csqrt w) in *. clearbody r.
  assert (N : r + z <> RtoC 0) by (intros E; apply (f_equal fst) in E; cbn [fst Cplus RtoC] in E; lra).
  assert (D : (r + z) * (r - z) = RtoC 0) by (replace ((r + z) * (r - z)) with (r * r - z * z) by ring; rewrite Q, H; ring).
  assert (D2 : r - z = RtoC 0) by (replace (r - z) with ((r + z) * (r - z) / (r + z)) by (field; exact N); rewrite D; field; exact N).
  replace r with (r - z + z) by ring. rewrite D2. ring.
Qed.
Lemma Re_pos_nz : forall z : C, (0 < fst z)%R -> z <> RtoC 0. Proof. intros z H E. rewrite E in H. cbn in H. lra. Qed.
Lemma Csqrt_Re_low : forall w : C, (0 < fst w)%R -> (sqrt (fst w) <= fst (Csqrt w))%R.
Proof. intros w H. cbn [Csqrt fst]. apply sqrt_le_1_alt. pose proof (fst_le_Cmod w) as G. apply Rabs_le_between in G. lra. Qed.
Lemma Csqrt_Cmod : forall w : C, Cmod (Csqrt w) = sqrt (Cmod w).
Proof. intros w. rewrite <- (Csqrt_sqr w) at 2. rewrite Cmod_mult. symmetry. apply sqrt_square, Cmod_ge_0. Qed.

Section Som.
Variables (be ka : R -> C) (k M : R).
Hypothesis Hbe : forall x, is_deriveC be x (ka x).
Hypothesis Hka : cC ka.
Hypothesis Hbk : forall x, Cmult (be x) (ka x) = RtoC x.
Hypothesis Hk : forall x : R, (0 <= x)%R -> (Cmod (Cminus (be x) (RtoC x)) <= k)%R.
Hypothesis HM : forall x : R, (0 <= x)%R -> (Cmod (ka x) <= M)%R.

Definition Ex (x : R) (z : C) : C := Cexp (- (be x * z)).
Lemma cbe : cC be. Proof using All. apply (cC_derive be ka Hbe). Qed.
Lemma cEx : forall z, cC (fun x => Ex x z). Proof using All. intros z. unfold Ex. pose proof cbe. cct. Qed.
Lemma k_pos : (0 <= k)%R. Proof using All. eapply Rle_trans; [apply Cmod_ge_0|apply (Hk 0%R); lra]. Qed.
Lemma M_pos : (0 <= M)%R. Proof using All. eapply Rle_trans; [apply Cmod_ge_0|apply (HM 0%R); lra]. Qed.
Lemma Ex_bound : forall x z, (0 <= x)%R -> (Cmod (Ex x z) <= exp (k * Cmod z) * exp (- (fst z * x)))%R.
Proof using All.
  intros x z Hx. unfold Ex. rewrite Cmod_Cexp, <- exp_plus. set (d := Cminus (be x) (RtoC x)). assert (E : be x = RtoC x + d) by (unfold d; ring). rewrite E.
  assert (B : (Cmod (d * z)%C <= k * Cmod z)%R) by (rewrite Cmod_mult; apply Rmult_le_compat_r; [apply Cmod_ge_0|now apply Hk]).
  assert (F : fst (- ((RtoC x + d) * z)) = (- (fst z * x) - fst (Cmult d z))%R) by (cbn; ring). rewrite F. pose proof (fst_le_Cmod (d * z)%C) as G. apply Rabs_le_between in G. 
  apply exp_le_mono. lra.
Qed.
Lemma be_bound : forall x, (0 <= x)%R -> (Cmod (be x) <= x + k)%R.
Proof using All. intros x Hx. eapply Rle_trans; [apply (cmod_split (be x) (RtoC x))|]. rewrite Cmod_R, Rabs_pos_eq by lra. pose proof (Hk x Hx). lra. Qed.
Lemma Ex_derive : forall x z, is_deriveC (fun x => Ex x z) x (- (ka x * z * Ex x z)).
Proof using All.
  intros x z. unfold Ex. eapply dC_eq; [apply dC_exp, dC_opp, dC_mult; [apply Hbe|apply is_deriveC_const]|]. rgC.
Qed.

(** the three integrals *)
Definition KT (T b : R) (z : C) : C := CI (fun x => ka x * Ex x z * RtoC (J0 (b * x))) 0 T.
Definition ST (T b : R) (z : C) : C := CI (fun x => RtoC x * Ex x z * RtoC (J0 (b * x))) 0 T.
Definition AT (T b : R) (z : C) : C := CI (fun x => RtoC x * ka x * Ex x z * RtoC (J1 (b * x))) 0 T.

Lemma by_parts : forall T b z, z * AT T b z = RtoC b * ST T b z - RtoC (T * J1 (b * T)) * Ex T z.
Proof using All.
  intros T b z. pose proof cbe. pose proof (cEx z).
  assert (D : CI (fun x => RtoC b * (RtoC x * Ex x z * RtoC (J0 (b * x))) - z * (RtoC x * ka x * Ex x z * RtoC (J1 (b * x)))) 0 T = RtoC (T * J1 (b * T)) * Ex T z - RtoC (0 * J1 (b * 0)) * Ex 0 z).
  { apply (CI_derive (fun x => RtoC (x * J1 (b * x)) * Ex x z)).
    - intros x. eapply dC_eq; [apply dC_mult; [apply dC_R, xJ1_derive|apply Ex_derive]|]. rewrite !RtoC_mult. rgC.
    - cct. }
  rewrite CI_minus in D by cct. rewrite !CI_scal in D by cct. fold (ST T b z) (AT T b z) in D. rewrite Rmult_0_l in D.
  replace (z * AT T b z) with (RtoC b * ST T b z - (RtoC b * ST T b z - z * AT T b z)) by ring. rewrite D. ring.
Qed.

(** derivative along a path *)
Lemma K_path : forall T (b b' : R -> R) (z z' : R -> C) s, (forall s, is_derive b s (b' s)) -> (forall s, is_deriveC z s (z' s)) -> (forall s, continuous b' s) -> cC z' ->
  z s <> RtoC 0 -> z s * z' s = - RtoC (b s * b' s) -> is_deriveC (fun s => KT T (b s) (z s)) s (RtoC (b' s) / z s * (RtoC (T * J1 (b s * T)) * Ex T (z s))).
Proof using All.
  intros T b b' z z' s Hb Hz Cb Cz N HP. pose proof cbe as CB.
  assert (czz : cC z) by (apply (cC_derive z z' Hz)). assert (cbb : forall s, continuous b s) by (intros u; apply (ex_derive_continuous b); eexists; apply Hb).
  set (DF := fun s x => - (z' s * (RtoC x * Ex x (z s) * RtoC (J0 (b s * x)))) - RtoC (b' s) * (RtoC x * ka x * Ex x (z s) * RtoC (J1 (b s * x)))).
  assert (D : is_deriveC (fun s => KT T (b s) (z s)) s (CI (DF s) 0 T)).
  { unfold KT. apply (CI_param (fun s x => ka x * Ex x (z s) * RtoC (J0 (b s * x))) DF).
    - apply filter_forall. intros v x. assert (DJ : is_derive (fun w => J0 (b w * x)) v (- (x * b' v) * J1 (b v * x)%R)%R).
      { pose proof (J0_derive (b v * x)%R) as D. assert (ED : ex_derive J0 (b v * x)%R) by (eexists; exact D). assert (EB : ex_derive b v) by (eexists; apply Hb). auto_derive; [tauto|].
        change (Derive (fun x0 => J0 x0) (b v * x)%R) with (Derive J0 (b v * x)%R). change (Derive (fun x0 => b x0) v) with (Derive b v). rewrite (is_derive_unique _ _ _ D), (is_derive_unique _ _ _ (Hb v)). ring. }
      assert (DE : is_deriveC (fun w => Ex x (z w)) v (- (be x * z' v * Ex x (z v)))).
      { unfold Ex. eapply dC_eq; [apply dC_exp, dC_opp, is_deriveC_scal, Hz|]. rgC. }
      eapply dC_eq; [apply dC_mult; [apply is_deriveC_scal, DE|apply dC_R, DJ]|]. unfold DF. rewrite <- (Hbk x), RtoC_mult, RtoC_opp, RtoC_mult, <- (Hbk x). rgC.
    - intros x. unfold DF, Ex, Cminus. assert (CJ : forall J, (forall x, continuous J x) -> c2 (fun s x => RtoC (J (b s * x)%R)) s x).
      { intros J HJ. apply c2_R. apply (c2_comp J (fun s x => (b s * x)%R)); [exact HJ|]. apply continuity_2d_pt_mult; [|apply continuity_2d_pt_id2].
        apply (continuity_1d_2d_pt_comp b (fun a _ : R => a)); [apply cont_pt, cbb|apply continuity_2d_pt_id1]. }
      assert (CE : c2 (fun s x => Cexp (- (be x * z s))) s x) by (apply c2_exp, c2_opp, c2_mult; [apply (c2_2 be), CB|apply (c2_1 z), czz]).
      apply c2_plus; apply c2_opp; repeat apply c2_mult; auto using c2_id2, J0_cont, J1_cont.
      + apply (c2_1 z'), Cz.
      + apply (c2_1 (fun s => RtoC (b' s))). apply cC_R, Cb.
      + apply (c2_2 ka), Hka.
    - apply filter_forall. intros v. pose proof (cEx (z v)). cct. }
  eapply dC_eq; [exact D|]. unfold DF. pose proof (cEx (z s)). rewrite CI_minus by cct. rewrite CI_opp by cct. rewrite !CI_scal by cct. fold (ST T (b s) (z s)) (AT T (b s) (z s)).
  pose proof (by_parts T (b s) (z s)) as P.
  assert (E : AT T (b s) (z s) = (RtoC (b s) * ST T (b s) (z s) - RtoC (T * J1 (b s * T)) * Ex T (z s)) / z s) by (rewrite <- P; field; exact N).
  rewrite E. assert (E2 : z' s = - RtoC (b s * b' s) / z s) by (rewrite <- HP; field; exact N). rewrite E2, RtoC_mult. field. exact N.
Qed.

(** the rotation *)
Section Rot.
Variables (b0 : R) (rho : C).
Hypothesis Hr1 : (0 < fst rho)%R.
Hypothesis Hr2 : (0 < fst (Cmult rho rho))%R.
Definition rw (s : R) : C := rho * rho + RtoC (b0 * b0 * (cos s * cos s)).
Definition rz (s : R) : C := Csqrt (rw s).
Definition rc : R := sqrt (fst (Cmult rho rho)).
Definition rZ (B : R) : R := sqrt (Cmod (Cmult rho rho) + B * B).
Lemma rc_pos : (0 < rc)%R. Proof using All. apply sqrt_lt_R0, Hr2. Qed.
Lemma rw_pos : forall s, (fst (Cmult rho rho) <= fst (rw s))%R.
Proof using All. intros s. unfold rw. cbn [fst Cplus RtoC]. assert (0 <= b0 * b0 * (cos s * cos s))%R by (apply Rmult_le_pos; apply Rle_0_sqr). lra. Qed.
Lemma rz_Re : forall s, (rc <= fst (rz s))%R.
Proof using All. intros s. pose proof (rw_pos s). eapply Rle_trans; [|apply Csqrt_Re_low; lra]. apply sqrt_le_1_alt. exact H. Qed.
Lemma rz_nz : forall s, rz s <> RtoC 0. Proof using All. intros s. apply Re_pos_nz. pose proof (rz_Re s). pose proof rc_pos. lra. Qed.
Lemma rz_Cmod : forall s B, (Rabs b0 <= B)%R -> (Cmod (rz s) <= rZ B)%R.
Proof using All.
  intros s B HB. unfold rz. rewrite Csqrt_Cmod. apply sqrt_le_1_alt. unfold rw. eapply Rle_trans; [apply Cmod_triangle|]. apply Rplus_le_compat_l. rewrite Cmod_R.
  assert (Q : (0 <= b0 * b0 <= B * B)%R) by (split; [apply Rle_0_sqr|]; rewrite <- (Rabs_pos_eq (b0 * b0)), Rabs_mult by apply Rle_0_sqr; pose proof (Rabs_pos b0); nra).
  assert (C1 : (0 <= cos s * cos s <= 1)%R) by (pose proof (COS_bound s); nra). rewrite Rabs_pos_eq; nra.
Qed.
Lemma rz_low : forall s, (/ Cmod (rz s) <= / rc)%R.
Proof using All. intros s. apply Rinv_le_contravar; [apply rc_pos|]. eapply Rle_trans; [apply rz_Re|]. eapply Rle_trans; [apply Rle_abs|apply fst_le_Cmod]. Qed.
Definition rz' (s : R) : C := RtoC (- (b0 * sin s) * (b0 * cos s)) / rz s.
Lemma rz_derive : forall s, is_deriveC rz s (rz' s).
Proof using All.
  intros s. unfold rz. eapply dC_eq; [apply dC_sqrt with (a := RtoC (- (2 * (b0 * sin s) * (b0 * cos s))))|].
  - unfold rw. eapply dC_eq; [apply is_deriveC_plus; [apply is_deriveC_const|apply dC_R]|].
    + instantiate (1 := (- (2 * (b0 * sin s) * (b0 * cos s)))%R). auto_derive; [exact I|]. ring.
    + ring.
  - pose proof (rw_pos s). lra.
  - unfold rz'. fold (rz s). rewrite RtoC_opp, !RtoC_mult, RtoC_opp, !RtoC_mult. field. split; [apply rz_nz|apply Re_pos_nz; cbn; lra].
Qed.
Lemma rz_cont : cC rz. Proof using All. apply (cC_derive rz rz' rz_derive). Qed.
Lemma rzi_cont : cC (fun s => / rz s).
Proof using All. eapply cC_derive. intros s. apply dC_inv; [apply rz_derive|apply rz_nz]. Qed.
Lemma rz'_cont : cC rz'.
Proof using All.
  unfold rz', Cdiv. apply (cC_mult (fun s => RtoC (- (b0 * sin s) * (b0 * cos s)))); [|apply rzi_cont]. apply cC_R. intros x. apply (ex_derive_continuous (fun s => - (b0 * sin s) * (b0 * cos s))%R). auto_derive. exact I.
Qed.
Lemma rz_end : rz (PI / 2) = rho.
Proof using All. unfold rz, rw. rewrite cos_PI2. replace (b0 * b0 * (0 * 0))%R with 0%R by ring. replace (rho * rho + RtoC 0) with (rho * rho) by ring. now apply Csqrt_uniq. Qed.
Definition RR : C := Csqrt (rho * rho + RtoC (b0 * b0)).
Lemma rz_start : rz 0 = RR.
Proof using All. unfold rz, rw, RR. rewrite cos_0. now replace (b0 * b0 * (1 * 1))%R with (b0 * b0)%R by ring. Qed.
Definition rD (T s : R) : C := RtoC (b0 * cos s) / rz s * (RtoC (T * J1 (b0 * sin s * T)) * Ex T (rz s)).
Lemma rD_cont : forall T, cC (rD T).
Proof using All.
  intros T. unfold rD, Ex, Cdiv. pose proof rz_cont. pose proof rzi_cont. apply cC_mult; [apply cC_mult; [|assumption]|apply cC_mult].
  - apply cC_R. intros x. apply (ex_derive_continuous (fun s => b0 * cos s)%R). auto_derive. exact I.
  - apply cC_R. intros x. apply (continuous_mult (K := R_AbsRing) (fun _ => T)); [apply continuous_const|]. apply (continuous_comp (fun s => b0 * sin s * T)%R J1); [|apply J1_cont].
    apply (ex_derive_continuous (fun s => b0 * sin s * T)%R). auto_derive. exact I.
  - cct.
Qed.
Lemma KT_rot : forall T, KT T b0 rho - KT T 0 RR = CI (rD T) 0 (PI / 2).
Proof using All.
  intros T. rewrite (CI_derive (fun s => KT T (b0 * sin s) (rz s)) (rD T) 0 (PI / 2)).
  - rewrite rz_end, rz_start, sin_PI2, sin_0, Rmult_1_r, Rmult_0_r. reflexivity.
  - intros s. unfold rD. apply (K_path T (fun s => b0 * sin s)%R (fun s => b0 * cos s)%R rz rz').
    + intros u. auto_derive; [exact I|]. ring.
    + apply rz_derive.
    + intros u. apply (ex_derive_continuous (fun s => b0 * cos s)%R). auto_derive. exact I.
    + apply rz'_cont.
    + apply rz_nz.
    + unfold rz'. rewrite !RtoC_mult, RtoC_opp, !RtoC_mult. field. apply rz_nz.
  - apply rD_cont.
Qed.
Definition KL : C := Ex 0 RR / RR.
Lemma RR_Re : (rc <= fst RR)%R. Proof using All. rewrite <- rz_start. apply rz_Re. Qed.
Lemma RR_nz : RR <> RtoC 0. Proof using All. rewrite <- rz_start. apply rz_nz. Qed.
Lemma KT_0 : forall T, KT T 0 RR = (Ex 0 RR - Ex T RR) / RR.
Proof using All.
  intros T. unfold KT. pose proof (cEx RR). pose proof cbe. rewrite (CI_ext _ (fun x => ka x * Ex x RR)) by (intros; rewrite Rmult_0_l, J0_0; ring).
  assert (D : CI (fun x => - RR * (ka x * Ex x RR)) 0 T = Ex T RR - Ex 0 RR).
  { apply (CI_derive (fun x => Ex x RR)); [|cct]. intros x. eapply dC_eq; [apply Ex_derive|]. ring. }
  rewrite CI_scal in D by cct. replace (Ex 0 RR - Ex T RR) with (- (Ex T RR - Ex 0 RR)) by ring. rewrite <- D. field. apply RR_nz.
Qed.
Definition rg (B T : R) : R := (exp (k * rZ B) * ((PI * B / rc) * (T ^ 1 * exp (- (rc * T))) + / rc * (T ^ 0 * exp (- (rc * T)))))%R.
Lemma Ex_rz : forall s B T, (Rabs b0 <= B)%R -> (0 <= T)%R -> (Cmod (Ex T (rz s)) <= exp (k * rZ B) * exp (- (rc * T)))%R.
Proof using All.
  intros s B T HB HT. eapply Rle_trans; [now apply Ex_bound|]. apply Rmult_le_compat; try (left; apply exp_pos).
  - apply exp_le_mono, Rmult_le_compat_l; [apply k_pos|now apply rz_Cmod].
  - apply exp_le_mono, Ropp_le_contravar, Rmult_le_compat_r; [exact HT|apply rz_Re].
Qed.
Lemma KT_bound : forall B T, (Rabs b0 <= B)%R -> (0 <= T)%R -> (Cmod (Cminus (KT T b0 rho) KL) <= rg B T)%R.
Proof using All.
  intros B T HB HT. pose proof rc_pos as C0. replace (Cminus (KT T b0 rho) KL) with (CI (rD T) 0 (PI / 2) + - (Ex T RR / RR)).
  2:{ rewrite <- KT_rot, KT_0. unfold KL. field. apply RR_nz. }
  eapply Rle_trans; [apply Cmod_triangle|]. unfold rg. rewrite Rmult_plus_distr_l. apply Rplus_le_compat.
  - pose proof PI_RGT_0 as P0. eapply Rle_trans; [apply (CI_bound (rD T) (fun _ => B / rc * T * (exp (k * rZ B) * exp (- (rc * T))))%R)|].
    + lra.
    + apply rD_cont.
    + intros; apply continuous_const.
    + intros s _. unfold rD, Cdiv. rewrite !Cmod_mult, Cmod_inv by apply rz_nz. rewrite !Cmod_R. pose proof (Ex_rz s B T HB HT) as HE. pose proof (rz_low s) as HL.
      assert (H1 : (Rabs (b0 * cos s) <= B)%R) by (rewrite Rabs_mult; pose proof (abs_cos s); pose proof (Rabs_pos b0); pose proof (Rabs_pos (cos s)); nra).
      assert (H2 : (Rabs (T * J1 (b0 * sin s * T)) <= T)%R) by (rewrite Rabs_mult, (Rabs_pos_eq T) by exact HT; pose proof (J1_abs (b0 * sin s * T)); pose proof (Rabs_pos (J1 (b0 * sin s * T))); nra).
      assert (H3 : (0 <= / Cmod (rz s))%R) by (left; apply Rinv_0_lt_compat, Cmod_gt_0, rz_nz). pose proof (Rabs_pos (b0 * cos s)) as H4. pose proof (Rabs_pos (T * J1 (b0 * sin s * T))) as H5. pose proof (Cmod_ge_0 (Ex T (rz s))) as H6.
      unfold Rdiv. rewrite (Rmult_assoc (B * / rc) T). apply Rmult_le_compat; [now apply Rmult_le_pos|now apply Rmult_le_pos|now apply Rmult_le_compat|now apply Rmult_le_compat].
    + rewrite (RInt_const (V := V)). unfold scal; cbn; unfold mult; cbn. right. field. lra.
  - rewrite Cmod_opp, Cmod_div by apply RR_nz. rewrite <- rz_start. pose proof (Ex_rz 0 B T HB HT) as HE. pose proof (rz_low 0) as HL. unfold Rdiv.
    replace (exp (k * rZ B) * (/ rc * (T ^ 0 * exp (- (rc * T)))))%R with ((exp (k * rZ B) * exp (- (rc * T))) * / rc)%R by (cbn [pow]; ring).
    apply Rmult_le_compat; try assumption; [apply Cmod_ge_0|left; apply Rinv_0_lt_compat, Cmod_gt_0, rz_nz].
Qed.
Lemma rg_lim : forall B, filterlim (rg B) pinf (locally 0%R).
Proof using All.
  intros B. unfold rg. replace 0%R with (exp (k * rZ B) * (0 + 0))%R at 1 by ring. apply filterlim_Rmult; [apply filterlim_Rconst|]. apply filterlim_Rplus; apply pow_dec_lim, rc_pos.
Qed.
Lemma K_lim : limC (fun T => KT T b0 rho) pinf KL.
Proof using All. apply (limC_bound _ _ (rg (Rabs b0)) 0); [|apply rg_lim]. intros T HT. apply KT_bound; lra. Qed.
End Rot.
End Som.
