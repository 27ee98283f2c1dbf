(** The wavenumber integral of a layered model converges. *)

From Coq Require Import Reals ZArith List Bool Lia Lra Psatz QArith.
From Coquelicot Require Import Coquelicot.
From Verif Require Import PyBase CBase Kernel KernelSpec KernelPhys KernelClosed KernelPassive KernelSym KernelSplit KernelBVP KernelMain KernelThm KernelThm2 ODE Bessel KernelBessel UtilsAb KernelFinal Fullspace FullspaceThm FullspaceMaxwell FullspaceCurl FullspaceField FullspaceEM Cint Hankel Sommer Sommer2 Sommer3 Homog HomogThm LayAsym.
Import ListNotations.
Local Open Scope R_scope.
Local Open Scope C_scope.
Local Open Scope res_scope.

(** ** Absolutely integrable functions have an improper integral *)
Lemma CI_chasles : forall f a b c, cC f -> CI f a c = CI f a b + CI f b c.
Proof.
  intros f a b c H. unfold CI, Cplus. cbn [fst snd]. apply injective_projections; cbn [fst snd]; symmetry.
  - apply (RInt_Chasles (V := R_CompleteNormedModule) (fun x => fst (f x))); now apply ex_fst.
  - apply (RInt_Chasles (V := R_CompleteNormedModule) (fun x => snd (f x))); now apply ex_snd.
Qed.
Lemma eb_exp : forall c f, eb c f -> (0 < c)%R -> exists K, (0 <= K)%R /\ forall x : R, (0 <= x)%R -> (Cmod (f x) <= K * exp (- (c / 2 * x)))%R.
Proof.
  intros c f [H1 (M & n & HM & Hf)] Hc. assert (N0 : (0 < INR (S n))%R) by (apply lt_0_INR; lia).
  assert (P0 : (0 <= exp c * (2 * INR (S n) / c) ^ n)%R) by (apply Rmult_le_pos; [left; apply exp_pos|apply pow_le, Rlt_le, Rdiv_lt_0_compat; lra]).
  exists (M * (exp c * (2 * INR (S n) / c) ^ n))%R. split; [now apply Rmult_le_pos|]. intros x Hx. eapply Rle_trans; [apply Hf; lra|]. rewrite !Rmult_assoc. apply Rmult_le_compat_l; [exact HM|].
  assert (X : (0 <= 1 + x)%R) by lra. pose proof (pow_exp n c (1 + x) Hc X) as Q.
  replace (exp (- (c * x))) with (exp c * exp (- (c * (1 + x))))%R by (rewrite <- exp_plus; f_equal; ring).
  assert (Q2 : (exp (- (c / 2 * (1 + x))) <= exp (- (c / 2 * x)))%R) by (apply exp_le_mono; lra).
  replace ((1 + x) ^ n * (exp c * exp (- (c * (1 + x)))))%R with (exp c * ((1 + x) ^ n * exp (- (c * (1 + x)))))%R by ring.
  apply Rmult_le_compat_l; [left; apply exp_pos|]. eapply Rle_trans; [exact Q|]. apply Rmult_le_compat_l; [apply pow_le, Rlt_le, Rdiv_lt_0_compat; lra|exact Q2].
Qed.
Lemma exp_int2 : forall K d S T, (0 < d)%R -> (0 <= K)%R -> (S <= T)%R -> (RInt (fun x => K * exp (- (d * x))) S T <= K / d * exp (- (d * S)))%R.
Proof.
  intros K d S T Hd HK HT.
  assert (E : is_RInt (fun x => K * exp (- (d * x)))%R S T (minus (- K / d * exp (- (d * T)))%R (- K / d * exp (- (d * S)))%R)).
  { apply (is_RInt_derive (V := R_CompleteNormedModule) (fun x => - K / d * exp (- (d * x)))%R (fun x => K * exp (- (d * x)))%R).
    - intros x _. auto_derive; [exact I|]. field. lra.
    - intros x _. apply (ex_derive_continuous (fun x => K * exp (- (d * x)))%R). auto_derive. exact I. }
  rewrite (is_RInt_unique _ _ _ _ E). unfold minus, plus, opp; cbn. assert (0 <= K / d)%R by (apply Rmult_le_pos; [exact HK|left; now apply Rinv_0_lt_compat]).
  pose proof (exp_pos (- (d * T))). replace (- K / d)%R with (- (K / d))%R by (field; lra). nra.
Qed.
Lemma eb_tail : forall c f, eb c f -> (0 < c)%R -> exists K, (0 <= K)%R /\ forall S T : R, (0 <= S <= T)%R -> (Cmod (CI f S T) <= K * exp (- (c / 2 * S)))%R.
Proof.
  intros c f H Hc. destruct (eb_exp c f H Hc) as (K & HK & B). exists (2 * (K / (c / 2)))%R. split; [apply Rmult_le_pos; [lra|apply Rmult_le_pos; [exact HK|left; apply Rinv_0_lt_compat; lra]]|].
  intros S T HST. eapply Rle_trans; [apply (CI_bound f (fun x => K * exp (- (c / 2 * x)))%R)|].
  - lra.
  - apply H.
  - intros x. apply (ex_derive_continuous (fun x => K * exp (- (c / 2 * x)))%R). auto_derive. exact I.
  - intros x Hx. apply B. lra.
  - rewrite Rmult_assoc. apply Rmult_le_compat_l; [lra|]. apply exp_int2; lra.
Qed.
Lemma cauchy_pinf : forall f : R -> R, (forall e : posreal, exists T0 : R, forall u v : R, (T0 < u)%R -> (u <= v)%R -> (Rabs (f v - f u) < e)%R) -> exists l : R, filterlim f pinf (locally l).
Proof.
  intros f H. apply (proj1 (filterlim_locally_cauchy (U := R_CompleteSpace) (F := pinf) f)). intros e. destruct (H e) as [T0 HT]. exists (fun x => (T0 < x)%R). split; [exists T0; auto|].
  intros u v Hu Hv. destruct (Rle_lt_dec u v) as [L|L].
  - apply (HT u v Hu L).
  - apply ball_sym. apply (HT v u Hv). lra.
Qed.
Lemma eb_improper : forall c f, eb c f -> (0 < c)%R -> exists V, improper f V.
Proof.
  intros c f H Hc. pose proof (eb_cC c f H) as HC. destruct (eb_tail c f H Hc) as (K & HK & B).
  assert (CAU : forall e : posreal, exists T0 : R, forall u v : R, (T0 < u)%R -> (u <= v)%R -> (Cmod (CI f 0 v - CI f 0 u)%C < e)%R).
  { intros e. pose proof (exp_dec_lim (c / 2) ltac:(lra)) as L. assert (E1 : (0 < e / (K + 1))%R) by (apply Rdiv_lt_0_compat; [apply cond_pos|lra]).
    destruct (L (ball 0%R (mkposreal _ E1)) (locally_ball 0%R (mkposreal _ E1))) as [T1 HT]. exists (Rmax T1 0). intros u v Hu Huv. pose proof (Rmax_l T1 0). pose proof (Rmax_r T1 0).
    rewrite (CI_chasles f 0 u v HC). replace (CI f 0 u + CI f u v - CI f 0 u) with (CI f u v) by ring. eapply Rle_lt_trans; [apply B; lra|].
    specialize (HT u ltac:(lra)). cbv beta in HT. unfold ball in HT; cbn in HT; unfold AbsRing_ball, abs, minus, plus, opp in HT; cbn in HT. rewrite Ropp_0, Rplus_0_r, Rabs_pos_eq in HT by (left; apply exp_pos).
    pose proof (exp_pos (- (c / 2 * u))). apply Rle_lt_trans with ((K + 1) * exp (- (c / 2 * u)))%R; [nra|]. apply (Rmult_lt_compat_l (K + 1)) in HT; [|lra]. replace ((K + 1) * (e / (K + 1)))%R with (e : R) in HT by (field; lra). exact HT. }
  destruct (cauchy_pinf (fun T => fst (CI f 0 T))) as [l1 L1].
  { intros e. destruct (CAU e) as [T0 HT]. exists T0. intros u v Hu Huv. eapply Rle_lt_trans; [|apply (HT u v Hu Huv)]. apply (fst_le_Cmod (CI f 0 v - CI f 0 u)). }
  destruct (cauchy_pinf (fun T => snd (CI f 0 T))) as [l2 L2].
  { intros e. destruct (CAU e) as [T0 HT]. exists T0. intros u v Hu Huv. eapply Rle_lt_trans; [|apply (HT u v Hu Huv)]. apply (snd_le_Cmod (CI f 0 v - CI f 0 u)). }
  exists (l1, l2). split; [|split; assumption]. intros T _. split; [now apply ex_fst|now apply ex_snd].
Qed.

(** ** Layered media *)
Record layered (eH eV zH zV : nat -> C) (z : nat -> R) (N : nat) : Prop := {
  ly_m : forall k, (k <= N)%nat -> homog_medium (eH k) (eV k) (zH k) (zV k); ly_z : increasing z N }.
Lemma hm_TM : forall eH eV zH zV, homog_medium eH eV zH zV -> mlayer eH eV zH.
Proof.
  intros eH eV zH zV [A1 A2 A3 A4 A5]. constructor; try (now apply re_pos_quad1); try assumption.
  - now apply ratio_pos.
  - now apply prod_offcut.
  - now apply prod_offcut.
Qed.
Lemma hm_TE : forall eH eV zH zV, homog_medium eH eV zH zV -> mlayer zH zV eH.
Proof.
  intros eH eV zH zV [A1 A2 A3 A4 A5]. constructor; try (now apply re_pos_quad1); try assumption.
  - replace (eH * zV) with (zV * eH) by ring. now apply prod_offcut.
  - replace (eH * zH) with (zH * eH) by ring. now apply prod_offcut.
Qed.
Lemma ly_passive : forall eH eV zH zV z N, layered eH eV zH zV z N -> passive_medium eH eV zH zV z N.
Proof.
  intros eH eV zH zV z N [M Z]. constructor; intros k Hk; try (destruct (M k ltac:(lia)) as [A1 A2 A3 A4 A5]); try apply A1; try apply A2; try apply A3; try apply A4. left. apply Z, Hk.
Qed.
Lemma lay_inlay : forall z N x, increasing z N -> inlay z N (lay z N x) x.
Proof.
  intros z N x HI. destruct (lay_spec z N N x HI (le_n N)) as [A B]. pose proof (lay_le z N x) as L. split; [exact L|split].
  - intros K. destruct A as [E|A]; [lia|lra].
  - intros K. apply B. lia.
Qed.

Section Mode.
Variables (h v q : nat -> C) (z : nat -> R) (N : nat).
Hypothesis ML : forall k, (k <= N)%nat -> mlayer (h k) (v k) (q k).
Hypothesis Hz : increasing z N.
Hypothesis REG : forall lam, regular h (gam h v q lam) z N.
Lemma eb_wsrc : forall pm k, (k <= N)%nat -> eb 0 (fun lam => wsrc h (gam h v q lam) pm k).
Proof using ML. intros pm k Hk. unfold wsrc. destruct (Ceq_dec pm 1); [|apply eb_const]. unfold Cdiv. apply eb_scal. eapply asy_eb. exact (asy_lgi _ _ _ (ML k Hk)). Qed.
Lemma eb_wgt : forall sg k, (k <= N)%nat -> eb 0 (fun lam => wgt h (gam h v q lam) sg k).
Proof using ML. intros sg k Hk. unfold wgt. destruct (Ceq_dec sg 1); [apply eb_const|]. unfold Cdiv. apply eb_mult0r; [exact (eb_lg _ _ _ (ML k Hk))|apply eb_const]. Qed.
Lemma eb_fTM : forall ab s r, (s <= N)%nat -> (r <= N)%nat -> eb 0 (fun lam => fTM h v (gam h v q lam) ab s r).
Proof using ML.
  intros ab s r Hs Hr. unfold fTM, Cdiv. apply eb_mult0r; [|apply eb_const]. apply eb_mult0r; [|apply eb_const].
  apply eb_mult0; [apply eb_scal, eb_wsrc, Hs|apply eb_wgt, Hr].
Qed.
Lemma eb_fTE : forall ab s, (s <= N)%nat -> eb 0 (fun lam => fTE h v (gam h v q lam) ab s).
Proof using ML. intros ab s Hs. unfold fTE, Cdiv. apply eb_mult0r; [|apply eb_const]. apply eb_wsrc, Hs. Qed.
Lemma eb_PTM : forall a, (0 < a)%R -> (forall k, (k <= N)%nat -> (a <= fst (ms (h k) (v k)))%R) -> forall ab xd s r zs zr, inlay z N s zs -> inlay z N r zr ->
  eb (a * Rabs (zs - zr)) (fun lam => PTM h v q z N lam ab xd s r zs zr).
Proof using All.
  intros a Pa A ab xd s r zs zr IS IR. unfold PTM. destruct (mode_used true ab); [|apply eb_zero]. apply eb_mult0; [apply eb_fTM; [apply IS|apply IR]|]. now apply (eb_mode h v q z N ML Hz REG a Pa A).
Qed.
Lemma eb_PTE : forall a, (0 < a)%R -> (forall k, (k <= N)%nat -> (a <= fst (ms (h k) (v k)))%R) -> forall ab xd s r zs zr, inlay z N s zs -> inlay z N r zr ->
  eb (a * Rabs (zs - zr)) (fun lam => PTE h v q z N lam ab xd s r zs zr).
Proof using All.
  intros a Pa A ab xd s r zs zr IS IR. unfold PTE. destruct (mode_used false ab); [|apply eb_zero]. apply eb_mult0; [apply eb_fTE; apply IS|]. now apply (eb_mode h v q z N ML Hz REG a Pa A).
Qed.
Lemma eb_PTM_refl : forall a, (0 < a)%R -> (forall k, (k <= N)%nat -> (a <= fst (ms (h k) (v k)))%R) -> forall ab s zs zr, in_layer z N s zs -> in_layer z N s zr ->
  exists c, (0 < c)%R /\ eb c (fun lam => PTM h v q z N lam ab true s s zs zr).
Proof using All.
  intros a Pa A ab s zs zr IS IR. destruct (eb_refl h v q z N ML Hz REG a Pa A (cpm true ab) (csg true ab) s zs zr IS IR) as (c & C & B). exists c. split; [exact C|].
  unfold PTM. destruct (mode_used true ab); [|apply eb_zero]. apply eb_mult0; [apply eb_fTM; apply IS|exact B].
Qed.
Lemma eb_PTE_refl : forall a, (0 < a)%R -> (forall k, (k <= N)%nat -> (a <= fst (ms (h k) (v k)))%R) -> forall ab s zs zr, in_layer z N s zs -> in_layer z N s zr ->
  exists c, (0 < c)%R /\ eb c (fun lam => PTE h v q z N lam ab true s s zs zr).
Proof using All.
  intros a Pa A ab s zs zr IS IR. destruct (eb_refl h v q z N ML Hz REG a Pa A (cpm false ab) (csg false ab) s zs zr IS IR) as (c & C & B). exists c. split; [exact C|].
  unfold PTE. destruct (mode_used false ab); [|apply eb_zero]. apply eb_mult0; [apply eb_fTE; apply IS|exact B].
Qed.
End Mode.

Section Med.
Variables (eH eV zH zV : nat -> C) (z : nat -> R) (N : nat).
Hypothesis LY : layered eH eV zH zV z N.
Let PM := ly_passive _ _ _ _ _ _ LY.
Lemma MTM : forall k, (k <= N)%nat -> mlayer (eH k) (eV k) (zH k). Proof using LY. intros k Hk. apply (hm_TM _ _ _ (zV k)), LY, Hk. Qed.
Lemma MTE : forall k, (k <= N)%nat -> mlayer (zH k) (zV k) (eH k). Proof using LY. intros k Hk. apply (hm_TE _ (eV k)), LY, Hk. Qed.
Lemma RTM : forall lam, regular eH (gam eH eV zH lam) z N. Proof using LY. intros lam. apply (passive_model_ok _ _ _ _ _ _ lam PM). Qed.
Lemma RTE : forall lam, regular zH (gam zH zV eH lam) z N. Proof using LY. intros lam. apply (passive_model_ok _ _ _ _ _ _ lam PM). Qed.
Lemma rate2 : exists a : R, (0 < a)%R /\ (forall k, (k <= N)%nat -> (a <= fst (ms (eH k) (eV k)))%R) /\ (forall k, (k <= N)%nat -> (a <= fst (ms (zH k) (zV k)))%R).
Proof using LY.
  destruct (rate eH eV zH N MTM) as (a & P & A). destruct (rate zH zV eH N MTE) as (b & Q & B). exists (Rmin a b). split; [now apply Rmin_glb_lt|]. split; intros k Hk.
  - eapply Rle_trans; [apply Rmin_l|now apply A].
  - eapply Rle_trans; [apply Rmin_r|now apply B].
Qed.
(** both returned values decay exponentially with the wavenumber *)
Theorem eb_resp : exists a : R, (0 < a)%R /\ forall ab xd ms mr s r zs zr, inlay z N s zs -> inlay z N r zr ->
  eb (a * Rabs (zs - zr)) (fun lam => fst (resp eH eV zH zV z N lam ab xd ms mr s r zs zr)) /\ eb (a * Rabs (zs - zr)) (fun lam => snd (resp eH eV zH zV z N lam ab xd ms mr s r zs zr)).
Proof using LY.
  destruct rate2 as (a & Pa & A1 & A2). exists a. split; [exact Pa|]. intros ab xd ms mr s r zs zr IS IR. pose proof (ly_z _ _ _ _ _ _ LY) as HI.
  unfold resp. destruct mr; [destruct ms|]; cbn [fst snd].
  - split; apply eb_opp; [apply (eb_PTM zH zV eH z N MTE HI RTE a Pa A2)|apply (eb_PTE eH eV zH z N MTM HI RTM a Pa A1)]; assumption.
  - replace (Rabs (zs - zr)) with (Rabs (zr - zs)) by apply Rabs_minus_sym. split; [apply (eb_PTM eH eV zH z N MTM HI RTM a Pa A1)|apply (eb_PTE zH zV eH z N MTE HI RTE a Pa A2)]; assumption.
  - split; [apply (eb_PTM eH eV zH z N MTM HI RTM a Pa A1)|apply (eb_PTE zH zV eH z N MTE HI RTE a Pa A2)]; assumption.
Qed.
Theorem eb_resp_refl : forall ab ms mr s zs zr, in_layer z N s zs -> in_layer z N s zr -> exists c, (0 < c)%R /\
  eb c (fun lam => fst (resp eH eV zH zV z N lam ab true ms mr s s zs zr)) /\ eb c (fun lam => snd (resp eH eV zH zV z N lam ab true ms mr s s zs zr)).
Proof using LY.
  intros ab ms mr s zs zr IS IR. destruct rate2 as (a & Pa & A1 & A2). pose proof (ly_z _ _ _ _ _ _ LY) as HI.
  assert (TWO : forall f g : R -> C, (exists c, (0 < c)%R /\ eb c f) -> (exists c, (0 < c)%R /\ eb c g) -> exists c, (0 < c)%R /\ eb c f /\ eb c g).
  { intros f g (c1 & C1 & B1) (c2 & C2 & B2). exists (Rmin c1 c2). split; [now apply Rmin_glb_lt|]. split; [eapply eb_weak; [exact B1|apply Rmin_l]|eapply eb_weak; [exact B2|apply Rmin_r]]. }
  unfold resp. destruct mr; [destruct ms|]; cbn [fst snd]; apply TWO.
  - destruct (eb_PTM_refl zH zV eH z N MTE HI RTE a Pa A2 ab s zs zr IS IR) as (c & C & B). exists c. split; [exact C|now apply eb_opp].
  - destruct (eb_PTE_refl eH eV zH z N MTM HI RTM a Pa A1 ab s zs zr IS IR) as (c & C & B). exists c. split; [exact C|now apply eb_opp].
  - exact (eb_PTM_refl eH eV zH z N MTM HI RTM a Pa A1 ab s zr zs IR IS).
  - exact (eb_PTE_refl zH zV eH z N MTE HI RTE a Pa A2 ab s zr zs IR IS).
  - exact (eb_PTM_refl eH eV zH z N MTM HI RTM a Pa A1 ab s zs zr IS IR).
  - exact (eb_PTE_refl zH zV eH z N MTE HI RTE a Pa A2 ab s zs zr IS IR).
Qed.
End Med.

(** ** The integrand *)
Lemma bessel_lin : forall ab mr lam off A (p q : C), In ab kernel_abs ->
  bessel_sum ab lam off A (collect ab mr lam p q) = p * bessel_sum ab lam off A (collect ab mr lam (RtoC 1) (RtoC 0)) + q * bessel_sum ab lam off A (collect ab mr lam (RtoC 0) (RtoC 1)).
Proof.
  intros ab mr lam off A p q Hab.
  each_ab Hab; destruct mr; unfold bessel_sum, collect, Cdiv; cbv [inb existsb Z.eqb Pos.eqb orb andb negb oz]; match goal with |- ?a = ?b => change (@eq C a b) end; ring.
Qed.
Lemma eb_J0 : forall off, eb 0 (fun lam => RtoC (J0 (lam * off))).
Proof. intros off. apply eb_R; [|intros; apply J0_abs]. intros x. apply (continuous_comp (fun l => l * off)%R J0); [|apply J0_cont]. apply (continuous_mult (K := R_AbsRing)); [apply continuous_id|apply continuous_const]. Qed.
Lemma eb_J1 : forall off, eb 0 (fun lam => RtoC (J1 (lam * off))).
Proof. intros off. apply eb_R; [|intros; apply J1_abs]. intros x. apply (continuous_comp (fun l => l * off)%R J1); [|apply J1_cont]. apply (continuous_mult (K := R_AbsRing)); [apply continuous_id|apply continuous_const]. Qed.
Lemma eb_pow1 : forall c, eb 0 (fun lam => RtoC (lam / c)).
Proof. intros c. eapply eb_ext; [|apply (eb_scal 0 (RtoC (/ c)) RtoC eb_id)]. intros x. cbv beta. rewrite <- RtoC_mult. f_equal. unfold Rdiv. ring. Qed.
Lemma eb_pow2 : eb 0 (fun lam => RtoC (lam * lam)).
Proof. eapply eb_ext; [|apply (eb_mult0 0 RtoC RtoC eb_id eb_id)]. intros x. cbv beta. now rewrite RtoC_mult. Qed.
Lemma eb_pow3 : eb 0 (fun lam => RtoC (lam * lam * lam)).
Proof. eapply eb_ext; [|apply (eb_mult0 0 _ RtoC eb_pow2 eb_id)]. intros x. cbv beta. now rewrite (RtoC_mult (x * x)). Qed.
Ltac ebt := repeat lazymatch goal with
  | |- eb 0 (fun _ => ?c) => exact (eb_const c)
  | |- eb 0 (fun t => Cmult (@?f t) (@?g t)) => refine (eb_mult0 0 f g _ _); cbv beta
  | |- eb 0 (fun t => Cplus (@?f t) (@?g t)) => refine (eb_plus 0 f g _ _); cbv beta
  | |- eb 0 (fun t => Cminus (@?f t) (@?g t)) => refine (eb_minus 0 f g _ _); cbv beta
  | |- eb 0 (fun t => RtoC t) => exact eb_id
  | |- eb 0 (fun t => RtoC (J0 (t * ?o)%R)) => exact (eb_J0 o)
  | |- eb 0 (fun t => RtoC (J1 (t * ?o)%R)) => exact (eb_J1 o)
  | |- eb 0 (fun t => RtoC (t / ?o)%R) => exact (eb_pow1 o)
  | |- eb 0 (fun t => RtoC (t * t * t)%R) => exact eb_pow3
  | |- eb 0 (fun t => RtoC (t * t)%R) => exact eb_pow2
  end.
Lemma eb_bessel : forall ab mr off A c (p q : R -> C), In ab kernel_abs -> eb c p -> eb c q ->
  eb c (fun lam => bessel_sum ab lam off A (collect ab mr lam (p lam) (q lam))).
Proof.
  intros ab mr off A c p q Hab Hp Hq.
  apply (eb_ext c (fun lam => p lam * bessel_sum ab lam off A (collect ab mr lam (RtoC 1) (RtoC 0)) + q lam * bessel_sum ab lam off A (collect ab mr lam (RtoC 0) (RtoC 1)))); [intros x; symmetry; now apply bessel_lin|].
  assert (B : forall u w : C, eb 0 (fun lam => bessel_sum ab lam off A (collect ab mr lam u w))).
  { intros u w. clear p q Hp Hq. each_ab Hab; destruct mr; unfold bessel_sum, collect, Cdiv; cbv [inb existsb Z.eqb Pos.eqb orb andb negb oz]; ebt. }
  apply eb_plus; (apply eb_mult0r; [assumption|apply B]).
Qed.

(** ** Convergence *)
Lemma code_class : forall raw ab ms mr, check_ab (AbNum (inject_Z raw)) = Ok (ab, ms, mr) -> (exists a b, fs_pair a b /\ raw = (10 * a + b)%Z) -> In ab kernel_abs /\ valid_call ab ms mr.
Proof.
  intros raw ab ms mr CA (a & b & HP & ->). destruct (pair_class a b HP) as (ab' & CA' & K1 & K2 & K3). rewrite CA in CA'. assert (X : (ab, ms, mr) = (ab', (3 <? b)%Z, (3 <? a)%Z)) by congruence. injection X as -> -> ->.
  unfold valid_call. destruct (Z.ltb_spec 3 a); destruct (Z.ltb_spec 3 b); cbn [andb]; split; first [apply K3; lia|apply ee_kernel, K3; lia|apply K2; lia|apply K1; lia].
Qed.
Lemma conv_core : forall a b eH eV zH zV z N xd off phi zs zr c ab ms mr, layered eH eV zH zV z N -> fs_pair a b ->
  check_ab (AbNum (inject_Z (10 * a + b))) = Ok (ab, ms, mr) -> (0 < c)%R ->
  eb c (fun lam => fst (resp eH eV zH zV z N lam ab xd ms mr (lay z N zs) (lay z N zr) zs zr)) -> eb c (fun lam => snd (resp eH eV zH zV z N lam ab xd ms mr (lay z N zs) (lay z N zr) zs zr)) ->
  exists V, hankel_value eH eV zH zV z N (10 * a + b) xd off phi zs zr V.
Proof.
  intros a b eH eV zH zV z N xd off phi zs zr c ab ms mr LY HP CA Hc B1 B2. destruct (code_class _ ab ms mr CA (ex_intro _ a (ex_intro _ b (conj HP eq_refl)))) as [KA VC].
  destruct (eb_improper c _ (eb_bessel ab mr off (ang_exact (eval_angle phi ms mr) ab) c _ _ KA B1 B2) Hc) as [V HV]. exists V. exists ab, ms, mr. eexists. split; [exact CA|]. split; [|exact HV].
  intros lam. exists (collect ab mr lam (fst (resp eH eV zH zV z N lam ab xd ms mr (lay z N zs) (lay z N zr) zs zr)) (snd (resp eH eV zH zV z N lam ab xd ms mr (lay z N zs) (lay z N zr) zs zr))). split; [|reflexivity].
  rewrite wcall_gcall. rewrite gcall_resp; [|apply passive_model_ok, ly_passive, LY|exact VC|apply lay_le|apply lay_le]. cbn [bind]. now destruct (resp _ _ _ _ _ _ _ _ _ _ _ _ _ _ _).
Qed.
Theorem layered_converges : forall a b eH eV zH zV z N xd off phi zs zr, layered eH eV zH zV z N -> fs_pair a b -> zs <> zr ->
  exists V, hankel_value eH eV zH zV z N (10 * a + b) xd off phi zs zr V.
Proof.
  intros a b eH eV zH zV z N xd off phi zs zr LY HP Hz. destruct (pair_class a b HP) as (ab & CA & _). destruct (eb_resp eH eV zH zV z N LY) as (rt & P & B).
  destruct (B ab xd (3 <? b)%Z (3 <? a)%Z _ _ zs zr (lay_inlay z N zs (ly_z _ _ _ _ _ _ LY)) (lay_inlay z N zr (ly_z _ _ _ _ _ _ LY))) as [B1 B2].
  refine (conv_core a b eH eV zH zV z N xd off phi zs zr (rt * Rabs (zs - zr)) ab _ _ LY HP CA _ B1 B2). apply Rmult_lt_0_compat; [exact P|]. apply Rabs_pos_lt. lra.
Qed.
Theorem reflected_converges : forall a b eH eV zH zV z N off phi s zs zr, layered eH eV zH zV z N -> fs_pair a b -> in_layer z N s zs -> in_layer z N s zr ->
  exists V, hankel_value eH eV zH zV z N (10 * a + b) true off phi zs zr V.
Proof.
  intros a b eH eV zH zV z N off phi s zs zr LY HP IS IR. destruct (pair_class a b HP) as (ab & CA & _).
  destruct (eb_resp_refl eH eV zH zV z N LY ab (3 <? b)%Z (3 <? a)%Z s zs zr IS IR) as (c & C & B1 & B2). pose proof (ly_z _ _ _ _ _ _ LY) as HI.
  pose proof (conv_core a b eH eV zH zV z N true off phi zs zr c ab _ _ LY HP CA C) as K. rewrite (lay_in z N HI s zs IS), (lay_in z N HI s zr IR) in K. exact (K B1 B2).
Qed.

(** ** Rates *)
(** F is the integrand of the wavenumber integral of a component. *)
Definition integrand (eH eV zH zV : nat -> C) (z : nat -> R) (N : nat) (raw : Z) (xd : bool) (off phi zs zr : R) (F : R -> C) : Prop :=
  exists ab ms mr, check_ab (AbNum (inject_Z raw)) = Ok (ab, ms, mr) /\
    forall lam, exists PJ, wcall eH eV zH zV z N lam ab xd ms mr (lay z N zs) (lay z N zr) zs zr = Ok PJ /\
       F lam = bessel_sum ab lam off (ang_exact (eval_angle phi ms mr) ab) PJ.
Lemma integrand_eb : forall eH eV zH zV z N, layered eH eV zH zV z N -> exists rate : R, (0 < rate)%R /\
  forall a b xd off phi zs zr, fs_pair a b -> exists F, integrand eH eV zH zV z N (10 * a + b) xd off phi zs zr F /\ eb (rate * Rabs (zs - zr)) F.
Proof.
  intros eH eV zH zV z N LY. destruct (eb_resp eH eV zH zV z N LY) as (rt & P & B). exists rt. split; [exact P|]. intros a b xd off phi zs zr HP.
  destruct (pair_class a b HP) as (ab & CA & _). destruct (code_class _ ab _ _ CA (ex_intro _ a (ex_intro _ b (conj HP eq_refl)))) as [KA VC].
  destruct (B ab xd (3 <? b)%Z (3 <? a)%Z _ _ zs zr (lay_inlay z N zs (ly_z _ _ _ _ _ _ LY)) (lay_inlay z N zr (ly_z _ _ _ _ _ _ LY))) as [B1 B2].
  eexists. split; [|exact (eb_bessel ab (3 <? a)%Z off (ang_exact (eval_angle phi (3 <? b)%Z (3 <? a)%Z) ab) _ _ _ KA B1 B2)].
  exists ab, (3 <? b)%Z, (3 <? a)%Z. split; [exact CA|]. intros lam. eexists. split; [|reflexivity].
  rewrite wcall_gcall. rewrite gcall_resp; [|apply passive_model_ok, ly_passive, LY|exact VC|apply lay_le|apply lay_le]. cbn [bind]. now destruct (resp _ _ _ _ _ _ _ _ _ _ _ _ _ _ _).
Qed.
Lemma integrand_unique : forall eH eV zH zV z N raw xd off phi zs zr F G,
  integrand eH eV zH zV z N raw xd off phi zs zr F -> integrand eH eV zH zV z N raw xd off phi zs zr G -> forall x, F x = G x.
Proof.
  intros eH eV zH zV z N raw xd off phi zs zr F G (ab & ms & mr & A & B) (ab' & ms' & mr' & A' & B') x.
  rewrite A in A'. assert (X : (ab, ms, mr) = (ab', ms', mr')) by congruence. injection X as <- <- <-.
  destruct (B x) as [P [E1 E2]], (B' x) as [P' [E1' E2']]. rewrite E1 in E1'. assert (P = P') by congruence. subst. now rewrite E2, E2'.
Qed.
Theorem layered_decay : forall eH eV zH zV z N, layered eH eV zH zV z N -> exists rate : R, (0 < rate)%R /\
  forall a b xd off phi zs zr, fs_pair a b -> exists F M n, integrand eH eV zH zV z N (10 * a + b) xd off phi zs zr F /\
    forall lam : R, (0 <= lam)%R -> (Cmod (F lam) <= M * (1 + lam) ^ n * exp (- (rate * Rabs (zs - zr) * lam)))%R.
Proof.
  intros eH eV zH zV z N LY. destruct (integrand_eb _ _ _ _ _ _ LY) as (rt & P & B). exists rt. split; [exact P|]. intros a b xd off phi zs zr HP.
  destruct (B a b xd off phi zs zr HP) as (F & IF & [_ (M & n & _ & H)]). exists F, M, n. split; [exact IF|exact H].
Qed.
Lemma improper_tail : forall c f V, eb c f -> (0 < c)%R -> improper f V -> exists K : R, forall T : R, (0 <= T)%R -> (Cmod (CI f 0 T - V)%C <= K * exp (- (c / 2 * T)))%R.
Proof.
  intros c f V H Hc [_ L]. destruct (eb_tail c f H Hc) as (K & HK & B). exists K. intros T HT. apply le_epsilon. intros e He.
  destruct (proj1 (limC_eps _ V) L e He) as [T0 HT0]. set (S := (Rmax T0 T + 1)%R). pose proof (Rmax_l T0 T) as M1. pose proof (Rmax_r T0 T) as M2.
  specialize (HT0 S ltac:(unfold S; lra)). specialize (B T S ltac:(unfold S; lra)). rewrite (CI_chasles f 0 T S (eb_cC c f H)) in HT0.
  set (a := CI f 0 T) in *. set (b := CI f T S) in *. replace (a - V) with ((a + b - V) + - b) by ring. eapply Rle_trans; [apply Cmod_triangle|]. rewrite Cmod_opp. lra.
Qed.
Theorem layered_truncation : forall a b eH eV zH zV z N xd off phi zs zr, layered eH eV zH zV z N -> fs_pair a b -> zs <> zr ->
  exists V F K c, (0 < c)%R /\ hankel_value eH eV zH zV z N (10 * a + b) xd off phi zs zr V /\ integrand eH eV zH zV z N (10 * a + b) xd off phi zs zr F /\
    forall T : R, (0 <= T)%R -> (Cmod (CI F 0 T - V)%C <= K * exp (- (c * T)))%R.
Proof.
  intros a b eH eV zH zV z N xd off phi zs zr LY HP Hz. destruct (integrand_eb _ _ _ _ _ _ LY) as (rt & P & B). destruct (B a b xd off phi zs zr HP) as (F & IF & HE).
  assert (Hc : (0 < rt * Rabs (zs - zr))%R) by (apply Rmult_lt_0_compat; [exact P|apply Rabs_pos_lt; lra]). destruct (eb_improper _ F HE Hc) as [V HV]. destruct (improper_tail _ F V HE Hc HV) as [K HK].
  exists V, F, K, (rt * Rabs (zs - zr) / 2)%R. split; [lra|]. split; [|split; [exact IF|exact HK]]. destruct IF as (ab & ms & mr & CA & B'). exists ab, ms, mr, F. split; [exact CA|split; [exact B'|exact HV]].
Qed.
