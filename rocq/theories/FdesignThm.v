(** The transform pairs of the filter design are transform pairs. *)

From Coq Require Import Reals List Bool Lia Lra Psatz.
From Coquelicot Require Import Coquelicot.
From Verif Require Import PyBase CBase ODE FullspaceMaxwell FullspaceCurl Bessel Cint Hankel Sommer Sommer2 Sommer3 FourierPairs Fdesign.
Import ListNotations.
Local Open Scope R_scope.
Local Open Scope C_scope.

(** ** Specification *)

(** the kernel of the transform *)
Definition ker (n : gname) : R -> R := match n with GJ0 => J0 | GJ1 => J1 | GSin => sin | GCos => cos end.
Definition ex_CI (f : R -> C) (a b : R) : Prop := ex_RInt (fun x => fst (f x)) a b /\ ex_RInt (fun x => snd (f x)) a b.
(** The improper integral over x > 0 of the left-hand side times the kernel at
    b x exists and is c times the right-hand side at b. *)
Definition is_pair (c : R) (p : ghosh) (b : R) : Prop :=
  exists (g : R -> C) (r : C), (forall x : R, (0 <= x)%R -> gh_lhs p x = Ok (g x)) /\ gh_rhs p b = Ok r /\
    (forall T : R, (0 <= T)%R -> ex_CI (fun x => g x * RtoC (ker (gh_name p) (b * x)%R)) 0 T) /\
    limC (fun T => CI (fun x => g x * RtoC (ker (gh_name p) (b * x)%R)) 0 T) pinf (RtoC c * r).

(** ** Proofs *)
Lemma ker_cont : forall n x, continuous (ker n) x.
Proof. intros [| | |] x; cbn [ker]; [apply J0_cont|apply J1_cont|apply cont_sin|apply cont_cos]. Qed.
Lemma RC_ne : forall x : R, x <> 0%R -> RtoC x <> RtoC 0. Proof. intros x H E. apply RtoC_inj in E. contradiction. Qed.
Lemma cdiv_R : forall a b : R, b <> 0%R -> cdiv (RtoC a) (RtoC b) = Ok (RtoC (a / b)).
Proof. intros a b H. rewrite cdiv_ok by now apply RC_ne. f_equal. now rewrite RtoC_div. Qed.
Lemma Cexp_R : forall x : R, Cexp (RtoC x) = RtoC (exp x).
Proof. intros x. unfold Cexp, RtoC. cbn [fst snd]. rewrite cos_0, sin_0. f_equal; ring. Qed.
Lemma pair_R : forall c p b (f : R -> R) r, (forall x, continuous f x) -> (forall x : R, (0 <= x)%R -> gh_lhs p x = Ok (RtoC (f x))) -> gh_rhs p b = Ok (RtoC r) ->
  filterlim (fun T => RInt (fun x => f x * ker (gh_name p) (b * x))%R 0 T) pinf (locally (c * r)%R) -> is_pair c p b.
Proof.
  intros c p b f r Hf Hl Hr HL. exists (fun x => RtoC (f x)), (RtoC r). split; [exact Hl|]. split; [exact Hr|].
  assert (CC : cC (fun x => RtoC (f x) * RtoC (ker (gh_name p) (b * x)%R))).
  { apply cC_mult; apply cC_R; [exact Hf|]. intros x. apply (continuous_comp (fun x => b * x)%R (ker (gh_name p))); [cct|apply ker_cont]. }
  split; [intros T _; split; [now apply ex_fst|now apply ex_snd]|].
  apply limC_ext_loc with (f := fun T => RtoC (RInt (fun x => f x * ker (gh_name p) (b * x))%R 0 T)).
  - apply filter_forall. intros T. unfold CI. apply injective_projections; cbn [fst snd RtoC].
    + apply RInt_ext. intros x _. cbn. ring.
    + symmetry. transitivity (RInt (fun _ : R => 0%R) 0 T); [apply RInt_ext; intros x _; cbn; ring|]. rewrite (RInt_const (V := V)). unfold scal; cbn; unfold mult; cbn. ring.
  - rewrite <- RtoC_mult. split; cbn [fst snd RtoC]; [exact HL|apply filterlim_Rconst].
Qed.
Lemma pair_int : forall (f g : R -> R -> R) l l', (forall T x, f T x = g T x) -> l = l' -> filterlim (fun T => RInt (f T) 0 T) pinf (locally l) -> filterlim (fun T => RInt (g T) 0 T) pinf (locally l').
Proof. intros f g l l' H E. subst l'. apply filterlim_ext. intros T. apply RInt_ext. intros x _. apply H. Qed.
Ltac rr := match goal with |- ?p = ?q => change (@eq R p q) end.

Section FPairs.
Variables (a b : R).
Hypothesis Ha : (0 < a)%R.
Hypothesis Hb : (0 < b)%R.
Let a2 : (0 < a ^ 2)%R := pow_lt a 2 Ha.
Let a3 : (0 < a ^ 3)%R := pow_lt a 3 Ha.
Let ba : (0 < b ^ 2 + a ^ 2)%R. Proof. pose proof (pow2_ge_0 b). lra. Qed.
Lemma rhs_gauss : forall q, (0 < q)%R -> cdiv (RtoC (- b ^ 2)) (RtoC (4 * q)) = Ok (RtoC (- b ^ 2 / (4 * q))). Proof using All. intros q Hq. apply cdiv_R. lra. Qed.
Ltac cder2 := intros; match goal with |- continuous ?f ?x => apply (ex_derive_continuous f); auto_derive; exact I end.

Lemma p_cos1 : is_pair 1 (cos_1 a false) b.
Proof using All.
  apply (pair_R 1 _ b (fun x => exp (- a ^ 2 * x ^ 2)) (sqrt PI * exp (- b ^ 2 / (4 * a ^ 2)) / (2 * a))).
  - cder2.
  - reflexivity.
  - cbn [cos_1 swap_pair gh_rhs]. rewrite rhs_gauss by exact a2. cbn [bind]. rewrite Cexp_R, <- RtoC_mult. apply cdiv_R. lra.
  - rewrite Rmult_1_l. apply cos1_pair; [exact Ha|lra].
Qed.
Lemma p_sin1 : is_pair 1 (sin_1 a false) b.
Proof using All.
  apply (pair_R 1 _ b (fun x => x * exp (- a ^ 2 * x ^ 2))%R (sqrt PI * b * exp (- b ^ 2 / (4 * a ^ 2)) / (4 * a ^ 3))).
  - cder2.
  - reflexivity.
  - cbn [sin_1 swap_pair gh_rhs]. rewrite rhs_gauss by exact a2. cbn [bind]. rewrite Cexp_R, <- RtoC_mult. apply cdiv_R. lra.
  - rewrite Rmult_1_l. apply sin1_pair; [exact Ha|lra].
Qed.
Lemma p_cos2 : is_pair 1 (cos_2 a false) b.
Proof using All.
  apply (pair_R 1 _ b (fun x => exp (- a * x)) (a / (b ^ 2 + a ^ 2))).
  - cder2.
  - reflexivity.
  - apply cdiv_R. lra.
  - rewrite Rmult_1_l. replace (b ^ 2 + a ^ 2)%R with (b * b + a * a)%R by ring. now apply cos2_pair.
Qed.
Lemma p_sin2 : is_pair 1 (sin_2 a false) b.
Proof using All.
  apply (pair_R 1 _ b (fun x => exp (- a * x)) (b / (b ^ 2 + a ^ 2))).
  - cder2.
  - reflexivity.
  - apply cdiv_R. lra.
  - rewrite Rmult_1_l. replace (b ^ 2 + a ^ 2)%R with (b * b + a * a)%R by ring. now apply sin2_pair.
Qed.
Lemma qp : forall x, (0 < a ^ 2 + x ^ 2)%R. Proof using All. intros x. pose proof (pow2_ge_0 x). lra. Qed.
Lemma p_cos3 : is_pair 1 (cos_3 a false) b.
Proof using All.
  apply (pair_R 1 _ b (fun x => 1 / (a ^ 2 + x ^ 2))%R (PI * exp (- a * b) / (2 * a))).
  - intros x. pose proof (qp x) as Q. apply (ex_derive_continuous (fun x => 1 / (a ^ 2 + x ^ 2))%R). auto_derive. cbn [pow] in Q. lra.
  - intros x _. apply cdiv_R. pose proof (qp x). lra.
  - apply cdiv_R. lra.
  - rewrite Rmult_1_l. apply (cos3_pair a Ha b). lra.
Qed.
Lemma p_sin3 : is_pair 1 (sin_3 a false) b.
Proof using All.
  apply (pair_R 1 _ b (fun x => x / (a ^ 2 + x ^ 2))%R (PI * exp (- a * b) / 2)).
  - intros x. pose proof (qp x) as Q. apply (ex_derive_continuous (fun x => x / (a ^ 2 + x ^ 2))%R). auto_derive. cbn [pow] in Q. lra.
  - intros x _. apply cdiv_R. pose proof (qp x). lra.
  - reflexivity.
  - rewrite Rmult_1_l. apply (sin3_pair a Ha b). lra.
Qed.
(** with inverse=True the integral is pi/2 times the right-hand side *)
Lemma i_sin2 : is_pair (PI / 2) (sin_2 a true) b.
Proof using All.
  apply (pair_R _ _ b (fun x => x / (x ^ 2 + a ^ 2))%R (exp (- a * b))).
  - intros x. pose proof (qp x) as Q. apply (ex_derive_continuous (fun x => x / (x ^ 2 + a ^ 2))%R). auto_derive. cbn [pow] in Q. lra.
  - intros x _. apply cdiv_R. pose proof (qp x). lra.
  - reflexivity.
  - eapply pair_int; [| |apply (sin3_pair a Ha b Hb)]; [intros; cbn [sin_2 swap_pair gh_name ker]; rr; rewrite (Rplus_comm (a ^ 2)); reflexivity|rr; field].
Qed.
Lemma i_cos2 : is_pair (PI / 2) (cos_2 a true) b.
Proof using All.
  apply (pair_R _ _ b (fun x => a / (x ^ 2 + a ^ 2))%R (exp (- a * b))).
  - intros x. pose proof (qp x) as Q. apply (ex_derive_continuous (fun x => a / (x ^ 2 + a ^ 2))%R). auto_derive. cbn [pow] in Q. lra.
  - intros x _. apply cdiv_R. pose proof (qp x). lra.
  - reflexivity.
  - apply (lim_ext (fun T => a * RF a T b)%R).
    + intros T. transitivity (a * RF a T b + 0 * RF a T b)%R; [ring|]. unfold RF. rewrite <- (RI_lin (fun x => 1 / (a ^ 2 + x ^ 2) * cos (b * x))%R (fun x => 1 / (a ^ 2 + x ^ 2) * cos (b * x))%R).
      * apply RInt_ext. intros x _. cbn [cos_2 swap_pair gh_name ker]. rr. pose proof (qp x). field. lra.
      * intros x. pose proof (qp x) as Q. apply (ex_derive_continuous (fun x => 1 / (a ^ 2 + x ^ 2) * cos (b * x))%R). auto_derive. cbn [pow] in Q. lra.
      * intros x. pose proof (qp x) as Q. apply (ex_derive_continuous (fun x => 1 / (a ^ 2 + x ^ 2) * cos (b * x))%R). auto_derive. cbn [pow] in Q. lra.
    + apply (lim_eq _ (a * (PI * exp (- a * b) / (2 * a)))%R); [|rr; field; lra]. apply filterlim_Rmult; [apply filterlim_Rconst|apply (cos3_pair a Ha b); lra].
Qed.
Lemma i_sin3 : is_pair (PI / 2) (sin_3 a true) b.
Proof using All.
  apply (pair_R _ _ b (fun x => PI * exp (- a * x) / 2)%R (b / (a ^ 2 + b ^ 2))).
  - cder2.
  - reflexivity.
  - apply cdiv_R. lra.
  - apply (lim_ext (fun T => PI / 2 * RInt (fun x => exp (- a * x) * sin (b * x)) 0 T)%R).
    + intros T. transitivity (PI / 2 * RInt (fun x => exp (- a * x) * sin (b * x)) 0 T + 0 * RInt (fun x => exp (- a * x) * sin (b * x)) 0 T)%R; [ring|]. rewrite <- RI_lin by cder2. apply RInt_ext. intros x _. cbn [sin_3 swap_pair gh_name ker]. rr. field.
    + apply (lim_eq _ (PI / 2 * (b / (b * b + a * a)))%R); [|rr; field; nra]. apply filterlim_Rmult; [apply filterlim_Rconst|now apply sin2_pair].
Qed.
Lemma i_cos3 : is_pair (PI / 2) (cos_3 a true) b.
Proof using All.
  apply (pair_R _ _ b (fun x => PI * exp (- a * x) / (2 * a))%R (1 / (a ^ 2 + b ^ 2))).
  - cder2.
  - intros x _. apply cdiv_R. lra.
  - apply cdiv_R. lra.
  - apply (lim_ext (fun T => PI / (2 * a) * RInt (fun x => exp (- a * x) * cos (b * x)) 0 T)%R).
    + intros T. transitivity (PI / (2 * a) * RInt (fun x => exp (- a * x) * cos (b * x)) 0 T + 0 * RInt (fun x => exp (- a * x) * cos (b * x)) 0 T)%R; [ring|]. rewrite <- RI_lin by cder2. apply RInt_ext. intros x _. cbn [cos_3 swap_pair gh_name ker]. rr. field. lra.
    + apply (lim_eq _ (PI / (2 * a) * (a / (b * b + a * a)))%R); [|rr; field; assert (0 < b * b + a * a)%R by nra; repeat split; lra]. apply filterlim_Rmult; [apply filterlim_Rconst|now apply cos2_pair].
Qed.
(** the Gaussians: the transform with parameter 1/(2a) *)
Let d := (/ (2 * a))%R.
Let Hd : (0 < d)%R. Proof. apply Rinv_0_lt_compat. lra. Qed.
Lemma ex_gauss : forall x, exp (- d ^ 2 * x ^ 2) = exp (- x ^ 2 / (4 * a ^ 2)). Proof using All. intros x. f_equal. unfold d. field. lra. Qed.
Lemma ex_gauss2 : exp (- b ^ 2 / (4 * d ^ 2)) = exp (- a ^ 2 * b ^ 2). Proof using All. f_equal. unfold d. field. lra. Qed.
Lemma PIs : (sqrt PI * sqrt PI = PI)%R. Proof. apply sqrt_sqrt. pose proof PI_RGT_0. lra. Qed.
Lemma i_cos1 : is_pair (PI / 2) (cos_1 a true) b.
Proof using All.
  apply (pair_R _ _ b (fun x => sqrt PI * exp (- x ^ 2 / (4 * a ^ 2)) / (2 * a))%R (exp (- a ^ 2 * b ^ 2))).
  - cder2.
  - intros x _. cbn [cos_1 swap_pair gh_lhs]. rewrite cdiv_R by lra. cbn [bind]. rewrite Cexp_R, <- RtoC_mult. apply cdiv_R. lra.
  - reflexivity.
  - apply (lim_ext (fun T => sqrt PI / (2 * a) * GC d T b)%R).
    + intros T. transitivity (sqrt PI / (2 * a) * GC d T b + 0 * GC d T b)%R; [ring|]. unfold GC. rewrite <- RI_lin by cder2. apply RInt_ext. intros x _. cbn [cos_1 swap_pair gh_name ker]. rr. rewrite ex_gauss. field. lra.
    + apply (lim_eq _ (sqrt PI / (2 * a) * (sqrt PI * exp (- b ^ 2 / (4 * d ^ 2)) / (2 * d)))%R).
      * apply filterlim_Rmult; [apply filterlim_Rconst|apply cos1_pair; [exact Hd|lra]].
      * rr. rewrite ex_gauss2. transitivity (sqrt PI * sqrt PI / 2 * exp (- a ^ 2 * b ^ 2))%R; [unfold d; field; lra|now rewrite PIs].
Qed.
Lemma i_sin1 : is_pair (PI / 2) (sin_1 a true) b.
Proof using All.
  apply (pair_R _ _ b (fun x => sqrt PI * x * exp (- x ^ 2 / (4 * a ^ 2)) / (4 * a ^ 3))%R (b * exp (- a ^ 2 * b ^ 2))).
  - cder2.
  - intros x _. cbn [sin_1 swap_pair gh_lhs]. rewrite cdiv_R by lra. cbn [bind]. rewrite Cexp_R, <- RtoC_mult. apply cdiv_R. lra.
  - reflexivity.
  - apply (lim_ext (fun T => sqrt PI / (4 * a ^ 3) * RInt (fun x => x * exp (- d ^ 2 * x ^ 2) * sin (b * x)) 0 T)%R).
    + intros T. transitivity (sqrt PI / (4 * a ^ 3) * RInt (fun x => x * exp (- d ^ 2 * x ^ 2) * sin (b * x)) 0 T + 0 * RInt (fun x => x * exp (- d ^ 2 * x ^ 2) * sin (b * x)) 0 T)%R; [ring|]. rewrite <- RI_lin by cder2. apply RInt_ext. intros x _. cbn [sin_1 swap_pair gh_name ker]. rr. rewrite ex_gauss. field. lra.
    + apply (lim_eq _ (sqrt PI / (4 * a ^ 3) * (sqrt PI * b * exp (- b ^ 2 / (4 * d ^ 2)) / (4 * d ^ 3)))%R).
      * apply filterlim_Rmult; [apply filterlim_Rconst|apply sin1_pair; [exact Hd|lra]].
      * rr. rewrite ex_gauss2. transitivity (sqrt PI * sqrt PI / 2 * (b * exp (- a ^ 2 * b ^ 2)))%R; [unfold d; field; lra|now rewrite PIs].
Qed.
(** *** Hankel pairs with real sides *)
Lemma p_j01 : is_pair 1 (j0_1 a) b.
Proof using All.
  apply (pair_R 1 _ b (fun x => x * exp (- a * x ^ 2))%R (exp (- b ^ 2 / (4 * a)) / (2 * a))).
  - cder2.
  - reflexivity.
  - cbn [j0_1 gh_rhs]. rewrite rhs_gauss by exact Ha. cbn [bind]. rewrite Cexp_R. apply cdiv_R. lra.
  - rewrite Rmult_1_l. apply j0_1_pair; [exact Ha|lra].
Qed.
Lemma p_j11 : is_pair 1 (j1_1 a) b.
Proof using All.
  apply (pair_R 1 _ b (fun x => x ^ 2 * exp (- a * x ^ 2))%R (b / (4 * a ^ 2) * exp (- b ^ 2 / (4 * a)))).
  - cder2.
  - reflexivity.
  - cbn [j1_1 gh_rhs]. rewrite cdiv_R by lra. cbn [bind]. rewrite rhs_gauss by exact Ha. cbn [bind]. now rewrite Cexp_R, RtoC_mult.
  - rewrite Rmult_1_l. apply j1_1_pair; [exact Ha|lra].
Qed.
End FPairs.

(** *** Hankel pairs from the Sommerfeld integrals *)
Lemma pair_IT : forall be ka k M p b z (g : R -> C) r, inst be ka k M -> cC g -> (ker (gh_name p) = J0 \/ ker (gh_name p) = J1) ->
  (forall x : R, (0 <= x)%R -> gh_lhs p x = Ok (g x * Ex be x z)) -> gh_rhs p b = Ok r ->
  limC (fun T => IT be g (ker (gh_name p)) T b z) pinf r -> is_pair 1 p b.
Proof.
  intros be ka k M p b z g r (H1 & H2 & H3 & H4 & H5) Hg HJ Hl Hr HL. exists (fun x => g x * Ex be x z), r. split; [exact Hl|]. split; [exact Hr|].
  assert (CC : cC (fun x => g x * Ex be x z * RtoC (ker (gh_name p) (b * x)%R))).
  { apply (cIT be ka k M); auto. destruct HJ as [-> | ->]; [apply okJ0|apply okJ1]. }
  split; [intros T _; split; [now apply ex_fst|now apply ex_snd]|].
  apply (limC_eq _ r); [|ring]. exact HL.
Qed.
Lemma RR_real : forall b z : R, RR b (RtoC z) = RtoC (sqrt (b ^ 2 + z ^ 2)).
Proof. intros b z. unfold RR. rewrite <- RtoC_mult, <- RtoC_plus. rewrite Csqrt_RtoC. - f_equal. f_equal. ring. - nra. Qed.
Lemma good_real : forall a : R, (0 < a)%R -> good (RtoC a).
Proof. intros a H. split; cbn; nra. Qed.
Lemma pow15_sqrt : forall y, (0 < y)%R -> pow15 y = (sqrt y * sqrt y * sqrt y)%R.
Proof. intros y H. unfold pow15. rewrite sqrt_sqrt by lra. ring. Qed.
Definition gK be ka k M (I : inst be ka k M) := match I with conj a (conj b (conj c (conj d e))) => K_good be ka k M a b c d e end.
Definition gS be ka k M (I : inst be ka k M) := match I with conj a (conj b (conj c (conj d e))) => S_good be ka k M a b c d e end.
Definition gA be ka k M (I : inst be ka k M) := match I with conj a (conj b (conj c (conj d e))) => A_good be ka k M a b c d e end.
Definition gB be ka k M (I : inst be ka k M) := match I with conj a (conj b (conj c (conj d e))) => B_good be ka k M a b c d e end.
Definition gP be ka k M (I : inst be ka k M) := match I with conj a (conj b (conj c (conj d e))) => P_good be ka k M a b c d e end.

Lemma cC_x : cC RtoC. Proof. apply (cC_R (fun x => x)). intros x. cct. Qed.
Lemma cC_ka : forall be ka k M, inst be ka k M -> cC ka. Proof. intros be ka k M (_ & H & _). exact H. Qed.

Section HPairs.
Variables (a b : R).
Hypothesis Ha : (0 < a)%R.
Hypothesis Hb : (0 < b)%R.
Let s := sqrt (b ^ 2 + a ^ 2).
Let Hs : (0 < s)%R. Proof. apply sqrt_lt_R0. pose proof (pow_lt a 2 Ha). pose proof (pow2_ge_0 b). lra. Qed.
Let Hs2 : (b ^ 2 + a ^ 2 = s * s)%R. Proof. unfold s. rewrite sqrt_sqrt; [reflexivity|]. pose proof (pow2_ge_0 a). pose proof (pow2_ge_0 b). lra. Qed.
Let ra : RR b (RtoC a) = RtoC s. Proof. apply RR_real. Qed.
Let snz : RtoC s <> RtoC 0 := RC_ne s (Rgt_not_eq _ _ Hs).
Let bnz : RtoC b <> RtoC 0 := RC_ne b (Rgt_not_eq _ _ Hb).
Lemma Ex_R : forall x, Ex RtoC x (RtoC a) = RtoC (exp (- a * x)).
Proof using All. intros x. unfold Ex. rewrite <- RtoC_mult, <- RtoC_opp, Cexp_R. do 2 f_equal. ring. Qed.
Lemma Cexp_z : forall z, Cexp (- (RtoC 0 * z)) = RtoC 1.
Proof. intros z. replace (- (RtoC 0 * z)) with (RtoC 0) by ring. rewrite Cexp_R, exp_0. reflexivity. Qed.
Lemma p_j02 : is_pair 1 (j0_2 a) b.
Proof using All.
  eapply (pair_IT _ _ _ _ _ _ (RtoC a) (fun _ => RtoC 1)); [apply id_inst|apply cC_const|now left| | |].
  - intros x _. cbn [j0_2 gh_lhs]. rewrite Ex_R. f_equal. ring.
  - apply cdiv_R. fold s. lra.
  - cbn [j0_2 gh_name ker]. eapply limC_eq; [apply (gK _ _ _ _ id_inst), good_real, Ha|]. unfold fK. rewrite Cexp_z, ra, RtoC_div; [|fold s; lra]. reflexivity.
Qed.
Lemma p_j03 : is_pair 1 (j0_3 a) b.
Proof using All.
  eapply (pair_IT _ _ _ _ _ _ (RtoC a) RtoC); [apply id_inst|apply cC_x|now left| | |].
  - intros x _. cbn [j0_3 gh_lhs]. rewrite Ex_R. f_equal. now rewrite RtoC_mult.
  - apply cdiv_R. rewrite pow15_sqrt by (rewrite Hs2; nra). fold s. pose proof (Rmult_lt_0_compat _ _ (Rmult_lt_0_compat _ _ Hs Hs) Hs). lra.
  - cbn [j0_3 gh_name ker]. eapply limC_eq; [apply (gS _ _ _ _ id_inst), good_real, Ha|]. unfold fS. rewrite Cexp_z, ra. rewrite pow15_sqrt by (rewrite Hs2; nra). fold s.
    pose proof (Rmult_lt_0_compat _ _ (Rmult_lt_0_compat _ _ Hs Hs) Hs). rewrite RtoC_div by lra. rewrite !RtoC_mult. field. exact snz.
Qed.
Lemma p_j12 : is_pair 1 (j1_2 a) b.
Proof using All.
  eapply (pair_IT _ _ _ _ _ _ (RtoC a) (fun _ => RtoC 1)); [apply id_inst|apply cC_const|now right| | |].
  - intros x _. cbn [j1_2 gh_lhs]. rewrite Ex_R. f_equal. ring.
  - apply cdiv_R. fold s. apply Rmult_integral_contrapositive_currified; lra.
  - cbn [j1_2 gh_name ker]. eapply limC_eq; [apply (gP _ _ _ _ id_inst); [lra|apply good_real, Ha]|]. unfold fP, fK. rewrite !Cexp_z, ra. fold s.
    rewrite RtoC_div by (apply Rmult_integral_contrapositive_currified; lra). rewrite RtoC_minus, RtoC_mult. field. now split.
Qed.
Lemma p_j13 : is_pair 1 (j1_3 a) b.
Proof using All.
  eapply (pair_IT _ _ _ _ _ _ (RtoC a) (fun x => RtoC x * RtoC 1)); [apply id_inst|apply cC_mult; [apply cC_x|apply cC_const]|now right| | |].
  - intros x _. cbn [j1_3 gh_lhs]. rewrite Ex_R. f_equal. rewrite RtoC_mult. ring.
  - apply cdiv_R. rewrite pow15_sqrt by (rewrite Hs2; nra). fold s. pose proof (Rmult_lt_0_compat _ _ (Rmult_lt_0_compat _ _ Hs Hs) Hs). lra.
  - cbn [j1_3 gh_name ker]. eapply limC_eq; [apply (gA _ _ _ _ id_inst), good_real, Ha|]. unfold fA. rewrite Cexp_z, ra. rewrite pow15_sqrt by (rewrite Hs2; nra). fold s.
    pose proof (Rmult_lt_0_compat _ _ (Rmult_lt_0_compat _ _ Hs Hs) Hs). rewrite RtoC_div by lra. rewrite !RtoC_mult. field. exact snz.
Qed.
End HPairs.

(** *** the pairs of the diffusive full space *)
Section GPairs.
Variables (mu0 f rho z b : R).
Hypothesis Hmu : (0 < mu0)%R.
Hypothesis Hf : (0 < f)%R.
Hypothesis Hrho : (0 < rho)%R.
Hypothesis Hz : z <> 0%R.
Let w : C := Ci * RtoC (2 * PI * mu0 * f) / RtoC rho.
Let gam : C := Csqrt w.
Let Hw : (0 < snd w)%R.
Proof.
  unfold w. replace (Ci * RtoC (2 * PI * mu0 * f) / RtoC rho) with (Ci * RtoC (2 * PI * mu0 * f / rho)).
  - cbn [Ci Cmult RtoC fst snd]. pose proof PI_RGT_0. assert (0 < 2 * PI * mu0 * f / rho)%R; [|lra]. apply Rdiv_lt_0_compat; [|exact Hrho]. apply Rmult_lt_0_compat; [apply Rmult_lt_0_compat; [lra|exact Hmu]|exact Hf].
  - rewrite RtoC_div by lra. field. apply RC_ne. lra.
Qed.
Let gok : fd_gam mu0 f rho = Ok gam. Proof. unfold fd_gam. destruct (Req_EM_T rho 0); [lra|reflexivity]. Qed.
Let g2 : gam * gam = w. Proof. apply Csqrt_sqr. Qed.
Let off : offcut w. Proof. now right. Qed.
Let beq : forall x, fd_beta gam x = root w x. Proof. intros x. unfold fd_beta, root. rewrite g2. do 3 f_equal. ring. Qed.
Let be0 : root w 0 = gam. Proof. unfold root, gam. f_equal. replace (RtoC (0 * 0)) with (RtoC 0) by (f_equal; ring). ring. Qed.
Let az : (0 < Rabs z)%R. Proof. now apply Rabs_pos_lt. Qed.
Let Rd := sqrt (b ^ 2 + z ^ 2).
Let HRd : (0 < Rd)%R. Proof. apply sqrt_lt_R0. pose proof (pow2_gt_0 z Hz). pose proof (pow2_ge_0 b). lra. Qed.
Let rR : RR b (RtoC (Rabs z)) = RtoC Rd. Proof. rewrite RR_real. unfold Rd. now rewrite pow2_abs. Qed.
Let rnz : RtoC Rd <> RtoC 0 := RC_ne _ (Rgt_not_eq _ _ HRd).
Let Exr : forall x, Cexp (- root w x * RtoC (Rabs z)) = Ex (root w) x (RtoC (Rabs z)).
Proof. intros x. unfold Ex. apply (f_equal Cexp). ring. Qed.
Let eR : Cexp (- gam * RtoC Rd) = Cexp (- (gam * RtoC Rd)). Proof. apply (f_equal Cexp). ring. Qed.
Let pw : forall n, RtoC (Rd ^ S n) = RtoC (Rd ^ n) * RtoC Rd. Proof. intros n. cbn [pow]. rewrite RtoC_mult. ring. Qed.
Let cdr : cC (droot w) := droot_cont w off.

Lemma p_j04 : exists p, j0_4 mu0 f rho z = Ok p /\ is_pair 1 p b.
Proof using All.
  unfold j0_4. rewrite gok. cbn [bind]. eexists; split; [reflexivity|]. destruct (root_inst w off) as (k & M & I).
  eapply (pair_IT _ _ _ _ _ _ (RtoC (Rabs z)) (droot w)); [apply I|exact cdr|now left| | |].
  - intros x _. cbn [gh_lhs]. rewrite beq, Exr. rewrite cdiv_ok by (apply root_nz; exact off). f_equal. unfold droot. field. apply root_nz; exact off.
  - cbn [gh_rhs]. fold Rd. rewrite eR. apply cdiv_ok. exact rnz.
  - cbn [gh_name ker]. eapply limC_eq; [apply (gK _ _ _ _ I), good_real, az|]. unfold fK. rewrite be0, rR. reflexivity.
Qed.
Lemma p_j05 : exists p, j0_5 mu0 f rho z = Ok p /\ is_pair 1 p b.
Proof using All.
  unfold j0_5. rewrite gok. cbn [bind]. eexists; split; [reflexivity|]. destruct (root_inst w off) as (k & M & I).
  eapply (pair_IT _ _ _ _ _ _ (RtoC (Rabs z)) RtoC); [apply I|apply cC_x|now left| | |].
  - intros x _. cbn [gh_lhs]. rewrite beq, Exr. reflexivity.
  - cbn [gh_rhs]. fold Rd. rewrite eR. apply cdiv_ok. apply RC_ne. pose proof (pow_lt _ 3 HRd). lra.
  - cbn [gh_name ker]. eapply limC_eq; [apply (gS _ _ _ _ I), good_real, az|]. unfold fS. rewrite be0, rR. rewrite !pw. cbn [pow]. field. exact rnz.
Qed.
Lemma p_j14 : exists p, j1_4 mu0 f rho z = Ok p /\ is_pair 1 p b.
Proof using All.
  unfold j1_4. rewrite gok. cbn [bind]. eexists; split; [reflexivity|]. destruct (root_inst w off) as (k & M & I).
  eapply (pair_IT _ _ _ _ _ _ (RtoC (Rabs z)) (fun x => RtoC x * droot w x)); [apply I|apply cC_mult; [apply cC_x|exact cdr]|now right| | |].
  - intros x _. cbn [gh_lhs]. rewrite beq, Exr. rewrite cdiv_ok by (apply root_nz; exact off). f_equal. unfold droot. cbn [pow]. rewrite !RtoC_mult. field. apply root_nz; exact off.
  - cbn [gh_rhs]. fold Rd. rewrite eR. apply cdiv_ok. apply RC_ne. pose proof (pow_lt _ 3 HRd). lra.
  - cbn [gh_name ker]. eapply limC_eq; [apply (gA _ _ _ _ I), good_real, az|]. unfold fA. rewrite be0, rR. rewrite !pw. cbn [pow]. field. exact rnz.
Qed.
Lemma p_j15 : exists p, j1_5 mu0 f rho z = Ok p /\ is_pair 1 p b.
Proof using All.
  unfold j1_5. rewrite gok. cbn [bind]. eexists; split; [reflexivity|]. destruct (root_inst w off) as (k & M & I).
  eapply (pair_IT _ _ _ _ _ _ (RtoC (Rabs z)) (fun x => RtoC x * RtoC x)); [apply I|apply cC_mult; apply cC_x|now right| | |].
  - intros x _. cbn [gh_lhs]. rewrite beq, Exr. f_equal. cbn [pow]. rewrite !RtoC_mult. ring.
  - cbn [gh_rhs]. fold Rd. rewrite eR. apply cdiv_ok. apply RC_ne. pose proof (pow_lt _ 5 HRd). lra.
  - cbn [gh_name ker]. eapply limC_eq; [apply (gB _ _ _ _ I), good_real, az|]. unfold fB. rewrite be0, rR. rewrite !pw. cbn [pow]. field. exact rnz.
Qed.
End GPairs.

(** ** Both sides of a pair determine the factor *)
Lemma pair_unique : forall c d p b r, is_pair c p b -> is_pair d p b -> gh_rhs p b = Ok r -> r <> RtoC 0 -> c = d.
Proof.
  intros c d p b r (g & r1 & G1 & R1 & _ & L1) (g' & r2 & G2 & R2 & _ & L2) Hr Hn.
  assert (E1 : r1 = r) by congruence. assert (E2 : r2 = r) by congruence. subst r1 r2.
  assert (E : RtoC c * r = RtoC d * r).
  { apply (limC_unique pinf (fun T => CI (fun x => g x * RtoC (ker (gh_name p) (b * x)%R)) 0 T)); [exact L1|].
    refine (limC_ext_loc _ _ _ _ L2). exists 0%R. intros T HT. apply CI_ext_in. intros x Hx. assert (0 <= x)%R.
    { destruct Hx as [Hx _]. rewrite Rmin_left in Hx by lra. lra. }
    f_equal. pose proof (G1 x H). pose proof (G2 x H). congruence. }
  apply RtoC_inj. transitivity (RtoC c * r / r); [field; exact Hn|]. rewrite E. field. exact Hn.
Qed.

Lemma inverse_wrong : forall p b r, is_pair (PI / 2) p b -> gh_rhs p b = Ok (RtoC r) -> (0 < r)%R -> ~ is_pair 1 p b.
Proof.
  intros p b r H Hr Hp H1. assert (E : (PI / 2 = 1)%R). { apply (pair_unique _ _ p b (RtoC r) H H1 Hr). apply RC_ne. lra. }
  pose proof PI2_1. lra.
Qed.
Lemma inverse_wrong_all : forall a b p, (0 < a)%R -> (0 < b)%R -> In p [sin_1 a true; sin_2 a true; sin_3 a true; cos_1 a true; cos_2 a true; cos_3 a true] -> ~ is_pair 1 p b.
Proof.
  intros a b p Ha Hb Hp. assert (Q : (0 < a ^ 2 + b ^ 2)%R). { pose proof (pow_lt a 2 Ha). pose proof (pow2_ge_0 b). lra. }
  cbn [In] in Hp. destruct Hp as [<- | [<- | [<- | [<- | [<- | [<- | []]]]]]].
  - apply (inverse_wrong _ b (b * exp (- a ^ 2 * b ^ 2))); [now apply i_sin1|reflexivity|]. apply Rmult_lt_0_compat; [exact Hb|apply exp_pos].
  - apply (inverse_wrong _ b (exp (- a * b))); [now apply i_sin2|reflexivity|apply exp_pos].
  - apply (inverse_wrong _ b (b / (a ^ 2 + b ^ 2))); [now apply i_sin3|apply cdiv_R; lra|]. now apply Rdiv_lt_0_compat.
  - apply (inverse_wrong _ b (exp (- a ^ 2 * b ^ 2))); [now apply i_cos1|reflexivity|apply exp_pos].
  - apply (inverse_wrong _ b (exp (- a * b))); [now apply i_cos2|reflexivity|apply exp_pos].
  - apply (inverse_wrong _ b (1 / (a ^ 2 + b ^ 2))); [now apply i_cos3|apply cdiv_R; lra|]. apply Rdiv_lt_0_compat; lra.
Qed.
Lemma sincos_pairs : forall a b p, (0 < a)%R -> (0 < b)%R -> In p [sin_1 a false; sin_2 a false; sin_3 a false; cos_1 a false; cos_2 a false; cos_3 a false] -> is_pair 1 p b.
Proof.
  intros a b p Ha Hb Hp. cbn [In] in Hp. destruct Hp as [<- | [<- | [<- | [<- | [<- | [<- | []]]]]]].
  - now apply p_sin1. - now apply p_sin2. - now apply p_sin3. - now apply p_cos1. - now apply p_cos2. - now apply p_cos3.
Qed.
Lemma inverse_pairs : forall a b p, (0 < a)%R -> (0 < b)%R -> In p [sin_1 a true; sin_2 a true; sin_3 a true; cos_1 a true; cos_2 a true; cos_3 a true] -> is_pair (PI / 2) p b.
Proof.
  intros a b p Ha Hb Hp. cbn [In] in Hp. destruct Hp as [<- | [<- | [<- | [<- | [<- | [<- | []]]]]]].
  - now apply i_sin1. - now apply i_sin2. - now apply i_sin3. - now apply i_cos1. - now apply i_cos2. - now apply i_cos3.
Qed.
Lemma hankel_real : forall a b p, (0 < a)%R -> (0 < b)%R -> In p [j0_1 a; j0_2 a; j0_3 a; j1_1 a; j1_2 a; j1_3 a] -> is_pair 1 p b.
Proof.
  intros a b p Ha Hb Hp. cbn [In] in Hp. destruct Hp as [<- | [<- | [<- | [<- | [<- | [<- | []]]]]]].
  - now apply p_j01. - now apply p_j02. - now apply p_j03. - now apply p_j11. - now apply p_j12. - now apply p_j13.
Qed.
Lemma hankel_gam : forall mu0 f rho z b m, (0 < mu0)%R -> (0 < f)%R -> (0 < rho)%R -> z <> 0%R -> In m [j0_4 mu0 f rho z; j0_5 mu0 f rho z; j1_4 mu0 f rho z; j1_5 mu0 f rho z] ->
  exists p, m = Ok p /\ is_pair 1 p b.
Proof.
  intros mu0 f rho z b m H1 H2 H3 H4 Hp. cbn [In] in Hp. destruct Hp as [<- | [<- | [<- | [<- | []]]]].
  - now apply p_j04. - now apply p_j05. - now apply p_j14. - now apply p_j15.
Qed.
(** the names under which the pairs are offered *)
Lemma pair_kernels : forall a i, map gh_name [j0_1 a; j0_2 a; j0_3 a; j1_1 a; j1_2 a; j1_3 a; sin_1 a i; sin_2 a i; sin_3 a i; cos_1 a i; cos_2 a i; cos_3 a i] =
  [GJ0; GJ0; GJ0; GJ1; GJ1; GJ1; GSin; GSin; GSin; GCos; GCos; GCos].
Proof. intros a [|]; reflexivity. Qed.
Lemma pair_kernels4 : forall mu0 f rho z p, (j0_4 mu0 f rho z = Ok p \/ j0_5 mu0 f rho z = Ok p -> gh_name p = GJ0) /\ (j1_4 mu0 f rho z = Ok p \/ j1_5 mu0 f rho z = Ok p -> gh_name p = GJ1).
Proof.
  intros. unfold j0_4, j0_5, j1_4, j1_5. destruct (fd_gam mu0 f rho); cbn [bind]; split; intros [H | H]; try discriminate; match type of H with Ok ?u = Ok ?z => assert (HW : z = u) by congruence end; subst; reflexivity.
Qed.
