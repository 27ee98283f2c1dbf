(** Property C88: error of quadrature with extrapolation. *)

From Coq Require Import ZArith QArith Reals List Bool String Lia Lra Psatz.
From Coquelicot Require Import Coquelicot.
From Verif Require Import PyBase CBase Kernel KernelSpec KernelClosed KernelPhys KernelBVP KernelMain KernelThm KernelThm2 KernelBessel KernelFinal ODE Cint Bessel Utils UtilsAb UtilsLayer UtilsModel UtilsFreq UtilsGeo UtilsSurvey Transform TransformDlf TransformQwe TransformQuad Fullspace FullspaceThm FullspaceEM FullspaceField Homog HomogThm Model ModelFem
  Fourier FourierFft FourierQwe HankelQ HankelQThm HankelQThm2 HankelQThm4 LayConv QweErr PropsKernel PropsUtils PropsTransform PropsHankelQ PropsLayered.
Import ListNotations.
Local Open Scope R_scope.
Local Open Scope C_scope.
Local Open Scope res_scope.

(** A result declared converged, whose extrapolated sums approach [L] by the factor [q] per interval,
    is as close to [L] as the tolerances promise, divided by 1 - q (1 + rtol). *)
Theorem C88_error : forall rtol atol maxint zc contrib n out kc, (2 <= maxint)%nat -> (0 <= rtol)%R ->
  qwe rtol atol maxint zc contrib n = Ok (out, kc, true) ->
  forall e (L : C) (q : R), (e < n)%nat -> (0 <= q)%R -> (q * (1 + rtol) < 1)%R ->
  approaches rtol atol maxint (contrib e) L q ->
  (Cmod (nth e out (RtoC 0) - L)%C <= (rtol * Cmod L + atol) / (1 - q * (1 + rtol)))%R.
Proof. exact qwe_error. Qed.

(** Contributions b, a q, a q^2, a q^3, ... are summed exactly, and declared converged. *)
Theorem C88_geometric : forall rtol atol zc maxint contrib n b a q, (5 <= maxint)%nat ->
  (forall e, (e < n)%nat -> summable rtol atol maxint (contrib e) (b e) (a e) (q e)) ->
  exists kc, qwe rtol atol maxint zc contrib n = Ok (map (fun e => gsum (b e) (a e) (q e)) (seq 0 n), kc, true).
Proof. exact qwe_geometric. Qed.

(** The Hankel transform without interpolation, of any kernel: the error of every offset. *)
Theorem C88_hankel : forall rquad isp j0 j1 j2 gx gw wn k used ab off ang rtol atol zc maxint dq a b limit v kc,
  (2 <= maxint)%nat -> (0 <= rtol)%R -> List.length ang = List.length off -> (forall r, In r off -> r <> 0%R) -> present used k ->
  (forall r l, In r off -> In l (hq_lambd gx (qx j1 j2 maxint) (List.length gx) maxint r) -> wn l = Ok (k l)) ->
  hankel_qwe rquad isp j0 j1 j2 gx gw wn used ab off ang rtol atol zc maxint 0 dq a b limit = Ok (v, kc, true) ->
  forall e (L : C) (q : R), (e < List.length off)%nat -> (0 <= q)%R -> (q * (1 + rtol) < 1)%R ->
  let o := nth e off 0%R in
  approaches rtol atol maxint (fun i => gauss gx gw (hankel_integrand j0 j1 ab (kpart t0 k) (kpart t1 k) (kpart t0b k) o (nth e ang 0%R))
    (qx j1 j2 maxint i / o) (qx j1 j2 maxint (S i) / o)) L q ->
  (Cmod (nth e v (RtoC 0) - L)%C <= (rtol * Cmod L + atol) / (1 - q * (1 + rtol)))%R.
Proof.
  intros rquad isp j0 j1 j2 gx gw wn k used ab off ang rtol atol zc maxint dq a b limit v kc Hm Ht La Ho HP HW H e L q He Hq H1 o A.
  destruct (C70_plain rquad isp j0 j1 j2 gx gw wn k used ab off ang rtol atol zc maxint dq a b limit Hm La Ho HP HW) as [kc' Q].
  rewrite H in Q. apply Ok_inj in Q.
  assert (Q1 : v = map (plain_value j0 j1 j2 gx gw ab k rtol atol zc maxint) (combine off ang)) by congruence.
  assert (Q2 : true = ((3 <=? maxint)%nat && forallb (plain_conv j0 j1 j2 gx gw ab k rtol atol zc maxint) (combine off ang))) by congruence.
  symmetry in Q2. apply andb_true_iff in Q2. destruct Q2 as [Q2 Q3]. apply Nat.leb_le in Q2. rewrite forallb_forall in Q3.
  assert (LC : (e < List.length (combine off ang))%nat) by (rewrite combine_length; lia).
  pose proof (Q3 _ (nth_In _ (0, 0)%R LC)) as ST. rewrite combine_nth in ST by congruence. unfold plain_conv in ST. cbn [fst snd] in ST.
  rewrite Q1. rewrite (nth_indep _ (RtoC 0) (plain_value j0 j1 j2 gx gw ab k rtol atol zc maxint (0, 0)%R)) by (rewrite map_length; exact LC).
  rewrite map_nth, combine_nth by congruence. unfold plain_value. cbn [fst snd]. apply value_error; assumption.
Qed.

(** What the sums tend to: with exact quadratures the sums over the intervals tend to the exact response
    without the piece before the first division point. *)
Theorem C88_sums : forall a b eH eV zH zV z N xd off phi zs zr, layered eH eV zH zV z N -> fs_pair a b -> zs <> zr ->
  exists V, hankel_value eH eV zH zV z N (10 * a + b) xd off phi zs zr V /\
  forall ab ms mr F, check_ab (AbNum (inject_Z (10 * a + b))) = Ok (ab, ms, mr) ->
    (forall lam, exists PJ, wcall eH eV zH zV z N lam ab xd ms mr (lay z N zs) (lay z N zr) zs zr = Ok PJ /\
       F lam = bessel_sum ab lam off (ang_exact (eval_angle phi ms mr) ab) PJ) ->
    forall x, (forall i, (0 <= x i)%R) -> is_lim_seq x p_infty -> forall eps : R, (0 < eps)%R -> exists M, forall n, (M <= n)%nat ->
    (Cmod (psum (fun i => CI F (x i) (x (S i))) n + CI F (x 0%nat) (x 1%nat) - (V - CI F 0 (x 0%nat)))%C < eps)%R.
Proof.
  intros a b eH eV zH zV z N xd off phi zs zr LY HP Hz. destruct (layered_converges a b eH eV zH zV z N xd off phi zs zr LY HP Hz) as [V HV]. exists V. split; [exact HV|].
  intros ab ms mr F CA HF x P LX. apply plain_sums; try assumption. destruct HV as (ab' & ms' & mr' & F' & A' & B' & I').
  rewrite CA in A'. assert (X : (ab, ms, mr) = (ab', ms', mr')) by congruence. injection X as <- <- <-.
  apply (improper_ext F F'); [|exact I']. intros t _. destruct (HF t) as [PJ [E1 E2]], (B' t) as [PJ' [E1' E2']].
  rewrite E1 in E1'. assert (PJ = PJ') by congruence. subst. now rewrite E2, E2'.
Qed.

(** ** Cases *)
(** The kernel exp(-lambda) with one node per interval: the intervals after the first contribute a geometric series of ratio exp(-pi). *)
Definition w_wn (l : R) : triple := (Some (RtoC (exp (- l))), None, None).
Definition w_c (m i : nat) : C := gauss [0%R] [2%R] (hankel_integrand h_j0 h_j1 33 (kpart t0 w_wn) (kpart t1 w_wn) (kpart t0b w_wn) 1 1)
  (qx h_j1 h_j0 m i / 1) (qx h_j1 h_j0 m (S i) / 1).
Definition w_mid (m i : nat) : R := ((qx h_j1 h_j0 m i + qx h_j1 h_j0 m (S i)) / 2)%R.
Definition w_b (m : nat) : R := ((qx h_j1 h_j0 m 1 - qx h_j1 h_j0 m 0) * exp (- w_mid m 0))%R.
Definition w_a : R := (PI * exp (- (3 / 4 * PI)))%R.
Definition w_q : R := exp (- PI).
Lemma w_val : forall m i, w_c m i = RtoC ((qx h_j1 h_j0 m (S i) - qx h_j1 h_j0 m i) * exp (- w_mid m i))%R.
Proof.
  intros m i. unfold w_c, w_mid. set (u := qx h_j1 h_j0 m i). set (v := qx h_j1 h_j0 m (S i)). clearbody u v.
  unfold gauss, hankel_integrand, kpart, w_wn, t0, t1, t0b, oval, h_j0, h_j1. cbn [List.length seq map nth csuml fold_right fst snd].
  replace (- ((v / 1 - u / 1) / 2 * (0 + 1) + u / 1))%R with (- ((u + v) / 2))%R by field. set (x := exp _).
  change (isJ2 33) with false. cbv iota. apply injective_projections; cbn; field.
Qed.
Lemma w_pi : (2 < PI <= 4)%R. Proof. pose proof PI2_1. pose proof PI_4. lra. Qed.
Lemma w_exp : forall x, (0 <= x)%R -> (0 < exp (- x) <= / (1 + x))%R.
Proof.
  intros x Hx. split; [apply exp_pos|]. rewrite exp_Ropp. apply Rinv_le_contravar; [lra|]. destruct (Req_dec x 0) as [->|N]; [rewrite exp_0; lra|]. left. apply exp_ineq1. exact N.
Qed.
Lemma w_q_b : (0 < w_q <= / 3)%R.
Proof. unfold w_q. pose proof w_pi. destruct (w_exp PI ltac:(lra)) as [A B]. split; [exact A|]. eapply Rle_trans; [exact B|]. apply Rinv_le_contravar; lra. Qed.
Lemma w_a_pos : (0 < w_a)%R. Proof. unfold w_a. apply Rmult_lt_0_compat; [apply PI_RGT_0|apply exp_pos]. Qed.
Lemma w_a_le : (w_a <= 2)%R.
Proof. unfold w_a. pose proof w_pi. destruct (w_exp (3 / 4 * PI) ltac:(lra)) as [A B]. assert (C : (/ (1 + 3 / 4 * PI) <= / (5 / 2))%R) by (apply Rinv_le_contravar; lra). rewrite Rinv_div in C. nra. Qed.
Lemma w_pow : forall n, cpw (RtoC w_q) n = RtoC (w_q ^ n).
Proof. induction n as [|n IH]; [reflexivity|]. cbn [cpw pow]. now rewrite IH, RtoC_mult. Qed.
Lemma w_tiny : (dbl_tiny <= / 10 ^ 9)%R.
Proof.
  unfold dbl_tiny. apply Rinv_le_contravar; [apply pow_lt; lra|]. apply Rle_trans with (2 ^ 30)%R; [lra|]. apply Rle_pow; [lra|]. apply Nat.leb_le. reflexivity.
Qed.
Lemma w_low : (/ 10 ^ 9 <= w_a * w_q ^ 3)%R.
Proof.
  assert (E : (w_a * w_q ^ 3 = PI * exp (- (15 / 4 * PI)))%R).
  { unfold w_a, w_q. cbn [pow]. rewrite Rmult_1_r, Rmult_assoc, <- !exp_plus. do 2 f_equal. field. }
  rewrite E. pose proof w_pi. apply Rle_trans with (exp (Ropp 15)); [|pose proof (exp_pos (- (15 / 4 * PI))); apply Rle_trans with (exp (- (15 / 4 * PI))); [|nra]; destruct (Req_dec (Ropp 15) (- (15 / 4 * PI))) as [<-|N]; [lra|left; apply exp_increasing; lra]].
  rewrite exp_Ropp. apply Rinv_le_contravar; [apply exp_pos|]. apply Rle_trans with (3 ^ 15)%R; [|lra].
  replace (exp 15) with (exp 1 ^ 15)%R; [apply pow_incr; split; [left; apply exp_pos|apply exp_le_3]|].
  cbn [pow]. rewrite Rmult_1_r, <- !exp_plus. f_equal. lra.
Qed.
Lemma w_b_bounds : forall m, (2 <= m)%nat -> (0 < w_b m <= 5)%R.
Proof.
  intros m Hm. unfold w_b. pose proof (h_incr m 0 ltac:(lia)) as I. pose proof (h_pos m 0 ltac:(lia)) as P0. pose proof (h_zeros m 0 ltac:(lia)) as Z. cbn [INR] in Z. pose proof w_pi.
  assert (M : (0 <= w_mid m 0)%R) by (unfold w_mid; lra). destruct (w_exp _ M) as [A B]. assert (X : (exp (- w_mid m 0) <= 1)%R) by (eapply Rle_trans; [exact B|]; rewrite <- Rinv_1; apply Rinv_le_contravar; lra).
  split; [apply Rmult_lt_0_compat; lra|]. rewrite Z in *. nra.
Qed.
Definition w_atol : R := (w_a * w_q * w_q / (1 - w_q))%R.
Lemma w_gsum : forall m, gsum (RtoC (w_b m)) (RtoC w_a) (RtoC w_q) = RtoC (w_b m + w_a * w_q / (1 - w_q)).
Proof. intros m. unfold gsum. pose proof w_q_b. rewrite RtoC_plus, RtoC_div, RtoC_mult, RtoC_minus by lra. reflexivity. Qed.
Lemma w_summable : forall m, (2 <= m)%nat -> summable 0 w_atol m (w_c m) (RtoC (w_b m)) (RtoC w_a) (RtoC w_q).
Proof.
  intros m Hm. pose proof w_q_b as Q. pose proof w_a_pos as A. pose proof w_a_le as A2. pose proof w_tiny as T. pose proof (w_b_bounds m Hm) as B.
  assert (QN : RtoC 1 - RtoC w_q = RtoC (1 - w_q)) by (now rewrite RtoC_minus).
  assert (AP : (0 < w_a * w_q / (1 - w_q) <= 2)%R).
  { split; [apply Rdiv_lt_0_compat; [now apply Rmult_lt_0_compat|lra]|]. apply (Rmult_le_reg_r (1 - w_q)); [lra|]. unfold Rdiv. rewrite Rmult_assoc, Rinv_l by lra. nra. }
  constructor.
  - apply w_val.
  - intros i Hi. rewrite w_val, w_pow, <- RtoC_mult. f_equal. destruct i as [|i]; [lia|]. unfold w_mid. rewrite !h_zeros by lia. rewrite S_INR.
    assert (PW : forall n, (w_q ^ n = exp (- (INR n * PI)))%R). { induction n as [|n IH]; [cbn [pow INR]; rewrite Rmult_0_l, Ropp_0, exp_0; reflexivity|]. cbn [pow]. rewrite IH, S_INR. unfold w_q. rewrite <- exp_plus. f_equal. ring. }
    rewrite PW, S_INR. unfold w_a. rewrite Rmult_assoc, <- exp_plus. f_equal; [ring|]. f_equal. field.
  - repeat split; intros W; apply RtoC_inj in W; lra.
  - pose proof w_low as LO. split; intros i Hi; rewrite w_pow, <- RtoC_mult.
    + rewrite Cmod_R, Rabs_right by (apply Rle_ge, Rmult_le_pos; [lra|apply pow_le; lra]). apply Rle_trans with (1 := T). apply Rle_trans with (1 := LO). apply Rmult_le_compat_l; [lra|].
      assert (i = 1 \/ i = 2 \/ i = 3)%nat as [->|[->| ->]] by lia; cbn [pow]; nra.
    + assert (P : (0 < w_a * w_q ^ i <= 1)%R).
      { split; [apply Rmult_lt_0_compat; [exact A|apply pow_lt; lra]|]. assert (i = 2 \/ i = 3)%nat as [->| ->] by lia; cbn [pow]; [assert (w_q * (w_q * 1) <= / 9)%R by nra|assert (w_q * (w_q * (w_q * 1)) <= / 9)%R by (assert (w_q * w_q <= / 9)%R by nra; nra)]; nra. }
      rewrite QN, <- RtoC_div by lra. assert (D : (1 - w_q <= (1 - w_q) / (w_a * w_q ^ i))%R).
      { apply (Rmult_le_reg_r (w_a * w_q ^ i)); [lra|]. unfold Rdiv. rewrite Rmult_assoc, Rinv_l by lra. nra. }
      rewrite Cmod_R, Rabs_right by lra. lra.
  - rewrite w_gsum. split; [intros W; apply RtoC_inj in W; lra|]. cbn [fst RtoC]. pose proof dbl_max_large as DM. assert (2 ^ 10 <= 2 ^ 60)%R by (apply Rle_pow; [lra|lia]). lra.
  - rewrite Rmult_0_l, Rplus_0_l. unfold w_atol. apply Rdiv_lt_0_compat; [|lra]. apply Rmult_lt_0_compat; [now apply Rmult_lt_0_compat|apply Q].
  - rewrite Rmult_0_l, Rplus_0_l. unfold w_atol. rewrite QN, <- !RtoC_mult, <- RtoC_div by lra. rewrite Cmod_R. apply Rle_abs.
Qed.
Example C88_geometric_case : exists kc, qwe 0 w_atol 7 (fun _ => false) (fun _ => w_c 7) 1 = Ok ([RtoC (w_b 7 + w_a * w_q / (1 - w_q))], kc, true).
Proof.
  destruct (C88_geometric 0 w_atol (fun _ => false) 7 (fun _ => w_c 7) 1 (fun _ => RtoC (w_b 7)) (fun _ => RtoC w_a) (fun _ => RtoC w_q) ltac:(lia) (fun _ _ => w_summable 7 ltac:(lia))) as [kc H].
  exists kc. rewrite H. cbn [seq map]. now rewrite w_gsum.
Qed.
Example C88_error_case : exists out kc, qwe 0 w_atol 7 (fun _ => false) (fun _ => w_c 7) 1 = Ok (out, kc, true) /\
  (Cmod (nth 0 out (RtoC 0) - gsum (RtoC (w_b 7)) (RtoC w_a) (RtoC w_q))%C <= w_atol)%R.
Proof.
  destruct C88_geometric_case as [kc H]. do 2 eexists. split; [exact H|].
  pose proof (C88_error 0 w_atol 7 _ _ 1 _ _ ltac:(lia) ltac:(lra) H 0%nat _ 0 ltac:(lia) ltac:(lra) ltac:(lra) (summable_approaches 0 w_atol 7 (w_c 7) _ _ _ ltac:(lia) (w_summable 7 ltac:(lia)))) as X.
  cbv beta in X. eapply Rle_trans; [exact X|]. right. field.
Qed.
Example C88_hankel_case : exists v kc, hankel_qwe h_rq h_isp h_j0 h_j1 h_j0 [0%R] [2%R] (fun l => Ok (w_wn l)) (true, false, false) 33 [1%R] [1%R] 0 w_atol (fun _ => false) 7 0 100 None None None = Ok (v, kc, true) /\
  (Cmod (nth 0 v (RtoC 0) - gsum (RtoC (w_b 7)) (RtoC w_a) (RtoC w_q))%C <= w_atol)%R.
Proof.
  assert (PR : present (true, false, false) w_wn) by (intros l; repeat split; reflexivity || discriminate).
  assert (NZ : forall r, In r [1%R] -> r <> 0%R) by (intros r [<-|[]]; lra).
  destruct (C70_plain h_rq h_isp h_j0 h_j1 h_j0 [0%R] [2%R] (fun l => Ok (w_wn l)) w_wn (true, false, false) 33 [1%R] [1%R] 0 w_atol (fun _ => false) 7 100 None None None ltac:(lia) eq_refl NZ PR ltac:(reflexivity)) as [kc H].
  assert (FL : ((3 <=? 7)%nat && forallb (plain_conv h_j0 h_j1 h_j0 [0%R] [2%R] 33 w_wn 0 w_atol (fun _ => false) 7) (combine [1%R] [1%R])) = true).
  { cbn [combine forallb Nat.leb andb]. rewrite andb_true_r. exact (proj2 (summable_value 0 w_atol (fun _ => false) 7 (w_c 7) _ _ _ ltac:(lia) (w_summable 7 ltac:(lia)))). }
  rewrite FL in H. do 2 eexists. split; [exact H|].
  pose proof (C88_hankel h_rq h_isp h_j0 h_j1 h_j0 [0%R] [2%R] (fun l => Ok (w_wn l)) w_wn (true, false, false) 33 [1%R] [1%R] 0 w_atol (fun _ => false) 7 100 None None None _ _ ltac:(lia) ltac:(lra) eq_refl NZ PR ltac:(reflexivity) H 0%nat
    _ 0 ltac:(cbn; lia) ltac:(lra) ltac:(lra) (summable_approaches 0 w_atol 7 (w_c 7) _ _ _ ltac:(lia) (w_summable 7 ltac:(lia)))) as X.
  eapply Rle_trans; [exact X|]. right. field.
Qed.
Example C88_sums_case : exists F V, hankel_value x_eH x_eV x_zH x_zV x_z 2 11 false 500 1 (-5) 130 V /\
  forall eps : R, (0 < eps)%R -> exists M, forall n, (M <= n)%nat ->
  (Cmod (psum (fun i => CI F (INR i / 100) (INR (S i) / 100)) n + CI F (INR 0 / 100) (INR 1 / 100) - (V - CI F 0 (INR 0 / 100)))%C < eps)%R.
Proof.
  destruct (C88_sums 1 1 x_eH x_eV x_zH x_zV x_z 2 false 500 1 (-5) 130 x_layered ltac:(split; lia) ltac:(lra)) as (V & HV & H).
  pose proof HV as (ab & ms & mr & F & CA & HF & _). exists F, V. split; [exact HV|].
  apply (H ab ms mr F CA HF (fun i => INR i / 100)%R).
  - intros i. apply Rmult_le_pos; [apply pos_INR|lra].
  - apply (is_lim_seq_ext (fun n => INR n * / 100)%R); [reflexivity|]. intros P [M HM]. destruct (is_lim_seq_INR (fun t => (100 * M < t)%R)) as [N HN]; [exists (100 * M)%R; auto|]. exists N. intros n Hn. apply HM. specialize (HN n Hn). lra.
Qed.

Print Assumptions C88_error.
Print Assumptions C88_geometric.
Print Assumptions C88_hankel.
Print Assumptions C88_sums.
