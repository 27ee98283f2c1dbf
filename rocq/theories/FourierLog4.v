(** [fourier_fftlog]: single harmonics, norm and the two exceptions (C68). *)

From Coq Require Import ZArith Reals List Bool String Lia Lra Psatz.
From Coquelicot Require Import Coquelicot.
From Verif Require Import PyBase CBase Kernel Utils UtilsLayer Transform TransformDlf TransformLag UtilsArgs Fullspace Model ModelFem ModelTem
  Fourier FourierSum FourierFft FourierLog FourierLog2 FourierLog3.
Import ListNotations.
Local Open Scope R_scope.
Local Open Scope C_scope.
Local Open Scope res_scope.

(** ** One harmonic *)
Lemma dft_harm : forall n m A phi j, (0 < m)%nat -> (2 * m < n)%nat -> (j < n)%nat ->
  dft n (fun k => A * cos (2 * PI * INR (m * k) / INR n + phi))%R j =
  RtoC (A / 2) * (cis phi * (if (m =? j)%nat then RtoC (INR n) else RtoC 0) + cis (- phi) * (if (n - m =? j)%nat then RtoC (INR n) else RtoC 0)).
Proof.
  intros n m A phi j Hm Hmn Hj. rewrite <- (orth n m j) by lia. rewrite <- (orth n (n - m) j) by lia.
  rewrite <- !sC_scal, <- sC_plus, <- sC_scal. unfold dft. apply sC_ext. intros k _.
  rewrite cis_back by lia. set (e := cis (- (2 * PI * INR (j * k) / INR n))). rewrite <- cis_neg.
  replace (cis phi * (cis (2 * PI * INR (m * k) / INR n) * e) + cis (- phi) * (cis (- (2 * PI * INR (m * k) / INR n)) * e))
    with ((cis (2 * PI * INR (m * k) / INR n + phi) + cis (- (2 * PI * INR (m * k) / INR n + phi))) * e).
  - set (x := (2 * PI * INR (m * k) / INR n + phi)%R). rewrite cis_neg. destruct e as [e1 e2]. unfold cis, Cconj, Cplus, Cmult, RtoC.
    cbn [fst snd]. f_equal; unfold Rdiv; match goal with |- ?a = ?b => change (@eq R a b) end; field.
  - rewrite Ropp_plus_distr, !cis_plus. ring.
Qed.

Theorem filter_harm : forall n u m A phi k, (0 < m)%nat -> (2 * m < n)%nat ->
  log_filter n u (fun k => A * cos (2 * PI * INR (m * k) / INR n + phi))%R k = (A * fst (u m * cis (2 * PI * INR (m * k) / INR n + phi))%C)%R.
Proof.
  intros n u m A phi k Hm Hmn. assert (P : (0 < INR n)%R) by (apply lt_0_INR; lia).
  assert (NZ : RtoC (INR n) <> RtoC 0) by (intros W; apply (f_equal fst) in W; cbn in W; lra).
  pose proof (Nat.div_mod n 2 ltac:(lia)) as D. pose proof (Nat.mod_upper_bound n 2 ltac:(lia)) as B.
  unfold log_filter, idft. set (E := fun j => cis (2 * PI * INR (j * k) / INR n)).
  rewrite (sC_ext _ (fun j => (if (m =? j)%nat then both_sides n u j * RtoC (A / 2) * cis phi * RtoC (INR n) * E j else RtoC 0) +
      (if (n - m =? j)%nat then both_sides n u j * RtoC (A / 2) * cis (- phi) * RtoC (INR n) * E j else RtoC 0)) n).
  - rewrite sC_plus. rewrite (sC_one _ n m), (sC_one _ n (n - m)); try lia.
    + rewrite !Nat.eqb_refl. rewrite (both_neg n u m) by lia. unfold both_sides. destruct (Nat.leb_spec m (n / 2)); [|lia].
      unfold E. rewrite cis_back by lia. rewrite (Rplus_comm _ phi), cis_plus. rewrite cis_neg.
      set (e := cis (2 * PI * INR (m * k) / INR n)). set (c := cis phi). set (v := u m).
      replace ((v * RtoC (A / 2) * c * RtoC (INR n) * e + Cconj v * RtoC (A / 2) * Cconj c * RtoC (INR n) * Cconj e) / RtoC (INR n))
        with (RtoC (A / 2) * (v * c * e + Cconj v * Cconj c * Cconj e)) by (field; exact NZ).
      destruct e as [e1 e2], c as [c1 c2], v as [v1 v2]. unfold Cconj, Cplus, Cmult, RtoC. cbn [fst snd].
      match goal with |- ?a = ?b => change (@eq R a b) end. field.
    + intros j Hj NE. destruct (Nat.eqb_spec (n - m) j); [lia|reflexivity].
    + intros j Hj NE. destruct (Nat.eqb_spec m j); [lia|reflexivity].
  - intros j Hj. rewrite dft_harm by assumption. fold (E j). destruct (m =? j)%nat, (n - m =? j)%nat; ring.
Qed.

(** ** The result is real *)
Lemma idft_real : forall n Y k, (1 <= n)%nat -> snd (Y 0%nat) = 0%R -> (forall j, (1 <= j < n)%nat -> Y (n - j)%nat = Cconj (Y j)) ->
  snd (idft n Y k) = 0%R.
Proof.
  intros n Y k Hn H0 HY. assert (P : (0 < INR n)%R) by (apply lt_0_INR; lia).
  set (s := sC (fun j => Y j * cis (2 * PI * INR (j * k) / INR n)) n).
  assert (E : Cconj s = s).
  { unfold s. rewrite conj_sC. destruct n as [|n]; [lia|]. rewrite !sC_head. f_equal.
    - assert (Z0 : (2 * PI * INR (0 * k) / INR (S n))%R = 0%R) by (rewrite Nat.mul_0_l; change (INR 0) with 0%R; field; lra).
      cbv beta. rewrite Z0, cis_0. destruct (Y 0%nat) as [y1 y2]. cbn [snd] in H0. subst y2.
      unfold Cconj, Cmult, RtoC. cbn [fst snd]. f_equal; rgR.
    - set (g := fun j => Y (S j) * cis (2 * PI * INR (S j * k) / INR (S n))).
      rewrite (sC_ext _ (fun j => g (n - 1 - j)%nat) n); [apply sC_rev|].
      intros j Hj. unfold g. replace (S (n - 1 - j)) with (S n - S j)%nat by lia. rewrite HY, cis_back by lia.
      destruct (Y (S j)) as [y1 y2], (cis (2 * PI * INR (S j * k) / INR (S n))) as [c1 c2]. unfold Cconj, Cmult. cbn [fst snd]. f_equal; rgR. }
  unfold idft. fold s. unfold Cdiv. rewrite <- RtoC_inv by lra. apply (f_equal snd) in E. destruct s as [s1 s2]. unfold Cconj in E. cbn [snd] in E.
  unfold Cmult, RtoC. cbn [fst snd]. assert (s2 = 0%R) by lra. subst s2. rgR.
Qed.

Lemma idft_dft : forall n a k, (k < n)%nat -> idft n (dft n a) k = RtoC (a k).
Proof.
  intros n a k Hk. assert (P : (0 < INR n)%R) by (apply lt_0_INR; lia).
  assert (NZ : RtoC (INR n) <> RtoC 0) by (intros W; apply (f_equal fst) in W; cbn in W; lra).
  unfold idft.
  rewrite (sC_ext _ (fun j => sC (fun i => RtoC (a i) * (cis (2 * PI * INR (k * j) / INR n) * cis (- (2 * PI * INR (i * j) / INR n)))) n) n).
  - rewrite sC_swap. rewrite (sC_ext _ (fun i => RtoC (a i) * (if (k =? i)%nat then RtoC (INR n) else RtoC 0)) n).
    + rewrite (sC_one _ n k Hk).
      * rewrite Nat.eqb_refl. field. exact NZ.
      * intros i Hi D. destruct (Nat.eqb_spec k i); [lia|]. ring.
    + intros i Hi. rewrite sC_scal. now rewrite orth by lia.
  - intros j _. unfold dft. rewrite Cmult_comm, <- sC_scal. apply sC_ext. intros i _. rewrite (Nat.mul_comm k j), (Nat.mul_comm i j). ring.
Qed.

Lemma dft0_real : forall n a, snd (dft n a 0) = 0%R.
Proof.
  intros n a. rewrite dft_parts. cbn [snd]. apply sR_zero. intros k _. cbn [Nat.mul INR]. unfold Rdiv. rewrite Rmult_0_r, Rmult_0_l, sin_0. ring.
Qed.

(** ** A filter with factors of modulus one keeps the norm *)
Theorem filter_norm : forall n u a, (1 <= n)%nat -> snd (u 0%nat) = 0%R -> (forall j, (2 * j)%nat = n -> snd (u j) = 0%R) ->
  (forall j, (j <= n / 2)%nat -> sqC (u j) = 1%R) ->
  sR (fun k => log_filter n u a k * log_filter n u a k)%R n = sR (fun k => a k * a k)%R n.
Proof.
  intros n u a Hn U0 UN U1. pose proof (Nat.div_mod n 2 ltac:(lia)) as D. pose proof (Nat.mod_upper_bound n 2 ltac:(lia)) as B.
  set (Y := fun j => both_sides n u j * dft n a j).
  assert (HY : forall j, (1 <= j < n)%nat -> Y (n - j)%nat = Cconj (Y j)).
  { intros j Hj. unfold Y. rewrite both_neg, dft_back by (auto; lia). destruct (both_sides n u j) as [p q], (dft n a j) as [r s].
    unfold Cconj, Cmult. cbn [fst snd]. f_equal; rgR. }
  assert (Y0 : snd (Y 0%nat) = 0%R).
  { unfold Y, both_sides. cbn [Nat.leb]. pose proof (dft0_real n a) as E. destruct (u 0%nat) as [p q], (dft n a 0) as [r s]. cbn [snd] in *. subst.
    unfold Cmult. cbn [fst snd]. rgR. }
  transitivity (sR (fun k => sqC (idft n Y k)) n).
  { apply sR_ext. intros k _. unfold log_filter. fold Y. unfold sqC. rewrite (idft_real n Y k Hn Y0 HY). rgR. }
  rewrite parseval by exact Hn.
  transitivity (sR (fun j => sqC (dft n a j)) n / INR n)%R.
  { f_equal. apply sR_ext. intros j Hj. unfold Y. rewrite sqC_mult. replace (sqC (both_sides n u j)) with 1%R; [rgR|].
    unfold both_sides. destruct (Nat.leb_spec j (n / 2)); [|rewrite sqC_Cconj]; symmetry; apply U1; lia. }
  rewrite <- parseval by exact Hn. apply sR_ext. intros k Hk. rewrite idft_dft by exact Hk. unfold sqC, RtoC. cbn [fst snd]. rgR.
Qed.

(** ** The factors *)
Section Fact.
Variables lgr lgi : R -> R -> R.

Lemma Reqb_iff : forall a b, Reqb a b = true <-> a = b.
Proof. intros a b. unfold Reqb. destruct (Req_EM_T a b); split; congruence. Qed.

Lemma factor_unit : forall mu kr y, sqC (fl_factor lgr lgi 0 mu kr y) = 1%R.
Proof.
  intros mu kr y. unfold fl_factor. replace (mu + 1 - 0)%R with (mu + 1 + 0)%R by ring.
  replace (ln 2 * 0 + lgr ((mu + 1 + 0) / 2) y - lgr ((mu + 1 + 0) / 2) y)%R with 0%R by ring. rewrite exp_0.
  unfold sqC, cis, Cmult, RtoC. cbn [fst snd]. pose proof (sin2_cos2 (2 * ln (2 / kr) * y + lgi ((mu + 1 + 0) / 2) y + lgi ((mu + 1 + 0) / 2) y)) as S.
  unfold Rsqr in S. lra.
Qed.

(** below the highest harmonic the factors are the prescribed ones, and with
    q = 0 and an even number of points all of them are *)
Theorem code_right : forall q mu kr dlnr n j, (j < n / 2)%nat -> fl_code lgr lgi q mu kr dlnr n j = fl_right lgr lgi q mu kr dlnr n j.
Proof. intros q mu kr dlnr n j H. unfold fl_code. destruct (Nat.ltb_spec j (n / 2)); [reflexivity|lia]. Qed.
Theorem code_right_even : forall mu kr dlnr n j, Nat.even n = true -> (j <= n / 2)%nat ->
  fl_code lgr lgi 0 mu kr dlnr n j = fl_right lgr lgi 0 mu kr dlnr n j.
Proof.
  intros mu kr dlnr n j EV H. pose proof EV as EV'. apply Nat.even_spec in EV'. destruct EV' as [m Em].
  assert (EH : (n / 2)%nat = m) by (rewrite Em, Nat.mul_comm, Nat.div_mul; lia).
  destruct (Nat.eq_dec j (n / 2)) as [E|E]; [|apply code_right; lia].
  unfold fl_code. destruct (Nat.ltb_spec j (n / 2)); [lia|]. destruct (Nat.eqb_spec j 0) as [|J0]; [reflexivity|]. cbn [orb]. rewrite EV.
  unfold fl_right, fl_last. rewrite (proj2 (Reqb_iff 0 0) eq_refl). destruct (Nat.eqb_spec j 0); [contradiction|].
  destruct (Nat.eqb_spec (2 * j) n); [|lia]. rewrite E. reflexivity.
Qed.

(** with the kr of [get_fftlog_input] the factor of the highest harmonic is +1 or -1 *)
Theorem kr_low_ringing : forall rmin rmax N q mu inp n, get_fftlog_input lgi rmin rmax N q mu = Ok inp -> (1 <= n)%nat ->
  exists z : Z, (2 * ln (2 / l_kr inp) * (PI * INR n / (INR (2 * n) * l_dlnr inp)) + lgi ((mu + 1 + q) / 2) (PI * INR n / (INR (2 * n) * l_dlnr inp)) +
     lgi ((mu + 1 - q) / 2) (PI * INR n / (INR (2 * n) * l_dlnr inp)))%R = (IZR z * PI)%R.
Proof.
  intros rmin rmax N q mu inp n H Hn. unfold get_fftlog_input in H. destruct (N =? 0)%Z; [discriminate|].
  set (dlnr := ((rmax - rmin) / IZR N * ln 10)%R) in *. destruct (Reqb dlnr 0) eqn:ED; [discriminate|].
  assert (ND : dlnr <> 0%R) by (intros W; apply Reqb_iff in W; congruence).
  apply (f_equal (fun r => match r with Ok v => (l_kr v, l_dlnr v) | Err _ => (0, 0)%R end)) in H. cbn [l_kr l_dlnr] in H.
  assert (E2 : l_dlnr inp = dlnr) by congruence.
  set (y := (PI / (2 * dlnr))%R) in *. set (arg := (ln 2 / dlnr + (lgi ((mu + 1 + q) / 2) y + lgi ((mu + 1 - q) / 2) y) / PI)%R) in *.
  assert (E1 : l_kr inp = exp ((arg - IZR (rint arg)) * dlnr)) by congruence.
  assert (P : (0 < INR n)%R) by (apply lt_0_INR; lia). pose proof PI_RGT_0 as PP.
  assert (EY : (PI * INR n / (INR (2 * n) * l_dlnr inp))%R = y).
  { rewrite E2, mult_INR. change (INR 2) with 2%R. unfold y. field. split; lra. }
  rewrite EY, E1. exists (rint arg). rewrite ln_div by (try apply exp_pos; lra). rewrite ln_exp.
  assert (EA : (lgi ((mu + 1 + q) / 2) y + lgi ((mu + 1 - q) / 2) y)%R = ((arg - ln 2 / dlnr) * PI)%R) by (unfold arg; field; split; lra).
  rewrite Rplus_assoc, EA. unfold y. generalize (IZR (rint arg)) as z. generalize arg as r. intros r z. field. exact ND.
Qed.

(** the unbiased transform with an even number of points keeps the norm *)
Theorem unbiased_norm : forall rmin rmax N mu inp n a, get_fftlog_input lgi rmin rmax N 0 mu = Ok inp ->
  (1 <= n)%nat -> Nat.even n = true ->
  sR (fun k => log_filter n (fl_code lgr lgi 0 mu (l_kr inp) (l_dlnr inp) n) a k * log_filter n (fl_code lgr lgi 0 mu (l_kr inp) (l_dlnr inp) n) a k)%R n =
  sR (fun k => a k * a k)%R n.
Proof.
  intros rmin rmax N mu inp n a H Hn EV. pose proof EV as EV'. apply Nat.even_spec in EV'. destruct EV' as [m Em].
  assert (EH : (n / 2)%nat = m) by (rewrite Em, Nat.mul_comm, Nat.div_mul; lia).
  set (u := fl_code lgr lgi 0 mu (l_kr inp) (l_dlnr inp) n).
  assert (UE : forall j, (j <= n / 2)%nat -> u j = fl_right lgr lgi 0 mu (l_kr inp) (l_dlnr inp) n j) by (intros; now apply code_right_even).
  apply filter_norm; [exact Hn| | |].
  - rewrite UE by lia. unfold fl_right. cbn [Nat.eqb]. rewrite (proj2 (Reqb_iff 0 0) eq_refl). reflexivity.
  - intros j Hj. rewrite UE by lia. unfold fl_right. destruct (Nat.eqb_spec j 0); [lia|]. destruct (Nat.eqb_spec (2 * j) n); [reflexivity|lia].
  - intros j Hj. rewrite UE by lia. unfold fl_right. destruct (Nat.eqb_spec j 0).
    + rewrite (proj2 (Reqb_iff 0 0) eq_refl). unfold sqC, RtoC. cbn [fst snd]. ring.
    + destruct (Nat.eqb_spec (2 * j) n) as [E|E]; [|apply factor_unit].
      destruct (kr_low_ringing rmin rmax N 0 mu inp j H ltac:(lia)) as [z Hz]. rewrite E in Hz. unfold fl_factor. rewrite Hz.
      replace (mu + 1 - 0)%R with (mu + 1 + 0)%R by ring.
      set (y := (PI * INR j / (INR n * l_dlnr inp))%R).
      replace (ln 2 * 0 + lgr ((mu + 1 + 0) / 2) y - lgr ((mu + 1 + 0) / 2) y)%R with 0%R by ring. rewrite exp_0.
      unfold sqC, cis, Cmult, RtoC. cbn [fst snd].
      pose proof (sin2_cos2 (IZR z * PI)) as S. rewrite (sin_eq_0_1 (IZR z * PI)) in * by (exists z; reflexivity). unfold Rsqr in S. lra.
Qed.

(** ** The exceptions *)
(** odd number of points: the highest harmonic is not rotated *)
Theorem odd_plain : forall q mu kr dlnr h A phi k, (1 <= h)%nat ->
  log_filter (2 * h + 1) (fl_code lgr lgi q mu kr dlnr (2 * h + 1)) (fun k => A * cos (2 * PI * INR (h * k) / INR (2 * h + 1) + phi))%R k =
  (A * cos (2 * PI * INR (h * k) / INR (2 * h + 1) + phi))%R.
Proof.
  intros q mu kr dlnr h A phi k Hh. rewrite filter_harm by lia. f_equal.
  assert (EH : ((2 * h + 1) / 2)%nat = h) by (replace (2 * h + 1)%nat with (h * 2 + 1)%nat by lia; rewrite Nat.div_add_l by lia; cbn; lia).
  assert (EV : Nat.even (2 * h + 1) = false) by (rewrite <- Nat.negb_odd, odd_2m1; reflexivity).
  unfold fl_code. rewrite EH, Nat.ltb_irrefl, EV. destruct (Nat.eqb_spec h 0); [lia|]. cbn [orb].
  unfold cis, Cmult, RtoC. cbn [fst snd]. rgR.
Qed.
Theorem odd_right : forall q mu kr dlnr h A phi k, (1 <= h)%nat ->
  log_filter (2 * h + 1) (fl_right lgr lgi q mu kr dlnr (2 * h + 1)) (fun k => A * cos (2 * PI * INR (h * k) / INR (2 * h + 1) + phi))%R k =
  (A * fst (fl_factor lgr lgi q mu kr (PI * INR h / (INR (2 * h + 1) * dlnr)) * cis (2 * PI * INR (h * k) / INR (2 * h + 1) + phi))%C)%R.
Proof.
  intros q mu kr dlnr h A phi k Hh. rewrite filter_harm by lia. do 2 f_equal.
  unfold fl_right. destruct (Nat.eqb_spec h 0); [lia|]. destruct (Nat.eqb_spec (2 * h) (2 * h + 1)); [lia|]. reflexivity.
Qed.

(** every phase occurs, whatever the log-gamma function *)
Lemma kr_phase : forall q mu y x, y <> 0%R -> exists kr, (0 < kr)%R /\
  (2 * ln (2 / kr) * y + lgi ((mu + 1 + q) / 2) y + lgi ((mu + 1 - q) / 2) y)%R = x.
Proof.
  intros q mu y x Hy. set (g := (lgi ((mu + 1 + q) / 2) y + lgi ((mu + 1 - q) / 2) y)%R).
  exists (2 / exp ((x - g) / (2 * y)))%R. pose proof (exp_pos ((x - g) / (2 * y))) as P. split; [apply Rdiv_lt_0_compat; lra|].
  replace (2 / (2 / exp ((x - g) / (2 * y))))%R with (exp ((x - g) / (2 * y))) by (field; lra). rewrite ln_exp.
  rewrite Rplus_assoc. fold g. generalize g as w. intros w. field. exact Hy.
Qed.

Theorem odd_differs : forall mu dlnr, dlnr <> 0%R -> exists kr a, (0 < kr)%R /\
  log_filter 3 (fl_code lgr lgi 0 mu kr dlnr 3) a 0 <> log_filter 3 (fl_right lgr lgi 0 mu kr dlnr 3) a 0.
Proof.
  intros mu dlnr ND. set (y := (PI * INR 1 / (INR (2 * 1 + 1) * dlnr))%R).
  assert (Hy : y <> 0%R).
  { unfold y. cbn [Nat.mul Nat.add INR]. pose proof PI_RGT_0. unfold Rdiv. apply Rmult_integral_contrapositive_currified; [lra|].
    apply Rinv_neq_0_compat. apply Rmult_integral_contrapositive_currified; lra. }
  destruct (kr_phase 0 mu y PI Hy) as (kr & Pk & Ek). exists kr, (fun k => 1 * cos (2 * PI * INR (1 * k) / INR (2 * 1 + 1) + 0))%R. split; [exact Pk|].
  change 3%nat with (2 * 1 + 1)%nat at 1 2 3 4. rewrite odd_plain, odd_right by lia. fold y. unfold fl_factor. rewrite Ek.
  replace (mu + 1 - 0)%R with (mu + 1 + 0)%R by ring.
  replace (ln 2 * 0 + lgr ((mu + 1 + 0) / 2) y - lgr ((mu + 1 + 0) / 2) y)%R with 0%R by ring. rewrite exp_0.
  cbn [Nat.mul INR]. unfold Rdiv. rewrite Rmult_0_r, Rmult_0_l, Rplus_0_l. unfold cis, Cmult, RtoC. cbn [fst snd].
  rewrite cos_PI, sin_PI, cos_0, sin_0. lra.
Qed.

(** biased transform, even number of points: at the highest harmonic the factor of another one is used *)
Theorem biased_code : forall q mu kr dlnr m, q <> 0%R -> (4 <= m)%nat ->
  fl_code lgr lgi q mu kr dlnr (2 * m) m = RtoC (fst (fl_factor lgr lgi q mu kr (PI * INR (m - 3) / (INR (2 * m) * dlnr)))) /\
  fl_right lgr lgi q mu kr dlnr (2 * m) m = RtoC (fst (fl_factor lgr lgi q mu kr (PI * INR m / (INR (2 * m) * dlnr)))).
Proof.
  intros q mu kr dlnr m NQ Hm. assert (EH : (2 * m / 2)%nat = m) by (rewrite Nat.mul_comm, Nat.div_mul; lia).
  assert (EV : Nat.even (2 * m) = true) by (apply Nat.even_spec; now exists m).
  assert (EQ : Reqb q 0 = false). { destruct (Reqb q 0) eqn:E; [|reflexivity]. apply Reqb_iff in E. contradiction. }
  split.
  - unfold fl_code. rewrite EH, Nat.ltb_irrefl, EV. destruct (Nat.eqb_spec m 0); [lia|]. cbn [orb]. unfold fl_last. rewrite EQ, EH.
    destruct (Nat.leb_spec 8 (2 * m)); [reflexivity|lia].
  - unfold fl_right. destruct (Nat.eqb_spec m 0); [lia|]. now rewrite Nat.eqb_refl.
Qed.

Theorem biased_differs : forall q mu dlnr, q <> 0%R -> dlnr <> 0%R -> exists kr, (0 < kr)%R /\
  fl_code lgr lgi q mu kr dlnr 8 4 <> fl_right lgr lgi q mu kr dlnr 8 4.
Proof.
  intros q mu dlnr NQ ND. set (y := fun m => (PI * INR m / (INR (2 * 4) * dlnr))%R). pose proof PI_RGT_0 as PP.
  assert (Hy : forall m, (1 <= m)%nat -> y m <> 0%R).
  { intros m Hm. unfold y. assert (0 < INR m)%R by (apply lt_0_INR; lia). cbn [Nat.mul Nat.add INR]. unfold Rdiv.
    apply Rmult_integral_contrapositive_currified; [apply Rmult_integral_contrapositive_currified; lra|].
    apply Rinv_neq_0_compat. apply Rmult_integral_contrapositive_currified; lra. }
  assert (Y4 : y 4%nat = (4 * y 1%nat)%R).
  { unfold y. change (INR 4) with (1 + 1 + 1 + 1)%R. change (INR 1) with 1%R. cbn [Nat.mul Nat.add INR]. field. exact ND. }
  destruct (kr_phase q mu (y 4%nat) 0 (Hy 4%nat ltac:(lia))) as (k0 & P0 & E0).
  destruct (kr_phase q mu (y 4%nat) (4 * PI) (Hy 4%nat ltac:(lia))) as (k1 & P1 & E1).
  set (G := fun m => (lgi ((mu + 1 + q) / 2) (y m) + lgi ((mu + 1 - q) / 2) (y m))%R).
  assert (F0 : (2 * ln (2 / k0) * y 1%nat)%R = ((0 - G 4%nat) / 4)%R) by (unfold G; rewrite Y4 in *; lra).
  assert (F1 : (2 * ln (2 / k1) * y 1%nat)%R = ((0 - G 4%nat) / 4 + PI)%R) by (unfold G; rewrite Y4 in *; lra).
  assert (CP : cos (4 * PI) = 1%R). { replace (4 * PI)%R with (0 + 2 * INR 2 * PI)%R by (cbn [INR]; ring). now rewrite cos_period, cos_0. }
  set (x := ((0 - G 4%nat) / 4 + G 1%nat)%R).
  assert (VF : forall kr m, fst (fl_factor lgr lgi q mu kr (y m)) =
     (exp (ln 2 * q + lgr ((mu + 1 + q) / 2) (y m) - lgr ((mu + 1 - q) / 2) (y m)) * cos (2 * ln (2 / kr) * y m + G m))%R).
  { intros kr m. unfold fl_factor, G. cbv beta. rewrite (Rplus_assoc (2 * ln (2 / kr) * y m)). unfold cis, Cmult, RtoC. cbn [fst snd]. rgR. }
  assert (V : forall kr X X4, (2 * ln (2 / kr) * y 1%nat + G 1%nat)%R = X -> (2 * ln (2 / kr) * y 4%nat + G 4%nat)%R = X4 -> cos X4 = 1%R -> (cos X <= 0)%R ->
     fl_code lgr lgi q mu kr dlnr 8 4 <> fl_right lgr lgi q mu kr dlnr 8 4).
  { intros kr X X4 HX HX4 C4 CX W. destruct (biased_code q mu kr dlnr 4 NQ ltac:(lia)) as [B1 B2]. change (2 * 4)%nat with 8%nat in B1, B2.
    rewrite B1, B2 in W. apply (f_equal fst) in W. cbn [fst RtoC] in W. change (4 - 3)%nat with 1%nat in W.
    change (PI * INR 1 / (INR 8 * dlnr))%R with (y 1%nat) in W. change (PI * INR 4 / (INR 8 * dlnr))%R with (y 4%nat) in W.
    rewrite !VF, HX, HX4, C4 in W.
    match type of W with (exp ?p * _ = exp ?q * _)%R => pose proof (exp_pos p); pose proof (exp_pos q) end. nra. }
  destruct (Rle_dec (cos x) 0) as [L|L].
  - exists k0. split; [exact P0|]. apply (V k0 x 0%R); [rewrite F0; reflexivity| |apply cos_0|exact L]. rewrite <- E0. unfold G. ring.
  - exists k1. split; [exact P1|]. apply (V k1 (x + PI)%R (4 * PI)%R); [rewrite F1; unfold x; ring| |exact CP|]. { rewrite <- E1. unfold G. ring. }
    rewrite neg_cos. lra.
Qed.

(** two points: IndexError *)
Theorem biased_two : forall spl q mu inp x y time, q <> 0%R ->
  fourier_fftlog lgr lgi spl q mu inp [x; y] time = Err IndexError.
Proof.
  intros spl q mu inp x y time NQ. assert (EQ : Reqb q 0 = false). { destruct (Reqb q 0) eqn:E; [|reflexivity]. apply Reqb_iff in E. contradiction. }
  unfold fourier_fftlog. replace (List.length (if Rltb 0 mu then _ else _)) with 2%nat by (destruct (Rltb 0 mu); reflexivity).
  cbn [Nat.eqb]. unfold fl_mult. rewrite EQ. rewrite rfft_length.
  replace (List.length (map2 _ _ (seq 0 2))) with 2%nat by (destruct (Rltb 0 mu); reflexivity).
  reflexivity.
Qed.
End Fact.
