(** [fourier_fftlog]: value, linearity, single harmonics and norm (C68). *)

From Coq Require Import ZArith Reals List Bool String Lia Lra Psatz.
From Coquelicot Require Import Coquelicot.
From Verif Require Import PyBase CBase Kernel Utils UtilsLayer Transform TransformDlf TransformLag UtilsArgs Fullspace Model ModelFem ModelTem
  Fourier FourierSum FourierFft FourierLog FourierLog2.
Import ListNotations.
Local Open Scope R_scope.
Local Open Scope C_scope.
Local Open Scope res_scope.

(** ** Specification: a periodic sequence of n real samples, filtered *)
Definition log_filter (n : nat) (u : nat -> C) (a : nat -> R) (k : nat) : R :=
  fst (idft n (fun j => both_sides n u j * dft n a j) k).

(** input and output of the transform, relative to the centre of the grid *)
Definition fl_in (mu q dlnr : R) (n : nat) (fEM : list C) (k : nat) : R :=
  ((if Rltb 0 mu then - snd (nth k fEM (RtoC 0)) else fst (nth k fEM (RtoC 0))) *
   exp (- (q - / 2) * (INR (k + 1) - (INR n + 1) / 2) * dlnr))%R.
Definition fl_out (q dlnr kr rk : R) (n k : nat) : R :=
  exp (- ((q + / 2) * (INR (k + 1) - (INR n + 1) / 2) * dlnr + q * ln kr - ln rk / 2)).

(** ** Filtering the packed array *)
Lemma both_prod : forall n u v j, both_sides n (fun i => u i * v i) j = both_sides n u j * both_sides n v j.
Proof.
  intros n u v j. unfold both_sides. destruct (j <=? n / 2)%nat; [reflexivity|].
  destruct (u (n - j)%nat) as [a b], (v (n - j)%nat) as [c d]. unfold Cconj, Cmult. cbn [fst snd]. f_equal; rgR.
Qed.
Lemma idft_ext : forall n X Y k, (forall j, (j < n)%nat -> X j = Y j) -> idft n X k = idft n Y k.
Proof. intros n X Y k H. unfold idft. f_equal. apply sC_ext. intros j Hj. now rewrite H. Qed.
Lemma dft_ext : forall n a b j, (forall k, (k < n)%nat -> a k = b k) -> dft n a j = dft n b j.
Proof. intros n a b k H. unfold dft. apply sC_ext. intros j Hj. now rewrite H. Qed.
Lemma log_filter_ext : forall n u a b k, (forall i, (i < n)%nat -> a i = b i) -> log_filter n u a k = log_filter n u b k.
Proof. intros n u a b k H. unfold log_filter. f_equal. apply idft_ext. intros j _. f_equal. now apply dft_ext. Qed.
Lemma log_filter_u : forall n u v a k, (forall j, (j <= n / 2)%nat -> (j < n)%nat -> u j = v j) -> log_filter n u a k = log_filter n v a k.
Proof.
  intros n u v a k H. unfold log_filter. f_equal. apply idft_ext. intros j Hj. f_equal. unfold both_sides.
  pose proof (Nat.div_mod n 2 ltac:(lia)) as D. pose proof (Nat.mod_upper_bound n 2 ltac:(lia)) as B.
  destruct (Nat.leb_spec j (n / 2)); rewrite H by lia; reflexivity.
Qed.

Theorem fl_core : forall lgr lgi q mu kr dlnr (a : list R), (1 <= List.length a)%nat -> (q = 0%R \/ List.length a <> 2%nat) ->
  let n := List.length a in
  let args := map (fun m => fl_arg lgi q mu kr (fl_y n dlnr m)) (seq 1 (n / 2)) in
  let am := map (fun m => fl_amp lgr q mu (fl_y n dlnr m)) (seq 1 (n / 2)) in
  exists b, fl_mult lgr lgi q mu (map cos args) (map sin args) am (rfft a) = Ok b /\
    irfft b = map (log_filter n (fl_code lgr lgi q mu kr dlnr n) (fun k => nth k a 0%R)) (seq 0 n).
Proof.
  intros lgr lgi q mu kr dlnr a Hn HQ n args am.
  destruct (fl_mult_ok lgr lgi q mu kr dlnr (rfft a)) as (b & Hb & Lb & HB); try (rewrite rfft_length; assumption).
  rewrite rfft_length in Hb, Lb, HB. exists b. split; [exact Hb|]. fold n in Lb, HB.
  apply (nth_ext _ _ 0%R 0%R); [rewrite irfft_length, map_length, seq_length; exact Lb|].
  intros k Hk. rewrite irfft_length in Hk. rewrite nth_map_seq by lia. rewrite irfft_nth by exact Hk. rewrite Lb. unfold log_filter. f_equal.
  apply idft_ext. intros j Hj. pose proof (rfft_herm a j Hj) as RH. fold n in RH. rewrite <- RH. unfold herm. rewrite <- both_prod.
  pose proof (Nat.div_mod n 2 ltac:(lia)) as D. pose proof (Nat.mod_upper_bound n 2 ltac:(lia)) as B.
  unfold both_sides. destruct (Nat.leb_spec j (n / 2)); rewrite HB by lia; reflexivity.
Qed.

Lemma map2_seq : forall A B (f : A -> nat -> B) (l : list A) d, map2 f l (seq 0 (List.length l)) = map (fun k => f (nth k l d) k) (seq 0 (List.length l)).
Proof.
  intros A B f l d. destruct l as [|x l']; [reflexivity|]. set (l := x :: l') in *. apply (nth_ext _ _ (f d 0%nat) (f d 0%nat)).
  - rewrite map2_length, map_length, seq_length. lia.
  - intros k Hk. rewrite map2_length, seq_length in Hk. rewrite (map2_nth _ _ _ _ _ _ k d 0%nat _) by (rewrite ?seq_length; lia).
    rewrite nth_map_seq by lia. rewrite seq_nth by lia. reflexivity.
Qed.

(** the value of the transform *)
Definition fl_arr (lgr lgi : R -> R -> R) (q mu : R) (inp : fftlog_in) (fEM : list C) : list R :=
  let n := List.length fEM in
  map (fun k => log_filter n (fl_code lgr lgi q mu (l_kr inp) (l_dlnr inp) n) (fl_in mu q (l_dlnr inp) n fEM) (n - 1 - k) *
                fl_out q (l_dlnr inp) (l_kr inp) (l_rk inp) n k)%R (seq 0 n).

Theorem fftlog_value : forall lgr lgi spl q mu inp fEM time, (1 <= List.length fEM)%nat -> (q = 0%R \/ List.length fEM <> 2%nat) ->
  fourier_fftlog lgr lgi spl q mu inp fEM time = Ok (spl (fl_arr lgr lgi q mu inp fEM) (l_tcalc inp) time, true).
Proof.
  intros lgr lgi spl q mu inp fEM time Hn HQ. unfold fourier_fftlog.
  set (a0 := if Rltb 0 mu then map (fun z => - snd z)%R fEM else map fst fEM).
  assert (L0 : List.length a0 = List.length fEM) by (unfold a0; destruct (Rltb 0 mu); apply map_length).
  set (n := List.length fEM) in *. rewrite L0. destruct (Nat.eqb_spec n 0); [lia|].
  set (a1 := map2 _ a0 (seq 0 n)).
  assert (E1 : a1 = map (fl_in mu q (l_dlnr inp) n fEM) (seq 0 n)).
  { unfold a1. rewrite <- L0 at 1. rewrite (map2_seq _ _ _ a0 0%R), L0. apply map_ext_in. intros k Hk. apply in_seq in Hk.
    assert (LF : (k < List.length fEM)%nat) by (fold n; lia).
    unfold fl_in, a0. f_equal. destruct (Rltb 0 mu).
    - rewrite (nth_indep _ 0%R ((fun z : C => - snd z)%R (RtoC 0))) by (rewrite map_length; exact LF). now rewrite (map_nth (fun z : C => - snd z)%R).
    - rewrite (nth_indep _ 0%R (fst (RtoC 0))) by (rewrite map_length; exact LF). now rewrite (map_nth fst). }
  assert (L1 : List.length a1 = n) by (rewrite E1, map_length, seq_length; reflexivity).
  destruct (fl_core lgr lgi q mu (l_kr inp) (l_dlnr inp) a1) as (b & Hb & HI); [lia|rewrite L1; exact HQ|].
  rewrite L1 in Hb, HI. rewrite Hb. cbn [bind]. rewrite HI. do 3 f_equal. unfold fl_arr. fold n.
  apply (nth_ext _ _ 0%R 0%R).
  - rewrite map2_length, rev_length, !map_length, !seq_length. lia.
  - intros k Hk. rewrite map2_length, rev_length, map_length, seq_length in Hk.
    rewrite (map2_nth _ _ _ _ _ _ k 0%R 0%nat 0%R) by (rewrite ?rev_length, ?map_length, ?seq_length; lia).
    rewrite nth_map_seq, seq_nth by lia. rewrite rev_nth by (rewrite map_length, seq_length; lia). rewrite map_length, seq_length, nth_map_seq by lia.
    unfold fl_out. cbn [Nat.add]. replace (n - S k)%nat with (n - 1 - k)%nat by lia. f_equal.
    apply log_filter_ext. intros i Hi. rewrite E1. now rewrite nth_map_seq by lia.
Qed.

(** ** Linearity *)
Lemma dft_lin : forall n a b f g j, dft n (fun k => a * f k + b * g k)%R j = RtoC a * dft n f j + RtoC b * dft n g j.
Proof.
  intros n a b f g j. unfold dft. rewrite <- !sC_scal, <- sC_plus. apply sC_ext. intros k _. rewrite RtoC_plus, !RtoC_mult. ring.
Qed.
Lemma log_filter_lin : forall n u a b f g k,
  log_filter n u (fun i => a * f i + b * g i)%R k = (a * log_filter n u f k + b * log_filter n u g k)%R.
Proof.
  intros n u a b f g k. unfold log_filter, idft.
  rewrite (sC_ext _ (fun j => RtoC a * (both_sides n u j * dft n f j * cis (2 * PI * INR (j * k) / INR n)) +
                             RtoC b * (both_sides n u j * dft n g j * cis (2 * PI * INR (j * k) / INR n))) n) by (intros; rewrite dft_lin; ring).
  rewrite sC_plus, !sC_scal. unfold Cdiv.
  set (s := sC _ n). set (t := sC _ n). set (r := / RtoC (INR n)). destruct s as [s1 s2], t as [t1 t2], r as [r1 r2].
  unfold Cplus, Cmult, RtoC. cbn [fst snd]. rgR.
Qed.

Theorem fftlog_linear : forall lgr lgi spl q mu inp nf time, linear_interp spl -> (1 <= nf)%nat -> (q = 0%R \/ nf <> 2%nat) ->
  List.length (l_tcalc inp) = nf ->
  exists T, linear_ft (fun v => fourier_fftlog lgr lgi spl q mu inp v time) T nf (List.length time).
Proof.
  intros lgr lgi spl q mu inp nf time HS H1 HQ HL. exists (fun v => spl (fl_arr lgr lgi q mu inp v) (l_tcalc inp) time).
  assert (LA : forall v, List.length v = nf -> List.length (fl_arr lgr lgi q mu inp v) = List.length (l_tcalc inp)).
  { intros v Hv. unfold fl_arr. now rewrite map_length, seq_length, Hv. }
  split.
  - intros v Hv. apply fftlog_value; rewrite Hv; assumption.
  - intros v Hv. destruct HS as [HL' _]. apply HL', LA, Hv.
  - intros a b u v Hu Hv. rewrite <- (spl_lin spl HS) by (apply LA; assumption). f_equal. unfold fl_arr.
    rewrite lcC_length, Hu, Hv, ?Nat.min_id by congruence. apply map_lin. intros k Hk.
    rewrite (log_filter_ext _ _ _ (fun i => a * fl_in mu q (l_dlnr inp) nf u i + b * fl_in mu q (l_dlnr inp) nf v i)%R).
    + rewrite log_filter_lin. ring.
    + intros i Hi. unfold fl_in, lcC. rewrite (map2_nth _ _ _ _ _ _ i (RtoC 0) (RtoC 0) (RtoC 0)) by lia.
      destruct (nth i u (RtoC 0)) as [u1 u2], (nth i v (RtoC 0)) as [v1 v2]. unfold Cplus, Cmult, RtoC. cbn [fst snd].
      destruct (Rltb 0 mu); rgR.
Qed.

(** ** Orthogonality *)
Lemma orth : forall n i j, (i < n)%nat -> (j < n)%nat ->
  sC (fun k => cis (2 * PI * INR (i * k) / INR n) * cis (- (2 * PI * INR (j * k) / INR n))) n = if (i =? j)%nat then RtoC (INR n) else RtoC 0.
Proof.
  intros n i j Hi Hj. assert (P : (0 < INR n)%R) by (apply lt_0_INR; lia).
  rewrite (sC_ext _ (fun k => cis (2 * PI * IZR (Z.of_nat i - Z.of_nat j) * INR k / INR n)) n).
  - destruct (Nat.eqb_spec i j) as [->|D].
    + apply root_sum_full; [lia|]. rewrite Z.sub_diag. reflexivity.
    + apply root_sum; [lia|]. intros W. destruct (Z_lt_dec (Z.of_nat i) (Z.of_nat j)).
      * assert ((Z.of_nat i - Z.of_nat j) mod Z.of_nat n = Z.of_nat i - Z.of_nat j + Z.of_nat n)%Z.
        { symmetry. apply Z.mod_unique with (-1)%Z; lia. }
        lia.
      * rewrite Z.mod_small in W by lia. lia.
  - intros k _. rewrite <- cis_plus. f_equal. rewrite minus_IZR, <- !INR_IZR_INZ, !mult_INR. field. lra.
Qed.

(** inverse and forward transform undo each other *)
Lemma dft_idft : forall n Y j, (j < n)%nat -> sC (fun k => idft n Y k * cis (- (2 * PI * INR (j * k) / INR n))) n = Y j.
Proof.
  intros n Y j Hj. assert (P : (0 < INR n)%R) by (apply lt_0_INR; lia).
  assert (NZ : RtoC (INR n) <> RtoC 0) by (intros W; apply (f_equal fst) in W; cbn in W; lra).
  rewrite (sC_ext _ (fun k => sC (fun i => Y i / RtoC (INR n) * (cis (2 * PI * INR (i * k) / INR n) * cis (- (2 * PI * INR (j * k) / INR n)))) n) n).
  - rewrite sC_swap. rewrite (sC_ext _ (fun i => Y i / RtoC (INR n) * (if (i =? j)%nat then RtoC (INR n) else RtoC 0)) n).
    + rewrite (sC_one _ n j Hj).
      * rewrite Nat.eqb_refl. field. exact NZ.
      * intros i Hi D. destruct (Nat.eqb_spec i j); [contradiction|]. ring.
    + intros i Hi. rewrite sC_scal. now rewrite orth by assumption.
  - intros k _. unfold idft.
    rewrite (sC_ext (fun i => Y i / RtoC (INR n) * _) (fun i => (/ RtoC (INR n) * cis (- (2 * PI * INR (j * k) / INR n))) * (Y i * cis (2 * PI * INR (i * k) / INR n))) n).
    + rewrite sC_scal. unfold Cdiv. ring.
    + intros i _. unfold Cdiv. ring.
Qed.

(** Parseval *)
Definition sqC (z : C) : R := (fst z * fst z + snd z * snd z)%R.
Lemma sqC_conj : forall z, z * Cconj z = RtoC (sqC z).
Proof. intros [a b]. unfold Cmult, Cconj, RtoC, sqC. cbn [fst snd]. f_equal; rgR. Qed.
Lemma sqC_mult : forall u v, sqC (u * v) = (sqC u * sqC v)%R.
Proof. intros [a b] [c d]. unfold Cmult, sqC. cbn [fst snd]. rgR. Qed.
Lemma sqC_Cconj : forall u, sqC (Cconj u) = sqC u.
Proof. intros [a b]. unfold Cconj, sqC. cbn [fst snd]. rgR. Qed.

Lemma parseval : forall n Y, (1 <= n)%nat -> sR (fun k => sqC (idft n Y k)) n = (sR (fun j => sqC (Y j)) n / INR n)%R.
Proof.
  intros n Y Hn. assert (P : (0 < INR n)%R) by (apply lt_0_INR; lia).
  assert (NZ : RtoC (INR n) <> RtoC 0) by (intros W; apply (f_equal fst) in W; cbn in W; lra).
  assert (E : RtoC (sR (fun k => sqC (idft n Y k)) n) * RtoC (INR n) = RtoC (sR (fun j => sqC (Y j)) n)).
  { rewrite !RtoC_sR.
    rewrite (sC_ext _ (fun k => sC (fun j => / RtoC (INR n) * (Cconj (Y j) * (idft n Y k * cis (- (2 * PI * INR (j * k) / INR n))))) n) n).
    - rewrite sC_swap. rewrite (sC_ext _ (fun j => / RtoC (INR n) * (Y j * Cconj (Y j))) n).
      + rewrite sC_scal. rewrite (sC_ext (fun j => Y j * Cconj (Y j)) (fun j => RtoC (sqC (Y j))) n) by (intros; apply sqC_conj). field. exact NZ.
      + intros j Hj. rewrite sC_scal, sC_scal, dft_idft by exact Hj. ring.
    - intros k _. rewrite <- sqC_conj.
      assert (EC : Cconj (idft n Y k) = / RtoC (INR n) * sC (fun j => Cconj (Y j) * cis (- (2 * PI * INR (j * k) / INR n))) n).
      { unfold idft, Cdiv. rewrite (sC_ext (fun j => Cconj (Y j) * _) (fun j => Cconj (Y j * cis (2 * PI * INR (j * k) / INR n))) n).
        - rewrite <- conj_sC. rewrite <- RtoC_inv by lra. set (s := sC _ n). destruct s as [s1 s2].
          unfold Cconj, Cmult, RtoC. cbn [fst snd]. f_equal; rgR.
        - intros j _. rewrite cis_neg. destruct (Y j) as [y1 y2], (cis (2 * PI * INR (j * k) / INR n)) as [c s].
          unfold Cconj, Cmult. cbn [fst snd]. f_equal; rgR. }
      rewrite EC, sC_scal.
      rewrite (sC_ext (fun j => Cconj (Y j) * (idft n Y k * _)) (fun j => idft n Y k * (Cconj (Y j) * cis (- (2 * PI * INR (j * k) / INR n)))) n) by (intros; ring).
      rewrite sC_scal. ring. }
  rewrite <- RtoC_mult in E. apply (f_equal fst) in E. cbn [fst RtoC] in E. rewrite <- E. field. lra.
Qed.
