(** Properties C67-C69: the FFT, FFTLog and QWE versions of the transform from
    frequency to time, and their linearity (C20). *)

From Coq Require Import ZArith Reals List Bool String Lia Lra Psatz.
From Coquelicot Require Import Coquelicot.
From Verif Require Import PyBase CBase Kernel Utils UtilsLayer Transform TransformDlf TransformLag TransformQwe UtilsArgs Fullspace Model ModelFem ModelTem
  Fourier FourierSum FourierFft FourierNode FourierLog FourierLog2 FourierLog3 FourierLog4 FourierQwe.
Import ListNotations.
Local Open Scope R_scope.
Local Open Scope C_scope.
Local Open Scope res_scope.

(** ** C67 *)
(** The value: interpolation, on the time grid, of a sum over the frequencies. *)
Theorem C67_value : forall spl lspl dfreq nfreq ntot ppd fEM time freq,
  (1 <= nfreq <= ntot)%nat -> dfreq <> 0%R ->
  List.length (fft_input spl dfreq nfreq ppd fEM freq) = nfreq ->
  fourier_fft spl lspl dfreq (Z.of_nat nfreq) (Z.of_nat ntot) ppd fEM time freq =
  Ok (map (fun v => v / 2 * PI)%R
        (lspl (map (fft_sum (ramp (fft_input spl dfreq nfreq ppd fEM freq) nfreq ntot) ntot dfreq) (fft_grid ntot dfreq))
              (fft_grid ntot dfreq) time), true).
Proof. exact fft_value. Qed.
(** At the times of the grid the time-domain result, with the factor 2/pi of the caller, is the sum itself. *)
Theorem C67_nodes : forall spl lspl dfreq nfreq ntot ppd fEM freq ks, nodal lspl ->
  (1 <= nfreq <= ntot)%nat -> dfreq <> 0%R ->
  List.length (fft_input spl dfreq nfreq ppd fEM freq) = nfreq ->
  (forall k, In k ks -> (k < 2 * ntot)%nat) ->
  exists v, fourier_fft spl lspl dfreq (Z.of_nat nfreq) (Z.of_nat ntot) ppd fEM (map (fun k => nth k (fft_grid ntot dfreq) 0%R) ks) freq = Ok (v, true) /\
  map (fun x => 2 / PI * x)%R v =
  map (fun k => fft_sum (ramp (fft_input spl dfreq nfreq ppd fEM freq) nfreq ntot) ntot dfreq ((INR k - INR ntot) * (1 / (2 * INR ntot * dfreq)))) ks.
Proof. exact fft_nodes. Qed.
(** It is not the inverse Fourier sum over positive and negative frequencies ... *)
Theorem C67_shift_refuted : exists (fEM : list C) (ntot : nat) (dfreq : R) (k : nat),
  let t := nth k (fft_grid ntot dfreq) 0%R in
  (0 < t)%R /\
  (forall spl lspl freq, nodal lspl -> exists v, fourier_fft spl lspl dfreq (Z.of_nat ntot) (Z.of_nat ntot) None fEM [t] freq = Ok ([v], true) /\
     (2 / PI * v)%R <> fourier_sum (ramp fEM ntot ntot) ntot dfreq t).
Proof.
  exists [RtoC 0; RtoC 1], 2%nat, 1%R, 3%nat. cbv zeta.
  assert (ET : nth 3 (fft_grid 2 1) 0%R = (/ 4)%R) by (unfold fft_grid; cbn [Nat.mul Nat.add seq map nth INR]; field).
  split; [rewrite ET; lra|]. intros spl lspl freq HN.
  destruct (fft_nodes spl lspl 1 2 2 None [RtoC 0; RtoC 1] freq [3%nat] HN ltac:(lia) ltac:(lra) eq_refl ltac:(intros k [<- | []]; lia)) as (v & Q & V).
  cbn [map] in Q, V. destruct v as [|x [|y v]]; try discriminate. exists x. split; [exact Q|].
  rewrite ET. apply (f_equal (hd 0%R)) in V. cbn [hd] in V. change (fft_input spl 1 2 None [RtoC 0; RtoC 1] freq) with [RtoC 0; RtoC 1] in V.
  replace ((INR 3 - INR 2) * (1 / (2 * INR 2 * 1)))%R with (/ 4)%R in V by (cbn [INR]; field).
  destruct fft_two as [F1 F2]. rewrite F1 in V. rewrite F2. intros W. cbn [map hd] in V. lra.
Qed.
(** ... but differs from it by at most the first term plus the frequency step times the time. *)
Theorem C67_error : forall F N dfreq t, (1 <= N)%nat -> (0 <= dfreq)%R ->
  (Rabs (fft_sum F N dfreq t - fourier_sum F N dfreq t) <=
   dfreq * (Cmod (F 1%nat) + 2 * Rabs (sin (2 * PI * dfreq * t)) * sR (fun i => Cmod (F (i + 2)%nat)) (N - 1)))%R.
Proof. exact fft_error. Qed.
(** Linear. *)
Theorem C20_fft : forall spl lspl dfreq nfreq ntot time freq, linear_interp lspl ->
  (1 <= nfreq <= ntot)%nat -> dfreq <> 0%R ->
  exists T, linear_ft (fun v => fourier_fft spl lspl dfreq (Z.of_nat nfreq) (Z.of_nat ntot) None v time freq) T nfreq (List.length time).
Proof. exact fft_linear. Qed.

(** a nodal interpolation: the value of the node, zero elsewhere *)
Fixpoint x_at (v p : list R) (x : R) : R :=
  match v, p with a :: v', b :: p' => if Req_EM_T x b then a else x_at v' p' x | _, _ => 0%R end.
Definition x_node : interp := fun v p q => map (x_at v p) q.
Lemma x_at_nth : forall v p k, List.length v = List.length p -> NoDup p -> (k < List.length p)%nat -> x_at v p (nth k p 0%R) = nth k v 0%R.
Proof.
  induction v as [|a v IH]; intros [|b p] k L ND H; cbn in L; try discriminate; cbn in H; try lia.
  apply NoDup_cons_iff in ND. destruct ND as [NI ND]. destruct k as [|k]; cbn [nth x_at]; destruct (Req_EM_T _ b) as [E|E]; try reflexivity; try congruence.
  - exfalso. apply NI. rewrite <- E. apply nth_In. lia.
  - apply IH; auto; lia.
Qed.
Example C67_case : nodal x_node /\ (1 <= 2 <= 4)%nat /\
  List.length (fft_input x_node 1 2 None [RtoC 1; RtoC 2] []) = 2%nat /\ (forall k, In k [5; 6]%nat -> (k < 2 * 4)%nat) /\
  ramp [RtoC 1; RtoC 2] 2 4 3 = (RtoC 2 * RtoC (INR 1 / INR 2)) /\
  linear_interp (fun v _ q => map (fun _ => hd 0%R v) q).
Proof.
  split; [|split; [lia|split; [reflexivity|split; [|split; [reflexivity|]]]]].
  - intros v p ks L ND H. unfold x_node. rewrite map_map. apply map_ext_in. intros k Hk. apply x_at_nth; auto.
  - intros k [<- | [<- | []]]; lia.
  - split; [intros; apply map_length|]. intros c u v p q H1 H2. unfold map2. destruct u as [|a u], v as [|b v], p as [|d p]; cbn in H1, H2; try discriminate; cbn [hd combine map fst snd].
    + induction q as [|x q IH]; [reflexivity|]. cbn [map combine]. rewrite <- IH. cbn [fst snd]. f_equal. ring.
    + induction q as [|x q IH]; [reflexivity|]. cbn [map combine]. rewrite <- IH. reflexivity.
Qed.
Print Assumptions C67_value.
Print Assumptions C67_nodes.
Print Assumptions C67_shift_refuted.
Print Assumptions C67_error.
Print Assumptions C20_fft.

(** ** C68 *)
(** The value, for every number of frequencies and every bias: input times a
    power, discrete Fourier transform, factors, inverse transform, times a power. *)
Theorem C68_value : forall lgr lgi spl q mu inp fEM time, (1 <= List.length fEM)%nat -> (q = 0%R \/ List.length fEM <> 2%nat) ->
  fourier_fftlog lgr lgi spl q mu inp fEM time = Ok (spl (fl_arr lgr lgi q mu inp fEM) (l_tcalc inp) time, true).
Proof. exact fftlog_value. Qed.
(** The factors are those of FFTLog below the highest harmonic, and all of them
    if there is no bias and the number of frequencies is even. *)
Theorem C68_factors : forall lgr lgi,
  (forall q mu kr dlnr n j, (j < n / 2)%nat -> fl_code lgr lgi q mu kr dlnr n j = fl_right lgr lgi q mu kr dlnr n j) /\
  (forall mu kr dlnr n j, Nat.even n = true -> (j <= n / 2)%nat -> fl_code lgr lgi 0 mu kr dlnr n j = fl_right lgr lgi 0 mu kr dlnr n j).
Proof. intros lgr lgi. split; [exact (code_right lgr lgi)|exact (code_right_even lgr lgi)]. Qed.
(** A harmonic comes out scaled and rotated by its own factor. *)
Theorem C68_harmonic : forall n u m A phi k, (0 < m)%nat -> (2 * m < n)%nat ->
  log_filter n u (fun k => A * cos (2 * PI * INR (m * k) / INR n + phi))%R k = (A * fst (u m * cis (2 * PI * INR (m * k) / INR n + phi))%C)%R.
Proof. exact filter_harm. Qed.
(** Without bias and with the grid of the package the transform keeps the norm. *)
Theorem C68_norm : forall lgr lgi rmin rmax N mu inp n a, get_fftlog_input lgi rmin rmax N 0 mu = Ok inp ->
  (1 <= n)%nat -> Nat.even n = true ->
  sR (fun k => log_filter n (fl_code lgr lgi 0 mu (l_kr inp) (l_dlnr inp) n) a k * log_filter n (fl_code lgr lgi 0 mu (l_kr inp) (l_dlnr inp) n) a k)%R n =
  sR (fun k => a k * a k)%R n.
Proof. exact unbiased_norm. Qed.
(** The exceptions: an odd number of frequencies, a bias. *)
Theorem C68_odd_refuted : forall lgr lgi mu dlnr, dlnr <> 0%R -> exists kr a, (0 < kr)%R /\
  log_filter 3 (fl_code lgr lgi 0 mu kr dlnr 3) a 0 <> log_filter 3 (fl_right lgr lgi 0 mu kr dlnr 3) a 0.
Proof. exact odd_differs. Qed.
Theorem C68_odd : forall lgr lgi q mu kr dlnr h A phi k, (1 <= h)%nat ->
  log_filter (2 * h + 1) (fl_code lgr lgi q mu kr dlnr (2 * h + 1)) (fun k => A * cos (2 * PI * INR (h * k) / INR (2 * h + 1) + phi))%R k =
  (A * cos (2 * PI * INR (h * k) / INR (2 * h + 1) + phi))%R.
Proof. exact odd_plain. Qed.
Theorem C68_bias_refuted : forall lgr lgi q mu dlnr, q <> 0%R -> dlnr <> 0%R -> exists kr, (0 < kr)%R /\
  fl_code lgr lgi q mu kr dlnr 8 4 <> fl_right lgr lgi q mu kr dlnr 8 4.
Proof. exact biased_differs. Qed.
Theorem C68_bias : forall lgr lgi q mu kr dlnr m, q <> 0%R -> (4 <= m)%nat ->
  fl_code lgr lgi q mu kr dlnr (2 * m) m = RtoC (fst (fl_factor lgr lgi q mu kr (PI * INR (m - 3) / (INR (2 * m) * dlnr)))) /\
  fl_right lgr lgi q mu kr dlnr (2 * m) m = RtoC (fst (fl_factor lgr lgi q mu kr (PI * INR m / (INR (2 * m) * dlnr)))).
Proof. exact biased_code. Qed.
Theorem C68_bias_two : forall lgr lgi spl q mu inp x y time, q <> 0%R ->
  fourier_fftlog lgr lgi spl q mu inp [x; y] time = Err IndexError.
Proof. exact biased_two. Qed.
Theorem C20_fftlog : forall lgr lgi spl q mu inp nf time, linear_interp spl -> (1 <= nf)%nat -> (q = 0%R \/ nf <> 2%nat) ->
  List.length (l_tcalc inp) = nf ->
  exists T, linear_ft (fun v => fourier_fftlog lgr lgi spl q mu inp v time) T nf (List.length time).
Proof. exact fftlog_linear. Qed.
(** four frequencies over one decade *)
Example C68_case : exists inp, get_fftlog_input (fun _ _ => 0%R) 0 1 4 0 (/ 2) = Ok inp /\ List.length (l_tcalc inp) = 4%nat /\ (0 < l_kr inp)%R /\ l_dlnr inp <> 0%R.
Proof.
  unfold get_fftlog_input. cbn [Z.eqb]. assert (L10 : (0 < ln 10)%R) by (rewrite <- ln_1; apply ln_increasing; lra).
  assert (ND : ((1 - 0) / 4 * ln 10 <> 0)%R) by nra. rewrite Reqb_false by exact ND.
  eexists. split; [reflexivity|]. cbn [l_tcalc l_kr l_dlnr]. split; [now rewrite !map_length, seq_length|]. split; [apply exp_pos|exact ND].
Qed.
Print Assumptions C68_value.
Print Assumptions C68_factors.
Print Assumptions C68_harmonic.
Print Assumptions C68_norm.
Print Assumptions C68_odd_refuted.
Print Assumptions C68_odd.
Print Assumptions C68_bias_refuted.
Print Assumptions C68_bias.
Print Assumptions C68_bias_two.
Print Assumptions C20_fftlog.

(** ** C69 *)
(** Every time is transformed by itself, by extrapolation or by adaptive quadrature. *)
Theorem C69_each : forall rquad gx gw fr fi sine rtol atol zc nquad maxint diff_quad a b time, (2 <= maxint)%nat ->
  fourier_qwe rquad gx gw fr fi sine rtol atol zc nquad maxint diff_quad a b time =
  Ok (map (fq_value rquad gx gw fr fi sine rtol atol zc nquad maxint diff_quad a b) time,
      forallb (fq_conv rquad gx gw fr fi sine rtol atol zc nquad maxint diff_quad a b) time).
Proof. exact fourier_qwe_each. Qed.
(** What is extrapolated are single Gauss nodes, node i with the width of half period i ... *)
Theorem C69_nodes : forall gx gw f sine nquad t i,
  fq_contrib gx gw f sine nquad t i = RtoC (half_width sine t i * one_node gx gw f sine t (i / nquad) (i mod nquad)).
Proof. exact contrib_node. Qed.
(** ... for the sine transform they add up to the composite Gauss rule, nquad nodes per half period ... *)
Theorem C69_sine : forall gx gw f nquad t K, (0 < nquad)%nat -> t <> 0%R ->
  sR (fun i => fst (fq_contrib gx gw f true nquad t i)) (nquad * K) =
  (sR (half_period gx gw f true nquad t) K +
   (if (K =? 0)%nat then 0 else / 10 ^ 20 / (2 * t) * sR (fun j => one_node gx gw f true t 0 (S j)) (nquad - 1)))%R.
Proof. exact sine_total. Qed.
(** ... for the cosine transform the first interval counts (nearly) twice ... *)
Theorem C69_cosine : forall gx gw f nquad t i, t <> 0%R -> (0 < i < nquad)%nat ->
  fq_contrib gx gw f false nquad t i = RtoC (PI / (2 * t) * one_node gx gw f false t 0 i) /\
  half_width false t 0 = (PI / (4 * t) - / 10 ^ 20 / (2 * t))%R.
Proof. exact cosine_first. Qed.
(** ... and they are not the integrals over the half periods. *)
Theorem C69_half_periods_refuted : forall rquad rtol atol zc,
  let x := fq_value rquad leg2x leg2w (fun _ => 1%R) (fun _ => 1%R) true rtol atol zc 2 2 100 None None 1 in
  let y := fst (qwe_value rtol atol zc 2 (fun i => RtoC (half_period leg2x leg2w (fun _ => 1%R) true 2 1 i))) in
  x = (half_width true 1 0 * sin (half_node leg2x true 0 0) + half_width true 1 1 * sin (half_node leg2x true 0 1))%R /\
  y = (half_period leg2x leg2w (fun _ => 1%R) true 2 1 0 + half_period leg2x leg2w (fun _ => 1%R) true 2 1 1)%R /\
  (y < x)%R.
Proof. exact two_halves. Qed.
(** two times, one by extrapolation and one by quadrature: amplitude one up to omega = 1, then decaying fast *)
Example C69_case : exists f : R -> R,
  fq_steep (fun w => (f w, 0%R)) 100 true 2 100 = true /\ fq_steep (fun w => (f w, 0%R)) 100 true 2 (/ 100) = false.
Proof.
  exists (fun w => if Rlt_dec w 1 then 1 else / 1000)%R. unfold fq_steep. cbn [seq forallb].
  pose proof PI_RGT_0 as PP. pose proof PI_4 as P4. pose proof PI2_3_2 as P3.
  assert (T20 : (0 < / 10 ^ 20 < / 10 ^ 4)%R) by (split; [apply Rinv_0_lt_compat; lra|apply Rinv_lt_contravar; lra]).
  assert (X0 : fq_xint true 0 = (/ 10 ^ 20)%R) by reflexivity.
  assert (X1 : fq_xint true 1 = PI) by (unfold fq_xint; cbn [Nat.eqb INR]; ring).
  assert (X2 : fq_xint true 2 = (2 * PI)%R) by (unfold fq_xint; cbn [Nat.eqb INR]; ring).
  rewrite X0, X1, X2.
  assert (CM : forall r, (0 < r)%R -> Cmod (r, 0%R) = r) by (intros r Hr; change (r, 0%R) with (RtoC r); rewrite Cmod_R; apply Rabs_pos_eq; lra).
  split.
  - destruct (Rlt_dec (/ 10 ^ 20 / 100) 1); [|exfalso; lra]. destruct (Rlt_dec (PI / 100) 1); [|exfalso; lra]. destruct (Rlt_dec (2 * PI / 100) 1); [|exfalso; lra].
    rewrite (CM 1%R) by lra. rewrite Reqb_false by lra. rewrite TransformDlf.Rltb_true by lra. reflexivity.
  - replace (/ 10 ^ 20 / / 100)%R with (/ 10 ^ 20 * 100)%R by field. replace (PI / / 100)%R with (PI * 100)%R by field.
    destruct (Rlt_dec (/ 10 ^ 20 * 100) 1); [|exfalso; lra]. destruct (Rlt_dec (PI * 100) 1); [exfalso; lra|].
    rewrite (CM 1%R), (CM (/ 1000)%R) by lra. rewrite Reqb_false by lra. rewrite TransformDlf.Rltb_false by lra. reflexivity.
Qed.
Print Assumptions C69_each.
Print Assumptions C69_nodes.
Print Assumptions C69_sine.
Print Assumptions C69_cosine.
Print Assumptions C69_half_periods_refuted.
