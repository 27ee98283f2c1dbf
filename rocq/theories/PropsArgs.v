(** * Theorems on the argument checks: C21, C22, C32, C33, C34, C36, C61 *)
From Coq Require Import ZArith List Lia Lra Reals String Bool.
From Coquelicot Require Import Coquelicot.
From Verif Require Import PyBase CBase Utils Transform UtilsArgs UtilsLayer TransformLag TransformDlf ArgsKw ArgsPha ArgsWave ArgsFreq.
Import ListNotations.
Local Open Scope string_scope.
Local Open Scope R_scope.

(** ** C21 *)
(** For increasing nodes the function returned for a waveform maps responses
    [g r] (element r, as a function of time) to the sum over the segments of
    the slope of the current times the quadrature of the response from delay
    t_a (start of the segment) to delay t_b (its end), both cut at zero:
    segments after the time do not contribute.  The orientation from t_a to
    t_b >= 0 is the sign convention of the code (minus the usual convolution).
    Responses are taken at times not below the minimum time. *)
Theorem C21_convolution : forall gx gw time nodes amps, sincr nodes -> List.length amps = List.length nodes ->
  List.length gw = List.length gx -> forall m leg nquad signal,
  (2 <= List.length nodes)%nat -> gx <> [] -> leg nquad = Ok (gx, gw) ->
  (~ some_segment time nodes amps -> check_waveform m leg time nodes amps signal nquad = Err ValueError) /\
  (some_segment time nodes amps -> exists ctime f, check_waveform m leg time nodes amps signal nquad = Ok (ctime, signal, f) /\
     ctime <> [] /\ (forall x, In x ctime -> min_time m <= x) /\
     (exists l, sincr l /\ ctime = map (fun x => Rmax x (min_time m)) l) /\
     forall (nr : nat) (g : nat -> R -> R),
       f (map (fun t => map (fun r => g r t) (seq 0 nr)) ctime)
       = map (fun t => map (fun r => wave_sum (quadrature gx gw (fun x => g r (Rmax x (min_time m)))) nodes amps t)
                           (seq 0 nr)) time).
Proof. intros. eapply waveform_value; eauto. Qed.
(** With a rule that is exact for the response, this is the sum of integrals. *)
Theorem C21_exact : forall gx gw h nodes amps t, sincr nodes -> exact_for gx gw h ->
  wave_sum (quadrature gx gw h) nodes amps t = wave_sum (fun a b => RInt h a b) nodes amps t.
Proof. exact wave_exact. Qed.
(** For a response constant in time and any rule exact for constants: minus the
    response times the change of the current since the first node. *)
Theorem C21_constant : forall gx gw nodes a0 amps c t, sincr nodes -> List.length (a0 :: amps) = List.length nodes ->
  List.length gw = List.length gx -> rsuml gw = 2 ->
  wave_sum (quadrature gx gw (fun _ => c)) nodes (a0 :: amps) t = - (c * (current nodes (a0 :: amps) t - a0)).
Proof.
  intros gx gw nodes a0 amps c t H L Lg Hw.
  rewrite (wave_sum_ext _ (fun a b => c * (b - a)) nodes (a0 :: amps) t H)
    by (intros; apply quadrature_const; assumption).
  apply (wave_const nodes (a0 :: amps) c t a0 H L).
Qed.
Lemma x_nodes : sincr [0; 1; 3].
Proof. repeat constructor; lra. Qed.
Example C21_case : forall m, exists ctime f,
  check_waveform m (fun _ => Ok ([0], [2])) [2; 1 / 2] [0; 1; 3] [1; 1 / 2; 0] 0 1 = Ok (ctime, 0, f) /\
  f (map (fun t => map (fun r => 4) (seq 0 1)) ctime) = [[3]; [1]].
Proof.
  intros m.
  destruct (C21_convolution [0] [2] [2; 1 / 2] [0; 1; 3] [1; 1 / 2; 0] x_nodes eq_refl eq_refl m (fun _ => Ok ([0], [2])) 1%Z 0)
    as [_ (ctime & f & E & _ & _ & _ & V)].
  - cbn. lia.
  - discriminate.
  - reflexivity.
  - exists 0%nat, 2. cbn. repeat split; [lia|lra|left; reflexivity|lra].
  - exists ctime, f. split; [exact E|]. rewrite (V 1%nat (fun _ _ => 4)). cbn [map seq].
    rewrite !(C21_constant [0] [2] [0; 1; 3] 1 [1 / 2; 0] 4) by (try apply x_nodes; try reflexivity; cbn; lra).
    cbn [current].
    destruct (Rlt_dec 2 0); [lra|]. destruct (Rlt_dec 2 1); [lra|]. destruct (Rlt_dec 2 3); [|lra].
    destruct (Rlt_dec (1 / 2) 0); [lra|]. destruct (Rlt_dec (1 / 2) 1); [|lra].
    repeat f_equal; field.
Qed.
Example C21_exact_case : exact_for [0] [2] (fun x => 3 + 2 * x).
Proof. apply midpoint_exact. Qed.
Print Assumptions C21_convolution.
Print Assumptions C21_exact.
Print Assumptions C21_constant.

(** ** C22 *)
(** Up to 2^29 frequencies: the length is at least the requested number; it is
    the least such power of two if not given, or if the given one is too small;
    a sufficient given length is kept. *)
Theorem C22_fft_length : forall lib leg lgi t sg args freq dfreq nfreq ntot ppd rest,
  ft_settings lib leg lgi t sg "fft" args = Ok (freq, FtFft dfreq nfreq ntot ppd, rest) ->
  (nfreq <= 2 ^ 29)%Z ->
  (nfreq <= ntot)%Z
  /\ (lookup "ntot" args = None -> least_pow2 nfreq ntot)
  /\ (forall n, lookup "ntot" args = Some (VInt n) ->
        if (nfreq <=? n)%Z then ntot = n else least_pow2 nfreq ntot).
Proof. exact fft_length. Qed.
(** Beyond 2^29 the automatic length is 1, smaller than the requested number. *)
Theorem C22_large_refuted : forall n, (2 ^ 29 < n)%Z ->
  exists freq dfreq ppd rest, ft_settings (fun _ => None) (fun _ => Err ValueError) (fun _ _ => 0) [1] 0 "fft" [("nfreq", VInt n)]
    = Ok (freq, FtFft dfreq n 1 ppd, rest) /\ (1 < n)%Z.
Proof.
  intros n Hn. unfold ft_settings, dpop, dget.
  change (String.eqb "fft" "dlf") with false. change (String.eqb "fft" "qwe") with false.
  change (String.eqb "fft" "fftlog") with false. change (String.eqb "fft" "fft") with true. cbv iota.
  cbn [lookup delkey filter fst snd negb String.eqb Ascii.eqb Bool.eqb as_float as_int opt_of bind option_map].
  rewrite (pow2_for_large n Hn). destruct (1 <? n)%Z; eexists _, _, _, _; split; try reflexivity; lia.
Qed.
Example C22_case : exists freq dfreq rest,
  ft_settings (fun _ => None) (fun _ => Err ValueError) (fun _ _ => 0) [1] 0 "fft" [("nfreq", VInt 5); ("ntot", VInt 3)]
  = Ok (freq, FtFft dfreq 5 8 None, rest).
Proof. eexists _, _, _. reflexivity. Qed.
Print Assumptions C22_fft_length.
Print Assumptions C22_large_refuted.

(** ** C32 *)
(** The names accepted (after conversion to lower case): dlf, qwe and every
    substring of "quad". *)
Theorem C32_names : forall lib ht verb, lib_ok lib "key_201_2009" ["base"; "j0"; "j1"; "factor"] ->
  accepted (check_hankel lib ht [] verb) <->
  In (lower ht) ["dlf"; "qwe"; ""; "q"; "u"; "a"; "d"; "qu"; "ua"; "ad"; "qua"; "uad"; "quad"].
Proof. exact check_hankel_names. Qed.
Theorem C32_rejects : forall lib ht args verb,
  ~ In (lower ht) ["dlf"; "qwe"; ""; "q"; "u"; "a"; "d"; "qu"; "ua"; "ad"; "qua"; "uad"; "quad"] ->
  check_hankel lib ht args verb = Err ValueError.
Proof. exact check_hankel_rejects. Qed.
(** So names that are not documented are accepted, for instance the empty one. *)
Theorem C32_undocumented_refuted : forall lib verb, exists ht targ w,
  ~ In ht ["dlf"; "qwe"; "quad"] /\ check_hankel lib ht [] verb = Ok (ht, targ, w).
Proof. intros lib verb. exists "", (HtQuad (/ 10 ^ 12) (/ 10 ^ 20) 500 (/ 10 ^ 6) (/ 10) 40), false. split; [cbn; intuition discriminate|reflexivity]. Qed.
(** Settings given by the user are used, the defaults otherwise. *)
Theorem C32_quad_settings : forall lib args verb rtol atol limit a b ppd,
  as_float (dget "rtol" (VFloat (/ 10 ^ 12)) args) = Ok rtol ->
  as_float (dget "atol" (VFloat (/ 10 ^ 20)) args) = Ok atol ->
  as_int (dget "limit" (VInt 500) args) = Ok limit ->
  as_float (dget "a" (VFloat (/ 10 ^ 6)) args) = Ok a ->
  as_float (dget "b" (VFloat (/ 10)) args) = Ok b ->
  as_int (dget "pts_per_dec" (VInt 40) args) = Ok ppd ->
  exists w, check_hankel lib "quad" args verb = Ok ("quad", HtQuad rtol atol limit a b (Z.max ppd 1), w).
Proof. exact hankel_quad_args. Qed.
Theorem C32_qwe_settings : forall lib args verb rtol atol nquad maxint ppd dq a b limit,
  as_float (dget "rtol" (VFloat (/ 10 ^ 12)) args) = Ok rtol ->
  as_float (dget "atol" (VFloat (/ 10 ^ 30)) args) = Ok atol ->
  as_int (dget "nquad" (VInt 51) args) = Ok nquad ->
  as_int (dget "maxint" (VInt 100) args) = Ok maxint ->
  as_int (dget "pts_per_dec" (VInt 0) args) = Ok ppd ->
  as_float (dget "diff_quad" (VInt 100) args) = Ok dq ->
  opt_of as_float (dget "a" VNone args) = Ok a ->
  opt_of as_float (dget "b" VNone args) = Ok b ->
  opt_of as_int (dget "limit" VNone args) = Ok limit ->
  exists w, check_hankel lib "qwe" args verb = Ok ("qwe", HtQwe rtol atol nquad maxint (Z.max ppd 0) dq a b limit, w).
Proof. exact hankel_qwe_args. Qed.
Theorem C32_dlf_settings : forall lib args verb f0 f ppd,
  lib "key_201_2009" = Some f0 ->
  match dget "dlf" (VFilt f0) args with VStr s => lib s = Some f | v => v = VFilt f end ->
  (forall a, In a ["base"; "j0"; "j1"; "factor"] -> In a (fv_attrs f)) ->
  as_float (dget "pts_per_dec" (VFloat 0) args) = Ok ppd ->
  exists w, check_hankel lib "dlf" args verb = Ok ("dlf", HtDlf f ppd, w).
Proof. exact hankel_dlf_args. Qed.
Definition x_fv : filtv := mkfv ["base"; "j0"; "j1"; "sin"; "cos"; "factor"] (mkF [1; 2; 4] 2 [1; 2; 3] [1; 2; 3] [1; 2; 3] [1; 2; 3]).
Example C32_case :
  accepted (check_hankel (fun _ => Some x_fv) "QuA" [] 2) /\ ~ accepted (check_hankel (fun _ => Some x_fv) "quadr" [] 2)
  /\ check_hankel (fun _ => Some x_fv) "quad" [("limit", VInt 7); ("foo", VNone)] 1
     = Ok ("quad", HtQuad (/ 10 ^ 12) (/ 10 ^ 20) 7 (/ 10 ^ 6) (/ 10) 40, true).
Proof.
  assert (L : lib_ok (fun _ => Some x_fv) "key_201_2009" ["base"; "j0"; "j1"; "factor"]).
  { exists x_fv. split; [reflexivity|]. cbn. intuition. }
  split; [|split].
  - apply C32_names; [exact L|]. cbn. tauto.
  - rewrite C32_names by exact L. cbn. intuition discriminate.
  - reflexivity.
Qed.
Print Assumptions C32_names.
Print Assumptions C32_rejects.
Print Assumptions C32_undocumented_refuted.
Print Assumptions C32_quad_settings.
Print Assumptions C32_qwe_settings.
Print Assumptions C32_dlf_settings.

(** ** C33 *)
Theorem C33_rejects : forall m lib leg lgi time q ft args verb,
  -2 < q < 2 -> ~ In (lower ft) ["dlf"; "qwe"; "fftlog"; "fft"] ->
  check_time m lib leg lgi time (SigNum q) ft args verb = Err ValueError.
Proof. exact check_time_rejects. Qed.
Theorem C33_accepts : forall lib leg lgi t sg,
  t <> [] -> (forall x, In x t -> 0 < x) ->
  (exists f, lib "key_201_2012" = Some f /\ (forall a, In a ["base"; "sin"; "cos"; "factor"] -> In a (fv_attrs f))
             /\ f_base (fv_filt f) <> []) ->
  (exists gx gw gmin, leg 21%Z = Ok (gx, gw) /\ lmin gx = Ok gmin /\ -1 < gmin < 1) ->
  forall ft, In ft ["dlf"; "qwe"; "fftlog"; "fft"] -> exists r, ft_settings lib leg lgi t sg ft [] = Ok r.
Proof. exact ft_accepts. Qed.
(** The names 'sin' and 'cos' documented in the modelling routines are rejected. *)
Theorem C33_sincos_refuted : forall m lib leg lgi time args verb ft, In ft ["sin"; "cos"] ->
  check_time m lib leg lgi time (SigNum 0) ft args verb = Err ValueError.
Proof.
  intros m lib leg lgi time args verb ft H. apply C33_rejects; [lra|].
  destruct H as [<-|[<-|[]]]; cbn; intuition discriminate.
Qed.
(** Signals: of the integers exactly -1, 0 and 1. *)
Theorem C33_signal : forall m leg time z,
  accepted (check_signal m leg time (SigNum (IZR z))) <-> In z [-1; 0; 1]%Z.
Proof. exact signal_int. Qed.
(** Of the real numbers, everything strictly between -2 and 2; the signal inside
    a waveform is not looked at. *)
Theorem C33_real_signal : forall m leg time q,
  accepted (check_signal m leg time (SigNum q)) <-> -2 < q < 2.
Proof.
  intros m leg time q. rewrite check_signal_num. unfold accepted.
  destruct (Rlt_dec (-2) q) as [a|a], (Rlt_dec q 2) as [b|b]; split; intros H; try lra; try (eexists; reflexivity);
    destruct H as (x & H); discriminate.
Qed.
Theorem C33_waveform_signal_refuted : forall m s, exists t f,
  check_signal m (fun _ => Ok ([0], [2])) [2] (SigWave [0; 1] [1; 0] s 1) = Ok (t, s, Some f).
Proof.
  intros m s. unfold check_signal.
  set (tt := fst (check_min [2] (Some (min_time m)))).
  assert (N : sincr [0; 1]) by (repeat constructor; lra).
  assert (T : some_segment tt [0; 1] [1; 0]).
  { exists 0%nat, (Rmax 2 (min_time m)). cbn. split; [lia|]. split; [lra|]. split.
    - left. unfold Rltb. destruct (Rlt_dec 2 (min_time m)); [rewrite Rmax_right|rewrite Rmax_left]; lra.
    - apply Rlt_le_trans with 2; [lra|apply Rmax_l]. }
  destruct (proj2 (C21_convolution [0] [2] tt [0; 1] [1; 0] N eq_refl eq_refl m (fun _ : Z => Ok ([0], [2])) 1%Z s
    ltac:(cbn; lia) ltac:(discriminate) eq_refl) T) as (ctime & f & E & _).
  rewrite E. cbn [bind]. eexists _, _. reflexivity.
Qed.
(** Sine for impulse (unless another kind is given) and switch-on, cosine for
    switch-off; only the FFT uses neither. *)
Theorem C33_kind : forall lib leg lgi t sg ft args freq targ rest,
  ft_settings lib leg lgi t sg ft args = Ok (freq, targ, rest) ->
  (0 < sg -> uses_sine targ = Some true \/ uses_sine targ = None) /\
  (sg < 0 -> uses_sine targ = Some false \/ uses_sine targ = None) /\
  (sg = 0 -> lookup "kind" args = None -> uses_sine targ = Some true \/ uses_sine targ = None) /\
  (uses_sine targ = None <-> ft = "fft").
Proof. exact kind_choice. Qed.
Example C33_case : forall m, exists o,
  check_time m (fun _ => Some x_fv) (fun _ => Err ValueError) (fun _ _ => 0) [2; 3] (SigNum (-1)) "FFT" [("nfreq", VInt 5)] 2 = Ok o
  /\ o_ft o = "fft".
Proof.
  intros m. unfold check_time. rewrite check_signal_num.
  destruct (Rlt_dec (-2) (-1)); [|lra]. destruct (Rlt_dec (-1) 2); [|lra]. eexists. split; reflexivity.
Qed.
Example C33_accepts_case : exists r, ft_settings (fun _ => Some x_fv) (fun _ => Ok ([0], [2])) (fun _ _ => 0) [2; 3] (-1) "dlf" [] = Ok r.
Proof.
  apply C33_accepts.
  - discriminate.
  - cbn. intros x [<-|[<-|[]]]; lra.
  - exists x_fv. split; [reflexivity|]. split; [cbn; intuition|discriminate].
  - exists [0], [2], 0. split; [reflexivity|]. split; [reflexivity|lra].
  - left. reflexivity.
Qed.
Print Assumptions C33_rejects.
Print Assumptions C33_accepts.
Print Assumptions C33_sincos_refuted.
Print Assumptions C33_signal.
Print Assumptions C33_real_signal.
Print Assumptions C33_waveform_signal_refuted.
Print Assumptions C33_kind.

(** ** C34 *)
(** Either some keyword is unknown and a TypeError is raised, or the values are
    the user's where given and the defaults elsewhere, and the warning is printed
    iff a keyword is not used by the routine and the verbosity is positive. *)
Theorem C34_get_kwargs : forall names defaults kw, NoDup names -> List.length defaults = List.length names ->
  numeric (verb_of names defaults kw (VInt 2)) ->
  (unknown names kw /\ get_kwargs names defaults kw = Err TypeError)
  \/ (~ unknown names kw /\
      exists w, get_kwargs names defaults kw = Ok (map2 (fun n d => dget n d kw) names defaults, w)
                /\ (w = true <-> unused names kw /\ positive_num (verb_of names defaults kw (VInt 2)))).
Proof. exact get_kwargs_spec. Qed.
Example C34_case :
  get_kwargs ["verb"; "ht"] [VInt 2; VStr "dlf"] [("ht", VStr "qwe"); ("cf", VFloat 1)] = Ok ([VInt 2; VStr "qwe"], true)
  /\ get_kwargs ["verb"; "ht"] [VInt 2; VStr "dlf"] [("ht", VStr "qwe"); ("hankel", VFloat 1)] = Err TypeError
  /\ get_kwargs ["ht"; "verb"] [VStr "dlf"; VInt 2] [("cf", VFloat 1); ("verb", VInt 0)] = Ok ([VStr "dlf"; VInt 0], false).
Proof. repeat split; reflexivity. Qed.
Print Assumptions C34_get_kwargs.

(** ** C36 *)
(** The raw phase of a number is its polar angle. *)
Theorem C36_angle : forall z, cnum_ok z ->
  let r := sqrt (c_re z * c_re z + c_im z * c_im z) in
  r * cos (angle1 z) = c_re z /\ r * sin (angle1 z) = c_im z /\ - PI <= angle1 z <= PI.
Proof. exact angle1_polar. Qed.
Theorem C36_raw : forall a k, (k < size a)%nat ->
  nth k (pha a false false true) 0 = angle1 (nth k (em_list a) (mkc 0 0 false false)).
Proof. exact pha_raw. Qed.
Theorem C36_unwrap : forall a lag k, (k < size a)%nat ->
  exists n, nth k (pha a false true lag) 0 = nth k (pha a false false lag) 0 + IZR n * (2 * PI).
Proof. exact pha_unwrap. Qed.
Theorem C36_step : forall a lag k, (S k < size a)%nat ->
  Rabs (nth (S k) (pha a false true lag) 0 - nth k (pha a false true lag) 0) <= PI.
Proof. exact pha_step. Qed.
Theorem C36_lead : forall l deg u, pha (EmC l) deg u false = map Ropp (pha (EmC l) deg u true).
Proof. exact pha_lead. Qed.
Theorem C36_degrees : forall a u lag, pha a true u lag = map (fun x => x * (180 / PI)) (pha a false u lag).
Proof. exact pha_deg. Qed.
Theorem C36_length : forall a deg u lag, List.length (pha a deg u lag) = size a.
Proof. exact pha_len. Qed.
(** For arrays of real numbers (time domain) lead is not minus lag: both are pi
    for a negative value. *)
Theorem C36_real_refuted : pha (EmR [(-1, true)]) false true false = [PI] /\ pha (EmR [(-1, true)]) false true true = [PI].
Proof. split; [rewrite pha_real_same|]; exact pha_real_neg. Qed.
Example C36_case : cnum_ok (mkc (-1) 0 true true) /\ pha (EmC [mkc (-1) 0 true true]) false true false = [PI].
Proof.
  split.
  - split; split; cbn; intros; try reflexivity; lra.
  - rewrite C36_lead. unfold pha. cbn [em_list map andb List.length Nat.ltb Nat.leb]. unfold angle1. cbn [c_re c_im c_nre c_nim].
    rewrite (proj2 (UtilsLayer.Reqb_true 0 0) eq_refl). rewrite (proj2 (UtilsLayer.Rltb_true (-1) 0)) by lra. cbn. f_equal. lra.
Qed.
Print Assumptions C36_angle.
Print Assumptions C36_raw.
Print Assumptions C36_unwrap.
Print Assumptions C36_step.
Print Assumptions C36_lead.
Print Assumptions C36_degrees.
Print Assumptions C36_length.
Print Assumptions C36_real_refuted.

(** ** C61 *)
(** Splined filter: the points that are interpolated lie between computed points. *)
Theorem C61_spline : forall filt inp nr b0 bl,
  idx (f_base filt) 0 = Ok b0 -> idx (f_base filt) (-1) = Ok bl -> 0 < b0 ->
  (forall b, In b (f_base filt) -> b0 <= b <= bl) ->
  inp <> [] -> (forall r, In r inp -> 0 < r) -> 0 < nr ->
  exists out ps, get_dlf_points filt inp nr = Ok ([out], PSpl ps) /\ (4 <= List.length out)%nat /\
    ps = map (fun r => map (fun b => b / r) (f_base filt)) inp /\
    forall row x, In row ps -> In x row -> hull out x.
Proof. exact spline_cover. Qed.
(** FFT with logarithmic spacing: the harmonics lie between computed frequencies. *)
Theorem C61_fft : forall lib leg lgi t sg args freq dfreq nfreq ntot p rest,
  ft_settings lib leg lgi t sg "fft" args = Ok (freq, FtFft dfreq nfreq ntot (Some p), rest) ->
  0 < dfreq -> (1 <= nfreq)%Z -> 1 <= log10 (IZR nfreq) * IZR p ->
  forall k, (1 <= k <= nfreq)%Z -> hull freq (IZR k * dfreq).
Proof. exact fft_cover. Qed.
(** FFTLog: the requested times lie between the times of the transform. *)
Theorem C61_fftlog : forall lib leg lgi t sg args freq ppd ad q mu inp rest,
  ft_settings lib leg lgi t sg "fftlog" args = Ok (freq, FtLog ppd ad q mu inp, rest) ->
  lookup "add_dec" args = None -> (2 <= ppd)%Z -> (forall x, In x t -> 0 < x) ->
  forall x, In x t -> hull (l_tcalc inp) x.
Proof. exact fftlog_default_cover. Qed.
(** QWE: twice the lowest frequency that the quadrature asks for is still below
    every computed frequency, so the spline is extrapolated. *)
Theorem C61_qwe_refuted : forall lib leg lgi t sg args freq sine rtol atol nquad maxint ppd dq a b limit rest gx gw gmin tmax,
  ft_settings lib leg lgi t sg "qwe" args = Ok (freq, FtQwe sine rtol atol nquad maxint ppd dq a b limit, rest) ->
  leg nquad = Ok (gx, gw) -> lmin gx = Ok gmin -> lmax t = Ok tmax ->
  / 10 ^ 20 < gmin + 1 -> gmin < 1 -> 0 < tmax -> (1 <= maxint)%Z -> (forall x, In x t -> 0 < x) ->
  forall f, In f freq -> 2 * qwe_first sine gmin tmax / (2 * PI) < f.
Proof. exact qwe_not_covered. Qed.
Example C61_spline_case : exists out ps, get_dlf_points (fv_filt x_fv) [1; 3] 5 = Ok ([out], PSpl ps) /\ hull out (2 / 3).
Proof.
  destruct (C61_spline (fv_filt x_fv) [1; 3] 5 1 4 eq_refl eq_refl) as (out & ps & E & _ & P & H); try lra.
  - cbn. intros b [<-|[<-|[<-|[]]]]; lra.
  - discriminate.
  - cbn. intros b [<-|[<-|[]]]; lra.
  - exists out, ps. split; [exact E|]. apply (H [1 / 3; 2 / 3; 4 / 3]); rewrite ?P; cbn; tauto.
Qed.
Example C61_qwe_case : exists freq targ, ft_settings (fun _ => Some x_fv) (fun _ => Ok ([0], [2])) (fun _ _ => 0) [2; 3] 0 "qwe" [] = Ok (freq, targ, [])
  /\ forall f, In f freq -> 2 * qwe_first true 0 3 / (2 * PI) < f.
Proof.
  destruct (C33_accepts (fun _ => Some x_fv) (fun _ => Ok ([0], [2])) (fun _ _ => 0) [2; 3] 0) with (ft := "qwe") as ([[freq targ] rest] & E).
  - discriminate.
  - cbn. intros x [<-|[<-|[]]]; lra.
  - exists x_fv. split; [reflexivity|]. split; [cbn; intuition|discriminate].
  - exists [0], [2], 0. split; [reflexivity|]. split; [reflexivity|lra].
  - right. left. reflexivity.
  - exists freq, targ.
    assert (T : exists sine rtol atol nquad maxint ppd dq a b limit, targ = FtQwe sine rtol atol nquad maxint ppd dq a b limit /\ rest = []
                /\ sine = true /\ maxint = 200%Z).
    { unfold ft_settings, dpop, dget in E.
      change (String.eqb "qwe" "dlf") with false in E. change (String.eqb "qwe" "qwe") with true in E. cbv iota in E.
      cbn [lookup delkey filter as_float as_int opt_of bind lmin lmax fold_left] in E.
      unfold logspace in E. destruct (_ <? 0)%Z in E; [discriminate|]. cbn [bind] in E.
      injection E as _ <- <-. do 10 eexists. split; [reflexivity|]. split; [reflexivity|]. split; [|reflexivity].
      apply Rleb_true. lra. }
    destruct T as (sine & rtol & atol & nquad & maxint & ppd & dq & a & b & limit & -> & -> & -> & ->).
    split; [exact E|].
    apply (C61_qwe_refuted _ _ _ _ _ _ _ _ _ _ _ _ _ _ _ _ _ _ [0] [2] 0 3 E); try reflexivity; try lra; try lia.
    + cbn. f_equal. apply Rmax_right. lra.
    + cbn. intros x [<-|[<-|[]]]; lra.
Qed.
Print Assumptions C61_spline.
Print Assumptions C61_fft.
Print Assumptions C61_fftlog.
Print Assumptions C61_qwe_refuted.
