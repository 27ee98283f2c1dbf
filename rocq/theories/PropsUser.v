(** C85: functions supplied by the user (models given as a dictionary, bandpass), and the
    deprecated routine loop. *)

From Coq Require Import QArith ZArith Reals List Bool String Lia Lra.
From Coquelicot Require Import Coquelicot.
From Verif Require Import PyBase CBase UtilsAb Utils UtilsLayer UtilsModel UtilsFreq Transform Fullspace Model Routines RoutinesK Bipole BipoleCol BipoleFinal Hooks HooksThm PropsUtils BipoleDip RoutinesThm PropsBipole.
Import ListNotations.
Local Open Scope R_scope.
Local Open Scope res_scope.

(** A dictionary whose functions return the values of another model gives the response of
    that model; the function for zeta is given the new values of eta. *)
Theorem C85_describes : forall band calc nt signal wf m gl mk src rec d q q' mo mo' freq ueta uzeta u1 u2 ab ms mr sp rp str xd lf lo,
  (exists v ex, q_res q = ResDict v ex) -> (exists v, q_res q' = ResArr v) ->
  cmodel m d (inp_of q) = Ok mo -> cmodel m d (inp_of q') = Ok mo' ->
  describes ueta uzeta mo (cfreq m freq mo) (cfreq m freq mo') ->
  m_full mo' = false \/ xd = Some false ->
  dipole_user band m ueta uzeta mk src rec d q freq ab xd lf lo = dipole_user band m u1 u2 mk src rec d q' freq ab xd lf lo /\
  dipole_user_time band calc nt signal wf m ueta uzeta mk src rec d q freq ab xd lf lo = dipole_user_time band calc nt signal wf m u1 u2 mk src rec d q' freq ab xd lf lo /\
  bipole_user band m gl ueta uzeta mk src rec d q freq ms mr sp rp str xd lf lo = bipole_user band m gl u1 u2 mk src rec d q' freq ms mr sp rp str xd lf lo /\
  bipole_user_time band calc nt signal wf m gl ueta uzeta mk src rec d q freq ms mr sp rp str xd lf lo = bipole_user_time band calc nt signal wf m gl u1 u2 mk src rec d q' freq ms mr sp rp str xd lf lo.
Proof.
  intros until lo. intros HD HA E E' HU HF. split; [|split; [|split]].
  - now apply (dipole_describe m mk src rec d q q' mo mo' freq ueta uzeta u1 u2 xd lf lo).
  - now apply (dipole_describe_time m mk src rec d q q' mo mo' freq ueta uzeta u1 u2 xd lf lo).
  - now apply (bipole_describe m mk src rec d q q' mo mo' freq ueta uzeta u1 u2 xd lf lo).
  - now apply (bipole_describe_time m mk src rec d q q' mo mo' freq ueta uzeta u1 u2 xd lf lo).
Qed.

(** Functions that change nothing, or none: the response of the plain array.  A uniform
    stack has the full-space shortcut only as an array. *)
Theorem C85_plain : forall band calc nt signal wf m gl mk src rec d q mo freq ueta uzeta u1 u2 ab ms mr sp rp str xd lf lo,
  inputs_wf (inp_of q) -> (exists v ex, q_res q = ResDict v ex) -> cmodel m d (inp_of q) = Ok mo ->
  (forall f, ueta = Some f -> forall mo fo, f mo fo = (f_etaH fo, f_etaV fo)) ->
  (forall f, uzeta = Some f -> forall mo fo, f mo fo = (f_zetaH fo, f_zetaV fo)) ->
  ~ (uniform (m_res mo) /\ uniform (m_aniso mo) /\ uniform (m_epermH mo) /\ uniform (m_epermV mo) /\ uniform (m_mpermH mo) /\ uniform (m_mpermV mo)) \/ xd = Some false ->
  dipole_user band m ueta uzeta mk src rec d q freq ab xd lf lo = dipole_user band m u1 u2 mk src rec d (as_array q) freq ab xd lf lo /\
  dipole_user_time band calc nt signal wf m ueta uzeta mk src rec d q freq ab xd lf lo = dipole_user_time band calc nt signal wf m u1 u2 mk src rec d (as_array q) freq ab xd lf lo /\
  bipole_user band m gl ueta uzeta mk src rec d q freq ms mr sp rp str xd lf lo = bipole_user band m gl u1 u2 mk src rec d (as_array q) freq ms mr sp rp str xd lf lo /\
  bipole_user_time band calc nt signal wf m gl ueta uzeta mk src rec d q freq ms mr sp rp str xd lf lo = bipole_user_time band calc nt signal wf m gl u1 u2 mk src rec d (as_array q) freq ms mr sp rp str xd lf lo.
Proof.
  intros until lo. intros W HD E He Hz HF. destruct (as_array_model m d q mo W E) as (mo' & E' & HC & HU).
  apply (C85_describes band calc nt signal wf m gl mk src rec d q (as_array q) mo mo' freq ueta uzeta u1 u2 ab ms mr sp rp str xd lf lo HD); auto.
  - eexists. reflexivity.
  - rewrite HC. split.
    + destruct ueta as [f|]; [now apply He|now split].
    + destruct uzeta as [f|]; [|now split]. rewrite (Hz f eq_refl). reflexivity.
  - destruct HF as [HF|HF]; [left|now right]. destruct (m_full mo') eqn:F; [|reflexivity]. exfalso. apply HF, HU. reflexivity.
Qed.

(** The functions see the model from top to bottom: listing the layers and every parameter,
    also those of the user, from bottom to top gives the same response. *)
Theorem C85_bottom_up : forall band calc nt signal wf m gl mk src rec d q freq ueta uzeta ab ms mr sp rp str xd lf lo,
  inputs_wf (inp_of q) -> strictx d -> (1 < List.length d)%nat -> 0 < min_res m ->
  dipole_user band m ueta uzeta mk src rec (rev d) (qrev q) freq ab xd lf lo = dipole_user band m ueta uzeta mk src rec d q freq ab xd lf lo /\
  dipole_user_time band calc nt signal wf m ueta uzeta mk src rec (rev d) (qrev q) freq ab xd lf lo = dipole_user_time band calc nt signal wf m ueta uzeta mk src rec d q freq ab xd lf lo /\
  bipole_user band m gl ueta uzeta mk src rec (rev d) (qrev q) freq ms mr sp rp str xd lf lo = bipole_user band m gl ueta uzeta mk src rec d q freq ms mr sp rp str xd lf lo /\
  bipole_user_time band calc nt signal wf m gl ueta uzeta mk src rec (rev d) (qrev q) freq ms mr sp rp str xd lf lo = bipole_user_time band calc nt signal wf m gl ueta uzeta mk src rec d q freq ms mr sp rp str xd lf lo.
Proof.
  intros until lo. intros W S L M. unfold dipole_user, dipole_user_time, bipole_user, bipole_user_time.
  rewrite dipole_rev, bipole_rev by assumption. repeat split.
Qed.

(** A bandpass that multiplies with a function of the frequency multiplies the response. *)
Theorem C85_bandpass : forall H m gl ueta uzeta mk src rec d q freq ab ms mr sp rp str xd lf lo,
  dipole_user (factor_band H) m ueta uzeta mk src rec d q freq ab xd lf lo =
    (E <- dipole_user None m ueta uzeta mk src rec d q freq ab xd lf lo ;; Ok (map2 times (map H (used_freq m freq)) E)) /\
  bipole_user (factor_band H) m gl ueta uzeta mk src rec d q freq ms mr sp rp str xd lf lo =
    (E <- bipole_user None m gl ueta uzeta mk src rec d q freq ms mr sp rp str xd lf lo ;; Ok (map2 times (map H (used_freq m freq)) E)).
Proof. intros. split; [apply dipole_band|apply bipole_band]. Qed.

(** In the time domain it comes before the transform: with the spectrum of a step it turns
    the impulse response into the step response. *)
Theorem C85_bandpass_time : forall calc nt signal wf m gl ueta uzeta mk src rec d q freq ab ms mr sp rp str xd lf lo,
  dipole_user_time (factor_band (step_factor signal)) calc nt 0 wf m ueta uzeta mk src rec d q freq ab xd lf lo =
    dipole_user_time None calc nt signal wf m ueta uzeta mk src rec d q freq ab xd lf lo /\
  bipole_user_time (factor_band (step_factor signal)) calc nt 0 wf m gl ueta uzeta mk src rec d q freq ms mr sp rp str xd lf lo =
    bipole_user_time None calc nt signal wf m gl ueta uzeta mk src rec d q freq ms mr sp rp str xd lf lo.
Proof. intros. split; [apply dipole_band_time|apply bipole_band_time]. Qed.

(** dipole_k accepts the dictionary and takes no notice of the functions. *)
Theorem C85_dipole_k : forall m src rec d q freq wn ab mo, inputs_wf (inp_of q) -> cmodel m d (inp_of q) = Ok mo ->
  dipole_k m src rec d q freq wn ab = dipole_k m src rec d (as_array q) freq wn ab.
Proof. exact dipole_k_dict. Qed.

(** The deprecated routine: magnetic flux sources without length, whatever is passed on. *)
Theorem C85_loop : forall band m gl ueta uzeta mk src rec d q freq k mrec rp str xd lf lo,
  loop band m gl ueta uzeta mk src rec d q freq k mrec rp str xd lf lo =
  bipole_user band m gl ueta uzeta mk src rec d q freq MxB mrec 1 rp str xd lf lo.
Proof. reflexivity. Qed.

(** Cases: three layers, a parameter of the user, functions that return another model. *)
Definition ud_q : params := {| q_res := ResDict (Nd [3%nat] [1; 10; 3]) [("tau"%string, Some (Nd [3%nat] [0; 5; 0]))];
  q_aniso := None; q_eH := None; q_eV := None; q_mH := None; q_mV := None |}.
Definition ua_q (l : list R) : params := {| q_res := ResArr (Nd [3%nat] l); q_aniso := None; q_eH := None; q_eV := None; q_mH := None; q_mV := None |}.
Lemma ud_wf : inputs_wf (inp_of ud_q).
Proof. constructor; cbn; auto. intros kv [<-|[]]. reflexivity. Qed.
Lemma ud_ok : exists mo, cmodel default_mins [Fin 0; Fin 100] (inp_of ud_q) = Ok mo /\ ~ uniform (m_res mo) /\ m_extra mo = [("tau"%string, [0; 5; 0])].
Proof.
  rewrite check_model_closed by apply ud_wf. unfold check_depth, drop_pinf, all_dec, any_dec, xltb. cmp. simpl. cmp. simpl.
  eexists. split; [reflexivity|]. split; [|reflexivity]. intros U. specialize (U _ _ (or_introl eq_refl) (or_intror (or_introl eq_refl))).
  assert (T : / 10 ^ 20 <= 1) by (rewrite <- Rinv_1; apply Rinv_le_contravar; [lra|apply pow_R1_Rle; lra]).
  cbn [min_res default_mins] in U. rewrite !Rmax_left in U by lra. lra.
Qed.
Lemma ua_ok : exists mo, cmodel default_mins [Fin 0; Fin 100] (inp_of (ua_q [2; 20; 6])) = Ok mo.
Proof.
  rewrite check_model_closed by (constructor; cbn; auto; intros kv []). unfold check_depth, drop_pinf, all_dec, any_dec, xltb. cmp. simpl. cmp. simpl. eauto.
Qed.
Example C85_describes_case : exists ueta uzeta, forall ab,
  dipole_user None default_mins ueta uzeta ones_mk wit_src wit_rec [Fin 0; Fin 100] ud_q [1] ab (Some false) false false =
  dipole_user None default_mins None None ones_mk wit_src wit_rec [Fin 0; Fin 100] (ua_q [2; 20; 6]) [1] ab (Some false) false false.
Proof.
  destruct ud_ok as (mo & E & _). destruct ua_ok as (mo' & E').
  exists (Some (fun _ _ => (f_etaH (cfreq default_mins [1] mo'), f_etaV (cfreq default_mins [1] mo')))), None. intros ab.
  apply (C85_describes None (fun _ => Err ValueError) 0%nat 0%Z None default_mins x_gl ones_mk wit_src wit_rec [Fin 0; Fin 100] ud_q (ua_q [2; 20; 6]) mo mo' [1]
           _ None None None ab (MxBool false) (MxBool false) 1%Z 1%Z 0 (Some false) false false); auto.
  - do 2 eexists. reflexivity.
  - eexists. reflexivity.
  - split; [reflexivity|]. cbv beta iota.
    rewrite check_model_closed in E by apply ud_wf. rewrite check_model_closed in E' by (constructor; cbn; auto; intros kv []).
    destruct (check_depth [Fin 0; Fin 100]) as [[sw d']|e]; [|discriminate].
    destruct (all_fit _ _) in E; [|discriminate]. destruct (all_fit _ _) in E'; [|discriminate].
    injection E as <-. injection E' as <-. split; reflexivity.
Qed.
Example C85_plain_case : forall band ab xd,
  dipole_user band default_mins (Some (fun _ fo => (f_etaH fo, f_etaV fo))) None ones_mk wit_src wit_rec [Fin 0; Fin 100] ud_q [1] ab xd false false =
  dipole_user band default_mins None None ones_mk wit_src wit_rec [Fin 0; Fin 100] (ua_q [1; 10; 3]) [1] ab xd false false.
Proof.
  intros band ab xd. destruct ud_ok as (mo & E & U & _). change (ua_q [1; 10; 3]) with (as_array ud_q).
  apply (C85_plain band (fun _ => Err ValueError) 0%nat 0%Z None default_mins x_gl ones_mk wit_src wit_rec [Fin 0; Fin 100] ud_q mo [1]
           _ None None None ab (MxBool false) (MxBool false) 1%Z 1%Z 0 xd false false ud_wf); auto.
  - do 2 eexists. reflexivity.
  - intros f H. injection H as <-. reflexivity.
  - discriminate.
  - left. tauto.
Qed.
Example C85_bottom_up_case : forall band ueta uzeta ab xd,
  dipole_user band default_mins ueta uzeta ones_mk wit_src wit_rec [Fin 100; Fin 0]
    {| q_res := ResDict (Nd [3%nat] [3; 10; 1]) [("tau"%string, Some (Nd [3%nat] [0; 5; 0]))]; q_aniso := None; q_eH := None; q_eV := None; q_mH := None; q_mV := None |} [1] ab xd false false =
  dipole_user band default_mins ueta uzeta ones_mk wit_src wit_rec [Fin 0; Fin 100] ud_q [1] ab xd false false.
Proof.
  intros band ueta uzeta ab xd.
  apply (C85_bottom_up band (fun _ => Err ValueError) 0%nat 0%Z None default_mins x_gl ones_mk wit_src wit_rec [Fin 0; Fin 100] ud_q [1]
           ueta uzeta ab (MxBool false) (MxBool false) 1%Z 1%Z 0 xd false false ud_wf x_depth_strict).
  - cbn. lia.
  - apply Rinv_0_lt_compat, pow_lt. lra.
Qed.
Example C85_bandpass_case : exists E,
  dipole_user None default_mins None None ones_mk wit_src wit_rec [] y_q [1] (AbNum (inject_Z 11)) (Some false) false false = Ok [[[RtoC 1]]] /\
  dipole_user (factor_band (fun _ => RtoC 2)) default_mins None None ones_mk wit_src wit_rec [] y_q [1] (AbNum (inject_Z 11)) (Some false) false false = Ok E /\
  E = [[[Cmult (RtoC 2) (RtoC 1)]]].
Proof.
  assert (A : dipole_user None default_mins None None ones_mk wit_src wit_rec [] y_q [1] (AbNum (inject_Z 11)) (Some false) false false = Ok [[[RtoC 1]]]).
  { unfold dipole_user. pose proof (y_dipole 1 1 ltac:(lia) ltac:(lia)) as Y.
    change (code false false 1 1) with 11%Z in Y. change (user_hook None None) with nohook. rewrite Y. reflexivity. }
  eexists. split; [exact A|]. rewrite (proj1 (C85_bandpass (fun _ => RtoC 2) default_mins x_gl None None ones_mk wit_src wit_rec [] y_q [1] (AbNum (inject_Z 11)) (MxBool false) (MxBool false) 1%Z 1%Z 0 (Some false) false false)), A.
  cbn [bind]. split; [reflexivity|]. unfold used_freq. destruct (laplace_of [1]); reflexivity.
Qed.

Print Assumptions C85_describes.
Print Assumptions C85_plain.
Print Assumptions C85_bottom_up.
Print Assumptions C85_bandpass.
Print Assumptions C85_bandpass_time.
Print Assumptions C85_dipole_k.
Print Assumptions C85_loop.
