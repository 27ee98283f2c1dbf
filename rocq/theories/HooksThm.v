(** User-supplied functions: what they can change and when they are applied. *)

From Coq Require Import ZArith Reals List Bool String Lia Lra.
From Coquelicot Require Import Coquelicot.
From Verif Require Import PyBase CBase UtilsAb Utils UtilsLayer UtilsModel UtilsFreq Transform Fullspace Model Routines RoutinesK Bipole BipoleCol BipoleFinal Hooks.
Import ListNotations.
Local Open Scope R_scope.
Local Open Scope res_scope.

(** the values computed from the checked model *)
Definition cfreq (m : mins) (freq : list R) (mo : model_out) : freq_out :=
  check_frequency m freq (m_res mo) (m_aniso mo) (m_epermH mo) (m_epermV mo) (m_mpermH mo) (m_mpermV mo).

Lemma fem_full : forall rdt calc ab off ang zs zr ls lr rows xd full full' ms mr lf lo cv,
  full = full' \/ xd = Some false ->
  fem rdt calc ab off ang zs zr ls lr rows xd full ms mr lf lo cv = fem rdt calc ab off ang zs zr ls lr rows xd full' ms mr lf lo cv.
Proof.
  intros until cv. intros [->| ->]; [reflexivity|]. unfold fem. destruct (inb ab [36%Z]); [reflexivity|].
  cbn [andb bind]. now rewrite !andb_false_r.
Qed.

Lemma dipole_same : forall m hook hook' mk src rec d q q' mo mo' freq ab xd lf lo,
  cmodel m d (inp_of q) = Ok mo -> cmodel m d (inp_of q') = Ok mo' -> m_depth mo = m_depth mo' ->
  apply_hook hook (q_res q) mo (cfreq m freq mo) = apply_hook hook' (q_res q') mo' (cfreq m freq mo') ->
  m_full mo = m_full mo' \/ xd = Some false ->
  dipole m hook mk src rec d q freq ab xd lf lo = dipole m hook' mk src rec d q' freq ab xd lf lo.
Proof.
  intros m hook hook' mk src rec d q q' mo mo' freq ab xd lf lo E E' ED EH EF. unfold cmodel, inp_of in E, E'. cbn in E, E'.
  unfold dipole. rewrite E, E'. cbn [bind]. fold (cfreq m freq mo). fold (cfreq m freq mo'). cbv zeta. rewrite EH, ED.
  destruct (check_ab ab) as [[[abc ms] mr]|e]; [|reflexivity]. cbn [bind].
  destruct (geometry m src rec) as [[[[[[off ang] zs] zr] ns] nr]|e]; [|reflexivity]. cbn [bind].
  destruct (layer1 (m_depth mo') zs); [|reflexivity]. cbn [bind]. destruct (layer1 (m_depth mo') zr); [|reflexivity]. cbn [bind].
  now rewrite (fem_full _ _ _ _ _ _ _ _ _ _ _ _ (m_full mo') _ _ _ _ _ EF).
Qed.

Lemma foldM_eq : forall A B (f g : A -> B -> res A) l a, (forall x b, f x b = g x b) -> foldM f l a = foldM g l a.
Proof. induction l as [|b l IH]; intros a H; [reflexivity|]. cbn [foldM]. rewrite H. destruct (g a b); [|reflexivity]. cbn [bind]. now apply IH. Qed.

Lemma bind_eq : forall A B (x : res A) (f g : A -> res B), (forall a, f a = g a) -> bind x f = bind x g.
Proof. intros A B [a|e] f g H; [apply H|reflexivity]. Qed.

Lemma loops_full : forall m mk d rows lap full full' xd lf lo ms mr st rt gl sp rp str bs br,
  full = full' \/ xd = Some false ->
  bipole_loops (mkSet m mk d rows lap full xd lf lo ms mr st rt) gl sp rp str bs br =
  bipole_loops (mkSet m mk d rows lap full' xd lf lo ms mr st rt) gl sp rp str bs br.
Proof.
  intros until br. intros F. unfold bipole_loops. cbn [k_m k_rows]. apply foldM_eq. intros EM isz.
  apply bind_eq. intros ts. apply foldM_eq. intros EM' irz. apply bind_eq. intros tr.
  match goal with |- bind ?a ?f = bind ?b _ => enough (X : a = b) by (rewrite X; reflexivity) end.
  unfold block. cbn [k_ms k_mr k_rows].
  match goal with |- bind ?a ?f = bind ?b _ => enough (X : a = b) by (rewrite X; reflexivity) end.
  apply foldM_eq. intros S isg. unfold src_point. cbn [k_depth k_rows k_st].
  apply bind_eq. intros zs. apply bind_eq. intros ls.
  match goal with |- bind ?a ?f = bind ?b _ => enough (X : a = b) by (rewrite X; reflexivity) end.
  apply foldM_eq. intros S' irg. unfold rec_point. cbn [k_m k_depth k_rows k_rt].
  apply bind_eq. intros zr. destruct (get_off_ang _ _ _ _ _) as [off ang]. apply bind_eq. intros lr.
  match goal with |- bind ?a ?f = bind ?b _ => enough (X : a = b) by (rewrite X; reflexivity) end.
  unfold ab_loop. cbn [k_m k_mk k_depth k_rows k_lap k_full k_xd k_lf k_lo k_ms k_mr]. apply foldM_eq. intros S'' ab.
  now rewrite (fem_full _ _ _ _ _ _ _ _ _ _ _ _ full' _ _ _ _ _ F).
Qed.

Lemma bipole_same : forall m gl hook hook' mk src rec d q q' mo mo' freq ms mr sp rp str xd lf lo,
  cmodel m d (inp_of q) = Ok mo -> cmodel m d (inp_of q') = Ok mo' -> m_depth mo = m_depth mo' ->
  apply_hook hook (q_res q) mo (cfreq m freq mo) = apply_hook hook' (q_res q') mo' (cfreq m freq mo') ->
  m_full mo = m_full mo' \/ xd = Some false ->
  bipole_array m gl hook mk src rec d q freq ms mr sp rp str xd lf lo = bipole_array m gl hook' mk src rec d q' freq ms mr sp rp str xd lf lo.
Proof.
  intros m gl hook hook' mk src rec d q q' mo mo' freq ms mr sp rp str xd lf lo E E' ED EH EF. unfold cmodel, inp_of in E, E'. cbn in E, E'.
  unfold bipole_array. rewrite E, E'. cbn [bind]. fold (cfreq m freq mo). fold (cfreq m freq mo'). cbv zeta. rewrite EH, ED.
  apply bind_eq. intros [a st]. apply bind_eq. intros bs. apply bind_eq. intros [b rt]. apply bind_eq. intros br.
  now rewrite (loops_full _ _ _ _ _ _ (m_full mo') _ _ _ _ _ _ _ _ _ _ _ _ _ EF).
Qed.

(** *** Any checked model has the depths of the call *)
Lemma cmodel_depth : forall m d i i' mo mo', cmodel m d i = Ok mo -> cmodel m d i' = Ok mo' -> m_depth mo = m_depth mo'.
Proof.
  assert (K : forall m d i mo, cmodel m d i = Ok mo -> exists sw, check_depth d = Ok (sw, m_depth mo)).
  { intros m d i mo H. unfold cmodel, check_model in H. apply bind_ok in H. destruct H as ([sw d'] & E & H). exists sw. rewrite E.
    repeat (apply bind_ok in H; destruct H as (? & ? & H); repeat match goal with p : (_ * _)%type |- _ => destruct p end). injection H as <-. reflexivity. }
  intros m d i i' mo mo' H H'. destruct (K _ _ _ _ H) as (sw & A). destruct (K _ _ _ _ H') as (sw' & B). congruence.
Qed.

(** a dictionary has no full-space shortcut *)
Lemma dict_full : forall m d i mo v ex, i_res i = ResDict v ex -> cmodel m d i = Ok mo -> m_full mo = false.
Proof.
  intros m d i mo v ex HR H. unfold cmodel, check_model in H. rewrite HR in H.
  repeat (apply bind_ok in H; destruct H as (? & ? & H); repeat match goal with p : (_ * _)%type |- _ => destruct p end).
  injection H as <-. cbn [m_full].
  repeat match goal with E : (bind _ _) = Ok (_, _) |- _ => apply bind_ok in E; destruct E as (? & _ & E); try (injection E; intros; subst; reflexivity) end.
Qed.
(** *** Functions that describe another model

    [fo'] are the values of the model [q']; the function for eta returns those of eta, and
    the function for zeta, which is given the new eta, those of zeta. *)
Definition with_eta (fo fo' : freq_out) : freq_out :=
  {| f_freq := f_freq fo; f_etaH := f_etaH fo'; f_etaV := f_etaV fo'; f_zetaH := f_zetaH fo; f_zetaV := f_zetaV fo |}.
Definition describes (ueta uzeta : userfn) (mo : model_out) (fo fo' : freq_out) : Prop :=
  (match ueta with Some f => f mo fo = (f_etaH fo', f_etaV fo') | None => f_etaH fo = f_etaH fo' /\ f_etaV fo = f_etaV fo' end) /\
  (match uzeta with Some f => f mo (with_eta fo fo') = (f_zetaH fo', f_zetaV fo') | None => f_zetaH fo = f_zetaH fo' /\ f_zetaV fo = f_zetaV fo' end).

Lemma cfreq_freq : forall m freq mo, f_freq (cfreq m freq mo) = used_freq m freq.
Proof. reflexivity. Qed.

Lemma describes_hook : forall m freq ueta uzeta mo mo',
  describes ueta uzeta mo (cfreq m freq mo) (cfreq m freq mo') ->
  user_hook ueta uzeta mo (cfreq m freq mo) = cfreq m freq mo'.
Proof.
  intros m freq ueta uzeta mo mo' [A B]. pose proof (cfreq_freq m freq mo) as F. pose proof (cfreq_freq m freq mo') as F'.
  generalize dependent (cfreq m freq mo). generalize dependent (cfreq m freq mo'). intros fo' F' fo A B F. unfold user_hook.
  assert (E : run_eta ueta mo fo = with_eta fo fo').
  { destruct ueta as [f|]; cbn [run_eta].
    - rewrite A. reflexivity.
    - destruct A as [A1 A2]. unfold with_eta. rewrite <- A1, <- A2. now destruct fo. }
  rewrite E. destruct uzeta as [f|]; cbn [run_zeta].
  - rewrite B. unfold with_eta. cbn. rewrite F, <- F'. now destruct fo'.
  - destruct B as [B1 B2]. unfold with_eta. rewrite B1, B2, F, <- F'. now destruct fo'.
Qed.

Section Describe.
Variables (m : mins) (mk : R -> R -> Z -> Z -> list ext -> Z -> bool -> bool -> hankel) (src rec : list ndin)
  (d : list ext) (q q' : params) (mo mo' : model_out) (freq : list R) (ueta uzeta u1 u2 : userfn) (xd : option bool) (lf lo : bool).
Hypothesis HD : exists v ex, q_res q = ResDict v ex.
Hypothesis HA : exists v, q_res q' = ResArr v.
Hypothesis E : cmodel m d (inp_of q) = Ok mo.
Hypothesis E' : cmodel m d (inp_of q') = Ok mo'.
Hypothesis HU : describes ueta uzeta mo (cfreq m freq mo) (cfreq m freq mo').
Hypothesis HF : m_full mo' = false \/ xd = Some false.

Lemma desc_apply : apply_hook (user_hook ueta uzeta) (q_res q) mo (cfreq m freq mo) = apply_hook (user_hook u1 u2) (q_res q') mo' (cfreq m freq mo').
Proof using HD HA HU. destruct HD as (v & ex & ->). destruct HA as (v' & ->). cbn [apply_hook]. now apply describes_hook. Qed.
Lemma desc_full : m_full mo = m_full mo' \/ xd = Some false.
Proof using HD E HF.
  destruct HD as (v & ex & R). destruct HF as [F|F]; [left|now right]. rewrite F. apply (dict_full m d (inp_of q) mo v ex); [exact R|exact E].
Qed.

Lemma dipole_describe : forall band ab,
  dipole_user band m ueta uzeta mk src rec d q freq ab xd lf lo = dipole_user band m u1 u2 mk src rec d q' freq ab xd lf lo.
Proof using All.
  intros band ab. unfold dipole_user.
  now rewrite (dipole_same m _ (user_hook u1 u2) mk src rec d q q' mo mo' freq ab xd lf lo E E' (cmodel_depth _ _ _ _ _ _ E E') desc_apply desc_full).
Qed.
Lemma dipole_describe_time : forall band calc nt signal wf ab,
  dipole_user_time band calc nt signal wf m ueta uzeta mk src rec d q freq ab xd lf lo = dipole_user_time band calc nt signal wf m u1 u2 mk src rec d q' freq ab xd lf lo.
Proof using All.
  intros band calc nt signal wf ab. unfold dipole_user_time.
  now rewrite (dipole_same m _ (user_hook u1 u2) mk src rec d q q' mo mo' freq ab xd lf lo E E' (cmodel_depth _ _ _ _ _ _ E E') desc_apply desc_full).
Qed.
Lemma bipole_describe : forall band gl ms mr sp rp str,
  bipole_user band m gl ueta uzeta mk src rec d q freq ms mr sp rp str xd lf lo = bipole_user band m gl u1 u2 mk src rec d q' freq ms mr sp rp str xd lf lo.
Proof using All.
  intros band gl ms mr sp rp str. unfold bipole_user.
  now rewrite (bipole_same m gl _ (user_hook u1 u2) mk src rec d q q' mo mo' freq ms mr sp rp str xd lf lo E E' (cmodel_depth _ _ _ _ _ _ E E') desc_apply desc_full).
Qed.
Lemma bipole_describe_time : forall band calc nt signal wf gl ms mr sp rp str,
  bipole_user_time band calc nt signal wf m gl ueta uzeta mk src rec d q freq ms mr sp rp str xd lf lo = bipole_user_time band calc nt signal wf m gl u1 u2 mk src rec d q' freq ms mr sp rp str xd lf lo.
Proof using All.
  intros band calc nt signal wf gl ms mr sp rp str. unfold bipole_user_time.
  now rewrite (bipole_same m gl _ (user_hook u1 u2) mk src rec d q q' mo mo' freq ms mr sp rp str xd lf lo E E' (cmodel_depth _ _ _ _ _ _ E E') desc_apply desc_full).
Qed.
End Describe.

(** *** Without functions *)
Definition as_array (q : params) : params :=
  {| q_res := ResArr (res_in (q_res q)); q_aniso := q_aniso q; q_eH := q_eH q; q_eV := q_eV q; q_mH := q_mH q; q_mV := q_mV q |}.

Lemma as_array_model : forall m d q mo, inputs_wf (inp_of q) -> cmodel m d (inp_of q) = Ok mo ->
  exists mo', cmodel m d (inp_of (as_array q)) = Ok mo' /\ (forall freq, cfreq m freq mo' = cfreq m freq mo) /\
    (m_full mo' = true <-> uniform (m_res mo) /\ uniform (m_aniso mo) /\ uniform (m_epermH mo) /\ uniform (m_epermV mo) /\ uniform (m_mpermH mo) /\ uniform (m_mpermV mo)).
Proof.
  intros m d q mo W H.
  assert (W' : inputs_wf (inp_of (as_array q))).
  { destruct W as [A B C D F G K]. constructor; try assumption. intros kv []. }
  rewrite check_model_closed in H by assumption. destruct (check_depth d) as [[sw d']|e] eqn:CD; [|discriminate].
  destruct (all_fit (List.length d') (inp_of q)) eqn:AF; [|discriminate]. injection H as <-.
  assert (X : cmodel m d (inp_of (as_array q)) = Ok (model_of m sw d' (inp_of (as_array q)))).
  { rewrite check_model_closed, CD by assumption.
    replace (all_fit (List.length d') (inp_of (as_array q))) with true; [reflexivity|]. symmetry.
    unfold all_fit in *. apply andb_true_iff in AF. destruct AF as [AF _]. apply andb_true_iff. now split. }
  exists (model_of m sw d' (inp_of (as_array q))). split; [exact X|]. split; [reflexivity|].
  rewrite (check_model_full m d (inp_of (as_array q)) _ W' X). split.
  - intros [_ U]. exact U.
  - intros U. split; [eexists; reflexivity|exact U].
Qed.

(** *** Reversed input *)
Definition qrev (q : params) : params :=
  {| q_res := resrev (q_res q); q_aniso := option_map ndrev (q_aniso q); q_eH := option_map ndrev (q_eH q); q_eV := option_map ndrev (q_eV q);
     q_mH := option_map ndrev (q_mH q); q_mV := option_map ndrev (q_mV q) |}.
Lemma apply_rev : forall hook r mo fo, apply_hook hook (resrev r) mo fo = apply_hook hook r mo fo.
Proof. intros hook [r|r ex] mo fo; reflexivity. Qed.

Lemma dipole_rev : forall m hook mk src rec d q freq ab xd lf lo, inputs_wf (inp_of q) -> strictx d -> (1 < List.length d)%nat -> 0 < min_res m ->
  dipole m hook mk src rec (rev d) (qrev q) freq ab xd lf lo = dipole m hook mk src rec d q freq ab xd lf lo.
Proof.
  intros m hook mk src rec d q freq ab xd lf lo W S L M. pose proof (check_model_rev m d (inp_of q) W S L M) as H.
  unfold cmodel, inprev, inp_of in H. cbn in H. unfold dipole. cbn [qrev q_res q_aniso q_eH q_eV q_mH q_mV]. rewrite H.
  apply bind_eq. intros mo. cbv zeta. now rewrite apply_rev.
Qed.
Lemma bipole_rev : forall m gl hook mk src rec d q freq ms mr sp rp str xd lf lo, inputs_wf (inp_of q) -> strictx d -> (1 < List.length d)%nat -> 0 < min_res m ->
  bipole_array m gl hook mk src rec (rev d) (qrev q) freq ms mr sp rp str xd lf lo = bipole_array m gl hook mk src rec d q freq ms mr sp rp str xd lf lo.
Proof.
  intros m gl hook mk src rec d q freq ms mr sp rp str xd lf lo W S L M. pose proof (check_model_rev m d (inp_of q) W S L M) as H.
  unfold cmodel, inprev, inp_of in H. cbn in H. unfold bipole_array. cbn [qrev q_res q_aniso q_eH q_eV q_mH q_mV]. rewrite H.
  apply bind_eq. intros mo. cbv zeta. now rewrite apply_rev.
Qed.

(** *** dipole_k takes no notice of the functions *)
Lemma dipole_k_dict : forall m src rec d q freq wn ab mo, inputs_wf (inp_of q) -> cmodel m d (inp_of q) = Ok mo ->
  dipole_k m src rec d q freq wn ab = dipole_k m src rec d (as_array q) freq wn ab.
Proof.
  intros m src rec d q freq wn ab mo W H. destruct (as_array_model m d q mo W H) as (mo' & H' & HC & _).
  pose proof (cmodel_depth _ _ _ _ _ _ H H') as HDp. specialize (HC freq). unfold cfreq in HC.
  unfold cmodel, inp_of in H, H'. cbn in H, H'. unfold dipole_k. cbn [as_array q_res q_aniso q_eH q_eV q_mH q_mV].
  rewrite H, H'. cbn [bind]. cbv zeta. rewrite HC, HDp. reflexivity.
Qed.

(** *** Bandpass *)
Definition factor_band (H : R -> C) : bandfn := Some (fun fr EM => scale_rows (map H fr) EM).
Definition times (h : C) (A : list (list C)) : list (list C) := map (map (fun a => Cmult h a)) A.

Lemma reshape_scale : forall nr ns v EM, reshapeF nr ns (scale_rows v EM) = map2 times v (reshapeF nr ns EM).
Proof.
  intros nr ns v EM. unfold reshapeF, scale_rows, map2. revert EM. induction v as [|h v IH]; intros [|row EM]; try reflexivity.
  cbn [combine map fst snd]. rewrite <- IH. f_equal. unfold times. rewrite map_map. apply map_ext. intros r. rewrite map_map. apply map_ext. intros s.
  replace (RtoC 0) with (Cmult (RtoC 0) h) at 1 by apply Cmult_0_l. rewrite (map_nth (fun a => Cmult a h)). apply Cmult_comm.
Qed.

Lemma bip_freq : forall m gl ueta uzeta mk src rec d q freq ms mr sp rp str xd lf lo EM nr ns fr,
  bipole_array m gl (user_hook ueta uzeta) mk src rec d q freq ms mr sp rp str xd lf lo = Ok (EM, nr, ns, fr) -> fr = used_freq m freq.
Proof.
  intros until fr. intros H. unfold bipole_array in H. apply bind_ok in H. destruct H as (mo & _ & H). cbv zeta in H.
  repeat (apply bind_ok in H; destruct H as (? & _ & H); repeat match goal with p : (_ * _)%type |- _ => destruct p end).
  injection H as _ _ _ <-. destruct (q_res q); [reflexivity|]. cbn [apply_hook]. unfold user_hook. destruct ueta, uzeta; reflexivity.
Qed.

Lemma dipole_band : forall H m ueta uzeta mk src rec d q freq ab xd lf lo,
  dipole_user (factor_band H) m ueta uzeta mk src rec d q freq ab xd lf lo =
  (E <- dipole_user None m ueta uzeta mk src rec d q freq ab xd lf lo ;; Ok (map2 times (map H (used_freq m freq)) E)).
Proof.
  intros. unfold dipole_user. destruct (dipole _ _ _ _ _ _ _ _ _ _ _ _) as [[[EM nr] ns]|e]; [|reflexivity].
  cbn [bind run_band factor_band]. now rewrite reshape_scale.
Qed.
Lemma bipole_band : forall H m gl ueta uzeta mk src rec d q freq ms mr sp rp str xd lf lo,
  bipole_user (factor_band H) m gl ueta uzeta mk src rec d q freq ms mr sp rp str xd lf lo =
  (E <- bipole_user None m gl ueta uzeta mk src rec d q freq ms mr sp rp str xd lf lo ;; Ok (map2 times (map H (used_freq m freq)) E)).
Proof.
  intros. unfold bipole_user. destruct (bipole_array _ _ _ _ _ _ _ _ _ _ _ _ _ _ _ _ _) as [[[[EM nr] ns] fr]|e] eqn:X; [|reflexivity].
  cbn [bind run_band factor_band]. rewrite reshape_scale. now rewrite (bip_freq _ _ _ _ _ _ _ _ _ _ _ _ _ _ _ _ _ _ _ _ _ _ X).
Qed.

Lemma step0 : forall f, step_factor 0 f = RtoC 1.
Proof. reflexivity. Qed.
Lemma column_scale : forall i fr signal EM,
  map2 Cmult (column i (scale_rows (map (step_factor signal) fr) EM)) (map (step_factor 0) fr) = map2 Cmult (column i EM) (map (step_factor signal) fr).
Proof.
  intros i fr signal EM. unfold column, scale_rows, map2. revert EM. induction fr as [|f fr IH]; intros [|row EM]; try reflexivity.
  cbn [map combine fst snd]. rewrite IH. f_equal. rewrite step0, Cmult_1_r.
  replace (RtoC 0) with (Cmult (RtoC 0) (step_factor signal f)) at 1 by apply Cmult_0_l. apply (map_nth (fun a => Cmult a (step_factor signal f))).
Qed.
Lemma tem_band : forall calc nt no EM fr signal wf cv,
  tem calc nt no (scale_rows (map (step_factor signal) fr) EM) fr 0 wf cv = tem calc nt no EM fr signal wf cv.
Proof.
  intros. unfold tem.
  match goal with |- bind ?a _ = bind ?b _ => enough (X : a = b) by now rewrite X end.
  apply foldM_eq. intros [cols c] i. now rewrite column_scale.
Qed.
Lemma dipole_band_time : forall calc nt signal wf m ueta uzeta mk src rec d q freq ab xd lf lo,
  dipole_user_time (factor_band (step_factor signal)) calc nt 0 wf m ueta uzeta mk src rec d q freq ab xd lf lo =
  dipole_user_time None calc nt signal wf m ueta uzeta mk src rec d q freq ab xd lf lo.
Proof. intros. unfold dipole_user_time. apply bind_eq. intros [[EM nr] ns]. cbn [run_band factor_band]. now rewrite tem_band. Qed.
Lemma bipole_band_time : forall calc nt signal wf m gl ueta uzeta mk src rec d q freq ms mr sp rp str xd lf lo,
  bipole_user_time (factor_band (step_factor signal)) calc nt 0 wf m gl ueta uzeta mk src rec d q freq ms mr sp rp str xd lf lo =
  bipole_user_time None calc nt signal wf m gl ueta uzeta mk src rec d q freq ms mr sp rp str xd lf lo.
Proof. intros. unfold bipole_user_time. apply bind_eq. intros [[[EM nr] ns] fr]. cbn [run_band factor_band]. now rewrite tem_band. Qed.
