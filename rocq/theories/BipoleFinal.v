(** The routine bipole: the elements of a survey, and their scaling. *)

From Coq Require Import ZArith Reals List Bool String Lia Lra.
From Coquelicot Require Import Coquelicot.
From Verif Require Import PyBase CBase Kernel KernelSpec KernelClosed KernelMain KernelThm KernelThm2 Utils UtilsLayer UtilsModel UtilsFreq UtilsGeo UtilsSurvey UtilsArgs Transform TransformDlf Fullspace Model ModelFem Routines RoutinesThm Bipole BipoleCol BipoleThm BipoleLoop BipolePlace BipoleMain.
Import ListNotations.
Local Open Scope R_scope.
Local Open Scope res_scope.

(** one element [r, s] of every frequency, as an array of that shape *)
Definition at_rs (r s : nat) (E : list (list (list C))) : list (list (list C)) := map (fun A => [[nth s (nth r A []) (RtoC 0)]]) E.
Definition at_rsT (r s : nat) (E : list (list (list R))) : list (list (list R)) := map (fun A => [[nth s (nth r A []) 0]]) E.

(** The Hankel transform treats the offsets of the checked call on their own. *)
Definition column_call (m : mins) (hook : hookt) (mk : R -> R -> Z -> Z -> list ext -> Z -> bool -> bool -> hankel)
    (depth : list ext) (q : params) (freq : list R) (msrc mrec : mxv) (xdirect : option bool) : Prop :=
  forall mo ms st mr rt,
  check_model m depth (q_res q) (q_aniso q) (q_eH q) (q_eV q) (q_mH q) (q_mV q) = Ok mo ->
  check_mx true msrc = Ok (ms, st) -> check_mx false mrec = Ok (mr, rt) ->
  let rows := rows_of (apply_hook hook (q_res q) mo
    (check_frequency m freq (m_res mo) (m_aniso mo) (m_epermH mo) (m_epermV mo) (m_mpermH mo) (m_mpermV mo))) in
  rows <> [] /\
  exists valid : frow -> Prop, (forall r, In r rows -> valid r) /\
    forall zs zr ls lr ab, layer1 (m_depth mo) zs = Ok ls -> layer1 (m_depth mo) zr = Ok lr ->
      entry ms mr ab -> ab <> 36%Z -> columnwise valid (mk zs zr ls lr (m_depth mo) ab ms mr) (xd_of xdirect).

(** a survey whose angles are exact multiples of 90 degrees or well away from them *)
Definition clean_survey (inp : list ndin) (b : bip) : Prop :=
  (0 < sizes inp)%nat /\ List.Forall nd_wf inp /\ check_bipole inp = Ok b /\ forall i, (i < b_n b)%nat -> clean_pole b i.

Lemma lin_lt : forall r s nr ns, (r < nr)%nat -> (s < ns)%nat -> (r + nr * s < nr * ns)%nat.
Proof. intros. nia. Qed.

Section Survey.
Variables (m : mins) (gl : Z -> list R * list R) (hook : hookt) (mk : R -> R -> Z -> Z -> list ext -> Z -> bool -> bool -> hankel)
  (depth : list ext) (q : params) (freq : list R) (msrc mrec : mxv) (srcpts recpts : Z) (strength : R) (xdirect : option bool) (lf lo : bool).
Hypothesis Hoff : 0 < min_off m.
Hypothesis HC : column_call m hook mk depth q freq msrc mrec xdirect.
Hypothesis Gs : good_rule gl srcpts.
Hypothesis Gr : good_rule gl recpts.
Variables (src rec : list ndin) (bs br : bip).
Hypothesis Hs : clean_survey src bs.
Hypothesis Hr : clean_survey rec br.

Let arr src rec := bipole_array m gl hook mk src rec depth q freq msrc mrec srcpts recpts strength xdirect lf lo.

Lemma array_elementwise : forall EM nr ns fr, arr src rec = Ok (EM, nr, ns, fr) ->
  nr = b_n br /\ ns = b_n bs /\ shp (List.length EM) (nr * ns) EM /\
  forall s r, (s < ns)%nat -> (r < nr)%nat ->
    arr (pole_in bs s) (pole_in br r) = Ok (colm (r + nr * s) EM, 1%nat, 1%nat, fr).
Proof using All.
  intros EM nr ns fr H. unfold arr, bipole_array in *. destruct Hs as (Ps & Ws & Es & Ks). destruct Hr as (Pr & Wr & Er & Kr).
  apply bind_ok in H. destruct H as (mo & Em & H). apply bind_ok in H. destruct H as ([ms st] & Ex & H).
  apply bind_ok in H. destruct H as (bs' & Eb & H). rewrite Es in Eb. injection Eb as <-.
  apply bind_ok in H. destruct H as ([mr rt] & Ey & H). apply bind_ok in H. destruct H as (br' & Eb & H). rewrite Er in Eb. injection Eb as <-.
  apply bind_ok in H. destruct H as (EM' & EL & H).
  destruct (HC mo ms st mr rt Em Ex Ey) as (NE & valid & HV & HCol).
  pose proof (check_bipole_checked _ _ Ps Ws Es) as Cs. pose proof (check_bipole_checked _ _ Pr Wr Er) as Cr.
  set (K := mkSet m mk (m_depth mo) _ (laplace_of freq) (m_full mo) xdirect lf lo ms mr st rt) in *.
  destruct (loops_elementwise K gl srcpts recpts strength bs br valid (List.length (k_rows K)) eq_refl NE HV Hoff HCol Cs Cr Gs Gr Ks Kr EM' EL) as [SE LE].
  injection H as <- <- <- <-.
  split; [reflexivity|]. split; [reflexivity|]. split; [split; [reflexivity|apply SE]|].
  intros s r Ls Lr. rewrite (check_pole bs s Cs Ls), (check_pole br r Cr Lr). rewrite Em. cbn [bind]. rewrite Ex. cbn [bind]. rewrite Ey. cbn [bind].
  fold K. rewrite (LE s r Ls Lr). reflexivity.
Qed.

Lemma nth_seq_map : forall {X} (f : nat -> X) n k d, (k < n)%nat -> nth k (map f (seq 0 n)) d = f k.
Proof.
  intros X f n k d Hk. rewrite (nth_indep _ d (f 0%nat)) by (now rewrite map_length, seq_length). rewrite (map_nth f), seq_nth by assumption. reflexivity.
Qed.

Theorem bipole_elementwise : forall E,
  bipole m gl hook mk src rec depth q freq msrc mrec srcpts recpts strength xdirect lf lo = Ok E ->
  (forall A, In A E -> List.length A = b_n br /\ forall row, In row A -> List.length row = b_n bs) /\
  forall s r, (s < b_n bs)%nat -> (r < b_n br)%nat ->
    bipole m gl hook mk (pole_in bs s) (pole_in br r) depth q freq msrc mrec srcpts recpts strength xdirect lf lo = Ok (at_rs r s E).
Proof using All.
  intros E H. unfold bipole in *. apply bind_ok in H. destruct H as ([[[EM nr] ns] fr] & EA & H). injection H as <-.
  destruct (array_elementwise EM nr ns fr EA) as (-> & -> & [_ W] & LE). split.
  - intros A HA. unfold reshapeF in HA. apply in_map_iff in HA. destruct HA as (row & <- & _). split; [now rewrite map_length, seq_length|].
    intros x Hx. apply in_map_iff in Hx. destruct Hx as (i & <- & _). now rewrite map_length, seq_length.
  - intros s r Ls Lr. specialize (LE s r Ls Lr). unfold arr in LE. rewrite LE. cbn [bind]. f_equal.
    unfold at_rs, reshapeF, colm. rewrite !map_map. apply map_ext. intros row. cbn [seq map nth Nat.add Nat.mul].
    rewrite nth_seq_map by assumption. rewrite nth_seq_map by assumption. reflexivity.
Qed.

(** a function on arrays of times that treats the columns on their own *)
Definition wave_cols (w : list (list R) -> list (list R)) : Prop :=
  forall t n j, t <> [] -> (forall r, In r t -> List.length r = n) -> (j < n)%nat ->
  w (map (fun row => [nth j row 0]) t) = map (fun row => [nth j row 0]) (w t).

Lemma tem_column : forall calc nt N EM fr signal w t c j, match w with Some g => wave_cols g | None => True end -> (0 < nt)%nat -> (j < N)%nat ->
  tem calc nt N EM fr signal w true = Ok (t, c) ->
  exists c', tem calc nt 1 (colm j EM) fr signal w true = Ok (map (fun row => [nth j row 0]) t, c').
Proof.
  intros calc nt N EM fr signal w t c j HW Hnt Hj H. unfold tem in *.
  apply bind_ok in H. destruct H as ([cols cv] & EF & H).
  set (fact := map (step_factor signal) fr) in *.
  set (F := fun (st : list (list R) * bool) (i : nat) => let '(cols, cv) := st in
       '(o, c) <- calc (map2 Cmult (column i EM) fact) ;;
       o <- need (List.length o =? nt)%nat ValueError o ;; Ok (cols ++ [o], (cv && c)%bool)) in *.
  assert (G : forall n s c0 b cols cv, foldM F (seq s n) (c0, b) = Ok (cols, cv) ->
     exists l, cols = c0 ++ l /\ List.length l = n /\ forall i, (i < n)%nat -> exists ci, calc (map2 Cmult (column (s + i) EM) fact) = Ok (nth i l [], ci) /\ List.length (nth i l []) = nt).
  { induction n as [|n IH]; intros s c0 b cols0 cv0 H0; cbn [seq foldM] in H0.
    - injection H0 as <- <-. exists []. split; [now rewrite app_nil_r|]. split; [reflexivity|]. intros; lia.
    - apply bind_ok in H0. destruct H0 as ([c1 b1] & E1 & H0). unfold F in E1. apply bind_ok in E1. destruct E1 as ([o co] & EO & E1).
      apply bind_ok in E1. destruct E1 as (o' & E2 & E1). unfold need in E2. destruct (Nat.eqb_spec (List.length o) nt) as [Lo|]; [|discriminate]. injection E2 as <-. injection E1 as <- <-.
      destruct (IH (S s) _ _ _ _ H0) as (l & -> & Ll & Hl). exists (o :: l). split; [now rewrite <- app_assoc|]. split; [cbn; now rewrite Ll|].
      intros [|i] Hi; cbn [nth]; [rewrite Nat.add_0_r; exists co; split; assumption|]. destruct (Hl i ltac:(lia)) as (ci & A & B). exists ci. split; [|exact B]. rewrite <- A. do 3 f_equal. lia. }
  destruct (G N 0%nat [] true cols cv EF) as (l & -> & Ll & Hl). cbn [app] in *. destruct (Hl j Hj) as (ci & EC & LC). rewrite Nat.add_0_l in EC.
  assert (CJ : column 0 (colm j EM) = column j EM) by (unfold column, colm; rewrite map_map; reflexivity).
  cbn [seq foldM]. rewrite CJ, EC. cbn [bind]. rewrite LC, Nat.eqb_refl. cbn [need bind app].
  exists ci. apply (f_equal (fun r => match r with Ok v => v | Err _ => (t, c) end)) in H. injection H as H _.
  f_equal. f_equal. rewrite <- H. clear H. set (tE := map (fun t0 => map (fun col => 2 / PI * nth t0 col 0) l) (seq 0 nt)).
  assert (ET : map (fun row => [nth j row 0]) tE = map (fun t0 => map (fun col => 2 / PI * nth t0 col 0) [nth j l []]) (seq 0 nt)).
  { unfold tE. rewrite map_map. apply map_ext. intros t0. cbn [map]. f_equal.
    match goal with |- nth j (map ?f l) 0 = _ => rewrite (nth_indep (map f l) 0 (f [])) by (rewrite map_length; lia); rewrite (map_nth f) end. reflexivity. }
  rewrite <- ET. destruct w as [g|]; [|reflexivity]. apply (HW tE N j); [|  |assumption]; [unfold tE; intros E; apply (f_equal (@List.length _)) in E; rewrite map_length, seq_length in E; cbn in E; lia|].
  intros r0 Hr0. unfold tE in Hr0. apply in_map_iff in Hr0. destruct Hr0 as (t0 & <- & _). now rewrite map_length.
Qed.

Theorem bipole_time_elementwise : forall calc nt signal w E, match w with Some g => wave_cols g | None => True end -> (0 < nt)%nat ->
  bipole_time calc nt signal w m gl hook mk src rec depth q freq msrc mrec srcpts recpts strength xdirect lf lo = Ok E ->
  (forall A, In A E -> List.length A = b_n br /\ forall row, In row A -> List.length row = b_n bs) /\
  forall s r, (s < b_n bs)%nat -> (r < b_n br)%nat ->
    bipole_time calc nt signal w m gl hook mk (pole_in bs s) (pole_in br r) depth q freq msrc mrec srcpts recpts strength xdirect lf lo = Ok (at_rsT r s E).
Proof using All.
  intros calc nt signal w E HW Hnt H. unfold bipole_time in *. apply bind_ok in H. destruct H as ([[[EM nr] ns] fr] & EA & H).
  apply bind_ok in H. destruct H as ([t c] & ET & H). injection H as <-.
  destruct (array_elementwise EM nr ns fr EA) as (-> & -> & [_ W] & LE). split.
  - intros A HA. unfold reshapeT in HA. apply in_map_iff in HA. destruct HA as (row & <- & _). split; [now rewrite map_length, seq_length|].
    intros x Hx. apply in_map_iff in Hx. destruct Hx as (i & <- & _). now rewrite map_length, seq_length.
  - intros s r Ls Lr. specialize (LE s r Ls Lr). unfold arr in LE. rewrite LE. cbn [bind].
    change (1 * 1)%nat with 1%nat.
    destruct (tem_column calc nt _ EM fr signal w t c (r + b_n br * s) HW Hnt (lin_lt _ _ _ _ Lr Ls) ET) as (c' & ->). cbn [bind]. f_equal.
    unfold at_rsT, reshapeT. rewrite !map_map. apply map_ext. intros row. cbn [seq map nth Nat.add Nat.mul].
    rewrite nth_seq_map by assumption. rewrite nth_seq_map by assumption. reflexivity.
Qed.
End Survey.

(** ** The digital linear filter without interpolation *)

Definition dlf_mk (spl : interp) (filt : dfilter) : R -> R -> Z -> Z -> list ext -> Z -> bool -> bool -> hankel :=
  fun zs zr ls lr d ab ms mr => dlf_calc spl filt 0 zs zr ls lr d ab ms mr.

Definition inp_of (q : params) : inputs :=
  {| i_res := q_res q; i_aniso := q_aniso q; i_epermH := q_eH q; i_epermV := q_eV q; i_mpermH := q_mH q; i_mpermV := q_mV q |}.

(** a well-formed model without hook *)
Record plain_model (m : mins) (depth : list ext) (q : params) (freq : list R) : Prop := {
  pm_res : exists v, q_res q = ResArr v;
  pm_wf : inputs_wf (inp_of q);
  pm_depth : strictx depth \/ strictx (rev depth);
  pm_mres : 0 < min_res m;
  pm_mfreq : 0 < min_freq m;
  pm_mperm : forall o, cmodel m depth (inp_of q) = Ok o -> forall x, In x (m_mpermH o) \/ In x (m_mpermV o) -> 0 < x;
  pm_freq : freq <> [] }.

Lemma entry_valid : forall ms mr ab, entry ms mr ab -> ab <> 36%Z -> valid_call ab ms mr.
Proof.
  intros ms mr ab (r & s & Hr & Hs & ->) H. unfold valid_call, ee_abs, kernel_abs.
  assert (Er : (r = 1 \/ r = 2 \/ r = 3)%Z) by lia. assert (Es : (s = 1 \/ s = 2 \/ s = 3)%Z) by lia. clear Hr Hs.
  destruct ms, mr; cbn [andb]; destruct Er as [-> | [-> | ->]]; destruct Es as [-> | [-> | ->]]; vm_compute in H |- *; tauto.
Qed.

Lemma freq_lengths : forall m freq a b c d e f, let fo := check_frequency m freq a b c d e f in
  List.length (f_etaH fo) = List.length freq /\ List.length (f_etaV fo) = List.length freq /\
  List.length (f_zetaH fo) = List.length freq /\ List.length (f_zetaV fo) = List.length freq.
Proof.
  intros m freq a b c d e f. cbv zeta. unfold check_frequency, outer. cbn [f_etaH f_etaV f_zetaH f_zetaV].
  rewrite !map_length. match goal with |- context [check_min ?l _] => rewrite (proj1 (check_min_spec l (min_freq m))) end.
  destruct (negb _); rewrite ?map_length; auto.
Qed.

Theorem dlf_column_call : forall m hook spl filt depth q freq msrc mrec xdirect,
  well_formed filt -> plain_model m depth q freq ->
  column_call m hook (dlf_mk spl filt) depth q freq msrc mrec xdirect.
Proof.
  intros m hook spl filt depth q freq msrc mrec xdirect HF [[v HR] HW HD M1 M2 MU FN] mo ms st mr rt Em Ex Ey rows.
  assert (Er : rows = rows_of (check_frequency m freq (m_res mo) (m_aniso mo) (m_epermH mo) (m_epermV mo) (m_mpermH mo) (m_mpermV mo))).
  { unfold rows. rewrite HR. reflexivity. }
  clearbody rows. subst rows. set (fo := check_frequency _ _ _ _ _ _ _ _).
  destruct (freq_lengths m freq (m_res mo) (m_aniso mo) (m_epermH mo) (m_epermV mo) (m_mpermH mo) (m_mpermV mo)) as (L1 & L2 & L3 & L4). fold fo in L1, L2, L3, L4.
  change (cmodel m depth (inp_of q) = Ok mo) in Em.
  assert (LR : List.length (rows_of fo) = List.length freq) by (unfold rows_of; rewrite map_length, !combine_length; lia).
  assert (F0 : (0 < List.length freq)%nat) by (destruct freq; [congruence|cbn; lia]).
  split; [intros E; rewrite E in LR; cbn in LR; lia|].
  pose proof (fun j => checked_passive m depth (inp_of q) mo freq fo j HW HD M1 M2 Em eq_refl (MU mo Em)) as CP. cbv zeta in CP.
  set (N := (List.length (m_depth mo) - 1)%nat) in *. set (z := depth_fun (m_depth mo)) in *.
  exists (passive_row N z). split.
  - intros r Hr. destruct (In_nth _ _ r_d Hr) as (j & Hj & <-). rewrite LR in Hj. destruct (CP j Hj) as (_ & _ & E1 & E2 & E3 & E4 & PM).
    exists (row (f_etaH fo) j), (row (f_etaV fo) j), (row (f_zetaH fo) j), (row (f_zetaV fo) j). split; [exact PM|].
    rewrite <- E1, <- E2, <- E3, <- E4. unfold rows_of.
    match goal with |- nth j (map ?f _) _ = _ => rewrite (nth_indep _ r_d (f (([], []), ([], [])))) by (rewrite map_length, !combine_length; lia); rewrite (map_nth f) end.
    rewrite !combine_nth by (rewrite ?combine_length; lia). reflexivity.
  - intros zs zr ls lr ab Hls Hlr He H36. destruct (CP 0%nat F0) as (ED & INC & _).
    assert (LY : forall y k, layer1 (m_depth mo) y = Ok k -> exists n, k = Z.of_nat n /\ (n <= N)%nat).
    { intros y k Hk. unfold layer1 in Hk. rewrite ED in Hk. rewrite layer_nr_lay in Hk by (intros i Hi; left; apply INC; lia). cbn [map] in Hk. injection Hk as <-. eexists. split; [reflexivity|]. apply KernelBVP.lay_le. }
    destruct (LY _ _ Hls) as (s & -> & Ls). destruct (LY _ _ Hlr) as (r & -> & Lr). rewrite ED. unfold dlf_mk.
    eapply separable_columnwise. apply dlf_separable; auto. now apply entry_valid.
Qed.

(** ** Waveforms *)

Lemma waveform_cols : forall m leg time nodes amp sg nq ct sg' ap,
  check_waveform m leg time nodes amp sg nq = Ok (ct, sg', ap) -> wave_cols ap.
Proof.
  intros m leg time nodes amp sg nq ct sg' ap H. unfold check_waveform in H.
  apply bind_ok in H. destruct H as (slopes & _ & H). apply bind_ok in H. destruct H as ([gx gw] & _ & H).
  apply bind_ok in H. destruct H as (segs & _ & H).
  set (comp := map (fun t => map (fun q => map _ _) _) _) in H. set (wgt := map (fun t => map _ _) _) in H.
  set (flat := unique _) in H. cbv zeta in H. destruct (map _ flat) as [|c0 cs]; [discriminate|].
  apply (f_equal (fun r => match r with Ok v => snd v | Err _ => ap end)) in H. cbn [snd] in H. rewrite <- H. clear H.
  clearbody comp wgt flat. intros resp n j HN HL Hj.
  assert (W0 : List.length (nth 0 resp []) = n) by (apply HL, nth_In; destruct resp; [congruence|cbn; lia]).
  assert (W1 : List.length (nth 0 (map (fun row : list R => [nth j row 0]) resp) []) = 1%nat) by (destruct resp; [congruence|reflexivity]).
  rewrite W0, W1. revert wgt. induction comp as [|ct' comp IH]; intros [|wt wgt]; try reflexivity.
  rewrite !map2_cons. cbn [map]. f_equal; [|apply IH].
  cbn [seq map]. f_equal. rewrite nth_seq_map by exact Hj. f_equal.
  assert (NP : forall p, nth 0 (nth p (map (fun row : list R => [nth j row 0]) resp) []) 0 = nth j (nth p resp []) 0).
  { intros p. destruct (Nat.lt_ge_cases p (List.length resp)) as [L|L].
    - rewrite (nth_indep _ [] [nth j [] 0]) by (now rewrite map_length). rewrite (map_nth (fun row : list R => [nth j row 0])). reflexivity.
    - rewrite (nth_overflow (map _ resp)) by (now rewrite map_length). rewrite (nth_overflow resp) by exact L. now destruct j. }
  apply map2_ext. intros s w. f_equal. f_equal. apply map2_ext. intros row g. now rewrite NP.
Qed.
