(** Properties of the routine bipole: C63, flux and current densities. *)

From Coq Require Import ZArith Reals List Bool QArith Lia Lra.
From Coquelicot Require Import Coquelicot.
From Verif Require Import PyBase CBase Utils UtilsAb UtilsLayer UtilsModel UtilsFreq UtilsSurvey Transform TransformDlf
  Fullspace Model ModelFem Routines RoutinesThm Bipole BipoleCol BipoleThm BipoleLoop BipolePlace BipoleMain BipoleFinal BipoleStrength BipoleTotal
  PropsUtils PropsTransform PropsBipole BipolePole.
Import ListNotations.
Local Open Scope R_scope.
Local Open Scope res_scope.

(** ** C63: a pole given as 'b' is the magnetic field times the impedivity zetaH, a receiver
    given as 'j' the electric field times the admittivity etaH, both of the layer of the pole *)

(** Any survey (dipoles, finite bipoles, any numbers) in which every integration point of a
    pole lies in one layer. *)
Theorem C63_densities : forall m gl hook mk depth q freq msrc mrec srcpts recpts st xdirect lf lo src rec bs br mo,
  good_rule gl srcpts -> good_rule gl recpts -> (0 < sizes src)%nat -> (0 < sizes rec)%nat ->
  List.Forall nd_wf src -> List.Forall nd_wf rec -> check_bipole src = Ok bs -> check_bipole rec = Ok br ->
  check_model m depth (q_res q) (q_aniso q) (q_eH q) (q_eV q) (q_mH q) (q_mV q) = Ok mo ->
  let fo := apply_hook hook (q_res q) mo (check_frequency m freq (m_res mo) (m_aniso mo) (m_epermH mo) (m_epermV mo) (m_mpermH mo) (m_mpermV mo)) in
  forall Ls Lr, poles_in m gl st mo bs srcpts true Ls -> poles_in m gl st mo br recpts false Lr ->
  forall E, bipole m gl hook mk src rec depth q freq msrc mrec srcpts recpts st xdirect lf lo = Ok E ->
  exists E0, bipole m gl hook mk src rec depth q freq (plain_pole msrc) (plain_pole mrec) srcpts recpts st xdirect lf lo = Ok E0 /\
  List.length E0 = List.length E /\
  forall f r s, (f < List.length E)%nat -> (r < b_n br)%nat -> (s < b_n bs)%nat ->
    let row := nth f (rows_of fo) (mkrow [] [] [] []) in
    elt f r s E = Cmult (Cmult (pole_density msrc (r_eH row) (r_zH row) (Ls s)) (pole_density mrec (r_eH row) (r_zH row) (Lr r))) (elt f r s E0).
Proof. exact bipole_poles. Qed.

(** Dipoles without a user hook: the layer is the one of the depth, the parameters are those of
    check_frequency (C35). *)
Theorem C63_dipoles : forall m gl hook mk depth q freq msrc mrec srcpts recpts st xdirect lf lo src rec bs br mo,
  good_rule gl srcpts -> good_rule gl recpts -> (0 < sizes src)%nat -> (0 < sizes rec)%nat ->
  List.Forall nd_wf src -> List.Forall nd_wf rec -> check_bipole src = Ok bs -> check_bipole rec = Ok br ->
  b_dip bs = true -> b_dip br = true -> inputs_wf (inp_of q) -> (exists v, q_res q = ResArr v) ->
  check_model m depth (q_res q) (q_aniso q) (q_eH q) (q_eV q) (q_mH q) (q_mV q) = Ok mo ->
  let fo := check_frequency m freq (m_res mo) (m_aniso mo) (m_epermH mo) (m_epermV mo) (m_mpermH mo) (m_mpermV mo) in
  let layer (b : bip) i := nth 0 (get_layer_nr (m_depth mo) [coord (nth 2 (b_arr b) []) i]) 0%nat in
  forall E, bipole m gl hook mk src rec depth q freq msrc mrec srcpts recpts st xdirect lf lo = Ok E ->
  exists E0, bipole m gl hook mk src rec depth q freq (plain_pole msrc) (plain_pole mrec) srcpts recpts st xdirect lf lo = Ok E0 /\
  List.length E0 = List.length E /\
  forall f r s, (f < List.length E)%nat -> (f < List.length freq)%nat -> (r < b_n br)%nat -> (s < b_n bs)%nat ->
    elt f r s E = Cmult (Cmult (pole_density msrc (nth f (f_etaH fo) []) (nth f (f_zetaH fo) []) (layer bs s))
                               (pole_density mrec (nth f (f_etaH fo) []) (nth f (f_zetaH fo) []) (layer br r))) (elt f r s E0).
Proof.
  intros m gl hook mk depth q freq msrc mrec srcpts recpts st xdirect lf lo src rec bs br mo Gs Gr Ps Pr Ws Wr Es Er Ds Dr W [v HR] Em fo layer E H.
  assert (HZ : forall z, exists l, get_layer_nr (m_depth mo) [z] = [l]).
  { intros z. pose proof (C23_checked m depth (inp_of q) mo [z] W Em) as F. inversion F as [|? l ? t ? T EQ]; subst. inversion T; subst. eauto. }
  pose proof (check_bipole_checked _ _ Ps Ws Es) as Cs. pose proof (check_bipole_checked _ _ Pr Wr Er) as Cr.
  destruct (C63_densities m gl hook mk depth q freq msrc mrec srcpts recpts st xdirect lf lo src rec bs br mo Gs Gr Ps Pr Ws Wr Es Er Em
    _ _ (dipoles_in m gl mo st bs srcpts true Cs Ds HZ) (dipoles_in m gl mo st br recpts false Cr Dr HZ) E H) as (E0 & H0 & L & P).
  exists E0. split; [exact H0|]. split; [exact L|]. intros f r s Hf Hf' Hr Hs. rewrite (P f r s Hf Hr Hs). cbv zeta. rewrite HR. cbn [apply_hook]. fold fo.
  destruct (freq_lengths m freq (m_res mo) (m_aniso mo) (m_epermH mo) (m_epermV mo) (m_mpermH mo) (m_mpermV mo)) as (L1 & L2 & L3 & L4). fold fo in L1, L2, L3, L4.
  assert (RW : nth f (rows_of fo) (mkrow [] [] [] []) = mkrow (nth f (f_etaH fo) []) (nth f (f_etaV fo) []) (nth f (f_zetaH fo) []) (nth f (f_zetaV fo) [])).
  { unfold rows_of. match goal with |- nth f (map ?g ?l) _ = _ => rewrite (nth_indep (map g l) _ (g (([], []), ([], [])))) by (rewrite map_length, !combine_length; lia); rewrite (map_nth g) end.
    rewrite !combine_nth by (rewrite ?combine_length; lia). reflexivity. }
  rewrite RW. reflexivity.
Qed.

(** Dipoles in three layers as sources and as receivers; the flux density between any two of
    them.  Layer 1 has the relative permeability 1, so that the factor is 2 i pi f mu_0 at 2 Hz. *)
Example C63_case : exists E E0 o,
  bipole default_mins x_gl nohook (dlf_mk x_spl x_filt) x_src x_src x_dep x_q [2; 0] (MxBool false) MxB 1 1 0 (Some false) false true = Ok E /\
  bipole default_mins x_gl nohook (dlf_mk x_spl x_filt) x_src x_src x_dep x_q [2; 0] (MxBool false) (MxBool true) 1 1 0 (Some false) false true = Ok E0 /\
  cmodel default_mins x_dep (inp_of x_q) = Ok o /\
  elt 0 1 2 E = Cmult (nth (nth 0 (get_layer_nr (m_depth o) [50]) 0%nat)
     (nth 0 (f_zetaH (check_frequency default_mins [2; 0] (m_res o) (m_aniso o) (m_epermH o) (m_epermV o) (m_mpermH o) (m_mpermV o))) []) (RtoC 0)) (elt 0 1 2 E0).
Proof.
  destruct x_model_ok as [o [E1 _]].
  destruct (C29_total default_mins x_gl nohook x_spl x_filt x_src x_src x_dep x_q [2; 0] (MxBool false) MxB 1 1 0 (Some false) false true o false XNone true XB x_bs x_bs) as (E & H & L);
    try assumption; try discriminate; try reflexivity; try (cbn; lia); try apply x_rule; try apply x_wf; try apply x_plain; try exact x_off_pos; try exact x_src_wf; try exact x_check_src.
  destruct (C63_dipoles default_mins x_gl nohook (dlf_mk x_spl x_filt) x_dep x_q [2; 0] (MxBool false) MxB 1 1 0 (Some false) false true x_src x_src x_bs x_bs o
    (x_good 1) (x_good 1) ltac:(cbn; lia) ltac:(cbn; lia) x_src_wf x_src_wf x_check_src x_check_src eq_refl eq_refl (pm_wf _ _ _ _ x_plain) (pm_res _ _ _ _ x_plain) E1 E H) as (E0 & H0 & _ & P).
  exists E, E0, o. split; [exact H|]. split; [exact H0|]. split; [exact E1|]. rewrite (P 0%nat 1%nat 2%nat) by (rewrite ?L; cbn; lia).
  cbn [pole_density]. change (coord (nth 2 (b_arr x_bs) []) 1) with 50. ring.
Qed.

Print Assumptions C63_densities.
Print Assumptions C63_dipoles.
