(** Property C73: the transform pairs that fdesign.empy_hankel computes with the modeller. *)

From Coq Require Import ZArith Reals List Bool Ascii String QArith Lia Lra.
From Coquelicot Require Import Coquelicot.
From Verif Require Import PyBase CBase Text Kernel Bessel Utils UtilsAb UtilsLayer UtilsModel UtilsFreq Transform TransformDlf Homog
  Model Routines RoutinesThm Bipole BipoleFinal RoutinesK RoutinesKThm FourierQwe HankelQ HankelQThm HankelQThm2 FdesignD FdesignE FdesignEThm FdesignEThm2
  PropsUtils PropsTransform PropsBipole PropsRoutines PropsHankelQ.
Import ListNotations.
Local Open Scope R_scope.
Local Open Scope C_scope.
Local Open Scope res_scope.

(** ** Names *)
(** Three names are accepted.  Any other name is not rejected when the pair is made, but by both
    of its functions. *)
Theorem C73_names : forall m hook mk t zs zr depth q f,
  dp_name (empy_hankel m hook mk t zs zr depth q f) = t /\
  (t = T "j0" \/ t = T "j1" \/ t = T "j2" -> exists ab x y, eh_setup t = Ok (ab, x, y)) /\
  (t <> T "j0" -> t <> T "j1" -> t <> T "j2" ->
     (forall k, dp_lhs (empy_hankel m hook mk t zs zr depth q f) k = Err UnboundLocal) /\
     forall r, r <> [] -> call_rhs (empy_hankel m hook mk t zs zr depth q f) r = Err UnboundLocal).
Proof.
  intros m hook mk t zs zr depth q f. split; [reflexivity|]. split.
  - intros [-> | [-> | ->]]; do 3 eexists; reflexivity.
  - intros N0 N1 N2. assert (E : eh_setup t = Err UnboundLocal).
    { unfold eh_setup. now rewrite (proj2 (teqb_neq _ _) N0), (proj2 (teqb_neq _ _) N1), (proj2 (teqb_neq _ _) N2). }
    split; [intros k; cbn [dp_lhs empy_hankel]; unfold eh_lhs; now rewrite E|].
    intros [|r rs] NE; [contradiction|]. unfold call_rhs. cbn [dp_rhs empy_hankel mapM]. unfold eh_rhs at 1. rewrite E. reflexivity.
Qed.
(** A list of names gives one pair per name, each the pair of that name alone. *)
Theorem C73_list : forall m hook mk ts zs zr depth q f,
  List.length (empy_hankels m hook mk ts zs zr depth q f) = List.length ts /\
  forall i d, (i < List.length ts)%nat -> nth i (empy_hankels m hook mk ts zs zr depth q f) d = empy_hankel m hook mk (nth i ts (T "j0")) zs zr depth q f.
Proof.
  intros. split; [apply map_length|]. intros i d Hi. exact (nth_map_any (fun t => empy_hankel m hook mk t zs zr depth q f) ts i (T "j0") d Hi).
Qed.

(** ** What is rated is what is computed *)
(** The response that the filter design computes for a candidate filter and such a pair is, for
    every model, every filter and all distances, the response of dipole with this filter. *)
Theorem C73_filter : forall m hook mk hook' spl filt d t ab x y zs zr depth q f lf lo rs mo,
  well_formed filt -> same_filter d filt -> plain_model m depth q [f] ->
  check_model m depth (q_res q) (q_aniso q) (q_eH q) (q_eV q) (q_mH q) (q_mV q) = Ok mo ->
  (0 < min_off m)%R -> (min_off m <= 1)%R -> (forall rr, In rr rs -> (min_off m <= rr)%R) -> (lf && lo = false)%bool ->
  eh_setup t = Ok (ab, x, y) ->
  exists out, fd_out d rs (empy_hankel m hook mk t zs zr depth q f) = Ok out /\ List.length out = List.length rs /\
    forall i, (i < List.length rs)%nat ->
      dipole m hook' (dlf_mk spl filt) (eh_pt 0 0 zs) (eh_pt (nth i rs 0 * x) (nth i rs 0 * y) zr) depth q [f] (AbNum (inject_Z ab)) (Some false) lf lo =
        Ok ([[nth i out (RtoC 0)]], 1%nat, 1%nat).
Proof. exact eh_filter. Qed.

(** ** The right-hand side is the transform of the left-hand side *)
(** Layers of different properties, source and receiver in different layers: the right-hand
    side is the quadrature with extrapolation of the left-hand side times Bessel functions. *)
Theorem C73_quadrature : forall rquad isp j0 j1 j2 gx gw m hook rtol atol zc maxint dq t ab x y zs zr depth q f mo,
  plain_model m depth q [f] -> check_model m depth (q_res q) (q_aniso q) (q_eH q) (q_eV q) (q_mH q) (q_mV q) = Ok mo ->
  (0 < min_off m <= 1)%R -> (2 <= maxint)%nat -> eh_setup t = Ok (ab, x, y) ->
  m_full mo = false -> layer1 (m_depth mo) zs <> layer1 (m_depth mo) zr ->
  let P := empy_hankel m hook (qwe_mk rquad isp j0 j1 j2 gx gw rtol atol zc maxint dq) t zs zr depth q f in
  exists L, (forall k, dp_lhs P k = Ok (L k)) /\
    forall g, dp_rhs P = RhsFun g -> forall rr, (min_off m <= rr)%R ->
      g rr = Ok (qwe_value rtol atol zc maxint (fun i => gauss gx gw (fun l => pair_integrand j0 j1 t (L l) rr l) (qx j1 j2 maxint i / rr)%R (qx j1 j2 maxint (S i) / rr)%R)).
Proof. exact eh_qwe. Qed.
(** In one layer: the left-hand side is the sum of a part whose exact transform is W, the
    closed-form direct field, and a rest; the right-hand side is W plus the quadrature of the
    rest. *)
Theorem C73_same_layer : forall rquad isp j0 j1 j2 gx gw m hook rtol atol zc maxint dq t ab x y zs zr depth q f mo,
  plain_model m depth q [f] -> check_model m depth (q_res q) (q_aniso q) (q_eH q) (q_eV q) (q_mH q) (q_mV q) = Ok mo ->
  (0 < min_off m <= 1)%R -> (2 <= maxint)%nat -> eh_setup t = Ok (ab, x, y) ->
  m_full mo = false -> layer1 (m_depth mo) zs = layer1 (m_depth mo) zr -> zs <> zr ->
  let P := empy_hankel m hook (qwe_mk rquad isp j0 j1 j2 gx gw rtol atol zc maxint dq) t zs zr depth q f in
  exists L Rst, (forall k, dp_lhs P k = Ok (L k)) /\
    forall g, dp_rhs P = RhsFun g -> forall rr, (min_off m <= rr)%R ->
      exists W, improper (fun l => pair_integrand J0 J1 t (vsub (L l) (Rst l)) rr l) W /\
        g rr = Ok (W + qwe_value rtol atol zc maxint (fun i => gauss gx gw (fun l => pair_integrand j0 j1 t (Rst l) rr l) (qx j1 j2 maxint i / rr)%R (qx j1 j2 maxint (S i) / rr)%R)).
Proof. exact eh_same_layer. Qed.
(** Full space: the right-hand side is the improper integral of the left-hand side times the
    Bessel functions J0 and J1, exactly, for all anisotropies and for frequencies and Laplace
    parameters. *)
Theorem C73_fullspace : forall m hook mk t ab x y zs zr q f mo,
  plain_model m [] q [f] -> check_model m [] (q_res q) (q_aniso q) (q_eH q) (q_eV q) (q_mH q) (q_mV q) = Ok mo ->
  (0 < min_off m <= 1)%R -> zs <> zr -> eh_setup t = Ok (ab, x, y) ->
  let P := empy_hankel m hook mk t zs zr [] q f in
  exists L g, (forall k, dp_lhs P k = Ok (L k)) /\ dp_rhs P = RhsFun g /\
    forall rr, (min_off m <= rr)%R -> exists V, g rr = Ok V /\ improper (fun l => pair_integrand J0 J1 t (L l) rr l) V.
Proof. exact eh_fullspace. Qed.

(** ** Cases *)
Lemma e_plain : plain_model default_mins x_dep x_q [2%R].
Proof. destruct x_plain. constructor; try assumption. discriminate. Qed.
Lemma e_off : (0 < min_off default_mins <= 1)%R.
Proof. split; [exact x_off_pos|]. cbn [default_mins min_off]. rewrite <- Rinv_1. apply Rinv_le_contravar; [lra|]. simpl. lra. Qed.
Definition e_fil : dlfo := DO (T "f") (fun k => if teqb k (T "base") then Some [1; 2; 4]%R else if teqb k (T "j0") then Some [1 / 2; 1 / 4; 1 / 8]%R else if teqb k (T "j1") then Some [1; -1; 1 / 2]%R else None) None [].
Example C73_filter_case : exists out, fd_out e_fil [1; 7]%R (empy_hankel default_mins nohook (dlf_mk x_spl x_filt) (T "j2") (-10) 30 x_dep x_q 2) = Ok out /\
  dipole default_mins nohook (dlf_mk x_spl x_filt) (eh_pt 0 0 (-10)) (eh_pt (7 * (1 / sqrt 2)) (7 * (1 / sqrt 2)) 30) x_dep x_q [2%R] (AbNum (inject_Z 12)) (Some false) false true =
        Ok ([[nth 1 out (RtoC 0)]], 1%nat, 1%nat).
Proof.
  destruct x_model_ok as [mo [Em _]].
  destruct (C73_filter default_mins nohook (dlf_mk x_spl x_filt) nohook x_spl x_filt e_fil (T "j2") 12 (1 / sqrt 2) (1 / sqrt 2) (-10) 30 x_dep x_q 2 false true [1; 7]%R mo) as (out & E & _ & D).
  - exact x_wf.
  - repeat split.
  - exact e_plain.
  - exact Em.
  - apply e_off.
  - apply e_off.
  - pose proof e_off. intros rr [<- | [<- | []]]; lra.
  - reflexivity.
  - reflexivity.
  - exists out. split; [exact E|]. apply (D 1%nat). cbn. lia.
Qed.
Lemma e_notfull : forall mo, cmodel default_mins x_dep (x_inp [1; 10; 3]%R) = Ok mo -> m_full mo = false.
Proof.
  intros mo Em. destruct (m_full mo) eqn:F; [|reflexivity]. exfalso.
    apply (check_model_full default_mins x_dep (x_inp [1; 10; 3]%R) mo (x_inp_wf _) Em) in F. destruct F as (_ & U & _).
    clear -Em U. unfold x_dep in Em. rewrite check_model_closed in Em by apply x_inp_wf. unfold check_depth, drop_pinf, all_dec, any_dec, xltb in Em. revert Em. cmp. simpl. cmp. simpl. intros Em. injection Em as <-.
    cbn [m_res model_of] in U. pose proof e_off. pose proof (proj2 small20) as SM. assert (S1 : (min_res default_mins <= 1)%R).
    { cbn [default_mins min_res]. rewrite <- Rinv_1. apply Rinv_le_contravar; [lra|]. apply Rle_trans with (10 ^ 0)%R; [simpl; lra|apply Rle_pow; [lra|lia]]. }
    unfold model_of in U. cbn [m_res x_inp i_res swp nd_data map] in U.
    cbn [res_in nd_data map] in U. specialize (U _ _ (or_introl eq_refl) (or_intror (or_introl eq_refl))). rewrite !Rmax_left in U by lra. lra.
Qed.
Example C73_quadrature_case : exists L g,
  (forall k, eh_lhs default_mins (T "j0") (-10) 30 x_dep x_q 2 k = Ok (L k)) /\
  g = eh_rhs default_mins nohook (qwe_mk h_rq h_isp h_j0 h_j1 h_j0 [0%R] [2%R] 0 0 (fun _ => false) 5 100) (T "j0") (-10) 30 x_dep x_q 2 /\
  g 50%R = Ok (qwe_value 0 0 (fun _ => false) 5 (fun i => gauss [0%R] [2%R] (fun l => fst (L l) * RtoC (h_j0 (50 * l)%R)) (qx h_j1 h_j0 5 i / 50)%R (qx h_j1 h_j0 5 (S i) / 50)%R)).
Proof.
  destruct x_model_ok as [mo [Em Ed]].
  destruct (C73_quadrature h_rq h_isp h_j0 h_j1 h_j0 [0%R] [2%R] default_mins nohook 0 0 (fun _ => false) 5 100 (T "j0") 11 (1 / sqrt 2) (1 / sqrt 2) (-10) 30 x_dep x_q 2 mo) as (L & H1 & H2).
  - exact e_plain.
  - exact Em.
  - exact e_off.
  - lia.
  - reflexivity.
  - now apply e_notfull.
  - rewrite Ed. unfold layer1, get_layer_nr, where_row, map2, xltb, xgeb. cbn. cmp. cbn. cmp. discriminate.
  - exists L. eexists. split; [exact H1|]. split; [reflexivity|]. apply (H2 _ eq_refl). pose proof e_off. lra.
Qed.
Example C73_same_layer_case : exists L Rst W, (forall k, eh_lhs default_mins (T "j2") 20 30 x_dep x_q 2 k = Ok (L k)) /\
  improper (fun l => pair_integrand J0 J1 (T "j2") (vsub (L l) (Rst l)) 50 l) W /\
  eh_rhs default_mins nohook (qwe_mk h_rq h_isp h_j0 h_j1 h_j0 [0%R] [2%R] 0 0 (fun _ => false) 5 100) (T "j2") 20 30 x_dep x_q 2 50 =
    Ok (W + qwe_value 0 0 (fun _ => false) 5 (fun i => gauss [0%R] [2%R] (fun l => pair_integrand h_j0 h_j1 (T "j2") (Rst l) 50 l) (qx h_j1 h_j0 5 i / 50)%R (qx h_j1 h_j0 5 (S i) / 50)%R)).
Proof.
  destruct x_model_ok as [mo [Em Ed]].
  destruct (C73_same_layer h_rq h_isp h_j0 h_j1 h_j0 [0%R] [2%R] default_mins nohook 0 0 (fun _ => false) 5 100 (T "j2") 12 (1 / sqrt 2) (1 / sqrt 2) 20 30 x_dep x_q 2 mo) as (L & Rst & H1 & H2).
  - exact e_plain.
  - exact Em.
  - exact e_off.
  - lia.
  - reflexivity.
  - now apply e_notfull.
  - rewrite Ed. unfold layer1, get_layer_nr, where_row, map2, xltb, xgeb. cbn. cmp. cbn. cmp. reflexivity.
  - lra.
  - pose proof e_off as EO. destruct (H2 _ eq_refl 50%R ltac:(lra)) as (W & I & E). exists L, Rst, W. split; [exact H1|]. split; [exact I|exact E].
Qed.
(** a source above a receiver in a whole space of resistivity 1, at a frequency of 1 Hz *)
Example C73_fullspace_case : exists L V, (forall k, eh_lhs default_mins (T "j1") 0 1 [] y_q 1 k = Ok (L k)) /\
  eh_rhs default_mins nohook (dlf_mk x_spl x_filt) (T "j1") 0 1 [] y_q 1 2 = Ok V /\
  improper (fun l => fst (L l) * RtoC (J1 (2 * l)%R)) V.
Proof.
  destruct y_model as [mo [Em _]].
  destruct (C73_fullspace default_mins nohook (dlf_mk x_spl x_filt) (T "j1") 31 1 0 0 1 y_q 1 mo y_plain Em e_off ltac:(lra) eq_refl) as (L & g & H1 & H2 & H3).
  pose proof e_off as EO. destruct (H3 2%R ltac:(lra)) as (V & E & I). exists L, V. split; [exact H1|]. split; [|exact I].
  assert (X : forall a b, RhsFun a = RhsFun b -> a = b) by (intros a b W; congruence). rewrite <- E. apply X in H2. now rewrite <- H2.
Qed.

Print Assumptions C73_names.
Print Assumptions C73_list.
Print Assumptions C73_filter.
Print Assumptions C73_quadrature.
Print Assumptions C73_same_layer.
Print Assumptions C73_fullspace.
