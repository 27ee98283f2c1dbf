(** Properties C23-C28, C30, C35, C37 and C54: the check and geometry functions
    of utils.py.  Each theorem is followed by a concrete case. *)

From Coq Require Import Reals ZArith List Bool String Lia Lra Psatz QArith.
From Coquelicot Require Import Coquelicot.
From Verif Require Import PyBase CBase KernelSpec KernelRefl KernelClosed KernelPhys KernelPassive KernelBVP
  KernelMain KernelThm KernelThm2 UtilsAb Utils UtilsLayer UtilsModel UtilsFreq UtilsGeo UtilsSurvey.
Import ListNotations.
Local Open Scope R_scope.
Local Open Scope res_scope.

Ltac cmp := repeat match goal with
  | |- context [Rltb ?a ?b] => first
      [ replace (Rltb a b) with true by (symmetry; apply Rltb_true; lra)
      | replace (Rltb a b) with false by (symmetry; apply Rltb_false; lra) ]
  | |- context [Reqb ?a ?b] => first
      [ replace (Reqb a b) with true by (symmetry; apply Reqb_true; lra) ]
  end.

(** ** C23 *)
(** [belongs depth k z]: k is a layer of the model with depth[k] < z, and z is
    not below depth[k+1].  get_layer_nr returns one layer per given depth, the
    only one to which the depth belongs. *)
Theorem C23_one_layer : forall depth zinp, any_dec depth = false -> hd PInf depth = NInf ->
  Forall2 (fun z k => belongs depth k z /\ forall k', belongs depth k' z -> k' = k) zinp (get_layer_nr depth zinp).
Proof. exact layer_nr_spec. Qed.
(** The hypotheses hold for every model that check_model accepts. *)
Theorem C23_checked : forall m d i o zinp, inputs_wf i -> cmodel m d i = Ok o ->
  Forall2 (fun z k => belongs (m_depth o) k z /\ forall k', belongs (m_depth o) k' z -> k' = k)
    zinp (get_layer_nr (m_depth o) zinp).
Proof.
  intros m d i o zinp W H. rewrite check_model_closed in H by auto.
  destruct (check_depth d) as [[sw d']|] eqn:CD; [|discriminate].
  destruct (all_fit (List.length d') i); [|discriminate]. inversion H; subst. simpl.
  destruct (check_depth_wf _ _ _ CD) as [A B]. apply layer_nr_spec; [now apply any_dec_false|exact A].
Qed.
(** A point on an interface belongs to the layer above it. *)
Theorem C23_interface : forall depth k z, any_dec depth = false -> hd PInf depth = NInf ->
  (S k < List.length depth)%nat -> nth (S k) depth NInf = Fin z -> xltb (nth k depth NInf) (Fin z) = true ->
  get_layer_nr depth [z] = [k].
Proof.
  intros depth k z A B L E U. pose proof (layer_nr_spec depth [z] A B) as H.
  destruct (get_layer_nr depth [z]) as [|k0 l]; inversion H as [|? ? ? ? [_ Hk] T]; subst. inversion T; subst.
  f_equal. symmetry. apply Hk.
  split; [lia|]. split; [exact U|]. right. split; [lia|]. rewrite E. apply xltb_irr.
Qed.
Example C23_case : get_layer_nr [NInf; Fin 0; Fin 100] [-5; 0; 50; 100; 200] = [0; 0; 1; 1; 2]%nat.
Proof.
  change [NInf; Fin 0; Fin 100] with (depth_arr (fun k => match k with 1%nat => 0 | _ => 100 end) 2).
  rewrite layer_nr_lay.
  - cbn. repeat match goal with |- context [Rlt_dec ?a ?b] => destruct (Rlt_dec a b); try lra end. reflexivity.
  - intros k Hk. assert (k = 1%nat) by lia. subst. lra.
Qed.
Print Assumptions C23_one_layer.
Print Assumptions C23_checked.
Print Assumptions C23_interface.

(** ** C24 *)
(** Which inputs are accepted, and the error otherwise. *)
Theorem C24_accepted : forall m d i, inputs_wf i ->
  ((exists sw d', check_depth d = Ok (sw, d')) <-> (sortedx d \/ strictx (rev d))) /\
  ((sortedx d \/ strictx (rev d)) ->
     exists n, (exists o, cmodel m d i = Ok o /\ List.length (m_depth o) = n /\ all_fit n i = true) \/
               (cmodel m d i = Err ValueError /\ all_fit n i = false)) /\
  (~ (sortedx d \/ strictx (rev d)) -> cmodel m d i = Err ValueError).
Proof.
  intros m d i W. rewrite check_model_closed by auto. pose proof (check_depth_accept d) as A. split; [exact A|]. split.
  - intros H. apply A in H. destruct H as [sw [d' H]]. exists (List.length d'). rewrite H. destruct (all_fit _ i) eqn:F; [left|right]; eauto.
  - intros H. assert (N : ~ exists sw d', check_depth d = Ok (sw, d')) by tauto. clear A.
    destruct (check_depth d) as [[sw d']|e] eqn:CD; [exfalso; eauto|].
    unfold check_depth in CD. destruct (any_dec _); [congruence|]. destruct (if (1 <? List.length d)%nat && all_dec d then rev d else d); discriminate.
Qed.
(** Shape of the result: starts at -infinity, never decreases, and all parameter
    lists have as many entries as there are layers. *)
Theorem C24_normalised : forall m d i o, inputs_wf i -> cmodel m d i = Ok o ->
  depth_wf (m_depth o) /\ let n := List.length (m_depth o) in
  List.length (m_res o) = n /\ List.length (m_aniso o) = n /\ List.length (m_epermH o) = n /\
  List.length (m_epermV o) = n /\ List.length (m_mpermH o) = n /\ List.length (m_mpermV o) = n /\
  List.Forall (fun kv => List.length (snd kv) = n) (m_extra o).
Proof.
  intros m d i o W H. rewrite check_model_closed in H by auto.
  destruct (check_depth d) as [[sw d']|] eqn:CD; [|discriminate].
  destruct (all_fit (List.length d') i) eqn:F; [|discriminate]. inversion H; subst.
  split; [exact (check_depth_wf _ _ _ CD)|]. exact (model_lengths m sw d' i W F).
Qed.
(** For distinct interfaces the result is strictly increasing, and finite after
    the first entry. *)
Theorem C24_strict : forall m d i o, inputs_wf i -> strictx d \/ strictx (rev d) -> cmodel m d i = Ok o ->
  depth_strict (m_depth o).
Proof.
  intros m d i o W S0 H. rewrite check_model_closed in H by auto.
  destruct (check_depth d) as [[sw d']|] eqn:CD; [|discriminate].
  destruct (all_fit (List.length d') i) eqn:F; [|discriminate]. inversion H; subst.
  exact (check_depth_strict _ _ _ S0 CD).
Qed.
Theorem C24_bottom_up : forall m d i, inputs_wf i -> strictx d -> (1 < List.length d)%nat -> 0 < min_res m ->
  cmodel m (rev d) (inprev i) = cmodel m d i.
Proof. exact check_model_rev. Qed.
Theorem C24_fullspace : forall m d i o, inputs_wf i -> cmodel m d i = Ok o ->
  m_full o = true <->
  (exists r, i_res i = ResArr r) /\ uniform (m_res o) /\ uniform (m_aniso o) /\ uniform (m_epermH o) /\
  uniform (m_epermV o) /\ uniform (m_mpermH o) /\ uniform (m_mpermV o).
Proof. exact check_model_full. Qed.
(** Values: what each parameter list contains. *)
Theorem C24_values : forall m d i, inputs_wf i ->
  cmodel m d i =
  match check_depth d with
  | Err e => Err e
  | Ok (sw, d') => if all_fit (List.length d') i then Ok (model_of m sw d' i) else Err ValueError
  end.
Proof. exact check_model_closed. Qed.

Definition x_inp (l : list R) : inputs :=
  {| i_res := ResArr (Nd [List.length l] l); i_aniso := None; i_epermH := None; i_epermV := None;
     i_mpermH := None; i_mpermV := None |}.
Lemma x_inp_wf : forall l, inputs_wf (x_inp l).
Proof. intros l. constructor; simpl; try exact I; [lia|]. intros kv []. Qed.
Lemma x_depth_strict : strictx [Fin 0; Fin 100].
Proof. intros i j H. simpl in H. assert (i = 0%nat) by lia. assert (j = 1%nat) by lia. subst. simpl. cmp. reflexivity. Qed.
Lemma x_model_ok : exists o, cmodel default_mins [Fin 0; Fin 100] (x_inp [1; 10; 3]) = Ok o /\
  m_depth o = [NInf; Fin 0; Fin 100].
Proof.
  rewrite check_model_closed by apply x_inp_wf. unfold check_depth, drop_pinf, all_dec, any_dec, xltb. cmp. simpl. cmp. simpl. eauto.
Qed.
Example C24_case : exists o, cmodel default_mins [Fin 100; Fin 0] (x_inp [3; 10; 1]) = Ok o /\
  m_depth o = [NInf; Fin 0; Fin 100] /\ depth_strict (m_depth o).
Proof.
  destruct x_model_ok as [o [E1 E2]].
  pose proof (C24_bottom_up default_mins [Fin 0; Fin 100] (x_inp [1; 10; 3]) (x_inp_wf _) x_depth_strict) as B.
  change (rev [Fin 0; Fin 100]) with [Fin 100; Fin 0] in B.
  change (inprev (x_inp [1; 10; 3])) with (x_inp [3; 10; 1]) in B.
  assert (M : 0 < min_res default_mins) by (apply Rinv_0_lt_compat; apply pow_lt; lra).
  specialize (B ltac:(simpl; lia) M). exists o. rewrite B. split; [exact E1|]. split; [exact E2|].
  apply (C24_strict _ _ _ _ (x_inp_wf _) (or_introl x_depth_strict) E1).
Qed.

(** Without distinctness the result may still contain +infinity: only one
    trailing infinity is removed. *)
Theorem C24_infinity_refuted : exists d i o, inputs_wf i /\ cmodel default_mins d i = Ok o /\ In PInf (m_depth o).
Proof.
  exists [Fin 1; PInf; PInf], (x_inp [1; 2; 3]). eexists. split; [apply x_inp_wf|].
  rewrite check_model_closed by apply x_inp_wf.
  unfold check_depth, drop_pinf. simpl. split; [reflexivity|]. simpl. auto.
Qed.
(** Repeated interfaces are accepted from top to bottom, but the same model from
    bottom to top is rejected. *)
Theorem C24_duplicates_refuted : exists d i o, inputs_wf i /\ cmodel default_mins d i = Ok o /\
  cmodel default_mins (rev d) (inprev i) = Err ValueError.
Proof.
  exists [Fin 0; Fin 0; Fin 5], (x_inp [1; 2; 3; 4]). eexists. split; [apply x_inp_wf|].
  split.
  - rewrite check_model_closed by apply x_inp_wf. unfold check_depth, drop_pinf, all_dec, any_dec, xltb. cmp. simpl. cmp. simpl. reflexivity.
  - rewrite check_model_closed by (apply inputs_wf_rev, x_inp_wf).
    assert (check_depth (rev [Fin 0; Fin 0; Fin 5]) = Err ValueError) as ->; [|reflexivity].
    unfold check_depth. simpl rev. simpl List.length. cbn [all_dec xltb]. cmp. cbn [Nat.ltb Nat.leb andb any_dec xltb]. cmp. reflexivity.
Qed.
Print Assumptions C24_accepted.
Print Assumptions C24_normalised.
Print Assumptions C24_strict.
Print Assumptions C24_bottom_up.
Print Assumptions C24_fullspace.
Print Assumptions C24_values.
Print Assumptions C24_infinity_refuted.
Print Assumptions C24_duplicates_refuted.

(** ** C25 *)
Theorem C25_clipping : forall par m,
  fst (check_min par (Some m)) = map (fun p => Rmax p m) par /\
  (snd (check_min par (Some m)) = true <-> exists p, In p par /\ p < m) /\
  check_min par None = (par, false).
Proof. exact check_min_spec. Qed.
Theorem C25_history : forall h m name, In name min_names ->
  lookup name (get_minimum (run_mins h m)) =
  match last_set name h with Some v => Some v | None => lookup name (get_minimum m) end.
Proof. exact minimum_history. Qed.
Example C25_case :
  let k v := {| k_freq := None; k_time := None; k_off := Some v; k_res := None; k_angle := None |} in
  lookup "min_off" (get_minimum (run_mins [k 5; k 7] default_mins)) = Some 7 /\
  lookup "min_res" (get_minimum (run_mins [k 5; k 7] default_mins)) = Some (/ 10 ^ 20).
Proof. intros k. split; rewrite C25_history by (simpl; tauto); reflexivity. Qed.
Print Assumptions C25_clipping.
Print Assumptions C25_history.

(** ** C26 *)
Theorem C26_accept : forall a b, (1 <= a <= 6)%Z -> (1 <= b <= 6)%Z ->
  check_ab (AbNum (inject_Z (10 * a + b))) =
  Ok (if (3 <? a)%Z then if (3 <? b)%Z then (10 * (a - 3) + (b - 3))%Z else (10 * b + a)%Z else (10 * a + b)%Z,
      (3 <? b)%Z, (3 <? a)%Z).
Proof. exact check_ab_accept. Qed.
Theorem C26_reject : forall z, (forall a b, (1 <= a <= 6)%Z -> (1 <= b <= 6)%Z -> z <> (10 * a + b)%Z) ->
  check_ab (AbNum (inject_Z z)) = Err ValueError.
Proof. exact check_ab_reject. Qed.
Example C26_case : check_ab (AbNum (inject_Z 62)) = Ok (26%Z, false, true) /\ check_ab (AbNum (inject_Z 17)) = Err ValueError.
Proof. split; [exact (C26_accept 6 2 ltac:(lia) ltac:(lia))|]. apply C26_reject. intros. lia. Qed.
Print Assumptions C26_accept.
Print Assumptions C26_reject.

(** ** C27 *)
(** [ab_response] sums over the components chosen by get_abs for the lists of
    angles, each with its factor from get_geo_fact; [contraction] is the full
    3x3 contraction with the unit vectors of one source (a, d) and one receiver
    (a', d') out of the lists.  The difference is bounded by the angular
    tolerance times the size of the tensor. *)
Theorem C27_contraction : forall m msrc mrec sa sd ra rd a d a' d' T, 0 <= min_angle m ->
  In a sa -> In d sd -> In a' ra -> In d' rd ->
  Cmod (Cminus (ab_response m msrc mrec sa sd ra rd a d a' d' T) (contraction msrc mrec a d a' d' T))
  <= Rmax (/ 10 ^ 8) (min_angle m) * tensor_norm msrc mrec T.
Proof. exact tensor_contraction. Qed.
Theorem C27_exact : forall m msrc mrec sa sd ra rd a d a' d' T, min_angle m <= 0 ->
  (forall k, (1 <= k <= 3)%Z -> (keep_dir sa sd k = false -> unitv k a d = 0) /\ (keep_dir ra rd k = false -> unitv k a' d' = 0)) ->
  ab_response m msrc mrec sa sd ra rd a d a' d' T = contraction msrc mrec a d a' d' T.
Proof. exact tensor_exact. Qed.
Example C27_case : forall T,
  Cmod (Cminus (ab_response default_mins false true [1] [0] [2; 0] [1; 0] 1 0 2 1 T) (contraction false true 1 0 2 1 T))
  <= Rmax (/ 10 ^ 8) (/ 10 ^ 10) * tensor_norm false true T.
Proof.
  intros T. apply (C27_contraction default_mins false true [1] [0] [2; 0] [1; 0]); try (simpl; auto; fail).
  left. apply Rinv_0_lt_compat. apply pow_lt. lra.
Qed.
Print Assumptions C27_contraction.
Print Assumptions C27_exact.

(** ** C28 *)
(** The complete output for finite bipoles at a common depth range.  [nodes],
    [weights]: the quadrature nodes (0 and weight 1 if fewer than three points
    are asked for); [seg_points]: the points (1-g)/2*c0 + (1+g)/2*c1, bipole
    after bipole; the coordinates are rounded to the precision of min_off. *)
Theorem C28_points : forall m gl segs z0 z1 k strength src, segs <> [] ->
  (forall s, In s segs -> distinct z0 z1 s) ->
  get_azm_dip m gl [map g_x0 segs; map g_x1 segs; map g_y0 segs; map g_y1 segs; [z0]; [z1]] 0 1 k false strength src =
  Ok {| t_x := map (round_dec (rndco m)) (seg_points (nodes gl k) (map g_x0 segs) (map g_x1 segs));
        t_y := map (round_dec (rndco m)) (seg_points (nodes gl k) (map g_y0 segs) (map g_y1 segs));
        t_z := map (round_dec (rndco m)) (seg_points (nodes gl k) [z0] [z1]);
        t_azm := map sazm segs; t_dip := map (sdip z0 z1) segs;
        t_gw := weights gl k; t_pts := if (2 <? k)%Z then Z.to_nat k else 1;
        t_w := map (fun s => bscale src strength (slen z0 z1 s)) segs |}.
Proof. exact bipole_discretisation. Qed.
(** Several depths: the bipole number iz alone. *)
Theorem C28_depths : forall m gl arr n iz nz k isd strength src, nz <> 1%nat -> (iz < n)%nat ->
  (forall l, In l arr -> List.length l = n) ->
  get_azm_dip m gl arr iz nz k isd strength src =
  get_azm_dip m gl (map (fun l => [nth iz l 0]) arr) 0 1 k isd strength src.
Proof. exact several_depths. Qed.
(** Azimuth and dip reproduce the direction and length. *)
Theorem C28_direction : forall z0 z1 s, distinct z0 z1 s ->
  spans (slen z0 z1 s) (sazm s) (sdip z0 z1 s) (g_x0 s) (g_x1 s) (g_y0 s) (g_y1 s) z0 z1.
Proof. exact bip_spans. Qed.
(** Points lie between the electrodes, before rounding. *)
Theorem C28_between : forall g a b, -1 <= g <= 1 -> Rmin a b <= (1 - g) / 2 * a + (1 + g) / 2 * b <= Rmax a b.
Proof. exact seg_between. Qed.
Theorem C28_rounding : forall n x, Rabs (round_dec n x - x) <= / 2 / pow10 n.
Proof. exact round_dec_close. Qed.
Theorem C28_precision : forall m n, min_off m = / pow10 n -> rndco m = n.
Proof. exact rndco_default. Qed.
Theorem C28_weights : forall gl k, fold_right Rplus 0 (snd (gl k)) = 2 -> fold_right Rplus 0 (weights gl k) = 1.
Proof. exact weights_sum. Qed.
Theorem C28_midpoint : forall gl k c0 c1, (k <= 2)%Z -> seg_points (nodes gl k) [c0] [c1] = [(c0 + c1) / 2].
Proof.
  intros gl k c0 c1 H. unfold nodes, seg_points. destruct (Z.ltb_spec 2 k); [lia|]. simpl. f_equal. lra.
Qed.
Definition x_seg : seg := {| g_x0 := 0; g_x1 := 100; g_y0 := 5; g_y1 := 5 |}.
Example C28_case : forall gl, exists t,
  get_azm_dip default_mins gl [map g_x0 [x_seg]; map g_x1 [x_seg]; map g_y0 [x_seg]; map g_y1 [x_seg]; [10]; [20]] 0 1 1 false 2 true = Ok t /\
  t_x t = [round_dec (rndco default_mins) 50] /\ rndco default_mins = 3%Z.
Proof.
  intros gl. eexists. split; [apply C28_points; [discriminate|]|].
  - intros s [<-|[]]. left. simpl. lra.
  - split; [cbn [t_x map g_x0 g_x1 x_seg]; rewrite C28_midpoint by lia; simpl; repeat f_equal; lra|].
    apply C28_precision. cbn [min_off default_mins]. unfold pow10. simpl. reflexivity.
Qed.
Print Assumptions C28_points.
Print Assumptions C28_depths.
Print Assumptions C28_direction.
Print Assumptions C28_between.
Print Assumptions C28_rounding.
Print Assumptions C28_precision.
Print Assumptions C28_weights.
Print Assumptions C28_midpoint.

(** ** C30 *)
(** Azimuth and dip are sa*90 and sd*90 degrees for integers sa, sd (and so for
    the receiver).  There is one component, the one check_ab gives for the code
    of the two axes, and its factor is +1 or -1 according to the sense. *)
Theorem C30_axis_aligned : forall m (msrc mrec : bool) sa sd ra rd, min_angle m <= 1 ->
  let s := quarter_axis sa sd in let r := quarter_axis ra rd in
  exists ab,
    check_ab (AbNum (inject_Z (10 * (r + (if mrec then 3 else 0)) + (s + (if msrc then 3 else 0)))%Z)) = Ok (ab, msrc, mrec) /\
    get_abs msrc mrec [quarter sa] [quarter sd] [quarter ra] [quarter rd] = [ab] /\
    get_geo_fact m ab [quarter sa] [quarter sd] [quarter ra] [quarter rd] msrc mrec
      = [[quarter_sign ra rd * quarter_sign sa sd]].
Proof. exact axis_aligned. Qed.
Example C30_case : get_abs false true [quarter 0] [quarter 1] [quarter 1] [quarter 0] = [35%Z].
Proof.
  destruct (C30_axis_aligned default_mins false true 0 1 1 0) as [ab [A [B _]]].
  - cbn [min_angle default_mins]. rewrite <- Rinv_1. apply Rinv_le_contravar; [lra|]. apply pow_R1_Rle. lra.
  - rewrite B. vm_compute in A. inversion A. reflexivity.
Qed.
Print Assumptions C30_axis_aligned.

(** ** C35 *)
(** [freq_spec]: clipped (negated) frequencies, eta = sigma + i omega eps or
    sigma + s eps, zeta = i omega mu or s mu. *)
Theorem C35_parameters : forall m freq r an eH eV mH mV,
  (laplace_input freq -> check_frequency m freq r an eH eV mH mV = freq_spec m true freq r an eH eV mH mV) /\
  (~ laplace_input freq -> check_frequency m freq r an eH eV mH mV = freq_spec m false freq r an eH eV mH mV).
Proof. exact check_frequency_closed. Qed.
(** What the checks hand to the kernel is a passive medium with increasing
    interfaces, to which the kernel theorems apply. *)
Theorem C35_passive : forall m d i o freq fo j, inputs_wf i -> strictx d \/ strictx (rev d) ->
  0 < min_res m -> 0 < min_freq m ->
  cmodel m d i = Ok o ->
  fo = check_frequency m freq (m_res o) (m_aniso o) (m_epermH o) (m_epermV o) (m_mpermH o) (m_mpermV o) ->
  (forall x, In x (m_mpermH o) \/ In x (m_mpermV o) -> 0 < x) ->
  (j < List.length freq)%nat ->
  let N := (List.length (m_depth o) - 1)%nat in
  m_depth o = depth_arr (depth_fun (m_depth o)) N /\
  increasing (depth_fun (m_depth o)) N /\
  nth j (f_etaH fo) [] = arr (row (f_etaH fo) j) N /\ nth j (f_etaV fo) [] = arr (row (f_etaV fo) j) N /\
  nth j (f_zetaH fo) [] = arr (row (f_zetaH fo) j) N /\ nth j (f_zetaV fo) [] = arr (row (f_zetaV fo) j) N /\
  passive_medium (row (f_etaH fo) j) (row (f_etaV fo) j) (row (f_zetaH fo) j) (row (f_zetaV fo) j)
    (depth_fun (m_depth o)) N.
Proof. exact checked_passive. Qed.
Example C35_case : exists o fo, cmodel default_mins [Fin 0; Fin 100] (x_inp [1; 10; 3]) = Ok o /\
  fo = check_frequency default_mins [2; 0] (m_res o) (m_aniso o) (m_epermH o) (m_epermV o) (m_mpermH o) (m_mpermV o) /\
  passive_medium (row (f_etaH fo) 1) (row (f_etaV fo) 1) (row (f_zetaH fo) 1) (row (f_zetaV fo) 1) (depth_fun (m_depth o)) 2.
Proof.
  destruct x_model_ok as [o [E1 E2]]. exists o. eexists. split; [exact E1|]. split; [reflexivity|].
  assert (P : 0 < / 10 ^ 20) by (apply Rinv_0_lt_compat; apply pow_lt; lra).
  pose proof (C35_passive default_mins [Fin 0; Fin 100] (x_inp [1; 10; 3]) o [2; 0] _ 1 (x_inp_wf _)
    (or_introl x_depth_strict) P P E1 eq_refl) as H.
  cbn zeta in H. rewrite E2 in H |- *. simpl List.length in H. apply H; [|lia]. clear H.
  rewrite check_model_closed in E1 by apply x_inp_wf. destruct (check_depth _) as [[sw d']|] eqn:CD; [|discriminate].
  destruct (all_fit (List.length d') (x_inp [1; 10; 3])); inversion E1; subst o.
  simpl in E2. subst d'. unfold model_of. cbn [m_mpermH m_mpermV x_inp i_mpermH i_mpermV default_to plain_val].
  intros x Hx. assert (H0 : In x (repeat 1 3)).
  { destruct sw; simpl swp in Hx; destruct Hx as [Hx|Hx]; auto; apply in_rev in Hx; auto. }
  apply repeat_spec in H0. lra.
Qed.
Print Assumptions C35_parameters.
Print Assumptions C35_passive.

(** ** C37 *)
Theorem C37_offsets : forall m srcx srcy recx recy,
  List.length srcx = List.length srcy -> List.length recx = List.length recy ->
  let ns := List.length srcx in let nr := List.length recx in
  let off := fst (get_off_ang m srcx srcy recx recy) in
  let ang := snd (get_off_ang m srcx srcy recx recy) in
  List.length off = (ns * nr)%nat /\ List.length ang = (ns * nr)%nat /\
  forall s r, (s < ns)%nat -> (r < nr)%nat ->
    let dx := nth r recx 0 - nth s srcx 0 in let dy := nth r recy 0 - nth s srcy 0 in
    let rho := sqrt (dx * dx + dy * dy) in let phi := nth (s * nr + r) ang 0 in
    nth (s * nr + r) off 0 = Rmax rho (min_off m) /\
    rho * cos phi = dx /\ rho * sin phi = dy /\ - PI < phi <= PI.
Proof. exact off_ang_spec. Qed.
Example C37_case :
  nth 1 (fst (get_off_ang default_mins [0] [0] [1; 3] [2; 4])) 0 = 5.
Proof.
  destruct (C37_offsets default_mins [0] [0] [1; 3] [2; 4] eq_refl eq_refl) as [_ [_ H]].
  specialize (H 0%nat 1%nat). simpl nth in H. simpl Nat.add in H. simpl List.length in H.
  destruct H as [H _]; [lia|lia|]. simpl nth. 
  change (nth 1 (fst (get_off_ang default_mins [0] [0] [1; 3] [2; 4])) 0 = 5). 
  etransitivity; [exact H|].
  replace ((3 - 0) * (3 - 0) + (4 - 0) * (4 - 0)) with (5 * 5) by ring. rewrite sqrt_square by lra.
  apply Rmax_left. simpl. assert (/ (10 * (10 * (10 * 1))) <= 5) by (apply Rle_trans with (/ 1); [apply Rinv_le_contravar; lra|lra]). exact H0.
Qed.
Print Assumptions C37_offsets.

(** ** C54 *)
(** [sizes inp]: size of the largest input; [okshape n v]: v is one-dimensional
    with 1 or n values; [coord l i]: the value for pole i. *)
Theorem C54_dipoles : forall x y z a d, let inp := [x; y; z; a; d] in let n := sizes inp in
  (0 < n)%nat -> List.Forall nd_wf inp ->
  if forallb (okshape n) inp then
    exists x' y' z' a' d',
      check_bipole inp = Ok {| b_arr := [x'; y'; z'; a'; d']; b_n := n; b_nz := List.length z'; b_dip := true |} /\
      (List.length x' = n /\ List.length y' = n)%nat /\
      (List.length z' = 1 \/ List.length z' = n /\ List.length a' = n /\ List.length d' = n)%nat /\
      forall i, (i < n)%nat ->
        nth i x' 0 = coord (nd_data x) i /\ nth i y' 0 = coord (nd_data y) i /\
        Rabs (coord z' i - coord (nd_data z) i) <= / 10 ^ 8 /\
        coord a' i = coord (nd_data a) i /\ coord d' i = coord (nd_data d) i
  else check_bipole inp = Err ValueError.
Proof. exact survey_dipole. Qed.
Theorem C54_bipoles : forall x0 x1 y0 y1 z0 z1, let inp := [x0; x1; y0; y1; z0; z1] in let n := sizes inp in
  (0 < n)%nat -> List.Forall nd_wf inp ->
  if forallb (okshape n) inp then
    exists x0' x1' y0' y1' z0' z1',
      (List.length x0' = n /\ List.length x1' = n /\ List.length y0' = n /\ List.length y1' = n)%nat /\
      (List.length z0' = 1 /\ List.length z1' = 1 \/ List.length z0' = n /\ List.length z1' = n)%nat /\
      (forall i, (i < n)%nat ->
        nth i x0' 0 = coord (nd_data x0) i /\ nth i x1' 0 = coord (nd_data x1) i /\
        nth i y0' 0 = coord (nd_data y0) i /\ nth i y1' 0 = coord (nd_data y1) i /\
        Rabs (coord z0' i - coord (nd_data z0) i) <= / 10 ^ 8 /\
        Rabs (coord z1' i - coord (nd_data z1) i) <= / 10 ^ 8) /\
      ((forall i, (i < n)%nat -> nth i x0' 0 <> nth i x1' 0 \/ nth i y0' 0 <> nth i y1' 0 \/ coord z0' i <> coord z1' i) ->
       check_bipole inp = Ok {| b_arr := [x0'; x1'; y0'; y1'; z0'; z1']; b_n := n; b_nz := List.length z0'; b_dip := false |}) /\
      ((exists i, (i < n)%nat /\ nth i x0' 0 = nth i x1' 0 /\ nth i y0' 0 = nth i y1' 0 /\ coord z0' i = coord z1' i) ->
       check_bipole inp = Err ValueError)
  else check_bipole inp = Err ValueError.
Proof. exact survey_bipole. Qed.
Theorem C54_points : forall x y z, nd_wf x -> nd_wf y -> nd_wf z -> x <> NdBad -> y <> NdBad ->
  let lx := List.length (nd_data x) in let ly := List.length (nd_data y) in
  let n := if Nat.eqb lx 1 then ly else lx in
  (if (Nat.eqb lx ly || Nat.eqb lx 1 || Nat.eqb ly 1) && okshape 1 z then
    exists x' y', check_dipole [x; y; z] = Ok (x', y', nd_data z, n) /\
      List.length x' = n /\ List.length y' = n /\
      (forall i, (i < n)%nat -> nth i x' 0 = coord (nd_data x) i /\ nth i y' 0 = coord (nd_data y) i)
  else check_dipole [x; y; z] = Err ValueError).
Proof. exact survey_point. Qed.
Theorem C54_wrong_length : forall inp, List.length inp <> 5%nat -> List.length inp <> 6%nat -> check_bipole inp = Err ValueError.
Proof. exact survey_wrong_length. Qed.
Example C54_case : exists x' y' z' a' d',
  check_bipole [Nd [2%nat] [1; 2]; Nd [] [0]; Nd [2%nat] [5; 6]; Nd [] [0]; Nd [1%nat] [30]] =
  Ok {| b_arr := [x'; y'; z'; a'; d']; b_n := 2; b_nz := List.length z'; b_dip := true |}.
Proof.
  pose proof (C54_dipoles (Nd [2%nat] [1; 2]) (Nd [] [0]) (Nd [2%nat] [5; 6]) (Nd [] [0]) (Nd [1%nat] [30])) as H.
  cbn zeta in H. specialize (H ltac:(vm_compute; lia)).
  assert (W : List.Forall nd_wf [Nd [2%nat] [1; 2]; Nd [] [0]; Nd [2%nat] [5; 6]; Nd [] [0]; Nd [1%nat] [30]])
    by (repeat constructor).
  specialize (H W). simpl in H. destruct H as [x' [y' [z' [a' [d' [H _]]]]]]. exists x', y', z', a', d'. exact H.
Qed.
Print Assumptions C54_dipoles.
Print Assumptions C54_bipoles.
Print Assumptions C54_points.
Print Assumptions C54_wrong_length.
