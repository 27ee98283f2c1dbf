(** Proofs about the modelling routines: the analytical full-space solution is the
    result of dipole for a full-space, and the diffusive full-space solution is the full
    one without displacement currents. *)

From Coq Require Import ZArith Reals List Bool String Lia Lra QArith.
From Coquelicot Require Import Coquelicot.
From Verif Require Import PyBase CBase UtilsAb Utils UtilsLayer UtilsFreq UtilsModel Fullspace FullspaceThm FullspaceField Halfspace HalfspaceThm Model Routines.
Import ListNotations.
Local Open Scope R_scope.
Local Open Scope res_scope.

(** ** Generalities *)
Lemma mapM_ok : forall {A B} (f : A -> res B) (g : A -> B) l, (forall x, In x l -> f x = Ok (g x)) -> mapM f l = Ok (map g l).
Proof.
  induction l as [|x l IH]; intros H; [reflexivity|]. cbn [mapM map]. rewrite (H x) by (left; reflexivity). cbn [bind].
  rewrite IH by (intros; apply H; right; assumption). reflexivity.
Qed.

Lemma mapM_len : forall {A B} (f : A -> res B) l r, mapM f l = Ok r -> List.length r = List.length l.
Proof.
  induction l as [|x l IH]; intros r H; cbn [mapM] in H; [injection H as <-; reflexivity|].
  destruct (f x); cbn [bind] in H; [|discriminate]. destruct (mapM f l) as [ys|] eqn:E; cbn [bind] in H; [|discriminate].
  injection H as <-. cbn. f_equal. now apply IH.
Qed.

Lemma mapM_forall : forall {A B} (f : A -> res B) l r, mapM f l = Ok r -> forall y, In y r -> exists x, In x l /\ f x = Ok y.
Proof.
  induction l as [|x l IH]; intros r H y I; cbn [mapM] in H; [injection H as <-; contradiction|].
  destruct (f x) as [v|] eqn:E1; cbn [bind] in H; [|discriminate]. destruct (mapM f l) as [ys|] eqn:E; cbn [bind] in H; [|discriminate].
  injection H as <-. destruct I as [<-|I]; [exists x; split; [left; reflexivity|assumption]|].
  destruct (IH ys eq_refl y I) as [x' [P Q]]. exists x'. split; [right; assumption|assumption].
Qed.

Lemma vadd_zeros : forall (r : list C) n, List.length r = n -> Transform.vadd (Transform.czeros n) r = r.
Proof.
  unfold Transform.vadd, Transform.czeros. intros r n <-. induction r as [|x r IH]; [reflexivity|].
  cbn. unfold map2 in *. cbn. f_equal; [now rewrite Cplus_0_l|]. exact IH.
Qed.

Lemma mat_add_zeros : forall (f : list (list C)) n k, List.length f = n -> (forall r, In r f -> List.length r = k) ->
  mat_add (mat_zeros n k) f = f.
Proof.
  unfold mat_add, mat_zeros, map2. intros f n k <-. induction f as [|r f IH]; intros H; [reflexivity|].
  cbn. f_equal; [apply vadd_zeros; apply H; left; reflexivity|]. apply IH. intros; apply H; right; assumption.
Qed.

Lemma fullspace_arr_shape : forall rdt off angle zs zr l rows ab ms mr f, List.length angle = List.length off ->
  fullspace_arr rdt off angle zs zr l rows ab ms mr = Ok f ->
  List.length f = List.length rows /\ (forall r, In r f -> List.length r = List.length off).
Proof.
  intros rdt off angle zs zr l rows ab ms mr f L H. unfold fullspace_arr in H.
  destruct (mapM _ rows) as [cols|] eqn:E; cbn [bind] in H; [|discriminate]. apply mapM_len in E. split.
  - apply mapM_len in H. congruence.
  - intros r I. destruct (mapM_forall _ _ _ H r I) as [[[[a b] c] d] [_ Q]]. apply mapM_len in Q. rewrite combine_length, L in Q. lia.
Qed.

(** ** One-layer models *)
Lemma layer1_full : forall z, layer1 [NInf] z = Ok 0%Z.
Proof. intros z. reflexivity. Qed.

Definition q_in (q : params) : inputs :=
  {| i_res := q_res q; i_aniso := q_aniso q; i_epermH := q_eH q; i_epermV := q_eV q; i_mpermH := q_mH q; i_mpermV := q_mV q |}.

Lemma one_elt : forall {A} (l : list A), List.length l = 1%nat -> exists a, l = [a].
Proof. intros A [|a [|b l]] H; try discriminate. eauto. Qed.

Lemma same_one : forall (a : R), same [a] = true.
Proof. intros a. unfold same, all_same. cbn. destruct (Reqb (a - a) 0) eqn:E; [reflexivity|]. apply Reqb_false in E. lra. Qed.

Lemma check_model_one : forall m i mo, inputs_wf i -> cmodel m [] i = Ok mo ->
  m_depth mo = [NInf] /\ m_full mo = is_arr (i_res i) /\ mo = model_of m false [NInf] i /\ all_fit 1 i = true /\
  exists r a eh ev mh mv, m_res mo = [r] /\ m_aniso mo = [a] /\ m_epermH mo = [eh] /\ m_epermV mo = [ev] /\ m_mpermH mo = [mh] /\ m_mpermV mo = [mv].
Proof.
  intros m i mo W H. rewrite check_model_closed in H by assumption.
  change (check_depth []) with (@Ok (bool * list ext) (false, [NInf])) in H. cbv iota beta in H. cbn [List.length] in H.
  destruct (all_fit 1 i) eqn:F; [|discriminate]. injection H as <-.
  destruct (model_lengths m false [NInf] i W F) as [L1 [L2 [L3 [L4 [L5 [L6 _]]]]]]. cbn [List.length] in *.
  apply one_elt in L1, L2, L3, L4, L5, L6.
  destruct L1 as [r E1], L2 as [a E2], L3 as [eh E3], L4 as [ev E4], L5 as [mh E5], L6 as [mv E6].
  split; [reflexivity|]. split.
  - change (m_full (model_of m false [NInf] i)) with
      (is_arr (i_res i) && (same (m_res (model_of m false [NInf] i)) && same (m_aniso (model_of m false [NInf] i))
       && (same (m_epermH (model_of m false [NInf] i)) && same (m_epermV (model_of m false [NInf] i)))
       && (same (m_mpermH (model_of m false [NInf] i)) && same (m_mpermV (model_of m false [NInf] i))))).
    rewrite E1, E2, E3, E4, E5, E6, !same_one. apply andb_true_r.
  - split; [reflexivity|]. split; [reflexivity|]. exists r, a, eh, ev, mh, mv. repeat split; assumption.
Qed.

(** ** Geometry *)
Lemma check_dipole_len : forall p x y z n, check_dipole p = Ok (x, y, z, n) -> List.length x = n /\ List.length y = n.
Proof.
  intros p x y z n H. unfold check_dipole in H. destruct p as [|a [|b [|c [|d p]]]]; try discriminate.
  destruct (check_var a [] []) as [[? xa]|]; cbn [bind] in H; [|discriminate].
  destruct (check_var b [] []) as [[? ya]|]; cbn [bind] in H; [|discriminate].
  destruct (Nat.eqb_spec (List.length xa) (List.length ya)) as [E|NE].
  - cbn [bind] in H. destruct (check_var c [1%nat] []) as [[? za]|]; cbn [bind] in H; [|discriminate].
    injection H as <- <- <- <-. split; [reflexivity|congruence].
  - destruct (Nat.eqb_spec (List.length xa) 1) as [E1|N1].
    + cbn [bind] in H. destruct (check_var c [1%nat] []) as [[? za]|]; cbn [bind] in H; [|discriminate].
      injection H as <- <- <- <-. destruct (one_elt _ E1) as [v ->]. cbn [bcast]. rewrite repeat_length. split; reflexivity.
    + destruct (Nat.eqb_spec (List.length ya) 1) as [E2|N2]; cbn [bind] in H; [|discriminate].
      destruct (check_var c [1%nat] []) as [[? za]|]; cbn [bind] in H; [|discriminate].
      injection H as <- <- <- <-. destruct (one_elt _ E2) as [v ->]. cbn [bcast]. rewrite repeat_length. split; reflexivity.
Qed.

Lemma geometry_spec : forall m src rec off angle zs zr nsrc nrec, geometry m src rec = Ok (off, angle, zs, zr, nsrc, nrec) ->
  List.length off = (nrec * nsrc)%nat /\ List.length angle = (nrec * nsrc)%nat /\ (forall o, In o off -> min_off m <= o).
Proof.
  intros m src rec off angle zs zr nsrc nrec H. unfold geometry in H.
  destruct (check_dipole src) as [[[[sx sy] sz] ns]|] eqn:E1; cbn [bind] in H; [|discriminate].
  destruct (check_dipole rec) as [[[[rx ry] rz] nr]|] eqn:E2; cbn [bind] in H; [|discriminate].
  apply check_dipole_len in E1, E2. destruct E1 as [A1 A2], E2 as [B1 B2].
  destruct (get_off_ang m sx sy rx ry) as [o a] eqn:G.
  destruct sz as [|z0 [|? ?]]; try discriminate. destruct rz as [|z1 [|? ?]]; try discriminate.
  injection H as <- <- <- <- <- <-.
  destruct (off_ang_spec m sx sy rx ry ltac:(congruence) ltac:(congruence)) as [L1 [L2 _]]. rewrite G in L1, L2. cbn [fst snd] in L1, L2.
  split; [rewrite L1; subst; lia|]. split; [rewrite L2; subst; lia|].
  intros x I. unfold get_off_ang in G. rewrite (proj1 (check_min_spec _ _)) in G. injection G as <- _.
  apply in_map_iff in I. destruct I as [p [<- _]]. apply Rmax_r.
Qed.

(** ** analytical 'fs' is dipole *)
Lemma rows_of_len : forall fo n, List.length (f_etaH fo) = n -> List.length (f_etaV fo) = n -> List.length (f_zetaH fo) = n ->
  List.length (f_zetaV fo) = n -> List.length (rows_of fo) = n.
Proof. intros fo n A B D E. unfold rows_of. rewrite map_length, !combine_length, A, B, D, E. lia. Qed.

Lemma freq_rows_len : forall m freq r a eH eV mH mV, let fo := check_frequency m freq r a eH eV mH mV in
  List.length (rows_of fo) = List.length (f_freq fo).
Proof.
  intros. apply rows_of_len; unfold fo, check_frequency, outer; cbn [f_freq f_etaH f_etaV f_zetaH f_zetaV]; rewrite !map_length; reflexivity.
Qed.

Theorem analytical_is_dipole : forall m hook mk ive kve src rec q ft ab lf lo r,
  inputs_wf (q_in q) -> q_res q = ResArr r ->
  analytical m hook ive kve src rec q ft SolFs None ab =
  ('(EM, nrec, nsrc) <- dipole m hook mk src rec [] q (ft_data ft) ab (Some true) lf lo ;; Ok ([EM], nrec, nsrc)).
Proof.
  intros m hook mk ive kve src rec q ft ab lf lo r W R. unfold analytical, dipole. cbn [bind].
  change (check_model m [] (q_res q) (q_aniso q) (q_eH q) (q_eV q) (q_mH q) (q_mV q)) with (cmodel m [] (q_in q)).
  destruct (cmodel m [] (q_in q)) as [mo|e] eqn:CM; cbn [bind]; [|reflexivity].
  destruct (check_model_one _ _ _ W CM) as [D [F _]]. cbn [i_res q_in] in F. rewrite R in F. cbn [is_arr] in F.
  unfold apply_hook. rewrite R.
  set (fo := check_frequency _ _ _ _ _ _ _ _).
  pose proof (freq_rows_len m (ft_data ft) (m_res mo) (m_aniso mo) (m_epermH mo) (m_epermV mo) (m_mpermH mo) (m_mpermV mo)) as LR.
  cbv zeta in LR. fold fo in LR. clearbody fo.
  destruct (check_ab ab) as [[[abc ms] mr]|]; cbn [bind]; [|reflexivity].
  destruct (geometry m src rec) as [[[[[[off angle] zs] zr] ns] nr]|] eqn:G; cbn [bind]; [|reflexivity].
  destruct (geometry_spec _ _ _ _ _ _ _ _ _ G) as [L1 [L2 _]].
  rewrite D, !layer1_full. cbn [bind check_solution]. rewrite F. unfold fem.
  destruct (inb abc [36]%Z) eqn:I; cbn [bind].
  - rewrite LR, L1. reflexivity.
  - cbn [andb orb negb]. destruct (fullspace_arr _ off angle zs zr 0 (rows_of fo) abc ms mr) as [f|] eqn:FA; cbn [bind]; [|reflexivity].
    destruct (fullspace_arr_shape _ _ _ _ _ _ _ _ _ _ _ (eq_trans L2 (eq_sym L1)) FA) as [S1 S2].
    rewrite mat_add_zeros by auto. reflexivity.
Qed.

(** ** The diffusive full-space solution *)
Definition sval_list (m : mins) (freq : list R) : list C :=
  map (sval (laplace_of freq)) (fst (check_min (if laplace_of freq then map Ropp freq else freq) (Some (min_freq m)))).

Lemma diff_rows : forall m freq r a, 
  rows_of (check_frequency m freq [r] [a] [0] [0] [1] [1]) =
  map (fun s => mkrow [RtoC (1 / r)] [RtoC (1 / (r * a * a))] [Cmult s (RtoC mu0)] [Cmult s (RtoC mu0)]) (sval_list m freq).
Proof.
  intros m freq r a. unfold check_frequency, rows_of, sval_list, laplace_of, outer. cbn [f_etaH f_etaV f_zetaH f_zetaV].
  generalize (map (sval (negb (existsb (fun f : R => Rltb 0 f) freq)))
           (fst (check_min (if negb (existsb (fun f : R => Rltb 0 f) freq) then map Ropp freq else freq) (Some (min_freq m))))).
  intros l. induction l as [|s l IH]; [reflexivity|]. cbn [map combine fst snd] in *. f_equal; [|exact IH].
  unfold map2. cbn. unfold mu0, mu_0. f_equal; f_equal; rewrite ?Rmult_0_l, ?Rmult_1_l; try reflexivity;
  rewrite Cmult_0_r, Cplus_0_r; reflexivity.
Qed.

Lemma sval_quad1 : forall m freq s, 0 < min_freq m -> In s (sval_list m freq) -> quad1 s.
Proof.
  intros m freq s H I. unfold sval_list in I. rewrite (proj1 (check_min_spec _ _)), map_map in I. apply in_map_iff in I.
  destruct I as [f [<- _]]. assert (P : 0 < Rmax f (min_freq m)) by (pose proof (Rmax_r f (min_freq m)); lra).
  set (u := Rmax f (min_freq m)) in *. assert (PP := PI_RGT_0). assert (Q : 0 < PI * u) by (apply Rmult_lt_0_compat; lra). unfold sval. destruct (laplace_of freq); unfold quad1, Cmult, RtoC; cbn [fst snd].
  - split; [lra|]. split; [lra|]. intros E. apply (f_equal fst) in E. cbn in E. lra.
  - split; [lra|]. split; [lra|]. intros E. apply (f_equal snd) in E. cbn in E. lra.
Qed.

Lemma hs_res_real : forall r, 0 < r -> hs_res (RtoC (1 / r)) = r.
Proof. intros r H. unfold hs_res, Cinv, RtoC. cbn [fst snd]. field. lra. Qed.

Lemma hs_dist_pos : forall off angle zs zr r l, 0 < off ->
  rm (hs_geo off angle zs zr r l) <> 0 /\ rp (hs_geo off angle zs zr r l) <> 0.
Proof.
  intros off angle zs zr r l H. unfold hs_geo. cbn [rm rp].
  assert (E : (cos angle * off) ^ 2 + (sin angle * off) ^ 2 = off ^ 2).
  { pose proof (sin2_cos2 angle) as P. unfold Rsqr in P. transitivity ((sin angle * sin angle + cos angle * cos angle) * off ^ 2); [ring|]. rewrite P. ring. }
  rewrite E. split; apply Rgt_not_eq, sqrt_lt_R0; (match goal with |- context [Rabs ?v] => pose proof (pow2_ge_0 (Rabs v)) end; pose proof (pow_lt off 2 H); lra).
Qed.

Lemma halfspace_dfs : forall ive kve isr l ab off angle zs zr r sv, 0 < r -> 0 < off ->
  halfspace ive kve (HFreq isr l) Dfs ab off angle zs zr (RtoC (1 / r)) (RtoC sv) =
  Ok (One (map (fun s => p_d (hs_part ive kve isr (AtS s) ab off angle zs zr r (1 / sqrt (sv * r)))) l)).
Proof.
  intros ive kve isr l ab off angle zs zr r sv Hr Ho. unfold halfspace. rewrite hs_res_real by assumption.
  unfold hs_aniso. cbn [fst RtoC].
  destruct (hs_dist_pos off angle zs zr r (1 / sqrt (sv * r)) Ho) as [P1 P2].
  destruct (Req_EM_T _ 0) as [E|_]; [contradiction|]. destruct (Req_EM_T _ 0) as [E|_]; [contradiction|].
  cbn [hs_imp0 andb]. unfold hs_parts. rewrite map_map. reflexivity.
Qed.

Lemma fs_ee : forall rdt an a b off angle zs zr eH eV zH zV, (1 <= a <= 3)%Z -> (1 <= b <= 3)%Z ->
  fs_comp rdt an a b off angle zs zr eH eV zH zV = fullspace rdt an off angle zs zr eH eV zH zV (10 * a + b)%Z false false.
Proof.
  intros rdt an a b off angle zs zr eH eV zH zV Ha Hb. unfold fs_comp.
  assert (a = 1 \/ a = 2 \/ a = 3)%Z as Ea by lia. assert (b = 1 \/ b = 2 \/ b = 3)%Z as Eb by lia.
  destruct Ea as [-> | [-> | ->]]; destruct Eb as [-> | [-> | ->]];
  (match goal with |- bind ?c _ = _ => let v := eval vm_compute in c in change c with v end); cbn [bind]; reflexivity.
Qed.

Lemma check_ab_ee : forall a b, (1 <= a <= 3)%Z -> (1 <= b <= 3)%Z -> check_ab (AbNum (inject_Z (10 * a + b))) = Ok ((10 * a + b)%Z, false, false).
Proof.
  intros a b Ha Hb.
  assert (a = 1 \/ a = 2 \/ a = 3)%Z as Ea by lia. assert (b = 1 \/ b = 2 \/ b = 3)%Z as Eb by lia.
  destruct Ea as [-> | [-> | ->]]; destruct Eb as [-> | [-> | ->]]; vm_compute; reflexivity.
Qed.

Lemma inb_ee : forall a b, (1 <= a <= 3)%Z -> (1 <= b <= 3)%Z -> inb (10 * a + b)%Z [36]%Z = false.
Proof.
  intros a b Ha Hb. unfold inb. cbn [existsb]. destruct (Z.eqb_spec (10 * a + b) 36) as [E|]; [lia|reflexivity].
Qed.

Lemma nth_map_seq : forall {A B} (f : A -> B) (l : list A) d d', 
  map (fun k => f (nth k l d)) (seq 0 (List.length l)) = map f l /\ map (fun k => nth k (map f l) d') (seq 0 (List.length l)) = map f l.
Proof.
  intros A B f l d d'. split.
  - induction l as [|x l IH]; [reflexivity|]. cbn [List.length seq map nth]. f_equal. rewrite <- seq_shift, map_map. exact IH.
  - induction l as [|x l IH]; [reflexivity|]. cbn [List.length seq map nth]. f_equal. rewrite <- seq_shift, map_map. exact IH.
Qed.

Lemma rows_from_map : forall {P} (V : C -> P -> C) (sv : list C) (ps : list P),
  rows_from (List.length sv) (map (fun p => map (fun s => V s p) sv) ps) = map (fun s => map (V s) ps) sv.
Proof.
  intros P V sv ps. unfold rows_from.
  transitivity (map (fun k => map (V (nth k sv (RtoC 0))) ps) (seq 0 (List.length sv))).
  - apply map_ext_in. intros k I. apply in_seq in I. rewrite map_map. apply map_ext. intros p.
    rewrite (nth_indep _ (RtoC 0) (V (RtoC 0) p)) by (rewrite map_length; lia).
    exact (map_nth (fun s => V s p) sv (RtoC 0) k).
  - exact (proj1 (nth_map_seq (fun s => map (V s) ps) sv (RtoC 0) [])).
Qed.

Lemma sval_im : forall m freq s, 0 < min_freq m -> In s (sval_list m freq) -> ~ snd (Cmult s (RtoC mu0)) < 0.
Proof.
  intros m freq s H I. destruct (sval_quad1 _ _ _ H I) as [A [B _]]. pose proof mu0_pos. unfold Cmult, RtoC. cbn [fst snd].
  assert (0 <= snd s * mu0) by (apply Rmult_le_pos; lra). lra.
Qed.

(** Zero permittivities, unit permeabilities, anything else arbitrary *)
Definition diffusive_model (q : params) : Prop :=
  (exists r, q_res q = ResArr r) /\ (exists sh, q_eH q = Some (Nd sh [0])) /\
  (q_eV q = None \/ exists sh, q_eV q = Some (Nd sh [0])) /\ q_mH q = None /\ q_mV q = None.

Theorem diffusive_is_full : forall m hook ive kve src rec q freq a b,
  0 < min_res m -> 0 < min_freq m -> 0 < min_off m -> inputs_wf (q_in q) -> diffusive_model q ->
  freq <> [] -> (1 <= a <= 3)%Z -> (1 <= b <= 3)%Z ->
  analytical m hook ive kve src rec q (FtArr freq) (SolD Dfs) None (AbNum (inject_Z (10 * a + b))) =
  analytical m hook ive kve src rec q (FtArr freq) SolFs None (AbNum (inject_Z (10 * a + b))).
Proof.
  intros m hook ive kve src rec q freq a b Mr Mf Mo W [[r0 RA] [[she EH] [EV [MH MV]]]] NE Ha Hb.
  unfold analytical. cbn [bind].
  change (check_model m [] (q_res q) (q_aniso q) (q_eH q) (q_eV q) (q_mH q) (q_mV q)) with (cmodel m [] (q_in q)).
  destruct (cmodel m [] (q_in q)) as [mo|e] eqn:CM; cbn [bind]; [|reflexivity].
  destruct (model_positive _ _ _ _ W Mr CM) as [Pr [Pa _]].
  destruct (check_model_one _ _ _ W CM) as [D [F [MO [_ [r [l [? [? [? [? [R1 [A1 _]]]]]]]]]]]].
  rewrite R1 in Pr. rewrite A1 in Pa. specialize (Pr r (or_introl eq_refl)). specialize (Pa l (or_introl eq_refl)).
  assert (E1 : m_epermH mo = [0]).
  { rewrite MO. unfold model_of. cbn [m_epermH swp q_in i_epermH]. rewrite EH. cbn. rewrite Rmax_left by lra. reflexivity. }
  assert (E2 : m_epermV mo = [0]).
  { rewrite MO. unfold model_of. cbn [m_epermV swp q_in i_epermH i_epermV]. destruct EV as [-> | [sh ->]]; cbn [default_to]; [rewrite EH|]; cbn; rewrite Rmax_left by lra; reflexivity. }
  assert (E3 : m_mpermH mo = [1]).
  { rewrite MO. unfold model_of. cbn [m_mpermH swp q_in i_mpermH]. rewrite MH. reflexivity. }
  assert (E4 : m_mpermV mo = [1]).
  { rewrite MO. unfold model_of. cbn [m_mpermV swp q_in i_mpermH i_mpermV]. rewrite MV, MH. reflexivity. }
  rewrite R1, A1, E1, E2, E3, E4. unfold apply_hook. rewrite RA. rewrite check_ab_ee by assumption. cbn [bind].
  destruct (geometry m src rec) as [[[[[[off angle] zs] zr] ns] nr]|] eqn:G; cbn [bind]; [|reflexivity].
  destruct (geometry_spec _ _ _ _ _ _ _ _ _ G) as [L1 [L2 Po]].
  cbn [check_solution orb bind ft_data]. rewrite inb_ee by assumption. rewrite diff_rows.
  change (f_freq (check_frequency m freq [r] [l] [0] [0] [1] [1])) with (fst (check_min (if laplace_of freq then map Ropp freq else freq) (Some (min_freq m)))).
  change (map (sval (laplace_of freq)) (fst (check_min (if laplace_of freq then map Ropp freq else freq) (Some (min_freq m))))) with (sval_list m freq).
  assert (LS : List.length (fst (check_min (if laplace_of freq then map Ropp freq else freq) (Some (min_freq m)))) = List.length (sval_list m freq))
    by (unfold sval_list; now rewrite map_length).
  rewrite LS. 
  assert (NS : exists s0 sl, sval_list m freq = s0 :: sl).
  { destruct (sval_list m freq) as [|s0 sl] eqn:E; [|eauto]. apply (f_equal (@List.length C)) in E. unfold sval_list in E.
    rewrite map_length, (proj1 (check_min_spec _ _)), map_length in E. destruct freq as [|f freq]; [contradiction|].
    destruct (laplace_of (f :: freq)); cbn in E; discriminate. }
  assert (HD : (match map (fun s => mkrow [RtoC (1 / r)] [RtoC (1 / (r * l * l))] [Cmult s (RtoC mu0)] [Cmult s (RtoC mu0)]) (sval_list m freq) with
     | [] => Err IndexError | r1 :: _ => Ok r1 end) =
     Ok (mkrow [RtoC (1 / r)] [RtoC (1 / (r * l * l))] [Cmult (hd (RtoC 0) (sval_list m freq)) (RtoC mu0)] [Cmult (hd (RtoC 0) (sval_list m freq)) (RtoC mu0)])).
  { destruct NS as [s0 [sl ->]]. reflexivity. }
  rewrite HD. cbn [bind r_eH r_eV]. change (idx [RtoC (1 / r)] 0) with (Ok (RtoC (1 / r))). change (idx [RtoC (1 / (r * l * l))] 0) with (Ok (RtoC (1 / (r * l * l)))).
  cbn [bind].
  set (lap := laplace_of freq). set (sv := sval_list m freq). set (sg := 1 / (r * l * l)).
  assert (Psg : 0 < sg) by (apply Rdiv_lt_0_compat; [lra|]; repeat apply Rmult_lt_0_compat; lra).
  set (V := fun (s : C) (p : R * R) => p_d (hs_part ive kve lap (AtS s) (10 * a + b)%Z (fst p) (snd p) zs zr r (1 / sqrt (sg * r)))).
  (* left *)
  assert (HL : halfspace_arr ive kve (HFreq lap sv) Dfs (10 * a + b)%Z off angle zs zr (RtoC (1 / r)) (RtoC sg) (List.length sv) =
    Ok [map (fun s => map (V s) (combine off angle)) sv]).
  { unfold halfspace_arr. rewrite (mapM_ok _ (fun p => One (map (fun s => V s p) sv))).
    - cbn [bind nouts seq map]. rewrite map_map. cbn [outs]. rewrite rows_from_map. reflexivity.
    - intros [o an] I. cbn [fst snd]. apply halfspace_dfs; [assumption|]. apply in_combine_l in I. specialize (Po _ I). lra. }
  rewrite HL. cbn [bind].
  (* right *)
  assert (HR : fullspace_arr lap off angle zs zr 0 (map (fun s => mkrow [RtoC (1 / r)] [RtoC sg] [Cmult s (RtoC mu0)] [Cmult s (RtoC mu0)]) sv) (10 * a + b)%Z false false =
    Ok (map (fun s => map (V s) (combine off angle)) sv)).
  { unfold fullspace_arr.
    set (rowf := fun s => mkrow [RtoC (1 / r)] [RtoC sg] [Cmult s (RtoC mu0)] [Cmult s (RtoC mu0)]).
    rewrite (mapM_ok _ (fun rw => (RtoC (1 / r), RtoC sg, nth 0 (r_zH rw) (RtoC 0), nth 0 (r_zV rw) (RtoC 0)))).
    2:{ intros rw I. apply in_map_iff in I. destruct I as [s [<- _]]. reflexivity. }
    cbn [bind]. rewrite !map_map. cbn [fst snd r_zH r_zV nth].
    replace (negb lap && _) with false.
    2:{ symmetry. apply andb_false_iff. right. unfold fs_anyneg. cbn [andb]. apply not_true_is_false. intros E. apply existsb_exists in E.
        destruct E as [z [I1 I2]]. apply in_map_iff in I1. destruct I1 as [s [<- Is]]. cbn in I2. destruct (Rlt_dec _ 0) as [Lz|]; [|discriminate].
        exact (sval_im _ _ _ Mf Is Lz). }
    rewrite (mapM_ok _ (fun c => map (V (Cdiv (snd c) (RtoC mu0))) (combine off angle))).
    - rewrite map_map. apply (f_equal Ok). apply map_ext_in. intros s I. cbn [snd]. apply map_ext. intros p. unfold rowf; cbn [r_zH r_zV nth].
      replace (Cdiv (Cmult s (RtoC mu0)) (RtoC mu0)) with s; [reflexivity|]. field. apply RtoC_neq_0. pose proof mu0_pos. lra.
    - intros c I. apply in_map_iff in I. destruct I as [s [<- Is]]. unfold rowf; cbn [r_zH r_zV nth snd].
      apply mapM_ok. intros [o an] I2. cbn [fst snd].
      rewrite <- fs_ee by assumption. replace (1 / r) with (/ r) by (unfold Rdiv; ring). unfold mu0 at 1 2. fold mu0.
      assert (Ep : 0 < o) by (apply in_combine_l in I2; specialize (Po _ I2); lra).
      rewrite (hs_direct_fs r sg o an zs zr s lap Pr Psg Ep (sval_quad1 _ _ _ Mf Is) a b (hs_air ive kve lap (AtS s) (10 * a + b)%Z (hs_geo o an zs zr r (1 / sqrt (sg * r))) r) Ha Hb).
      unfold V, hs_part. cbn [fst snd]. replace (Cdiv (Cmult s (RtoC mu0)) (RtoC mu0)) with s; [reflexivity|]. field. apply RtoC_neq_0. pose proof mu0_pos. lra. }
  rewrite HR. reflexivity.
Qed.

(** ** Permeabilities do not enter the diffusive solutions *)
Theorem mperm_ignored : forall m hook ive kve src rec q q' ft s sg ab r,
  inputs_wf (q_in q) -> inputs_wf (q_in q') -> q_res q = ResArr r ->
  q_res q' = q_res q -> q_aniso q' = q_aniso q -> q_eH q' = q_eH q -> q_eV q' = q_eV q ->
  fits 1 (q_mH q) = true -> fits 1 (q_mV q) = true -> fits 1 (q_mH q') = true -> fits 1 (q_mV q') = true ->
  analytical m hook ive kve src rec q' ft (SolD s) sg ab = analytical m hook ive kve src rec q ft (SolD s) sg ab.
Proof.
  intros m hook ive kve src rec q q' ft s sg ab r W W' RA ER EA EH EV F1 F2 F3 F4. unfold analytical.
  match goal with |- bind ?x _ = bind ?x _ => destruct x as [fts|]; cbn [bind]; [|reflexivity] end.
  change (check_model m [] (q_res q) (q_aniso q) (q_eH q) (q_eV q) (q_mH q) (q_mV q)) with (cmodel m [] (q_in q)).
  change (check_model m [] (q_res q') (q_aniso q') (q_eH q') (q_eV q') (q_mH q') (q_mV q')) with (cmodel m [] (q_in q')).
  rewrite !check_model_closed by assumption.
  change (check_depth []) with (@Ok (bool * list ext) (false, [NInf])). cbv iota beta. cbn [List.length].
  assert (AF : all_fit 1 (q_in q') = all_fit 1 (q_in q)).
  { unfold all_fit. cbn [q_in i_res i_aniso i_epermH i_epermV i_mpermH i_mpermV]. now rewrite ER, EA, EH, EV, F1, F2, F3, F4. }
  rewrite AF. destruct (all_fit 1 (q_in q)) eqn:AQ; cbn [bind]; [|reflexivity].
  unfold apply_hook. rewrite ER, RA.
  assert (M1 : m_res (model_of m false [NInf] (q_in q')) = m_res (model_of m false [NInf] (q_in q))) by (unfold model_of; cbn [m_res q_in i_res]; now rewrite ER).
  assert (M2 : m_aniso (model_of m false [NInf] (q_in q')) = m_aniso (model_of m false [NInf] (q_in q))) by (unfold model_of; cbn [m_aniso q_in i_res i_aniso]; now rewrite ER, EA).
  assert (M3 : m_epermH (model_of m false [NInf] (q_in q')) = m_epermH (model_of m false [NInf] (q_in q))) by (unfold model_of; cbn [m_epermH q_in i_epermH]; now rewrite EH).
  assert (M4 : m_epermV (model_of m false [NInf] (q_in q')) = m_epermV (model_of m false [NInf] (q_in q))) by (unfold model_of; cbn [m_epermV q_in i_epermH i_epermV]; now rewrite EH, EV).
  rewrite M1, M2, M3, M4.
  set (mq := model_of m false [NInf] (q_in q)). set (mq' := model_of m false [NInf] (q_in q')).
  destruct (check_ab ab) as [[[abc ms] mr]|]; cbn [bind]; [|reflexivity].
  destruct (geometry m src rec) as [[[[[[off angle] zs] zr] ns] nr]|]; cbn [bind]; [|reflexivity].
  destruct (check_solution (SolD s) sg ms mr); cbn [bind]; [|reflexivity].
  cbn [f_freq check_frequency].
  match goal with |- bind ?x _ = bind ?x _ => destruct x as [inp|]; cbn [bind]; [|reflexivity] end.
  (* the first rows agree in the first two parts *)
  set (fo' := check_frequency m (ft_data fts) (m_res mq) (m_aniso mq) (m_epermH mq) (m_epermV mq) (m_mpermH mq') (m_mpermV mq')).
  set (fo := check_frequency m (ft_data fts) (m_res mq) (m_aniso mq) (m_epermH mq) (m_epermV mq) (m_mpermH mq) (m_mpermV mq)).
  assert (HD : match rows_of fo', rows_of fo with r1 :: _, r2 :: _ => r_eH r1 = r_eH r2 /\ r_eV r1 = r_eV r2 | [], [] => True | _, _ => False end).
  { unfold rows_of, fo', fo, check_frequency, outer. cbn [f_etaH f_etaV f_zetaH f_zetaV].
    match goal with |- context [map (sval ?l) ?f] => destruct (map (sval l) f) as [|s0 sl] end; [exact I|]. split; reflexivity. }
  destruct (rows_of fo') as [|r1 ?]; destruct (rows_of fo) as [|r2 ?]; try contradiction; cbn [bind]; [reflexivity|].
  destruct HD as [H1 H2]. rewrite H1, H2. reflexivity.
Qed.

(** ** Lists *)
Theorem list_rejected : forall m hook ive kve src rec q l s ab v,
  analytical m hook ive kve src rec q (FtList l) (SolD s) None ab <> Ok v.
Proof.
  intros m hook ive kve src rec q l s ab v. unfold analytical. cbn [bind].
  destruct (check_model _ _ _ _ _ _ _ _) as [mo|]; cbn [bind]; [|discriminate].
  destruct (check_ab ab) as [[[abc ms] mr]|]; cbn [bind]; [|discriminate].
  destruct (geometry m src rec) as [[[[[[off angle] zs] zr] ns] nr]|]; cbn [bind]; [|discriminate].
  destruct (check_solution (SolD s) None ms mr); cbn [bind]; discriminate.
Qed.

(** ** Permittivities do enter *)
(** resistivity 1, relative permittivity e, source and receiver at the same depth and
    1 m apart, Laplace parameter 1/epsilon_0 *)
Definition zk : Z -> C -> C := fun _ _ => RtoC 0.
Definition wit_q (e : R) : params :=
  {| q_res := ResArr (Nd [] [1]); q_aniso := None; q_eH := Some (Nd [] [e]); q_eV := None; q_mH := None; q_mV := None |}.
Definition wit_src : list ndin := [Nd [] [0]; Nd [] [0]; Nd [] [0]].
Definition wit_rec : list ndin := [Nd [] [1]; Nd [] [0]; Nd [] [0]].

Lemma wit_wf : forall e, inputs_wf (q_in (wit_q e)).
Proof. intros e. constructor; cbn; auto. intros kv []. Qed.

Lemma small20 : / 10 ^ 20 < 1 /\ 0 < / 10 ^ 20.
Proof.
  assert (1 < 10 ^ 20) by (apply Rlt_pow_R1; [lra|lia]). split; [|apply Rinv_0_lt_compat; lra].
  rewrite <- Rinv_1. apply Rinv_lt_contravar; lra.
Qed.

Lemma wit_geo : geometry default_mins wit_src wit_rec = Ok ([1], [0], 0, 0, 1%nat, 1%nat).
Proof.
  unfold geometry, wit_src, wit_rec, check_dipole. cbn [check_var check_shape atleast1 bind List.length Nat.eqb].
  change (check_shape [1%nat] [1%nat] []) with (Ok tt). cbn [bind].
  unfold get_off_ang, map2. rewrite (proj1 (check_min_spec _ _)). cbn [combine flat_map map app fst snd].
  replace ((1 - 0) * (1 - 0) + (0 - 0) * (0 - 0)) with 1 by ring. rewrite sqrt_1.
  unfold default_mins. cbn [min_off]. rewrite Rmax_left.
  - unfold atan2. assert (L : Rltb 0 (1 - 0) = true) by (apply Rltb_true; lra). rewrite L. replace ((0 - 0) / (1 - 0)) with 0 by field. rewrite atan_0. reflexivity.
  - simpl. lra.
Qed.

Definition wit_val (e : R) : C :=
  p_d (hs_part zk zk true (AtS (RtoC (1 / epsilon_0))) 33 1 0 0 0 (/ (1 + e)) 1).

Lemma wit_analytical : forall e, 0 <= e ->
  analytical default_mins (fun _ fo => fo) zk zk wit_src wit_rec (wit_q e) (FtArr [- (1 / epsilon_0)]) (SolD Dfs) None (AbNum (inject_Z 33)) =
  Ok ([[[wit_val e]]], 1%nat, 1%nat).
Proof.
  intros e He. unfold analytical. cbn [bind].
  change (check_model default_mins [] (q_res (wit_q e)) (q_aniso (wit_q e)) (q_eH (wit_q e)) (q_eV (wit_q e)) (q_mH (wit_q e)) (q_mV (wit_q e))) with (cmodel default_mins [] (q_in (wit_q e))).
  rewrite check_model_closed by apply wit_wf.
  change (check_depth []) with (@Ok (bool * list ext) (false, [NInf])). cbv iota beta. cbn [List.length].
  assert (AF : all_fit 1 (q_in (wit_q e)) = true) by reflexivity. rewrite AF. cbn [bind].
  destruct small20 as [S1 S2].
  assert (MR : m_res (model_of default_mins false [NInf] (q_in (wit_q e))) = [1]).
  { unfold model_of. cbn [m_res q_in i_res wit_q q_res res_in nd_data map swp]. rewrite Rmax_left; [reflexivity|]. cbn [min_res default_mins]. lra. }
  assert (MA : m_aniso (model_of default_mins false [NInf] (q_in (wit_q e))) = [1]) by reflexivity.
  assert (M1 : m_epermH (model_of default_mins false [NInf] (q_in (wit_q e))) = [e]).
  { unfold model_of. cbn [m_epermH q_in i_epermH wit_q q_eH plain_val nd_data map swp]. rewrite Rmax_left; [reflexivity|lra]. }
  assert (M2 : m_epermV (model_of default_mins false [NInf] (q_in (wit_q e))) = [e]).
  { unfold model_of. cbn [m_epermV q_in i_epermH i_epermV default_to wit_q q_eH q_eV plain_val nd_data map swp]. rewrite Rmax_left; [reflexivity|lra]. }
  rewrite MR, MA, M1, M2. cbn [apply_hook wit_q q_res].
  change (check_ab (AbNum (inject_Z 33))) with (@Ok (Z * bool * bool) (33%Z, false, false)). cbn [bind].
  rewrite wit_geo. cbn [bind check_solution orb ft_data].
  assert (PE := epsilon_0_pos).
  assert (Q : 0 < 1 / epsilon_0) by (apply Rdiv_lt_0_compat; lra).
  assert (LF : laplace_of [- (1 / epsilon_0)] = true).
  { unfold laplace_of. cbn [existsb]. assert (E : Rltb 0 (- (1 / epsilon_0)) = false) by (apply Rltb_false; lra). rewrite E. reflexivity. }
  unfold check_frequency. unfold laplace_of in LF. rewrite LF. fold (laplace_of [- (1 / epsilon_0)]). unfold laplace_of. rewrite LF.
  rewrite (proj1 (check_min_spec _ _)). cbn [f_freq f_etaH f_etaV f_zetaH f_zetaV map].
  assert (MX : Rmax (- - (1 / epsilon_0)) (min_freq default_mins) = 1 / epsilon_0).
  { rewrite Ropp_involutive. apply Rmax_left. cbn [min_freq default_mins]. assert (1 < 1 / epsilon_0); [|lra].
    apply (Rmult_lt_reg_r epsilon_0); [lra|]. replace (1 / epsilon_0 * epsilon_0) with 1 by (field; lra). rewrite Rmult_1_l.
    unfold epsilon_0, mu_0, c_light. assert (PP := PI_RGT_0). assert (P3 := PI2_3_2). 
    apply (Rmult_lt_reg_r (4 / 10 ^ 7 * PI * 299792458 * 299792458)); [nra|].
    replace (1 / (4 / 10 ^ 7 * PI * 299792458 * 299792458) * (4 / 10 ^ 7 * PI * 299792458 * 299792458)) with 1 by (field; lra). simpl. nra. }
  rewrite MX. cbn [bind]. unfold rows_of. cbn [f_etaH f_etaV f_zetaH f_zetaV map combine outer fst snd]. unfold map2. cbn [combine map fst snd]. cbn [bind r_eH r_eV].
  set (eta := Cplus (RtoC (1 / 1)) (Cmult (sval true (1 / epsilon_0)) (RtoC (e * epsilon_0)))).
  assert (ET : eta = RtoC (1 / (/ (1 + e)))).
  { unfold eta, sval, Cplus, Cmult, RtoC. cbn [fst snd]. apply injective_projections; cbn [fst snd]; field; lra. }
  assert (EV : Cplus (RtoC (1 / (1 * 1 * 1))) (Cmult (sval true (1 / epsilon_0)) (RtoC (e * epsilon_0))) = RtoC (1 / (/ (1 + e)))).
  { unfold sval, Cplus, Cmult, RtoC. cbn [fst snd]. apply injective_projections; cbn [fst snd]; field; lra. }
  rewrite ET, EV. change (idx [RtoC (1 / / (1 + e))] 0) with (Ok (RtoC (1 / / (1 + e)))). cbn [bind].
  unfold halfspace_arr. cbn [combine mapM fst snd].
  assert (PR : 0 < / (1 + e)) by (apply Rinv_0_lt_compat; lra).
  rewrite halfspace_dfs by lra. cbn [bind nouts seq map outs List.length]. unfold rows_from. cbn [seq map nth].
  replace (1 / / (1 + e) * / (1 + e)) with 1 by (field; lra). rewrite sqrt_1. replace (1 / 1) with 1 by field. reflexivity.
Qed.

Lemma wit_closed : forall ive kve r s, 0 < r -> 0 < s ->
  p_d (hs_part ive kve true (AtS (RtoC s)) 33 1 0 0 0 r 1) =
  RtoC (- (r + sqrt (mu0 * r) * sqrt s + mu0 * s) / (4 * PI) * exp (-2 * sqrt (s * (mu0 / (r * 4))))).
Proof.
  intros ive kve r s Hr Hs. pose proof mu0_pos as Pm. assert (PP := PI_RGT_0). unfold hs_part.
  set (g := hs_geo 1 0 0 0 r 1).
  assert (H0 : Rabs (0 - 0) = 0) by (rewrite Rminus_0_r; apply Rabs_R0).
  assert (G1 : hsm g = 0) by (unfold g, hs_geo; cbn [hsm]; rewrite H0; ring).
  assert (G2 : rsm g = 1).
  { unfold g, hs_geo. cbn [rsm]. rewrite cos_0, sin_0, H0. rewrite <- sqrt_1. f_equal. rewrite sqrt_1. ring. }
  assert (G3 : tsm g = mu0 / (r * 4)).
  { change (tsm g) with (mu0 * (rsm g) ^ 2 / (r * 1 ^ 2 * 4)). rewrite G2. field. lra. }
  unfold hs_fields. cbn [p_d]. unfold hs_coef, hs_delta, hs_xy.
  change (inb 33 [11; 12; 21; 22]%Z) with false. change (inb 33 [13; 23; 31; 32]%Z) with false.
  change (inb 33 [22; 23; 32]%Z) with false. change (inb 33 [11; 22; 33]%Z) with true. cbn [Z.eqb Pos.eqb]. cbv iota zeta beta.
  cbn [s0m s1m s2m c1m c2m]. rewrite G1, G2. unfold hs_f2, hs_f1, hs_f0. rewrite G3.
  assert (PT : 0 < mu0 / (r * 4)) by (apply Rdiv_lt_0_compat; lra).
  assert (Q : Cmult (RtoC s) (RtoC (mu0 / (r * 4))) = RtoC (s * (mu0 / (r * 4)))) by (unfold Cmult, RtoC; cbn [fst snd]; f_equal; ring).
  rewrite Q. rewrite !Csqrt_RtoC by (try lra; apply Rmult_le_pos; lra).
  assert (Q2 : forall t, Cexp (Cmult (RtoC (-2)) (RtoC t)) = RtoC (exp (-2 * t))).
  { intros t. rewrite <- RtoC_mult. rewrite RtoC_Cexp. reflexivity. }
  rewrite Q2. set (e := exp (-2 * sqrt (s * (mu0 / (r * 4))))). unfold rc, RtoC, Cmult, Cplus. cbn [fst snd]. apply injective_projections; cbn [fst snd]; field; lra.
Qed.

Theorem eperm_matters : wit_val 0 <> wit_val 1.
Proof.
  unfold wit_val. assert (PE := epsilon_0_pos). assert (Q : 0 < 1 / epsilon_0) by (apply Rdiv_lt_0_compat; lra).
  assert (PP := PI_RGT_0). pose proof mu0_pos as Pm.
  rewrite !wit_closed by (try assumption; apply Rinv_0_lt_compat; lra).
  set (s := 1 / epsilon_0) in *. replace (/ (1 + 0)) with 1 by field. replace (/ (1 + 1)) with (1 / 2) by field.
  intros E. apply (f_equal fst) in E. cbn [fst RtoC] in E.
  assert (A1 : exp (-2 * sqrt (s * (mu0 / (1 / 2 * 4)))) < exp (-2 * sqrt (s * (mu0 / (1 * 4))))).
  { apply exp_increasing. assert (L : sqrt (s * (mu0 / (1 * 4))) < sqrt (s * (mu0 / (1 / 2 * 4)))); [|lra]. apply sqrt_lt_1.
    - apply Rmult_le_pos; [lra|]. lra.
    - apply Rmult_le_pos; [lra|]. lra.
    - apply Rmult_lt_compat_l; lra. }
  assert (A2 : sqrt (mu0 * (1 / 2)) < sqrt (mu0 * 1)) by (apply sqrt_lt_1; lra).
  assert (A3 : 0 < exp (-2 * sqrt (s * (mu0 / (1 / 2 * 4))))) by apply exp_pos.
  assert (A4 : 0 <= sqrt (mu0 * (1 / 2))) by apply sqrt_pos. assert (A5 : 0 < sqrt s) by (apply sqrt_lt_R0; lra).
  revert A1 A2 A3 A4 A5 E.
  generalize (exp (-2 * sqrt (s * (mu0 / (1 / 2 * 4))))) (exp (-2 * sqrt (s * (mu0 / (1 * 4))))) (sqrt (mu0 * (1 / 2))) (sqrt (mu0 * 1)) (sqrt s).
  intros e1 e2 m1 m2 q A1 A2 A3 A4 A5 E.
  assert (B1 : m1 * q < m2 * q) by (apply Rmult_lt_compat_r; assumption).
  assert (B2 : 0 <= m1 * q) by (apply Rmult_le_pos; lra).
  assert (B3 : 0 < mu0 * s) by (apply Rmult_lt_0_compat; lra).
  assert (E' : (1 + m2 * q + mu0 * s) * e2 = (1 / 2 + m1 * q + mu0 * s) * e1).
  { apply (Rmult_eq_reg_r (- 1 / (4 * PI))); [|apply Rlt_not_eq; unfold Rdiv; assert (0 < / (4 * PI)) by (apply Rinv_0_lt_compat; lra); lra].
    transitivity (- (1 + m2 * q + mu0 * s) / (4 * PI) * e2); [field; lra|]. rewrite E. field; lra. }
  assert (C1 : (1 / 2 + m1 * q + mu0 * s) * e1 < (1 + m2 * q + mu0 * s) * e2) by (apply Rmult_gt_0_lt_compat; lra).
  lra.
Qed.
