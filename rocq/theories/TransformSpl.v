(** Splined DLF: points and closed form (C16). *)

From Coq Require Import ZArith Reals List Bool String Lia Lra Psatz.
From Coquelicot Require Import Coquelicot.
From Verif Require Import PyBase CBase Kernel Utils UtilsLayer Transform TransformDlf TransformLag.
Import ListNotations.
Local Open Scope R_scope.
Local Open Scope C_scope.
Local Open Scope res_scope.

Definition spl_nout (bfirst blast imin imax nr : R) : Z := nout_spl (bfirst / imax) (blast / imin) nr.
(** outmin 10^(k/nr) *)
Definition spl_lam (bfirst blast imin imax nr : R) : list R :=
  map (fun k => bfirst / imax * exp (INR k / nr * ln 10))%R (seq 0 (Z.to_nat (spl_nout bfirst blast imin imax nr))).

Lemma spl_nout_ge : forall bf bl imin imax nr, (4 <= spl_nout bf bl imin imax nr)%Z.
Proof. intros. unfold spl_nout, nout_spl. destruct (Z.ltb_spec (ceilZ (ln (bl / imin / (bf / imax)) / ln 10 * nr) + 1) 4); lia. Qed.

Lemma idx_last : forall (l : list R), l <> [] -> idx l (-1) = Ok (last l 0%R).
Proof.
  intros l H. unfold idx, norm_idx. change (-1 <? 0)%Z with true. cbv iota. unfold zlen.
  assert (L : (0 < List.length l)%nat) by (destruct l; [congruence|simpl; lia]).
  destruct (Z.ltb_spec (-1 + Z.of_nat (List.length l)) 0) as [?|_]; [lia|].
  rewrite (nth_error_nth' l 0%R) by lia. f_equal.
  replace (Z.to_nat (-1 + Z.of_nat (List.length l))) with (List.length l - 1)%nat by lia.
  destruct (exists_last H) as [l' [x ->]]. rewrite last_last, app_length. simpl.
  rewrite app_nth2 by lia. replace (List.length l' + 1 - 1 - List.length l')%nat with 0%nat by lia. reflexivity.
Qed.

Section Pts.
Variables (filt : dfilter) (off : list R) (imin imax bf bl nr : R).
Hypothesis Hnr : 0 < nr.
Hypothesis HF : well_formed filt.
Hypothesis Hbf : hd 0%R (f_base filt) = bf.
Hypothesis Hbl : last (f_base filt) 0%R = bl.
Hypothesis Hne : f_base filt <> [].
Hypothesis Hmin : lmin off = Ok imin.
Hypothesis Hmax : lmax off = Ok imax.
Hypothesis Hpos : forall r, In r off -> 0 < r.

Lemma bf_pos : 0 < bf.
Proof.
  destruct HF as [_ [_ W]]. rewrite List.Forall_forall in W. rewrite <- Hbf. apply W.
  destruct (f_base filt); [congruence|now left].
Qed.
Lemma bl_pos : 0 < bl.
Proof.
  destruct HF as [_ [_ W]]. rewrite List.Forall_forall in W. rewrite <- Hbl. apply W.
  destruct (exists_last Hne) as [l' [x E]]. rewrite E, last_last. apply in_or_app. right. now left.
Qed.
Lemma imm : 0 < imin /\ imin <= imax /\ 0 < imax /\ forall r, In r off -> imin <= r <= imax.
Proof.
  assert (Ho : off <> []) by (intros E; rewrite E in Hmin; discriminate).
  destruct (lmin_spec off Ho) as [m [E1 [I1 A1]]]. rewrite Hmin in E1. inversion E1; subst m.
  destruct (lmax_spec off Ho) as [m [E2 [I2 A2]]]. rewrite Hmax in E2. inversion E2; subst m.
  pose proof (Hpos _ I1). pose proof (Hpos _ I2). pose proof (A1 _ I2). repeat split; auto.
Qed.

Lemma ln10_pos : 0 < ln 10.
Proof. rewrite <- ln_1. apply ln_increasing; lra. Qed.

Theorem get_dlf_points_splined :
  get_dlf_points filt off nr = Ok ([spl_lam bf bl imin imax nr], PSpl (base_over (f_base filt) off)).
Proof.
  pose proof bf_pos. pose proof bl_pos. destruct imm as [P1 [P2 [P3 _]]]. pose proof ln10_pos as L10.
  unfold get_dlf_points. rewrite Reqb_false by lra. rewrite Hmin, Hmax. cbn [bind].
  rewrite (idx_last _ Hne), Hbl. cbn [bind].
  assert (E0 : idx (f_base filt) 0 = Ok bf).
  { change 0%Z with (Z.of_nat 0). rewrite (idx_nth _ _ 0%nat 0%R) by (destruct (f_base filt); [congruence|simpl; lia]).
    rewrite <- Hbf. destruct (f_base filt); reflexivity. }
  rewrite E0. cbn [bind]. rewrite Rltb_false by lra. fold (spl_nout bf bl imin imax nr).
  f_equal. f_equal. f_equal.
  replace (IZR (spl_nout bf bl imin imax nr) / nr)%R with (IZR (spl_nout bf bl imin imax nr) / (1 / (1 / nr)))%R by (field; lra).
  replace (1 / nr)%R with (1 / (1 / (1 / nr)))%R at 2 by (field; lra).
  rewrite arange_exact; [|pose proof (spl_nout_ge bf bl imin imax nr); lia|apply Rdiv_lt_0_compat; lra].
  unfold spl_lam. rewrite map_map. apply map_ext. intros k.
  rewrite Rmult_plus_distr_r, exp_plus. f_equal.
  - replace (ln (bf / imax) / ln 10 * ln 10)%R with (ln (bf / imax)) by (field; lra).
    apply exp_ln. apply Rdiv_lt_0_compat; lra.
  - f_equal. field. lra.
Qed.

Lemma spl_lam_pos : forall x, In x (spl_lam bf bl imin imax nr) -> 0 < x.
Proof.
  intros x Hx. unfold spl_lam in Hx. apply in_map_iff in Hx. destruct Hx as [k [<- _]].
  pose proof bf_pos. destruct imm as [_ [_ [P3 _]]].
  apply Rmult_lt_0_compat; [apply Rdiv_lt_0_compat; lra|apply exp_pos].
Qed.

(** every required wavenumber lies between the first and the last point *)
Theorem spl_points_cover : (forall b, In b (f_base filt) -> bf <= b <= bl) ->
  let p := spl_lam bf bl imin imax nr in
  (4 <= List.length p)%nat /\
  forall r b, In r off -> In b (f_base filt) -> hd 0%R p <= b / r <= last p 0%R.
Proof.
  intros Hb p. pose proof bf_pos as B1. pose proof bl_pos as B2. destruct imm as [P1 [P2 [P3 P4]]]. pose proof ln10_pos as L10.
  pose proof (spl_nout_ge bf bl imin imax nr) as G.
  assert (Lp : List.length p = Z.to_nat (spl_nout bf bl imin imax nr)) by (unfold p, spl_lam; now rewrite map_length, seq_length).
  split; [lia|]. intros r b Hr Hbb. destruct (P4 r Hr) as [R1 R2]. destruct (Hb b Hbb) as [Q1 Q2].
  assert (Hr0 : 0 < r) by auto.
  assert (EH : hd 0%R p = (bf / imax)%R).
  { unfold p, spl_lam. destruct (Z.to_nat (spl_nout bf bl imin imax nr)) eqn:E; [lia|]. simpl.
    replace (0 / nr * ln 10)%R with 0%R by (field; lra). rewrite exp_0. ring. }
  assert (EL : last p 0%R = (bf / imax * exp (INR (Z.to_nat (spl_nout bf bl imin imax nr) - 1) / nr * ln 10))%R).
  { unfold p, spl_lam. destruct (Z.to_nat (spl_nout bf bl imin imax nr)) as [|m] eqn:E; [lia|].
    rewrite seq_S, map_app. cbn [map]. rewrite last_last. f_equal. f_equal. f_equal. f_equal. f_equal. simpl. lia. }
  rewrite EH, EL. split.
  - apply Rmult_le_compat; try lra; [left; apply Rinv_0_lt_compat; lra|].
    apply Rinv_le_contravar; lra.
  - apply Rle_trans with (bl / imin)%R.
    { apply Rmult_le_compat; try lra; [left; apply Rinv_0_lt_compat; lra|]. apply Rinv_le_contravar; lra. }
    assert (X : (bl / imin)%R = (bf / imax * exp (ln (bl / imin / (bf / imax))))%R).
    { rewrite exp_ln; [field; lra|]. apply Rdiv_lt_0_compat; apply Rdiv_lt_0_compat; lra. }
    rewrite X at 1. apply Rmult_le_compat_l; [left; apply Rdiv_lt_0_compat; lra|].
    assert (KEY : ln (bl / imin / (bf / imax)) <= INR (Z.to_nat (spl_nout bf bl imin imax nr) - 1) / nr * ln 10).
    { assert (N : ln (bl / imin / (bf / imax)) / ln 10 * nr <= INR (Z.to_nat (spl_nout bf bl imin imax nr) - 1)).
      { rewrite INR_IZR_INZ. replace (Z.of_nat (Z.to_nat (spl_nout bf bl imin imax nr) - 1)) with (spl_nout bf bl imin imax nr - 1)%Z by lia.
        rewrite minus_IZR. pose proof (ceilZ_ge (ln (bl / imin / (bf / imax)) / ln 10 * nr)) as C.
        unfold spl_nout, nout_spl.
        destruct (Z.ltb_spec (ceilZ (ln (bl / imin / (bf / imax)) / ln 10 * nr) + 1) 4) as [L|L].
        - assert (IZR (ceilZ (ln (bl / imin / (bf / imax)) / ln 10 * nr) + 1) <= IZR 4) as Q by (apply IZR_le; lia).
          rewrite plus_IZR in Q. lra.
        - rewrite plus_IZR. lra. }
      set (y := ln (bl / imin / (bf / imax))) in *. set (m := INR (Z.to_nat (spl_nout bf bl imin imax nr) - 1)) in *.
      replace y with (y / ln 10 * nr / nr * ln 10)%R by (field; lra).
      apply Rmult_le_compat_r; [lra|]. apply Rmult_le_compat_r; [left; now apply Rinv_0_lt_compat|exact N]. }
    destruct KEY as [KEY|KEY]; [left; now apply exp_increasing|right; now rewrite KEY].
Qed.
End Pts.

(** ** Closed form *)
Section Splined.
Variables (spl : interp) (wn : nat -> R -> res triple) (K : R -> triple).
Variables (used : bool * bool * bool) (filt : dfilter) (ab : Z).
Hypothesis HS : linear_interp spl.
Hypothesis HK : forall l, 0 < l -> wn 0%nat l = Ok (K l).
Hypothesis HP : pattern K used.
Hypothesis HU : some_used used = true.
Hypothesis HF : well_formed filt.
Hypothesis Hne : f_base filt <> [].

(** filter sum over the kernel interpolated from its values at [pts] *)
Definition spl_sum (w : list R) (p : triple -> option C) (pts : list R) (r : R) : C :=
  dot w (cspl spl (map (part_of p K) pts) pts (map (fun b => b / r)%R (f_base filt))).

Definition spl_value (pts : list R) (r a : R) : C :=
  let s1 := spl_sum (f_j1 filt) t1 pts r in
  Cdiv (Cplus (spl_sum (f_j0 filt) t0 pts r)
          (Cmult (RtoC a) (Cplus (if inb ab j2_components then Cdiv s1 (RtoC r) else s1) (spl_sum (f_j0 filt) t0b pts r))))
       (RtoC r).

Lemma dot_czeros : forall w n, dot w (czeros n) = RtoC 0.
Proof.
  intros w n. revert w. induction n as [|n IH]; intros [|x w]; try reflexivity.
  unfold dot, czeros in *. unfold map2 in *. simpl. rewrite IH, Cmult_0_l. apply Cplus_0_l.
Qed.

Lemma spl_sum_used : forall w p (u : bool) pts r, (forall l, isSome (p (K l)) = u) ->
  (if u then dot w (cspl spl (map (fun t => oval (p t)) (map K pts)) pts (map (fun b => b / r)%R (f_base filt))) else RtoC 0)
  = spl_sum w p pts r.
Proof.
  intros w p u pts r Hu. unfold spl_sum. destruct u; [now rewrite map_map|].
  assert (E : map (part_of p K) pts = czeros (List.length pts)).
  { rewrite (czeros_map _ pts) by reflexivity. apply map_ext. intros l. unfold part_of. specialize (Hu l). destruct (p (K l)); [discriminate|reflexivity]. }
  rewrite E, (cspl_zero spl HS) by reflexivity. symmetry. apply dot_czeros.
Qed.

Theorem dlf_splined : forall (off ang : list R) imin imax nr, 0 < nr -> List.length ang = List.length off ->
  (forall r, In r off -> 0 < r) -> lmin off = Ok imin -> lmax off = Ok imax ->
  hankel_dlf spl wn used 1 off (Some ang) ab filt nr =
  Ok ([map (fun x => spl_value (spl_lam (hd 0%R (f_base filt)) (last (f_base filt) 0%R) imin imax nr) (fst x) (snd x))
           (combine off ang)], 1%Z, true).
Proof.
  intros off ang imin imax nr Hnr Hlen Hpos Hmin Hmax.
  assert (Ho : off <> []) by (intros E; rewrite E in Hmin; discriminate).
  unfold hankel_dlf. rewrite (get_dlf_points_splined filt off imin imax _ _ nr Hnr HF eq_refl eq_refl Hne Hmin Hmax Hpos). cbn [bind].
  set (pts := spl_lam _ _ _ _ _).
  assert (EK : kernel_array wn 1 [pts] = Ok [[map K pts]]).
  { unfold kernel_array. simpl. rewrite (mapM_ok _ _ (wn 0%nat) K); [reflexivity|].
    intros x Hx. apply HK. eapply spl_lam_pos; eauto. }
  rewrite EK. cbn [bind]. destruct used as [[u0 u1] u0b] eqn:EU.
  assert (Hang : ang <> []) by (destruct off, ang; simpl in *; congruence).
  unfold dlf_hankel. destruct (angle_case_spec ang Hang) as [one [has [a [-> [H1 H2]]]]]. cbn [bind].
  assert (EI : exists v, inp_signal (get_part u0 t0 [[map K pts]]) (get_part u1 t1 [[map K pts]]) (get_part u0b t0b [[map K pts]]) = Ok v).
  { unfold get_part, inp_signal. destruct u0b; [eexists; reflexivity|]. destruct u1; [eexists; reflexivity|].
    destruct u0; [eexists; reflexivity|]. discriminate HU. }
  destruct EI as [v ->]. cbn [bind]. rewrite Reqb_false by lra. rewrite Rltb_false by lra.
  assert (OR : forall (u : bool) p, only_row (get_part u p [[map K pts]]) = Ok (if u then Some (map (fun t => oval (p t)) (map K pts)) else None)).
  { intros u p; destruct u; reflexivity. }
  rewrite !OR. cbn [bind bound].
  set (l := combine off ang).
  assert (Eoff : off = map fst l) by (symmetry; apply combine_fst; auto).
  assert (Eang : ang = map snd l) by (symmetry; apply combine_snd; auto).
  set (row := fun (p : triple -> option C) (x : R * R) => cspl spl (map (fun t => oval (p t)) (map K pts)) pts (map (fun b => b / fst x)%R (f_base filt))).
  replace (List.concat [pts]) with pts by (simpl; now rewrite app_nil_r).
  assert (RE : forall (u : bool) p, option_map (fun r => map (cspl spl r pts) (base_over (f_base filt) off))
       (if u then Some (map (fun t => oval (p t)) (map K pts)) else None) = mk l u (row p)).
  { intros u p; destruct u; [|reflexivity]. cbn [option_map]. unfold mk. f_equal. unfold base_over, row. rewrite Eoff, !map_map. reflexivity. }
  rewrite !RE.
  assert (Ln : List.length (base_over (f_base filt) off) = List.length l).
  { unfold base_over. rewrite Eoff, !map_length. reflexivity. }
  rewrite Ln.
  assert (ES : forall u q, isSome (get_part u q [[map K pts]]) = u) by (intros [] q; reflexivity).
  assert (EM : forall u q, isSome (mk l u q) = u) by (intros [] q; reflexivity).
  pose proof HP as P. unfold pattern in P.
  set (N := N_ filt (row t0) u0). set (A := A_ filt ab fst (row t1) (row t0b) u1 u0b).
  assert (FIN : vdivr (map (fun x => Cplus (N x) (Cmult (RtoC (snd x)) (A x))) l) off = map (fun x => spl_value pts (fst x) (snd x)) l).
  { unfold vdivr. rewrite Eoff, map2_mm. apply map_ext. intros x. unfold spl_value, N, A, N_, A_, row.
    rewrite (spl_sum_used _ t0 u0) by (intros; apply P). rewrite (spl_sum_used _ t1 u1) by (intros; apply P).
    rewrite (spl_sum_used _ t0b u0b) by (intros; apply P). reflexivity. }
  rewrite <- FIN. f_equal. f_equal. f_equal. f_equal. f_equal.
  assert (DA : dlf_ang filt ab off (List.length l) (mk l u1 (row t1)) (mk l u0b (row t0b)) = map A l).
  { rewrite Eoff at 1. now apply dlf_ang_closed. }
  destruct one.
  - destruct (H1 eq_refl) as [a0 [Ha0 Hv]]. rewrite !ES.
    rewrite <- (EM u1 (row t1)) at 1. rewrite <- (EM u0b (row t0b)) at 1.
    rewrite Eoff at 1.
    rewrite (dlf_comb_closed filt ab l fst snd (row t0) (row t1) (row t0b) u0 u1 u0b _ has a eq_refl); [reflexivity|].
    intros w Lw. rewrite Hv. symmetry. apply vmul_const; [|now rewrite map_length]. now rewrite <- Eang.
  - destruct (H2 eq_refl) as [-> ->]. rewrite DA.
    rewrite (dlf_noang_closed filt l (row t0) u0 _) by reflexivity. fold N. rewrite !ES.
    assert (EX : (if true && (u1 || u0b) then ang_mul (inr ang) (map A l) else map A l) = map (fun x => Cmult (RtoC (snd x)) (A x)) l).
    { destruct (u1 || u0b) eqn:U; cbn [andb ang_mul].
      - rewrite Eang, map2_mm. apply map_ext. intros; apply Cmult_comm.
      - apply map_ext. intros x. assert (Z : A x = RtoC 0).
        { unfold A, A_. destruct u1, u0b; try discriminate. rewrite Cdiv_0_l. destruct (inb ab _); apply Cplus_0_l. }
        rewrite Z. symmetry. apply Cmult_0_r. }
    rewrite EX. unfold vadd. rewrite map2_mm. apply map_ext. intros; apply Cplus_comm.
Qed.
End Splined.
