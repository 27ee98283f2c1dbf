(** The routine analytical with the diffusive solutions: what each element is, and which calls
    are rejected. *)

From Coq Require Import ZArith Reals List Bool QArith Lia Lra.
From Coquelicot Require Import Coquelicot.
From Verif Require Import PyBase CBase UtilsAb Utils UtilsLayer UtilsModel UtilsFreq Fullspace Halfspace HalfspaceThm Model Routines RoutinesThm BipoleCol RoutinesK RoutinesKThm PropsUtils.
Import ListNotations.
Local Open Scope R_scope.
Local Open Scope res_scope.

(** clipped times, or Laplace parameters of the clipped frequencies *)
Definition diff_input (m : mins) (ft : ftin) (signal : option Z) : hs_in :=
  match signal with
  | Some sg => HTime sg (map (fun t => Rmax t (min_time m)) (ft_data ft))
  | None => if laplace_of (ft_data ft) then HFreq true (map (fun f => RtoC (Rmax (- f) (min_freq m))) (ft_data ft))
            else HFreq false (map (fun f => (0, 2 * PI * Rmax f (min_freq m))) (ft_data ft))
  end.
(** values with which check_frequency is called: in the time domain these are the clipped times *)
Definition used_freq (m : mins) (ft : ftin) (signal : option Z) : list R :=
  match signal with Some _ => map (fun t => Rmax t (min_time m)) (ft_data ft) | None => ft_data ft end.
Lemma idx0 : forall {A} (l : list A) a, idx l 0 = Ok a -> nth_error l 0 = Some a.
Proof. intros A [|x l] a H; cbn in H; [discriminate|]. injection H as <-. reflexivity. Qed.
Lemma outs_parts : forall k o, outs k o = match o with One a => a | _ => nth k (out_parts o) [] end.
Proof. intros k [a|d r a|a b c d e]; reflexivity. Qed.
Lemma halfspace_kind : forall ive kve inp s ab off an zs zr eH eV o, halfspace ive kve inp s ab off an zs zr eH eV = Ok o -> List.length (out_parts o) = nouts s.
Proof.
  intros ive kve inp s ab off an zs zr eH eV o H. unfold halfspace in H. destruct (Req_EM_T _ 0); [discriminate|]. destruct (Req_EM_T _ 0); [discriminate|]. destruct (_ && _)%bool; [discriminate|].
  match type of H with Ok ?u = Ok ?z => assert (HW : z = u) by congruence end. subst o. destruct s; reflexivity.
Qed.
Lemma mapM_nth : forall {A B} (f : A -> res B) l v c (da : A) (db : B), mapM f l = Ok v -> (c < List.length l)%nat -> f (nth c l da) = Ok (nth c v db) /\ List.length v = List.length l.
Proof.
  intros A B f. induction l as [|a l IH]; intros v c da db H Hc; [cbn in Hc; lia|]. cbn [mapM] in H. apply bind_ok in H. destruct H as (b & E & H). apply bind_ok in H. destruct H as (t & Et & H). injection H as <-.
  destruct l as [|a' l]; [cbn in Et; injection Et as <-; cbn in Hc; assert (c = 0)%nat by lia; subst c; cbn; auto|].
  destruct (IH t 0%nat da db Et ltac:(cbn; lia)) as [_ L]. split; [|cbn [List.length] in *; lia]. destruct c as [|c]; [exact E|]. cbn [nth]. apply (IH t c da db Et). cbn in Hc |- *. lia.
Qed.

Theorem analytical_diffusive : forall m hook ive kve src rec q ft s signal ab EM nrec nsrc,
  analytical m hook ive kve src rec q ft (SolD s) signal ab = Ok (EM, nrec, nsrc) ->
  exists code off angle zs zr mo eH eV,
    check_ab ab = Ok (code, false, false) /\ geometry m src rec = Ok (off, angle, zs, zr, nsrc, nrec) /\
    check_model m [] (q_res q) (q_aniso q) (q_eH q) (q_eV q) (q_mH q) (q_mV q) = Ok mo /\
    (let fo := apply_hook hook (q_res q) mo (check_frequency m (used_freq m ft signal) (m_res mo) (m_aniso mo) (m_epermH mo) (m_epermV mo) (m_mpermH mo) (m_mpermV mo)) in
     nth_error (nth 0 (f_etaH fo) []) 0 = Some eH /\ nth_error (nth 0 (f_etaV fo) []) 0 = Some eV) /\
    List.length EM = nouts s /\
    forall k f c, (k < List.length EM)%nat -> (f < List.length (ft_data ft))%nat -> (c < nrec * nsrc)%nat ->
      exists o, halfspace ive kve (diff_input m ft signal) s code (nth c off 0) (nth c angle 0) zs zr eH eV = Ok o /\
        nth c (nth f (nth k EM []) []) (RtoC 0) = nth f (nth k (out_parts o) []) (RtoC 0).
Proof.
  intros m hook ive kve src rec q ft s signal ab EM nrec nsrc H. unfold analytical in H.
  apply bind_ok in H. destruct H as (ft' & Eft & H). apply bind_ok in H. destruct H as (mo & Em & H). apply bind_ok in H. destruct H as ([[code ms] mr] & Eab & H).
  apply bind_ok in H. destruct H as ([[[[[off angle] zs] zr] ns] nr] & Eg & H). apply bind_ok in H. destruct H as (u & Ec & H). cbn [check_solution] in Ec.
  destruct (ms || mr)%bool eqn:MM; [discriminate|]. apply orb_false_iff in MM. destruct MM as [-> ->].
  set (fo := check_frequency _ _ _ _ _ _ _ _) in *. apply bind_ok in H. destruct H as (inp & Ei & H). apply bind_ok in H. destruct H as (row & Erow & H).
  apply bind_ok in H. destruct H as (eH & EH & H). apply bind_ok in H. destruct H as (eV & EV & H). apply bind_ok in H. destruct H as (E & EE & H).
  assert (HE : E = EM /\ nr = nrec /\ ns = nsrc) by (split; [|split]; congruence). destruct HE as (-> & -> & ->).
  exists code, off, angle, zs, zr, mo, eH, eV. split; [exact Eab|]. split; [exact Eg|]. split; [exact Em|].
  assert (UF : ft_data ft' = used_freq m ft signal).
  { unfold used_freq. destruct signal as [sg|]; [|congruence]. apply bind_ok in Eft. destruct Eft as (l & El & Eft). unfold check_time_only in El. destruct (inb sg [-1; 0; 1]%Z); [|discriminate].
    rewrite (proj1 (check_min_spec _ _)) in El. assert (ft' = FtArr l) by congruence. subst ft'. cbn [ft_data]. congruence. }
  split.
  { rewrite <- UF. fold fo. cbv zeta. set (fh := apply_hook hook (q_res q) mo fo) in *. clearbody fh. unfold rows_of in Erow. destruct (f_etaH fh) as [|h1 hs], (f_etaV fh) as [|v1 vs], (f_zetaH fh) as [|z1 z2], (f_zetaV fh) as [|w1 w2]; cbn [combine map] in Erow; try discriminate.
    injection Erow as <-. cbn [r_eH r_eV fst snd] in EH, EV. cbn [nth]. split; apply idx0; assumption. }
  unfold halfspace_arr in EE. apply bind_ok in EE. destruct EE as (os & Eos & EE). assert (HM : EM = map (fun k => rows_from (List.length (f_freq fo)) (map (outs k) os)) (seq 0 (nouts s))) by congruence.
  split; [rewrite HM, map_length, seq_length; reflexivity|]. intros k f c Hk Hf Hc.
  destruct (geometry_spec _ _ _ _ _ _ _ _ _ Eg) as (L1 & L2 & _).
  assert (LC : List.length (combine off angle) = (nrec * nsrc)%nat) by (rewrite combine_length, L1, L2; apply Nat.min_id).
  set (d0 := One []). destruct (mapM_nth _ _ _ c (0, 0) d0 Eos ltac:(rewrite LC; exact Hc)) as [Ho Lo]. rewrite combine_nth in Ho by congruence. cbn [fst snd] in Ho.
  assert (INP : inp = diff_input m ft signal /\ List.length (f_freq fo) = List.length (ft_data ft)).
  { unfold diff_input. destruct (C35_parameters m (ft_data ft') (m_res mo) (m_aniso mo) (m_epermH mo) (m_epermV mo) (m_mpermH mo) (m_mpermV mo)) as [P1 P2]. fold fo in P1, P2.
    assert (LF : List.length (f_freq fo) = List.length (ft_data ft')). { destruct (laplace_of (ft_data ft')) eqn:LL; [rewrite (P1 (proj1 (laplace_dec _) LL))|rewrite (P2 (fun X => eq_true_false_abs _ (proj2 (laplace_dec _) X) LL))]; cbn [f_freq freq_spec]; apply map_length. }
    rewrite LF. destruct signal as [sg|].
    - apply bind_ok in Eft. destruct Eft as (l & El & Eft). assert (ft' = FtArr l) by congruence. subst ft'. unfold check_time_only in El. destruct (inb sg [-1; 0; 1]%Z); [|discriminate].
      assert (l = fst (check_min (ft_data ft) (Some (min_time m)))) by congruence. subst l. rewrite (proj1 (check_min_spec _ _)) in *. cbn [ft_data] in *. split; [congruence|apply map_length].
    - assert (ft' = ft) by congruence. subst ft'. split; [|reflexivity]. destruct ft as [l|l]; [|discriminate]. cbn [ft_data] in *. assert (inp = HFreq (laplace_of l) (map (sval (laplace_of l)) (f_freq fo))) by congruence. subst inp.
      destruct (laplace_of l) eqn:LL; [rewrite (P1 (proj1 (laplace_dec _) LL))|rewrite (P2 (fun X => eq_true_false_abs _ (proj2 (laplace_dec _) X) LL))]; cbn [f_freq freq_spec]; rewrite map_map; f_equal; apply map_ext; intros x; unfold sval.
      apply injective_projections; cbn; ring. }
  destruct INP as [-> LF]. exists (nth c os d0). split; [exact Ho|].
  rewrite HM in Hk. rewrite map_length, seq_length in Hk. rewrite HM.
  rewrite (nth_indep _ [] (rows_from (List.length (f_freq fo)) (map (outs 0) os))) by (rewrite map_length, seq_length; exact Hk).
  rewrite (map_nth (fun k => rows_from (List.length (f_freq fo)) (map (outs k) os)) (seq 0 (nouts s)) 0%nat k), seq_nth by exact Hk. cbn [Nat.add]. unfold rows_from. rewrite LF.
  rewrite (nth_indep _ [] ((fun k0 => map (fun c0 => nth k0 c0 (RtoC 0)) (map (outs k) os)) 0%nat)) by (rewrite map_length, seq_length; exact Hf).
  rewrite (map_nth (fun k0 => map (fun c0 => nth k0 c0 (RtoC 0)) (map (outs k) os)) (seq 0 (List.length (ft_data ft))) 0%nat f), seq_nth by exact Hf. cbn [Nat.add]. rewrite map_map.
  assert (Hco : (c < List.length os)%nat) by (rewrite Lo, LC; exact Hc).
  rewrite (nth_indep _ (RtoC 0) ((fun o => nth f (outs k o) (RtoC 0)) d0)) by (rewrite map_length; exact Hco). rewrite (map_nth (fun o => nth f (outs k o) (RtoC 0)) os d0 c). f_equal.
  rewrite outs_parts. pose proof (halfspace_kind _ _ _ _ _ _ _ _ _ _ _ _ Ho) as HK. destruct (nth c os d0) as [a|x y z|x y z u1 u2]; [|reflexivity|reflexivity]. cbn [out_parts List.length] in *. assert (k = 0)%nat by lia. subst k. reflexivity.
Qed.

(** rejected calls *)
Theorem analytical_rejects : forall m hook ive kve src rec q ft sol signal a b, (1 <= a <= 6)%Z -> (1 <= b <= 6)%Z ->
  ((exists s, sol = SolD s) /\ (3 < a \/ 3 < b)%Z) \/ (sol = SolFs /\ signal <> None) \/ sol = SolOther \/ (exists sg, signal = Some sg /\ ~ In sg [-1; 0; 1]%Z) ->
  forall v, analytical m hook ive kve src rec q ft sol signal (AbNum (inject_Z (10 * a + b))) <> Ok v.
Proof.
  intros m hook ive kve src rec q ft sol signal a b Ha Hb HC v H. unfold analytical in H.
  apply bind_ok in H. destruct H as (ft' & Eft & H). apply bind_ok in H. destruct H as (mo & Em & H). apply bind_ok in H. destruct H as ([[code ms] mr] & Eab & H).
  rewrite C26_accept in Eab by assumption. injection Eab as _ <- <-.
  apply bind_ok in H. destruct H as ([[[[[off angle] zs] zr] ns] nr] & Eg & H). apply bind_ok in H. destruct H as (u & Ec & _).
  destruct HC as [[[s ->] Hab]|[[-> Hs]|[-> |(sg & -> & Hs)]]].
  - cbn [check_solution] in Ec. destruct (Z.ltb_spec 3 a), (Z.ltb_spec 3 b); cbn in Ec; try discriminate. lia.
  - cbn [check_solution] in Ec. destruct signal; [discriminate|contradiction].
  - discriminate.
  - apply bind_ok in Eft. destruct Eft as (l & El & _). unfold check_time_only in El. destruct (inb sg [-1; 0; 1]%Z) eqn:I; [|discriminate]. apply Hs. unfold inb in I. apply existsb_exists in I. destruct I as (x & Hx & Ex). apply Z.eqb_eq in Ex. now subst.
Qed.
