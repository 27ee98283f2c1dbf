(** check_model, check_frequency, minimum values, offsets: proofs. *)
From Coq Require Import Reals ZArith List Bool String Lia Lra Psatz.
From Coquelicot Require Import Coquelicot.
From Verif Require Import PyBase CBase Utils UtilsLayer KernelSpec KernelMain.
Import ListNotations.
Local Open Scope R_scope.
Local Open Scope res_scope.

(** ** Minimum values *)
Lemma check_min_spec : forall par m,
  fst (check_min par (Some m)) = map (fun p => Rmax p m) par /\
  (snd (check_min par (Some m)) = true <-> exists p, In p par /\ p < m) /\
  check_min par None = (par, false).
Proof.
  intros par m. split; [|split; [|reflexivity]].
  - simpl. apply map_ext. intros p. destruct (Rltb p m) eqn:E.
    + apply Rltb_true in E. rewrite Rmax_right; lra.
    + apply Rltb_false in E. rewrite Rmax_left; lra.
  - simpl. rewrite existsb_exists. split; intros [p [A B]]; exists p; split; auto; now apply Rltb_true.
Qed.
Lemma clip_eq : forall l m, map (fun p => if Rltb p m then m else p) l = map (fun p => Rmax p m) l.
Proof. intros. apply (proj1 (check_min_spec l m)). Qed.

(** ** Shapes *)
(** Consistency of numpy arrays. *)
Definition nd_wf (v : ndin) : Prop :=
  match v with Nd sh d => List.length d = fold_right Nat.mul 1%nat sh | NdBad => True end.
Definition nd_data (v : ndin) : list R := match v with Nd _ d => d | NdBad => [] end.
Definition onwf (v : option ndin) : Prop := match v with Some v => nd_wf v | None => True end.

(** The input is missing, or an array with exactly n values in one dimension
    (a scalar counts as one value). *)
Definition fits (n : nat) (v : option ndin) : bool :=
  match v with
  | None => true
  | Some NdBad => false
  | Some (Nd sh _) => shape_eqb [n] (atleast1 sh)
  end.
Definition or1 (n : nat) (v : option ndin) : list R :=
  match v with None => repeat 1 n | Some v => nd_data v end.

Lemma fits_length : forall n v, onwf v -> fits n v = true -> List.length (or1 n v) = n.
Proof.
  intros n [[sh d|]|] W F; simpl in *; try discriminate; [|apply repeat_length].
  unfold shape_eqb in F. destruct (list_eq_dec Nat.eq_dec [n] (atleast1 sh)) as [E|]; [|discriminate].
  rewrite W. destruct sh as [|a [|b sh]]; simpl in E; inversion E; simpl; lia.
Qed.

Lemma check_var_fits : forall v n, check_var v [n] [] =
  if fits n (Some v) then Ok (match v with Nd sh d => (atleast1 sh, d) | NdBad => ([], []) end) else Err ValueError.
Proof.
  intros [sh d|] n; [|reflexivity]. unfold check_var, fits, check_shape.
  destruct (shape_eqb [n] (atleast1 sh)); reflexivity.
Qed.

(** Values of a checked parameter. *)
Definition plain_val (n : nat) (mn : option R) (v : option ndin) : list R :=
  match v with
  | None => repeat 1 n
  | Some v => match mn with None => nd_data v | Some m => map (fun p => Rmax p m) (nd_data v) end
  end.
Definition aniso_val (n : nat) (mn : option R) (r : list R) (v : option ndin) : list R :=
  match v with
  | None => repeat 1 n
  | Some v => map2 (fun a x => sqrt (match mn with None => a ^ 2 * x | Some m => Rmax (a ^ 2 * x) m end / x)) (nd_data v) r
  end.

Lemma combine_map_l : forall A B D (f : A * B -> D) (p : list A) (r : list B),
  combine (map f (combine p r)) r = map (fun q => (f q, snd q)) (combine p r).
Proof. induction p as [|x p IH]; intros [|y r]; simpl; try reflexivity. now rewrite IH. Qed.

Lemma check_inp_closed : forall n r v an mn,
  check_inp n r v an mn =
  if fits n v then Ok (if an then aniso_val n mn r v else plain_val n mn v) else Err ValueError.
Proof.
  intros n r [v|] an mn; [|simpl; destruct an; reflexivity].
  unfold check_inp. rewrite check_var_fits. destruct v as [sh d|]; [|reflexivity].
  destruct (fits n (Some (Nd sh d))); [|reflexivity]. cbn [bind]. unfold aniso_val, plain_val.
  f_equal. destruct an.
  - destruct mn as [m|]; cbn [check_min fst nd_data].
    + rewrite map_map, combine_map_l. unfold map2. rewrite map_map. apply map_ext. intros [a x]; cbn [fst snd].
      destruct (Rltb (a ^ 2 * x) m) eqn:E.
      * apply Rltb_true in E. rewrite Rmax_right; [reflexivity|lra].
      * apply Rltb_false in E. rewrite Rmax_left; [reflexivity|lra].
    + rewrite combine_map_l. unfold map2. rewrite map_map. reflexivity.
  - destruct mn as [m|]; cbn [check_min fst nd_data]; [apply clip_eq|reflexivity].
Qed.

Lemma plain_length : forall n mn v, onwf v -> fits n v = true -> List.length (plain_val n mn v) = n.
Proof.
  intros n mn v W F. pose proof (fits_length n v W F) as L. unfold or1, plain_val in *.
  destruct v as [v|]; [|exact L]. destruct mn; [rewrite map_length|]; exact L.
Qed.
Lemma aniso_length : forall n mn r v, onwf v -> fits n v = true -> List.length r = n ->
  List.length (aniso_val n mn r v) = n.
Proof.
  intros n mn r v W F Lr. pose proof (fits_length n v W F) as L. unfold or1, aniso_val in *.
  destruct v as [v|]; [|exact L]. rewrite map2_length, L, Lr. lia.
Qed.

(** ** all_same *)
Definition uniform (l : list R) : Prop := forall x y, In x l -> In y l -> x = y.
Lemma all_same_spec : forall l, (0 < List.length l)%nat -> exists b, all_same l = Ok b /\ (b = true <-> uniform l).
Proof.
  intros [|a l] H; [simpl in H; lia|]. unfold all_same. eexists; split; [reflexivity|].
  rewrite forallb_forall. split.
  - intros F x y Hx Hy. pose proof (F x Hx) as E1. pose proof (F y Hy) as E2.
    apply Reqb_true in E1. apply Reqb_true in E2. lra.
  - intros U x Hx. apply Reqb_true. rewrite (U x a); [lra|auto|simpl; auto].
Qed.
Definition same (l : list R) : bool :=
  match l with [] => false | a :: _ => forallb (fun x => Reqb (x - a) 0) l end.
Lemma all_same_ok : forall l, (0 < List.length l)%nat -> all_same l = Ok (same l).
Proof. intros [|a l] H; [simpl in H; lia|reflexivity]. Qed.
Lemma same_uniform : forall l, (0 < List.length l)%nat -> same l = true <-> uniform l.
Proof.
  intros l H. destruct (all_same_spec l H) as [b [E1 E2]]. rewrite (all_same_ok l H) in E1. inversion E1. subst. exact E2.
Qed.

(** ** check_model in closed form *)
Definition res_in (rs : resin) : ndin := match rs with ResArr r => r | ResDict r _ => r end.
Definition extra_in (rs : resin) : list (string * option ndin) := match rs with ResArr _ => [] | ResDict _ e => e end.
Definition is_arr (rs : resin) : bool := match rs with ResArr _ => true | _ => false end.
Definition default_to (a b : option ndin) : option ndin := match a with None => b | Some _ => a end.

Record inputs := { i_res : resin; i_aniso : option ndin; i_epermH : option ndin; i_epermV : option ndin;
                   i_mpermH : option ndin; i_mpermV : option ndin }.
Definition cmodel (m : mins) (d : list ext) (i : inputs) : res model_out :=
  check_model m d (i_res i) (i_aniso i) (i_epermH i) (i_epermV i) (i_mpermH i) (i_mpermV i).

Record inputs_wf (i : inputs) : Prop := {
  wf_res : nd_wf (res_in (i_res i));
  wf_extra : forall kv, In kv (extra_in (i_res i)) -> onwf (snd kv);
  wf_an : onwf (i_aniso i); wf_eH : onwf (i_epermH i); wf_eV : onwf (i_epermV i);
  wf_mH : onwf (i_mpermH i); wf_mV : onwf (i_mpermV i) }.

Definition all_fit (n : nat) (i : inputs) : bool :=
  fits n (Some (res_in (i_res i))) && fits n (i_aniso i) && fits n (i_epermH i) && fits n (i_epermV i)
  && fits n (i_mpermH i) && fits n (i_mpermV i)
  && forallb (fun kv => fits n (snd kv)) (extra_in (i_res i)).

(** Value of an additional entry of the dictionary (there is no minimum; the
    entry "aniso" goes through the resistivity and back). *)
Definition extra_val (n : nat) (r : list R) (kv : string * option ndin) : list R :=
  if String.eqb (fst kv) "aniso" then aniso_val n None r (snd kv) else plain_val n None (snd kv).

Definition model_of (m : mins) (swap : bool) (d : list ext) (i : inputs) : model_out :=
  let n := List.length d in
  let r := map (fun p => Rmax p (min_res m)) (nd_data (res_in (i_res i))) in
  let an := swp swap (aniso_val n (Some (min_res m)) r (i_aniso i)) in
  let eH := swp swap (plain_val n (Some 0) (i_epermH i)) in
  let eV := swp swap (plain_val n (Some 0) (default_to (i_epermV i) (i_epermH i))) in
  let mH := swp swap (plain_val n (Some 0) (i_mpermH i)) in
  let mV := swp swap (plain_val n (Some 0) (default_to (i_mpermV i) (i_mpermH i))) in
  let r' := swp swap r in
  {| m_depth := d; m_res := r'; m_aniso := an; m_epermH := eH; m_epermV := eV; m_mpermH := mH; m_mpermV := mV;
     m_full := is_arr (i_res i) && (same r' && same an && (same eH && same eV) && (same mH && same mV));
     m_extra := map (fun kv => (fst kv, swp swap (extra_val n r' kv))) (extra_in (i_res i)) |}.

Lemma swp_length : forall A b (l : list A), List.length (swp b l) = List.length l.
Proof. intros A [] l; simpl; [apply rev_length|reflexivity]. Qed.

Lemma mapM_extra : forall n r' sw ex,
  mapM (fun kv : string * option ndin => p <- check_inp n r' (snd kv) (String.eqb (fst kv) "aniso") None ;;
       Ok (fst kv, swp sw p)) ex =
  if forallb (fun kv => fits n (snd kv)) ex
  then Ok (map (fun kv => (fst kv, swp sw (extra_val n r' kv))) ex) else Err ValueError.
Proof.
  induction ex as [|kv ex IH]; [reflexivity|]. cbn [mapM forallb map]. rewrite check_inp_closed, IH.
  unfold extra_val at 1. destruct (fits n (snd kv)); [|reflexivity]. cbn [bind andb].
  destruct (forallb _ ex); reflexivity.
Qed.

Lemma check_depth_len : forall d sw d', check_depth d = Ok (sw, d') -> (0 < List.length d')%nat.
Proof.
  intros d sw d' H. apply check_depth_wf in H. destruct H as [H _]. destruct d'; [discriminate|simpl; lia].
Qed.

Theorem check_model_closed : forall m d i, inputs_wf i ->
  cmodel m d i =
  match check_depth d with
  | Err e => Err e
  | Ok (sw, d') => if all_fit (List.length d') i then Ok (model_of m sw d' i) else Err ValueError
  end.
Proof.
  intros m d i W. unfold cmodel, check_model. destruct (check_depth d) as [[sw d']|e] eqn:CD; [|reflexivity].
  pose proof (check_depth_len _ _ _ CD) as L0. cbn [bind].
  change (match i_res i with ResArr r1 | ResDict r1 _ => r1 end) with (res_in (i_res i)).
  set (n := List.length d') in *.
  rewrite check_var_fits. unfold all_fit.
  destruct (fits n (Some (res_in (i_res i)))) eqn:F0; [|reflexivity]. cbn [andb].
  assert (D0 : exists sh, (match res_in (i_res i) with Nd sh d0 => (atleast1 sh, d0) | NdBad => ([], []) end) = (sh, nd_data (res_in (i_res i)))).
  { destruct (res_in (i_res i)); simpl; eauto. }
  destruct D0 as [sh0 ->]. cbn [bind]. rewrite !(proj1 (check_min_spec (nd_data (res_in (i_res i))) (min_res m))).
  set (r := map (fun p => Rmax p (min_res m)) (nd_data (res_in (i_res i)))).
  assert (Lr : List.length r = n).
  { unfold r. rewrite map_length. apply (fits_length n (Some (res_in (i_res i)))); [apply (wf_res _ W)|exact F0]. }
  rewrite !check_inp_closed.
  destruct (fits n (i_aniso i)) eqn:F1; [|reflexivity]. cbn [andb bind].
  destruct (fits n (i_epermH i)) eqn:F2; [|reflexivity]. cbn [andb bind].
  assert (EV : (match i_epermV i with
                | Some _ => if fits n (i_epermV i) then Ok (plain_val n (Some 0) (i_epermV i)) else Err ValueError
                | None => Ok (plain_val n (Some 0) (i_epermH i)) end)
             = if fits n (i_epermV i) then Ok (plain_val n (Some 0) (default_to (i_epermV i) (i_epermH i))) else Err ValueError).
  { destruct (i_epermV i); reflexivity. }
  rewrite EV. destruct (fits n (i_epermV i)) eqn:F3; [|reflexivity]. cbn [andb bind].
  destruct (fits n (i_mpermH i)) eqn:F4; [|reflexivity]. cbn [andb bind].
  assert (MV : (match i_mpermV i with
                | Some _ => if fits n (i_mpermV i) then Ok (plain_val n (Some 0) (i_mpermV i)) else Err ValueError
                | None => Ok (plain_val n (Some 0) (i_mpermH i)) end)
             = if fits n (i_mpermV i) then Ok (plain_val n (Some 0) (default_to (i_mpermV i) (i_mpermH i))) else Err ValueError).
  { destruct (i_mpermV i); reflexivity. }
  rewrite MV. destruct (fits n (i_mpermV i)) eqn:F5; [|reflexivity]. cbn [andb bind].
  assert (We : onwf (default_to (i_epermV i) (i_epermH i)) /\ fits n (default_to (i_epermV i) (i_epermH i)) = true).
  { pose proof (wf_eV _ W). pose proof (wf_eH _ W). destruct (i_epermV i); simpl default_to; auto. }
  assert (Wm : onwf (default_to (i_mpermV i) (i_mpermH i)) /\ fits n (default_to (i_mpermV i) (i_mpermH i)) = true).
  { pose proof (wf_mV _ W). pose proof (wf_mH _ W). destruct (i_mpermV i); simpl default_to; auto. }
  assert (La : List.length (aniso_val n (Some (min_res m)) r (i_aniso i)) = n) by (apply aniso_length; auto; apply W).
  rewrite !all_same_ok by (rewrite swp_length; idtac; first
    [ rewrite Lr; exact L0
    | rewrite aniso_length by (auto; apply W); exact L0
    | rewrite plain_length by (auto; try apply W; try apply We; try apply Wm); exact L0 ]).
  cbn [bind]. unfold model_of. fold n. fold r. unfold extra_in, is_arr.
  destruct (i_res i) as [r0|r0 ex]; [reflexivity|].
  rewrite mapM_extra. destruct (forallb _ ex); reflexivity.
Qed.

(** ** Consequences *)
Lemma all_fit_and : forall n i, all_fit n i = true ->
  fits n (Some (res_in (i_res i))) = true /\ fits n (i_aniso i) = true /\ fits n (i_epermH i) = true /\
  fits n (i_epermV i) = true /\ fits n (i_mpermH i) = true /\ fits n (i_mpermV i) = true /\
  forall kv, In kv (extra_in (i_res i)) -> fits n (snd kv) = true.
Proof.
  intros n i H. unfold all_fit in H. repeat (apply andb_true_iff in H; destruct H as [H ?]).
  repeat split; auto. now apply forallb_forall.
Qed.

Lemma model_lengths : forall m sw d i, inputs_wf i -> all_fit (List.length d) i = true ->
  let o := model_of m sw d i in let n := List.length d in
  List.length (m_res o) = n /\ List.length (m_aniso o) = n /\ List.length (m_epermH o) = n /\
  List.length (m_epermV o) = n /\ List.length (m_mpermH o) = n /\ List.length (m_mpermV o) = n /\
  List.Forall (fun kv => List.length (snd kv) = n) (m_extra o).
Proof.
  intros m sw d i W F. apply all_fit_and in F. destruct F as [F0 [F1 [F2 [F3 [F4 [F5 F6]]]]]]. cbn zeta.
  unfold model_of. cbn [m_res m_aniso m_epermH m_epermV m_mpermH m_mpermV m_extra].
  assert (Lr : List.length (map (fun p => Rmax p (min_res m)) (nd_data (res_in (i_res i)))) = List.length d).
  { rewrite map_length. apply (fits_length (List.length d) (Some (res_in (i_res i)))); [apply (wf_res _ W)|exact F0]. }
  rewrite !swp_length.
  assert (We : onwf (default_to (i_epermV i) (i_epermH i)) /\ fits (List.length d) (default_to (i_epermV i) (i_epermH i)) = true).
  { pose proof (wf_eV _ W). pose proof (wf_eH _ W). destruct (i_epermV i); simpl default_to; auto. }
  assert (Wm : onwf (default_to (i_mpermV i) (i_mpermH i)) /\ fits (List.length d) (default_to (i_mpermV i) (i_mpermH i)) = true).
  { pose proof (wf_mV _ W). pose proof (wf_mH _ W). destruct (i_mpermV i); simpl default_to; auto. }
  repeat split; try exact Lr; try (apply aniso_length; auto; apply W);
    try (apply plain_length; auto; try apply W; try apply We; try apply Wm).
  apply List.Forall_forall. intros kv Hk. apply in_map_iff in Hk. destruct Hk as [kv0 [<- Hk]]. cbn [snd].
  rewrite swp_length. unfold extra_val. destruct (String.eqb _ _).
  - apply aniso_length; [now apply (wf_extra _ W)|now apply F6|now rewrite swp_length].
  - apply plain_length; [now apply (wf_extra _ W)|now apply F6].
Qed.

(** *** Reversed input *)
Definition ndrev (v : ndin) : ndin := match v with Nd sh d => Nd sh (rev d) | NdBad => NdBad end.
Definition resrev (r : resin) : resin :=
  match r with
  | ResArr r => ResArr (ndrev r)
  | ResDict r e => ResDict (ndrev r) (map (fun kv => (fst kv, option_map ndrev (snd kv))) e)
  end.
Definition inprev (i : inputs) : inputs :=
  {| i_res := resrev (i_res i); i_aniso := option_map ndrev (i_aniso i);
     i_epermH := option_map ndrev (i_epermH i); i_epermV := option_map ndrev (i_epermV i);
     i_mpermH := option_map ndrev (i_mpermH i); i_mpermV := option_map ndrev (i_mpermV i) |}.

Lemma nd_wf_rev : forall v, nd_wf v -> nd_wf (ndrev v).
Proof. intros [sh d|] H; simpl in *; [now rewrite rev_length|auto]. Qed.
Lemma onwf_rev : forall v, onwf v -> onwf (option_map ndrev v).
Proof. intros [v|] H; simpl in *; [now apply nd_wf_rev|auto]. Qed.
Lemma res_in_rev : forall r, res_in (resrev r) = ndrev (res_in r).
Proof. intros [r|r e]; reflexivity. Qed.
Lemma extra_in_rev : forall r, extra_in (resrev r) = map (fun kv => (fst kv, option_map ndrev (snd kv))) (extra_in r).
Proof. intros [r|r e]; reflexivity. Qed.
Lemma inputs_wf_rev : forall i, inputs_wf i -> inputs_wf (inprev i).
Proof.
  intros i [A B D E F G H]. constructor; simpl; try (now apply onwf_rev).
  - rewrite res_in_rev. now apply nd_wf_rev.
  - rewrite extra_in_rev. intros kv Hk. apply in_map_iff in Hk. destruct Hk as [kv0 [<- Hk]]. simpl.
    apply onwf_rev. now apply B.
Qed.
Lemma nd_data_rev : forall v, nd_data (ndrev v) = rev (nd_data v).
Proof. intros [sh d|]; reflexivity. Qed.
Lemma fits_rev : forall n v, fits n (option_map ndrev v) = fits n v.
Proof. intros n [[sh d|]|]; reflexivity. Qed.
Lemma forallb_map : forall A B (f : A -> B) g l, forallb g (map f l) = forallb (fun x => g (f x)) l.
Proof. induction l; simpl; [reflexivity|]. now rewrite IHl. Qed.
Lemma forallb_ext' : forall A (f g : A -> bool) l, (forall x, f x = g x) -> forallb f l = forallb g l.
Proof. induction l; intros H; simpl; [reflexivity|]. now rewrite H, IHl. Qed.
Lemma all_fit_rev : forall n i, all_fit n (inprev i) = all_fit n i.
Proof.
  intros n i. unfold all_fit. cbn [inprev i_res i_aniso i_epermH i_epermV i_mpermH i_mpermV].
  rewrite res_in_rev, extra_in_rev, forallb_map, !fits_rev.
  change (Some (ndrev (res_in (i_res i)))) with (option_map ndrev (Some (res_in (i_res i)))). rewrite fits_rev.
  f_equal. apply forallb_ext'. intros kv. apply fits_rev.
Qed.
Lemma rev_repeat : forall A (x : A) n, rev (repeat x n) = repeat x n.
Proof.
  induction n; [reflexivity|]. simpl. rewrite IHn.
  clear IHn. induction n; [reflexivity|]. simpl. now rewrite IHn.
Qed.
Lemma combine_app_eq : forall A B (a a' : list A) (b b' : list B), List.length a = List.length b ->
  combine (a ++ a') (b ++ b') = combine a b ++ combine a' b'.
Proof. induction a as [|x a IH]; intros a' [|y b] b' L; simpl in *; try discriminate; [reflexivity|]. rewrite IH; auto. Qed.
Lemma map2_rev : forall A B D (f : A -> B -> D) a b, List.length a = List.length b ->
  map2 f (rev a) (rev b) = rev (map2 f a b).
Proof.
  unfold map2. induction a as [|x a IH]; intros [|y b] L; simpl in *; try discriminate; [reflexivity|].
  rewrite combine_app_eq by (rewrite !rev_length; lia). rewrite map_app, IH by lia. reflexivity.
Qed.
Lemma plain_rev : forall n mn v, rev (plain_val n mn (option_map ndrev v)) = plain_val n mn v.
Proof.
  intros n mn [v|]; simpl; [|apply rev_repeat]. rewrite nd_data_rev.
  destruct mn; [rewrite map_rev|]; apply rev_involutive.
Qed.
Lemma aniso_rev : forall n mn r v, onwf v -> fits n v = true -> List.length r = n ->
  rev (aniso_val n mn (rev r) (option_map ndrev v)) = aniso_val n mn r v.
Proof.
  intros n mn r [v|] W F L; simpl; [|apply rev_repeat]. rewrite nd_data_rev, map2_rev, rev_involutive; [reflexivity|].
  rewrite L. apply (fits_length n (Some v) W F).
Qed.
Lemma default_rev : forall a b, default_to (option_map ndrev a) (option_map ndrev b) = option_map ndrev (default_to a b).
Proof. intros [a|] b; reflexivity. Qed.

(** Entry "aniso" of a dictionary: the detour over the resistivity is void. *)
Lemma aniso_none : forall n r v, (forall x, In x r -> x <> 0) -> onwf v -> fits n v = true -> List.length r = n ->
  aniso_val n None r v = map Rabs (or1 n v).
Proof.
  intros n r [v|] Hr W F L; unfold aniso_val, or1.
  2:{ clear. induction n; [reflexivity|]. simpl. rewrite <- IHn, Rabs_R1. reflexivity. }
  pose proof (fits_length n (Some v) W F) as L2. simpl in L2. unfold map2.
  revert r Hr L L2. generalize n. clear. induction (nd_data v) as [|a l IH]; intros n r Hr L L2.
  - destruct r; simpl in *; [reflexivity|lia].
  - destruct r as [|x r]; simpl in L, L2; [lia|]. cbn [combine map fst snd]. destruct n; [lia|].
    rewrite (IH n r) by (auto; try lia; intros; apply Hr; simpl; auto). f_equal.
    replace (a ^ 2 * x / x) with (Rsqr a) by (unfold Rsqr; field; apply Hr; simpl; auto).
    apply sqrt_Rsqr_abs.
Qed.

Theorem check_model_rev : forall m d i, inputs_wf i -> strictx d -> (1 < List.length d)%nat -> 0 < min_res m ->
  cmodel m (rev d) (inprev i) = cmodel m d i.
Proof.
  intros m d i W S0 L M. rewrite !check_model_closed by (try apply inputs_wf_rev; auto).
  destruct (check_depth_rev d S0 L) as [d' [-> ->]]. rewrite all_fit_rev.
  destruct (all_fit (List.length d') i) eqn:F; [|reflexivity]. f_equal.
  pose proof (all_fit_and _ _ F) as [F0 [F1 [F2 [F3 [F4 [F5 F6]]]]]].
  assert (Lr : List.length (map (fun p => Rmax p (min_res m)) (nd_data (res_in (i_res i)))) = List.length d').
  { rewrite map_length. apply (fits_length (List.length d') (Some (res_in (i_res i)))); [apply (wf_res _ W)|exact F0]. }
  unfold model_of. cbn [inprev i_res i_aniso i_epermH i_epermV i_mpermH i_mpermV swp].
  rewrite res_in_rev, nd_data_rev, map_rev, rev_involutive, !default_rev, !plain_rev.
  rewrite aniso_rev by (auto; apply W).
  replace (is_arr (resrev (i_res i))) with (is_arr (i_res i)) by (destruct (i_res i); reflexivity).
  f_equal. rewrite extra_in_rev, map_map. apply map_ext_in. intros kv Hk. cbn [fst snd]. f_equal.
  unfold extra_val. cbn [fst snd]. destruct (String.eqb (fst kv) "aniso"); [|apply plain_rev].
  assert (Hr : forall x, In x (map (fun p => Rmax p (min_res m)) (nd_data (res_in (i_res i)))) -> x <> 0).
  { intros x Hx. apply in_map_iff in Hx. destruct Hx as [p [<- _]]. pose proof (Rmax_r p (min_res m)). lra. }
  pose proof (wf_extra _ W kv Hk) as Wk. specialize (F6 kv Hk).
  rewrite !aniso_none; auto; [|now apply onwf_rev|now rewrite fits_rev].
  rewrite <- map_rev. f_equal. destruct (snd kv) as [v|]; simpl; [rewrite nd_data_rev; apply rev_involutive|apply rev_repeat].
Qed.

(** *** Full-space flag *)
Theorem check_model_full : forall m d i o, inputs_wf i -> cmodel m d i = Ok o ->
  m_full o = true <->
  (exists r, i_res i = ResArr r) /\ uniform (m_res o) /\ uniform (m_aniso o) /\ uniform (m_epermH o) /\
  uniform (m_epermV o) /\ uniform (m_mpermH o) /\ uniform (m_mpermV o).
Proof.
  intros m d i o W H. rewrite check_model_closed in H by auto.
  destruct (check_depth d) as [[sw d']|] eqn:CD; [|discriminate].
  destruct (all_fit (List.length d') i) eqn:F; [|discriminate]. inversion H; subst o.
  destruct (model_lengths m sw d' i W F) as [L1 [L2 [L3 [L4 [L5 [L6 _]]]]]].
  pose proof (check_depth_len _ _ _ CD) as L0.
  rewrite <- !same_uniform by (first [rewrite L1|rewrite L2|rewrite L3|rewrite L4|rewrite L5|rewrite L6]; exact L0).
  unfold model_of. cbn [m_full m_res m_aniso m_epermH m_epermV m_mpermH m_mpermV].
  rewrite !andb_true_iff. destruct (i_res i) as [r|r ex]; simpl is_arr; split.
  - intros [_ [[[? ?] [? ?]] [? ?]]]. repeat split; auto. eauto.
  - intros [_ [? [? [? [? [? ?]]]]]]. repeat split; auto.
  - intros [X _]; discriminate.
  - intros [[r' X] _]; discriminate.
Qed.
