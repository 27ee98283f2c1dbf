(** check_frequency, check_ab, get_off_ang and minimum-value histories: proofs. *)
From Coq Require Import Reals ZArith List Bool String Lia Lra Psatz QArith.
From Coquelicot Require Import Coquelicot.
From Verif Require Import PyBase CBase UtilsAb Utils UtilsLayer UtilsModel KernelSpec KernelMain KernelThm2.
Import ListNotations.
Local Open Scope R_scope.
Local Open Scope res_scope.

(** ** check_frequency *)
Definition laplace_input (freq : list R) : Prop := forall f, In f freq -> f <= 0.
(** admittivity and impedivity of one layer *)
Definition eta_freq (f sigma eps : R) : C := (sigma, 2 * PI * f * (eps * epsilon_0)).
Definition eta_lapl (s sigma eps : R) : C := (sigma + s * (eps * epsilon_0), 0).
Definition zeta_freq (f mu : R) : C := (0, 2 * PI * f * (mu * mu_0)).
Definition zeta_lapl (s mu : R) : C := (s * (mu * mu_0), 0).

Lemma map2_map_l : forall A A' B D (f : A' -> B -> D) (g : A -> A') a b, map2 f (map g a) b = map2 (fun x y => f (g x) y) a b.
Proof. unfold map2. induction a as [|x a IH]; intros [|y b]; simpl; try reflexivity. now rewrite IH. Qed.
Lemma map2_ext : forall A B D (f g : A -> B -> D) a b, (forall x y, f x y = g x y) -> map2 f a b = map2 g a b.
Proof. intros. unfold map2. apply map_ext. intros; apply H. Qed.

Definition freq_spec (m : mins) (laplace : bool) (freq r an eH eV mH mV : list R) : freq_out :=
  let fr := map (fun f => Rmax (if laplace then - f else f) (min_freq m)) freq in
  let eta := if laplace then eta_lapl else eta_freq in
  let zeta := if laplace then zeta_lapl else zeta_freq in
  {| f_freq := fr;
     f_etaH := map (fun f => map2 (fun r e => eta f (1 / r) e) r eH) fr;
     f_etaV := map (fun f => map2 (fun ra e => eta f (1 / (fst ra * snd ra * snd ra)) e) (combine r an) eV) fr;
     f_zetaH := map (fun f => map (zeta f) mH) fr;
     f_zetaV := map (fun f => map (zeta f) mV) fr |}.

Lemma laplace_dec : forall freq, negb (existsb (fun f => Rltb 0 f) freq) = true <-> laplace_input freq.
Proof.
  intros. rewrite negb_true_iff. split.
  - intros H f Hf. apply Rnot_lt_le. intro L. assert (existsb (fun f => Rltb 0 f) freq = true).
    { apply existsb_exists. exists f. split; [auto|now apply Rltb_true]. } congruence.
  - intros H. apply not_true_iff_false. intro E. apply existsb_exists in E. destruct E as [f [A B]].
    apply Rltb_true in B. specialize (H f A). lra.
Qed.

Lemma sval_lapl : forall f x, Cmult (sval true f) (RtoC x) = (f * x, 0)%R.
Proof. intros. unfold sval, RtoC, Cmult. simpl. f_equal; ring. Qed.
Lemma sval_freq : forall f x, Cmult (sval false f) (RtoC x) = (0, 2 * PI * f * x)%R.
Proof. intros. unfold sval, RtoC, Cmult. simpl. f_equal; ring. Qed.

Theorem check_frequency_closed : forall m freq r an eH eV mH mV,
  (laplace_input freq -> check_frequency m freq r an eH eV mH mV = freq_spec m true freq r an eH eV mH mV) /\
  (~ laplace_input freq -> check_frequency m freq r an eH eV mH mV = freq_spec m false freq r an eH eV mH mV).
Proof.
  intros m freq r an eH eV mH mV.
  assert (G : forall b, negb (existsb (fun f => Rltb 0 f) freq) = b ->
     check_frequency m freq r an eH eV mH mV = freq_spec m b freq r an eH eV mH mV).
  { intros b Hb. unfold check_frequency, freq_spec. rewrite Hb.
    assert (Ef : fst (check_min (if b then map Ropp freq else freq) (Some (min_freq m)))
       = map (fun f => Rmax (if b then - f else f) (min_freq m)) freq).
    { rewrite (proj1 (check_min_spec _ _)). destruct b; [rewrite map_map|]; reflexivity. }
    rewrite Ef. set (fr := map _ freq). rewrite !map_map. unfold outer. rewrite !map_map. f_equal.
    - apply map_ext. intros f. rewrite map2_map_l. apply map2_ext. intros c e. destruct b.
      + rewrite sval_lapl. unfold eta_lapl, RtoC, Cplus. simpl. f_equal; ring.
      + rewrite sval_freq. unfold eta_freq, RtoC, Cplus. simpl. f_equal; ring.
    - apply map_ext. intros f. unfold map2 at 2. rewrite map2_map_l. apply map2_ext. intros c e. destruct b.
      + rewrite sval_lapl. unfold eta_lapl, RtoC, Cplus. simpl. f_equal; ring.
      + rewrite sval_freq. unfold eta_freq, RtoC, Cplus. simpl. f_equal; ring.
    - apply map_ext. intros f. apply map_ext. intros x. destruct b; [apply sval_lapl|apply sval_freq].
    - apply map_ext. intros f. apply map_ext. intros x. destruct b; [apply sval_lapl|apply sval_freq]. }
  split; intros H.
  - apply G. now apply laplace_dec.
  - apply G. apply not_true_iff_false. intro E. apply H. now apply laplace_dec.
Qed.

(** ** Checked input is a passive medium *)
Definition row (l : list (list C)) (i k : nat) : C := nth k (nth i l []) (RtoC 0).
Definition depth_fun (d : list ext) (k : nat) : R := match nth k d NInf with Fin r => r | _ => 0 end.

Lemma depth_strict_fun : forall d, depth_strict d ->
  d = depth_arr (depth_fun d) (List.length d - 1) /\ increasing (depth_fun d) (List.length d - 1).
Proof.
  intros d [l [E S0]].
  assert (LN : (List.length d - 1)%nat = List.length l) by (rewrite E; simpl; rewrite map_length; lia).
  rewrite LN. split.
  - rewrite E. unfold depth_arr. f_equal.
    apply (nth_ext _ _ (Fin 0) (Fin 0)).
    + now rewrite !map_length, seq_length.
    + intros i Hi. rewrite map_length in Hi.
      rewrite (map_nth Fin), (nth_indep (map _ (seq 1 _)) (Fin 0) (Fin (depth_fun (NInf :: map Fin l) 0)))
        by (rewrite map_length, seq_length; auto).
      rewrite (map_nth (fun k => Fin (depth_fun (NInf :: map Fin l) k))). rewrite seq_nth by auto.
      unfold depth_fun. simpl. rewrite (nth_indep _ NInf (Fin 0)) by (now rewrite map_length).
      rewrite (map_nth Fin). reflexivity.
  - intros k Hk.
    assert (X : xltb (nth k d NInf) (nth (S k) d NInf) = true) by (apply S0; rewrite E; simpl; rewrite map_length; lia).
    unfold depth_fun. rewrite E in X |- *. destruct k; [lia|]. simpl in X |- *.
    rewrite (nth_indep _ NInf (Fin 0)) in X |- * by (rewrite map_length; lia).
    rewrite (map_nth Fin) in X |- *. destruct l as [|a l]; [simpl in Hk; lia|]. simpl map in X |- *. cbn [nth] in X |- *.
    rewrite (nth_indep (map Fin l) NInf (Fin 0)) in X |- * by (rewrite map_length; simpl in Hk; lia).
    rewrite (map_nth Fin) in X |- *. cbn [xltb] in X. now apply Rltb_true.
Qed.

Lemma swp_In : forall A b (l : list A) x, In x (swp b l) <-> In x l.
Proof. intros A [] l x; simpl; [symmetry; apply in_rev|tauto]. Qed.
Lemma map2_In : forall A B D (f : A -> B -> D) a b y, In y (map2 f a b) -> exists x x', In x a /\ In x' b /\ y = f x x'.
Proof.
  intros. unfold map2 in H. apply in_map_iff in H. destruct H as [[p q] [E H]]. apply in_combine_l in H as H1.
  apply in_combine_r in H as H2. exists p, q. auto.
Qed.

Lemma model_positive : forall m d i o, inputs_wf i -> 0 < min_res m -> cmodel m d i = Ok o ->
  (forall x, In x (m_res o) -> 0 < x) /\ (forall x, In x (m_aniso o) -> 0 < x) /\
  (forall x, In x (m_epermH o) -> 0 <= x) /\ (forall x, In x (m_epermV o) -> 0 <= x) /\
  (forall x, In x (m_mpermH o) -> 0 <= x) /\ (forall x, In x (m_mpermV o) -> 0 <= x).
Proof.
  intros m d i o W M H. rewrite check_model_closed in H by auto.
  destruct (check_depth d) as [[sw d']|] eqn:CD; [|discriminate].
  destruct (all_fit (List.length d') i) eqn:F; [|discriminate]. inversion H; subst o.
  unfold model_of. cbn [m_res m_aniso m_epermH m_epermV m_mpermH m_mpermV].
  assert (PR : forall x, In x (map (fun p => Rmax p (min_res m)) (nd_data (res_in (i_res i)))) -> 0 < x).
  { intros x Hx. apply in_map_iff in Hx. destruct Hx as [p [<- _]]. pose proof (Rmax_r p (min_res m)). lra. }
  assert (PP : forall n v x, In x (plain_val n (Some 0) v) -> 0 <= x).
  { intros n [v|] x Hx; simpl in Hx.
    - apply in_map_iff in Hx. destruct Hx as [p [<- _]]. apply Rmax_r.
    - apply repeat_spec in Hx. lra. }
  repeat split; intros x Hx; rewrite swp_In in Hx; try (eapply PP; eassumption); [now apply PR|].
  unfold aniso_val in Hx. destruct (i_aniso i) as [v|]; [|apply repeat_spec in Hx; lra].
  apply map2_In in Hx. destruct Hx as [a [r [_ [Hr ->]]]]. apply PR in Hr.
  apply sqrt_lt_R0. apply Rdiv_lt_0_compat; [|auto]. pose proof (Rmax_r (a ^ 2 * r) (min_res m)). lra.
Qed.

Lemma mu_0_pos : 0 < mu_0.
Proof. unfold mu_0. pose proof PI_RGT_0. apply Rmult_lt_0_compat; [|auto]. apply Rdiv_lt_0_compat; [lra|]. apply pow_lt. lra. Qed.
Lemma epsilon_0_pos : 0 < epsilon_0.
Proof.
  unfold epsilon_0. pose proof mu_0_pos. apply Rdiv_lt_0_compat; [lra|].
  apply Rmult_lt_0_compat; [apply Rmult_lt_0_compat; [auto|]|]; unfold c_light; lra.
Qed.

Lemma freq_positive : forall m freq lap, 0 < min_freq m ->
  forall f, In f (map (fun f => Rmax (if lap : bool then - f else f) (min_freq m)) freq) -> 0 < f.
Proof. intros m freq lap M f Hf. apply in_map_iff in Hf. destruct Hf as [g [<- _]]. pose proof (Rmax_r (if lap then - g else g) (min_freq m)). lra. Qed.

Theorem checked_passive : forall m d i o freq fo j, inputs_wf i -> strictx d \/ strictx (rev d) ->
  0 < min_res m -> 0 < min_freq m ->
  cmodel m d i = Ok o ->
  fo = check_frequency m freq (m_res o) (m_aniso o) (m_epermH o) (m_epermV o) (m_mpermH o) (m_mpermV o) ->
  (forall x, In x (m_mpermH o) \/ In x (m_mpermV o) -> 0 < x) ->
  (j < List.length freq)%nat ->
  let N := (List.length (m_depth o) - 1)%nat in
  m_depth o = depth_arr (depth_fun (m_depth o)) N /\
  increasing (depth_fun (m_depth o)) N /\
  nth j (f_etaH fo) [] = arr (row (f_etaH fo) j) N /\ nth j (f_etaV fo) [] = arr (row (f_etaV fo) j) N /\
  nth j (f_zetaH fo) [] = arr (row (f_zetaH fo) j) N /\ nth j (f_zetaV fo) [] = arr (row (f_zetaV fo) j) N /\
  passive_medium (row (f_etaH fo) j) (row (f_etaV fo) j) (row (f_zetaH fo) j) (row (f_zetaV fo) j)
    (depth_fun (m_depth o)) N.
Proof.
  intros m d i o freq fo j W SD M1 M2 H -> Mu Hj N.
  destruct (model_positive m d i o W M1 H) as [P1 [P2 [P3 [P4 [P5 P6]]]]].
  assert (LEN : List.length (m_res o) = S N /\ List.length (m_aniso o) = S N /\ List.length (m_epermH o) = S N /\
     List.length (m_epermV o) = S N /\ List.length (m_mpermH o) = S N /\ List.length (m_mpermV o) = S N /\ depth_strict (m_depth o)).
  { rewrite check_model_closed in H by auto. destruct (check_depth d) as [[sw d']|] eqn:CD; [|discriminate].
    destruct (all_fit (List.length d') i) eqn:F; [|discriminate]. inversion H; subst o.
    destruct (model_lengths m sw d' i W F) as [L1 [L2 [L3 [L4 [L5 [L6 _]]]]]].
    pose proof (check_depth_len _ _ _ CD). pose proof (check_depth_strict _ _ _ SD CD).
    unfold N. simpl m_depth. replace (S (List.length d' - 1)) with (List.length d') by lia. repeat split; auto. }
  destruct LEN as [L1 [L2 [L3 [L4 [L5 [L6 DS]]]]]].
  destruct (depth_strict_fun _ DS) as [D1 D2]. fold N in D1, D2.
  assert (ARR : forall (l : list (list C)), List.length (nth j l []) = S N -> nth j l [] = arr (row l j) N).
  { intros l L. apply (nth_ext _ _ (RtoC 0) (RtoC 0)).
    - unfold arr. now rewrite map_length, seq_length.
    - intros k Hk. unfold arr. rewrite (nth_indep (map _ _) (RtoC 0) (row l j 0)) by (rewrite map_length, seq_length; lia).
      rewrite (map_nth (row l j)), seq_nth by lia. reflexivity. }
  assert (G : exists lap, check_frequency m freq (m_res o) (m_aniso o) (m_epermH o) (m_epermV o) (m_mpermH o) (m_mpermV o)
     = freq_spec m lap freq (m_res o) (m_aniso o) (m_epermH o) (m_epermV o) (m_mpermH o) (m_mpermV o)).
  { destruct (check_frequency_closed m freq (m_res o) (m_aniso o) (m_epermH o) (m_epermV o) (m_mpermH o) (m_mpermV o)) as [G1 G2].
    destruct (negb (existsb (fun f => Rltb 0 f) freq)) eqn:E.
    - exists true. apply G1. now apply laplace_dec.
    - exists false. apply G2. intro X. apply laplace_dec in X. congruence. }
  destruct G as [lap ->]. set (fr := map (fun f => Rmax (if lap then - f else f) (min_freq m)) freq).
  assert (Lf : (j < List.length fr)%nat) by (unfold fr; now rewrite map_length).
  set (f := nth j fr 0). assert (Pf : 0 < f) by (apply (freq_positive m freq lap M2), nth_In; exact Lf).
  unfold freq_spec. cbn [f_etaH f_etaV f_zetaH f_zetaV]. fold fr.
  assert (NM : forall (g : R -> list C), nth j (map g fr) [] = g f).
  { intros g. rewrite (nth_indep _ [] (g 0)) by (rewrite map_length; auto). apply map_nth. }
  assert (RW : forall (g : R -> list C) k, row (map g fr) j k = nth k (g f) (RtoC 0)) by (intros; unfold row; now rewrite NM).
  split; [exact D1|]. split; [exact D2|].
  assert (Lc : List.length (combine (m_res o) (m_aniso o)) = S N) by (rewrite combine_length, L1, L2; lia).
  split; [apply ARR; rewrite NM, map2_length, L1, L3; lia|].
  split; [apply ARR; rewrite NM, map2_length, Lc, L4; lia|].
  split; [apply ARR; rewrite NM, map_length; exact L5|].
  split; [apply ARR; rewrite NM, map_length; exact L6|].
  pose proof epsilon_0_pos as Pe. pose proof mu_0_pos as Pm. pose proof PI_RGT_0 as Ppi.
  assert (ETA : forall s e, 0 < s -> 0 <= e -> 0 < fst ((if lap then eta_lapl else eta_freq) f s e)).
  { intros s e Hs He. destruct lap; simpl; [|exact Hs].
    assert (0 <= f * (e * epsilon_0)) by (apply Rmult_le_pos; [lra|apply Rmult_le_pos; lra]). lra. }
  assert (ZET : forall x, 0 < x -> 0 <= fst ((if lap then zeta_lapl else zeta_freq) f x) /\
     (if lap then zeta_lapl else zeta_freq) f x <> RtoC 0).
  { intros x Hx. assert (0 < x * mu_0) by (apply Rmult_lt_0_compat; lra). destruct lap; simpl.
    - assert (0 < f * (x * mu_0)) by (apply Rmult_lt_0_compat; lra). split; [lra|]. intro E. unfold zeta_freq, zeta_lapl, RtoC in E. injection E. lra.
    - assert (0 < 2 * PI * f * (x * mu_0)) by (apply Rmult_lt_0_compat; [apply Rmult_lt_0_compat; lra|lra]). split; [lra|]. intro E. unfold zeta_freq, zeta_lapl, RtoC in E. injection E. lra. }
  assert (ZETA : forall l k, List.length l = S N -> (forall x, In x l -> 0 < x) -> (k <= N)%nat ->
     exists x, 0 < x /\ nth k (map ((if lap then zeta_lapl else zeta_freq) f) l) (RtoC 0) = (if lap then zeta_lapl else zeta_freq) f x).
  { intros l k L P Hk. exists (nth k l 0). split; [apply P, nth_In; lia|].
    rewrite (nth_indep _ (RtoC 0) ((if lap then zeta_lapl else zeta_freq) f 0)) by (rewrite map_length; lia). apply map_nth. }
  constructor; try (intros k Hk; rewrite RW).
  - rewrite (map2_nth _ _ _ _ _ _ k 0 0) by lia. apply ETA; [|apply P3, nth_In; lia].
    apply Rdiv_lt_0_compat; [lra|]. apply P1, nth_In. lia.
  - rewrite (map2_nth _ _ _ _ _ _ k (0, 0) 0) by lia. apply ETA; [|apply P4, nth_In; lia].
    rewrite combine_nth by lia. cbn [fst snd].
    assert (0 < nth k (m_res o) 0) by (apply P1, nth_In; lia).
    assert (0 < nth k (m_aniso o) 0) by (apply P2, nth_In; lia).
    apply Rdiv_lt_0_compat; [lra|]. repeat apply Rmult_lt_0_compat; auto.
  - destruct (ZETA (m_mpermH o) k L5 (fun x Hx => Mu x (or_introl Hx)) Hk) as [x [Px ->]]. now apply ZET.
  - destruct (ZETA (m_mpermV o) k L6 (fun x Hx => Mu x (or_intror Hx)) Hk) as [x [Px ->]]. now apply ZET.
  - destruct (ZETA (m_mpermH o) k L5 (fun x Hx => Mu x (or_introl Hx)) Hk) as [x [Px ->]]. now apply ZET.
  - destruct (ZETA (m_mpermV o) k L6 (fun x Hx => Mu x (or_intror Hx)) Hk) as [x [Px ->]]. now apply ZET.
  - intros k Hk. left. now apply D2.
Qed.

(** ** check_ab *)
Theorem check_ab_accept : forall a b, (1 <= a <= 6)%Z -> (1 <= b <= 6)%Z ->
  check_ab (AbNum (inject_Z (10 * a + b))) =
  Ok (if (3 <? a)%Z then if (3 <? b)%Z then (10 * (a - 3) + (b - 3))%Z else (10 * b + a)%Z else (10 * a + b)%Z,
      (3 <? b)%Z, (3 <? a)%Z).
Proof.
  intros a b Ha Hb.
  assert (A : (a = 1 \/ a = 2 \/ a = 3 \/ a = 4 \/ a = 5 \/ a = 6)%Z) by lia.
  assert (B : (b = 1 \/ b = 2 \/ b = 3 \/ b = 4 \/ b = 5 \/ b = 6)%Z) by lia.
  destruct A as [A|[A|[A|[A|[A|A]]]]]; subst a;
  destruct B as [B|[B|[B|[B|[B|B]]]]]; subst b; vm_compute; reflexivity.
Qed.
Theorem check_ab_reject : forall z, (forall a b, (1 <= a <= 6)%Z -> (1 <= b <= 6)%Z -> z <> (10 * a + b)%Z) ->
  check_ab (AbNum (inject_Z z)) = Err ValueError.
Proof.
  intros z H. unfold check_ab, py_int. simpl Qnum. simpl Qden. rewrite Z.quot_1_r. cbn [bind].
  destruct (inb z pab) eqn:E; [|reflexivity]. exfalso. apply inb_In in E. unfold pab in E. simpl in E.
  specialize (H (z / 10)%Z (z mod 10)%Z).
  repeat (destruct E as [E|E]; [subst z; vm_compute in H; apply H; try reflexivity; split; discriminate|]). exact E.
Qed.

(** ** Histories of set_minimum *)
Definition key (k : minkw) (name : string) : option R :=
  if String.eqb name "min_freq" then k_freq k else if String.eqb name "min_time" then k_time k
  else if String.eqb name "min_off" then k_off k else if String.eqb name "min_res" then k_res k
  else if String.eqb name "min_angle" then k_angle k else None.
Definition lookup (name : string) (l : list (string * R)) : option R :=
  match find (fun p => String.eqb (fst p) name) l with Some p => Some (snd p) | None => None end.
(** The value given last in a history of calls (oldest first). *)
Fixpoint last_set (name : string) (h : list minkw) : option R :=
  match h with
  | [] => None
  | k :: h' => match last_set name h' with Some v => Some v | None => key k name end
  end.
Definition run_mins (h : list minkw) (m : mins) : mins := fold_left (fun m k => set_minimum k m) h m.
Definition min_names : list string := ["min_freq"; "min_time"; "min_off"; "min_res"; "min_angle"]%string.

Theorem minimum_history : forall h m name, In name min_names ->
  lookup name (get_minimum (run_mins h m)) =
  match last_set name h with Some v => Some v | None => lookup name (get_minimum m) end.
Proof.
  induction h as [|k h IH]; intros m name Hn; [reflexivity|].
  change (run_mins (k :: h) m) with (run_mins h (set_minimum k m)). rewrite IH by auto. cbn [last_set].
  destruct (last_set name h); [reflexivity|].
  unfold min_names in Hn. simpl in Hn.
  destruct Hn as [<-|[<-|[<-|[<-|[<-|[]]]]]]; unfold lookup, get_minimum, set_minimum, key; simpl;
   [destruct (k_freq k)|destruct (k_time k)|destruct (k_off k)|destruct (k_res k)|destruct (k_angle k)]; reflexivity.
Qed.

(** ** get_off_ang *)
Lemma hyp_pos : forall x y, x <> 0 -> 0 < x * x + y * y.
Proof. intros. assert (0 < x * x) by nra. nra. Qed.
Lemma atan2_polar : forall x y,
  sqrt (x * x + y * y) * cos (atan2 y x) = x /\ sqrt (x * x + y * y) * sin (atan2 y x) = y /\
  - PI < atan2 y x <= PI.
Proof.
  intros x y. unfold atan2. pose proof (atan_bound (y / x)) as AB. pose proof PI_RGT_0 as PP.
  assert (HY : x <> 0 -> sqrt (x * x + y * y) = Rabs x * sqrt (1 + (y / x)²)).
  { intros Hx. rewrite <- sqrt_Rsqr_abs, <- sqrt_mult; [|apply Rle_0_sqr|pose proof (Rle_0_sqr (y / x)); lra].
    f_equal. unfold Rsqr. field. auto. }
  assert (SP : 0 < sqrt (1 + (y / x)²)) by (apply sqrt_lt_R0; pose proof (Rle_0_sqr (y / x)); lra).
  assert (XC : x <> 0 -> sqrt (x * x + y * y) * cos (atan (y / x)) = Rabs x).
  { intros Hx. rewrite HY, cos_atan by auto. field. lra. }
  assert (XS : x <> 0 -> sqrt (x * x + y * y) * sin (atan (y / x)) = Rabs x * (y / x)).
  { intros Hx. rewrite HY, sin_atan by auto. field. repeat split; auto; lra. }
  destruct (Rltb 0 x) eqn:E1.
  { apply Rltb_true in E1. rewrite XC, XS by lra. rewrite Rabs_right by lra. repeat split; try lra. field; lra. }
  apply Rltb_false in E1. destruct (Rltb x 0) eqn:E2.
  { apply Rltb_true in E2. rewrite Rabs_left in XC, XS by lra. assert (Hx : x <> 0) by lra.
    specialize (XC Hx). specialize (XS Hx).
    assert (SG : 0 <= y -> atan (y / x) <= 0).
    { intros Hy. rewrite <- atan_0. destruct (Req_dec y 0) as [->|]; [right; f_equal; unfold Rdiv; ring|].
      left. apply atan_increasing. unfold Rdiv. apply Ropp_lt_cancel. rewrite Ropp_0.
      replace (- (y * / x)) with (y * / - x) by (field; lra). apply Rmult_lt_0_compat; [lra|apply Rinv_0_lt_compat; lra]. }
    assert (SG2 : y < 0 -> 0 < atan (y / x)).
    { intros Hy. rewrite <- atan_0. apply atan_increasing. unfold Rdiv.
      replace (y * / x) with (- y * / - x) by (field; lra). apply Rmult_lt_0_compat; [lra|apply Rinv_0_lt_compat; lra]. }
    destruct (Rleb 0 y) eqn:E3.
    - apply Rleb_true in E3. rewrite neg_cos, neg_sin. repeat split.
      + replace (sqrt (x * x + y * y) * - cos (atan (y / x))) with (- (sqrt (x * x + y * y) * cos (atan (y / x)))) by ring.
        rewrite XC. ring.
      + replace (sqrt (x * x + y * y) * - sin (atan (y / x))) with (- (sqrt (x * x + y * y) * sin (atan (y / x)))) by ring.
        rewrite XS. field. lra.
      + lra.
      + specialize (SG E3). lra.
    - apply Rleb_false in E3. specialize (SG2 E3).
      rewrite cos_minus, sin_minus, cos_PI, sin_PI. repeat split; [| |lra|lra].
      + replace (sqrt (x * x + y * y) * (cos (atan (y / x)) * -1 + sin (atan (y / x)) * 0))
          with (- (sqrt (x * x + y * y) * cos (atan (y / x)))) by ring. rewrite XC. ring.
      + replace (sqrt (x * x + y * y) * (sin (atan (y / x)) * -1 - cos (atan (y / x)) * 0))
          with (- (sqrt (x * x + y * y) * sin (atan (y / x)))) by ring. rewrite XS. field. lra. }
  apply Rltb_false in E2. assert (x = 0) by lra. subst x.
  replace (0 * 0 + y * y) with (Rsqr y) by (unfold Rsqr; ring). rewrite sqrt_Rsqr_abs.
  destruct (Rltb 0 y) eqn:E3.
  - apply Rltb_true in E3. rewrite Rabs_right, cos_PI2, sin_PI2 by lra. repeat split; lra.
  - apply Rltb_false in E3. destruct (Rltb y 0) eqn:E4.
    + apply Rltb_true in E4. rewrite Rabs_left, cos_neg, sin_neg, cos_PI2, sin_PI2 by lra. repeat split; lra.
    + apply Rltb_false in E4. assert (y = 0) by lra. subst. rewrite Rabs_R0. repeat split; lra.
Qed.

Lemma nth_flat_map : forall A B (f : A -> list B) n l s r da db,
  (forall x, In x l -> List.length (f x) = n) -> (s < List.length l)%nat -> (r < n)%nat ->
  nth (s * n + r) (flat_map f l) db = nth r (f (nth s l da)) db.
Proof.
  induction l as [|x l IH]; intros s r da db H Hs Hr; simpl in Hs; [lia|].
  assert (Lx : List.length (f x) = n) by (apply H; simpl; auto).
  destruct s; simpl.
  - rewrite app_nth1 by lia. reflexivity.
  - rewrite app_nth2 by lia. replace (n + s * n + r - List.length (f x))%nat with (s * n + r)%nat by lia.
    apply IH; auto; try lia. intros; apply H; simpl; auto.
Qed.
Lemma flat_map_length_const : forall A B (f : A -> list B) n l, (forall x, In x l -> List.length (f x) = n) ->
  List.length (flat_map f l) = (List.length l * n)%nat.
Proof.
  induction l; intros H; [reflexivity|]. simpl. rewrite app_length, IHl by (intros; apply H; simpl; auto).
  rewrite H by (simpl; auto). lia.
Qed.

Theorem off_ang_spec : forall m srcx srcy recx recy,
  List.length srcx = List.length srcy -> List.length recx = List.length recy ->
  let ns := List.length srcx in let nr := List.length recx in
  let off := fst (get_off_ang m srcx srcy recx recy) in
  let ang := snd (get_off_ang m srcx srcy recx recy) in
  List.length off = (ns * nr)%nat /\ List.length ang = (ns * nr)%nat /\
  forall s r, (s < ns)%nat -> (r < nr)%nat ->
    let dx := nth r recx 0 - nth s srcx 0 in let dy := nth r recy 0 - nth s srcy 0 in
    let rho := sqrt (dx * dx + dy * dy) in let phi := nth (s * nr + r) ang 0 in
    nth (s * nr + r) off 0 = Rmax rho (min_off m) /\
    rho * cos phi = dx /\ rho * sin phi = dy /\ - PI < phi <= PI.
Proof.
  intros m srcx srcy recx recy L1 L2 ns nr. unfold get_off_ang. rewrite (proj1 (check_min_spec _ _)). cbn [fst snd].
  set (per := fun s : R * R => map2 (fun rx ry => (rx - fst s, ry - snd s)) recx recy).
  assert (Lp : forall x, In x (combine srcx srcy) -> List.length (per x) = nr).
  { intros x _. unfold per. rewrite map2_length, <- L2. apply Nat.min_id. }
  assert (Lc : List.length (combine srcx srcy) = ns) by (rewrite combine_length, <- L1; apply Nat.min_id).
  assert (LF : List.length (flat_map per (combine srcx srcy)) = (ns * nr)%nat)
    by (rewrite (flat_map_length_const _ _ _ nr), Lc; auto).
  cbn zeta. split; [now rewrite !map_length|]. split; [now rewrite map_length|].
  intros s r Hs Hr.
  assert (NX : nth (s * nr + r) (flat_map per (combine srcx srcy)) (0, 0)
    = (nth r recx 0 - nth s srcx 0, nth r recy 0 - nth s srcy 0)).
  { rewrite (nth_flat_map _ _ per nr _ s r (0, 0)) by (auto; lia).
    unfold per. rewrite (map2_nth _ _ _ _ _ _ r 0 0) by (fold nr; lia). rewrite combine_nth by auto. reflexivity. }
  assert (Hi : (s * nr + r < ns * nr)%nat) by nia.
  rewrite map_map.
  rewrite (nth_indep (map (fun x => Rmax _ _) _) 0 (Rmax (sqrt (fst (0,0) * fst (0,0) + snd (0,0) * snd (0,0))) (min_off m)))
    by (rewrite map_length; lia).
  rewrite (map_nth (fun x : R * R => Rmax (sqrt (fst x * fst x + snd x * snd x)) (min_off m))), NX.
  rewrite (nth_indep (map (fun c : R * R => atan2 (snd c) (fst c)) _) 0 (atan2 (snd (0,0)) (fst (0,0)))) by (rewrite map_length; lia).
  rewrite (map_nth (fun c : R * R => atan2 (snd c) (fst c))), NX. cbn [fst snd].
  split; [reflexivity|]. apply atan2_polar.
Qed.
