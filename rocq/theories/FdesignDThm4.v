(** The search over the grid and the objects given by the user. *)

From Coq Require Import ZArith Reals List Bool Ascii String Lia Lra Psatz FinFun.
From Coquelicot Require Import Coquelicot.
From Verif Require Import PyBase CBase Text Utils Transform UtilsArgs DataIo FilterIo FilterIoThm Fdesign Fourier FourierSum FourierFft ArgsFreq ArgsKw UtilsLayer RoutinesKThm BipoleCol FdesignD FdesignDThm FdesignDThm2 FdesignDThm3.
Import ListNotations.
Local Open Scope R_scope.
Local Open Scope res_scope.

(** ** The smallest value *)
Lemma ext_lt_trans : forall a b c, ext_ltb b a = false -> ext_ltb c b = false -> ext_ltb c a = false.
Proof.
  intros [|x|] [|y|] [|z|]; cbn; try congruence; rewrite ?UtilsLayer.Rltb_false; intros; try congruence; try lra.
Qed.
Lemma ext_lt_asym : forall a b, ext_ltb a b = true -> ext_ltb b a = false.
Proof. intros [|x|] [|y|]; cbn; try congruence; rewrite ?UtilsLayer.Rltb_false, ?UtilsLayer.Rltb_true; intros; try congruence; lra. Qed.
Lemma ext_lt_le : forall a b c, ext_ltb a b = true -> ext_ltb c b = false -> ext_ltb a c = true.
Proof. intros [|x|] [|y|] [|z|]; cbn; try congruence; rewrite ?UtilsLayer.Rltb_false, ?UtilsLayer.Rltb_true; intros; try congruence; lra. Qed.
Lemma argmin_spec : forall A (l : list (A * ext)) x, argmin l = Ok x -> exists l1 l2, l = (l1 ++ x :: l2)%list /\
  (forall y, In y l1 -> ext_ltb (snd x) (snd y) = true) /\ (forall y, In y l2 -> ext_ltb (snd y) (snd x) = false).
Proof.
  intros A. induction l as [|a l IH]; intros x H; [discriminate|]. destruct l as [|b l].
  - cbn in H. injection H as <-. exists [], []. repeat split; intros y [].
  - change (argmin (a :: b :: l)) with (y <- argmin (b :: l);; Ok (if ext_ltb (snd y) (snd a) then y else a)) in H.
    apply bind_ok in H. destruct H as (y & E & H). destruct (IH y E) as (l1 & l2 & El & P1 & P2). rewrite El. destruct (ext_ltb (snd y) (snd a)) eqn:L; injection H as <-.
    + exists (a :: l1), l2. split; [reflexivity|]. split; [|exact P2]. intros z [<- | Hz]; [exact L|now apply P1].
    + exists [], (l1 ++ y :: l2)%list. split; [reflexivity|]. split; [intros z []|]. intros z Hz. apply in_app_or in Hz.
      assert (Q : ext_ltb (snd z) (snd y) = false). { destruct Hz as [Hz|[<- | Hz]]; [apply ext_lt_asym; now apply P1| |now apply P2]. destruct (snd y); cbn; try reflexivity. apply UtilsLayer.Rltb_false. lra. }
      exact (ext_lt_trans _ _ _ L Q).
Qed.
Lemma argmin_total : forall A (l : list (A * ext)), l <> [] -> exists x, argmin l = Ok x.
Proof.
  intros A. induction l as [|a l IH]; intros N; [congruence|]. destruct l as [|b l]; [now exists a|].
  destruct IH as [x E]; [discriminate|]. change (argmin (a :: b :: l)) with (y <- argmin (b :: l);; Ok (if ext_ltb (snd y) (snd a) then y else a)). rewrite E. cbn [bind]. eauto.
Qed.

Lemma mapM_length : forall (A B : Type) (g : A -> res B) l u, mapM g l = Ok u -> List.length u = List.length l.
Proof.
  intros A B g. induction l as [|x l IH]; intros u E; cbn [mapM] in E; [injection E as <-; reflexivity|]. apply bind_ok in E. destruct E as (y & _ & E).
  apply bind_ok in E. destruct E as (ys & E & E'). injection E' as <-. cbn. now rewrite (IH ys).
Qed.
Lemma mapM_combine : forall (A B : Type) (g : A -> res B) l u x y, mapM g l = Ok u -> In (x, y) (combine l u) -> In x l /\ g x = Ok y.
Proof.
  intros A B g. induction l as [|a l IH]; intros u x y E H; [destruct H|]. cbn [mapM] in E. apply bind_ok in E. destruct E as (z & Ez & E).
  apply bind_ok in E. destruct E as (zs & Es & E). injection E as <-. cbn [combine] in H. destruct H as [H|H]; [injection H as <- <-; split; [now left|exact Ez]|].
  destruct (IH zs x y Es H). split; [now right|assumption].
Qed.
Lemma mapM_combine_fwd : forall (A B : Type) (g : A -> res B) l u x, mapM g l = Ok u -> In x l -> exists y, In (x, y) (combine l u) /\ g x = Ok y.
Proof.
  intros A B g. induction l as [|a l IH]; intros u x E H; [destruct H|]. cbn [mapM] in E. apply bind_ok in E. destruct E as (z & Ez & E).
  apply bind_ok in E. destruct E as (zs & Es & E). injection E as <-. cbn [combine]. destruct H as [<- | H]; [exists z; split; [now left|exact Ez]|].
  destruct (IH zs x Es H) as (y & H1 & H2). exists y. split; [now right|exact H2].
Qed.

Lemma brute_spec : forall f s1 s2 p m, brute f s1 s2 = Ok (p, m) ->
  In (fst p) (grid s1) /\ In (snd p) (grid s2) /\ f p = Ok m /\
  forall a b, In a (grid s1) -> In b (grid s2) -> exists v, f (a, b) = Ok v /\ ext_ltb v m = false.
Proof.
  intros f s1 s2 p m H. unfold brute in H. cbv zeta in H. apply bind_ok in H. destruct H as (v & E & H).
  destruct (argmin_spec _ _ _ H) as (l1 & l2 & El & P1 & P2).
  assert (I : In (p, m) (combine (list_prod (grid s1) (grid s2)) v)) by (rewrite El; apply in_or_app; right; now left).
  destruct (mapM_combine _ _ _ _ _ _ _ E I) as [I1 I2]. destruct p as [a b]. apply in_prod_iff in I1. split; [exact (proj1 I1)|]. split; [exact (proj2 I1)|]. split; [exact I2|].
  intros a' b' Ha Hb. destruct (mapM_combine_fwd _ _ _ _ _ (a', b') E) as (y & Iy & Ey); [now apply in_prod|]. exists y. split; [exact Ey|].
  rewrite El in Iy. apply in_app_or in Iy. destruct Iy as [Iy|[Iy|Iy]].
  - apply ext_lt_asym. exact (P1 _ Iy).
  - injection Iy as _ _ ->. destruct y; cbn; try reflexivity. apply UtilsLayer.Rltb_false. lra.
  - exact (P2 _ Iy).
Qed.
Lemma brute_total : forall f s1 s2, grid s1 <> [] -> grid s2 <> [] -> (forall a b, In a (grid s1) -> In b (grid s2) -> exists v, f (a, b) = Ok v) -> exists p m, brute f s1 s2 = Ok (p, m).
Proof.
  intros f s1 s2 N1 N2 H. unfold brute. cbv zeta.
  assert (E : exists v, mapM f (list_prod (grid s1) (grid s2)) = Ok v).
  { assert (P : forall l, (forall p, In p l -> exists v, f p = Ok v) -> exists v, mapM f l = Ok v).
    { induction l as [|p l IH]; intros Q; [now exists []|]. destruct (Q p (or_introl eq_refl)) as [x Ex]. destruct IH as [y Ey]; [intros q Hq; apply Q; now right|].
      cbn [mapM]. rewrite Ex, Ey. cbn [bind]. eauto. }
    apply P. intros [a b] Hp. apply in_prod_iff in Hp. now apply H. }
  destruct E as [v E]. rewrite E. cbn [bind]. pose proof (mapM_length _ _ _ _ _ E) as L.
  destruct (argmin_total _ (combine (list_prod (grid s1) (grid s2)) v)) as [[p m] Ea]; [|exists p, m; exact Ea].
  destruct (grid s1) as [|a g1]; [congruence|]. destruct (grid s2) as [|b g2]; [congruence|]. destruct v as [|x v]; [discriminate L|]. discriminate.
Qed.

(** ** The objects *)
Lemma nth_res_err : forall A (l : list A) i, nth_res l i = match nth_error l i with Some a => Ok a | None => Err IndexError end.
Proof. reflexivity. Qed.
Lemma replace_nth_error : forall A (l : list A) i v k, nth_error (replace l i v) k = if (k =? i)%nat then (match nth_error l k with Some _ => Some v | None => None end) else nth_error l k.
Proof.
  intros A. induction l as [|x l IH]; intros i v k.
  - cbn. destruct (k =? i)%nat; destruct k; reflexivity.
  - destruct i as [|i]; destruct k as [|k]; cbn; try reflexivity. apply IH.
Qed.
Lemma set_rhs_nth : forall h i v k, nth_error (set_rhs h i v) k = if (k =? i)%nat then (match nth_error h i with Some f => Some (DP (dp_name f) (dp_lhs f) (RhsArr v)) | None => None end) else nth_error h k.
Proof.
  intros h i v k. unfold set_rhs. destruct (nth_error h i) as [f|] eqn:E.
  - rewrite replace_nth_error. destruct (Nat.eqb_spec k i); [subst; now rewrite E|reflexivity].
  - destruct (Nat.eqb_spec k i); [subst; exact E|reflexivity].
Qed.
Definition has_array (h : heap) (i : nat) : Prop := exists f v, nth_error h i = Some f /\ dp_rhs f = RhsArr v.
(** An object with an array cannot be used again. *)
Lemma put_array : forall l h r i h', has_array h i -> In i l -> put_rhs h l r <> Ok h'.
Proof.
  induction l as [|j l IH]; intros h r i h' A I H; [destruct I|]. cbn [put_rhs] in H. apply bind_ok in H. destruct H as (f & Ef & H). apply bind_ok in H. destruct H as (v & Ev & H).
  destruct (Nat.eq_dec j i) as [->|D].
  - destruct A as (g & u & Eg & Hu). unfold nth_res in Ef. rewrite Eg in Ef. injection Ef as <-. unfold call_rhs in Ev. rewrite Hu in Ev. discriminate.
  - destruct I as [I|I]; [congruence|]. apply (IH _ _ i _) in H; [exact H| |exact I]. destruct A as (g & u & Eg & Hu). exists g, u. split; [|exact Hu].
    rewrite set_rhs_nth. destruct (Nat.eqb_spec i j); [congruence|exact Eg].
Qed.
Lemma put_spec : forall l h r h', put_rhs h l r = Ok h' -> NoDup l /\ List.length h' = List.length h /\
  (forall i, ~ In i l -> nth_error h' i = nth_error h i) /\
  (forall i, In i l -> exists f v, nth_error h i = Some f /\ call_rhs f r = Ok v /\ nth_error h' i = Some (DP (dp_name f) (dp_lhs f) (RhsArr v))).
Proof.
  induction l as [|j l IH]; intros h r h' H; cbn [put_rhs] in H.
  - injection H as <-. repeat split; [constructor|intros i []].
  - apply bind_ok in H. destruct H as (f & Ef & H). apply bind_ok in H. destruct H as (v & Ev & H). destruct (IH _ _ _ H) as (P1 & P2 & P3 & P4).
    unfold nth_res in Ef. destruct (nth_error h j) as [f'|] eqn:E; [|discriminate]. injection Ef as ->.
    assert (NI : ~ In j l). { intros I. apply (put_array l (set_rhs h j v) r j h'); [|exact I|exact H]. exists (DP (dp_name f) (dp_lhs f) (RhsArr v)), v. split; [|reflexivity]. rewrite set_rhs_nth, Nat.eqb_refl, E. reflexivity. }
    split; [now constructor|]. split; [rewrite P2; unfold set_rhs; rewrite E; apply replace_length|]. split.
    + intros i Hi. cbn [In] in Hi. rewrite P3 by tauto. rewrite set_rhs_nth. destruct (Nat.eqb_spec i j); [subst; tauto|reflexivity].
    + intros i [<- | Hi].
      * exists f, v. split; [exact E|]. split; [exact Ev|]. rewrite P3 by exact NI. rewrite set_rhs_nth, Nat.eqb_refl, E. reflexivity.
      * destruct (P4 i Hi) as (g & u & Eg & Eu & Eh). rewrite set_rhs_nth in Eg. destruct (Nat.eqb_spec i j); [subst; tauto|]. exists g, u. auto.
Qed.
Lemma put_total : forall l h r, NoDup l -> (forall i, In i l -> exists f v, nth_error h i = Some f /\ call_rhs f r = Ok v) -> exists h', put_rhs h l r = Ok h'.
Proof.
  induction l as [|j l IH]; intros h r ND H; [now exists h|]. inversion ND as [|? ? NI ND']; subst. destruct (H j (or_introl eq_refl)) as (f & v & Ef & Ev).
  cbn [put_rhs]. unfold nth_res. rewrite Ef. cbn [bind]. rewrite Ev. cbn [bind]. apply IH; [exact ND'|]. intros i Hi. rewrite set_rhs_nth.
  destruct (Nat.eqb_spec i j); [subst; tauto|]. apply H. now right.
Qed.
Lemma deref_spec : forall h l p, deref h l = Ok p -> List.length p = List.length l /\ forall k i, nth_error l k = Some i -> nth_error p k = nth_error h i /\ nth_error h i <> None.
Proof.
  intros h. induction l as [|j l IH]; intros p H; unfold deref in *; cbn [mapM] in H.
  - injection H as <-. split; [reflexivity|]. intros [|k] i E; discriminate E.
  - apply bind_ok in H. destruct H as (f & Ef & H). apply bind_ok in H. destruct H as (t & Et & H). injection H as <-. destruct (IH t Et) as [L P].
    split; [cbn; now rewrite L|]. intros [|k] i E; cbn in E |- *; [|now apply P]. injection E as ->. unfold nth_res in Ef. destruct (nth_error h i); [|discriminate]. injection Ef as ->. split; congruence.
Qed.
Lemma deref_In : forall h l p i, deref h l = Ok p -> In i l -> exists f, nth_error h i = Some f /\ In f p.
Proof.
  intros h l p i H I. destruct (deref_spec h l p H) as [L P]. destruct (In_nth_error l i I) as [k E]. destruct (P k i E) as [E1 E2].
  destruct (nth_error h i) as [f|]; [|congruence]. exists f. split; [reflexivity|]. exact (nth_error_In _ _ E1).
Qed.
Lemma deref_total : forall h l, (forall i, In i l -> (i < List.length h)%nat) -> exists p, deref h l = Ok p.
Proof.
  intros h. induction l as [|j l IH]; intros H; unfold deref in *; [now exists []|]. destruct IH as [t Et]; [intros i Hi; apply H; now right|]. cbn [mapM].
  unfold nth_res at 1. destruct (nth_error h j) as [f|] eqn:E; [|apply nth_error_None in E; specialize (H j (or_introl eq_refl)); lia]. cbn [bind]. rewrite Et. cbn [bind]. eauto.
Qed.
Lemma deref_same : forall h h' l, (forall i, In i l -> nth_error h' i = nth_error h i) -> deref h' l = deref h l.
Proof.
  intros h h'. induction l as [|j l IH]; intros H; [reflexivity|]. unfold deref in *. cbn [mapM]. unfold nth_res at 1 3. rewrite (H j (or_introl eq_refl)). rewrite IH by (intros i Hi; apply H; now right). reflexivity.
Qed.

(** A pair with an array as right-hand side cannot be used for the inversion. *)
Lemma fill_array : forall la w base r fI d d' f v, In f fI -> dp_rhs f = RhsArr v -> fd_fill la w base r fI d <> Ok d'.
Proof.
  intros la w base r. induction fI as [|g t IH]; intros d d' f v I Hv H; [destruct I|]. cbn [fd_fill] in H. apply bind_ok in H. destruct H as (x & Ex & H).
  destruct I as [-> | I]; [|exact (IH _ _ _ _ I Hv H)]. unfold fd_coeff in Ex. destruct (teqb (dp_name f) (T "j2")); [discriminate|].
  apply bind_ok in Ex. destruct Ex as (a & _ & Ex). apply bind_ok in Ex. destruct Ex as (b & Eb & _). unfold fd_rhs, call_rhs in Eb. rewrite Hv in Eb. discriminate.
Qed.
Lemma calc_array : forall la around n sp sh fI rd w name d f v, In f fI -> dp_rhs f = RhsArr v -> calculate_filter la around n sp sh fI rd w name <> Ok d.
Proof.
  intros la around n sp sh fI rd w name d f v I Hv H. unfold calculate_filter in H. cbv zeta in H. apply bind_ok in H. destruct H as (r & _ & H). exact (fill_array _ _ _ _ _ _ _ _ _ I Hv H).
Qed.

(** ** design *)
Section Design.
Variables (la : linalg) (around : R -> R).

(** What a successful call returns. *)
Lemma design_inv : forall h n sp sh fI fC ro rd w amp error name res, design la around h n sp sh fI fC ro rd w amp error name = Ok res ->
  exists r pI pC, (match ro with None => logspace 0 5 1000 | Some r => Ok r end) = Ok r /\
    (let '(h0, fC0) := match fC with [] => deepcopy h fI | _ => (h, fC) end in put_rhs h0 fC0 r = Ok (d_heap res) /\ deref (d_heap res) fI = Ok pI /\ deref (d_heap res) fC0 = Ok pC) /\
    calculate_filter la around n (fst (d_best res)) (snd (d_best res)) pI rd w name = Ok (d_filter res) /\
    In (fst (d_best res)) (grid (ls2ar sp)) /\ In (snd (d_best res)) (grid (ls2ar sh)) /\
    get_min_val la around n pI pC r rd error w amp (fst (d_best res)) (snd (d_best res)) = Ok (d_min res) /\
    forall a b, In a (grid (ls2ar sp)) -> In b (grid (ls2ar sh)) -> exists v, get_min_val la around n pI pC r rd error w amp a b = Ok v /\ ext_ltb v (d_min res) = false.
Proof using.
  intros h n sp sh fI fC ro rd w amp error name res H. unfold design in H. destruct (match fC with [] => deepcopy h fI | _ :: _ => (h, fC) end) as [h0 fC0] eqn:E0.
  apply bind_ok in H. destruct H as (i0 & _ & H). apply bind_ok in H. destruct H as (f0 & _ & H). destruct (teqb (dp_name f0) (T "j2")); [discriminate|].
  apply bind_ok in H. destruct H as (r & Er & H). apply bind_ok in H. destruct H as (h1 & Eh & H). apply bind_ok in H. destruct H as (pI & EI & H). apply bind_ok in H. destruct H as (pC & EC & H).
  apply bind_ok in H. destruct H as ([p m] & Eb & H). apply bind_ok in H. destruct H as (d & Ed & H). injection H as <-. cbn [d_heap d_best d_filter d_min fst snd] in *.
  destruct (brute_spec _ _ _ _ _ Eb) as (B1 & B2 & B3 & B4).
  exists r, pI, pC. repeat split; auto.
Qed.

(** Without fC the objects of the user stay as they are. *)
Lemma design_untouched : forall h n sp sh fI ro rd w amp error name res, design la around h n sp sh fI [] ro rd w amp error name = Ok res ->
  forall i, (i < List.length h)%nat -> nth_error (d_heap res) i = nth_error h i.
Proof using.
  intros h n sp sh fI ro rd w amp error name res H i Hi. destruct (design_inv _ _ _ _ _ _ _ _ _ _ _ _ _ H) as (r & pI & pC & _ & (P & _) & _).
  unfold deepcopy in P. cbv beta iota in P. destruct (put_spec _ _ _ _ P) as (_ & _ & Q & _). rewrite Q.
  - apply nth_error_app1. exact Hi.
  - intros I. apply in_map_iff in I. destruct I as (k & E & _). lia.
Qed.
(** With fC, its objects hold arrays afterwards ... *)
Lemma design_arrays : forall h n sp sh fI fC ro rd w amp error name res, fC <> [] -> design la around h n sp sh fI fC ro rd w amp error name = Ok res ->
  forall i, In i fC -> has_array (d_heap res) i.
Proof using.
  intros h n sp sh fI fC ro rd w amp error name res NE H i Hi. destruct (design_inv _ _ _ _ _ _ _ _ _ _ _ _ _ H) as (r & pI & pC & _ & P & _).
  destruct fC as [|j t]; [congruence|]. destruct P as (P & _). destruct (put_spec _ _ _ _ P) as (_ & _ & _ & Q). destruct (Q i Hi) as (f & v & _ & _ & E).
  exists (DP (dp_name f) (dp_lhs f) (RhsArr v)), v. auto.
Qed.
(** ... and every later call with one of them fails. *)
Lemma design_array_fails : forall h n sp sh fI fC ro rd w amp error name res i, In i fC -> has_array h i -> design la around h n sp sh fI fC ro rd w amp error name <> Ok res.
Proof using.
  intros h n sp sh fI fC ro rd w amp error name res i Hi A H. destruct (design_inv _ _ _ _ _ _ _ _ _ _ _ _ _ H) as (r & pI & pC & _ & P & _).
  destruct fC as [|j t]; [destruct Hi|]. destruct P as (P & _). exact (put_array _ _ _ _ _ A Hi P).
Qed.
Lemma design_same_again : forall h n sp sh fI fC ro rd w amp error name res, fC <> [] -> design la around h n sp sh fI fC ro rd w amp error name = Ok res ->
  design la around (d_heap res) n sp sh fI fC ro rd w amp error name = Err TypeError.
Proof using.
  intros h n sp sh fI fC ro rd w amp error name res NE H. pose proof (design_arrays _ _ _ _ _ _ _ _ _ _ _ _ _ NE H) as A.
  destruct fC as [|j t]; [congruence|]. destruct (A j (or_introl eq_refl)) as (g & u & Eg & Hu).
  assert (H' := H). unfold design in H. cbv zeta beta iota in H. apply bind_ok in H. destruct H as (i0 & Ei & H). apply bind_ok in H. destruct H as (f0 & Ef & H).
  destruct (teqb (dp_name f0) (T "j2")) eqn:J; [discriminate|]. apply bind_ok in H. destruct H as (r & Er & H). apply bind_ok in H. destruct H as (h1 & Eh & H).
  apply bind_ok in H. destruct H as (pI & EI & H). apply bind_ok in H. destruct H as (pC & EC & H). apply bind_ok in H. destruct H as ([p m] & Eb & H). apply bind_ok in H. destruct H as (d & Ed & H).
  injection H as <-. cbn [d_heap] in *. destruct (put_spec _ _ _ _ Eh) as (_ & Ll & Q1 & Q2).
  unfold design. cbv zeta beta iota. rewrite Ei. cbn [bind]. 
  assert (F : exists f1, nth_res h1 i0 = Ok f1 /\ dp_name f1 = dp_name f0).
  { unfold nth_res in *. destruct (nth_error h i0) as [f'|] eqn:E'; [|discriminate]. injection Ef as ->.
    destruct (in_dec Nat.eq_dec i0 (j :: t)) as [I|I].
    - destruct (Q2 i0 I) as (f & v & E1 & _ & E2). rewrite E2. assert (f = f0) by congruence. subst f. eexists. split; reflexivity.
    - rewrite (Q1 i0 I), E'. eauto. }
  destruct F as (f1 & E1 & N1). rewrite E1. cbn [bind]. rewrite N1, J, Er. cbn [bind put_rhs]. unfold nth_res at 1. rewrite Eg. cbn [bind]. unfold call_rhs. rewrite Hu. reflexivity.
Qed.
(** An object in both lists, or twice in the second, makes the call fail. *)
Lemma design_shared : forall h n sp sh fI fC ro rd w amp error name res i, In i fI -> In i fC -> design la around h n sp sh fI fC ro rd w amp error name <> Ok res.
Proof using.
  intros h n sp sh fI fC ro rd w amp error name res i I1 I2 H. assert (NE : fC <> []) by (destruct fC; [destruct I2|discriminate]).
  destruct (design_arrays _ _ _ _ _ _ _ _ _ _ _ _ _ NE H i I2) as (f & v & Ef & Hv).
  destruct (design_inv _ _ _ _ _ _ _ _ _ _ _ _ _ H) as (r & pI & pC & _ & P & C & _). destruct fC as [|j t]; [congruence|]. destruct P as (_ & P & _).
  destruct (deref_In _ _ _ i P I1) as (g & Eg & Ig). assert (g = f) by congruence. subst g. exact (calc_array _ _ _ _ _ _ _ _ _ _ _ _ Ig Hv C).
Qed.
Lemma design_twice : forall h n sp sh fI fC ro rd w amp error name res, design la around h n sp sh fI fC ro rd w amp error name = Ok res ->
  NoDup (match fC with [] => fI | _ => fC end).
Proof using.
  intros h n sp sh fI fC ro rd w amp error name res H. destruct (design_inv _ _ _ _ _ _ _ _ _ _ _ _ _ H) as (r & pI & pC & _ & P & _). destruct fC as [|j t].
  - unfold deepcopy in P. destruct P as (P & _). destruct (put_spec _ _ _ _ P) as (Q & _). exact (NoDup_map_inv _ _ Q).
  - destruct P as (P & _). exact (proj1 (put_spec _ _ _ _ P)).
Qed.
End Design.

(** ** Calls that succeed *)
Lemma grid_ne : forall s, grid (ls2ar s) <> [].
Proof.
  intros s. destruct s as [x|a b n].
  - rewrite (ls2ar_one (LsFloat x)); [discriminate|exact I].
  - destruct (Nat.lt_ge_cases n 2) as [H|H]; [rewrite (ls2ar_one (LsTuple a b n)); [discriminate|now left]|].
    destruct (Req_EM_T a b) as [E|E]; [rewrite (ls2ar_one (LsTuple a b n)); [discriminate|now right]|].
    destruct (ls2ar_points a b n H E) as (L & _). destruct (grid (ls2ar (LsTuple a b n))); [cbn in L; lia|discriminate].
Qed.
Lemma worst_total : forall d r error amp fC cur, (forall f, In f fC -> exists x, fd_one d r error amp f = Ok x) -> (fC <> [] \/ cur <> None) -> exists c, fd_worst d r error amp fC cur = Ok c.
Proof.
  intros d r error amp. induction fC as [|f t IH]; intros cur H N; cbn [fd_worst].
  - destruct N as [N|N]; [congruence|]. destruct cur; [eauto|congruence].
  - destruct (H f (or_introl eq_refl)) as [x E]. rewrite E. cbn [bind]. apply IH; [intros g Hg; apply H; now right|]. right. destruct cur as [c|]; [destruct (Rltb (snd c) (snd x)); discriminate|discriminate].
Qed.

(** Without fC, design works as with copies of the pairs of fI. *)
Lemma design_default : forall la around h n sp sh fI ro rd w amp error name, fI <> [] ->
  design la around h n sp sh fI [] ro rd w amp error name =
  design la around (h ++ h) n sp sh fI (map (fun i => (List.length h + i)%nat) fI) ro rd w amp error name.
Proof. intros la around h n sp sh fI ro rd w amp error name NE. destruct fI as [|i t]; [congruence|reflexivity]. Qed.

(** The objects of the list are pairs with values everywhere, of different names. *)
Definition good_pairs (h : heap) (fI : list nat) : Prop :=
  (forall i, In i fI -> exists f L G, nth_error h i = Some f /\ pair_ok f L G /\ dp_name f <> T "j2" /\ dp_name f <> T "base") /\
  (forall i j f g, In i fI -> In j fI -> nth_error h i = Some f -> nth_error h j = Some g -> dp_name f = dp_name g -> i = j).

Lemma design_total_fc : forall la around h n sp sh fI fC r l1 l2 fac w amp error name, (0 < n)%nat -> 0 <= fac -> fI <> [] -> fC <> [] -> NoDup fI -> NoDup fC ->
  good_pairs h fI -> (forall i, In i fI -> ~ In i fC) ->
  (forall j, In j fC -> exists g L G i f, nth_error h j = Some g /\ pair_ok g L G /\ In i fI /\ nth_error h i = Some f /\ dp_name g = dp_name f) ->
  r <> [] -> (forall x, In x r -> 0 < x) ->
  let m := Z.to_nat (ztrunc (fac * INR n)) in qr_ok la m n -> solve_ok la (Nat.min m n) n ->
  exists res, design la around h n sp sh fI fC (Some r) (l1, l2, fac) w amp error name = Ok res.
Proof.
  intros la around h n sp sh fI fC r l1 l2 fac w amp error name Hn Hf NE NEC ND NDC [HP HN] DJ HC Nr Pr m HQ HS.
  assert (Lt : forall i, In i fI -> (i < List.length h)%nat). { intros i Hi. destruct (HP i Hi) as (f & _ & _ & E & _). apply nth_error_Some. congruence. }
  assert (LtC : forall i, In i fC -> (i < List.length h)%nat). { intros i Hi. destruct (HC i Hi) as (f & _ & _ & _ & _ & E & _). apply nth_error_Some. congruence. }
  unfold design. replace (match fC with [] => deepcopy h fI | _ :: _ => (h, fC) end) with (h, fC) by (destruct fC; [congruence|reflexivity]). cbv beta iota.
  destruct fI as [|i0 t0] eqn:EF; [congruence|]. rewrite <- EF in *.
  assert (I0 : In i0 fI) by (rewrite EF; now left).
  replace (nth_res fI 0) with (Ok i0) by (rewrite EF; reflexivity). cbn [bind].
  destruct (HP i0 I0) as (f0 & L0 & G0 & E0 & _ & J0 & _). unfold nth_res at 1. rewrite E0. cbn [bind]. rewrite (proj2 (teqb_neq _ _) J0).
  destruct (put_total fC h r NDC) as [h' Eh].
  { intros k Hk. destruct (HC k Hk) as (f & L & Gf & _ & _ & E & (HL & g & Eg & HG) & _).
    exists f, (map Gf r). split; [exact E|]. unfold call_rhs. rewrite Eg. apply mapM_all. auto. }
  rewrite Eh. cbn [bind]. destruct (put_spec _ _ _ _ Eh) as (_ & Lh & Q1 & Q2).
  assert (ES : deref h' fI = deref h fI). { apply deref_same. intros i Hi. apply Q1. now apply DJ. }
  rewrite ES. destruct (deref_total h fI Lt) as [pI EI]. rewrite EI. cbn [bind].
  destruct (deref_total h' fC) as [pC EC]. { intros k Hk. rewrite Lh. now apply LtC. }
  rewrite EC. cbn [bind].
  destruct (deref_spec _ _ _ EI) as [LI PI]. destruct (deref_spec _ _ _ EC) as [LC PC].
  assert (KI : forall f, In f pI -> exists i, In i fI /\ nth_error h i = Some f).
  { intros f I. destruct (In_nth_error _ _ I) as [k Ek]. destruct (nth_error fI k) as [i|] eqn:E; [|apply nth_error_None in E; assert (k < List.length pI)%nat by (apply nth_error_Some; congruence); lia].
    exists i. split; [exact (nth_error_In _ _ E)|]. destruct (PI k i E) as [E1 _]. congruence. }
  assert (HP' : forall f, In f pI -> exists L Gf, pair_ok f L Gf). { intros f I. destruct (KI f I) as (i & Hi & E). destruct (HP i Hi) as (f' & L & Gf & E' & O & _). assert (f' = f) by congruence. subst. eauto. }
  assert (NN : forall f, In f pI -> dp_name f <> T "j2" /\ dp_name f <> T "base"). { intros f I. destruct (KI f I) as (i & Hi & E). destruct (HP i Hi) as (f' & L & Gf & E' & _ & O). assert (f' = f) by congruence. subst. exact O. }
  assert (NDn : NoDup (map dp_name pI)).
  { apply (NoDup_nth (map dp_name pI) []). rewrite map_length. intros a b Ha Hb E.
    assert (Na : exists f, nth_error pI a = Some f) by (destruct (nth_error pI a) eqn:Q; [eauto|apply nth_error_None in Q; lia]).
    assert (Nb : exists f, nth_error pI b = Some f) by (destruct (nth_error pI b) eqn:Q; [eauto|apply nth_error_None in Q; lia]).
    destruct Na as [f Ef]. destruct Nb as [g Eg].
    assert (Ta : exists i, nth_error fI a = Some i) by (destruct (nth_error fI a) eqn:Q; [eauto|apply nth_error_None in Q; lia]).
    assert (Tb : exists i, nth_error fI b = Some i) by (destruct (nth_error fI b) eqn:Q; [eauto|apply nth_error_None in Q; lia]).
    destruct Ta as [i Ei]. destruct Tb as [j Ej]. destruct (PI a i Ei) as [A1 _]. destruct (PI b j Ej) as [B1 _].
    rewrite (nth_error_nth (map dp_name pI) a [] (map_nth_error dp_name a pI Ef)) in E. rewrite (nth_error_nth (map dp_name pI) b [] (map_nth_error dp_name b pI Eg)) in E.
    assert (i = j) by (apply (HN i j f g); [exact (nth_error_In _ _ Ei)|exact (nth_error_In _ _ Ej)|congruence|congruence|exact E]). subst j.
    rewrite NoDup_nth_error in ND. apply ND; [lia|congruence]. }
  assert (HF : forall s1 s2 nm, exists d, calculate_filter la around n s1 s2 pI (l1, l2, fac) w nm = Ok d /\ o_get (T "base") d = Ok (fd_base n s1 s2) /\ forall f, In f pI -> exists x, o_get (dp_name f) d = Ok x).
  { intros s1 s2 nm. destruct (calc_spec la around n s1 s2 pI l1 l2 fac w nm Hn Hf HP' NDn NN HQ HS) as (d & r' & Ed & _ & _ & _ & _ & _ & Eb & _ & X).
    exists d. split; [exact Ed|]. split; [exact Eb|]. intros f I. destruct (HP' f I) as (L & Gf & O). destruct (X f L Gf I O) as (x & Ex & _). eauto. }
  destruct (brute_total (fun p => get_min_val la around n pI pC r (l1, l2, fac) error w amp (fst p) (snd p)) (ls2ar sp) (ls2ar sh) (grid_ne sp) (grid_ne sh)) as (p & mm & Eb).
  { intros s1 s2 _ _. cbn [fst snd]. unfold get_min_val. destruct (HF s1 s2 (T "filt")) as (d & Ed & Ebase & X). rewrite Ed. cbn [bind]. unfold objective.
    destruct (worst_total d r error amp pC None) as [c Ec].
    - intros f I. destruct (In_nth_error _ _ I) as [k Ek]. destruct (nth_error fC k) as [j|] eqn:E; [|apply nth_error_None in E; assert (k < List.length pC)%nat by (apply nth_error_Some; congruence); lia].
      destruct (PC k _ E) as [C1 _]. assert (Hj : In j fC) by exact (nth_error_In _ _ E).
      destruct (Q2 j Hj) as (g & v & Eg & Ev & Eg').
      destruct (HC j Hj) as (g' & L & Gf & i & fi & Eg2 & (HL & _) & Hi & Ei & Nm). assert (g' = g) by congruence. subst g'.
      destruct (HP i Hi) as (fi' & _ & _ & Ei' & _ & J & _). assert (fi' = fi) by congruence. subst fi'.
      assert (Ff : f = DP (dp_name g) (dp_lhs g) (RhsArr v)) by congruence.
      destruct (X fi) as [x Ex]. { destruct (deref_In _ _ _ i EI Hi) as (f1 & E1 & I1). assert (f1 = fi) by congruence. now subst. }
      assert (EO : fd_out d r f = Ok (map (fun ri => Cdiv (dot x (map (fun b => L (b / ri)) (fd_base n s1 s2))) (RtoC ri)) r)).
      { apply (out_spec d r f L (fd_base n s1 s2) x); [exact Ebase|subst f; cbn [dp_name]; rewrite Nm; exact Ex|subst f; cbn [dp_name]; rewrite Nm; exact J|apply base_In|exact Pr|subst f; exact HL]. }
      destruct (one_eq d r error amp f _ v EO) as [O1 _]; [subst f; reflexivity|destruct r; [congruence|discriminate]|intros y Hy; specialize (Pr y Hy); lra|]. eauto.
    - left. intros ->. cbn in LC. destruct fC; [congruence|discriminate LC].
    - rewrite Ec. cbn [bind]. eauto. }
  rewrite Eb. cbn [bind]. destruct (HF (fst (fst (p, mm))) (snd (fst (p, mm))) name) as (d & Ed & _). rewrite Ed. cbn [bind]. eauto.
Qed.
Lemma design_total : forall la around h n sp sh fI r l1 l2 fac w amp error name, (0 < n)%nat -> 0 <= fac -> fI <> [] -> NoDup fI -> good_pairs h fI ->
  r <> [] -> (forall x, In x r -> 0 < x) ->
  let m := Z.to_nat (ztrunc (fac * INR n)) in qr_ok la m n -> solve_ok la (Nat.min m n) n ->
  exists res, design la around h n sp sh fI [] (Some r) (l1, l2, fac) w amp error name = Ok res.
Proof.
  intros la around h n sp sh fI r l1 l2 fac w amp error name Hn Hf NE ND [HP HN] Nr Pr m HQ HS. rewrite design_default by exact NE.
  assert (Lt : forall i, In i fI -> (i < List.length h)%nat). { intros i Hi. destruct (HP i Hi) as (f & _ & _ & E & _). apply nth_error_Some. congruence. }
  assert (G : forall i, In i fI -> nth_error (h ++ h) i = nth_error h i) by (intros i Hi; apply nth_error_app1; now apply Lt).
  apply (design_total_fc la around (h ++ h) n sp sh fI _ r l1 l2 fac w amp error name Hn Hf NE); [destruct fI; [congruence|discriminate]|exact ND| | | | |exact Nr|exact Pr|exact HQ|exact HS].
  - apply FinFun.Injective_map_NoDup; [intros x y Hxy; lia|exact ND].
  - split; [intros i Hi; rewrite (G i Hi); now apply HP|]. intros i j f g Hi Hj. rewrite (G i Hi), (G j Hj). now apply HN.
  - intros i Hi I. apply in_map_iff in I. destruct I as (k & E & _). specialize (Lt i Hi). lia.
  - intros k Hk. apply in_map_iff in Hk. destruct Hk as (i & <- & Hi). destruct (HP i Hi) as (f & L & Gf & E & O & _). exists f, L, Gf, i, f.
    rewrite (G i Hi). rewrite nth_error_app2 by lia. replace (List.length h + i - List.length h)%nat with i by lia. auto.
Qed.
