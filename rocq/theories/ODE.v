(** The layered boundary-value problem as differential equations, and
    uniqueness of its solution for passive media.

    In each layer   P' = e Q,   Q' = w P;
    P and Q are continuous across interfaces, have prescribed jumps at the
    source depth, and vanish at +-infinity.  These are Maxwell's equations for
    one mode after a horizontal Fourier transform (TM: e = etaH,
    w = lambda^2/etaV + zetaH; TE: e = zetaH, w = lambda^2/zetaV + etaH). *)

From Coq Require Import Reals List Bool Lia Lra Psatz.
From Coquelicot Require Import Coquelicot.
From Verif Require Import CBase.
Import ListNotations.
Local Open Scope R_scope.

(** ** Complex-valued functions of a real variable *)

Definition is_deriveC (f : R -> C) (x : R) (l : C) : Prop :=
  is_derive (fun t => fst (f t)) x (fst l) /\ is_derive (fun t => snd (f t)) x (snd l).
Definition limC (f : R -> C) (F : (R -> Prop) -> Prop) (l : C) : Prop :=
  filterlim (fun t => fst (f t)) F (locally (fst l)) /\
  filterlim (fun t => snd (f t)) F (locally (snd l)).
Definition contC (f : R -> C) (x : R) : Prop := limC f (locally x) (f x).

(** Depth x lies strictly inside layer k. *)
Definition in_layer (z : nat -> R) (N k : nat) (x : R) : Prop :=
  (k <= N)%nat /\ (k = 0%nat \/ z k < x) /\ (k = N \/ x < z (S k)).

(** The boundary-value problem with source depth zs and jumps jp, jq. *)
Record bvp (e w : nat -> C) (z : nat -> R) (N : nat) (zs : R) (jp jq : C)
    (P Q : R -> C) : Prop := {
  bvp_P : forall k x, in_layer z N k x -> x <> zs -> is_deriveC P x (Cmult (e k) (Q x));
  bvp_Q : forall k x, in_layer z N k x -> x <> zs -> is_deriveC Q x (Cmult (w k) (P x));
  bvp_c : forall k, (1 <= k <= N)%nat -> z k <> zs -> contC P (z k) /\ contC Q (z k);
  bvp_jP : exists a b, limC P (at_right zs) a /\ limC P (at_left zs) b /\ Cminus a b = jp;
  bvp_jQ : exists a b, limC Q (at_right zs) a /\ limC Q (at_left zs) b /\ Cminus a b = jq;
  bvp_inf : limC P (Rbar_locally p_infty) (RtoC 0) /\ limC Q (Rbar_locally p_infty) (RtoC 0) /\
            limC P (Rbar_locally m_infty) (RtoC 0) /\ limC Q (Rbar_locally m_infty) (RtoC 0)
}.

(** ** Calculus helpers *)

Lemma is_deriveC_plus : forall f h x a b, is_deriveC f x a -> is_deriveC h x b ->
  is_deriveC (fun t => Cplus (f t) (h t)) x (Cplus a b).
Proof.
  intros f h x a b [H1 H2] [H3 H4]. split; simpl.
  - apply (is_derive_plus (fun t => fst (f t)) (fun t => fst (h t))); assumption.
  - apply (is_derive_plus (fun t => snd (f t)) (fun t => snd (h t))); assumption.
Qed.
Lemma is_deriveC_minus : forall f h x a b, is_deriveC f x a -> is_deriveC h x b ->
  is_deriveC (fun t => Cminus (f t) (h t)) x (Cminus a b).
Proof.
  intros f h x a b [H1 H2] [H3 H4]. split; simpl.
  - apply (is_derive_minus (fun t => fst (f t)) (fun t => fst (h t))); assumption.
  - apply (is_derive_minus (fun t => snd (f t)) (fun t => snd (h t))); assumption.
Qed.
Lemma is_deriveC_scal : forall c f x a, is_deriveC f x a ->
  is_deriveC (fun t => Cmult c (f t)) x (Cmult c a).
Proof.
  intros [c d] f x [a b] [H1 H2]. split; simpl.
  - apply (is_derive_minus (fun t => c * fst (f t)) (fun t => d * snd (f t)));
      apply (is_derive_scal _ x); assumption.
  - apply (is_derive_plus (fun t => c * snd (f t)) (fun t => d * fst (f t)));
      apply (is_derive_scal _ x); assumption.
Qed.
Lemma is_deriveC_ext_loc : forall f h x a, locally x (fun t => f t = h t) ->
  is_deriveC f x a -> is_deriveC h x a.
Proof.
  intros f h x a H [H1 H2]. split.
  - apply (is_derive_ext_loc (fun t => fst (f t))); [|assumption].
    eapply filter_imp; [|exact H]. intros t E. simpl. now rewrite E.
  - apply (is_derive_ext_loc (fun t => snd (f t))); [|assumption].
    eapply filter_imp; [|exact H]. intros t E. simpl. now rewrite E.
Qed.
Lemma is_deriveC_unique : forall f x a b, is_deriveC f x a -> is_deriveC f x b -> a = b.
Proof.
  intros f x [a1 a2] [b1 b2] [H1 H2] [H3 H4]. simpl in *.
  apply is_derive_unique in H1, H2, H3, H4. congruence.
Qed.
Lemma is_deriveC_const : forall c x, is_deriveC (fun _ => c) x (RtoC 0).
Proof. intros; split; simpl; apply (is_derive_const (K:=R_AbsRing) (V:=R_NormedModule)). Qed.

Lemma is_deriveC_exp : forall a b x,
  is_deriveC (fun t => Cexp (Cplus (Cmult a (RtoC t)) b)) x
             (Cmult a (Cexp (Cplus (Cmult a (RtoC x)) b))).
Proof.
  intros [a1 a2] [b1 b2] x. split; simpl; auto_derive; trivial; unfold Rminus; ring.
Qed.

Lemma is_deriveC_cont : forall f x a, is_deriveC f x a -> contC f x.
Proof.
  intros f x a [H1 H2]. split.
  - apply (ex_derive_continuous (fun t => fst (f t))). now exists (fst a).
  - apply (ex_derive_continuous (fun t => snd (f t))). now exists (snd a).
Qed.

Section Lim.
Context {F : (R -> Prop) -> Prop} {FF : Filter F}.
Lemma filterlim_Rplus : forall f h (a b : R), filterlim f F (locally a) -> filterlim h F (locally b) ->
  filterlim (fun t => f t + h t) F (locally (a + b)).
Proof.
  intros. eapply filterlim_comp_2; eauto. apply (filterlim_plus (K:=R_AbsRing) (V:=R_NormedModule)).
Qed.
Lemma filterlim_Rmult : forall f h (a b : R), filterlim f F (locally a) -> filterlim h F (locally b) ->
  filterlim (fun t => f t * h t) F (locally (a * b)).
Proof.
  intros. eapply filterlim_comp_2; eauto. apply (filterlim_mult (K:=R_AbsRing)).
Qed.
Lemma filterlim_Rconst : forall (a : R), filterlim (fun _ : R => a) F (locally a).
Proof. intros. apply filterlim_const. Qed.
Lemma filterlim_Ropp : forall f (a : R), filterlim f F (locally a) ->
  filterlim (fun t => - f t) F (locally (- a)).
Proof.
  intros. eapply filterlim_comp; eauto. apply (filterlim_opp (K:=R_AbsRing) (V:=R_NormedModule)).
Qed.
Lemma filterlim_Rminus : forall f h (a b : R), filterlim f F (locally a) -> filterlim h F (locally b) ->
  filterlim (fun t => f t - h t) F (locally (a - b)).
Proof. intros. apply filterlim_Rplus; [|apply filterlim_Ropp]; assumption. Qed.

Lemma limC_plus : forall f h a b, limC f F a -> limC h F b -> limC (fun t => Cplus (f t) (h t)) F (Cplus a b).
Proof. intros f h a b [H1 H2] [H3 H4]. split; apply filterlim_Rplus; assumption. Qed.
Lemma limC_minus : forall f h a b, limC f F a -> limC h F b -> limC (fun t => Cminus (f t) (h t)) F (Cminus a b).
Proof. intros f h a b [H1 H2] [H3 H4]. split; apply filterlim_Rminus; assumption. Qed.
Lemma limC_const : forall c, limC (fun _ => c) F c.
Proof. intros; split; apply filterlim_Rconst. Qed.
Lemma limC_scal : forall c f a, limC f F a -> limC (fun t => Cmult c (f t)) F (Cmult c a).
Proof.
  intros [c d] f [a b] [H1 H2]. split; simpl.
  - apply filterlim_Rminus; apply filterlim_Rmult; auto using filterlim_Rconst.
  - apply filterlim_Rplus; apply filterlim_Rmult; auto using filterlim_Rconst.
Qed.
Lemma limC_ext_loc : forall f h a, F (fun t => f t = h t) -> limC f F a -> limC h F a.
Proof.
  intros f h a H [H1 H2]. split.
  - apply (filterlim_ext_loc (fun t => fst (f t))); [|assumption]. eapply filter_imp; [|exact H]. intros t E. simpl. now rewrite E.
  - apply (filterlim_ext_loc (fun t => snd (f t))); [|assumption]. eapply filter_imp; [|exact H]. intros t E. simpl. now rewrite E.
Qed.
End Lim.

Lemma limC_sub : forall (F G : (R -> Prop) -> Prop) f a, (forall P, G P -> F P) -> limC f G a -> limC f F a.
Proof. intros F G f a H [H1 H2]. split; intros P HP; apply H; [apply H1|apply H2]; exact HP. Qed.

Lemma at_right_locally : forall x (P : R -> Prop), locally x P -> at_right x P.
Proof. intros x P H. unfold at_right, within. eapply filter_imp; [|exact H]. auto. Qed.
Lemma at_left_locally : forall x (P : R -> Prop), locally x P -> at_left x P.
Proof. intros x P H. unfold at_left, within. eapply filter_imp; [|exact H]. auto. Qed.

Lemma limC_unique : forall (F : (R -> Prop) -> Prop) {FF : ProperFilter F} f a b, limC f F a -> limC f F b -> a = b.
Proof.
  intros F FF f [a1 a2] [b1 b2] [H1 H2] [H3 H4]. simpl in *. f_equal.
  - exact (filterlim_locally_unique (K:=R_AbsRing) (V:=R_NormedModule) _ _ _ H1 H3).
  - exact (filterlim_locally_unique (K:=R_AbsRing) (V:=R_NormedModule) _ _ _ H2 H4).
Qed.

(** ** Monotonicity off a finite set *)

Lemma mono_finite : forall (l : list R) (F : R -> R) a b, a <= b ->
  (forall x, a < x < b -> ~ In x l -> exists d, 0 <= d /\ is_derive F x d) ->
  (forall x, a <= x <= b -> continuous F x) -> F a <= F b.
Proof.
  induction l as [|p l IH]; intros F a b Hab Hd Hc.
  - destruct (Req_dec a b) as [->|Hne]; [lra|].
    assert (Hex : forall c, a < c < b -> ex_derive F c).
    { intros c Hcc. destruct (Hd c Hcc (fun H => H)) as [d [_ H]]. now exists d. }
    destruct (MVT F id a b (fun c Hcc => ex_derive_Reals_0 F c (Hex c Hcc))
                (fun c _ => derivable_pt_id c)) as [c [Hcc E]].
    + lra.
    + intros c Hcc. apply continuity_pt_filterlim. apply Hc; exact Hcc.
    + intros c Hcc. apply derivable_continuous_pt, derivable_pt_id.
    + rewrite derive_pt_id in E. rewrite Derive_Reals in E. unfold id in E.
      destruct (Hd c Hcc (fun H => H)) as [d [Hd0 H]]. apply is_derive_unique in H. rewrite H in E. nra.
  - destruct (Rlt_dec a p) as [Hap|Hap].
    + destruct (Rlt_dec p b) as [Hpb|Hpb].
      * apply Rle_trans with (F p).
        -- apply IH; [lra| |intros; apply Hc; lra].
           intros x Hx Hn. apply Hd; [lra|]. intros [E|E]; [lra|contradiction].
        -- apply IH; [lra| |intros; apply Hc; lra].
           intros x Hx Hn. apply Hd; [lra|]. intros [E|E]; [lra|contradiction].
      * apply IH; auto. intros x Hx Hn. apply Hd; auto. intros [E|E]; [lra|contradiction].
    + apply IH; auto. intros x Hx Hn. apply Hd; auto. intros [E|E]; [lra|contradiction].
Qed.

(** ** Uniqueness *)

Lemma layer_of : forall (z : nat -> R) N x, (forall k, (1 <= k <= N)%nat -> x <> z k) ->
  exists k, in_layer z N k x.
Proof.
  intros z N x H.
  assert (A : forall n, (n <= N)%nat -> exists k, (k <= n)%nat /\ (k = 0%nat \/ z k < x) /\
     (forall j, (k < j <= n)%nat -> x < z j)).
  { induction n; intros Hn.
    - exists 0%nat. repeat split; [lia|left; reflexivity|intros; lia].
    - destruct (IHn ltac:(lia)) as [k [H1 [H2 H3]]].
      destruct (Rlt_dec (z (S n)) x) as [L|L].
      + exists (S n). repeat split; [lia|right; exact L|intros; lia].
      + exists k. repeat split; [lia|exact H2|]. intros j Hj.
        destruct (Nat.eq_dec j (S n)) as [->|].
        * pose proof (H (S n) ltac:(lia)). lra.
        * apply H3. lia. }
  destruct (A N (le_n N)) as [k [H1 [H2 H3]]]. exists k. split; [exact H1|split; [exact H2|]].
  destruct (Nat.eq_dec k N); [left; assumption|right; apply H3; lia].
Qed.

Lemma in_layer_open : forall z N k x, in_layer z N k x -> locally x (in_layer z N k).
Proof.
  intros z N k x [Hk [H1 H2]]. unfold in_layer.
  apply filter_and; [apply filter_forall; auto|]. apply filter_and.
  - destruct H1 as [H1|H1]; [apply filter_forall; auto|].
    eapply filter_imp; [|apply (open_gt (z k)); exact H1]. intros t Ht. right. exact Ht.
  - destruct H2 as [H2|H2]; [apply filter_forall; auto|].
    eapply filter_imp; [|apply (open_lt (z (S k))); exact H2]. intros t Ht. right. exact Ht.
Qed.

Lemma neq_open : forall x c : R, x <> c -> locally x (fun t => t <> c).
Proof. intros x c H. apply (open_neq c). exact H. Qed.

(** Interface points. *)
Definition ifaces (z : nat -> R) (N : nat) : list R := map z (seq 1 N).
Lemma in_ifaces : forall z N x, ~ In x (ifaces z N) -> forall k, (1 <= k <= N)%nat -> x <> z k.
Proof.
  intros z N x H k Hk E. apply H. unfold ifaces. apply in_map_iff. exists k.
  split; [auto|]. apply in_seq. lia.
Qed.
Lemma ifaces_in : forall z N x, In x (ifaces z N) -> exists k, (1 <= k <= N)%nat /\ x = z k.
Proof.
  intros z N x H. unfold ifaces in H. apply in_map_iff in H. destruct H as [k [E H]].
  apply in_seq in H. exists k. split; [lia|auto].
Qed.

Lemma glue_cont : forall (f : R -> R) c l, filterlim f (at_right c) (locally l) ->
  filterlim f (at_left c) (locally l) ->
  filterlim (fun x => if Req_EM_T x c then l else f x) (locally c) (locally l).
Proof.
  intros f c l Hr Hl P HP. specialize (Hr P HP). specialize (Hl P HP).
  unfold filtermap, at_right, at_left, within in *.
  eapply filter_imp; [|exact (filter_and _ _ Hr Hl)]. intros x [H1 H2]. simpl in *.
  destruct (Req_EM_T x c) as [->|Hne].
  - apply locally_singleton. exact HP.
  - destruct (Rlt_dec x c); [apply H2; assumption|apply H1; lra].
Qed.

Section Unique.
Variables (e w : nat -> C) (z : nat -> R) (N : nat) (zs : R).
Hypothesis He : forall k, (k <= N)%nat -> 0 <= fst (e k).
Hypothesis Hw : forall k, (k <= N)%nat -> 0 <= fst (w k).
Hypothesis Hew : forall k, (k <= N)%nat -> 0 < fst (e k) + fst (w k).
Hypothesis He0 : forall k, (k <= N)%nat -> e k <> RtoC 0.
Hypothesis Hw0 : forall k, (k <= N)%nat -> w k <> RtoC 0.
Variables (jp jq : C) (P1 Q1 P2 Q2 : R -> C).
Hypothesis S1 : bvp e w z N zs jp jq P1 Q1.
Hypothesis S2 : bvp e w z N zs jp jq P2 Q2.

Let p x := Cminus (P1 x) (P2 x).
Let q x := Cminus (Q1 x) (Q2 x).

Lemma d_P : forall k x, in_layer z N k x -> x <> zs -> is_deriveC p x (Cmult (e k) (q x)).
Proof.
  intros k x Hk Hx. unfold p, q. replace (Cmult (e k) (Cminus (Q1 x) (Q2 x)))
    with (Cminus (Cmult (e k) (Q1 x)) (Cmult (e k) (Q2 x))) by ring.
  apply is_deriveC_minus; [eapply bvp_P|eapply bvp_P]; eauto.
Qed.
Lemma d_Q : forall k x, in_layer z N k x -> x <> zs -> is_deriveC q x (Cmult (w k) (p x)).
Proof.
  intros k x Hk Hx. unfold p, q. replace (Cmult (w k) (Cminus (P1 x) (P2 x)))
    with (Cminus (Cmult (w k) (P1 x)) (Cmult (w k) (P2 x))) by ring.
  apply is_deriveC_minus; [eapply bvp_Q|eapply bvp_Q]; eauto.
Qed.

Lemma lim_at_src : forall (f1 f2 : R -> C) j,
  (exists a b, limC f1 (at_right zs) a /\ limC f1 (at_left zs) b /\ Cminus a b = j) ->
  (exists a b, limC f2 (at_right zs) a /\ limC f2 (at_left zs) b /\ Cminus a b = j) ->
  exists l, limC (fun x => Cminus (f1 x) (f2 x)) (at_right zs) l /\
            limC (fun x => Cminus (f1 x) (f2 x)) (at_left zs) l.
Proof.
  intros f1 f2 j [a1 [b1 [R1 [L1 E1]]]] [a2 [b2 [R2 [L2 E2]]]].
  exists (Cminus a1 a2). split; [now apply limC_minus|].
  replace (Cminus a1 a2) with (Cminus b1 b2).
  - now apply limC_minus.
  - transitivity (Cplus (Cminus b1 b2) (Cminus (Cminus a1 b1) (Cminus a2 b2))).
    + rewrite E1, E2. ring.
    + ring.
Qed.

Lemma bvp_unique_aux : forall x, (forall k, (1 <= k <= N)%nat -> x <> z k) -> x <> zs ->
  p x = RtoC 0 /\ q x = RtoC 0.
Proof.
  destruct (lim_at_src P1 P2 jp (bvp_jP _ _ _ _ _ _ _ _ _ S1) (bvp_jP _ _ _ _ _ _ _ _ _ S2)) as [lp [Rp Lp]].
  destruct (lim_at_src Q1 Q2 jq (bvp_jQ _ _ _ _ _ _ _ _ _ S1) (bvp_jQ _ _ _ _ _ _ _ _ _ S2)) as [lq [Rq Lq]].
  fold p in Rp, Lp. fold q in Rq, Lq.
  set (p1 := fun x => if Req_EM_T x zs then fst lp else fst (p x)).
  set (p2 := fun x => if Req_EM_T x zs then snd lp else snd (p x)).
  set (q1 := fun x => if Req_EM_T x zs then fst lq else fst (q x)).
  set (q2 := fun x => if Req_EM_T x zs then snd lq else snd (q x)).
  set (F := fun x => p1 x * q1 x + p2 x * q2 x).
  assert (OFF : forall x, x <> zs -> locally x (fun t => t <> zs)) by (intros; now apply neq_open).
  assert (EXT : forall (f : R -> R) c x, x <> zs ->
     locally x (fun t => f t = (if Req_EM_T t zs then c else f t))).
  { intros f c x Hx. eapply filter_imp; [|apply OFF; exact Hx]. intros t Ht.
    destruct (Req_EM_T t zs); [contradiction|reflexivity]. }
  assert (AT : forall (f : R -> R) c x, x <> zs -> (if Req_EM_T x zs then c else f x) = f x).
  { intros f c x Hx. destruct (Req_EM_T x zs); [contradiction|reflexivity]. }
  (* derivative of F *)
  assert (DF : forall k x, in_layer z N k x -> x <> zs ->
     is_derive F x (fst (e k) * (fst (q x) * fst (q x) + snd (q x) * snd (q x))
                    + fst (w k) * (fst (p x) * fst (p x) + snd (p x) * snd (p x)))).
  { intros k x Hk Hx. destruct (d_P k x Hk Hx) as [A1 A2]. destruct (d_Q k x Hk Hx) as [B1 B2].
    assert (A1' : is_derive p1 x (fst (Cmult (e k) (q x)))).
    { eapply is_derive_ext_loc; [|exact A1]. apply (EXT (fun t => fst (p t))); exact Hx. }
    assert (A2' : is_derive p2 x (snd (Cmult (e k) (q x)))).
    { eapply is_derive_ext_loc; [|exact A2]. apply (EXT (fun t => snd (p t))); exact Hx. }
    assert (B1' : is_derive q1 x (fst (Cmult (w k) (p x)))).
    { eapply is_derive_ext_loc; [|exact B1]. apply (EXT (fun t => fst (q t))); exact Hx. }
    assert (B2' : is_derive q2 x (snd (Cmult (w k) (p x)))).
    { eapply is_derive_ext_loc; [|exact B2]. apply (EXT (fun t => snd (q t))); exact Hx. }
    pose proof (is_derive_plus (K:=R_AbsRing) (V:=R_NormedModule) _ _ _ _ _
      (is_derive_mult _ _ x _ _ A1' B1' Rmult_comm) (is_derive_mult _ _ x _ _ A2' B2' Rmult_comm)) as D.
    unfold F. match type of D with is_derive _ _ ?d => match goal with |- is_derive _ _ ?d' =>
      replace d' with d end end. 1: exact D.
    unfold plus, mult; simpl. unfold p1, p2, q1, q2.
    rewrite !(AT (fun t => fst (q t))), !(AT (fun t => snd (q t))),
            !(AT (fun t => fst (p t))), !(AT (fun t => snd (p t))) by exact Hx.
    match goal with |- ?a = ?b => change (@eq R a b) end. unfold p, q; simpl. ring. }
  (* continuity *)
  assert (CC : forall x, continuous p1 x /\ continuous p2 x /\ continuous q1 x /\ continuous q2 x).
  { intros x. destruct (Req_EM_T x zs) as [->|Hx].
    - unfold continuous, p1, p2, q1, q2. destruct (Req_EM_T zs zs) as [_|]; [|contradiction].
      destruct Rp, Lp, Rq, Lq.
      repeat split.
      + apply (glue_cont (fun t => fst (p t))); assumption.
      + apply (glue_cont (fun t => snd (p t))); assumption.
      + apply (glue_cont (fun t => fst (q t))); assumption.
      + apply (glue_cont (fun t => snd (q t))); assumption.
    - assert (K : contC p x /\ contC q x).
      { destruct (in_dec Req_EM_T x (ifaces z N)) as [Hi|Hi].
        - apply ifaces_in in Hi. destruct Hi as [k [Hk ->]].
          destruct (bvp_c _ _ _ _ _ _ _ _ _ S1 k Hk Hx) as [C1 C2].
          destruct (bvp_c _ _ _ _ _ _ _ _ _ S2 k Hk Hx) as [C3 C4].
          split; apply limC_minus; assumption.
        - destruct (layer_of z N x (in_ifaces z N x Hi)) as [k Hk].
          split; [eapply is_deriveC_cont, (d_P k)|eapply is_deriveC_cont, (d_Q k)]; assumption. }
      destruct K as [[K1 K2] [K3 K4]].
      repeat split; eapply continuous_ext_loc.
      + apply (EXT (fun t => fst (p t))); exact Hx.
      + exact K1.
      + apply (EXT (fun t => snd (p t))); exact Hx.
      + exact K2.
      + apply (EXT (fun t => fst (q t))); exact Hx.
      + exact K3.
      + apply (EXT (fun t => snd (q t))); exact Hx.
      + exact K4. }
  assert (CF : forall x, continuous F x).
  { intros x. destruct (CC x) as [C1 [C2 [C3 C4]]].
    apply (continuous_plus (fun t => p1 t * q1 t) (fun t => p2 t * q2 t));
      apply (continuous_mult (K:=R_AbsRing)); assumption. }
  assert (MONO : forall a b, a <= b -> F a <= F b).
  { intros a b Hab. apply (mono_finite (zs :: ifaces z N)); [exact Hab| |intros; apply CF].
    intros x Hx Hn. destruct (layer_of z N x) as [k Hk].
    { apply in_ifaces. intro; apply Hn; right; assumption. }
    eexists. split; [|apply (DF k x Hk); intro; apply Hn; left; auto].
    pose proof (He k (proj1 Hk)). pose proof (Hw k (proj1 Hk)).
    apply Rplus_le_le_0_compat; apply Rmult_le_pos; try assumption; nra. }
  (* limits at infinity *)
  destruct (bvp_inf _ _ _ _ _ _ _ _ _ S1) as [I1 [I2 [I3 I4]]].
  destruct (bvp_inf _ _ _ _ _ _ _ _ _ S2) as [J1 [J2 [J3 J4]]].
  assert (LF : forall G, Filter G -> G (fun x => x <> zs) -> limC p G (Cminus (RtoC 0) (RtoC 0)) ->
     limC q G (Cminus (RtoC 0) (RtoC 0)) -> filterlim F G (locally 0)).
  { intros G HG Hoff [A1 A2] [B1 B2].
    replace 0 with (0 * 0 + 0 * 0) by ring.
    apply (filterlim_ext_loc (fun t => fst (p t) * fst (q t) + snd (p t) * snd (q t))).
    - eapply filter_imp; [|exact Hoff]. intros t Ht. unfold F, p1, p2, q1, q2.
      destruct (Req_EM_T t zs); [contradiction|reflexivity].
    - simpl in A1, A2, B1, B2. replace (0 + - 0) with 0 in * by ring.
      apply filterlim_Rplus; apply filterlim_Rmult; assumption. }
  assert (LP : filterlim F (Rbar_locally p_infty) (locally 0)).
  { apply LF; try typeclasses eauto.
    - exists zs. intros t Ht. lra.
    - unfold p. apply limC_minus; assumption.
    - unfold q. apply limC_minus; assumption. }
  assert (LM : filterlim F (Rbar_locally m_infty) (locally 0)).
  { apply LF; try typeclasses eauto.
    - exists zs. intros t Ht. lra.
    - unfold p. apply limC_minus; assumption.
    - unfold q. apply limC_minus; assumption. }
  assert (F0 : forall x, F x = 0).
  { intros x. apply Rle_antisym; apply Rnot_lt_le; intro Hpos.
    - destruct (LP (fun v => v < F x)) as [M HM].
      { apply (open_lt (F x)). exact Hpos. }
      specialize (HM (Rmax M x + 1)). pose proof (Rmax_l M x). pose proof (Rmax_r M x).
      specialize (HM ltac:(lra)). pose proof (MONO x (Rmax M x + 1) ltac:(lra)). lra.
    - destruct (LM (fun v => F x < v)) as [M HM].
      { apply (open_gt (F x)). exact Hpos. }
      specialize (HM (Rmin M x - 1)). pose proof (Rmin_l M x). pose proof (Rmin_r M x).
      specialize (HM ltac:(lra)). pose proof (MONO (Rmin M x - 1) x ltac:(lra)). lra. }
  assert (Z0 : forall k x, in_layer z N k x -> x <> zs ->
     fst (e k) * (fst (q x) * fst (q x) + snd (q x) * snd (q x)) = 0 /\
     fst (w k) * (fst (p x) * fst (p x) + snd (p x) * snd (p x)) = 0).
  { intros k x Hk Hx. pose proof (DF k x Hk Hx) as D.
    assert (D0 : is_derive F x 0).
    { apply (is_derive_ext (fun _ => 0)); [intros; now rewrite F0|].
      apply (is_derive_const (K:=R_AbsRing) (V:=R_NormedModule)). }
    apply is_derive_unique in D. apply is_derive_unique in D0. rewrite D in D0.
    pose proof (He k (proj1 Hk)). pose proof (Hw k (proj1 Hk)).
    assert (0 <= fst (e k) * (fst (q x) * fst (q x) + snd (q x) * snd (q x))) by (apply Rmult_le_pos; nra).
    assert (0 <= fst (w k) * (fst (p x) * fst (p x) + snd (p x) * snd (p x))) by (apply Rmult_le_pos; nra).
    split; lra. }
  assert (SQ0 : forall (a : C), fst a * fst a + snd a * snd a = 0 -> a = RtoC 0).
  { intros [a b] H. simpl in H. unfold RtoC. f_equal; nra. }
  intros x Hx1 Hx2. destruct (layer_of z N x Hx1) as [k Hk].
  assert (NB : locally x (fun t => in_layer z N k t /\ t <> zs)).
  { apply filter_and; [now apply in_layer_open|now apply OFF]. }
  pose proof (Hew k (proj1 Hk)) as Hpos.
  destruct (Rlt_dec 0 (fst (e k))) as [Ep|Ep].
  - assert (Q0 : forall t, in_layer z N k t -> t <> zs -> q t = RtoC 0).
    { intros t Ht1 Ht2. destruct (Z0 k t Ht1 Ht2) as [A _]. apply SQ0.
      apply Rmult_integral in A. destruct A; [lra|assumption]. }
    split; [|apply Q0; assumption].
    assert (D1 : is_deriveC q x (RtoC 0)).
    { apply (is_deriveC_ext_loc (fun _ => RtoC 0)); [|apply is_deriveC_const].
      eapply filter_imp; [|exact NB]. intros t [T1 T2]. symmetry. apply Q0; assumption. }
    pose proof (is_deriveC_unique _ _ _ _ (d_Q k x Hk Hx2) D1) as E.
    destruct (Ceq_dec (p x) (RtoC 0)) as [|Hne]; [assumption|].
    exfalso. exact (Cmult_neq_0 _ _ (Hw0 k (proj1 Hk)) Hne E).
  - assert (Wp : 0 < fst (w k)) by lra.
    assert (P0 : forall t, in_layer z N k t -> t <> zs -> p t = RtoC 0).
    { intros t Ht1 Ht2. destruct (Z0 k t Ht1 Ht2) as [_ A]. apply SQ0.
      apply Rmult_integral in A. destruct A; [lra|assumption]. }
    split; [apply P0; assumption|].
    assert (D1 : is_deriveC p x (RtoC 0)).
    { apply (is_deriveC_ext_loc (fun _ => RtoC 0)); [|apply is_deriveC_const].
      eapply filter_imp; [|exact NB]. intros t [T1 T2]. symmetry. apply P0; assumption. }
    pose proof (is_deriveC_unique _ _ _ _ (d_P k x Hk Hx2) D1) as E.
    destruct (Ceq_dec (q x) (RtoC 0)) as [|Hne]; [assumption|].
    exfalso. exact (Cmult_neq_0 _ _ (He0 k (proj1 Hk)) Hne E).
Qed.

(** Two solutions agree at every depth that is neither an interface nor the
    source depth. *)
Theorem bvp_unique : forall x, (forall k, (1 <= k <= N)%nat -> x <> z k) -> x <> zs ->
  P1 x = P2 x /\ Q1 x = Q2 x.
Proof.
  intros x H1 H2. destruct (bvp_unique_aux x H1 H2) as [A B]. unfold p, q in A, B.
  split.
  - transitivity (Cplus (Cminus (P1 x) (P2 x)) (P2 x)); [ring|]. rewrite A. ring.
  - transitivity (Cplus (Cminus (Q1 x) (Q2 x)) (Q2 x)); [ring|]. rewrite B. ring.
Qed.
End Unique.
