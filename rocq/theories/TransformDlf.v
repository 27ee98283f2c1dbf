(** Digital linear filter: closed forms of the three variants (C14-C16). *)

From Coq Require Import ZArith Reals List Bool String Lia Lra Psatz.
From Coquelicot Require Import Coquelicot.
From Verif Require Import PyBase CBase Kernel Utils UtilsLayer Transform.
Import ListNotations.
Local Open Scope R_scope.
Local Open Scope C_scope.
Local Open Scope res_scope.

(** ** Specification *)

(** sum_j w_j f(b_j/r) *)
Fixpoint fsum (w base : list R) (k : R -> C) (r : R) : C :=
  match w, base with
  | x :: w', b :: base' => Cplus (Cmult (k (b / r)%R) (RtoC x)) (fsum w' base' k r)
  | _, _ => RtoC 0
  end.

Definition j2_components : list Z := [11; 12; 21; 22; 14; 24; 15; 25]%Z.

(** The three kernels as functions of the wavenumber; a kernel that is not used counts as zero. *)
Definition part_of (p : triple -> option C) (K : R -> triple) (l : R) : C := oval (p (K l)).

(** angle-independent and angle-dependent filter sums at offset [r] *)
Definition sum_noang (filt : dfilter) (K : R -> triple) (r : R) : C :=
  fsum (f_j0 filt) (f_base filt) (part_of t0 K) r.
Definition sum_ang (filt : dfilter) (ab : Z) (K : R -> triple) (r : R) : C :=
  let s := fsum (f_j1 filt) (f_base filt) (part_of t1 K) r in
  Cplus (if inb ab j2_components then Cdiv s (RtoC r) else s)
        (fsum (f_j0 filt) (f_base filt) (part_of t0b K) r).

(** the response at offset [r] with angle factor [a] *)
Definition dlf_value (filt : dfilter) (ab : Z) (K : R -> triple) (r a : R) : C :=
  Cdiv (Cplus (sum_noang filt K r) (Cmult (RtoC a) (sum_ang filt ab K r))) (RtoC r).

Definition pattern (K : R -> triple) (used : bool * bool * bool) : Prop :=
  let '(u0, u1, u0b) := used in
  forall l, isSome (t0 (K l)) = u0 /\ isSome (t1 (K l)) = u1 /\ isSome (t0b (K l)) = u0b.

Definition some_used (used : bool * bool * bool) : bool :=
  let '(u0, u1, u0b) := used in u0 || u1 || u0b.

Definition well_formed (filt : dfilter) : Prop :=
  List.length (f_j0 filt) = List.length (f_base filt) /\
  List.length (f_j1 filt) = List.length (f_base filt) /\
  List.Forall (fun b => 0 < b) (f_base filt).

(** ** Lists *)

Lemma mapM_ok : forall X Y (f : X -> res Y) (g : X -> Y) (l : list X),
  (forall x, In x l -> f x = Ok (g x)) -> mapM f l = Ok (map g l).
Proof.
  induction l as [|x l IH]; intros H; [reflexivity|]. simpl.
  rewrite (H x (or_introl eq_refl)). simpl. rewrite IH; [reflexivity|].
  intros y Hy. apply H. now right.
Qed.

Lemma map2_mm : forall X A B D (F : A -> B -> D) (f : X -> A) (g : X -> B) (l : list X),
  map2 F (map f l) (map g l) = map (fun x => F (f x) (g x)) l.
Proof. induction l; [reflexivity|]. unfold map2 in *. simpl. now f_equal. Qed.

Lemma map2_ml : forall A B D (F : A -> B -> D) (f : B -> A) (l : list B),
  map2 F (map f l) l = map (fun x => F (f x) x) l.
Proof. intros. rewrite <- (map_id l) at 2. apply map2_mm. Qed.

Lemma czeros_map : forall X (l : list X) n, n = List.length l -> czeros n = map (fun _ => RtoC 0) l.
Proof. induction l; intros n ->; simpl; [reflexivity|]. unfold czeros in *. simpl. f_equal. now apply IHl. Qed.

Lemma combine_fst : forall A B (a : list A) (b : list B), List.length a = List.length b ->
  map fst (combine a b) = a.
Proof. induction a; intros [|y b] H; simpl in *; try discriminate; [reflexivity|]. f_equal. apply IHa. lia. Qed.
Lemma combine_snd : forall A B (a : list A) (b : list B), List.length a = List.length b ->
  map snd (combine a b) = b.
Proof. induction a; intros [|y b] H; simpl in *; try discriminate; [reflexivity|]. f_equal. apply IHa. lia. Qed.

Lemma dot_fsum : forall w base k r, List.length w = List.length base ->
  dot w (map (fun b => k (b / r)%R) base) = fsum w base k r.
Proof.
  induction w as [|x w IH]; intros [|b base] k r H; simpl in *; try discriminate; [reflexivity|].
  unfold dot in *. unfold map2 in *. simpl. f_equal. apply IH. lia.
Qed.

Lemma fsum_0 : forall w base k r, (forall l, k l = RtoC 0) -> fsum w base k r = RtoC 0.
Proof.
  induction w as [|x w IH]; intros [|b base] k r H; simpl; auto.
  rewrite H, IH by auto. rewrite Cmult_0_l. apply Cplus_0_l.
Qed.

Lemma fsum_ext : forall w base k k' r, (forall b, In b base -> k (b / r)%R = k' (b / r)%R) ->
  fsum w base k r = fsum w base k' r.
Proof.
  induction w as [|x w IH]; intros [|b base] k k' r H; simpl; auto.
  rewrite H by (now left). f_equal. apply IH. intros; apply H; now right.
Qed.

(** ** Minimum and maximum *)
Lemma fold_min_le : forall t x, fold_left Rmin t x <= x /\ forall y, In y t -> fold_left Rmin t x <= y.
Proof.
  induction t as [|z t IH]; intros x; simpl; [split; [lra|contradiction]|].
  destruct (IH (Rmin x z)) as [A B]. split.
  - eapply Rle_trans; [exact A|apply Rmin_l].
  - intros y [-> | Hy]; [|now apply B]. eapply Rle_trans; [exact A|apply Rmin_r].
Qed.
Lemma fold_max_ge : forall t x, x <= fold_left Rmax t x /\ forall y, In y t -> y <= fold_left Rmax t x.
Proof.
  induction t as [|z t IH]; intros x; simpl; [split; [lra|contradiction]|].
  destruct (IH (Rmax x z)) as [A B]. split.
  - eapply Rle_trans; [apply Rmax_l|exact A].
  - intros y [-> | Hy]; [|now apply B]. eapply Rle_trans; [apply Rmax_r|exact A].
Qed.
Lemma fold_min_in : forall t x, In (fold_left Rmin t x) (x :: t).
Proof.
  induction t as [|z t IH]; intros x; simpl; [now left|].
  destruct (IH (Rmin x z)) as [E | E]; [|now right; right].
  rewrite <- E. unfold Rmin. destruct (Rle_dec x z); auto.
Qed.
Lemma fold_max_in : forall t x, In (fold_left Rmax t x) (x :: t).
Proof.
  induction t as [|z t IH]; intros x; simpl; [now left|].
  destruct (IH (Rmax x z)) as [E | E]; [|now right; right].
  rewrite <- E. unfold Rmax. destruct (Rle_dec x z); auto.
Qed.
Lemma lmin_spec : forall (l : list R), l <> [] -> exists m, lmin l = Ok m /\ In m l /\ forall y, In y l -> m <= y.
Proof.
  intros [|x t] H; [congruence|]. exists (fold_left Rmin t x). split; [reflexivity|]. split; [apply fold_min_in|].
  destruct (fold_min_le t x) as [A B]. intros y [<- | Hy]; auto.
Qed.
Lemma lmax_spec : forall (l : list R), l <> [] -> exists m, lmax l = Ok m /\ In m l /\ forall y, In y l -> y <= m.
Proof.
  intros [|x t] H; [congruence|]. exists (fold_left Rmax t x). split; [reflexivity|]. split; [apply fold_max_in|].
  destruct (fold_max_ge t x) as [A B]. intros y [<- | Hy]; auto.
Qed.

(** ** Angle cases *)
Lemma Reqb_true : forall a b, Reqb a b = true -> a = b.
Proof. intros a b. unfold Reqb. destruct (Req_EM_T a b); [auto|discriminate]. Qed.
Lemma Reqb_refl : forall a, Reqb a a = true.
Proof. intros a. unfold Reqb. destruct (Req_EM_T a a); [auto|congruence]. Qed.
Lemma Reqb_false : forall a b, a <> b -> Reqb a b = false.
Proof. intros a b H. unfold Reqb. destruct (Req_EM_T a b); [congruence|auto]. Qed.
Lemma Rltb_true : forall a b, a < b -> Rltb a b = true.
Proof. intros a b H. unfold Rltb. destruct (Rlt_dec a b); [auto|contradiction]. Qed.
Lemma Rltb_false : forall a b, b <= a -> Rltb a b = false.
Proof. intros a b H. unfold Rltb. destruct (Rlt_dec a b); [lra|auto]. Qed.

Definition vmul (v : list C) (l : list R) : list C := map2 (fun x s => Cmult x (RtoC s)) v l.

Lemma angle_case_spec : forall (l : list R), l <> [] ->
  exists one has a, angle_case (Some l) = Ok (Some one, has, a) /\
  (one = true -> exists a0, (forall y, In y l -> y = a0) /\
      forall v, (if has then ang_mul a v else v) = map (fun x => Cmult x (RtoC a0)) v) /\
  (one = false -> has = true /\ a = inr l).
Proof.
  intros l Hl. simpl.
  destruct (lmin_spec l Hl) as [mn [-> [Imn Hmn]]]. destruct (lmax_spec l Hl) as [mx [-> [Imx Hmx]]]. simpl.
  unfold Reqb at 1. destruct (Req_EM_T mn mx) as [E | E].
  - destruct l as [|x t]; [congruence|].
    change 0%Z with (Z.of_nat 0). rewrite (idx_nth _ _ 0%nat 0%R) by (simpl; lia). simpl.
    exists true, (negb (Reqb x 1)), (inl x). split; [reflexivity|]. split; [|discriminate].
    intros _. exists x.
    assert (A : forall y, In y (x :: t) -> y = mn).
    { intros y Hy. pose proof (Hmn y Hy). pose proof (Hmx y Hy). lra. }
    split; [intros y Hy; rewrite (A y Hy), (A x (or_introl eq_refl)); reflexivity|].
    intros v. unfold Reqb. destruct (Req_EM_T x 1) as [-> | N]; simpl; [|reflexivity].
    induction v as [|y v IH]; [reflexivity|]. simpl. f_equal; [now rewrite Cmult_1_r|exact IH].
  - exists false, true, (inr l). split; [reflexivity|]. split; [discriminate|auto].
Qed.

Lemma vmul_const : forall (l : list R) a0 v, (forall y, In y l -> y = a0) -> List.length v = List.length l ->
  vmul v l = map (fun x => Cmult x (RtoC a0)) v.
Proof.
  induction l as [|y l IH]; intros a0 [|x v] H L; simpl in *; try discriminate; [reflexivity|].
  unfold vmul, map2 in *. simpl. rewrite (H y) by auto. f_equal. apply IH; auto.
Qed.

(** ** The sum of all parts *)
Section Closed.
Context {X : Type}.
Variables (filt : dfilter) (ab : Z) (l : list X) (ro an : X -> R).
Variables (row0 row1 row0b : X -> list C) (u0 u1 u0b : bool).

Definition mk (u : bool) (row : X -> list C) : option (list (list C)) :=
  if u then Some (map row l) else None.

Definition A_ (x : X) : C :=
  let s := if u1 then dot (f_j1 filt) (row1 x) else RtoC 0 in
  Cplus (if inb ab j2_components then Cdiv s (RtoC (ro x)) else s)
        (if u0b then dot (f_j0 filt) (row0b x) else RtoC 0).
Definition N_ (x : X) : C := if u0 then dot (f_j0 filt) (row0 x) else RtoC 0.

Lemma Cdiv_0_l : forall z, Cdiv (RtoC 0) z = RtoC 0.
Proof. intros; unfold Cdiv; apply Cmult_0_l. Qed.

Lemma dlf_ang_closed : forall n, n = List.length l ->
  dlf_ang filt ab (map ro l) n (mk u1 row1) (mk u0b row0b) = map A_ l.
Proof.
  intros n Hn. unfold dlf_ang, A_, mk, j2_components, vadd, vdivr. rewrite (czeros_map _ l n Hn).
  destruct u1, u0b; rewrite ?map_map; destruct (inb ab _); rewrite ?map2_mm; apply map_ext; intros x;
    rewrite ?Cdiv_0_l, ?Cplus_0_r, ?Cplus_0_l; reflexivity.
Qed.

Lemma dlf_noang_closed : forall n, n = List.length l ->
  dlf_noang filt n (mk u0 row0) = map N_ l.
Proof.
  intros n Hn. unfold dlf_noang, mk, N_. destruct u0; [apply map_map|now apply czeros_map].
Qed.

Lemma dlf_comb_closed : forall n has0 a, n = List.length l ->
  (forall v, List.length v = List.length l -> (if (has0 : bool) then ang_mul a v else v) = vmul v (map an l)) ->
  dlf_comb filt ab (map ro l) n (has0 && (isSome (mk u1 row1) || isSome (mk u0b row0b))) a (mk u0 row0) (mk u1 row1) (mk u0b row0b)
  = map (fun x => Cplus (N_ x) (Cmult (RtoC (an x)) (A_ x))) l.
Proof.
  intros n has0 a Hn Hm. unfold dlf_comb. rewrite (dlf_ang_closed n Hn).
  assert (E : (if has0 && (isSome (mk u1 row1) || isSome (mk u0b row0b)) then ang_mul a (map A_ l) else map A_ l)
              = map (fun x => Cmult (RtoC (an x)) (A_ x)) l).
  { destruct (isSome (mk u1 row1) || isSome (mk u0b row0b)) eqn:U.
    - rewrite andb_true_r, Hm by apply map_length. unfold vmul. rewrite map2_mm. apply map_ext; intros; apply Cmult_comm.
    - rewrite andb_false_r. apply map_ext. intros x.
      assert (Z : A_ x = RtoC 0).
      { unfold A_. unfold mk in U. destruct u1, u0b; try discriminate. rewrite Cdiv_0_l.
        destruct (inb ab _); apply Cplus_0_l. }
      rewrite Z. symmetry. apply Cmult_0_r. }
  rewrite E. unfold N_, mk, vadd. destruct u0.
  - rewrite map_map, map2_mm. apply map_ext; intros; apply Cplus_comm.
  - apply map_ext; intros; now rewrite Cplus_0_l.
Qed.
End Closed.

(** ** Standard DLF *)
Section Std.
Variables (spl : interp) (wn : nat -> R -> res triple) (K : nat -> R -> triple).
Variables (used : bool * bool * bool) (nf : nat) (filt : dfilter) (ab : Z).
Hypothesis HK : forall f l, (f < nf)%nat -> 0 < l -> wn f l = Ok (K f l).
Hypothesis HP : forall f, (f < nf)%nat -> pattern (K f) used.
Hypothesis HU : some_used used = true.
Hypothesis HF : well_formed filt.

Lemma kernel_array_ok : forall (lam : list (list R)), (forall row x, In row lam -> In x row -> 0 < x) ->
  kernel_array wn nf lam = Ok (map (fun f => map (fun row => map (K f) row) lam) (seq 0 nf)).
Proof.
  intros lam H. unfold kernel_array. apply mapM_ok. intros f Hf. apply in_seq in Hf.
  apply mapM_ok. intros row Hr. apply mapM_ok. intros x Hx. apply HK; [lia|eauto].
Qed.

Lemma nth_map_seq0 : forall A (g : nat -> A) n k d, (k < n)%nat -> nth k (map g (seq 0 n)) d = g k.
Proof.
  intros A g n k d H. rewrite (nth_indep _ d (g 0%nat)) by (rewrite map_length, seq_length; lia).
  rewrite map_nth, seq_nth by lia. reflexivity.
Qed.

Lemma part_dot : forall f p (u : bool) w r, (f < nf)%nat -> List.length w = List.length (f_base filt) ->
  (forall l, isSome (p (K f l)) = u) ->
  (if u then dot w (map (fun t => oval (p t)) (map (K f) (map (fun b => b / r)%R (f_base filt)))) else RtoC 0)
  = fsum w (f_base filt) (part_of p (K f)) r.
Proof.
  intros f p u w r Hf Hw Hu. destruct u.
  - rewrite !map_map. apply (dot_fsum w (f_base filt) (fun x => oval (p (K f x)))). exact Hw.
  - symmetry. apply fsum_0. intros l. unfold part_of. specialize (Hu l). destruct (p (K f l)); [discriminate|reflexivity].
Qed.

Theorem dlf_standard : forall (off ang : list R), off <> [] -> List.length ang = List.length off ->
  (forall r, In r off -> 0 < r) ->
  hankel_dlf spl wn used nf off (Some ang) ab filt 0 =
  Ok (map (fun f => map (fun p => dlf_value filt ab (K f) (fst p) (snd p)) (combine off ang)) (seq 0 nf), 1%Z, true).
Proof.
  intros off ang Hne Hlen Hpos. destruct HF as [W0 [W1 Wp]]. rewrite List.Forall_forall in Wp.
  unfold hankel_dlf, get_dlf_points. rewrite Reqb_refl. cbn [bind].
  assert (LP : forall row x, In row (base_over (f_base filt) off) -> In x row -> 0 < x).
  { unfold base_over. intros row x Hr Hx. apply in_map_iff in Hr. destruct Hr as [r [<- Hr]].
    apply in_map_iff in Hx. destruct Hx as [b [<- Hb]]. apply Rdiv_lt_0_compat; auto. }
  rewrite (kernel_array_ok _ LP). cbn [bind]. destruct used as [[u0 u1] u0b] eqn:EU.
  assert (Hang : ang <> []) by (destruct off, ang; simpl in *; congruence).
  unfold dlf_hankel. destruct (angle_case_spec ang Hang) as [one [has [a [-> [H1 H2]]]]]. cbn [bind].
  set (arr := map (fun f => map (fun row => map (K f) row) (base_over (f_base filt) off)) (seq 0 nf)).
  assert (EI : exists p, inp_signal (get_part u0 t0 arr) (get_part u1 t1 arr) (get_part u0b t0b arr)
               = Ok (map (map (map (fun t => oval (p t)))) arr)).
  { unfold get_part, inp_signal. destruct u0b; [exists t0b; reflexivity|]. destruct u1; [exists t1; reflexivity|].
    destruct u0; [exists t0; reflexivity|]. discriminate HU. }
  destruct EI as [p ->]. cbn [bind]. rewrite Reqb_refl. cbn [bind].
  assert (Larr : List.length arr = nf) by (unfold arr; now rewrite map_length, seq_length).
  rewrite map_length, Larr. f_equal. f_equal. f_equal. apply map_ext_in. intros f Hf. apply in_seq in Hf.
  set (l := combine off ang).
  assert (Eoff : off = map fst l) by (symmetry; apply combine_fst; auto).
  assert (Eang : ang = map snd l) by (symmetry; apply combine_snd; auto).
  assert (Earr : nth f arr [] = map (fun row => map (K f) row) (base_over (f_base filt) off)).
  { unfold arr. apply nth_map_seq0. lia. }
  assert (SL : forall u q, freq_slice f (get_part u q arr) =
     mk l u (fun x => map (fun t => oval (q t)) (map (K f) (map (fun b => b / fst x)%R (f_base filt))))).
  { intros u q. unfold get_part, freq_slice, mk. destruct u; [|reflexivity]. cbn [option_map]. f_equal.
    rewrite (nth_indep _ [] (map (map (fun t => oval (q t))) [])) by (rewrite map_length, Larr; lia).
    rewrite map_nth, Earr. unfold base_over. rewrite Eoff. rewrite !map_map. reflexivity. }
  rewrite !SL.
  assert (Ln : List.length (nth f (map (map (map (fun t => oval (p t)))) arr) []) = List.length l).
  { rewrite (nth_indep _ [] (map (map (fun t => oval (p t))) [])) by (rewrite map_length, Larr; lia).
    rewrite map_nth, Earr. unfold base_over. rewrite !map_length. rewrite Eoff. apply map_length. }
  assert (ES : forall u q, isSome (get_part u q arr) = u) by (intros [] q; reflexivity).
  assert (EM : forall u q, isSome (mk l u q) = u) by (intros [] q; reflexivity).
  rewrite !ES.
  set (r0 := fun x : R * R => _). set (r1 := fun x : R * R => map (fun t => oval (t1 t)) _). set (r0b := fun x : R * R => map (fun t => oval (t0b t)) _).
  rewrite <- (EM u1 r1) at 1. rewrite <- (EM u0b r0b) at 1.
  rewrite Eoff at 1.
  rewrite (dlf_comb_closed filt ab l fst snd r0 r1 r0b u0 u1 u0b _ has a Ln).
  2:{ intros v Lv. rewrite <- Eang. rewrite <- (map_length snd l), <- Eang in Lv. destruct one.
      - destruct (H1 eq_refl) as [a0 [Ha0 Hv]]. rewrite Hv. symmetry. now apply vmul_const.
      - destruct (H2 eq_refl) as [-> ->]. reflexivity. }
  unfold vdivr. rewrite Eoff at 1. rewrite map2_mm. apply map_ext. intros x.
  unfold dlf_value. f_equal.
  pose proof (HP f ltac:(lia)) as P. unfold pattern in P.
  unfold N_, A_, sum_noang, sum_ang, r0, r1, r0b.
  rewrite (part_dot f t0 u0 (f_j0 filt) (fst x)) by (auto; try lia; intros; apply P).
  rewrite (part_dot f t1 u1 (f_j1 filt) (fst x)) by (auto; try lia; intros; apply P).
  rewrite (part_dot f t0b u0b (f_j0 filt) (fst x)) by (auto; try lia; intros; apply P).
  reflexivity.
Qed.

(** One offset alone gives the same numbers. *)
Theorem dlf_batching : forall (off ang : list R) fEM kc cv o, off <> [] -> List.length ang = List.length off ->
  (forall r, In r off -> 0 < r) -> (o < List.length off)%nat ->
  hankel_dlf spl wn used nf off (Some ang) ab filt 0 = Ok (fEM, kc, cv) ->
  hankel_dlf spl wn used nf [nth o off 0%R] (Some [nth o ang 0%R]) ab filt 0
  = Ok (map (fun row => [nth o row (RtoC 0)]) fEM, 1%Z, true).
Proof.
  intros off ang fEM kc cv o Hne Hlen Hpos Ho H. rewrite dlf_standard in H by auto. inversion H; subst; clear H.
  rewrite dlf_standard; [|discriminate|reflexivity|].
  - f_equal. f_equal. f_equal. rewrite map_map. apply map_ext_in. intros f Hf. simpl. f_equal.
    set (g := fun p : R * R => dlf_value filt ab (K f) (fst p) (snd p)).
    rewrite (nth_indep _ (RtoC 0) (g (0%R, 0%R))).
    + rewrite map_nth, combine_nth by auto. reflexivity.
    + rewrite map_length, combine_length, Hlen, Nat.min_id. exact Ho.
  - intros r [<- | []]. apply Hpos. now apply nth_In.
Qed.
End Std.
