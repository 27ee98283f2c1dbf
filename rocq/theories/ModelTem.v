(** [tem]: linear, column-wise, step responses (C20). *)

From Coq Require Import ZArith Reals List Bool String Lia Lra Psatz.
From Coquelicot Require Import Coquelicot.
From Verif Require Import PyBase CBase Kernel Utils UtilsLayer Transform TransformDlf TransformLag Fullspace Model ModelFem.
Import ListNotations.
Local Open Scope R_scope.
Local Open Scope C_scope.
Local Open Scope res_scope.

(** ** Specification *)

(** a u + b v for real a, b *)
Definition lcC (a b : R) (u v : list C) : list C :=
  map2 (fun x y => Cplus (Cmult (RtoC a) x) (Cmult (RtoC b) y)) u v.
Definition lcR (a b : R) (u v : list R) : list R := map2 (fun x y => a * x + b * y)%R u v.

(** a Fourier transform which never fails on [nf] values, is linear over the
    reals and returns [nt] values *)
Record linear_ft (calc : list C -> res (list R * bool)) (T : list C -> list R) (nf nt : nat) : Prop := {
  ft_ok : forall v, List.length v = nf -> calc v = Ok (T v, true);
  ft_len : forall v, List.length v = nf -> List.length (T v) = nt;
  ft_lin : forall a b u v, List.length u = nf -> List.length v = nf -> T (lcC a b u v) = lcR a b (T u) (T v) }.

(** the time-domain value of one column: 2/pi times the transform of field times factor *)
Definition tem_value (T : list C -> list R) (col : list C) (fact : list C) (t : nat) : R :=
  (2 / PI * nth t (T (map2 Cmult col fact)) 0)%R.

(** ** Closed form *)
Lemma nth_repeat_lt : forall A (x d : A) n k, (k < n)%nat -> nth k (repeat x n) d = x.
Proof. intros A x d n. induction n as [|n IH]; intros [|k] H; simpl; try lia; auto. apply IH. lia. Qed.

Section Tem.
Variables (calc : list C -> res (list R * bool)) (T : list C -> list R) (nf nt : nat) (freq : list R).
Hypothesis HT : linear_ft calc T nf nt.
Hypothesis Hf : List.length freq = nf.

Lemma column_length : forall i fEM, List.length (column i fEM) = List.length fEM.
Proof. intros; apply map_length. Qed.

Theorem tem_closed : forall noff fEM signal w conv, List.length fEM = nf ->
  tem calc nt noff fEM freq signal w conv =
  Ok (let tEM := map (fun t => map (fun i => tem_value T (column i fEM) (map (step_factor signal) freq) t) (seq 0 noff)) (seq 0 nt) in
      match w with Some g => g tEM | None => tEM end, conv).
Proof.
  intros noff fEM signal w conv HL. unfold tem.
  set (col := fun i => T (map2 Cmult (column i fEM) (map (step_factor signal) freq))).
  assert (LV : forall i, List.length (map2 Cmult (column i fEM) (map (step_factor signal) freq)) = nf).
  { intros i. rewrite map2_length, column_length, map_length. lia. }
  assert (G : forall k s c, foldM (fun st i =>
       let '(cols, cv) := st in
       '(o, c) <- calc (map2 Cmult (column i fEM) (map (step_factor signal) freq)) ;;
       o <- need (List.length o =? nt)%nat ValueError o ;;
       Ok (cols ++ [o], cv && c)) (seq s k) (c, conv) = Ok (c ++ map col (seq s k), conv)).
  { induction k as [|k IH]; intros s c; cbn [seq foldM map]; [now rewrite app_nil_r|].
    rewrite (ft_ok _ _ _ _ HT _ (LV s)). cbn [bind].
    rewrite (ft_len _ _ _ _ HT _ (LV s)), Nat.eqb_refl. cbn [need bind]. rewrite andb_true_r, IH, <- app_assoc. reflexivity. }
  rewrite G. cbn [bind app].
  assert (E : map (fun t => map (fun c => 2 / PI * nth t c 0)%R (map col (seq 0 noff))) (seq 0 nt) =
     map (fun t => map (fun i => tem_value T (column i fEM) (map (step_factor signal) freq) t) (seq 0 noff)) (seq 0 nt)).
  { apply map_ext. intros t. rewrite map_map. reflexivity. }
  rewrite E. reflexivity.
Qed.

(** linear combination of two fields of the same shape *)
Definition matC (a b : R) (x y : list (list C)) : list (list C) := map2 (lcC a b) x y.
Definition matR (a b : R) (x y : list (list R)) : list (list R) := map2 (lcR a b) x y.

Lemma column_lin : forall a b x y i m, (i < m)%nat -> shape_ok nf m x = true -> shape_ok nf m y = true ->
  column i (matC a b x y) = lcC a b (column i x) (column i y).
Proof.
  intros a b x y i m Hi Hx Hy. apply shape_ok_spec in Hx, Hy. destruct Hx as [X1 X2], Hy as [Y1 Y2].
  apply (nth_ext _ _ (RtoC 0) (RtoC 0)).
  - unfold lcC, matC. rewrite column_length, !map2_length, !column_length. reflexivity.
  - rewrite column_length. unfold matC. rewrite map2_length. intros k Hk.
    unfold lcC. rewrite (map2_nth _ _ _ _ _ _ k (RtoC 0) (RtoC 0) (RtoC 0)) by (rewrite column_length; lia).
    unfold column. set (g := fun r : list C => nth i r (RtoC 0)).
    rewrite (nth_indep _ (RtoC 0) (g [])) by (rewrite map_length, map2_length; lia). rewrite map_nth.
    rewrite (map2_nth _ _ _ _ _ _ k [] [] []) by lia.
    rewrite (nth_indep (map g x) (RtoC 0) (g [])) by (rewrite map_length; lia). rewrite map_nth.
    rewrite (nth_indep (map g y) (RtoC 0) (g [])) by (rewrite map_length; lia). rewrite map_nth.
    unfold g. rewrite (map2_nth _ _ _ _ _ _ i (RtoC 0) (RtoC 0) (RtoC 0)); [reflexivity| |].
    + rewrite X2; [lia|apply nth_In; lia].
    + rewrite Y2; [lia|apply nth_In; lia].
Qed.

Lemma mult_lin : forall a b u v f, List.length u = nf -> List.length v = nf -> List.length f = nf ->
  map2 Cmult (lcC a b u v) f = lcC a b (map2 Cmult u f) (map2 Cmult v f).
Proof.
  intros a b u v f H1 H2 H3. apply (nth_ext _ _ (RtoC 0) (RtoC 0)).
  - unfold lcC. rewrite !map2_length. lia.
  - unfold lcC. rewrite !map2_length. intros k Hk.
    rewrite !(map2_nth _ _ _ _ _ _ k (RtoC 0) (RtoC 0) (RtoC 0)) by (rewrite ?map2_length; lia). ring.
Qed.

Lemma tem_value_lin : forall a b u v f t, List.length u = nf -> List.length v = nf -> List.length f = nf -> (t < nt)%nat ->
  tem_value T (lcC a b u v) f t = (a * tem_value T u f t + b * tem_value T v f t)%R.
Proof.
  intros a b u v f t H1 H2 H3 Ht. unfold tem_value. rewrite mult_lin by auto.
  rewrite (ft_lin _ _ _ _ HT) by (rewrite map2_length; lia). unfold lcR.
  rewrite (map2_nth _ _ _ _ _ _ t 0%R 0%R 0%R) by (rewrite (ft_len _ _ _ _ HT); rewrite ?map2_length; lia). ring.
Qed.

Lemma map2_rows : forall A (f g : A -> R) a b (l : list A), lcR a b (map f l) (map g l) = map (fun x => a * f x + b * g x)%R l.
Proof. intros. unfold lcR. now rewrite map2_mm. Qed.

Theorem tem_linear : forall noff a b x y signal conv tx ty cx cy,
  shape_ok nf noff x = true -> shape_ok nf noff y = true ->
  tem calc nt noff x freq signal None conv = Ok (tx, cx) ->
  tem calc nt noff y freq signal None conv = Ok (ty, cy) ->
  tem calc nt noff (matC a b x y) freq signal None conv = Ok (matR a b tx ty, conv).
Proof.
  intros noff a b x y signal conv tx ty cx cy Hx Hy Ex Ey.
  pose proof Hx as Hx'. pose proof Hy as Hy'. apply shape_ok_spec in Hx', Hy'. destruct Hx' as [X1 X2], Hy' as [Y1 Y2].
  rewrite tem_closed in Ex, Ey by auto. injection Ex as Ex1 Ex2. injection Ey as Ey1 Ey2. subst tx ty.
  rewrite tem_closed by (unfold matC; rewrite map2_length; lia). f_equal. f_equal.
  unfold matR. rewrite map2_mm. apply map_ext_in. intros t Ht. apply in_seq in Ht. rewrite map2_rows.
  apply map_ext_in. intros i Hi. apply in_seq in Hi.
  rewrite (column_lin a b x y i noff) by (auto; lia).
  apply tem_value_lin; rewrite ?column_length, ?map_length; auto; lia.
Qed.

(** element (t, i) uses column i only *)
Theorem tem_columnwise : forall x y signal conv i j mx my tx ty cx cy,
  (i < mx)%nat -> (j < my)%nat -> List.length x = nf -> List.length y = nf ->
  column i x = column j y ->
  tem calc nt mx x freq signal None conv = Ok (tx, cx) ->
  tem calc nt my y freq signal None conv = Ok (ty, cy) ->
  forall t, (t < nt)%nat -> nth i (nth t tx []) 0%R = nth j (nth t ty []) 0%R.
Proof.
  assert (CL : forall m x signal conv tx cx, List.length x = nf -> tem calc nt m x freq signal None conv = Ok (tx, cx) ->
     forall i t, (i < m)%nat -> (t < nt)%nat -> nth i (nth t tx []) 0%R = tem_value T (column i x) (map (step_factor signal) freq) t).
  { intros m x signal conv tx cx HL H i t Hi Ht. rewrite tem_closed in H by auto. injection H as H1 H2. subst tx.
    rewrite nth_map_seq0 by lia. rewrite nth_map_seq0 by lia. reflexivity. }
  intros x y signal conv i j mx my tx ty cx cy Hi Hj Lx Ly E Ex Ey t Ht.
  rewrite (CL _ _ _ _ _ _ Lx Ex i t Hi Ht), (CL _ _ _ _ _ _ Ly Ey j t Hj Ht). now rewrite E.
Qed.

(** the field divided by i omega *)
Definition over_iw (x : list (list C)) : list (list C) :=
  map2 (fun row f => map (fun c => Cdiv c (Cmult Ci (RtoC (2 * PI * f)))) row) x freq.

Lemma step_is : forall f, f <> 0%R -> step_factor 1 f = Cdiv (RtoC 1) (Cmult Ci (RtoC (2 * PI * f))).
Proof.
  intros f Hf0. unfold step_factor. change (inb 1 [-1; 1]%Z) with true. cbv iota. unfold Cdiv. f_equal. f_equal.
  rewrite !RtoC_mult. ring.
Qed.

Theorem tem_step : forall noff x conv, shape_ok nf noff x = true -> (forall f, In f freq -> f <> 0%R) ->
  tem calc nt noff x freq 1 None conv = tem calc nt noff (over_iw x) freq 0 None conv.
Proof.
  intros noff x conv Hx Hnz. apply shape_ok_spec in Hx. destruct Hx as [X1 X2].
  rewrite !tem_closed by (unfold over_iw; rewrite ?map2_length; lia). f_equal. f_equal.
  apply map_ext_in. intros t Ht. apply map_ext_in. intros i Hi. apply in_seq in Hi.
  unfold tem_value. do 3 f_equal.
  apply (nth_ext _ _ (RtoC 0) (RtoC 0)).
  - rewrite !map2_length, !column_length, !map_length. unfold over_iw. rewrite map2_length. lia.
  - rewrite map2_length, column_length, map_length. intros k Hk.
    rewrite !(map2_nth _ _ _ _ _ _ k (RtoC 0) (RtoC 0) (RtoC 0)) by (rewrite ?column_length, ?map_length; unfold over_iw; rewrite ?map2_length; lia).
    assert (SF : forall s, nth k (map (step_factor s) freq) (RtoC 0) = step_factor s (nth k freq 0%R)).
    { intros s. rewrite (nth_indep _ (RtoC 0) (step_factor s 0%R)) by (rewrite map_length; lia). now rewrite map_nth. }
    rewrite !SF. rewrite step_is by (apply Hnz; apply nth_In; lia).
    unfold column. set (g := fun r : list C => nth i r (RtoC 0)).
    rewrite (nth_indep (map g (over_iw x)) (RtoC 0) (g [])) by (rewrite map_length; unfold over_iw; rewrite map2_length; lia). rewrite map_nth.
    rewrite (nth_indep (map g x) (RtoC 0) (g [])) by (rewrite map_length; lia). rewrite map_nth.
    unfold over_iw. rewrite (map2_nth _ _ _ _ _ _ k [] 0%R []) by lia. unfold g.
    set (h := fun c => Cdiv c (Cmult Ci (RtoC (2 * PI * nth k freq 0)))).
    rewrite (nth_indep (map h _) (RtoC 0) (h (RtoC 0))) by (rewrite map_length, X2; [lia|apply nth_In; lia]). rewrite map_nth. unfold h.
    change (step_factor 0 (nth k freq 0%R)) with (RtoC 1). rewrite Cmult_1_r. unfold Cdiv. ring.
Qed.

Theorem tem_off_is_minus_on : forall noff x conv t1 c1, shape_ok nf noff x = true ->
  tem calc nt noff x freq 1 None conv = Ok (t1, c1) ->
  tem calc nt noff x freq (-1) None conv = Ok (map (map Ropp) t1, conv).
Proof.
  intros noff x conv t1 c1 Hx H. apply shape_ok_spec in Hx. destruct Hx as [X1 X2].
  rewrite tem_closed in * by auto. injection H as H1 H2. subst t1. f_equal. f_equal.
  rewrite map_map. apply map_ext_in. intros t Ht. apply in_seq in Ht. rewrite map_map. apply map_ext_in. intros i Hi.
  assert (E : map2 Cmult (column i x) (map (step_factor (-1)) freq) =
     lcC (-1) 0 (map2 Cmult (column i x) (map (step_factor 1) freq)) (map2 Cmult (column i x) (map (step_factor 1) freq))).
  { apply (nth_ext _ _ (RtoC 0) (RtoC 0)).
    - unfold lcC. rewrite !map2_length, !column_length, !map_length. lia.
    - rewrite map2_length, column_length, map_length. intros k Hk. unfold lcC.
      rewrite !(map2_nth _ _ _ _ _ _ k (RtoC 0) (RtoC 0) (RtoC 0)) by (rewrite ?map2_length, ?column_length, ?map_length; lia).
      assert (SF : forall s, nth k (map (step_factor s) freq) (RtoC 0) = step_factor s (nth k freq 0%R)).
      { intros s. rewrite (nth_indep _ (RtoC 0) (step_factor s 0%R)) by (rewrite map_length; lia). now rewrite map_nth. }
      rewrite !SF. unfold step_factor. change (inb (-1) [-1; 1]%Z) with true. change (inb 1 [-1; 1]%Z) with true. cbv iota.
      unfold Cdiv. ring. }
  unfold tem_value. rewrite E. rewrite (ft_lin _ _ _ _ HT) by (rewrite map2_length, column_length, map_length; lia).
  unfold lcR. rewrite (map2_nth _ _ _ _ _ _ t 0%R 0%R 0%R) by (rewrite (ft_len _ _ _ _ HT); rewrite ?map2_length, ?column_length, ?map_length; lia).
  ring.
Qed.

Lemma tem_zero : forall noff signal conv,
  tem calc nt noff (repeat (repeat (RtoC 0) noff) nf) freq signal None conv = Ok (repeat (repeat 0%R noff) nt, conv).
Proof.
  intros noff signal conv. rewrite tem_closed by apply repeat_length. f_equal. f_equal.
  assert (Z : forall i t, (t < nt)%nat -> tem_value T (column i (repeat (repeat (RtoC 0) noff) nf)) (map (step_factor signal) freq) t = 0%R).
  { intros i t Ht. unfold tem_value.
    set (v := map2 Cmult _ _).
    assert (Lv : List.length v = nf) by (unfold v; rewrite map2_length, column_length, repeat_length, map_length; lia).
    assert (E : v = lcC 0 0 v v).
    { apply (nth_ext _ _ (RtoC 0) (RtoC 0)); [unfold lcC; rewrite map2_length; lia|]. intros k Hk.
      unfold lcC. rewrite (map2_nth _ _ _ _ _ _ k (RtoC 0) (RtoC 0) (RtoC 0)) by lia.
      assert (nth k v (RtoC 0) = RtoC 0) as ->; [|ring].
      unfold v. rewrite (map2_nth _ _ _ _ _ _ k (RtoC 0) (RtoC 0) (RtoC 0)) by (rewrite ?column_length, ?repeat_length, ?map_length; lia).
      assert (nth k (column i (repeat (repeat (RtoC 0) noff) nf)) (RtoC 0) = RtoC 0) as ->; [|ring].
      unfold column. set (g := fun r : list C => nth i r (RtoC 0)).
      rewrite (nth_indep _ (RtoC 0) (g [])) by (rewrite map_length, repeat_length; lia). rewrite map_nth. unfold g.
      rewrite nth_repeat_lt by lia. apply nth_repeat. }
    rewrite E, (ft_lin _ _ _ _ HT) by exact Lv. unfold lcR.
    rewrite (map2_nth _ _ _ _ _ _ t 0%R 0%R 0%R) by (rewrite (ft_len _ _ _ _ HT); auto). ring. }
  apply (nth_ext _ _ [] []); [now rewrite map_length, seq_length, repeat_length|].
  rewrite map_length, seq_length. intros t Ht. rewrite nth_map_seq0 by lia. rewrite nth_repeat_lt by lia.
  apply (nth_ext _ _ 0%R 0%R); [now rewrite map_length, seq_length, repeat_length|].
  rewrite map_length, seq_length. intros i Hi. rewrite nth_map_seq0 by lia. rewrite nth_repeat. now apply Z.
Qed.
End Tem.

(** ** The digital linear filter is such a transform *)
Lemma lcR_length : forall a b u v, List.length u = List.length v -> List.length (lcR a b u v) = List.length u.
Proof. intros. unfold lcR. rewrite map2_length. lia. Qed.
Lemma lcC_length : forall a b u v, List.length u = List.length v -> List.length (lcC a b u v) = List.length u.
Proof. intros. unfold lcC. rewrite map2_length. lia. Qed.

Lemma lcR_nth : forall a b u v k, (k < List.length u)%nat -> List.length u = List.length v ->
  nth k (lcR a b u v) 0%R = (a * nth k u 0 + b * nth k v 0)%R.
Proof. intros. unfold lcR. now rewrite (map2_nth _ _ _ _ _ _ k 0%R 0%R 0%R) by lia. Qed.

Lemma lcR_ext : forall a b u v w, List.length u = List.length v -> List.length w = List.length u ->
  (forall k, (k < List.length u)%nat -> nth k w 0%R = (a * nth k u 0 + b * nth k v 0)%R) -> w = lcR a b u v.
Proof.
  intros a b u v w H1 H2 H. apply (nth_ext _ _ 0%R 0%R).
  - rewrite lcR_length; auto.
  - intros k Hk. rewrite lcR_nth by lia. apply H. lia.
Qed.

Lemma rdot_lin : forall w a b u v, List.length u = List.length v ->
  rdot w (lcR a b u v) = (a * rdot w u + b * rdot w v)%R.
Proof.
  induction w as [|x w IH]; intros a b [|y u] [|z v] H; simpl in H; try discriminate;
    unfold rdot, lcR, map2 in *; simpl; try ring.
  rewrite (IH a b u v) by lia. ring.
Qed.

Definition fpart (sine : bool) (c : C) : R := if sine then (- snd c)%R else fst c.
Lemma fpart_lin : forall sine a b u v, map (fpart sine) (lcC a b u v) = lcR a b (map (fpart sine) u) (map (fpart sine) v).
Proof.
  intros sine a b. induction u as [|x u IH]; intros [|y v]; try reflexivity.
  unfold lcC, lcR, map2 in *. simpl. f_equal; [|apply IH].
  unfold fpart. destruct sine; simpl; ring.
Qed.

Lemma firstn_lcR : forall a b n u v, firstn n (lcR a b u v) = lcR a b (firstn n u) (firstn n v).
Proof.
  intros a b. induction n as [|n IH]; intros [|x u] [|y v]; try reflexivity; unfold lcR, map2 in *; simpl.
  - f_equal. apply IH.
Qed.
Lemma skipn_lcR : forall a b n u v, List.length u = List.length v -> skipn n (lcR a b u v) = lcR a b (skipn n u) (skipn n v).
Proof.
  intros a b. induction n as [|n IH]; intros [|x u] [|y v] H; simpl in H; try discriminate; try reflexivity.
  unfold lcR, map2 in *. simpl. apply IH. lia.
Qed.

Lemma div_lin : forall a b t u v, List.length u = List.length v ->
  map2 Rdiv (lcR a b u v) t = lcR a b (map2 Rdiv u t) (map2 Rdiv v t).
Proof.
  intros a b. induction t as [|x t IH]; intros [|y u] [|z v] H; simpl in H; try discriminate; try reflexivity.
  unfold lcR, map2 in *. simpl. f_equal; [unfold Rdiv; ring|]. apply IH. lia.
Qed.

Lemma map_lin : forall X (f g h : X -> R) a b (l : list X), (forall x, In x l -> h x = (a * f x + b * g x)%R) ->
  map h l = lcR a b (map f l) (map g l).
Proof. intros X f g h a b l H. unfold lcR. rewrite map2_mm. now apply map_ext_in. Qed.

Lemma spl_lin : forall spl, linear_interp spl -> forall a b u v p q,
  List.length u = List.length p -> List.length v = List.length p ->
  spl (lcR a b u v) p q = lcR a b (spl u p q) (spl v p q).
Proof.
  intros spl HS a b u v p q Hu Hv. destruct HS as [HL HA].
  (* a u + b v = z + a u with z = 0 + b v, 0 = u - u *)
  assert (Z : spl (map2 (fun x y => x + -1 * y)%R u u) p q = map2 (fun x y => x + -1 * y)%R (spl u p q) (spl u p q)) by (apply HA; auto).
  set (o := map2 (fun x y => x + -1 * y)%R u u) in *.
  assert (Lo : List.length o = List.length p) by (unfold o; rewrite map2_length; lia).
  pose proof (HA b o v p q Lo Hv) as A1. set (o1 := map2 (fun x y => x + b * y)%R o v) in *.
  assert (Lo1 : List.length o1 = List.length p) by (unfold o1; rewrite map2_length; lia).
  pose proof (HA a o1 u p q Lo1 Hu) as A2.
  assert (E : map2 (fun x y => x + a * y)%R o1 u = lcR a b u v).
  { apply lcR_ext; [lia|rewrite map2_length; lia|]. intros k Hk.
    rewrite (map2_nth _ _ _ _ _ _ k 0%R 0%R 0%R) by lia. unfold o1.
    rewrite (map2_nth _ _ _ _ _ _ k 0%R 0%R 0%R) by lia. unfold o.
    rewrite (map2_nth _ _ _ _ _ _ k 0%R 0%R 0%R) by lia. ring. }
  rewrite E in A2. rewrite A2, A1, Z.
  pose proof (HL u p q Hu) as L1. pose proof (HL v p q Hv) as L2.
  apply lcR_ext; [lia|rewrite !map2_length; lia|]. intros k Hk.
  rewrite (map2_nth _ _ _ _ _ _ k 0%R 0%R 0%R) by (rewrite ?map2_length; lia).
  rewrite (map2_nth _ _ _ _ _ _ k 0%R 0%R 0%R) by (rewrite ?map2_length; lia).
  rewrite (map2_nth _ _ _ _ _ _ k 0%R 0%R 0%R) by lia. ring.
Qed.

Definition four_w (sine : bool) (filt : dfilter) : list R := if sine then f_sin filt else f_cos filt.

(** Standard: nf = times * base *)
Theorem fourier_dlf_standard : forall spl sine filt time freq, time <> [] ->
  exists T, linear_ft (fun v => fourier_dlf spl sine filt 0 v time freq) T
              (List.length time * List.length (f_base filt)) (List.length time) /\
  forall v t, (t < List.length time)%nat ->
    nth t (T v) 0%R = (rdot (four_w sine filt) (map (fpart sine) (firstn (List.length (f_base filt)) (skipn (t * List.length (f_base filt)) v))) / nth t time 0)%R.
Proof.
  intros spl sine filt time freq Ht. set (nb := List.length (f_base filt)). set (nt := List.length time).
  assert (Hnt : (0 < nt)%nat) by (unfold nt; destruct time; [congruence|simpl; lia]).
  set (W := fun v t => rdot (four_w sine filt) (map (fpart sine) (firstn nb (skipn (t * nb) v)))).
  exists (fun v => map2 Rdiv (map (W v) (seq 0 nt)) time). split; [constructor|].
  - intros v Hv. unfold fourier_dlf. rewrite Reqb_refl. unfold reshape_rows. fold nt.
    destruct (Nat.eqb_spec nt 0); [lia|]. rewrite Hv. 
    replace (nt * nb)%nat with (nb * nt)%nat by lia. rewrite Nat.mod_mul, Nat.div_mul by lia. cbn [Nat.eqb negb bind].
    unfold dlf_fourier. rewrite Reqb_refl. cbn [bind]. rewrite map_map. reflexivity.
  - intros v Hv. rewrite map2_length, map_length, seq_length. fold nt. lia.
  - intros a b u v Hu Hv. rewrite <- div_lin by (rewrite !map_length; reflexivity). f_equal.
    apply map_lin. intros t Hti. unfold W. rewrite <- rdot_lin.
    + f_equal. rewrite <- !firstn_map, <- !skipn_map, fpart_lin, skipn_lcR, firstn_lcR by (rewrite !map_length; lia). reflexivity.
    + rewrite !map_length, !firstn_length, !skipn_length. lia.
  - intros v t Htt. rewrite (map2_nth _ _ _ _ _ _ t 0%R 0%R 0%R) by (rewrite ?map_length, ?seq_length; fold nt; lia).
    rewrite nth_map_seq0 by (fold nt; lia). reflexivity.
Qed.

Lemma concat_repeat_length : forall A (l : list A) m, List.length (List.concat (repeat l m)) = (m * List.length l)%nat.
Proof. intros A l m. induction m as [|m IH]; [reflexivity|]. simpl. rewrite app_length, IH. lia. Qed.

(** Lagged convolution: one row of values, any linear interpolator *)
Lemma rearrange_lcR : forall a b u v n nb, List.length u = List.length v ->
  map (fun p => lcR a b (fst p) (snd p)) (combine (rearrange 0%R u n nb) (rearrange 0%R v n nb))
  = rearrange 0%R (lcR a b u v) n nb.
Proof.
  intros a b u v n nb H. unfold rearrange.
  set (fu := List.concat (repeat u n) ++ repeat 0%R n). set (fv := List.concat (repeat v n) ++ repeat 0%R n).
  set (fw := List.concat (repeat (lcR a b u v) n) ++ repeat 0%R n).
  assert (LF : List.length fu = List.length fv).
  { unfold fu, fv. rewrite !app_length, !concat_repeat_length, !repeat_length. lia. }
  assert (E : fw = lcR a b fu fv).
  { unfold fw, fu, fv.
    assert (LA : forall p q r s, List.length p = List.length r -> lcR a b (p ++ q) (r ++ s) = lcR a b p r ++ lcR a b q s).
    { induction p as [|x p IH]; intros q [|y r] s L; simpl in L; try discriminate; [reflexivity|].
      unfold lcR, map2 in *. simpl. f_equal. apply IH. lia. }
    assert (LC : forall m, List.concat (repeat (lcR a b u v) m) = lcR a b (List.concat (repeat u m)) (List.concat (repeat v m))).
    { induction m as [|m IH]; [reflexivity|]. simpl. rewrite IH, LA by lia. reflexivity. }
    rewrite LC, LA by (rewrite !concat_repeat_length; lia). f_equal.
    clear. induction n as [|n IH]; [reflexivity|]. unfold lcR, map2 in *. simpl. f_equal; [ring|exact IH]. }
  rewrite E, <- LF, lcR_length by exact LF.
  set (w := (List.length fu / n)%nat).
  assert (C0 : forall s, combine (map (fun i => firstn nb (firstn w (skipn (i * w) fu))) s) (map (fun i => firstn nb (firstn w (skipn (i * w) fv))) s)
     = map (fun i => (firstn nb (firstn w (skipn (i * w) fu)), firstn nb (firstn w (skipn (i * w) fv)))) s).
  { induction s as [|i s IH]; [reflexivity|]. simpl. f_equal. exact IH. }
  rewrite C0, map_map. apply map_ext. intros i. cbn [fst snd].
  rewrite skipn_lcR, !firstn_lcR by exact LF. reflexivity.
Qed.

Theorem fourier_dlf_lagged : forall spl sine filt b0 time freq ppd imin imax,
  linear_interp spl -> ppd < 0 -> geometric filt b0 ->
  lmin time = Ok imin -> lmax time = Ok imax -> (forall t, In t time -> 0 < t) ->
  forall nf, exists T, linear_ft (fun v => fourier_dlf spl sine filt ppd v time freq) T nf (List.length time).
Proof.
  intros spl sine filt b0 time freq ppd imin imax HS Hp HG Hmin Hmax Hpos nf.
  set (ip := lag_pts filt b0 imin imax). set (nb := List.length (f_base filt)).
  set (R1 := fun v : list C => map (rdot (four_w sine filt)) (rearrange 0%R (map (fpart sine) v) (List.length ip) nb)).
  exists (fun v => map2 Rdiv (spl (rev (R1 v)) (rev ip) time) time).
  assert (LR1 : forall v, List.length (rev (R1 v)) = List.length (rev ip)).
  { intros v. rewrite !rev_length. unfold R1, rearrange. rewrite !map_length, seq_length. reflexivity. }
  constructor.
  - intros v Hv. unfold fourier_dlf. rewrite Reqb_false by lra. cbn [bind]. unfold dlf_fourier. rewrite Reqb_false by lra. cbn [bind].
    rewrite Rltb_true by lra. rewrite (get_dlf_points_lagged filt b0 time imin imax HG Hmin Hmax Hpos ppd Hp). cbn [bind]. reflexivity.
  - intros v Hv. destruct HS as [HL _]. rewrite map2_length, HL by apply LR1. lia.
  - intros a b u v Hu Hv.
    assert (E : rev (R1 (lcC a b u v)) = lcR a b (rev (R1 u)) (rev (R1 v))).
    { unfold R1. rewrite fpart_lin. rewrite <- rearrange_lcR by (rewrite !map_length; lia).
      assert (RV : forall p q, List.length p = List.length q -> rev (lcR a b p q) = lcR a b (rev p) (rev q)).
      { intros p q L. apply (nth_ext _ _ 0%R 0%R).
        - rewrite rev_length, !lcR_length; rewrite ?rev_length; lia.
        - rewrite rev_length, lcR_length by lia. intros k Hk. rewrite rev_nth by (rewrite lcR_length; lia).
          rewrite lcR_length by lia. rewrite !lcR_nth by (rewrite ?rev_length; lia). rewrite !rev_nth by lia. rewrite <- L. reflexivity. }
      rewrite <- RV by (unfold rearrange; rewrite !map_length; reflexivity). f_equal.
      rewrite map_map. unfold rearrange.
      set (fu := List.concat (repeat (map (fpart sine) u) (List.length ip)) ++ repeat 0%R (List.length ip)).
      set (fv := List.concat (repeat (map (fpart sine) v) (List.length ip)) ++ repeat 0%R (List.length ip)).
      assert (LF : List.length fu = List.length fv).
      { unfold fu, fv. rewrite !app_length, !concat_repeat_length, !repeat_length, !map_length. lia. }
      rewrite <- LF. set (w := (List.length fu / List.length ip)%nat).
      assert (C0 : forall s, map (fun x => rdot (four_w sine filt) (lcR a b (fst x) (snd x)))
         (combine (map (fun i => firstn nb (firstn w (skipn (i * w) fu))) s) (map (fun i => firstn nb (firstn w (skipn (i * w) fv))) s))
         = lcR a b (map (rdot (four_w sine filt)) (map (fun i => firstn nb (firstn w (skipn (i * w) fu))) s))
                   (map (rdot (four_w sine filt)) (map (fun i => firstn nb (firstn w (skipn (i * w) fv))) s))).
      { induction s as [|i s IH]; [reflexivity|]. unfold lcR, map2 in *. simpl. f_equal; [|exact IH].
        cbn [fst snd]. rewrite <- (rdot_lin _ a b); [reflexivity|]. rewrite !firstn_length, !skipn_length. lia. }
      apply C0. }
    rewrite E, (spl_lin spl HS) by apply LR1. apply div_lin. destruct HS as [HL _]. rewrite !HL by apply LR1. reflexivity.
Qed.

(** Splined: interpolation in the frequency domain *)
Theorem fourier_dlf_splined : forall spl sine filt time freq ppd, linear_interp spl -> 0 < ppd ->
  exists T, linear_ft (fun v => fourier_dlf spl sine filt ppd v time freq) T (List.length freq) (List.length time).
Proof.
  intros spl sine filt time freq ppd HS Hp.
  set (pts := map (fun f => 2 * PI * f)%R freq).
  set (W := fun v q => rdot (four_w sine filt) (spl (map (fpart sine) v) pts q)).
  exists (fun v => map2 Rdiv (map (W v) (base_over (f_base filt) time)) time). constructor.
  - intros v Hv. unfold fourier_dlf. rewrite Reqb_false by lra. cbn [bind]. unfold dlf_fourier. rewrite Reqb_false by lra. cbn [bind].
    rewrite Rltb_false by lra. reflexivity.
  - intros v Hv. rewrite map2_length, map_length. unfold base_over. rewrite map_length. lia.
  - intros a b u v Hu Hv. rewrite <- div_lin by (rewrite !map_length; reflexivity). f_equal.
    apply map_lin. intros q Hq. unfold W. rewrite fpart_lin.
    assert (Lp : List.length pts = List.length freq) by (unfold pts; apply map_length).
    rewrite (spl_lin spl HS) by (rewrite map_length; lia). apply rdot_lin.
    destruct HS as [HL _]. rewrite !HL by (rewrite map_length; lia). reflexivity.
Qed.
