(** C71, C72: the design of digital filters. *)

From Coq Require Import ZArith Reals List Bool Ascii String Lia Lra Psatz.
From Coquelicot Require Import Coquelicot.
From Verif Require Import PyBase CBase Text Utils Transform UtilsArgs DataIo FilterIo FilterIoThm Fdesign Fourier FourierSum ArgsFreq ArgsKw UtilsLayer RoutinesKThm FdesignD FdesignDThm FdesignDThm2 FdesignDThm3 FdesignDThm4.
Import ListNotations.
Local Open Scope R_scope.
Local Open Scope res_scope.

(** ** A library for one column *)
Definition la1 : linalg := LA
  (fun m n a => let s := sqrt (sR (fun i => a i 0%nat ^ 2) m) in
     Some (if Req_EM_T s 0 then ((fun i j => if (i =? 0)%nat then 1 else 0), (fun _ _ => 0)) else ((fun i j => a i 0%nat / s), (fun _ _ => s))))
  (fun k n u c => if Req_EM_T (u 0%nat 0%nat) 0 then None else Some [c 0%nat / u 0%nat 0%nat]).
Lemma la1_qr : forall m, (0 < m)%nat -> qr_ok la1 m 1.
Proof.
  intros m Hm a. unfold la1, la_qr. cbv zeta. set (s := sqrt (sR (fun i => a i 0%nat ^ 2) m)).
  assert (S2 : s * s = sR (fun i => a i 0%nat ^ 2) m) by (apply sqrt_sqrt, sR_sq_pos). rewrite Nat.min_r by lia.
  destruct (Req_EM_T s 0) as [Z|Z].
  - eexists. eexists. split; [reflexivity|]. split.
    + intros i j Hi Hj. assert (j = 0)%nat by lia. subst j. unfold sR at 1. cbn [seq map rsuml fold_right]. assert (E0 : a i 0%nat = 0) by (apply (sR_sq_0 (fun i => a i 0%nat) m); [rewrite <- S2, Z; ring|exact Hi]). rewrite E0. ring.
    + intros k l Hk Hl. assert (k = 0)%nat by lia. assert (l = 0)%nat by lia. subst k l. rewrite (sR_one _ m 0 Hm); [cbn; ring|]. intros i Hi D. destruct (Nat.eqb_spec i 0); [lia|]. ring.
  - eexists. eexists. split; [reflexivity|]. split.
    + intros i j Hi Hj. assert (j = 0)%nat by lia. subst j. unfold sR at 1. cbn [seq map rsuml fold_right]. field. exact Z.
    + intros k l Hk Hl. assert (k = 0)%nat by lia. assert (l = 0)%nat by lia. subst k l. cbn [Nat.eqb].
      rewrite (sR_ext _ (fun i => / (s * s) * a i 0%nat ^ 2)) by (intros; field; exact Z). rewrite sR_scal, <- S2. field. exact Z.
Qed.
Lemma la1_solve : solve_ok la1 1 1.
Proof.
  intros u c. unfold la1, la_solve. destruct (Req_EM_T (u 0%nat 0%nat) 0) as [Z|Z].
  - right. intros H. assert (W : forall i, (i < 1)%nat -> mv u 1 (fun _ : nat => 1) i = 0); [|specialize (H (fun _ => 1) W 0%nat ltac:(lia)); cbv beta in H; lra]. intros i Hi. assert (i = 0)%nat by lia. subst i. unfold mv, sR. cbn [seq map rsuml fold_right]. rewrite Z. ring.
  - split; [reflexivity|]. split; [reflexivity|]. split.
    + intros i Hi. assert (i = 0)%nat by lia. subst i. unfold mv, sR. cbn [seq map rsuml fold_right nth]. field. exact Z.
    + intros y H j Hj. assert (j = 0)%nat by lia. subst j. specialize (H 0%nat ltac:(lia)). unfold mv, sR in H. cbn [seq map rsuml fold_right] in H. rewrite Rplus_0_r in H.
      apply Rmult_integral in H. destruct H as [H|H]; [contradiction|exact H].
Qed.
Lemma m21 : Z.to_nat (ztrunc (2 * INR 1)) = 2%nat.
Proof. replace (2 * INR 1) with (IZR 2) by (cbn; lra). rewrite ztrunc_IZR. reflexivity. Qed.

(** the pair j0_2(1):  exp(-x)  and  1/sqrt(b^2 + 1) *)
Definition x_pair : dpair := pair_of (j0_2 1).
Lemma x_pair_ok : pair_ok x_pair (fun x => RtoC (exp (- 1 * x))) (fun b => Cdiv (RtoC 1) (RtoC (sqrt (b ^ 2 + 1 ^ 2)))).
Proof.
  split.
  - intros x Hx. exists (RtoC 0). reflexivity.
  - eexists. split; [reflexivity|]. intros x Hx. cbn [gh_rhs j0_2]. unfold rdiv. apply cdiv_ok. intros W. apply (f_equal fst) in W. cbn [fst RtoC] in W.
    assert (0 < sqrt (x ^ 2 + 1 ^ 2)) by (apply sqrt_lt_R0; nra). cbn in W. cbn in H. lra.
Qed.
Lemma x_names : dp_name x_pair <> T "j2" /\ dp_name x_pair <> T "base".
Proof. split; discriminate. Qed.

(** ** C71: the filter of one spacing and shift *)
(** Base, factor, name, list of coefficients. *)
Theorem C71_base : forall la around n sp sh fI l1 l2 fac w name, (0 < n)%nat -> 0 <= fac ->
  (forall f, In f fI -> exists L G, pair_ok f L G) -> NoDup (map dp_name fI) -> (forall f, In f fI -> dp_name f <> T "j2" /\ dp_name f <> T "base") ->
  let m := Z.to_nat (ztrunc (fac * INR n)) in qr_ok la m n -> solve_ok la (Nat.min m n) n ->
  exists d base, calculate_filter la around n sp sh fI (l1, l2, fac) w name = Ok d /\ o_get (T "base") d = Ok base /\ List.length base = n /\
    (forall i, (i < n)%nat -> 0 < nth i base 0) /\
    (forall i, (S i < n)%nat -> nth (S i) base 0 = exp sp * nth i base 0) /\ nth (n / 2) base 0 = exp sh /\
    o_factor d = (if (n <? 2)%nat then None else Some (around (exp sp))) /\ o_coeff d = map dp_name fI /\ o_name d = hd [] (split "." name).
Proof.
  intros la around n sp sh fI l1 l2 fac w name Hn Hf HP ND NN m HQ HS.
  destruct (calc_spec la around n sp sh fI l1 l2 fac w name Hn Hf HP ND NN HQ HS) as (d & r & Ed & _ & _ & _ & E1 & E2 & E3 & E4 & _).
  exists d, (fd_base n sp sh). destruct (base_geometric n sp sh) as [G1 G2]. split; [exact Ed|]. split; [exact E3|]. split; [apply base_length|]. split.
  { intros i Hi. apply (base_In n sp sh), nth_In. now rewrite base_length. }
  repeat split; auto.
Qed.
Print Assumptions C71_base.

(** The points at which the pairs are compared: a logarithmic scale around the inverse of the base. *)
Theorem C71_points : forall n sp sh l1 l2 fac, (0 < n)%nat -> 0 <= fac -> exists r mx mn,
  fd_r n (l1, l2, fac) (fd_base n sp sh) = Ok r /\ List.length r = Z.to_nat (ztrunc (fac * INR n)) /\
  In mx (fd_base n sp sh) /\ In mn (fd_base n sp sh) /\ (forall b, In b (fd_base n sp sh) -> mn <= b <= mx) /\
  log_scale (/ mx * p10 (- l1)) (/ mn * p10 l2) r.
Proof. exact fd_r_spec. Qed.
Print Assumptions C71_points.

(** The values of every pair are the one least-squares solution, or zeros if there is none. *)
Theorem C71_least_squares : forall la around n sp sh fI l1 l2 fac w name, (0 < n)%nat -> 0 <= fac ->
  (forall f, In f fI -> exists L G, pair_ok f L G) -> NoDup (map dp_name fI) -> (forall f, In f fI -> dp_name f <> T "j2" /\ dp_name f <> T "base") ->
  let m := Z.to_nat (ztrunc (fac * INR n)) in qr_ok la m n -> solve_ok la (Nat.min m n) n ->
  exists d r base, calculate_filter la around n sp sh fI (l1, l2, fac) w name = Ok d /\ fd_r n (l1, l2, fac) (fd_base n sp sh) = Ok r /\ o_get (T "base") d = Ok base /\
    forall f L G, In f fI -> pair_ok f L G -> exists x, o_get (dp_name f) d = Ok x /\ List.length x = n /\
      ((m < n)%nat -> x = repeat 0 n) /\
      ((n <= m)%nat -> ~ distinguishes w L base r -> x = repeat 0 n) /\
      ((n <= m)%nat -> distinguishes w L base r -> forall y, List.length y = n ->
        residual w L G base r x <= residual w L G base r y /\ (residual w L G base r y = residual w L G base r x -> y = x)).
Proof.
  intros la around n sp sh fI l1 l2 fac w name Hn Hf HP ND NN m HQ HS.
  destruct (calc_spec la around n sp sh fI l1 l2 fac w name Hn Hf HP ND NN HQ HS) as (d & r & Ed & Er & _ & _ & _ & _ & E3 & _ & X).
  exists d, r, (fd_base n sp sh). repeat split; auto.
Qed.
Print Assumptions C71_least_squares.

(** If numpy cannot factorise the matrix, every pair has zeros. *)
Theorem C71_failure : forall la around n sp sh fI l1 l2 fac w name, (0 < n)%nat -> 0 <= fac ->
  (forall f, In f fI -> exists L G, pair_ok f L G) -> NoDup (map dp_name fI) -> (forall f, In f fI -> dp_name f <> T "j2" /\ dp_name f <> T "base") ->
  (forall a, la_qr la (Z.to_nat (ztrunc (fac * INR n))) n a = None) ->
  exists d, calculate_filter la around n sp sh fI (l1, l2, fac) w name = Ok d /\ forall f, In f fI -> o_get (dp_name f) d = Ok (repeat 0 n).
Proof. exact calc_fails. Qed.
Example C71_failure_case : exists d, calculate_filter {| la_qr := fun _ _ _ => None; la_solve := la_solve la1 |} (fun y => y) 3 1 0 [x_pair] (1, 1, 2) ReR (T "mine.gz") = Ok d /\ o_get (T "j0") d = Ok [0; 0; 0].
Proof.
  destruct (C71_failure {| la_qr := fun _ _ _ => None; la_solve := la_solve la1 |} (fun y => y) 3 1 0 [x_pair] 1 1 2 ReR (T "mine.gz") ltac:(lia) ltac:(lra)) as (d & Ed & X).
  - intros f [<- | []]. exists (fun x => RtoC (exp (- 1 * x))), (fun b => Cdiv (RtoC 1) (RtoC (sqrt (b ^ 2 + 1 ^ 2)))). exact x_pair_ok.
  - constructor; [intros []|constructor].
  - intros f [<- | []]. split; discriminate.
  - reflexivity.
  - exists d. split; [exact Ed|]. exact (X x_pair (or_introl eq_refl)).
Qed.
Print Assumptions C71_failure.

(** If any filter on this base reproduces the pair at the design points, it is the one found, and the transform
    with it gives the right-hand side there. *)
Theorem C71_exact : forall la around n sp sh f L G l1 l2 fac w name y, (0 < n)%nat -> 0 <= fac -> pair_ok f L G -> dp_name f <> T "j2" -> dp_name f <> T "base" ->
  let m := Z.to_nat (ztrunc (fac * INR n)) in qr_ok la m n -> solve_ok la (Nat.min m n) n -> (n <= m)%nat ->
  forall r, fd_r n (l1, l2, fac) (fd_base n sp sh) = Ok r -> distinguishes w L (fd_base n sp sh) r -> List.length y = n -> residual w L G (fd_base n sp sh) r y = 0 ->
  exists d v, calculate_filter la around n sp sh [f] (l1, l2, fac) w name = Ok d /\ o_get (dp_name f) d = Ok y /\
    fd_out d r f = Ok v /\ forall i, (i < List.length r)%nat -> reim w (nth i v (RtoC 0)) = reim w (G (nth i r 0)).
Proof.
  intros la around n sp sh f L G l1 l2 fac w name y Hn Hf HO NJ NB m HQ HS Hm r Er D Ly Z.
  destruct (calc_spec la around n sp sh [f] l1 l2 fac w name Hn Hf) as (d & r' & Ed & Er' & Lr & Pr & _ & _ & Eb & _ & X); auto.
  { intros g [<- | []]. eauto. } { constructor; [tauto|constructor]. } { intros g [<- | []]. auto. }
  assert (r' = r) by congruence. subst r'. destruct (X f L G (or_introl eq_refl) HO) as (x & Ex & Lx & _ & _ & Q). destruct (Q Hm D y Ly) as [Q1 Q2].
  assert (y = x). { apply Q2. rewrite Z in Q1 |- *. pose proof (residual_pos w L G (fd_base n sp sh) r x). lra. } subst x.
  exists d. eexists. split; [exact Ed|]. split; [exact Ex|]. split; [apply (out_spec d r f L (fd_base n sp sh) y Eb Ex NJ (base_In n sp sh) Pr); exact (proj1 HO)|].
  intros i Hi. rewrite (nth_map_any _ r i 0 (RtoC 0) Hi). cbv beta. apply (exact_out w L G (fd_base n sp sh) r y); [now rewrite base_length|exact Pr|exact Z|exact Hi].
Qed.
Print Assumptions C71_exact.

Lemma x_dist : forall w r base, w = ReR -> r <> [] -> List.length base = 1%nat -> distinguishes w (fun x => RtoC (exp (- 1 * x))) base r.
Proof.
  intros w r base -> Nr Lb y H j Hj. rewrite Lb in *. assert (j = 0)%nat by lia. subst j. specialize (H 0%nat ltac:(destruct r; [congruence|cbn; lia])).
  unfold sR in H. cbn [seq map rsuml fold_right reim fst RtoC] in H. rewrite Rplus_0_r in H. apply Rmult_integral in H. destruct H as [H|H]; [|exact H].
  match type of H with exp ?e = 0 => pose proof (exp_pos e); lra end.
Qed.
Example C71_case : exists d r x, calculate_filter la1 (fun y => y) 1 1 0 [x_pair] (1, 1, 2) ReR (T "mine.gz") = Ok d /\ List.length r = 2%nat /\ o_name d = T "mine" /\
  o_get (T "j0") d = Ok [x] /\ forall y, residual ReR (fun x => RtoC (exp (- 1 * x))) (fun b => Cdiv (RtoC 1) (RtoC (sqrt (b ^ 2 + 1 ^ 2)))) [exp (1 * (0 - 0) + 0)] r [x] <=
    residual ReR (fun x => RtoC (exp (- 1 * x))) (fun b => Cdiv (RtoC 1) (RtoC (sqrt (b ^ 2 + 1 ^ 2)))) [exp (1 * (0 - 0) + 0)] r [y].
Proof.
  destruct (calc_spec la1 (fun y => y) 1 1 0 [x_pair] 1 1 2 ReR (T "mine.gz") ltac:(lia) ltac:(lra)) as (d & r & Ed & Er & Lr & Pr & En & _ & Eb & _ & X).
  - intros f [<- | []]. exists (fun x => RtoC (exp (- 1 * x))), (fun b => Cdiv (RtoC 1) (RtoC (sqrt (b ^ 2 + 1 ^ 2)))). exact x_pair_ok.
  - constructor; [intros []|constructor].
  - intros f [<- | []]. exact x_names.
  - rewrite m21. apply la1_qr. lia.
  - rewrite m21. exact la1_solve.
  - rewrite m21 in Lr, X. destruct (X x_pair _ _ (or_introl eq_refl) x_pair_ok) as (x & Ex & Lx & _ & _ & Q). destruct x as [|x0 [|x1 x]]; try discriminate Lx.
    exists d, r, x0. split; [exact Ed|]. split; [exact Lr|]. split; [rewrite En; reflexivity|]. split; [exact Ex|]. intros y.
    exact (proj1 (Q ltac:(lia) (x_dist ReR r (fd_base 1 1 0) eq_refl ltac:(intros ->; discriminate Lr) eq_refl) [y] eq_refl)).
Qed.

(** ** C72: the rating of a filter, the search and the objects *)
Theorem C72_rating : forall d r error amp f v t, fd_out d r f = Ok v -> dp_rhs f = RhsArr t -> r <> [] -> (forall x, In x r -> x <> 0) ->
  exists o, objective d r error amp [f] = Ok o /\
  match o with
  | Fin m => exists i, (0 < i < List.length r)%nat /\ m = rating amp v r i /\
      (n_off error v t i <= 4)%nat /\
      ((n_off error v t (List.length v) < 5)%nat -> (forall j, (j <= i)%nat -> ~ off error v t j) /\ (i = (List.length r - 1)%nat \/ off error v t (S i))) /\
      ((5 <= n_off error v t (List.length v))%nat -> off error v t (i + 5) /\ n_off error v t (i + 5) = 5%nat)
  | PInf => (forall j, nth j v (RtoC 0) = RtoC 0) \/ List.length r = 1%nat \/ off error v t 0 \/ off error v t 1
  | NInf => False
  end.
Proof. exact rate_one. Qed.
Print Assumptions C72_rating.
(** [n_off] counts the points with too large an error. *)
Theorem C72_count : forall error v t i, (i <= List.length v)%nat -> exists l, NoDup l /\ List.length l = n_off error v t i /\
  forall j, In j l <-> (j <= i)%nat /\ (j < List.length v)%nat /\ off error v t j.
Proof. exact n_off_spec. Qed.
Print Assumptions C72_count.

(** Several pairs: the largest value, and the index of the pair which has it. *)
Theorem C72_together : forall d r error amp fC o, objective d r error amp fC = Ok o ->
  exists l i m, mapM (fd_one d r error amp) fC = Ok l /\ In (i, m) l /\ (forall i' m', In (i', m') l -> m' <= m) /\ o = (if (i =? 0)%nat then PInf else Fin m).
Proof. exact rate_several. Qed.
Print Assumptions C72_together.
(** With cvar='r' the pairs are rated together as the worst of them alone. *)
Theorem C72_together_r : forall d r error fC o, (forall i j, (i < j)%nat -> (j < List.length r)%nat -> nth i r 0 < nth j r 0) -> (forall i, (i < List.length r)%nat -> 0 < nth i r 0) ->
  objective d r error false fC = Ok o ->
  (exists f, In f fC /\ objective d r error false [f] = Ok o) /\
  (forall f, In f fC -> exists o', objective d r error false [f] = Ok o' /\ ext_ltb o o' = false).
Proof. exact rate_r. Qed.
Print Assumptions C72_together_r.

(** A filter on the base [1] with the value 1, and pairs with the response 1 everywhere. *)
Definition z_fil : dlfo := DO [] (fun q => if teqb q (T "base") then Some [1] else if teqb q (T "j0") then Some [1] else None) None [].
Definition z_pair (t : list R) : dpair := DP (T "j0") (fun k => Ok (RtoC (/ k), RtoC 0)) (RhsArr (map RtoC t)).
Definition z_null : dpair := DP (T "j0") (fun k => Ok (RtoC 0, RtoC 0)) (RhsArr (map RtoC [1; 1; 1])).
Lemma z_out : forall t r, (forall x, In x r -> 0 < x) -> fd_out z_fil r (z_pair t) = Ok (map (fun _ => RtoC 1) r).
Proof.
  intros t r Pr. rewrite (out_spec z_fil r (z_pair t) (fun k => RtoC (/ k)) [1] [1]); [|reflexivity|reflexivity|discriminate|intros b [<- | []]; lra|exact Pr|intros x Hx; exists (RtoC 0); reflexivity].
  f_equal. apply map_ext_in. intros x Hx. specialize (Pr x Hx). cbn [map].
  assert (NX : RtoC x <> RtoC 0) by (intros W; apply (f_equal fst) in W; cbn in W; lra).
  replace (/ (1 / x)) with x by (field; lra). unfold dot, csuml, map2. cbn [combine map fold_right fst snd]. field. exact NX.
Qed.
Lemma z_null_out : forall r, (forall x, In x r -> 0 < x) -> fd_out z_fil r z_null = Ok (map (fun _ => RtoC 0) r).
Proof.
  intros r Pr. rewrite (out_spec z_fil r z_null (fun k => RtoC 0) [1] [1]); [|reflexivity|reflexivity|discriminate|intros b [<- | []]; lra|exact Pr|intros x Hx; exists (RtoC 0); reflexivity].
  f_equal. apply map_ext_in. intros x Hx. specialize (Pr x Hx). cbn [map].
  assert (NX : RtoC x <> RtoC 0) by (intros W; apply (f_equal fst) in W; cbn in W; lra).
  unfold dot, csuml, map2. cbn [combine map fold_right fst snd]. field. exact NX.
Qed.
Lemma z_good : is_bad (1 / 100) (RtoC 1) (RtoC 1) = false.
Proof. destruct (is_bad _ _ _) eqn:E; [|reflexivity]. apply is_bad_spec in E. replace (Cminus (RtoC 1) (RtoC 1)) with (RtoC 0) in E by ring. rewrite Cmod_0, Cmod_1 in E. lra. Qed.
Lemma z_bad : is_bad (1 / 100) (RtoC 1) (RtoC 2) = true.
Proof. apply is_bad_spec. rewrite <- RtoC_minus, !Cmod_R. unfold Rabs. destruct (Rcase_abs 2), (Rcase_abs (1 - 2)); lra. Qed.
Lemma z_nz : is_zeroC (RtoC 1) = false.
Proof. destruct (is_zeroC (RtoC 1)) eqn:E; [|reflexivity]. apply is_zeroC_spec in E. apply (f_equal fst) in E. cbn in E. lra. Qed.
Definition z_r : list R := [1; 2; 3; 4; 5; 6; 7; 8; 9; 10; 11; 12].
Lemma z_r_pos : forall x, In x z_r -> 0 < x.
Proof. intros x H. cbn [z_r In] in H. repeat (destruct H as [<- | H]; [lra|]). destruct H. Qed.
(** too large an error at one point, and at five points, one of which is that point *)
Definition z_t1 : list R := [1; 2; 1; 1; 1; 1; 1; 1; 1; 1; 1; 1].
Definition z_t5 : list R := [1; 2; 1; 2; 1; 2; 1; 2; 1; 1; 1; 2].
Lemma z_rate : forall t i, imin_of (map (fun _ => RtoC 1) z_r) (bad_idx (1 / 100) (map (fun _ => RtoC 1) z_r) (map RtoC t)) = i ->
  objective z_fil z_r (1 / 100) false [z_pair t] = Ok (if (i =? 0)%nat then PInf else Fin (rating false (map (fun _ => RtoC 1) z_r) z_r i)).
Proof.
  intros t i E. destruct (one_eq z_fil z_r (1 / 100) false (z_pair t) _ (map RtoC t) (z_out t z_r z_r_pos) eq_refl) as [O _]; [discriminate|intros x Hx; pose proof (z_r_pos x Hx); lra|].
  rewrite E in O. unfold objective. cbn [fd_worst]. rewrite O. reflexivity.
Qed.
Lemma z_bad1 : bad_idx (1 / 100) (map (fun _ => RtoC 1) z_r) (map RtoC z_t1) = [1%nat].
Proof. unfold bad_idx, z_r, z_t1. cbn [map List.length seq filter nth]. rewrite !z_good, z_bad. reflexivity. Qed.
Lemma z_bad5 : bad_idx (1 / 100) (map (fun _ => RtoC 1) z_r) (map RtoC z_t5) = [1; 3; 5; 7; 11]%nat.
Proof. unfold bad_idx, z_r, z_t5. cbn [map List.length seq filter nth]. rewrite !z_good, !z_bad. reflexivity. Qed.
Lemma z_rate1 : objective z_fil z_r (1 / 100) false [z_pair z_t1] = Ok PInf.
Proof. rewrite (z_rate z_t1 0); [reflexivity|]. rewrite z_bad1. unfold imin_of, z_r. cbn [map forallb]. rewrite z_nz. reflexivity. Qed.
Lemma z_rate5 : objective z_fil z_r (1 / 100) false [z_pair z_t5] = Ok (Fin (1 / 7)).
Proof. rewrite (z_rate z_t5 6); [reflexivity|]. rewrite z_bad5. unfold imin_of, z_r. cbn [map forallb]. rewrite z_nz. reflexivity. Qed.

(** Claim: if the result is off at more points, the rating is not better.  False: one point off gives infinity, that
    point and four more give a finite value. *)
Theorem C72_more_errors_refuted : ~ (forall d r error amp f g v t u o o', fd_out d r f = Ok v -> fd_out d r g = Ok v -> dp_rhs f = RhsArr t -> dp_rhs g = RhsArr u ->
  (forall j, off error v t j -> off error v u j) -> objective d r error amp [f] = Ok o -> objective d r error amp [g] = Ok o' -> ext_ltb o' o = false).
Proof.
  intros H. pose proof (H z_fil z_r (1 / 100) false (z_pair z_t1) (z_pair z_t5) _ _ _ PInf (Fin (1 / 7)) (z_out z_t1 z_r z_r_pos) (z_out z_t5 z_r z_r_pos) eq_refl eq_refl) as Q.
  cbn [ext_ltb] in Q. enough (true = false) by discriminate. apply Q; [|exact z_rate1|exact z_rate5].
  intros j O. destruct (Nat.lt_ge_cases j 12) as [L|L].
  - assert (I : In j (bad_idx (1 / 100) (map (fun _ => RtoC 1) z_r) (map RtoC z_t1))) by (apply bad_In; split; [exact L|exact O]).
    rewrite z_bad1 in I. destruct I as [<- | []]. apply (bad_In (1 / 100) (map (fun _ => RtoC 1) z_r) (map RtoC z_t5) 1). rewrite z_bad5. now left.
  - unfold off in *. rewrite (nth_overflow (map RtoC z_t1)) in O by exact L. rewrite (nth_overflow (map RtoC z_t5)) by exact L. exact O.
Qed.
Print Assumptions C72_more_errors_refuted.

(** Claim: with a finite value, all points up to the one of the value are within the error. *)
Theorem C72_within_refuted : ~ (forall d r error f v t m, fd_out d r f = Ok v -> dp_rhs f = RhsArr t -> objective d r error false [f] = Ok (Fin m) ->
  forall j, 1 / nth j r 0 > m -> (j < List.length r)%nat -> ~ off error v t j).
Proof.
  intros H. apply (H z_fil z_r (1 / 100) (z_pair z_t5) _ _ _ (z_out z_t5 z_r z_r_pos) eq_refl z_rate5 1%nat).
  - cbn [nth z_r]. lra.
  - cbn. lia.
  - apply (bad_In (1 / 100) (map (fun _ => RtoC 1) z_r) (map RtoC z_t5) 1). rewrite z_bad5. now left.
Qed.
Print Assumptions C72_within_refuted.

(** Claim: a filter which is useless for one of the pairs gets infinity.  False with cvar='amp': zeros for one pair
    are not noticed if there is another pair. *)
Theorem C72_useless_refuted : ~ (forall d r error fC f, In f fC -> objective d r error true [f] = Ok PInf -> objective d r error true fC = Ok PInf).
Proof.
  intros H. set (r3 := [1; 2; 3]). assert (P3 : forall x, In x r3 -> 0 < x) by (intros x Hx; cbn [r3 In] in Hx; repeat (destruct Hx as [<- | Hx]; [lra|]); destruct Hx).
  assert (N3 : forall x, In x r3 -> x <> 0) by (intros x Hx; specialize (P3 x Hx); lra).
  assert (A : fd_one z_fil r3 (1 / 100) true (z_pair [1; 1; 1]) = Ok (2%nat, 1)).
  { destruct (one_eq z_fil r3 (1 / 100) true (z_pair [1; 1; 1]) _ (map RtoC [1; 1; 1]) (z_out [1; 1; 1] r3 P3) eq_refl) as [O _]; [discriminate|exact N3|].
    revert O. unfold bad_idx, r3, imin_of. cbn [map List.length seq filter nth]. rewrite !z_good. cbn [forallb]. rewrite z_nz. cbn [andb Nat.sub]. unfold rating. cbn [nth]. rewrite Cmod_1. auto. }
  assert (B : fd_one z_fil r3 (1 / 100) true z_null = Ok (0%nat, 0)).
  { destruct (one_eq z_fil r3 (1 / 100) true z_null _ (map RtoC [1; 1; 1]) (z_null_out r3 P3) eq_refl) as [O _]; [discriminate|exact N3|].
    revert O. unfold imin_of, r3. cbn [map forallb]. rewrite (proj2 (is_zeroC_spec (RtoC 0)) eq_refl). cbn [andb]. unfold rating. cbn [nth]. rewrite Cmod_0. auto. }
  specialize (H z_fil r3 (1 / 100) [z_pair [1; 1; 1]; z_null] z_null ltac:(right; now left)). unfold objective in H. cbn [fd_worst] in H. rewrite A, B in H. cbn [bind fst snd Nat.eqb] in H.
  specialize (H eq_refl). rewrite (proj2 (UtilsLayer.Rltb_false 1 0)) in H by lra. cbn in H. discriminate.
Qed.
Print Assumptions C72_useless_refuted.

(** The search: the filter returned belongs to a point of the grid where the value is smallest. *)
Theorem C72_search : forall la around h n sp sh fI fC ro rd w amp error name res, design la around h n sp sh fI fC ro rd w amp error name = Ok res ->
  exists r pI pC, (match ro with None => logspace 0 5 1000 | Some r => Ok r end) = Ok r /\
    (let '(h0, fC0) := match fC with [] => deepcopy h fI | _ => (h, fC) end in put_rhs h0 fC0 r = Ok (d_heap res) /\ deref (d_heap res) fI = Ok pI /\ deref (d_heap res) fC0 = Ok pC) /\
    calculate_filter la around n (fst (d_best res)) (snd (d_best res)) pI rd w name = Ok (d_filter res) /\
    In (fst (d_best res)) (grid (ls2ar sp)) /\ In (snd (d_best res)) (grid (ls2ar sh)) /\
    get_min_val la around n pI pC r rd error w amp (fst (d_best res)) (snd (d_best res)) = Ok (d_min res) /\
    forall a b, In a (grid (ls2ar sp)) -> In b (grid (ls2ar sh)) -> exists v, get_min_val la around n pI pC r rd error w amp a b = Ok v /\ ext_ltb v (d_min res) = false.
Proof. exact design_inv. Qed.
Print Assumptions C72_search.
(** ... the first one of them. *)
Theorem C72_first : forall A (l : list (A * ext)) x, argmin l = Ok x -> exists l1 l2, l = (l1 ++ x :: l2)%list /\
  (forall y, In y l1 -> ext_ltb (snd x) (snd y) = true) /\ (forall y, In y l2 -> ext_ltb (snd y) (snd x) = false).
Proof. exact argmin_spec. Qed.
Print Assumptions C72_first.

(** Without fC: the call succeeds for pairs with values, and leaves the objects alone. *)
Theorem C72_default : forall la around h n sp sh fI r l1 l2 fac w amp error name, (0 < n)%nat -> 0 <= fac -> fI <> [] -> NoDup fI -> good_pairs h fI ->
  r <> [] -> (forall x, In x r -> 0 < x) ->
  let m := Z.to_nat (ztrunc (fac * INR n)) in qr_ok la m n -> solve_ok la (Nat.min m n) n ->
  exists res, design la around h n sp sh fI [] (Some r) (l1, l2, fac) w amp error name = Ok res /\
    forall i, (i < List.length h)%nat -> nth_error (d_heap res) i = nth_error h i.
Proof.
  intros la around h n sp sh fI r l1 l2 fac w amp error name Hn Hf NE ND HG Nr Pr m HQ HS.
  destruct (design_total la around h n sp sh fI r l1 l2 fac w amp error name Hn Hf NE ND HG Nr Pr HQ HS) as [res E]. exists res. split; [exact E|].
  exact (design_untouched la around h n sp sh fI (Some r) (l1, l2, fac) w amp error name res E).
Qed.
Print Assumptions C72_default.

Lemma x_good_pairs : forall l, (forall i, In i l -> i = 0%nat) -> good_pairs [x_pair; x_pair] l.
Proof.
  intros l H. split.
  - intros i Hi. rewrite (H i Hi). exists x_pair. do 2 eexists. split; [reflexivity|]. split; [exact x_pair_ok|exact x_names].
  - intros i j f g Hi Hj _ _ _. rewrite (H i Hi), (H j Hj). reflexivity.
Qed.
Lemma x_design : forall fC, fC = [] \/ fC = [1%nat] -> exists res, design la1 (fun y => y) [x_pair; x_pair] 1 (LsTuple 1 2 5) (LsTuple (-1) 1 3) [0%nat] fC (Some [1; 2; 3]) (1, 1, 2) ReR true (1 / 100) (T "mine") = Ok res.
Proof.
  assert (NE : [0%nat] <> []) by discriminate. assert (ND : forall k : nat, NoDup [k]) by (intros k; constructor; [intros []|constructor]).
  assert (P : forall x, In x [1; 2; 3] -> 0 < x) by (intros x Hx; cbn [In] in Hx; repeat (destruct Hx as [<- | Hx]; [lra|]); destruct Hx).
  assert (HQ : qr_ok la1 (Z.to_nat (ztrunc (2 * INR 1))) 1) by (rewrite m21; apply la1_qr; lia).
  assert (HS : solve_ok la1 (Nat.min (Z.to_nat (ztrunc (2 * INR 1))) 1) 1) by (rewrite m21; exact la1_solve).
  assert (G : good_pairs [x_pair; x_pair] [0%nat]) by (apply x_good_pairs; intros i [<- | []]; reflexivity).
  intros fC [-> | ->].
  - apply design_total; auto; [lra|discriminate].
  - apply design_total_fc; auto; [lra|discriminate| | |discriminate].
    + intros i [<- | []] [H|[]]. discriminate.
    + intros j [<- | []]. exists x_pair. do 2 eexists. exists 0%nat, x_pair. split; [reflexivity|]. split; [exact x_pair_ok|]. split; [now left|]. split; reflexivity.
Qed.
Example C72_case : exists res, design la1 (fun y => y) [x_pair; x_pair] 1 (LsTuple 1 2 5) (LsTuple (-1) 1 3) [0%nat] [] (Some [1; 2; 3]) (1, 1, 2) ReR true (1 / 100) (T "mine") = Ok res /\
  In (fst (d_best res)) (grid (ls2ar (LsTuple 1 2 5))) /\ nth_error (d_heap res) 0 = Some x_pair.
Proof.
  destruct (x_design [] (or_introl eq_refl)) as [res E]. exists res. split; [exact E|]. destruct (C72_search _ _ _ _ _ _ _ _ _ _ _ _ _ _ _ E) as (r & pI & pC & _ & _ & _ & I & _). split; [exact I|].
  rewrite (design_untouched _ _ _ _ _ _ _ _ _ _ _ _ _ _ E) by (cbn; lia). reflexivity.
Qed.

(** With fC the call writes into its pairs: claim that a call can be repeated.  False: after every successful call
    the same call fails. *)
Theorem C72_repeat_refuted : (forall la around h n sp sh fI fC ro rd w amp error name res, fC <> [] -> design la around h n sp sh fI fC ro rd w amp error name = Ok res ->
    design la around (d_heap res) n sp sh fI fC ro rd w amp error name = Err TypeError) /\
  exists res, design la1 (fun y => y) [x_pair; x_pair] 1 (LsTuple 1 2 5) (LsTuple (-1) 1 3) [0%nat] [1%nat] (Some [1; 2; 3]) (1, 1, 2) ReR true (1 / 100) (T "mine") = Ok res.
Proof. split; [exact design_same_again|]. apply x_design. now right. Qed.
Print Assumptions C72_repeat_refuted.

(** Claim: giving fC = fI is the same as leaving fC out.  False: it always fails, where leaving it out works. *)
Theorem C72_same_refuted : (forall la around h n sp sh fI fC ro rd w amp error name res i, In i fI -> In i fC -> design la around h n sp sh fI fC ro rd w amp error name <> Ok res) /\
  exists res, design la1 (fun y => y) [x_pair; x_pair] 1 (LsTuple 1 2 5) (LsTuple (-1) 1 3) [0%nat] [] (Some [1; 2; 3]) (1, 1, 2) ReR true (1 / 100) (T "mine") = Ok res.
Proof. split; [exact design_shared|]. apply x_design. now left. Qed.
Print Assumptions C72_same_refuted.

(** A pair given twice makes the call fail. *)
Theorem C72_twice : forall la around h n sp sh fI fC ro rd w amp error name res, design la around h n sp sh fI fC ro rd w amp error name = Ok res ->
  NoDup (match fC with [] => fI | _ => fC end).
Proof. exact design_twice. Qed.
Print Assumptions C72_twice.

Example C72_rating_case : objective z_fil z_r (1 / 100) false [z_pair z_t5] = Ok (Fin (1 / 7)) /\ objective z_fil z_r (1 / 100) false [z_pair z_t5; z_pair z_t1] = Ok PInf.
Proof.
  split; [exact z_rate5|]. 
  destruct (one_eq z_fil z_r (1 / 100) false (z_pair z_t5) _ (map RtoC z_t5) (z_out z_t5 z_r z_r_pos) eq_refl) as [O5 _]; [discriminate|intros x Hx; pose proof (z_r_pos x Hx); lra|].
  destruct (one_eq z_fil z_r (1 / 100) false (z_pair z_t1) _ (map RtoC z_t1) (z_out z_t1 z_r z_r_pos) eq_refl) as [O1 _]; [discriminate|intros x Hx; pose proof (z_r_pos x Hx); lra|].
  rewrite z_bad5 in O5. rewrite z_bad1 in O1. unfold imin_of in O1, O5. assert (Z : forallb is_zeroC (map (fun _ => RtoC 1) z_r) = false) by (unfold z_r; cbn [map forallb]; rewrite z_nz; reflexivity).
  rewrite Z in O1, O5. cbn [nth_error Nat.sub] in O1, O5. unfold rating in O1, O5. cbn [nth z_r] in O1, O5. fold z_r in O1, O5.
  unfold objective. cbn [fd_worst]. rewrite O5, O1. cbn [bind snd]. rewrite (proj2 (UtilsLayer.Rltb_true (1 / 7) (1 / 1))) by lra. reflexivity.
Qed.
