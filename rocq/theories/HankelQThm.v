(** What the Hankel transforms by quadrature compute (C70). *)

From Coq Require Import ZArith Reals List Bool String Lia Lra Psatz.
From Coquelicot Require Import Coquelicot.
From Verif Require Import PyBase CBase Kernel Utils UtilsLayer Transform TransformDlf TransformQwe TransformQuad UtilsArgs Model ModelFem Fourier FourierSum FourierFft FourierLog3 FourierQwe HankelQ BipoleCol.
Import ListNotations.
Local Open Scope R_scope.
Local Open Scope C_scope.
Local Open Scope res_scope.

(** ** Specification *)

(** Gauss quadrature of a complex function over an interval *)
Definition gauss (gx gw : list R) (g : R -> C) (a b : R) : C :=
  Cmult (RtoC ((b - a) / 2)) (csuml (map (fun j => Cmult (RtoC (nth j gw 0%R)) (g ((b - a) / 2 * (nth j gx 0 + 1) + a)%R)) (seq 0 (List.length gx)))).

(** the integrand of the Hankel transform: kernels of J0, J1 and J0 (with the
    angle), the second divided by the offset for the components with J2 *)
Definition hankel_integrand (j0 j1 : R -> R) (ab : Z) (k0 k1 k0b : R -> C) (r ang l : R) : C :=
  Cplus (Cplus (Cmult (k0 l) (RtoC (j0 (r * l)%R)))
               (Cmult (RtoC ang) (Cmult (if isJ2 ab then Cdiv (k1 l) (RtoC r) else k1 l) (RtoC (j1 (r * l)%R)))))
        (Cmult (RtoC ang) (Cmult (k0b l) (RtoC (j0 (r * l)%R)))).

(** kernels of a triple *)
Definition kpart (p : triple -> option C) (k : R -> triple) (l : R) : C := oval (p (k l)).
Definition present (used : bool * bool * bool) (k : R -> triple) : Prop :=
  forall l, (fst (fst used) = false -> t0 (k l) = None) /\ (snd (fst used) = false -> t1 (k l) = None) /\ (snd used = false -> t0b (k l) = None).

(** ** Extensionality of the extrapolation *)
Lemma wynn2_ext : forall s s' M k, (forall n, (n <= M)%nat -> s n = s' n) ->
  (forall n, (n + k <= M)%nat -> snd (wynn2 s k) n = snd (wynn2 s' k) n) /\
  (forall n, (n + k <= S M)%nat -> fst (wynn2 s k) n = fst (wynn2 s' k) n).
Proof.
  intros s s' M k H. induction k as [|k [I1 I2]].
  - cbn [wynn2 fst snd]. split; [intros n Hn; apply H; lia|reflexivity].
  - cbn [wynn2 fst snd]. split.
    + intros n Hn. rewrite I2, !I1 by lia. reflexivity.
    + intros n Hn. apply I1. lia.
Qed.
Lemma psum_ext : forall c c' M, (forall n, (n <= M)%nat -> c n = c' n) -> forall n, (n <= M)%nat -> psum c n = psum c' n.
Proof. intros c c' M H n. induction n as [|n IH]; intros Hn; [reflexivity|]. cbn [psum]. rewrite IH, H by lia. reflexivity. Qed.
Lemma extrapolated_ext : forall c c' i, (forall n, (n <= i)%nat -> c n = c' n) -> extrapolated c i = extrapolated c' i.
Proof.
  intros c c' i H. unfold extrapolated, eps. rewrite (H 0%nat) by lia. f_equal.
  pose proof (Nat.mod_le i 2 ltac:(lia)).
  apply (proj1 (wynn2_ext (psum c) (psum c') i (i - i mod 2) (psum_ext c c' i H))). lia.
Qed.
Lemma find_ext' : forall A (p q : A -> bool) l, (forall x, In x l -> p x = q x) -> find p l = find q l.
Proof. intros A p q l H. induction l as [|x l IH]; [reflexivity|]. cbn [find]. rewrite H, IH; auto with datatypes. Qed.
Lemma first_stop_ext : forall rtol atol zc c c' hi, (forall n, (n <= hi)%nat -> c n = c' n) ->
  first_stop rtol atol zc c hi = first_stop rtol atol zc c' hi.
Proof.
  intros rtol atol zc c c' hi H. unfold first_stop. apply find_ext'. intros i Hi. apply in_seq in Hi. unfold stops.
  rewrite (extrapolated_ext c c' i), (extrapolated_ext c c' (i - 1)) by (intros; apply H; lia). reflexivity.
Qed.
Lemma qwe_value_ext : forall rtol atol zc maxint c c', (2 <= maxint)%nat -> (forall n, (n < maxint)%nat -> c n = c' n) ->
  qwe_value rtol atol zc maxint c = qwe_value rtol atol zc maxint c'.
Proof.
  intros rtol atol zc maxint c c' Hm H. unfold qwe_value. rewrite (first_stop_ext rtol atol zc c c') by (intros; apply H; lia).
  destruct (first_stop rtol atol zc c' (maxint - 1)) as [i|] eqn:F.
  - assert (Hi : (i <= maxint - 1)%nat). { apply find_some in F. destruct F as [F _]. apply in_seq in F. lia. }
    rewrite (extrapolated_ext c c') by (intros; apply H; lia). reflexivity.
  - rewrite (extrapolated_ext c c') by (intros; apply H; lia). reflexivity.
Qed.
Lemma qwe_stops_ext : forall rtol atol zc maxint c c', (2 <= maxint)%nat -> (forall n, (n < maxint)%nat -> c n = c' n) ->
  qwe_stops rtol atol zc maxint c = qwe_stops rtol atol zc maxint c'.
Proof. intros rtol atol zc maxint c c' Hm H. unfold qwe_stops. rewrite (first_stop_ext rtol atol zc c c') by (intros; apply H; lia). reflexivity. Qed.

(** ** Sums *)
Lemma csuml_map_ext : forall (f g : nat -> C) l, (forall j, In j l -> f j = g j) -> csuml (map f l) = csuml (map g l).
Proof. intros f g l H. f_equal. apply map_ext_in. exact H. Qed.
Lemma csuml_plus : forall A (f g : A -> C) l, csuml (map (fun j => Cplus (f j) (g j)) l) = Cplus (csuml (map f l)) (csuml (map g l)).
Proof. intros A f g l. induction l as [|x l IH]; cbn [map csuml fold_right]; [ring|]. fold (csuml (map (fun j => Cplus (f j) (g j)) l)). rewrite IH. unfold csuml. ring. Qed.
Lemma csuml_scal : forall A (f : A -> C) c l, csuml (map (fun j => Cmult c (f j)) l) = Cmult c (csuml (map f l)).
Proof. intros A f c l. induction l as [|x l IH]; cbn [map csuml fold_right]; [ring|]. fold (csuml (map (fun j => Cmult c (f j)) l)). rewrite IH. unfold csuml. ring. Qed.

Section Thm.
Variable rquad : (R -> R) -> R -> R -> R -> R -> nat -> R * nat.
Variable isp : list R -> list R -> R -> R.
Variables j0 j1 j2 : R -> R.
Variables gx gw : list R.

(** ** One interval *)
Section One.
Variable x : nat -> R.
Variables (maxint : nat) (r : R).
Hypothesis Hr : r <> 0%R.
Let nquad := List.length gx.

Lemma div_mod_block : forall i j, (j < nquad)%nat -> ((i * nquad + j) / nquad = i /\ (i * nquad + j) mod nquad = j)%nat.
Proof using.
  intros i j Hj. split; [rewrite Nat.div_add_l by lia; rewrite Nat.div_small by lia; lia|].
  rewrite Nat.add_comm, Nat.mod_add by lia. now apply Nat.mod_small.
Qed.

Lemma lambd_nth : forall i j, (i < maxint)%nat -> (j < nquad)%nat ->
  nth (i * nquad + j) (hq_lambd gx x nquad maxint r) 0%R = ((x (S i) / r - x i / r) / 2 * (nth j gx 0 + 1) + x i / r)%R.
Proof using Hr.
  intros i j Hi Hj. unfold hq_lambd. rewrite nth_map_seq by nia. unfold hq_Bx. destruct (div_mod_block i j Hj) as [-> ->]. field. exact Hr.
Qed.
Lemma Bx_lambd : forall i j, (i < maxint)%nat -> (j < nquad)%nat ->
  hq_Bx gx x nquad (i * nquad + j) = (r * nth (i * nquad + j) (hq_lambd gx x nquad maxint r) 0)%R.
Proof using Hr. intros i j Hi Hj. unfold hq_lambd. rewrite nth_map_seq by nia. field. exact Hr. Qed.
Lemma lambd_length : List.length (hq_lambd gx x nquad maxint r) = (nquad * maxint)%nat.
Proof using. unfold hq_lambd. now rewrite map_length, seq_length. Qed.

(** the sum over the entries of an interval *)
Lemma dot_gauss : forall (f : R -> C) jf i, (i < maxint)%nat ->
  hq_dot gx gw x nquad (map f (hq_lambd gx x nquad maxint r)) jf i =
  csuml (map (fun j => let l := ((x (S i) / r - x i / r) / 2 * (nth j gx 0 + 1) + x i / r)%R in
                       Cmult (RtoC (nth j gw 0%R)) (Cmult (f l) (RtoC (jf (r * l)%R)))) (seq 0 nquad)).
Proof using Hr.
  intros f jf i Hi. unfold hq_dot. apply csuml_map_ext. intros j Hj. apply in_seq in Hj. cbv zeta.
  rewrite (nth_indep _ (RtoC 0) (f 0%R)) by (rewrite map_length, lambd_length; nia). rewrite map_nth.
  unfold hq_BJ. rewrite (Bx_lambd i j Hi) by lia. rewrite (lambd_nth i j Hi) by lia.
  destruct (div_mod_block i j ltac:(lia)) as [_ ->]. rewrite RtoC_mult. ring.
Qed.

(** the call-back and the splined version add the same Gauss sums *)
Variables (ab : Z) (ang : R) (used : bool * bool * bool).

Lemma gauss_parts : forall (k0 k1 k0b : R -> C) i,
  gauss gx gw (hankel_integrand j0 j1 ab k0 k1 k0b r ang) (x i / r) (x (S i) / r) =
  Cmult (Cplus (Cplus (csuml (map (fun j => let l := ((x (S i) / r - x i / r) / 2 * (nth j gx 0 + 1) + x i / r)%R in
                       Cmult (RtoC (nth j gw 0%R)) (Cmult (k0 l) (RtoC (j0 (r * l)%R)))) (seq 0 nquad)))
     (Cmult (RtoC ang) (Cmult (csuml (map (fun j => let l := ((x (S i) / r - x i / r) / 2 * (nth j gx 0 + 1) + x i / r)%R in
                       Cmult (RtoC (nth j gw 0%R)) (Cmult (k1 l) (RtoC (j1 (r * l)%R)))) (seq 0 nquad))) (if isJ2 ab then Cinv (RtoC r) else RtoC 1))))
     (Cmult (RtoC ang) (csuml (map (fun j => let l := ((x (S i) / r - x i / r) / 2 * (nth j gx 0 + 1) + x i / r)%R in
                       Cmult (RtoC (nth j gw 0%R)) (Cmult (k0b l) (RtoC (j0 (r * l)%R)))) (seq 0 nquad)))))
   (hq_weight x r i).
Proof using.
  intros k0 k1 k0b i. unfold gauss, hq_weight. fold nquad. rewrite Cmult_comm. f_equal.
  set (cf := if isJ2 ab then Cinv (RtoC r) else RtoC 1).
  rewrite <- csuml_scal. rewrite (Cmult_comm _ cf), <- csuml_scal, <- csuml_scal, <- csuml_plus, <- csuml_plus.
  apply csuml_map_ext. intros j _. cbv zeta. unfold hankel_integrand, cf. destruct (isJ2 ab); unfold Cdiv; ring.
Qed.

Lemma gEM_gauss : forall k i, (i < maxint)%nat -> present used k ->
  Cmult (hq_gEM j0 j1 gx gw x nquad used ab r ang (map k (hq_lambd gx x nquad maxint r)) i) (hq_weight x r i) =
  gauss gx gw (hankel_integrand j0 j1 ab (kpart t0 k) (kpart t1 k) (kpart t0b k) r ang) (x i / r) (x (S i) / r).
Proof using Hr.
  intros k i Hi HP. rewrite gauss_parts. f_equal. unfold hq_gEM. destruct used as [[u0 u1] u0b]. unfold present in HP. cbn [fst snd] in HP.
  rewrite !map_map. rewrite !(dot_gauss (fun l => oval (_ (k l))) _ i Hi).
  assert (Z0 : u0 = false -> csuml (map (fun j => let l := ((x (S i) / r - x i / r) / 2 * (nth j gx 0 + 1) + x i / r)%R in
                       Cmult (RtoC (nth j gw 0%R)) (Cmult (kpart t0 k l) (RtoC (j0 (r * l)%R)))) (seq 0 nquad)) = RtoC 0).
  { intros Hu. rewrite (csuml_map_ext _ (fun j => Cmult (RtoC 0) (RtoC 0))); [rewrite csuml_scal; ring|]. intros j _. cbv zeta. unfold kpart. rewrite (proj1 (HP _) Hu). cbn [oval]. ring. }
  assert (Z1 : u1 = false -> csuml (map (fun j => let l := ((x (S i) / r - x i / r) / 2 * (nth j gx 0 + 1) + x i / r)%R in
                       Cmult (RtoC (nth j gw 0%R)) (Cmult (kpart t1 k l) (RtoC (j1 (r * l)%R)))) (seq 0 nquad)) = RtoC 0).
  { intros Hu. rewrite (csuml_map_ext _ (fun j => Cmult (RtoC 0) (RtoC 0))); [rewrite csuml_scal; ring|]. intros j _. cbv zeta. unfold kpart. rewrite (proj1 (proj2 (HP _)) Hu). cbn [oval]. ring. }
  assert (Z2 : u0b = false -> csuml (map (fun j => let l := ((x (S i) / r - x i / r) / 2 * (nth j gx 0 + 1) + x i / r)%R in
                       Cmult (RtoC (nth j gw 0%R)) (Cmult (kpart t0b k l) (RtoC (j0 (r * l)%R)))) (seq 0 nquad)) = RtoC 0).
  { intros Hu. rewrite (csuml_map_ext _ (fun j => Cmult (RtoC 0) (RtoC 0))); [rewrite csuml_scal; ring|]. intros j _. cbv zeta. unfold kpart. rewrite (proj2 (proj2 (HP _)) Hu). cbn [oval]. ring. }
  unfold kpart in *. cbv zeta in *.
  destruct u0; [|rewrite Z0 by reflexivity]; (destruct u1; [|rewrite Z1 by reflexivity]); (destruct u0b; [|rewrite Z2 by reflexivity]);
    destruct (isJ2 ab); unfold Cdiv; ring.
Qed.

Lemma sEM_gauss : forall (k0 k1 k0b : R -> C) i, (i < maxint)%nat ->
  (fst (fst used) = false -> forall l, k0 l = RtoC 0) -> (snd (fst used) = false -> forall l, k1 l = RtoC 0) -> (snd used = false -> forall l, k0b l = RtoC 0) ->
  Cmult (hq_sEM j0 j1 gx gw x nquad used ab r ang (map k0 (hq_lambd gx x nquad maxint r)) (map k1 (hq_lambd gx x nquad maxint r)) (map k0b (hq_lambd gx x nquad maxint r)) i) (hq_weight x r i) =
  gauss gx gw (hankel_integrand j0 j1 ab k0 k1 k0b r ang) (x i / r) (x (S i) / r).
Proof using Hr.
  intros k0 k1 k0b i Hi H0 H1 H0b. rewrite gauss_parts. f_equal. unfold hq_sEM. destruct used as [[u0 u1] u0b]. cbn [fst snd] in *.
  rewrite !(dot_gauss _ _ i Hi). cbv zeta.
  assert (ZZ : forall (kk : R -> C) jf, (forall l, kk l = RtoC 0) -> csuml (map (fun j => 
                       Cmult (RtoC (nth j gw 0%R)) (Cmult (kk ((x (S i) / r - x i / r) / 2 * (nth j gx 0 + 1) + x i / r)%R) (RtoC (jf (r * ((x (S i) / r - x i / r) / 2 * (nth j gx 0 + 1) + x i / r))%R)))) (seq 0 nquad)) = RtoC 0).
  { intros kk jf Hk. rewrite (csuml_map_ext _ (fun j => Cmult (RtoC 0) (RtoC 0))); [rewrite csuml_scal; ring|]. intros j _. rewrite Hk. ring. }
  destruct u0; [|rewrite (ZZ k0 j0) by auto]; (destruct u1; [|rewrite (ZZ k1 j1) by auto]); (destruct u0b; [|rewrite (ZZ k0b j0) by auto]);
    destruct (isJ2 ab); cbn [orb]; unfold Cdiv; ring.
Qed.
End One.

(** ** Without spline *)
Definition qx (maxint i : nat) : R := nth i (hq_xint j1 j2 maxint) 0%R.

Lemma mapM_row : forall A B (f : A -> res B) (k : A -> B) l, (forall y, In y l -> f y = Ok (k y)) -> mapM f l = Ok (map k l).
Proof using.
  intros A B f k l H. induction l as [|y l IH]; [reflexivity|]. cbn [mapM map]. rewrite H by (now left). cbn [bind].
  rewrite IH by (intros; apply H; now right). reflexivity.
Qed.

Definition plain_value (ab : Z) (k : R -> triple) (rtol atol : R) (zc : C -> bool) (maxint : nat) (p : R * R) : C :=
  qwe_value rtol atol zc maxint (fun i => gauss gx gw (hankel_integrand j0 j1 ab (kpart t0 k) (kpart t1 k) (kpart t0b k) (fst p) (snd p))
    (qx maxint i / fst p) (qx maxint (S i) / fst p)).
Definition plain_conv (ab : Z) (k : R -> triple) (rtol atol : R) (zc : C -> bool) (maxint : nat) (p : R * R) : bool :=
  qwe_stops rtol atol zc maxint (fun i => gauss gx gw (hankel_integrand j0 j1 ab (kpart t0 k) (kpart t1 k) (kpart t0b k) (fst p) (snd p))
    (qx maxint i / fst p) (qx maxint (S i) / fst p)).

Theorem qwe_plain : forall wn k used ab off ang rtol atol zc maxint dq a b limit,
  (2 <= maxint)%nat -> List.length ang = List.length off -> (forall r, In r off -> r <> 0%R) -> present used k ->
  (forall r l, In r off -> In l (hq_lambd gx (qx maxint) (List.length gx) maxint r) -> wn l = Ok (k l)) ->
  exists kc, hankel_qwe rquad isp j0 j1 j2 gx gw wn used ab off ang rtol atol zc maxint 0 dq a b limit =
    Ok (map (plain_value ab k rtol atol zc maxint) (combine off ang), kc,
        (3 <=? maxint)%nat && forallb (plain_conv ab k rtol atol zc maxint) (combine off ang)).
Proof using.
  intros wn k used ab off ang rtol atol zc maxint dq a b limit Hm La Hr HP HW. unfold hankel_qwe. rewrite Reqb_refl.
  fold (qx maxint). set (nq := List.length gx) in *. set (x := qx maxint) in *.
  rewrite (mapM_row R (list triple) _ (fun r => map k (hq_lambd gx x nq maxint r))).
  2:{ intros r Hin. apply mapM_row. intros l Hl. now apply (HW r). }
  cbn [bind]. set (ctr := fun e i => Cmult _ _).
  destruct (qwe_each rtol atol zc maxint ctr (List.length off) Hm) as [kc Q]. exists kc. etransitivity; [exact Q|]. clear Q.
  assert (LC : List.length (combine off ang) = List.length off) by (rewrite combine_length; lia).
  assert (EQ : forall e, (e < List.length off)%nat -> forall i, (i < maxint)%nat -> ctr e i =
     gauss gx gw (hankel_integrand j0 j1 ab (kpart t0 k) (kpart t1 k) (kpart t0b k) (fst (nth e (combine off ang) (0, 0)%R)) (snd (nth e (combine off ang) (0, 0)%R)))
       (x i / fst (nth e (combine off ang) (0, 0)%R)) (x (S i) / fst (nth e (combine off ang) (0, 0)%R))).
  { intros e He i Hi. rewrite combine_nth by congruence. cbn [fst snd]. unfold ctr.
    rewrite (nth_indep _ [] ((fun r => map k (hq_lambd gx x nq maxint r)) 0%R)) by (rewrite map_length; exact He).
    rewrite (map_nth (fun r => map k (hq_lambd gx x nq maxint r))). unfold nq. apply gEM_gauss; auto. apply Hr. now apply nth_In. }
  do 2 f_equal.
  - f_equal. rewrite <- (map_nth_seq (R * R) C (plain_value ab k rtol atol zc maxint) (combine off ang) (0, 0)%R). rewrite LC.
    apply map_ext_in. intros e He. apply in_seq in He. unfold plain_value. apply qwe_value_ext; [exact Hm|]. intros i Hi. apply EQ; [lia|exact Hi].
  - rewrite <- (forallb_nth_seq (R * R) (plain_conv ab k rtol atol zc maxint) (combine off ang) (0, 0)%R). rewrite LC. f_equal.
    apply forallb_ext'. intros e He. apply in_seq in He. unfold plain_conv. apply qwe_stops_ext; [exact Hm|]. intros i Hi. apply EQ; [lia|exact Hi].
Qed.

(** ** With spline *)
Record kint := mkK { K0 : option ((R -> R) * (R -> R)); K1 : option ((R -> R) * (R -> R)); K0b : option ((R -> R) * (R -> R)) }.
Definition interpolated (used : bool * bool * bool) (il : list R) (P : list triple) : kint :=
  mkK (hq_spl isp (fst (fst used)) t0 il P) (hq_spl isp (snd (fst used)) t1 il P) (hq_spl isp (snd used) t0b il P).
Definition Ksum (K : kint) (l : R) : C := hq_tot (K0 K) (K1 K) (K0b K) l.

(** no interval over which the sum of the kernels decays by the factor diff_quad *)
Definition gentle (K : kint) (dq : R) (maxint : nat) (r : R) : bool := hq_doqwe (qx maxint) maxint dq (K0 K) (K1 K) (K0b K) r.
Lemma gentle_spec : forall K dq maxint r, gentle K dq maxint r = true <->
  forall k, (k < maxint)%nat -> Ksum K (qx maxint (S k) / r)%R <> RtoC 0 /\
    (Cmod (Ksum K (qx maxint k / r)%R) < dq * Cmod (Ksum K (qx maxint (S k) / r)%R))%R.
Proof using.
  intros K dq maxint r. unfold gentle, hq_doqwe, Ksum. rewrite forallb_forall. split.
  - intros H k Hk. specialize (H k ltac:(apply in_seq; lia)). cbv zeta in H. set (u := hq_tot (K0 K) (K1 K) (K0b K) (qx maxint k / r)%R) in *. set (v := hq_tot (K0 K) (K1 K) (K0b K) (qx maxint (S k) / r)%R) in *.
    revert H. destruct (Reqb (Cmod v) 0) eqn:EN; [intros W; discriminate W|]. intros H. assert (N : Cmod v <> 0%R) by (now apply UtilsLayer.Reqb_false). apply UtilsLayer.Rltb_true in H.
    assert (P : 0 < Cmod v) by (pose proof (Cmod_ge_0 v); lra). split; [intros E; rewrite E, Cmod_0 in N; lra|].
    apply (Rmult_lt_compat_r (Cmod v)) in H; [|exact P]. unfold Rdiv in H. rewrite Rmult_assoc, Rinv_l, Rmult_1_r in H by lra. exact H.
  - intros H k Hk. apply in_seq in Hk. destruct (H k ltac:(lia)) as [N L]. cbv zeta. set (u := hq_tot (K0 K) (K1 K) (K0b K) (qx maxint k / r)%R) in *. set (v := hq_tot (K0 K) (K1 K) (K0b K) (qx maxint (S k) / r)%R) in *.
    assert (P : 0 < Cmod v) by (now apply Cmod_gt_0). rewrite Reqb_false by lra. apply UtilsLayer.Rltb_true.
    apply (Rmult_lt_reg_r (Cmod v)); [exact P|]. unfold Rdiv. rewrite Rmult_assoc, Rinv_l, Rmult_1_r by lra. exact L.
Qed.

Definition spl_contrib (ab : Z) (K : kint) (maxint : nat) (p : R * R) (i : nat) : C :=
  gauss gx gw (hankel_integrand j0 j1 ab (hq_at (K0 K)) (hq_at (K1 K)) (hq_at (K0b K)) (fst p) (snd p)) (qx maxint i / fst p) (qx maxint (S i) / fst p).
Definition spl_quad (ab : Z) (K : kint) (rtol atol : R) (maxint : nat) (a b : option R) (limit : option nat) (p : R * R) : C * bool :=
  hq_quadv rquad j0 j1 (qx maxint) maxint rtol atol a b limit ab (K0 K) (K1 K) (K0b K) p.
Definition spl_value (ab : Z) (K : kint) (rtol atol : R) (zc : C -> bool) (maxint : nat) (dq : R) (a b : option R) (limit : option nat) (p : R * R) : C :=
  if gentle K dq maxint (fst p) then qwe_value rtol atol zc maxint (spl_contrib ab K maxint p)
  else fst (spl_quad ab K rtol atol maxint a b limit p).
Definition spl_conv (ab : Z) (K : kint) (rtol atol : R) (zc : C -> bool) (maxint : nat) (dq : R) (a b : option R) (limit : option nat) (p : R * R) : bool :=
  if gentle K dq maxint (fst p) then (3 <=? maxint)%nat && qwe_stops rtol atol zc maxint (spl_contrib ab K maxint p)
  else snd (spl_quad ab K rtol atol maxint a b limit p).

(** the wavenumbers of the interpolation: from the smallest to the largest
    required one *)
Definition spl_grid (maxint : nat) (ppd : R) (off : list R) : res (list R) :=
  mn <- lmin (List.concat (map (hq_lambd gx (qx maxint) (List.length gx) maxint) off)) ;;
  mx <- lmax (List.concat (map (hq_lambd gx (qx maxint) (List.length gx) maxint) off)) ;;
  let npt := ztrunc ((log10 mx - log10 mn) * ppd + 1) in
  if (npt <? 4)%Z then Err ValueError else logspace (log10 mn) (log10 mx) npt.

Lemma scatterC : forall (A : Type) (p : A -> bool) (g h : A -> C) (el : list A) (acc rest : list C),
  fold_left (fun (st : list C * list C) t => if p t then (tl (fst st), snd st ++ [hd (RtoC 0) (fst st)]) else (fst st, snd st ++ [h t]))
    el (map g (filter p el) ++ rest, acc) = (rest, acc ++ map (fun t => if p t then g t else h t) el).
Proof using.
  intros A p g h el. induction el as [|t el IH]; intros acc rest; [cbn; now rewrite app_nil_r|].
  cbn [fold_left filter map]. destruct (p t) eqn:Ep; cbn [map app fst snd tl hd]; rewrite IH, <- app_assoc; reflexivity.
Qed.

Lemma hq_at_none : forall u p il P l, u = false -> hq_at (hq_spl isp u p il P) l = RtoC 0.
Proof using. intros u p il P l ->. reflexivity. Qed.

Theorem qwe_spline : forall wn used ab off ang rtol atol zc maxint ppd dq a b limit,
  (2 <= maxint)%nat -> List.length ang = List.length off -> (forall r, In r off -> r <> 0%R) -> ppd <> 0%R ->
  hankel_qwe rquad isp j0 j1 j2 gx gw wn used ab off ang rtol atol zc maxint ppd dq a b limit =
  (il <- spl_grid maxint ppd off ;; P <- mapM wn il ;;
   let K := interpolated used il P in
   Ok (map (spl_value ab K rtol atol zc maxint dq a b limit) (combine off ang), 1%Z,
       forallb (spl_conv ab K rtol atol zc maxint dq a b limit) (combine off ang))).
Proof using.
  intros wn used ab off ang rtol atol zc maxint ppd dq a b limit Hm La Hr Hp. unfold hankel_qwe, spl_grid. rewrite Reqb_false by exact Hp.
  fold (qx maxint). set (nq := List.length gx). set (x := qx maxint).
  destruct (lmin _) as [mn|]; cbn [bind]; [|reflexivity]. destruct (lmax _) as [mx|]; cbn [bind]; [|reflexivity].
  destruct (_ <? 4)%Z; cbn [bind]; [reflexivity|]. destruct (logspace _ _ _) as [il|]; cbn [bind]; [|reflexivity].
  destruct (mapM wn il) as [P|]; cbn [bind]; [|reflexivity].
  destruct used as [[u0 u1] u0b] eqn:EU. set (K := interpolated (u0, u1, u0b) il P).
  set (el := combine off ang).
  assert (RE : forall p, In p el -> fst p <> 0%R). { intros [r g] Hin. apply Hr. now apply in_combine_l in Hin. }
  set (tq := filter (fun p => gentle K dq maxint (fst p)) el).
  set (g := fun p => qwe_value rtol atol zc maxint (spl_contrib ab K maxint p)).
  set (cg := fun p => (3 <=? maxint)%nat && qwe_stops rtol atol zc maxint (spl_contrib ab K maxint p)).
  set (ctr := fun e i => let p := nth e tq (0, 0)%R in
     Cmult (hq_sEM j0 j1 gx gw x nq (u0, u1, u0b) ab (fst p) (snd p) (map (hq_at (K0 K)) (hq_lambd gx x nq maxint (fst p)))
        (map (hq_at (K1 K)) (hq_lambd gx x nq maxint (fst p))) (map (hq_at (K0b K)) (hq_lambd gx x nq maxint (fst p))) i) (hq_weight x (fst p) i)).
  cbv zeta. fold el. change (hq_spl isp u0 t0 il P) with (K0 K). change (hq_spl isp u1 t1 il P) with (K1 K). change (hq_spl isp u0b t0b il P) with (K0b K).
  change (hq_doqwe x maxint dq (K0 K) (K1 K) (K0b K)) with (gentle K dq maxint).
  change (hq_quadv rquad j0 j1 x maxint rtol atol a b limit ab (K0 K) (K1 K) (K0b K)) with (spl_quad ab K rtol atol maxint a b limit).
  fold tq. fold ctr.
  assert (EQ : forall e, (e < List.length tq)%nat -> forall i, (i < maxint)%nat -> ctr e i = spl_contrib ab K maxint (nth e tq (0, 0)%R) i).
  { intros e He i Hi. unfold ctr, spl_contrib. cbv zeta. unfold nq. apply sEM_gauss; auto.
    - apply RE. assert (In (nth e tq (0, 0)%R) tq) by (now apply nth_In). unfold tq in H at 2. apply filter_In in H. tauto.
    - intros E l. now apply hq_at_none.
    - intros E l. now apply hq_at_none.
    - intros E l. now apply hq_at_none. }
  assert (M : (match tq with [] => Ok ([], true)
               | _ => '(EM, _, c) <- qwe rtol atol maxint zc ctr (List.length tq) ;; Ok (EM, c)
               end) = Ok (map g tq, forallb cg tq)).
  { clearbody ctr. destruct tq as [|t0' tq0] eqn:ET; [reflexivity|]. rewrite <- ET in *.
    destruct (qwe_each rtol atol zc maxint ctr (List.length tq) Hm) as [kc Q].
    rewrite Q. cbn [bind]. do 2 f_equal.
    - rewrite <- (map_nth_seq (R * R) C g tq (0, 0)%R). apply map_ext_in. intros e He. apply in_seq in He. unfold g. apply qwe_value_ext; [exact Hm|]. intros i Hi. apply EQ; [lia|exact Hi].
    - transitivity ((3 <=? maxint)%nat && forallb (fun p => qwe_stops rtol atol zc maxint (spl_contrib ab K maxint p)) tq).
      + f_equal. rewrite <- (forallb_nth_seq (R * R) (fun p => qwe_stops rtol atol zc maxint (spl_contrib ab K maxint p)) tq (0, 0)%R).
        apply forallb_ext'. intros e He. apply in_seq in He. apply qwe_stops_ext; [exact Hm|]. intros i Hi. apply EQ; [lia|exact Hi].
      + rewrite ET. destruct (3 <=? maxint)%nat eqn:E3.
        * cbn [andb]. apply forallb_ext'. intros t _. unfold cg. reflexivity.
        * cbn [andb forallb]. unfold cg. reflexivity. }
  rewrite M. cbn [bind]. f_equal. f_equal; [f_equal|].
  - pose proof (scatterC (R * R) (fun p => gentle K dq maxint (fst p)) g (fun p => fst (spl_quad ab K rtol atol maxint a b limit p)) el [] []) as SC.
    rewrite app_nil_r in SC. fold tq in SC. etransitivity; [apply (f_equal snd); exact SC|]. reflexivity.
  - unfold tq. rewrite forallb_filter, forallb_and. apply forallb_ext'. intros p Hin. unfold spl_conv. fold (cg p).
    destruct (gentle K dq maxint (fst p)) eqn:EG; cbn [negb orb andb]; [reflexivity|]. rewrite andb_true_r. reflexivity.
Qed.
End Thm.
