(** Property C70: the Hankel transforms by quadrature with extrapolation (QWE)
    and by adaptive quadrature (QUAD); and C29 for them. *)

From Coq Require Import ZArith Reals List Bool String Lia Lra Psatz.
From Coquelicot Require Import Coquelicot.
From Verif Require Import PyBase CBase Kernel KernelSpec KernelClosed KernelMain KernelThm KernelThm2 Utils UtilsLayer UtilsModel UtilsFreq UtilsGeo UtilsSurvey Transform TransformDlf TransformQwe TransformQuad UtilsArgs ArgsFreq Fullspace Model ModelFem
  Routines RoutinesThm Bipole BipoleCol BipoleThm BipoleLoop BipolePlace BipoleMain BipoleFinal BipoleStrength BipoleTotal
  Fourier FourierQwe HankelQ HankelQThm HankelQThm2 HankelQThm3 HankelQThm4 PropsKernel PropsUtils PropsTransform PropsBipole.
Import ListNotations.
Local Open Scope R_scope.
Local Open Scope C_scope.
Local Open Scope res_scope.

(** ** The intervals *)
(** The end points are Newton iterates of pi*(k+5/4), at most ten. *)
Theorem C70_zeros : forall j1 j2 n, exists m, (m <= 10)%nat /\ forall k, (k < n)%nat ->
  nth (S k) (hq_xint j1 j2 n) 0%R = steps j1 j2 m (PI * (INR k + 5 / 4))%R.
Proof. exact zeros_refined. Qed.
(** The step is Newton's for J1, by the recurrence J1' = J1/x - J2, and stands still at its zeros only. *)
Theorem C70_newton : forall j1 j2 (x : R), is_derive (K := R_AbsRing) (V := R_NormedModule) j1 x (j1 x / x - j2 x)%R ->
  hq_step j1 j2 x = (- j1 x / Derive j1 x)%R /\ ((j1 x / x - j2 x <> 0)%R -> (hq_step j1 j2 x = 0%R <-> j1 x = 0%R)).
Proof. intros j1 j2 x H. split; [now apply newton_step|]. apply newton_fixed. Qed.

(** ** Without interpolation *)
(** Any kernel: each offset gets the extrapolated sum of its Gauss quadratures. *)
Theorem C70_plain : forall rquad isp j0 j1 j2 gx gw wn k used ab off ang rtol atol zc maxint dq a b limit,
  (2 <= maxint)%nat -> List.length ang = List.length off -> (forall r, In r off -> r <> 0%R) -> present used k ->
  (forall r l, In r off -> In l (hq_lambd gx (qx j1 j2 maxint) (List.length gx) maxint r) -> wn l = Ok (k l)) ->
  exists kc, hankel_qwe rquad isp j0 j1 j2 gx gw wn used ab off ang rtol atol zc maxint 0 dq a b limit =
    Ok (map (plain_value j0 j1 j2 gx gw ab k rtol atol zc maxint) (combine off ang), kc,
        (3 <=? maxint)%nat && forallb (plain_conv j0 j1 j2 gx gw ab k rtol atol zc maxint) (combine off ang)).
Proof. exact qwe_plain. Qed.
(** The kernel of a passive layered medium. *)
Theorem C70_layered : forall rquad isp j0 j1 j2 gx gw z N ab msrc mrec s r zs zr xd w rtol atol zc maxint dq a b limit off ang,
  valid_call ab msrc mrec -> (s <= N)%nat -> (r <= N)%nat -> passive_row N z w ->
  (2 <= maxint)%nat -> List.length ang = List.length off -> (forall o, In o off -> (0 < o)%R) ->
  exists kc, qwe_calc rquad isp j0 j1 j2 gx gw rtol atol zc maxint 0 dq a b limit zs zr (Z.of_nat s) (Z.of_nat r) (depth_arr z N) ab msrc mrec [w] off ang xd =
    Ok ([map (plain_value j0 j1 j2 gx gw ab (kern zs zr s r z N ab xd msrc mrec w) rtol atol zc maxint) (combine off ang)], kc,
        (3 <=? maxint)%nat && forallb (plain_conv j0 j1 j2 gx gw ab (kern zs zr s r z N ab xd msrc mrec w) rtol atol zc maxint) (combine off ang)).
Proof. exact qwe_layered. Qed.

(** ** With interpolation *)
Theorem C70_spline : forall rquad isp j0 j1 j2 gx gw wn used ab off ang rtol atol zc maxint ppd dq a b limit,
  (2 <= maxint)%nat -> List.length ang = List.length off -> (forall r, In r off -> r <> 0%R) -> ppd <> 0%R ->
  hankel_qwe rquad isp j0 j1 j2 gx gw wn used ab off ang rtol atol zc maxint ppd dq a b limit =
  (il <- spl_grid j1 j2 gx maxint ppd off ;; P <- mapM wn il ;;
   let K := interpolated isp used il P in
   Ok (map (spl_value rquad j0 j1 j2 gx gw ab K rtol atol zc maxint dq a b limit) (combine off ang), 1%Z,
       forallb (spl_conv rquad j0 j1 j2 gx gw ab K rtol atol zc maxint dq a b limit) (combine off ang))).
Proof. exact qwe_spline. Qed.
(** The test that chooses between extrapolation and adaptive quadrature. *)
Theorem C70_decay : forall j1 j2 K dq maxint r, gentle j1 j2 K dq maxint r = true <->
  forall k, (k < maxint)%nat -> Ksum K (qx j1 j2 maxint (S k) / r)%R <> RtoC 0 /\
    (Cmod (Ksum K (qx j1 j2 maxint k / r)%R) < dq * Cmod (Ksum K (qx j1 j2 maxint (S k) / r)%R))%R.
Proof. exact gentle_spec. Qed.
(** The value of an offset depends on the other offsets through the smallest and the largest only. *)
Theorem C70_extremes : forall rquad isp j0 j1 j2 gx gw wn used ab off ang off' ang' rtol atol zc maxint ppd dq a b limit rmin rmax v kc cv v' kc' cv',
  (forall i, (i <= maxint)%nat -> (0 < qx j1 j2 maxint i)%R) -> (forall g, In g gx -> (-1 < g < 1)%R) -> (0 < List.length gx)%nat -> (2 <= maxint)%nat -> ppd <> 0%R ->
  (0 < rmin)%R -> List.length ang = List.length off -> List.length ang' = List.length off' ->
  (forall r, In r off -> (rmin <= r <= rmax)%R) -> (forall r, In r off' -> (rmin <= r <= rmax)%R) ->
  In rmin off -> In rmin off' -> In rmax off -> In rmax off' ->
  hankel_qwe rquad isp j0 j1 j2 gx gw wn used ab off ang rtol atol zc maxint ppd dq a b limit = Ok (v, kc, cv) ->
  hankel_qwe rquad isp j0 j1 j2 gx gw wn used ab off' ang' rtol atol zc maxint ppd dq a b limit = Ok (v', kc', cv') ->
  forall i j, (i < List.length off)%nat -> (j < List.length off')%nat -> nth i off 0%R = nth j off' 0%R -> nth i ang 0%R = nth j ang' 0%R ->
  nth i v (RtoC 0) = nth j v' (RtoC 0).
Proof. exact spline_extremes. Qed.
(** It does depend on them: the same offset alone and with a second one. *)
Theorem C70_alone_refuted : forall rquad isp j0 j1 j2, cubic_of_four isp ->
  (qx j1 j2 2 0 < qx j1 j2 2 1)%R -> (qx j1 j2 2 1 < qx j1 j2 2 2)%R -> j0 ((qx j1 j2 2 1 + qx j1 j2 2 2) / 2)%R <> 0%R ->
  forall ab rtol atol zc, exists wn ppd dq r v1 v2 w c1 c2,
  (0 < r)%R /\ v1 <> v2 /\
  hankel_qwe rquad isp j0 j1 j2 [0%R] [2%R] wn (true, false, false) ab [1%R; r] [1%R; 1%R] rtol atol zc 2 ppd dq None None None = Ok ([v1; w], 1%Z, c1) /\
  hankel_qwe rquad isp j0 j1 j2 [0%R] [2%R] wn (true, false, false) ab [1%R] [1%R] rtol atol zc 2 ppd dq None None None = Ok ([v2], 1%Z, c2).
Proof. exact spline_alone. Qed.
(** The interpolation ends before the wavenumbers of the decay test, and before the default limits of the adaptive quadrature. *)
Theorem C70_outside : forall j1 j2 gx maxint, (forall i, (i <= maxint)%nat -> (0 < qx j1 j2 maxint i)%R) -> (forall g, In g gx -> (-1 < g < 1)%R) -> (0 < List.length gx * maxint)%nat ->
  forall ppd off il rmin rmax, (0 < rmin)%R -> (0 < ppd)%R -> (forall i, (i < maxint)%nat -> (qx j1 j2 maxint i < qx j1 j2 maxint (S i))%R) ->
  (forall r, In r off -> (rmin <= r <= rmax)%R) -> In rmin off -> In rmax off ->
  spl_grid j1 j2 gx maxint ppd off = Ok il ->
  forall l, In l il -> (qx j1 j2 maxint 0 / rmax < l < qx j1 j2 maxint maxint / rmin)%R.
Proof. exact test_outside. Qed.

(** ** Adaptive quadrature *)
Theorem C70_quad : forall rquad isp j0 j1 wn used ab off ang rtol atol ppd a b limit,
  hankel_quad rquad isp j0 j1 wn used ab off ang rtol atol ppd a b limit =
  (il <- quad_grid ppd a b ;; P <- mapM wn il ;;
   let K := interpolated isp used il P in
   Ok (map (fun p => fst (quad_value rquad j0 j1 ab K rtol atol a b limit p)) (combine off ang), 1%Z,
       forallb (fun p => snd (quad_value rquad j0 j1 ab K rtol atol a b limit p)) (combine off ang))).
Proof. exact quad_each. Qed.
(** With an exact quadrature the value is the integral of the interpolated kernels. *)
Theorem C70_quad_integral : forall rq j0 j1 lo hi s0 s1 s0b ab r ang,
  (forall g, In g (quad_integrands j0 j1 s0 s1 s0b ab r ang) -> exact_on rq lo hi g) ->
  is_CInt lo hi (hankel_integrand j0 j1 ab (hq_at s0) (hq_at s1) (hq_at s0b) r ang) (fst (quad rq j0 j1 s0 s1 s0b ab r ang)).
Proof. exact quad_exact. Qed.

(** An offset that fails the decay test gets the integral from the first to the last point of division
    over the offset, unless limits are given; limits and limit of 0 count as not given. *)
Theorem C70_adaptive : forall rquad j0 j1 j2 gx gw ab K rtol atol zc maxint dq a b limit r ang lo hi n,
  gentle j1 j2 K dq maxint r = false ->
  match a with Some v => v <> 0%R /\ lo = v | None => lo = (qx j1 j2 maxint 0 / r)%R end ->
  match b with Some v => v <> 0%R /\ hi = v | None => hi = (qx j1 j2 maxint maxint / r)%R end ->
  match limit with Some (S k) => n = S k | _ => n = maxint end ->
  (forall g, In g (quad_integrands j0 j1 (K0 K) (K1 K) (K0b K) ab r ang) -> exact_on (fun g => rquad g lo hi atol rtol n) lo hi g) ->
  is_CInt lo hi (hankel_integrand j0 j1 ab (hq_at (K0 K)) (hq_at (K1 K)) (hq_at (K0b K)) r ang) (spl_value rquad j0 j1 j2 gx gw ab K rtol atol zc maxint dq a b limit (r, ang)).
Proof.
  intros rquad j0 j1 j2 gx gw ab K rtol atol zc maxint dq a b limit r ang lo hi n G HA HB HN HX. unfold spl_value. cbn [fst]. rewrite G. unfold spl_quad, hq_quadv. cbn [fst snd].
  assert (EA : match given a with Some v => v | None => (qx j1 j2 maxint 0 / r)%R end = lo) by (destruct a as [v|]; cbn [given]; [destruct HA as [HA ->]; now rewrite (proj2 (UtilsLayer.Reqb_false v 0) HA)|now rewrite HA]).
  assert (EB : match given b with Some v => v | None => (qx j1 j2 maxint maxint / r)%R end = hi) by (destruct b as [v|]; cbn [given]; [destruct HB as [HB ->]; now rewrite (proj2 (UtilsLayer.Reqb_false v 0) HB)|now rewrite HB]).
  cbv zeta. rewrite EA, EB. assert (EN : match limit with Some (S k) => S k | _ => maxint end = n) by (destruct limit as [[|k]|]; now symmetry). rewrite EN. exact (C70_quad_integral _ j0 j1 lo hi (K0 K) (K1 K) (K0b K) ab r ang HX).
Qed.

(** ** Cases *)
Definition h_j0 (x : R) : R := 1.
Definition h_j1 (x : R) : R := 0.
Lemma h_zeros : forall n k, (k < n)%nat -> qx h_j1 h_j0 n (S k) = (PI * (INR k + 5 / 4))%R.
Proof.
  intros n k H. destruct (C70_zeros h_j1 h_j0 n) as (m & _ & E). unfold qx. rewrite E by exact H. clear E.
  induction m as [|m IH]; [reflexivity|]. cbn [steps]. 
  assert (S0 : forall x, hq_step h_j1 h_j0 x = 0%R) by (intros x; unfold hq_step, h_j1; unfold Rdiv; ring). 
  first [rewrite IH, S0; ring | rewrite S0, Rplus_0_r; exact IH].
Qed.
Lemma h_zero0 : forall n, qx h_j1 h_j0 n 0 = (/ 10 ^ 20)%R.
Proof. reflexivity. Qed.
Lemma h_small : (0 < / 10 ^ 20 < 1)%R.
Proof.
  split; [apply Rinv_0_lt_compat, pow_lt; lra|]. rewrite <- Rinv_1. apply Rinv_lt_contravar; [|apply Rlt_pow_R1; [lra|lia]]. rewrite Rmult_1_l. apply pow_lt; lra.
Qed.
Lemma h_incr : forall n i, (i < n)%nat -> (qx h_j1 h_j0 n i < qx h_j1 h_j0 n (S i))%R.
Proof.
  intros n i H. rewrite (h_zeros n i H). pose proof PI2_1. pose proof h_small. destruct i as [|i]; [rewrite h_zero0; cbn [INR]; nra|].
  rewrite h_zeros by lia. rewrite S_INR. nra.
Qed.
Lemma h_pos : forall n i, (i <= n)%nat -> (0 < qx h_j1 h_j0 n i)%R.
Proof.
  intros n i H. induction i as [|i IH]; [rewrite h_zero0; apply h_small|]. apply Rlt_trans with (1 := IH ltac:(lia)). apply h_incr. lia.
Qed.
(** interpolation by the cubic through four points; other sizes are not needed *)
Definition h_isp (xs ys : list R) (q : R) : R :=
  match xs, ys with
  | [a; b; c; d], [ya; yb; yc; yd] => lagrange4 a b c d ya yb yc yd q
  | _, _ => 0%R
  end.
Lemma h_cubic : cubic_of_four h_isp.
Proof. intros a b c d ya yb yc yd q _ _. reflexivity. Qed.
Definition h_rq : (R -> R) -> R -> R -> R -> R -> nat -> R * nat := fun g a b _ _ _ => (RInt (V := R_CompleteNormedModule) g a b, 3%nat).

Example C70_zeros_case : nth 2 (hq_xint h_j1 h_j0 5) 0%R = (PI * (9 / 4))%R.
Proof. change (qx h_j1 h_j0 5 2 = (PI * (9 / 4))%R). rewrite h_zeros by lia. cbn [INR]. lra. Qed.
Example C70_newton_case : hq_step (fun x => (x * x)%R) (fun x => (- x)%R) 3 = (-3 / 2)%R.
Proof.
  assert (D : is_derive (K := R_AbsRing) (V := R_NormedModule) (fun x => (x * x)%R) 3 (3 * 3 / 3 - - 3)%R) by (auto_derive; [exact I|field]).
  etransitivity; [exact (proj1 (C70_newton (fun x => (x * x)%R) (fun x => (- x)%R) 3 D))|]. rewrite (is_derive_unique _ _ _ D). field.
Qed.
Example C70_layered_case : exists v k c,
  qwe_calc h_rq h_isp h_j0 h_j1 h_j0 [0%R] [2%R] 0 0 (fun _ => false) 5 0 100 None None None (-10) 30 0 1 (depth_arr x_z 2) 11 false false [x_row] [100; 200]%R [1; 1]%R false = Ok ([v], k, c) /\ List.length v = 2%nat.
Proof.
  destruct (C70_layered h_rq h_isp h_j0 h_j1 h_j0 [0%R] [2%R] x_z 2 11 false false 0 1 (-10) 30 false x_row 0 0 (fun _ => false) 5 100 None None None [100; 200]%R [1; 1]%R) as [kc Q].
  - unfold valid_call; cbn; tauto.
  - lia.
  - lia.
  - exists x_eH, x_eV, x_zH, x_zV. split; [apply x_passive|reflexivity].
  - lia.
  - reflexivity.
  - intros o [<-|[<-|[]]]; lra.
  - do 3 eexists. split; [exact Q|reflexivity].
Qed.
Example C70_alone_case : exists wn ppd dq r v1 v2 w c1 c2, (0 < r)%R /\ v1 <> v2 /\
  hankel_qwe h_rq h_isp h_j0 h_j1 h_j0 [0%R] [2%R] wn (true, false, false) 13 [1%R; r] [1%R; 1%R] 0 0 (fun _ => false) 2 ppd dq None None None = Ok ([v1; w], 1%Z, c1) /\
  hankel_qwe h_rq h_isp h_j0 h_j1 h_j0 [0%R] [2%R] wn (true, false, false) 13 [1%R] [1%R] 0 0 (fun _ => false) 2 ppd dq None None None = Ok ([v2], 1%Z, c2).
Proof.
  apply (C70_alone_refuted h_rq h_isp h_j0 h_j1 h_j0 h_cubic).
  - apply h_incr. lia.
  - apply h_incr. lia.
  - unfold h_j0. lra.
Qed.
Example C70_outside_case : exists ppd il, (0 < ppd)%R /\ spl_grid h_j1 h_j0 [0%R] 2 ppd [1%R] = Ok il /\ List.length il = 4%nat /\
  forall l, In l il -> (/ 10 ^ 20 < l < PI * (9 / 4))%R.
Proof.
  pose proof (grid_one h_j1 h_j0 (h_incr 2 0 ltac:(lia)) (h_incr 2 1 ltac:(lia))) as G.
  pose proof (D_pos h_j1 h_j0 (h_incr 2 0 ltac:(lia)) (h_incr 2 1 ltac:(lia))) as DP. cbv zeta in G.
  match type of G with spl_grid _ _ _ _ ?p _ = Ok ?l => exists p, l end.
  assert (PP : (0 < 3 / (log10 ((qx h_j1 h_j0 2 1 + qx h_j1 h_j0 2 2) / 2) - log10 ((qx h_j1 h_j0 2 0 + qx h_j1 h_j0 2 1) / 2)))%R) by (apply Rdiv_lt_0_compat; [lra|exact DP]).
  split; [exact PP|]. split; [exact G|]. split; [reflexivity|]. intros l Hl.
  pose proof (C70_outside h_j1 h_j0 [0%R] 2 (h_pos 2) ltac:(intros g [<-|[]]; lra) ltac:(cbn; lia) _ [1%R] _ 1 1 ltac:(lra) PP (h_incr 2) ltac:(intros r [<-|[]]; lra) (or_introl eq_refl) (or_introl eq_refl) G l Hl) as B.
  rewrite h_zero0, h_zeros in B by lia. cbn [INR] in B. unfold Rdiv in B. rewrite Rinv_1, !Rmult_1_r in B. lra.
Qed.
Example C70_extremes_case : exists ppd r u w c c', (0 < r < 1)%R /\
  hankel_qwe h_rq h_isp h_j0 h_j1 h_j0 [0%R] [2%R] (fun l => Ok (Some (RtoC l), None, None)) (true, false, false) 33 [1; r]%R [1; 1]%R 0 0 (fun _ => false) 2 ppd 100 None None None = Ok ([u; w], 1%Z, c) /\
  hankel_qwe h_rq h_isp h_j0 h_j1 h_j0 [0%R] [2%R] (fun l => Ok (Some (RtoC l), None, None)) (true, false, false) 33 [r; 1]%R [1; 1]%R 0 0 (fun _ => false) 2 ppd 100 None None None = Ok ([w; u], 1%Z, c').
Proof.
  pose proof (grid_two h_j1 h_j0 (h_incr 2 0 ltac:(lia)) (h_incr 2 1 ltac:(lia))) as G.
  pose proof (ro_bounds h_j1 h_j0 (h_incr 2 0 ltac:(lia)) (h_incr 2 1 ltac:(lia))) as RO.
  pose proof (D_pos h_j1 h_j0 (h_incr 2 0 ltac:(lia)) (h_incr 2 1 ltac:(lia))) as DP. cbv zeta in G, RO, DP.
  match type of G with spl_grid _ _ _ _ ?p [_; ?r0] = Ok ?l => set (ppd := p) in *; set (r := r0) in *; set (il := l) in * end.
  assert (PP : (0 < ppd)%R) by (unfold ppd; apply Rdiv_lt_0_compat; [lra|exact DP]). clearbody ppd r il. clear DP.
  set (wn := fun l : R => Ok (Some (RtoC l), None, None) : res triple).
  assert (EX : forall off, (forall x, In x off -> (r <= x <= 1)%R) -> In r off -> In 1%R off -> exists v c, 
    hankel_qwe h_rq h_isp h_j0 h_j1 h_j0 [0%R] [2%R] wn (true, false, false) 33 off (map (fun _ => 1%R) off) 0 0 (fun _ => false) 2 ppd 100 None None None = Ok (v, 1%Z, c) /\ List.length v = List.length off).
  { intros off B I1 I2. rewrite C70_spline; [|lia|apply map_length|intros x Hx; specialize (B x Hx); lra|lra].
    rewrite (grid_extremes h_j1 h_j0 [0%R] 2 (h_pos 2) ltac:(intros g [<-|[]]; lra) ltac:(cbn; lia) ppd off [1%R; r] r 1 ltac:(lra) B ltac:(intros x [<-|[<-|[]]]; lra) I1 (or_intror (or_introl eq_refl)) I2 (or_introl eq_refl)).
    rewrite G. cbn [bind]. rewrite (mapM_row R triple wn (fun l => (Some (RtoC l), None, None))) by reflexivity. do 2 eexists. split; [reflexivity|].
    rewrite map_length, combine_length, map_length. apply Nat.min_id. }
  destruct (EX [1; r]%R) as (v & c & E & L). { intros x [<-|[<-|[]]]; lra. } { right; now left. } { now left. }
  destruct (EX [r; 1]%R) as (v' & c' & E' & L'). { intros x [<-|[<-|[]]]; lra. } { now left. } { right; now left. }
  destruct v as [|u [|w [|]]]; try discriminate L. destruct v' as [|u' [|w' [|]]]; try discriminate L'. cbn [map] in E, E'.
  exists ppd, r, u, w, c, c'. split; [exact RO|]. split; [exact E|].
  assert (X : forall i j, (i < 2)%nat -> (j < 2)%nat -> nth i [1; r]%R 0%R = nth j [r; 1]%R 0%R -> nth i [1; 1]%R 0%R = nth j [1; 1]%R 0%R -> nth i [u; w] (RtoC 0) = nth j [u'; w'] (RtoC 0)).
  { apply (C70_extremes h_rq h_isp h_j0 h_j1 h_j0 [0%R] [2%R] wn (true, false, false) 33 [1; r]%R [1; 1]%R [r; 1]%R [1; 1]%R 0 0 (fun _ => false) 2 ppd 100 None None None r 1 [u; w] 1%Z c [u'; w'] 1%Z c'); try assumption; try reflexivity; try lia; try lra; try (apply h_pos);
      try (intros x [<-|[<-|[]]]; lra); try (intros x [<-|[]]; lra); try (cbn; lia); cbn; auto. }
  rewrite (X 0%nat 1%nat ltac:(lia) ltac:(lia) eq_refl eq_refl : u = w'). rewrite (X 1%nat 0%nat ltac:(lia) ltac:(lia) eq_refl eq_refl : w = u'). exact E'.
Qed.
Example C70_decay_case : gentle h_j1 h_j0 (mkK (Some (fun _ => 1%R, fun _ => 1%R)) None None) 100 5 200 = true.
Proof.
  apply C70_decay. intros k _. unfold Ksum, hq_tot. cbn [K0 K1 K0b hq_at].
  assert (E : Cplus (Cplus (1%R, 1%R) (RtoC 0)) (RtoC 0) = (1, 1)%R) by (apply injective_projections; cbn; ring). rewrite E.
  assert (N : (1, 1)%R <> RtoC 0) by (intros W; apply (f_equal fst) in W; cbn in W; lra). split; [exact N|].
  apply Cmod_gt_0 in N. lra.
Qed.
Lemma h_log : log10 10 = 1%R /\ log10 1 = 0%R.
Proof.
  assert (0 < ln 10)%R by (rewrite <- ln_1; apply ln_increasing; lra).
  unfold log10. rewrite ln_1. split; field; lra.
Qed.
Lemma h_grid : exists il, quad_grid 3 1 10 = Ok il /\ List.length il = 4%nat.
Proof.
  unfold quad_grid. destruct h_log as [-> ->]. rewrite (ztrunc4 ((1 - 0) * 3 + 1) ltac:(lra)). cbn [Z.ltb Z.compare]. rewrite logspace4. eexists. split; reflexivity.
Qed.
Example C70_quad_case : exists v c, hankel_quad h_rq h_isp h_j0 h_j1 (fun _ => Ok (None, Some (RtoC 1), None)) (false, true, false) 13 [100; 200]%R [1; 0]%R 0 0 3 1 10 500 = Ok (v, 1%Z, c) /\ List.length v = 2%nat.
Proof. rewrite C70_quad. destruct h_grid as (il & -> & _). cbn [bind]. rewrite (mapM_row R triple (fun _ => Ok (None, Some (RtoC 1), None)) (fun _ => (None, Some (RtoC 1), None))) by reflexivity. do 2 eexists. split; reflexivity. Qed.
Example C70_quad_integral_case :
  is_CInt 0 2 (hankel_integrand h_j0 h_j1 33 (hq_at (Some (fun _ => 1, fun _ => 3)%R)) (hq_at None) (hq_at None) 100 1)
    (fst (quad (fun g => h_rq g 0 2 0 0 500%nat) h_j0 h_j1 (Some (fun _ => 1, fun _ => 3)%R) None None 33 100 1)).
Proof.
  apply C70_quad_integral. intros g Hg. unfold exact_on, h_rq. cbn [fst]. apply (RInt_correct (V := R_CompleteNormedModule)).
  unfold quad_integrands, part_integrands in Hg. cbn [app] in Hg. destruct Hg as [<-|[<-|[]]]; unfold quad_PJ0, h_j0.
  - apply (ex_RInt_ext (V := R_CompleteNormedModule) (fun _ => (1 * 1)%R)); [reflexivity|apply ex_RInt_const].
  - apply (ex_RInt_ext (V := R_CompleteNormedModule) (fun _ => (3 * 1)%R)); [reflexivity|apply ex_RInt_const].
Qed.

Example C70_adaptive_case : exists v, is_CInt (qx h_j1 h_j0 2 0 / 100) (qx h_j1 h_j0 2 2 / 100) (hankel_integrand h_j0 h_j1 33 (hq_at (Some (fun _ => 1, fun _ => 3)%R)) (hq_at None) (hq_at None) 100 1) v /\
  v = spl_value h_rq h_j0 h_j1 h_j0 [0%R] [2%R] 33 (mkK (Some (fun _ => 1, fun _ => 3)%R) None None) 0 0 (fun _ => false) 2 (1 / 2) None None None (100, 1)%R.
Proof.
  eexists. split; [|reflexivity]. refine (C70_adaptive h_rq h_j0 h_j1 h_j0 [0%R] [2%R] 33 (mkK (Some (fun _ => 1, fun _ => 3)%R) None None) 0 0 (fun _ => false) 2 (1 / 2) None None None 100 1 _ _ 2%nat _ eq_refl eq_refl eq_refl _).
  - apply not_true_is_false. intros G. destruct (proj1 (C70_decay _ _ _ _ _ _) G 0%nat ltac:(lia)) as [_ L]. unfold Ksum, hq_tot, hq_at in L. cbn [K0 K1 K0b fst snd] in L.
    set (u := (1, 3)%R : C) in L. assert (U : (0 < Cmod (u + 0 + 0)%C)%R) by (apply Cmod_gt_0; intros W; apply (f_equal fst) in W; cbn in W; lra). lra.
  - intros g Hg. unfold exact_on, h_rq. cbn [fst]. apply (RInt_correct (V := R_CompleteNormedModule)).
    unfold quad_integrands, part_integrands, K0, K1, K0b in Hg. cbn [app fst snd] in Hg. destruct Hg as [<-|[<-|[]]]; unfold quad_PJ0, h_j0.
    + apply (ex_RInt_ext (V := R_CompleteNormedModule) (fun _ => (1 * 1)%R)); [reflexivity|apply ex_RInt_const].
    + apply (ex_RInt_ext (V := R_CompleteNormedModule) (fun _ => (3 * 1)%R)); [reflexivity|apply ex_RInt_const].
Qed.

(** ** C29 *)
Theorem C29_qwe : forall rquad isp j0 j1 j2 gx gw rtol atol zc maxint dq m gl hook depth q freq msrc mrec srcpts recpts strength xdirect lf lo,
  (0 < min_off m)%R -> plain_model m depth q freq -> good_rule gl srcpts -> good_rule gl recpts ->
  forall src rec bs br, clean_survey src bs -> clean_survey rec br -> forall E,
  let mk := qwe_mk rquad isp j0 j1 j2 gx gw rtol atol zc maxint dq in
  bipole m gl hook mk src rec depth q freq msrc mrec srcpts recpts strength xdirect lf lo = Ok E ->
  (forall A, In A E -> List.length A = b_n br /\ forall row, In row A -> List.length row = b_n bs) /\
  forall s r, (s < b_n bs)%nat -> (r < b_n br)%nat ->
    bipole m gl hook mk (pole_in bs s) (pole_in br r) depth q freq msrc mrec srcpts recpts strength xdirect lf lo = Ok (at_rs r s E).
Proof.
  intros rquad isp j0 j1 j2 gx gw rtol atol zc maxint dq m gl hook depth q freq msrc mrec srcpts recpts strength xdirect lf lo HO HP Gs Gr src rec bs br Hs Hr E mk H.
  exact (C29_placement m gl hook mk depth q freq msrc mrec srcpts recpts strength xdirect lf lo HO (qwe_column_call rquad isp j0 j1 j2 gx gw m hook rtol atol zc maxint dq depth q freq msrc mrec xdirect HP) Gs Gr src rec bs br Hs Hr E H).
Qed.
Theorem C29_quad : forall rquad isp j0 j1 rtol atol ppd a b limit m gl hook depth q freq msrc mrec srcpts recpts strength xdirect lf lo,
  (0 < min_off m)%R -> plain_model m depth q freq -> good_rule gl srcpts -> good_rule gl recpts ->
  forall src rec bs br, clean_survey src bs -> clean_survey rec br -> forall E,
  let mk := quad_mk rquad isp j0 j1 rtol atol ppd a b limit in
  bipole m gl hook mk src rec depth q freq msrc mrec srcpts recpts strength xdirect lf lo = Ok E ->
  (forall A, In A E -> List.length A = b_n br /\ forall row, In row A -> List.length row = b_n bs) /\
  forall s r, (s < b_n bs)%nat -> (r < b_n br)%nat ->
    bipole m gl hook mk (pole_in bs s) (pole_in br r) depth q freq msrc mrec srcpts recpts strength xdirect lf lo = Ok (at_rs r s E).
Proof.
  intros rquad isp j0 j1 rtol atol ppd a b limit m gl hook depth q freq msrc mrec srcpts recpts strength xdirect lf lo HO HP Gs Gr src rec bs br Hs Hr E mk H.
  exact (C29_placement m gl hook mk depth q freq msrc mrec srcpts recpts strength xdirect lf lo HO (quad_column_call rquad isp j0 j1 m hook rtol atol ppd a b limit depth q freq msrc mrec xdirect HP) Gs Gr src rec bs br Hs Hr E H).
Qed.
(** Every accepted survey has a result (these transforms are always called in a loop over frequencies). *)
Theorem C29_qwe_total : forall rquad isp j0 j1 j2 gx gw m gl hook rtol atol zc maxint dq src rec depth q freq msrc mrec srcpts recpts st xdirect lo mo ms stp mr rt bs br,
  (2 <= maxint)%nat -> plain_model m depth q freq -> (0 < min_off m)%R -> xdirect <> Some true ->
  full_rule gl srcpts -> full_rule gl recpts ->
  (0 < sizes src)%nat -> (0 < sizes rec)%nat -> List.Forall nd_wf src -> List.Forall nd_wf rec ->
  check_model m depth (q_res q) (q_aniso q) (q_eH q) (q_eV q) (q_mH q) (q_mV q) = Ok mo ->
  check_mx true msrc = Ok (ms, stp) -> check_mx false mrec = Ok (mr, rt) -> check_bipole src = Ok bs -> check_bipole rec = Ok br ->
  exists E, bipole m gl hook (qwe_mk rquad isp j0 j1 j2 gx gw rtol atol zc maxint dq) src rec depth q freq msrc mrec srcpts recpts st xdirect true lo = Ok E /\ List.length E = List.length freq.
Proof. exact qwe_bipole_total. Qed.
Theorem C29_quad_total : forall rquad isp j0 j1 m gl hook rtol atol ppd a b limit il src rec depth q freq msrc mrec srcpts recpts st xdirect lo mo ms stp mr rt bs br,
  quad_grid ppd a b = Ok il -> plain_model m depth q freq -> (0 < min_off m)%R -> xdirect <> Some true ->
  full_rule gl srcpts -> full_rule gl recpts ->
  (0 < sizes src)%nat -> (0 < sizes rec)%nat -> List.Forall nd_wf src -> List.Forall nd_wf rec ->
  check_model m depth (q_res q) (q_aniso q) (q_eH q) (q_eV q) (q_mH q) (q_mV q) = Ok mo ->
  check_mx true msrc = Ok (ms, stp) -> check_mx false mrec = Ok (mr, rt) -> check_bipole src = Ok bs -> check_bipole rec = Ok br ->
  exists E, bipole m gl hook (quad_mk rquad isp j0 j1 rtol atol ppd a b limit) src rec depth q freq msrc mrec srcpts recpts st xdirect true lo = Ok E /\ List.length E = List.length freq.
Proof. exact quad_bipole_total. Qed.
Example C29_qwe_case : exists E, let mk := qwe_mk h_rq h_isp h_j0 h_j1 h_j0 [0%R] [2%R] 0 0 (fun _ => false) 5 100 in
  bipole default_mins x_gl nohook mk x_src x_rec x_dep x_q [2; 0]%R (MxBool false) (MxBool true) 1 5 1 (Some false) true false = Ok E /\
  List.length E = 2%nat /\ forall A, In A E -> List.length A = 2%nat.
Proof.
  destruct x_model_ok as [o [E1 _]].
  destruct (C29_qwe_total h_rq h_isp h_j0 h_j1 h_j0 [0%R] [2%R] default_mins x_gl nohook 0 0 (fun _ => false) 5%nat 100 x_src x_rec x_dep x_q [2; 0]%R (MxBool false) (MxBool true) 1 5 1 (Some false) false o false XNone true XNone x_bs x_br) as (E & H & L);
    try assumption; try discriminate; try reflexivity; try (cbn; lia); try apply x_rule; try apply x_plain; try exact x_off_pos; try exact x_src_wf; try exact x_rec_wf; try exact x_check_src; try exact x_check_rec.
  exists E. cbv zeta. split; [exact H|]. split; [exact L|]. intros A HA.
  destruct (C29_qwe h_rq h_isp h_j0 h_j1 h_j0 [0%R] [2%R] 0 0 (fun _ => false) 5%nat 100 default_mins x_gl nohook x_dep x_q [2; 0]%R (MxBool false) (MxBool true) 1 5 1 (Some false) true false x_off_pos x_plain (x_good 1) (x_good 5)
    x_src x_rec x_bs x_br x_src_clean x_rec_clean E H) as [S _]. apply (S A HA).
Qed.
Example C29_quad_case : exists E, let mk := quad_mk h_rq h_isp h_j0 h_j1 0 0 3 1 10 500 in
  bipole default_mins x_gl nohook mk x_src x_rec x_dep x_q [2; 0]%R (MxBool false) (MxBool true) 1 5 1 (Some false) true false = Ok E /\
  List.length E = 2%nat /\ forall A, In A E -> List.length A = 2%nat.
Proof.
  destruct x_model_ok as [o [E1 _]]. destruct h_grid as (il & G & _).
  destruct (C29_quad_total h_rq h_isp h_j0 h_j1 default_mins x_gl nohook 0 0 3 1 10 500%nat il x_src x_rec x_dep x_q [2; 0]%R (MxBool false) (MxBool true) 1 5 1 (Some false) false o false XNone true XNone x_bs x_br) as (E & H & L);
    try assumption; try discriminate; try reflexivity; try (cbn; lia); try apply x_rule; try apply x_plain; try exact x_off_pos; try exact x_src_wf; try exact x_rec_wf; try exact x_check_src; try exact x_check_rec.
  exists E. cbv zeta. split; [exact H|]. split; [exact L|]. intros A HA.
  destruct (C29_quad h_rq h_isp h_j0 h_j1 0 0 3 1 10 500%nat default_mins x_gl nohook x_dep x_q [2; 0]%R (MxBool false) (MxBool true) 1 5 1 (Some false) true false x_off_pos x_plain (x_good 1) (x_good 5)
    x_src x_rec x_bs x_br x_src_clean x_rec_clean E H) as [S _]. apply (S A HA).
Qed.

Print Assumptions C70_zeros.
Print Assumptions C70_newton.
Print Assumptions C70_plain.
Print Assumptions C70_layered.
Print Assumptions C70_spline.
Print Assumptions C70_decay.
Print Assumptions C70_extremes.
Print Assumptions C70_alone_refuted.
Print Assumptions C70_outside.
Print Assumptions C70_quad.
Print Assumptions C70_quad_integral.
Print Assumptions C70_adaptive.
Print Assumptions C29_qwe.
Print Assumptions C29_quad.
Print Assumptions C29_qwe_total.
Print Assumptions C29_quad_total.
