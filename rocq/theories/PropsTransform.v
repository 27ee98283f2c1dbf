(** Properties C12 and C14-C20: Hankel and Fourier transforms and the loops of
    model.fem and model.tem.  Each theorem is followed by a concrete case. *)

From Coq Require Import Reals ZArith List Bool String Lia Lra Psatz QArith.
From Coquelicot Require Import Coquelicot.
From Verif Require Import PyBase CBase Kernel KernelSpec KernelMain KernelThm KernelThm2 KernelThm3 UtilsAb PropsKernel Utils UtilsLayer
  Transform TransformDlf TransformLag TransformSpl TransformQwe TransformQuad Fullspace Model ModelFem ModelTem.
Import ListNotations.
Local Open Scope R_scope.
Local Open Scope C_scope.
Local Open Scope res_scope.

(** A small filter with geometric base 1, 2, 4 used in the cases below. *)
Definition x_filt : dfilter := mkF [1; 2; 4]%R 2 [1 / 2; 1 / 4; 1 / 8]%R [1; -1; 1 / 2]%R [1; 2; 3]%R [3; 2; 1]%R.
Lemma x_wf : well_formed x_filt.
Proof. repeat split. repeat constructor; lra. Qed.
Lemma x_geo : geometric x_filt 1.
Proof.
  split; [lra|]. split; [simpl; lra|]. split; [discriminate|].
  intros [|[|[|j]]] H; simpl in *; try lia; lra.
Qed.
(** piecewise linear is too long to write here: the interpolator of the cases
    repeats the first value *)
Definition x_spl : interp := fun v _ q => map (fun _ => hd 0%R v) q.
Lemma x_lin : linear_interp x_spl.
Proof.
  split; [intros; apply map_length|]. intros c u v p q Hu Hv. unfold x_spl. rewrite map2_mm.
  apply map_ext. intros _. destruct u, v, p; simpl in *; try discriminate; try reflexivity; lra.
Qed.
(** A kernel: PJ0 = 1/l, PJ1 = i, PJ0b = l *)
Definition x_K (l : R) : triple := (Some (RtoC (/ l)), Some Ci, Some (RtoC l)).
Lemma x_pat : pattern x_K (true, true, true).
Proof. intros l; repeat split. Qed.
Lemma x_off : forall r, In r [2; 1]%R -> (0 < r)%R.
Proof. intros r [<- | [<- | []]]; lra. Qed.

(** ** C12 *)
(** 63 is computed as 36, and the field for 36 is zero whatever the transform does. *)
Theorem C12_frequency : forall a, (a = 36 \/ a = 63)%Z ->
  exists msrc mrec, check_ab (AbNum (inject_Z a)) = Ok (36%Z, msrc, mrec) /\
  forall rdt calc off angle zsrc zrec lsrc lrec rows xd isfull lf lo conv,
  fem rdt calc 36 off angle zsrc zrec lsrc lrec rows xd isfull msrc mrec lf lo conv =
  Ok (repeat (repeat (RtoC 0) (List.length off)) (List.length rows), 0%Z, conv).
Proof.
  intros a [-> | ->]; eexists _, _; (split; [reflexivity|]); intros; apply fem_36.
Qed.
(** The time-domain response of the zero field is zero. *)
Theorem C12_time : forall calc T nf nt freq, linear_ft calc T nf nt -> List.length freq = nf ->
  forall noff signal conv,
  tem calc nt noff (repeat (repeat (RtoC 0) noff) nf) freq signal None conv = Ok (repeat (repeat 0%R noff) nt, conv).
Proof. exact tem_zero. Qed.
Example C12_case : exists T, linear_ft (fun v => fourier_dlf x_spl true x_filt 0 v [1; 2]%R [1]%R) T 6 2.
Proof. destruct (fourier_dlf_standard x_spl true x_filt [1; 2]%R [1]%R ltac:(discriminate)) as [T [H _]]. exists T. exact H. Qed.
Print Assumptions C12_frequency.
Print Assumptions C12_time.

(** ** C14 *)
(** [dlf_value filt ab K r a] is
      (sum_j w0_j PJ0(b_j/r) + a (sum_j w1_j PJ1(b_j/r) [/ r] + sum_j w0_j PJ0b(b_j/r))) / r. *)
Theorem C14_filter_sum : forall spl wn K used nf filt ab,
  (forall f l, (f < nf)%nat -> (0 < l)%R -> wn f l = Ok (K f l)) ->
  (forall f, (f < nf)%nat -> pattern (K f) used) -> some_used used = true -> well_formed filt ->
  forall off ang, off <> [] -> List.length ang = List.length off -> (forall r, In r off -> (0 < r)%R) ->
  hankel_dlf spl wn used nf off (Some ang) ab filt 0 =
  Ok (map (fun f => map (fun p => dlf_value filt ab (K f) (fst p) (snd p)) (combine off ang)) (seq 0 nf), 1%Z, true).
Proof. exact dlf_standard. Qed.
(** Column o of a call with many offsets is the result of the call with offset o alone. *)
Theorem C14_batching : forall spl wn K used nf filt ab,
  (forall f l, (f < nf)%nat -> (0 < l)%R -> wn f l = Ok (K f l)) ->
  (forall f, (f < nf)%nat -> pattern (K f) used) -> some_used used = true -> well_formed filt ->
  forall off ang fEM kc cv o, off <> [] -> List.length ang = List.length off -> (forall r, In r off -> (0 < r)%R) ->
  (o < List.length off)%nat ->
  hankel_dlf spl wn used nf off (Some ang) ab filt 0 = Ok (fEM, kc, cv) ->
  hankel_dlf spl wn used nf [nth o off 0%R] (Some [nth o ang 0%R]) ab filt 0 =
  Ok (map (fun row => [nth o row (RtoC 0)]) fEM, 1%Z, true).
Proof. exact dlf_batching. Qed.
Example C14_case :
  hankel_dlf x_spl (fun _ l => Ok (x_K l)) (true, true, true) 1 [2; 1]%R (Some [1; -1]%R) 33 x_filt 0 =
    Ok ([[dlf_value x_filt 33 x_K 2 1; dlf_value x_filt 33 x_K 1 (-1)]], 1%Z, true) /\
  dlf_value x_filt 33 x_K 2 1 = (33 / 32, 1 / 4)%R.
Proof.
  split.
  - apply (C14_filter_sum x_spl (fun _ l => Ok (x_K l)) (fun _ => x_K) (true, true, true) 1 x_filt 33); auto.
    + intros; apply x_pat.
    + apply x_wf.
    + discriminate.
    + apply x_off.
  - unfold dlf_value, sum_noang, sum_ang, fsum, part_of. cbn.
    apply injective_projections; simpl; field.
Qed.
Print Assumptions C14_filter_sum.
Print Assumptions C14_batching.

(** ** C15 *)
(** The kernel is evaluated at [lam]; row i of the rearranged values (index trick
    of dlf) holds the values at b_j / p_i, which the standard filter needs for
    offset p_i.  There are at least four p_i and they span [min off, max off]. *)
Theorem C15_grid : forall filt b0 off imin imax, geometric filt b0 -> lmin off = Ok imin -> lmax off = Ok imax ->
  (forall r, In r off -> (0 < r)%R) -> forall nr, (nr < 0)%R ->
  exists lam p, get_dlf_points filt off nr = Ok ([lam], PLag p) /\
    (4 <= List.length p)%nat /\
    (forall r, In r off -> (last p 0 <= r <= hd 0 p)%R) /\
    (forall i, (S i < List.length p)%nat -> nth (S i) p 0%R = (nth i p 0 / f_factor filt)%R) /\
    forall A (zero : A) (K : R -> A),
    rearrange zero (map K lam) (List.length p) (List.length (f_base filt)) =
    map (fun r => map (fun b => K (b / r)%R) (f_base filt)) p.
Proof. exact lag_grid. Qed.
(** The whole lagged Hankel transform: standard sums at the points p, interpolated. *)
Theorem C15_transform : forall spl wn K used filt ab b0, linear_interp spl ->
  (forall l, (0 < l)%R -> wn 0%nat l = Ok (K l)) -> pattern K used -> some_used used = true -> well_formed filt ->
  geometric filt b0 ->
  forall off ang imin imax nr, (nr < 0)%R -> List.length ang = List.length off -> (forall r, In r off -> (0 < r)%R) ->
  lmin off = Ok imin -> lmax off = Ok imax ->
  hankel_dlf spl wn used 1 off (Some ang) ab filt nr =
  Ok ([map (fun x : C * C * (R * R) => Cdiv (Cplus (fst (fst x)) (Cmult (RtoC (snd (snd x))) (snd (fst x)))) (RtoC (fst (snd x))))
        (combine (combine (lag_interp spl filt b0 imin imax (sum_noang filt K) off)
                          (lag_interp spl filt b0 imin imax (sum_ang filt ab K) off)) (combine off ang))], 1%Z, true).
Proof. exact dlf_lagged. Qed.
Example C15_case : exists lam p, get_dlf_points x_filt [2; 1]%R (-1) = Ok ([lam], PLag p) /\ (4 <= List.length p)%nat /\
  rearrange 0%R (map (fun x => x * x)%R lam) (List.length p) 3 = map (fun r => [1 / r * (1 / r); 2 / r * (2 / r); 4 / r * (4 / r)]%R) p.
Proof.
  destruct (C15_grid x_filt 1 [2; 1]%R 1 2 x_geo) with (nr := (-1)%R) as [lam [p [A [B [_ [_ D]]]]]]; try lra.
  - cbn. f_equal. unfold Rmin. destruct (Rle_dec 2 1); lra.
  - cbn. f_equal. unfold Rmax. destruct (Rle_dec 2 1); lra.
  - apply x_off.
  - exists lam, p. split; [exact A|]. split; [exact B|]. exact (D _ 0%R (fun x => x * x)%R).
Qed.
Print Assumptions C15_grid.
Print Assumptions C15_transform.

(** ** C16 *)
(** In all three variants the result is the combination with the angle factor of
    each offset, whatever the list of angle factors (equal, all one, mixed).  The
    standard variant is C14_filter_sum, the lagged variant C15_transform. *)
Theorem C16_standard : forall spl wn K used nf filt ab,
  (forall f l, (f < nf)%nat -> (0 < l)%R -> wn f l = Ok (K f l)) ->
  (forall f, (f < nf)%nat -> pattern (K f) used) -> some_used used = true -> well_formed filt ->
  forall off ang, off <> [] -> List.length ang = List.length off -> (forall r, In r off -> (0 < r)%R) ->
  hankel_dlf spl wn used nf off (Some ang) ab filt 0 =
  Ok (map (fun f => map (fun p => Cdiv (Cplus (sum_noang filt (K f) (fst p)) (Cmult (RtoC (snd p)) (sum_ang filt ab (K f) (fst p)))) (RtoC (fst p)))
       (combine off ang)) (seq 0 nf), 1%Z, true).
Proof. exact dlf_standard. Qed.
Theorem C16_lagged : forall spl wn K used filt ab b0, linear_interp spl ->
  (forall l, (0 < l)%R -> wn 0%nat l = Ok (K l)) -> pattern K used -> some_used used = true -> well_formed filt ->
  geometric filt b0 ->
  forall off ang imin imax nr, (nr < 0)%R -> List.length ang = List.length off -> (forall r, In r off -> (0 < r)%R) ->
  lmin off = Ok imin -> lmax off = Ok imax ->
  hankel_dlf spl wn used 1 off (Some ang) ab filt nr =
  Ok ([map (fun x : C * C * (R * R) => Cdiv (Cplus (fst (fst x)) (Cmult (RtoC (snd (snd x))) (snd (fst x)))) (RtoC (fst (snd x))))
        (combine (combine (lag_interp spl filt b0 imin imax (sum_noang filt K) off)
                          (lag_interp spl filt b0 imin imax (sum_ang filt ab K) off)) (combine off ang))], 1%Z, true).
Proof. exact dlf_lagged. Qed.
Theorem C16_splined : forall spl wn K used filt ab, linear_interp spl ->
  (forall l, (0 < l)%R -> wn 0%nat l = Ok (K l)) -> pattern K used -> some_used used = true -> well_formed filt ->
  f_base filt <> [] ->
  forall off ang imin imax nr, (0 < nr)%R -> List.length ang = List.length off -> (forall r, In r off -> (0 < r)%R) ->
  lmin off = Ok imin -> lmax off = Ok imax ->
  hankel_dlf spl wn used 1 off (Some ang) ab filt nr =
  Ok ([map (fun x => spl_value spl K filt ab (spl_lam (hd 0%R (f_base filt)) (last (f_base filt) 0%R) imin imax nr) (fst x) (snd x))
         (combine off ang)], 1%Z, true).
Proof. exact dlf_splined. Qed.
Example C16_case : exists v,
  hankel_dlf x_spl (fun _ l => Ok (x_K l)) (true, true, true) 1 [2; 1]%R (Some [1; 1]%R) 33 x_filt (-1) = Ok ([v], 1%Z, true) /\
  List.length v = 2%nat.
Proof.
  eexists. split.
  - apply (C16_lagged x_spl (fun _ l => Ok (x_K l)) x_K (true, true, true) x_filt 33 1) with (imin := 1%R) (imax := 2%R); auto using x_lin, x_pat, x_wf, x_geo, x_off.
    + lra.
    + cbn. f_equal. unfold Rmin. destruct (Rle_dec 2 1); lra.
    + cbn. f_equal. unfold Rmax. destruct (Rle_dec 2 1); lra.
  - rewrite map_length, !combine_length. unfold lag_interp. rewrite !(cspl_length x_spl x_lin) by apply map_length. reflexivity.
Qed.
Print Assumptions C16_standard.
Print Assumptions C16_lagged.
Print Assumptions C16_splined.

(** ** C17 *)
(** Any transform that treats frequencies and offsets independently ([separable]). *)
Theorem C17_loops : forall rdt valid calc F ab off angle zsrc zrec lsrc lrec rows xdirect isfull msrc mrec conv,
  let xd := match xdirect with Some b => b | None => true end in
  separable valid calc xd F -> rows <> [] -> off <> [] -> List.length angle = List.length off ->
  (forall r, In r rows -> valid r) -> (forall o, In o off -> (0 < o)%R) ->
  forall fEM kc cv,
  fem rdt calc ab off angle zsrc zrec lsrc lrec rows xdirect isfull msrc mrec false false conv = Ok (fEM, kc, cv) ->
  cv = conv /\ exists kf ko,
    fem rdt calc ab off angle zsrc zrec lsrc lrec rows xdirect isfull msrc mrec true false conv = Ok (fEM, kf, conv) /\
    fem rdt calc ab off angle zsrc zrec lsrc lrec rows xdirect isfull msrc mrec false true conv = Ok (fEM, ko, conv) /\
    if ((ab =? 36)%Z || isfull && xd) then (kc = 0 /\ kf = 0 /\ ko = 0)%Z
    else (kc = 1 /\ kf = Z.of_nat (List.length rows) /\ ko = Z.of_nat (List.length off))%Z.
Proof. exact fem_loops. Qed.
(** The standard DLF with the layered kernel is such a transform. *)
Theorem C17_dlf : forall spl filt z N ab msrc mrec s r zs zr xd, well_formed filt -> valid_call ab msrc mrec ->
  (s <= N)%nat -> (r <= N)%nat ->
  separable (passive_row N z) (dlf_calc spl filt 0 zs zr (Z.of_nat s) (Z.of_nat r) (depth_arr z N) ab msrc mrec) xd
    (fun w o a => dlf_value filt ab (kern zs zr s r z N ab xd msrc mrec w) o a).
Proof. exact dlf_separable. Qed.
(** For any transform at all: count is the sum over the calls, flag their conjunction. *)
Theorem C17_flags : forall calc rows off ang xd lf lo st st', List.length ang = List.length off ->
  fem_calc calc rows off ang xd lf lo st = Ok st' ->
  exists outs, map Ok outs =
     (if lf : bool then map (call_freq calc rows off ang xd) (seq 0 (List.length rows))
      else if lo : bool then map (call_off calc rows off ang xd) (seq 0 (List.length off)) else [calc rows off ang xd]) /\
   snd (fst st') = (snd (fst st) + total_count outs)%Z /\ snd st' = snd st && all_conv outs.
Proof. exact fem_flags. Qed.
Definition x_row : frow := mkrow (arr x_eH 2) (arr x_eV 2) (arr x_zH 2) (arr x_zV 2).
Example C17_case : exists fEM,
  fem false (dlf_calc x_spl x_filt 0 (-10) 30 0 1 (depth_arr x_z 2) 11 false false) 11 [100; 200]%R [0; 1]%R (-10) 30 0 1 [x_row; x_row; x_row] (Some false) false false false false false true = Ok (fEM, 1%Z, true) /\
  fem false (dlf_calc x_spl x_filt 0 (-10) 30 0 1 (depth_arr x_z 2) 11 false false) 11 [100; 200]%R [0; 1]%R (-10) 30 0 1 [x_row; x_row; x_row] (Some false) false false false true false true = Ok (fEM, 3%Z, true) /\
  fem false (dlf_calc x_spl x_filt 0 (-10) 30 0 1 (depth_arr x_z 2) 11 false false) 11 [100; 200]%R [0; 1]%R (-10) 30 0 1 [x_row; x_row; x_row] (Some false) false false false false true true = Ok (fEM, 2%Z, true).
Proof.
  assert (S : separable (passive_row 2 x_z) (dlf_calc x_spl x_filt 0 (-10) 30 0 1 (depth_arr x_z 2) 11 false false) false
     (fun w o a => dlf_value x_filt 11 (kern (-10) 30 0 1 x_z 2 11 false false false w) o a)).
  { apply (C17_dlf x_spl x_filt x_z 2 11 false false 0 1); try lia; [apply x_wf|]. unfold valid_call; cbn; tauto. }
  assert (V : forall r, In r [x_row; x_row; x_row] -> passive_row 2 x_z r).
  { intros r H. assert (r = x_row) by (simpl in H; intuition). subst r. exists x_eH, x_eV, x_zH, x_zV. split; [apply x_passive|reflexivity]. }
  assert (P : forall o, In o [100; 200]%R -> (0 < o)%R) by (intros o [<- | [<- | []]]; lra).
  assert (exists fEM kc, fem false (dlf_calc x_spl x_filt 0 (-10) 30 0 1 (depth_arr x_z 2) 11 false false) 11 [100; 200]%R [0; 1]%R (-10) 30 0 1 [x_row; x_row; x_row] (Some false) false false false false false true = Ok (fEM, kc, true)) as [fEM [kc E]].
  { unfold fem, fem_calc. change (inb 11 [36]%Z) with false. cbn [negb andb bind].
    rewrite (S [x_row; x_row; x_row] [100; 200]%R) by (auto; discriminate). cbn. eexists _, _. reflexivity. }
  destruct (C17_loops false _ _ _ 11 [100; 200]%R [0; 1]%R (-10) 30 0 1 [x_row; x_row; x_row] (Some false) false false false true S ltac:(discriminate) ltac:(discriminate) eq_refl V P fEM kc true E)
    as [_ [kf [ko [A [B [D [F G]]]]]]].
  exists fEM. subst. auto.
Qed.
Print Assumptions C17_loops.
Print Assumptions C17_dlf.
Print Assumptions C17_flags.

(** ** C18 *)
(** [extrapolated c i] is the last entry of Wynn's epsilon table of the partial
    sums after i+1 intervals.  An element that passes its test for the first time
    at interval i0 >= 3 returns the extrapolant of interval i0 - 1, which agrees
    with that of interval i0 within the tolerance.  Missing: i0 = 2, see below. *)
Theorem C18_returned_partial : forall rtol atol maxint zc contrib n out kc conv, (2 <= maxint)%nat ->
  qwe rtol atol maxint zc contrib n = Ok (out, kc, conv) ->
  forall e, (e < n)%nat -> forall i0, (3 <= i0)%nat -> (Z.of_nat i0 < kc)%Z ->
  passes rtol atol zc contrib e i0 -> (forall m, (2 <= m < i0)%nat -> ~ passes rtol atol zc contrib e m) ->
  fst (extrapolated (contrib e) (i0 - 1)) <> dbl_max -> extrapolated (contrib e) i0 <> RtoC 0 ->
  nth e out (RtoC 0) = extrapolated (contrib e) (i0 - 1) /\
  within rtol atol (extrapolated (contrib e) i0) (nth e out (RtoC 0)).
Proof. exact qwe_returned. Qed.
(** The statement of C18 is false: an integral whose intervals contribute 1, 1,
    2^-40, 0, 0, ... converges at the third interval, is declared converged, and
    zero is returned, for every relative tolerance from 1e-8 on. *)
Theorem C18_early_refuted : forall rtol atol zc maxint, (4 <= maxint)%nat -> (/ 10 ^ 8 <= rtol)%R -> (0 <= atol)%R ->
  qwe rtol atol maxint zc wit 1 = Ok ([RtoC 0], 3%Z, true).
Proof. exact qwe_early_zero. Qed.
(** The extrapolation itself is right: it sums a geometric series exactly. *)
Theorem C18_geometric : forall s l c q, (forall n, s n = Cplus l (Cmult c (cpw q n))) ->
  c <> RtoC 0 -> q <> RtoC 0 -> q <> RtoC 1 -> forall n,
  (dbl_tiny <= Cmod (Cminus (s (n + 1)%nat) (s n)))%R ->
  (dbl_tiny <= Cmod (Cminus (s (n + 2)%nat) (s (n + 1)%nat)))%R ->
  (dbl_tiny <= Cmod (Cminus (eps s 1 (n + 1)) (eps s 1 n)))%R -> eps s 2 n = l.
Proof. exact eps2_geometric. Qed.
Print Assumptions C18_returned_partial.
Print Assumptions C18_early_refuted.
Print Assumptions C18_geometric.

(** ** C19 *)
(** QWE: with flag True every element met its tolerance at some interval (or
    the extrapolant was exactly zero and the previous one not above the
    threshold [zc] of the division by zero). *)
Theorem C19_qwe : forall rtol atol maxint zc contrib n out kc, (2 <= maxint)%nat ->
  qwe rtol atol maxint zc contrib n = Ok (out, kc, true) ->
  forall e, (e < n)%nat -> exists i0, (2 <= i0)%nat /\ (Z.of_nat i0 < kc)%Z /\
    (within rtol atol (extrapolated (contrib e) i0) (extrapolated (contrib e) (i0 - 1)) \/
     extrapolated (contrib e) i0 = RtoC 0 /\ zc (extrapolated (contrib e) (i0 - 1)) = false).
Proof. exact qwe_truthful. Qed.
(** QUAD: with flag True no real part reported a problem.  Missing: the imaginary parts. *)
Theorem C19_quad_partial : forall rquad j0 j1, (forall g, (3 <= snd (rquad g))%nat) ->
  forall s0 s1 s0b ab off ang, snd (quad rquad j0 j1 s0 s1 s0b ab off ang) = true ->
  (forall sr si, s0 = Some (sr, si) -> ~ problem (rquad (quad_PJ0 j0 sr off))) /\
  (forall sr si, s1 = Some (sr, si) -> ~ problem (rquad (quad_PJ1 j1 sr ab off ang))) /\
  (forall sr si, s0b = Some (sr, si) -> ~ problem (rquad (quad_PJ0b j0 sr off ang))).
Proof. exact quad_real_truthful. Qed.
(** The flag is True although the quadrature of the imaginary part reports a problem. *)
Theorem C19_quad_refuted : exists rquad s0 ab off ang, (forall g, (3 <= snd (rquad g))%nat) /\
  snd (quad rquad (fun _ => 1%R) (fun _ => 1%R) (Some s0) None None ab off ang) = true /\
  problem (rquad (quad_PJ0 (fun _ => 1%R) (snd s0) off)).
Proof.
  exists wit_quad, (fun _ => 0%R, fun _ => 7%R), 33%Z, 1%R, 1%R.
  destruct quad_imag_ignored as [A [B D]]. auto.
Qed.
Example C19_case : exists out kc, qwe (/ 10) 0 5 (fun _ => true) wit 1 = Ok (out, kc, true).
Proof. eexists _, _. apply C18_early_refuted; [lia| |lra]. apply Rinv_le_contravar; lra. Qed.
Print Assumptions C19_qwe.
Print Assumptions C19_quad_partial.
Print Assumptions C19_quad_refuted.

(** ** C20 *)
Theorem C20_linear : forall calc T nf nt freq, linear_ft calc T nf nt -> List.length freq = nf ->
  forall noff a b x y signal conv tx ty cx cy,
  shape_ok nf noff x = true -> shape_ok nf noff y = true ->
  tem calc nt noff x freq signal None conv = Ok (tx, cx) ->
  tem calc nt noff y freq signal None conv = Ok (ty, cy) ->
  tem calc nt noff (matC a b x y) freq signal None conv = Ok (matR a b tx ty, conv).
Proof. exact tem_linear. Qed.
(** Results of two surveys agree wherever their columns agree. *)
Theorem C20_columnwise : forall calc T nf nt freq, linear_ft calc T nf nt -> List.length freq = nf ->
  forall x y signal conv i j mx my tx ty cx cy, (i < mx)%nat -> (j < my)%nat -> List.length x = nf -> List.length y = nf ->
  column i x = column j y ->
  tem calc nt mx x freq signal None conv = Ok (tx, cx) -> tem calc nt my y freq signal None conv = Ok (ty, cy) ->
  forall t, (t < nt)%nat -> nth i (nth t tx []) 0%R = nth j (nth t ty []) 0%R.
Proof. exact tem_columnwise. Qed.
(** A step response is the impulse response of the field over i omega. *)
Theorem C20_step : forall calc T nf nt freq, linear_ft calc T nf nt -> List.length freq = nf ->
  forall noff x conv, shape_ok nf noff x = true -> (forall f, In f freq -> f <> 0%R) ->
  tem calc nt noff x freq 1 None conv = tem calc nt noff (over_iw freq x) freq 0 None conv.
Proof. exact tem_step. Qed.
(** Apart from the DC value, switch-off is minus switch-on for one and the same transform. *)
Theorem C20_off : forall calc T nf nt freq, linear_ft calc T nf nt -> List.length freq = nf ->
  forall noff x conv t1 c1, shape_ok nf noff x = true ->
  tem calc nt noff x freq 1 None conv = Ok (t1, c1) ->
  tem calc nt noff x freq (-1) None conv = Ok (map (map Ropp) t1, conv).
Proof. exact tem_off_is_minus_on. Qed.
(** The three variants of the Fourier DLF are linear transforms. *)
Theorem C20_dlf_standard : forall spl sine filt time freq, time <> [] ->
  exists T, linear_ft (fun v => fourier_dlf spl sine filt 0 v time freq) T
              (List.length time * List.length (f_base filt)) (List.length time) /\
  forall v t, (t < List.length time)%nat ->
    nth t (T v) 0%R = (rdot (four_w sine filt) (map (fpart sine) (firstn (List.length (f_base filt)) (skipn (t * List.length (f_base filt)) v))) / nth t time 0)%R.
Proof. exact fourier_dlf_standard. Qed.
Theorem C20_dlf_lagged : forall spl sine filt b0 time freq ppd imin imax,
  linear_interp spl -> (ppd < 0)%R -> geometric filt b0 -> lmin time = Ok imin -> lmax time = Ok imax -> (forall t, In t time -> (0 < t)%R) ->
  forall nf, exists T, linear_ft (fun v => fourier_dlf spl sine filt ppd v time freq) T nf (List.length time).
Proof. exact fourier_dlf_lagged. Qed.
Theorem C20_dlf_splined : forall spl sine filt time freq ppd, linear_interp spl -> (0 < ppd)%R ->
  exists T, linear_ft (fun v => fourier_dlf spl sine filt ppd v time freq) T (List.length freq) (List.length time).
Proof. exact fourier_dlf_splined. Qed.
(** two frequencies, two offsets; the transform adds up the real parts *)
Example C20_case :
  linear_ft (fun v => Ok ([rsuml (map fst v)], true)) (fun v => [rsuml (map fst v)]) 2 1 /\
  tem (fun v => Ok ([rsuml (map fst v)], true)) 1 2 [[(1, 2); (3, 4)]; [(5, 6); (7, 8)]]%R [1; 2]%R 0 None true =
    Ok ([[2 / PI * 6; 2 / PI * 10]]%R, true).
Proof.
  split.
  - constructor; try reflexivity. intros a b [|u0 [|u1 [|]]] [|v0 [|v1 [|]]] H1 H2; try discriminate.
    cbn. f_equal. ring.
  - unfold tem, column, step_factor. cbn. match goal with |- Ok ([[?a; ?b]], _) = Ok ([[?c; ?d]], _) => replace a with c by ring; replace b with d by ring end. reflexivity.
Qed.
Print Assumptions C20_linear.
Print Assumptions C20_columnwise.
Print Assumptions C20_step.
Print Assumptions C20_off.
Print Assumptions C20_dlf_standard.
Print Assumptions C20_dlf_lagged.
Print Assumptions C20_dlf_splined.
