(** The splined Hankel transform by QWE and the other offsets of the call (C70). *)

From Coq Require Import ZArith Reals List Bool String Lia Lra Psatz.
From Coquelicot Require Import Coquelicot.
From Verif Require Import PyBase CBase Kernel Utils UtilsLayer Transform TransformDlf TransformQwe TransformQuad UtilsArgs ArgsFreq Model ModelFem Fourier FourierSum FourierFft FourierLog3 FourierQwe HankelQ HankelQThm.
Import ListNotations.
Local Open Scope R_scope.
Local Open Scope C_scope.
Local Open Scope res_scope.

(** ** Zeros of J1 *)
Lemma Int_part_one : forall (z : Z) (x : R), (IZR z <= x < IZR z + 1)%R -> Int_part x = z.
Proof.
  intros z x H. destruct (base_Int_part x) as [A B].
  assert (L1 : (IZR (Int_part x) < IZR (z + 1))%R) by (rewrite plus_IZR; lra). assert (L2 : (IZR z < IZR (Int_part x + 1))%R) by (rewrite plus_IZR; lra).
  apply lt_IZR in L1. apply lt_IZR in L2. lia.
Qed.

(** [arange(1.25, n+1)] has n elements *)
Lemma guess_nth : forall n k, (k < n)%nat -> nth k (hq_guess n) 0%R = (PI * (INR k + 5 / 4))%R.
Proof.
  intros n k Hk. unfold hq_guess, arange. rewrite map_map.
  assert (CE : ceilZ ((INR n + 1 - 5 / 4) / 1) = Z.of_nat n).
  { unfold ceilZ. assert (IP : Int_part (- ((INR n + 1 - 5 / 4) / 1)) = (- Z.of_nat n)%Z).
    { rewrite INR_IZR_INZ. apply Int_part_one. rewrite opp_IZR. lra. }
    rewrite IP. lia. }
  rewrite CE, Nat2Z.id. rewrite FourierFft.nth_map_seq by exact Hk. lra.
Qed.
Lemma guess_length : forall n, List.length (hq_guess n) = n.
Proof.
  intros n. unfold hq_guess, arange. rewrite !map_length, seq_length.
  assert (CE : ceilZ ((INR n + 1 - 5 / 4) / 1) = Z.of_nat n).
  { unfold ceilZ. assert (IP : Int_part (- ((INR n + 1 - 5 / 4) / 1)) = (- Z.of_nat n)%Z).
    { rewrite INR_IZR_INZ. apply Int_part_one. rewrite opp_IZR. lra. }
    rewrite IP. lia. }
  rewrite CE. apply Nat2Z.id.
Qed.

Lemma newton_length : forall j1 j2 n z, List.length (hq_newton j1 j2 n z) = List.length z.
Proof.
  intros j1 j2 n. induction n as [|n IH]; intros z; [reflexivity|]. cbn [hq_newton].
  assert (L : List.length (map2 Rplus z (map (hq_step j1 j2) z)) = List.length z) by (rewrite UtilsLayer.map2_length, map_length; lia).
  destruct (forallb _ _); [exact L|]. rewrite IH. exact L.
Qed.
Lemma xint_length : forall j1 j2 n, List.length (hq_xint j1 j2 n) = S n.
Proof. intros. unfold hq_xint, hq_zeros. cbn [List.length]. rewrite newton_length, guess_length. reflexivity. Qed.

(** every zero is refined by itself: [steps j1 j2 n x] are n Newton steps *)
Fixpoint steps (j1 j2 : R -> R) (n : nat) (x : R) : R := match n with O => x | S k => steps j1 j2 k (x + hq_step j1 j2 x)%R end.
Lemma newton_steps : forall j1 j2 n z, exists m, (m <= n)%nat /\ hq_newton j1 j2 n z = map (steps j1 j2 m) z.
Proof.
  intros j1 j2 n. induction n as [|n IH]; intros z; [exists 0%nat; split; [lia|]; cbn; now rewrite map_id|].
  cbn [hq_newton]. assert (E : map2 Rplus z (map (hq_step j1 j2) z) = map (fun x => x + hq_step j1 j2 x)%R z).
  { clear. induction z as [|a z IH]; [reflexivity|]. cbn. f_equal. exact IH. }
  rewrite E. destruct (forallb _ _).
  - exists 1%nat. split; [lia|]. reflexivity.
  - destruct (IH (map (fun x => x + hq_step j1 j2 x)%R z)) as (m & Hm & ->). exists (S m). split; [lia|]. rewrite map_map. reflexivity.
Qed.
(** with J1' = J1/x - J2 the step is Newton's *)
Lemma newton_step : forall j1 j2 (x : R), is_derive (K := R_AbsRing) (V := R_NormedModule) j1 x (j1 x / x - j2 x)%R ->
  hq_step j1 j2 x = (- j1 x / Derive j1 x)%R.
Proof. intros j1 j2 x H. unfold hq_step. now rewrite (is_derive_unique _ _ _ H). Qed.
Lemma newton_fixed : forall j1 j2 (x : R), (j1 x / x - j2 x <> 0)%R -> (hq_step j1 j2 x = 0%R <-> j1 x = 0%R).
Proof.
  intros j1 j2 x N. unfold hq_step. split; intros H.
  - apply Rmult_integral in H. destruct H as [H|H]; [lra|]. exfalso. revert H. now apply Rinv_neq_0_compat.
  - rewrite H. unfold Rdiv. ring.
Qed.
Theorem zeros_refined : forall j1 j2 n, exists m, (m <= 10)%nat /\ forall k, (k < n)%nat ->
  nth (S k) (hq_xint j1 j2 n) 0%R = steps j1 j2 m (PI * (INR k + 5 / 4))%R.
Proof.
  intros j1 j2 n. unfold hq_xint, hq_zeros. destruct (newton_steps j1 j2 10 (hq_guess n)) as (m & Hm & ->). exists m. split; [exact Hm|].
  intros k Hk. cbn [nth]. rewrite (nth_indep _ 0%R (steps j1 j2 m 0%R)) by (rewrite map_length, guess_length; exact Hk).
  rewrite map_nth. now rewrite guess_nth.
Qed.

(** ** The interpolation grid depends on the extreme offsets only *)
Section Grid.
Variables j1 j2 : R -> R.
Variable gx : list R.
Variable maxint : nat.
Notation qx := (qx j1 j2 maxint).
Notation lam := (hq_lambd gx qx (List.length gx) maxint).
Hypothesis Hx : forall i, (i <= maxint)%nat -> (0 < qx i)%R.
Hypothesis Hg : forall g, In g gx -> (-1 < g < 1)%R.
Hypothesis Hn : (0 < List.length gx * maxint)%nat.

Lemma Bx_pos : forall j, (j < List.length gx * maxint)%nat -> (0 < hq_Bx gx qx (List.length gx) j)%R.
Proof using All.
  intros j Hj. unfold hq_Bx. set (n := List.length gx) in *. assert (N0 : (n <> 0)%nat) by lia.
  assert (Di : (j / n < maxint)%nat) by (apply Nat.div_lt_upper_bound; lia).
  pose proof (Hx (j / n)%nat ltac:(lia)) as P1. pose proof (Hx (S (j / n))%nat ltac:(lia)) as P2.
  assert (G : In (nth (j mod n) gx 0%R) gx) by (apply nth_In; apply Nat.mod_upper_bound; exact N0). apply Hg in G.
  revert P1 P2 G. generalize (qx (j / n)%nat) (qx (S (j / n))%nat) (nth (j mod n) gx 0%R). intros u v g P1 P2 [G1 G2].
  replace ((v - u) / 2 * (g + 1) + u)%R with (v * ((g + 1) / 2) + u * ((1 - g) / 2))%R by field.
  apply Rplus_lt_0_compat; apply Rmult_lt_0_compat; lra.
Qed.

Lemma in_lams : forall off y, In y (List.concat (map lam off)) <-> exists r j, In r off /\ (j < List.length gx * maxint)%nat /\ y = (hq_Bx gx qx (List.length gx) j / r)%R.
Proof using All.
  intros off y. rewrite in_concat. split.
  - intros (l & Hl & Hy). apply in_map_iff in Hl. destruct Hl as (r & <- & Hr). unfold hq_lambd in Hy. apply in_map_iff in Hy. destruct Hy as (j & <- & Hj). apply in_seq in Hj.
    exists r, j. split; [exact Hr|]. split; [lia|reflexivity].
  - intros (r & j & Hr & Hj & ->). exists (lam r). split; [now apply in_map|]. unfold hq_lambd. apply in_map_iff. exists j. split; [reflexivity|apply in_seq; lia].
Qed.

Lemma ok_inj : forall (u v : R), Ok u = Ok v -> u = v.
Proof using. intros u v H. congruence. Qed.

Lemma lams_ne : forall off, off <> [] -> List.concat (map lam off) <> [].
Proof using All.
  intros off No E. destruct off as [|r off]; [congruence|]. assert (W : In (hq_Bx gx qx (List.length gx) 0 / r)%R (List.concat (map lam (r :: off)))).
  { apply in_lams. exists r, 0%nat. split; [now left|]. split; [exact Hn|reflexivity]. }
  rewrite E in W. exact W.
Qed.

Lemma lmin_same : forall off off' rmax, (forall r, In r off -> (0 < r <= rmax)%R) -> (forall r, In r off' -> (0 < r <= rmax)%R) -> In rmax off -> In rmax off' ->
  lmin (List.concat (map lam off)) = lmin (List.concat (map lam off')).
Proof using All.
  intros off off' rmax H H' I I'.
  assert (N : off <> []) by (intros ->; exact I). assert (N' : off' <> []) by (intros ->; exact I').
  destruct (lmin_spec _ (lams_ne off N)) as (m & E & Im & Lm). destruct (lmin_spec _ (lams_ne off' N')) as (m' & E' & Im' & Lm'). rewrite E, E'. f_equal.
  apply in_lams in Im. destruct Im as (r & j & Hr & Hj & Em). apply in_lams in Im'. destruct Im' as (r' & j' & Hr' & Hj' & Em').
  pose proof (Bx_pos j Hj). pose proof (Bx_pos j' Hj').
  assert (A : (m' <= hq_Bx gx qx (List.length gx) j / rmax)%R) by (apply Lm', in_lams; exists rmax, j; auto).
  assert (B : (m <= hq_Bx gx qx (List.length gx) j' / rmax)%R) by (apply Lm, in_lams; exists rmax, j'; auto).
  assert (DV : forall b q, (0 < b)%R -> (0 < q <= rmax)%R -> (b / rmax <= b / q)%R).
  { intros b q Hb Hq. unfold Rdiv. apply Rmult_le_compat_l; [lra|]. apply Rinv_le_contravar; lra. }
  pose proof (DV _ r ltac:(eassumption) (H r Hr)). pose proof (DV (hq_Bx gx qx (List.length gx) j') r' ltac:(eassumption) (H' r' Hr')).
  specialize (DV (hq_Bx gx qx (List.length gx) j) r ltac:(assumption) (H r Hr)). lra.
Qed.
Lemma lmax_same : forall off off' rmin, (0 < rmin)%R -> (forall r, In r off -> (rmin <= r)%R) -> (forall r, In r off' -> (rmin <= r)%R) -> In rmin off -> In rmin off' ->
  lmax (List.concat (map lam off)) = lmax (List.concat (map lam off')).
Proof using All.
  intros off off' rmin P H H' I I'.
  assert (N : off <> []) by (intros ->; exact I). assert (N' : off' <> []) by (intros ->; exact I').
  destruct (lmax_spec _ (lams_ne off N)) as (m & E & Im & Lm). destruct (lmax_spec _ (lams_ne off' N')) as (m' & E' & Im' & Lm'). rewrite E, E'. f_equal.
  apply in_lams in Im. destruct Im as (r & j & Hr & Hj & Em). apply in_lams in Im'. destruct Im' as (r' & j' & Hr' & Hj' & Em').
  pose proof (Bx_pos j Hj) as B1. pose proof (Bx_pos j' Hj') as B2.
  assert (A : (hq_Bx gx qx (List.length gx) j / rmin <= m')%R) by (apply Lm', in_lams; exists rmin, j; auto).
  assert (B : (hq_Bx gx qx (List.length gx) j' / rmin <= m)%R) by (apply Lm, in_lams; exists rmin, j'; auto).
  assert (DV : forall b q, (0 < b)%R -> (rmin <= q)%R -> (b / q <= b / rmin)%R).
  { intros b q Hb Hq. unfold Rdiv. apply Rmult_le_compat_l; [lra|]. apply Rinv_le_contravar; lra. }
  pose proof (DV _ r B1 (H r Hr)). pose proof (DV _ r' B2 (H' r' Hr')). lra.
Qed.

Theorem grid_extremes : forall ppd off off' rmin rmax, (0 < rmin)%R ->
  (forall r, In r off -> (rmin <= r <= rmax)%R) -> (forall r, In r off' -> (rmin <= r <= rmax)%R) ->
  In rmin off -> In rmin off' -> In rmax off -> In rmax off' ->
  spl_grid j1 j2 gx maxint ppd off = spl_grid j1 j2 gx maxint ppd off'.
Proof using All.
  intros ppd off off' rmin rmax P H H' I1 I1' I2 I2'. unfold spl_grid.
  assert (EL : lmin (List.concat (map lam off)) = lmin (List.concat (map lam off'))).
  { apply (lmin_same off off' rmax); auto; intros r Hr; [specialize (H r Hr)|specialize (H' r Hr)]; lra. }
  assert (EM : lmax (List.concat (map lam off)) = lmax (List.concat (map lam off'))).
  { apply (lmax_same off off' rmin); auto; intros r Hr; [specialize (H r Hr)|specialize (H' r Hr)]; lra. }
  rewrite EL, EM. reflexivity.
Qed.

(** the decay test looks outside the interpolated wavenumbers *)
Theorem test_outside : forall ppd off il rmin rmax, (0 < rmin)%R -> (0 < ppd)%R -> (forall i, (i < maxint)%nat -> (qx i < qx (S i))%R) ->
  (forall r, In r off -> (rmin <= r <= rmax)%R) -> In rmin off -> In rmax off ->
  spl_grid j1 j2 gx maxint ppd off = Ok il ->
  forall l, In l il -> (qx 0 / rmax < l < qx maxint / rmin)%R.
Proof using All.
  intros ppd off il rmin rmax P PP HI H I1 I2 HG l Hl. unfold spl_grid in HG.
  assert (N : off <> []) by (intros ->; exact I1).
  destruct (lmin_spec _ (lams_ne off N)) as (m & E & Im & Lm). destruct (lmax_spec _ (lams_ne off N)) as (M & E' & IM & LM). rewrite E, E' in HG. cbn [bind] in HG.
  destruct (_ <? 4)%Z eqn:E4; [discriminate|]. apply Z.ltb_ge in E4. set (n := ztrunc _) in *. clearbody n.
  assert (MONO : forall i k, (i <= k)%nat -> (k <= maxint)%nat -> (qx i <= qx k)%R).
  { intros i k Hik. induction Hik as [|k Hik IH]; intros Hk; [lra|]. specialize (IH ltac:(lia)). specialize (HI k ltac:(lia)). lra. }
  assert (BB : forall j, (j < List.length gx * maxint)%nat -> (qx 0%nat < hq_Bx gx qx (List.length gx) j < qx maxint)%R).
  { intros j Hj. unfold hq_Bx. set (nq := List.length gx) in *. assert (N0 : (nq <> 0)%nat) by lia.
    assert (Di : (j / nq < maxint)%nat) by (apply Nat.div_lt_upper_bound; lia).
    assert (G : In (nth (j mod nq) gx 0%R) gx) by (apply nth_In; apply Nat.mod_upper_bound; exact N0). apply Hg in G.
    pose proof (HI _ Di). pose proof (MONO 0%nat (j / nq)%nat ltac:(lia) ltac:(lia)). pose proof (MONO (S (j / nq)) maxint ltac:(lia) ltac:(lia)).
    revert H0 H1 H2 G. generalize (qx (j / nq)%nat) (qx (S (j / nq))) (nth (j mod nq) gx 0%R) (qx 0%nat) (qx maxint). intros u v g x0 xn A1 A2 A3 [G1 G2]. split; nra. }
  assert (Hm : (qx 0%nat / rmax < m)%R).
  { apply in_lams in Im. destruct Im as (r & j & Hr & Hj & ->). specialize (H r Hr). pose proof (BB j Hj). pose proof (Hx 0%nat ltac:(lia)).
    apply Rlt_le_trans with (hq_Bx gx qx (List.length gx) j / rmax)%R; unfold Rdiv.
    - apply Rmult_lt_compat_r; [apply Rinv_0_lt_compat|]; lra.
    - apply Rmult_le_compat_l; [lra|]. apply Rinv_le_contravar; lra. }
  assert (HM : (M < qx maxint / rmin)%R).
  { apply in_lams in IM. destruct IM as (r & j & Hr & Hj & ->). specialize (H r Hr). pose proof (BB j Hj). pose proof (Hx 0%nat ltac:(lia)).
    apply Rle_lt_trans with (hq_Bx gx qx (List.length gx) j / rmin)%R; unfold Rdiv.
    - apply Rmult_le_compat_l; [lra|]. apply Rinv_le_contravar; lra.
    - apply Rmult_lt_compat_r; [apply Rinv_0_lt_compat|]; lra. }
  assert (m0 : (0 < m)%R). { pose proof (Hx 0%nat ltac:(lia)). assert (0 < qx 0%nat / rmax)%R; [|lra]. apply Rdiv_lt_0_compat; [lra|]. specialize (H _ I1). lra. }
  assert (mM : (m <= M)%R) by (apply LM; exact Im).
  unfold logspace in HG. destruct (n <? 0)%Z eqn:En; [discriminate|]. destruct (n =? 1)%Z eqn:E1; [apply Z.eqb_eq in E1; lia|].
  apply (f_equal (fun r => match r with Ok v => v | Err _ => [] end)) in HG. subst il. apply in_map_iff in Hl. destruct Hl as (k & <- & Hk). apply in_seq in Hk.
  pose proof (log10_le m M m0 mM) as LL.
  assert (K01 : (0 <= INR k * ((log10 M - log10 m) / IZR (n - 1)) <= log10 M - log10 m)%R).
  { assert (Pn : (0 < IZR (n - 1))%R) by (apply IZR_lt; lia). assert (Pk : (0 <= INR k)%R) by apply pos_INR.
    assert (Kn : (INR k <= IZR (n - 1))%R). { rewrite INR_IZR_INZ. apply IZR_le. lia. }
    replace (INR k * ((log10 M - log10 m) / IZR (n - 1)))%R with ((log10 M - log10 m) * (INR k / IZR (n - 1)))%R by (field; lra).
    assert (Q : (0 <= INR k / IZR (n - 1) <= 1)%R).
    { split; [apply Rmult_le_pos; [lra|]; left; apply Rinv_0_lt_compat; lra|]. apply (Rmult_le_reg_r (IZR (n - 1))); [lra|]. unfold Rdiv. rewrite Rmult_assoc, Rinv_l by lra. lra. }
    split; [apply Rmult_le_pos; lra|]. rewrite <- (Rmult_1_r (log10 M - log10 m)) at 2. apply Rmult_le_compat_l; lra. }
  split.
  - apply Rlt_le_trans with m; [exact Hm|]. rewrite <- (p10_log10 m m0) at 1. apply p10_le. lra.
  - apply Rle_lt_trans with M; [|exact HM]. rewrite <- (p10_log10 M ltac:(lra)). apply p10_le. rewrite (p10_log10 M ltac:(lra)). lra.
Qed.
End Grid.

(** ** The result of an offset depends on the other offsets of the call *)

(** the cubic through four points *)
Definition lagrange4 (a b c d ya yb yc yd q : R) : R :=
  (ya * ((q - b) * (q - c) * (q - d)) / ((a - b) * (a - c) * (a - d)) +
   yb * ((q - a) * (q - c) * (q - d)) / ((b - a) * (b - c) * (b - d)) +
   yc * ((q - a) * (q - b) * (q - d)) / ((c - a) * (c - b) * (c - d)) +
   yd * ((q - a) * (q - b) * (q - c)) / ((d - a) * (d - b) * (d - c)))%R.
(** a cubic spline through four points (with not-a-knot ends) is that cubic *)
Definition cubic_of_four (isp : list R -> list R -> R -> R) : Prop :=
  forall a b c d ya yb yc yd q, (a < b < c)%R -> (c < d)%R -> isp [a; b; c; d] [ya; yb; yc; yd] q = lagrange4 a b c d ya yb yc yd q.

Lemma lagrange_step : forall a h y q z, (h <> 0)%R ->
  lagrange4 a (a + h) (a + 2 * h) (a + 3 * h) y y y z (a + q * h) = (y + (z - y) * (q * (q - 1) * (q - 2) / 6))%R.
Proof. intros a h y q z Hh. unfold lagrange4. field. repeat split; lra. Qed.

Section Alone.
Variable rquad : (R -> R) -> R -> R -> R -> R -> nat -> R * nat.
Variable isp : list R -> list R -> R -> R.
Variables j0 j1 j2 : R -> R.
Hypothesis HS : cubic_of_four isp.
Notation x0 := (/ 10 ^ 20)%R.
Notation x1 := (qx j1 j2 2 1).
Notation x2 := (qx j1 j2 2 2).
Hypothesis H1 : (x0 < x1)%R.
Hypothesis H2 : (x1 < x2)%R.
Let B0 := ((x0 + x1) / 2)%R.
Let B1 := ((x1 + x2) / 2)%R.
Hypothesis HJ : j0 B1 <> 0%R.

Let D := (log10 B1 - log10 B0)%R.
Let ro := p10 (- (D / 6)).
Let bump (l : R) : triple := (Some (0%R, if Req_EM_T l B1 then 2%R else 1%R), None, None).

Lemma x0_pos : (0 < x0)%R.
Proof using. apply Rinv_0_lt_compat. apply pow_lt. lra. Qed.
Lemma B_order : (x0 < B0 < x1 /\ x1 < B1 < x2)%R.
Proof using H1 H2. unfold B0, B1. lra. Qed.
Lemma D_pos : (0 < D)%R.
Proof using H1 H2.
  pose proof x0_pos. pose proof B_order. unfold D, log10. pose proof ln10_pos. assert (ln B0 < ln B1)%R by (apply ln_increasing; lra).
  unfold Rdiv. rewrite <- Rmult_minus_distr_r. apply Rmult_lt_0_compat; [lra|]. apply Rinv_0_lt_compat. lra.
Qed.

Lemma lam_two : forall r, hq_lambd [0%R] (qx j1 j2 2) 1 2 r = [(B0 / r)%R; (B1 / r)%R].
Proof using.
  intros r. unfold hq_lambd, hq_Bx. cbn [seq map Nat.mul Nat.add Nat.div Nat.modulo Nat.divmod fst snd nth Nat.sub].
  change (qx j1 j2 2 0) with x0. unfold B0, B1, Rdiv.
  generalize x0 x1 x2 (/ r)%R. intros u v w i.
  apply (f_equal2 cons); [match goal with |- ?u = ?v => change (@eq R u v) end; field|]. apply (f_equal2 cons); [match goal with |- ?u = ?v => change (@eq R u v) end; field|reflexivity].
Qed.

(** four points *)
Definition four (a h : R) : list R := [p10 a; p10 (a + h); p10 (a + 2 * h); p10 (a + 3 * h)].
Lemma logspace4 : forall a b, logspace a b 4 = Ok (four a ((b - a) / 3)).
Proof using.
  intros a b. change (logspace a b 4) with (Ok (map (fun k => p10 (a + INR k * ((b - a) / 3))) [0; 1; 2; 3]%nat)). unfold four. cbn [map INR].
  apply (f_equal Ok). repeat (apply (f_equal2 cons); [apply (f_equal p10); unfold Rdiv; ring|]). reflexivity.
Qed.

Lemma ln_four : forall a h, map ln (four a h) = [(a * ln 10)%R; (a * ln 10 + h * ln 10)%R; (a * ln 10 + 2 * (h * ln 10))%R; (a * ln 10 + 3 * (h * ln 10))%R].
Proof using. intros a h. unfold four, p10. cbn [map]. rewrite !ln_exp. repeat (apply (f_equal2 cons); [ring|]). reflexivity. Qed.

Lemma spl_four : forall a h y z q, (0 < h)%R -> isp (map ln (four a h)) [y; y; y; z] ((a + q * h) * ln 10) = (y + (z - y) * (q * (q - 1) * (q - 2) / 6))%R.
Proof using HS.
  intros a h y z q Hh. rewrite ln_four. pose proof ln10_pos. assert (0 < h * ln 10)%R by (now apply Rmult_lt_0_compat). rewrite HS by lra.
  replace ((a + q * h) * ln 10)%R with (a * ln 10 + q * (h * ln 10))%R by ring. apply lagrange_step. lra.
Qed.

Lemma ro_bounds : (0 < ro < 1)%R.
Proof using H1 H2.
  pose proof D_pos. split; [apply p10_pos|]. unfold ro. assert (E : p10 0 = 1%R) by (unfold p10; rewrite Rmult_0_l; apply exp_0). rewrite <- E. apply p10_lt. lra.
Qed.
Lemma logB1 : log10 (B1 / ro) = (log10 B0 + (D + D / 6))%R.
Proof using H1 H2.
  pose proof ro_bounds. pose proof x0_pos. pose proof B_order. rewrite log10_div by lra. unfold ro. rewrite log10_p10. unfold D. ring.
Qed.

Lemma ztrunc4 : forall y, (4 <= y < 5)%R -> ztrunc y = 4%Z.
Proof using.
  intros y Hy. unfold ztrunc. rewrite (proj2 (UtilsLayer.Rleb_true 0 y)) by lra. apply Int_part_one. cbn. lra.
Qed.

Lemma grid_one : spl_grid j1 j2 [0%R] 2 (3 / D) [1%R] = Ok (four (log10 B0) (D / 3)).
Proof using H1 H2.
  pose proof D_pos. pose proof B_order. unfold spl_grid. cbn [map List.concat List.length]. rewrite lam_two. cbn [app lmin lmax fold_left bind].
  rewrite !Rdiv_1. rewrite Rmin_left, Rmax_right by lra. fold D. rewrite ztrunc4 by (replace (D * (3 / D) + 1)%R with 4%R by (field; lra); lra).
  cbn [Z.ltb Z.compare Pos.compare Pos.compare_cont]. rewrite logspace4. reflexivity.
Qed.
Lemma grid_two : spl_grid j1 j2 [0%R] 2 (3 / D) [1%R; ro] = Ok (four (log10 B0) ((D + D / 6) / 3)).
Proof using H1 H2.
  pose proof D_pos. pose proof B_order. pose proof ro_bounds. pose proof x0_pos.
  assert (L : forall y, (0 < y)%R -> (y < y / ro)%R).
  { intros y Hy. apply (Rmult_lt_reg_r ro); [lra|]. unfold Rdiv. rewrite Rmult_assoc, Rinv_l by lra. nra. }
  pose proof (L B0 ltac:(lra)). pose proof (L B1 ltac:(lra)).
  assert (B0 / ro < B1 / ro)%R. { unfold Rdiv. apply Rmult_lt_compat_r; [apply Rinv_0_lt_compat|]; lra. }
  unfold spl_grid. cbn [map List.concat List.length]. rewrite !lam_two. cbn [app lmin lmax fold_left bind].
  rewrite !Rdiv_1. rewrite (Rmin_left B0 B1), (Rmin_left B0 (B0 / ro)), (Rmin_left B0 (B1 / ro)) by lra.
  rewrite (Rmax_right B0 B1) by lra.
  assert (MX : Rmax (Rmax B1 (B0 / ro)) (B1 / ro) = (B1 / ro)%R) by (apply Rmax_right; apply Rmax_lub; lra). rewrite MX, logB1.
  replace (log10 B0 + (D + D / 6) - log10 B0)%R with (D + D / 6)%R by ring.
  rewrite ztrunc4 by (replace ((D + D / 6) * (3 / D) + 1)%R with (9 / 2)%R by (field; lra); lra).
  cbn [Z.ltb Z.compare Pos.compare Pos.compare_cont]. rewrite logspace4. apply (f_equal Ok). apply (f_equal (four (log10 B0))). unfold Rdiv. rgR.
Qed.

Lemma bump_at : forall y, bump (p10 y) = (Some (0%R, if Req_EM_T y (log10 B1) then 2%R else 1%R), None, None).
Proof using H1 H2.
  pose proof B_order. pose proof x0_pos. intros y. unfold bump. destruct (Req_EM_T (p10 y) B1) as [E|N]; destruct (Req_EM_T y (log10 B1)) as [E'|N']; try reflexivity.
  - exfalso. apply N'. rewrite <- E. symmetry. apply log10_p10.
  - exfalso. apply N. rewrite E'. apply p10_log10. lra.
Qed.
Lemma bump_four : forall h z, (h <> D /\ 2 * h <> D)%R -> (z = if Req_EM_T (3 * h) D then 2 else 1)%R ->
  map bump (four (log10 B0) h) = [(Some (0, 1), None, None); (Some (0, 1), None, None); (Some (0, 1), None, None); (Some (0, z), None, None)]%R.
Proof using H1 H2.
  pose proof D_pos. intros h z [N1 N2] Hz. unfold four. cbn [map]. rewrite !bump_at.
  destruct (Req_EM_T (log10 B0) (log10 B1)) as [E|_]; [exfalso; unfold D in *; lra|].
  destruct (Req_EM_T (log10 B0 + h) (log10 B1)) as [E|_]; [exfalso; apply N1; unfold D; lra|].
  destruct (Req_EM_T (log10 B0 + 2 * h) (log10 B1)) as [E|_]; [exfalso; apply N2; unfold D; lra|].
  do 6 f_equal. rewrite Hz. destruct (Req_EM_T (log10 B0 + 3 * h) (log10 B1)) as [E|E]; destruct (Req_EM_T (3 * h) D) as [E'|E']; try reflexivity; exfalso; unfold D in *; lra.
Qed.

(** the interpolated kernel *)
Let cub (q : R) : R := (q * (q - 1) * (q - 2) / 6)%R.
Lemma kernel_at : forall h z l, (0 < h)%R -> (0 < l)%R ->
  let K := interpolated isp (true, false, false) (four (log10 B0) h) [(Some (0, 1), None, None); (Some (0, 1), None, None); (Some (0, 1), None, None); (Some (0, z), None, None)]%R in
  hq_at (K0 K) l = (0, 1 + (z - 1) * cub ((log10 l - log10 B0) / h))%R /\ K1 K = None /\ K0b K = None.
Proof using HS.
  intros h z l Hh Hl K. split; [|split; reflexivity]. unfold K, interpolated. cbn [K0 fst snd]. unfold hq_spl. cbn [map oval t0 fst snd]. unfold hq_at.
  pose proof ln10_pos. assert (EL : ln l = ((log10 B0 + (log10 l - log10 B0) / h * h) * ln 10)%R) by (unfold log10; field; lra).
  rewrite EL. rewrite !(spl_four (log10 B0) h) by exact Hh. unfold cub. apply injective_projections; cbn [fst snd]; [ring|reflexivity].
Qed.

(** value of the offset 1 *)
Lemma contrib_val : forall ab K i, K1 K = None -> K0b K = None -> (i < 2)%nat ->
  let B := ((qx j1 j2 2 i + qx j1 j2 2 (S i)) / 2)%R in
  spl_contrib j0 j1 j2 [0%R] [2%R] ab K 2 (1, 1)%R i = Cmult (RtoC ((qx j1 j2 2 (S i) - qx j1 j2 2 i) * j0 B)) (hq_at (K0 K) B).
Proof using.
  intros ab K i E1 E2 Hi B. unfold spl_contrib, gauss. cbn [fst snd List.length seq map nth csuml fold_right]. rewrite E1, E2, !Rdiv_1.
  set (u := qx j1 j2 2 i) in *. set (v := qx j1 j2 2 (S i)) in *.
  replace ((v - u) / 2 * (0 + 1) + u)%R with B by (unfold B; field). unfold hankel_integrand. cbn [hq_at]. rewrite Rmult_1_l.
  assert (Z : (if isJ2 ab then Cdiv (RtoC 0) (RtoC 1) else RtoC 0) = RtoC 0) by (destruct (isJ2 ab); unfold Cdiv; ring). rewrite Z.
  assert (EH : RtoC ((v - u) * j0 B) = Cmult (Cmult (RtoC ((v - u) / 2)) (RtoC 2)) (RtoC (j0 B))) by (rewrite <- !RtoC_mult; f_equal; field).
  rewrite EH. ring.
Qed.

Lemma value_im : forall rtol atol zc c a b, c 0%nat = (0, a)%R -> c 1%nat = (0, b)%R -> qwe_value rtol atol zc 2 c = (0, b + a)%R.
Proof using.
  intros rtol atol zc c a b E0 E1. rewrite value_two, E0, E1. unfold Cplus, RtoC, clean. cbn [fst snd]. pose proof dbl_max_16.
  rewrite Reqb_false by lra. apply injective_projections; cbn [fst snd]; rgR.
Qed.

Lemma cub3 : cub 3 = 1%R.
Proof using. unfold cub. field. Qed.
Lemma cub0 : cub 0 = 0%R.
Proof using. unfold cub. field. Qed.
Lemma cub_low : forall q, (0 <= q)%R -> (0 < 1 + cub q)%R.
Proof using.
  intros q Hq. unfold cub. rewrite Rmult_assoc. destruct (Rle_dec 2 q) as [L|L].
  - assert (0 <= q * ((q - 1) * (q - 2)))%R by (apply Rmult_le_pos; [|apply Rmult_le_pos]; lra). lra.
  - assert (W : (- (1 / 4) <= (q - 1) * (q - 2))%R).
    { replace ((q - 1) * (q - 2))%R with ((q - 3 / 2) * (q - 3 / 2) - 1 / 4)%R by field. pose proof (Rle_0_sqr (q - 3 / 2)) as W. unfold Rsqr in W. lra. }
    set (P := ((q - 1) * (q - 2))%R) in *. clearbody P. assert (0 <= q * (P + 1 / 4))%R by (apply Rmult_le_pos; lra).
    lra.
Qed.

Lemma tot_one : forall K l k, K1 K = None -> K0b K = None -> hq_at (K0 K) l = (0, k)%R -> Ksum K l = (0, k)%R.
Proof using.
  intros K l k E1 E2 E. unfold Ksum, hq_tot. rewrite E1, E2, E. cbn [hq_at]. unfold Cplus, RtoC. apply injective_projections; cbn [fst snd]; rgR.
Qed.
Lemma Cmod_im : forall k, Cmod (0, k)%R = Rabs k.
Proof using. intros k. unfold Cmod. cbn [fst snd]. replace (0 ^ 2 + k ^ 2)%R with (Rsqr k) by (unfold Rsqr; ring). apply sqrt_Rsqr_abs. Qed.

Theorem spline_alone : forall ab rtol atol zc, exists wn ppd dq r v1 v2 w c1 c2,
  (0 < r)%R /\ v1 <> v2 /\
  hankel_qwe rquad isp j0 j1 j2 [0%R] [2%R] wn (true, false, false) ab [1%R; r] [1%R; 1%R] rtol atol zc 2 ppd dq None None None = Ok ([v1; w], 1%Z, c1) /\
  hankel_qwe rquad isp j0 j1 j2 [0%R] [2%R] wn (true, false, false) ab [1%R] [1%R] rtol atol zc 2 ppd dq None None None = Ok ([v2], 1%Z, c2).
Proof using All.
  intros ab rtol atol zc. pose proof D_pos as HD. pose proof B_order as HB. pose proof ro_bounds as HR. pose proof x0_pos as HX.
  assert (PP : (3 / D <> 0)%R) by (apply Rgt_not_eq; apply Rdiv_lt_0_compat; lra).
  set (hs := (D / 3)%R). set (ht := ((D + D / 6) / 3)%R).
  assert (Hs : (0 < hs)%R) by (unfold hs; lra). assert (Ht : (0 < ht)%R) by (unfold ht; lra).
  set (Ks := interpolated isp (true, false, false) (four (log10 B0) hs) [(Some (0, 1), None, None); (Some (0, 1), None, None); (Some (0, 1), None, None); (Some (0, 2), None, None)]%R).
  set (Kt := interpolated isp (true, false, false) (four (log10 B0) ht) [(Some (0, 1), None, None); (Some (0, 1), None, None); (Some (0, 1), None, None); (Some (0, 1), None, None)]%R).
  set (kap := fun l => (1 + cub ((log10 l - log10 B0) / hs))%R).
  assert (KS : forall l, (0 < l)%R -> hq_at (K0 Ks) l = (0, kap l)%R /\ K1 Ks = None /\ K0b Ks = None).
  { intros l Hl. destruct (kernel_at hs 2 l Hs Hl) as (A & B & C0). split; [|split; [exact B|exact C0]]. etransitivity; [exact A|]. unfold kap. apply injective_projections; cbn [fst snd]; rgR. }
  assert (KT : forall l, (0 < l)%R -> hq_at (K0 Kt) l = (0, 1)%R /\ K1 Kt = None /\ K0b Kt = None).
  { intros l Hl. destruct (kernel_at ht 1 l Ht Hl) as (A & B & C0). split; [|split; [exact B|exact C0]]. etransitivity; [exact A|]. apply injective_projections; cbn [fst snd]; rgR. }
  assert (kB0 : kap B0 = 1%R). { unfold kap. replace ((log10 B0 - log10 B0) / hs)%R with 0%R by (unfold Rdiv; ring). rewrite cub0. ring. }
  assert (kB1 : kap B1 = 2%R). { unfold kap. fold D. replace (D / hs)%R with 3%R by (unfold hs; field; lra). rewrite cub3. ring. }
  assert (kpos : forall l, (B0 <= l)%R -> (0 < kap l)%R).
  { intros l Hl. apply cub_low. apply Rmult_le_pos; [|left; apply Rinv_0_lt_compat; exact Hs]. pose proof (log10_le B0 l ltac:(lra) Hl). lra. }
  pose proof (kpos x1 ltac:(lra)) as P1. pose proof (kpos x2 ltac:(lra)) as P2.
  set (dq := (2 + Rabs (kap x0) / kap x1 + kap x1 / kap x2)%R).
  assert (A0 : (0 <= Rabs (kap x0) / kap x1)%R) by (apply Rmult_le_pos; [apply Rabs_pos|left; apply Rinv_0_lt_compat; lra]).
  assert (A1 : (0 <= kap x1 / kap x2)%R) by (apply Rmult_le_pos; [lra|left; apply Rinv_0_lt_compat; lra]).
  assert (X0 : qx j1 j2 2 0 = x0) by reflexivity.
  assert (GS : gentle j1 j2 Ks dq 2 1 = true).
  { apply gentle_spec. intros k Hk. rewrite !Rdiv_1.
    assert (T : forall l, (0 < l)%R -> Ksum Ks l = (0, kap l)%R). { intros l Hl. destruct (KS l Hl) as (Q1 & Q2 & Q3). now apply tot_one. }
    destruct k as [|[|k]]; [| |lia].
    - rewrite X0, !T by lra. rewrite !Cmod_im. split; [intros E; apply (f_equal snd) in E; unfold RtoC in E; cbn [snd] in E; lra|]. rewrite (Rabs_right (kap x1)) by lra.
      unfold dq. replace ((2 + Rabs (kap x0) / kap x1 + kap x1 / kap x2) * kap x1)%R with (2 * kap x1 + Rabs (kap x0) + kap x1 / kap x2 * kap x1)%R by (field; lra).
      assert (0 <= kap x1 / kap x2 * kap x1)%R by (apply Rmult_le_pos; lra). lra.
    - rewrite !T by lra. rewrite !Cmod_im. split; [intros E; apply (f_equal snd) in E; unfold RtoC in E; cbn [snd] in E; lra|]. rewrite !Rabs_right by lra.
      unfold dq. replace ((2 + Rabs (kap x0) / kap x1 + kap x1 / kap x2) * kap x2)%R with (2 * kap x2 + Rabs (kap x0) / kap x1 * kap x2 + kap x1)%R by (field; lra).
      assert (0 <= Rabs (kap x0) / kap x1 * kap x2)%R by (apply Rmult_le_pos; lra). lra. }
  assert (GT : gentle j1 j2 Kt dq 2 1 = true).
  { apply gentle_spec. intros k Hk. rewrite !Rdiv_1.
    assert (T : forall l, (0 < l)%R -> Ksum Kt l = (0, 1)%R). { intros l Hl. destruct (KT l Hl) as (Q1 & Q2 & Q3). now apply tot_one. }
    assert (PX : (0 < qx j1 j2 2 k /\ 0 < qx j1 j2 2 (S k))%R) by (destruct k as [|[|k]]; [rewrite X0| |lia]; lra).
    rewrite !T by tauto. rewrite Cmod_im, Rabs_R1. split; [intros E; apply (f_equal snd) in E; unfold RtoC in E; cbn [snd] in E; lra|]. unfold dq. lra. }
  exists (fun l => Ok (bump l)), (3 / D)%R, dq, ro.
  exists (0, (x2 - x1) * j0 B1 + (x1 - x0) * j0 B0)%R, (0, (x2 - x1) * j0 B1 * 2 + (x1 - x0) * j0 B0)%R.
  do 3 eexists. split; [lra|]. split.
  { intros E. apply (f_equal snd) in E. cbn [snd] in E. assert (N : ((x2 - x1) * j0 B1 <> 0)%R) by (apply Rmult_integral_contrapositive; split; [lra|exact HJ]). lra. }
  assert (MB : forall l, mapM (fun l => Ok (bump l)) l = Ok (map bump l)) by (intros l; apply mapM_row; reflexivity).
  assert (EB0 : ((qx j1 j2 2 0 + qx j1 j2 2 1) / 2)%R = B0) by (rewrite X0; reflexivity).
  split.
  - rewrite qwe_spline; [|lia|reflexivity|intros r [<-|[<-|[]]]; lra|exact PP].
    rewrite grid_two. cbn [bind]. rewrite MB. cbn [bind]. fold ht.
    rewrite (bump_four ht 1) by (first [split; unfold ht; lra | destruct (Req_EM_T (3 * ht) D) as [E|E]; [unfold ht in E; lra|reflexivity]]).
    cbv zeta. fold Kt. cbn [combine map]. do 3 f_equal. apply (f_equal2 cons); [|reflexivity].
    unfold spl_value. cbn [fst]. rewrite GT.
    apply value_im; rewrite contrib_val by (try lia; exact (proj1 (proj2 (KT 1%R ltac:(lra)))) || exact (proj2 (proj2 (KT 1%R ltac:(lra))))).
    + cbv zeta. rewrite EB0. destruct (KT B0 ltac:(lra)) as [-> _]. unfold Cmult, RtoC. rewrite X0. apply injective_projections; cbn [fst snd]; rgR.
    + cbv zeta. fold B1. destruct (KT B1 ltac:(lra)) as [-> _]. unfold Cmult, RtoC. apply injective_projections; cbn [fst snd]; rgR.
  - rewrite qwe_spline; [|lia|reflexivity|intros r [<-|[]]; lra|exact PP].
    rewrite grid_one. cbn [bind]. rewrite MB. cbn [bind]. fold hs.
    rewrite (bump_four hs 2) by (first [split; unfold hs; lra | destruct (Req_EM_T (3 * hs) D) as [E|E]; [reflexivity|exfalso; apply E; unfold hs; field]]).
    cbv zeta. fold Ks. cbn [combine map]. do 3 f_equal. apply (f_equal2 cons); [|reflexivity].
    unfold spl_value. cbn [fst]. rewrite GS.
    apply value_im; rewrite contrib_val by (try lia; exact (proj1 (proj2 (KS 1%R ltac:(lra)))) || exact (proj2 (proj2 (KS 1%R ltac:(lra))))).
    + cbv zeta. rewrite EB0. destruct (KS B0 ltac:(lra)) as [-> _]. rewrite kB0. unfold Cmult, RtoC. rewrite X0. apply injective_projections; cbn [fst snd]; rgR.
    + cbv zeta. fold B1. destruct (KS B1 ltac:(lra)) as [-> _]. rewrite kB1. unfold Cmult, RtoC. apply injective_projections; cbn [fst snd]; rgR.
Qed.
End Alone.
