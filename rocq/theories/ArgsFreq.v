(** * Do the computed points cover the points at which a transform interpolates? *)
From Coq Require Import ZArith List Lia Lra Reals String Bool.
From Coquelicot Require Import Coquelicot.
From Verif Require Import PyBase CBase Utils Transform UtilsArgs UtilsLayer UtilsGeo TransformDlf TransformLag ArgsKw.
Import ListNotations.
Local Open Scope string_scope.
Local Open Scope res_scope.
Local Open Scope R_scope.

(** [x] lies between two of the points: interpolation, not extrapolation *)
Definition hull (l : list R) (x : R) : Prop := exists lo hi, In lo l /\ In hi l /\ lo <= x <= hi.

Lemma ln10_pos : 0 < ln 10.
Proof. rewrite <- ln_1. apply ln_increasing; lra. Qed.
Lemma p10_log10 : forall x, 0 < x -> p10 (log10 x) = x.
Proof. intros x Hx. unfold p10, log10. pose proof ln10_pos. replace (ln x / ln 10 * ln 10) with (ln x) by (field; lra). apply exp_ln. exact Hx. Qed.
Lemma log10_p10 : forall x, log10 (p10 x) = x.
Proof. intros x. unfold p10, log10. rewrite ln_exp. pose proof ln10_pos. field. lra. Qed.
Lemma p10_le : forall x y, x <= y -> p10 x <= p10 y.
Proof.
  intros x y H. unfold p10. pose proof ln10_pos. destruct (Req_dec x y) as [->|Hn]; [right; reflexivity|].
  left. apply exp_increasing. apply Rmult_lt_compat_r; lra.
Qed.
Lemma p10_lt : forall x y, x < y -> p10 x < p10 y.
Proof. intros x y H. unfold p10. pose proof ln10_pos. apply exp_increasing. apply Rmult_lt_compat_r; lra. Qed.
Lemma p10_plus : forall x y, p10 (x + y) = p10 x * p10 y.
Proof. intros. unfold p10. rewrite Rmult_plus_distr_r. apply exp_plus. Qed.
Lemma p10_pos : forall x, 0 < p10 x.
Proof. intros. apply exp_pos. Qed.
Lemma p10_pow : forall x n, p10 x ^ n = p10 (INR n * x).
Proof.
  intros x n. induction n as [|n IH]; [unfold p10; cbn; rewrite !Rmult_0_l, exp_0; reflexivity|].
  rewrite S_INR. cbn [pow]. rewrite IH, <- p10_plus. f_equal. ring.
Qed.
Lemma p10_m01 : 7 / 10 < p10 (- (1 / 10)).
Proof.
  destruct (Rlt_le_dec (7 / 10) (p10 (- (1 / 10)))) as [H|H]; [exact H|exfalso].
  assert (E : p10 (- (1 / 10)) ^ 10 = 1 / 10).
  { rewrite p10_pow. replace (INR 10 * - (1 / 10)) with (- (1)) by (cbn; lra).
    unfold p10. replace (- (1) * ln 10) with (- ln 10) by ring. rewrite exp_Ropp, exp_ln by lra. lra. }
  pose proof (pow_incr (p10 (- (1 / 10))) (7 / 10) 10 (conj (Rlt_le _ _ (p10_pos _)) H)). lra.
Qed.
Lemma log10_le : forall x y, 0 < x -> x <= y -> log10 x <= log10 y.
Proof.
  intros x y Hx H. unfold log10. pose proof ln10_pos. apply Rmult_le_compat_r; [left; apply Rinv_0_lt_compat; lra|].
  destruct (Req_dec x y) as [->|]; [lra|]. left. apply ln_increasing; lra.
Qed.
Lemma log10_mult : forall x y, 0 < x -> 0 < y -> log10 (x * y) = log10 x + log10 y.
Proof. intros. unfold log10. rewrite ln_mult by assumption. field. pose proof ln10_pos. lra. Qed.
Lemma log10_div : forall x y, 0 < x -> 0 < y -> log10 (x / y) = log10 x - log10 y.
Proof. intros. unfold log10, Rdiv at 2. rewrite ln_mult, ln_Rinv by (auto; apply Rinv_0_lt_compat; auto). field. pose proof ln10_pos. lra. Qed.
Lemma log10_1 : log10 1 = 0.
Proof. unfold log10. rewrite ln_1. unfold Rdiv. ring. Qed.

(** ** Splined digital filter *)
Theorem spline_cover : forall filt inp nr b0 bl,
  idx (f_base filt) 0 = Ok b0 -> idx (f_base filt) (-1) = Ok bl -> 0 < b0 ->
  (forall b, In b (f_base filt) -> b0 <= b <= bl) ->
  inp <> [] -> (forall r, In r inp -> 0 < r) -> 0 < nr ->
  exists out ps, get_dlf_points filt inp nr = Ok ([out], PSpl ps) /\ (4 <= List.length out)%nat /\
    ps = map (fun r => map (fun b => b / r) (f_base filt)) inp /\
    forall row x, In row ps -> In x row -> hull out x.
Proof.
  intros filt inp nr b0 bl E0 El Hb0 Hb Hne Hpos Hnr. pose proof ln10_pos as L10.
  destruct (lmin_spec inp Hne) as (imin & Emin & Imin & Mmin). destruct (lmax_spec inp Hne) as (imax & Emax & Imax & Mmax).
  unfold get_dlf_points. rewrite TransformDlf.Reqb_false by lra. rewrite Emin, Emax, El, E0. cbn [bind].
  rewrite TransformDlf.Rltb_false by lra.
  pose proof (Hpos _ Imin) as Pmin. pose proof (Hpos _ Imax) as Pmax.
  assert (Hbl : b0 <= bl).
  { assert (Hin : In b0 (f_base filt)).
    { destruct (f_base filt) as [|z l]; [discriminate|]. left. unfold idx in E0. cbn in E0.
      destruct (Z.pos (Pos.of_succ_nat (List.length l))); cbn in E0; congruence. }
    apply Hb in Hin. lra. }
  set (outmin := b0 / imax). set (outmax := bl / imin).
  assert (P1 : 0 < outmin) by (apply Rdiv_lt_0_compat; lra).
  assert (P2 : 0 < outmax) by (apply Rdiv_lt_0_compat; lra).
  set (N := nout_spl outmin outmax nr).
  assert (N4 : (4 <= N)%Z).
  { unfold N, nout_spl. destruct (_ <? 4)%Z eqn:E; [lia|]. apply Z.ltb_ge in E. exact E. }
  assert (NB : ln (outmax / outmin) / ln 10 * nr <= IZR (N - 1)).
  { unfold N, nout_spl. set (c := ceilZ (ln (outmax / outmin) / ln 10 * nr)).
    apply Rle_trans with (IZR c); [apply ceilZ_ge|]. apply IZR_le.
    destruct (c + 1 <? 4)%Z eqn:E; [apply Z.ltb_lt in E; lia|lia]. }
  eexists _, _. split; [reflexivity|].
  assert (AE : arange (ln outmin / ln 10) (ln outmin / ln 10 + IZR N / nr) (1 / nr)
               = map (fun k => ln outmin / ln 10 + INR k * (1 / nr)) (seq 0 (Z.to_nat N))).
  { unfold arange. replace ((ln outmin / ln 10 + IZR N / nr - ln outmin / ln 10) / (1 / nr)) with (IZR N) by (field; lra).
    rewrite ceilZ_IZR. reflexivity. }
  rewrite AE, map_map. split; [rewrite map_length, seq_length; lia|]. split; [reflexivity|].
  intros row x Hrow Hx. apply in_map_iff in Hrow. destruct Hrow as (r & <- & Hr).
  apply in_map_iff in Hx. destruct Hx as (b & <- & Hbin).
  specialize (Hb b Hbin). pose proof (Hpos r Hr) as Pr. pose proof (Mmin r Hr). pose proof (Mmax r Hr).
  set (F := fun k => exp ((ln outmin / ln 10 + INR k * (1 / nr)) * ln 10)).
  exists (F 0%nat), (F (Z.to_nat (N - 1))).
  split; [apply in_map_iff; exists 0%nat; split; [reflexivity|apply in_seq; lia]|].
  split; [apply in_map_iff; exists (Z.to_nat (N - 1)); split; [reflexivity|apply in_seq; lia]|].
  split.
  - unfold F. replace ((ln outmin / ln 10 + INR 0 * (1 / nr)) * ln 10) with (ln outmin) by (cbn; field; lra).
    rewrite exp_ln by exact P1. unfold outmin, Rdiv. apply Rmult_le_compat; try lra.
    + left. apply Rinv_0_lt_compat. lra.
    + apply Rinv_le_contravar; lra.
  - apply Rle_trans with outmax.
    + unfold outmax, Rdiv. apply Rmult_le_compat; try lra; [left; apply Rinv_0_lt_compat; lra|apply Rinv_le_contravar; lra].
    + rewrite <- (exp_ln outmax P2). unfold F.
      rewrite INR_IZR_INZ, Z2Nat.id by lia.
      assert (G : ln outmax <= (ln outmin / ln 10 + IZR (N - 1) * (1 / nr)) * ln 10).
      { replace ((ln outmin / ln 10 + IZR (N - 1) * (1 / nr)) * ln 10)
          with (ln outmin + IZR (N - 1) * (ln 10 / nr)) by (field; lra).
        assert (E : ln (outmax / outmin) = ln outmax - ln outmin)
          by (unfold Rdiv; rewrite ln_mult, ln_Rinv by (auto; apply Rinv_0_lt_compat; auto); ring).
        rewrite E in NB. apply (Rmult_le_compat_r (ln 10 / nr)) in NB; [|left; apply Rdiv_lt_0_compat; lra].
        replace ((ln outmax - ln outmin) / ln 10 * nr * (ln 10 / nr)) with (ln outmax - ln outmin) in NB by (field; lra).
        lra. }
      destruct G as [G|G]; [left; apply exp_increasing; exact G|right; rewrite G; reflexivity].
Qed.

(** ** FFT with logarithmically spaced frequencies *)
Lemma logspace_ends : forall a b n, (2 <= n)%Z -> a <= b ->
  exists l, logspace a b n = Ok l /\ In (p10 a) l /\ In (p10 b) l.
Proof.
  intros a b n Hn Hab. unfold logspace. destruct (n <? 0)%Z eqn:E; [apply Z.ltb_lt in E; lia|].
  destruct (n =? 1)%Z eqn:E1; [apply Z.eqb_eq in E1; lia|].
  eexists. split; [reflexivity|]. split; apply in_map_iff.
  - exists 0%nat. split; [cbn; f_equal; ring|apply in_seq; lia].
  - exists (Z.to_nat (n - 1)). split; [|apply in_seq; lia]. rewrite INR_IZR_INZ, Z2Nat.id by lia.
    f_equal. field. apply not_0_IZR. lia.
Qed.

Theorem fft_cover : forall lib leg lgi t sg args freq dfreq nfreq ntot p rest,
  ft_settings lib leg lgi t sg "fft" args = Ok (freq, FtFft dfreq nfreq ntot (Some p), rest) ->
  0 < dfreq -> (1 <= nfreq)%Z -> 1 <= log10 (IZR nfreq) * IZR p ->
  forall k, (1 <= k <= nfreq)%Z -> hull freq (IZR k * dfreq).
Proof.
  intros lib leg lgi t sg args freq dfreq nfreq ntot p rest H Hd Hn Hp k Hk.
  revert H. unfold ft_settings, dpop.
  change (String.eqb "fft" "dlf") with false. change (String.eqb "fft" "qwe") with false.
  change (String.eqb "fft" "fftlog") with false. change (String.eqb "fft" "fft") with true. cbv iota.
  assert (Hb : forall A B (r : res A) (f : A -> res B) b, bind r f = Ok b -> exists a, r = Ok a /\ f a = Ok b).
  { intros A B [a|e] f b E; [exists a; auto|discriminate]. }
  intros H.
  apply Hb in H. destruct H as (df & E1 & H). apply Hb in H. destruct H as (nf & E2 & H).
  apply Hb in H. destruct H as (nt & E3 & H). apply Hb in H. destruct H as (ppd & E4 & H).
  apply Hb in H. destruct H as (fr & E5 & H). injection H as -> -> -> Ent Ep Er.
  rewrite Ep in E5.
  assert (Pn : 1 <= IZR nfreq) by (apply IZR_le; exact Hn).
  rewrite log10_mult in E5 by lra.
  replace (log10 (IZR nfreq) + log10 dfreq - log10 dfreq) with (log10 (IZR nfreq)) in E5 by ring.
  assert (N2 : (2 <= ztrunc (log10 (IZR nfreq) * IZR p + 1))%Z).
  { unfold ztrunc. rewrite (proj2 (Rleb_true 0 _)) by lra.
    destruct (Int_part_bounds (log10 (IZR nfreq) * IZR p + 1)) as [_ B].
    assert (1 < Int_part (log10 (IZR nfreq) * IZR p + 1))%Z by (apply lt_IZR; lra). lia. }
  assert (L0 : 0 <= log10 (IZR nfreq)) by (rewrite <- log10_1; apply log10_le; lra).
  destruct (logspace_ends (log10 dfreq) (log10 (IZR nfreq) + log10 dfreq) _ N2) as (l & El & A & B); [lra|].
  rewrite El in E5. injection E5 as <-.
  exists (p10 (log10 dfreq)), (p10 (log10 (IZR nfreq) + log10 dfreq)). split; [exact A|]. split; [exact B|].
  rewrite p10_plus, !p10_log10 by lra.
  assert (1 <= IZR k <= IZR nfreq) by (split; apply IZR_le; lia). nra.
Qed.

(** ** FFTLog *)
Theorem fftlog_cover : forall lgi rmin rmax n q mu inp tmin tmax a0 a1 t,
  get_fftlog_input lgi rmin rmax n q mu = Ok inp -> (1 <= n)%Z ->
  0 < tmin -> tmin <= t <= tmax ->
  rmin = log10 (1 / tmax) + a0 -> rmax = log10 (1 / tmin) + a1 ->
  let d := (rmax - rmin) / IZR n in
  0 < d -> d <= a1 -> a0 <= - d ->
  hull (l_tcalc inp) t.
Proof.
  intros lgi rmin rmax n q mu inp tmin tmax a0 a1 t H Hn Ht Htt Emin Emax d Hd H1 H0.
  pose proof ln10_pos as L10. unfold get_fftlog_input in H.
  destruct (n =? 0)%Z eqn:En; [discriminate|]. destruct (Reqb _ 0); [discriminate|].
  injection H as <-. cbn [l_tcalc]. fold d.
  set (arg := ln 2 / (d * ln 10) + _).
  set (e := arg - IZR (rint arg)).
  assert (He : Rabs e <= / 2) by (unfold e; rewrite <- Rabs_Ropp; replace (- (arg - IZR (rint arg))) with (IZR (rint arg) - arg) by ring; apply rint_close).
  apply Rabs_le_between in He.
  assert (Lk : log10 (exp (e * (d * ln 10))) = e * d) by (unfold log10; rewrite ln_exp; field; lra).
  rewrite Lk. set (F := fun j => p10 (e * d - (rmin + rmax) / 2 + (j - (IZR n + 1) / 2) * d)).
  assert (Pn : 1 <= IZR n) by (apply IZR_le; exact Hn).
  assert (Dn : d * IZR n = rmax - rmin) by (unfold d; field; lra).
  assert (Hin : forall j, (1 <= j <= n)%Z -> In (F (IZR j)) (map F (map (fun k => IZR (Z.of_nat k + 1)) (seq 0 (Z.to_nat n))))).
  { intros j Hj. apply in_map. apply in_map_iff. exists (Z.to_nat (j - 1)). split; [f_equal; lia|apply in_seq; lia]. }
  assert (Lt : log10 tmin <= log10 t <= log10 tmax) by (split; apply log10_le; lra).
  assert (Emin' : rmin = - log10 tmax + a0) by (rewrite Emin, log10_div, log10_1 by lra; ring).
  assert (Emax' : rmax = - log10 tmin + a1) by (rewrite Emax, log10_div, log10_1 by lra; ring).
  assert (ED : - d / 2 <= e * d <= d / 2) by (split; nra).
  exists (F 1), (F (IZR n)). split; [apply (Hin 1%Z); lia|]. split; [apply Hin; lia|].
  rewrite <- (p10_log10 t) by lra. unfold F. split; apply p10_le.
  - replace (e * d - (rmin + rmax) / 2 + (1 - (IZR n + 1) / 2) * d)
      with (e * d - (rmin + rmax) / 2 + d / 2 - (d * IZR n) / 2) by field.
    rewrite Dn. lra.
  - replace (e * d - (rmin + rmax) / 2 + (IZR n - (IZR n + 1) / 2) * d)
      with (e * d - (rmin + rmax) / 2 - d / 2 + (d * IZR n) / 2) by field.
    rewrite Dn. lra.
Qed.

(** with the default additional decades [-2, 1] and at least two points per
    decade every requested time is covered *)
Theorem fftlog_default_cover : forall lib leg lgi t sg args freq ppd ad q mu inp rest,
  ft_settings lib leg lgi t sg "fftlog" args = Ok (freq, FtLog ppd ad q mu inp, rest) ->
  lookup "add_dec" args = None -> (2 <= ppd)%Z -> (forall x, In x t -> 0 < x) ->
  forall x, In x t -> hull (l_tcalc inp) x.
Proof.
  intros lib leg lgi t sg args freq ppd ad q mu inp rest H Had Hp Hpos x Hx.
  revert H. unfold ft_settings, dpop.
  change (String.eqb "fftlog" "dlf") with false. change (String.eqb "fftlog" "qwe") with false.
  change (String.eqb "fftlog" "fftlog") with true. cbv iota.
  assert (Hb : forall A B (r : res A) (f : A -> res B) b, bind r f = Ok b -> exists a, r = Ok a /\ f a = Ok b).
  { intros A B [a|e] f b E; [exists a; auto|discriminate]. }
  intros H. apply Hb in H. destruct H as (pp & E1 & H). apply Hb in H. destruct H as (a & E2 & H).
  rewrite dget_del in E2 by discriminate. unfold dget in E2. rewrite Had in E2. cbn in E2. injection E2 as <-.
  apply Hb in H. destruct H as (qq & E3 & H). apply Hb in H. destruct H as (tmax & E4 & H).
  apply Hb in H. destruct H as (tmin & E5 & H). apply Hb in H. destruct H as (ip & E6 & H).
  injection H as _ Epp _ _ _ Ein _. rewrite Epp, Ein in E6. clear Epp Ein. cbn [fst snd] in E6.
  assert (NE : t <> []) by (intros E; rewrite E in Hx; destruct Hx).
  destruct (lmin_spec t NE) as (m1 & A1 & I1 & M1). destruct (lmax_spec t NE) as (m2 & A2 & I2 & M2).
  rewrite A1 in E5. injection E5 as <-. rewrite A2 in E4. injection E4 as <-.
  pose proof (Hpos _ I1) as P1. pose proof (Hpos _ I2) as P2. pose proof (M1 _ Hx) as L1. pose proof (M2 _ Hx) as L2.
  set (rmin := log10 (1 / m2) + -2) in *. set (rmax := log10 (1 / m1) + 1) in *.
  assert (W : 3 <= rmax - rmin).
  { unfold rmin, rmax. rewrite !log10_div, log10_1 by lra. pose proof (log10_le m1 m2 P1). lra. }
  assert (T : (3 <= ztrunc (rmax - rmin))%Z /\ IZR (ztrunc (rmax - rmin)) <= rmax - rmin < IZR (ztrunc (rmax - rmin)) + 1).
  { unfold ztrunc. rewrite (proj2 (Rleb_true 0 _)) by lra. destruct (Int_part_bounds (rmax - rmin)) as [B1 B2].
    split; [|lra]. assert (2 < Int_part (rmax - rmin))%Z by (apply lt_IZR; lra). lia. }
  destruct T as [T3 TB]. set (T := ztrunc (rmax - rmin)) in *.
  assert (R3 : 3 <= IZR T) by (apply IZR_le; exact T3). assert (Rp : 2 <= IZR ppd) by (apply IZR_le; exact Hp).
  assert (Nn : 6 <= IZR (T * ppd)) by (rewrite mult_IZR; nra).
  assert (D1 : (rmax - rmin) / IZR (T * ppd) <= 2 / 3).
  { apply (Rmult_le_reg_r (IZR (T * ppd))); [lra|]. unfold Rdiv at 1. rewrite Rmult_assoc, Rinv_l, Rmult_1_r by lra.
    rewrite mult_IZR. nra. }
  assert (D0 : 0 < (rmax - rmin) / IZR (T * ppd)) by (apply Rdiv_lt_0_compat; lra).
  eapply (fftlog_cover lgi rmin rmax (T * ppd) _ _ inp m1 m2 (-2) 1 x E6); try reflexivity; try lra.
  apply le_IZR. lra.
Qed.

(** ** QWE: the frequencies do not cover what the quadrature asks for *)

(** the smallest angular frequency at which fourier_qwe evaluates the
    interpolated response for the largest time: the first quadrature node of
    the first interval, transform.py:584-602 *)
Definition qwe_first (sine : bool) (gmin tmax : R) : R :=
  let x0 := / 10 ^ 20 in
  let x1 := if sine then PI else PI - PI / 2 in
  ((x1 - x0) / 2 * (gmin + 1) + x0) / tmax.

Theorem qwe_not_covered : forall lib leg lgi t sg args freq sine rtol atol nquad maxint ppd dq a b limit rest gx gw gmin tmax,
  ft_settings lib leg lgi t sg "qwe" args = Ok (freq, FtQwe sine rtol atol nquad maxint ppd dq a b limit, rest) ->
  leg nquad = Ok (gx, gw) -> lmin gx = Ok gmin -> lmax t = Ok tmax ->
  / 10 ^ 20 < gmin + 1 -> gmin < 1 -> 0 < tmax -> (1 <= maxint)%Z -> (forall x, In x t -> 0 < x) ->
  forall f, In f freq -> 2 * qwe_first sine gmin tmax / (2 * PI) < f.
Proof.
  intros lib leg lgi t sg args freq sine rtol atol nquad maxint ppd dq a b limit rest gx gw gmin tmax H Hleg Hg Ht Hg1 Hg2 Htm Hmx Hpos f Hf.
  revert H. unfold ft_settings, dpop.
  change (String.eqb "qwe" "dlf") with false. change (String.eqb "qwe" "qwe") with true. cbv iota.
  assert (Hb : forall A B (r : res A) (f : A -> res B) b, bind r f = Ok b -> exists a, r = Ok a /\ f a = Ok b).
  { intros A B [a'|e] f' b' E; [exists a'; auto|discriminate]. }
  intros H. do 2 (apply Hb in H; destruct H as (? & _ & H)).
  apply Hb in H. destruct H as (nq & _ & H). apply Hb in H. destruct H as (mx & _ & H).
  apply Hb in H. destruct H as (pp & _ & H). do 4 (apply Hb in H; destruct H as (? & _ & H)).
  apply Hb in H. destruct H as ([gx' gw'] & E1 & H). apply Hb in H. destruct H as (gm & E2 & H).
  apply Hb in H. destruct H as (tM & E3 & H). apply Hb in H. destruct H as (tm & E4 & H).
  apply Hb in H. destruct H as (fr & E5 & H). injection H as -> _ _ _ Enq Emx Epp _ _ _ _ _.
  rewrite Enq in E1. rewrite E1 in Hleg. injection Hleg as -> ->. rewrite E2 in Hg. injection Hg as ->.
  rewrite E3 in Ht. injection Ht as ->. subst mx. rewrite Epp in E5.
  assert (NE : t <> []) by (intros E; rewrite E in E4; discriminate).
  destruct (lmin_spec t NE) as (m1 & A1 & I1 & M1). rewrite A1 in E4. injection E4 as ->.
  destruct (lmax_spec t NE) as (m2 & A2 & I2 & M2). rewrite A2 in E3. injection E3 as ->.
  pose proof (Hpos _ I1) as P1. specialize (M1 _ I2).
  pose proof PI_RGT_0 as PP. pose proof ln10_pos as L10.
  set (X := (gmin + 1) * PI / 2 / tmax) in *.
  assert (PX : 0 < X) by (unfold X; repeat apply Rdiv_lt_0_compat; try lra; apply Rmult_lt_0_compat; [|lra]; assert (0 < / 10 ^ 20) by (apply Rinv_0_lt_compat, pow_lt; lra); lra).
  set (minf := IZR (ffloor (10 * log10 X)) / 10) in *.
  set (Y := IZR maxint * PI / tm) in *.
  set (maxf := IZR (ceilZ (10 * log10 Y)) / 10) in *.
  assert (B1 : log10 X - 1 / 10 < minf).
  { unfold minf, ffloor. destruct (base_Int_part (10 * log10 X)). lra. }
  assert (Pm : 1 <= IZR maxint) by (apply IZR_le; exact Hmx).
  assert (XY : X <= Y).
  { unfold X, Y, Rdiv. apply Rmult_le_compat.
    - assert (0 < / 10 ^ 20) by (apply Rinv_0_lt_compat, pow_lt; lra). nra.
    - left. apply Rinv_0_lt_compat. lra.
    - nra.
    - apply Rinv_le_contravar; lra. }
  assert (MM : minf <= maxf).
  { assert (minf <= log10 X) by (unfold minf, ffloor; destruct (base_Int_part (10 * log10 X)); lra).
    assert (log10 Y <= maxf) by (unfold maxf; pose proof (ceilZ_ge (10 * log10 Y)); lra).
    pose proof (log10_le X Y PX XY). lra. }
  assert (LB : p10 minf <= f).
  { unfold logspace in E5. destruct (_ <? 0)%Z; [discriminate|]. injection E5 as <-.
    apply in_map_iff in Hf. destruct Hf as (k & <- & Hk). apply p10_le.
    set (nn := ztrunc ((maxf - minf) * IZR ppd + 1)) in *.
    destruct (nn =? 1)%Z eqn:En; [lra|]. apply in_seq in Hk. apply Z.eqb_neq in En.
    assert (0 < IZR (nn - 1)) by (apply IZR_lt; lia).
    assert (0 <= (maxf - minf) / IZR (nn - 1)) by (apply Rmult_le_pos; [lra|left; apply Rinv_0_lt_compat; lra]).
    pose proof (pos_INR k). nra. }
  apply Rlt_le_trans with (p10 minf); [|exact LB].
  apply Rlt_trans with (p10 (log10 X + - (1 / 10))); [|apply p10_lt; lra].
  rewrite p10_plus, p10_log10 by exact PX.
  pose proof p10_m01 as C.
  (* first abscissa is below (gmin + 1)(pi/2 + 1) / tmax *)
  unfold qwe_first. set (y0 := / 10 ^ 20) in *.
  assert (Px0 : 0 < y0) by (unfold y0; apply Rinv_0_lt_compat, pow_lt; lra).
  set (y1 := if sine then PI else PI - PI / 2).
  assert (Hx1 : 0 < y1 <= PI) by (unfold y1; destruct sine; lra).
  apply Rlt_trans with (X * (7 / 10)); [|apply Rmult_lt_compat_l; [exact PX|exact C]].
  unfold X. set (g := gmin + 1) in *.
  replace (2 * (((y1 - y0) / 2 * g + y0) / tmax) / (2 * PI)) with (((y1 - y0) / 2 * g + y0) / PI * / tmax) by (field; lra).
  replace (g * PI / 2 / tmax * (7 / 10)) with (g * PI * (7 / 20) * / tmax) by (field; lra).
  apply Rmult_lt_compat_r; [apply Rinv_0_lt_compat; exact Htm|].
  apply (Rmult_lt_reg_r PI); [exact PP|]. unfold Rdiv at 1. rewrite Rmult_assoc, Rinv_l, Rmult_1_r by lra.
  assert (P3 : 3 < PI) by (pose proof PI2_3_2; lra).
  assert (G1 : (y1 - y0) / 2 * g + y0 <= g * (PI / 2) + g) by nra.
  assert (G2 : g * (PI / 2) + g < g * PI * (7 / 20) * PI).
  { replace (g * (PI / 2) + g) with (g * (PI / 2 + 1)) by ring. replace (g * PI * (7 / 20) * PI) with (g * (PI * PI * (7 / 20))) by ring.
    apply Rmult_lt_compat_l; [lra|]. nra. }
  lra.
Qed.

(** ** The documented names are accepted with the default settings *)
Theorem ft_accepts : forall lib leg lgi t sg,
  t <> [] -> (forall x, In x t -> 0 < x) ->
  (exists f, lib "key_201_2012" = Some f /\ (forall a, In a ["base"; "sin"; "cos"; "factor"] -> In a (fv_attrs f))
             /\ f_base (fv_filt f) <> []) ->
  (exists gx gw gmin, leg 21%Z = Ok (gx, gw) /\ lmin gx = Ok gmin /\ -1 < gmin < 1) ->
  forall ft, In ft ["dlf"; "qwe"; "fftlog"; "fft"] -> exists r, ft_settings lib leg lgi t sg ft [] = Ok r.
Proof.
  intros lib leg lgi t sg NE Hpos (f & Ef & Hf & Hb) (gx & gw & gmin & El & Eg & Hg) ft Hin.
  pose proof ln10_pos as L10. pose proof PI_RGT_0 as PP.
  destruct (lmin_spec t NE) as (m1 & A1 & I1 & M1). destruct (lmax_spec t NE) as (m2 & A2 & I2 & M2).
  pose proof (Hpos _ I1) as P1. pose proof (Hpos _ I2) as P2. pose proof (M1 _ I2) as M12.
  unfold ft_settings, dpop, dget. cbn [In] in Hin. cbn [lookup delkey filter].
  destruct Hin as [<-|[<-|[<-|[<-|[]]]]].
  - change (String.eqb "dlf" "dlf") with true. cbv iota. cbn [as_float bind].
    assert (S : exists sine, match (if Rltb 0 sg then VStr "sin" else if Rltb sg 0 then VStr "cos" else VStr "sin") with
       | VStr s => if String.eqb s "sin" then Ok true else if String.eqb s "cos" then Ok false else Err ValueError
       | _ => Err ValueError end = Ok sine).
    { destruct (Rltb 0 sg); [exists true; reflexivity|]. destruct (Rltb sg 0); [exists false|exists true]; reflexivity. }
    destruct S as (sine & ->). cbn [bind].
    rewrite (get_filter_default _ _ [] f Ef eq_refl). cbn [bind].
    rewrite need_filter_ok.
    2: { intros a Ha. apply Hf. cbn in *. destruct sine; intuition. }
    cbn [bind].
    assert (G : exists om ip, get_dlf_points (fv_filt f) t (-1) = Ok (om, ip)).
    { unfold get_dlf_points. rewrite TransformDlf.Reqb_false by lra. rewrite A1, A2. cbn [bind].
      assert (L1 : exists b, idx (f_base (fv_filt f)) (-1) = Ok b).
      { unfold idx, norm_idx. change (-1 <? 0)%Z with true. cbv iota.
        destruct (Z.ltb_spec (-1 + zlen (f_base (fv_filt f))) 0) as [H|H].
        - exfalso. unfold zlen in H. destruct (f_base (fv_filt f)); [contradiction|cbn [List.length] in H; lia].
        - destruct (nth_error (f_base (fv_filt f)) (Z.to_nat (-1 + zlen (f_base (fv_filt f))))) as [b|] eqn:E; [exists b; reflexivity|].
          apply nth_error_None in E. unfold zlen in *. destruct (f_base (fv_filt f)); [contradiction|cbn [List.length] in *; lia]. }
      assert (L0 : exists b, idx (f_base (fv_filt f)) 0 = Ok b).
      { destruct (f_base (fv_filt f)) as [|b l]; [contradiction|]. exists b. reflexivity. }
      destruct L1 as (b1 & ->). destruct L0 as (b0 & ->). cbn [bind].
      rewrite TransformDlf.Rltb_true by lra. eexists _, _. reflexivity. }
    destruct G as (om & ip & ->). cbn [bind]. eexists. reflexivity.
  - change (String.eqb "qwe" "dlf") with false. change (String.eqb "qwe" "qwe") with true. cbv iota.
    cbn [as_float as_int opt_of bind]. rewrite El. cbn [bind]. rewrite Eg. cbn [bind]. rewrite A2, A1. cbn [bind].
    set (X := (gmin + 1) * PI / 2 / m2). set (Y := 200 * PI / m1).
    set (minf := IZR (ffloor (10 * log10 X)) / 10). set (maxf := IZR (ceilZ (10 * log10 Y)) / 10).
    assert (PX : 0 < X) by (unfold X; repeat apply Rdiv_lt_0_compat; try lra; apply Rmult_lt_0_compat; lra).
    assert (XY : X <= Y).
    { unfold X, Y, Rdiv. apply Rmult_le_compat; [nra| |nra|].
      - left. apply Rinv_0_lt_compat. lra.
      - apply Rinv_le_contravar; lra. }
    assert (MM : minf <= maxf).
    { assert (minf <= log10 X) by (unfold minf, ffloor; destruct (base_Int_part (10 * log10 X)); lra).
      assert (log10 Y <= maxf) by (unfold maxf; pose proof (ceilZ_ge (10 * log10 Y)); lra).
      pose proof (log10_le X Y PX XY). lra. }
    assert (NN : (0 <= ztrunc ((maxf - minf) * IZR (Z.max 20 1) + 1))%Z).
    { change (Z.max 20 1) with 20%Z. unfold ztrunc. rewrite (proj2 (Rleb_true 0 _)) by lra.
      destruct (Int_part_bounds ((maxf - minf) * 20 + 1)) as [_ B].
      assert (-1 < Int_part ((maxf - minf) * 20 + 1))%Z by (apply lt_IZR; lra). lia. }
    unfold logspace. destruct (_ <? 0)%Z eqn:E; [apply Z.ltb_lt in E; lia|]. cbn [bind]. eexists. reflexivity.
  - change (String.eqb "fftlog" "dlf") with false. change (String.eqb "fftlog" "qwe") with false.
    change (String.eqb "fftlog" "fftlog") with true. cbv iota. cbn [as_float as_int as_pair bind]. rewrite A2, A1. cbn [bind fst snd].
    change (Z.max 10 1) with 10%Z.
    set (rmin := log10 (1 / m2) + -2) in *. set (rmax := log10 (1 / m1) + 1) in *.
    assert (W : 3 <= rmax - rmin).
    { unfold rmin, rmax. rewrite !log10_div, log10_1 by lra. pose proof (log10_le m1 m2 P1). lra. }
    assert (T3 : (3 <= ztrunc (rmax - rmin))%Z).
    { unfold ztrunc. rewrite (proj2 (Rleb_true 0 _)) by lra. destruct (Int_part_bounds (rmax - rmin)) as [B1 B2].
      assert (2 < Int_part (rmax - rmin))%Z by (apply lt_IZR; lra). lia. }
    unfold get_fftlog_input. destruct (_ =? 0)%Z eqn:E; [apply Z.eqb_eq in E; lia|].
    destruct (Reqb _ 0) eqn:E0.
    + exfalso. apply UtilsLayer.Reqb_true in E0.
      assert (0 < IZR (ztrunc (rmax - rmin) * 10)) by (apply IZR_lt; lia).
      assert (0 < (rmax - rmin) / IZR (ztrunc (rmax - rmin) * 10) * ln 10) by (apply Rmult_lt_0_compat; [apply Rdiv_lt_0_compat; lra|lra]). lra.
    + cbn [bind]. eexists. reflexivity.
  - change (String.eqb "fft" "dlf") with false. change (String.eqb "fft" "qwe") with false.
    change (String.eqb "fft" "fftlog") with false. change (String.eqb "fft" "fft") with true. cbv iota.
    cbn [as_float as_int opt_of bind option_map]. eexists. reflexivity.
Qed.
