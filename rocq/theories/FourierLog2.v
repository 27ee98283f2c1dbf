(** [fourier_fftlog]: closed form of the transform (C68). *)

From Coq Require Import ZArith Reals List Bool String Lia Lra Psatz.
From Coquelicot Require Import Coquelicot.
From Verif Require Import PyBase CBase Kernel Utils UtilsLayer Transform TransformDlf TransformLag UtilsArgs Fullspace Model ModelFem ModelTem
  Fourier FourierSum FourierFft FourierLog.
Import ListNotations.
Local Open Scope R_scope.
Local Open Scope C_scope.
Local Open Scope res_scope.

Section Log.
Variables lgr lgi : R -> R -> R.

(** ** Specification *)

(** kr^(-2 i y) U_mu(q + 2 i y) = exp(i (2 y ln(2/kr))) 2^q Gamma(xp + i y) / conj Gamma(xm + i y) *)
Definition fl_factor (q mu kr y : R) : C :=
  RtoC (exp (ln 2 * q + lgr ((mu + 1 + q) / 2) y - lgr ((mu + 1 - q) / 2) y)) *
  cis (2 * ln (2 / kr) * y + lgi ((mu + 1 + q) / 2) y + lgi ((mu + 1 - q) / 2) y).

(** the factor of harmonic j = 0 .. n/2, as FFTLog prescribes it: real for the
    highest harmonic of an even number of points *)
Definition fl_right (q mu kr dlnr : R) (n j : nat) : C :=
  let u := fl_factor q mu kr (PI * INR j / (INR n * dlnr)) in
  if (j =? 0)%nat then (if Reqb q 0 then RtoC 1 else RtoC (fl_first lgr lgi q mu))
  else if (2 * j =? n)%nat then RtoC (fst u) else u.

(** as computed: one harmonic is not treated (odd n), one with another index (q <> 0) *)
Definition fl_last (q : R) (n : nat) : nat :=
  if Reqb q 0 then (n / 2)%nat else if (8 <=? n)%nat then (n / 2 - 3)%nat else (n - 3)%nat.
Definition fl_code (q mu kr dlnr : R) (n j : nat) : C :=
  if (j <? n / 2)%nat || (j =? 0)%nat then fl_right q mu kr dlnr n j
  else if Nat.even n then RtoC (fst (fl_factor q mu kr (PI * INR (fl_last q n) / (INR n * dlnr))))
  else RtoC 1.

(** ** Arguments and amplitudes *)
Lemma fl_unit : forall q mu kr n dlnr m,
  RtoC (if Reqb q 0 then 1%R else fl_amp lgr q mu (fl_y n dlnr m)) * cis (fl_arg lgi q mu kr (fl_y n dlnr m)) =
  fl_factor q mu kr (PI * INR m / (INR n * dlnr)).
Proof.
  intros q mu kr n dlnr m. unfold fl_factor, fl_arg, fl_amp, fl_y.
  replace (INR m * (PI / (INR n * dlnr)))%R with (PI * INR m / (INR n * dlnr))%R by (unfold Rdiv; ring).
  destruct (Reqb q 0) eqn:E; [|reflexivity].
  unfold Reqb in E. destruct (Req_EM_T q 0) as [->|]; [|discriminate].
  replace (mu + 1 + 0)%R with (mu + 1)%R by ring. replace (mu + 1 - 0)%R with (mu + 1)%R by ring.
  f_equal.
  - f_equal. symmetry. rewrite <- exp_0. f_equal. ring.
  - f_equal. ring.
Qed.

Lemma norm_last : forall q n, (n / 2 <> 0)%nat -> Nat.even n = true -> (q = 0%R \/ (4 <= n)%nat) -> forall (l : list R), List.length l = (n / 2)%nat ->
  (if Reqb q 0 then idx l (-1) else idx l (Z.of_nat (n / 2) - 3 - 1)) = Ok (nth (fl_last q n - 1) l 0%R).
Proof.
  intros q n H EV HQ l Ll. unfold fl_last.
  assert (NE : forall k, (k < List.length l)%nat -> nth_error l k = Some (nth k l 0%R)) by (intros; now apply nth_error_nth').
  apply Nat.even_spec in EV. destruct EV as [m Em]. assert (EH : (n / 2)%nat = m) by (rewrite Em, Nat.mul_comm, Nat.div_mul; lia).
  destruct (Reqb q 0) eqn:E.
  - unfold idx, norm_idx, zlen. destruct (Z.ltb_spec (-1) 0); [|lia].
    destruct (Z.ltb_spec (-1 + Z.of_nat (List.length l)) 0); [lia|].
    replace (Z.to_nat (-1 + Z.of_nat (List.length l))) with (n / 2 - 1)%nat by lia. now rewrite NE by lia.
  - assert (4 <= n)%nat. { destruct HQ as [->|HQ]; [|exact HQ]. unfold Reqb in E. destruct (Req_EM_T 0 0); [discriminate|contradiction]. }
    unfold idx, norm_idx, zlen. destruct (Nat.leb_spec 8 n).
    + destruct (Z.ltb_spec (Z.of_nat (n / 2) - 3 - 1) 0); [lia|]. destruct (Z.ltb_spec (Z.of_nat (n / 2) - 3 - 1) 0); [lia|].
      replace (Z.to_nat (Z.of_nat (n / 2) - 3 - 1)) with (n / 2 - 3 - 1)%nat by lia. now rewrite NE by lia.
    + destruct (Z.ltb_spec (Z.of_nat (n / 2) - 3 - 1) 0); [|lia].
      destruct (Z.ltb_spec (Z.of_nat (n / 2) - 3 - 1 + Z.of_nat (List.length l)) 0); [lia|].
      replace (Z.to_nat (Z.of_nat (n / 2) - 3 - 1 + Z.of_nat (List.length l))) with (n - 3 - 1)%nat by lia. now rewrite NE by lia.
Qed.

Lemma nth_map_seq1 : forall A (g : nat -> A) d n k, (k < n)%nat -> nth k (map g (seq 1 n)) d = g (k + 1)%nat.
Proof. intros A g d n k H. rewrite (nth_indep _ d (g 0%nat)) by (now rewrite map_length, seq_length). rewrite map_nth, seq_nth by exact H. f_equal. lia. Qed.

Lemma fl_mult_ok : forall q mu kr dlnr (a : list R), (1 <= List.length a)%nat -> (q = 0%R \/ List.length a <> 2%nat) ->
  let n := List.length a in
  let args := map (fun m => fl_arg lgi q mu kr (fl_y n dlnr m)) (seq 1 (n / 2)) in
  let am := map (fun m => fl_amp lgr q mu (fl_y n dlnr m)) (seq 1 (n / 2)) in
  exists b, fl_mult lgr lgi q mu (map cos args) (map sin args) am a = Ok b /\ List.length b = n /\
    forall j, (j <= n / 2)%nat -> (j < n)%nat -> herm1 n b j = fl_code q mu kr dlnr n j * herm1 n a j.
Proof.
  intros q mu kr dlnr a Hn HQ n args am. fold n in Hn, HQ.
  pose proof (Nat.div_mod n 2 ltac:(lia)) as D. pose proof (Nat.mod_upper_bound n 2 ltac:(lia)) as B.
  set (ARG := fun m => fl_arg lgi q mu kr (fl_y n dlnr m)) in *. set (AMP := fun m => fl_amp lgr q mu (fl_y n dlnr m)) in *.
  assert (Ncs : forall k, (k < n / 2)%nat -> nth k (map cos args) 0%R = cos (ARG (k + 1)%nat)).
  { intros k Hk. unfold args. rewrite map_map. apply nth_map_seq1. exact Hk. }
  assert (Nsn : forall k, (k < n / 2)%nat -> nth k (map sin args) 0%R = sin (ARG (k + 1)%nat)).
  { intros k Hk. unfold args. rewrite map_map. apply nth_map_seq1. exact Hk. }
  assert (Nam : forall k, (k < n / 2)%nat -> nth k am 0%R = AMP (k + 1)%nat).
  { intros k Hk. unfold am. apply nth_map_seq1. exact Hk. }
  set (b0 := map (fun p => if (p =? 0)%nat then (if Reqb q 0 then nth 0 a 0%R else (nth 0 a 0 * fl_first lgr lgi q mu)%R)
                         else if (p <=? 2 * (n / 2 - 1))%nat then fl_pair q (map cos args) (map sin args) am a p
                         else nth p a 0%R) (seq 0 n)).
  assert (L0 : List.length b0 = n) by (unfold b0; now rewrite map_length, seq_length).
  assert (B0 : nth 0 b0 0%R = (if Reqb q 0 then nth 0 a 0%R else (nth 0 a 0 * fl_first lgr lgi q mu)%R)).
  { unfold b0. rewrite nth_map_seq by lia. reflexivity. }
  assert (BP : forall j, (1 <= j)%nat -> (j < n / 2)%nat ->
      (nth (2 * j - 1) b0 0%R, nth (2 * j) b0 0%R) = fl_factor q mu kr (PI * INR j / (INR n * dlnr)) * (nth (2 * j - 1) a 0%R, nth (2 * j) a 0%R)).
  { intros j H1 H2. rewrite <- fl_unit. fold (ARG j). fold (AMP j).
    unfold b0. rewrite !nth_map_seq by lia.
    destruct (Nat.eqb_spec (2 * j - 1) 0); [lia|]. destruct (Nat.eqb_spec (2 * j) 0); [lia|].
    destruct (Nat.leb_spec (2 * j - 1) (2 * (n / 2 - 1))); [|lia]. destruct (Nat.leb_spec (2 * j) (2 * (n / 2 - 1))); [|lia].
    unfold fl_pair.
    replace (2 * j - 1 + 1)%nat with (j * 2)%nat by lia. rewrite Nat.div_mul by lia.
    replace ((2 * j + 1) / 2)%nat with j by (rewrite (Nat.mul_comm 2 j), Nat.div_add_l by lia; cbn; lia).
    assert (OD : Nat.odd (2 * j - 1) = true) by (replace (2 * j - 1)%nat with (2 * (j - 1) + 1)%nat by lia; apply odd_2m1).
    rewrite !OD, !odd_2m.
    rewrite Ncs, Nsn, Nam by lia. replace (j - 1 + 1)%nat with j by lia.
    destruct (Reqb q 0); apply injective_projections; unfold Cmult, cis, RtoC; cbn [fst snd]; rgR. }
  assert (BH : forall p, (2 * (n / 2 - 1) < p)%nat -> (p < n)%nat -> nth p b0 0%R = nth p a 0%R).
  { intros p H1 H2. unfold b0. rewrite nth_map_seq by lia. destruct (Nat.eqb_spec p 0); [lia|].
    destruct (Nat.leb_spec p (2 * (n / 2 - 1))); [lia|]. reflexivity. }
  assert (COMMON : forall b, List.length b = n -> (forall p, (p < n - 1)%nat -> nth p b 0%R = nth p b0 0%R) ->
     (nth (n - 1) b 0%R = if Nat.even n then (nth (n - 1) b0 0 * fst (fl_factor q mu kr (PI * INR (fl_last q n) / (INR n * dlnr))))%R else nth (n - 1) b0 0%R) ->
     forall j, (j <= n / 2)%nat -> (j < n)%nat -> herm1 n b j = fl_code q mu kr dlnr n j * herm1 n a j).
  { intros b Lb HB1 HB2 j Hj Hjn. unfold herm1, fl_code, fl_right.
    destruct (Nat.eqb_spec j 0) as [J0|J0].
    - rewrite orb_true_r. assert (E : nth 0 b 0%R = nth 0 b0 0%R).
      { destruct (Nat.eq_dec n 1) as [N1|N1]; [|apply HB1; lia]. rewrite N1 in HB2. exact HB2. }
      rewrite E, B0. destruct (Reqb q 0); apply injective_projections; unfold Cmult, RtoC; cbn [fst snd]; rgR.
    - rewrite orb_false_r. destruct (Nat.ltb_spec j (n / 2)) as [J2|J2].
      + destruct (Nat.eqb_spec (2 * j) n); [lia|]. rewrite !HB1 by lia. apply BP; lia.
      + assert (j = n / 2)%nat by lia. destruct (Nat.even n) eqn:EV.
        * apply Nat.even_spec in EV. destruct EV as [m Em]. assert (EH : (n / 2)%nat = m) by (rewrite Em, Nat.mul_comm, Nat.div_mul; lia).
          destruct (Nat.eqb_spec (2 * j) n); [|lia]. rewrite HB2, BH by lia.
          apply injective_projections; unfold Cmult, RtoC; cbn [fst snd]; rgR.
        * assert (2 * j <> n)%nat. { intros W. assert (Nat.even n = true) by (apply Nat.even_spec; exists j; lia). congruence. }
          destruct (Nat.eqb_spec (2 * j) n); [lia|]. replace (2 * j)%nat with (n - 1)%nat by lia.
          rewrite HB2, HB1, !BH by lia. apply injective_projections; unfold Cmult, RtoC; cbn [fst snd]; rgR. }
  unfold fl_mult. fold n. fold b0.
  destruct (Nat.even n) eqn:EV.
  - assert (HQ' : q = 0%R \/ (4 <= n)%nat).
    { destruct HQ as [HQ|HQ]; [now left|right]. apply Nat.even_spec in EV. destruct EV as [m Em]. lia. }
    assert (H2 : (n / 2 <> 0)%nat). { apply Nat.even_spec in EV. destruct EV as [m Em]. assert (EH : (n / 2)%nat = m) by (rewrite Em, Nat.mul_comm, Nat.div_mul; lia). lia. }
    pose proof (norm_last q n H2 EV HQ' (map cos args) ltac:(unfold args; now rewrite !map_length, seq_length)) as I1.
    pose proof (norm_last q n H2 EV HQ' am ltac:(unfold am; now rewrite map_length, seq_length)) as I2.
    assert (LQ : (1 <= fl_last q n <= n / 2)%nat).
    { unfold fl_last. apply Nat.even_spec in EV. destruct EV as [m Em]. assert (EH : (n / 2)%nat = m) by (rewrite Em, Nat.mul_comm, Nat.div_mul; lia).
      destruct (Reqb q 0) eqn:E; [lia|]. assert (4 <= n)%nat. { destruct HQ' as [->|]; [|assumption]. unfold Reqb in E. destruct (Req_EM_T 0 0); [discriminate|contradiction]. }
      destruct (Nat.leb_spec 8 n); lia. }
    set (w := fst (fl_factor q mu kr (PI * INR (fl_last q n) / (INR n * dlnr)))).
    assert (EW : (if Reqb q 0 then idx (map cos args) (-1) else
        (c <- idx (map cos args) (Z.of_nat (n / 2) - 3 - 1) ;; am <- idx am (Z.of_nat (n / 2) - 3 - 1) ;; Ok (c * am)%R)) = Ok w).
    { unfold w. rewrite <- fl_unit. fold (ARG (fl_last q n)) (AMP (fl_last q n)).
      destruct (Reqb q 0) eqn:E.
      - rewrite I1. f_equal. rewrite Ncs by lia. replace (fl_last q n - 1 + 1)%nat with (fl_last q n) by lia.
        unfold Cmult, cis, RtoC. cbn [fst snd]. rgR.
      - rewrite I1. cbn [bind]. rewrite I2. cbn [bind]. f_equal. rewrite Ncs, Nam by lia.
        replace (fl_last q n - 1 + 1)%nat with (fl_last q n) by lia. unfold Cmult, cis, RtoC. cbn [fst snd]. rgR. }
    rewrite EW. cbn [bind]. eexists. split; [reflexivity|]. split; [now rewrite replace_length|].
    apply COMMON.
    + now rewrite replace_length.
    + intros p Hp. rewrite nth_replace by lia. destruct (Nat.eqb_spec p (n - 1)); [lia|reflexivity].
    + rewrite nth_replace by lia. now rewrite Nat.eqb_refl.
  - exists b0. split; [reflexivity|]. split; [exact L0|]. apply COMMON; auto.
Qed.
End Log.
