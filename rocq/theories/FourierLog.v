(** [fourier_fftlog]: the multiplier of every harmonic (C68). *)

From Coq Require Import ZArith Reals List Bool String Lia Lra Psatz.
From Coquelicot Require Import Coquelicot.
From Verif Require Import PyBase CBase Kernel Utils UtilsLayer Transform TransformDlf TransformLag UtilsArgs Fullspace Model ModelFem ModelTem
  Fourier FourierSum FourierFft.
Import ListNotations.
Local Open Scope R_scope.
Local Open Scope C_scope.
Local Open Scope res_scope.

(** ** Specification *)

(** discrete Fourier transform and its inverse *)
Definition dft (n : nat) (a : nat -> R) (j : nat) : C := sC (fun k => RtoC (a k) * cis (- (2 * PI * INR (j * k) / INR n))) n.
Definition idft (n : nat) (Y : nat -> C) (k : nat) : C := sC (fun j => Y j * cis (2 * PI * INR (j * k) / INR n)) n / RtoC (INR n).

(** a multiplier given for the harmonics 0 .. n/2, continued to the negative ones *)
Definition both_sides (n : nat) (u : nat -> C) (j : nat) : C := if (j <=? n / 2)%nat then u j else Cconj (u (n - j)%nat).

(** ** Symmetric sums *)
Lemma sym_sum : forall (G : nat -> R) n, (1 <= n)%nat -> (forall j, (1 <= j < n)%nat -> G (n - j)%nat = G j) ->
  sR G n = (G 0%nat + 2 * sR (fun k => G (S k)) ((n - 1) / 2) + (if Nat.even n then G (n / 2)%nat else 0))%R.
Proof.
  intros G n Hn HG. destruct n as [|n]; [lia|]. rewrite sR_head. replace (S n - 1)%nat with n by lia.
  set (h := (n / 2)%nat).
  assert (D : n = (2 * h)%nat \/ n = (2 * h + 1)%nat).
  { pose proof (Nat.div_mod n 2 ltac:(lia)) as D. pose proof (Nat.mod_upper_bound n 2 ltac:(lia)). fold h in D. lia. }
  destruct D as [D|D].
  - assert (E : Nat.even (S n) = false).
    { rewrite D. replace (S (2 * h)) with (1 + 2 * h)%nat by lia. rewrite Nat.even_add_mul_2. reflexivity. }
    rewrite E. replace (sR (fun k => G (S k)) n) with (sR (fun k => G (S k)) (h + h)) by (f_equal; lia).
    rewrite sR_app.
    rewrite (sR_ext (fun k => G (S (h + k))) (fun k => (fun i => G (S i)) (h - 1 - k)%nat) h).
    + rewrite (sR_rev (fun i => G (S i))). ring.
    + intros k Hk. rewrite <- (HG (S (h + k))) by lia. f_equal. lia.
  - assert (E : Nat.even (S n) = true).
    { rewrite D. replace (S (2 * h + 1)) with (0 + 2 * (h + 1))%nat by lia. rewrite Nat.even_add_mul_2. reflexivity. }
    rewrite E. replace (sR (fun k => G (S k)) n) with (sR (fun k => G (S k)) (h + S h)) by (f_equal; lia).
    rewrite sR_app, sR_head.
    replace (S n / 2)%nat with (S h).
    2: { rewrite D. replace (S (2 * h + 1)) with ((h + 1) * 2)%nat by lia. rewrite Nat.div_mul by lia. lia. }
    rewrite (sR_ext (fun k => G (S (h + S k))) (fun k => (fun i => G (S i)) (h - 1 - k)%nat) h).
    + rewrite (sR_rev (fun i => G (S i))). replace (h + 0)%nat with h by lia. ring.
    + intros k Hk. rewrite <- (HG (S (h + S k))) by lia. f_equal. lia.
Qed.

(** ** The packed format *)
Definition herm1 (n : nat) (y : list R) (j : nat) : C :=
  if (j =? 0)%nat then (nth 0 y 0%R, 0%R)
  else if (2 * j =? n)%nat then (nth (n - 1) y 0%R, 0%R) else (nth (2 * j - 1) y 0%R, nth (2 * j) y 0%R).
Definition herm (n : nat) (y : list R) : nat -> C := both_sides n (herm1 n y).

Lemma both_neg : forall n u j, (1 <= j < n)%nat -> ((2 * j)%nat = n -> snd (u j) = 0%R) -> both_sides n u (n - j) = Cconj (both_sides n u j).
Proof.
  intros n u j Hj HS. unfold both_sides.
  pose proof (Nat.div_mod n 2 ltac:(lia)) as D. pose proof (Nat.mod_upper_bound n 2 ltac:(lia)) as B.
  destruct (Nat.leb_spec (n - j) (n / 2)), (Nat.leb_spec j (n / 2)).
  - assert (2 * j = n)%nat by lia. replace (n - j)%nat with j by lia. apply injective_projections; cbn [fst snd Cconj]; [reflexivity|].
    rewrite HS by lia. rgR.
  - symmetry. apply injective_projections; cbn [fst snd Cconj]; [reflexivity|rgR].
  - f_equal. f_equal. lia.
  - lia.
Qed.

Lemma cis_back : forall n j k, (1 <= j < n)%nat ->
  cis (2 * PI * INR ((n - j) * k) / INR n) = Cconj (cis (2 * PI * INR (j * k) / INR n)).
Proof.
  intros n j k Hj. assert (P : (0 < INR n)%R) by (apply lt_0_INR; lia).
  rewrite <- cis_neg, <- (cis_per (- (2 * PI * INR (j * k) / INR n)) (Z.of_nat k)), <- INR_IZR_INZ. f_equal.
  rewrite !mult_INR, minus_INR by lia. field. lra.
Qed.

Lemma fst_scale : forall (z : C) r, r <> 0%R -> fst (z / RtoC r) = (fst z / r)%R.
Proof. intros z r H. unfold Cdiv. rewrite <- RtoC_inv by exact H. cbn [Cmult fst snd RtoC]. unfold Rdiv. rgR. Qed.

Lemma rs_seq1 : forall g h, rsuml (map g (seq 1 h)) = sR (fun k => g (S k)) h.
Proof. intros g h. unfold sR. rewrite <- seq_shift, map_map. reflexivity. Qed.

Lemma irfft_length : forall y, List.length (irfft y) = List.length y.
Proof. intros. unfold irfft. now rewrite map_length, seq_length. Qed.
Lemma rfft_length : forall y, List.length (rfft y) = List.length y.
Proof. intros. unfold rfft. now rewrite map_length, seq_length. Qed.

Lemma irfft_nth : forall y k, (k < List.length y)%nat ->
  nth k (irfft y) 0%R = fst (idft (List.length y) (herm (List.length y) y) k).
Proof.
  intros y k Hk. unfold irfft. rewrite nth_map_seq by exact Hk. set (n := List.length y) in *. 
  assert (P : (0 < INR n)%R) by (apply lt_0_INR; lia).
  unfold idft. rewrite fst_scale by lra. f_equal. rewrite fst_sC.
  pose proof (Nat.div_mod n 2 ltac:(lia)) as D. pose proof (Nat.mod_upper_bound n 2 ltac:(lia)) as B.
  assert (HN : forall j, (1 <= j < n)%nat -> fst (herm n y (n - j) * cis (2 * PI * INR ((n - j) * k) / INR n)) =
                                         fst (herm n y j * cis (2 * PI * INR (j * k) / INR n))).
  { intros j Hj. unfold herm. rewrite both_neg; [|exact Hj|].
    - rewrite cis_back by lia. generalize (both_sides n (herm1 n y) j) (cis (2 * PI * INR (j * k) / INR n)).
      intros [u1 u2] [v1 v2]. unfold Cconj, Cmult. cbn [fst snd]. rgR.
    - intros E. unfold herm1. destruct (Nat.eqb_spec j 0); [reflexivity|]. destruct (Nat.eqb_spec (2 * j) n); [reflexivity|lia]. }
  rewrite (sym_sum _ n ltac:(lia) HN). clear HN.
  assert (E0 : fst (herm n y 0 * cis (2 * PI * INR (0 * k) / INR n)) = nth 0 y 0%R).
  { unfold herm, both_sides, herm1. cbn [Nat.leb Nat.eqb Nat.mul INR]. replace (2 * PI * 0 / INR n)%R with 0%R by (field; lra).
    rewrite cis_0. unfold Cmult, RtoC. cbn [fst snd]. rgR. }
  rewrite E0. rewrite rs_seq1, sR_scal.
  f_equal; [f_equal; f_equal; apply sR_ext; intros i Hi|].
  - unfold herm, both_sides, herm1. 
    pose proof (Nat.div_mod (n - 1) 2 ltac:(lia)) as D1. pose proof (Nat.mod_upper_bound (n - 1) 2 ltac:(lia)) as B1.
    destruct (Nat.leb_spec (S i) (n / 2)); [|lia]. destruct (Nat.eqb_spec (S i) 0); [lia|].
    destruct (Nat.eqb_spec (2 * S i) n); [lia|]. unfold Cmult, cis. cbn [fst snd]. reflexivity.
  - destruct (Nat.even n) eqn:EV; [|reflexivity]. apply Nat.even_spec in EV. destruct EV as [m Em].
    assert (EH : (n / 2)%nat = m) by (rewrite Em, Nat.mul_comm, Nat.div_mul; lia). rewrite EH.
    unfold herm, both_sides, herm1. rewrite EH, Nat.leb_refl. destruct (Nat.eqb_spec m 0); [lia|].
    destruct (Nat.eqb_spec (2 * m) n); [|lia]. unfold Cmult, cis. cbn [fst snd]. rgR.
Qed.

Lemma dft_parts : forall n a j,
  dft n a j = (sR (fun k => a k * cos (2 * PI * INR (j * k) / INR n))%R n, sR (fun k => - (a k * sin (2 * PI * INR (j * k) / INR n)))%R n).
Proof.
  intros n a j. unfold dft. apply injective_projections; [rewrite fst_sC|rewrite snd_sC]; cbn [fst snd]; apply sR_ext; intros k _;
    unfold cis; rewrite cos_neg, sin_neg; unfold Cmult, RtoC; cbn [fst snd]; rgR.
Qed.
Lemma dft_back : forall n a j, (1 <= j < n)%nat -> dft n a (n - j) = Cconj (dft n a j).
Proof.
  intros n a j Hj. unfold dft. rewrite conj_sC. apply sC_ext. intros k _. rewrite !cis_neg, cis_back by exact Hj.
  apply injective_projections; unfold Cconj, Cmult, RtoC; cbn [fst snd]; rgR.
Qed.

Lemma odd_2m1 : forall m, Nat.odd (2 * m + 1) = true.
Proof. intros m. rewrite Nat.add_comm, Nat.odd_add_mul_2. reflexivity. Qed.
Lemma odd_2m : forall m, Nat.odd (2 * m) = false.
Proof. intros m. rewrite <- (Nat.add_0_l (2 * m)), Nat.odd_add_mul_2. reflexivity. Qed.

Lemma rfft_herm : forall a j, (j < List.length a)%nat ->
  herm (List.length a) (rfft a) j = dft (List.length a) (fun k => nth k a 0%R) j.
Proof.
  intros a j Hj. set (n := List.length a) in *.
  assert (P : (0 < INR n)%R) by (apply lt_0_INR; lia).
  assert (N1 : forall m, (2 * m + 1 < n)%nat -> nth (2 * m + 1) (rfft a) 0%R = sR (fun k => nth k a 0 * cos (2 * PI * INR ((m + 1) * k) / INR n))%R n).
  { intros m Hm. unfold rfft. fold n. rewrite nth_map_seq by exact Hm. rewrite odd_2m1.
    replace ((2 * m + 1 + 1) / 2)%nat with (m + 1)%nat; [reflexivity|]. replace (2 * m + 1 + 1)%nat with ((m + 1) * 2)%nat by lia. now rewrite Nat.div_mul by lia. }
  assert (N2 : forall m, (1 <= m)%nat -> (2 * m < n)%nat -> nth (2 * m) (rfft a) 0%R = sR (fun k => - (nth k a 0 * sin (2 * PI * INR (m * k) / INR n)))%R n).
  { intros m H1 Hm. unfold rfft. fold n. rewrite nth_map_seq by exact Hm. rewrite odd_2m.
    destruct (Nat.eqb_spec (2 * m) 0); [lia|]. replace (2 * m / 2)%nat with m; [reflexivity|]. rewrite Nat.mul_comm, Nat.div_mul; lia. }
  assert (N0 : nth 0 (rfft a) 0%R = sR (fun k => nth k a 0 * cos (2 * PI * INR (0 * k) / INR n))%R n).
  { unfold rfft. fold n. rewrite nth_map_seq by lia. reflexivity. }
  pose proof (Nat.div_mod n 2 ltac:(lia)) as D. pose proof (Nat.mod_upper_bound n 2 ltac:(lia)) as B.
  assert (LO : forall i, (i < n)%nat -> (i <= n / 2)%nat -> herm1 n (rfft a) i = dft n (fun k => nth k a 0%R) i).
  { intros i Hi Hi2. unfold herm1. rewrite dft_parts. destruct (Nat.eqb_spec i 0) as [->|I0].
    - rewrite N0. f_equal. symmetry. apply sR_zero. intros k _. cbn [Nat.mul INR]. replace (2 * PI * 0 / INR n)%R with 0%R by (field; lra).
      rewrite sin_0. ring.
    - destruct (Nat.eqb_spec (2 * i) n) as [E|E].
      + replace (n - 1)%nat with (2 * (i - 1) + 1)%nat by lia. rewrite N1 by lia. replace (i - 1 + 1)%nat with i by lia. f_equal.
        symmetry. apply sR_zero. intros k _. replace (2 * PI * INR (i * k) / INR n)%R with (IZR (Z.of_nat k) * PI)%R.
        * rewrite (sin_eq_0_1 (IZR (Z.of_nat k) * PI)) by (exists (Z.of_nat k); reflexivity). ring.
        * rewrite <- INR_IZR_INZ, mult_INR, <- E, mult_INR. change (INR 2) with 2%R. field. apply not_0_INR. exact I0.
      + f_equal; [|apply N2; lia]. replace (2 * i - 1)%nat with (2 * (i - 1) + 1)%nat by lia. rewrite N1 by lia.
        replace (i - 1 + 1)%nat with i by lia. reflexivity. }
  unfold herm, both_sides. destruct (Nat.leb_spec j (n / 2)); [now apply LO|].
  rewrite LO by lia. rewrite <- dft_back by lia. f_equal. lia.
Qed.
