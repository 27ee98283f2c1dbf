(** [fourier_fft] at the times of its own grid (C67). *)

From Coq Require Import ZArith Reals List FinFun Bool String Lia Lra Psatz.
From Coquelicot Require Import Coquelicot.
From Verif Require Import PyBase CBase Kernel Utils UtilsLayer Transform TransformDlf TransformLag UtilsArgs Fullspace Model ModelFem ModelTem
  Fourier FourierSum FourierFft.
Import ListNotations.
Local Open Scope R_scope.
Local Open Scope C_scope.
Local Open Scope res_scope.

(** an interpolation which returns the given values at the given, distinct points *)
Definition nodal (spl : interp) : Prop := forall (v p : list R) (ks : list nat),
  List.length v = List.length p -> NoDup p -> (forall k, In k ks -> (k < List.length p)%nat) ->
  spl v p (map (fun k => nth k p 0%R) ks) = map (fun k => nth k v 0%R) ks.

Lemma fft_grid_nodup : forall ntot dfreq, (1 <= ntot)%nat -> dfreq <> 0%R -> NoDup (fft_grid ntot dfreq).
Proof.
  intros ntot dfreq H ND. unfold fft_grid. apply FinFun.Injective_map_NoDup; [|apply seq_NoDup].
  intros a b E. assert (P : (0 < INR ntot)%R) by (apply lt_0_INR; lia).
  apply Rmult_eq_reg_r in E; [apply INR_eq; lra|].
  unfold Rdiv. rewrite Rmult_1_l. apply Rinv_neq_0_compat. repeat apply Rmult_integral_contrapositive_currified; lra.
Qed.

Theorem fft_nodes : forall spl lspl dfreq nfreq ntot ppd fEM freq ks, nodal lspl ->
  (1 <= nfreq <= ntot)%nat -> dfreq <> 0%R ->
  List.length (fft_input spl dfreq nfreq ppd fEM freq) = nfreq ->
  (forall k, In k ks -> (k < 2 * ntot)%nat) ->
  exists v, fourier_fft spl lspl dfreq (Z.of_nat nfreq) (Z.of_nat ntot) ppd fEM (map (fun k => nth k (fft_grid ntot dfreq) 0%R) ks) freq = Ok (v, true) /\
  map (fun x => 2 / PI * x)%R v =
  map (fun k => fft_sum (ramp (fft_input spl dfreq nfreq ppd fEM freq) nfreq ntot) ntot dfreq ((INR k - INR ntot) * (1 / (2 * INR ntot * dfreq)))) ks.
Proof.
  intros spl lspl dfreq nfreq ntot ppd fEM freq ks HN B ND LF HK.
  eexists. split; [apply fft_value; assumption|]. set (G := fft_grid ntot dfreq). set (S := fft_sum _ ntot dfreq).
  assert (LG : List.length G = (2 * ntot)%nat) by (unfold G, fft_grid; now rewrite map_length, seq_length).
  rewrite HN; [|apply map_length|apply fft_grid_nodup; [lia|assumption]|intros k Hk; rewrite LG; now apply HK].
  rewrite !map_map. apply map_ext_in. intros k Hk. specialize (HK k Hk).
  rewrite (nth_indep _ 0%R (S 0%R)) by (rewrite map_length; lia). rewrite map_nth.
  unfold G, fft_grid at 1. rewrite nth_map_seq by exact HK. pose proof PI_RGT_0. field. lra.
Qed.

(** ** Two frequencies: the sum at the first positive time *)
Theorem fft_two : fft_sum (ramp [RtoC 0; RtoC 1] 2 2) 2 1 (/ 4) = 0%R /\ fourier_sum (ramp [RtoC 0; RtoC 1] 2 2) 2 1 (/ 4) = (-2)%R.
Proof.
  unfold fft_sum, fourier_sum, ramp, sR. cbn [seq map rsuml fold_right Nat.sub Nat.leb Nat.add nth INR].
  replace (2 * PI * ((1 + 1) * 1) * / 4)%R with PI by field. replace (2 * PI * (0 * 1) * / 4)%R with 0%R by ring.
  unfold cis, Cmult, RtoC. cbn [fst snd]. rewrite cos_PI, sin_PI, cos_0, sin_0. split; rgR.
Qed.
