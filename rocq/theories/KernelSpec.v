(** Independent description of layered media, used to state what kernel.py
    should compute.

    A stack has layers 0..N.  Interface [z k] (k = 1..N) is the top of layer k.
    [e k] and [g k] are the medium parameter (eta for TM, zeta for TE) and the
    vertical wavenumber Gamma of layer k. *)

From Coq Require Import Reals ZArith List.
From Coquelicot Require Import Coquelicot.
From Verif Require Import PyBase CBase.
Import ListNotations.

(** The arrays handed to the Python code. *)
Definition arr {A} (f : nat -> A) (N : nat) : list A := map f (seq 0 (S N)).
Definition depth_arr (z : nat -> R) (N : nat) : list ext :=
  NInf :: map (fun k => Fin (z k)) (seq 1 N).

Local Open Scope R_scope.
Local Open Scope C_scope.
Local Open Scope res_scope.

Section Stack.
Variables (e g : nat -> C) (z : nat -> R) (N : nat).

(** Decay over a distance d in layer k. *)
Definition dec (k : nat) (d : R) : C := Cexp (- (g k * RtoC d)).
(** Thickness of layer k (only meaningful for 1 <= k < N). *)
Definition thick (k : nat) : R := (z (S k) - z k)%R.
Definition E1 (k : nat) : C := dec k (thick k).
Definition E2 (k : nat) : C := Cexp (- (2 * g k * RtoC (thick k))).

(** Local reflection coefficient at interface k+1, seen from layer k. *)
Definition rl (k : nat) : C :=
  (e (S k) * g k - e k * g (S k)) / (e (S k) * g k + e k * g (S k)).

(** Global reflection coefficient at the bottom of layer [N - m]. *)
Fixpoint RdnF (m k : nat) : C :=
  match m with
  | O => 0
  | S m' => let T := RdnF m' (S k) * E2 (S k) in (rl k + T) / (1 + rl k * T)
  end.
Definition Rdn (k : nat) : C := RdnF (N - k) k.

(** Global reflection coefficient at the top of layer k. *)
Fixpoint Rup (k : nat) : C :=
  match k with
  | O => 0
  | S k' => let T := Rup k' * E2 k' in (- rl k' + T) / (1 + - rl k' * T)
  end.

(** Denominators occurring in the recursions. *)
Definition den_rl (k : nat) : C := e (S k) * g k + e k * g (S k).
Definition den_dn (k : nat) : C := 1 + rl k * (Rdn (S k) * E2 (S k)).
Definition den_up (k : nat) : C := 1 + - rl k * (Rup k * E2 k).

End Stack.

Lemma Rdn_N : forall e g z N, Rdn e g z N N = 0.
Proof. intros. unfold Rdn. now rewrite Nat.sub_diag. Qed.

Lemma Rdn_step : forall e g z N k, (k < N)%nat ->
  Rdn e g z N k =
  (rl e g k + Rdn e g z N (S k) * E2 g z (S k)) / den_dn e g z N k.
Proof.
  intros. unfold den_dn, Rdn. replace (N - k)%nat with (S (N - S k))%nat by Lia.lia.
  reflexivity.
Qed.

Lemma Rup_step : forall e g z k,
  Rup e g z (S k) = (- rl e g k + Rup e g z k * E2 g z k) / den_up e g z k.
Proof. reflexivity. Qed.

Lemma arr_length : forall A (f : nat -> A) N, List.length (arr f N) = S N.
Proof. intros. unfold arr. now rewrite map_length, seq_length. Qed.

Lemma zlen_arr : forall A (f : nat -> A) N, zlen (arr f N) = (Z.of_nat N + 1)%Z.
Proof. intros. unfold zlen. rewrite arr_length. Lia.lia. Qed.

Lemma idx_arr : forall A (f : nat -> A) N k, (k <= N)%nat ->
  idx (arr f N) (Z.of_nat k) = Ok (f k).
Proof.
  intros. rewrite idx_nth with (d := f O) by (rewrite arr_length; Lia.lia).
  unfold arr. rewrite map_nth. rewrite seq_nth by Lia.lia. reflexivity.
Qed.

Lemma depth_arr_length : forall z N, List.length (depth_arr z N) = S N.
Proof. intros. unfold depth_arr. simpl. now rewrite map_length, seq_length. Qed.

Lemma idx_depth : forall z N k, (1 <= k <= N)%nat ->
  idx (depth_arr z N) (Z.of_nat k) = Ok (Fin (z k)).
Proof.
  intros. rewrite idx_nth with (d := Fin (z O)) by (rewrite depth_arr_length; Lia.lia).
  unfold depth_arr. destruct k; [Lia.lia|]. simpl nth.
  change (Fin (z O)) with ((fun k => Fin (z k)) O). rewrite map_nth.
  rewrite seq_nth by Lia.lia. do 2 f_equal.
Qed.

Lemma idx_depth_0 : forall z N, idx (depth_arr z N) 0 = Ok NInf.
Proof. reflexivity. Qed.
