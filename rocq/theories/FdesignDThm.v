(** The filter values solve the least-squares problem. *)

From Coq Require Import ZArith Reals List Bool Ascii String Lia Lra Psatz.
From Coquelicot Require Import Coquelicot.
From Verif Require Import PyBase CBase Text Utils Transform UtilsArgs DataIo FilterIo Fdesign Fourier FourierSum FdesignD.
Import ListNotations.
Local Open Scope R_scope.

(** ** Sums *)
Lemma sR_swap : forall (f : nat -> nat -> R) n m, sR (fun i => sR (fun j => f i j) m) n = sR (fun j => sR (fun i => f i j) n) m.
Proof.
  intros f n m. induction n as [|n IH].
  - rewrite sR_zero by (intros; lia). symmetry. apply sR_zero. intros. reflexivity.
  - rewrite sR_S, IH, <- sR_plus. apply sR_ext. intros k _. now rewrite sR_S.
Qed.
Lemma sR_one : forall f n m, (m < n)%nat -> (forall k, (k < n)%nat -> k <> m -> f k = 0) -> sR f n = f m.
Proof.
  intros f n m H Z. induction n as [|n IH]; [lia|]. rewrite sR_S. destruct (Nat.eq_dec m n) as [->|D].
  - rewrite sR_zero; [ring|]. intros k Hk. apply Z; lia.
  - rewrite IH, (Z n); [ring|lia|lia|lia|]. intros k Hk. apply Z. lia.
Qed.
Lemma sR_sq_0 : forall f n, sR (fun k => f k ^ 2) n = 0 -> forall k, (k < n)%nat -> f k = 0.
Proof.
  intros f n. induction n as [|n IH]; intros H k Hk; [lia|]. rewrite sR_S in H.
  assert (P : 0 <= sR (fun k => f k ^ 2) n).
  { rewrite <- (sR_zero (fun _ => 0) n) by auto. apply sR_le. intros j _. apply pow2_ge_0. }
  pose proof (pow2_ge_0 (f n)) as P'. destruct (Nat.eq_dec k n) as [->|D].
  - assert (E : f n ^ 2 = 0) by lra. apply Rsqr_0_uniq. unfold Rsqr. cbn [pow] in E. lra.
  - apply IH; [lra|lia].
Qed.
Lemma sR_sq_pos : forall f n, 0 <= sR (fun k => f k ^ 2) n.
Proof. intros f n. rewrite <- (sR_zero (fun _ => 0) n) by auto. apply sR_le. intros j _. apply pow2_ge_0. Qed.

(** ** Least squares *)
(** the product of a matrix with n columns and a vector *)
Definition mv (a : mat) (n : nat) (x : nat -> R) (i : nat) : R := sR (fun j => a i j * x j) n.
(** the sum of squared residuals of a system of m equations for n unknowns *)
Definition ssq (a : mat) (b : nat -> R) (m n : nat) (x : nat -> R) : R := sR (fun i => (mv a n x i - b i) ^ 2) m.
(** independent columns *)
Definition indep (a : mat) (m n : nat) : Prop :=
  forall y, (forall i, (i < m)%nat -> mv a n y i = 0) -> forall j, (j < n)%nat -> y j = 0.

(** What numpy.linalg promises for matrices of m rows and n columns: a QR factorisation, and the
    solution of a square regular system (else a LinAlgError). *)
Definition qr_ok (la : linalg) (m n : nat) : Prop := forall a, exists q u, la_qr la m n a = Some (q, u) /\
  (forall i j, (i < m)%nat -> (j < n)%nat -> a i j = sR (fun l => q i l * u l j) (Nat.min m n)) /\
  (forall k l, (k < Nat.min m n)%nat -> (l < Nat.min m n)%nat -> sR (fun i => q i k * q i l) m = if (k =? l)%nat then 1 else 0).
Definition solve_ok (la : linalg) (k n : nat) : Prop := forall u c,
  match la_solve la k n u c with
  | Some x => k = n /\ List.length x = n /\ (forall i, (i < n)%nat -> mv u n (fun j => nth j x 0) i = c i) /\ indep u n n
  | None => k <> n \/ ~ indep u k n
  end.

Section LSQ.
Variables (a q u : mat) (b : nat -> R) (m n : nat) (x0 : nat -> R).
Hypothesis A : forall i j, (i < m)%nat -> (j < n)%nat -> a i j = sR (fun l => q i l * u l j) n.
Hypothesis Q : forall k l, (k < n)%nat -> (l < n)%nat -> sR (fun i => q i k * q i l) m = if (k =? l)%nat then 1 else 0.

Lemma mv_qr : forall y i, (i < m)%nat -> mv a n y i = sR (fun l => q i l * mv u n y l) n.
Proof using A.
  intros y i Hi. unfold mv.
  transitivity (sR (fun j => sR (fun l => q i l * (u l j * y j)) n) n).
  { apply sR_ext. intros j Hj. rewrite A by assumption. rewrite Rmult_comm, <- sR_scal. apply sR_ext. intros. ring. }
  rewrite sR_swap. apply sR_ext. intros l _. now rewrite <- sR_scal.
Qed.
Lemma q_dot : forall z w, sR (fun i => sR (fun l => q i l * z l) n * sR (fun l => q i l * w l) n) m = sR (fun l => z l * w l) n.
Proof using Q.
  intros z w.
  transitivity (sR (fun i => sR (fun k => sR (fun l => z k * w l * (q i k * q i l)) n) n) m).
  { apply sR_ext. intros i _. rewrite Rmult_comm, <- sR_scal. apply sR_ext. intros k _. rewrite Rmult_comm, <- sR_scal. apply sR_ext. intros; ring. }
  rewrite sR_swap. apply sR_ext. intros k Hk. rewrite sR_swap.
  transitivity (sR (fun l => z k * w l * (if (k =? l)%nat then 1 else 0)) n).
  { apply sR_ext. intros l Hl. rewrite sR_scal, Q by assumption. reflexivity. }
  rewrite (sR_one _ n k Hk). { rewrite Nat.eqb_refl. ring. }
  intros l Hl D. destruct (Nat.eqb_spec k l); [lia|]. ring.
Qed.
Lemma mv_norm : forall y, sR (fun i => mv a n y i ^ 2) m = sR (fun l => mv u n y l ^ 2) n.
Proof using A Q.
  intros y. transitivity (sR (fun i => sR (fun l => q i l * mv u n y l) n * sR (fun l => q i l * mv u n y l) n) m).
  { apply sR_ext. intros i Hi. rewrite mv_qr by assumption. ring. }
  rewrite q_dot. apply sR_ext. intros; ring.
Qed.
(** The columns of a are independent exactly if those of u are. *)
Lemma indep_qr : indep a m n <-> indep u n n.
Proof using A Q.
  split; intros H y Z j Hj.
  - apply H; [|assumption]. intros i Hi. rewrite mv_qr by assumption. apply sR_zero. intros l Hl. rewrite Z by assumption. ring.
  - apply H; [|assumption]. apply sR_sq_0. rewrite <- mv_norm. apply sR_zero. intros i Hi. rewrite Z by assumption. ring.
Qed.

Hypothesis S : forall l, (l < n)%nat -> mv u n x0 l = sR (fun i => b i * q i l) m.

Lemma normal : forall y, sR (fun i => mv a n y i * (mv a n x0 i - b i)) m = 0.
Proof using A Q S.
  intros y.
  transitivity (sR (fun i => mv a n y i * mv a n x0 i) m + (-1) * sR (fun i => mv a n y i * b i) m).
  { rewrite <- sR_scal, <- sR_plus. apply sR_ext. intros; ring. }
  assert (E1 : sR (fun i => mv a n y i * mv a n x0 i) m = sR (fun l => mv u n y l * mv u n x0 l) n).
  { rewrite <- q_dot. apply sR_ext. intros i Hi. now rewrite !mv_qr by assumption. }
  assert (E2 : sR (fun i => mv a n y i * b i) m = sR (fun l => mv u n y l * mv u n x0 l) n).
  { transitivity (sR (fun i => sR (fun l => mv u n y l * (b i * q i l)) n) m).
    - apply sR_ext. intros i Hi. rewrite mv_qr by assumption. rewrite Rmult_comm, <- sR_scal. apply sR_ext. intros; ring.
    - rewrite sR_swap. apply sR_ext. intros l Hl. rewrite sR_scal, S by assumption. reflexivity. }
  rewrite E1, E2. ring.
Qed.
Lemma pythagoras : forall x, ssq a b m n x = ssq a b m n x0 + sR (fun l => mv u n (fun j => x j - x0 j) l ^ 2) n.
Proof using A Q S.
  intros x. rewrite <- mv_norm. unfold ssq.
  assert (L : forall i, mv a n x i = mv a n (fun j => x j - x0 j) i + mv a n x0 i).
  { intros i. unfold mv. rewrite <- sR_plus. apply sR_ext. intros; ring. }
  transitivity (sR (fun i => (mv a n x0 i - b i) ^ 2 + mv a n (fun j => x j - x0 j) i ^ 2 + 2 * (mv a n (fun j => x j - x0 j) i * (mv a n x0 i - b i))) m).
  { apply sR_ext. intros i _. rewrite L. ring. }
  rewrite !sR_plus, sR_scal, normal. ring.
Qed.
Lemma least : indep u n n -> forall x, ssq a b m n x0 <= ssq a b m n x /\
  (ssq a b m n x = ssq a b m n x0 -> forall j, (j < n)%nat -> x j = x0 j).
Proof using A Q S.
  intros I x. rewrite (pythagoras x). pose proof (sR_sq_pos (mv u n (fun j => x j - x0 j)) n). split; [lra|].
  intros E j Hj. assert (Z : sR (fun l => mv u n (fun j => x j - x0 j) l ^ 2) n = 0) by lra.
  pose proof (I (fun j => x j - x0 j) (sR_sq_0 _ _ Z) j Hj) as D. cbv beta in D. lra.
Qed.
End LSQ.

(** What _calculate_filter gets from numpy.linalg. *)
Lemma solve_spec : forall la m n a b, qr_ok la m n -> solve_ok la (Nat.min m n) n ->
  let x := fd_solve la m n a b in
  List.length x = n /\
  ((m < n)%nat -> x = repeat 0 n) /\
  ((n <= m)%nat -> ~ indep a m n -> x = repeat 0 n) /\
  ((n <= m)%nat -> indep a m n -> forall y, ssq a b m n (fun j => nth j x 0) <= ssq a b m n y /\
     (ssq a b m n y = ssq a b m n (fun j => nth j x 0) -> forall j, (j < n)%nat -> y j = nth j x 0)).
Proof.
  intros la m n a b HQ HS x. destruct (HQ a) as (q & u & E & HA & HO). unfold x, fd_solve. rewrite E.
  set (c := fun j => rsuml _). pose proof (HS u c) as P. destruct (la_solve la (Nat.min m n) n u c) as [z|].
  - destruct P as (K & L & M & I). rewrite K in HA, HO. split; [exact L|]. split; [lia|].
    assert (Hle : (n <= m)%nat) by lia.
    split; [intros _ N; exfalso; apply N; apply (indep_qr a q u m n HA HO); exact I|].
    intros _ _ y. apply (least a q u b m n (fun j => nth j z 0) HA HO); [|exact I].
    intros l Hl. rewrite M by assumption. reflexivity.
  - split; [apply repeat_length|]. split; [reflexivity|]. split; [reflexivity|].
    intros Hle I. rewrite Nat.min_r in P, HA, HO by assumption. destruct P as [P|P]; [congruence|].
    exfalso. apply P. apply (indep_qr a q u m n HA HO). exact I.
Qed.
