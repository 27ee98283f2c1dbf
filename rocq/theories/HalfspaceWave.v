(** The direct and reflected fields of the half-space solution as fields of the form
    studied in WaveField3, for Laplace parameters, switch-on and impulse responses. *)

From Coq Require Import ZArith Reals List Bool Lia Lra Psatz.
From Coquelicot Require Import Coquelicot.
From Verif Require Import PyBase CBase ODE Gauss Halfspace HalfspaceThm HalfspaceTime FullspaceMaxwell FullspaceField HalfspaceSym HalfspaceZero WaveField WaveField2 WaveField3.
Import ListNotations.
Local Open Scope R_scope.
Local Open Scope C_scope.

(** ** the sequences; q = sqrt t = ka r / 2 *)
Definition gs (T q : R) : R := (exp (- (q * q) / T) / (sqrt PI * sqrt T))%R.
Definition her (T q : R) (n : nat) : R :=
  match n with
  | O => 1
  | 1%nat => q / T
  | 2%nat => q * q / (T * T) - / (2 * T)
  | 3%nat => q * q * q / (T * T * T) - 3 * q / (2 * T * T)
  | 4%nat => q * q * q * q / (T * T * T * T) - 3 * q * q / (T * T * T) + 3 / (4 * T * T)
  | _ => q * q * q * q * q / (T * T * T * T * T) - 5 * q * q * q / (T * T * T * T) + 15 * q / (4 * T * T * T)
  end%R.
Fixpoint cpow (c : C) (n : nat) : C := match n with O => RtoC 1 | S n => c * cpow c n end.
Definition sq_q (w : hs_at) (n : nat) (q : R) : C :=
  match w with
  | AtS s => cpow (Csqrt s) n * Cexp (RtoC (-2) * (RtoC q * Csqrt s))
  | AtStep T => match n with O => RtoC (erfc (q / sqrt T)) | S m => RtoC (her T q m * gs T q) end
  | AtImp T => RtoC (her T q (S n) * gs T q)
  end.

Lemma gs_d : forall T q, (0 < T)%R -> is_derive (gs T) q (-2 * (q / T * gs T q))%R.
Proof.
  intros T q HT. pose proof PI_RGT_0. pose proof (sqrt_lt_R0 _ HT). assert (0 < sqrt PI)%R by now apply sqrt_lt_R0. assert (0 < sqrt PI * sqrt T)%R by now apply Rmult_lt_0_compat. unfold gs. auto_derive; [repeat split; lra|].
  replace (- (q * q) * / T)%R with (- (q * q) / T)%R by reflexivity. generalize (exp (- (q * q) / T)). intros e. field. repeat split; lra.
Qed.
Lemma her_d : forall T q n, (0 < T)%R -> (n < 5)%nat -> is_derive (fun q => her T q n * gs T q)%R q (-2 * (her T q (S n) * gs T q))%R.
Proof.
  intros T q n HT Hn.
  assert (K : forall h', is_derive (fun q => her T q n) q h' -> (h' + her T q n * (-2 * (q / T)) = -2 * her T q (S n))%R -> is_derive (fun q => her T q n * gs T q)%R q (-2 * (her T q (S n) * gs T q))%R).
  { intros h' D E. replace (-2 * (her T q (S n) * gs T q))%R with (h' * gs T q + her T q n * (-2 * (q / T * gs T q)))%R.
    - apply (is_derive_mult (K := R_AbsRing) (fun q => her T q n) (gs T) q h' _ D (gs_d T q HT) Rmult_comm).
    - transitivity ((h' + her T q n * (-2 * (q / T))) * gs T q)%R; [ring|]. rewrite E. ring. }
  destruct n as [|[|[|[|[|n]]]]]; [| | | | |lia]; cbn [her] in *; (eapply K; [auto_derive; [repeat split; try (apply Rgt_not_eq; repeat apply Rmult_lt_0_compat; lra)|reflexivity]|]); field; repeat split; lra.
Qed.
Lemma sq_d : forall w n q, at_ok w -> (n < 4)%nat -> (0 < q)%R -> is_deriveC (sq_q w n) q (RtoC (-2) * sq_q w (S n) q).
Proof.
  intros w n q Hw Hn Hq. destruct w as [s|T|T]; cbn [at_ok] in Hw.
  - unfold sq_q. eapply dCe; [apply is_deriveC_scal, dC_exp, is_deriveC_scal; apply (dC_mult (fun q => RtoC q) (fun _ => Csqrt s)); [apply (dCR (fun q => q) q 1%R); apply (is_derive_id q)|apply is_deriveC_const]|]. cbn [cpow]. eC. ring.
  - destruct n as [|n].
    + cbn [sq_q her]. eapply dCe; [apply dCR|].
      * apply (is_derive_comp erfc (fun q => (q / sqrt T)%R) q); [apply erfc_derive|]. pose proof (sqrt_lt_R0 _ Hw). auto_derive; [exact I|reflexivity].
      * rewrite <- RtoC_mult. f_equal. unfold scal; cbn; unfold mult; cbn. unfold gs. pose proof (sqrt_lt_R0 _ Hw). assert (0 < sqrt PI)%R by (apply sqrt_lt_R0, PI_RGT_0).
        replace (q / sqrt T * (q / sqrt T))%R with (q * q / T)%R. 2: { transitivity (q * q / (sqrt T * sqrt T))%R; [rewrite sqrt_sqrt by lra; reflexivity|]. field. lra. }
        replace (- (q * q / T))%R with (- (q * q) / T)%R by (unfold Rdiv; ring). generalize (exp (- (q * q) / T)). intros e. eR. field. split; lra.
    + cbn [sq_q]. eapply dCe; [apply (dCR (fun q => her T q n * gs T q)%R); apply her_d; [exact Hw|lia]|]. now rewrite RtoC_mult.
  - cbn [sq_q]. eapply dCe; [apply (dCR (fun q => her T q (S n) * gs T q)%R); apply her_d; [exact Hw|lia]|]. now rewrite RtoC_mult.
Qed.
(** derivative in time of the impulse response *)
Lemma gs_t : forall T q, (0 < T)%R -> is_derive (fun T => gs T q) T ((q * q / (T * T) - / (2 * T)) * gs T q)%R.
Proof.
  intros T q HT. pose proof PI_RGT_0. pose proof (sqrt_lt_R0 _ HT) as ST. assert (0 < sqrt PI)%R by now apply sqrt_lt_R0. assert (0 < sqrt PI * sqrt T)%R by now apply Rmult_lt_0_compat. unfold gs. auto_derive; [repeat split; lra|].
  replace (- (q * q) * / T)%R with (- (q * q) / T)%R by reflexivity. generalize (exp (- (q * q) / T)). intros e. assert (E : (sqrt T * sqrt T = T)%R) by (apply sqrt_sqrt; lra). set (v := sqrt T) in *. clearbody v. rewrite <- E. field. repeat split; lra.
Qed.
Lemma her_t : forall T q n, (0 < T)%R -> (n < 4)%nat -> is_derive (fun T => her T q n * gs T q)%R T (her T q (S (S n)) * gs T q)%R.
Proof.
  intros T q n HT Hn.
  assert (K : forall h', is_derive (fun T => her T q n) T h' -> (h' + her T q n * (q * q / (T * T) - / (2 * T)) = her T q (S (S n)))%R -> is_derive (fun T => her T q n * gs T q)%R T (her T q (S (S n)) * gs T q)%R).
  { intros h' D E. replace (her T q (S (S n)) * gs T q)%R with (h' * gs T q + her T q n * ((q * q / (T * T) - / (2 * T)) * gs T q))%R.
    - apply (is_derive_mult (K := R_AbsRing) (fun T => her T q n) (fun T => gs T q) T h' _ D (gs_t T q HT) Rmult_comm).
    - transitivity ((h' + her T q n * (q * q / (T * T) - / (2 * T))) * gs T q)%R; [ring|]. rewrite E. ring. }
  destruct n as [|[|[|[|n]]]]; [| | | |lia]; cbn [her] in *; (eapply K; [auto_derive; [repeat split; try lra; try (apply Rgt_not_eq; repeat apply Rmult_lt_0_compat; lra)|reflexivity]|]); field; repeat split; lra.
Qed.

(** the sequences are the functions of the code *)
Lemma sq_f : forall w t q, at_ok w -> (0 < q)%R -> t = (q * q)%R -> hs_f0 w t = sq_q w 0 q /\ hs_f1 w t = sq_q w 1 q /\ hs_f2 w t = sq_q w 2 q.
Proof.
  intros w t q Hw Hq ->. assert (Q : (0 < q * q)%R) by nra. assert (SQ : sqrt (q * q) = q) by (rewrite sqrt_square; lra). pose proof PI_RGT_0 as HP. assert (SP : (0 < sqrt PI)%R) by now apply sqrt_lt_R0.
  destruct w as [s|T|T]; cbn [at_ok] in Hw.
  - assert (F : hs_f0 (AtS s) (q * q) = Cexp (RtoC (-2) * (RtoC q * Csqrt s))) by (rewrite f0S by lra; now rewrite SQ).
    split; [|split]; [cbn [sq_q cpow]|cbn [hs_f1 sq_q cpow]|cbn [hs_f2 sq_q cpow]]; rewrite F; [ring|ring|]. rewrite <- (Csqrt_sqr s) at 1. ring.
  - pose proof (sqrt_lt_R0 _ Hw) as ST. assert (S0 : sqrt (q * q / T) = (q / sqrt T)%R) by (rewrite sqrt_div_alt by lra; now rewrite SQ). assert (S1 : sqrt (PI * T) = (sqrt PI * sqrt T)%R) by (apply sqrt_mult; lra).
    split; [|split]; cbn [hs_f0 hs_f1 hs_f2 sq_q her].
    + now rewrite S0.
    + rewrite S1. f_equal. unfold gs. ring.
    + rewrite S1, SQ, <- RtoC_mult. f_equal. unfold gs. field. repeat split; lra.
  - pose proof (sqrt_lt_R0 _ Hw) as ST. pose proof (im0_eq (q * q) T Q Hw) as E0. unfold im0 in E0. rewrite SQ in E0.
    assert (F : hs_f0 (AtImp T) (q * q) = RtoC (q / T * gs T q)). { cbn [hs_f0]. rewrite E0. f_equal. unfold gs. field. repeat split; lra. }
    split; [|split]; [cbn [sq_q her]|cbn [hs_f1 sq_q her]|cbn [hs_f2 sq_q her]]; rewrite F, ?SQ; [reflexivity| |]; rewrite <- RtoC_mult; f_equal; field; repeat split; lra.
Qed.

Definition fsq (ka : R) (w : hs_at) (n : nat) (r : R) : C := sq_q w n (ka * r / 2)%R.
Lemma fsq_d : forall ka w n r, (0 < ka)%R -> at_ok w -> (n < 4)%nat -> (0 < r)%R -> is_deriveC (fsq ka w n) r (- (RtoC ka * fsq ka w (S n) r)).
Proof.
  intros ka w n r Hk Hw Hn Hr. assert (Q : (0 < ka * r / 2)%R) by (unfold Rdiv; repeat apply Rmult_lt_0_compat; lra). destruct (sq_d w n _ Hw Hn Q) as [D1 D2].
  assert (DR : is_derive (fun r => (ka * r / 2)%R) r (ka / 2)%R) by (auto_derive; [exact I|]; eR; field).
  unfold fsq. set (v := sq_q w (S n) (ka * r / 2)) in *. clearbody v. replace (- (RtoC ka * v)) with ((ka / 2 * fst (Cmult (RtoC (-2)) v))%R, (ka / 2 * snd (Cmult (RtoC (-2)) v))%R : R) by (apply injective_projections; unfold Copp, Cmult, RtoC; cbn [fst snd]; eR; field).
  split; cbn [fst snd].
  - apply (is_derive_comp (fun u => fst (sq_q w n u)) (fun r => (ka * r / 2)%R) r _ _ D1 DR).
  - apply (is_derive_comp (fun u => snd (sq_q w n u)) (fun r => (ka * r / 2)%R) r _ _ D2 DR).
Qed.
(** what shifting the sequence by two means *)
Definition next (w : hs_at) (n : nat) (q : R) : C := sq_q w (S (S n)) q.
Lemma next_S : forall s n q, next (AtS s) n q = s * sq_q (AtS s) n q.
Proof. intros s n q. unfold next. cbn [sq_q cpow]. transitivity (Csqrt s * Csqrt s * (cpow (Csqrt s) n * Cexp (RtoC (-2) * (RtoC q * Csqrt s)))); [ring|]. now rewrite Csqrt_sqr. Qed.
Lemma next_step : forall T n q, next (AtStep T) n q = sq_q (AtImp T) n q.
Proof. reflexivity. Qed.
Lemma next_imp : forall T n q, (0 < T)%R -> (n < 3)%nat -> is_deriveC (fun T => sq_q (AtImp T) n q) T (next (AtImp T) n q).
Proof. intros T n q HT Hn. unfold next. cbn [sq_q]. apply (dCR (fun T => her T q (S n) * gs T q)%R). apply her_t; [exact HT|lia]. Qed.
