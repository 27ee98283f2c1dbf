(** Property C88: how far the result of quadrature with extrapolation (QWE) is
    from the limit of its extrapolated sums; geometric contributions are summed
    exactly; the plain sums tend to the integral from the first division point on. *)

From Coq Require Import ZArith Reals List Bool String Lia Lra Psatz.
From Coquelicot Require Import Coquelicot.
From Verif Require Import PyBase CBase Kernel Utils UtilsLayer Transform TransformQwe TransformQuad Fourier FourierFft FourierQwe HankelQ HankelQThm ODE Cint Homog.
Import ListNotations.
Local Open Scope R_scope.
Local Open Scope C_scope.

(** ** The error at convergence *)
Lemma err_core : forall rtol atol q (u v L : C), (0 <= rtol)%R -> (0 <= q)%R -> (q * (1 + rtol) < 1)%R ->
  within rtol atol v u -> (Cmod (v - L)%C <= q * Cmod (u - L)%C)%R ->
  (Cmod (u - L)%C <= (rtol * Cmod L + atol) / (1 - q * (1 + rtol)))%R.
Proof.
  intros rtol atol q u v L Hr Hq H1 W K. unfold within in W.
  assert (T : (Cmod (u - L)%C <= Cmod (v - u)%C + Cmod (v - L)%C)%R).
  { replace (u - L) with (- (v - u) + (v - L)) by ring. eapply Rle_trans; [apply Cmod_triangle|]. rewrite Cmod_opp. lra. }
  assert (B : (Cmod v <= Cmod (v - L)%C + Cmod L)%R).
  { replace v with ((v - L) + L) at 1 by ring. apply Cmod_triangle. }
  apply (Rmult_le_reg_r (1 - q * (1 + rtol))); [lra|]. unfold Rdiv. rewrite Rmult_assoc, Rinv_l, Rmult_1_r by lra.
  assert (M : (rtol * Cmod v <= rtol * (q * Cmod (u - L)%C + Cmod L))%R) by (apply Rmult_le_compat_l; lra). nra.
Qed.

(** interval [i] is reached: no test before it was met *)
Definition reached (rtol atol : R) (c : nat -> C) (i : nat) : Prop :=
  forall m, (2 <= m < i)%nat -> ~ within rtol atol (extrapolated c m) (extrapolated c (m - 1)).
(** From the fourth interval on, as far as the intervals are reached: the extrapolated sums approach [L] by the factor [q],
    and none is zero or the largest double; the test of the third interval is not met. *)
Record approaches (rtol atol : R) (maxint : nat) (c : nat -> C) (L : C) (q : R) : Prop := {
  ap_first : ~ within rtol atol (extrapolated c 2) (extrapolated c 1);
  ap_value : forall i, (2 <= i < maxint)%nat -> reached rtol atol c i -> extrapolated c i <> RtoC 0 /\ fst (extrapolated c i) <> dbl_max;
  ap_step : forall i, (3 <= i < maxint)%nat -> reached rtol atol c i -> (Cmod (extrapolated c i - L)%C <= q * Cmod (extrapolated c (i - 1) - L)%C)%R }.

Theorem value_error : forall rtol atol maxint zc c (L : C) (q : R), (0 <= rtol)%R -> (0 <= q)%R -> (q * (1 + rtol) < 1)%R ->
  approaches rtol atol maxint c L q -> (3 <= maxint)%nat -> qwe_stops rtol atol zc maxint c = true ->
  (Cmod (qwe_value rtol atol zc maxint c - L)%C <= (rtol * Cmod L + atol) / (1 - q * (1 + rtol)))%R.
Proof.
  intros rtol atol maxint zc c L q Hr Hq H1 [N2 NZ CO] Hm ST. unfold qwe_stops, first_stop in ST.
  pose proof (find_seq (stops rtol atol zc c) (maxint - 2 - 1) 2) as F. pose proof (find_seq (stops rtol atol zc c) (maxint - 1 - 1) 2) as F'. unfold qwe_value, first_stop.
  destruct (find _ (seq 2 (maxint - 2 - 1))) as [i|]; [clear ST|discriminate]. destruct F as (B & S & P).
  destruct (find _ (seq 2 (maxint - 1 - 1))) as [k|]; [|rewrite F' in S by lia; discriminate]. destruct F' as (B' & S' & P').
  assert (k = i) as ->.
  { destruct (Nat.lt_trichotomy k i) as [X|[X|X]]; [rewrite P in S' by lia; discriminate|exact X|rewrite P' in S by lia; discriminate]. }
  clear S' P' B'.
  assert (RE : reached rtol atol c i).
  { assert (Q : forall n, (n <= i)%nat -> reached rtol atol c n).
    { induction n as [|n IH]; intros Hn m Hm2 W; [lia|]. destruct (Nat.eq_dec m n) as [->|D]; [|exact (IH ltac:(lia) m ltac:(lia) W)].
      assert (X : stops rtol atol zc c n = true) by (unfold stops; rewrite not_conv_intro; [reflexivity|apply (NZ n ltac:(lia) (IH ltac:(lia)))|exact W]).
      rewrite P in X by lia. discriminate. }
    apply Q. lia. }
  assert (W : within rtol atol (extrapolated c i) (extrapolated c (i - 1))).
  { unfold stops in S. apply negb_true_iff in S. apply not_conv_false in S. destruct S as [S|[S _]]; [exact S|]. exfalso. exact (proj1 (NZ i ltac:(lia) RE) S). }
  destruct (Nat.eqb_spec i 2) as [->|D]; [exfalso; exact (N2 W)|].
  assert (RE' : reached rtol atol c (i - 1)) by (intros m Hm2; apply RE; lia).
  unfold clean. rewrite (proj2 (UtilsLayer.Reqb_false _ _)) by (apply (NZ (i - 1)%nat); [lia|exact RE']).
  apply err_core with (v := extrapolated c i); try assumption. apply CO; [lia|exact RE].
Qed.

Theorem qwe_error : forall rtol atol maxint zc contrib n out kc, (2 <= maxint)%nat -> (0 <= rtol)%R ->
  qwe rtol atol maxint zc contrib n = Ok (out, kc, true) ->
  forall e (L : C) (q : R), (e < n)%nat -> (0 <= q)%R -> (q * (1 + rtol) < 1)%R ->
  approaches rtol atol maxint (contrib e) L q ->
  (Cmod (nth e out (RtoC 0) - L)%C <= (rtol * Cmod L + atol) / (1 - q * (1 + rtol)))%R.
Proof.
  intros rtol atol maxint zc contrib n out kc Hm Hr H e L q He Hq H1 A.
  destruct (qwe_each rtol atol zc maxint contrib n Hm) as [kc' Q]. rewrite H in Q.
  set (fl := (3 <=? maxint)%nat && _) in Q. assert (EO : out = map (fun e => qwe_value rtol atol zc maxint (contrib e)) (seq 0 n)) by congruence. assert (EF : fl = true) by congruence.
  unfold fl in EF. clear Q fl. apply andb_true_iff in EF. destruct EF as [Q1 Q2]. rewrite EO.
  rewrite FourierFft.nth_map_seq by exact He. apply Nat.leb_le in Q1. rewrite forallb_forall in Q2.
  apply value_error; try assumption. apply Q2. apply in_seq. lia.
Qed.

(** ** Geometric contributions *)
Definition geometric (c : nat -> C) (b a q : C) : Prop := c 0%nat = b /\ forall i, (1 <= i)%nat -> c i = Cmult a (cpw q i).
Definition gsum (b a q : C) : C := b + a * q / (1 - q).

Lemma cpw_S : forall q n, cpw q (S n) = Cmult q (cpw q n). Proof. reflexivity. Qed.
Lemma psum_geo : forall c b a q, geometric c b a q -> q <> RtoC 1 -> forall n, psum c n = (a * q / (1 - q)) + (- (a * q / (1 - q))) * cpw q n.
Proof.
  intros c b a q [_ G] H1 n. assert (D : 1 - q <> 0) by (intros W; apply H1; replace q with (1 - (1 - q)) by ring; rewrite W; ring).
  induction n as [|n IH]; [cbn [psum cpw]; ring|]. cbn [psum]. rewrite IH, G by lia. rewrite cpw_S. field. exact D.
Qed.
Lemma cpw_neq : forall q n, q <> RtoC 0 -> cpw q n <> RtoC 0.
Proof. intros q n H. induction n as [|n IH]; [intros W; apply RtoC_inj in W; lra|]. cbn [cpw]. now apply Cmult_neq_0. Qed.

(** no difference of the epsilon table is mistaken for zero *)
Definition table_ok (a q : C) : Prop :=
  (forall i, (1 <= i <= 3)%nat -> (dbl_tiny <= Cmod (a * cpw q i)%C)%R) /\
  (forall i, (2 <= i <= 3)%nat -> (dbl_tiny <= Cmod ((1 - q) / (a * cpw q i))%C)%R).

Section Geo.
Variables (c : nat -> C) (b a q : C).
Hypothesis G : geometric c b a q.
Hypotheses (Ha : a <> RtoC 0) (Hq : q <> RtoC 0) (H1 : q <> RtoC 1).
Hypothesis T : table_ok a q.
Let D : 1 - q <> 0.
Proof using H1. intros W; apply H1; replace q with (1 - (1 - q)) by ring; rewrite W; ring. Qed.
Lemma geo_1 : extrapolated c 1 = b + a * q.
Proof using G.
  unfold extrapolated. change (1 - 1 mod 2)%nat with 0%nat. change (1 mod 2)%nat with 1%nat. change (eps (psum c) 0 1) with (psum c 1). cbn [psum]. rewrite (proj1 G), (proj2 G) by lia. cbn [cpw]. ring.
Qed.
Lemma geo_diff : forall n, Cminus (psum c (n + 1)) (psum c n) = a * cpw q (n + 1).
Proof using G. intros n. replace (n + 1)%nat with (S n) by lia. cbn [psum]. rewrite (proj2 G) by lia. ring. Qed.
Lemma geo_eps : forall n, (n <= 1)%nat -> eps (psum c) 2 n = a * q / (1 - q).
Proof using All.
  intros n Hn. pose proof (cpw_neq q (n + 1) Hq) as N1. pose proof (cpw_neq q (n + 2) Hq) as N2. destruct T as [T1 T2].
  assert (E1 : forall m, (m <= 2)%nat -> eps (psum c) 1 m = 1 / (a * cpw q (m + 1))).
  { intros m Hm. change (eps (psum c) 1 m) with (recip_or_max (RtoC 0) (Cminus (psum c (m + 1)) (psum c m))). rewrite geo_diff. rewrite recip_ok by (apply T1; lia). ring. }
  apply (eps2_geometric (psum c) (a * q / (1 - q)) (- (a * q / (1 - q))) q (psum_geo c b a q G H1)); try assumption.
  - intros W. assert (X : a * q / (1 - q) = 0) by (replace (a * q / (1 - q)) with (- - (a * q / (1 - q))) by ring; rewrite W; ring).
    unfold Cdiv in X. revert X. apply Cmult_neq_0; [now apply Cmult_neq_0|]. intros Y. apply D. assert (Z : (1 - q) * / (1 - q) = 1) by now apply Cinv_r. rewrite Y in Z. rewrite Cmult_0_r in Z. apply RtoC_inj in Z. lra.
  - rewrite geo_diff. apply T1. lia.
  - replace (n + 2)%nat with (n + 1 + 1)%nat by lia. rewrite geo_diff. apply T1. lia.
  - rewrite !E1 by lia. replace (n + 1 + 1)%nat with (n + 2)%nat by lia.
    replace (1 / (a * cpw q (n + 2)) - 1 / (a * cpw q (n + 1))) with ((1 - q) / (a * cpw q (n + 2))); [apply T2; lia|].
    replace (n + 2)%nat with (S (n + 1)) by lia. rewrite cpw_S. field. repeat split; assumption.
Qed.
Lemma geo_2 : extrapolated c 2 = gsum b a q.
Proof using All. unfold extrapolated. change (2 - 2 mod 2)%nat with 2%nat. change (2 mod 2)%nat with 0%nat. rewrite geo_eps by lia. rewrite (proj1 G). unfold gsum. ring. Qed.
Lemma geo_3 : extrapolated c 3 = gsum b a q.
Proof using All. unfold extrapolated. change (3 - 3 mod 2)%nat with 2%nat. change (3 mod 2)%nat with 1%nat. rewrite geo_eps by lia. rewrite (proj1 G). unfold gsum. ring. Qed.

Variables (rtol atol : R) (zc : C -> bool) (maxint : nat).
Hypotheses (Hm : (5 <= maxint)%nat) (Hs : gsum b a q <> RtoC 0) (Hx : fst (gsum b a q) <> dbl_max).
Hypothesis Htol : (0 < rtol * Cmod (gsum b a q)%C + atol)%R.
Hypothesis Hfirst : (rtol * Cmod (gsum b a q)%C + atol <= Cmod (a * q * q / (1 - q))%C)%R.
Lemma geo_stops2 : stops rtol atol zc c 2 = false.
Proof using All.
  unfold stops. cbn [Nat.sub]. destruct (not_conv _ _ _ _ _) eqn:E; [reflexivity|]. exfalso. apply not_conv_false in E. rewrite geo_2, geo_1 in E.
  destruct E as [E|[E _]]; [|contradiction]. unfold within in E. replace (gsum b a q - (b + a * q)) with (a * q * q / (1 - q)) in E by (unfold gsum; field; exact D). lra.
Qed.
Lemma geo_stops3 : stops rtol atol zc c 3 = true.
Proof using All.
  unfold stops. cbn [Nat.sub]. rewrite not_conv_intro; [reflexivity|rewrite geo_3; exact Hs|]. rewrite geo_3, geo_2. unfold within.
  replace (gsum b a q - gsum b a q) with (RtoC 0) by ring. rewrite Cmod_0. exact Htol.
Qed.
Lemma geo_first : forall hi, (3 <= hi)%nat -> first_stop rtol atol zc c hi = Some 3%nat.
Proof using All.
  intros hi H. unfold first_stop. replace (hi - 1)%nat with (S (S (hi - 3))) by lia. cbn [seq find]. now rewrite geo_stops2, geo_stops3.
Qed.
Lemma geo_value : qwe_value rtol atol zc maxint c = gsum b a q /\ qwe_stops rtol atol zc maxint c = true.
Proof using All.
  split; unfold qwe_value, qwe_stops; rewrite geo_first by lia; [|reflexivity]. cbn [Nat.eqb Nat.sub]. rewrite geo_2. unfold clean. now rewrite (proj2 (UtilsLayer.Reqb_false _ _) Hx).
Qed.
End Geo.

Record summable (rtol atol : R) (maxint : nat) (c : nat -> C) (b a q : C) : Prop := {
  sm_zero : c 0%nat = b;
  sm_geo : forall i, (1 <= i < maxint)%nat -> c i = Cmult a (cpw q i);
  sm_neq : a <> RtoC 0 /\ q <> RtoC 0 /\ q <> RtoC 1;
  sm_table : table_ok a q;
  sm_sum : gsum b a q <> RtoC 0 /\ fst (gsum b a q) <> dbl_max;
  sm_tol : (0 < rtol * Cmod (gsum b a q) + atol)%R;
  sm_first : (rtol * Cmod (gsum b a q) + atol <= Cmod (a * q * q / (1 - q))%C)%R }.

Definition geo (b a q : C) (i : nat) : C := match i with O => b | _ => Cmult a (cpw q i) end.
Lemma geo_ok : forall b a q, geometric (geo b a q) b a q.
Proof. intros b a q. split; [reflexivity|]. intros [|i] H; [lia|reflexivity]. Qed.
Lemma summable_ext : forall rtol atol maxint c b a q, summable rtol atol maxint c b a q -> forall n, (n < maxint)%nat -> c n = geo b a q n.
Proof. intros rtol atol maxint c b a q [S0 S1 _ _ _ _ _] [|n] H; [exact S0|]. rewrite S1 by lia. reflexivity. Qed.
Lemma summable_value : forall rtol atol zc maxint c b a q, (5 <= maxint)%nat -> summable rtol atol maxint c b a q ->
  qwe_value rtol atol zc maxint c = gsum b a q /\ qwe_stops rtol atol zc maxint c = true.
Proof.
  intros rtol atol zc maxint c b a q Hm S. pose proof (summable_ext _ _ _ _ _ _ _ S) as X. destruct S as [_ _ (S2 & S3 & S4) S5 (S6 & S7) S8 S9].
  rewrite (qwe_value_ext rtol atol zc maxint c (geo b a q)), (qwe_stops_ext rtol atol zc maxint c (geo b a q)) by (lia || exact X). apply geo_value; try assumption. apply geo_ok.
Qed.
Lemma summable_approaches : forall rtol atol maxint c b a q, (5 <= maxint)%nat -> summable rtol atol maxint c b a q ->
  approaches rtol atol maxint c (gsum b a q) 0.
Proof.
  intros rtol atol maxint c b a q Hm S. pose proof (summable_ext _ _ _ _ _ _ _ S) as X. destruct S as [_ _ (S2 & S3 & S4) S5 (S6 & S7) S8 S9].
  pose proof (geo_ok b a q) as G. pose proof (geo_1 _ _ _ _ G) as E1. pose proof (geo_2 _ _ _ _ G S2 S3 S4 S5) as E2. pose proof (geo_3 _ _ _ _ G S2 S3 S4 S5) as E3.
  rewrite <- (extrapolated_ext c) in E1 by (intros; apply X; lia). rewrite <- (extrapolated_ext c) in E2 by (intros; apply X; lia). rewrite <- (extrapolated_ext c) in E3 by (intros; apply X; lia).
  assert (D : 1 - q <> 0) by (intros W; apply S4; replace q with (1 - (1 - q)) by ring; rewrite W; ring).
  assert (R4 : forall i, (4 <= i)%nat -> ~ reached rtol atol c i).
  { intros i Hi RE. apply (RE 3%nat ltac:(lia)). cbn [Nat.sub]. rewrite E3, E2. unfold within. replace (gsum b a q - gsum b a q) with (RtoC 0) by ring. rewrite Cmod_0. exact S8. }
  constructor.
  - rewrite E2, E1. unfold within. replace (gsum b a q - (b + a * q)) with (a * q * q / (1 - q)) by (unfold gsum; field; exact D). lra.
  - intros i Hi RE. assert (i = 2 \/ i = 3)%nat as [->| ->] by (destruct (Nat.le_gt_cases 4 i) as [H|H]; [exfalso; exact (R4 i H RE)|lia]); rewrite ?E2, ?E3; auto.
  - intros i Hi RE. assert (i = 3)%nat as -> by (destruct (Nat.le_gt_cases 4 i) as [H|H]; [exfalso; exact (R4 i H RE)|lia]). cbn [Nat.sub].
    rewrite E3, E2. replace (gsum b a q - gsum b a q) with (RtoC 0) by ring. rewrite Cmod_0. lra.
Qed.

Theorem qwe_geometric : forall rtol atol zc maxint contrib n b a q, (5 <= maxint)%nat ->
  (forall e, (e < n)%nat -> summable rtol atol maxint (contrib e) (b e) (a e) (q e)) ->
  exists kc, qwe rtol atol maxint zc contrib n = Ok (map (fun e => gsum (b e) (a e) (q e)) (seq 0 n), kc, true).
Proof.
  intros rtol atol zc maxint contrib n b a q Hm H. destruct (qwe_each rtol atol zc maxint contrib n ltac:(lia)) as [kc Q]. exists kc. rewrite Q.
  assert (X : forall e, In e (seq 0 n) -> qwe_value rtol atol zc maxint (contrib e) = gsum (b e) (a e) (q e) /\ qwe_stops rtol atol zc maxint (contrib e) = true).
  { intros e He. apply in_seq in He. apply summable_value; [exact Hm|apply H; lia]. }
  f_equal. f_equal; [f_equal; apply map_ext_in; intros e He; apply (X e He)|].
  destruct (Nat.leb_spec 3 maxint); [|lia]. cbn [andb]. apply forallb_forall. intros e He. apply (X e He).
Qed.

(** ** The plain sums *)
Lemma CI_chasles' : forall (F : R -> C) (V : C) x y, improper F V -> (0 <= x)%R -> (0 <= y)%R -> CI F 0 y = CI F 0 x + CI F x y.
Proof.
  intros F V x y [EX _] Hx Hy. destruct (EX x Hx) as [X1 X2], (EX y Hy) as [Y1 Y2]. unfold CI, Cplus. cbn [fst snd].
  apply injective_projections; cbn [fst snd]; symmetry.
  - apply (RInt_Chasles (V := R_CompleteNormedModule) (fun t => fst (F t))); [exact X1|]. apply (ex_RInt_Chasles (V := R_NormedModule) _ _ 0); [apply ex_RInt_swap; exact X1|exact Y1].
  - apply (RInt_Chasles (V := R_CompleteNormedModule) (fun t => snd (F t))); [exact X2|]. apply (ex_RInt_Chasles (V := R_NormedModule) _ _ 0); [apply ex_RInt_swap; exact X2|exact Y2].
Qed.
Lemma tiles : forall F V x, improper F V -> (forall i, (0 <= x i)%R) -> forall n,
  psum (fun i => CI F (x i) (x (S i))) n + CI F (x 0%nat) (x 1%nat) = CI F 0 (x (S n)) - CI F 0 (x 0%nat).
Proof.
  intros F V x I P n. induction n as [|n IH].
  - cbn [psum]. rewrite (CI_chasles' F V (x 0%nat) (x 1%nat) I (P _) (P _)). ring.
  - cbn [psum]. transitivity ((psum (fun i => CI F (x i) (x (S i))) n + CI F (x 0%nat) (x 1%nat)) + CI F (x (S n)) (x (S (S n)))); [ring|].
    rewrite IH, (CI_chasles' F V (x (S n)) (x (S (S n))) I (P _) (P _)). ring.
Qed.
Theorem plain_sums : forall F V x, improper F V -> (forall i, (0 <= x i)%R) -> is_lim_seq x p_infty ->
  forall eps : R, (0 < eps)%R -> exists N, forall n, (N <= n)%nat ->
  (Cmod (psum (fun i => CI F (x i) (x (S i))) n + CI F (x 0%nat) (x 1%nat) - (V - CI F 0 (x 0%nat)))%C < eps)%R.
Proof.
  intros F V x I P LX eps HE. pose proof (proj2 I) as [L1 L2].
  assert (H2 : (0 < eps / 2)%R) by lra.
  pose proof (L1 _ (locally_ball (fst V) (mkposreal _ H2))) as [M1 B1]. pose proof (L2 _ (locally_ball (snd V) (mkposreal _ H2))) as [M2 B2].
  assert (LS : Rbar_locally p_infty (fun t => (Rmax M1 M2 < t)%R)) by (exists (Rmax M1 M2); auto).
  destruct (LX _ LS) as [N HN]. exists N. intros n Hn. rewrite (tiles F V x I P).
  replace (CI F 0 (x (S n)) - CI F 0 (x 0%nat) - (V - CI F 0 (x 0%nat))) with (CI F 0 (x (S n)) - V) by ring.
  pose proof (HN (S n) ltac:(lia)) as Q. pose proof (Rmax_l M1 M2). pose proof (Rmax_r M1 M2).
  assert (C1 : (Rabs (fst (CI F 0 (x (S n))) + - fst V) < eps / 2)%R) by exact (B1 (x (S n)) ltac:(lra)).
  assert (C2 : (Rabs (snd (CI F 0 (x (S n))) + - snd V) < eps / 2)%R) by exact (B2 (x (S n)) ltac:(lra)).
  eapply Rle_lt_trans; [apply Cmod_le_sum|].
  change (Rabs (fst (CI F 0 (x (S n))) + - fst V) + Rabs (snd (CI F 0 (x (S n))) + - snd V) < eps)%R. lra.
Qed.
