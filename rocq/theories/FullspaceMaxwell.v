(** The full-space solution solves Maxwell's equations in a VTI medium. *)

From Coq Require Import ZArith Reals List Bool Lia Lra Psatz QArith.
From Coquelicot Require Import Coquelicot.
From Verif Require Import PyBase CBase ODE UtilsAb Fullspace FullspaceThm.
Import ListNotations.
Local Open Scope R_scope.
Local Open Scope C_scope.
Local Open Scope res_scope.

(** ** Calculus *)
Lemma dC_mult : forall f h x a b, is_deriveC f x a -> is_deriveC h x b ->
  is_deriveC (fun t => Cmult (f t) (h t)) x (Cplus (Cmult a (h x)) (Cmult (f x) b)).
Proof.
  intros f h x [a1 a2] [b1 b2] [H1 H2] [H3 H4]. cbn [fst snd] in *. split; simpl.
  - evar_last.
    + apply (is_derive_minus (fun t => fst (f t) * fst (h t))%R (fun t => snd (f t) * snd (h t))%R).
      * apply (is_derive_mult (fun t => fst (f t)) (fun t => fst (h t)) x _ _ H1 H3 Rmult_comm).
      * apply (is_derive_mult (fun t => snd (f t)) (fun t => snd (h t)) x _ _ H2 H4 Rmult_comm).
    + unfold minus, plus, opp, mult; simpl. ring.
  - evar_last.
    + apply (is_derive_plus (fun t => fst (f t) * snd (h t))%R (fun t => snd (f t) * fst (h t))%R).
      * apply (is_derive_mult (fun t => fst (f t)) (fun t => snd (h t)) x _ _ H1 H4 Rmult_comm).
      * apply (is_derive_mult (fun t => snd (f t)) (fun t => fst (h t)) x _ _ H2 H3 Rmult_comm).
    + unfold minus, plus, opp, mult; simpl. ring.
Qed.

Lemma dC_opp : forall f x a, is_deriveC f x a -> is_deriveC (fun t => Copp (f t)) x (Copp a).
Proof.
  intros f x a [H1 H2]. split; simpl.
  - apply (is_derive_opp (fun t => fst (f t))); exact H1.
  - apply (is_derive_opp (fun t => snd (f t))); exact H2.
Qed.

Lemma Cmod2_pos : forall z, z <> RtoC 0 -> 0 < fst z ^ 2 + snd z ^ 2.
Proof.
  intros [a b] H. cbn [fst snd]. destruct (Req_dec a 0) as [-> | N]; [|nra].
  destruct (Req_dec b 0) as [-> | N]; [exfalso; apply H; reflexivity|nra].
Qed.

Lemma dC_inv : forall f x a, is_deriveC f x a -> f x <> RtoC 0 ->
  is_deriveC (fun t => Cinv (f t)) x (Copp (Cmult a (Cmult (Cinv (f x)) (Cinv (f x))))).
Proof.
  intros f x [a1 a2] [H1 H2] N. apply Cmod2_pos in N. cbn [fst snd] in *.
  set (u := fun t => fst (f t)) in *. set (v := fun t => snd (f t)) in *.
  change (fst (f x)) with (u x) in N. change (snd (f x)) with (v x) in N.
  assert (E1 : ex_derive u x) by (exists a1; exact H1). assert (E2 : ex_derive v x) by (exists a2; exact H2).
  assert (G1 : Derive u x = a1) by (apply is_derive_unique; exact H1). assert (G2 : Derive v x = a2) by (apply is_derive_unique; exact H2).
  assert (N' : (u x * (u x * 1) + v x * (v x * 1))%R <> 0%R) by (simpl in N; lra).
  split; simpl.
  - apply (is_derive_ext (fun t => u t / (u t * (u t * 1) + v t * (v t * 1)))%R); [reflexivity|].
    auto_derive; [repeat split; auto|]. change (Derive (fun x0 => u x0) x) with (Derive u x). change (Derive (fun x0 => v x0) x) with (Derive v x).
    rewrite G1, G2. change (fst (f x)) with (u x). change (snd (f x)) with (v x). field. simpl in N'. lra.
  - apply (is_derive_ext (fun t => - v t / (u t * (u t * 1) + v t * (v t * 1)))%R); [reflexivity|].
    auto_derive; [repeat split; auto|]. change (Derive (fun x0 => u x0) x) with (Derive u x). change (Derive (fun x0 => v x0) x) with (Derive v x).
    rewrite G1, G2. change (fst (f x)) with (u x). change (snd (f x)) with (v x). field. simpl in N'. lra.
Qed.

Lemma dC_exp : forall f x a, is_deriveC f x a -> is_deriveC (fun t => Cexp (f t)) x (Cmult a (Cexp (f x))).
Proof.
  intros f x [a1 a2] [H1 H2]. cbn [fst snd] in *.
  set (u := fun t => fst (f t)) in *. set (v := fun t => snd (f t)) in *.
  assert (E1 : ex_derive u x) by (exists a1; exact H1). assert (E2 : ex_derive v x) by (exists a2; exact H2).
  assert (G1 : Derive u x = a1) by (apply is_derive_unique; exact H1). assert (G2 : Derive v x = a2) by (apply is_derive_unique; exact H2).
  split; simpl.
  - apply (is_derive_ext (fun t => exp (u t) * cos (v t))%R); [reflexivity|].
    auto_derive; [repeat split; auto|]. change (Derive (fun x0 => u x0) x) with (Derive u x). change (Derive (fun x0 => v x0) x) with (Derive v x).
    rewrite G1, G2. change (fst (f x)) with (u x). change (snd (f x)) with (v x). ring.
  - apply (is_derive_ext (fun t => exp (u t) * sin (v t))%R); [reflexivity|].
    auto_derive; [repeat split; auto|]. change (Derive (fun x0 => u x0) x) with (Derive u x). change (Derive (fun x0 => v x0) x) with (Derive v x).
    rewrite G1, G2. change (fst (f x)) with (u x). change (snd (f x)) with (v x). ring.
Qed.

(** square root in the right half plane *)
Lemma Csqrt_right : forall a b, 0 < a -> Csqrt (a, b) =
  (let u := sqrt ((sqrt (a * a + b * b) + a) / 2) in (u, b / (2 * u)))%R.
Proof.
  intros a b Ha. unfold Csqrt, Cmod. cbn [fst snd]. replace (a ^ 2 + b ^ 2)%R with (a * a + b * b)%R by ring.
  set (m := sqrt (a * a + b * b)). assert (M : (m * m = a * a + b * b)%R) by (apply sqrt_sqrt; nra).
  assert (Mp : 0 <= m) by apply sqrt_pos. assert (MA : a <= m) by nra.
  set (u := sqrt ((m + a) / 2)). assert (U : (u * u = (m + a) / 2)%R) by (apply sqrt_sqrt; lra).
  assert (Up : 0 < u) by (apply sqrt_lt_R0; lra).
  apply injective_projections; cbn [fst snd]; [reflexivity|].
  set (w := sqrt ((m - a) / 2)). assert (W : (w * w = (m - a) / 2)%R) by (apply sqrt_sqrt; lra). assert (Wp : 0 <= w) by apply sqrt_pos.
  assert (B : ((2 * u * w) * (2 * u * w) = b * b)%R) by (replace ((2 * u * w) * (2 * u * w))%R with (4 * (u * u) * (w * w))%R by ring; rewrite U, W; nra).
  assert (P : 0 <= 2 * u * w) by (apply Rmult_le_pos; lra).
  apply (Rmult_eq_reg_r (2 * u)%R); [|lra]. replace (b / (2 * u) * (2 * u))%R with b by (field; lra).
  destruct (Rlt_dec b 0).
  - nra.
  - nra.
Qed.

Lemma dC_sqrt : forall f x a, is_deriveC f x a -> 0 < fst (f x) ->
  is_deriveC (fun t => Csqrt (f t)) x (Cdiv a (Cmult (RtoC 2) (Csqrt (f x)))).
Proof.
  intros f x [a1 a2] [H1 H2] HP. cbn [fst snd] in *.
  set (u := fun t => fst (f t)) in *. set (v := fun t => snd (f t)) in *. change (fst (f x)) with (u x) in HP.
  assert (E1 : ex_derive u x) by (exists a1; exact H1). assert (E2 : ex_derive v x) by (exists a2; exact H2).
  assert (LP : locally x (fun t => 0 < u t)).
  { assert (CU : continuous u x) by (apply (ex_derive_continuous u x); exact E1).
    apply (CU (fun y => 0 < y)). apply (open_gt 0). exact HP. }
  assert (G1 : Derive u x = a1) by (apply is_derive_unique; exact H1). assert (G2 : Derive v x = a2) by (apply is_derive_unique; exact H2).
  set (F := fun t => (let w := sqrt ((sqrt (u t * u t + v t * v t) + u t) / 2) in (w, v t / (2 * w)))%R).
  apply (is_deriveC_ext_loc F).
  { eapply filter_imp; [|exact LP]. intros t Ht. transitivity (Csqrt (u t, v t)); [symmetry; apply (Csqrt_right (u t) (v t) Ht)|]. unfold u, v. now destruct (f t). }
  assert (Q : Csqrt (f x) = F x).
  { transitivity (Csqrt (u x, v x)); [unfold u, v; now destruct (f x)|apply (Csqrt_right (u x) (v x) HP)]. }
  rewrite Q. unfold F. cbv zeta.
  set (m := sqrt (u x * u x + v x * v x)). assert (M : (m * m = u x * u x + v x * v x)%R) by (apply sqrt_sqrt; nra).
  assert (Mp : 0 < m) by (apply sqrt_lt_R0; nra).
  set (w := sqrt ((m + u x) / 2)). assert (U : (w * w = (m + u x) / 2)%R) by (apply sqrt_sqrt; lra).
  assert (Up : 0 < w) by (apply sqrt_lt_R0; lra).
  assert (PP : 0 < u x * u x + v x * v x) by nra.
  assert (VV : (v x * v x = m * m - u x * u x)%R) by lra.
  assert (UX : u x = (2 * (w * w) - m)%R) by lra.
  assert (D1 : (4 * (w * w) + v x / w * (v x / w) = 4 * m)%R).
  { replace (v x / w * (v x / w))%R with (v x * v x / (w * w))%R by (field; lra). rewrite VV, UX. field. lra. }
  assert (D2 : ((2 * w - 0 * (v x / (2 * w))) ^ 2 + (2 * (v x / (2 * w)) + 0 * w) ^ 2 = 4 * m)%R) by (rewrite <- D1; field; lra).
  split; cbn [fst snd].
  - auto_derive.
    { fold m. repeat split; auto; lra. }
    fold m. change (Derive (fun x0 => u x0) x) with (Derive u x). change (Derive (fun x0 => v x0) x) with (Derive v x). rewrite G1, G2.
    replace (sqrt ((m + u x) * / 2)) with w by reflexivity.
    unfold Cdiv, Cinv, Cmult, RtoC. cbn [fst snd].
    transitivity ((a1 * (2 * w) + a2 * (v x / w)) / (4 * m))%R.
    + rewrite UX. field_simplify_eq; [|repeat split; lra].
      ring.
    + rewrite D2. field. split; lra.
  - auto_derive.
    { fold m. replace (sqrt ((m + u x) * / 2)) with w by reflexivity. repeat split; auto; lra. }
    fold m. change (Derive (fun x0 => u x0) x) with (Derive u x). change (Derive (fun x0 => v x0) x) with (Derive v x). rewrite G1, G2.
    replace (sqrt ((m + u x) * / 2)) with w by reflexivity.
    unfold Cdiv, Cinv, Cmult, RtoC. cbn [fst snd].
    transitivity ((a2 * (2 * w) - a1 * (v x / w)) / (4 * m))%R.
    + field_simplify_eq; [|repeat split; lra]. replace (v x ^ 2)%R with (m * m - u x * u x)%R by (rewrite <- VV; ring). rewrite UX. ring.
    + rewrite D2. field. split; lra.
Qed.
