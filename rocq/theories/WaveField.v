(** Vector fields built from functions of the distance R and the depth: total
    derivatives, partial derivatives in Cartesian coordinates, and the curl curl of
    fields of the form E_ab = q_ab S + d_ab Q with q_ab a quadratic form in the
    horizontal coordinates and dQ/dR = R S. *)

From Coq Require Import ZArith Reals List Bool Lia Lra Psatz.
From Coquelicot Require Import Coquelicot.
From Verif Require Import PyBase CBase ODE FullspaceMaxwell FullspaceField HalfspaceZero.
Import ListNotations.
Local Open Scope R_scope.
Local Open Scope C_scope.

Lemma cm1 : RtoC (-1) = - RtoC 1. Proof. rewrite <- RtoC_opp; f_equal; lra. Qed.
Lemma t2s : RtoC 2 = RtoC 1 + RtoC 1. Proof. rewrite <- RtoC_plus; f_equal; lra. Qed.
Lemma t3s : RtoC 3 = RtoC 1 + RtoC 1 + RtoC 1. Proof. rewrite <- !RtoC_plus; f_equal; lra. Qed.
Lemma t5s : RtoC 5 = RtoC 1 + RtoC 1 + RtoC 1 + RtoC 1 + RtoC 1. Proof. rewrite <- !RtoC_plus; f_equal; lra. Qed.
Lemma t7s : RtoC 7 = RtoC 5 + RtoC 2. Proof. rewrite <- !RtoC_plus; f_equal; lra. Qed.
Lemma t4s : RtoC 4 = RtoC 2 * RtoC 2. Proof. rewrite <- !RtoC_mult; f_equal; lra. Qed.
Lemma t8s : RtoC 8 = RtoC 4 * RtoC 2. Proof. rewrite <- !RtoC_mult; f_equal; lra. Qed.
Ltac num := rewrite ?t8s, ?t7s, ?t5s, ?t4s, ?t3s, ?t2s, ?cm1.
Ltac eC := match goal with |- ?a = ?b => change (@eq C a b) end.
Ltac feC := num; eC; field.
Ltac eR := match goal with |- ?a = ?b => change (@eq R a b) end.

(** ** total derivatives of functions of (R, z) along curves *)
Definition dtot (F FR Fz : R -> R -> C) : Prop :=
  forall (r z : R -> R) (t r' z' : R), is_derive r t r' -> is_derive z t z' -> (0 < r t)%R -> (- r t < z t < r t)%R ->
    is_deriveC (fun t => F (r t) (z t)) t (RtoC r' * FR (r t) (z t) + RtoC z' * Fz (r t) (z t)).

Lemma dtot_eq : forall F FR Fz GR Gz, dtot F FR Fz -> (forall r z, (0 < r)%R -> (- r < z < r)%R -> FR r z = GR r z /\ Fz r z = Gz r z) -> dtot F GR Gz.
Proof. intros F FR Fz GR Gz H E r z t r' z' Dr Dz P B. destruct (E _ _ P B) as [E1 E2]. rewrite <- E1, <- E2. exact (H r z t r' z' Dr Dz P B). Qed.
Lemma dtot_plus : forall F FR Fz G GR Gz, dtot F FR Fz -> dtot G GR Gz -> dtot (fun r z => F r z + G r z) (fun r z => FR r z + GR r z) (fun r z => Fz r z + Gz r z).
Proof. intros F FR Fz G GR Gz H K r z t r' z' Dr Dz P B. eapply dCe; [apply is_deriveC_plus; [exact (H r z t r' z' Dr Dz P B)|exact (K r z t r' z' Dr Dz P B)]|]. cbv beta; eC; ring. Qed.
Lemma dtot_minus : forall F FR Fz G GR Gz, dtot F FR Fz -> dtot G GR Gz -> dtot (fun r z => F r z - G r z) (fun r z => FR r z - GR r z) (fun r z => Fz r z - Gz r z).
Proof. intros F FR Fz G GR Gz H K r z t r' z' Dr Dz P B. eapply dCe; [apply is_deriveC_minus; [exact (H r z t r' z' Dr Dz P B)|exact (K r z t r' z' Dr Dz P B)]|]. cbv beta; eC; ring. Qed.
Lemma dtot_opp : forall F FR Fz, dtot F FR Fz -> dtot (fun r z => - F r z) (fun r z => - FR r z) (fun r z => - Fz r z).
Proof. intros F FR Fz H r z t r' z' Dr Dz P B. eapply dCe; [apply dC_opp; exact (H r z t r' z' Dr Dz P B)|]. cbv beta; eC; ring. Qed.
Lemma dtot_mult : forall F FR Fz G GR Gz, dtot F FR Fz -> dtot G GR Gz ->
  dtot (fun r z => F r z * G r z) (fun r z => FR r z * G r z + F r z * GR r z) (fun r z => Fz r z * G r z + F r z * Gz r z).
Proof. intros F FR Fz G GR Gz H K r z t r' z' Dr Dz P B. eapply dCe; [apply dC_mult; [exact (H r z t r' z' Dr Dz P B)|exact (K r z t r' z' Dr Dz P B)]|]. cbv beta; eC; ring. Qed.
Lemma dtot_inv : forall F FR Fz, dtot F FR Fz -> (forall r z, (0 < r)%R -> (- r < z < r)%R -> F r z <> RtoC 0) ->
  dtot (fun r z => / F r z) (fun r z => - (/ F r z * / F r z) * FR r z) (fun r z => - (/ F r z * / F r z) * Fz r z).
Proof.
  intros F FR Fz H N r z t r' z' Dr Dz P B. pose proof (N _ _ P B) as N0. eapply dCe; [apply dC_inv; [exact (H r z t r' z' Dr Dz P B)|exact N0]|]. cbv beta. eC. field. exact N0.
Qed.
Lemma dtot_const : forall c, dtot (fun _ _ => c) (fun _ _ => RtoC 0) (fun _ _ => RtoC 0).
Proof. intros c r z t r' z' Dr Dz P B. eapply dCe; [apply is_deriveC_const|]. cbv beta; eC; ring. Qed.
Lemma dtot_r : dtot (fun r _ => RtoC r) (fun _ _ => RtoC 1) (fun _ _ => RtoC 0).
Proof. intros r z t r' z' Dr Dz P B. eapply dCe; [apply dCR, Dr|]. cbv beta; eC; ring. Qed.
Lemma dtot_z : dtot (fun _ z => RtoC z) (fun _ _ => RtoC 0) (fun _ _ => RtoC 1).
Proof. intros r z t r' z' Dr Dz P B. eapply dCe; [apply dCR, Dz|]. cbv beta; eC; ring. Qed.
Lemma dtot_scal : forall c F FR Fz, dtot F FR Fz -> dtot (fun r z => c * F r z) (fun r z => c * FR r z) (fun r z => c * Fz r z).
Proof. intros c F FR Fz H r z t r' z' Dr Dz P B. eapply dCe; [apply is_deriveC_scal; exact (H r z t r' z' Dr Dz P B)|]. cbv beta; eC; ring. Qed.
(** a function of R alone *)
Lemma dtot_f : forall f f' : R -> C, (forall r, (0 < r)%R -> is_deriveC f r (f' r)) -> dtot (fun r _ => f r) (fun r _ => f' r) (fun _ _ => RtoC 0).
Proof.
  intros f f' H r z t r' z' Dr Dz P B. destruct (H _ P) as [H1 H2].
  replace (RtoC r' * f' (r t) + RtoC z' * RtoC 0) with ((r' * fst (f' (r t)))%R, (r' * snd (f' (r t)))%R : R) by (apply injective_projections; unfold Cplus, Cmult, RtoC; cbn [fst snd]; eR; ring).
  split; cbn [fst snd].
  - apply (is_derive_comp (fun u => fst (f u)) r t _ _ H1 Dr).
  - apply (is_derive_comp (fun u => snd (f u)) r t _ _ H2 Dr).
Qed.

Lemma rz_nz : forall r z, (0 < r)%R -> (- r < z < r)%R -> RtoC r <> RtoC 0 /\ RtoC r * RtoC r - RtoC z * RtoC z <> RtoC 0.
Proof.
  intros r z P B. split; [apply HalfspaceDc.RC_neq; lra|]. rewrite <- !RtoC_mult, <- RtoC_minus. apply HalfspaceDc.RC_neq. nra.
Qed.

(** ** partial derivatives *)
Definition pd (i : Z) (F : R -> R -> R -> C) (x y z : R) (l : C) : Prop :=
  if (i =? 1)%Z then is_deriveC (fun t => F t y z) x l else if (i =? 2)%Z then is_deriveC (fun t => F x t z) y l else is_deriveC (fun t => F x y t) z l.

(** E is twice differentiable in the domain and curl curl E = rhs there:
    sum_i (d_i d_a E_i - d_i d_i E_a) = rhs_a *)
Definition curlcurl_is (E rhs : Z -> R -> R -> R -> C) (dom : R -> R -> R -> Prop) : Prop :=
  exists (D1 : Z -> Z -> R -> R -> R -> C) (D2 : Z -> Z -> Z -> R -> R -> R -> C), forall x y z, dom x y z ->
    (forall i a, (1 <= i <= 3)%Z -> (1 <= a <= 3)%Z -> pd i (E a) x y z (D1 i a x y z)) /\
    (forall i j a, (1 <= i <= 3)%Z -> (1 <= j <= 3)%Z -> (1 <= a <= 3)%Z -> pd j (D1 i a) x y z (D2 j i a x y z)) /\
    (forall a, (1 <= a <= 3)%Z ->
       (D2 1%Z a 1%Z x y z - D2 1%Z 1%Z a x y z) + (D2 2%Z a 2%Z x y z - D2 2%Z 2%Z a x y z) + (D2 3%Z a 3%Z x y z - D2 3%Z 3%Z a x y z) = rhs a x y z).

Lemma three : forall i, (1 <= i <= 3)%Z -> i = 1%Z \/ i = 2%Z \/ i = 3%Z. Proof. intros; lia. Qed.

Lemma pd_eq : forall i F x y z a b, pd i F x y z a -> a = b -> pd i F x y z b. Proof. intros; now subst. Qed.
Lemma pd_plus : forall i F G x y z a b, pd i F x y z a -> pd i G x y z b -> pd i (fun x y z => F x y z + G x y z) x y z (a + b).
Proof. intros i F G x y z a b. unfold pd. destruct (i =? 1)%Z; [|destruct (i =? 2)%Z]; intros; now apply is_deriveC_plus. Qed.
Lemma pd_mult : forall i F G x y z a b, pd i F x y z a -> pd i G x y z b -> pd i (fun x y z => F x y z * G x y z) x y z (a * G x y z + F x y z * b).
Proof. intros i F G x y z a b. unfold pd. destruct (i =? 1)%Z; [|destruct (i =? 2)%Z]; intros H K.
  - exact (dC_mult (fun t => F t y z) (fun t => G t y z) x a b H K).
  - exact (dC_mult (fun t => F x t z) (fun t => G x t z) y a b H K).
  - exact (dC_mult (fun t => F x y t) (fun t => G x y t) z a b H K).
 Qed.
Lemma pd_scal : forall i c F x y z a, pd i F x y z a -> pd i (fun x y z => c * F x y z) x y z (c * a).
Proof. intros i c F x y z a. unfold pd. destruct (i =? 1)%Z; [|destruct (i =? 2)%Z]; intros; now apply is_deriveC_scal. Qed.
Lemma pd_const : forall i c x y z, pd i (fun _ _ _ => c) x y z (RtoC 0).
Proof. intros i c x y z. unfold pd. destruct (i =? 1)%Z; [|destruct (i =? 2)%Z]; apply is_deriveC_const. Qed.

(** linearity *)
Lemma curlcurl_plus : forall E F r s dom, curlcurl_is E r dom -> curlcurl_is F s dom -> curlcurl_is (fun a x y z => E a x y z + F a x y z) (fun a x y z => r a x y z + s a x y z) dom.
Proof.
  intros E F r s dom (D1 & D2 & H) (G1 & G2 & K). exists (fun i a x y z => D1 i a x y z + G1 i a x y z), (fun j i a x y z => D2 j i a x y z + G2 j i a x y z).
  intros x y z D. destruct (H x y z D) as (H1 & H2 & H3). destruct (K x y z D) as (K1 & K2 & K3). split; [|split].
  - intros i a Hi Ha. apply pd_plus; auto.
  - intros i j a Hi Hj Ha. apply (pd_plus j (D1 i a) (G1 i a)); auto.
  - intros a Ha. rewrite <- H3, <- K3 by exact Ha. ring.
Qed.
Lemma curlcurl_scal : forall c E r dom, curlcurl_is E r dom -> curlcurl_is (fun a x y z => c * E a x y z) (fun a x y z => c * r a x y z) dom.
Proof.
  intros c E r dom (D1 & D2 & H). exists (fun i a x y z => c * D1 i a x y z), (fun j i a x y z => c * D2 j i a x y z).
  intros x y z D. destruct (H x y z D) as (H1 & H2 & H3). split; [|split].
  - intros i a Hi Ha. apply pd_scal; auto.
  - intros i j a Hi Hj Ha. apply (pd_scal j c (D1 i a)); auto.
  - intros a Ha. rewrite <- H3 by exact Ha. ring.
Qed.
(** domains open along the axes *)
Definition axis_open (dom : R -> R -> R -> Prop) : Prop := forall x y z, dom x y z ->
  locally x (fun t => dom t y z) /\ locally y (fun t => dom x t z) /\ locally z (fun t => dom x y t).
Lemma curlcurl_ext : forall E F r s dom, axis_open dom -> (forall a x y z, (1 <= a <= 3)%Z -> dom x y z -> E a x y z = F a x y z /\ r a x y z = s a x y z) ->
  curlcurl_is E r dom -> curlcurl_is F s dom.
Proof.
  intros E F r s dom O X (D1 & D2 & H). exists D1, D2. intros x y z D. destruct (H x y z D) as (H1 & H2 & H3). destruct (O x y z D) as (O1 & O2 & O3). split; [|split].
  - intros i a Hi Ha. specialize (H1 i a Hi Ha). revert H1. unfold pd. destruct (i =? 1)%Z; [|destruct (i =? 2)%Z]; intros H1; refine (is_deriveC_ext_loc _ _ _ _ _ H1).
    + apply filter_imp with (2 := O1). intros t Dt. now apply X.
    + apply filter_imp with (2 := O2). intros t Dt. now apply X.
    + apply filter_imp with (2 := O3). intros t Dt. now apply X.
  - exact H2.
  - intros a Ha. rewrite H3 by exact Ha. now apply X.
Qed.
Lemma curlcurl_sub : forall E r (dom dom' : R -> R -> R -> Prop), (forall x y z, dom' x y z -> dom x y z) -> curlcurl_is E r dom -> curlcurl_is E r dom'.
Proof. intros E r dom dom' I (D1 & D2 & H). exists D1, D2. intros x y z D. apply H, I, D. Qed.

(** ** distances with a stretched vertical coordinate *)
Definition dist (lam x y z : R) : R := sqrt (x * x + y * y + (lam * z) * (lam * z)).
Definition off_z (x y z : R) : Prop := (0 < x * x + y * y)%R.

Lemma off_open : axis_open off_z.
Proof.
  intros x y z H. unfold off_z in *. split; [|split].
  - now apply FullspaceField.rho_loc_x.
  - now apply FullspaceField.rho_loc_y.
  - now apply filter_forall.
Qed.

Lemma dist_facts : forall lam x y z, off_z x y z -> (0 < dist lam x y z)%R /\ (- dist lam x y z < lam * z < dist lam x y z)%R /\ (dist lam x y z * dist lam x y z = x * x + y * y + (lam * z) * (lam * z))%R.
Proof.
  intros lam x y z H. unfold off_z in H. set (w := (lam * z)%R). assert (P : (0 < x * x + y * y + w * w)%R) by nra. assert (E : (dist lam x y z * dist lam x y z = x * x + y * y + w * w)%R) by (apply sqrt_sqrt; fold w; lra).
  assert (Q : (0 < dist lam x y z)%R) by (unfold dist; fold w; now apply sqrt_lt_R0). split; [exact Q|]. split; [|exact E]. split; nra.
Qed.
Lemma d_dist : forall lam x y z, off_z x y z -> is_derive (fun t => dist lam t y z) x (x / dist lam x y z)%R /\ is_derive (fun t => dist lam x t z) y (y / dist lam x y z)%R /\ is_derive (fun t => dist lam x y t) z (lam * lam * z / dist lam x y z)%R.
Proof.
  intros lam x y z H. assert (P : (0 < x * x + y * y + (lam * z) * (lam * z))%R) by (unfold off_z in H; nra). assert (Q : (0 < sqrt (x * x + y * y + (lam * z) * (lam * z)))%R) by now apply sqrt_lt_R0. unfold dist.
  split; [|split]; (auto_derive; [lra|]); eR; field; lra.
Qed.

(** F(R, lam z) as a function of position *)
Definition at_p (lam : R) (F : R -> R -> C) (x y z : R) : C := F (dist lam x y z) (lam * z)%R.
Definition xs (lam : R) (i : Z) (x y z : R) : R := if (i =? 1)%Z then x else if (i =? 2)%Z then y else (lam * lam * z)%R.
Definition i3 (lam : R) (i : Z) : R := if (i =? 3)%Z then lam else 0%R.

Lemma pd_at : forall lam F FR Fz i x y z, dtot F FR Fz -> off_z x y z -> (1 <= i <= 3)%Z ->
  pd i (at_p lam F) x y z (RtoC (xs lam i x y z) * / RtoC (dist lam x y z) * at_p lam FR x y z + RtoC (i3 lam i) * at_p lam Fz x y z).
Proof.
  intros lam F FR Fz i x y z H Ho Hi. destruct (dist_facts lam x y z Ho) as (P & B & E). destruct (d_dist lam x y z Ho) as (D1 & D2 & D3).
  assert (RI : forall u, RtoC (u / dist lam x y z) = RtoC u * Cinv (RtoC (dist lam x y z))) by (intros u; unfold Rdiv; rewrite RtoC_mult, RtoC_inv by lra; reflexivity).
  destruct (three i Hi) as [-> | [-> | ->]]; unfold pd, xs, i3, at_p; cbn [Z.eqb Pos.eqb].
  - eapply dCe; [apply (H (fun t => dist lam t y z) (fun _ => (lam * z)%R) x _ 0%R D1 (is_derive_const _ x) P B)|]. cbv beta. rewrite RI. reflexivity.
  - eapply dCe; [apply (H (fun t => dist lam x t z) (fun _ => (lam * z)%R) y _ 0%R D2 (is_derive_const _ y) P B)|]. cbv beta. rewrite RI. reflexivity.
  - assert (D4 : is_derive (fun t => (lam * t)%R) z lam) by (auto_derive; [exact I|]; eR; ring).
    eapply dCe; [apply (H (fun t => dist lam x y t) (fun t => (lam * t)%R) z _ lam D3 D4 P B)|]. cbv beta. rewrite RI. reflexivity.
Qed.

(** real polynomials in the coordinates *)
Definition pdR (i : Z) (F : R -> R -> R -> R) (x y z l : R) : Prop :=
  if (i =? 1)%Z then is_derive (fun t => F t y z) x l else if (i =? 2)%Z then is_derive (fun t => F x t z) y l else is_derive (fun t => F x y t) z l.
Lemma pd_R : forall i F x y z l, pdR i F x y z l -> pd i (fun x y z => RtoC (F x y z)) x y z (RtoC l).
Proof. intros i F x y z l. unfold pd, pdR. destruct (i =? 1)%Z; [|destruct (i =? 2)%Z]; intros H; now apply dCR. Qed.

Definition ij (i j : Z) : R := if (i =? j)%Z then 1%R else 0%R.
Definition mm (lam : R) (i : Z) : R := if (i =? 3)%Z then (lam * lam)%R else 1%R.
Ltac pdR_tac := unfold pdR; cbn [Z.eqb Pos.eqb]; auto_derive; [exact I|]; eR; ring.
Lemma xs_d : forall lam i j x y z, (1 <= i <= 3)%Z -> (1 <= j <= 3)%Z -> pdR j (xs lam i) x y z (ij i j * mm lam i)%R.
Proof.
  intros lam i j x y z Hi Hj. unfold xs, mm, ij. destruct (three i Hi) as [-> | [-> | ->]]; destruct (three j Hj) as [-> | [-> | ->]]; cbn [Z.eqb Pos.eqb]; pdR_tac.
Qed.

(** ** the quadratic form and its derivatives *)
Definition qp (al be ga x y : R) : R := (al * (x * x) + be * (x * y) + ga * (y * y))%R.
Definition qi (al be ga : R) (i : Z) (x y : R) : R := if (i =? 1)%Z then (2 * al * x + be * y)%R else if (i =? 2)%Z then (be * x + 2 * ga * y)%R else 0%R.
Definition qij (al be ga : R) (i j : Z) : R := if ((i =? 3) || (j =? 3))%Z then 0%R else if (i =? j)%Z then (if (i =? 1)%Z then 2 * al else 2 * ga)%R else be.
Lemma qp_d : forall al be ga i x y z, (1 <= i <= 3)%Z -> pdR i (fun x y _ => qp al be ga x y) x y z (qi al be ga i x y).
Proof. intros al be ga i x y z Hi. unfold qi, qp. destruct (three i Hi) as [-> | [-> | ->]]; cbn [Z.eqb Pos.eqb]; pdR_tac. Qed.
Lemma qi_d : forall al be ga i j x y z, (1 <= i <= 3)%Z -> (1 <= j <= 3)%Z -> pdR j (fun x y _ => qi al be ga i x y) x y z (qij al be ga i j).
Proof. intros al be ga i j x y z Hi Hj. unfold qi, qij. destruct (three i Hi) as [-> | [-> | ->]]; destruct (three j Hj) as [-> | [-> | ->]]; cbn [Z.eqb Pos.eqb orb]; pdR_tac. Qed.

Section Field.
Variables (lam : R) (S Q Z T W TR Tz WR Wz ZR Zz : R -> R -> C).
Hypothesis HQ : dtot Q (fun r z => RtoC r * S r z) Z.
Hypothesis HS : dtot S (fun r z => RtoC r * T r z) W.
Hypothesis HT : dtot T TR Tz.
Hypothesis HW : dtot W WR Wz.
Hypothesis HZ : dtot Z ZR Zz.

Let p (F : R -> R -> C) := at_p lam F.
Let X (i : BinNums.Z) (x y z : R) : C := RtoC (xs lam i x y z).
Let L (i : BinNums.Z) : C := RtoC (i3 lam i).
Let ri (x y z : R) : C := / RtoC (dist lam x y z).

Definition qf (al be ga de : R) (x y z : R) : C := RtoC (qp al be ga x y) * p S x y z + RtoC de * p Q x y z.
Definition qf1 (al be ga de : R) (i : BinNums.Z) (x y z : R) : C :=
  RtoC (qi al be ga i x y) * p S x y z + RtoC (qp al be ga x y) * (X i x y z * p T x y z + L i * p W x y z)
  + RtoC de * (X i x y z * p S x y z + L i * p Z x y z).
Definition qf2 (al be ga de : R) (j i : BinNums.Z) (x y z : R) : C :=
  RtoC (qij al be ga i j) * p S x y z + RtoC (qi al be ga i x y) * (X j x y z * p T x y z + L j * p W x y z)
  + RtoC (qi al be ga j x y) * (X i x y z * p T x y z + L i * p W x y z)
  + RtoC (qp al be ga x y) * (RtoC (ij i j * mm lam i) * p T x y z + X i x y z * (X j x y z * ri x y z * p TR x y z + L j * p Tz x y z) + L i * (X j x y z * ri x y z * p WR x y z + L j * p Wz x y z))
  + RtoC de * (RtoC (ij i j * mm lam i) * p S x y z + X i x y z * (X j x y z * p T x y z + L j * p W x y z) + L i * (X j x y z * ri x y z * p ZR x y z + L j * p Zz x y z)).

Lemma pS : forall i x y z, off_z x y z -> (1 <= i <= 3)%Z -> pd i (p S) x y z (X i x y z * p T x y z + L i * p W x y z).
Proof using HS.
  intros i x y z Ho Hi. destruct (dist_facts lam x y z Ho) as (P & _). eapply pd_eq; [exact (pd_at lam S _ _ i x y z HS Ho Hi)|]. unfold p, at_p, X, L. cbv beta. eC. field. apply HalfspaceDc.RC_neq; lra.
Qed.
Lemma pQ : forall i x y z, off_z x y z -> (1 <= i <= 3)%Z -> pd i (p Q) x y z (X i x y z * p S x y z + L i * p Z x y z).
Proof using HQ.
  intros i x y z Ho Hi. destruct (dist_facts lam x y z Ho) as (P & _). eapply pd_eq; [exact (pd_at lam Q _ _ i x y z HQ Ho Hi)|]. unfold p, at_p, X, L. cbv beta. eC. field. apply HalfspaceDc.RC_neq; lra.
Qed.

Lemma qf_d1 : forall al be ga de i x y z, off_z x y z -> (1 <= i <= 3)%Z -> pd i (qf al be ga de) x y z (qf1 al be ga de i x y z).
Proof using HQ HS.
  intros al be ga de i x y z Ho Hi. unfold qf. eapply pd_eq; [apply (pd_plus i (fun x y z => RtoC (qp al be ga x y) * p S x y z) (fun x y z => RtoC de * p Q x y z))|].
  - apply (pd_mult i (fun x y z => RtoC (qp al be ga x y))); [apply (pd_R i (fun x y _ => qp al be ga x y)), qp_d, Hi|now apply pS].
  - apply pd_scal. now apply pQ.
  - unfold qf1. eC. ring.
Qed.
Lemma qf_d2 : forall al be ga de i j x y z, off_z x y z -> (1 <= i <= 3)%Z -> (1 <= j <= 3)%Z -> pd j (qf1 al be ga de i) x y z (qf2 al be ga de j i x y z).
Proof using HQ HS HT HW HZ.
  intros al be ga de i j x y z Ho Hi Hj. pose proof (pS j x y z Ho Hj) as DS.
  pose proof (pd_R j _ x y z _ (xs_d lam i j x y z Hi Hj)) as DX. fold X in DX.
  unfold qf1. eapply pd_eq; [apply (pd_plus j (fun x y z => RtoC (qi al be ga i x y) * p S x y z + RtoC (qp al be ga x y) * (X i x y z * p T x y z + L i * p W x y z)) (fun x y z => RtoC de * (X i x y z * p S x y z + L i * p Z x y z)));
    [apply (pd_plus j (fun x y z => RtoC (qi al be ga i x y) * p S x y z) (fun x y z => RtoC (qp al be ga x y) * (X i x y z * p T x y z + L i * p W x y z)))|]|].
  - apply (pd_mult j (fun x y z => RtoC (qi al be ga i x y))); [apply (pd_R j (fun x y _ => qi al be ga i x y)), (qi_d al be ga i j x y z Hi Hj)|exact DS].
  - apply (pd_mult j (fun x y z => RtoC (qp al be ga x y)) (fun x y z => X i x y z * p T x y z + L i * p W x y z)); [apply (pd_R j (fun x y _ => qp al be ga x y)), qp_d, Hj|].
    apply (pd_plus j (fun x y z => X i x y z * p T x y z) (fun x y z => L i * p W x y z)).
    + apply (pd_mult j (X i)); [exact DX|]. exact (pd_at lam T _ _ j x y z HT Ho Hj).
    + apply pd_scal. exact (pd_at lam W _ _ j x y z HW Ho Hj).
  - apply (pd_scal j (RtoC de) (fun x y z => X i x y z * p S x y z + L i * p Z x y z)).
    apply (pd_plus j (fun x y z => X i x y z * p S x y z) (fun x y z => L i * p Z x y z)).
    + apply (pd_mult j (X i)); [exact DX|]. exact DS.
    + apply pd_scal. exact (pd_at lam Z _ _ j x y z HZ Ho Hj).
  - unfold qf2, X, L, p, ri. eC. ring.
Qed.
End Field.
