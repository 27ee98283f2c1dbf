(** C53 and C62: the pairs offered for the filter design. *)

From Coq Require Import Reals List Bool Lia Lra.
From Coquelicot Require Import Coquelicot.
From Verif Require Import PyBase CBase Bessel Cint Sommer Fdesign FdesignThm.
Import ListNotations.
Local Open Scope R_scope.

(** ** C53: sine and cosine pairs *)

(** The improper integral over x > 0 of the left-hand side at x times sin(b x) or
    cos(b x) is the right-hand side at b, for the six pairs as offered by default. *)
Theorem C53_pairs : forall a b p, 0 < a -> 0 < b ->
  In p [sin_1 a false; sin_2 a false; sin_3 a false; cos_1 a false; cos_2 a false; cos_3 a false] -> is_pair 1 p b.
Proof. exact sincos_pairs. Qed.
Print Assumptions C53_pairs.
Example C53_pairs_ex : is_pair 1 (sin_2 2 false) 3.
Proof. apply (C53_pairs 2 3); [lra|lra|cbn; tauto]. Qed.

(** With inverse=True the two sides are exchanged, and the integral is pi/2 times the
    right-hand side. *)
Theorem C53_inverse : forall a b p, 0 < a -> 0 < b ->
  In p [sin_1 a true; sin_2 a true; sin_3 a true; cos_1 a true; cos_2 a true; cos_3 a true] -> is_pair (PI / 2) p b.
Proof. exact inverse_pairs. Qed.
Print Assumptions C53_inverse.
Example C53_inverse_ex : is_pair (PI / 2) (cos_3 2 true) 3.
Proof. apply (C53_inverse 2 3); [lra|lra|cbn; tauto]. Qed.

(** So the claim is false for every pair with inverse=True. *)
Theorem C53_inverse_refuted : forall a b p, 0 < a -> 0 < b ->
  In p [sin_1 a true; sin_2 a true; sin_3 a true; cos_1 a true; cos_2 a true; cos_3 a true] -> ~ is_pair 1 p b.
Proof. exact inverse_wrong_all. Qed.
Print Assumptions C53_inverse_refuted.
Example C53_inverse_refuted_ex : ~ is_pair 1 (sin_1 1 true) 1.
Proof. apply (C53_inverse_refuted 1 1); [lra|lra|cbn; tauto]. Qed.

(** The names under which the pairs are offered are those of the kernels. *)
Theorem C53_names : forall a i, map gh_name [j0_1 a; j0_2 a; j0_3 a; j1_1 a; j1_2 a; j1_3 a; sin_1 a i; sin_2 a i; sin_3 a i; cos_1 a i; cos_2 a i; cos_3 a i] =
  [GJ0; GJ0; GJ0; GJ1; GJ1; GJ1; GSin; GSin; GSin; GCos; GCos; GCos].
Proof. exact pair_kernels. Qed.
Print Assumptions C53_names.

(** ** C62: Hankel pairs *)
Theorem C62_real : forall a b p, 0 < a -> 0 < b -> In p [j0_1 a; j0_2 a; j0_3 a; j1_1 a; j1_2 a; j1_3 a] -> is_pair 1 p b.
Proof. exact hankel_real. Qed.
Print Assumptions C62_real.
Example C62_real_ex : is_pair 1 (j1_2 2) 3.
Proof. apply (C62_real 2 3); [lra|lra|cbn; tauto]. Qed.

(** The four pairs of the diffusive full space, for any offset b. *)
Theorem C62_diffusive : forall mu0 f rho z b m, 0 < mu0 -> 0 < f -> 0 < rho -> z <> 0 ->
  In m [j0_4 mu0 f rho z; j0_5 mu0 f rho z; j1_4 mu0 f rho z; j1_5 mu0 f rho z] -> exists p, m = Ok p /\ is_pair 1 p b.
Proof. exact hankel_gam. Qed.
Print Assumptions C62_diffusive.
Example C62_diffusive_ex : exists p, j1_5 1 1 1 (-2) = Ok p /\ is_pair 1 p 3.
Proof. apply (C62_diffusive 1 1 1 (-2) 3); [lra|lra|lra|lra|cbn; tauto]. Qed.

Theorem C62_names : forall mu0 f rho z p, (j0_4 mu0 f rho z = Ok p \/ j0_5 mu0 f rho z = Ok p -> gh_name p = GJ0) /\ (j1_4 mu0 f rho z = Ok p \/ j1_5 mu0 f rho z = Ok p -> gh_name p = GJ1).
Proof. exact pair_kernels4. Qed.
Print Assumptions C62_names.
