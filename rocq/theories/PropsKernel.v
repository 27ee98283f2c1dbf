(** Properties C01-C11 and C13: kernel.reflections, fields, greenfct and
    wavenumber.  Each theorem is followed by a concrete case of its hypotheses. *)

From Coq Require Import Reals ZArith List Bool Lia Lra Psatz QArith.
From Coquelicot Require Import Coquelicot.
From Verif Require Import PyBase CBase Kernel KernelSpec KernelRefl KernelClosed KernelPhys
  KernelPassive KernelSym KernelSplit ODE KernelBVP KernelMain KernelThm KernelThm2 KernelThm3 KernelThm4
  Bessel KernelBessel UtilsAb KernelFinal.
Import ListNotations.
Local Open Scope R_scope.
Local Open Scope C_scope.
Local Open Scope res_scope.

(** A three-layer model (N = 2: layers 0, 1, 2; interfaces at 0 and 100 m) with
    anisotropic, complex eta and zeta. *)
Definition x_eH (k : nat) : C := match k with O => (1, 1/10) | S O => (1/10, 1/20) | _ => (2, 1/5) end%R.
Definition x_eV (k : nat) : C := match k with O => (1, 1/10) | S O => (1/40, 1/20) | _ => (3, 1/5) end%R.
Definition x_zH (k : nat) : C := match k with O => (0, 1) | S O => (0, 2) | _ => (0, 3) end%R.
Definition x_zV (k : nat) : C := match k with O => (0, 1) | S O => (0, 1) | _ => (0, 2) end%R.
Definition x_z (k : nat) : R := match k with O => (-1000)%R | S O => 0%R | _ => (100 * INR (k - 1))%R end.

Lemma x_passive : passive_medium x_eH x_eV x_zH x_zV x_z 2.
Proof.
  constructor; intros k Hk; try (assert (E : k = 0%nat \/ k = 1%nat \/ k = 2%nat) by lia;
    destruct E as [E|[E|E]]; subst k; simpl; try lra; try (intro E; injection E; lra)).
Qed.
Lemma x_incr : increasing x_z 2.
Proof. intros k Hk. assert (k = 1%nat) by lia. subst. simpl. lra. Qed.
Lemma x_in0 : in_layer x_z 2 0 (-10). Proof. split; [lia|]. split; [left; reflexivity|right; simpl; lra]. Qed.
Lemma x_in1 : in_layer x_z 2 1 30.
Proof. split; [lia|]. split; [right; simpl; lra|right; simpl; lra]. Qed.

(** ** C01 *)
(** For every stack without vanishing denominators, kernel.reflections returns
    coefficients that are reflection coefficients in the sense of [refl_below]
    and [refl_above]: whatever waves a, b satisfy the interface conditions at
    all interfaces below (above) and are outgoing in the last (first) layer,
    the reflected part is R times the incoming part at the interface, and such
    waves exist. *)
Theorem C01_reflections : forall e g z N s r,
  regular e g z N -> (forall k, (k <= N)%nat -> e k <> 0) -> (forall k, (k <= N)%nat -> g k <> 0) ->
  (s <= N)%nat -> (r <= N)%nat ->
  exists Rp Rm, reflections (depth_arr z N) (arr e N) (arr g N) (Z.of_nat r) (Z.of_nat s) = Ok (Rp, Rm) /\
    refl_list_below e g z N s r Rp /\ refl_list_above e g z s r Rm.
Proof. intros e g z N s r R E G Hs Hr. exact (reflections_meaning e g z N R E G s r Hs Hr). Qed.
(** The meaning determines the number. *)
Theorem C01_unique : forall e g z N k R R',
  (refl_below e g z N k R -> refl_below e g z N k R' -> R = R') /\
  (refl_above e g z k R -> refl_above e g z k R' -> R = R').
Proof. intros. split; [apply refl_below_unique|apply refl_above_unique]. Qed.
Example C01_case : exists Rp Rm,
  reflections (depth_arr x_z 2) (arr x_eH 2) (arr (gam x_eH x_eV x_zH 3) 2) 1 1 = Ok (Rp, Rm) /\
    refl_list_below x_eH (gam x_eH x_eV x_zH 3) x_z 2 1 1 Rp /\ refl_list_above x_eH (gam x_eH x_eV x_zH 3) x_z 1 1 Rm.
Proof.
  pose proof (passive_model_ok _ _ _ _ _ _ 3 x_passive) as OK.
  apply (C01_reflections _ _ _ 2 1 1); try apply OK; lia.
Qed.
Print Assumptions C01_reflections.

(** ** C02 *)
Theorem C02_continuity : forall eH eV zH zV z N lam ab msrc s j zs,
  passive_medium eH eV zH zV z N -> In ab kernel_abs -> (s <= N)%nat -> (j < N)%nat ->
  (s = j -> zs < z (S j))%R -> (s = S j -> z (S j) < zs)%R ->
  exists p q p' q',
    gcall eH eV zH zV z N lam ab false msrc false s j zs (z (S j)) = Ok (p, q) /\
    gcall eH eV zH zV z N lam ab false msrc false s (S j) zs (z (S j)) = Ok (p', q') /\
    (recc ab <> 3%Z -> p = p') /\ (recc ab = 3%Z -> eV j * p = eV (S j) * p') /\ q = q'.
Proof. exact continuity. Qed.
Example C02_case : exists p q p' q',
    gcall x_eH x_eV x_zH x_zV x_z 2 3 31 false false false 0 0 (-10) (x_z 1) = Ok (p, q) /\
    gcall x_eH x_eV x_zH x_zV x_z 2 3 31 false false false 0 1 (-10) (x_z 1) = Ok (p', q') /\
    (recc 31 <> 3%Z -> p = p') /\ (recc 31 = 3%Z -> x_eV 0 * p = x_eV 1 * p') /\ q = q'.
Proof.
  apply (C02_continuity _ _ _ _ _ 2 3 31 false 0 0 (-10) x_passive); try lia.
  - vm_compute; tauto.
  - intros _. simpl. lra.
Qed.
Print Assumptions C02_continuity.

(** ** C03 *)
(** P, Q are any solution of the layered problem with the given jump at the
    source depth; the kernel returns its value at the receiver. *)
Theorem C03_greens_function : forall eH eV zH zV z N lam s zs,
  passive_medium eH eV zH zV z N -> increasing z N -> in_layer z N s zs ->
  forall P Q x, x <> zs ->
  (bvp eH (wmode eV zH lam) z N zs 2 0 P Q ->
     (forall ab, In ab [11; 12; 21; 22]%Z -> tm_value eH eV zH zV z N lam s zs ab x (Q x)) /\
     (forall ab, In ab [31; 32]%Z -> tm_value eH eV zH zV z N lam s zs ab x (P x / eV (lay z N x)))) /\
  (bvp eH (wmode eV zH lam) z N zs 0 (- (2)) P Q ->
     (forall ab, In ab [14; 15; 24; 25]%Z -> tm_value eH eV zH zV z N lam s zs ab x (Q x)) /\
     (forall ab, In ab [34; 35]%Z -> tm_value eH eV zH zV z N lam s zs ab x (P x / eV (lay z N x))) /\
     (forall ab, In ab [13; 23]%Z -> tm_value eH eV zH zV z N lam s zs ab x (- (Q x / eV s))) /\
     tm_value eH eV zH zV z N lam s zs 33 x (P x / eV s / eV (lay z N x))) /\
  (bvp zH (wmode zV eH lam) z N zs 0 (- (2)) P Q ->
     (forall ab, In ab [11; 12; 21; 22]%Z -> te_value eH eV zH zV z N lam s zs ab x (P x)) /\
     (forall ab, In ab [16; 26]%Z -> te_value eH eV zH zV z N lam s zs ab x (P x / zV s))) /\
  (bvp zH (wmode zV eH lam) z N zs 2 0 P Q ->
     forall ab, In ab [14; 15; 24; 25]%Z -> te_value eH eV zH zV z N lam s zs ab x (P x)) /\
  (forall ab, In ab [16; 26]%Z -> tm_value eH eV zH zV z N lam s zs ab x 0) /\
  (forall ab, In ab [13; 23; 31; 32; 33; 34; 35]%Z -> te_value eH eV zH zV z N lam s zs ab x 0).
Proof.
  intros eH eV zH zV z N lam s zs PM HI Hin P Q x Hx.
  split; [|split; [|split; [|split]]].
  - intros B. exact (green_TM_h eH eV zH zV z N lam PM HI s zs Hin P Q B x Hx).
  - intros B. exact (green_TM_v eH eV zH zV z N lam PM HI s zs Hin P Q B x Hx).
  - intros B. exact (green_TE_e eH eV zH zV z N lam PM HI s zs Hin P Q B x Hx).
  - intros B. exact (green_TE_m eH eV zH zV z N lam PM HI s zs Hin P Q B x Hx).
  - exact (green_unused eH eV zH zV z N lam PM s zs Hin x).
Qed.
(** Such solutions exist (and are unique, [bvp_unique_all]). *)
Theorem C03_solvable : forall eH eV zH zV z N lam s zs,
  passive_medium eH eV zH zV z N -> increasing z N -> in_layer z N s zs ->
  forall TM jump_in_P : bool, exists P Q,
  bvp (if TM then eH else zH) (if TM then wmode eV zH lam else wmode zV eH lam) z N zs
      (if jump_in_P then RtoC 2 else RtoC 0) (if jump_in_P then RtoC 0 else Copp 2) P Q.
Proof. intros eH eV zH zV z N lam s zs PM HI Hin. exact (bvp_exists eH eV zH zV z N lam PM HI s zs Hin). Qed.
Example C03_case : exists P Q,
  bvp x_eH (wmode x_eV x_zH 3) x_z 2 30 2 0 P Q /\
  forall x, x <> 30%R -> tm_value x_eH x_eV x_zH x_zV x_z 2 3 1 30 11 x (Q x).
Proof.
  destruct (C03_solvable _ _ _ _ _ _ 3 1 30 x_passive x_incr x_in1 true true) as [P [Q B]].
  exists P, Q. split; [exact B|]. intros x Hx.
  apply (proj1 (C03_greens_function _ _ _ _ _ _ 3 1 30 x_passive x_incr x_in1 P Q x Hx) B). simpl; tauto.
Qed.
Print Assumptions C03_greens_function.
Print Assumptions C03_solvable.

(** ** C04 *)
Theorem C04_artificial_interface : forall eH eV zH zV z N lam m zi ab msrc mrec zs zr,
  passive_medium eH eV zH zV z N -> increasing z N -> in_layer z N m zi ->
  valid_call ab msrc mrec ->
  gcall (spl m eH) (spl m eV) (spl m zH) (spl m zV) (splz m zi z) (S N) lam ab false msrc mrec
        (lay (splz m zi z) (S N) zs) (lay (splz m zi z) (S N) zr) zs zr
  = gcall eH eV zH zV z N lam ab false msrc mrec (lay z N zs) (lay z N zr) zs zr.
Proof. exact split_invariant. Qed.
Example C04_case :
  gcall (spl 1 x_eH) (spl 1 x_eV) (spl 1 x_zH) (spl 1 x_zV) (splz 1 30 x_z) 3 3 13 false false false
        (lay (splz 1 30 x_z) 3 20) (lay (splz 1 30 x_z) 3 40) 20 40
  = gcall x_eH x_eV x_zH x_zV x_z 2 3 13 false false false (lay x_z 2 20) (lay x_z 2 40) 20 40.
Proof. apply (C04_artificial_interface _ _ _ _ _ 2 3 1 30 13 false false 20 40 x_passive x_incr x_in1). vm_compute; tauto. Qed.
Print Assumptions C04_artificial_interface.

(** ** C05 *)
Theorem C05_uniform_stack : forall (eh ev zh zv : C) z N lam ab msrc mrec zs zr,
  (0 < fst eh)%R -> (0 < fst ev)%R -> (0 <= fst zh)%R -> (0 <= fst zv)%R -> zh <> 0 -> zv <> 0 ->
  increasing z N -> valid_call ab msrc mrec ->
  gcall (cst eh) (cst ev) (cst zh) (cst zv) z N lam ab false msrc mrec (lay z N zs) (lay z N zr) zs zr
  = gcall (cst eh) (cst ev) (cst zh) (cst zv) z 0 lam ab false msrc mrec 0 0 zs zr.
Proof. exact uniform_fullspace. Qed.
Example C05_case :
  gcall (cst 1) (cst 2) (cst (0, 1)%R) (cst (0, 2)%R) x_z 2 3 15 false true false (lay x_z 2 (-5)) (lay x_z 2 150) (-5) 150
  = gcall (cst 1) (cst 2) (cst (0, 1)%R) (cst (0, 2)%R) x_z 0 3 15 false true false 0 0 (-5) 150.
Proof.
  apply C05_uniform_stack; try exact x_incr; simpl; try lra; try (intro E; injection E; lra).
  vm_compute; tauto.
Qed.
Print Assumptions C05_uniform_stack.

(** ** C06 *)
Theorem C06_translation : forall eH eV zH zV z N lam ab xd msrc mrec zs zr c,
  passive_medium eH eV zH zV z N -> valid_call ab msrc mrec ->
  (lay (fun k => z k + c)%R N (zs + c) = lay z N zs /\ lay (fun k => z k + c)%R N (zr + c) = lay z N zr) /\
  gcall eH eV zH zV (fun k => z k + c)%R N lam ab xd msrc mrec
    (lay (fun k => z k + c)%R N (zs + c)) (lay (fun k => z k + c)%R N (zr + c)) (zs + c) (zr + c)
  = gcall eH eV zH zV z N lam ab xd msrc mrec (lay z N zs) (lay z N zr) zs zr.
Proof.
  intros. split; [split; apply lay_translate|]. now apply translate_invariant.
Qed.
Example C06_case :
  gcall x_eH x_eV x_zH x_zV (fun k => x_z k + 7)%R 2 3 26 true true false
    (lay (fun k => x_z k + 7)%R 2 (20 + 7)) (lay (fun k => x_z k + 7)%R 2 (130 + 7)) (20 + 7) (130 + 7)
  = gcall x_eH x_eV x_zH x_zV x_z 2 3 26 true true false (lay x_z 2 20) (lay x_z 2 130) 20 130.
Proof. apply C06_translation; [exact x_passive|vm_compute; tauto]. Qed.
Print Assumptions C06_translation.

(** ** C07 *)
Theorem C07_reciprocity : forall eH eV zH zV z N lam ab xd s r zs zr,
  passive_medium eH eV zH zV z N -> In ab ee_abs -> (s <= N)%nat -> (r <= N)%nat ->
  exists p q,
    gcall eH eV zH zV z N lam ab xd false false s r zs zr = Ok (p, q) /\
    gcall eH eV zH zV z N lam (swapab ab) xd false false r s zr zs
    = Ok ((if (nvert ab =? 1)%Z then - (1) else RtoC 1) * p, q).
Proof. exact reciprocity. Qed.
(** The sign is the one that makes the field itself reciprocal. *)
Theorem C07_spectrum : forall ab lam (p q : C) t, In ab ee_abs ->
  (mode_used false ab = false -> q = 0) ->
  spectrum (swapab ab) lam ((if (nvert ab =? 1)%Z then - (1) else RtoC 1) * p) q (t + PI)
  = spectrum ab lam p q t.
Proof. exact reciprocity_spectrum. Qed.
Example C07_case : exists p q,
    gcall x_eH x_eV x_zH x_zV x_z 2 3 13 true false false 0 2 (-5) 130 = Ok (p, q) /\
    gcall x_eH x_eV x_zH x_zV x_z 2 3 (swapab 13) true false false 2 0 130 (-5) = Ok (- (1) * p, q).
Proof. apply (C07_reciprocity _ _ _ _ _ 2 3 13 true 0 2 (-5) 130 x_passive); [vm_compute; tauto|lia..]. Qed.
Print Assumptions C07_reciprocity.
Print Assumptions C07_spectrum.

(** ** C08 *)
Theorem C08_mirror : forall eH eV zH zV z N lam ab xd msrc mrec s r zs zr p q,
  passive_medium eH eV zH zV z N -> valid_call ab msrc mrec -> (s <= N)%nat -> (r <= N)%nat ->
  gcall eH eV zH zV z N lam ab xd msrc mrec s r zs zr = Ok (p, q) ->
  gcall (mir N eH) (mir N eV) (mir N zH) (mir N zV) (mirz z N) N lam ab xd msrc mrec
    (N - s) (N - r) (- zs) (- zr) = Ok (chi ab * p, chi ab * q).
Proof. exact mirror_symmetry. Qed.
Example C08_case : exists p q,
  gcall x_eH x_eV x_zH x_zV x_z 2 3 13 true false false 0 2 (-5) 130 = Ok (p, q) /\
  gcall (mir 2 x_eH) (mir 2 x_eV) (mir 2 x_zH) (mir 2 x_zV) (mirz x_z 2) 2 3 13 true false false
    2 0 (- (-5)) (- 130) = Ok (- (1) * p, - (1) * q).
Proof.
  destruct (passive_total _ _ _ _ _ 2 3 13 true false false 0 2 (-5) 130 x_passive) as [p [q E]];
    [vm_compute; tauto|lia|lia|].
  exists p, q. split; [exact E|].
  apply (C08_mirror _ _ _ _ _ 2 3 13 true false false 0 2 _ _ p q x_passive) in E;
    [exact E|vm_compute; tauto|lia|lia].
Qed.
Print Assumptions C08_mirror.

(** ** C09 *)
(** No division by zero, for all passive media (this includes the real positive
    ones). *)
Theorem C09_total : forall eH eV zH zV z N lam ab xd msrc mrec s r zs zr,
  passive_medium eH eV zH zV z N -> valid_call ab msrc mrec -> (s <= N)%nat -> (r <= N)%nat ->
  exists p q, gcall eH eV zH zV z N lam ab xd msrc mrec s r zs zr = Ok (p, q).
Proof. exact passive_total. Qed.
Theorem C09_bounded : forall eH eV zH zV z N lam s r,
  real_medium eH eV zH zV z N -> (s <= N)%nat -> (r <= N)%nat ->
  (exists Rp Rm, reflections (depth_arr z N) (arr eH N) (arr (gam eH eV zH lam) N) (Z.of_nat r) (Z.of_nat s)
     = Ok (Rp, Rm) /\ forall R, In R Rp \/ In R Rm -> (Cmod R < 1)%R) /\
  (exists Rp Rm, reflections (depth_arr z N) (arr zH N) (arr (gam zH zV eH lam) N) (Z.of_nat r) (Z.of_nat s)
     = Ok (Rp, Rm) /\ forall R, In R Rp \/ In R Rm -> (Cmod R < 1)%R).
Proof. exact reflections_bounded. Qed.
Theorem C09_real_is_passive : forall eH eV zH zV z N,
  real_medium eH eV zH zV z N -> passive_medium eH eV zH zV z N.
Proof. exact real_passive. Qed.
Example C09_case : real_medium (fun k => RtoC (INR k + 1)) (fun _ => RtoC 2) (fun _ => RtoC 1) (fun _ => RtoC 1) x_z 2 /\
  valid_call 14 true false.
Proof.
  split; [|vm_compute; tauto]. constructor; intros k Hk.
  - exists (INR k + 1)%R. split; [pose proof (pos_INR k); lra|reflexivity].
  - exists 2%R. split; [lra|reflexivity].
  - exists 1%R. split; [lra|reflexivity].
  - exists 1%R. split; [lra|reflexivity].
  - left. now apply x_incr.
Qed.
Print Assumptions C09_total.
Print Assumptions C09_bounded.

(** ** C10 *)
Theorem C10_magnetic_magnetic : forall a b eH eV zH zV z N lam xd s r zs zr, magn a -> magn b ->
  passive_medium eH eV zH zV z N -> (s <= N)%nat -> (r <= N)%nat ->
  user_wave (code a b) eH eV zH zV z N lam xd s r zs zr
  = user_wave (code (a - 3) (b - 3)) zH zV eH eV z N lam xd s r zs zr.
Proof. exact duality_mm. Qed.
Theorem C10_magnetic_electric : forall a b eH eV zH zV z N lam xd s r zs zr, magn a -> elec b ->
  code a b <> 63%Z ->
  user_wave (code a b) eH eV zH zV z N lam xd s r zs zr
  = (t <- user_wave (code b a) eH eV zH zV z N lam xd r s zr zs ;; Ok (neg3 t)).
Proof. exact duality_me. Qed.
Theorem C10_angle : forall a b phi,
  (magn a -> magn b -> user_angle (code a b) phi = user_angle (code (a - 3) (b - 3)) phi) /\
  (magn a -> elec b -> user_angle (code a b) phi = user_angle (code b a) (phi + PI)%R).
Proof. exact duality_angle. Qed.
Theorem C10_others_unaffected : forall a b eH eV zH zV z N lam xd s r zs zr phi, elec a -> elec b \/ magn b ->
  user_wave (code a b) eH eV zH zV z N lam xd s r zs zr
  = wcall eH eV zH zV z N lam (code a b) xd false false s r zs zr /\
  user_angle (code a b) phi = Ok (angle_factor phi (code a b) false false).
Proof. exact duality_rest. Qed.
Example C10_case : magn 6 /\ magn 4 /\ elec 3 /\
  user_wave 64 x_eH x_eV x_zH x_zV x_z 2 3 false 0 2 (-5) 130
  = user_wave 31 x_zH x_zV x_eH x_eV x_z 2 3 false 0 2 (-5) 130.
Proof.
  assert (magn 6) by (unfold magn; lia). assert (magn 4) by (unfold magn; lia).
  repeat split; try lia.
  apply (C10_magnetic_magnetic 6 4 _ _ _ _ _ 2 3 false 0 2 (-5) 130); auto. exact x_passive.
Qed.
Print Assumptions C10_magnetic_magnetic.
Print Assumptions C10_magnetic_electric.
Print Assumptions C10_angle.
Print Assumptions C10_others_unaffected.

(** ** C11 *)
(** The second summand is the response of a full space made of the source
    layer. *)
Theorem C11_direct_switch : forall eH eV zH zV z N lam ab msrc mrec s r zs zr,
  passive_medium eH eV zH zV z N -> valid_call ab msrc mrec -> (s <= N)%nat -> (r <= N)%nat ->
  (s = r ->
   gcall eH eV zH zV z N lam ab false msrc mrec s r zs zr
   = add2 (gcall eH eV zH zV z N lam ab true msrc mrec s r zs zr)
          (gcall (only s eH) (only s eV) (only s zH) (only s zV) z 0 lam ab false msrc mrec 0 0 zs zr)) /\
  (s <> r ->
   gcall eH eV zH zV z N lam ab false msrc mrec s r zs zr
   = gcall eH eV zH zV z N lam ab true msrc mrec s r zs zr).
Proof. exact direct_switch. Qed.
Example C11_case :
  gcall x_eH x_eV x_zH x_zV x_z 2 3 33 false false false 1 1 20 40
  = add2 (gcall x_eH x_eV x_zH x_zV x_z 2 3 33 true false false 1 1 20 40)
         (gcall (only 1 x_eH) (only 1 x_eV) (only 1 x_zH) (only 1 x_zV) x_z 0 3 33 false false false 0 0 20 40).
Proof. apply (C11_direct_switch _ _ _ _ _ 2 3 33 false false 1 1 20 40 x_passive); try lia. vm_compute; tauto. Qed.
Print Assumptions C11_direct_switch.

(** ** C13 *)
Theorem C13_bessel : forall eH eV zH zV z N lam ab xd msrc mrec s r zs zr off phi,
  passive_medium eH eV zH zV z N -> valid_call ab msrc mrec -> (s <= N)%nat -> (r <= N)%nat ->
  (0 < lam)%R -> (0 < off)%R ->
  exists p q PJ,
    gcall eH eV zH zV z N lam ab xd msrc mrec s r zs zr = Ok (p, q) /\
    wcall eH eV zH zV z N lam ab xd msrc mrec s r zs zr = Ok PJ /\
    bessel_sum ab lam off (ang_exact (eval_angle phi msrc mrec) ab) PJ
    = (if mrec then - (1) else RtoC 1) * fac lam *
      CInt (fun t => spectrum ab lam p q t * pw (lam * off) (eval_angle phi msrc mrec) t).
Proof. exact wavenumber_bessel. Qed.
Theorem C13_angle_factor : forall phi ab msrc mrec,
  (Rabs (angle_factor phi ab msrc mrec - ang_exact (eval_angle phi msrc mrec) ab) <= / 10 ^ 9)%R.
Proof. exact angle_factor_close. Qed.
Example C13_case : exists p q PJ,
    gcall x_eH x_eV x_zH x_zV x_z 2 3 24 false true false 0 1 (-5) 40 = Ok (p, q) /\
    wcall x_eH x_eV x_zH x_zV x_z 2 3 24 false true false 0 1 (-5) 40 = Ok PJ /\
    bessel_sum 24 3 500 (ang_exact (eval_angle 1 true false) 24) PJ
    = RtoC 1 * fac 3 * CInt (fun t => spectrum 24 3 p q t * pw (3 * 500) (eval_angle 1 true false) t).
Proof. apply (C13_bessel _ _ _ _ _ 2 3 24 false true false 0 1 (-5) 40 500 1 x_passive); try lia; try lra. vm_compute; tauto. Qed.
Print Assumptions C13_bessel.
Print Assumptions C13_angle_factor.
