(** Kernel properties in the form in which PropsKernel.v states them. *)

From Coq Require Import Reals ZArith List Bool Lia Lra Psatz QArith.
From Coquelicot Require Import Coquelicot.
From Verif Require Import PyBase CBase Kernel KernelSpec KernelRefl KernelClosed KernelPhys
  KernelPassive KernelSym KernelSplit ODE KernelBVP KernelMain KernelThm KernelThm2 KernelThm3 KernelThm4
  Bessel KernelBessel UtilsAb.
Import ListNotations.
Local Open Scope R_scope.
Local Open Scope C_scope.
Local Open Scope res_scope.

(** ** C02 *)
Theorem continuity : forall eH eV zH zV z N lam ab msrc s j zs,
  passive_medium eH eV zH zV z N -> In ab kernel_abs -> (s <= N)%nat -> (j < N)%nat ->
  (s = j -> zs < z (S j))%R -> (s = S j -> z (S j) < zs)%R ->
  exists p q p' q',
    gcall eH eV zH zV z N lam ab false msrc false s j zs (z (S j)) = Ok (p, q) /\
    gcall eH eV zH zV z N lam ab false msrc false s (S j) zs (z (S j)) = Ok (p', q') /\
    (recc ab <> 3%Z -> p = p') /\ (recc ab = 3%Z -> eV j * p = eV (S j) * p') /\ q = q'.
Proof.
  intros eH eV zH zV z N lam ab msrc s j zs PM Hab Hs Hj H1 H2.
  pose proof (passive_model_ok _ _ _ _ _ _ lam PM) as OK.
  do 4 eexists. rewrite !greenfct_ee by (auto; lia).
  split; [reflexivity|]. split; [reflexivity|].
  pose proof (PTM_cont _ _ _ _ _ _ _ OK ab s j zs Hs Hj H1 H2) as E. cbv zeta in E.
  pose proof (PTE_cont _ _ _ _ _ _ _ OK ab s j zs Hs Hj H1 H2) as E'. cbv zeta in E'.
  destruct (Z.eqb_spec (recc ab) 3); repeat split; try contradiction; auto.
Qed.

(** ** C07 *)
Theorem reciprocity : forall eH eV zH zV z N lam ab xd s r zs zr,
  passive_medium eH eV zH zV z N -> In ab ee_abs -> (s <= N)%nat -> (r <= N)%nat ->
  exists p q,
    gcall eH eV zH zV z N lam ab xd false false s r zs zr = Ok (p, q) /\
    gcall eH eV zH zV z N lam (swapab ab) xd false false r s zr zs
    = Ok ((if (nvert ab =? 1)%Z then - (1) else RtoC 1) * p, q).
Proof.
  intros eH eV zH zV z N lam ab xd s r zs zr PM Hab Hs Hr.
  pose proof (passive_model_ok _ _ _ _ _ _ lam PM) as OK.
  do 2 eexists. rewrite !greenfct_ee; auto using ee_kernel.
  - split; [reflexivity|].
    rewrite (PTM_recip _ _ _ _ _ _ _ OK), (PTE_recip _ _ _ _ _ _ _ OK) by assumption. reflexivity.
  - unfold ee_abs in Hab; cbn [In] in Hab; repeat (destruct Hab as [Hab|Hab]; [subst; vm_compute; tauto|]).
    contradiction.
Qed.

(** In terms of the assembled field: the spectrum of the swapped component in
    the opposite direction is the same. *)
Theorem reciprocity_spectrum : forall ab lam (p q : C) t, In ab ee_abs ->
  (mode_used false ab = false -> q = 0) ->
  spectrum (swapab ab) lam ((if (nvert ab =? 1)%Z then - (1) else RtoC 1) * p) q (t + PI)
  = spectrum ab lam p q t.
Proof.
  intros ab lam p q t Hab Hq. unfold ee_abs in Hab; cbn [In] in Hab.
  repeat (destruct Hab as [Hab|Hab]; [subst ab|]); [..|contradiction];
  unfold spectrum, kh, th, swapab, nvert, recc, srcc;
  cbn -[Cmult Cplus Cminus Copp RtoC cos sin Ci Rmult Ropp];
  rewrite ?cos_pi_p, ?sin_pi_p; destruct p as [p1 p2], q as [q1 q2];
  unfold Cmult, Cminus, Cplus, Copp, Ci, RtoC; cbn [fst snd]; f_equal; ring.
Qed.

(** ** C09 *)
Record real_medium (eH eV zH zV : nat -> C) (z : nat -> R) (N : nat) : Prop := {
  rm_eH : forall k, (k <= N)%nat -> exists t, (0 < t)%R /\ eH k = RtoC t;
  rm_eV : forall k, (k <= N)%nat -> exists t, (0 < t)%R /\ eV k = RtoC t;
  rm_zH : forall k, (k <= N)%nat -> exists t, (0 < t)%R /\ zH k = RtoC t;
  rm_zV : forall k, (k <= N)%nat -> exists t, (0 < t)%R /\ zV k = RtoC t;
  rm_z : forall k, (1 <= k < N)%nat -> (z k <= z (S k))%R
}.

Lemma real_passive : forall eH eV zH zV z N, real_medium eH eV zH zV z N -> passive_medium eH eV zH zV z N.
Proof.
  intros eH eV zH zV z N M. constructor; intros k Hk.
  - destruct (rm_eH _ _ _ _ _ _ M k Hk) as [t [A ->]]. exact A.
  - destruct (rm_eV _ _ _ _ _ _ M k Hk) as [t [A ->]]. exact A.
  - destruct (rm_zH _ _ _ _ _ _ M k Hk) as [t [A ->]]. simpl. lra.
  - destruct (rm_zV _ _ _ _ _ _ M k Hk) as [t [A ->]]. simpl. lra.
  - destruct (rm_zH _ _ _ _ _ _ M k Hk) as [t [A ->]]. apply RtoC_neq_0. lra.
  - destruct (rm_zV _ _ _ _ _ _ M k Hk) as [t [A ->]]. apply RtoC_neq_0. lra.
  - now apply (rm_z _ _ _ _ _ _ M).
Qed.

Lemma real_gam : forall (h v q : nat -> C) lam k a b c, (0 < a)%R -> (0 < b)%R -> (0 < c)%R ->
  h k = RtoC a -> v k = RtoC b -> q k = RtoC c -> exists t, (0 < t)%R /\ gam h v q lam k = RtoC t.
Proof.
  intros h v q lam k a b c Ha Hb Hc E1 E2 E3. unfold gam. rewrite E1, E2, E3.
  rewrite <- RtoC_div by lra. rewrite <- !RtoC_mult, <- RtoC_plus.
  assert (P : (0 < a / b * (lam * lam) + c * a)%R).
  { assert (0 <= a / b * (lam * lam))%R; [|nra].
    apply Rmult_le_pos; [|apply Rle_0_sqr]. unfold Rdiv. apply Rmult_le_pos; [lra|].
    left. now apply Rinv_0_lt_compat. }
  exists (sqrt (a / b * (lam * lam) + c * a)). split; [now apply sqrt_lt_R0|].
  rewrite Csqrt_RtoC by lra. reflexivity.
Qed.

Section Bound.
Variables (e w g : nat -> C) (z : nat -> R) (N : nat).
Hypothesis PAS : passive_mode e w g z N.
Hypothesis RE : forall k, (k <= N)%nat -> exists t, (0 < t)%R /\ e k = RtoC t.
Hypothesis RG : forall k, (k <= N)%nat -> exists t, (0 < t)%R /\ g k = RtoC t.

Lemma real_bound : forall k (R : C), (k <= N)%nat -> (0 < pflow (Cdiv (g k) (e k)) R)%R -> (Cmod R < 1)%R.
Proof.
  intros k R Hk H. destruct (RE k Hk) as [a [Ha E1]], (RG k Hk) as [b [Hb E2]].
  rewrite E1, E2, <- RtoC_div in H by lra.
  apply (pflow_mod (RtoC (b / a)) R); [reflexivity| |exact H].
  simpl. apply Rdiv_lt_0_compat; assumption.
Qed.

Theorem refl_bound : forall s r, (s <= N)%nat -> (r <= N)%nat ->
  exists Rp Rm, reflections (depth_arr z N) (arr e N) (arr g N) (Z.of_nat r) (Z.of_nat s) = Ok (Rp, Rm) /\
    forall R, In R Rp \/ In R Rm -> (Cmod R < 1)%R.
Proof.
  intros s r Hs Hr.
  pose proof (passive_regular _ _ _ _ _ PAS) as REG.
  pose proof (pas_e0 _ _ _ _ _ PAS) as E0. pose proof (pas_gnz _ _ _ _ _ PAS) as G0.
  destruct (reflections_meaning e g z N REG E0 G0 s r Hs Hr) as [Rp [Rm [E [[P1 P2] [M1 M2]]]]].
  exists Rp, Rm. split; [exact E|].
  assert (Z0 : (Cmod (cz 0) < 1)%R) by (change (cz 0) with (RtoC 0); rewrite Cmod_0; lra).
  assert (BD : forall k R, (k <= N)%nat -> refl_below e g z N k R -> (Cmod R < 1)%R).
  { intros k R Hk H. apply (real_bound k); [exact Hk|].
    rewrite (refl_below_unique _ _ _ _ _ _ _ H (Rdn_meaning e g z N REG E0 G0 k Hk)).
    now apply (pas_Rdn e w g z N). }
  assert (BU : forall k R, (k <= N)%nat -> refl_above e g z k R -> (Cmod R < 1)%R).
  { intros k R Hk H. apply (real_bound k); [exact Hk|].
    rewrite (refl_above_unique _ _ _ _ _ _ H (Rup_meaning e g z N REG E0 G0 k Hk)).
    now apply (pas_Rup e w g z N). }
  intros R [H|H].
  - destruct (Nat.eq_dec s N) as [X|X]; [destruct (Nat.eq_dec r N) as [Y|Y]|].
    + destruct P2 as [L P2]; [lia|]. apply In_nth_error in H as [i Hi].
      apply (BD (Nat.min s r + i)%nat); [|now apply P2].
      assert (i < length Rp)%nat by (apply nth_error_Some; congruence). lia.
    + destruct P1 as [L' [-> [L P1]]]; [lia|]. destruct H as [<-|H]; [exact Z0|].
      apply In_nth_error in H as [i Hi]. apply (BD (r + i)%nat); [|now apply P1].
      assert (i < length L')%nat by (apply nth_error_Some; congruence). lia.
    + destruct P2 as [L P2]; [lia|]. apply In_nth_error in H as [i Hi].
      apply (BD (Nat.min s r + i)%nat); [|now apply P2].
      assert (i < length Rp)%nat by (apply nth_error_Some; congruence). lia.
  - destruct (Nat.eq_dec s 0) as [X|X]; [destruct (Nat.eq_dec r 0) as [Y|Y]|].
    + destruct M2 as [L M2]; [lia|]. apply In_nth_error in H as [i Hi].
      apply (BU (Nat.min s r + i)%nat); [|now apply M2].
      assert (i < length Rm)%nat by (apply nth_error_Some; congruence). lia.
    + destruct M1 as [L' [-> [L M1]]]; [lia|]. apply in_app_or in H as [H|[<-|[]]]; [|exact Z0].
      apply In_nth_error in H as [i Hi]. apply (BU (1 + i)%nat); [|now apply M1].
      assert (i < length L')%nat by (apply nth_error_Some; congruence). lia.
    + destruct M2 as [L M2]; [lia|]. apply In_nth_error in H as [i Hi].
      apply (BU (Nat.min s r + i)%nat); [|now apply M2].
      assert (i < length Rm)%nat by (apply nth_error_Some; congruence). lia.
Qed.
End Bound.

Theorem reflections_bounded : forall eH eV zH zV z N lam s r,
  real_medium eH eV zH zV z N -> (s <= N)%nat -> (r <= N)%nat ->
  (exists Rp Rm, reflections (depth_arr z N) (arr eH N) (arr (gam eH eV zH lam) N) (Z.of_nat r) (Z.of_nat s)
     = Ok (Rp, Rm) /\ forall R, In R Rp \/ In R Rm -> (Cmod R < 1)%R) /\
  (exists Rp Rm, reflections (depth_arr z N) (arr zH N) (arr (gam zH zV eH lam) N) (Z.of_nat r) (Z.of_nat s)
     = Ok (Rp, Rm) /\ forall R, In R Rp \/ In R Rm -> (Cmod R < 1)%R).
Proof.
  intros eH eV zH zV z N lam s r M Hs Hr. pose proof (real_passive _ _ _ _ _ _ M) as PM. split.
  - eapply refl_bound; [apply (passive_TM eH eV zH zV z N lam PM)|apply M| |assumption..].
    intros k Hk. destruct (rm_eH _ _ _ _ _ _ M k Hk) as [a [A1 A2]], (rm_eV _ _ _ _ _ _ M k Hk) as [b [B1 B2]],
      (rm_zH _ _ _ _ _ _ M k Hk) as [c [D1 D2]]. exact (real_gam _ _ _ _ _ a b c A1 B1 D1 A2 B2 D2).
  - eapply refl_bound; [apply (passive_TE eH eV zH zV z N lam PM)|apply M| |assumption..].
    intros k Hk. destruct (rm_eH _ _ _ _ _ _ M k Hk) as [a [A1 A2]], (rm_zV _ _ _ _ _ _ M k Hk) as [b [B1 B2]],
      (rm_zH _ _ _ _ _ _ M k Hk) as [c [D1 D2]]. exact (real_gam _ _ _ _ _ c b a D1 B1 A1 D2 B2 A2).
Qed.

(** ** kernel.wavenumber on a stack *)
Definition pieces : Type := (option C * option C * option C)%type.
Definition wcall (eH eV zH zV : nat -> C) (z : nat -> R) (N : nat) (lam : R) (ab : Z)
    (xd msrc mrec : bool) (s r : nat) (zs zr : R) : res pieces :=
  wavenumber zs zr (Z.of_nat s) (Z.of_nat r) (depth_arr z N) (arr eH N) (arr eV N)
           (arr zH N) (arr zV N) lam ab xd msrc mrec.

Lemma wcall_gcall : forall eH eV zH zV z N lam ab xd msrc mrec s r zs zr,
  wcall eH eV zH zV z N lam ab xd msrc mrec s r zs zr
  = '(p, q) <- gcall eH eV zH zV z N lam ab xd msrc mrec s r zs zr ;; Ok (collect ab mrec lam p q).
Proof. reflexivity. Qed.

Definition opt_map (f : C -> C) (o : option C) : option C := match o with Some c => Some (f c) | None => None end.
Definition neg3 (t : pieces) : pieces :=
  let '(a, b, c) := t in (opt_map Copp a, opt_map Copp b, opt_map Copp c).

(** Calling the kernel for a component code as the user gives it. *)
Definition user_wave (raw : Z) (eH eV zH zV : nat -> C) (z : nat -> R) (N : nat) (lam : R) (xd : bool)
    (s r : nat) (zs zr : R) : res pieces :=
  '(ab, msrc, mrec) <- check_ab (AbNum (inject_Z raw)) ;;
  wcall eH eV zH zV z N lam ab xd msrc mrec s r zs zr.
Definition user_angle (raw : Z) (phi : R) : res R :=
  '(ab, msrc, mrec) <- check_ab (AbNum (inject_Z raw)) ;; Ok (angle_factor phi ab msrc mrec).

Lemma collect_neg : forall ab lam (p q : C), In ab kernel_abs ->
  collect ab true lam p q = neg3 (collect ab false lam p q).
Proof.
  intros ab lam p q Hab. pose proof PI_RGT_0 as HP. unfold kernel_abs in Hab. cbn [In] in Hab.
  repeat (destruct Hab as [Hab|Hab]; [subst ab|]); [..|contradiction];
  unfold collect, neg3, opt_map;
  cbn -[Cmult Cplus Cminus Copp RtoC Rmult Ropp Cdiv Rdiv cz PI];
  unfold Cdiv; change (cz (-1)) with (RtoC (- (1))); change (cz 1) with (RtoC 1); change (cz 0) with (RtoC 0);
  try (replace (lam / (-1 * 8 * PI))%R with (- (lam / (1 * 8 * PI)))%R by (field; lra));
  try (replace (-1 / 2)%R with (- (1 / 2))%R by field);
  rewrite ?RtoC_opp; repeat apply f_equal2; try reflexivity; try (apply f_equal; ring).
Qed.
Lemma collect_opp : forall ab lam (p q : C), In ab kernel_abs ->
  collect ab true lam (- p) (- q) = collect ab false lam p q.
Proof.
  intros ab lam p q Hab. pose proof PI_RGT_0 as HP. unfold kernel_abs in Hab. cbn [In] in Hab.
  repeat (destruct Hab as [Hab|Hab]; [subst ab|]); [..|contradiction];
  unfold collect, neg3, opt_map;
  cbn -[Cmult Cplus Cminus Copp RtoC Rmult Ropp Cdiv Rdiv cz PI];
  unfold Cdiv; change (cz (-1)) with (RtoC (- (1))); change (cz 1) with (RtoC 1); change (cz 0) with (RtoC 0);
  try (replace (lam / (-1 * 8 * PI))%R with (- (lam / (1 * 8 * PI)))%R by (field; lra));
  try (replace (-1 / 2)%R with (- (1 / 2))%R by field);
  rewrite ?RtoC_opp; repeat apply f_equal2; try reflexivity; try (apply f_equal; ring).
Qed.

(** ** C10 *)
Definition code (a b : Z) : Z := (10 * a + b)%Z.
Definition elec (a : Z) : Prop := (1 <= a <= 3)%Z.
Definition magn (a : Z) : Prop := (4 <= a <= 6)%Z.

Ltac codes := unfold elec, magn in *; repeat match goal with
  | H : (?l <= ?a <= ?u)%Z |- _ =>
      let E := fresh in
      assert (E : a = l \/ a = (l + 1)%Z \/ a = u) by lia; clear H; cbn in E; destruct E as [E|[E|E]]; subst a end.

Theorem duality_mm : forall a b eH eV zH zV z N lam xd s r zs zr, magn a -> magn b ->
  passive_medium eH eV zH zV z N -> (s <= N)%nat -> (r <= N)%nat ->
  user_wave (code a b) eH eV zH zV z N lam xd s r zs zr
  = user_wave (code (a - 3) (b - 3)) zH zV eH eV z N lam xd s r zs zr.
Proof.
  intros a b eH eV zH zV z N lam xd s r zs zr Ha Hb PM Hs Hr.
  pose proof (passive_model_ok _ _ _ _ _ _ lam PM) as OK. pose proof (model_ok_swap _ _ _ _ _ _ _ OK) as OK'.
  assert (K : In (code (a - 3) (b - 3)) ee_abs).
  { codes; vm_compute; tauto. }
  assert (E1 : check_ab (AbNum (inject_Z (code a b))) = Ok (code (a - 3) (b - 3), true, true)).
  { codes; reflexivity. }
  assert (E2 : check_ab (AbNum (inject_Z (code (a - 3) (b - 3)))) = Ok (code (a - 3) (b - 3), false, false)).
  { codes; reflexivity. }
  unfold user_wave. rewrite E1, E2. cbn [bind]. rewrite !wcall_gcall.
  rewrite greenfct_mm by assumption.
  rewrite (greenfct_ee _ _ _ _ _ _ _ OK') by auto using ee_kernel.
  cbn [bind]. now rewrite collect_opp by auto using ee_kernel.
Qed.

Theorem duality_me : forall a b eH eV zH zV z N lam xd s r zs zr, magn a -> elec b ->
  code a b <> 63%Z ->
  user_wave (code a b) eH eV zH zV z N lam xd s r zs zr
  = (t <- user_wave (code b a) eH eV zH zV z N lam xd r s zr zs ;; Ok (neg3 t)).
Proof.
  intros a b eH eV zH zV z N lam xd s r zs zr Ha Hb Z63.
  assert (K : In (code b a) kernel_abs).
  { codes; vm_compute in Z63 |- *; tauto. }
  assert (E1 : check_ab (AbNum (inject_Z (code a b))) = Ok (code b a, false, true)).
  { codes; reflexivity. }
  assert (E2 : check_ab (AbNum (inject_Z (code b a))) = Ok (code b a, true, false)).
  { codes; reflexivity. }
  unfold user_wave. rewrite E1, E2. cbn [bind]. rewrite !wcall_gcall, greenfct_me.
  assert (E3 : gcall eH eV zH zV z N lam (code b a) xd true false r s zr zs
             = gcall eH eV zH zV z N lam (code b a) xd false false r s zr zs) by reflexivity.
  rewrite E3. destruct (gcall _ _ _ _ _ _ _ _ _ _ _ _ _ _ _) as [[p q]|]; cbn [bind]; [|reflexivity].
  now rewrite collect_neg.
Qed.

Theorem duality_angle : forall a b phi,
  (magn a -> magn b -> user_angle (code a b) phi = user_angle (code (a - 3) (b - 3)) phi) /\
  (magn a -> elec b -> user_angle (code a b) phi = user_angle (code b a) (phi + PI)%R).
Proof.
  intros a b phi. split; intros Ha Hb.
  - assert (E1 : check_ab (AbNum (inject_Z (code a b))) = Ok (code (a - 3) (b - 3), true, true)).
    { codes; reflexivity. }
    assert (E2 : check_ab (AbNum (inject_Z (code (a - 3) (b - 3)))) = Ok (code (a - 3) (b - 3), false, false)).
    { codes; reflexivity. }
    unfold user_angle. rewrite E1, E2. reflexivity.
  - assert (E1 : check_ab (AbNum (inject_Z (code a b))) = Ok (code b a, false, true)).
    { codes; reflexivity. }
    assert (E2 : check_ab (AbNum (inject_Z (code b a))) = Ok (code b a, true, false)).
    { codes; reflexivity. }
    unfold user_angle. rewrite E1, E2. cbn [bind]. apply f_equal.
    unfold angle_factor. destruct (inb (code b a) [33]%Z); reflexivity.
Qed.

Theorem duality_rest : forall a b eH eV zH zV z N lam xd s r zs zr phi, elec a -> elec b \/ magn b ->
  user_wave (code a b) eH eV zH zV z N lam xd s r zs zr
  = wcall eH eV zH zV z N lam (code a b) xd false false s r zs zr /\
  user_angle (code a b) phi = Ok (angle_factor phi (code a b) false false).
Proof.
  intros a b eH eV zH zV z N lam xd s r zs zr phi Ha Hb.
  assert (E1 : exists m, check_ab (AbNum (inject_Z (code a b))) = Ok (code a b, m, false)).
  { destruct Hb; codes; eexists; reflexivity. }
  destruct E1 as [m E1]. unfold user_wave, user_angle. rewrite E1. cbn [bind].
  split; [reflexivity|]. apply f_equal. unfold angle_factor. rewrite !andb_false_l. reflexivity.
Qed.

(** ** C11 *)
Definition add2 (x y : res (C * C)) : res (C * C) :=
  '(a, b) <- x ;; '(c, d) <- y ;; Ok (a + c, b + d).

Theorem direct_switch : forall eH eV zH zV z N lam ab msrc mrec s r zs zr,
  passive_medium eH eV zH zV z N -> valid_call ab msrc mrec -> (s <= N)%nat -> (r <= N)%nat ->
  (s = r ->
   gcall eH eV zH zV z N lam ab false msrc mrec s r zs zr
   = add2 (gcall eH eV zH zV z N lam ab true msrc mrec s r zs zr)
          (gcall (only s eH) (only s eV) (only s zH) (only s zV) z 0 lam ab false msrc mrec 0 0 zs zr)) /\
  (s <> r ->
   gcall eH eV zH zV z N lam ab false msrc mrec s r zs zr
   = gcall eH eV zH zV z N lam ab true msrc mrec s r zs zr).
Proof.
  intros eH eV zH zV z N lam ab msrc mrec s r zs zr PM HV Hs Hr.
  assert (PM1 : passive_medium (only s eH) (only s eV) (only s zH) (only s zV) z 0).
  { constructor; intros; unfold only; try (now apply PM); lia. }
  pose proof (passive_model_ok _ _ _ _ _ _ lam PM) as OK.
  pose proof (passive_model_ok _ _ _ _ _ _ lam PM1) as OK1.
  split; intros Hsr.
  - subst r. rewrite !gcall_resp by (auto; lia). cbn [add2].
    destruct (resp eH eV zH zV z N lam ab false msrc mrec s s zs zr) as [a b] eqn:EA.
    destruct (resp eH eV zH zV z N lam ab true msrc mrec s s zs zr) as [c d] eqn:EB.
    destruct (resp (only s eH) (only s eV) (only s zH) (only s zV) z 0 lam ab false msrc mrec 0 0 zs zr) as [u v] eqn:ED.
    unfold add2. cbn [bind]. apply f_equal. unfold resp in *.
    destruct mrec; [destruct msrc|]; injection EA as <- <-; injection EB as <- <-; injection ED as <- <-;
      f_equal; rewrite ?(PTM_direct _ _ _ _ _ _ _ s s), ?(PTE_direct _ _ _ _ _ _ _ s s), ?Nat.eqb_refl; ring.
  - rewrite !gcall_resp by auto. apply f_equal. unfold resp.
    assert (F1 : Nat.eqb s r = false) by now apply Nat.eqb_neq.
    assert (F2 : Nat.eqb r s = false) by (apply Nat.eqb_neq; auto).
    destruct mrec; [destruct msrc|]; f_equal;
      rewrite ?(PTM_direct _ _ _ _ _ _ _ s r), ?(PTE_direct _ _ _ _ _ _ _ s r),
              ?(PTM_direct _ _ _ _ _ _ _ r s), ?(PTE_direct _ _ _ _ _ _ _ r s), ?F1, ?F2; ring.
Qed.

(** ** C13 *)
Theorem wavenumber_bessel : forall eH eV zH zV z N lam ab xd msrc mrec s r zs zr off phi,
  passive_medium eH eV zH zV z N -> valid_call ab msrc mrec -> (s <= N)%nat -> (r <= N)%nat ->
  (0 < lam)%R -> (0 < off)%R ->
  exists p q PJ,
    gcall eH eV zH zV z N lam ab xd msrc mrec s r zs zr = Ok (p, q) /\
    wcall eH eV zH zV z N lam ab xd msrc mrec s r zs zr = Ok PJ /\
    bessel_sum ab lam off (ang_exact (eval_angle phi msrc mrec) ab) PJ
    = (if mrec then - (1) else RtoC 1) * fac lam *
      CInt (fun t => spectrum ab lam p q t * pw (lam * off) (eval_angle phi msrc mrec) t).
Proof.
  intros eH eV zH zV z N lam ab xd msrc mrec s r zs zr off phi PM HV Hs Hr Hl Ho.
  pose proof (passive_model_ok _ _ _ _ _ _ lam PM) as OK.
  assert (HK : In ab kernel_abs).
  { unfold valid_call in HV. destruct (mrec && msrc); [now apply ee_kernel|exact HV]. }
  destruct (gcall eH eV zH zV z N lam ab xd msrc mrec s r zs zr) as [[p q]|] eqn:E.
  2:{ rewrite gcall_resp in E by assumption. discriminate. }
  exists p, q, (collect ab mrec lam p q). split; [reflexivity|]. split.
  { rewrite wcall_gcall, E. reflexivity. }
  rewrite gcall_resp in E by assumption. injection E as E.
  apply bessel_all; auto.
  - intros M. unfold resp in E. destruct mrec; [destruct msrc|]; injection E as <- <-;
      unfold PTM; rewrite M; try reflexivity. ring.
  - intros M. unfold resp in E. destruct mrec; [destruct msrc|]; injection E as <- <-;
      unfold PTE; rewrite M; try reflexivity. ring.
Qed.
