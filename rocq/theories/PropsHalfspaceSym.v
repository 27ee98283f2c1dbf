(** Properties of the diffusive half-space solution: C64 (symmetries and static limit). *)

From Coq Require Import ZArith Reals List Bool Lia Lra Psatz.
From Coquelicot Require Import Coquelicot.
From Verif Require Import PyBase CBase ODE Halfspace Stehfest HalfspaceThm Gauss HalfspaceTime RoutinesThm HalfspaceSym HalfspaceDc.
Import ListNotations.
Local Open Scope R_scope.

(** ** C64: symmetries of the half-space solution *)

(** The reflected TM part is the direct TM part of the source mirrored at the surface, with the
    opposite sign if the source is vertical. *)
Theorem C64_mirror : forall ive kve inp ab off an zs zr eH eV dTE dTM rTE rTM a, In ab nine -> 0 <= zs + zr ->
  halfspace ive kve inp Dtetm ab off an zs zr eH eV = Ok (Five dTE dTM rTE rTM a) ->
  exists dTE' dTM' rTE' rTM' a',
    halfspace ive kve inp Dtetm ab off an (- zs) zr eH eV = Ok (Five dTE' dTM' rTE' rTM' a') /\
    rTM = map (Cmult (RtoC (mirror_sign ab))) dTM'.
Proof. exact hs_mirror. Qed.

(** No vertical electric field at the surface. *)
Theorem C64_surface : forall ive kve inp ab off an zs eH eV out, In ab [31; 32; 33]%Z -> 0 <= zs ->
  halfspace ive kve inp Dhs ab off an zs 0 eH eV = Ok out -> exists l, out = One l /\ forall v, In v l -> v = RtoC 0.
Proof. exact hs_surface. Qed.

(** Source and receiver exchanged: the digits of the component, the depths and the direction of
    the offset change places. *)
Theorem C64_exchange : forall ive kve inp sol ab off an zs zr eH eV, In ab nine ->
  halfspace ive kve inp sol (swap_code ab) off (an + PI) zr zs eH eV = halfspace ive kve inp sol ab off an zs zr eH eV.
Proof. exact hs_exchange. Qed.

(** Every horizontal component at any angle from the inline and the broadside one. *)
Theorem C64_rotation : forall ive kve inp off an zs zr eH eV a b inline broad o, (1 <= a <= 2)%Z -> (1 <= b <= 2)%Z ->
  halfspace ive kve inp Dtetm 11 off 0 zs zr eH eV = Ok inline ->
  halfspace ive kve inp Dtetm 22 off 0 zs zr eH eV = Ok broad ->
  halfspace ive kve inp Dtetm (10 * a + b) off an zs zr eH eV = Ok o ->
  forall i k, (i < 5)%nat ->
    parts_of o i k = Cplus (Cmult (RtoC (dirc a an * dirc b an)) (parts_of inline i k))
                           (Cmult (RtoC (kron a b - dirc a an * dirc b an)) (parts_of broad i k)).
Proof. exact hs_rotation. Qed.

Theorem C64_rotation_vertical : forall ive kve inp off an zs zr eH eV a oh ov u v, (1 <= a <= 2)%Z ->
  halfspace ive kve inp Dtetm 13 off 0 zs zr eH eV = Ok oh -> halfspace ive kve inp Dtetm 31 off 0 zs zr eH eV = Ok ov ->
  halfspace ive kve inp Dtetm (10 * a + 3) off an zs zr eH eV = Ok u -> halfspace ive kve inp Dtetm (30 + a) off an zs zr eH eV = Ok v ->
  (forall i k, (i < 5)%nat -> parts_of u i k = Cmult (RtoC (dirc a an)) (parts_of oh i k) /\
                              parts_of v i k = Cmult (RtoC (dirc a an)) (parts_of ov i k)) /\
  halfspace ive kve inp Dtetm 33 off an zs zr eH eV = halfspace ive kve inp Dtetm 33 off 0 zs zr eH eV.
Proof. exact hs_rotation_vertical. Qed.

(** Static limit: the electrostatic field of the dipole and of its image; the reflected TE part
    and the airwave cancel, the direct TE part vanishes. *)
Theorem C64_static : forall ive kve isr a b off an zs zr eH eV, bessel_near_zero ive kve ->
  (1 <= a <= 3)%Z -> (1 <= b <= 3)%Z -> 0 <= zs + zr ->
  let res := hs_res eH in let lam := hs_aniso eV res in 0 < res -> 0 < lam ->
  off <> 0 \/ zs <> zr /\ zs <> - zr ->
  let H sol (s : R) := halfspace ive kve (HFreq isr [RtoC s]) sol (10 * a + b) off an zs zr eH eV in
  let x := cos an * off in let y := sin an * off in
  let direct := static_field res lam x y (zr - zs) a b in
  let image := (if (b =? 3)%Z then -1 else 1) * static_field res lam x y (zr + zs) a b in
  (forall sol s, exists o, H sol s = Ok o) /\
  limC (fun s => the_value (H Dfs s) 0) (at_right 0) (RtoC direct) /\
  limC (fun s => the_value (H Dhs s) 0) (at_right 0) (RtoC (direct + image)) /\
  limC (fun s => the_value (H Dtetm s) 0) (at_right 0) (RtoC 0) /\
  limC (fun s => the_value (H Dtetm s) 1) (at_right 0) (RtoC direct) /\
  limC (fun s => the_value (H Dtetm s) 3) (at_right 0) (RtoC image) /\
  limC (fun s => Cplus (the_value (H Dtetm s) 2) (the_value (H Dtetm s) 4)) (at_right 0) (RtoC 0).
Proof. exact hs_static. Qed.

(** The hypotheses are met: a unit half-space, source at depth 3, receiver at depth 4 or 0. *)
Example C64_case : forall ab ive kve, In ab nine ->
  exists dTE dTM rTE rTM a, halfspace ive kve (HTime 0 [2]) Dtetm ab 1 0 3 4 (RtoC 1) (RtoC 1) = Ok (Five dTE dTM rTE rTM a).
Proof.
  intros ab ive kve Hab. assert (H1 : 0 < hs_res (RtoC 1)) by (unfold hs_res, Cinv, RtoC; cbn; rewrite Rmult_0_l, Rplus_0_r, !Rmult_1_r; lra).
  assert (H2 : 0 < fst (RtoC 1)) by (cbn; lra).
  pose proof (hs_five ive kve ab 1 0 3 4 (RtoC 1) (RtoC 1) H1 H2 Rlt_0_1 (HTime 0 [2]) (AtImp 2) eq_refl) as [isr F]. rewrite F. do 5 eexists. reflexivity.
Qed.
Example C64_case_surface : forall ive kve, exists out, halfspace ive kve (HTime 1 [2]) Dhs 31 1 0 3 0 (RtoC 1) (RtoC 1) = Ok out.
Proof.
  intros ive kve. unfold halfspace.
  assert (S : forall h, sqrt ((cos 0 * 1) ^ 2 + (sin 0 * 1) ^ 2 + h ^ 2) <> 0).
  { intros h. apply Rgt_not_eq, sqrt_lt_R0. rewrite cos_0, sin_0. pose proof (pow2_ge_0 h). lra. }
  destruct (Req_EM_T _ 0) as [E|_]; [exfalso; exact (S _ E)|]. destruct (Req_EM_T _ 0) as [E|_]; [exfalso; exact (S _ E)|]. cbn [hs_imp0 Z.eqb Pos.eqb negb andb]. eexists. reflexivity.
Qed.
(** Functions with the stated behaviour near zero: 1 and 0, and 1/x. *)
Example C64_case_bessel : bessel_near_zero (fun n _ => if (n =? 0)%Z then RtoC 1 else RtoC 0) (fun n x => if (n =? 0)%Z then RtoC 0 else Cinv x).
Proof.
  assert (Z0 : forall c : C, Cmod (Cminus c c) = 0) by (intros c; replace (Cminus c c) with (RtoC 0) by ring; apply Cmod_0).
  split; intros n l H e He; exists 1; (split; [lra|]); intros x Hx.
  - destruct H as [E|[E|[E|[]]]]; injection E as <- <-; cbn [Z.eqb]; rewrite Z0; exact He.
  - destruct H as [E|[E|[]]]; injection E as <- <-; cbn [Z.eqb].
    + replace (Cminus (Cmult (RtoC x) (RtoC 0)) (RtoC 0)) with (RtoC 0) by ring. rewrite Cmod_0. exact He.
    + rewrite Cinv_r by (intros E; apply RtoC_inj in E; lra). rewrite Z0. exact He.
Qed.
Example C64_case_static : 0 < hs_res (RtoC 1) /\ 0 < hs_aniso (RtoC 1) (hs_res (RtoC 1)) /\ static_field 1 1 1 0 0 1 1 = / (2 * PI).
Proof.
  assert (E : hs_res (RtoC 1) = 1) by (unfold hs_res, Cinv, RtoC; cbn; field). rewrite E. split; [lra|]. split.
  - unfold hs_aniso. cbn [fst RtoC]. rewrite Rmult_1_r, sqrt_1. lra.
  - unfold static_field, comp, ver. cbn [Z.eqb Pos.eqb]. replace (1 ^ 2 + 0 ^ 2 + (1 * 0) ^ 2) with 1 by ring. rewrite sqrt_1. pose proof PI_RGT_0. field. lra.
Qed.

Print Assumptions C64_mirror.
Print Assumptions C64_surface.
Print Assumptions C64_exchange.
Print Assumptions C64_rotation.
Print Assumptions C64_rotation_vertical.
Print Assumptions C64_static.
