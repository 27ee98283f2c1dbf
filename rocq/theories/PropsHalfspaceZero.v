(** Properties of the diffusive half-space solution at zero offset: C74. *)

From Coq Require Import ZArith Reals List Bool Lia Lra Psatz.
From Coquelicot Require Import Coquelicot.
From Verif Require Import PyBase CBase ODE Halfspace HalfspaceThm HalfspaceSym HalfspaceDc HalfspaceZero HalfspaceZero2.
Import ListNotations.
Local Open Scope R_scope.

(** ** C74: receiver straight above or below the source *)

(** The limit of every part for small offsets, from the value returned for offset zero: the
    airwave and the components other than xx and yy are continuous; for xx and yy the direct and
    the reflected part differ from their limits by the inductive term of the source and of its
    image, which the zero-offset branch lacks. *)
Theorem C74_limit : forall ive kve inp ab an zs zr eH eV k w, bessel_rays ive kve -> In ab nine -> at_k inp k = Some w -> in_range w ->
  (In ab four -> is_imp w = false) ->
  let res := hs_res eH in let lam := hs_aniso eV res in 0 < res -> 0 < lam -> zs <> zr -> zs <> - zr ->
  let H sol off := halfspace ive kve inp sol ab off an zs zr eH eV in
  let jump h := Cmult (RtoC (if inb ab [11; 22]%Z then 1 else 0)) (inductive_term res w h) in
  let jd := jump (Rabs (zr - zs)) in let jr := jump (Rabs (zr + zs)) in
  (forall sol off, 0 <= off -> exists o, H sol off = Ok o) /\
  limC (fun off => split_part (H Dsplit off) 0 k) (at_right 0) (Cminus (split_part (H Dsplit 0) 0 k) jd) /\
  limC (fun off => split_part (H Dsplit off) 1 k) (at_right 0) (Cminus (split_part (H Dsplit 0) 1 k) jr) /\
  limC (fun off => split_part (H Dsplit off) 2 k) (at_right 0) (split_part (H Dsplit 0) 2 k) /\
  limC (fun off => split_part (H Dfs off) 0 k) (at_right 0) (Cminus (split_part (H Dfs 0) 0 k) jd) /\
  limC (fun off => split_part (H Dhs off) 0 k) (at_right 0) (Cminus (split_part (H Dhs 0) 0 k) (Cplus jd jr)).
Proof. exact hs_zero. Qed.

(** So for xx and yy the value at offset zero is never the limit, in any half-space, for any
    frequency, Laplace parameter or time. *)
Theorem C74_jump_refuted : forall ive kve inp ab an zs zr eH eV k w, bessel_rays ive kve -> In ab [11; 22]%Z -> at_k inp k = Some w -> in_range w -> is_imp w = false ->
  let res := hs_res eH in let lam := hs_aniso eV res in 0 < res -> 0 < lam -> zs <> zr -> zs <> - zr ->
  let H sol off := halfspace ive kve inp sol ab off an zs zr eH eV in
  ~ limC (fun off => split_part (H Dfs off) 0 k) (at_right 0) (split_part (H Dfs 0) 0 k) /\
  ~ limC (fun off => split_part (H Dsplit off) 1 k) (at_right 0) (split_part (H Dsplit 0) 1 k).
Proof. exact hs_zero_not. Qed.

(** The impulse response of the horizontal components is not a number at offset zero. *)
Theorem C74_impulse_refuted : forall ive kve sg ts sol ab an zs zr eH eV, In ab four -> sg <> (-1)%Z -> sg <> 1%Z ->
  halfspace ive kve (HTime sg ts) sol ab 0 an zs zr eH eV = Err NanE.
Proof. exact hs_zero_imp. Qed.

(** The hypotheses are met: source at depth 3, receiver at depth 4 in a unit half-space. *)
Example C74_case_bessel : bessel_rays (fun n _ => if (n =? 0)%Z then RtoC 1 else RtoC 0) (fun _ _ => RtoC 1).
Proof. split; intros; apply limC_const. Qed.
Example C74_case : at_k (HFreq false [RtoC 2; Ci]) 1 = Some (AtS Ci) /\ in_range (AtS Ci) /\ at_k (HTime 1 [5]) 0 = Some (AtStep 5) /\ in_range (AtStep 5) /\
  0 < hs_res (RtoC 1) /\ 0 < hs_aniso (RtoC 1) (hs_res (RtoC 1)) /\ (3 <> 4 :> R) /\ (3 <> - 4 :> R).
Proof.
  assert (E : hs_res (RtoC 1) = 1) by (unfold hs_res, Cinv, RtoC; cbn; field). rewrite E. split; [reflexivity|]. split; [intros X; apply (f_equal snd) in X; cbn in X; lra|]. split; [reflexivity|]. cbn [in_range].
  repeat split; try lra. unfold hs_aniso. cbn [fst RtoC]. rewrite Rmult_1_r, sqrt_1. lra.
Qed.

Print Assumptions C74_limit.
Print Assumptions C74_jump_refuted.
Print Assumptions C74_impulse_refuted.
