(** Property C89: equal depths of source and receiver. *)

From Coq Require Import Reals ZArith List Bool Lia Lra.
From Coquelicot Require Import Coquelicot.
From Verif Require Import PyBase CBase ODE Kernel KernelSpec KernelClosed KernelMain KernelBVP KernelThm KernelThm2 Utils Fullspace FullspaceThm FullspaceField HomogThm LayConv KernelCont KernelCont4 KernelCont7 KernelCont8 KernelCont9 FullCont FullCont2 PropsCont.
Import ListNotations.
Local Open Scope R_scope.
Local Open Scope C_scope.

(** ** C89 *)
(** kernel.fullspace, as fem calls it, is continuous in medium, depths, offset and angle, also where the depths are equal.
    [etas], [zetas] are the values at all frequencies of the call (the code asks for the sign of any imaginary part). *)
Theorem C89_fullspace : forall T (F : (T -> Prop) -> Prop), Filter F -> forall rdt a b (off phi zs zr : T -> R) (eH eV zH zV : T -> C) (etas zetas : T -> list C) (off0 phi0 zs0 zr0 : R) (eH0 eV0 zH0 zV0 : C) (etas0 zetas0 : list C),
  toR F off off0 -> toR F phi phi0 -> toR F zs zs0 -> toR F zr zr0 -> toC F eH eH0 -> toC F eV eV0 -> toC F zH zH0 -> toC F zV zV0 ->
  off0 <> 0%R -> homog_medium eH0 eV0 zH0 zV0 -> F (fun t => homog_medium (eH t) (eV t) (zH t) (zV t)) ->
  fs_pair a b -> fs_pre rdt a b etas0 zetas0 eH0 zH0 -> F (fun t => fs_pre rdt a b (etas t) (zetas t) (eH t) (zH t)) ->
  exists W0, fs_comp rdt (fs_anyneg (3 <? b)%Z (3 <? a)%Z etas0 zetas0) a b off0 phi0 zs0 zr0 eH0 eV0 zH0 zV0 = Ok W0 /\
  forall e : R, (0 < e)%R -> F (fun t => exists W, fs_comp rdt (fs_anyneg (3 <? b)%Z (3 <? a)%Z (etas t) (zetas t)) a b (off t) (phi t) (zs t) (zr t) (eH t) (eV t) (zH t) (zV t) = Ok W /\ (Cmod (Cminus W W0) < e)%R).
Proof. exact fs_continuous. Qed.
(** xdirect=True, source and receiver in one layer: the exact reflected field plus the full-space field of the layer. *)
Theorem C89_total : forall T (F : (T -> Prop) -> Prop), Filter F -> forall (eH eV zH zV : T -> nat -> C) (z : T -> nat -> R) (zs zr off phi : T -> R) (eH0 eV0 zH0 zV0 : nat -> C) (z0 : nat -> R) (zs0 zr0 off0 phi0 : R) N s,
  (forall k, (k <= N)%nat -> toC F (fun t => eH t k) (eH0 k)) -> (forall k, (k <= N)%nat -> toC F (fun t => eV t k) (eV0 k)) ->
  (forall k, (k <= N)%nat -> toC F (fun t => zH t k) (zH0 k)) -> (forall k, (k <= N)%nat -> toC F (fun t => zV t k) (zV0 k)) ->
  (forall k, (1 <= k <= N)%nat -> toR F (fun t => z t k) (z0 k)) -> toR F zs zs0 -> toR F zr zr0 -> toR F off off0 -> toR F phi phi0 ->
  (0 < off0)%R -> in_layer z0 N s zs0 -> in_layer z0 N s zr0 ->
  layered eH0 eV0 zH0 zV0 z0 N -> F (fun t => layered (eH t) (eV t) (zH t) (zV t) (z t) N) ->
  forall rdt a b (etas zetas : T -> list C) (etas0 zetas0 : list C), fs_pair a b -> fs_pre rdt a b etas0 zetas0 (eH0 s) (zH0 s) -> F (fun t => fs_pre rdt a b (etas t) (zetas t) (eH t s) (zH t s)) ->
  exists V0 W0, hankel_value eH0 eV0 zH0 zV0 z0 N (10 * a + b) true off0 phi0 zs0 zr0 V0 /\ fs_comp rdt (fs_anyneg (3 <? b)%Z (3 <? a)%Z etas0 zetas0) a b off0 phi0 zs0 zr0 (eH0 s) (eV0 s) (zH0 s) (zV0 s) = Ok W0 /\
  forall e : R, (0 < e)%R -> F (fun t => exists V W, hankel_value (eH t) (eV t) (zH t) (zV t) (z t) N (10 * a + b) true (off t) (phi t) (zs t) (zr t) V /\
    fs_comp rdt (fs_anyneg (3 <? b)%Z (3 <? a)%Z (etas t) (zetas t)) a b (off t) (phi t) (zs t) (zr t) (eH t s) (eV t s) (zH t s) (zV t s) = Ok W /\ (Cmod (Cminus (Cplus V W) (Cplus V0 W0)) < e)%R).
Proof. exact (@total_medium). Qed.
(** The result of xdirect=True at equal depths is the limit of the exact responses with xdirect=False, which exist at
    different depths only. *)
Theorem C89_limit : forall T (F : (T -> Prop) -> Prop), Filter F -> forall (eH eV zH zV : T -> nat -> C) (z : T -> nat -> R) (zs zr off phi : T -> R) (eH0 eV0 zH0 zV0 : nat -> C) (z0 : nat -> R) (zs0 zr0 off0 phi0 : R) N s,
  (forall k, (k <= N)%nat -> toC F (fun t => eH t k) (eH0 k)) -> (forall k, (k <= N)%nat -> toC F (fun t => eV t k) (eV0 k)) ->
  (forall k, (k <= N)%nat -> toC F (fun t => zH t k) (zH0 k)) -> (forall k, (k <= N)%nat -> toC F (fun t => zV t k) (zV0 k)) ->
  (forall k, (1 <= k <= N)%nat -> toR F (fun t => z t k) (z0 k)) -> toR F zs zs0 -> toR F zr zr0 -> toR F off off0 -> toR F phi phi0 ->
  (0 < off0)%R -> in_layer z0 N s zs0 -> in_layer z0 N s zr0 ->
  layered eH0 eV0 zH0 zV0 z0 N -> F (fun t => layered (eH t) (eV t) (zH t) (zV t) (z t) N) ->
  forall rdt a b (etas zetas : T -> list C) (etas0 zetas0 : list C), fs_pair a b -> fs_pre rdt a b etas0 zetas0 (eH0 s) (zH0 s) -> F (fun t => fs_pre rdt a b (etas t) (zetas t) (eH t s) (zH t s)) ->
  forall V0 W0 (U : T -> C), hankel_value eH0 eV0 zH0 zV0 z0 N (10 * a + b) true off0 phi0 zs0 zr0 V0 ->
  fs_comp rdt (fs_anyneg (3 <? b)%Z (3 <? a)%Z etas0 zetas0) a b off0 phi0 zs0 zr0 (eH0 s) (eV0 s) (zH0 s) (zV0 s) = Ok W0 ->
  F (fun t => zs t <> zr t) -> F (fun t => hankel_value (eH t) (eV t) (zH t) (zV t) (z t) N (10 * a + b) false (off t) (phi t) (zs t) (zr t) (U t)) -> toC F U (V0 + W0).
Proof. exact (@direct_limit). Qed.

(** For the parameters of the user.  [val_user]: the exact response; [fs_user]: kernel.fullspace with the etas and zetas of
    check_frequency for layer s.  Two magnetic dipoles need a positive frequency and permittivity. *)
Theorem C89_model : forall T (F : (T -> Prop) -> Prop), Filter F -> forall (x : T -> earth) (x0 : earth) N s m (f zs zr off phi : T -> R) (f0 zs0 zr0 off0 phi0 : R),
  conv_earth F N x x0 -> sane N x0 -> increasing (x_dep x0) N -> F (fun t => sane N (x t)) -> (0 < min_freq m)%R -> f0 <> 0%R -> (0 < off0)%R ->
  toR F f f0 -> toR F zs zs0 -> toR F zr zr0 -> toR F off off0 -> toR F phi phi0 -> in_layer (x_dep x0) N s zs0 -> in_layer (x_dep x0) N s zr0 ->
  forall a b, fs_pair a b -> ((3 < a)%Z -> (3 < b)%Z -> (0 < f0)%R /\ (0 < x_epH x0 s)%R) ->
  exists V0 W0, val_user m a b N true f0 x0 off0 phi0 zs0 zr0 V0 /\ fs_user m a b s f0 x0 off0 phi0 zs0 zr0 = Ok W0 /\
  forall e : R, (0 < e)%R -> F (fun t => exists V W, val_user m a b N true (f t) (x t) (off t) (phi t) (zs t) (zr t) V /\ fs_user m a b s (f t) (x t) (off t) (phi t) (zs t) (zr t) = Ok W /\ (Cmod (Cminus (Cplus V W) (Cplus V0 W0)) < e)%R).
Proof. exact (@total_user). Qed.
Theorem C89_model_limit : forall T (F : (T -> Prop) -> Prop), Filter F -> forall (x : T -> earth) (x0 : earth) N s m (f zs zr off phi : T -> R) (f0 zs0 zr0 off0 phi0 : R),
  conv_earth F N x x0 -> sane N x0 -> increasing (x_dep x0) N -> F (fun t => sane N (x t)) -> (0 < min_freq m)%R -> f0 <> 0%R -> (0 < off0)%R ->
  toR F f f0 -> toR F zs zs0 -> toR F zr zr0 -> toR F off off0 -> toR F phi phi0 -> in_layer (x_dep x0) N s zs0 -> in_layer (x_dep x0) N s zr0 ->
  forall a b, fs_pair a b -> ((3 < a)%Z -> (3 < b)%Z -> (0 < f0)%R /\ (0 < x_epH x0 s)%R) ->
  forall V0 W0 (U : T -> C), val_user m a b N true f0 x0 off0 phi0 zs0 zr0 V0 -> fs_user m a b s f0 x0 off0 phi0 zs0 zr0 = Ok W0 ->
  F (fun t => zs t <> zr t) -> F (fun t => val_user m a b N false (f t) (x t) (off t) (phi t) (zs t) (zr t) (U t)) -> toC F U (V0 + W0).
Proof. exact (@limit_user). Qed.

(** three layers, inline electric dipoles in the middle layer at the same depth; the receiver approaches that depth *)
Example C89_case : let m := {| min_freq := 1; min_time := 1; min_off := 1; min_res := 1; min_angle := 1 |}%R in let y := w_earth 0 in
  let val xd := hankel_value (aH m 2 y) (aV m 2 y) (bH m 2 y) (bV m 2 y) (x_dep y) 2 11 xd in
  exists V0 W0, val true 500%R 1%R 30%R 30%R V0 /\ fs_comp false (fs_anyneg false false [] []) 1 1 500 1 30 30 (aH m 2 y 1) (aV m 2 y 1) (bH m 2 y 1) (bV m 2 y 1) = Ok W0 /\
  (forall t, t <> 0%R -> exists u, val false 500%R 1%R 30%R (30 + t)%R u) /\
  forall U, (forall t, t <> 0%R -> val false 500%R 1%R 30%R (30 + t)%R (U t)) -> toC (locally' 0%R) U (V0 + W0).
Proof.
  cbv zeta. set (m := {| min_freq := 1; min_time := 1; min_off := 1; min_res := 1; min_angle := 1 |}%R).
  set (F := locally' 0%R). assert (FF : Filter F) by (apply within_filter, locally_filter).
  assert (K : forall a : R, toR F (fun t : R => (a + t)%R) a).
  { intros a. apply toR_eps; [assumption|]. intros e He. exists (mkposreal e He). intros y Hy _. replace (a + y - a)%R with (y - 0)%R by ring. exact Hy. }
  assert (SA : layered (aH m 2 (w_earth 0)) (aV m 2 (w_earth 0)) (bH m 2 (w_earth 0)) (bV m 2 (w_earth 0)) (x_dep (w_earth 0)) 2).
  { apply sane_layered; [cbn; lra| |]. { constructor; intros k Hk; cbn; try lra; destruct k as [|[|k]]; try lra; lia. } intros k Hk. assert (k = 1)%nat by lia. subst k. cbn. lra. }
  assert (HP : fs_pair 1 1) by (unfold fs_pair; lia).
  assert (IL : in_layer (x_dep (w_earth 0)) 2 1 30) by (split; [lia|]; cbn; split; right; lra).
  assert (PR : fs_pre false 1 1 [] [] (aH m 2 (w_earth 0) 1%nat) (bH m 2 (w_earth 0) 1%nat)) by (split; [intros c []|lia]).
  destruct (C89_total R F FF (fun _ => aH m 2 (w_earth 0)) (fun _ => aV m 2 (w_earth 0)) (fun _ => bH m 2 (w_earth 0)) (fun _ => bV m 2 (w_earth 0)) (fun _ => x_dep (w_earth 0)) (fun _ => 30)%R (fun t => 30 + t)%R (fun _ => 500)%R (fun _ => 1)%R
    (aH m 2 (w_earth 0)) (aV m 2 (w_earth 0)) (bH m 2 (w_earth 0)) (bV m 2 (w_earth 0)) (x_dep (w_earth 0)) 30 30 500 1 2 1
    (fun k _ => toC_const F _) (fun k _ => toC_const F _) (fun k _ => toC_const F _) (fun k _ => toC_const F _) (fun k _ => toR_const F _) (toR_const F _) (K _) (toR_const F _) (toR_const F _) ltac:(lra) IL IL SA (filter_forall _ (fun _ => SA))
    false 1%Z 1%Z (fun _ => []) (fun _ => []) [] [] HP PR (filter_forall _ (fun _ => PR))) as (V0 & W0 & A & B & _).
  exists V0, W0. split; [exact A|]. split; [exact B|]. split. { intros t NT. apply (layered_converges 1 1 _ _ _ _ _ _ false 500 1 30 (30 + t) SA HP). lra. } intros U HU.
  refine (C89_limit R F FF (fun _ => aH m 2 (w_earth 0)) (fun _ => aV m 2 (w_earth 0)) (fun _ => bH m 2 (w_earth 0)) (fun _ => bV m 2 (w_earth 0)) (fun _ => x_dep (w_earth 0)) (fun _ => 30)%R (fun t => 30 + t)%R (fun _ => 500)%R (fun _ => 1)%R
    (aH m 2 (w_earth 0)) (aV m 2 (w_earth 0)) (bH m 2 (w_earth 0)) (bV m 2 (w_earth 0)) (x_dep (w_earth 0)) 30 30 500 1 2 1
    (fun k _ => toC_const F _) (fun k _ => toC_const F _) (fun k _ => toC_const F _) (fun k _ => toC_const F _) (fun k _ => toR_const F _) (toR_const F _) (K _) (toR_const F _) (toR_const F _) ltac:(lra) IL IL SA (filter_forall _ (fun _ => SA))
    false 1%Z 1%Z (fun _ => []) (fun _ => []) [] [] HP PR (filter_forall _ (fun _ => PR)) V0 W0 U A B _ _).
  - exists (mkposreal 1 Rlt_0_1). intros t _ NE. lra.
  - exists (mkposreal 1 Rlt_0_1). intros t _ NE. now apply HU.
Qed.
(** three layers, magnetic dipoles at the same depth; resistivity, thickness, frequency, offset and angle change together
    with the depth of the receiver *)
Example C89_model_case : let m := {| min_freq := 1; min_time := 1; min_off := 1; min_res := 1; min_angle := 1 |}%R in
  exists V0 W0, val_user m 5 5 2 true 2 (w_earth 0) 500 1 30 30 V0 /\ fs_user m 5 5 1 2 (w_earth 0) 500 1 30 30 = Ok W0 /\
  forall e : R, (0 < e)%R -> locally 0%R (fun t => exists V W, val_user m 5 5 2 true (2 + t) (w_earth t) (500 + t) (1 + t) 30 (30 + t) V /\ fs_user m 5 5 1 (2 + t) (w_earth t) (500 + t) (1 + t) 30 (30 + t) = Ok W /\ (Cmod (Cminus (Cplus V W) (Cplus V0 W0)) < e)%R).
Proof.
  cbv zeta. set (m := {| min_freq := 1; min_time := 1; min_off := 1; min_res := 1; min_angle := 1 |}%R).
  assert (K : forall a : R, toR (locally 0%R) (fun t : R => (a + t)%R) a).
  { intros a. apply toR_eps; [apply locally_filter|]. intros e He. exists (mkposreal e He). intros y Hy. replace (a + y - a)%R with (y - 0)%R by ring. exact Hy. }
  assert (C : forall a : R, toR (locally 0%R) (fun _ : R => a) a) by (intros a; apply toR_const, locally_filter).
  refine (C89_model R (locally 0%R) (@filter_filter _ _ (locally_filter 0%R)) w_earth (w_earth 0) 2 1 m (fun t => 2 + t)%R (fun _ => 30)%R (fun t => 30 + t)%R (fun t => 500 + t)%R (fun t => 1 + t)%R 2 30 30 500 1 _ _ _ _ _ _ _ (K _) (C _) (K _) (K _) (K _) _ _ 5%Z 5%Z _ _); try (cbn [min_freq m]; lra).
  - constructor; intros k Hk; cbn; try apply C; destruct k as [|[|k]]; try apply C; rewrite Rplus_0_r; apply K.
  - constructor; intros k Hk; cbn; try lra; destruct k as [|[|k]]; try lra; lia.
  - intros k Hk. assert (k = 1)%nat by lia. subst k. cbn. lra.
  - exists (mkposreal 1 Rlt_0_1). intros t Ht. assert (Q : (-1 < t < 1)%R). { unfold ball in Ht. cbn in Ht. unfold AbsRing_ball, abs, minus, plus, opp in Ht. cbn in Ht. apply Rabs_def2 in Ht. lra. }
    constructor; intros k Hk; cbn; try lra; destruct k as [|[|k]]; try lra; lia.
  - split; [lia|]. cbn. split; right; lra.
  - split; [lia|]. cbn. split; right; lra.
  - unfold fs_pair. lia.
  - intros _ _. cbn. lra.
Qed.
Print Assumptions C89_fullspace.
Print Assumptions C89_total.
Print Assumptions C89_limit.
Print Assumptions C89_model.
Print Assumptions C89_model_limit.
