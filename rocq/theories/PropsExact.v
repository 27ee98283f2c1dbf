(** Property C87: the exact response depends continuously on the model and the survey. *)

From Coq Require Import Reals ZArith List Bool Lia Lra.
From Coquelicot Require Import Coquelicot.
From Verif Require Import PyBase CBase ODE Kernel KernelSpec KernelClosed KernelMain KernelBVP KernelThm KernelThm2 Utils Fullspace FullspaceThm HomogThm LayConv KernelCont KernelCont4 KernelCont7 KernelCont8 KernelCont9 PropsCont.
Import ListNotations.
Local Open Scope R_scope.
Local Open Scope C_scope.

(** ** C87 *)
(** [hankel_value … V]: V is the improper integral, over all wavenumbers, of the kernel of [wavenumber] with the exact
    Bessel functions; it exists and is unique if source and receiver have different depths.  The family of media, depths,
    offsets and angles is indexed by any set T with any filter. *)
Theorem C87_medium : forall T (F : (T -> Prop) -> Prop), Filter F -> forall (eH eV zH zV : T -> nat -> C) (z : T -> nat -> R) (zs zr off phi : T -> R) (eH0 eV0 zH0 zV0 : nat -> C) (z0 : nat -> R) (zs0 zr0 off0 phi0 : R) N,
  (forall k, (k <= N)%nat -> toC F (fun t => eH t k) (eH0 k)) -> (forall k, (k <= N)%nat -> toC F (fun t => eV t k) (eV0 k)) ->
  (forall k, (k <= N)%nat -> toC F (fun t => zH t k) (zH0 k)) -> (forall k, (k <= N)%nat -> toC F (fun t => zV t k) (zV0 k)) ->
  (forall k, (1 <= k <= N)%nat -> toR F (fun t => z t k) (z0 k)) -> toR F zs zs0 -> toR F zr zr0 -> toR F off off0 -> toR F phi phi0 ->
  off0 <> 0%R -> zs0 <> zr0 -> (forall k, (1 <= k <= N)%nat -> z0 k <> zs0 /\ z0 k <> zr0) ->
  layered eH0 eV0 zH0 zV0 z0 N -> F (fun t => layered (eH t) (eV t) (zH t) (zV t) (z t) N) ->
  forall a b (xd : bool), fs_pair a b -> exists V0, hankel_value eH0 eV0 zH0 zV0 z0 N (10 * a + b) xd off0 phi0 zs0 zr0 V0 /\
  forall e : R, (0 < e)%R -> F (fun t => exists V, hankel_value (eH t) (eV t) (zH t) (zV t) (z t) N (10 * a + b) xd (off t) (phi t) (zs t) (zr t) V /\ (Cmod (Cminus V V0) < e)%R).
Proof. exact (@exact_medium). Qed.
(** Conversely: whichever exact responses one takes, they converge. *)
Theorem C87_limit : forall T (F : (T -> Prop) -> Prop), Filter F -> forall (eH eV zH zV : T -> nat -> C) (z : T -> nat -> R) (zs zr off phi : T -> R) (eH0 eV0 zH0 zV0 : nat -> C) (z0 : nat -> R) (zs0 zr0 off0 phi0 : R) N,
  (forall k, (k <= N)%nat -> toC F (fun t => eH t k) (eH0 k)) -> (forall k, (k <= N)%nat -> toC F (fun t => eV t k) (eV0 k)) ->
  (forall k, (k <= N)%nat -> toC F (fun t => zH t k) (zH0 k)) -> (forall k, (k <= N)%nat -> toC F (fun t => zV t k) (zV0 k)) ->
  (forall k, (1 <= k <= N)%nat -> toR F (fun t => z t k) (z0 k)) -> toR F zs zs0 -> toR F zr zr0 -> toR F off off0 -> toR F phi phi0 ->
  off0 <> 0%R -> zs0 <> zr0 -> (forall k, (1 <= k <= N)%nat -> z0 k <> zs0 /\ z0 k <> zr0) ->
  layered eH0 eV0 zH0 zV0 z0 N -> F (fun t => layered (eH t) (eV t) (zH t) (zV t) (z t) N) ->
  forall a b (xd : bool) (V : T -> C) V0, fs_pair a b ->
  F (fun t => hankel_value (eH t) (eV t) (zH t) (zV t) (z t) N (10 * a + b) xd (off t) (phi t) (zs t) (zr t) (V t)) ->
  hankel_value eH0 eV0 zH0 zV0 z0 N (10 * a + b) xd off0 phi0 zs0 zr0 V0 -> toC F V V0.
Proof. exact exact_continuous. Qed.
(** For the parameters of the user: resistivities, anisotropies, permittivities, permeabilities, depths, frequency (or
    Laplace parameter); [aH], [aV], [bH], [bV] are the etas and zetas of check_frequency (C87_rows). *)
Theorem C87_model : forall T (F : (T -> Prop) -> Prop), Filter F -> forall (x : T -> earth) x0 N m (f zs zr off phi : T -> R) (f0 zs0 zr0 off0 phi0 : R),
  conv_earth F N x x0 -> sane N x0 -> increasing (x_dep x0) N -> F (fun t => sane N (x t)) -> (0 < min_freq m)%R -> f0 <> 0%R -> off0 <> 0%R ->
  toR F f f0 -> toR F zs zs0 -> toR F zr zr0 -> toR F off off0 -> toR F phi phi0 -> zs0 <> zr0 -> (forall k, (1 <= k <= N)%nat -> x_dep x0 k <> zs0 /\ x_dep x0 k <> zr0) ->
  forall a b (xd : bool), fs_pair a b -> let val (g : R) (y : earth) := hankel_value (aH m g y) (aV m g y) (bH m g y) (bV m g y) (x_dep y) N (10 * a + b) xd in
  exists V0, val f0 x0 off0 phi0 zs0 zr0 V0 /\ forall e : R, (0 < e)%R -> F (fun t => exists V, val (f t) (x t) (off t) (phi t) (zs t) (zr t) V /\ (Cmod (Cminus V V0) < e)%R).
Proof. exact (@exact_model). Qed.
Theorem C87_rows : forall m N f x, rows m N f x = [Model.mkrow (arr (aH m f x) N) (arr (aV m f x) N) (arr (bH m f x) N) (arr (bV m f x) N)].
Proof. exact rows_arr. Qed.

(** With xdirect=True and source and receiver in one layer the wavenumber domain holds the reflected field only.  Its
    integral exists and is continuous at equal depths too; there only the offset must not be zero. *)
Theorem C87_reflected : forall T (F : (T -> Prop) -> Prop), Filter F -> forall (eH eV zH zV : T -> nat -> C) (z : T -> nat -> R) (zs zr off phi : T -> R) (eH0 eV0 zH0 zV0 : nat -> C) (z0 : nat -> R) (zs0 zr0 off0 phi0 : R) N s,
  (forall k, (k <= N)%nat -> toC F (fun t => eH t k) (eH0 k)) -> (forall k, (k <= N)%nat -> toC F (fun t => eV t k) (eV0 k)) ->
  (forall k, (k <= N)%nat -> toC F (fun t => zH t k) (zH0 k)) -> (forall k, (k <= N)%nat -> toC F (fun t => zV t k) (zV0 k)) ->
  (forall k, (1 <= k <= N)%nat -> toR F (fun t => z t k) (z0 k)) -> toR F zs zs0 -> toR F zr zr0 -> toR F off off0 -> toR F phi phi0 ->
  off0 <> 0%R -> in_layer z0 N s zs0 -> in_layer z0 N s zr0 ->
  layered eH0 eV0 zH0 zV0 z0 N -> F (fun t => layered (eH t) (eV t) (zH t) (zV t) (z t) N) ->
  forall a b, fs_pair a b -> exists V0, hankel_value eH0 eV0 zH0 zV0 z0 N (10 * a + b) true off0 phi0 zs0 zr0 V0 /\
  forall e : R, (0 < e)%R -> F (fun t => exists V, hankel_value (eH t) (eV t) (zH t) (zV t) (z t) N (10 * a + b) true (off t) (phi t) (zs t) (zr t) V /\ (Cmod (Cminus V V0) < e)%R).
Proof. exact reflected_medium. Qed.
Theorem C87_reflected_limit : forall T (F : (T -> Prop) -> Prop), Filter F -> forall (eH eV zH zV : T -> nat -> C) (z : T -> nat -> R) (zs zr off phi : T -> R) (eH0 eV0 zH0 zV0 : nat -> C) (z0 : nat -> R) (zs0 zr0 off0 phi0 : R) N s,
  (forall k, (k <= N)%nat -> toC F (fun t => eH t k) (eH0 k)) -> (forall k, (k <= N)%nat -> toC F (fun t => eV t k) (eV0 k)) ->
  (forall k, (k <= N)%nat -> toC F (fun t => zH t k) (zH0 k)) -> (forall k, (k <= N)%nat -> toC F (fun t => zV t k) (zV0 k)) ->
  (forall k, (1 <= k <= N)%nat -> toR F (fun t => z t k) (z0 k)) -> toR F zs zs0 -> toR F zr zr0 -> toR F off off0 -> toR F phi phi0 ->
  off0 <> 0%R -> in_layer z0 N s zs0 -> in_layer z0 N s zr0 ->
  layered eH0 eV0 zH0 zV0 z0 N -> F (fun t => layered (eH t) (eV t) (zH t) (zV t) (z t) N) ->
  forall a b (V : T -> C) V0, fs_pair a b ->
  F (fun t => hankel_value (eH t) (eV t) (zH t) (zV t) (z t) N (10 * a + b) true (off t) (phi t) (zs t) (zr t) (V t)) ->
  hankel_value eH0 eV0 zH0 zV0 z0 N (10 * a + b) true off0 phi0 zs0 zr0 V0 -> toC F V V0.
Proof. exact reflected_continuous. Qed.

(** three layers; the resistivity and the thickness of the layer of the source, the frequency, the offset, the angle and the
    depth of the receiver change together; vertical electric source, horizontal electric receiver *)
Example C87_case : let m := {| min_freq := 1; min_time := 1; min_off := 1; min_res := 1; min_angle := 1 |}%R in
  let val (g : R) (y : earth) := hankel_value (aH m g y) (aV m g y) (bH m g y) (bV m g y) (x_dep y) 2 13 false in
  exists V0, val 2%R (w_earth 0) 500%R 1%R 30%R 50%R V0 /\ forall e : R, (0 < e)%R -> locally 0%R (fun t => exists V, val (2 + t)%R (w_earth t) (500 + t)%R (1 + t)%R 30%R (50 + t)%R V /\ (Cmod (Cminus V V0) < e)%R).
Proof.
  cbv zeta.
  assert (K : forall a : R, toR (locally 0%R) (fun t : R => (a + t)%R) a).
  { intros a. apply toR_eps; [apply locally_filter|]. intros e He. exists (mkposreal e He). intros y Hy. replace (a + y - a)%R with (y - 0)%R by ring. exact Hy. }
  assert (C : forall a : R, toR (locally 0%R) (fun _ : R => a) a) by (intros a; apply toR_const, locally_filter).
  refine (C87_model R (locally 0%R) (@filter_filter _ _ (locally_filter 0%R)) w_earth (w_earth 0) 2 {| min_freq := 1; min_time := 1; min_off := 1; min_res := 1; min_angle := 1 |}%R (fun t => 2 + t)%R (fun _ => 30)%R (fun t => 50 + t)%R (fun t => 500 + t)%R (fun t => 1 + t)%R 2 30 50 500 1 _ _ _ _ _ _ _ (K _) (C _) (K _) (K _) (K _) _ _ 1%Z 3%Z false _); try (cbn [min_freq]; lra).
  - constructor; intros k Hk; cbn; try apply C; destruct k as [|[|k]]; try apply C; rewrite Rplus_0_r; apply K.
  - constructor; intros k Hk; cbn; try lra; destruct k as [|[|k]]; try lra; lia.
  - intros k Hk. assert (k = 1)%nat by lia. subst k. cbn. lra.
  - exists (mkposreal 1 Rlt_0_1). intros t Ht. assert (Q : (-1 < t < 1)%R). { unfold ball in Ht. cbn in Ht. unfold AbsRing_ball, abs, minus, plus, opp in Ht. cbn in Ht. apply Rabs_def2 in Ht. lra. }
    constructor; intros k Hk; cbn; try lra; destruct k as [|[|k]]; try lra; lia.
  - intros k Hk. destruct k as [|[|k]]; [lia| |]; cbn; lra.
  - unfold fs_pair. lia.
Qed.
(** the same with source and receiver at equal depths in the middle layer; away from t = 0 the depths differ *)
Example C87_reflected_case : let m := {| min_freq := 1; min_time := 1; min_off := 1; min_res := 1; min_angle := 1 |}%R in
  let val (y : earth) := hankel_value (aH m 2 y) (aV m 2 y) (bH m 2 y) (bV m 2 y) (x_dep y) 2 11 true in
  exists V0, val (w_earth 0) 500%R 1%R 30%R 30%R V0 /\ forall e : R, (0 < e)%R -> locally 0%R (fun t => exists V, val (w_earth 0) (500 + t)%R (1 + t)%R 30%R (30 + t)%R V /\ (Cmod (Cminus V V0) < e)%R).
Proof.
  cbv zeta. set (m := {| min_freq := 1; min_time := 1; min_off := 1; min_res := 1; min_angle := 1 |}%R).
  assert (K : forall a : R, toR (locally 0%R) (fun t : R => (a + t)%R) a).
  { intros a. apply toR_eps; [apply locally_filter|]. intros e He. exists (mkposreal e He). intros y Hy. replace (a + y - a)%R with (y - 0)%R by ring. exact Hy. }
  assert (SA : layered (aH m 2 (w_earth 0)) (aV m 2 (w_earth 0)) (bH m 2 (w_earth 0)) (bV m 2 (w_earth 0)) (x_dep (w_earth 0)) 2).
  { apply sane_layered; [cbn; lra| |]. { constructor; intros k Hk; cbn; try lra; destruct k as [|[|k]]; try lra; lia. } intros k Hk. assert (k = 1)%nat by lia. subst k. cbn. lra. }
  refine (C87_reflected R (locally 0%R) (@filter_filter _ _ (locally_filter 0%R)) (fun _ => aH m 2 (w_earth 0)) (fun _ => aV m 2 (w_earth 0)) (fun _ => bH m 2 (w_earth 0)) (fun _ => bV m 2 (w_earth 0)) (fun _ => x_dep (w_earth 0)) (fun _ => 30)%R (fun t => 30 + t)%R (fun t => 500 + t)%R (fun t => 1 + t)%R
    _ _ _ _ _ 30 30 500 1 2 1 _ _ _ _ _ _ (K _) (K _) (K _) _ _ _ SA _ 1%Z 1%Z _); try lra; try (intros k Hk; apply toC_const; apply locally_filter); try (intros k Hk; apply toR_const; apply locally_filter).
  - apply toR_const; apply locally_filter.
  - split; [lia|]. cbn. split; right; lra.
  - split; [lia|]. cbn. split; right; lra.
  - apply filter_forall. intros _. exact SA.
  - unfold fs_pair. lia.
Qed.
Print Assumptions C87_medium.
Print Assumptions C87_limit.
Print Assumptions C87_model.
Print Assumptions C87_rows.
Print Assumptions C87_reflected.
Print Assumptions C87_reflected_limit.
