(** Property C90: weak contrasts. *)

From Coq Require Import Reals ZArith List Bool Lia Lra.
From Coquelicot Require Import Coquelicot.
From Verif Require Import PyBase CBase ODE Kernel KernelBVP KernelSpec KernelSplit KernelThm2 Fullspace FullspaceThm FullspaceField HomogThm LayConv Utils Model ModelFem KernelCont KernelCont4 FullCont FullCont2 Contrast Contrast2 Contrast3 Contrast4.
Import ListNotations.
Local Open Scope R_scope.
Local Open Scope C_scope.

(** ** C90 *)
(** [spl m], [splz m zi]: the model with an artificial interface at depth zi in layer m (C04). *)
Theorem C90_contrast : forall T (F : (T -> Prop) -> Prop), Filter F -> forall (eH eV zH zV : T -> nat -> C) (z : T -> nat -> R) (zs zr off phi : T -> R) (eH0 eV0 zH0 zV0 : nat -> C) (z0 : nat -> R) (zs0 zr0 off0 phi0 : R) N m zi,
  (forall k, (k <= S N)%nat -> toC F (fun t => eH t k) (spl m eH0 k)) -> (forall k, (k <= S N)%nat -> toC F (fun t => eV t k) (spl m eV0 k)) ->
  (forall k, (k <= S N)%nat -> toC F (fun t => zH t k) (spl m zH0 k)) -> (forall k, (k <= S N)%nat -> toC F (fun t => zV t k) (spl m zV0 k)) ->
  (forall k, (1 <= k <= S N)%nat -> toR F (fun t => z t k) (splz m zi z0 k)) -> toR F zs zs0 -> toR F zr zr0 -> toR F off off0 -> toR F phi phi0 ->
  off0 <> 0%R -> zs0 <> zr0 -> (forall k, (1 <= k <= S N)%nat -> splz m zi z0 k <> zs0 /\ splz m zi z0 k <> zr0) ->
  layered eH0 eV0 zH0 zV0 z0 N -> in_layer z0 N m zi -> F (fun t => layered (eH t) (eV t) (zH t) (zV t) (z t) (S N)) ->
  forall a b, fs_pair a b -> exists V0, hankel_value eH0 eV0 zH0 zV0 z0 N (10 * a + b) false off0 phi0 zs0 zr0 V0 /\
  forall e : R, (0 < e)%R -> F (fun t => exists V, hankel_value (eH t) (eV t) (zH t) (zV t) (z t) (S N) (10 * a + b) false (off t) (phi t) (zs t) (zr t) V /\ (Cmod (Cminus V V0) < e)%R).
Proof. exact (@contrast). Qed.
Theorem C90_homogeneous : forall T (F : (T -> Prop) -> Prop), Filter F -> forall (eH eV zH zV : T -> nat -> C) (z : T -> nat -> R) (zs zr off phi : T -> R) (eH0 eV0 zH0 zV0 : C) (z0 : nat -> R) (zs0 zr0 off0 phi0 : R) N,
  (forall k, (k <= N)%nat -> toC F (fun t => eH t k) eH0) -> (forall k, (k <= N)%nat -> toC F (fun t => eV t k) eV0) ->
  (forall k, (k <= N)%nat -> toC F (fun t => zH t k) zH0) -> (forall k, (k <= N)%nat -> toC F (fun t => zV t k) zV0) ->
  (forall k, (1 <= k <= N)%nat -> toR F (fun t => z t k) (z0 k)) -> toR F zs zs0 -> toR F zr zr0 -> toR F off off0 -> toR F phi phi0 ->
  (0 < off0)%R -> zs0 <> zr0 -> (forall k, (1 <= k <= N)%nat -> z0 k <> zs0 /\ z0 k <> zr0) ->
  homog_medium eH0 eV0 zH0 zV0 -> increasing z0 N -> F (fun t => layered (eH t) (eV t) (zH t) (zV t) (z t) N) ->
  forall rdt a b etas zetas, fs_pair a b -> fs_pre rdt a b etas zetas eH0 zH0 ->
  exists W, fs_comp rdt (fs_anyneg (3 <? b)%Z (3 <? a)%Z etas zetas) a b off0 phi0 zs0 zr0 eH0 eV0 zH0 zV0 = Ok W /\
  forall e : R, (0 < e)%R -> F (fun t => exists V, hankel_value (eH t) (eV t) (zH t) (zV t) (z t) N (10 * a + b) false (off t) (phi t) (zs t) (zr t) V /\ (Cmod (Cminus V W) < e)%R).
Proof. exact (@homogeneous). Qed.

(** two layers; a third one below 100 m, with the parameters of the second in the limit *)
Definition y_e (k : nat) : C := match k with O => (1, 3) | _ => (2, 3) end%R.
Definition y_z (k : nat) : R := 0%R.
Definition y_t (t : R) (k : nat) : C := match k with O => (1, 3) | S O => (2, 3) | _ => (2 + t, 3) end%R.
Definition y_d (t : R) (k : nat) : R := match k with O => 0 | S O => 0 | _ => 100 + t end%R.
Lemma y_hm : forall u : R, (0 < u)%R -> homog_medium (u, 3)%R (u, 3)%R (0, 2)%R (0, 1)%R.
Proof.
  intros u Hu. constructor; try (split; [simpl; lra|split; [simpl; lra|intros W; injection W; lra]]); try (split; simpl; lra).
  unfold Cdiv, Cinv, Cmult. cbn [fst snd]. field_simplify; lra.
Qed.
Lemma y_lim : forall a : R, toR (locally 0%R) (fun t : R => (a + t)%R) a.
Proof. intros a. apply toR_eps; [apply locally_filter|]. intros e He. exists (mkposreal e He). intros y Hy. replace (a + y - a)%R with (y - 0)%R by ring. exact Hy. Qed.
Lemma y_near : locally 0%R (fun t : R => (-1 < t < 1)%R).
Proof. exists (mkposreal 1 Rlt_0_1). intros t Ht. unfold ball in Ht. cbn in Ht. unfold AbsRing_ball, abs, minus, plus, opp in Ht. cbn in Ht. apply Rabs_def2 in Ht. lra. Qed.
Lemma y_lay : forall t : R, (-1 < t < 1)%R -> layered (y_t t) (y_t t) (fun _ => (0, 2)%R) (fun _ => (0, 1)%R) (y_d t) 2.
Proof.
  intros t Ht. constructor.
  - intros k Hk. destruct k as [|[|k]]; cbn [y_t]; apply y_hm; lra.
  - intros k Hk. assert (k = 1)%nat by lia. subst k. cbn. lra.
Qed.
Example C90_contrast_case : exists V0, hankel_value y_e y_e (fun _ => (0, 2)%R) (fun _ => (0, 1)%R) y_z 1 13 false 500 1 30 50 V0 /\
  forall e : R, (0 < e)%R -> locally 0%R (fun t => exists V, hankel_value (y_t t) (y_t t) (fun _ => (0, 2)%R) (fun _ => (0, 1)%R) (y_d t) 2 13 false 500 1 30 50 V /\ (Cmod (Cminus V V0) < e)%R).
Proof.
  assert (FF : Filter (locally 0%R)) by apply locally_filter.
  assert (CE : forall k, (k <= 2)%nat -> toC (locally 0%R) (fun t => y_t t k) (spl 1 y_e k)).
  { intros k Hk. destruct k as [|[|[|k]]]; [| | |lia]; cbn; try (now apply toC_const). split; cbn [fst snd]; [apply y_lim|now apply toR_const]. }
  refine (C90_contrast R (locally 0%R) FF y_t y_t (fun _ _ => (0, 2)%R) (fun _ _ => (0, 1)%R) y_d (fun _ => 30)%R (fun _ => 50)%R (fun _ => 500)%R (fun _ => 1)%R y_e y_e (fun _ => (0, 2)%R) (fun _ => (0, 1)%R) y_z 30 50 500 1 1 1 100
    CE CE _ _ _ (toR_const _ _) (toR_const _ _) (toR_const _ _) (toR_const _ _) _ _ _ _ _ _ 1%Z 3%Z _); try lra.
  - intros k Hk. now apply toC_const.
  - intros k Hk. now apply toC_const.
  - intros k Hk. destruct k as [|[|[|k]]]; [lia| | |lia]; cbn; [now apply toR_const|apply y_lim].
  - intros k Hk. destruct k as [|[|[|k]]]; [lia| | |lia]; cbn; unfold y_z; lra.
  - constructor; [intros k Hk; destruct k; cbn [y_e]; apply y_hm; lra|intros k Hk; lia].
  - split; [lia|]. split; [right; unfold y_z; lra|now left].
  - eapply filter_imp; [|exact y_near]. exact y_lay.
  - unfold fs_pair. lia.
Qed.
(** four layers that become equal; two magnetic dipoles *)
Example C90_homogeneous_case : let w (t : R) (k : nat) : C := (1 + INR k * t, 3)%R in let d (t : R) (k : nat) : R := (INR k * 100 + t)%R in
  exists W, fs_comp false (fs_anyneg true true [(1, 3)%R] []) 5 6 500 1 30 150 (1, 3)%R (1, 3)%R (0, 2)%R (0, 1)%R = Ok W /\
  forall e : R, (0 < e)%R -> locally 0%R (fun t => exists V, hankel_value (w t) (w t) (fun _ => (0, 2)%R) (fun _ => (0, 1)%R) (d t) 3 56 false 500 1 30 150 V /\ (Cmod (Cminus V W) < e)%R).
Proof.
  cbv zeta. set (w := fun (t : R) (k : nat) => (1 + INR k * t, 3)%R : C). set (d := fun (t : R) (k : nat) => (INR k * 100 + t)%R). assert (FF : Filter (locally 0%R)) by apply locally_filter.
  assert (CE : forall k, (k <= 3)%nat -> toC (locally 0%R) (fun t => w t k) (1, 3)%R).
  { intros k Hk. split; cbn [fst snd w]; [|now apply toR_const]. pose proof (toR_plus (locally 0%R) _ _ _ _ (toR_const (locally 0%R) 1%R) (toR_mult (locally 0%R) _ _ _ _ (toR_const (locally 0%R) (INR k)) (y_lim 0))) as L. cbv beta in L.
    apply toR_eps; [assumption|]. intros e He. eapply filter_imp; [|exact (proj1 (toR_eps (locally 0%R) _ _) L e He)]. intros t Ht. cbn beta in *. rewrite Rmult_0_r, Rplus_0_r, Rplus_0_l in Ht. exact Ht. }
  assert (IK : forall k, (k <= 3)%nat -> (0 <= INR k <= 3)%R). { intros k Hk. split; [apply pos_INR|]. replace 3%R with (INR 3) by (cbn; ring). now apply le_INR. }
  refine (C90_homogeneous R (locally 0%R) FF w w (fun _ _ => (0, 2)%R) (fun _ _ => (0, 1)%R) d (fun _ => 30)%R (fun _ => 150)%R (fun _ => 500)%R (fun _ => 1)%R (1, 3)%R (1, 3)%R (0, 2)%R (0, 1)%R (fun k => INR k * 100)%R 30 150 500 1 3
    CE CE _ _ _ (toR_const _ _) (toR_const _ _) (toR_const _ _) (toR_const _ _) _ _ _ (y_hm 1 Rlt_0_1) _ _ false 5%Z 6%Z [(1, 3)%R] [] _ _); try lra.
  - intros k Hk. now apply toC_const.
  - intros k Hk. now apply toC_const.
  - intros k Hk. unfold d. apply y_lim.
  - intros k Hk. destruct k as [|[|[|[|k]]]]; [lia| | | |lia]; cbn [INR]; lra.
  - intros k Hk. rewrite S_INR. lra.
  - exists (mkposreal (/ 4) ltac:(lra)). intros t Ht. unfold ball in Ht. cbn in Ht. unfold AbsRing_ball, abs, minus, plus, opp in Ht. cbn in Ht. apply Rabs_def2 in Ht. constructor.
    + intros k Hk. specialize (IK k Hk). unfold w. apply y_hm. assert (-1 < INR k * t)%R by nra. lra.
    + intros k Hk. unfold d. rewrite S_INR. lra.
  - unfold fs_pair. lia.
  - split; [intros c []|]. intros _ _. split; [reflexivity|]. split; [now left|]. split; [intros c [<-|[]]; cbn; lra|cbn; lra].
Qed.
(** The same for the parameters of the user; [spl_earth l zi x0] is the model x0 with an artificial interface at depth zi in layer l, [val_user] and [fs_user] are as in C89. *)
Theorem C90_model : forall T (F : (T -> Prop) -> Prop), Filter F -> forall (x : T -> earth) (x0 : earth) (N : nat) (m : mins) (f zs zr off phi : T -> R) (f0 zs0 zr0 off0 phi0 : R),
  sane N x0 -> increasing (x_dep x0) N -> (0 < min_freq m)%R -> f0 <> 0%R -> zs0 <> zr0 -> toR F f f0 -> toR F zs zs0 -> toR F zr zr0 -> toR F off off0 -> toR F phi phi0 ->
  forall a b, fs_pair a b -> forall l zi, conv_earth F (S N) x (spl_earth l zi x0) -> F (fun t => sane (S N) (x t)) -> off0 <> 0%R -> in_layer (x_dep x0) N l zi ->
  (forall k, (1 <= k <= N)%nat -> x_dep x0 k <> zs0 /\ x_dep x0 k <> zr0) -> zi <> zs0 -> zi <> zr0 ->
  exists V0, val_user m a b N false f0 x0 off0 phi0 zs0 zr0 V0 /\
  forall e : R, (0 < e)%R -> F (fun t => exists V, val_user m a b (S N) false (f t) (x t) (off t) (phi t) (zs t) (zr t) V /\ (Cmod (Cminus V V0) < e)%R).
Proof. exact (@contrast_user). Qed.
Theorem C90_model_homogeneous : forall T (F : (T -> Prop) -> Prop), Filter F -> forall (x : T -> earth) (x0 : earth) (N : nat) (m : mins) (f zs zr off phi : T -> R) (f0 zs0 zr0 off0 phi0 : R),
  sane N x0 -> increasing (x_dep x0) N -> (0 < min_freq m)%R -> f0 <> 0%R -> zs0 <> zr0 -> toR F f f0 -> toR F zs zs0 -> toR F zr zr0 -> toR F off off0 -> toR F phi phi0 ->
  forall a b, fs_pair a b -> conv_earth F N x x0 -> F (fun t => sane N (x t)) -> (0 < off0)%R ->
  (forall k, (k <= N)%nat -> x_res x0 k = x_res x0 0%nat /\ x_an x0 k = x_an x0 0%nat /\ x_epH x0 k = x_epH x0 0%nat /\ x_epV x0 k = x_epV x0 0%nat /\ x_muH x0 k = x_muH x0 0%nat /\ x_muV x0 k = x_muV x0 0%nat) ->
  (forall k, (1 <= k <= N)%nat -> x_dep x0 k <> zs0 /\ x_dep x0 k <> zr0) -> ((3 < a)%Z -> (3 < b)%Z -> (0 < f0)%R /\ (0 < x_epH x0 0%nat)%R) ->
  exists W, fs_user m a b 0 f0 x0 off0 phi0 zs0 zr0 = Ok W /\
  forall e : R, (0 < e)%R -> F (fun t => exists V, val_user m a b N false (f t) (x t) (off t) (phi t) (zs t) (zr t) V /\ (Cmod (Cminus V W) < e)%R).
Proof. exact (@homogeneous_user). Qed.
(** a layer below 100 m, with the resistivity of the layer above in the limit *)
Definition y_m : mins := {| min_freq := 1; min_time := 1; min_off := 1; min_res := 1; min_angle := 1 |}%R.
Definition y_x (r : nat -> R) (d : nat -> R) : earth := {| x_res := r; x_an := fun _ => 2%R; x_epH := fun _ => 1%R; x_epV := fun _ => 3%R; x_muH := fun _ => 1%R; x_muV := fun _ => 2%R; x_dep := d |}.
Definition y_r (t : R) (k : nat) : R := match k with O => 10 | S O => 20 | _ => 20 + t end%R.
Example C90_model_case : let x0 := y_x (fun k => match k with O => 10 | _ => 20 end%R) (fun _ => 0%R) in
  exists V0, val_user y_m 1 4 1 false 2 x0 500 1 30 50 V0 /\
  forall e : R, (0 < e)%R -> locally 0%R (fun t => exists V, val_user y_m 1 4 2 false (2 + t) (y_x (y_r t) (y_d t)) 500 1 30 50 V /\ (Cmod (Cminus V V0) < e)%R).
Proof.
  cbv zeta. assert (FF : Filter (locally 0%R)) by apply locally_filter.
  refine (C90_model R (locally 0%R) FF (fun t => y_x (y_r t) (y_d t)) _ 1 y_m (fun t => 2 + t)%R (fun _ => 30)%R (fun _ => 50)%R (fun _ => 500)%R (fun _ => 1)%R 2 30 50 500 1 _ _ _ _ _ (y_lim 2) (toR_const _ _) (toR_const _ _) (toR_const _ _) (toR_const _ _) 1%Z 4%Z _ 1%nat 100%R _ _ _ _ _ _ _); try lra.
  - constructor; intros k Hk; cbn; try lra; destruct k; lra.
  - intros k Hk. lia.
  - cbn. lra.
  - unfold fs_pair. lia.
  - constructor; intros k Hk; try (now apply toR_const); destruct k as [|[|[|k]]]; try lia; cbn; try (now apply toR_const); apply y_lim.
  - eapply filter_imp; [|exact y_near]. intros t Ht. constructor; intros k Hk; cbn; try lra; destruct k as [|[|[|k]]]; try lia; cbn; lra.
  - split; [lia|]. split; [right; cbn; lra|now left].
  - intros k Hk. cbn. lra.
Qed.
Example C90_model_homogeneous_case : let x (t : R) := y_x (fun k => match k with O => 10 + t | S O => 10 | _ => 10 - t end%R) (y_d t) in
  exists W, fs_user y_m 4 6 0 2 (x 0%R) 500 1 30 150 = Ok W /\
  forall e : R, (0 < e)%R -> locally 0%R (fun t => exists V, val_user y_m 4 6 2 false (2 + t) (x t) 500 1 30 150 V /\ (Cmod (Cminus V W) < e)%R).
Proof.
  cbv zeta. assert (FF : Filter (locally 0%R)) by apply locally_filter.
  assert (LM : toR (locally 0%R) (fun t : R => (10 - t)%R) (10 - 0)%R). { apply toR_eps; [assumption|]. intros e He. exists (mkposreal e He). intros y Hy. replace (10 - y - (10 - 0))%R with (- (y - 0))%R by ring. rewrite Rabs_Ropp. exact Hy. }
  refine (C90_model_homogeneous R (locally 0%R) FF (fun t : R => y_x (fun k => match k with O => 10 + t | S O => 10 | _ => 10 - t end%R) (y_d t)) _ 2 y_m (fun t => 2 + t)%R (fun _ => 30)%R (fun _ => 150)%R (fun _ => 500)%R (fun _ => 1)%R 2 30 150 500 1 _ _ _ _ _ (y_lim 2) (toR_const _ _) (toR_const _ _) (toR_const _ _) (toR_const _ _) 4%Z 6%Z _ _ _ _ _ _ _); try lra.
  - constructor; intros k Hk; cbn; try lra; destruct k as [|[|[|k]]]; try lia; cbn; lra.
  - intros k Hk. assert (k = 1)%nat by lia. subst k. cbn. lra.
  - cbn. lra.
  - unfold fs_pair. lia.
  - constructor; intros k Hk; try (now apply toR_const); destruct k as [|[|[|k]]]; try lia; cbn; try (now apply toR_const); try exact LM; rewrite Rplus_0_r; apply y_lim.
  - eapply filter_imp; [|exact y_near]. intros t Ht. constructor; intros k Hk; cbn; try lra; destruct k as [|[|[|k]]]; try lia; cbn; lra.
  - intros k Hk. destruct k as [|[|[|k]]]; try lia; cbn; repeat split; lra.
  - intros k Hk. destruct k as [|[|[|k]]]; try lia; cbn; lra.
  - intros _ _. cbn. lra.
Qed.
(** With the direct field computed separately (xdirect=True) the depths of source and receiver may be equal: the sum tends to the full-space solution. *)
Theorem C90_model_total : forall T (F : (T -> Prop) -> Prop), Filter F -> forall (x : T -> earth) (x0 : earth) (N s : nat) (m : mins) (f zs zr off phi : T -> R) (f0 zs0 zr0 off0 phi0 : R),
  conv_earth F N x x0 -> sane N x0 -> increasing (x_dep x0) N -> F (fun t => sane N (x t)) -> (0 < min_freq m)%R -> f0 <> 0%R -> (0 < off0)%R ->
  toR F f f0 -> toR F zs zs0 -> toR F zr zr0 -> toR F off off0 -> toR F phi phi0 -> in_layer (x_dep x0) N s zs0 -> in_layer (x_dep x0) N s zr0 ->
  forall a b, fs_pair a b -> ((3 < a)%Z -> (3 < b)%Z -> (0 < f0)%R /\ (0 < x_epH x0 s)%R) ->
  (forall k, (k <= N)%nat -> x_res x0 k = x_res x0 0%nat /\ x_an x0 k = x_an x0 0%nat /\ x_epH x0 k = x_epH x0 0%nat /\ x_epV x0 k = x_epV x0 0%nat /\ x_muH x0 k = x_muH x0 0%nat /\ x_muV x0 k = x_muV x0 0%nat) ->
  exists W0, fs_user m a b s f0 x0 off0 phi0 zs0 zr0 = Ok W0 /\
  forall e : R, (0 < e)%R -> F (fun t => exists V W, val_user m a b N true (f t) (x t) (off t) (phi t) (zs t) (zr t) V /\ fs_user m a b s (f t) (x t) (off t) (phi t) (zs t) (zr t) = Ok W /\ (Cmod (Cminus (Cplus V W) W0) < e)%R).
Proof. exact (@total_homogeneous). Qed.
Example C90_model_total_case : let x (t : R) := y_x (fun k => match k with O => 10 + t | S O => 10 | _ => 10 - t end%R) (y_d t) in
  exists W0, fs_user y_m 1 1 1 2 (x 0%R) 500 1 30 30 = Ok W0 /\
  forall e : R, (0 < e)%R -> locally 0%R (fun t => exists V W, val_user y_m 1 1 2 true (2 + t) (x t) 500 1 30 (30 + t) V /\ fs_user y_m 1 1 1 (2 + t) (x t) 500 1 30 (30 + t) = Ok W /\ (Cmod (Cminus (Cplus V W) W0) < e)%R).
Proof.
  cbv zeta. assert (FF : Filter (locally 0%R)) by apply locally_filter.
  assert (LM : toR (locally 0%R) (fun t : R => (10 - t)%R) (10 - 0)%R). { apply toR_eps; [assumption|]. intros e He. exists (mkposreal e He). intros y Hy. replace (10 - y - (10 - 0))%R with (- (y - 0))%R by ring. rewrite Rabs_Ropp. exact Hy. }
  refine (C90_model_total R (locally 0%R) FF (fun t : R => y_x (fun k => match k with O => 10 + t | S O => 10 | _ => 10 - t end%R) (y_d t)) _ 2 1 y_m (fun t => 2 + t)%R (fun _ => 30)%R (fun t => 30 + t)%R (fun _ => 500)%R (fun _ => 1)%R 2 30 30 500 1 _ _ _ _ _ _ _ (y_lim 2) (toR_const _ _) (y_lim 30) (toR_const _ _) (toR_const _ _) _ _ 1%Z 1%Z _ _ _); try lra.
  - constructor; intros k Hk; try (now apply toR_const); destruct k as [|[|[|k]]]; try lia; cbn; try (now apply toR_const); try exact LM; rewrite Rplus_0_r; apply y_lim.
  - constructor; intros k Hk; cbn; try lra; destruct k as [|[|[|k]]]; try lia; cbn; lra.
  - intros k Hk. assert (k = 1)%nat by lia. subst k. cbn. lra.
  - eapply filter_imp; [|exact y_near]. intros t Ht. constructor; intros k Hk; cbn; try lra; destruct k as [|[|[|k]]]; try lia; cbn; lra.
  - cbn. lra.
  - split; [lia|]. cbn. split; right; lra.
  - split; [lia|]. cbn. split; right; lra.
  - unfold fs_pair. lia.
  - intros Q. lia.
  - intros k Hk. destruct k as [|[|[|k]]]; try lia; cbn; repeat split; lra.
Qed.
(** The same for a vanishing interface; s is the layer of source and receiver in the model with the interface, [old l s] the one without. *)
Theorem C90_model_interface : forall T (F : (T -> Prop) -> Prop), Filter F -> forall (x : T -> earth) (x0 : earth) (N l s : nat) (zi : R) (m : mins) (f zs zr off phi : T -> R) (f0 zs0 zr0 off0 phi0 : R),
  sane N x0 -> increasing (x_dep x0) N -> in_layer (x_dep x0) N l zi -> conv_earth F (S N) x (spl_earth l zi x0) -> F (fun t => sane (S N) (x t)) -> (0 < min_freq m)%R -> f0 <> 0%R -> (0 < off0)%R ->
  toR F f f0 -> toR F zs zs0 -> toR F zr zr0 -> toR F off off0 -> toR F phi phi0 -> in_layer (splz l zi (x_dep x0)) (S N) s zs0 -> in_layer (splz l zi (x_dep x0)) (S N) s zr0 ->
  forall a b, fs_pair a b -> ((3 < a)%Z -> (3 < b)%Z -> (0 < f0)%R /\ (0 < x_epH x0 (old l s))%R) ->
  exists V0 W0, val_user m a b N true f0 x0 off0 phi0 zs0 zr0 V0 /\ fs_user m a b (old l s) f0 x0 off0 phi0 zs0 zr0 = Ok W0 /\
  forall e : R, (0 < e)%R -> F (fun t => exists V W, val_user m a b (S N) true (f t) (x t) (off t) (phi t) (zs t) (zr t) V /\ fs_user m a b s (f t) (x t) (off t) (phi t) (zs t) (zr t) = Ok W /\ (Cmod (Cminus (Cplus V W) (Cplus V0 W0)) < e)%R).
Proof. exact (@total_contrast). Qed.
Example C90_model_interface_case : let x0 := y_x (fun k => match k with O => 10 | _ => 20 end%R) (fun _ => 0%R) in
  exists V0 W0, val_user y_m 1 1 1 true 2 x0 500 1 150 150 V0 /\ fs_user y_m 1 1 1 2 x0 500 1 150 150 = Ok W0 /\
  forall e : R, (0 < e)%R -> locally 0%R (fun t => exists V W, val_user y_m 1 1 2 true (2 + t) (y_x (y_r t) (y_d t)) 500 1 150 (150 + t) V /\ fs_user y_m 1 1 2 (2 + t) (y_x (y_r t) (y_d t)) 500 1 150 (150 + t) = Ok W /\ (Cmod (Cminus (Cplus V W) (Cplus V0 W0)) < e)%R).
Proof.
  cbv zeta. assert (FF : Filter (locally 0%R)) by apply locally_filter.
  refine (C90_model_interface R (locally 0%R) FF (fun t => y_x (y_r t) (y_d t)) _ 1 1 2 100 y_m (fun t => 2 + t)%R (fun _ => 150)%R (fun t => 150 + t)%R (fun _ => 500)%R (fun _ => 1)%R 2 150 150 500 1 _ _ _ _ _ _ _ _ (y_lim 2) (toR_const _ _) (y_lim 150) (toR_const _ _) (toR_const _ _) _ _ 1%Z 1%Z _ _); try lra.
  - constructor; intros k Hk; cbn; try lra; destruct k; lra.
  - intros k Hk. lia.
  - split; [lia|]. split; [right; cbn; lra|now left].
  - constructor; intros k Hk; try (now apply toR_const); destruct k as [|[|[|k]]]; try lia; cbn; try (now apply toR_const); apply y_lim.
  - eapply filter_imp; [|exact y_near]. intros t Ht. constructor; intros k Hk; cbn; try lra; destruct k as [|[|[|k]]]; try lia; cbn; lra.
  - cbn. lra.
  - split; [lia|]. split; [right; cbn; lra|now left].
  - split; [lia|]. split; [right; cbn; lra|now left].
  - unfold fs_pair. lia.
  - intros Q. lia.
Qed.
Print Assumptions C90_contrast.
Print Assumptions C90_homogeneous.
Print Assumptions C90_model.
Print Assumptions C90_model_homogeneous.
Print Assumptions C90_model_total.
Print Assumptions C90_model_interface.
