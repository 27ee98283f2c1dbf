(** Properties C65 and C66: the Hankel transform of the wavenumber-domain kernel, the closed-form
    full-space solution and the direct-field switch in the space domain. *)

From Coq Require Import Reals ZArith List Bool Lia Lra Psatz QArith.
From Coquelicot Require Import Coquelicot.
From Verif Require Import PyBase CBase Kernel KernelSpec KernelPhys KernelClosed KernelPassive KernelSym KernelSplit KernelBVP KernelMain KernelThm KernelThm2 ODE Bessel KernelBessel UtilsAb KernelFinal PropsKernel Fullspace FullspaceThm FullspaceField Homog HomogThm.
Import ListNotations.
Local Open Scope R_scope.
Local Open Scope C_scope.
Local Open Scope res_scope.

(** ** C65 *)
(** For every stack of layers with the same properties, all 34 non-vanishing components and all
    anisotropies: the improper integral over the wavenumber of what kernel.wavenumber returns,
    assembled with the Bessel functions, converges, and its value is what kernel.fullspace
    returns.  Two magnetic dipoles need the frequency domain and positive permittivities (see
    C39_dual_conductive and C39_laplace_refuted for what happens otherwise). *)
Theorem C65_homogeneous : forall rdt a b eH eV zH zV z N off phi zs zr etas zetas,
  homog_medium eH eV zH zV -> increasing z N -> zs <> zr -> (0 < off)%R -> fs_pair a b ->
  (forall c, In c zetas -> 0 <= snd c)%R ->
  ((3 < a)%Z -> (3 < b)%Z -> rdt = false /\ In eH etas /\ (forall e, In e etas -> 0 < snd e)%R /\ (0 < snd zH)%R) ->
  exists V, fs_comp rdt (fs_anyneg (3 <? b)%Z (3 <? a)%Z etas zetas) a b off phi zs zr eH eV zH zV = Ok V /\
    hankel_value (cst eH) (cst eV) (cst zH) (cst zV) z N (10 * a + b) false off phi zs zr V.
Proof. exact homog_value. Qed.
(** The value of the integral is unique. *)
Theorem C65_unique : forall eH eV zH zV z N raw xd off phi zs zr V V',
  hankel_value eH eV zH zV z N raw xd off phi zs zr V -> hankel_value eH eV zH zV z N raw xd off phi zs zr V' -> V = V'.
Proof. exact hankel_unique. Qed.

Lemma hm_ex : homog_medium (1 / 2, 3)%R (1, 3)%R (0, 2)%R (0, 1)%R.
Proof.
  constructor; try (split; [simpl; lra|split; [simpl; lra|intros W; injection W; lra]]); try (split; simpl; lra).
  unfold Cdiv, Cinv, Cmult. cbn [fst snd]. field_simplify; lra.
Qed.
(** receiver in another layer of a three-layer stack of the same anisotropic material *)
Example C65_case : exists V,
  fs_comp false (fs_anyneg true true [(1 / 2, 3)%R] [(0, 2)%R]) 5 6 40 1 (-5) 130 (1 / 2, 3)%R (1, 3)%R (0, 2)%R (0, 1)%R = Ok V /\
  hankel_value (cst (1 / 2, 3)%R) (cst (1, 3)%R) (cst (0, 2)%R) (cst (0, 1)%R) x_z 2 56 false 40 1 (-5) 130 V.
Proof.
  apply (C65_homogeneous false 5 6 (1 / 2, 3)%R (1, 3)%R (0, 2)%R (0, 1)%R x_z 2 40 1 (-5) 130 [(1 / 2, 3)%R] [(0, 2)%R] hm_ex x_incr); try lra.
  - split; [lia|split; lia].
  - intros c [<- | []]. simpl. lra.
  - intros _ _. split; [reflexivity|]. split; [left; reflexivity|]. split; [intros e [<- | []]; simpl; lra|simpl; lra].
Qed.

(** ** C66 *)
(** Source and receiver in the same layer of any passive stack: the integral of the kernel without
    direct field plus kernel.fullspace for that layer is the integral of the kernel with direct
    field; if one of the integrals converges, so does the other. *)
Theorem C66_direct_field : forall rdt a b eH eV zH zV z N off phi zs zr etas zetas,
  passive_medium eH eV zH zV z N -> zs <> zr -> (0 < off)%R -> fs_pair a b ->
  lay z N zs = lay z N zr -> let s := lay z N zs in
  homog_medium (eH s) (eV s) (zH s) (zV s) ->
  (forall c, In c zetas -> 0 <= snd c)%R ->
  ((3 < a)%Z -> (3 < b)%Z -> rdt = false /\ In (eH s) etas /\ (forall e, In e etas -> 0 < snd e)%R /\ (0 < snd (zH s))%R) ->
  exists W, fs_comp rdt (fs_anyneg (3 <? b)%Z (3 <? a)%Z etas zetas) a b off phi zs zr (eH s) (eV s) (zH s) (zV s) = Ok W /\
    forall V, hankel_value eH eV zH zV z N (10 * a + b) true off phi zs zr V <->
              hankel_value eH eV zH zV z N (10 * a + b) false off phi zs zr (V + W).
Proof. exact direct_value. Qed.
(** In different layers the switch has no effect. *)
Theorem C66_other_layer : forall raw eH eV zH zV z N off phi zs zr V ab ms mr,
  passive_medium eH eV zH zV z N -> check_ab (AbNum (inject_Z raw)) = Ok (ab, ms, mr) -> valid_call ab ms mr -> lay z N zs <> lay z N zr ->
  hankel_value eH eV zH zV z N raw true off phi zs zr V <-> hankel_value eH eV zH zV z N raw false off phi zs zr V.
Proof. exact direct_other. Qed.
Lemma x_lay : lay x_z 2 20 = 1%nat /\ lay x_z 2 40 = 1%nat.
Proof. split; cbn [lay]; cbn; repeat (destruct (Rlt_dec _ _); [try lra|try lra]); reflexivity. Qed.
Example C66_case : exists W,
  fs_comp false (fs_anyneg false false [x_eH 1] [x_zH 1]) 1 3 500 1 20 40 (x_eH 1) (x_eV 1) (x_zH 1) (x_zV 1) = Ok W /\
  forall V, hankel_value x_eH x_eV x_zH x_zV x_z 2 13 true 500 1 20 40 V <->
            hankel_value x_eH x_eV x_zH x_zV x_z 2 13 false 500 1 20 40 (V + W).
Proof.
  destruct x_lay as [L1 L2].
  pose proof (C66_direct_field false 1 3 x_eH x_eV x_zH x_zV x_z 2 500 1 20 40 [x_eH 1] [x_zH 1] x_passive ltac:(lra) ltac:(lra)) as H.
  cbv zeta in H. rewrite L1, L2 in H. apply H; try reflexivity.
  - split; [lia|split; lia].
  - constructor; try (split; [simpl; lra|split; [simpl; lra|intros W; injection W; lra]]); try (split; simpl; lra).
    unfold x_zH, x_zV, Cdiv, Cinv, Cmult. cbn [fst snd]. field_simplify; lra.
  - intros c [<- | []]. simpl. lra.
  - lia.
Qed.
Print Assumptions C65_homogeneous.
Print Assumptions C65_unique.
Print Assumptions C66_direct_field.
Print Assumptions C66_other_layer.
