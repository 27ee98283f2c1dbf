(** Properties C76 ...: the space-domain response of layered models. *)

From Coq Require Import Reals ZArith List Bool Lia Lra Psatz QArith.
From Coquelicot Require Import Coquelicot.
From Verif Require Import PyBase CBase Kernel KernelSpec KernelPhys KernelClosed KernelPassive KernelSym KernelSplit KernelBVP KernelMain KernelThm KernelThm2 ODE Bessel KernelBessel UtilsAb KernelFinal PropsKernel Fullspace FullspaceThm FullspaceField Cint Homog HomogThm LayAsym LayConv FullspaceCurl FullspaceEM LayMaxwell LayVal LayEM LayCont LaySym LayRefl LayScale LayConj KernelThin LayThin KernelPower.
Import ListNotations.
Local Open Scope R_scope.
Local Open Scope C_scope.
Local Open Scope res_scope.

(** ** C76 *)
(** The integral over the wavenumber exists for every layered model, component and angle as soon as
    source and receiver are at different depths, with and without the direct field. *)
Theorem C76_converges : forall a b eH eV zH zV z N xd off phi zs zr, layered eH eV zH zV z N -> fs_pair a b -> zs <> zr ->
  exists V, hankel_value eH eV zH zV z N (10 * a + b) xd off phi zs zr V.
Proof. exact layered_converges. Qed.
(** At the same depth inside a layer it exists for the reflected field (direct field in the space
    domain). *)
Theorem C76_reflected : forall a b eH eV zH zV z N off phi s zs zr, layered eH eV zH zV z N -> fs_pair a b ->
  in_layer z N s zs -> in_layer z N s zr -> exists V, hankel_value eH eV zH zV z N (10 * a + b) true off phi zs zr V.
Proof. exact reflected_converges. Qed.
(** The integrand decays exponentially; the rate per metre depends on the model only. *)
Theorem C76_decay : forall eH eV zH zV z N, layered eH eV zH zV z N -> exists rate : R, (0 < rate)%R /\
  forall a b xd off phi zs zr, fs_pair a b -> exists F M n, integrand eH eV zH zV z N (10 * a + b) xd off phi zs zr F /\
    forall lam : R, (0 <= lam)%R -> (Cmod (F lam) <= M * (1 + lam) ^ n * exp (- (rate * Rabs (zs - zr) * lam)))%R.
Proof. exact layered_decay. Qed.
(** Cutting the integral off at T costs an exponentially small error. *)
Theorem C76_truncation : forall a b eH eV zH zV z N xd off phi zs zr, layered eH eV zH zV z N -> fs_pair a b -> zs <> zr ->
  exists V F K c, (0 < c)%R /\ hankel_value eH eV zH zV z N (10 * a + b) xd off phi zs zr V /\ integrand eH eV zH zV z N (10 * a + b) xd off phi zs zr F /\
    forall T : R, (0 <= T)%R -> (Cmod (CI F 0 T - V)%C <= K * exp (- (c * T)))%R.
Proof. exact layered_truncation. Qed.

Lemma x_layered : layered x_eH x_eV x_zH x_zV x_z 2.
Proof.
  split; [|exact x_incr]. intros k Hk. assert (k = 0 \/ k = 1 \/ k = 2)%nat as [-> | [-> | ->]] by lia;
  (constructor; [split; simpl; lra|split; simpl; lra|split; [simpl; lra|split; [simpl; lra|intros W; injection W; lra]]|split; [simpl; lra|split; [simpl; lra|intros W; injection W; lra]]|];
   unfold x_zH, x_zV, Cdiv, Cinv, Cmult; cbn [fst snd]; field_simplify; lra).
Qed.
Example C76_case : (exists V, hankel_value x_eH x_eV x_zH x_zV x_z 2 56 false 500 1 (-5) 130 V) /\
  (exists V, hankel_value x_eH x_eV x_zH x_zV x_z 2 11 true 500 1 30 30 V).
Proof.
  split.
  - apply (C76_converges 5 6 _ _ _ _ _ _ false 500 1 (-5) 130 x_layered); [split; lia|lra].
  - apply (C76_reflected 1 1 _ _ _ _ _ _ 500 1 1 30 30 x_layered); [split; lia| |]; apply x_in1.
Qed.
Print Assumptions C76_converges.
Print Assumptions C76_reflected.
Print Assumptions C76_decay.
Print Assumptions C76_truncation.

(** ** C77 *)
(** The responses of a layered model solve the diffusive Maxwell equations in every layer, away from
    the depth of the source, for a source of each type and direction. *)
Theorem C77_maxwell : forall eH eV zH zV z N b xs ys zs, layered eH eV zH zV z N -> (1 <= b <= 6)%Z ->
  exists E H : Z -> R -> R -> R -> C,
    (forall a x y zr, (1 <= a <= 3)%Z -> zr <> zs ->
       lay_xyz eH eV zH zV z N false a b xs ys zs x y zr (E a x y zr) /\ lay_xyz eH eV zH zV z N false (a + 3) b xs ys zs x y zr (H a x y zr)) /\
    (forall k x y zr, off_axis xs ys x y -> in_layer z N k zr -> zr <> zs -> maxwell (eH k) (eV k) (zH k) (zV k) E H x y zr).
Proof. exact layered_maxwell. Qed.
(** So does every family of functions that has these values. *)
Theorem C77_any : forall eH eV zH zV z N b xs ys zs (E H : Z -> R -> R -> R -> C), layered eH eV zH zV z N -> (1 <= b <= 6)%Z ->
  (forall a x y zr, (1 <= a <= 3)%Z -> off_axis xs ys x y -> zr <> zs ->
     lay_xyz eH eV zH zV z N false a b xs ys zs x y zr (E a x y zr) /\ lay_xyz eH eV zH zV z N false (a + 3) b xs ys zs x y zr (H a x y zr)) ->
  forall x y zr, off_axis xs ys x y -> zr <> zs -> (forall k, (1 <= k <= N)%nat -> zr <> z k) ->
  let k := lay z N zr in maxwell (eH k) (eV k) (zH k) (zV k) E H x y zr.
Proof. exact layered_maxwell_any. Qed.
(** At the interfaces, and everywhere else off the source depth, the tangential components are
    continuous in depth, and so are the normal ones times the vertical parameter of the layer
    (the normal current and the normal flux). *)
Theorem C77_continuous : forall eH eV zH zV z N, layered eH eV zH zV z N ->
  forall a b xs ys zs x y (F : R -> C), (1 <= a <= 6)%Z -> (1 <= b <= 6)%Z -> off_axis xs ys x y ->
  (forall w, w <> zs -> lay_xyz eH eV zH zV z N false a b xs ys zs x y w (F w)) ->
  forall zr, zr <> zs ->
  contC (fun w => (if (a =? 3)%Z then eV (lay z N w) else if (a =? 6)%Z then zV (lay z N w) else RtoC 1) * F w) zr.
Proof. exact layered_continuous. Qed.

Example C77_case : exists E H : Z -> R -> R -> R -> C,
  (forall a x y zr, (1 <= a <= 3)%Z -> zr <> 30%R ->
     lay_xyz x_eH x_eV x_zH x_zV x_z 2 false a 1 0 0 30 x y zr (E a x y zr) /\ lay_xyz x_eH x_eV x_zH x_zV x_z 2 false (a + 3) 1 0 0 30 x y zr (H a x y zr)) /\
  maxwell (x_eH 1%nat) (x_eV 1%nat) (x_zH 1%nat) (x_zV 1%nat) E H 300 400 50 /\
  contC (fun w => 1 * E 1%Z 300 400 w) (x_z 2).
Proof.
  destruct (C77_maxwell x_eH x_eV x_zH x_zV x_z 2 1 0 0 30 x_layered ltac:(lia)) as (E & H & V & M). exists E, H. split; [exact V|]. split.
  - apply M; [unfold off_axis; lra| |lra]. split; [lia|]. split; right; simpl; lra.
  - refine (C77_continuous x_eH x_eV x_zH x_zV x_z 2 x_layered 1 1 0 0 30 300 400 (fun w => E 1%Z 300 400 w)%R _ _ _ _ _ _); [lia|lia|unfold off_axis; lra|intros w Hw; apply V; [lia|exact Hw]|cbn; lra].
Qed.
Print Assumptions C77_maxwell.
Print Assumptions C77_any.
Print Assumptions C77_continuous.

(** ** C78 *)
(** Source and receiver can be exchanged; between an electric and a magnetic one the sign changes. *)
Theorem C78_reciprocity : forall eH eV zH zV z N a b xs ys zs x y zr V, passive_medium eH eV zH zV z N -> (1 <= a <= 6)%Z -> (1 <= b <= 6)%Z -> off_axis xs ys x y ->
  lay_xyz eH eV zH zV z N false a b xs ys zs x y zr V <->
  lay_xyz eH eV zH zV z N false b a x y zr xs ys zs ((if xorb (3 <? a)%Z (3 <? b)%Z then - (1) else RtoC 1) * V).
Proof. exact lay_reciprocity. Qed.
(** Exchanging electric with magnetic components and admittivities with impedivities. *)
Theorem C78_duality : forall eH eV zH zV z N a b xs ys zs x y zr V, passive_medium eH eV zH zV z N -> (1 <= a <= 6)%Z -> (1 <= b <= 6)%Z -> off_axis xs ys x y ->
  lay_xyz eH eV zH zV z N false a b xs ys zs x y zr V <->
  lay_xyz zH zV eH eV z N false (if (3 <? a)%Z then (a - 3)%Z else (a + 3)%Z) (if (3 <? b)%Z then (b - 3)%Z else (b + 3)%Z) xs ys zs x y zr
    ((if xorb (3 <? a)%Z (3 <? b)%Z then - (1) else RtoC 1) * V).
Proof. exact lay_duality. Qed.
(** Turning the model upside down. *)
Theorem C78_mirror : forall eH eV zH zV z N a b xs ys zs x y zr s r V, passive_medium eH eV zH zV z N -> increasing z N -> in_layer z N s zs -> in_layer z N r zr -> (1 <= a <= 6)%Z -> (1 <= b <= 6)%Z -> off_axis xs ys x y ->
  lay_xyz eH eV zH zV z N false a b xs ys zs x y zr V <->
  lay_xyz (mir N eH) (mir N eV) (mir N zH) (mir N zV) (mirz z N) N false a b xs ys (- zs) x y (- zr)
    ((if inb a [3; 4; 5]%Z then - (1) else RtoC 1) * (if inb b [3; 4; 5]%Z then - (1) else RtoC 1) * V).
Proof. exact lay_mirror_xyz. Qed.
(** Rotating the receiver around the source rotates the tensor of responses: [rotC h] rotates the
    components 1, 2 and the components 4, 5 by the angle h. *)
Theorem C78_rotation : forall eH eV zH zV z N h xs ys zs x y zr (V : Z -> Z -> C), passive_medium eH eV zH zV z N -> off_axis xs ys x y ->
  (forall a b, (1 <= a <= 6)%Z -> (1 <= b <= 6)%Z -> lay_xyz eH eV zH zV z N false a b xs ys zs x y zr (V a b)) ->
  forall a b, (1 <= a <= 6)%Z -> (1 <= b <= 6)%Z ->
  lay_xyz eH eV zH zV z N false a b xs ys zs (xs + ((x - xs) * cos h - (y - ys) * sin h)) (ys + ((x - xs) * sin h + (y - ys) * cos h)) zr (rotC h a (fun c => rotC h b (fun d => V c d))).
Proof. exact lay_rotation. Qed.
(** Reflection at a vertical plane. *)
Theorem C78_reflection : forall eH eV zH zV z N a b xs ys zs x y zr V, passive_medium eH eV zH zV z N -> (1 <= a <= 6)%Z -> (1 <= b <= 6)%Z -> off_axis xs ys x y ->
  lay_xyz eH eV zH zV z N false a b xs ys zs x y zr V <->
  lay_xyz eH eV zH zV z N false a b xs (- ys) zs x (- y) zr ((if inb a [2; 4; 6]%Z then - (1) else RtoC 1) * (if inb b [2; 4; 6]%Z then - (1) else RtoC 1) * V).
Proof. exact lay_reflection. Qed.
(** Moving everything. *)
Theorem C78_translation : forall eH eV zH zV z N xd a b xs ys zs x y zr V dx dy dz, passive_medium eH eV zH zV z N -> (1 <= a <= 6)%Z -> (1 <= b <= 6)%Z ->
  lay_xyz eH eV zH zV z N xd a b xs ys zs x y zr V <-> lay_xyz eH eV zH zV (fun k => z k + dz)%R N xd a b (xs + dx) (ys + dy) (zs + dz) (x + dx) (y + dy) (zr + dz) V.
Proof. exact lay_translation. Qed.
(** An interface between two equal layers, anywhere. *)
Theorem C78_artificial_interface : forall eH eV zH zV z N m zi a b xs ys zs x y zr V, passive_medium eH eV zH zV z N -> increasing z N -> in_layer z N m zi -> (1 <= a <= 6)%Z -> (1 <= b <= 6)%Z ->
  lay_xyz (spl m eH) (spl m eV) (spl m zH) (spl m zV) (splz m zi z) (S N) false a b xs ys zs x y zr V <-> lay_xyz eH eV zH zV z N false a b xs ys zs x y zr V.
Proof. exact lay_split_xyz. Qed.
Example C78_case : exists V, lay_xyz x_eH x_eV x_zH x_zV x_z 2 false 4 1 0 0 30 300 400 50 V /\
  lay_xyz x_eH x_eV x_zH x_zV x_z 2 false 1 4 300 400 50 0 0 30 (- (1) * V) /\
  lay_xyz x_eH x_eV x_zH x_zV x_z 2 false 4 1 0 (- 0) 30 300 (- 400) 50 (- (1) * 1 * V).
Proof.
  destruct (lay_xyz_exists x_eH x_eV x_zH x_zV x_z 2 false 4 1 0 0 30 300 400 50 x_layered ltac:(lia) ltac:(lia) ltac:(lra)) as [V HV]. exists V. split; [exact HV|]. split.
  - apply (C78_reciprocity x_eH x_eV x_zH x_zV x_z 2 4 1 0 0 30 300 400 50 V x_passive); [lia|lia|unfold off_axis; lra|exact HV].
  - apply (C78_reflection x_eH x_eV x_zH x_zV x_z 2 4 1 0 0 30 300 400 50 V x_passive); [lia|lia|unfold off_axis; lra|exact HV].
Qed.
Print Assumptions C78_reciprocity.
Print Assumptions C78_duality.
Print Assumptions C78_mirror.
Print Assumptions C78_rotation.
Print Assumptions C78_reflection.
Print Assumptions C78_translation.
Print Assumptions C78_artificial_interface.

(** ** C79 *)
(** xdirect=None, only the field reflected at the interfaces: it solves Maxwell's equations in the
    whole layer of the source, at the depth of the source too. *)
Theorem C79_reflected : forall eH eV zH zV z N b s xs ys zs, layered eH eV zH zV z N -> (1 <= b <= 6)%Z -> in_layer z N s zs ->
  exists E H : Z -> R -> R -> R -> C,
    (forall a x y zr, (1 <= a <= 3)%Z -> in_layer z N s zr ->
       lay_xyz eH eV zH zV z N true a b xs ys zs x y zr (E a x y zr) /\ lay_xyz eH eV zH zV z N true (a + 3) b xs ys zs x y zr (H a x y zr)) /\
    (forall x y zr, off_axis xs ys x y -> in_layer z N s zr -> maxwell (eH s) (eV s) (zH s) (zV s) E H x y zr).
Proof. exact reflected_maxwell. Qed.
(** xdirect=True, the reflected field plus the closed form of the direct field: it solves them in
    every layer at every point off the vertical line through the source. *)
Theorem C79_total : forall rdt etas zetas eH eV zH zV z N b s xs ys zs, layered eH eV zH zV z N -> (1 <= b <= 6)%Z -> in_layer z N s zs ->
  fs_data rdt etas zetas b (eH s) (zH s) ->
  exists E H : Z -> R -> R -> R -> C,
    (forall a x y zr, (1 <= a <= 3)%Z -> off_axis xs ys x y ->
       lay_total rdt etas zetas eH eV zH zV z N a b xs ys zs x y zr (E a x y zr) /\ lay_total rdt etas zetas eH eV zH zV z N (a + 3) b xs ys zs x y zr (H a x y zr)) /\
    (forall k x y zr, off_axis xs ys x y -> in_layer z N k zr -> maxwell (eH k) (eV k) (zH k) (zV k) E H x y zr).
Proof. exact total_maxwell. Qed.
(** Off the source depth it is the response of xdirect=False. *)
Theorem C79_agree : forall rdt etas zetas eH eV zH zV z N a b xs ys zs x y zr T, layered eH eV zH zV z N -> (1 <= a <= 6)%Z -> (1 <= b <= 6)%Z -> off_axis xs ys x y -> zs <> zr ->
  fs_data rdt etas zetas b (eH (lay z N zs)) (zH (lay z N zs)) ->
  lay_total rdt etas zetas eH eV zH zV z N a b xs ys zs x y zr T -> lay_xyz eH eV zH zV z N false a b xs ys zs x y zr T.
Proof. exact total_value. Qed.

(** Source and receiver at the same depth, inside the middle layer. *)
Example C79_case : exists E H : Z -> R -> R -> R -> C,
  lay_total false [] [] x_eH x_eV x_zH x_zV x_z 2 1 1 0 0 30 300 400 30 (E 1%Z 300 400 30)%R /\ maxwell (x_eH 1%nat) (x_eV 1%nat) (x_zH 1%nat) (x_zV 1%nat) E H 300 400 30.
Proof.
  destruct (C79_total false [] [] x_eH x_eV x_zH x_zV x_z 2 1 1 0 0 30 x_layered ltac:(lia)) as (E & H & V & M).
  - split; [lia|]. split; right; simpl; lra.
  - split; [intros c []|lia].
  - exists E, H. split; [apply V; [lia|unfold off_axis; lra]|]. apply M; [unfold off_axis; lra|]. split; [lia|]. split; right; simpl; lra.
Qed.
Print Assumptions C79_reflected.
Print Assumptions C79_total.
Print Assumptions C79_agree.

(** ** C80 *)
(** All lengths are multiplied by L, the admittivities by al and the impedivities by be with al be L^2 = 1:
    electric fields of electric sources are divided by al L^3, magnetic fields of magnetic sources by be L^3,
    the mixed ones by L^2. *)
Theorem C80_scaling : forall eH eV zH zV z N (al be L : R) a b xs ys zs x y zr V, passive_medium eH eV zH zV z N -> (0 < al)%R -> (0 < be)%R -> (0 < L)%R -> (al * be * (L * L) = 1)%R ->
  (1 <= a <= 6)%Z -> (1 <= b <= 6)%Z -> off_axis xs ys x y ->
  lay_xyz eH eV zH zV z N false a b xs ys zs x y zr V <->
  lay_xyz (fun k => RtoC al * eH k) (fun k => RtoC al * eV k) (fun k => RtoC be * zH k) (fun k => RtoC be * zV k) (fun k => L * z k)%R N false a b (L * xs) (L * ys) (L * zs) (L * x) (L * y) (L * zr)
    (RtoC ((if (a <=? 3)%Z then / (al * L) else 1) * (if (b <=? 3)%Z then 1 else al * L) / (L * L)) * V).
Proof. exact lay_scale. Qed.
(** The same model in larger units: conductivities and permeabilities stay, lengths are multiplied by L,
    the frequency is divided by L^2 and the permittivities are multiplied by L^2. *)
Theorem C80_lengths : forall sH sV eH eV mH mV (s : C) z N (L : R) a b xs ys zs x y zr V,
  let eta := fun (sig eps : nat -> R) (s : C) (k : nat) => RtoC (sig k) + s * RtoC (eps k) in let zeta := fun (mu : nat -> R) (s : C) (k : nat) => s * RtoC (mu k) in
  passive_medium (eta sH eH s) (eta sV eV s) (zeta mH s) (zeta mV s) z N -> (0 < L)%R ->
  (1 <= a <= 6)%Z -> (1 <= b <= 6)%Z -> off_axis xs ys x y ->
  let s' := RtoC (/ (L * L)) * s in let up := fun (eps : nat -> R) k => (L * L * eps k)%R in
  lay_xyz (eta sH eH s) (eta sV eV s) (zeta mH s) (zeta mV s) z N false a b xs ys zs x y zr V <->
  lay_xyz (eta sH (up eH) s') (eta sV (up eV) s') (zeta mH s') (zeta mV s') (fun k => L * z k)%R N false a b (L * xs) (L * ys) (L * zs) (L * x) (L * y) (L * zr)
    (RtoC ((if (a <=? 3)%Z then / L else 1) * (if (b <=? 3)%Z then 1 else L) / (L * L)) * V).
Proof. exact lay_lengths. Qed.
Example C80_case : exists V, lay_xyz x_eH x_eV x_zH x_zV x_z 2 false 4 1 0 0 30 300 400 50 V /\
  lay_xyz (fun k => RtoC 1 * x_eH k) (fun k => RtoC 1 * x_eV k) (fun k => RtoC (/ 4) * x_zH k) (fun k => RtoC (/ 4) * x_zV k) (fun k => 2 * x_z k)%R 2 false 4 1 (2 * 0) (2 * 0) (2 * 30) (2 * 300) (2 * 400) (2 * 50) (RtoC (1 * 1 / (2 * 2)) * V).
Proof.
  destruct (lay_xyz_exists x_eH x_eV x_zH x_zV x_z 2 false 4 1 0 0 30 300 400 50 x_layered ltac:(lia) ltac:(lia) ltac:(lra)) as [V HV]. exists V. split; [exact HV|].
  apply (C80_scaling x_eH x_eV x_zH x_zV x_z 2 1 (/ 4) 2 4 1 0 0 30 300 400 50 V x_passive); [lra|lra|lra|lra|lia|lia|unfold off_axis; lra|exact HV].
Qed.
Print Assumptions C80_scaling.
Print Assumptions C80_lengths.

(** ** C81 *)
(** Complex conjugate parameters give the complex conjugate response. *)
Theorem C81_conjugate : forall eH eV zH zV eH' eV' zH' zV' z N, passive_medium eH eV zH zV z N ->
  (forall k, (k <= N)%nat -> eH' k = Cconj (eH k)) -> (forall k, (k <= N)%nat -> eV' k = Cconj (eV k)) -> (forall k, (k <= N)%nat -> zH' k = Cconj (zH k)) -> (forall k, (k <= N)%nat -> zV' k = Cconj (zV k)) ->
  forall a b xs ys zs x y zr V, (1 <= a <= 6)%Z -> (1 <= b <= 6)%Z -> off_axis xs ys x y ->
  lay_xyz eH eV zH zV z N false a b xs ys zs x y zr V <-> lay_xyz eH' eV' zH' zV' z N false a b xs ys zs x y zr (Cconj V).
Proof. exact lay_conj. Qed.
(** The response at the frequency -f is the complex conjugate of the one at f (s = 2 pi i f), which is what
    the transforms to the time domain use for the negative frequencies. *)
Theorem C81_negative_frequency : forall sH sV eH eV mH mV (f : R) z N a b xs ys zs x y zr V,
  let s := fun f : R => (0, 2 * PI * f)%R in
  let eta := fun (sig eps : nat -> R) (s : C) (k : nat) => RtoC (sig k) + s * RtoC (eps k) in let zeta := fun (mu : nat -> R) (s : C) (k : nat) => s * RtoC (mu k) in
  passive_medium (eta sH eH (s f)) (eta sV eV (s f)) (zeta mH (s f)) (zeta mV (s f)) z N ->
  (1 <= a <= 6)%Z -> (1 <= b <= 6)%Z -> off_axis xs ys x y ->
  lay_xyz (eta sH eH (s f)) (eta sV eV (s f)) (zeta mH (s f)) (zeta mV (s f)) z N false a b xs ys zs x y zr V <->
  lay_xyz (eta sH eH (s (- f)%R)) (eta sV eV (s (- f)%R)) (zeta mH (s (- f)%R)) (zeta mV (s (- f)%R)) z N false a b xs ys zs x y zr (Cconj V).
Proof. exact lay_negfreq. Qed.
(** Real parameters, as in the Laplace domain, give real responses. *)
Theorem C81_laplace_real : forall eH eV zH zV z N a b xs ys zs x y zr V, passive_medium eH eV zH zV z N ->
  (forall k, (k <= N)%nat -> snd (eH k) = 0 /\ snd (eV k) = 0 /\ snd (zH k) = 0 /\ snd (zV k) = 0)%R ->
  (1 <= a <= 6)%Z -> (1 <= b <= 6)%Z -> off_axis xs ys x y -> lay_xyz eH eV zH zV z N false a b xs ys zs x y zr V -> snd V = 0%R.
Proof. exact lay_real. Qed.
Definition y_e (k : nat) : C := match k with O => (1, 0) | S O => (1/10, 0) | _ => (2, 0) end%R.
Definition y_z (k : nat) : C := match k with O => (1, 0) | S O => (2, 0) | _ => (3, 0) end%R.
Lemma y_layered : layered y_e y_e y_z y_z x_z 2.
Proof.
  split; [|exact x_incr]. intros k Hk. assert (k = 0 \/ k = 1 \/ k = 2)%nat as [-> | [-> | ->]] by lia;
  (constructor; [split; simpl; lra|split; simpl; lra|split; [simpl; lra|split; [simpl; lra|intros W; injection W; lra]]|split; [simpl; lra|split; [simpl; lra|intros W; injection W; lra]]|];
   unfold y_z, Cdiv, Cinv, Cmult; cbn [fst snd]; field_simplify; lra).
Qed.
Lemma y_passive : passive_medium y_e y_e y_z y_z x_z 2.
Proof.
  constructor; intros k Hk; try (assert (E : k = 0%nat \/ k = 1%nat \/ k = 2%nat) by lia;
    destruct E as [E|[E|E]]; subst k; simpl; try lra; try (intro E; injection E; lra)).
Qed.
Example C81_case : (exists V, lay_xyz x_eH x_eV x_zH x_zV x_z 2 false 4 1 0 0 30 300 400 50 V /\
  lay_xyz (fun k => Cconj (x_eH k)) (fun k => Cconj (x_eV k)) (fun k => Cconj (x_zH k)) (fun k => Cconj (x_zV k)) x_z 2 false 4 1 0 0 30 300 400 50 (Cconj V)) /\
  exists v : R, lay_xyz y_e y_e y_z y_z x_z 2 false 4 1 0 0 30 300 400 50 (RtoC v).
Proof.
  split.
  - destruct (lay_xyz_exists x_eH x_eV x_zH x_zV x_z 2 false 4 1 0 0 30 300 400 50 x_layered ltac:(lia) ltac:(lia) ltac:(lra)) as [V HV]. exists V. split; [exact HV|].
    refine (proj1 (C81_conjugate x_eH x_eV x_zH x_zV _ _ _ _ x_z 2 x_passive _ _ _ _ 4 1 0 0 30 300 400 50 V _ _ _) HV)%Z; first [reflexivity|lia|unfold off_axis; lra].
  - destruct (lay_xyz_exists y_e y_e y_z y_z x_z 2 false 4 1 0 0 30 300 400 50 y_layered ltac:(lia) ltac:(lia) ltac:(lra)) as [V HV].
    exists (fst V). replace (RtoC (fst V)) with V; [exact HV|].
    assert (Z0 : snd V = 0%R). { refine (C81_laplace_real y_e y_e y_z y_z x_z 2 4 1 0 0 30 300 400 50 V y_passive _ _ _ _ HV); [|lia|lia|unfold off_axis; lra]. intros k _. destruct k as [|[|k]]; cbn; repeat split; reflexivity. }
    destruct V as [u v]. cbn in Z0. now subst v.
Qed.
Print Assumptions C81_conjugate.
Print Assumptions C81_negative_frequency.
Print Assumptions C81_laplace_real.

(** ** C82 *)
(** A layer of zero thickness, as given by a repeated interface depth, has no effect: in the kernel, for every wavenumber, ... *)
Theorem C82_kernel : forall eH eV zH zV z N m (eh ev zh zv : C) lam ab xd msrc mrec zs zr, passive_medium eH eV zH zV z N -> (1 <= m <= N)%nat ->
  (0 < fst eh)%R -> (0 < fst ev)%R -> (0 <= fst zh)%R -> (0 <= fst zv)%R -> zh <> 0 -> zv <> 0 -> valid_call ab msrc mrec ->
  gcall (ins m eh eH) (ins m ev eV) (ins m zh zH) (ins m zv zV) (insz m z) (S N) lam ab xd msrc mrec (lay (insz m z) (S N) zs) (lay (insz m z) (S N) zr) zs zr
  = gcall eH eV zH zV z N lam ab xd msrc mrec (lay z N zs) (lay z N zr) zs zr.
Proof. exact thin_invariant. Qed.
(** ... and in space. *)
Theorem C82_space : forall eH eV zH zV z N m (eh ev zh zv : C) xd a b xs ys zs x y zr V, passive_medium eH eV zH zV z N -> (1 <= m <= N)%nat ->
  (0 < fst eh)%R -> (0 < fst ev)%R -> (0 <= fst zh)%R -> (0 <= fst zv)%R -> zh <> 0 -> zv <> 0 -> (1 <= a <= 6)%Z -> (1 <= b <= 6)%Z ->
  lay_xyz (ins m eh eH) (ins m ev eV) (ins m zh zH) (ins m zv zV) (insz m z) (S N) xd a b xs ys zs x y zr V <-> lay_xyz eH eV zH zV z N xd a b xs ys zs x y zr V.
Proof. exact lay_thin_xyz. Qed.
Definition v_e (k : nat) : C := match k with O => x_eH 0 | 1%nat => x_eH 1 | 2%nat => (7, 1) | S k => x_eH k end%R.
Definition v_h (k : nat) : C := match k with O => x_eV 0 | 1%nat => x_eV 1 | 2%nat => (5, 1) | S k => x_eV k end%R.
Definition v_z (k : nat) : C := match k with O => x_zH 0 | 1%nat => x_zH 1 | 2%nat => (0, 3) | S k => x_zH k end%R.
Definition v_v (k : nat) : C := match k with O => x_zV 0 | 1%nat => x_zV 1 | 2%nat => (0, 2) | S k => x_zV k end%R.
Definition v_d (k : nat) : R := match k with O => x_z 0 | 1%nat => x_z 1 | 2%nat => x_z 2 | S k => x_z k end.
Example C82_case : exists V, lay_xyz x_eH x_eV x_zH x_zV x_z 2 false 4 1 0 0 30 300 400 50 V /\ lay_xyz v_e v_h v_z v_v v_d 3 false 4 1 0 0 30 300 400 50 V.
Proof.
  destruct (lay_xyz_exists x_eH x_eV x_zH x_zV x_z 2 false 4 1 0 0 30 300 400 50 x_layered ltac:(lia) ltac:(lia) ltac:(lra)) as [V HV]. exists V. split; [exact HV|].
  assert (I : forall A (v : A) f k, ins 2 v f k = match k with O => f O | 1%nat => f 1%nat | 2%nat => v | S k => f k end). { intros A v f k. destruct k as [|[|[|k]]]; reflexivity. }
  replace v_e with (ins 2 (7, 1)%R x_eH) by (apply FunctionalExtensionality.functional_extensionality; intros k; apply I).
  replace v_h with (ins 2 (5, 1)%R x_eV) by (apply FunctionalExtensionality.functional_extensionality; intros k; apply I).
  replace v_z with (ins 2 (0, 3)%R x_zH) by (apply FunctionalExtensionality.functional_extensionality; intros k; apply I).
  replace v_v with (ins 2 (0, 2)%R x_zV) by (apply FunctionalExtensionality.functional_extensionality; intros k; apply I).
  replace v_d with (insz 2 x_z) by (apply FunctionalExtensionality.functional_extensionality; intros k; destruct k as [|[|[|k]]]; reflexivity).
  refine (proj2 (C82_space x_eH x_eV x_zH x_zV x_z 2 2 _ _ _ _ false 4 1 0 0 30 300 400 50 V x_passive _ _ _ _ _ _ _ _ _) HV)%Z; first [lia|simpl; lra|intros W; injection W; lra].
Qed.
Print Assumptions C82_kernel.
Print Assumptions C82_space.

(** ** C83 *)
(** A horizontal source never takes power from a passive model: at its depth the field of every mode opposes it, at every wavenumber.
    The first part is per mode (magnetic sources: the code changes the sign afterwards), the second for the kernel of J0, which is the
    only one that contributes at zero offset. *)
Theorem C83_modes : forall eH eV zH zV z N lam ab m x, passive_medium eH eV zH zV z N -> In ab [11; 12; 21; 22]%Z ->
  exists p q, gcall eH eV zH zV z N lam ab false m m (lay z N x) (lay z N x) x x = Ok (p, q) /\
  (if m then (0 < fst p)%R /\ (fst q < 0)%R else (fst p < 0)%R /\ (0 < fst q)%R).
Proof. exact power_modes. Qed.
Theorem C83_power : forall eH eV zH zV z N lam ab m x, passive_medium eH eV zH zV z N -> (0 < lam)%R -> In ab [11; 22]%Z ->
  exists PJ0 PJ1 PJ0b, wcall eH eV zH zV z N lam ab false m m (lay z N x) (lay z N x) x x = Ok (Some PJ0, PJ1, PJ0b) /\ (fst PJ0 < 0)%R.
Proof. exact power_kernel. Qed.
Example C83_case : (exists PJ0 PJ1 PJ0b, wcall x_eH x_eV x_zH x_zV x_z 2 3 11 false false false 1 1 30 30 = Ok (Some PJ0, PJ1, PJ0b) /\ (fst PJ0 < 0)%R) /\
  exists PJ0 PJ1 PJ0b, wcall x_eH x_eV x_zH x_zV x_z 2 3 22 false true true 1 1 30 30 = Ok (Some PJ0, PJ1, PJ0b) /\ (fst PJ0 < 0)%R.
Proof.
  assert (L : lay x_z 2 30 = 1%nat) by (apply lay_char; [exact x_incr|lia|right; simpl; lra|right; simpl; lra]).
  split.
  - pose proof (C83_power x_eH x_eV x_zH x_zV x_z 2 3 11 false 30 x_passive ltac:(lra) ltac:(cbn; tauto)) as X. rewrite L in X. exact X.
  - pose proof (C83_power x_eH x_eV x_zH x_zV x_z 2 3 22 true 30 x_passive ltac:(lra) ltac:(cbn; tauto)) as X. rewrite L in X. exact X.
Qed.
Print Assumptions C83_modes.
Print Assumptions C83_power.
