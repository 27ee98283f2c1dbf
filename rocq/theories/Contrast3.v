(** Weak contrasts with the direct field computed separately, also at equal depths of source and receiver. *)

From Coq Require Import Reals ZArith QArith List Bool Lia Lra FunctionalExtensionality.
From Coquelicot Require Import Coquelicot.
From Verif Require Import PyBase CBase ODE Kernel KernelSpec KernelClosed KernelPassive KernelPhys KernelMain KernelBVP KernelSplit KernelThm KernelThm2 KernelFinal KernelBessel Utils UtilsAb Fullspace FullspaceThm FullspaceEM FullspaceField Homog HomogThm LayAsym LayConv LayDeep3 Model ModelFem KernelCont KernelCont2 KernelCont4 KernelCont7 KernelCont8 KernelCont9 FullCont FullCont2 Contrast Contrast2.
Import ListNotations.
Local Open Scope R_scope.
Local Open Scope C_scope.
Local Open Scope res_scope.

(** The reflected field of a stack of equal layers is zero. *)
Lemma reflected_zero : forall eH eV zH zV z N a b off phi zs zr V, homog_medium eH eV zH zV -> increasing z N -> fs_pair a b -> lay z N zs = lay z N zr ->
  hankel_value (cst eH) (cst eV) (cst zH) (cst zV) z N (10 * a + b) true off phi zs zr V -> V = 0.
Proof.
  intros eH eV zH zV z N a b off phi zs zr V HM HI HP HL (ab & ms & mr & G & CA & B & I).
  assert (LY : layered (cst eH) (cst eV) (cst zH) (cst zV) z N) by (constructor; [intros k Hk; exact HM|exact HI]). pose proof (ly_passive _ _ _ _ _ _ LY) as PM.
  destruct (pair_class a b HP) as (ab' & CA' & _). rewrite CA in CA'. assert (X : (ab, ms, mr) = (ab', (3 <? b)%Z, (3 <? a)%Z)) by congruence. injection X as <- -> ->.
  destruct (code_class _ ab _ _ CA (ex_intro _ a (ex_intro _ b (conj HP eq_refl)))) as [KA VC].
  pose proof (hm_zH _ _ _ _ HM) as Q3. pose proof (hm_zV _ _ _ _ HM) as Q4. assert (HI0 : increasing z 0) by (intros k Hk; lia).
  assert (Z : forall lam, G lam = 0).
  { intros lam. destruct (B lam) as (PJ & E & ->). rewrite wcall_gcall, <- HL in E.
    pose proof (proj1 (direct_switch _ _ _ _ z N lam ab _ _ _ _ zs zr PM VC (lay_le z N zs) (lay_le z N zs)) eq_refl) as DS.
    assert (UF : gcall (cst eH) (cst eV) (cst zH) (cst zV) z N lam ab false (3 <? b)%Z (3 <? a)%Z (lay z N zs) (lay z N zs) zs zr = gcall (cst eH) (cst eV) (cst zH) (cst zV) z 0 lam ab false (3 <? b)%Z (3 <? a)%Z 0 0 zs zr).
    { rewrite HL at 2. apply uniform_fullspace; try assumption; try apply HM; try apply Q3; try apply Q4. }
    rewrite UF in DS. change (only (lay z N zs) (cst eH)) with (cst eH) in DS. change (only (lay z N zs) (cst eV)) with (cst eV) in DS. change (only (lay z N zs) (cst zH)) with (cst zH) in DS. change (only (lay z N zs) (cst zV)) with (cst zV) in DS.
    destruct (passive_total _ _ _ _ z N lam ab true _ _ _ _ zs zr PM VC (lay_le z N zs) (lay_le z N zs)) as [p [q E1]].
    assert (PM0 : passive_medium (cst eH) (cst eV) (cst zH) (cst zV) z 0) by now apply cst_passive.
    destruct (passive_total _ _ _ _ z 0 lam ab false _ _ 0 0 zs zr PM0 VC (le_n 0) (le_n 0)) as [p0 [q0 E2]].
    rewrite E1, E2 in DS. cbn [add2 bind] in DS. apply Ok_inj in DS. assert (P : p = 0). { assert (p0 = p + p0) by congruence. replace p with (p + p0 - p0) by ring. rewrite <- H. ring. }
    assert (Q : q = 0). { assert (q0 = q + q0) by congruence. replace q with (q + q0 - q0) by ring. rewrite <- H. ring. }
    rewrite E1, P, Q in E. cbn [bind] in E. apply Ok_inj in E. subst PJ. set (A := ang_exact _ _).
    pose proof (bessel_add ab (3 <? a)%Z lam off A 0 0 0 0 KA) as S. replace (0 + 0) with (RtoC 0) in S by ring. set (U := bessel_sum ab lam off A (collect ab (3 <? a)%Z lam 0 0)) in *. replace U with (U + U - U) by ring. rewrite <- S. ring. }
  assert (E : G = (fun lam => G lam + G lam)) by (apply functional_extensionality; intros lam; rewrite Z; ring).
  pose proof (improper_plus _ _ _ _ I I) as J. rewrite <- E in J. pose proof (improper_unique _ _ _ I J) as K. replace V with (V + V - V) by ring. rewrite <- K. ring.
Qed.

Section Total.
Context {T : Type} (F : (T -> Prop) -> Prop) {FF : Filter F}.
Variables (x : T -> earth) (x0 : earth) (N s : nat) (m : mins) (f zs zr off phi : T -> R) (f0 zs0 zr0 off0 phi0 : R).
Hypothesis (CE : conv_earth F N x x0) (SA0 : sane N x0) (HI : increasing (x_dep x0) N) (SAt : F (fun t => sane N (x t))).
Hypothesis (Hm : (0 < min_freq m)%R) (Hf : f0 <> 0%R) (Ho : (0 < off0)%R).
Hypothesis (If : toR F f f0) (Is : toR F zs zs0) (Ir : toR F zr zr0) (Io : toR F off off0) (Ip : toR F phi phi0).
Hypothesis (S0 : in_layer (x_dep x0) N s zs0) (R0 : in_layer (x_dep x0) N s zr0).
Variables (a b : Z).
Hypothesis HP : fs_pair a b.
Hypothesis MM : (3 < a)%Z -> (3 < b)%Z -> (0 < f0)%R /\ (0 < x_epH x0 s)%R.
Hypothesis UN : uniform N x0.
Theorem total_homogeneous : exists W0, fs_user m a b s f0 x0 off0 phi0 zs0 zr0 = Ok W0 /\
  forall e : R, (0 < e)%R -> F (fun t => exists V W, val_user m a b N true (f t) (x t) (off t) (phi t) (zs t) (zr t) V /\ fs_user m a b s (f t) (x t) (off t) (phi t) (zs t) (zr t) = Ok W /\ (Cmod (Cminus (Cplus V W) W0) < e)%R).
Proof using All.
  destruct (total_user F x x0 N s m f zs zr off phi f0 zs0 zr0 off0 phi0 CE SA0 HI SAt Hm Hf Ho If Is Ir Io Ip S0 R0 a b HP MM) as (V0 & W0 & A & B & H).
  assert (Z : V0 = 0).
  { pose proof (sane_layered m N f0 x0 Hm SA0 HI) as LY. apply (reflected_zero (aH m f0 x0 0%nat) (aV m f0 x0 0%nat) (bH m f0 x0 0%nat) (bV m f0 x0 0%nat) (x_dep x0) N a b off0 phi0 zs0 zr0 V0 (ly_m _ _ _ _ _ _ LY 0%nat ltac:(lia)) HI HP).
    - now rewrite (lay_in _ _ HI s zs0 S0), (lay_in _ _ HI s zr0 R0).
    - assert (U : forall k, (k <= N)%nat -> aH m f0 x0 k = aH m f0 x0 0%nat /\ aV m f0 x0 k = aV m f0 x0 0%nat /\ bH m f0 x0 k = bH m f0 x0 0%nat /\ bV m f0 x0 k = bV m f0 x0 0%nat).
      { intros k Hk. destruct (UN k Hk) as (E1 & E2 & E3 & E4 & E5 & E6). unfold aH, aV, bH, bV. now rewrite E1, E2, E3, E4, E5, E6. }
      destruct A as (ab & ms & mr & G & CA & BB & I). exists ab, ms, mr, G. split; [exact CA|]. split; [|exact I]. intros lam. destruct (BB lam) as (PJ & E & EG). exists PJ. split; [|exact EG]. rewrite <- E. unfold wcall.
      f_equal; apply arr_ext; intros k Hk; unfold cst; symmetry; now apply U. }
  exists W0. split; [exact B|]. intros e He. eapply filter_imp; [|exact (H e He)]. intros t (V & W & K1 & K2 & K3). exists V, W. split; [exact K1|]. split; [exact K2|]. rewrite Z in K3. now replace (Cplus 0 W0) with W0 in K3 by ring.
Qed.
End Total.
