(** Equal depths of source and receiver: the statements of FullCont.v for the parameters of the user. *)

From Coq Require Import Reals ZArith List Bool Lia Lra Psatz.
From Coquelicot Require Import Coquelicot.
From Verif Require Import PyBase CBase ODE Kernel KernelSpec KernelClosed KernelPhys KernelMain KernelBVP KernelThm KernelThm2 Utils UtilsAb Fullspace FullspaceThm FullspaceField Homog HomogThm LayAsym LayConv Transform Model ModelFem KernelCont KernelCont2 KernelCont4 KernelCont7 KernelCont8 KernelCont9 FullCont.
Import ListNotations.
Local Open Scope R_scope.
Local Open Scope C_scope.
Local Open Scope res_scope.

(** the full-space field of layer s at one frequency, as fem adds it (model.py:1624-1627, kernel.py:759-929); a frequency that is not positive is a Laplace parameter *)
Definition fs_user (m : mins) (a b : Z) (s : nat) (f : R) (x : earth) (off phi zs zr : R) : res C :=
  fs_comp (negb (Rltb 0 f)) (fs_anyneg (3 <? b)%Z (3 <? a)%Z [aH m f x s] [bH m f x s]) a b off phi zs zr (aH m f x s) (aV m f x s) (bH m f x s) (bV m f x s).
(** the exact value of the integral that fem computes (model.py:1636-1668); the parameters are those of check_frequency (utils.py:521-528) *)
Definition val_user (m : mins) (a b : Z) (N : nat) (xd : bool) (f : R) (x : earth) : R -> R -> R -> R -> C -> Prop :=
  hankel_value (aH m f x) (aV m f x) (bH m f x) (bV m f x) (x_dep x) N (10 * a + b) xd.

Lemma sv_im : forall m f, (0 < min_freq m)%R -> (0 < f)%R -> (0 < snd (sv m f))%R.
Proof.
  intros m f Hm Hf. unfold sv. set (c := if Rltb _ _ then _ else _). assert (P : (0 < c)%R).
  { unfold c. set (u := if negb _ then _ else _). unfold Rltb. destruct (Rlt_dec u (min_freq m)); lra. }
  clearbody c. unfold sval, Rltb. destruct (Rlt_dec 0 f); [|lra]. cbn [negb snd Cmult fst RtoC]. pose proof (Rmult_lt_0_compat _ _ PI_RGT_0 P). lra.
Qed.
Lemma pre_user : forall m a b N s f x, (0 < min_freq m)%R -> sane N x -> (s <= N)%nat -> ((3 < a)%Z -> (3 < b)%Z -> (0 < f)%R /\ (0 < x_epH x s)%R) ->
  fs_pre (negb (Rltb 0 f)) a b [aH m f x s] [bH m f x s] (aH m f x s) (bH m f x s).
Proof.
  intros m a b N s f x Hm SA Hs H. destruct SA as [sa_res0 sa_an0 sa_epH0 sa_epV0 sa_muH0 sa_muV0 _]. pose proof mu0_p as M. pose proof ep0_p as E. destruct (sv_quad m f Hm) as (S1 & S2 & _). specialize (sa_muH0 s Hs). specialize (sa_epH0 s Hs).
  pose proof (Rmult_lt_0_compat _ _ sa_muH0 M) as MM.
  assert (IB : forall y : R, snd (Cmult (sv m f) (RtoC y)) = (snd (sv m f) * y)%R) by (intros y; cbn [snd Cmult RtoC fst]; ring).
  split.
  - intros c [<-|[]]. unfold bH. rewrite IB. apply Rmult_le_pos; lra.
  - intros Ha Hb. destruct (H Ha Hb) as [F1 F2]. pose proof (sv_im m f Hm F1) as P. pose proof (Rmult_lt_0_compat _ _ F2 E) as EE.
    assert (PA : (0 < snd (aH m f x s))%R). { unfold aH. cbn [snd Cplus]. rewrite IB. cbn [snd RtoC]. pose proof (Rmult_lt_0_compat _ _ P EE). lra. }
    split; [unfold Rltb; destruct (Rlt_dec 0 f); [reflexivity|lra]|]. split; [now left|]. split; [intros e [<-|[]]; exact PA|]. unfold bH. rewrite IB. now apply Rmult_lt_0_compat.
Qed.

Section User.
Context {T : Type} (F : (T -> Prop) -> Prop) {FF : Filter F}.
Variables (x : T -> earth) (x0 : earth) (N s : nat) (m : mins) (f zs zr off phi : T -> R) (f0 zs0 zr0 off0 phi0 : R).
Hypothesis (CE : conv_earth F N x x0) (SA0 : sane N x0) (HI : increasing (x_dep x0) N) (SAt : F (fun t => sane N (x t))).
Hypothesis (Hm : (0 < min_freq m)%R) (Hf : f0 <> 0%R) (Ho : (0 < off0)%R).
Hypothesis (If : toR F f f0) (Is : toR F zs zs0) (Ir : toR F zr zr0) (Io : toR F off off0) (Ip : toR F phi phi0).
Hypothesis (S0 : in_layer (x_dep x0) N s zs0) (R0 : in_layer (x_dep x0) N s zr0).
Variables (a b : Z).
Hypothesis HP : fs_pair a b.
Hypothesis MM : (3 < a)%Z -> (3 < b)%Z -> (0 < f0)%R /\ (0 < x_epH x0 s)%R.
Let Ks : (s <= N)%nat. Proof. apply S0. Qed.
Let IV : forall (u : T -> R) a, a <> 0%R -> toR F u a -> toC F (fun t => RtoC (1 / u t)) (RtoC (1 / a)).
Proof. intros u a' Ha H. apply toC_RtoC; [assumption|]. unfold Rdiv. apply toR_mult; [assumption|now apply toR_const|]. now apply toR_inv. Qed.
Let MU : forall (u : T -> R) a c, toR F u a -> toC F (fun t => Cmult (sv m (f t)) (RtoC (u t * c))) (Cmult (sv m f0) (RtoC (a * c))).
Proof. intros u a' c H. apply toC_mult; [assumption|exact (c_sv F m f f0 Hf If)|]. apply toC_RtoC; [assumption|]. apply toR_mult; [assumption|exact H|now apply toR_const]. Qed.
Let CaH : forall k, (k <= N)%nat -> toC F (fun t => aH m (f t) (x t) k) (aH m f0 x0 k).
Proof. intros k Hk. unfold aH. apply toC_plus; [assumption|apply IV; [|now apply (ce_res _ _ _ _ CE)]|apply MU; now apply (ce_epH _ _ _ _ CE)]. pose proof (sa_res _ _ SA0 k Hk). lra. Qed.
Let CaV : forall k, (k <= N)%nat -> toC F (fun t => aV m (f t) (x t) k) (aV m f0 x0 k).
Proof.
  intros k Hk. unfold aV. apply toC_plus; [assumption|apply IV|apply MU; now apply (ce_epV _ _ _ _ CE)].
  - pose proof (sa_res _ _ SA0 k Hk). pose proof (sa_an _ _ SA0 k Hk). apply Rmult_integral_contrapositive_currified; [apply Rmult_integral_contrapositive_currified; lra|lra].
  - apply toR_mult; [assumption|apply toR_mult; [assumption|now apply (ce_res _ _ _ _ CE)|now apply (ce_an _ _ _ _ CE)]|now apply (ce_an _ _ _ _ CE)].
Qed.
Let CbH : forall k, (k <= N)%nat -> toC F (fun t => bH m (f t) (x t) k) (bH m f0 x0 k). Proof. intros k Hk. unfold bH. apply MU. now apply (ce_muH _ _ _ _ CE). Qed.
Let CbV : forall k, (k <= N)%nat -> toC F (fun t => bV m (f t) (x t) k) (bV m f0 x0 k). Proof. intros k Hk. unfold bV. apply MU. now apply (ce_muV _ _ _ _ CE). Qed.
Let LY0 : layered (aH m f0 x0) (aV m f0 x0) (bH m f0 x0) (bV m f0 x0) (x_dep x0) N. Proof. now apply sane_layered. Qed.
Let LYt : F (fun t => layered (aH m (f t) (x t)) (aV m (f t) (x t)) (bH m (f t) (x t)) (bV m (f t) (x t)) (x_dep (x t)) N).
Proof. eapply filter_imp; [|exact (filter_and _ _ SAt (c_incr F _ _ N (ce_dep _ _ _ _ CE) HI))]. intros t [A1 A2]. now apply sane_layered. Qed.
Let DOM : F (fun t => negb (Rltb 0 (f t)) = negb (Rltb 0 f0)).
Proof.
  unfold Rltb. destruct (Rlt_dec 0 f0) as [L|L].
  - eapply filter_imp; [|exact (toR_lt F (fun _ => 0%R) f _ _ (toR_const F _) If L)]. intros t Ht. cbn beta in Ht. destruct (Rlt_dec 0 (f t)); [reflexivity|lra].
  - eapply filter_imp; [|exact (toR_lt F f (fun _ => 0%R) _ _ If (toR_const F _) ltac:(lra))]. intros t Ht. cbn beta in Ht. destruct (Rlt_dec 0 (f t)); [lra|reflexivity].
Qed.
Let PR0 : fs_pre (negb (Rltb 0 f0)) a b [aH m f0 x0 s] [bH m f0 x0 s] (aH m f0 x0 s) (bH m f0 x0 s). Proof. now apply (pre_user m a b N). Qed.
Let PRt : F (fun t => fs_pre (negb (Rltb 0 f0)) a b [aH m (f t) (x t) s] [bH m (f t) (x t) s] (aH m (f t) (x t) s) (bH m (f t) (x t) s)).
Proof.
  assert (MT : F (fun t => (3 < a)%Z -> (3 < b)%Z -> (0 < f t)%R /\ (0 < x_epH (x t) s)%R)).
  { destruct (Z_lt_dec 3 a) as [A|A]; [|apply filter_forall; intros; lia]. destruct (Z_lt_dec 3 b) as [B|B]; [|apply filter_forall; intros; lia]. destruct (MM A B) as [F1 F2].
    pose proof (toR_lt F (fun _ => 0%R) f _ _ (toR_const F _) If F1) as L1. pose proof (toR_lt F (fun _ => 0%R) (fun t => x_epH (x t) s) _ _ (toR_const F _) (ce_epH _ _ _ _ CE s Ks) F2) as L2.
    eapply filter_imp; [|exact (filter_and _ _ L1 L2)]. intros t [K1 K2] _ _. split; [exact K1|exact K2]. }
  eapply filter_imp; [|exact (filter_and _ _ DOM (filter_and _ _ SAt MT))]. intros t (D & K1 & K2). rewrite <- D. now apply (pre_user m a b N).
Qed.
Theorem total_user : exists V0 W0, val_user m a b N true f0 x0 off0 phi0 zs0 zr0 V0 /\ fs_user m a b s f0 x0 off0 phi0 zs0 zr0 = Ok W0 /\
  forall e : R, (0 < e)%R -> F (fun t => exists V W, val_user m a b N true (f t) (x t) (off t) (phi t) (zs t) (zr t) V /\ fs_user m a b s (f t) (x t) (off t) (phi t) (zs t) (zr t) = Ok W /\ (Cmod (Cminus (Cplus V W) (Cplus V0 W0)) < e)%R).
Proof using All.
  destruct (total_medium F _ _ _ _ _ zs zr off phi _ _ _ _ _ zs0 zr0 off0 phi0 N s CaH CaV CbH CbV (ce_dep _ _ _ _ CE) Is Ir Io Ip Ho S0 R0 LY0 LYt _ a b (fun t => [aH m (f t) (x t) s]) (fun t => [bH m (f t) (x t) s]) _ _ HP PR0 PRt) as (V0 & W0 & A & B & H).
  exists V0, W0. split; [exact A|]. split; [exact B|]. intros e He. eapply filter_imp; [|exact (filter_and _ _ DOM (H e He))]. intros t [D (V & W & K1 & K2 & K3)]. exists V, W. split; [exact K1|]. split; [|exact K3]. unfold fs_user. rewrite D. exact K2.
Qed.
Theorem limit_user : forall V0 W0 (U : T -> C), val_user m a b N true f0 x0 off0 phi0 zs0 zr0 V0 -> fs_user m a b s f0 x0 off0 phi0 zs0 zr0 = Ok W0 ->
  F (fun t => zs t <> zr t) -> F (fun t => val_user m a b N false (f t) (x t) (off t) (phi t) (zs t) (zr t) (U t)) -> toC F U (V0 + W0).
Proof using All.
  intros V0 W0 U A B ND H. exact (direct_limit F _ _ _ _ _ zs zr off phi _ _ _ _ _ zs0 zr0 off0 phi0 N s CaH CaV CbH CbV (ce_dep _ _ _ _ CE) Is Ir Io Ip Ho S0 R0 LY0 LYt _ a b (fun t => [aH m (f t) (x t) s]) (fun t => [bH m (f t) (x t) s]) _ _ HP PR0 PRt V0 W0 U A B ND H).
Qed.
End User.
