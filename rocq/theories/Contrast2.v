(** Weak contrasts: the statements of Contrast.v for the parameters of the user. *)

From Coq Require Import Reals ZArith List Bool Lia Lra Psatz.
From Coquelicot Require Import Coquelicot.
From Verif Require Import PyBase CBase ODE Kernel KernelSpec KernelClosed KernelPhys KernelMain KernelBVP KernelSplit KernelThm KernelThm2 Utils UtilsAb Fullspace FullspaceThm FullspaceField Homog HomogThm LayAsym LayConv Transform Model ModelFem KernelCont KernelCont2 KernelCont4 KernelCont7 KernelCont8 KernelCont9 FullCont FullCont2 Contrast.
Import ListNotations.
Local Open Scope R_scope.
Local Open Scope C_scope.
Local Open Scope res_scope.

(** the model x with an additional interface at depth zi in layer l *)
Definition spl_earth (l : nat) (zi : R) (x : earth) : earth :=
  {| x_res := spl l (x_res x); x_an := spl l (x_an x); x_epH := spl l (x_epH x); x_epV := spl l (x_epV x); x_muH := spl l (x_muH x); x_muV := spl l (x_muV x); x_dep := splz l zi (x_dep x) |}.

Section User.
Context {T : Type} (F : (T -> Prop) -> Prop) {FF : Filter F}.
Section Conv.
Variables (x : T -> earth) (x0 : earth) (N : nat) (m : mins) (f : T -> R) (f0 : R).
Hypothesis (CE : conv_earth F N x x0) (SA0 : sane N x0) (HI : increasing (x_dep x0) N) (SAt : F (fun t => sane N (x t))).
Hypothesis (Hm : (0 < min_freq m)%R) (Hf : f0 <> 0%R) (If : toR F f f0).
Let IV : forall (u : T -> R) a, a <> 0%R -> toR F u a -> toC F (fun t => RtoC (1 / u t)) (RtoC (1 / a)).
Proof. intros u a' Ha H. apply toC_RtoC; [assumption|]. unfold Rdiv. apply toR_mult; [assumption|now apply toR_const|]. now apply toR_inv. Qed.
Let MU : forall (u : T -> R) a c, toR F u a -> toC F (fun t => Cmult (sv m (f t)) (RtoC (u t * c))) (Cmult (sv m f0) (RtoC (a * c))).
Proof. intros u a' c H. apply toC_mult; [assumption|exact (c_sv F m f f0 Hf If)|]. apply toC_RtoC; [assumption|]. apply toR_mult; [assumption|exact H|now apply toR_const]. Qed.
Lemma u_aH : forall k, (k <= N)%nat -> toC F (fun t => aH m (f t) (x t) k) (aH m f0 x0 k).
Proof using All. intros k Hk. unfold aH. apply toC_plus; [assumption|apply IV; [|now apply (ce_res _ _ _ _ CE)]|apply MU; now apply (ce_epH _ _ _ _ CE)]. pose proof (sa_res _ _ SA0 k Hk). lra. Qed.
Lemma u_aV : forall k, (k <= N)%nat -> toC F (fun t => aV m (f t) (x t) k) (aV m f0 x0 k).
Proof using All.
  intros k Hk. unfold aV. apply toC_plus; [assumption|apply IV|apply MU; now apply (ce_epV _ _ _ _ CE)].
  - pose proof (sa_res _ _ SA0 k Hk). pose proof (sa_an _ _ SA0 k Hk). apply Rmult_integral_contrapositive_currified; [apply Rmult_integral_contrapositive_currified; lra|lra].
  - apply toR_mult; [assumption|apply toR_mult; [assumption|now apply (ce_res _ _ _ _ CE)|now apply (ce_an _ _ _ _ CE)]|now apply (ce_an _ _ _ _ CE)].
Qed.
Lemma u_bH : forall k, (k <= N)%nat -> toC F (fun t => bH m (f t) (x t) k) (bH m f0 x0 k). Proof using All. intros k Hk. unfold bH. apply MU. now apply (ce_muH _ _ _ _ CE). Qed.
Lemma u_bV : forall k, (k <= N)%nat -> toC F (fun t => bV m (f t) (x t) k) (bV m f0 x0 k). Proof using All. intros k Hk. unfold bV. apply MU. now apply (ce_muV _ _ _ _ CE). Qed.
Lemma u_LYt : F (fun t => layered (aH m (f t) (x t)) (aV m (f t) (x t)) (bH m (f t) (x t)) (bV m (f t) (x t)) (x_dep (x t)) N).
Proof using All. eapply filter_imp; [|exact (filter_and _ _ SAt (c_incr F _ _ N (ce_dep _ _ _ _ CE) HI))]. intros t [A1 A2]. now apply sane_layered. Qed.
End Conv.
Variables (x : T -> earth) (x0 : earth) (N : nat) (m : mins) (f zs zr off phi : T -> R) (f0 zs0 zr0 off0 phi0 : R).
Hypothesis (SA0 : sane N x0) (HI : increasing (x_dep x0) N).
Hypothesis (Hm : (0 < min_freq m)%R) (Hf : f0 <> 0%R) (NE : zs0 <> zr0).
Hypothesis (If : toR F f f0) (Is : toR F zs zs0) (Ir : toR F zr zr0) (Io : toR F off off0) (Ip : toR F phi phi0).
Variables (a b : Z).
Hypothesis HP : fs_pair a b.
Lemma sane_split : forall l zi, (l <= N)%nat -> increasing (splz l zi (x_dep x0)) (S N) -> sane N x0 -> sane (S N) (spl_earth l zi x0).
Proof using.
  intros l zi Hl HS [A1 A2 A3 A4 A5 A6 A7]. constructor; [| | | | | |intros k Hk; apply Rlt_le; cbn [spl_earth x_dep]; now apply HS];
    intros k Hk; cbn [spl_earth x_res x_an x_epH x_epV x_muH x_muV]; unfold spl; pose proof (old_le l N k Hl Hk); auto.
Qed.
Theorem contrast_user : forall l zi, conv_earth F (S N) x (spl_earth l zi x0) -> F (fun t => sane (S N) (x t)) -> off0 <> 0%R -> in_layer (x_dep x0) N l zi ->
  (forall k, (1 <= k <= N)%nat -> x_dep x0 k <> zs0 /\ x_dep x0 k <> zr0) -> zi <> zs0 -> zi <> zr0 ->
  exists V0, val_user m a b N false f0 x0 off0 phi0 zs0 zr0 V0 /\
  forall e : R, (0 < e)%R -> F (fun t => exists V, val_user m a b (S N) false (f t) (x t) (off t) (phi t) (zs t) (zr t) V /\ (Cmod (Cminus V V0) < e)%R).
Proof using All.
  intros l zi CE SAt Ho IL D D1 D2. assert (HS : increasing (x_dep (spl_earth l zi x0)) (S N)) by (apply splz_inc; [exact HI|apply IL|exact IL]). pose proof (sane_split l zi (proj1 IL) HS SA0) as SS.
  assert (DD : forall k, (1 <= k <= S N)%nat -> splz l zi (x_dep x0) k <> zs0 /\ splz l zi (x_dep x0) k <> zr0).
  { intros k Hk. unfold splz. destruct (Nat.leb_spec k l); [apply D; destruct IL; lia|]. destruct (Nat.eqb_spec k (S l)); [now split|]. apply D. lia. }
  exact (contrast F _ _ _ _ _ zs zr off phi (aH m f0 x0) (aV m f0 x0) (bH m f0 x0) (bV m f0 x0) (x_dep x0) zs0 zr0 off0 phi0 N l zi
    (u_aH x (spl_earth l zi x0) (S N) m f f0 CE SS HS SAt Hm Hf If) (u_aV x (spl_earth l zi x0) (S N) m f f0 CE SS HS SAt Hm Hf If) (u_bH x (spl_earth l zi x0) (S N) m f f0 CE SS HS SAt Hm Hf If) (u_bV x (spl_earth l zi x0) (S N) m f f0 CE SS HS SAt Hm Hf If)
    (ce_dep _ _ _ _ CE) Is Ir Io Ip Ho NE DD (sane_layered m N f0 x0 Hm SA0 HI) IL (u_LYt x (spl_earth l zi x0) (S N) m f f0 CE SS HS SAt Hm Hf If) a b HP).
Qed.
(** the same material in all layers *)
Definition uniform (x : earth) : Prop := forall k, (k <= N)%nat -> x_res x k = x_res x 0%nat /\ x_an x k = x_an x 0%nat /\ x_epH x k = x_epH x 0%nat /\ x_epV x k = x_epV x 0%nat /\ x_muH x k = x_muH x 0%nat /\ x_muV x k = x_muV x 0%nat.
Theorem homogeneous_user : conv_earth F N x x0 -> F (fun t => sane N (x t)) -> (0 < off0)%R -> uniform x0 ->
  (forall k, (1 <= k <= N)%nat -> x_dep x0 k <> zs0 /\ x_dep x0 k <> zr0) -> ((3 < a)%Z -> (3 < b)%Z -> (0 < f0)%R /\ (0 < x_epH x0 0%nat)%R) ->
  exists W, fs_user m a b 0 f0 x0 off0 phi0 zs0 zr0 = Ok W /\
  forall e : R, (0 < e)%R -> F (fun t => exists V, val_user m a b N false (f t) (x t) (off t) (phi t) (zs t) (zr t) V /\ (Cmod (Cminus V W) < e)%R).
Proof using All.
  intros CE SAt Ho UN D MM. pose proof (sane_layered m N f0 x0 Hm SA0 HI) as LY.
  refine (homogeneous F _ _ _ _ _ zs zr off phi (aH m f0 x0 0%nat) (aV m f0 x0 0%nat) (bH m f0 x0 0%nat) (bV m f0 x0 0%nat) (x_dep x0) zs0 zr0 off0 phi0 N _ _ _ _ (ce_dep _ _ _ _ CE) Is Ir Io Ip Ho NE D (ly_m _ _ _ _ _ _ LY 0%nat ltac:(lia)) HI (u_LYt x x0 N m f f0 CE SA0 HI SAt Hm Hf If) _ a b _ _ HP (pre_user m a b N 0 f0 x0 Hm SA0 ltac:(lia) MM)).
  - intros k Hk. replace (aH m f0 x0 0%nat) with (aH m f0 x0 k); [now apply (u_aH x x0 N m f f0)|]. destruct (UN k Hk) as (E1 & E2 & E3 & E4 & E5 & E6). unfold aH. now rewrite E1, E3.
  - intros k Hk. replace (aV m f0 x0 0%nat) with (aV m f0 x0 k); [now apply (u_aV x x0 N m f f0)|]. destruct (UN k Hk) as (E1 & E2 & E3 & E4 & E5 & E6). unfold aV. now rewrite E1, E2, E4.
  - intros k Hk. replace (bH m f0 x0 0%nat) with (bH m f0 x0 k); [now apply (u_bH x x0 N m f f0)|]. destruct (UN k Hk) as (E1 & E2 & E3 & E4 & E5 & E6). unfold bH. now rewrite E5.
  - intros k Hk. replace (bV m f0 x0 0%nat) with (bV m f0 x0 k); [now apply (u_bV x x0 N m f f0)|]. destruct (UN k Hk) as (E1 & E2 & E3 & E4 & E5 & E6). unfold bV. now rewrite E6.
Qed.
End User.
