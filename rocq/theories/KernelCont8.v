(** The exact response depends continuously on all parameters: statements with the response as the value, and for the parameters of the user. *)

From Coq Require Import Reals ZArith QArith List Bool Lia Lra Psatz.
From Coquelicot Require Import Coquelicot.
From Verif Require Import PyBase CBase ODE Kernel KernelSpec KernelClosed KernelPhys KernelMain KernelBVP KernelThm KernelThm2 Utils UtilsAb Fullspace FullspaceThm FullspaceField Homog HomogThm LayAsym LayConv Transform Model ModelFem KernelCont KernelCont2 KernelCont4 KernelCont6 KernelCont7.
Import ListNotations.
Local Open Scope R_scope.
Local Open Scope C_scope.
Local Open Scope res_scope.

(** ** Pairs of an index and a value that belongs to it *)
Section Rel.
Context {T : Type} (F : (T -> Prop) -> Prop) {FF : Filter F} (H : T -> C -> Prop).
Definition relF (P : T * C -> Prop) : Prop := F (fun t => forall v, H t v -> P (t, v)).
Global Instance relF_filter : Filter relF.
Proof using FF.
  constructor; unfold relF.
  - apply filter_forall. auto.
  - intros P P' A A'. eapply filter_imp; [|exact (filter_and _ _ A A')]. intros t [B B'] v K. split; [now apply B|now apply B'].
  - intros P P' I A. eapply filter_imp; [|exact A]. intros t B v K. now apply I, B.
Qed.
Lemma rel_F : forall P, F P -> relF (fun x => P (fst x)).
Proof using FF. intros P A. unfold relF. eapply filter_imp; [|exact A]. intros t B v _. exact B. Qed.
Lemma rel_R : forall f l, toR F f l -> toR relF (fun x => f (fst x)) l.
Proof using FF. intros f l A. apply toR_eps; [typeclasses eauto|]. intros e He. exact (rel_F _ (proj1 (toR_eps F f l) A e He)). Qed.
Lemma rel_C : forall f l, toC F f l -> toC relF (fun x => f (fst x)) l.
Proof using FF. intros f l [A B]. split; [exact (rel_R (fun t => fst (f t)) _ A)|exact (rel_R (fun t => snd (f t)) _ B)]. Qed.
End Rel.

Section Exact.
Context {T : Type} (F : (T -> Prop) -> Prop) {FF : Filter F}.
Theorem exact_medium : forall (eH eV zH zV : T -> nat -> C) (z : T -> nat -> R) (zs zr off phi : T -> R) (eH0 eV0 zH0 zV0 : nat -> C) (z0 : nat -> R) (zs0 zr0 off0 phi0 : R) N,
  (forall k, (k <= N)%nat -> toC F (fun t => eH t k) (eH0 k)) -> (forall k, (k <= N)%nat -> toC F (fun t => eV t k) (eV0 k)) ->
  (forall k, (k <= N)%nat -> toC F (fun t => zH t k) (zH0 k)) -> (forall k, (k <= N)%nat -> toC F (fun t => zV t k) (zV0 k)) ->
  (forall k, (1 <= k <= N)%nat -> toR F (fun t => z t k) (z0 k)) -> toR F zs zs0 -> toR F zr zr0 -> toR F off off0 -> toR F phi phi0 ->
  off0 <> 0%R -> zs0 <> zr0 -> (forall k, (1 <= k <= N)%nat -> z0 k <> zs0 /\ z0 k <> zr0) ->
  layered eH0 eV0 zH0 zV0 z0 N -> F (fun t => layered (eH t) (eV t) (zH t) (zV t) (z t) N) ->
  forall a b (xd : bool), fs_pair a b -> exists V0, hankel_value eH0 eV0 zH0 zV0 z0 N (10 * a + b) xd off0 phi0 zs0 zr0 V0 /\
  forall e : R, (0 < e)%R -> F (fun t => exists V, hankel_value (eH t) (eV t) (zH t) (zV t) (z t) N (10 * a + b) xd (off t) (phi t) (zs t) (zr t) V /\ (Cmod (Cminus V V0) < e)%R).
Proof using FF.
  intros eH eV zH zV z zs zr off phi eH0 eV0 zH0 zV0 z0 zs0 zr0 off0 phi0 N IeH IeV IzH IzV Iz Is Ir Io Ip Hoff NE D LY0 LYt a b xd HP.
  destruct (layered_converges a b _ _ _ _ _ _ xd off0 phi0 zs0 zr0 LY0 HP NE) as [V0 HV0]. exists V0. split; [exact HV0|]. intros e He.
  set (H := fun t V => hankel_value (eH t) (eV t) (zH t) (zV t) (z t) N (10 * a + b) xd (off t) (phi t) (zs t) (zr t) V).
  assert (L : toC (relF F H) snd V0).
  { refine (exact_continuous (T * C) (relF F H) (relF_filter F H) (fun x => eH (fst x)) (fun x => eV (fst x)) (fun x => zH (fst x)) (fun x => zV (fst x)) (fun x => z (fst x)) (fun x => zs (fst x)) (fun x => zr (fst x)) (fun x => off (fst x)) (fun x => phi (fst x))
      eH0 eV0 zH0 zV0 z0 zs0 zr0 off0 phi0 N (fun k Hk => rel_C F H _ _ (IeH k Hk)) (fun k Hk => rel_C F H _ _ (IeV k Hk)) (fun k Hk => rel_C F H _ _ (IzH k Hk)) (fun k Hk => rel_C F H _ _ (IzV k Hk)) (fun k Hk => rel_R F H _ _ (Iz k Hk))
      (rel_R F H _ _ Is) (rel_R F H _ _ Ir) (rel_R F H _ _ Io) (rel_R F H _ _ Ip) Hoff NE D LY0 (rel_F F H _ LYt) a b xd snd V0 HP _ HV0).
    unfold relF. apply filter_forall. intros t v K. exact K. }
  pose proof (proj1 (toC_eps (relF F H) _ _) L e He) as B. unfold relF in B.
  assert (ND : F (fun t => (0 < Rabs (zs t - zr t))%R)).
  { assert (LL : toR F (fun t => Rabs (zs t - zr t)) (Rabs (zs0 - zr0))). { apply (toR_comp F (fun t => zs t - zr t)%R Rabs); [apply continuous_Rabs|now apply toR_minus]. }
    exact (toR_lt F (fun _ => 0%R) _ _ _ (toR_const F _) LL (Rabs_pos_lt (zs0 - zr0) ltac:(lra))). }
  eapply filter_imp; [|exact (filter_and _ _ B (filter_and _ _ ND LYt))]. intros t (B1 & B2 & B3). cbn beta in B2.
  assert (NT : zs t <> zr t). { intros E. rewrite E, Rminus_eq_0, Rabs_R0 in B2. lra. }
  destruct (layered_converges a b _ _ _ _ _ _ xd (off t) (phi t) (zs t) (zr t) B3 HP NT) as [V HV]. exists V. split; [exact HV|]. exact (B1 V HV).
Qed.

(** ** The parameters of the user *)
Lemma sv_quad : forall m f, (0 < min_freq m)%R -> quad1 (sv m f).
Proof.
  intros m f Hm. destruct (sv_cases m f Hm) as [A B]. split; [exact A|]. split; [|exact B]. clear A B. unfold sv. set (c := if Rltb _ _ then _ else _). assert (P : (0 < c)%R).
  { unfold c. set (u := if negb _ then _ else _). unfold Rltb. destruct (Rlt_dec u (min_freq m)); lra. }
  clearbody c. unfold sval. destruct (negb (Rltb 0 f)); cbn [snd RtoC Cmult fst]; [lra|]. pose proof (Rmult_lt_0_compat _ _ PI_RGT_0 P). lra.
Qed.
Lemma sane_layered : forall m N f x, (0 < min_freq m)%R -> sane N x -> increasing (x_dep x) N -> layered (aH m f x) (aV m f x) (bH m f x) (bV m f x) (x_dep x) N.
Proof.
  intros m N f x Hm SA HI. destruct (sv_quad m f Hm) as (S1 & S2 & S3). destruct SA as [sa_res0 sa_an0 sa_epH0 sa_epV0 sa_muH0 sa_muV0 _]. pose proof mu0_p as M. pose proof ep0_p as E.
  assert (Q : forall y c, (0 <= y)%R -> (0 <= c)%R -> (0 <= fst (Cmult (sv m f) (RtoC (y * c))) /\ 0 <= snd (Cmult (sv m f) (RtoC (y * c))))%R).
  { intros y c Hy Hc. pose proof (Rmult_le_pos _ _ Hy Hc). cbn [fst snd Cmult RtoC]. rewrite !Rmult_0_r, Rminus_0_r, Rplus_0_l. split; now apply Rmult_le_pos. }
  assert (NZ : forall y, (0 < y)%R -> RtoC (y * mu_0) <> RtoC 0). { intros y Hy W. apply (f_equal fst) in W. cbn [fst RtoC] in W. pose proof (Rmult_lt_0_compat _ _ Hy M). lra. }
  constructor; [|exact HI]. intros k Hk. specialize (sa_res0 k Hk). specialize (sa_an0 k Hk). specialize (sa_epH0 k Hk). specialize (sa_epV0 k Hk). specialize (sa_muH0 k Hk). specialize (sa_muV0 k Hk). constructor.
  - destruct (Q (x_epH x k) epsilon_0 sa_epH0 ltac:(lra)) as [A B]. unfold aH. cbn [fst snd Cplus] in *. cbn [fst snd RtoC]. assert (0 < 1 / x_res x k)%R by (apply Rdiv_lt_0_compat; lra). lra.
  - destruct (Q (x_epV x k) epsilon_0 sa_epV0 ltac:(lra)) as [A B]. unfold aV. cbn [fst snd Cplus] in *. cbn [fst snd RtoC]. assert (0 < 1 / (x_res x k * x_an x k * x_an x k))%R by (apply Rdiv_lt_0_compat; [lra|]; apply Rmult_lt_0_compat; [now apply Rmult_lt_0_compat|assumption]). lra.
  - destruct (Q (x_muH x k) mu_0 ltac:(lra) ltac:(lra)) as [A B]. split; [exact A|]. split; [exact B|]. apply Cmult_neq_0; [exact S3|now apply NZ].
  - destruct (Q (x_muV x k) mu_0 ltac:(lra) ltac:(lra)) as [A B]. split; [exact A|]. split; [exact B|]. apply Cmult_neq_0; [exact S3|now apply NZ].
  - unfold bH, bV. pose proof (NZ _ sa_muV0) as NV. assert (R1 : Cmult (sv m f) (RtoC (x_muH x k * mu_0)) / Cmult (sv m f) (RtoC (x_muV x k * mu_0)) = RtoC (x_muH x k / x_muV x k)).
    { rewrite !RtoC_mult in *. rewrite RtoC_div by lra. assert (N1 : RtoC (x_muV x k) <> RtoC 0) by (intros W; apply (f_equal fst) in W; cbn in W; lra). assert (N2 : RtoC mu_0 <> RtoC 0) by (intros W; apply (f_equal fst) in W; cbn [fst RtoC] in W; lra). field. repeat split; assumption. }
    rewrite R1. cbn [fst RtoC]. now apply Rdiv_lt_0_compat.
Qed.
Lemma c_incr : forall (z : T -> nat -> R) z0 N, (forall k, (1 <= k <= N)%nat -> toR F (fun t => z t k) (z0 k)) -> increasing z0 N -> F (fun t => increasing (z t) N).
Proof using FF.
  intros z z0 N Iz HI. assert (A : forall n, (n <= N)%nat -> F (fun t => forall k, (1 <= k < n)%nat -> (z t k < z t (S k))%R)).
  { induction n; intros Hn; [apply filter_forall; intros; lia|]. destruct n as [|n]; [apply filter_forall; intros; lia|].
    pose proof (toR_lt F (fun t => z t (S n)) (fun t => z t (S (S n))) _ _ (Iz (S n) ltac:(lia)) (Iz (S (S n)) ltac:(lia)) (HI (S n) ltac:(lia))) as PL. specialize (IHn ltac:(lia)). pose proof (filter_and _ _ IHn PL) as AN. eapply filter_imp; [|exact AN]. intros t [B1 B2] k Hk. cbn beta in B2. destruct (Nat.eq_dec k (S n)) as [-> | NE]; [exact B2|]. apply B1. lia. }
  exact (A N (le_n N)).
Qed.
Theorem exact_model : forall (x : T -> earth) x0 N m (f zs zr off phi : T -> R) (f0 zs0 zr0 off0 phi0 : R),
  conv_earth F N x x0 -> sane N x0 -> increasing (x_dep x0) N -> F (fun t => sane N (x t)) -> (0 < min_freq m)%R -> f0 <> 0%R -> off0 <> 0%R ->
  toR F f f0 -> toR F zs zs0 -> toR F zr zr0 -> toR F off off0 -> toR F phi phi0 -> zs0 <> zr0 -> (forall k, (1 <= k <= N)%nat -> x_dep x0 k <> zs0 /\ x_dep x0 k <> zr0) ->
  forall a b (xd : bool), fs_pair a b -> let val (g : R) (y : earth) := hankel_value (aH m g y) (aV m g y) (bH m g y) (bV m g y) (x_dep y) N (10 * a + b) xd in
  exists V0, val f0 x0 off0 phi0 zs0 zr0 V0 /\ forall e : R, (0 < e)%R -> F (fun t => exists V, val (f t) (x t) (off t) (phi t) (zs t) (zr t) V /\ (Cmod (Cminus V V0) < e)%R).
Proof using FF.
  intros x x0 N m f zs zr off phi f0 zs0 zr0 off0 phi0 [ce_res0 ce_an0 ce_epH0 ce_epV0 ce_muH0 ce_muV0 ce_dep0] S0 HI S Hm Hf Ho If Is Ir Io Ia NE D a b xd HP. cbv zeta.
  pose proof (c_sv F m f f0 Hf If) as CS. pose proof S0 as S0'. destruct S0' as [sa_res0 sa_an0 _ _ _ _ _].
  assert (KR : forall (u : T -> R) a c, toR F u a -> toR F (fun t => u t * c)%R (a * c)%R) by (intros u a' c H; apply toR_mult; [assumption|exact H|now apply toR_const]).
  assert (MU : forall (u : T -> R) a c, toR F u a -> toC F (fun t => Cmult (sv m (f t)) (RtoC (u t * c))) (Cmult (sv m f0) (RtoC (a * c)))).
  { intros u a' c H. apply toC_mult; [assumption|exact CS|]. apply toC_RtoC; [assumption|]. now apply KR. }
  assert (IV : forall (u : T -> R) a, a <> 0%R -> toR F u a -> toC F (fun t => RtoC (1 / u t)) (RtoC (1 / a))).
  { intros u a' Ha H. apply toC_RtoC; [assumption|]. unfold Rdiv. apply toR_mult; [assumption|now apply toR_const|]. now apply toR_inv. }
  refine (exact_medium (fun t => aH m (f t) (x t)) (fun t => aV m (f t) (x t)) (fun t => bH m (f t) (x t)) (fun t => bV m (f t) (x t)) (fun t => x_dep (x t)) zs zr off phi
    (aH m f0 x0) (aV m f0 x0) (bH m f0 x0) (bV m f0 x0) (x_dep x0) zs0 zr0 off0 phi0 N _ _ _ _ ce_dep0 Is Ir Io Ia Ho NE D _ _ a b xd HP).
  - intros k Hk. unfold aH. apply toC_plus; [assumption|apply IV; [|now apply ce_res0]|apply MU; now apply ce_epH0]. pose proof (sa_res0 k Hk). lra.
  - intros k Hk. unfold aV. apply toC_plus; [assumption|apply IV|apply MU; now apply ce_epV0].
    + pose proof (sa_res0 k Hk). pose proof (sa_an0 k Hk). apply Rmult_integral_contrapositive_currified; [apply Rmult_integral_contrapositive_currified; lra|lra].
    + apply toR_mult; [assumption|apply toR_mult; [assumption|now apply ce_res0|now apply ce_an0]|now apply ce_an0].
  - intros k Hk. unfold bH. apply MU. now apply ce_muH0.
  - intros k Hk. unfold bV. apply MU. now apply ce_muV0.
  - now apply sane_layered.
  - eapply filter_imp; [|exact (filter_and _ _ S (c_incr _ _ N ce_dep0 HI))]. intros t [S1 S2]. now apply sane_layered.
Qed.
End Exact.
