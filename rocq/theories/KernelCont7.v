(** The exact response depends continuously on all parameters: dominated convergence for the improper Hankel integrals. *)

From Coq Require Import Reals ZArith QArith List Bool Lia Lra Psatz.
From Coquelicot Require Import Coquelicot.
From Verif Require Import PyBase CBase ODE Bessel Sommer Cint Hankel Kernel KernelSpec KernelClosed KernelPassive KernelPhys KernelMain KernelBessel KernelBVP KernelThm KernelThm2 KernelDeep KernelFinal HalfspaceThm UtilsAb Fullspace FullspaceThm FullspaceEM Homog HomogThm LayAsym LayConv LayDeep3 Transform TransformDlf KernelCont KernelCont2 KernelCont3 KernelCont4 KernelCont6.
Import ListNotations.
Local Open Scope R_scope.
Local Open Scope C_scope.
Local Open Scope res_scope.

(** ** Dominated convergence *)
Section Dom.
Context {T : Type} (F : (T -> Prop) -> Prop) {FF : Filter F}.
Variables (f : T -> R -> C) (f0 : R -> C).
Hypothesis C0 : cC f0.
Hypothesis JC : forall x0 : R, toC (filter_prod F (locally x0)) (fun p => f (fst p) (snd p)) (f0 x0).

Lemma near_pt : forall (x0 e : R), (0 < e)%R -> exists d : R, (0 < d)%R /\ F (fun t => forall x : R, (Rabs (x - x0) < d)%R -> (Cmod (Cminus (f t x) (f0 x)) < e)%R).
Proof using FF C0 JC.
  intros x0 e He. pose proof (proj1 (toC_eps (filter_prod F (locally x0)) _ _) (JC x0) (e / 2)%R ltac:(lra)) as [Q S HQ [d1 HS] H].
  pose proof (proj1 (toC_eps (locally x0) f0 (f0 x0)) (C0 x0) (e / 2)%R ltac:(lra)) as [d2 H2].
  exists (Rmin d1 d2). split; [apply Rmin_glb_lt; apply cond_pos|]. eapply filter_imp; [|exact HQ]. intros t Ht x Hx.
  specialize (H t x Ht (HS x (Rlt_le_trans _ _ _ Hx (Rmin_l _ _)))). specialize (H2 x (Rlt_le_trans _ _ _ Hx (Rmin_r _ _))). cbn [fst snd] in *.
  replace (f t x - f0 x) with ((f t x - f0 x0) + - (f0 x - f0 x0)) by ring. eapply Rle_lt_trans; [apply Cmod_triangle|]. rewrite Cmod_opp. lra.
Qed.
Lemma near_unif : forall (L e : R), (0 <= L)%R -> (0 < e)%R -> F (fun t => forall x : R, (0 <= x <= L)%R -> (Cmod (Cminus (f t x) (f0 x)) < e)%R).
Proof using FF C0 JC.
  intros L e HL He. set (P := fun b : R => F (fun t => forall x : R, (0 <= x <= b)%R -> (Cmod (Cminus (f t x) (f0 x)) < e)%R)). change (P L).
  assert (MONO : forall b c : R, (b <= c)%R -> P c -> P b). { intros b c L1 Hc. unfold P in *. eapply filter_imp; [|exact Hc]. intros t Ht x Hx. apply Ht. lra. }
  set (E := fun b : R => (0 <= b <= L)%R /\ P b).
  assert (E0 : E 0%R). { split; [lra|]. destruct (near_pt 0 e He) as (d & Hd & H). unfold P. eapply filter_imp; [|exact H]. intros t Ht x Hx. apply Ht. replace x with 0%R by lra. rewrite Rminus_0_r, Rabs_R0. exact Hd. }
  destruct (completeness E) as [s [UB LUB]]. { exists L. intros b [Hb _]. lra. } { now exists 0%R. }
  assert (S0 : (0 <= s)%R) by (apply UB, E0). assert (S1 : (s <= L)%R) by (apply LUB; intros b [Hb _]; lra).
  destruct (near_pt s e He) as (d & Hd & H).
  assert (B : exists b, E b /\ (s - d < b)%R).
  { destruct (Classical_Prop.classic (exists b, E b /\ (s - d < b)%R)) as [Y|Y]; [exact Y|]. exfalso. assert (W : (s <= s - d)%R); [|lra]. apply LUB. intros b Hb. destruct (Rle_lt_dec b (s - d)) as [G|G]; [exact G|]. exfalso. apply Y. now exists b. }
  destruct B as (b & [Hb Pb] & Bs).
  assert (PS : P (s + d / 2)%R).
  { unfold P in *. eapply filter_imp; [|exact (filter_and _ _ H Pb)]. intros t [A1 A2] x Hx. destruct (Rle_lt_dec x b) as [G|G]; [apply A2; lra|]. apply A1. unfold Rabs. destruct (Rcase_abs _); lra. }
  destruct (Rle_lt_dec L (s + d / 2)) as [G|G]; [now apply (MONO L (s + d / 2)%R)|]. exfalso. assert (W : (s + d / 2 <= s)%R); [|lra]. apply UB. split; [lra|exact PS].
Qed.
Variables (V : T -> C) (V0 : C) (K c : R).
Hypothesis Hc : (0 < c)%R.
Hypothesis HK : (0 <= K)%R.
Hypothesis Ct : forall t, cC (f t).
Hypothesis BD : big F (fun p => (Cmod (f (fst p) (snd p)) <= K * exp (- (c * snd p)))%R).
Hypothesis IV : forall t, improper (f t) (V t).
Hypothesis IV0 : improper f0 V0.

Lemma tail_unif : exists M : R, F (fun t => forall L : R, (M <= L)%R -> (Cmod (Cminus (CI (f t) 0 L) (V t)) <= 2 * (K / c * exp (- (c * L))))%R).
Proof using All.
  destruct BD as [Q S HQ [M HS] H]. exists (Rmax 0 (M + 1)). eapply filter_imp; [|exact HQ]. intros t Ht L HL. pose proof (Rmax_l 0 (M + 1)). pose proof (Rmax_r 0 (M + 1)).
  apply le_epsilon. intros e He. destruct (proj1 (limC_eps _ (V t)) (proj2 (IV t)) e He) as [T0 HT0]. set (U := (Rmax T0 L + 1)%R). pose proof (Rmax_l T0 L) as M1. pose proof (Rmax_r T0 L) as M2.
  specialize (HT0 U ltac:(unfold U; lra)). rewrite (CI_chasles (f t) 0 L U (Ct t)) in HT0.
  assert (B : (Cmod (CI (f t) L U) <= 2 * (K / c * exp (- (c * L))))%R).
  { eapply Rle_trans; [apply (CI_bound (f t) (fun x => K * exp (- (c * x)))%R)|].
    - unfold U; lra.
    - apply Ct.
    - intros x. apply (ex_derive_continuous (fun x => K * exp (- (c * x)))%R). auto_derive. exact I.
    - intros x Hx. apply (H t x Ht). apply HS. lra.
    - apply Rmult_le_compat_l; [lra|]. apply exp_int2; unfold U; lra. }
  set (a := CI (f t) 0 L) in *. set (b := CI (f t) L U) in *. replace (a - V t) with ((a + b - V t) + - b) by ring. eapply Rle_trans; [apply Cmod_triangle|]. rewrite Cmod_opp. lra.
Qed.
Theorem dominated : toC F V V0.
Proof using All.
  apply toC_eps; [assumption|]. intros e He. destruct tail_unif as [M HM].
  assert (KC : (0 <= K / c)%R) by (apply Rmult_le_pos; [exact HK|left; now apply Rinv_0_lt_compat]).
  assert (E1 : (0 < e / (6 * (K / c + 1)))%R) by (apply Rdiv_lt_0_compat; lra).
  destruct (exp_dec_lim c Hc (ball 0%R (mkposreal _ E1)) (locally_ball 0%R (mkposreal _ E1))) as [T1 HT].
  destruct (proj1 (limC_eps _ V0) (proj2 IV0) (e / 3)%R ltac:(lra)) as [T0 HT0].
  set (L := (Rmax 0 (Rmax M (Rmax T1 T0)) + 1)%R).
  assert (LB : (0 < L /\ M <= L /\ T1 < L /\ T0 < L)%R). { unfold L. pose proof (Rmax_l 0 (Rmax M (Rmax T1 T0))). pose proof (Rmax_r 0 (Rmax M (Rmax T1 T0))). pose proof (Rmax_l M (Rmax T1 T0)). pose proof (Rmax_r M (Rmax T1 T0)). pose proof (Rmax_l T1 T0). pose proof (Rmax_r T1 T0). repeat split; lra. }
  destruct LB as (L1 & L2 & L3 & L4). specialize (HT0 L L4). specialize (HT L L3). cbv beta in HT. unfold ball in HT; cbn in HT; unfold AbsRing_ball, abs, minus, plus, opp in HT; cbn in HT. rewrite Ropp_0, Rplus_0_r, Rabs_pos_eq in HT by (left; apply exp_pos).
  assert (TB : (2 * (K / c * exp (- (c * L))) < e / 3)%R).
  { pose proof (exp_pos (- (c * L))). apply Rle_lt_trans with (2 * ((K / c + 1) * exp (- (c * L))))%R; [nra|]. apply (Rmult_lt_compat_l (2 * (K / c + 1))) in HT; [|lra]. replace (2 * (K / c + 1) * (e / (6 * (K / c + 1))))%R with (e / 3)%R in HT by (field; lra). lra. }
  assert (E2 : (0 < e / (12 * L))%R) by (apply Rdiv_lt_0_compat; lra).
  eapply filter_imp; [|exact (filter_and _ _ HM (near_unif L (e / (12 * L)) ltac:(lra) E2))]. intros t [A B]. specialize (A L L2).
  assert (CB : (Cmod (Cminus (CI (f t) 0 L) (CI f0 0 L)) <= e / 6)%R).
  { rewrite <- CI_minus by auto. eapply Rle_trans; [apply (CI_bound (fun x => Cminus (f t x) (f0 x)) (fun _ => e / (12 * L))%R)|].
    - lra.
    - apply cC_minus; auto.
    - intros x. apply continuous_const.
    - intros x Hx. left. apply B. lra.
    - rewrite RInt_const. unfold scal; cbn; unfold mult; cbn. right. field. lra. }
  replace (V t - V0) with (- (CI (f t) 0 L - V t) + (CI (f t) 0 L - CI f0 0 L) + (CI f0 0 L - V0)) by ring.
  eapply Rle_lt_trans; [apply Cmod_triangle|]. eapply Rle_lt_trans; [apply Rplus_le_compat_r, Cmod_triangle|]. rewrite Cmod_opp. lra.
Qed.
End Dom.

(** ** The integrand of the Hankel transform *)
Section Hank.
Context {T : Type} (F : (T -> Prop) -> Prop) {FF : Filter F}.
Ltac tf := typeclasses eauto.
Lemma ub_J : forall f : T * R -> R, (forall p, (Rabs (f p) <= 1)%R) -> ub F (fun _ => 0%R) (fun p => RtoC (f p)).
Proof using FF.
  intros f H. exists 1%R, 0%nat. split; [lra|]. apply filter_forall. intros p. rewrite Cmod_R. replace (- (0 * snd p))%R with 0%R by ring. rewrite exp_0. cbn [pow]. rewrite !Rmult_1_r. apply H.
Qed.
Lemma ub_pow2 : ub F (fun _ => 0%R) (fun p => RtoC (snd p * snd p)).
Proof using FF. eapply ub_eq; [assumption| |apply (ub_mult0 F _ _ _ (ub_id F) (ub_id F))]. intros p. cbv beta. now rewrite RtoC_mult. Qed.
Lemma ub_pow3 : ub F (fun _ => 0%R) (fun p => RtoC (snd p * snd p * snd p)).
Proof using FF. eapply ub_eq; [assumption| |apply (ub_mult0 F _ _ _ ub_pow2 (ub_id F))]. intros p. cbv beta. now rewrite (RtoC_mult (snd p * snd p)). Qed.
Lemma ub_pow1 : forall c : R, ub F (fun _ => 0%R) (fun p => RtoC (snd p / c)).
Proof using FF. intros c. eapply ub_eq; [assumption| |apply (ub_scal F _ (RtoC (/ c)) _ (ub_id F))]. intros p. cbv beta. rewrite <- RtoC_mult. f_equal. unfold Rdiv. ring. Qed.

Variables (off A : T -> R) (off0 A0 : R).
Hypothesis Io : toR F off off0.
Hypothesis Ia : toR F A A0.
Hypothesis Hoff : off0 <> 0%R.
Lemma ub_A : ub F (fun _ => 0%R) (fun p => RtoC (A (fst p))).
Proof using FF Ia. apply (ub_lim F _ (RtoC A0)). apply (up_C F (fun t => RtoC (A t))). now apply toC_RtoC. Qed.
Lemma offnz : RtoC off0 <> RtoC 0. Proof using Hoff. intros W. apply Hoff. now apply (f_equal fst) in W. Qed.
Lemma ub_off : ub F (fun _ => 0%R) (fun p => / RtoC (off (fst p))).
Proof using FF Io Hoff. apply (ub_lim F _ (/ RtoC off0)). apply (up_C F (fun t => / RtoC (off t))). apply toC_inv; [assumption|apply offnz|now apply toC_RtoC]. Qed.
Ltac ubt := repeat lazymatch goal with
  | |- ub F _ (fun _ => ?c) => exact (ub_const F c)
  | |- ub F _ (fun t => Cmult (@?f t) (@?g t)) => refine (ub_mult0 F _ f g _ _); cbv beta
  | |- ub F _ (fun t => Cplus (@?f t) (@?g t)) => refine (ub_plus F _ f g _ _); cbv beta
  | |- ub F _ (fun t => Cminus (@?f t) (@?g t)) => refine (ub_minus F _ f g _ _); cbv beta
  | |- ub F _ (fun t => RtoC (snd t)) => exact (ub_id F)
  | |- ub F _ (fun t => RtoC (J0 _)) => refine (ub_J (fun p => J0 (snd p * off (fst p))) _); intros; apply J0_abs
  | |- ub F _ (fun t => RtoC (J1 _)) => refine (ub_J (fun p => J1 (snd p * off (fst p))) _); intros; apply J1_abs
  | |- ub F _ (fun t => RtoC (snd t / ?o)%R) => exact (ub_pow1 o)
  | |- ub F _ (fun t => RtoC (snd t * snd t * snd t)%R) => exact ub_pow3
  | |- ub F _ (fun t => RtoC (snd t * snd t)%R) => exact ub_pow2
  | |- ub F _ (fun t => RtoC (A (fst t))) => exact ub_A
  | |- ub F _ (fun t => Cinv (RtoC (off (fst t)))) => exact ub_off
  end.
Lemma ub_bessel : forall ab mr c (p q : T * R -> C), In ab kernel_abs -> ub F c p -> ub F c q ->
  ub F c (fun x => bessel_sum ab (snd x) (off (fst x)) (A (fst x)) (collect ab mr (snd x) (p x) (q x))).
Proof using FF Io Ia Hoff.
  intros ab mr c p q Hab Hp Hq.
  apply (ub_eq F c (fun x => p x * bessel_sum ab (snd x) (off (fst x)) (A (fst x)) (collect ab mr (snd x) (RtoC 1) (RtoC 0)) + q x * bessel_sum ab (snd x) (off (fst x)) (A (fst x)) (collect ab mr (snd x) (RtoC 0) (RtoC 1)))); [intros x; symmetry; now apply bessel_lin|].
  assert (B : forall u w : C, ub F (fun _ => 0%R) (fun x => bessel_sum ab (snd x) (off (fst x)) (A (fst x)) (collect ab mr (snd x) u w))).
  { intros u w. clear p q Hp Hq. each_ab Hab; destruct mr; unfold bessel_sum, collect, Cdiv; cbv [inb existsb Z.eqb Pos.eqb orb andb negb oz]; ubt. }
  apply ub_plus; [assumption|apply ub_mult0r; [assumption..|apply B]|apply ub_mult0r; [assumption..|apply B]].
Qed.
End Hank.
Section Joint.
Context {T : Type} (F : (T -> Prop) -> Prop) {FF : Filter F}.
Variables (lam off A : T -> R) (p q : T -> C) (lam0 off0 A0 : R) (p0 q0 : C).
Hypothesis Il : toR F lam lam0.
Hypothesis Io : toR F off off0.
Hypothesis Ia : toR F A A0.
Hypothesis Ip : toC F p p0.
Hypothesis Iq : toC F q q0.
Hypothesis Hoff : off0 <> 0%R.
Lemma c_bessel : forall ab mr, toC F (fun t => bessel_sum ab (lam t) (off t) (A t) (collect ab mr (lam t) (p t) (q t))) (bessel_sum ab lam0 off0 A0 (collect ab mr lam0 p0 q0)).
Proof using All.
  intros ab mr. destruct (c_collect F ab mr lam p q lam0 p0 q0 Il Ip Iq) as (L0 & L1 & L2).
  assert (B : forall (l r a : R) (x : option C * option C * option C), bessel_sum ab l r a x = oval (t0 x) * RtoC (J0 (l * r)) + RtoC a * (oval (t0b x) * RtoC (J0 (l * r)) + oval (t1 x) * RtoC (J1 (l * r)) / (if inb ab [11; 12; 21; 22; 14; 24; 15; 25]%Z then RtoC r else 1))).
  { intros l r a [[x y] w]. reflexivity. }
  rewrite B. eapply toC_ext; [assumption|intros t; symmetry; apply B|].
  assert (LO : toR F (fun t => lam t * off t)%R (lam0 * off0)%R) by now apply toR_mult.
  assert (LJ0 : toC F (fun t => RtoC (J0 (lam t * off t))) (RtoC (J0 (lam0 * off0)))) by (apply toC_RtoC; [assumption|]; apply (toR_comp F (fun t => lam t * off t)%R J0); [apply J0_cont|exact LO]).
  assert (LJ1 : toC F (fun t => RtoC (J1 (lam t * off t))) (RtoC (J1 (lam0 * off0)))) by (apply toC_RtoC; [assumption|]; apply (toR_comp F (fun t => lam t * off t)%R J1); [apply J1_cont|exact LO]).
  apply toC_plus; [assumption|now apply toC_mult|]. apply toC_mult; [assumption|now apply toC_RtoC|]. apply toC_plus; [assumption|now apply toC_mult|].
  destruct (inb ab _); (apply toC_div; [assumption| |now apply toC_mult|]).
  - exact (offnz off0 Hoff).
  - now apply toC_RtoC.
  - apply c1nz. reflexivity.
  - now apply toC_const.
Qed.
End Joint.

(** ** The two modes *)
Section OneMode.
Context {T : Type} (F : (T -> Prop) -> Prop) {FF : Filter F}.
Variables (h v q : T -> nat -> C) (z : T -> nat -> R) (h0 v0 q0 : nat -> C) (z0 : nat -> R) (N : nat).
Hypothesis Ih : forall k, (k <= N)%nat -> toC F (fun t => h t k) (h0 k).
Hypothesis Iv : forall k, (k <= N)%nat -> toC F (fun t => v t k) (v0 k).
Hypothesis Iq : forall k, (k <= N)%nat -> toC F (fun t => q t k) (q0 k).
Hypothesis Iz : forall k, (1 <= k <= N)%nat -> toR F (fun t => z t k) (z0 k).
Hypothesis ML : forall k, (k <= N)%nat -> mlayer (h0 k) (v0 k) (q0 k).
Hypothesis Hz : increasing z0 N.
Hypothesis Hzt : forall t, increasing (z t) N.
Notation g p := (gam (h (fst p)) (v (fst p)) (q (fst p)) (snd p)).
Lemma ub_wsrc : forall pm k, (k <= N)%nat -> ub F (fun _ => 0%R) (fun p => wsrc (h (fst p)) (g p) pm k).
Proof using FF Ih Iv Iq ML.
  intros pm k Hk. unfold wsrc. destruct (Ceq_dec pm 1); [|now apply ub_const]. unfold Cdiv. apply ub_mult0; [assumption|apply (ub_lim F _ (h0 k)), (up_C F (fun t => h t k)), Ih, Hk|].
  eapply ub_lim; [assumption|]. exact (u_gi F h v q h0 v0 q0 N Ih Iv Iq ML k Hk).
Qed.
Lemma ub_wgt : forall sg k, (k <= N)%nat -> ub F (fun _ => 0%R) (fun p => wgt (h (fst p)) (g p) sg k).
Proof using FF Ih Iv Iq ML.
  intros sg k Hk. unfold wgt. destruct (Ceq_dec sg 1); [now apply ub_const|]. unfold Cdiv. apply ub_mult0r; [assumption|exact (ub_g F h v q h0 v0 q0 N Ih Iv Iq ML k Hk)|].
  apply (ub_lim F _ (/ h0 k)), (up_C F (fun t => / h t k)). apply toC_inv; [assumption|apply (ml_h _ _ _ (ML k Hk))|now apply Ih].
Qed.
Lemma ub_vopt : forall (b : bool) k, (k <= N)%nat -> ub F (fun _ => 0%R) (fun p => / (if b then v (fst p) k else RtoC 1)).
Proof using FF Iv ML.
  intros [] k Hk; [|now apply ub_const]. apply (ub_lim F _ (/ v0 k)), (up_C F (fun t => / v t k)). apply toC_inv; [assumption|apply (ml_v _ _ _ (ML k Hk))|now apply Iv].
Qed.
Lemma ub_fTM : forall ab s r, (s <= N)%nat -> (r <= N)%nat -> ub F (fun _ => 0%R) (fun p => fTM (h (fst p)) (v (fst p)) (g p) ab s r).
Proof using FF Ih Iv Iq ML.
  intros ab s r Hs Hr. unfold fTM, Cdiv. apply ub_mult0r; [assumption| |now apply ub_vopt]. apply ub_mult0r; [assumption| |now apply ub_vopt].
  apply ub_mult0; [assumption|apply ub_scal; [assumption|now apply ub_wsrc]|now apply ub_wgt].
Qed.
Lemma ub_fTE : forall ab s, (s <= N)%nat -> ub F (fun _ => 0%R) (fun p => fTE (h (fst p)) (v (fst p)) (g p) ab s).
Proof using FF Ih Iv Iq ML. intros ab s Hs. unfold fTE, Cdiv. apply ub_mult0r; [assumption|now apply ub_wsrc|now apply ub_vopt]. Qed.
Variable a : R.
Hypothesis Ha : (0 < a)%R.
Hypothesis HA : forall k, (k <= N)%nat -> (a < fst (ms (h0 k) (v0 k)))%R.
Variables (zs zr : T -> R) (s r : nat).
Hypothesis (Ks : (s <= N)%nat) (Kr : (r <= N)%nat).
Hypothesis (LS : forall t, inlay (z t) N s (zs t)) (LR : forall t, inlay (z t) N r (zr t)).
Lemma ub_PTM : forall ab xd, ub F (fun t => a * Rabs (zs t - zr t))%R (fun p => PTM (h (fst p)) (v (fst p)) (q (fst p)) (z (fst p)) N (snd p) ab xd s r (zs (fst p)) (zr (fst p))).
Proof using All.
  intros ab xd. unfold PTM. destruct (mode_used true ab); [|now apply ub_zero]. apply ub_mult0; [assumption|now apply ub_fTM|]. now apply (ub_mode F h v q z h0 v0 q0 z0 N Ih Iv Iq Iz ML Hz Hzt a Ha HA).
Qed.
Lemma ub_PTE : forall ab xd, ub F (fun t => a * Rabs (zs t - zr t))%R (fun p => PTE (h (fst p)) (v (fst p)) (q (fst p)) (z (fst p)) N (snd p) ab xd s r (zs (fst p)) (zr (fst p))).
Proof using All.
  intros ab xd. unfold PTE. destruct (mode_used false ab); [|now apply ub_zero]. apply ub_mult0; [assumption|now apply ub_fTE|]. now apply (ub_mode F h v q z h0 v0 q0 z0 N Ih Iv Iq Iz ML Hz Hzt a Ha HA).
Qed.
End OneMode.

(** ** The exact response *)
Section Exact.
Context {T : Type} (F : (T -> Prop) -> Prop) {FF : Filter F}.
Variables (eH eV zH zV : T -> nat -> C) (z : T -> nat -> R) (zs zr off phi : T -> R) (eH0 eV0 zH0 zV0 : nat -> C) (z0 : nat -> R) (zs0 zr0 off0 phi0 : R) (N : nat).
Hypothesis IeH : forall k, (k <= N)%nat -> toC F (fun t => eH t k) (eH0 k).
Hypothesis IeV : forall k, (k <= N)%nat -> toC F (fun t => eV t k) (eV0 k).
Hypothesis IzH : forall k, (k <= N)%nat -> toC F (fun t => zH t k) (zH0 k).
Hypothesis IzV : forall k, (k <= N)%nat -> toC F (fun t => zV t k) (zV0 k).
Hypothesis Iz : forall k, (1 <= k <= N)%nat -> toR F (fun t => z t k) (z0 k).
Hypothesis Is : toR F zs zs0.
Hypothesis Ir : toR F zr zr0.
Hypothesis Io : toR F off off0.
Hypothesis Ip : toR F phi phi0.
Hypothesis Hoff : off0 <> 0%R.
Hypothesis NE : zs0 <> zr0.
Hypothesis LY0 : layered eH0 eV0 zH0 zV0 z0 N.
Hypothesis LYt : forall t, layered (eH t) (eV t) (zH t) (zV t) (z t) N.
Variables (s r : nat).
Hypothesis L0s : lay z0 N zs0 = s.
Hypothesis L0r : lay z0 N zr0 = r.
Hypothesis Lts : forall t, lay (z t) N (zs t) = s.
Hypothesis Ltr : forall t, lay (z t) N (zr t) = r.
Let Ks : (s <= N)%nat. Proof. rewrite <- L0s. apply lay_le. Qed.
Let Kr : (r <= N)%nat. Proof. rewrite <- L0r. apply lay_le. Qed.
Let LS : forall t, inlay (z t) N s (zs t). Proof. intros t. rewrite <- (Lts t). apply lay_inlay, LYt. Qed.
Let LR : forall t, inlay (z t) N r (zr t). Proof. intros t. rewrite <- (Ltr t). apply lay_inlay, LYt. Qed.

Lemma rate3 : exists a : R, (0 < a)%R /\ (forall k, (k <= N)%nat -> (a < fst (ms (eH0 k) (eV0 k)))%R) /\ (forall k, (k <= N)%nat -> (a < fst (ms (zH0 k) (zV0 k)))%R).
Proof using LY0. destruct (rate2 _ _ _ _ _ _ LY0) as (a & P & A & B). exists (a / 2)%R. split; [lra|]. split; intros k Hk; [specialize (A k Hk)|specialize (B k Hk)]; lra. Qed.
Lemma ub_resp : exists a : R, (0 < a)%R /\ forall ab xd msrc mrec,
  ub F (fun t => a * Rabs (zs t - zr t))%R (fun p => fst (resp (eH (fst p)) (eV (fst p)) (zH (fst p)) (zV (fst p)) (z (fst p)) N (snd p) ab xd msrc mrec s r (zs (fst p)) (zr (fst p)))) /\
  ub F (fun t => a * Rabs (zs t - zr t))%R (fun p => snd (resp (eH (fst p)) (eV (fst p)) (zH (fst p)) (zV (fst p)) (z (fst p)) N (snd p) ab xd msrc mrec s r (zs (fst p)) (zr (fst p)))).
Proof using All.
  destruct rate3 as (a & Pa & A1 & A2). exists a. split; [exact Pa|]. intros ab xd msrc mrec. pose proof (ly_z _ _ _ _ _ _ LY0) as HI. pose proof (fun t => ly_z _ _ _ _ _ _ (LYt t)) as HIt.
  pose proof (MTM _ _ _ _ _ _ LY0) as M1. pose proof (MTE _ _ _ _ _ _ LY0) as M2.
  assert (SY : forall f, ub F (fun t => a * Rabs (zr t - zs t))%R f -> ub F (fun t => a * Rabs (zs t - zr t))%R f) by (intros f H; eapply ub_weak; [assumption|exact H|]; intros t; cbn beta; rewrite Rabs_minus_sym; lra).
  unfold resp. destruct mrec; [destruct msrc|]; cbn [fst snd]; split.
  - apply ub_opp; [assumption|]. now apply (ub_PTM F zH zV eH z zH0 zV0 eH0 z0 N).
  - apply ub_opp; [assumption|]. now apply (ub_PTE F eH eV zH z eH0 eV0 zH0 z0 N).
  - apply SY. now apply (ub_PTM F eH eV zH z eH0 eV0 zH0 z0 N).
  - apply SY. now apply (ub_PTE F zH zV eH z zH0 zV0 eH0 z0 N).
  - now apply (ub_PTM F eH eV zH z eH0 eV0 zH0 z0 N).
  - now apply (ub_PTE F zH zV eH z zH0 zV0 eH0 z0 N).
Qed.
Variables (ab : Z) (xd msrc mrec : bool).
Hypothesis KA : In ab kernel_abs.
Hypothesis VC : valid_call ab msrc mrec.
Definition ig (a b c d : nat -> C) (y : nat -> R) (o ph x w lam : R) : C :=
  bessel_sum ab lam o (ang_exact (eval_angle ph msrc mrec) ab) (collect ab mrec lam (fst (resp a b c d y N lam ab xd msrc mrec s r x w)) (snd (resp a b c d y N lam ab xd msrc mrec s r x w))).
Lemma ig_cC : forall a b c d y o ph x w, layered a b c d y N -> lay y N x = s -> lay y N w = r -> cC (ig a b c d y o ph x w).
Proof using KA.
  intros a b c d y o ph x w LY E1 E2. destruct (eb_resp a b c d y N LY) as (rt & P & B). pose proof (lay_inlay y N x (ly_z _ _ _ _ _ _ LY)) as I1. pose proof (lay_inlay y N w (ly_z _ _ _ _ _ _ LY)) as I2. rewrite E1 in I1. rewrite E2 in I2.
  destruct (B ab xd msrc mrec s r x w I1 I2) as [B1 B2]. exact (eb_cC _ _ (eb_bessel ab mrec o (ang_exact (eval_angle ph msrc mrec) ab) _ _ _ KA B1 B2)).
Qed.
Lemma c_ang : toR F (fun t => ang_exact (eval_angle (phi t) msrc mrec) ab) (ang_exact (eval_angle phi0 msrc mrec) ab).
Proof using FF Ip.
  assert (E : toR F (fun t => eval_angle (phi t) msrc mrec) (eval_angle phi0 msrc mrec)).
  { unfold eval_angle. destruct (mrec && negb msrc)%bool; [|exact Ip]. apply toR_plus; [assumption|exact Ip|now apply toR_const]. }
  unfold ang_exact. destruct (inb ab [33]%Z); [now apply toR_const|]. cbv zeta.
  assert (E2 : toR F (fun t => if inb ab [11; 22; 15; 24; 12; 21; 14; 25]%Z then (eval_angle (phi t) msrc mrec * 2)%R else eval_angle (phi t) msrc mrec) (if inb ab [11; 22; 15; 24; 12; 21; 14; 25]%Z then (eval_angle phi0 msrc mrec * 2)%R else eval_angle phi0 msrc mrec)).
  { destruct (inb ab [11; 22; 15; 24; 12; 21; 14; 25]%Z); [|exact E]. apply toR_mult; [assumption|exact E|now apply toR_const]. }
  destruct (inb ab [11; 22; 15; 24; 13; 31; 26; 35]%Z).
  - apply (toR_comp F _ cos _ (continuous_cos _) E2).
  - apply (toR_comp F _ sin _ (continuous_sin _) E2).
Qed.
Lemma ig_joint : forall x0 : R, toC (filter_prod F (locally x0)) (fun p => ig (eH (fst p)) (eV (fst p)) (zH (fst p)) (zV (fst p)) (z (fst p)) (off (fst p)) (phi (fst p)) (zs (fst p)) (zr (fst p)) (snd p)) (ig eH0 eV0 zH0 zV0 z0 off0 phi0 zs0 zr0 x0).
Proof using All.
  intros x0. set (G := filter_prod F (locally x0)). assert (FG : Filter G) by (apply filter_prod_filter; [exact FF|apply locally_filter]).
  assert (GF : forall P : T -> Prop, F P -> G (fun p => P (fst p))). { intros P H. exists P (fun _ => True); [exact H|apply filter_true|]. intros x y A _. exact A. }
  assert (GR : forall f l, toR F f l -> toR G (fun p => f (fst p)) l). { intros f l H. apply toR_eps; [assumption|]. intros e He. exact (GF (fun t => (Rabs (f t - l) < e)%R) (proj1 (toR_eps F f l) H e He)). }
  assert (GC : forall f l, toC F f l -> toC G (fun p => f (fst p)) l). { intros f l [A B]. split; [exact (GR (fun t => fst (f t)) _ A)|exact (GR (fun t => snd (f t)) _ B)]. }
  assert (GX : toR G (fun p => snd p) x0). { apply toR_eps; [assumption|]. intros e He. exists (fun _ => True) (fun x => (Rabs (x - x0) < e)%R); [apply filter_true|exists (mkposreal e He); intros y Hy; exact Hy|]. intros x y _ A. exact A. }
  assert (RP : forall a b c d y l x w, layered a b c d y N -> gcall a b c d y N l ab xd msrc mrec s r x w = Ok (resp a b c d y N l ab xd msrc mrec s r x w)).
  { intros a b c d y l x w LY. apply gcall_resp; [apply passive_model_ok, ly_passive, LY|exact VC|exact Ks|exact Kr]. }
  destruct (green_fixed G (fun p => eH (fst p)) (fun p => eV (fst p)) (fun p => zH (fst p)) (fun p => zV (fst p)) (fun p => z (fst p)) (fun p => snd p) (fun p => zs (fst p)) (fun p => zr (fst p)) eH0 eV0 zH0 zV0 z0 x0 zs0 zr0 N
    (fun k Hk => GC _ _ (IeH k Hk)) (fun k Hk => GC _ _ (IeV k Hk)) (fun k Hk => GC _ _ (IzH k Hk)) (fun k Hk => GC _ _ (IzV k Hk)) (fun k Hk => GR _ _ (Iz k Hk)) GX (GR _ _ Is) (GR _ _ Ir) (ly_passive _ _ _ _ _ _ LY0)
    (filter_forall _ (fun p => ly_passive _ _ _ _ _ _ (LYt (fst p)))) ab xd msrc mrec s r VC Ks Kr (fun _ => NE)) as (p & q & E & H).
  rewrite (RP _ _ _ _ _ _ _ _ LY0) in E. apply Ok_inj in E.
  unfold ig. rewrite E. cbn [fst snd]. apply (c_bessel G (fun p => snd p) (fun p => off (fst p)) (fun p => ang_exact (eval_angle (phi (fst p)) msrc mrec) ab)); try assumption.
  - exact (GR _ _ Io).
  - exact (GR _ _ c_ang).
  - apply toC_eps; [assumption|]. intros e He. eapply filter_imp; [|exact (H e He)]. intros x (p' & q' & E' & B1 & B2). rewrite (RP _ _ _ _ _ _ _ _ (LYt (fst x))) in E'. apply Ok_inj in E'. rewrite E'. exact B1.
  - apply toC_eps; [assumption|]. intros e He. eapply filter_imp; [|exact (H e He)]. intros x (p' & q' & E' & B1 & B2). rewrite (RP _ _ _ _ _ _ _ _ (LYt (fst x))) in E'. apply Ok_inj in E'. rewrite E'. exact B2.
Qed.
Theorem exact_all : forall (V : T -> C) V0, (forall t, improper (ig (eH t) (eV t) (zH t) (zV t) (z t) (off t) (phi t) (zs t) (zr t)) (V t)) -> improper (ig eH0 eV0 zH0 zV0 z0 off0 phi0 zs0 zr0) V0 -> toC F V V0.
Proof using All.
  intros V V0 HV HV0. destruct ub_resp as (a & Pa & B). destruct (B ab xd msrc mrec) as [B1 B2].
  pose proof (ub_bessel F off (fun t => ang_exact (eval_angle (phi t) msrc mrec) ab) off0 _ Io c_ang Hoff ab mrec _ _ _ KA B1 B2) as UB.
  assert (D : (0 < Rabs (zs0 - zr0))%R) by (apply Rabs_pos_lt; lra). assert (C0 : (0 < a * (Rabs (zs0 - zr0) / 2))%R) by (apply Rmult_lt_0_compat; lra).
  assert (FC : F (fun t => (a * (Rabs (zs0 - zr0) / 2) <= a * Rabs (zs t - zr t))%R)).
  { assert (L : toR F (fun t => Rabs (zs t - zr t)) (Rabs (zs0 - zr0))). { apply (toR_comp F (fun t => zs t - zr t)%R Rabs); [apply continuous_Rabs|now apply toR_minus]. }
    eapply filter_imp; [|exact (toR_lt F (fun _ => Rabs (zs0 - zr0) / 2)%R _ _ _ (toR_const F _) L ltac:(lra))]. intros t Ht. cbn beta in Ht. apply Rmult_le_compat_l; lra. }
  destruct (ub_exp F _ _ _ UB C0 FC) as (K & HK & BD).
  refine (dominated F (fun t => ig (eH t) (eV t) (zH t) (zV t) (z t) (off t) (phi t) (zs t) (zr t)) (ig eH0 eV0 zH0 zV0 z0 off0 phi0 zs0 zr0) _ ig_joint V V0 K (a * (Rabs (zs0 - zr0) / 2) / 2) _ HK _ BD HV HV0).
  - now apply ig_cC.
  - lra.
  - intros t. now apply ig_cC.
Qed.
End Exact.

(** ** Restriction of a filter to a set of indices *)
Section Sub.
Context {T : Type} (F : (T -> Prop) -> Prop) {FF : Filter F} (Q : T -> Prop).
Definition subF (P : {t | Q t} -> Prop) : Prop := F (fun t => forall H : Q t, P (exist _ t H)).
Global Instance subF_filter : Filter subF.
Proof using FF.
  constructor; unfold subF.
  - apply filter_forall. auto.
  - intros P P' H H'. eapply filter_imp; [|exact (filter_and _ _ H H')]. intros t [A B] K. split; [apply A|apply B].
  - intros P P' I H. eapply filter_imp; [|exact H]. intros t A K. apply I, A.
Qed.
Lemma sub_R : forall f l, toR F f l -> toR subF (fun x => f (proj1_sig x)) l.
Proof using FF. intros f l H. apply toR_eps; [typeclasses eauto|]. intros e He. unfold subF. eapply filter_imp; [|exact (proj1 (toR_eps F f l) H e He)]. intros t A K. exact A. Qed.
Lemma sub_C : forall f l, toC F f l -> toC subF (fun x => f (proj1_sig x)) l.
Proof using FF. intros f l [A B]. split; [exact (sub_R (fun t => fst (f t)) _ A)|exact (sub_R (fun t => snd (f t)) _ B)]. Qed.
Lemma sub_back : forall f l, F Q -> toC subF (fun x => f (proj1_sig x)) l -> toC F f l.
Proof using FF.
  intros f l HQ H. apply toC_eps; [assumption|]. intros e He. pose proof (proj1 (toC_eps subF _ _) H e He) as A. unfold subF in A. eapply filter_imp; [|exact (filter_and _ _ HQ A)]. intros t [K B]. exact (B K).
Qed.
End Sub.

Lemma hankel_ig : forall eH eV zH zV z N a b xd off phi zs zr V ab msrc mrec, layered eH eV zH zV z N -> check_ab (AbNum (inject_Z (10 * a + b))) = Ok (ab, msrc, mrec) -> valid_call ab msrc mrec ->
  hankel_value eH eV zH zV z N (10 * a + b) xd off phi zs zr V -> improper (ig N (lay z N zs) (lay z N zr) ab xd msrc mrec eH eV zH zV z off phi zs zr) V.
Proof.
  intros eH eV zH zV z N a b xd off phi zs zr V ab msrc mrec LY CA VC (ab' & ms' & mr' & G & CA' & B & I). rewrite CA in CA'. apply Ok_inj in CA'. injection CA' as <- <- <-.
  refine (improper_ext _ G V _ I). intros x _. destruct (B x) as (PJ & E & ->). unfold ig. f_equal. rewrite wcall_gcall in E. rewrite gcall_resp in E; [|apply passive_model_ok, ly_passive, LY|exact VC|apply lay_le|apply lay_le]. cbn [bind] in E. destruct (resp _ _ _ _ _ _ _ _ _ _ _ _ _ _ _) as [u w]. now apply Ok_inj in E.
Qed.
(** The exact response is continuous in the medium, the depths of the interfaces, of the source and of the receiver, the offset and the angle. *)
Theorem exact_continuous : forall T (F : (T -> Prop) -> Prop), Filter F -> forall (eH eV zH zV : T -> nat -> C) (z : T -> nat -> R) (zs zr off phi : T -> R) (eH0 eV0 zH0 zV0 : nat -> C) (z0 : nat -> R) (zs0 zr0 off0 phi0 : R) N,
  (forall k, (k <= N)%nat -> toC F (fun t => eH t k) (eH0 k)) -> (forall k, (k <= N)%nat -> toC F (fun t => eV t k) (eV0 k)) ->
  (forall k, (k <= N)%nat -> toC F (fun t => zH t k) (zH0 k)) -> (forall k, (k <= N)%nat -> toC F (fun t => zV t k) (zV0 k)) ->
  (forall k, (1 <= k <= N)%nat -> toR F (fun t => z t k) (z0 k)) -> toR F zs zs0 -> toR F zr zr0 -> toR F off off0 -> toR F phi phi0 ->
  off0 <> 0%R -> zs0 <> zr0 -> (forall k, (1 <= k <= N)%nat -> z0 k <> zs0 /\ z0 k <> zr0) ->
  layered eH0 eV0 zH0 zV0 z0 N -> F (fun t => layered (eH t) (eV t) (zH t) (zV t) (z t) N) ->
  forall a b (xd : bool) (V : T -> C) V0, fs_pair a b ->
  F (fun t => hankel_value (eH t) (eV t) (zH t) (zV t) (z t) N (10 * a + b) xd (off t) (phi t) (zs t) (zr t) (V t)) ->
  hankel_value eH0 eV0 zH0 zV0 z0 N (10 * a + b) xd off0 phi0 zs0 zr0 V0 -> toC F V V0.
Proof.
  intros T F FF eH eV zH zV z zs zr off phi eH0 eV0 zH0 zV0 z0 zs0 zr0 off0 phi0 N IeH IeV IzH IzV Iz Is Ir Io Ip Hoff NE D LY0 LYt a b xd V V0 HP HV HV0.
  destruct (pair_class a b HP) as (ab & CA & _). destruct (code_class _ ab _ _ CA (ex_intro _ a (ex_intro _ b (conj HP eq_refl)))) as [KA VC].
  pose proof (c_lay F z z0 zs zs0 N Iz Is (fun k Hk => proj1 (D k Hk))) as L1. pose proof (c_lay F z z0 zr zr0 N Iz Ir (fun k Hk => proj2 (D k Hk))) as L2.
  set (Q := fun t => layered (eH t) (eV t) (zH t) (zV t) (z t) N /\ hankel_value (eH t) (eV t) (zH t) (zV t) (z t) N (10 * a + b) xd (off t) (phi t) (zs t) (zr t) (V t) /\ lay (z t) N (zs t) = lay z0 N zs0 /\ lay (z t) N (zr t) = lay z0 N zr0).
  assert (FQ : F Q) by (apply filter_and; [exact LYt|apply filter_and; [exact HV|apply filter_and; [exact L1|exact L2]]]).
  apply (sub_back F Q V V0 FQ).
  refine (exact_all (subF F Q) (fun x => eH (proj1_sig x)) (fun x => eV (proj1_sig x)) (fun x => zH (proj1_sig x)) (fun x => zV (proj1_sig x)) (fun x => z (proj1_sig x)) (fun x => zs (proj1_sig x)) (fun x => zr (proj1_sig x)) (fun x => off (proj1_sig x)) (fun x => phi (proj1_sig x))
    eH0 eV0 zH0 zV0 z0 zs0 zr0 off0 phi0 N (fun k Hk => sub_C F Q _ _ (IeH k Hk)) (fun k Hk => sub_C F Q _ _ (IeV k Hk)) (fun k Hk => sub_C F Q _ _ (IzH k Hk)) (fun k Hk => sub_C F Q _ _ (IzV k Hk)) (fun k Hk => sub_R F Q _ _ (Iz k Hk))
    (sub_R F Q _ _ Is) (sub_R F Q _ _ Ir) (sub_R F Q _ _ Io) (sub_R F Q _ _ Ip) Hoff NE LY0 (fun x => proj1 (proj2_sig x)) (lay z0 N zs0) (lay z0 N zr0) eq_refl eq_refl (fun x => proj1 (proj2 (proj2 (proj2_sig x)))) (fun x => proj2 (proj2 (proj2 (proj2_sig x)))) ab xd _ _ KA VC (fun x => V (proj1_sig x)) V0 _ _).
  - intros [t (K1 & K2 & K3 & K4)]. cbn [proj1_sig]. rewrite <- K3, <- K4. now apply (hankel_ig _ _ _ _ _ N a b).
  - now apply (hankel_ig _ _ _ _ _ N a b).
Qed.
