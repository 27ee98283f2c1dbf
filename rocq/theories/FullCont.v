(** The full-space solution depends continuously on all parameters, also at equal depths; consequences for the field with
    source and receiver in one layer. *)

From Coq Require Import Reals ZArith QArith List Bool Lia Lra Psatz.
From Coquelicot Require Import Coquelicot.
From Verif Require Import PyBase CBase ODE Sommer Sommer3 Kernel KernelSpec KernelClosed KernelPassive KernelPhys KernelMain KernelBessel KernelBVP KernelThm KernelThm2 UtilsAb Fullspace FullspaceThm FullspaceEM FullspaceField Homog HomogThm LayAsym LayConv KernelCont KernelCont7 KernelCont8 KernelCont9.
Import ListNotations.
Local Open Scope R_scope.
Local Open Scope C_scope.
Local Open Scope res_scope.

Lemma gin_roots : forall rdt off x y zs zr eH eV zH zV ab, (0 <= fst eH)%R -> (0 <= fst zH)%R -> fs_gin rdt false false off x y zs zr eH eV zH zV ab = fs_gin false false false off x y zs zr eH eV zH zV ab.
Proof.
  intros rdt off x y zs zr eH eV zH zV ab A B. unfold fs_gin, fs_root. destruct rdt; [|reflexivity].
  destruct (Rlt_dec (fst zH) 0); [lra|]. destruct (Rlt_dec (fst eH) 0); [lra|]. reflexivity.
Qed.
Lemma RtoC_nz : forall x : R, x <> 0%R -> RtoC x <> RtoC 0.
Proof. intros x H W. apply (f_equal fst) in W. cbn in W. contradiction. Qed.
Lemma c4pi_n0 : c4pi <> RtoC 0. Proof. apply RtoC_nz. pose proof PI_RGT_0. lra. Qed.
Lemma re_n0 : forall c : C, (0 < fst c)%R -> c <> RtoC 0.
Proof. intros c H W. rewrite W in H. cbn in H. lra. Qed.

Section Gin.
Context {T : Type} (F : (T -> Prop) -> Prop) {FF : Filter F}.
Variables (off x y zs zr : T -> R) (eH eV zH zV : T -> C) (off0 x0 y0 zs0 zr0 : R) (eH0 eV0 zH0 zV0 : C).
Hypothesis (Io : toR F off off0) (Ix : toR F x x0) (Iy : toR F y y0) (Is : toR F zs zs0) (Ir : toR F zr zr0).
Hypothesis (IeH : toC F eH eH0) (IeV : toC F eV eV0) (IzH : toC F zH zH0) (IzV : toC F zV zV0).
Hypothesis (M1 : mlayer eH0 eV0 zH0) (M2 : mlayer zH0 zV0 eH0).
Hypothesis Ho : off0 <> 0%R.

Lemma c_lGam : forall (v z : T -> C) v0 z0, toC F v v0 -> toC F z z0 -> offcut (z0 * v0) -> toC F (fun t => fs_lGam (v t) (z t)) (fs_lGam v0 z0).
Proof using FF.
  intros v z v0 z0 A B O. unfold fs_lGam. apply toC_sqrt; [assumption| |now apply toC_mult]. apply Csqrt_Re_pos. destruct O as [O|O]; [now left|right; lra].
Qed.
Lemma R_pos : forall h0 v0 : C, (0 < fst (h0 / v0)%C)%R -> (0 < fst (fs_R off0 zs0 zr0 h0 v0))%R.
Proof using Ho.
  intros h0 v0 P. unfold fs_R. apply Csqrt_Re_pos. left. replace (RtoC ((zs0 - zr0) * (zs0 - zr0)) * h0 / v0) with (RtoC ((zs0 - zr0) * (zs0 - zr0)) * (h0 / v0)) by (unfold Cdiv; ring).
  cbn [fst Cplus RtoC Cmult snd]. pose proof (Rle_0_sqr (zs0 - zr0)) as Q. unfold Rsqr in Q. pose proof (Rlt_0_sqr off0 Ho) as Q2. unfold Rsqr in Q2. pose proof (Rmult_le_pos _ _ Q (Rlt_le _ _ P)) as Q3. cbn [fst] in Q3. lra.
Qed.
Lemma c_R : forall (h v : T -> C) h0 v0, toC F h h0 -> toC F v v0 -> v0 <> RtoC 0 -> (0 < fst (h0 / v0)%C)%R -> toC F (fun t => fs_R (off t) (zs t) (zr t) (h t) (v t)) (fs_R off0 zs0 zr0 h0 v0).
Proof using FF Io Is Ir Ho.
  intros h v h0 v0 A B NZ P. pose proof (R_pos h0 v0 P) as Q. unfold fs_R in *. apply toC_sqrt; [assumption|exact Q|]. apply toC_plus; [assumption| |].
  - apply toC_RtoC; [assumption|]. now apply toR_mult.
  - apply toC_div; [assumption|exact NZ| |exact B]. apply toC_mult; [assumption| |exact A]. apply toC_RtoC; [assumption|]. apply toR_mult; [assumption| |]; now apply toR_minus.
Qed.
Lemma c_uGam : forall (l r h v : T -> C) l0 r0 h0 v0, toC F l l0 -> toC F r r0 -> toC F h h0 -> toC F v v0 -> v0 <> RtoC 0 -> r0 <> RtoC 0 -> (0 < fst (h0 / v0)%C)%R ->
  toC F (fun t => fs_uGam (l t) (r t) (h t) (v t)) (fs_uGam l0 r0 h0 v0).
Proof using FF.
  intros l r h v l0 r0 h0 v0 A B C D N1 N2 P. unfold fs_uGam. assert (Q : (0 < fst (Csqrt (h0 / v0)%C))%R) by (apply Csqrt_Re_pos; now left).
  apply toC_div; [assumption| | |].
  - repeat apply Cmult_neq_0; [exact c4pi_n0|exact N2|now apply re_n0].
  - apply toC_exp; [assumption|]. apply toC_opp; [assumption|]. now apply toC_mult.
  - apply toC_mult; [assumption| |]. { apply toC_mult; [assumption|now apply toC_const|exact B]. } apply toC_sqrt; [assumption|exact Q|]. now apply toC_div.
Qed.

Ltac nz := repeat apply Cmult_neq_0; first [assumption|apply c4pi_n0|apply RtoC_nz; assumption].
Ltac limR := first [assumption|match goal with
  | |- toR F (fun t => (_ + _)%R) _ => apply toR_plus; [exact FF|limR|limR]
  | |- toR F (fun t => (_ * _)%R) _ => apply toR_mult; [exact FF|limR|limR]
  | |- toR F (fun t => (_ - _)%R) _ => apply toR_minus; [exact FF|limR|limR]
  | |- toR F (fun t => (- _)%R) _ => apply toR_opp; [exact FF|limR]
  | |- toR F (fun t => (_ / _)%R) _ => unfold Rdiv; limR
  | |- toR F (fun t => (/ _)%R) _ => apply toR_inv; [exact FF|assumption|limR]
  | |- toR F (fun t => _) _ => apply toR_const; exact FF end].
Ltac limC := first [assumption|match goal with
  | |- toC F (fun t => Cplus _ _) _ => apply toC_plus; [exact FF|limC|limC]
  | |- toC F (fun t => Cmult _ _) _ => apply toC_mult; [exact FF|limC|limC]
  | |- toC F (fun t => Cminus _ _) _ => apply toC_minus; [exact FF|limC|limC]
  | |- toC F (fun t => Copp _) _ => apply toC_opp; [exact FF|limC]
  | |- toC F (fun t => Cexp _) _ => apply toC_exp; [exact FF|limC]
  | |- toC F (fun t => Cdiv _ _) _ => apply toC_div; [exact FF|nz|limC|limC]
  | |- toC F (fun t => RtoC _) _ => apply toC_RtoC; [exact FF|limR]
  | |- toC F (fun t => _) _ => apply toC_const; exact FF end].
Definition okv (r : res C) : C := match r with Ok v => v | Err _ => RtoC 0 end.
Theorem c_gin : forall ab, (exists v0, fs_gin false false false off0 x0 y0 zs0 zr0 eH0 eV0 zH0 zV0 ab = Ok v0) ->
  (forall t, exists v, fs_gin false false false (off t) (x t) (y t) (zs t) (zr t) (eH t) (eV t) (zH t) (zV t) ab = Ok v) /\
  toC F (fun t => okv (fs_gin false false false (off t) (x t) (y t) (zs t) (zr t) (eH t) (eV t) (zH t) (zV t) ab)) (okv (fs_gin false false false off0 x0 y0 zs0 zr0 eH0 eV0 zH0 zV0 ab)).
Proof using All.
  intros ab E. destruct M1 as [q1 q2 q3 P1 O1 O1']. destruct M2 as [p1 p2 p3 P2 O2 O2'].
  pose proof (proj2 (proj2 q1)) as NeH. pose proof (proj2 (proj2 q2)) as NeV. pose proof (proj2 (proj2 p1)) as NzH. pose proof (proj2 (proj2 p2)) as NzV.
  assert (Noo : (off0 * off0)%R <> 0%R) by now apply Rmult_integral_contrapositive_currified.
  pose proof (re_n0 _ (R_pos _ _ P1)) as NR1. pose proof (re_n0 _ (R_pos _ _ P2)) as NR2.
  pose proof (c_lGam _ _ _ _ IeV IzH O1) as L1. pose proof (c_lGam _ _ _ _ IzV IeH O2) as L2.
  pose proof (c_R _ _ _ _ IeH IeV NeV P1) as R1. pose proof (c_R _ _ _ _ IzH IzV NzV P2) as R2.
  pose proof (c_uGam _ _ _ _ _ _ _ _ L1 R1 IeH IeV NeV NR1 P1) as U1. pose proof (c_uGam _ _ _ _ _ _ _ _ L2 R2 IzH IzV NzV NR2 P2) as U2. cbv beta in *.
  assert (RQ : forall c, quad1 c -> (0 < fst (Csqrt c))%R).
  { intros c (A & B & D). apply Csqrt_Re_pos. destruct (Rtotal_order (fst c) 0) as [E1|[E1|E1]]; [lra| |now left]. right. intros W. apply D. apply injective_projections; [exact E1|exact W]. }
  pose proof (RQ _ p1) as Rz. pose proof (RQ _ q1) as Re.
  assert (Rk : (0 < fst (Csqrt (eH0 * zH0)%C))%R). { apply Csqrt_Re_pos. destruct O2' as [O|O]; [now left|right; lra]. }
  pose proof (toC_sqrt F zH zH0 Rz IzH) as S1. pose proof (toC_sqrt F eH eH0 Re IeH) as S2. pose proof (toC_sqrt F (fun t => eH t * zH t) (eH0 * zH0) Rk (toC_mult F _ _ _ _ IeH IzH)) as S3. cbv beta in S3.
  pose proof (re_n0 _ Rz) as NS1. pose proof (re_n0 _ Re) as NS2. pose proof (re_n0 _ Rk) as NS3.
  unfold fs_gin in *. cbv zeta in *. unfold fs_root in *. cbn [bind] in *.
  destruct (inb ab [11; 12; 21; 22]%Z).
  { split; [intros; eexists; reflexivity|]. cbn [okv]. destruct (inb ab [22]%Z), (inb ab [11]%Z), (inb ab [11; 22]%Z); limC. }
  destruct (inb ab [13; 23; 31; 32]%Z).
  { split; [intros; eexists; reflexivity|]. cbn [okv]. destruct (inb ab [13; 31]%Z); limC. }
  destruct (inb ab [33]%Z).
  { split; [intros; eexists; reflexivity|]. cbn [okv]. limC. }
  destruct (inb ab [14; 24; 15; 25]%Z).
  { split; [intros; eexists; reflexivity|]. cbn [okv]. unfold fs_term. cbv zeta. destruct (inb ab [14; 25]%Z), (inb ab [15; 25]%Z), (inb ab [24; 25]%Z); limC. }
  destruct (inb ab [34; 35; 16; 26]%Z).
  { destruct (inb ab [34; 35]%Z), (inb ab [34; 16]%Z); (split; [intros; eexists; reflexivity|]); cbn [okv]; limC. }
  destruct E as [v0 E]. discriminate.
Qed.
End Gin.

(** what the solution for two magnetic dipoles needs (C66); for the others: no negative imaginary part of zeta *)
Definition fs_pre (rdt : bool) (a b : Z) (etas zetas : list C) (eH zH : C) : Prop :=
  (forall c, In c zetas -> (0 <= snd c)%R) /\ ((3 < a)%Z -> (3 < b)%Z -> rdt = false /\ In eH etas /\ (forall e, In e etas -> (0 < snd e)%R) /\ (0 < snd zH)%R).
Lemma gin_ok : forall ab, In ab kernel_abs -> forall off x y zs zr eH eV zH zV, exists v, fs_gin false false false off x y zs zr eH eV zH zV ab = Ok v.
Proof. intros ab H. unfold kernel_abs in H. cbn [In] in H. repeat (destruct H as [<-|H]; [intros; eexists; reflexivity|]). destruct H. Qed.
Lemma any_false : forall ms mr etas zetas, (ms && mr)%bool = false -> (forall c, In c zetas -> (0 <= snd c)%R) -> fs_anyneg ms mr etas zetas = false.
Proof. intros ms mr etas zetas E H. unfold fs_anyneg. rewrite Bool.andb_comm, E. now apply anyneg_false. Qed.

Theorem fs_continuous : forall T (F : (T -> Prop) -> Prop), Filter F -> forall rdt a b (off phi zs zr : T -> R) (eH eV zH zV : T -> C) (etas zetas : T -> list C) (off0 phi0 zs0 zr0 : R) (eH0 eV0 zH0 zV0 : C) (etas0 zetas0 : list C),
  toR F off off0 -> toR F phi phi0 -> toR F zs zs0 -> toR F zr zr0 -> toC F eH eH0 -> toC F eV eV0 -> toC F zH zH0 -> toC F zV zV0 ->
  off0 <> 0%R -> homog_medium eH0 eV0 zH0 zV0 -> F (fun t => homog_medium (eH t) (eV t) (zH t) (zV t)) ->
  fs_pair a b -> fs_pre rdt a b etas0 zetas0 eH0 zH0 -> F (fun t => fs_pre rdt a b (etas t) (zetas t) (eH t) (zH t)) ->
  exists W0, fs_comp rdt (fs_anyneg (3 <? b)%Z (3 <? a)%Z etas0 zetas0) a b off0 phi0 zs0 zr0 eH0 eV0 zH0 zV0 = Ok W0 /\
  forall e : R, (0 < e)%R -> F (fun t => exists W, fs_comp rdt (fs_anyneg (3 <? b)%Z (3 <? a)%Z (etas t) (zetas t)) a b (off t) (phi t) (zs t) (zr t) (eH t) (eV t) (zH t) (zV t) = Ok W /\ (Cmod (Cminus W W0) < e)%R).
Proof.
  intros T F FF rdt a b off phi zs zr eH eV zH zV etas zetas off0 phi0 zs0 zr0 eH0 eV0 zH0 zV0 etas0 zetas0 Io Ip Is Ir IeH IeV IzH IzV Ho HM HMt HP PR PRt.
  destruct (pair_class a b HP) as (ab & CA & _). destruct (code_class _ ab _ _ CA (ex_intro _ a (ex_intro _ b (conj HP eq_refl)))) as [KA _].
  pose proof (hm_TM _ _ _ _ HM) as M1. pose proof (hm_TE _ _ _ _ HM) as M2.
  assert (Ix : toR F (fun t => cos (phi t) * off t)%R (cos phi0 * off0)%R). { apply toR_mult; [assumption| |exact Io]. exact (toR_comp F phi cos _ (continuous_cos _) Ip). }
  assert (Iy : toR F (fun t => sin (phi t) * off t)%R (sin phi0 * off0)%R). { apply toR_mult; [assumption| |exact Io]. exact (toR_comp F phi sin _ (continuous_sin _) Ip). }
  pose proof (toR_opp F _ _ Ix) as Ix'. pose proof (toR_opp F _ _ Iy) as Iy'. cbv beta in *.
  assert (FIN : forall (g : T -> res C) (g0 : res C), (exists v, g0 = Ok v) -> F (fun t => exists v, g t = Ok v) -> toC F (fun t => okv (g t)) (okv g0) -> exists W0, g0 = Ok W0 /\ forall e : R, (0 < e)%R -> F (fun t => exists W, g t = Ok W /\ (Cmod (Cminus W W0) < e)%R)).
  { intros g g0 [v E] Et L. exists v. split; [exact E|]. intros e He. eapply filter_imp; [|exact (filter_and _ _ Et (proj1 (toC_eps F _ _) L e He))]. intros t [[w Ew] B]. cbn beta in B. rewrite Ew, E in B. exists w. split; [exact Ew|exact B]. }
  assert (EXT : forall (g h : T -> res C) (g0 h0 : res C), g0 = h0 -> F (fun t => g t = h t) -> (exists W0, h0 = Ok W0 /\ forall e : R, (0 < e)%R -> F (fun t => exists W, h t = Ok W /\ (Cmod (Cminus W W0) < e)%R)) -> exists W0, g0 = Ok W0 /\ forall e : R, (0 < e)%R -> F (fun t => exists W, g t = Ok W /\ (Cmod (Cminus W W0) < e)%R)).
  { intros g h g0 h0 -> Et (W0 & E & H). exists W0. split; [exact E|]. intros e He. eapply filter_imp; [|exact (filter_and _ _ Et (H e He))]. intros t [A B]. rewrite A. exact B. }
  destruct (Z.ltb_spec 3 a) as [Ha|Ha]; [destruct (Z.ltb_spec 3 b) as [Hb|Hb]|].
  - (* two magnetic dipoles *)
    destruct HP as ((HPa & HPb) & _). assert (HP' : fs_pair (a - 3) (b - 3)) by (unfold fs_pair; lia).
    destruct (pair_class (a - 3) (b - 3) HP') as (ab' & CA' & _). destruct (code_class _ ab' _ _ CA' (ex_intro _ (a - 3)%Z (ex_intro _ (b - 3)%Z (conj HP' eq_refl)))) as [KA' _].
    replace (3 <? b - 3)%Z with false in CA' by (symmetry; apply Z.ltb_ge; lia). replace (3 <? a - 3)%Z with false in CA' by (symmetry; apply Z.ltb_ge; lia).
    assert (RED : forall o p s r u1 u2 u3 u4 es zs', fs_pre rdt a b es zs' u1 u3 -> fs_comp rdt (fs_anyneg true true es zs') a b o p s r u1 u2 u3 u4 = fs_gin false false false o (cos p * o) (sin p * o) s r u3 u4 u1 u2 ab').
    { intros o p s r u1 u2 u3 u4 es zs' [Z1 Z2]. destruct (Z2 Ha Hb) as (-> & I1 & I2 & I3). pose proof (fs_dual_mm (a - 3) (b - 3) o p s r u1 u2 u3 u4 es zs' ltac:(lia) ltac:(lia) I1 I2 I3) as D.
      replace (a - 3 + 3)%Z with a in D by lia. replace (b - 3 + 3)%Z with b in D by lia. rewrite D. rewrite any_false; [|reflexivity|intros c Hc; left; now apply I2]. unfold fs_comp. rewrite CA'. cbn [bind]. reflexivity. }
    eapply (EXT _ (fun t => fs_gin false false false (off t) (cos (phi t) * off t) (sin (phi t) * off t) (zs t) (zr t) (zH t) (zV t) (eH t) (eV t) ab')); [now apply RED|eapply filter_imp; [|exact PRt]; intros t K; now apply RED|].
    destruct (c_gin F off _ _ zs zr zH zV eH eV off0 _ _ zs0 zr0 zH0 zV0 eH0 eV0 Io Ix Iy Is Ir IzH IzV IeH IeV M2 M1 Ho ab' (gin_ok ab' KA' _ _ _ _ _ _ _ _ _)) as [A B].
    apply FIN; [now apply gin_ok|now apply filter_forall|exact B].
  - (* magnetic receiver, electric source *)
    assert (RED : forall o p s r u1 u2 u3 u4 es zs', homog_medium u1 u2 u3 u4 -> fs_pre rdt a b es zs' u1 u3 -> fs_comp rdt (fs_anyneg false true es zs') a b o p s r u1 u2 u3 u4 = (g <- fs_gin false false false o (- (cos p * o)) (- (sin p * o)) r s u1 u2 u3 u4 ab ;; Ok (Copp g))).
    { intros o p s r u1 u2 u3 u4 es zs' H [Z1 _]. rewrite any_false by (auto; reflexivity). unfold fs_comp. rewrite CA. replace (3 <? b)%Z with false by (symmetry; apply Z.ltb_ge; lia). replace (3 <? a)%Z with true by (symmetry; apply Z.ltb_lt; lia). cbn [bind]. unfold fullspace.
      rewrite gin_roots; [reflexivity|left; apply (hm_eH _ _ _ _ H)|apply (hm_zH _ _ _ _ H)]. }
    destruct (c_gin F off _ _ zr zs eH eV zH zV off0 _ _ zr0 zs0 eH0 eV0 zH0 zV0 Io Ix' Iy' Ir Is IeH IeV IzH IzV M1 M2 Ho ab (gin_ok ab KA _ _ _ _ _ _ _ _ _)) as [A B].
    eapply (EXT _ (fun t => g <- fs_gin false false false (off t) (- (cos (phi t) * off t)) (- (sin (phi t) * off t)) (zr t) (zs t) (eH t) (eV t) (zH t) (zV t) ab ;; Ok (Copp g))); [now apply RED|eapply filter_imp; [|exact (filter_and _ _ HMt PRt)]; intros t [K1 K2]; now apply RED|].
    apply FIN.
    + destruct (gin_ok ab KA off0 (- (cos phi0 * off0)) (- (sin phi0 * off0)) zr0 zs0 eH0 eV0 zH0 zV0) as [v Ev]. rewrite Ev. cbn [bind]. now exists (Copp v).
    + apply filter_forall. intros t. destruct (A t) as [v Ev]. rewrite Ev. cbn [bind]. now exists (Copp v).
    + pose proof (toC_opp F _ _ B) as B'. destruct (gin_ok ab KA off0 (- (cos phi0 * off0)) (- (sin phi0 * off0)) zr0 zs0 eH0 eV0 zH0 zV0) as [v Ev]. rewrite Ev in B'. rewrite Ev. cbn [bind okv] in *.
      refine (toC_ext F _ _ _ _ B'). intros t. destruct (A t) as [w Ew]. rewrite Ew. reflexivity.
  - (* electric receiver *)
    assert (RED : forall o p s r u1 u2 u3 u4 es zs', homog_medium u1 u2 u3 u4 -> fs_pre rdt a b es zs' u1 u3 -> fs_comp rdt (fs_anyneg (3 <? b)%Z false es zs') a b o p s r u1 u2 u3 u4 = fs_gin false false false o (cos p * o) (sin p * o) s r u1 u2 u3 u4 ab).
    { intros o p s r u1 u2 u3 u4 es zs' H [Z1 _]. rewrite any_false by (auto; apply Bool.andb_false_r). unfold fs_comp. rewrite CA. replace (3 <? a)%Z with false by (symmetry; apply Z.ltb_ge; lia). cbn [bind]. unfold fullspace.
      apply gin_roots; [left; apply (hm_eH _ _ _ _ H)|apply (hm_zH _ _ _ _ H)]. }
    destruct (c_gin F off _ _ zs zr eH eV zH zV off0 _ _ zs0 zr0 eH0 eV0 zH0 zV0 Io Ix Iy Is Ir IeH IeV IzH IzV M1 M2 Ho ab (gin_ok ab KA _ _ _ _ _ _ _ _ _)) as [A B].
    eapply (EXT _ (fun t => fs_gin false false false (off t) (cos (phi t) * off t) (sin (phi t) * off t) (zs t) (zr t) (eH t) (eV t) (zH t) (zV t) ab)); [now apply RED|eapply filter_imp; [|exact (filter_and _ _ HMt PRt)]; intros t [K1 K2]; now apply RED|].
    apply FIN; [now apply gin_ok|now apply filter_forall|exact B].
Qed.

(** ** Source and receiver in one layer: the reflected field plus the full-space solution of the layer *)
Section Total.
Context {T : Type} (F : (T -> Prop) -> Prop) {FF : Filter F}.
Variables (eH eV zH zV : T -> nat -> C) (z : T -> nat -> R) (zs zr off phi : T -> R) (eH0 eV0 zH0 zV0 : nat -> C) (z0 : nat -> R) (zs0 zr0 off0 phi0 : R) (N s : nat).
Hypothesis IeH : forall k, (k <= N)%nat -> toC F (fun t => eH t k) (eH0 k).
Hypothesis IeV : forall k, (k <= N)%nat -> toC F (fun t => eV t k) (eV0 k).
Hypothesis IzH : forall k, (k <= N)%nat -> toC F (fun t => zH t k) (zH0 k).
Hypothesis IzV : forall k, (k <= N)%nat -> toC F (fun t => zV t k) (zV0 k).
Hypothesis Iz : forall k, (1 <= k <= N)%nat -> toR F (fun t => z t k) (z0 k).
Hypothesis (Is : toR F zs zs0) (Ir : toR F zr zr0) (Io : toR F off off0) (Ip : toR F phi phi0).
Hypothesis Hoff : (0 < off0)%R.
Hypothesis (S0 : in_layer z0 N s zs0) (R0 : in_layer z0 N s zr0).
Hypothesis LY0 : layered eH0 eV0 zH0 zV0 z0 N.
Hypothesis LYt : F (fun t => layered (eH t) (eV t) (zH t) (zV t) (z t) N).
Variables (rdt : bool) (a b : Z) (etas zetas : T -> list C) (etas0 zetas0 : list C).
Hypothesis HP : fs_pair a b.
Hypothesis PR0 : fs_pre rdt a b etas0 zetas0 (eH0 s) (zH0 s).
Hypothesis PRt : F (fun t => fs_pre rdt a b (etas t) (zetas t) (eH t s) (zH t s)).
Let Ks : (s <= N)%nat. Proof. apply S0. Qed.
Notation fs0 := (fs_comp rdt (fs_anyneg (3 <? b)%Z (3 <? a)%Z etas0 zetas0) a b off0 phi0 zs0 zr0 (eH0 s) (eV0 s) (zH0 s) (zV0 s)).
Notation fs t := (fs_comp rdt (fs_anyneg (3 <? b)%Z (3 <? a)%Z (etas t) (zetas t)) a b (off t) (phi t) (zs t) (zr t) (eH t s) (eV t s) (zH t s) (zV t s)).
Lemma fs_layer : exists W0, fs0 = Ok W0 /\ forall e : R, (0 < e)%R -> F (fun t => exists W, fs t = Ok W /\ (Cmod (Cminus W W0) < e)%R).
Proof using All.
  refine (fs_continuous T F FF rdt a b off phi zs zr (fun t => eH t s) (fun t => eV t s) (fun t => zH t s) (fun t => zV t s) etas zetas off0 phi0 zs0 zr0 _ _ _ _ etas0 zetas0 Io Ip Is Ir (IeH s Ks) (IeV s Ks) (IzH s Ks) (IzV s Ks) _ (ly_m _ _ _ _ _ _ LY0 s Ks) _ HP PR0 PRt).
  - lra.
  - eapply filter_imp; [|exact LYt]. intros t L. exact (ly_m _ _ _ _ _ _ L s Ks).
Qed.
Theorem total_medium : exists V0 W0, hankel_value eH0 eV0 zH0 zV0 z0 N (10 * a + b) true off0 phi0 zs0 zr0 V0 /\ fs0 = Ok W0 /\
  forall e : R, (0 < e)%R -> F (fun t => exists V W, hankel_value (eH t) (eV t) (zH t) (zV t) (z t) N (10 * a + b) true (off t) (phi t) (zs t) (zr t) V /\ fs t = Ok W /\ (Cmod (Cminus (Cplus V W) (Cplus V0 W0)) < e)%R).
Proof using All.
  destruct (reflected_medium T F FF eH eV zH zV z zs zr off phi eH0 eV0 zH0 zV0 z0 zs0 zr0 off0 phi0 N s IeH IeV IzH IzV Iz Is Ir Io Ip ltac:(lra) S0 R0 LY0 LYt a b HP) as (V0 & A & B).
  destruct fs_layer as (W0 & A' & B'). exists V0, W0. split; [exact A|]. split; [exact A'|]. intros e He. assert (He2 : (0 < e / 2)%R) by lra. pose proof (filter_and _ _ (B _ He2) (B' _ He2)) as AN. eapply filter_imp; [|exact AN].
  intros t [(V & K1 & K2) (W & K3 & K4)]. exists V, W. split; [exact K1|]. split; [exact K3|]. replace (Cminus (Cplus V W) (Cplus V0 W0)) with (Cplus (Cminus V V0) (Cminus W W0)) by ring.
  eapply Rle_lt_trans; [apply Cmod_triangle|]. lra.
Qed.
(** The exact response with the direct field in the wavenumber domain exists at different depths only; it tends to the sum. *)
Theorem direct_limit : forall V0 W0 (U : T -> C), hankel_value eH0 eV0 zH0 zV0 z0 N (10 * a + b) true off0 phi0 zs0 zr0 V0 -> fs0 = Ok W0 ->
  F (fun t => zs t <> zr t) -> F (fun t => hankel_value (eH t) (eV t) (zH t) (zV t) (z t) N (10 * a + b) false (off t) (phi t) (zs t) (zr t) (U t)) -> toC F U (V0 + W0).
Proof using All.
  intros V0 W0 U HV0 HW0 ND HU. destruct total_medium as (V1 & W1 & A & A' & B). rewrite A' in HW0. apply Ok_inj in HW0. subst W1.
  pose proof (hankel_unique _ _ _ _ _ _ _ _ _ _ _ _ _ _ A HV0) as E. subst V1.
  pose proof (toR_lt F (fun _ => 0%R) off _ _ (toR_const F _) Io Hoff) as OP. pose proof (c_inlay T F FF z z0 zs zs0 N s Iz Is S0) as L1. pose proof (c_inlay T F FF z z0 zr zr0 N s Iz Ir R0) as L2.
  apply toC_eps; [assumption|]. intros e He. eapply filter_imp; [|exact (filter_and _ _ (B e He) (filter_and _ _ (filter_and _ _ ND HU) (filter_and _ _ (filter_and _ _ OP (filter_and _ _ L1 L2)) (filter_and _ _ LYt PRt))))].
  intros t [(V & W & K1 & K2 & K3) [[N1 H1] [[O1 [I1 I2]] [Y [P1 P2]]]]]. cbn beta in *. pose proof (ly_z _ _ _ _ _ _ Y) as HI. pose proof (lay_in (z t) N HI s (zs t) I1) as E1. pose proof (lay_in (z t) N HI s (zr t) I2) as E2.
  pose proof (direct_value rdt a b (eH t) (eV t) (zH t) (zV t) (z t) N (off t) (phi t) (zs t) (zr t) (etas t) (zetas t) (ly_passive _ _ _ _ _ _ Y) N1 O1 HP ltac:(congruence)) as D. cbv zeta in D. rewrite E1 in D.
  destruct (D ltac:(now apply Y) P1 P2) as (W' & D1 & D2). rewrite D1 in K2. apply Ok_inj in K2. subst W'. apply D2 in K1. rewrite (hankel_unique _ _ _ _ _ _ _ _ _ _ _ _ _ _ H1 K1). exact K3.
Qed.
End Total.
