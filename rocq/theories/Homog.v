(** The Hankel transform of the wavenumber-domain response of a homogeneous medium is the
    full-space solution. *)

From Coq Require Import Reals ZArith List Bool Lia Lra Psatz.
From Coquelicot Require Import Coquelicot.
From Verif Require Import PyBase CBase Kernel KernelSpec KernelPhys KernelClosed KernelPassive KernelMain KernelThm KernelThm2 ODE Bessel KernelBessel KernelFinal Fullspace FullspaceThm FullspaceMaxwell FullspaceCurl FullspaceField Cint Hankel Sommer Sommer2 Sommer3.
Import ListNotations.
Local Open Scope R_scope.
Local Open Scope C_scope.
Local Open Scope res_scope.

(** ** One mode *)
Section Mode.
Variables (h v q : C) (D off : R).
Hypothesis Qh : quad1 h. Hypothesis Qv : quad1 v. Hypothesis Qq : quad1 q.
Hypothesis Hr : (0 < fst (h / v)%C)%R.
Hypothesis Hg : offcut (q * v).
Hypothesis HD : (0 < D)%R. Hypothesis Ho : (0 < off)%R.
Definition ms : C := Csqrt (h / v).
Definition mbe (x : R) : C := root (q * v) x.
Definition mz : C := ms * RtoC D.
Lemma ms_pos : (0 < fst ms)%R. Proof using Hr. unfold ms. pose proof (Csqrt_Re_low (h / v) Hr). pose proof (sqrt_lt_R0 _ Hr). lra. Qed.
Lemma ms_sq : ms * ms = h / v. Proof. apply Csqrt_sqr. Qed.
Lemma ms_nz : ms <> RtoC 0. Proof using Hr. apply Re_pos_nz, ms_pos. Qed.
Lemma Gam_prod : forall lam, (0 < lam)%R -> Csqrt (h / v * RtoC (lam * lam) + q * h) = ms * mbe lam.
Proof using All.
  intros lam Hl. pose proof ms_pos as P1. pose proof (root_pos (q * v) Hg lam) as B1. fold (mbe lam) in B1.
  assert (B2 : (0 <= snd (mbe lam))%R).
  { unfold mbe, root. apply Csqrt_upper. cbn [Cplus RtoC snd]. pose proof (quad1_mult_im q v Qq Qv). lra. }
  assert (SQ : ms * mbe lam * (ms * mbe lam) = h / v * RtoC (lam * lam) + q * h).
  { transitivity (ms * ms * (mbe lam * mbe lam)); [ring|]. rewrite ms_sq. unfold mbe. rewrite (root_sq (q * v) Hg). field. apply Qv. }
  apply Csqrt_uniq; [exact SQ|]. pose proof ms_sq as MS. destruct ms as [h1 h2], (mbe lam) as [b1 b2]. cbn [fst snd] in *.
  assert (X : fst ((h1, h2) * (b1, b2)) = (h1 * b1 - h2 * b2)%R) by reflexivity. rewrite X. clear X.
  destruct (Rle_lt_dec h2 0) as [N|N]; [nra|].
  apply (f_equal snd) in SQ. apply (f_equal snd) in MS. pose proof (quad1_mult_im q h Qq Qh) as I. set (w := q * h) in *. set (r := h / v) in *. clearbody w r. destruct w as [w1 w2], r as [r1 r2]. cbn [fst snd Cmult Cplus RtoC] in *.
  assert (0 < r2)%R by (rewrite <- MS; nra). assert (0 < r2 * (lam * lam))%R by (apply Rmult_lt_0_compat; [assumption|nra]).
  assert (0 < h1 * b2 + h2 * b1)%R by nra. nra.
Qed.
Lemma mz_good : good mz.
Proof using Hr HD.
  unfold mz. split.
  - pose proof ms_pos. destruct ms as [a b]. cbn [fst snd Cmult RtoC] in *. nra.
  - replace (ms * RtoC D * (ms * RtoC D)) with (ms * ms * RtoC (D * D)) by (rewrite RtoC_mult; ring). rewrite ms_sq. pose proof Hr as Hr'. set (w := h / v) in *. clearbody w. destruct w as [a b]. cbn [fst snd Cmult RtoC] in *. assert (0 < D * D)%R by nra. nra.
Qed.
Lemma mode_exp : forall lam, (0 < lam)%R -> Cexp (- (Csqrt (h / v * RtoC (lam * lam) + q * h) * RtoC D)) = Ex mbe lam mz.
Proof using All. intros lam Hl. rewrite Gam_prod by exact Hl. unfold Ex, mz. apply (f_equal Cexp). ring. Qed.
Lemma mbe0 : mbe 0 = Csqrt (h * q) / ms.
Proof using All.
  assert (E : mbe 0 = fs_lGam v q). { unfold mbe, root, fs_lGam. apply (f_equal Csqrt). rewrite Rmult_0_r. ring. }
  rewrite E. apply (lGam_ks h v q Qh Qv Qq).
Qed.
Lemma mRR : forall x y dz, (off * off = x * x + y * y)%R -> (dz * dz = D * D)%R -> RR off mz = rad (ms * ms) x y dz.
Proof using All.
  intros x y dz H1 H2. unfold RR, rad, mz. apply (f_equal Csqrt). rewrite H1, H2, !RtoC_mult. ring.
Qed.
Definition mka (x : R) : C := droot (q * v) x.
Lemma mnz0 : forall x, mbe x <> RtoC 0. Proof using Hg. intros. apply root_nz, Hg. Qed.
Lemma mka_eq : forall x, mka x = RtoC x / mbe x. Proof. reflexivity. Qed.
Lemma mbe_sq : forall x, mbe x * mbe x = RtoC (x * x) + q * v. Proof using Hg. intros x. apply (root_sq _ Hg). Qed.

Lemma cmbe : cC mbe. Proof using Hg. apply (cC_derive mbe mka). intros x. apply root_derive, Hg. Qed.
Lemma cmka : cC mka. Proof using Hg. apply droot_cont, Hg. Qed.
Lemma cmi : cC (fun x => / mbe x).
Proof using Hg. eapply cC_derive. intros x. eapply (dC_inv mbe x (mka x)); [apply root_derive, Hg|apply mnz0]. Qed.
(** the six transforms, all with weight T f := int g Ex J *)
Notation LT g J l := (limC (fun T => IT mbe g J T off mz) pinf l).
Lemma on : off <> 0%R. Proof using Ho. lra. Qed.
Ltac inst0 := destruct (root_inst (q * v) Hg) as (k & M & I1 & I2 & I3 & I4 & I5).
Lemma tK : LT mka J0 (fK mbe off mz). Proof using All. inst0. exact (K_good _ _ k M I1 I2 I3 I4 I5 off mz mz_good). Qed.
Lemma tS : LT RtoC J0 (fS mbe off mz). Proof using All. inst0. exact (S_good _ _ k M I1 I2 I3 I4 I5 off mz mz_good). Qed.
Lemma tM : LT (fun x => mbe x * RtoC x) J0 (fM mbe off mz). Proof using All. inst0. exact (M_good _ _ k M I1 I2 I3 I4 I5 off mz mz_good). Qed.
Lemma tA : LT (fun x => RtoC x * mka x) J1 (fA mbe off mz). Proof using All. inst0. exact (A_good _ _ k M I1 I2 I3 I4 I5 off mz mz_good). Qed.
Lemma tB : LT (fun x => RtoC x * RtoC x) J1 (fB mbe off mz). Proof using All. inst0. exact (B_good _ _ k M I1 I2 I3 I4 I5 off mz mz_good). Qed.
Lemma tP : LT (fun _ => RtoC 1) J1 (fP mbe off mz). Proof using All. inst0. exact (P_good _ _ k M I1 I2 I3 I4 I5 off mz on mz_good). Qed.
Lemma tP' : LT mbe J1 (fP' mbe off mz). Proof using All. inst0. exact (P'_good _ _ k M I1 I2 I3 I4 I5 off mz on mz_good). Qed.
Lemma tQ : LT (fun x => / mbe x) J1 (fQ mbe off mz). Proof using All. inst0. exact (Q_good _ _ k M I1 I2 I3 I4 I5 mnz0 off mz Ho mz_good). Qed.
Lemma cT : forall g J, okJ J -> cC g -> cC (fun x => g x * Ex mbe x mz * RtoC (J (off * x)%R)).
Proof using All. inst0. exact (fun g J => cIT _ _ k M I1 I2 I3 I4 I5 g J off mz). Qed.
End Mode.

(** ** The wavenumber-domain response of the homogeneous medium *)
Definition Gm (h v q : C) (lam : R) : C := Csqrt (h / v * RtoC (lam * lam) + q * h).
Definition tm_amp (eH eV G sg : C) (ab : Z) : C :=
  if inb ab [11; 12; 21; 22]%Z then - (G / eH)
  else if inb ab [13; 23; 31; 32]%Z then sg / eV
  else if inb ab [33]%Z then eH / (eV * eV * G)
  else if inb ab [14; 15; 24; 25]%Z then - sg
  else if inb ab [34; 35]%Z then eH / (eV * G)
  else RtoC 0.
Definition te_amp (zH zV G sg : C) (ab : Z) : C :=
  if inb ab [11; 12; 21; 22]%Z then zH / G
  else if inb ab [14; 15; 24; 25]%Z then sg
  else if inb ab [16; 26]%Z then zH / (zV * G)
  else RtoC 0.
Lemma dsgn_p : forall x, dsgn (cz 1) (cz 1) x = RtoC 1.
Proof. intros x. unfold dsgn. change (cz 1) with (RtoC 1). destruct (Ceq_dec (RtoC 1 * RtoC 1) (RtoC 1)) as [|N]; [ring|exfalso; apply N; ring]. Qed.
Lemma dsgn_m : forall x, dsgn (cz (-1)) (cz (-1)) x = - RtoC 1.
Proof. intros x. unfold dsgn. rewrite cz_m1. destruct (Ceq_dec (- RtoC 1 * - RtoC 1) (RtoC 1)) as [|N]; [ring|exfalso; apply N; ring]. Qed.
Lemma m1n1 : - RtoC 1 <> RtoC 1. Proof. intros E. apply (f_equal fst) in E. cbn in E. lra. Qed.
Lemma dsgn_pm : forall x, dsgn (cz 1) (cz (-1)) x = - RtoC (Rsign x).
Proof. intros x. unfold dsgn. rewrite cz_m1. change (cz 1) with (RtoC 1). destruct (Ceq_dec (RtoC 1 * - RtoC 1) (RtoC 1)) as [E|N]; [|ring]. exfalso. apply m1n1. rewrite <- E at 2. ring. Qed.
Lemma dsgn_mp : forall x, dsgn (cz (-1)) (cz 1) x = RtoC (Rsign x).
Proof. intros x. unfold dsgn. rewrite cz_m1. change (cz 1) with (RtoC 1). destruct (Ceq_dec (- RtoC 1 * RtoC 1) (RtoC 1)) as [E|N]; [|ring]. exfalso. apply m1n1. rewrite <- E at 2. ring. Qed.
Lemma PTM_amp : forall eH eV zH z lam ab zs zr, In ab kernel_abs -> eH <> RtoC 0 -> eV <> RtoC 0 -> Gm eH eV zH lam <> RtoC 0 ->
  PTM (cst eH) (cst eV) (cst zH) z 0 lam ab false 0 0 zs zr = tm_amp eH eV (Gm eH eV zH lam) (RtoC (Rsign (zr - zs))) ab * Cexp (- (Gm eH eV zH lam * RtoC (Rabs (zs - zr)))).
Proof.
  intros eH eV zH z lam ab zs zr Hab N1 N2 N3. unfold PTM. rewrite G_mode_1layer. unfold G_dir, dec, fTM.
  change (gam (cst eH) (cst eV) (cst zH) lam 0) with (Gm eH eV zH lam). set (G := Gm eH eV zH lam) in *. set (EE := Cexp _).
  assert (W : forall s, wsrc (cst eH) (gam (cst eH) (cst eV) (cst zH) lam) s 0 = if Ceq_dec s 1 then eH / G else 1) by reflexivity.
  assert (W' : forall s, wgt (cst eH) (gam (cst eH) (cst eV) (cst zH) lam) s 0 = if Ceq_dec s 1 then 1 else G / eH) by reflexivity.
  rewrite W, W'. clear W W'. unfold cst. clearbody G EE.
  assert (NN : RtoC 1 <> RtoC 0) by (apply Re_pos_nz; cbn; lra).
  each_ab Hab; unfold mode_used, cpm, csg, plus_of, srcc, recc, sgnTM, tm_amp; cbv [inb existsb Z.eqb Pos.eqb orb negb plusset zpm andb Z.modulo Z.div Z.div_eucl Z.pos_div_eucl Z.leb Z.ltb Z.compare Pos.compare Pos.compare_cont Z.add Z.sub Z.opp Z.mul Pos.mul Pos.add Pos.succ Z.pos_sub Pos.sub_mask Z.double Z.succ_double Z.pred_double Pos.pred_double Z.leb Pos.sub Pos.double_mask Pos.succ_double_mask Pos.double_pred_mask fst snd];
    rewrite ?dsgn_p, ?dsgn_m, ?dsgn_pm, ?dsgn_mp;
    repeat match goal with
    | |- context [Ceq_dec (cz 1) (RtoC 1)] => destruct (Ceq_dec (cz 1) (RtoC 1)) as [_|X]; [|exfalso; apply X; reflexivity]
    | |- context [Ceq_dec (cz (-1)) (RtoC 1)] => destruct (Ceq_dec (cz (-1)) (RtoC 1)) as [X|_]; [exfalso; exact (cz_m1_neq X)|]
    end; match goal with |- ?a = ?b => change (@eq C a b) end; try solve [field; repeat split; assumption].
Qed.
Lemma PTE_amp : forall zH zV eH z lam ab zs zr, In ab kernel_abs -> zH <> RtoC 0 -> zV <> RtoC 0 -> Gm zH zV eH lam <> RtoC 0 ->
  PTE (cst zH) (cst zV) (cst eH) z 0 lam ab false 0 0 zs zr = te_amp zH zV (Gm zH zV eH lam) (RtoC (Rsign (zr - zs))) ab * Cexp (- (Gm zH zV eH lam * RtoC (Rabs (zs - zr)))).
Proof.
  intros eH eV zH z lam ab zs zr Hab N1 N2 N3. unfold PTE. rewrite G_mode_1layer. unfold G_dir, dec, fTE.
  change (gam (cst eH) (cst eV) (cst zH) lam 0) with (Gm eH eV zH lam). set (G := Gm eH eV zH lam) in *. set (EE := Cexp _).
  assert (W : forall s, wsrc (cst eH) (gam (cst eH) (cst eV) (cst zH) lam) s 0 = if Ceq_dec s 1 then eH / G else 1) by reflexivity.
  rewrite W. clear W. unfold cst. clearbody G EE.
  assert (NN : RtoC 1 <> RtoC 0) by (apply Re_pos_nz; cbn; lra).
  each_ab Hab; unfold mode_used, cpm, csg, plus_of, srcc, recc, te_amp; cbv [inb existsb Z.eqb Pos.eqb orb negb plusset zpm andb Z.modulo Z.div Z.div_eucl Z.pos_div_eucl Z.leb Z.ltb Z.compare Pos.compare Pos.compare_cont Z.add Z.sub Z.opp Z.mul Pos.mul Pos.add Pos.succ Z.pos_sub Pos.sub_mask Z.double Z.succ_double Z.pred_double Pos.pred_double Z.leb Pos.sub Pos.double_mask Pos.succ_double_mask Pos.double_pred_mask fst snd];
    rewrite ?dsgn_p, ?dsgn_m, ?dsgn_pm, ?dsgn_mp;
    repeat match goal with
    | |- context [Ceq_dec (cz 1) (RtoC 1)] => destruct (Ceq_dec (cz 1) (RtoC 1)) as [_|X]; [|exfalso; apply X; reflexivity]
    | |- context [Ceq_dec (cz (-1)) (RtoC 1)] => destruct (Ceq_dec (cz (-1)) (RtoC 1)) as [X|_]; [exfalso; exact (cz_m1_neq X)|]
    end; match goal with |- ?a = ?b => change (@eq C a b) end; try solve [field; repeat split; assumption].
Qed.

(** ** Improper integrals *)
(** F is integrable on every [0, T], and the integrals converge to v *)
Definition improper (F : R -> C) (v : C) : Prop :=
  (forall T : R, (0 <= T)%R -> ex_RInt (fun x => fst (F x)) 0 T /\ ex_RInt (fun x => snd (F x)) 0 T) /\
  limC (fun T => CI F 0 T) (Rbar_locally p_infty) v.
Lemma improper_ext : forall F G v, (forall x, (0 < x)%R -> F x = G x) -> improper G v -> improper F v.
Proof.
  intros F G v H [E L]. split.
  - intros T HT. destruct (E T HT) as [E1 E2]. split; [apply (ex_RInt_ext (fun x => fst (G x)))|apply (ex_RInt_ext (fun x => snd (G x)))]; try assumption; intros x; rewrite Rmin_left by exact HT; intros [Hx _]; cbv beta; rewrite (H x Hx); reflexivity.
  - refine (limC_ext_loc _ _ _ _ L). exists 0%R. intros T HT. apply CI_ext_in. intros x. rewrite Rmin_left by lra. intros [Hx _]. symmetry. now apply H.
Qed.
Lemma improper_lin : forall (f1 f2 f3 f4 : R -> C) (c1 c2 c3 c4 l1 l2 l3 l4 : C), cC f1 -> cC f2 -> cC f3 -> cC f4 ->
  limC (fun T => CI f1 0 T) pinf l1 -> limC (fun T => CI f2 0 T) pinf l2 -> limC (fun T => CI f3 0 T) pinf l3 -> limC (fun T => CI f4 0 T) pinf l4 ->
  improper (fun x => c1 * f1 x + c2 * f2 x + (c3 * f3 x + c4 * f4 x)) (c1 * l1 + c2 * l2 + (c3 * l3 + c4 * l4)).
Proof.
  intros f1 f2 f3 f4 c1 c2 c3 c4 l1 l2 l3 l4 C1 C2 C3 C4 L1 L2 L3 L4.
  assert (S : forall c f, cC f -> cC (fun x => c * f x)) by (intros c f Hf; apply cC_mult; [apply cC_const|exact Hf]).
  split.
  - intros T _. split; [apply ex_fst|apply ex_snd]; repeat apply cC_plus; apply S; assumption.
  - refine (limC_ext_loc (fun T => c1 * CI f1 0 T + c2 * CI f2 0 T + (c3 * CI f3 0 T + c4 * CI f4 0 T)) _ _ _ _).
    + apply filter_forall. intros T. rewrite !CI_plus by (repeat apply cC_plus; apply S; assumption). now rewrite !CI_scal by assumption.
    + repeat apply limC_plus; apply limC_scal; assumption.
Qed.

(** ** Values of the full-space routine *)
Definition fsv (eH eV zH zV : C) (x y dz : R) (ab : Z) : C :=
  if (srcc ab <? 4)%Z then modeE eH eV zH zV (srcc ab) (recc ab) x y dz / c4pi
  else - (modeH eH eV zH zV (recc ab) (srcc ab - 3) (- x) (- y) (- dz) / c4pi).
Lemma fs_value : forall rdt off phi zs zr eH eV zH zV ab, quad1 eH -> quad1 eV -> quad1 zH -> quad1 zV -> off <> 0%R -> In ab kernel_abs ->
  fs_gin rdt false false off (cos phi * off) (sin phi * off) zs zr eH eV zH zV ab = Ok (fsv eH eV zH zV (cos phi * off) (sin phi * off) (zr - zs) ab).
Proof.
  intros rdt off phi zs zr eH eV zH zV ab Q1 Q2 Q3 Q4 Ho Hab.
  assert (EE : forall a b, (1 <= a <= 3)%Z -> (1 <= b <= 3)%Z -> fs_comp rdt false a b off phi zs zr eH eV zH zV = Ok (modeE eH eV zH zV b a (cos phi * off) (sin phi * off) (zr - zs) / c4pi)).
  { intros a b Ha Hb. exact (proj1 (fs_modes rdt a b off phi zs zr eH eV zH zV Q1 Q2 Q3 Q4 Ho Ha Hb)). }
  assert (EM : forall a b, (1 <= a <= 3)%Z -> (1 <= b <= 3)%Z -> (a <> 3 \/ b <> 3)%Z -> fs_comp rdt false (a + 3) b off (phi + PI) zr zs eH eV zH zV = Ok (modeH eH eV zH zV b a (- (cos phi * off)) (- (sin phi * off)) (- (zr - zs)) / c4pi)).
  { intros a b Ha Hb HN. rewrite (proj2 (fs_modes rdt a b off (phi + PI) zr zs eH eV zH zV Q1 Q2 Q3 Q4 Ho Ha Hb) HN). rewrite neg_cos, neg_sin. do 3 f_equal; ring. }
  assert (C1 : forall code g, fs_comp rdt false (recc code) (srcc code) off phi zs zr eH eV zH zV = g -> UtilsAb.check_ab (UtilsAb.AbNum (QArith_base.inject_Z (10 * recc code + srcc code))) = Ok (code, false, false) -> fs_gin rdt false false off (cos phi * off) (sin phi * off) zs zr eH eV zH zV code = g).
  { intros code g H E. unfold fs_comp in H. rewrite E in H. cbn [bind] in H. exact H. }
  assert (C2 : forall code c, fs_comp rdt false (srcc code - 3 + 3) (recc code) off (phi + PI) zr zs eH eV zH zV = Ok c -> UtilsAb.check_ab (UtilsAb.AbNum (QArith_base.inject_Z (10 * (srcc code - 3 + 3) + recc code))) = Ok (code, false, true) -> fs_gin rdt false false off (cos phi * off) (sin phi * off) zs zr eH eV zH zV code = Ok (- c)).
  { intros code c H E. unfold fs_comp in H. rewrite E in H. cbn [bind] in H. unfold fullspace in H. rewrite neg_cos, neg_sin in H. replace (- (- cos phi * off))%R with (cos phi * off)%R in H by ring. replace (- (- sin phi * off))%R with (sin phi * off)%R in H by ring.
    destruct (fs_gin _ _ _ _ _ _ _ _ _ _ _ _ _) as [g|] eqn:G; cbn [bind] in H; [|discriminate]. assert (X : - g = c) by congruence. f_equal. rewrite <- X. ring. }
  each_ab Hab; unfold fsv; match goal with |- context [(srcc ?c <? 4)%Z] => let b := eval compute in (srcc c <? 4)%Z in change (srcc c <? 4)%Z with b end; cbv iota.
  all: try (apply C1; [apply EE; vm_compute; split; discriminate|reflexivity]).
  all: apply C2; [apply EM; vm_compute; try (split; discriminate); first [left; discriminate|right; discriminate]|reflexivity].
Qed.

Lemma c4s : RtoC 4 = (RtoC 1 + RtoC 1) * (RtoC 1 + RtoC 1). Proof. rewrite <- !RtoC_plus, <- RtoC_mult. apply (f_equal RtoC). ring. Qed.
Lemma c8s : RtoC 8 = (RtoC 1 + RtoC 1) * ((RtoC 1 + RtoC 1) * (RtoC 1 + RtoC 1)). Proof. rewrite <- !RtoC_plus, <- !RtoC_mult. apply (f_equal RtoC). ring. Qed.
Lemma cPI : RtoC PI <> RtoC 0. Proof. apply Re_pos_nz. cbn. apply PI_RGT_0. Qed.
Definition sg1 (ab : Z) : C := if inb ab [14; 22]%Z then - RtoC 1 else RtoC 1.
Definition sg0 (ab : Z) : C := if inb ab [11; 22; 15]%Z then RtoC 1 else if inb ab [24]%Z then - RtoC 1 else RtoC 0.
Definition w0 (phi : R) (ab : Z) : C := (sg0 ab + RtoC (ang_exact phi ab) * sg1 ab) / (RtoC 8 * RtoC PI).
Definition w0' (phi : R) (ab : Z) : C := (- sg0 ab + RtoC (ang_exact phi ab) * sg1 ab) / (RtoC 8 * RtoC PI).
Definition w1 (phi : R) (ab : Z) : C := - (RtoC (ang_exact phi ab) * sg1 ab) / (RtoC 4 * RtoC PI).
Lemma half_div : forall a, RtoC (a / 2) = RtoC a / RtoC 2. Proof. intros a. rewrite RtoC_div; [reflexivity|lra]. Qed.
Lemma eighth : forall l a : R, a <> 0%R -> RtoC (l / (a * 8 * PI)) = RtoC l / (RtoC a * (RtoC 8 * RtoC PI)).
Proof. intros l a Ha. pose proof PI_RGT_0. rewrite RtoC_div, !RtoC_mult; [f_equal; rewrite <- !Cmult_assoc; reflexivity|]. apply Rmult_integral_contrapositive_currified; [apply Rmult_integral_contrapositive_currified; [exact Ha|lra]|lra]. Qed.
(** the two kinds of sums (kernel.py:101-168, transform.py:981-1011) *)
Lemma bessel_two : forall ab lam off phi (TM TE : C), In ab [11; 12; 21; 22; 14; 24; 15; 25]%Z -> (0 < off)%R ->
  bessel_sum ab lam off (ang_exact phi ab) (collect ab false lam TM TE) =
  w0 phi ab * (RtoC lam * TM * RtoC (J0 (off * lam))) + w1 phi ab / RtoC off * (TM * RtoC (J1 (off * lam))) +
  (w0' phi ab * (RtoC lam * TE * RtoC (J0 (off * lam))) + w1 phi ab / RtoC off * (TE * RtoC (J1 (off * lam)))).
Proof.
  intros ab lam off phi TM TE Hab Ho. rewrite (Rmult_comm off lam). unfold bessel_sum, collect, w0, w0', w1.
  assert (NO : RtoC off <> RtoC 0) by (apply Re_pos_nz; exact Ho). pose proof cPI as NP. assert (N2 : RtoC 1 + RtoC 1 <> RtoC 0) by (rewrite <- c2s; apply c2nz).
  assert (NN : RtoC 1 <> RtoC 0) by (apply Re_pos_nz; cbn; lra).
  cbn [In] in Hab. decompose [or] Hab; try contradiction; subst ab; set (A := ang_exact phi _); clearbody A; unfold sg0, sg1; cbv [inb existsb Z.eqb Pos.eqb orb negb oz]; unfold cz;
  try change (IZR (1 * -1 * -1)) with 1%R; try change (IZR (1 * -1)) with (-1)%R; try change (IZR (- (1 * -1))) with 1%R; try change (IZR (- (1))) with (-1)%R; 
  rewrite ?eighth, ?half_div, ?RtoC_mult by lra; replace (RtoC (-1)) with (- RtoC 1) by (rewrite <- RtoC_opp; reflexivity); rewrite ?c2s, ?c4s, ?c8s; match goal with |- ?a = ?b => change (@eq C a b) end; field; repeat split; try assumption; intros W; apply (f_equal fst) in W; cbn in W; lra.
Qed.

Definition sgB (ab : Z) : C := if inb ab [34; 26]%Z then - RtoC 1 else RtoC 1.
Definition wB (phi : R) (ab : Z) : C := RtoC (ang_exact phi ab) * sgB ab / (RtoC 4 * RtoC PI).
Lemma bessel_one : forall ab lam off phi (TM TE : C), In ab [13; 23; 31; 32; 34; 35; 16; 26]%Z ->
  bessel_sum ab lam off (ang_exact phi ab) (collect ab false lam TM TE) = wB phi ab * (RtoC lam * RtoC lam * (TM + TE) * RtoC (J1 (off * lam))).
Proof.
  intros ab lam off phi TM TE Hab. rewrite (Rmult_comm off lam). unfold bessel_sum, collect, wB.
  pose proof cPI as NP. assert (N2 : RtoC 1 + RtoC 1 <> RtoC 0) by (rewrite <- c2s; apply c2nz).
  assert (NN : RtoC 1 <> RtoC 0) by (apply Re_pos_nz; cbn; lra).
  cbn [In] in Hab. decompose [or] Hab; try contradiction; subst ab; set (A := ang_exact phi _); clearbody A; unfold sgB; cbv [inb existsb Z.eqb Pos.eqb orb negb oz]; unfold cz;
  try change (IZR (1 * -1)) with (-1)%R; rewrite ?RtoC_mult; try replace (RtoC (-1)) with (- RtoC 1) by (rewrite <- RtoC_opp; reflexivity); rewrite ?c4s; match goal with |- ?a = ?b => change (@eq C a b) end;
  field; repeat split; try assumption; intros W; apply (f_equal fst) in W; cbn in W; lra.
Qed.
Lemma bessel_33 : forall lam off phi (TM TE : C),
  bessel_sum 33 lam off (ang_exact phi 33) (collect 33 false lam TM TE) = RtoC 1 / (RtoC 4 * RtoC PI) * (RtoC lam * RtoC lam * RtoC lam * (TM + TE) * RtoC (J0 (off * lam))).
Proof.
  intros lam off phi TM TE. rewrite (Rmult_comm off lam). unfold bessel_sum, collect.
  pose proof cPI as NP. assert (NN : RtoC 1 <> RtoC 0) by (apply Re_pos_nz; cbn; lra).
  set (A := ang_exact phi _); clearbody A; cbv [inb existsb Z.eqb Pos.eqb orb negb oz]; unfold cz; rewrite ?RtoC_mult, ?c4s; match goal with |- ?a = ?b => change (@eq C a b) end;
  field; repeat split; try assumption; intros W; apply (f_equal fst) in W; cbn in W; lra.
Qed.
Lemma improper_one : forall (f : R -> C) (c l : C), cC f -> limC (fun T => CI f 0 T) pinf l -> improper (fun x => c * f x) (c * l).
Proof.
  intros f c l Cf L. assert (Cc : cC (fun x => c * f x)) by (apply cC_mult; [apply cC_const|exact Cf]). split.
  - intros T _. split; [apply ex_fst|apply ex_snd]; assumption.
  - refine (limC_ext_loc (fun T => c * CI f 0 T) _ _ _ _); [apply filter_forall; intros T; now rewrite CI_scal by assumption|now apply limC_scal].
Qed.

Lemma RR_good : forall b z, good z -> RR b z <> RtoC 0.
Proof. intros b z [H1 H2]. apply Re_pos_nz. unfold RR. apply Csqrt_Re_pos. left. cbn [fst Cplus RtoC]. assert (0 <= b * b)%R by apply Rle_0_sqr. lra. Qed.
Lemma improper_val : forall F a b, improper F a -> a = b -> improper F b. Proof. intros; subst; assumption. Qed.

Section Core.
Variables (eH eV zH zV : C) (phi off zs zr : R) (zz : nat -> R).
Hypothesis QeH : quad1 eH. Hypothesis QeV : quad1 eV. Hypothesis QzH : quad1 zH. Hypothesis QzV : quad1 zV.
Hypothesis HrE : (0 < fst (eH / eV)%C)%R. Hypothesis HrZ : (0 < fst (zH / zV)%C)%R.
Hypothesis HgM : offcut (zH * eV). Hypothesis HgE : offcut (eH * zV).
Hypothesis Hz : zs <> zr. Hypothesis Ho : (0 < off)%R.
Let D := Rabs (zs - zr).
Let HD : (0 < D)%R. Proof. apply Rabs_pos_lt. lra. Qed.
Let sg : C := RtoC (Rsign (zr - zs)).
Let s := ms eH eV. Let s' := ms zH zV.
Let be := mbe eV zH. Let be' := mbe zV eH.
Let z1 := mz eH eV D. Let z2 := mz zH zV D.
Definition FF (ab : Z) (lam : R) : C :=
  bessel_sum ab lam off (ang_exact phi ab) (collect ab false lam (PTM (cst eH) (cst eV) (cst zH) zz 0 lam ab false 0 0 zs zr) (PTE (cst zH) (cst zV) (cst eH) zz 0 lam ab false 0 0 zs zr)).
Let Nbe : forall x, be x <> RtoC 0. Proof. apply mnz0, HgM. Qed.
Let Nbe' : forall x, be' x <> RtoC 0. Proof. apply mnz0, HgE. Qed.
Let Ns : s <> RtoC 0. Proof. apply ms_nz, HrE. Qed.
Let Ns' : s' <> RtoC 0. Proof. apply ms_nz, HrZ. Qed.
Lemma F_TM : forall ab lam, In ab kernel_abs -> (0 < lam)%R -> PTM (cst eH) (cst eV) (cst zH) zz 0 lam ab false 0 0 zs zr = tm_amp eH eV (s * be lam) sg ab * Ex be lam z1.
Proof using All.
  intros ab lam Hab Hl. assert (G : Gm eH eV zH lam = s * be lam) by exact (Gam_prod eH eV zH D off QeH QeV QzH HrE HgM HD Ho lam Hl).
  rewrite PTM_amp; [|assumption|apply QeH|apply QeV|rewrite G; apply Cmult_neq_0; auto]. rewrite G. f_equal. rewrite <- G. apply (mode_exp eH eV zH D off QeH QeV QzH HrE HgM HD Ho lam Hl).
Qed.
Lemma F_TE : forall ab lam, In ab kernel_abs -> (0 < lam)%R -> PTE (cst zH) (cst zV) (cst eH) zz 0 lam ab false 0 0 zs zr = te_amp zH zV (s' * be' lam) sg ab * Ex be' lam z2.
Proof using All.
  intros ab lam Hab Hl. assert (G : Gm zH zV eH lam = s' * be' lam) by exact (Gam_prod zH zV eH D off QzH QzV QeH HrZ HgE HD Ho lam Hl).
  rewrite PTE_amp; [|assumption|apply QzH|apply QzV|rewrite G; apply Cmult_neq_0; auto]. rewrite G. f_equal. rewrite <- G. apply (mode_exp zH zV eH D off QzH QzV QeH HrZ HgE HD Ho lam Hl).
Qed.
Let cM : forall g J, okJ J -> cC g -> cC (fun x => g x * Ex be x z1 * RtoC (J (off * x)%R)) := cT eH eV zH D off QeH QeV QzH HrE HgM HD Ho.
Let cE : forall g J, okJ J -> cC g -> cC (fun x => g x * Ex be' x z2 * RtoC (J (off * x)%R)) := cT zH zV eH D off QzH QzV QeH HrZ HgE HD Ho.
Let NeH : eH <> RtoC 0 := proj2 (proj2 QeH). Let NeV : eV <> RtoC 0 := proj2 (proj2 QeV). Let NzH : zH <> RtoC 0 := proj2 (proj2 QzH). Let NzV : zV <> RtoC 0 := proj2 (proj2 QzV).
Let cbe1 : cC be := cmbe eV zH HgM. Let cbe2 : cC be' := cmbe zV eH HgE.
Let cka1 : cC (mka eV zH) := cmka eV zH HgM. Let cka2 : cC (mka zV eH) := cmka zV eH HgE.
Let cbi1 : cC (fun x => / be x) := cmi eV zH HgM. Let cbi2 : cC (fun x => / be' x) := cmi zV eH HgE.
Lemma kab : forall ab l, In ab l -> incl l kernel_abs -> In ab kernel_abs. Proof. intros ab l H I. now apply I. Qed.
Ltac incl_t := intros ? Hin; cbn in Hin |- *; tauto.

Lemma fam11 : forall ab, In ab [11; 12; 21; 22]%Z -> improper (FF ab)
  (w0 phi ab * - (s / eH) * fM be off z1 + w1 phi ab / RtoC off * - (s / eH) * fP' be off z1 + (w0' phi ab * (zH / s') * fK be' off z2 + w1 phi ab / RtoC off * (zH / s') * fQ be' off z2)).
Proof using All.
  intros ab Hab. assert (K : In ab kernel_abs) by (apply (kab ab _ Hab); incl_t).
  eapply improper_ext; [|apply (improper_lin (fun x => (be x * RtoC x) * Ex be x z1 * RtoC (J0 (off * x))) (fun x => be x * Ex be x z1 * RtoC (J1 (off * x))) (fun x => mka zV eH x * Ex be' x z2 * RtoC (J0 (off * x))) (fun x => / be' x * Ex be' x z2 * RtoC (J1 (off * x))))].
  - intros x Hx. unfold FF. rewrite F_TM, F_TE by assumption. rewrite bessel_two; [|cbn in Hab |- *; tauto|exact Ho]. rewrite mka_eq. fold be'.
    assert (T1 : tm_amp eH eV (s * be x) sg ab = - (s * be x / eH)) by (cbn in Hab; decompose [or] Hab; try contradiction; subst ab; reflexivity).
    assert (T2 : te_amp zH zV (s' * be' x) sg ab = zH / (s' * be' x)) by (cbn in Hab; decompose [or] Hab; try contradiction; subst ab; reflexivity).
    rewrite T1, T2. pose proof (Nbe' x). assert (RtoC off <> RtoC 0) by (apply Re_pos_nz; exact Ho). match goal with |- ?a = ?b => change (@eq C a b) end. field. auto.
  - apply (cM (fun x => be x * RtoC x) J0 okJ0). apply cC_mult; [exact cbe1|apply cC_id].
  - apply (cM be J1 okJ1 cbe1).
  - apply (cE (mka zV eH) J0 okJ0 cka2).
  - apply (cE (fun x => / be' x) J1 okJ1 cbi2).
  - exact (tM eH eV zH D off QeH QeV QzH HrE HgM HD Ho).
  - exact (tP' eH eV zH D off QeH QeV QzH HrE HgM HD Ho).
  - exact (tK zH zV eH D off QzH QzV QeH HrZ HgE HD Ho).
  - exact (tQ zH zV eH D off QzH QzV QeH HrZ HgE HD Ho).
Qed.
Lemma fam14 : forall ab, In ab [14; 24; 15; 25]%Z -> improper (FF ab)
  (w0 phi ab * - sg * fS be off z1 + w1 phi ab / RtoC off * - sg * fP be off z1 + (w0' phi ab * sg * fS be' off z2 + w1 phi ab / RtoC off * sg * fP be' off z2)).
Proof using All.
  intros ab Hab. assert (K : In ab kernel_abs) by (apply (kab ab _ Hab); incl_t).
  eapply improper_ext; [|apply (improper_lin (fun x => RtoC x * Ex be x z1 * RtoC (J0 (off * x))) (fun x => RtoC 1 * Ex be x z1 * RtoC (J1 (off * x))) (fun x => RtoC x * Ex be' x z2 * RtoC (J0 (off * x))) (fun x => RtoC 1 * Ex be' x z2 * RtoC (J1 (off * x))))].
  - intros x Hx. unfold FF. rewrite F_TM, F_TE by assumption. rewrite bessel_two; [|cbn in Hab |- *; tauto|exact Ho].
    assert (T1 : tm_amp eH eV (s * be x) sg ab = - sg) by (cbn in Hab; decompose [or] Hab; try contradiction; subst ab; reflexivity).
    assert (T2 : te_amp zH zV (s' * be' x) sg ab = sg) by (cbn in Hab; decompose [or] Hab; try contradiction; subst ab; reflexivity).
    rewrite T1, T2. match goal with |- ?a = ?b => change (@eq C a b) end. ring.
  - apply (cM RtoC J0 okJ0 cC_id).
  - apply (cM (fun _ => RtoC 1) J1 okJ1 (cC_const (RtoC 1))).
  - apply (cE RtoC J0 okJ0 cC_id).
  - apply (cE (fun _ => RtoC 1) J1 okJ1 (cC_const (RtoC 1))).
  - exact (tS eH eV zH D off QeH QeV QzH HrE HgM HD Ho).
  - exact (tP eH eV zH D off QeH QeV QzH HrE HgM HD Ho).
  - exact (tS zH zV eH D off QzH QzV QeH HrZ HgE HD Ho).
  - exact (tP zH zV eH D off QzH QzV QeH HrZ HgE HD Ho).
Qed.
Lemma fam13 : forall ab, In ab [13; 23; 31; 32]%Z -> improper (FF ab) (wB phi ab * (sg / eV) * fB be off z1).
Proof using All.
  intros ab Hab. assert (K : In ab kernel_abs) by (apply (kab ab _ Hab); incl_t).
  eapply improper_ext; [|apply (improper_one (fun x => RtoC x * RtoC x * Ex be x z1 * RtoC (J1 (off * x))))].
  - intros x Hx. unfold FF. rewrite F_TM, F_TE by assumption. rewrite bessel_one by (cbn in Hab |- *; tauto).
    assert (T1 : tm_amp eH eV (s * be x) sg ab = sg / eV) by (cbn in Hab; decompose [or] Hab; try contradiction; subst ab; reflexivity).
    assert (T2 : te_amp zH zV (s' * be' x) sg ab = RtoC 0) by (cbn in Hab; decompose [or] Hab; try contradiction; subst ab; reflexivity).
    rewrite T1, T2. match goal with |- ?a = ?b => change (@eq C a b) end. ring.
  - apply (cM (fun x => RtoC x * RtoC x) J1 okJ1). apply cC_mult; apply cC_id.
  - exact (tB eH eV zH D off QeH QeV QzH HrE HgM HD Ho).
Qed.
Lemma fam34 : forall ab, In ab [34; 35]%Z -> improper (FF ab) (wB phi ab * (eH / (eV * s)) * fA be off z1).
Proof using All.
  intros ab Hab. assert (K : In ab kernel_abs) by (apply (kab ab _ Hab); incl_t).
  eapply improper_ext; [|apply (improper_one (fun x => RtoC x * mka eV zH x * Ex be x z1 * RtoC (J1 (off * x))))].
  - intros x Hx. unfold FF. rewrite F_TM, F_TE by assumption. rewrite bessel_one by (cbn in Hab |- *; tauto). rewrite mka_eq. fold be.
    assert (T1 : tm_amp eH eV (s * be x) sg ab = eH / (eV * (s * be x))) by (cbn in Hab; decompose [or] Hab; try contradiction; subst ab; reflexivity).
    assert (T2 : te_amp zH zV (s' * be' x) sg ab = RtoC 0) by (cbn in Hab; decompose [or] Hab; try contradiction; subst ab; reflexivity).
    rewrite T1, T2. pose proof (Nbe x). match goal with |- ?a = ?b => change (@eq C a b) end. field. auto.
  - apply (cM (fun x => RtoC x * mka eV zH x) J1 okJ1). apply cC_mult; [apply cC_id|exact cka1].
  - exact (tA eH eV zH D off QeH QeV QzH HrE HgM HD Ho).
Qed.
Lemma fam16 : forall ab, In ab [16; 26]%Z -> improper (FF ab) (wB phi ab * (zH / (zV * s')) * fA be' off z2).
Proof using All.
  intros ab Hab. assert (K : In ab kernel_abs) by (apply (kab ab _ Hab); incl_t).
  eapply improper_ext; [|apply (improper_one (fun x => RtoC x * mka zV eH x * Ex be' x z2 * RtoC (J1 (off * x))))].
  - intros x Hx. unfold FF. rewrite F_TM, F_TE by assumption. rewrite bessel_one by (cbn in Hab |- *; tauto). rewrite mka_eq. fold be'.
    assert (T1 : tm_amp eH eV (s * be x) sg ab = RtoC 0) by (cbn in Hab; decompose [or] Hab; try contradiction; subst ab; reflexivity).
    assert (T2 : te_amp zH zV (s' * be' x) sg ab = zH / (zV * (s' * be' x))) by (cbn in Hab; decompose [or] Hab; try contradiction; subst ab; reflexivity).
    rewrite T1, T2. pose proof (Nbe' x). match goal with |- ?a = ?b => change (@eq C a b) end. field. auto.
  - apply (cE (fun x => RtoC x * mka zV eH x) J1 okJ1). apply cC_mult; [apply cC_id|exact cka2].
  - exact (tA zH zV eH D off QzH QzV QeH HrZ HgE HD Ho).
Qed.
Lemma fam33 : improper (FF 33) (RtoC 1 / (RtoC 4 * RtoC PI) * (eH / (eV * eV * s)) * fM be off z1 + RtoC 1 / (RtoC 4 * RtoC PI) * (eH / (eV * eV * s)) * - (zH * eV) * fK be off z1 + (RtoC 0 * fK be off z1 + RtoC 0 * fK be off z1)).
Proof using All.
  assert (K : In 33%Z kernel_abs) by (cbn; tauto).
  eapply improper_ext; [|apply (improper_lin (fun x => (be x * RtoC x) * Ex be x z1 * RtoC (J0 (off * x))) (fun x => mka eV zH x * Ex be x z1 * RtoC (J0 (off * x))) (fun x => mka eV zH x * Ex be x z1 * RtoC (J0 (off * x))) (fun x => mka eV zH x * Ex be x z1 * RtoC (J0 (off * x))))].
  - intros x Hx. unfold FF. rewrite F_TM, F_TE by assumption. rewrite bessel_33. rewrite !mka_eq. fold be.
    assert (T1 : tm_amp eH eV (s * be x) sg 33 = eH / (eV * eV * (s * be x))) by reflexivity.
    assert (T2 : te_amp zH zV (s' * be' x) sg 33 = RtoC 0) by reflexivity.
    rewrite T1, T2. pose proof (Nbe x). assert (SQ : be x * be x = RtoC x * RtoC x + zH * eV) by (rewrite <- RtoC_mult; apply (mbe_sq eV zH HgM)).
    set (P := RtoC 1 / (RtoC 4 * RtoC PI)). clearbody P. set (EE := Ex be x z1). set (EE' := Ex be' x z2). set (JJ := RtoC (J0 (off * x))).
    transitivity (P * (RtoC x * (be x * be x - zH * eV) * (eH / (eV * eV * (s * be x)) * EE) * JJ)); [rewrite SQ; ring|]. match goal with |- ?a = ?b => change (@eq C a b) end. field. auto.
  - apply (cM (fun x => be x * RtoC x) J0 okJ0). apply cC_mult; [exact cbe1|apply cC_id].
  - apply (cM (mka eV zH) J0 okJ0 cka1).
  - apply (cM (mka eV zH) J0 okJ0 cka1).
  - apply (cM (mka eV zH) J0 okJ0 cka1).
  - exact (tM eH eV zH D off QeH QeV QzH HrE HgM HD Ho).
  - exact (tK eH eV zH D off QeH QeV QzH HrE HgM HD Ho).
  - exact (tK eH eV zH D off QeH QeV QzH HrE HgM HD Ho).
  - exact (tK eH eV zH D off QeH QeV QzH HrE HgM HD Ho).
Qed.
Let x := (cos phi * off)%R. Let y := (sin phi * off)%R.
Let k := Csqrt (eH * zH).
Theorem homog_core : forall ab, In ab kernel_abs -> improper (FF ab) (fsv eH eV zH zV x y (zr - zs) ab).
Proof using All.
  intros ab Hab.
  assert (HO : (off * off = x * x + y * y)%R).
  { unfold x, y. pose proof (sin2_cos2 phi) as SC. unfold Rsqr in SC. transitivity (off * off * (sin phi * sin phi + cos phi * cos phi))%R; [rewrite SC; ring|ring]. }
  assert (HDD : ((zr - zs) * (zr - zs) = D * D)%R). { unfold D. rewrite <- Rabs_mult. rewrite (Rabs_pos_eq ((zs - zr) * (zs - zr))) by nra. ring. }
  assert (R1 : RR off z1 = rad (s * s) x y (zr - zs)) by exact (mRR eH eV zH D off QeH QeV QzH HrE HgM HD Ho x y (zr - zs)%R HO HDD).
  assert (R2 : RR off z2 = rad (s' * s') x y (zr - zs)) by exact (mRR zH zV eH D off QzH QzV QeH HrZ HgE HD Ho x y (zr - zs)%R HO HDD).
  assert (R3 : RR off z1 = rad (s * s) (- x) (- y) (- (zr - zs))). { apply (mRR eH eV zH D off QeH QeV QzH HrE HgM HD Ho (- x)%R (- y)%R (- (zr - zs))%R); rewrite ?HO, <- ?HDD; ring. }
  assert (R4 : RR off z2 = rad (s' * s') (- x) (- y) (- (zr - zs))). { apply (mRR zH zV eH D off QzH QzV QeH HrZ HgE HD Ho (- x)%R (- y)%R (- (zr - zs))%R); rewrite ?HO, <- ?HDD; ring. }
  assert (B1 : be 0 = k / s) by exact (mbe0 eH eV zH D off QeH QeV QzH HrE HgM HD Ho).
  assert (B2 : be' 0 = k / s'). { unfold k. replace (eH * zH) with (zH * eH) by ring. exact (mbe0 zH zV eH D off QzH QzV QeH HrZ HgE HD Ho). }
  assert (Z1 : z1 = s * RtoC D) by reflexivity. assert (Z2 : z2 = s' * RtoC D) by reflexivity.
  assert (Q1 : RR off z1 * RR off z1 = z1 * z1 + RtoC (off * off)) by apply Csqrt_sqr. assert (Q2 : RR off z2 * RR off z2 = z2 * z2 + RtoC (off * off)) by apply Csqrt_sqr.
  assert (NR1 : RR off z1 <> RtoC 0) by (apply RR_good; exact (mz_good eH eV D HrE HD)).
  assert (NR2 : RR off z2 <> RtoC 0) by (apply RR_good; exact (mz_good zH zV D HrZ HD)).
  pose proof (eV_s eH eV QeH QeV) as EV. pose proof (eV_s zH zV QzH QzV) as ZV. pose proof (zH_k eH zH QeH) as ZH. fold k in ZH.
  pose proof (k_nz eH zH QeH QzH) as NK. fold k in NK.
  assert (HE : eH <> RtoC 0) by apply QeH.
  assert (SG : (zr - zs = Rsign (zr - zs) * D)%R). { unfold D, Rsign. destruct (Rlt_dec (zr - zs) 0); [rewrite (Rabs_pos_eq (zs - zr)) by lra; ring|]. destruct (Rlt_dec 0 (zr - zs)); [rewrite (Rabs_left (zs - zr)) by lra; ring|lra]. }
  assert (SS : (Rsign (zr - zs) * Rsign (zr - zs) = 1)%R). { unfold Rsign. destruct (Rlt_dec (zr - zs) 0); [ring|]. destruct (Rlt_dec 0 (zr - zs)); [ring|lra]. }
  apply (improper_val (FF ab) (if inb ab [11; 12; 21; 22]%Z then w0 phi ab * - (s / eH) * fM be off z1 + w1 phi ab / RtoC off * - (s / eH) * fP' be off z1 + (w0' phi ab * (zH / s') * fK be' off z2 + w1 phi ab / RtoC off * (zH / s') * fQ be' off z2)
    else if inb ab [14; 24; 15; 25]%Z then w0 phi ab * - sg * fS be off z1 + w1 phi ab / RtoC off * - sg * fP be off z1 + (w0' phi ab * sg * fS be' off z2 + w1 phi ab / RtoC off * sg * fP be' off z2)
    else if inb ab [13; 23; 31; 32]%Z then wB phi ab * (sg / eV) * fB be off z1
    else if inb ab [34; 35]%Z then wB phi ab * (eH / (eV * s)) * fA be off z1
    else if inb ab [16; 26]%Z then wB phi ab * (zH / (zV * s')) * fA be' off z2
    else RtoC 1 / (RtoC 4 * RtoC PI) * (eH / (eV * eV * s)) * fM be off z1 + RtoC 1 / (RtoC 4 * RtoC PI) * (eH / (eV * eV * s)) * - (zH * eV) * fK be off z1 + (RtoC 0 * fK be off z1 + RtoC 0 * fK be off z1))).
  - each_ab Hab; cbv [inb existsb Z.eqb Pos.eqb orb]; first [apply fam11; cbn; tauto|apply fam14; cbn; tauto|apply fam13; cbn; tauto|apply fam34; cbn; tauto|apply fam16; cbn; tauto|apply fam33].
  - assert (E1 : Cexp (- (k / s * z1)) = Cexp (- (k * RtoC D))) by (apply (f_equal Cexp); rewrite Z1; field; exact Ns).
    assert (E2 : Cexp (- (k / s' * z2)) = Cexp (- (k * RtoC D))) by (apply (f_equal Cexp); rewrite Z2; field; exact Ns').
    unfold fM, fP', fK, fQ, fS, fP, fB, fA. unfold fK, fS. rewrite B1, B2.
    unfold fsv, modeE, modeH, at_pt, irad, att, irho. cbv zeta. fold s s' k. change (ms eH eV) with s. change (Csqrt (eH / eV)) with s. change (Csqrt (zH / zV)) with s'.
    fold k. rewrite <- R1, <- R2, <- R3, <- R4, E1, E2. clear R1 R2 R3 R4 E1 E2 B1 B2.
    set (E := Cexp (- (k * RtoC D))). set (G := Cexp (- (k / s * RR off z1))). set (G' := Cexp (- (k / s' * RR off z2))).
    set (Q := RR off z1) in *. set (Q' := RR off z2) in *. unfold sg.
    set (sr := Rsign (zr - zs)) in *. clearbody E G G' Q Q' sr. rewrite SG. change (Csqrt (eH / eV)) with s in EV. change (Csqrt (zH / zV)) with s' in ZV.
    clear SG HDD. rewrite Z1, Z2 in *. clear Z1 Z2.
    assert (T2 : RtoC (sin phi) * RtoC (sin phi) = RtoC 1 - RtoC (cos phi) * RtoC (cos phi)).
    { rewrite <- !RtoC_mult, <- RtoC_minus. apply (f_equal RtoC). pose proof (sin2_cos2 phi) as SC. unfold Rsqr in SC. lra. }
    assert (S2 : RtoC sr * RtoC sr = RtoC 1) by (rewrite <- RtoC_mult, SS; reflexivity).
    assert (C2 : cos (phi * 2) = (2 * (cos phi * cos phi) - 1)%R) by (replace (phi * 2)%R with (2 * phi)%R by ring; rewrite cos_2a_cos; ring).
    assert (S3 : sin (phi * 2) = (2 * sin phi * cos phi)%R) by (replace (phi * 2)%R with (2 * phi)%R by ring; apply sin_2a).
    rewrite RtoC_mult in Q1, Q2.
    assert (NO : RtoC off <> RtoC 0) by (apply Re_pos_nz; exact Ho). pose proof cPI as NPI.
    assert (N2 : RtoC 1 + RtoC 1 <> RtoC 0) by (rewrite <- c2s; apply c2nz). assert (NN : RtoC 1 <> RtoC 0) by (apply Re_pos_nz; cbn; lra).
    clear SS. replace (x * x + y * y)%R with (off * off)%R in |- * by exact HO.
    replace (- x * - x + - y * - y)%R with (off * off)%R in |- * by (rewrite HO; ring).
    unfold x, y. clear HO.
    remember (cos phi) as c eqn:Ec. remember (sin phi) as t eqn:Et.
    assert (NSs : s <> RtoC 0) by exact Ns. assert (NSs' : s' <> RtoC 0) by exact Ns'.
    clear cM cE NeH NeV NzH NzV cbe1 cbe2 cka1 cka2 cbi1 cbi2 Nbe Nbe' Ns Ns'. clear HD. clear QeH QeV QzH QzV HrE HrZ HgM HgE.
    clearbody z1 z2 sg be be'. clearbody D s s' k. clear z1 z2 sg be be'. rewrite ZV, ZH, EV. clear ZV ZH EV.
    each_ab Hab; repeat match goal with |- context [(srcc ?c <? 4)%Z] => let b := eval compute in (srcc c <? 4)%Z in change (srcc c <? 4)%Z with b end;
    repeat match goal with |- context [srcc ?c] => let b := eval compute in (srcc c) in change (srcc c) with b end;
    repeat match goal with |- context [recc ?c] => let b := eval compute in (recc c) in change (recc c) with b end.
    all: match goal with |- ?a = ?b => change (@eq C a b) end.
    all: cbv [inb existsb Z.eqb Pos.eqb orb].
    all: unfold w0, w0', w1, wB, sg0, sg1, sgB, ang_exact; cbv [inb existsb Z.eqb Pos.eqb orb]; rewrite <- ?Ec, <- ?Et.
    all: change (4 - 3)%Z with 1%Z; change (5 - 3)%Z with 2%Z; change (6 - 3)%Z with 3%Z.
    all: rewrite ?C2, ?S3; unfold c4pi, tmE, teE, tmH, teH, hor, radt, dlt, cax, par2; dosub.
    all: rewrite ?RtoC_opp, ?RtoC_mult, ?RtoC_minus, ?RtoC_mult, ?RtoC_minus, ?c8s, ?c4s, ?c3s, ?c2s.
    all: field [Q1 Q2 T2 S2]; repeat split; try assumption; intros W; apply (f_equal fst) in W; cbn in W; lra.
Qed.
End Core.
