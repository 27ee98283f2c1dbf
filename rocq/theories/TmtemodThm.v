(** Proofs about the TM/TE split. *)

From Coq Require Import ZArith QArith Reals List Bool Lia Lra.
From Coquelicot Require Import Coquelicot.
From Verif Require Import PyBase CBase Kernel KernelSpec KernelRefl KernelClosed KernelPhys KernelPassive KernelMain KernelThm UtilsAb KernelFinal Utils Transform TransformDlf
  Model ModelFem Routines RoutinesThm Bipole BipoleCol BipoleFinal RoutinesK RoutinesKThm Tmtemod.
Import ListNotations.
Local Open Scope R_scope.
Local Open Scope C_scope.
Local Open Scope res_scope.

Lemma zlen_depth : forall z N, zlen (depth_arr z N) = (Z.of_nat N + 1)%Z.
Proof. intros z N. unfold zlen. rewrite depth_arr_length. lia. Qed.

Section Mode.
Variables (e g : nat -> C) (z : nat -> R) (N : nat).
Hypothesis REG : regular e g z N.
Notation Rd := (Rdn e g z N).
Notation Ru := (Rup e g z).
Notation Ms := (Ms e g z N).

Definition sgm (TM : bool) : C := cz (if TM then (-1) else 1).

(** the parts at the receiver, without the factor of the mode *)
Definition closed_parts (TM : bool) (s : nat) (zs zr : R) : parts :=
  mkP (Rd s / Ms s * sgm TM * Ru s * dec g s (thick z s + (zs - z s)) * dec g s (z (S s) - zr))
      (Rd s / Ms s * dec g s (z (S s) - zs) * dec g s (z (S s) - zr))
      (Ru s / Ms s * dec g s (zs - z s) * dec g s (zr - z s))
      (Ru s / Ms s * sgm TM * Rd s * dec g s (thick z s + (z (S s) - zs)) * dec g s (zr - z s))
      ((if TM then - dec g s (Rabs (zs - zr)) else dec g s (Rabs (zs - zr)))).

Lemma tm_pass_dn : forall s zs TM, (s <= N)%nat ->
  tm_pass false (depth_arr z N) [Rd s] [Ru s] (arr g N) (Z.of_nat s) (Z.of_nat s) zs TM
  = Ok (Ru s / Ms s * dec g s (zs - z s), Ru s / Ms s * sgm TM * Rd s * dec g s (thick z s + (z (S s) - zs))).
Proof.
  intros s zs TM Hs. unfold tm_pass. rewrite zlen_depth.
  destruct (Nat.eq_dec s 0) as [->|Hs0].
  - cbn [Z.of_nat]. rewrite idx_depth_0. cbn [bind xsub].
    change (idx (arr g N) 0) with (idx (arr g N) (Z.of_nat 0)). rewrite idx_arr by lia. cbn [bind andb negb].
    cbn [Z.eqb Z.ltb orb Z.compare]. f_equal. cbn [Rup]. f_equal; unfold cz, Cdiv; ring.
  - rewrite idx_depth by lia. cbn [bind xsub]. rewrite idx_arr by lia. cbn [bind andb negb].
    destruct (Z.eqb_spec (Z.of_nat s) 0); [lia|]. rewrite Z.ltb_irrefl. cbn [orb]. rewrite idx_hd. cbn [bind xexpm].
    destruct (Z.eqb_spec (Z.of_nat s) (Z.of_nat N + 1 - 1)) as [HN|HN].
    + replace s with N in * by lia. rewrite Ms_N, Rdn_N by exact REG. f_equal. f_equal; unfold dec, Cdiv, cz; field; try (intros X; injection X; lra).
    + replace (Z.of_nat s + 1)%Z with (Z.of_nat (S s)) by lia. rewrite idx_depth by lia. rewrite idx_hd. cbn [bind xsub xexpm xadd].
      change (cz 1 - Ru s * Rd s * Cexp (- (cz 2 * g s * (z (S s) - z s)%R))) with (Ms s).
      rewrite cdiv_ok by (apply (regM e g z N REG s); lia). reflexivity.
Qed.

Lemma tm_pass_up : forall s zs TM, (s <= N)%nat ->
  tm_pass true (depth_arr z N) [Rd s] [Ru s] (arr g N) (Z.of_nat s) (Z.of_nat s) zs TM
  = Ok (Rd s / Ms s * dec g s (z (S s) - zs), Rd s / Ms s * sgm TM * Ru s * dec g s (thick z s + (zs - z s))).
Proof.
  intros s zs TM Hs. unfold tm_pass. rewrite zlen_depth.
  assert (Hd : exists dt dm, idx (depth_arr z N) (Z.of_nat s) = Ok dt /\ xsub (Fin zs) dt = Ok dm /\ ((0 < s)%nat -> dt = Fin (z s) /\ dm = Fin (zs - z s)) /\ (s = 0%nat -> dt = NInf /\ dm = PInf)).
  { destruct (Nat.eq_dec s 0) as [->|Hs0].
    - exists NInf, PInf. split; [apply idx_depth_0|]. split; [reflexivity|]. split; [lia|now split].
    - exists (Fin (z s)), (Fin (zs - z s)). split; [apply idx_depth; lia|]. split; [reflexivity|]. split; [now split|lia]. }
  destruct Hd as (dt & dm & E1' & E2' & H1 & H2). rewrite E1'. cbn [bind]. rewrite E2'. cbn [bind]. rewrite idx_arr by lia. cbn [bind andb negb].
  destruct (Z.eqb_spec (Z.of_nat s) (Z.of_nat N + 1 - 1)) as [HN|HN].
  - cbn [orb]. replace s with N in * by lia. rewrite Rdn_N. f_equal. f_equal; unfold cz, Cdiv; ring.
  - replace (Z.of_nat s >? Z.of_nat s)%Z with false by (destruct (Z.gtb_spec (Z.of_nat s) (Z.of_nat s)); [lia|reflexivity]). cbn [orb].
    rewrite idx_hd. cbn [bind]. replace (Z.of_nat s + 1)%Z with (Z.of_nat (S s)) by lia. rewrite idx_depth by lia. cbn [bind xsub xexpm].
    destruct (Z.eqb_spec (Z.of_nat s) 0) as [H0|H0].
    + replace s with 0%nat in * by lia. rewrite Ms_0. cbn [Rup]. f_equal. f_equal; unfold dec, Cdiv, cz; field; try (intros X; injection X; lra).
    + destruct (H1 ltac:(lia)) as [-> ->]. rewrite idx_hd. cbn [bind xsub xexpm xadd].
      replace (cz 1 - Rd s * Ru s * Cexp (- (cz 2 * g s * (z (S s) - z s)%R))) with (Ms s) by (unfold KernelClosed.Ms, E2, thick, cz; ring).
      rewrite cdiv_ok by (apply (regM e g z N REG s); lia). reflexivity.
Qed.

Lemma refl_same : forall s, (s <= N)%nat -> reflections (depth_arr z N) (arr e N) (arr g N) (Z.of_nat s) (Z.of_nat s) = Ok ([Rd s], [Ru s]).
Proof.
  intros s Hs. unfold reflections. rewrite reflections_plus_same, reflections_minus_same; [reflexivity|exact Hs| |exact Hs|].
  - intros k Hk. split; [apply REG; lia|apply REG; lia].
  - intros k Hk. split; [apply REG; lia|apply REG; lia].
Qed.

(** the parts sum up to the Green's function of the mode *)
Lemma parts_total : forall TM s zs zr, (s <= N)%nat ->
  p_total (closed_parts TM s zs zr) = G_mode e g z N (cpm TM 11) (csg TM 11) s s zs zr false.
Proof.
  intros TM s zs zr Hs. unfold G_mode. rewrite Nat.eqb_refl. unfold G_dir, dsgn, G_same, bsd, bsu, p_total, closed_parts, sgm. cbn [p_uu p_ud p_du p_dd p_df].
  assert (E : cpm TM 11 * csg TM 11 = 1) by (destruct TM; unfold cpm, csg, zpm; cbn; unfold cz, RtoC, Cmult; cbn; f_equal; ring).
  destruct (Ceq_dec (cpm TM 11 * csg TM 11) 1) as [_|Hc]; [|now elim Hc]. rewrite E.
  assert (HM := regM e g z N REG s Hs).
  destruct TM; unfold cpm, csg, zpm; cbn [plus_of inb existsb plusset Z.eqb Pos.eqb orb andb negb]; rewrite ?cz_m1; change (cz 1) with (RtoC 1); field; exact HM.
Qed.
End Mode.

Definition p_scale (f : C) (p : parts) : parts := mkP (p_uu p * f) (p_ud p * f) (p_du p * f) (p_dd p * f) (p_df p * f).

Lemma div_opp : forall a b c d : C, b <> 0 -> d <> 0 -> a * d = - c * b -> a / b = - (c / d).
Proof.
  intros a b c d Hb Hd H. transitivity ((a * d) / (b * d)); [field; auto|]. rewrite H. field. auto.
Qed.

(** ** One mode *)
Section Row.
Variables (eH eV zH zV : nat -> C) (z : nat -> R) (N : nat).
Hypothesis PM : passive_medium eH eV zH zV z N.
Notation gTM lam := (gam eH eV zH lam).
Notation gTE lam := (gam zH zV eH lam).

Definition mode_parts (TM : bool) (s : nat) (zs zr lam : R) : parts :=
  if TM then p_scale (gTM lam s / eH s) (closed_parts eH (gTM lam) z N true s zs zr)
  else p_scale (zH s / gTE lam s) (closed_parts zH (gTE lam) z N false s zs zr).

Lemma tm_mode_closed : forall TM s zs zr lam, (s <= N)%nat ->
  tm_mode TM (depth_arr z N) (arr eH N) (arr eV N) (arr zH N) (arr zV N) (Z.of_nat s) (Z.of_nat s) zs zr lam = Ok (mode_parts TM s zs zr lam).
Proof.
  intros TM s zs zr lam Hs. pose proof (passive_model_ok eH eV zH zV z N lam PM) as OK. destruct OK as [o1 o2 o3 o4 o5 o6 o7 o8].
  unfold tm_mode. rewrite zlen_depth.
  assert (HWu : forall gg : nat -> C, (if negb (Z.of_nat s =? Z.of_nat N + 1 - 1)%Z then d1 <- idx (depth_arr z N) (Z.of_nat s + 1);; dd <- xsub d1 (Fin zr);; xexpm (gg s) dd else Ok (cz 0))
     = Ok (if (s =? N)%nat then RtoC 0 else dec gg s (z (S s) - zr))).
  { intros gg. destruct (Z.eqb_spec (Z.of_nat s) (Z.of_nat N + 1 - 1)) as [H|H]; destruct (Nat.eqb_spec s N); try lia; cbn [negb]; [reflexivity|].
    replace (Z.of_nat s + 1)%Z with (Z.of_nat (S s)) by lia. rewrite idx_depth by lia. reflexivity. }
  assert (HWd : forall gg : nat -> C, (if negb (Z.of_nat s =? 0)%Z then d0 <- idx (depth_arr z N) (Z.of_nat s);; dd <- xsub (Fin zr) d0;; xexpm (gg s) dd else Ok (cz 0))
     = Ok (if (s =? 0)%nat then RtoC 0 else dec gg s (zr - z s))).
  { intros gg. destruct (Z.eqb_spec (Z.of_nat s) 0) as [H|H]; destruct (Nat.eqb_spec s 0); try lia; cbn [negb]; [reflexivity|].
    rewrite idx_depth by lia. reflexivity. }
  assert (HP : forall e gg TM' f, p_scale f (closed_parts e gg z N TM' s zs zr) =
     mkP (Rdn e gg z N s / Ms e gg z N s * sgm TM' * Rup e gg z s * dec gg s (thick z s + (zs - z s)) * (if (s =? N)%nat then RtoC 0 else dec gg s (z (S s) - zr)) * f)
         (Rdn e gg z N s / Ms e gg z N s * dec gg s (z (S s) - zs) * (if (s =? N)%nat then RtoC 0 else dec gg s (z (S s) - zr)) * f)
         (Rup e gg z s / Ms e gg z N s * dec gg s (zs - z s) * (if (s =? 0)%nat then RtoC 0 else dec gg s (zr - z s)) * f)
         (Rup e gg z s / Ms e gg z N s * sgm TM' * Rdn e gg z N s * dec gg s (thick z s + (z (S s) - zs)) * (if (s =? 0)%nat then RtoC 0 else dec gg s (zr - z s)) * f)
         ((if TM' then - dec gg s (Rabs (zs - zr)) else dec gg s (Rabs (zs - zr))) * f)).
  { intros e gg TM' f. unfold p_scale, closed_parts. cbn [p_uu p_ud p_du p_dd p_df].
    destruct (Nat.eqb_spec s N) as [HN|_]; destruct (Nat.eqb_spec s 0) as [Z0|_]; try (rewrite !HN, Rdn_N); try (replace (Rup e gg z s) with (RtoC 0) by (rewrite Z0; reflexivity));
      try (replace (Rup e gg z N) with (RtoC 0) by (rewrite <- HN, Z0; reflexivity)); unfold Cdiv; f_equal; ring. }
  destruct TM.
  - rewrite gammas_arr by exact o2. cbn [bind]. rewrite idx_arr by lia. cbn [bind]. rewrite (refl_same eH (gTM lam) z N o7 s Hs). cbn [bind].
    rewrite HWu, HWd. cbn [bind]. rewrite (tm_pass_dn eH (gTM lam) z N o7 s zs true Hs), (tm_pass_up eH (gTM lam) z N o7 s zs true Hs). cbn [bind xexpm].
    rewrite idx_arr by lia. cbn [bind]. rewrite cdiv_ok by (apply o1; lia). cbn [bind]. unfold mode_parts. rewrite HP. reflexivity.
  - rewrite gammas_arr by exact o4. cbn [bind]. rewrite idx_arr by lia. cbn [bind]. rewrite (refl_same zH (gTE lam) z N o8 s Hs). cbn [bind].
    rewrite HWu, HWd. cbn [bind]. rewrite (tm_pass_dn zH (gTE lam) z N o8 s zs false Hs), (tm_pass_up zH (gTE lam) z N o8 s zs false Hs). cbn [bind xexpm].
    rewrite !idx_arr by lia. cbn [bind]. rewrite cdiv_ok by (apply o6; lia). cbn [bind]. unfold mode_parts. rewrite HP. reflexivity.
Qed.

(** the sum of the parts of both modes are the two values of the standard kernel *)
Lemma p_total_scale : forall f p, p_total (p_scale f p) = p_total p * f.
Proof. intros f p. unfold p_total, p_scale. cbn. ring. Qed.
Lemma mode_total : forall s zs zr lam, (s <= N)%nat ->
  gcall eH eV zH zV z N lam 11 false false false s s zs zr = Ok (p_total (mode_parts true s zs zr lam), p_total (mode_parts false s zs zr lam)).
Proof.
  intros s zs zr lam Hs. pose proof (passive_model_ok eH eV zH zV z N lam PM) as OK.
  rewrite (greenfct_ee eH eV zH zV z N lam OK 11 s s zs zr false false ltac:(vm_compute; tauto) Hs Hs). destruct OK as [o1 o2 o3 o4 o5 o6 o7 o8].
  unfold mode_parts. rewrite !p_total_scale. rewrite (parts_total eH (gTM lam) z N o7 true s zs zr Hs), (parts_total zH (gTE lam) z N o8 false s zs zr Hs).
  unfold PTM, PTE. cbn [mode_used negb inb existsb Z.eqb Pos.eqb orb]. f_equal. f_equal.
  - unfold fTM. cbn -[cz wsrc wgt gam Cmult Cdiv Copp G_mode cpm csg]. change (cpm true 11) with (cz (-1)). change (csg true 11) with (cz (-1)). rewrite wsrc_czm, wgt_czm.
    rewrite !Cdiv_1_r. change (sgnTM 11) with (RtoC 1). ring.
  - unfold fTE. cbn -[cz wsrc wgt gam Cmult Cdiv Copp G_mode cpm csg]. change (cpm false 11) with (cz 1). change (csg false 11) with (cz 1). rewrite wsrc_cz1, Cdiv_1_r. ring.
Qed.

(** ** The corrections *)
Definition g0 : nat -> C := gam eH eV zH 0.
Lemma g0_val : forall k, g0 k = Csqrt (zH k * eH k).
Proof. intros k. unfold g0, gam. f_equal. rewrite Rmult_0_l. ring. Qed.
Lemma g0_TE : gam zH zV eH 0 = g0.
Proof. apply FunctionalExtensionality.functional_extensionality. intros k. rewrite g0_val. unfold gam. f_equal. rewrite Rmult_0_l. ring. Qed.
Lemma gam0_arr : gam0 (mkrow (arr eH N) (arr eV N) (arr zH N) (arr zV N)) = arr g0 N.
Proof.
  unfold gam0, arr. cbn [r_zH r_eH]. induction (seq 0 (S N)) as [|k l IH]; [reflexivity|]. cbn [map combine fst snd]. rewrite IH, g0_val. reflexivity.
Qed.
Lemma reg0_TM : regular eH g0 z N.
Proof. exact (mo_TM _ _ _ _ _ _ _ (passive_model_ok eH eV zH zV z N 0 PM)). Qed.
Lemma reg0_TE : regular zH g0 z N.
Proof. rewrite <- g0_TE. exact (mo_TE _ _ _ _ _ _ _ (passive_model_ok eH eV zH zV z N 0 PM)). Qed.
Lemma g0_nz : forall k, (k <= N)%nat -> g0 k <> 0.
Proof. exact (mo_gTM _ _ _ _ _ _ _ (passive_model_ok eH eV zH zV z N 0 PM)). Qed.
Lemma g0_pos : forall k, (k <= N)%nat -> (0 < fst (g0 k))%R.
Proof. exact (pas_g _ _ _ _ _ (passive_TM eH eV zH zV z N 0 PM)). Qed.

(** the two modes have opposite reflections at zero wavenumber *)
Lemma rl_opp : forall k, (k < N)%nat -> rl zH g0 k = - rl eH g0 k.
Proof.
  intros k Hk. pose proof (reg_rl _ _ _ _ reg0_TM k Hk) as D1. pose proof (reg_rl _ _ _ _ reg0_TE k Hk) as D2. unfold den_rl in D1, D2. unfold rl.
  pose proof (g0_nz k ltac:(lia)) as G1. pose proof (g0_nz (S k) ltac:(lia)) as G2.
  assert (S1 : g0 k * g0 k = zH k * eH k) by (rewrite g0_val; apply Csqrt_sqr). assert (S2 : g0 (S k) * g0 (S k) = zH (S k) * eH (S k)) by (rewrite g0_val; apply Csqrt_sqr).
  apply div_opp; [exact D2|exact D1|].
  transitivity (zH (S k) * eH (S k) * (g0 k * g0 k) - zH k * eH k * (g0 (S k) * g0 (S k)) + (zH (S k) * eH k - zH k * eH (S k)) * g0 k * g0 (S k)); [ring|].
  transitivity (- (zH (S k) * eH (S k) * (g0 k * g0 k) - zH k * eH k * (g0 (S k) * g0 (S k))) + (zH (S k) * eH k - zH k * eH (S k)) * g0 k * g0 (S k)); [rewrite S1, S2; ring|ring].
Qed.
Lemma Rdn_opp : forall m k, (k + m = N)%nat -> RdnF zH g0 z m k = - RdnF eH g0 z m k.
Proof.
  induction m as [|m IH]; intros k Hk; [cbn; ring|]. cbn [RdnF]. rewrite IH by lia. rewrite rl_opp by lia.
  set (T := RdnF eH g0 z m (S k)). set (E := E2 g0 z (S k)). set (r := rl eH g0 k). 
  replace (1 + - r * (- T * E)) with (1 + r * (T * E)) by ring. unfold Cdiv. ring.
Qed.
Lemma Rdn_opp' : forall k, (k <= N)%nat -> Rdn zH g0 z N k = - Rdn eH g0 z N k.
Proof. intros k Hk. unfold Rdn. apply Rdn_opp. lia. Qed.
Lemma Rup_opp : forall k, (k <= N)%nat -> Rup zH g0 z k = - Rup eH g0 z k.
Proof.
  induction k as [|k IH]; intros Hk; [cbn; ring|]. cbn [Rup]. rewrite IH by lia. rewrite rl_opp by lia.
  set (T := Rup eH g0 z k). set (E := E2 g0 z k). set (r := rl eH g0 k).
  replace (1 + - - r * (- T * E)) with (1 + - r * (T * E)) by ring. unfold Cdiv. ring.
Qed.

Definition npf (e : nat -> C) (s : nat) (af off : R) : C := RtoC af * zH s / (RtoC (4 * PI * off) * RtoC off * g0 s * Ms e g0 z N s).
Definition corr (e : nat -> C) (sg : Z) (s : nat) (zs zr af off : R) : parts :=
  let q := npf e s af off in let rp := Rdn e g0 z N s in let rm := Rup e g0 z s in
  mkP (cz sg * (q * rp * rm * dec g0 s (thick z s + thick z s + (- zr + zs)))) (q * rp * dec g0 s (z (S s) + z (S s) + (- zr - zs)))
      (q * rm * dec g0 s (zr + zs)) (cz sg * (q * rp * rm * dec g0 s (thick z s + thick z s + (zr - zs)))) (RtoC 0).

Lemma tm_corr_closed : forall e sg s zs zr af off, regular e g0 z N -> (s <= N)%nat -> (0 < off)%R ->
  tm_corr (mkrow (arr eH N) (arr eV N) (arr zH N) (arr zV N)) (depth_arr z N) (arr e N) (Z.of_nat s) (Z.of_nat s) zs zr af off sg = Ok (corr e sg s zs zr af off).
Proof.
  intros e sg s zs zr af off REG Hs Hoff. unfold tm_corr, rp_rm. rewrite gam0_arr. cbn [r_zH].
  rewrite (refl_same e g0 z N REG s Hs). rewrite !idx_arr by lia.
  assert (ND : (forall k, (k <= N)%nat -> idx (depth_arr z N ++ [PInf]) (Z.of_nat k) = idx (depth_arr z N) (Z.of_nat k)) /\ idx (depth_arr z N ++ [PInf]) (Z.of_nat (S N)) = Ok PInf).
  { split; [intros k Hk|]; unfold idx, norm_idx; cbv zeta; [destruct (Z.ltb_spec (Z.of_nat k) 0)|destruct (Z.ltb_spec (Z.of_nat (S N)) 0)]; try lia.
    - rewrite nth_error_app1 by (rewrite depth_arr_length; lia). reflexivity.
    - rewrite nth_error_app2 by (rewrite depth_arr_length; lia). rewrite depth_arr_length. replace (Z.to_nat (Z.of_nat (S N)) - S N)%nat with 0%nat by lia. reflexivity. }
  destruct ND as [ND1 ND2].
  assert (I1 : idx (depth_arr z N ++ [PInf]) (Z.of_nat s + 1) = Ok (if (s =? N)%nat then PInf else Fin (z (S s)))).
  { replace (Z.of_nat s + 1)%Z with (Z.of_nat (S s)) by lia. destruct (Nat.eqb_spec s N) as [H|H]; [rewrite H; exact ND2|].
    rewrite ND1 by lia. apply idx_depth; lia. }
  assert (I0 : idx (depth_arr z N ++ [PInf]) (Z.of_nat s) = Ok (if (s =? 0)%nat then NInf else Fin (z s))).
  { rewrite ND1 by lia. destruct (Nat.eqb_spec s 0) as [H|H]; [rewrite H; apply idx_depth_0|apply idx_depth; lia]. }
  rewrite I1, I0. cbn [bind]. rewrite !idx_hd.
  assert (Hnz : forall M : C, M = Ms e g0 z N s -> RtoC (4 * PI * off) * RtoC off * g0 s * M <> 0).
  { intros M ->. pose proof PI_RGT_0. apply Cmult_neq_0; [apply Cmult_neq_0; [apply Cmult_neq_0|]|]; [apply RtoC_neq_0; nra|apply RtoC_neq_0; lra|apply g0_nz; lia|apply (regM e g0 z N REG); lia]. }
  destruct (Nat.eqb_spec s N) as [HN|HN]; destruct (Nat.eqb_spec s 0) as [H0|H0]; cbn [xsub bind xexpm twice_plus xadd].
  all: match goal with |- context [cdiv _ (_ * _ * _ * ?M)] => assert (HM : M = Ms e g0 z N s) end.
  1,3,5,7: try (replace (Rdn e g0 z N s) with (RtoC 0) by (rewrite HN, Rdn_N; reflexivity)); try (replace (Rup e g0 z s) with (RtoC 0) by (rewrite H0; reflexivity)).
  1-4: unfold KernelClosed.Ms; try (replace (Rdn e g0 z N s) with (RtoC 0) by (rewrite HN, Rdn_N; reflexivity)); try (replace (Rup e g0 z s) with (RtoC 0) by (rewrite H0; reflexivity));
    unfold E2, thick, cz; ring.
  all: rewrite HM, cdiv_ok by (apply Hnz; reflexivity); cbn [bind]; unfold corr, npf; cbv zeta;
    try (replace (Rdn e g0 z N s) with (RtoC 0) by (rewrite HN, Rdn_N; reflexivity)); try (replace (Rup e g0 z s) with (RtoC 0) by (rewrite H0; reflexivity));
    unfold dec, thick; apply (f_equal Ok); f_equal; ring.
Qed.

(** the corrections of the two modes cancel *)
Lemma corr_cancel : forall s zs zr af off, (s <= N)%nat -> p_total (corr zH 1 s zs zr af off) + p_total (corr eH (-1) s zs zr af off) = 0.
Proof.
  intros s zs zr af off Hs. assert (HM : Ms zH g0 z N s = Ms eH g0 z N s).
  { unfold KernelClosed.Ms. rewrite Rdn_opp', Rup_opp by exact Hs. ring. }
  unfold p_total, corr, npf. cbn [p_uu p_ud p_du p_dd p_df]. rewrite HM, Rdn_opp', Rup_opp by exact Hs. rewrite cz_m1. change (cz 1) with (RtoC 1). ring.
Qed.
End Row.

(** ** The filter sums *)
Lemma dot_fsum : forall base w (k : R -> C) r, dot (map k (map (fun b => (b / r)%R) base)) w = fsum w base k r.
Proof. induction base as [|b base IH]; intros [|x w] k r; cbn [map dot fsum]; try reflexivity. rewrite IH. reflexivity. Qed.
Lemma fsum_plus : forall w base (k1 k2 : R -> C) r, fsum w base (fun l => k1 l + k2 l) r = fsum w base k1 r + fsum w base k2 r.
Proof. induction w as [|x w IH]; intros [|b base] k1 k2 r; cbn [fsum]; try (symmetry; apply Cplus_0_l). rewrite IH. ring. Qed.
Lemma fsum_scale : forall w base (c : C) (k : R -> C) r, fsum w base (fun l => c * k l) r = c * fsum w base k r.
Proof. induction w as [|x w IH]; intros [|b base] c k r; cbn [fsum]; try (symmetry; apply Cmult_0_r). rewrite IH. ring. Qed.

Lemma tm_sum_fsum : forall filt sg af off (h : R -> C), 
  tm_sum filt sg (map (fun b => (b / off)%R) (f_base filt)) af off (map h (map (fun b => (b / off)%R) (f_base filt)))
  = (RtoC af * (- (1) * fsum (f_j1 filt) (f_base filt) h off) / RtoC off + RtoC ((af + sg) / 2) * fsum (f_j0 filt) (f_base filt) (fun l => h l * RtoC l) off) / RtoC (4 * PI * off).
Proof.
  intros filt sg af off h. unfold tm_sum. f_equal. f_equal.
  - f_equal. f_equal. rewrite map_map. rewrite (dot_fsum (f_base filt) (f_j1 filt) (fun l => - h l) off). rewrite <- fsum_scale. apply fsum_ext. intros. ring.
  - rewrite <- fsum_scale. rewrite <- dot_fsum. f_equal. induction (map (fun b => (b / off)%R) (f_base filt)) as [|l ls IH]; [reflexivity|].
    cbn [map combine fst snd]. rewrite IH. f_equal. ring.
Qed.
Lemma sum_parts_total : forall filt sg af off (h : R -> parts), 
  let lam := map (fun b => (b / off)%R) (f_base filt) in
  p_total (sum_parts filt sg lam af off (map h lam)) = tm_sum filt sg lam af off (map (fun l => p_total (h l)) lam).
Proof.
  intros filt sg af off h lam. unfold sum_parts. unfold p_total at 1. cbn [p_uu p_ud p_du p_dd p_df]. rewrite !map_map. unfold lam. clear lam.
  rewrite !tm_sum_fsum. unfold p_total.
  replace (fsum (f_j0 filt) (f_base filt) (fun l => (p_uu (h l) + p_ud (h l) + p_du (h l) + p_dd (h l) + p_df (h l)) * RtoC l) off)
    with (fsum (f_j0 filt) (f_base filt) (fun l => p_uu (h l) * RtoC l) off + fsum (f_j0 filt) (f_base filt) (fun l => p_ud (h l) * RtoC l) off
        + fsum (f_j0 filt) (f_base filt) (fun l => p_du (h l) * RtoC l) off + fsum (f_j0 filt) (f_base filt) (fun l => p_dd (h l) * RtoC l) off
        + fsum (f_j0 filt) (f_base filt) (fun l => p_df (h l) * RtoC l) off).
  2:{ rewrite <- !fsum_plus. apply fsum_ext. intros. ring. }
  rewrite !fsum_plus. unfold Cdiv. ring.
Qed.

(** the sum over both modes is the filter sum of the standard kernel *)
Lemma sums_value : forall filt af off (p q : R -> C), (0 < off)%R ->
  let lam := map (fun b => (b / off)%R) (f_base filt) in
  tm_sum filt 1 lam af off (map p lam) + tm_sum filt (-1) lam af off (map q lam) = dlf_value filt 11 (fun l => collect 11 false l (p l) (q l)) off af.
Proof.
  intros filt af off p q Ho lam. unfold lam. rewrite !tm_sum_fsum. unfold dlf_value, sum_noang, sum_ang. change (inb 11 j2_components) with true. cbv iota zeta.
  set (S1 := fsum (f_j1 filt) (f_base filt) p off). set (S2 := fsum (f_j1 filt) (f_base filt) q off).
  set (S3 := fsum (f_j0 filt) (f_base filt) (fun l => p l * RtoC l) off). set (S4 := fsum (f_j0 filt) (f_base filt) (fun l => q l * RtoC l) off).
  pose proof PI_RGT_0 as HP.
  assert (A : fsum (f_j0 filt) (f_base filt) (part_of t0 (fun l => collect 11 false l (p l) (q l))) off = RtoC (/ (8 * PI)) * (S3 + - (1) * S4)).
  { unfold S3, S4. rewrite <- (fsum_scale _ _ (- (1))), <- fsum_plus, <- fsum_scale. apply fsum_ext. intros b _. set (l := (b / off)%R). unfold part_of. cbn [t0 collect inb existsb Z.eqb Pos.eqb orb negb oval fst snd].
    change (IZR 1 * 8 * PI)%R with (1 * 8 * PI)%R. replace (l / (1 * 8 * PI))%R with (/ (8 * PI) * l)%R by (field; lra). rewrite RtoC_mult. ring. }
  assert (B : fsum (f_j1 filt) (f_base filt) (part_of t1 (fun l => collect 11 false l (p l) (q l))) off = RtoC (- / (4 * PI)) * (S1 + S2)).
  { unfold S1, S2. rewrite <- fsum_plus, <- fsum_scale. apply fsum_ext. intros b _. set (l := (b / off)%R). unfold part_of. cbn [t1 collect inb existsb Z.eqb Pos.eqb orb negb oval fst snd].
    change (cz (- (1))) with (cz (-1)). rewrite cz_m1. unfold Cdiv. rewrite <- RtoC_inv by lra. rewrite RtoC_opp. ring. }
  assert (D : fsum (f_j0 filt) (f_base filt) (part_of t0b (fun l => collect 11 false l (p l) (q l))) off = RtoC (/ (8 * PI)) * (S3 + S4)).
  { unfold S3, S4. rewrite <- fsum_plus, <- fsum_scale. apply fsum_ext. intros b _. set (l := (b / off)%R). unfold part_of. cbn [t0b collect inb existsb Z.eqb Pos.eqb orb negb oval fst snd].
    unfold Cdiv. rewrite <- RtoC_inv by lra. replace (/ (8 * PI))%R with (1 / 2 * / (4 * PI))%R by (field; lra). rewrite RtoC_mult. ring. }
  rewrite A, B, D. clear A B D. clearbody S1 S2 S3 S4.
  replace (RtoC ((af + 1) / 2)) with (RtoC af * RtoC (/ 2) + RtoC (/ 2)) by (rewrite <- RtoC_mult, <- RtoC_plus; f_equal; field).
  replace (RtoC ((af + -1) / 2)) with (RtoC af * RtoC (/ 2) - RtoC (/ 2)) by (rewrite <- RtoC_mult, <- RtoC_minus; f_equal; field).
  unfold Cdiv. rewrite <- !RtoC_inv by nra.
  replace (RtoC (/ (4 * PI * off))) with (RtoC (/ 2) * RtoC (/ (2 * PI)) * RtoC (/ off)) by (rewrite <- !RtoC_mult; f_equal; field; lra).
  replace (RtoC (/ (8 * PI))) with (RtoC (/ 2) * RtoC (/ 2) * RtoC (/ (2 * PI))) by (rewrite <- !RtoC_mult; f_equal; field; lra).
  replace (RtoC (- / (4 * PI))) with (- (1) * RtoC (/ 2) * RtoC (/ (2 * PI))) by (rewrite <- RtoC_opp, <- !RtoC_mult; f_equal; field; lra).
  ring.
Qed.

(** ** One element *)
Lemma p_total_add : forall a b, p_total (p_add a b) = p_total a + p_total b.
Proof. intros a b. unfold p_total, p_add. cbn. ring. Qed.

Theorem element_sum : forall filt w z N s zs zr off af, passive_row N z w -> (s <= N)%nat -> (0 < off)%R ->
  exists tm te, tm_element filt w (depth_arr z N) (Z.of_nat s) (Z.of_nat s) zs zr off af = Ok (tm, te) /\
    p_total tm + p_total te = dlf_value filt 11 (kern zs zr s s z N 11 false false false w) off af.
Proof.
  intros filt w z N s zs zr off af (eH & eV & zH & zV & PM & ->) Hs Ho. unfold tm_element. cbn [r_eH r_eV r_zH r_zV].
  set (lam := map _ (f_base filt)).
  rewrite (mapM_all _ (fun l => mode_parts eH eV zH zV z N true s zs zr l) lam) by (intros l _; apply tm_mode_closed; assumption). cbn [bind].
  rewrite (mapM_all _ (fun l => mode_parts eH eV zH zV z N false s zs zr l) lam) by (intros l _; apply tm_mode_closed; assumption). cbn [bind].
  rewrite (tm_corr_closed eH eV zH zV z N PM zH 1 s zs zr af off (reg0_TE _ _ _ _ _ _ PM) Hs Ho). cbn [bind].
  rewrite (tm_corr_closed eH eV zH zV z N PM eH (-1) s zs zr af off (reg0_TM _ _ _ _ _ _ PM) Hs Ho). cbn [bind].
  do 2 eexists. split; [reflexivity|]. rewrite !p_total_add. unfold lam. rewrite !sum_parts_total. fold lam.
  pose proof (corr_cancel eH eV zH zV z N PM s zs zr af off Hs) as CC.
  match goal with |- ?a + ?b + (?c + ?d) = ?e => transitivity ((a + c) + (d + b)); [ring|] end. rewrite CC, Cplus_0_r.
  unfold lam. rewrite (sums_value filt af off (fun l => p_total (mode_parts eH eV zH zV z N true s zs zr l)) (fun l => p_total (mode_parts eH eV zH zV z N false s zs zr l)) Ho).
  assert (EK : forall l, kern zs zr s s z N 11 false false false (mkrow (arr eH N) (arr eV N) (arr zH N) (arr zV N)) l
     = collect 11 false l (p_total (mode_parts eH eV zH zV z N true s zs zr l)) (p_total (mode_parts eH eV zH zV z N false s zs zr l))).
  { intros l. unfold kern. cbn [r_eH r_eV r_zH r_zV]. pose proof (mode_total eH eV zH zV z N PM s zs zr l Hs) as E. unfold gcall in E.
    unfold wavenumber. rewrite E. reflexivity. }
  assert (EX : forall v pr, fsum v (f_base filt) (part_of pr (kern zs zr s s z N 11 false false false (mkrow (arr eH N) (arr eV N) (arr zH N) (arr zV N)))) off
     = fsum v (f_base filt) (part_of pr (fun l => collect 11 false l (p_total (mode_parts eH eV zH zV z N true s zs zr l)) (p_total (mode_parts eH eV zH zV z N false s zs zr l)))) off).
  { intros v pr. apply fsum_ext. intros b _. unfold part_of. now rewrite EK. }
  unfold dlf_value, sum_noang, sum_ang. rewrite !EX. reflexivity.
Qed.

(** ** The routine *)
Definition tm_params (rs : resin) (aniso eperm mperm : option ndin) : params := {| q_res := rs; q_aniso := aniso; q_eH := eperm; q_eV := eperm; q_mH := mperm; q_mV := mperm |}.
Definition both (p : parts * parts) : C := p_total (fst p) + p_total (snd p).

Theorem tm_dipole_sum : forall m hook spl filt src rec depth rs aniso eperm mperm freq lf lo off angle zs zr ns nr mo ls,
  well_formed filt -> plain_model m depth (tm_params rs aniso eperm mperm) freq -> (0 < min_off m)%R -> (lf && lo = false)%bool ->
  check_model m depth rs aniso eperm eperm mperm mperm = Ok mo -> (2 <= List.length (m_depth mo))%nat -> (List.length freq <= 1)%nat ->
  geometry m src rec = Ok (off, angle, zs, zr, ns, nr) -> off <> [] ->
  layer1 (m_depth mo) zs = Ok ls -> layer1 (m_depth mo) zr = Ok ls ->
  exists T, tm_dipole m filt src rec depth rs aniso eperm mperm freq = Ok T /\
    dipole m hook (dlf_mk spl filt) src rec depth (tm_params rs aniso eperm mperm) freq (AbNum (inject_Z 11)) (Some false) lf lo = Ok (map (map both) T, nr, ns).
Proof.
  intros m hook spl filt src rec depth rs aniso eperm mperm freq lf lo off angle zs zr ns nr mo ls HF HP HO HL Em H2 H1 EG NO Es Er.
  destruct (geometry_spec _ _ _ _ _ _ _ _ _ EG) as (G1 & G2 & G3).
  assert (Po : forall o, In o off -> (0 < o)%R) by (intros o Ho; specialize (G3 o Ho); lra).
  destruct (both_closed m hook spl filt src rec depth (tm_params rs aniso eperm mperm) freq (AbNum (inject_Z 11)) lf lo 11 false false off angle zs zr ns nr mo [] HF HP HO HL Em eq_refl ltac:(discriminate) ltac:(vm_compute; tauto) EG NO)
    as (N & zz & s & r & ED & Bs & Br & LR & PR & (Ls & Lr) & E1 & _).
  set (rows := rows_of _) in *.
  assert (Esr : r = s). { rewrite Es in Ls. rewrite Er in Lr. assert (Hs : Z.of_nat s = ls) by congruence. assert (Hr : Z.of_nat r = ls) by congruence. lia. }
  subst r.
  assert (El : ls = Z.of_nat s) by (rewrite Es in Ls; congruence). subst ls.
  assert (EE : forall w p, In w rows -> In p (combine off angle) -> exists t,
     tm_element filt w (m_depth mo) (Z.of_nat s) (Z.of_nat s) zs zr (fst p) (angle_factor (snd p) 11 false false) = Ok t /\
     both t = dlf_value filt 11 (kern zs zr s s zz N 11 false false false w) (fst p) (angle_factor (snd p) 11 false false)).
  { intros w [o a] Hw Hp. cbn [fst snd]. destruct (element_sum filt w zz N s zs zr o (angle_factor a 11 false false) (PR w Hw) Bs (Po o (in_combine_l _ _ _ _ Hp))) as (tm & te & E & HS).
    exists (tm, te). rewrite ED. split; [exact E|exact HS]. }
  assert (ET : exists T, mapM (fun w => mapM (fun p => tm_element filt w (m_depth mo) (Z.of_nat s) (Z.of_nat s) zs zr (fst p) (angle_factor (snd p) 11 false false)) (combine off angle)) rows = Ok T /\
     map (map both) T = table (fun w o a => dlf_value filt 11 (kern zs zr s s zz N 11 false false false w) o a) rows off (map (fun a => angle_factor a 11 false false) angle)).
  { clear - EE. unfold table. induction rows as [|w rows IH]; [exists []; now split|].
    destruct IH as (T & E & HT). { intros w' p Hw. apply EE. now right. }
    assert (ER : exists t, mapM (fun p => tm_element filt w (m_depth mo) (Z.of_nat s) (Z.of_nat s) zs zr (fst p) (angle_factor (snd p) 11 false false)) (combine off angle) = Ok t /\
       map both t = map (fun p => dlf_value filt 11 (kern zs zr s s zz N 11 false false false w) (fst p) (snd p)) (combine off (map (fun a => angle_factor a 11 false false) angle))).
    { assert (EW := fun p => EE w p (or_introl eq_refl)). clear - EW. revert angle EW. induction off as [|o off IH]; intros angle EW; [exists []; now split|].
      destruct angle as [|a angle]; [exists []; now split|]. cbn [combine map mapM fst snd]. destruct (EW (o, a) (or_introl eq_refl)) as (t & E1 & E2). cbn [fst snd] in E1, E2. rewrite E1. cbn [bind].
      destruct (IH angle) as (ts & E3 & E4). { intros p Hp. apply EW. now right. }
      rewrite E3. cbn [bind]. eexists. split; [reflexivity|]. cbn [map]. now rewrite E2, E4. }
    destruct ER as (t & E1 & E2). cbn [mapM]. rewrite E1. cbn [bind]. rewrite E. cbn [bind]. eexists. split; [reflexivity|]. cbn [map]. now rewrite E2, HT. }
  destruct ET as (T & ET & HT). exists T. split.
  - unfold tm_dipole. rewrite Em. cbn [bind]. rewrite EG. cbn [bind]. rewrite Ls, Lr. cbn [bind]. rewrite Z.eqb_refl. cbn [negb].
    destruct (Nat.ltb_spec (List.length (m_depth mo)) 2); [lia|]. destruct (Nat.ltb_spec 1 (List.length freq)); [lia|]. exact ET.
  - rewrite HT. exact E1.
Qed.
