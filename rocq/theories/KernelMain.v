(** Closed form of kernel.greenfct for all components, and its consequences. *)

From Coq Require Import Reals ZArith List Bool Lia Lra Psatz.
From Coquelicot Require Import Coquelicot.
From Verif Require Import PyBase CBase Kernel KernelSpec KernelRefl KernelClosed KernelPhys
  KernelPassive KernelSym KernelSplit ODE KernelBVP.
Import ListNotations.
Local Open Scope R_scope.
Local Open Scope C_scope.
Local Open Scope res_scope.

(** ** Vertical wavenumber *)
Definition gam (h v q : nat -> C) (lam : R) (k : nat) : C :=
  Csqrt (h k / v k * RtoC (lam * lam) + q k * h k).

Lemma gammas_map : forall (h v q : nat -> C) lam l, (forall k, In k l -> v k <> 0) ->
  gammas (map h l) (map v l) (map q l) lam = Ok (map (gam h v q lam) l).
Proof.
  induction l; intros H; [reflexivity|].
  cbn [map gammas]. rewrite cdiv_ok by (apply H; left; reflexivity). cbn [bind].
  rewrite IHl by (intros; apply H; right; assumption). reflexivity.
Qed.
Lemma gammas_arr : forall (h v q : nat -> C) lam N, (forall k, (k <= N)%nat -> v k <> 0) ->
  gammas (arr h N) (arr v N) (arr q N) lam = Ok (arr (gam h v q lam) N).
Proof. intros. apply gammas_map. intros k Hk. apply in_seq in Hk. apply H. lia. Qed.

(** The call of greenfct on a stack given by functions. *)
Definition gcall (eH eV zH zV : nat -> C) (z : nat -> R) (N : nat) (lam : R) (ab : Z)
    (xd msrc mrec : bool) (s r : nat) (zs zr : R) : res (C * C) :=
  greenfct zs zr (Z.of_nat s) (Z.of_nat r) (depth_arr z N) (arr eH N) (arr eV N)
           (arr zH N) (arr zV N) lam ab xd msrc mrec.

(** ** Closed form of the two returned values *)
Definition srcc (ab : Z) : Z := (ab mod 10)%Z.
Definition recc (ab : Z) : Z := (ab / 10)%Z.
Definition sgnTM (ab : Z) : C := if inb ab [13; 23]%Z then - (1) else RtoC 1.

Definition fTM (eH eV g : nat -> C) (ab : Z) (s r : nat) : C :=
  sgnTM ab * wsrc eH g (cpm true ab) s * wgt eH g (csg true ab) r
  / (if (srcc ab =? 3)%Z then eV s else 1) / (if (recc ab =? 3)%Z then eV r else 1).
Definition fTE (zH zV g : nat -> C) (ab : Z) (s : nat) : C :=
  wsrc zH g (cpm false ab) s / (if (srcc ab =? 6)%Z then zV s else 1).

Definition PTM (eH eV zH : nat -> C) (z : nat -> R) (N : nat) (lam : R) (ab : Z) (xd : bool)
    (s r : nat) (zs zr : R) : C :=
  if mode_used true ab then
    fTM eH eV (gam eH eV zH lam) ab s r
    * G_mode eH (gam eH eV zH lam) z N (cpm true ab) (csg true ab) s r zs zr xd
  else 0.
Definition PTE (zH zV eH : nat -> C) (z : nat -> R) (N : nat) (lam : R) (ab : Z) (xd : bool)
    (s r : nat) (zs zr : R) : C :=
  if mode_used false ab then
    fTE zH zV (gam zH zV eH lam) ab s
    * G_mode zH (gam zH zV eH lam) z N (cpm false ab) (csg false ab) s r zs zr xd
  else 0.

Record model_ok (eH eV zH zV : nat -> C) (z : nat -> R) (N : nat) (lam : R) : Prop := {
  mo_eH : forall k, (k <= N)%nat -> eH k <> 0;
  mo_eV : forall k, (k <= N)%nat -> eV k <> 0;
  mo_zH : forall k, (k <= N)%nat -> zH k <> 0;
  mo_zV : forall k, (k <= N)%nat -> zV k <> 0;
  mo_gTM : forall k, (k <= N)%nat -> gam eH eV zH lam k <> 0;
  mo_gTE : forall k, (k <= N)%nat -> gam zH zV eH lam k <> 0;
  mo_TM : regular eH (gam eH eV zH lam) z N;
  mo_TE : regular zH (gam zH zV eH lam) z N
}.

Lemma cpm_pm1 : forall TM ab, pm1 (cpm TM ab).
Proof.
  intros. unfold cpm, zpm. destruct (plus_of TM ab); [left; reflexivity|right; apply cz_m1].
Qed.
Lemma csg_pm1 : forall TM ab, pm1 (csg TM ab).
Proof.
  intros. unfold csg. destruct (TM && _); [right; apply cz_m1|left; reflexivity].
Qed.

Lemma wsrc_cz1 : forall e g k, wsrc e g (cz 1) k = e k / g k.
Proof. intros. apply wsrc_1. Qed.
Lemma wsrc_czm : forall e g k, wsrc e g (cz (-1)) k = 1.
Proof. intros. rewrite cz_m1. apply wsrc_m1. Qed.
Lemma wgt_cz1 : forall e g k, wgt e g (cz 1) k = 1.
Proof. intros. apply wgt_1. Qed.
Lemma wgt_czm : forall e g k, wgt e g (cz (-1)) k = g k / e k.
Proof. intros. rewrite cz_m1. apply wgt_m1. Qed.

Section Closed.
Variables (eH eV zH zV : nat -> C) (z : nat -> R) (N : nat) (lam : R).
Hypothesis OK : model_ok eH eV zH zV z N lam.

Lemma pass_ok : forall TM ab s r zs zr xd, In ab kernel_abs -> mode_used TM ab = true ->
  (s <= N)%nat -> (r <= N)%nat ->
  green_pass TM (depth_arr z N) (arr eH N) (arr eV N) (arr zH N) (arr zV N)
    (Z.of_nat r) (Z.of_nat s) zs zr lam ab xd
  = if TM then Ok (arr (gam eH eV zH lam) N,
                   G_mode eH (gam eH eV zH lam) z N (cpm true ab) (csg true ab) s r zs zr xd)
    else Ok (arr (gam zH zV eH lam) N,
             G_mode zH (gam zH zV eH lam) z N (cpm false ab) (csg false ab) s r zs zr xd).
Proof.
  intros TM ab s r zs zr xd Hab Hm Hs Hr. unfold green_pass. destruct TM.
  - rewrite gammas_arr by apply OK. cbn [bind].
    rewrite green_mode_closed; [reflexivity|apply OK|assumption..].
  - rewrite gammas_arr by apply OK. cbn [bind].
    rewrite green_mode_closed; [reflexivity|apply OK|assumption..].
Qed.

Lemma greenfct_ee : forall ab s r zs zr xd msrc, In ab kernel_abs -> (s <= N)%nat -> (r <= N)%nat ->
  gcall eH eV zH zV z N lam ab xd msrc false s r zs zr
  = Ok (PTM eH eV zH z N lam ab xd s r zs zr, PTE zH zV eH z N lam ab xd s r zs zr).
Proof.
  intros ab s r zs zr xd msrc Hab Hs Hr. unfold gcall, greenfct, PTM, PTE. cbn [andb].
  destruct (mode_used true ab) eqn:MT.
  - rewrite (pass_ok true) by assumption. cbn [bind].
    destruct (mode_used false ab) eqn:ME.
    + rewrite (pass_ok false) by assumption. cbn [bind].
      generalize (G_mode eH (gam eH eV zH lam) z N (cpm true ab) (csg true ab) s r zs zr xd) as G1.
      generalize (G_mode zH (gam zH zV eH lam) z N (cpm false ab) (csg false ab) s r zs zr xd) as G2.
      intros G2 G1.
      pose proof (mo_eH _ _ _ _ _ _ _ OK) as A1. pose proof (mo_gTM _ _ _ _ _ _ _ OK) as A2.
      pose proof (mo_gTE _ _ _ _ _ _ _ OK) as A3.
      each_ab Hab; try discriminate ME; try discriminate MT; unfold green_factors; cbn [inb existsb Z.eqb Pos.eqb orb bind];
        rewrite !idx_arr by lia; cbn [bind]; repeat (rewrite cdiv_ok by auto; cbn [bind]);
        unfold fTM, fTE; cbn -[cz wsrc wgt gam Cmult Cdiv Copp];
        rewrite ?wsrc_cz1, ?wsrc_czm, ?wgt_cz1, ?wgt_czm;
        rewrite ?Cdiv_1_r; apply f_equal; f_equal; try reflexivity; field; auto.
    + generalize (G_mode eH (gam eH eV zH lam) z N (cpm true ab) (csg true ab) s r zs zr xd) as G1.
      intros G1.
      pose proof (mo_eH _ _ _ _ _ _ _ OK) as A1. pose proof (mo_gTM _ _ _ _ _ _ _ OK) as A2.
      pose proof (mo_eV _ _ _ _ _ _ _ OK) as A3.
      each_ab Hab; try discriminate ME; try discriminate MT; unfold green_factors; cbn [inb existsb Z.eqb Pos.eqb orb bind];
        rewrite !idx_arr by lia; cbn [bind]; repeat (rewrite cdiv_ok by auto; cbn [bind]);
        unfold fTM, fTE; cbn -[cz wsrc wgt gam Cmult Cdiv Copp];
        rewrite ?wsrc_cz1, ?wsrc_czm, ?wgt_cz1, ?wgt_czm;
        rewrite ?Cdiv_1_r; apply f_equal; f_equal; try reflexivity; field; auto.
  - cbn [bind]. destruct (mode_used false ab) eqn:ME.
    + rewrite (pass_ok false) by assumption. cbn [bind].
      generalize (G_mode zH (gam zH zV eH lam) z N (cpm false ab) (csg false ab) s r zs zr xd) as G2.
      intros G2.
      pose proof (mo_zH _ _ _ _ _ _ _ OK) as A1. pose proof (mo_gTE _ _ _ _ _ _ _ OK) as A2.
      pose proof (mo_zV _ _ _ _ _ _ _ OK) as A3.
      each_ab Hab; try discriminate ME; try discriminate MT; unfold green_factors; cbn [inb existsb Z.eqb Pos.eqb orb bind];
        rewrite !idx_arr by lia; cbn [bind]; repeat (rewrite cdiv_ok by auto; cbn [bind]);
        unfold fTM, fTE; cbn -[cz wsrc wgt gam Cmult Cdiv Copp];
        rewrite ?wsrc_cz1, ?wsrc_czm, ?wgt_cz1, ?wgt_czm;
        rewrite ?Cdiv_1_r; apply f_equal; f_equal; try reflexivity; field; auto.
    + exfalso. each_ab Hab; discriminate.
Qed.
End Closed.

(** ** Passive media *)
Record passive_medium (eH eV zH zV : nat -> C) (z : nat -> R) (N : nat) : Prop := {
  pme_eH : forall k, (k <= N)%nat -> (0 < fst (eH k))%R;
  pme_eV : forall k, (k <= N)%nat -> (0 < fst (eV k))%R;
  pme_zH : forall k, (k <= N)%nat -> (0 <= fst (zH k))%R;
  pme_zV : forall k, (k <= N)%nat -> (0 <= fst (zV k))%R;
  pme_zH0 : forall k, (k <= N)%nat -> zH k <> 0;
  pme_zV0 : forall k, (k <= N)%nat -> zV k <> 0;
  pme_z : forall k, (1 <= k < N)%nat -> (z k <= z (S k))%R
}.

(** Coefficient w of the mode's differential equations. *)
Definition wmode (v q : nat -> C) (lam : R) (k : nat) : C := RtoC (lam * lam) / v k + q k.

Lemma prod_not_neg : forall a b : C, (0 < fst a)%R -> (0 <= fst b)%R -> b <> 0 ->
  (0 < fst (Cmult a b))%R \/ snd (Cmult a b) <> 0%R.
Proof.
  intros [a1 a2] [b1 b2] Ha Hb H0. simpl in *.
  destruct (Req_dec (a1 * b2 + a2 * b1) 0) as [E|E]; [left|right; exact E].
  assert (B : (0 < b1)%R).
  { destruct Hb as [Hb|Hb]; [exact Hb|]. exfalso. apply H0. subst b1.
    assert (b2 = 0%R). { apply (Rmult_eq_reg_l a1); lra. }
    subst. reflexivity. }
  apply (Rmult_lt_reg_l a1); [exact Ha|].
  replace (a1 * (a1 * b1 - a2 * b2))%R with ((a1 * a1 + a2 * a2) * b1 - a2 * (a1 * b2 + a2 * b1))%R by ring.
  rewrite E. rewrite Rmult_0_r.
  assert (0 < (a1 * a1 + a2 * a2) * b1)%R; [|lra].
  apply Rmult_lt_0_compat; [|exact B]. pose proof (Rle_0_sqr a2). unfold Rsqr in *. nra.
Qed.

Lemma Re_real_div : forall (t : R) (v : C), (0 <= t)%R -> (0 <= fst v)%R -> v <> 0 ->
  (0 <= fst (Cdiv (RtoC t) v))%R /\ ((0 < t)%R -> (0 < fst v)%R -> (0 < fst (Cdiv (RtoC t) v))%R).
Proof.
  intros t v Ht Hv H0. apply Cneq0_norm in H0. destruct v as [a b]. simpl in *.
  replace (t * (a / (a * (a * 1) + b * (b * 1))) - 0 * (- b / (a * (a * 1) + b * (b * 1))))%R
    with (t * a * / (a * a + b * b))%R by (field; lra).
  pose proof (Rinv_0_lt_compat _ H0) as HI. split.
  - apply Rmult_le_pos; [apply Rmult_le_pos|]; lra.
  - intros. apply Rmult_lt_0_compat; [apply Rmult_lt_0_compat|]; lra.
Qed.

Lemma gam_sq : forall (h v q : nat -> C) lam k, v k <> 0 ->
  gam h v q lam k * gam h v q lam k = h k * wmode v q lam k.
Proof. intros. unfold gam. rewrite Csqrt_sqr. unfold wmode. field. assumption. Qed.

Section Passive.
Variables (eH eV zH zV : nat -> C) (z : nat -> R) (N : nat) (lam : R).
Hypothesis PM : passive_medium eH eV zH zV z N.

Lemma pm_eV0 : forall k, (k <= N)%nat -> eV k <> 0.
Proof. intros. apply Re_pos_neq_0. now apply PM. Qed.
Lemma pm_eH0 : forall k, (k <= N)%nat -> eH k <> 0.
Proof. intros. apply Re_pos_neq_0. now apply PM. Qed.
Lemma lam2 : (0 <= lam * lam)%R.
Proof. apply Rle_0_sqr. Qed.

Lemma wTM_nz : forall k, (k <= N)%nat -> (0 <= fst (wmode eV zH lam k))%R /\ wmode eV zH lam k <> 0.
Proof.
  intros k Hk. pose proof (pme_eV _ _ _ _ _ _ PM k Hk) as V.
  pose proof (pme_zH _ _ _ _ _ _ PM k Hk) as Z.
  destruct (Re_real_div (lam * lam) (eV k) lam2 ltac:(lra) (pm_eV0 k Hk)) as [A B].
  split.
  - unfold wmode. cbn [Cplus fst]. change (fst (RtoC (lam * lam) / eV k + zH k))
      with (fst (Cdiv (RtoC (lam * lam)) (eV k)) + fst (zH k))%R. lra.
  - destruct lam2 as [L|L].
    + apply Re_pos_neq_0. change (fst (wmode eV zH lam k))
      with (fst (Cdiv (RtoC (lam * lam)) (eV k)) + fst (zH k))%R. specialize (B L V). lra.
    + unfold wmode. rewrite <- L. replace (0 / eV k + zH k) with (zH k) by (unfold Cdiv; ring).
      now apply PM.
Qed.
Lemma wTE_pos : forall k, (k <= N)%nat -> (0 < fst (wmode zV eH lam k))%R.
Proof.
  intros k Hk. change (fst (wmode zV eH lam k))
      with (fst (Cdiv (RtoC (lam * lam)) (zV k)) + fst (eH k))%R.
  destruct (Re_real_div (lam * lam) (zV k) lam2 (pme_zV _ _ _ _ _ _ PM k Hk) (pme_zV0 _ _ _ _ _ _ PM k Hk)) as [A _].
  pose proof (pme_eH _ _ _ _ _ _ PM k Hk). lra.
Qed.

Lemma passive_TM : passive_mode eH (wmode eV zH lam) (gam eH eV zH lam) z N.
Proof.
  constructor; intros k Hk.
  - left. now apply PM.
  - now apply wTM_nz.
  - destruct (wTM_nz k Hk). pose proof (pme_eH _ _ _ _ _ _ PM k Hk). lra.
  - now apply pm_eH0.
  - apply gam_sq. now apply pm_eV0.
  - unfold gam. apply Csqrt_Re_pos.
    replace (eH k / eV k * RtoC (lam * lam) + zH k * eH k) with (eH k * wmode eV zH lam k)
      by (unfold wmode; field; now apply pm_eV0).
    destruct (wTM_nz k Hk). apply prod_not_neg; auto. now apply PM.
  - now apply PM.
Qed.
Lemma passive_TE : passive_mode zH (wmode zV eH lam) (gam zH zV eH lam) z N.
Proof.
  constructor; intros k Hk.
  - now apply PM.
  - left. now apply wTE_pos.
  - pose proof (wTE_pos k Hk). pose proof (pme_zH _ _ _ _ _ _ PM k Hk). lra.
  - now apply PM.
  - apply gam_sq. now apply PM.
  - unfold gam. apply Csqrt_Re_pos.
    replace (zH k / zV k * RtoC (lam * lam) + eH k * zH k) with (wmode zV eH lam k * zH k)
      by (unfold wmode; field; now apply PM).
    apply prod_not_neg; [now apply wTE_pos|now apply PM|now apply PM].
  - now apply PM.
Qed.

Theorem passive_model_ok : model_ok eH eV zH zV z N lam.
Proof.
  constructor.
  - exact pm_eH0.
  - exact pm_eV0.
  - apply PM.
  - apply PM.
  - exact (pas_gnz _ _ _ _ _ passive_TM).
  - exact (pas_gnz _ _ _ _ _ passive_TE).
  - exact (passive_regular _ _ _ _ _ passive_TM).
  - exact (passive_regular _ _ _ _ _ passive_TE).
Qed.
End Passive.

(** ** Magnetic receivers *)
Lemma greenfct_me : forall eH eV zH zV z N lam ab xd s r zs zr,
  gcall eH eV zH zV z N lam ab xd false true s r zs zr
  = gcall eH eV zH zV z N lam ab xd false false r s zr zs.
Proof. reflexivity. Qed.

Definition oppf (f : nat -> C) (k : nat) : C := - f k.
Lemma map_opp_arr : forall f N, map Copp (arr f N) = arr (oppf f) N.
Proof. intros. unfold arr. rewrite map_map. reflexivity. Qed.
Lemma greenfct_mm0 : forall eH eV zH zV z N lam ab xd s r zs zr,
  gcall eH eV zH zV z N lam ab xd true true s r zs zr
  = gcall (oppf zH) (oppf zV) (oppf eH) (oppf eV) z N lam ab xd true false s r zs zr.
Proof.
  intros. unfold gcall, greenfct. cbn [andb negb]. rewrite !map_opp_arr. reflexivity.
Qed.

Lemma Copp_nz : forall c : C, c <> 0 -> - c <> 0.
Proof. intros c H E. apply H. replace c with (- - c) by ring. rewrite E. ring. Qed.
Lemma gam_opp : forall (h v q : nat -> C) lam k, v k <> 0 ->
  gam (oppf h) (oppf v) (oppf q) lam k = gam h v q lam k.
Proof.
  intros. unfold gam, oppf. apply (f_equal Csqrt).
  replace (- h k / - v k) with (h k / v k); [ring|]. field.
  split; [apply Copp_nz|]; assumption.
Qed.

(** ** Dependence on e up to sign *)
Section Opp.
Variables (e g g' : nat -> C) (z : nat -> R) (N : nat).
Hypothesis Hgg : forall k, (k <= N)%nat -> g' k = g k.
Hypothesis Hden : forall k, (k < N)%nat -> den_rl e g k <> 0.
Notation e' := (oppf e).

Lemma op_rl : forall k, (k < N)%nat -> rl e' g' k = rl e g k.
Proof.
  intros k Hk. pose proof (Hden k Hk) as D. unfold rl, den_rl, oppf in *. rewrite !Hgg by lia.
  assert (D' : - e (S k) * g k + - e k * g (S k) <> 0).
  { intro E. apply D. replace (e (S k) * g k + e k * g (S k)) with (- (- e (S k) * g k + - e k * g (S k))) by ring.
    rewrite E. ring. }
  field. auto.
Qed.
Lemma op_dec : forall k d, (k <= N)%nat -> dec g' k d = dec g k d.
Proof. intros. unfold dec. now rewrite Hgg. Qed.
Lemma op_E1 : forall k, (k <= N)%nat -> E1 g' z k = E1 g z k.
Proof. intros. unfold E1. now apply op_dec. Qed.
Lemma op_E2 : forall k, (k <= N)%nat -> E2 g' z k = E2 g z k.
Proof. intros. unfold E2. now rewrite Hgg. Qed.
Lemma op_RdnF : forall m k, (k + m = N)%nat -> RdnF e' g' z m k = RdnF e g z m k.
Proof.
  induction m; intros k H; cbn [RdnF]; [reflexivity|].
  rewrite op_rl, op_E2, IHm by lia. reflexivity.
Qed.
Lemma op_Rdn : forall k, (k <= N)%nat -> Rdn e' g' z N k = Rdn e g z N k.
Proof. intros. unfold Rdn. apply op_RdnF. lia. Qed.
Lemma op_Rup : forall k, (k <= N)%nat -> Rup e' g' z k = Rup e g z k.
Proof.
  induction k; intros H; cbn [Rup]; [reflexivity|]. rewrite op_rl, op_E2, IHk by lia. reflexivity.
Qed.
Lemma op_Ms : forall k, (k <= N)%nat -> Ms e' g' z N k = Ms e g z N k.
Proof. intros. unfold Ms. now rewrite op_Rup, op_Rdn, op_E2. Qed.
Lemma op_bsd : forall pm k zs, (k <= N)%nat -> bsd e' g' z pm k zs = bsd e g z pm k zs.
Proof. intros. unfold bsd. now rewrite op_Rup, !op_dec. Qed.
Lemma op_bsu : forall pm k zs, (k <= N)%nat -> bsu e' g' z N pm k zs = bsu e g z N pm k zs.
Proof. intros. unfold bsu. now rewrite op_Rdn, !op_dec. Qed.
Lemma op_tdn : forall k, (k < N)%nat -> tdn e' g' z N k = tdn e g z N k.
Proof. intros. unfold tdn. now rewrite !op_Rdn, op_E2 by lia. Qed.
Lemma op_tup : forall k, (k < N)%nat -> tup e' g' z k = tup e g z k.
Proof. intros. unfold tup. now rewrite !op_Rup, op_E2 by lia. Qed.

Lemma G_mode_opp : forall pm sg s r zs zr xd, (s <= N)%nat -> (r <= N)%nat ->
  G_mode e' g' z N pm sg s r zs zr xd = G_mode e g z N pm sg s r zs zr xd.
Proof.
  intros pm sg s r zs zr xd Hs Hr. unfold G_mode, G_same, G_dir, G_up, G_dn, amp_up, amp_dn.
  rewrite !op_Rdn, !op_Rup, !op_Ms, !op_bsd, !op_bsu, !op_dec, !op_E1 by assumption.
  destruct (Nat.eqb_spec s r) as [|Hne]; [reflexivity|].
  destruct (Nat.ltb_spec r s) as [L|L].
  - rewrite (op_tup (s - 1)) by lia.
    rewrite (prodC_ext _ (fun k => E1 g z k * tup e g z (k - 1))).
    + reflexivity.
    + intros k Hk. rewrite op_E1, op_tup by lia. reflexivity.
  - rewrite (op_tdn s) by lia.
    rewrite (prodC_ext _ (fun k => E1 g z k * tdn e g z N k)).
    + reflexivity.
    + intros k Hk. rewrite op_E1, op_tdn by lia. reflexivity.
Qed.

Lemma regular_opp : regular e g z N -> regular e' g' z N.
Proof.
  intros R. constructor; intros k Hk.
  - intro E. apply (Hden k Hk). unfold den_rl, oppf in *. rewrite !Hgg in E by lia.
    replace (e (S k) * g k + e k * g (S k)) with (- (- e (S k) * g k + - e k * g (S k))) by ring.
    rewrite E. ring.
  - unfold den_dn. rewrite op_rl, op_Rdn, op_E2 by lia. now apply R.
  - unfold den_up. rewrite op_rl, op_Rup, op_E2 by lia. now apply R.
  - rewrite op_Rdn, op_E2 by lia. now apply R.
  - rewrite op_Rup, op_E2 by lia. now apply R.
  - rewrite op_Rup, op_Rdn, op_E2 by lia. now apply R.
Qed.
End Opp.

Lemma oppf_nz : forall (f : nat -> C) k, f k <> 0 -> oppf f k <> 0.
Proof. intros f k H E. apply H. unfold oppf in E. replace (f k) with (- - f k) by ring. rewrite E. ring. Qed.

Lemma model_ok_opp : forall eH eV zH zV z N lam, model_ok eH eV zH zV z N lam ->
  model_ok (oppf zH) (oppf zV) (oppf eH) (oppf eV) z N lam.
Proof.
  intros eH eV zH zV z N lam OK.
  assert (A : forall k, (k <= N)%nat -> gam (oppf zH) (oppf zV) (oppf eH) lam k = gam zH zV eH lam k).
  { intros. apply gam_opp. now apply OK. }
  assert (B : forall k, (k <= N)%nat -> gam (oppf eH) (oppf eV) (oppf zH) lam k = gam eH eV zH lam k).
  { intros. apply gam_opp. now apply OK. }
  constructor; intros.
  - apply oppf_nz. now apply OK.
  - apply oppf_nz. now apply OK.
  - apply oppf_nz. now apply OK.
  - apply oppf_nz. now apply OK.
  - rewrite A by assumption. now apply OK.
  - rewrite B by assumption. now apply OK.
  - eapply regular_opp; [exact A| |apply OK]. apply OK.
  - eapply regular_opp; [exact B| |apply OK]. apply OK.
Qed.

Lemma model_ok_swap : forall eH eV zH zV z N lam, model_ok eH eV zH zV z N lam ->
  model_ok zH zV eH eV z N lam.
Proof. intros eH eV zH zV z N lam OK. constructor; apply OK. Qed.

(** Components of the electric-electric type. *)
Definition ee_abs : list Z := [11; 12; 13; 21; 22; 23; 31; 32; 33]%Z.
Lemma ee_kernel : forall ab, In ab ee_abs -> In ab kernel_abs.
Proof. intros ab H. unfold ee_abs, kernel_abs in *. cbn [In] in *. tauto. Qed.

Lemma PTM_opp : forall eH eV zH zV z N lam ab xd s r zs zr, model_ok eH eV zH zV z N lam ->
  In ab ee_abs -> (s <= N)%nat -> (r <= N)%nat ->
  PTM (oppf eH) (oppf eV) (oppf zH) z N lam ab xd s r zs zr
  = - PTM eH eV zH z N lam ab xd s r zs zr.
Proof.
  intros eH eV zH zV z N lam ab xd s r zs zr OK Hab Hs Hr.
  assert (B : forall k, (k <= N)%nat -> gam (oppf eH) (oppf eV) (oppf zH) lam k = gam eH eV zH lam k).
  { intros. apply gam_opp. now apply OK. }
  unfold PTM. destruct (mode_used true ab); [|ring].
  rewrite (G_mode_opp eH _ _ z N B) by (try assumption; apply OK).
  generalize (G_mode eH (gam eH eV zH lam) z N (cpm true ab) (csg true ab) s r zs zr xd). intros G.
  pose proof (mo_eH _ _ _ _ _ _ _ OK) as A1. pose proof (mo_gTM _ _ _ _ _ _ _ OK) as A2.
  pose proof (mo_eV _ _ _ _ _ _ _ OK) as A3.
  assert (NZ : forall (f : nat -> C) k, f k <> 0 -> - f k <> 0) by exact oppf_nz.
  unfold fTM. cbn [ee_abs In] in Hab.
  repeat (destruct Hab as [Hab|Hab]; [subst|]); [..|contradiction];
    cbn -[cz wsrc wgt gam Cmult Cdiv Copp oppf];
    rewrite ?wsrc_cz1, ?wsrc_czm, ?wgt_cz1, ?wgt_czm, ?B by assumption; unfold oppf;
    rewrite ?Cdiv_1_r; field; repeat split; auto.
Qed.
Lemma PTE_opp : forall eH eV zH zV z N lam ab xd s r zs zr, model_ok eH eV zH zV z N lam ->
  In ab ee_abs -> (s <= N)%nat -> (r <= N)%nat ->
  PTE (oppf zH) (oppf zV) (oppf eH) z N lam ab xd s r zs zr
  = - PTE zH zV eH z N lam ab xd s r zs zr.
Proof.
  intros eH eV zH zV z N lam ab xd s r zs zr OK Hab Hs Hr.
  assert (B : forall k, (k <= N)%nat -> gam (oppf zH) (oppf zV) (oppf eH) lam k = gam zH zV eH lam k).
  { intros. apply gam_opp. now apply OK. }
  unfold PTE. destruct (mode_used false ab) eqn:ME; [|ring].
  rewrite (G_mode_opp zH _ _ z N B) by (try assumption; apply OK).
  generalize (G_mode zH (gam zH zV eH lam) z N (cpm false ab) (csg false ab) s r zs zr xd). intros G.
  pose proof (mo_zH _ _ _ _ _ _ _ OK) as A1. pose proof (mo_gTE _ _ _ _ _ _ _ OK) as A2.
  assert (NZ : forall (f : nat -> C) k, f k <> 0 -> - f k <> 0) by exact oppf_nz.
  unfold fTE. cbn [ee_abs In] in Hab.
  repeat (destruct Hab as [Hab|Hab]; [subst|]); [..|contradiction]; try discriminate ME;
    cbn -[cz wsrc wgt gam Cmult Cdiv Copp oppf];
    rewrite ?wsrc_cz1, ?wsrc_czm, ?wgt_cz1, ?wgt_czm, ?B by assumption; unfold oppf;
    rewrite ?Cdiv_1_r; field; repeat split; auto.
Qed.

(** Magnetic source and receiver: the negated electric response of the medium
    with eta and zeta exchanged. *)
Theorem greenfct_mm : forall eH eV zH zV z N lam ab xd s r zs zr, model_ok eH eV zH zV z N lam ->
  In ab ee_abs -> (s <= N)%nat -> (r <= N)%nat ->
  gcall eH eV zH zV z N lam ab xd true true s r zs zr
  = Ok (- PTM zH zV eH z N lam ab xd s r zs zr, - PTE eH eV zH z N lam ab xd s r zs zr).
Proof.
  intros eH eV zH zV z N lam ab xd s r zs zr OK Hab Hs Hr. rewrite greenfct_mm0.
  rewrite greenfct_ee; [|apply model_ok_opp; exact OK|apply ee_kernel; exact Hab|exact Hs|exact Hr].
  pose proof (model_ok_swap _ _ _ _ _ _ _ OK) as OK'.
  rewrite (PTM_opp zH zV eH eV) by assumption. rewrite (PTE_opp zH zV eH eV) by assumption. reflexivity.
Qed.
