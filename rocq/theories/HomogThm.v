(** The space-domain value of the wavenumber-domain kernel (its Hankel transform as an improper
    integral), its relation to kernel.fullspace, and the direct-field switch in the space domain. *)

From Coq Require Import Reals ZArith List Bool Lia Lra Psatz QArith.
From Coquelicot Require Import Coquelicot.
From Verif Require Import PyBase CBase Kernel KernelSpec KernelPhys KernelClosed KernelPassive KernelSym KernelSplit KernelBVP KernelMain KernelThm KernelThm2 ODE Bessel KernelBessel UtilsAb KernelFinal Fullspace FullspaceThm FullspaceMaxwell FullspaceCurl FullspaceField FullspaceEM Cint Hankel Sommer Sommer2 Sommer3 Homog.
Import ListNotations.
Local Open Scope R_scope.
Local Open Scope C_scope.
Local Open Scope res_scope.

(** V is the integral over all wavenumbers of what kernel.wavenumber returns for a source-receiver
    pair of the given component code, horizontal distance and angle. *)
Definition hankel_value (eH eV zH zV : nat -> C) (z : nat -> R) (N : nat) (raw : Z) (xd : bool) (off phi zs zr : R) (V : C) : Prop :=
  exists ab ms mr F, check_ab (AbNum (inject_Z raw)) = Ok (ab, ms, mr) /\
    (forall lam, exists PJ, wcall eH eV zH zV z N lam ab xd ms mr (lay z N zs) (lay z N zr) zs zr = Ok PJ /\
       F lam = bessel_sum ab lam off (ang_exact (eval_angle phi ms mr) ab) PJ) /\
    improper F V.

Lemma improper_unique : forall F a b, improper F a -> improper F b -> a = b.
Proof. intros F a b [_ A] [_ B]. exact (limC_unique _ _ _ _ A B). Qed.
Lemma hankel_unique : forall eH eV zH zV z N raw xd off phi zs zr V V',
  hankel_value eH eV zH zV z N raw xd off phi zs zr V -> hankel_value eH eV zH zV z N raw xd off phi zs zr V' -> V = V'.
Proof.
  intros eH eV zH zV z N raw xd off phi zs zr V V' (ab & ms & mr & F & A & B & I) (ab' & ms' & mr' & F' & A' & B' & I').
  rewrite A in A'. assert (X : (ab, ms, mr) = (ab', ms', mr')) by congruence. injection X as <- <- <-.
  apply (improper_unique F); [exact I|]. apply (improper_ext F F'); [|exact I']. intros x _.
  destruct (B x) as [P [E1 E2]], (B' x) as [P' [E1' E2']]. rewrite E1 in E1'. assert (P = P') by congruence. subst. now rewrite E2, E2'.
Qed.

Record homog_medium (eH eV zH zV : C) : Prop := {
  hm_eH : (0 < fst eH /\ 0 <= snd eH)%R; hm_eV : (0 < fst eV /\ 0 <= snd eV)%R;
  hm_zH : quad1 zH; hm_zV : quad1 zV; hm_z : (0 < fst (zH / zV)%C)%R }.

Lemma re_pos_quad1 : forall c, (0 < fst c /\ 0 <= snd c)%R -> quad1 c.
Proof. intros c [A B]. repeat split; [lra|exact B|now apply Re_pos_nz]. Qed.
Lemma ratio_pos : forall a b, (0 < fst a /\ 0 <= snd a)%R -> (0 < fst b /\ 0 <= snd b)%R -> (0 < fst (a / b)%C)%R.
Proof.
  intros [a1 a2] [b1 b2] [A1 A2] [B1 B2]. cbn [fst snd] in *. unfold Cdiv, Cinv, Cmult. cbn [fst snd].
  replace (a1 * (b1 / (b1 ^ 2 + b2 ^ 2)) - a2 * (- b2 / (b1 ^ 2 + b2 ^ 2)))%R with ((a1 * b1 + a2 * b2) / (b1 ^ 2 + b2 ^ 2))%R by (field; nra).
  apply Rdiv_lt_0_compat; nra.
Qed.
Lemma prod_offcut : forall a b, quad1 a -> (0 < fst b /\ 0 <= snd b)%R -> offcut (a * b).
Proof.
  intros [a1 a2] [b1 b2] (A1 & A2 & A3) [B1 B2]. unfold offcut. cbn [fst snd Cmult] in *.
  destruct (Req_dec a2 0) as [-> | N].
  - left. assert (a1 <> 0)%R by (intros ->; apply A3; reflexivity). nra.
  - right. nra.
Qed.

Section M.
Variables (eH eV zH zV : C) (off : R).
Hypothesis HM : homog_medium eH eV zH zV.
Hypothesis Ho : (0 < off)%R.
Lemma core_direct : forall phi zs zr zz ab, zs <> zr -> In ab kernel_abs ->
  improper (FF eH eV zH zV phi off zs zr zz ab) (fsv eH eV zH zV (cos phi * off) (sin phi * off) (zr - zs) ab).
Proof using All.
  intros phi zs zr zz ab Hz Hab. destruct HM as [A1 A2 A3 A4 A5].
  apply homog_core; try assumption; try (now apply re_pos_quad1); try (now apply ratio_pos).
  - now apply prod_offcut.
  - replace (eH * zV) with (zV * eH) by ring. now apply prod_offcut.
Qed.
Lemma core_dual : forall phi zs zr zz ab, zs <> zr -> In ab kernel_abs ->
  improper (FF zH zV eH eV phi off zs zr zz ab) (fsv zH zV eH eV (cos phi * off) (sin phi * off) (zr - zs) ab).
Proof using All.
  intros phi zs zr zz ab Hz Hab. destruct HM as [A1 A2 A3 A4 A5].
  apply homog_core; try assumption; try (now apply re_pos_quad1); try (now apply ratio_pos).
  - replace (eH * zV) with (zV * eH) by ring. now apply prod_offcut.
  - now apply prod_offcut.
Qed.
End M.

Lemma improper_opp : forall F v, improper F v -> improper (fun x => - F x) (- v).
Proof.
  intros F v [E L]. split.
  - intros T HT. destruct (E T HT) as [E1 E2]. split; [apply (ex_RInt_ext (fun x => (- fst (F x))%R))|apply (ex_RInt_ext (fun x => (- snd (F x))%R))]; try (intros; reflexivity); apply (ex_RInt_opp (V := R_NormedModule)); assumption.
  - replace (- v) with (- RtoC 1 * v) by ring. eapply limC_ext_loc; [|apply (limC_scal (- RtoC 1)); exact L]. exists 0%R. intros T HT. destruct (E T ltac:(lra)) as [E1 E2].
    transitivity (- CI F 0 T); [ring|]. unfold CI. unfold Copp. cbn [fst snd].
    apply injective_projections; cbn [fst snd]; symmetry; [exact (RInt_opp (V := R_CompleteNormedModule) (fun x => fst (F x)) 0 T E1)|exact (RInt_opp (V := R_CompleteNormedModule) (fun x => snd (F x)) 0 T E2)].
Qed.
Lemma improper_plus : forall F G v w, improper F v -> improper G w -> improper (fun x => F x + G x) (v + w).
Proof.
  intros F G v w [E L] [E' L']. split.
  - intros T HT. destruct (E T HT) as [E1 E2], (E' T HT) as [E3 E4]. split; [exact (ex_RInt_plus (V := R_NormedModule) _ _ _ _ E1 E3)|exact (ex_RInt_plus (V := R_NormedModule) _ _ _ _ E2 E4)].
  - eapply limC_ext_loc; [|exact (limC_plus _ _ _ _ L L')]. exists 0%R. intros T HT. destruct (E T ltac:(lra)) as [E1 E2], (E' T ltac:(lra)) as [E3 E4].
    unfold CI, Cplus. apply injective_projections; cbn [fst snd]; symmetry; [exact (RInt_plus (V := R_CompleteNormedModule) (fun x => fst (F x)) (fun x => fst (G x)) 0 T E1 E3)|exact (RInt_plus (V := R_CompleteNormedModule) (fun x => snd (F x)) (fun x => snd (G x)) 0 T E2 E4)].
Qed.

(** ** Homogeneous media *)
Lemma pair_class : forall a b, fs_pair a b ->
  (exists ab, check_ab (AbNum (inject_Z (10 * a + b))) = Ok (ab, (3 <? b)%Z, (3 <? a)%Z) /\
    ((a <= 3)%Z -> In ab kernel_abs) /\ ((3 < a)%Z -> (b <= 3)%Z -> In ab kernel_abs) /\
    ((3 < a)%Z -> (3 < b)%Z -> In ab ee_abs /\ ab = (10 * (a - 3) + (b - 3))%Z)).
Proof.
  intros a b H. apply fs_pair_in in H. cbn in H.
  decompose [or] H; try contradiction; match goal with E : (_, _) = (a, b) |- _ => injection E as <- <- end; eexists; (split; [reflexivity|]); (split; [|split]); intros; try lia; try (vm_compute; tauto); (split; [vm_compute; tauto|reflexivity]).
Qed.
Lemma fs_ee : forall rdt a b off phi zs zr eH eV zH zV, (1 <= a <= 3)%Z -> (1 <= b <= 3)%Z -> quad1 eH -> quad1 eV -> quad1 zH -> quad1 zV -> off <> 0%R ->
  fs_comp rdt false a b off phi zs zr eH eV zH zV = Ok (fsv eH eV zH zV (cos phi * off) (sin phi * off) (zr - zs) (10 * a + b)).
Proof.
  intros rdt a b off phi zs zr eH eV zH zV Ha Hb Q1 Q2 Q3 Q4 Ho.
  assert (E : check_ab (AbNum (inject_Z (10 * a + b))) = Ok ((10 * a + b)%Z, false, false) /\ In (10 * a + b)%Z kernel_abs).
  { assert (a = 1 \/ a = 2 \/ a = 3)%Z as [-> | [-> | ->]] by lia; assert (b = 1 \/ b = 2 \/ b = 3)%Z as [-> | [-> | ->]] by lia; (split; [reflexivity|vm_compute; tauto]). }
  destruct E as [E I]. unfold fs_comp. rewrite E. cbn [bind]. unfold fullspace. now apply fs_value.
Qed.

Lemma cst_passive : forall eH eV zH zV z N, homog_medium eH eV zH zV -> increasing z N -> passive_medium (cst eH) (cst eV) (cst zH) (cst zV) z N.
Proof.
  intros eH eV zH zV z N [A1 A2 A3 A4 A5] HI. constructor; intros; unfold cst; try apply A1; try apply A2; try apply A3; try apply A4. left. now apply HI.
Qed.

Theorem homog_value : forall rdt a b eH eV zH zV z N off phi zs zr etas zetas,
  homog_medium eH eV zH zV -> increasing z N -> zs <> zr -> (0 < off)%R -> fs_pair a b ->
  (forall c, In c zetas -> 0 <= snd c)%R ->
  ((3 < a)%Z -> (3 < b)%Z -> rdt = false /\ In eH etas /\ (forall e, In e etas -> 0 < snd e)%R /\ (0 < snd zH)%R) ->
  exists V, fs_comp rdt (fs_anyneg (3 <? b)%Z (3 <? a)%Z etas zetas) a b off phi zs zr eH eV zH zV = Ok V /\
    hankel_value (cst eH) (cst eV) (cst zH) (cst zV) z N (10 * a + b) false off phi zs zr V.
Proof.
  intros rdt a b eH eV zH zV z N off phi zs zr etas zetas HM HI Hz Ho HP HZ HX.
  destruct (pair_class a b HP) as (ab & CA & K1 & K2 & K3).
  pose proof (re_pos_quad1 _ (hm_eH _ _ _ _ HM)) as Q1. pose proof (re_pos_quad1 _ (hm_eV _ _ _ _ HM)) as Q2.
  pose proof (hm_zH _ _ _ _ HM) as Q3. pose proof (hm_zV _ _ _ _ HM) as Q4.
  assert (Ho' : off <> 0%R) by lra.
  assert (VC : valid_call ab (3 <? b)%Z (3 <? a)%Z).
  { unfold valid_call. destruct (Z.ltb_spec 3 a); destruct (Z.ltb_spec 3 b); cbn [andb]; first [apply K3; lia|apply K2; lia|apply K1; lia]. }
  assert (KA : In ab kernel_abs). { unfold valid_call in VC. destruct (_ && _); [now apply ee_kernel|exact VC]. }
  assert (WC : forall lam, wcall (cst eH) (cst eV) (cst zH) (cst zV) z N lam ab false (3 <? b)%Z (3 <? a)%Z (lay z N zs) (lay z N zr) zs zr =
    Ok (collect ab (3 <? a)%Z lam (fst (resp (cst eH) (cst eV) (cst zH) (cst zV) z 0 lam ab false (3 <? b)%Z (3 <? a)%Z 0 0 zs zr)) (snd (resp (cst eH) (cst eV) (cst zH) (cst zV) z 0 lam ab false (3 <? b)%Z (3 <? a)%Z 0 0 zs zr)))).
  { intros lam. rewrite wcall_gcall. rewrite uniform_fullspace; try assumption; try apply HM; try apply Q3; try apply Q4.
    rewrite gcall_resp; [|apply passive_model_ok, cst_passive; [exact HM|intros k Hk; lia]|exact VC|lia|lia].
    cbn [bind]. destruct (resp _ _ _ _ _ _ _ _ _ _ _ _ _ _ _) as [p q]. reflexivity. }
  assert (IM : forall V, improper (fun lam => bessel_sum ab lam off (ang_exact (eval_angle phi (3 <? b)%Z (3 <? a)%Z) ab) (collect ab (3 <? a)%Z lam (fst (resp (cst eH) (cst eV) (cst zH) (cst zV) z 0 lam ab false (3 <? b)%Z (3 <? a)%Z 0 0 zs zr)) (snd (resp (cst eH) (cst eV) (cst zH) (cst zV) z 0 lam ab false (3 <? b)%Z (3 <? a)%Z 0 0 zs zr)))) V ->
    hankel_value (cst eH) (cst eV) (cst zH) (cst zV) z N (10 * a + b) false off phi zs zr V).
  { intros V HV. exists ab, (3 <? b)%Z, (3 <? a)%Z. eexists. split; [exact CA|]. split; [|exact HV]. intros lam. eexists. split; [exact (WC lam)|reflexivity]. }
  destruct (Z.ltb_spec 3 a) as [La|La].
  - destruct (Z.ltb_spec 3 b) as [Lb|Lb].
    + destruct (HX La Lb) as (-> & I1 & I2 & I3). destruct (K3 La Lb) as [KE AB].
      exists (fsv zH zV eH eV (cos phi * off) (sin phi * off) (zr - zs) ab). split.
      * pose proof (fs_dual_mm (a - 3) (b - 3) off phi zs zr eH eV zH zV etas zetas ltac:(destruct HP; lia) ltac:(destruct HP; lia) I1 I2 I3) as DU.
        replace (a - 3 + 3)%Z with a in DU by ring. replace (b - 3 + 3)%Z with b in DU by ring. rewrite DU.
        replace (fs_anyneg false false zetas etas) with false.
        { rewrite AB. apply fs_ee; try assumption; destruct HP; lia. }
        { symmetry. unfold fs_anyneg. cbn [andb]. apply anyneg_false. intros c Hc. specialize (I2 c Hc). lra. }
      * apply IM. refine (improper_ext _ _ _ _ (core_dual eH eV zH zV off HM Ho phi zs zr z ab Hz KA)). intros lam _. unfold FF, resp, eval_angle. cbn [fst snd andb negb].
        f_equal. now apply collect_opp.
    + exists (- fsv eH eV zH zV (cos (phi + PI) * off) (sin (phi + PI) * off) (zs - zr) ab). split.
      * unfold fs_comp. rewrite CA. cbn [bind]. unfold fullspace, fs_anyneg. cbn [andb]. rewrite (anyneg_false zetas HZ).
        pose proof (fs_value rdt off (phi + PI) zr zs eH eV zH zV ab Q1 Q2 Q3 Q4 Ho' KA) as FV.
        rewrite (neg_cos phi), (neg_sin phi) in FV |- *. replace (- (cos phi * off))%R with (- cos phi * off)%R by ring. replace (- (sin phi * off))%R with (- sin phi * off)%R by ring.
        rewrite FV. reflexivity.
      * apply IM. refine (improper_ext _ _ _ _ (improper_opp _ _ (core_direct eH eV zH zV off HM Ho (phi + PI) zr zs z ab (fun E => Hz (eq_sym E)) KA))). intros lam _. unfold FF, resp, eval_angle. cbn [fst snd andb negb].
        now apply collect_mrec.
  - exists (fsv eH eV zH zV (cos phi * off) (sin phi * off) (zr - zs) ab). split.
    + unfold fs_comp. rewrite CA. cbn [bind]. unfold fullspace, fs_anyneg. rewrite ?andb_false_l. rewrite (anyneg_false zetas HZ). now apply fs_value.
    + apply IM. refine (improper_ext _ _ _ _ (core_direct eH eV zH zV off HM Ho phi zs zr z ab Hz KA)). intros lam _. reflexivity.
Qed.

(** ** The direct-field switch in the space domain *)
Lemma bessel_add : forall ab mr lam off A (p q p' q' : C), In ab kernel_abs ->
  bessel_sum ab lam off A (collect ab mr lam (p + p') (q + q')) = bessel_sum ab lam off A (collect ab mr lam p q) + bessel_sum ab lam off A (collect ab mr lam p' q').
Proof.
  intros ab mr lam off A p q p' q' Hab.
  each_ab Hab; destruct mr; unfold bessel_sum, collect, Cdiv; cbv [inb existsb Z.eqb Pos.eqb orb andb negb oz]; match goal with |- ?a = ?b => change (@eq C a b) end; ring.
Qed.

Theorem direct_value : forall rdt a b eH eV zH zV z N off phi zs zr etas zetas,
  passive_medium eH eV zH zV z N -> zs <> zr -> (0 < off)%R -> fs_pair a b ->
  lay z N zs = lay z N zr -> let s := lay z N zs in
  homog_medium (eH s) (eV s) (zH s) (zV s) ->
  (forall c, In c zetas -> 0 <= snd c)%R ->
  ((3 < a)%Z -> (3 < b)%Z -> rdt = false /\ In (eH s) etas /\ (forall e, In e etas -> 0 < snd e)%R /\ (0 < snd (zH s))%R) ->
  exists W, fs_comp rdt (fs_anyneg (3 <? b)%Z (3 <? a)%Z etas zetas) a b off phi zs zr (eH s) (eV s) (zH s) (zV s) = Ok W /\
    forall V, hankel_value eH eV zH zV z N (10 * a + b) true off phi zs zr V <->
              hankel_value eH eV zH zV z N (10 * a + b) false off phi zs zr (V + W).
Proof.
  intros rdt a b eH eV zH zV z N off phi zs zr etas zetas PM Hz Ho HP HL s HM HZ HX.
  assert (HI0 : increasing z 0) by (intros k Hk; lia).
  destruct (homog_value rdt a b (eH s) (eV s) (zH s) (zV s) z 0 off phi zs zr etas zetas HM HI0 Hz Ho HP HZ HX) as (W & FS & (ab & ms & mr & F0 & CA & B0 & I0)).
  exists W. split; [exact FS|]. 
  assert (KA : In ab kernel_abs /\ valid_call ab ms mr).
  { destruct (pair_class a b HP) as (ab' & CA' & K1 & K2 & K3). rewrite CA in CA'. assert (X : (ab, ms, mr) = (ab', (3 <? b)%Z, (3 <? a)%Z)) by congruence. injection X as -> -> ->.
    unfold valid_call. destruct (Z.ltb_spec 3 a); destruct (Z.ltb_spec 3 b); cbn [andb]; split; first [apply K3; lia|apply ee_kernel, K3; lia|apply K2; lia|apply K1; lia]. }
  destruct KA as [KA VC].
  assert (LS : (s <= N)%nat) by apply lay_le.
  assert (KEY : forall lam, exists PJ PJ', wcall eH eV zH zV z N lam ab true ms mr (lay z N zs) (lay z N zr) zs zr = Ok PJ /\
     wcall eH eV zH zV z N lam ab false ms mr (lay z N zs) (lay z N zr) zs zr = Ok PJ' /\
     forall A, exists PJ0, wcall (cst (eH s)) (cst (eV s)) (cst (zH s)) (cst (zV s)) z 0 lam ab false ms mr (lay z 0 zs) (lay z 0 zr) zs zr = Ok PJ0 /\
       bessel_sum ab lam off A PJ' = bessel_sum ab lam off A PJ + bessel_sum ab lam off A PJ0).
  { intros lam. rewrite <- HL. fold s. rewrite !wcall_gcall.
    pose proof (proj1 (direct_switch eH eV zH zV z N lam ab ms mr s s zs zr PM VC LS LS) eq_refl) as DS.
    destruct (passive_total eH eV zH zV z N lam ab true ms mr s s zs zr PM VC LS LS) as [p [q E1]].
    assert (PM0 : passive_medium (cst (eH s)) (cst (eV s)) (cst (zH s)) (cst (zV s)) z 0) by now apply cst_passive.
    destruct (passive_total (cst (eH s)) (cst (eV s)) (cst (zH s)) (cst (zV s)) z 0 lam ab false ms mr 0 0 zs zr PM0 VC (le_n 0) (le_n 0)) as [p0 [q0 E2]].
    change (only s eH) with (cst (eH s)) in DS. change (only s eV) with (cst (eV s)) in DS. change (only s zH) with (cst (zH s)) in DS. change (only s zV) with (cst (zV s)) in DS.
    rewrite DS, E1, E2. cbn [add2 bind]. do 2 eexists. split; [reflexivity|]. split; [reflexivity|]. intros A.
    change (lay z 0 zs) with 0%nat. change (lay z 0 zr) with 0%nat. rewrite E2. cbn [bind]. eexists. split; [reflexivity|]. now apply bessel_add. }
  intros V. split.
  - intros (ab' & ms' & mr' & F & CA' & B & I). rewrite CA in CA'. assert (X : (ab, ms, mr) = (ab', ms', mr')) by congruence. injection X as <- <- <-.
    exists ab, ms, mr, (fun lam => F lam + F0 lam). split; [exact CA|]. split; [|now apply improper_plus].
    intros lam. destruct (KEY lam) as (PJ & PJ' & E1 & E2 & E3). destruct (B lam) as (Q & EQ & EF). destruct (B0 lam) as (Q0 & EQ0 & EF0). rewrite E1 in EQ. assert (PJ = Q) by congruence. subst Q.
    destruct (E3 (ang_exact (eval_angle phi ms mr) ab)) as (Q0' & EQ0' & S). rewrite EQ0' in EQ0. assert (Q0' = Q0) by congruence. subst Q0'.
    exists PJ'. split; [exact E2|]. now rewrite S, EF, EF0.
  - intros (ab' & ms' & mr' & F & CA' & B & I). rewrite CA in CA'. assert (X : (ab, ms, mr) = (ab', ms', mr')) by congruence. injection X as <- <- <-.
    exists ab, ms, mr, (fun lam => F lam + - F0 lam). split; [exact CA|]. split; [|replace V with (V + W + - W) by ring; apply improper_plus; [exact I|now apply improper_opp]].
    intros lam. destruct (KEY lam) as (PJ & PJ' & E1 & E2 & E3). destruct (B lam) as (Q & EQ & EF). destruct (B0 lam) as (Q0 & EQ0 & EF0). rewrite E2 in EQ. assert (PJ' = Q) by congruence. subst Q.
    destruct (E3 (ang_exact (eval_angle phi ms mr) ab)) as (Q0' & EQ0' & S). rewrite EQ0' in EQ0. assert (Q0' = Q0) by congruence. subst Q0'.
    exists PJ. split; [exact E1|]. rewrite EF, EF0, S. ring.
Qed.
Theorem direct_other : forall raw eH eV zH zV z N off phi zs zr V ab ms mr,
  passive_medium eH eV zH zV z N -> check_ab (AbNum (inject_Z raw)) = Ok (ab, ms, mr) -> valid_call ab ms mr -> lay z N zs <> lay z N zr ->
  hankel_value eH eV zH zV z N raw true off phi zs zr V <-> hankel_value eH eV zH zV z N raw false off phi zs zr V.
Proof.
  intros raw eH eV zH zV z N off phi zs zr V ab ms mr PM CA VC HL.
  assert (K : forall lam, wcall eH eV zH zV z N lam ab true ms mr (lay z N zs) (lay z N zr) zs zr = wcall eH eV zH zV z N lam ab false ms mr (lay z N zs) (lay z N zr) zs zr).
  { intros lam. rewrite !wcall_gcall. now rewrite (proj2 (direct_switch eH eV zH zV z N lam ab ms mr _ _ zs zr PM VC (lay_le z N zs) (lay_le z N zr)) HL). }
  split; intros (ab' & ms' & mr' & F & CA' & B & I); rewrite CA in CA'; assert (X : (ab, ms, mr) = (ab', ms', mr')) by congruence; injection X as <- <- <-;
  exists ab, ms, mr, F; (split; [exact CA|]); (split; [|exact I]); intros lam; destruct (B lam) as (Q & E1 & E2); exists Q; (split; [|exact E2]); [now rewrite <- K|now rewrite K].
Qed.
