(** The power that a source gives to a passive layered medium. *)

From Coq Require Import Reals ZArith List Bool Lia Lra Psatz.
From Coquelicot Require Import Coquelicot.
From Verif Require Import PyBase CBase Kernel KernelSpec KernelClosed KernelPhys KernelPassive KernelMain KernelBVP KernelThm KernelThm2 KernelFinal.
Import ListNotations.
Local Open Scope R_scope.
Local Open Scope C_scope.

Lemma Re_inv : forall c : C, (0 < fst c)%R -> (0 < fst (/ c)%C)%R.
Proof.
  intros [a b] H. cbn [fst] in H. unfold Cinv. cbn [fst snd]. apply Rdiv_lt_0_compat; [exact H|]. cbn [pow]. nra.
Qed.
Lemma Re_nz : forall c : C, (0 < fst c)%R -> c <> 0.
Proof. intros c H ->. cbn in H. lra. Qed.
Lemma dec_0 : forall g k, dec g k 0 = 1.
Proof. intros. unfold dec. apply injective_projections; cbn; rewrite Rmult_0_r, Rmult_0_r, ?Rminus_0_r, ?Rplus_0_r, Ropp_0, exp_0, ?cos_0, ?sin_0; ring. Qed.
Lemma dec_add : forall g k a b, dec g k a * dec g k b = dec g k (a + b).
Proof. intros. unfold dec. rewrite <- Cexp_plus. f_equal. rewrite RtoC_plus. ring. Qed.

Lemma two2 : RtoC 2 = 1 + 1.
Proof. apply injective_projections; cbn; ring. Qed.
Lemma Ci1 : / RtoC 1 = 1.
Proof. apply injective_projections; cbn; field. Qed.

(** Depth x is in layer k, or on one of its interfaces. *)
Definition within (z : nat -> R) (N k : nat) (x : R) : Prop := (k <= N)%nat /\ (k = 0%nat \/ (z k <= x)%R) /\ (k = N \/ (x <= z (S k))%R).

Section Mode.
Variables (e w g : nat -> C) (z : nat -> R) (N : nat).
Hypothesis PAS : passive_mode e w g z N.
Variables (k : nat) (x : R).
Hypothesis HX : within z N k x.
Notation y := (g k / e k).
(** Reflections of the stacks below and above, seen from the depth x. *)
Definition rd : C := Rdn e g z N k * Cexp (- (2 * g k * RtoC (z (S k) - x))).
Definition ru : C := Rup e g z k * Cexp (- (2 * g k * RtoC (x - z k))).
Lemma flow_rd : (0 < pflow y rd)%R.
Proof using PAS HX.
  destruct HX as (Hk & _ & H2). destruct (Nat.eq_dec k N) as [E|NE].
  - unfold rd. replace (Rdn e g z N k) with (RtoC 0) by (rewrite E; symmetry; apply Rdn_N). replace (0 * _) with (RtoC 0) by ring. eapply pflow_0; eauto.
  - destruct H2 as [H2|H2]; [lia|]. apply pflow_prop; [eapply pas_y; eauto|apply (pas_g _ _ _ _ _ PAS); exact Hk|eapply pas_gy; eauto|lra|eapply pas_Rdn; eauto].
Qed.
Lemma flow_ru : (0 < pflow y ru)%R.
Proof using PAS HX.
  destruct HX as (Hk & H1 & _). destruct (Nat.eq_dec k 0) as [E|NE].
  - unfold ru. replace (Rup e g z k) with (RtoC 0) by (rewrite E; reflexivity). replace (0 * _) with (RtoC 0) by ring. eapply pflow_0; eauto.
  - destruct H1 as [H1|H1]; [lia|]. apply pflow_prop; [eapply pas_y; eauto|apply (pas_g _ _ _ _ _ PAS); exact Hk|eapply pas_gy; eauto|lra|eapply pas_Rup; eauto].
Qed.
Definition Yd : C := y * (1 - rd) / (1 + rd).
Definition Yu : C := y * (1 - ru) / (1 + ru).
Lemma Yd_pos : (0 < fst Yd)%R. Proof using PAS HX. apply pflow_Y, flow_rd. Qed.
Lemma Yu_pos : (0 < fst Yu)%R. Proof using PAS HX. apply pflow_Y, flow_ru. Qed.

Lemma M_ru_rd : Ms e g z N k = 1 - ru * rd.
Proof using HX.
  unfold Ms, ru, rd, E2. replace (Cexp (- (2 * g k * thick z k))) with (Cexp (- (2 * g k * RtoC (x - z k))) * Cexp (- (2 * g k * RtoC (z (S k) - x)))); [ring|].
  rewrite <- Cexp_plus. f_equal. unfold thick. rewrite !RtoC_minus. ring.
Qed.
Lemma dec2 : forall d, Cexp (- (2 * g k * RtoC d)) = dec g k (d + d).
Proof. intros d. unfold dec. f_equal. rewrite RtoC_plus, two2. ring. Qed.
Lemma same_val : forall pm, pm1 pm -> G_same e g z N pm pm k x x = (rd * (1 + pm * ru) + ru * (1 + pm * rd)) / (1 - ru * rd).
Proof using HX.
  intros pm P. unfold G_same. rewrite M_ru_rd. unfold bsd, bsu. unfold Cdiv.
  assert (E1 : Rdn e g z N k * (dec g k (z (S k) - x) + pm * Rup e g z k * dec g k (thick z k + (x - z k))) * / (1 - ru * rd) * dec g k (z (S k) - x) = rd * (1 + pm * ru) * / (1 - ru * rd)).
  { unfold rd at 2, ru at 2. rewrite !dec2.
    transitivity ((Rdn e g z N k * (dec g k (z (S k) - x) * dec g k (z (S k) - x)) + pm * Rdn e g z N k * Rup e g z k * (dec g k (thick z k + (x - z k)) * dec g k (z (S k) - x))) * / (1 - ru * rd)); [ring|].
    rewrite !dec_add. replace (thick z k + (x - z k) + (z (S k) - x))%R with ((z (S k) - x + (z (S k) - x)) + (x - z k + (x - z k)))%R by (unfold thick; ring). rewrite <- (dec_add _ _ (z (S k) - x + (z (S k) - x))). ring. }
  assert (E2 : Rup e g z k * (dec g k (x - z k) + pm * Rdn e g z N k * dec g k (thick z k + (z (S k) - x))) * / (1 - ru * rd) * dec g k (x - z k) = ru * (1 + pm * rd) * / (1 - ru * rd)).
  { unfold rd at 2, ru at 2. rewrite !dec2.
    transitivity ((Rup e g z k * (dec g k (x - z k) * dec g k (x - z k)) + pm * Rdn e g z N k * Rup e g z k * (dec g k (thick z k + (z (S k) - x)) * dec g k (x - z k))) * / (1 - ru * rd)); [ring|].
    rewrite !dec_add. replace (thick z k + (z (S k) - x) + (x - z k))%R with ((x - z k + (x - z k)) + (z (S k) - x + (z (S k) - x)))%R by (unfold thick; ring). rewrite <- (dec_add _ _ (x - z k + (x - z k))). ring. }
  rewrite E1, E2. assert (PP : pm * pm = 1) by (destruct P as [-> | ->]; ring). rewrite PP. ring.
Qed.
Lemma dir_val : forall pm, pm1 pm -> G_dir g pm pm k x x = pm.
Proof.
  intros pm P. unfold G_dir. replace (x - x)%R with 0%R by ring. rewrite Rabs_R0, dec_0. unfold dsgn. destruct (Ceq_dec (pm * pm) 1) as [_|NE]; [ring|]. exfalso. apply NE. destruct P as [-> | ->]; ring.
Qed.
Lemma G_plus : e k / g k * G_mode e g z N 1 1 k k x x false = 2 / (Yd + Yu).
Proof using PAS HX.
  unfold G_mode. rewrite Nat.eqb_refl, same_val, dir_val by (now left). unfold Yd, Yu.
  pose proof (pflow_neq _ _ flow_rd) as A. pose proof (pflow_neq _ _ flow_ru) as B. pose proof (pflow_M _ _ _ flow_rd flow_ru) as D.
  assert (D' : 1 - ru * rd <> 0) by exact D.
  pose proof (pas_gnz _ _ _ _ _ PAS k (proj1 HX)) as G. pose proof (pas_e0 _ _ _ _ _ PAS k (proj1 HX)) as E.
  pose proof Yd_pos as PD. pose proof Yu_pos as PU. assert (S : Yd + Yu <> 0) by (apply Re_nz; cbn [fst Cplus]; lra).
  assert (V : Yd + Yu = y * (1 + 1) * (1 - ru * rd) / ((1 + rd) * (1 + ru))) by (unfold Yd, Yu; field; repeat split; assumption).
  fold Yd Yu. rewrite V. rewrite two2. assert (T2 : 1 + 1 <> 0) by (intros W; apply (f_equal fst) in W; cbn in W; lra). field. repeat split; assumption.
Qed.
Lemma G_minus : g k / e k * G_mode e g z N (- (1)) (- (1)) k k x x false = - (2 / (/ Yd + / Yu)).
Proof using PAS HX.
  unfold G_mode. rewrite Nat.eqb_refl, same_val, dir_val by (now right).
  pose proof (pflow_neq _ _ flow_rd) as A. pose proof (pflow_neq _ _ flow_ru) as B. assert (D' : 1 - ru * rd <> 0) by exact (pflow_M _ _ _ flow_rd flow_ru).
  pose proof (pas_gnz _ _ _ _ _ PAS k (proj1 HX)) as G. pose proof (pas_e0 _ _ _ _ _ PAS k (proj1 HX)) as E.
  pose proof (Re_nz _ Yd_pos) as PD. pose proof (Re_nz _ Yu_pos) as PU.
  assert (A1 : 1 - rd <> 0). { intros W. apply PD. unfold Yd. rewrite W. unfold Cdiv. ring. }
  assert (B1 : 1 - ru <> 0). { intros W. apply PU. unfold Yu. rewrite W. unfold Cdiv. ring. }
  rewrite two2. assert (T2 : 1 + 1 <> 0) by (intros W; apply (f_equal fst) in W; cbn in W; lra).
  assert (V : / Yd + / Yu = (1 + 1) * (1 - ru * rd) / (y * (1 - rd) * (1 - ru))) by (unfold Yd, Yu; field; repeat split; assumption).
  rewrite V. field. repeat split; assumption.
Qed.
Lemma two_pos : forall c : C, (0 < fst c)%R -> (0 < fst (2 / c)%C)%R.
Proof. intros c H. pose proof (Re_inv c H) as I. unfold Cdiv. destruct (/ c) as [a b]. cbn [fst snd Cmult RtoC] in *. lra. Qed.
Lemma power_plus : (0 < fst (e k / g k * G_mode e g z N 1 1 k k x x false)%C)%R.
Proof using PAS HX. rewrite G_plus. apply two_pos. pose proof Yd_pos. pose proof Yu_pos. cbn [fst Cplus]. lra. Qed.
Lemma power_minus : (fst (g k / e k * G_mode e g z N (- (1)) (- (1)) k k x x false)%C < 0)%R.
Proof using PAS HX.
  rewrite G_minus. pose proof (Re_inv _ Yd_pos). pose proof (Re_inv _ Yu_pos). assert (P : (0 < fst (/ Yd + / Yu)%C)%R) by (cbn [fst Cplus]; lra). apply two_pos in P.
  remember (2 / (/ Yd + / Yu)) as c. destruct c as [a b]. cbn [fst Copp] in *. lra.
Qed.
End Mode.

Lemma cpmT : forall ab, In ab [11; 12; 21; 22]%Z -> cpm true ab = - (1) /\ csg true ab = - (1) /\ cpm false ab = 1 /\ csg false ab = 1.
Proof. intros ab H. cbn [In] in H. destruct H as [<- | [<- | [<- | [<- | []]]]]; repeat split; unfold cpm, csg, cz; cbn [plus_of zpm andb inb existsb Z.eqb Pos.eqb orb]; try reflexivity; apply injective_projections; cbn; ring. Qed.

Section Medium.
Variables (eH eV zH zV : nat -> C) (z : nat -> R) (N : nat) (lam : R) (k : nat) (x : R).
Hypothesis HX : within z N k x.
Lemma PTM_neg : forall h v q w, passive_mode h w (gam h v q lam) z N -> forall ab, In ab [11; 12; 21; 22]%Z -> (fst (PTM h v q z N lam ab false k k x x) < 0)%R.
Proof using HX.
  intros h v q w PAS ab Hab. destruct (cpmT ab Hab) as (E1 & E2 & _). unfold PTM, fTM. rewrite E1, E2, wsrc_m1. unfold wgt. destruct (Ceq_dec (- (1)) 1) as [W|_]; [exfalso; now apply m1_neq_1|].
  pose proof (power_minus h w (gam h v q lam) z N PAS k x HX) as P.
  match goal with |- context [if ?b then ?c else _] => replace (if b then c else 0) with (gam h v q lam k / h k * G_mode h (gam h v q lam) z N (- (1)) (- (1)) k k x x false) end; [exact P|].
  cbn [In] in Hab. destruct Hab as [<- | [<- | [<- | [<- | []]]]]; cbn [mode_used inb existsb Z.eqb Pos.eqb orb andb negb sgnTM srcc recc]; unfold sgnTM; cbn [inb existsb Z.eqb Pos.eqb orb]; cbv [srcc recc Z.modulo Z.div Z.div_eucl]; cbn; unfold Cdiv; rewrite ?Ci1; ring.
Qed.
Lemma PTE_pos : forall h v q w, passive_mode h w (gam h v q lam) z N -> forall ab, In ab [11; 12; 21; 22]%Z -> (0 < fst (PTE h v q z N lam ab false k k x x))%R.
Proof using HX.
  intros h v q w PAS ab Hab. destruct (cpmT ab Hab) as (_ & _ & E1 & E2). unfold PTE, fTE. rewrite E1, E2, wsrc_1.
  pose proof (power_plus h w (gam h v q lam) z N PAS k x HX) as P.
  match goal with |- context [if ?b then ?c else _] => replace (if b then c else 0) with (h k / gam h v q lam k * G_mode h (gam h v q lam) z N 1 1 k k x x false) end; [exact P|].
  cbn [In] in Hab. destruct Hab as [<- | [<- | [<- | [<- | []]]]]; cbn [mode_used inb existsb Z.eqb Pos.eqb orb andb negb srcc recc]; cbv [srcc recc Z.modulo Z.div Z.div_eucl]; cbn; unfold Cdiv; rewrite ?Ci1; ring.
Qed.
End Medium.

Lemma lay_within : forall z N x, within z N (lay z N x) x.
Proof.
  intros z N x. assert (H : forall n, (lay z n x <= n)%nat /\ (lay z n x = 0%nat \/ (z (lay z n x) <= x)%R) /\ (lay z n x = n \/ (x <= z (S (lay z n x)))%R)).
  { induction n as [|n IH]; [cbn; auto|]. cbn [lay]. destruct (Rlt_dec (z (S n)) x) as [L|L]; [repeat split; auto; right; lra|].
    destruct IH as (A & B & D). split; [lia|]. split; [exact B|]. right. destruct D as [D|D]; [rewrite D; lra|exact D]. }
  apply H.
Qed.

(** The two modes at the depth of a horizontal source; magnetic sources and receivers with the opposite sign (the code changes it back). *)
Theorem power_modes : forall eH eV zH zV z N lam ab m x, passive_medium eH eV zH zV z N -> In ab [11; 12; 21; 22]%Z ->
  exists p q, gcall eH eV zH zV z N lam ab false m m (lay z N x) (lay z N x) x x = Ok (p, q) /\
  (if m then (0 < fst p)%R /\ (fst q < 0)%R else (fst p < 0)%R /\ (0 < fst q)%R).
Proof.
  intros eH eV zH zV z N lam ab m x PM Hab. pose proof (lay_within z N x) as W. pose proof (lay_le z N x) as L.
  pose proof (passive_TM _ _ _ _ _ _ lam PM) as TM. pose proof (passive_TE _ _ _ _ _ _ lam PM) as TE.
  assert (V : valid_call ab m m). { unfold valid_call. cbn [In] in Hab. destruct Hab as [<- | [<- | [<- | [<- | []]]]]; destruct m; vm_compute; tauto. }
  rewrite gcall_resp by (auto using passive_model_ok). unfold resp. destruct m.
  - do 2 eexists. split; [reflexivity|]. pose proof (PTM_neg z N lam _ x W _ _ _ _ TE ab Hab) as A. pose proof (PTE_pos z N lam _ x W _ _ _ _ TM ab Hab) as B.
    cbn [fst Copp]. lra.
  - do 2 eexists. split; [reflexivity|]. split; [exact (PTM_neg z N lam _ x W _ _ _ _ TM ab Hab)|exact (PTE_pos z N lam _ x W _ _ _ _ TE ab Hab)].
Qed.

Theorem power_kernel : forall eH eV zH zV z N lam ab m x, passive_medium eH eV zH zV z N -> (0 < lam)%R -> In ab [11; 22]%Z ->
  exists PJ0 PJ1 PJ0b, wcall eH eV zH zV z N lam ab false m m (lay z N x) (lay z N x) x x = Ok (Some PJ0, PJ1, PJ0b) /\ (fst PJ0 < 0)%R.
Proof.
  intros eH eV zH zV z N lam ab m x PM Hl Hab. destruct (power_modes eH eV zH zV z N lam ab m x PM) as (p & q & E & S); [cbn [In] in *; tauto|].
  rewrite wcall_gcall, E. cbn [bind].
  assert (P : (0 < lam / (8 * PI))%R) by (apply Rdiv_lt_0_compat; [exact Hl|pose proof PI_RGT_0; lra]). pose proof PI_RGT_0 as PP.
  assert (Q : forall c : C, forall t : R, fst (c * RtoC t) = (fst c * t)%R) by (intros c t; cbn; ring).
  cbn [In] in Hab. destruct Hab as [<- | [<- | []]]; destruct m; unfold collect; cbn [inb existsb Z.eqb Pos.eqb orb negb]; do 3 eexists; (split; [reflexivity|]); rewrite Q; cbn [fst Cminus Cplus Copp].
  all: match goal with |- ((_ + - _) * (?l / (?s * 8 * PI)) < 0)%R => first [replace (l / (s * 8 * PI))%R with (l / (8 * PI))%R by (cbn; field; lra)|replace (l / (s * 8 * PI))%R with (- (l / (8 * PI)))%R by (cbn; field; lra)]; generalize dependent (l / (8 * PI))%R; intros; nra end.
Qed.
