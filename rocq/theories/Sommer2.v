(** Hankel transforms derived from the Sommerfeld integral. *)

From Coq Require Import Reals List Bool Lia Lra Psatz.
From Coquelicot Require Import Coquelicot.
From Verif Require Import CBase ODE FullspaceMaxwell FullspaceCurl Bessel Cint Hankel Sommer.
Import ListNotations.
Local Open Scope R_scope.
Local Open Scope C_scope.

Lemma limC_derive : forall (F F1 F2 : R -> R -> C) (f : R -> C) (l : C) (x e B T1 : R), (0 < e)%R ->
  (forall T u : R, (Rabs (u - x) < e)%R -> is_deriveC (F T) u (F1 T u)) -> (forall T u : R, (Rabs (u - x) < e)%R -> is_deriveC (F1 T) u (F2 T u)) ->
  (forall T u : R, (T1 < T)%R -> (Rabs (u - x) < e)%R -> (Cmod (F2 T u) <= B)%R) ->
  (forall u : R, (Rabs (u - x) < e)%R -> limC (fun T => F T u) pinf (f u)) -> is_deriveC f x l -> limC (fun T => F1 T x) pinf l.
Proof.
  intros F F1 F2 f l x e B T1 He D1 D2 B2 HL Hf. split.
  - apply (lim_derive (fun T u => fst (F T u)) (fun T u => fst (F1 T u)) (fun T u => fst (F2 T u)) (fun u => fst (f u)) (fst l) x e B T1 He).
    + intros T u Hu. apply D1, Hu.
    + intros T u Hu. apply D2, Hu.
    + intros T u HT Hu. eapply Rle_trans; [apply fst_le_Cmod|now apply B2].
    + intros u Hu. apply HL, Hu.
    + apply Hf.
  - apply (lim_derive (fun T u => snd (F T u)) (fun T u => snd (F1 T u)) (fun T u => snd (F2 T u)) (fun u => snd (f u)) (snd l) x e B T1 He).
    + intros T u Hu. apply D1, Hu.
    + intros T u Hu. apply D2, Hu.
    + intros T u HT Hu. eapply Rle_trans; [apply snd_le_Cmod|now apply B2].
    + intros u Hu. apply HL, Hu.
    + apply Hf.
Qed.

(** growth at most polynomial *)
Definition gb (g : R -> C) : Prop := exists (A : R) (n : nat), (0 <= A)%R /\ forall x : R, (0 <= x)%R -> (Cmod (g x) <= A * (1 + x) ^ n)%R.
Lemma gb_mult : forall f g, gb f -> gb g -> gb (fun x => f x * g x).
Proof.
  intros f g (A & n & HA & Hf) (B & m & HB & Hg). exists (A * B)%R, (n + m)%nat. split; [now apply Rmult_le_pos|]. intros x Hx. rewrite Cmod_mult, pow_add.
  replace (A * B * ((1 + x) ^ n * (1 + x) ^ m))%R with ((A * (1 + x) ^ n) * (B * (1 + x) ^ m))%R by ring. apply Rmult_le_compat; auto using Cmod_ge_0.
Qed.
Lemma gb_const : forall c, gb (fun _ => c).
Proof. intros c. exists (Cmod c), 0%nat. split; [apply Cmod_ge_0|]. intros x _. cbn [pow]. lra. Qed.
Lemma gb_id : gb RtoC.
Proof. exists 1%R, 1%nat. split; [lra|]. intros x Hx. rewrite Cmod_R, Rabs_pos_eq by lra. cbn [pow]. lra. Qed.
Lemma gb_int : forall g (A : R) (n : nat) c T, (0 < c)%R -> (0 <= A)%R -> (0 <= T)%R -> cC g -> (forall x : R, (0 <= x)%R -> (Cmod (g x) <= A * (1 + x) ^ n * exp (- (c * x)))%R) ->
  (Cmod (CI g 0 T) <= 2 * (A * (exp c * (2 * INR (S n) / c) ^ n) / (c / 2)))%R.
Proof.
  intros g A n c T Hc HA HT Hg Hb. assert (N0 : (0 < INR (S n))%R) by (apply lt_0_INR; lia).
  assert (P0 : (0 <= A * (exp c * (2 * INR (S n) / c) ^ n))%R) by (apply Rmult_le_pos; [exact HA|]; apply Rmult_le_pos; [left; apply exp_pos|apply pow_le, Rlt_le, Rdiv_lt_0_compat; lra]).
  eapply Rle_trans; [apply (CI_bound g (fun x => A * (exp c * (2 * INR (S n) / c) ^ n) * exp (- (c / 2 * x)))%R)|].
  - exact HT.
  - exact Hg.
  - intros x. apply (ex_derive_continuous (fun x => A * (exp c * (2 * INR (S n) / c) ^ n) * exp (- (c / 2 * x)))%R). auto_derive. exact I.
  - intros x Hx. eapply Rle_trans; [apply Hb; lra|]. rewrite !Rmult_assoc. apply Rmult_le_compat_l; [exact HA|].
    assert (X : (0 <= 1 + x)%R) by lra. pose proof (pow_exp n c (1 + x) Hc X) as Q.
    replace (exp (- (c * x))) with (exp c * exp (- (c * (1 + x))))%R by (rewrite <- exp_plus; f_equal; ring).
    assert (Q2 : (exp (- (c / 2 * (1 + x))) <= exp (- (c / 2 * x)))%R) by (apply exp_le_mono; lra).
    replace ((1 + x) ^ n * (exp c * exp (- (c * (1 + x)))))%R with (exp c * ((1 + x) ^ n * exp (- (c * (1 + x)))))%R by ring.
    apply Rmult_le_compat_l; [left; apply exp_pos|]. eapply Rle_trans; [exact Q|]. apply Rmult_le_compat_l; [apply pow_le, Rlt_le, Rdiv_lt_0_compat; lra|exact Q2].
  - apply Rmult_le_compat_l; [lra|]. apply exp_int; [lra|exact P0|exact HT].
Qed.

Definition good (z : C) : Prop := (0 < fst z)%R /\ (0 < fst (Cmult z z))%R.
Lemma good_scale : forall z u, good z -> (0 < u)%R -> good (z * RtoC u).
Proof.
  intros [a b] u [H1 H2] Hu. unfold good in *. cbn [fst snd Cmult RtoC] in *. split; [nra|].
  replace ((a * u - b * 0) * (a * u - b * 0) - (a * 0 + b * u) * (a * 0 + b * u))%R with (u * u * (a * a - b * b))%R by ring. apply Rmult_lt_0_compat; [nra|exact H2].
Qed.
Lemma good_nz : forall z, good z -> z <> RtoC 0. Proof. intros z [H _]. now apply Re_pos_nz. Qed.

Section Som2.
Variables (be ka : R -> C) (k M : R).
Hypothesis Hbe : forall x, is_deriveC be x (ka x).
Hypothesis Hka : cC ka.
Hypothesis Hbk : forall x, Cmult (be x) (ka x) = RtoC x.
Hypothesis Hk : forall x : R, (0 <= x)%R -> (Cmod (Cminus (be x) (RtoC x)) <= k)%R.
Hypothesis HM : forall x : R, (0 <= x)%R -> (Cmod (ka x) <= M)%R.
Notation Ex := (Ex be).

Lemma gb_be : gb be.
Proof using All.
  exists (1 + k)%R, 1%nat. pose proof (k_pos be ka k M Hbe Hka Hbk Hk HM) as K0. split; [lra|]. intros x Hx. eapply Rle_trans; [apply (be_bound be ka k M Hbe Hka Hbk Hk HM x Hx)|]. cbn [pow]. nra.
Qed.
Lemma gb_ka : gb ka.
Proof using All. exists M, 0%nat. split; [apply (M_pos be ka k M Hbe Hka Hbk Hk HM)|]. intros x Hx. cbn [pow]. rewrite Rmult_1_r. now apply HM. Qed.
Let cbe' : cC be := cbe be ka k M Hbe Hka Hbk Hk HM.
Let cEx' : forall z, cC (fun x => Ex x z) := cEx be ka k M Hbe Hka Hbk Hk HM.

(** transform with weight g and Bessel function J *)
Definition IT (g : R -> C) (J : R -> R) (T b : R) (z : C) : C := CI (fun x => g x * Ex x z * RtoC (J (b * x)%R)) 0 T.
Definition okJ (J : R -> R) : Prop := (forall x, continuous J x) /\ (forall x, (Rabs (J x) <= 1)%R).
Lemma cIT : forall g J b z, okJ J -> cC g -> cC (fun x => g x * Ex x z * RtoC (J (b * x)%R)).
Proof using All.
  intros g J b z [HJ _] Hg. apply cC_mult; [apply cC_mult; [exact Hg|apply cEx']|]. apply cC_R. intros x. apply (continuous_comp (fun x => b * x)%R J); [|apply HJ]. cct.
Qed.
Lemma IT_derive : forall g J T b z u, okJ J -> cC g -> is_deriveC (fun u => IT g J T b (z * RtoC u)) u (- z * IT (fun x => be x * g x) J T b (z * RtoC u)).
Proof using All.
  intros g J T b z u HJ Hg. set (DF := fun u x => - z * (be x * g x * Ex x (z * RtoC u) * RtoC (J (b * x)%R))).
  eapply dC_eq; [apply (CI_param (fun u x => g x * Ex x (z * RtoC u) * RtoC (J (b * x)%R)) DF)|].
  - apply filter_forall. intros v x. unfold DF. assert (DE : is_deriveC (fun w => Ex x (z * RtoC w)) v (- (be x * z * Ex x (z * RtoC v)))).
    { unfold Sommer.Ex. eapply dC_eq; [apply dC_exp, dC_opp, is_deriveC_scal, is_deriveC_scal, (dC_R (fun t => t) v 1%R), (is_derive_id (K := R_AbsRing))|]. rgC. }
    eapply dC_eq; [apply dC_mult; [apply is_deriveC_scal, DE|apply is_deriveC_const]|]. rgC.
  - intros x. unfold DF, Sommer.Ex. repeat apply c2_mult.
    + apply c2_const.
    + apply (c2_2 be), cbe'.
    + apply (c2_2 g), Hg.
    + apply c2_exp, c2_opp, c2_mult; [apply (c2_2 be), cbe'|]. apply c2_mult; [apply c2_const|apply c2_id1].
    + apply (c2_2 (fun x => RtoC (J (b * x)%R))). apply cC_R. intros y. apply (continuous_comp (fun x => b * x)%R J); [|apply HJ]. cct.
  - apply filter_forall. intros v. now apply cIT.
  - unfold DF. rewrite CI_scal; [reflexivity|]. apply (cIT (fun x => be x * g x) J b (z * RtoC u) HJ). apply cC_mult; [exact cbe'|exact Hg].
Qed.
Lemma IT_bounded : forall g J b c Z, okJ J -> cC g -> gb g -> (0 < c)%R -> exists B, forall T z, (0 <= T)%R -> (c <= fst z)%R -> (Cmod z <= Z)%R -> (Cmod (IT g J T b z) <= B)%R.
Proof using All.
  intros g J b c Z HJ Hg (A & n & HA & Hb) Hc. eexists. intros T z HT Hz1 Hz2. unfold IT. apply (gb_int _ (A * exp (k * Z)) n c T Hc); [|exact HT|now apply cIT|].
  - apply Rmult_le_pos; [exact HA|left; apply exp_pos].
  - intros x Hx. rewrite !Cmod_mult, Cmod_R. assert (E1 := Ex_bound be ka k M Hbe Hka Hbk Hk HM x z Hx). pose proof (k_pos be ka k M Hbe Hka Hbk Hk HM) as K0.
    assert (E2 : (Cmod (Ex x z) <= exp (k * Z) * exp (- (c * x)))%R).
    { eapply Rle_trans; [exact E1|]. apply Rmult_le_compat; try (left; apply exp_pos); apply exp_le_mono; [now apply Rmult_le_compat_l|apply Ropp_le_contravar, Rmult_le_compat_r; assumption]. }
    replace (A * exp (k * Z) * (1 + x) ^ n * exp (- (c * x)))%R with ((A * (1 + x) ^ n) * (exp (k * Z) * exp (- (c * x))) * 1)%R by ring.
    apply Rmult_le_compat; [apply Rmult_le_pos; apply Cmod_ge_0|apply Rabs_pos| |apply HJ]. apply Rmult_le_compat; auto using Cmod_ge_0.
Qed.
(** differentiation with respect to the depth *)
Lemma der : forall g J b (f : C -> C) rho l, okJ J -> cC g -> gb g -> (forall z, good z -> limC (fun T => IT g J T b z) pinf (f z)) -> good rho -> is_deriveC (fun u => f (rho * RtoC u)) 1 l ->
  limC (fun T => IT (fun x => be x * g x) J T b rho) pinf (- l / rho).
Proof using All.
  intros g J b f rho l HJ Hg Gg HL Hr Hf. pose proof (good_nz _ Hr) as N.
  assert (Hg1 : cC (fun x => be x * g x)) by (apply cC_mult; [exact cbe'|exact Hg]).
  assert (Hg2 : cC (fun x => be x * (be x * g x))) by (apply cC_mult; [exact cbe'|exact Hg1]).
  destruct (IT_bounded (fun x => be x * (be x * g x)) J b (fst rho / 2) (2 * Cmod rho) HJ Hg2) as [B HB].
  { apply gb_mult; [apply gb_be|]. apply gb_mult; [apply gb_be|exact Gg]. }
  { destruct Hr. lra. }
  assert (A : limC (fun T => - rho * IT (fun x => be x * g x) J T b (rho * RtoC 1)) pinf l).
  { apply (limC_derive (fun T u => IT g J T b (rho * RtoC u)) (fun T u => - rho * IT (fun x => be x * g x) J T b (rho * RtoC u)) (fun T u => - rho * (- rho * IT (fun x => be x * (be x * g x)) J T b (rho * RtoC u)))
      (fun u => f (rho * RtoC u)) l 1 (1 / 2) (Cmod rho * (Cmod rho * B)) 0).
    - lra.
    - intros T u _. now apply IT_derive.
    - intros T u _. apply is_deriveC_scal. apply (IT_derive (fun x => be x * g x)); assumption.
    - intros T u HT Hu. rewrite !Cmod_mult, !Cmod_opp. apply Rabs_lt_between in Hu. repeat (apply Rmult_le_compat_l; [apply Cmod_ge_0|]). apply HB; [lra| |].
      + destruct Hr as [H _]. replace (fst (rho * RtoC u)) with (fst rho * u)%R by (cbn; ring). apply Rmult_le_compat_l; lra.
      + rewrite Cmod_mult, Cmod_R, Rabs_pos_eq by lra. pose proof (Cmod_ge_0 rho). nra.
    - intros u Hu. apply Rabs_lt_between in Hu. apply HL, good_scale; [exact Hr|lra].
    - exact Hf. }
  replace (- l / rho) with (- / rho * l) by (field; exact N). eapply limC_ext_loc; [|apply (limC_scal (- / rho)); exact A]. apply filter_forall. intros T. cbv beta.
  replace (rho * RtoC 1) with rho by ring. field. exact N.
Qed.

(** closed forms *)
Notation ga := (be 0).
Notation RR := (RR).
Lemma okJ0 : okJ J0. Proof. split; [apply J0_cont|apply J0_abs]. Qed.
Lemma okJ1 : okJ J1. Proof. split; [apply J1_cont|apply J1_abs]. Qed.
Lemma RR_pos : forall b z, good z -> (0 < fst (RR b z))%R.
Proof using All.
  intros b z [H1 H2]. unfold Sommer.RR. apply Csqrt_Re_pos. left. cbn [fst Cplus RtoC]. assert (0 <= b * b)%R by apply Rle_0_sqr. lra.
Qed.
Lemma RR_ne : forall b z, good z -> RR b z <> RtoC 0. Proof using All. intros b z H. apply Re_pos_nz. now apply RR_pos. Qed.
Lemma z_derive : forall z u, is_deriveC (fun u => z * RtoC u) u z.
Proof using All. intros z u. eapply dC_eq; [apply is_deriveC_scal, (dC_R (fun t => t) u 1%R), (is_derive_id (K := R_AbsRing))|]. rgC. Qed.
Lemma RR_derive : forall b z, good z -> is_deriveC (fun u => RR b (z * RtoC u)) 1 (z * z / RR b z).
Proof using All.
  intros b z H. unfold Sommer.RR. eapply dC_eq; [apply dC_sqrt; [apply is_deriveC_plus; [apply dC_mult; apply z_derive|apply is_deriveC_const]|]|].
  - replace (z * RtoC 1) with z by ring. destruct H. cbn [fst Cplus RtoC]. assert (0 <= b * b)%R by apply Rle_0_sqr. lra.
  - cbv beta. replace (z * RtoC 1) with z by ring. assert (N := RR_ne b z H). unfold Sommer.RR in N. match goal with |- ?a = ?b => change (@eq C a b) end. rewrite ?c2s, ?c3s. field. rewrite <- ?c2s; split; [exact N|apply Re_pos_nz; cbn; lra].
Qed.
Definition fK (b : R) (z : C) : C := Cexp (- (ga * RR b z)) / RR b z.
Definition fS (b : R) (z : C) : C := z * (ga * RR b z + RtoC 1) * Cexp (- (ga * RR b z)) / (RR b z * RR b z * RR b z).
Definition fM (b : R) (z : C) : C := (z * z * (ga * ga * (RR b z * RR b z) + RtoC 3 * (ga * RR b z) + RtoC 3) / (RR b z * RR b z * RR b z * RR b z * RR b z) -
  (ga * RR b z + RtoC 1) / (RR b z * RR b z * RR b z)) * Cexp (- (ga * RR b z)).
Definition fA (b : R) (z : C) : C := RtoC b * (ga * RR b z + RtoC 1) * Cexp (- (ga * RR b z)) / (RR b z * RR b z * RR b z).
Definition fB (b : R) (z : C) : C := RtoC b * z * (ga * ga * (RR b z * RR b z) + RtoC 3 * (ga * RR b z) + RtoC 3) * Cexp (- (ga * RR b z)) / (RR b z * RR b z * RR b z * RR b z * RR b z).
Definition fP (b : R) (z : C) : C := (Cexp (- (ga * z)) - z * fK b z) / RtoC b.
Definition fP' (b : R) (z : C) : C := (ga * Cexp (- (ga * z)) + fK b z - z * fS b z) / RtoC b.
Definition fQ (b : R) (z : C) : C := (Cexp (- (ga * z)) - Cexp (- (ga * RR b z))) / (ga * RtoC b).

Ltac dCt HR HZ := first [exact HR | exact HZ | lazymatch goal with
  | |- is_deriveC (fun _ => ?c) _ _ => apply is_deriveC_const
  | |- is_deriveC (fun u => Cplus _ _) _ _ => apply is_deriveC_plus; dCt HR HZ
  | |- is_deriveC (fun u => Cminus _ _) _ _ => apply is_deriveC_minus; dCt HR HZ
  | |- is_deriveC (fun u => Cmult _ _) _ _ => apply dC_mult; dCt HR HZ
  | |- is_deriveC (fun u => Copp _) _ _ => apply dC_opp; dCt HR HZ
  | |- is_deriveC (fun u => Cexp _) _ _ => apply dC_exp; dCt HR HZ
  | |- is_deriveC (fun u => Cinv _) _ _ => apply dC_inv; [dCt HR HZ|]
  end].
Ltac one := repeat match goal with |- context [Cmult ?z (RtoC 1)] => replace (Cmult z (RtoC 1)) with z by ring end.
Lemma mnz : forall a b : C, a <> RtoC 0 -> b <> RtoC 0 -> a * b <> RtoC 0. Proof. intros. now apply Cmult_neq_0. Qed.

Lemma K_good : forall b z, good z -> limC (fun T => IT ka J0 T b z) pinf (fK b z).
Proof using All.
  intros b z [H1 H2]. exact (K_lim be ka k M Hbe Hka Hbk Hk HM b z H1 H2).
Qed.
Lemma fK_derive : forall b z, good z -> is_deriveC (fun u => fK b (z * RtoC u)) 1 (- z * fS b z).
Proof using All.
  intros b z H. pose proof (RR_derive b z H) as HR. pose proof (z_derive z 1) as HZ. pose proof (RR_ne b z H) as N. unfold fK, fS, Cdiv. eapply dC_eq; [dCt HR HZ; one; exact N|]. cbv beta; one; match goal with |- ?a = ?b => change (@eq C a b) end. rewrite ?c2s, ?c3s. field. exact N.
Qed.
Lemma fS_derive : forall b z, good z -> is_deriveC (fun u => fS b (z * RtoC u)) 1 (- z * fM b z).
Proof using All.
  intros b z H. pose proof (RR_derive b z H) as HR. pose proof (z_derive z 1) as HZ. pose proof (RR_ne b z H) as N. unfold fM, fS, Cdiv. eapply dC_eq; [dCt HR HZ; one; auto using mnz|]. cbv beta; one; match goal with |- ?a = ?b => change (@eq C a b) end. rewrite ?c2s, ?c3s. field. exact N.
Qed.
Lemma fA_derive : forall b z, good z -> is_deriveC (fun u => fA b (z * RtoC u)) 1 (- z * fB b z).
Proof using All.
  intros b z H. pose proof (RR_derive b z H) as HR. pose proof (z_derive z 1) as HZ. pose proof (RR_ne b z H) as N. unfold fB, fA, Cdiv. eapply dC_eq; [dCt HR HZ; one; auto using mnz|]. cbv beta; one; match goal with |- ?a = ?b => change (@eq C a b) end. rewrite ?c2s, ?c3s. field. exact N.
Qed.
Lemma fP_derive : forall b z, good z -> b <> 0%R -> is_deriveC (fun u => fP b (z * RtoC u)) 1 (- z * fP' b z).
Proof using All.
  intros b z H Nb. pose proof (fK_derive b z H) as HR. pose proof (z_derive z 1) as HZ. assert (RtoC b <> RtoC 0) as N by (intros E; apply RtoC_inj in E; contradiction). unfold fP, fP', Cdiv. eapply dC_eq; [dCt HR HZ; one; auto using mnz|]. cbv beta; one; match goal with |- ?a = ?b => change (@eq C a b) end. rewrite ?c2s, ?c3s. field. exact N.
Qed.
Lemma S_good : forall b z, good z -> limC (fun T => IT RtoC J0 T b z) pinf (fS b z).
Proof using All.
  intros b z H. pose proof (good_nz z H) as N. eapply limC_ext_loc; [|eapply limC_eq; [apply (der ka J0 b (fK b) z (- z * fS b z) okJ0 Hka gb_ka (K_good b) H (fK_derive b z H))|field; exact N]].
  apply filter_forall. intros T. apply CI_ext. intros x. now rewrite Hbk.
Qed.
Lemma M_good : forall b z, good z -> limC (fun T => IT (fun x => be x * RtoC x) J0 T b z) pinf (fM b z).
Proof using All.
  intros b z H. pose proof (good_nz z H) as N. eapply limC_eq; [apply (der RtoC J0 b (fS b) z (- z * fM b z) okJ0 cC_id gb_id (S_good b) H (fS_derive b z H))|field; exact N].
Qed.
Lemma tail : forall (J : R -> R) n b z, okJ J -> good z -> limC (fun T => RtoC (T ^ n * J (b * T)%R) * Ex T z) pinf (RtoC 0).
Proof using All.
  intros J n b z HJ [H1 H2]. apply (limC_bound _ _ (fun T => exp (k * Cmod z) * (T ^ n * exp (- (fst z * T))))%R 0); [|now apply pow_dec_lim].
  intros T HT. replace (Cminus (RtoC (T ^ n * J (b * T)%R) * Ex T z) (RtoC 0)) with (RtoC (T ^ n * J (b * T)%R) * Ex T z) by ring. rewrite Cmod_mult, Cmod_R, Rabs_mult.
  assert (T0 : (0 <= T)%R) by lra. pose proof (Ex_bound be ka k M Hbe Hka Hbk Hk HM T z T0) as E. pose proof (proj2 HJ (b * T)%R) as A. pose proof (Rabs_pos (J (b * T)%R)) as A0. pose proof (pow_le T n T0) as P. rewrite (Rabs_pos_eq (T ^ n)) by exact P.
  replace (exp (k * Cmod z) * (T ^ n * exp (- (fst z * T))))%R with ((T ^ n * 1) * (exp (k * Cmod z) * exp (- (fst z * T))))%R by ring.
  apply Rmult_le_compat; [now apply Rmult_le_pos|apply Cmod_ge_0|now apply Rmult_le_compat_l|exact E].
Qed.
Lemma A_good : forall b z, good z -> limC (fun T => IT (fun x => RtoC x * ka x) J1 T b z) pinf (fA b z).
Proof using All.
  intros b z H. pose proof (good_nz z H) as N. pose proof (RR_ne b z H) as NR.
  replace (fA b z) with (/ z * (RtoC b * fS b z - RtoC 0)) by (unfold fA, fS; field; tauto).
  eapply limC_ext_loc; [|apply limC_scal, limC_minus; [apply limC_scal, S_good, H|apply (tail J1 1 b z okJ1 H)]]. apply filter_forall. intros T. cbv beta.
  assert (P := by_parts be ka k M Hbe Hka Hbk Hk HM T b z). change (AT be ka T b z) with (IT (fun x => RtoC x * ka x) J1 T b z) in P. change (ST be T b z) with (IT RtoC J0 T b z) in P.
  replace (T ^ 1)%R with T by ring. rewrite <- P. field. exact N.
Qed.
Lemma B_good : forall b z, good z -> limC (fun T => IT (fun x => RtoC x * RtoC x) J1 T b z) pinf (fB b z).
Proof using All.
  intros b z H. pose proof (good_nz z H) as N. assert (CA : cC (fun x => RtoC x * ka x)) by cct.
  eapply limC_ext_loc; [|eapply limC_eq; [apply (der (fun x => RtoC x * ka x) J1 b (fA b) z (- z * fB b z) okJ1 CA (gb_mult RtoC ka gb_id gb_ka) (A_good b) H (fA_derive b z H))|field; exact N]].
  apply filter_forall. intros T. apply CI_ext. intros x. rewrite <- (Hbk x) at 3. ring.
Qed.
Lemma P_good : forall b z, b <> 0%R -> good z -> limC (fun T => IT (fun _ => RtoC 1) J1 T b z) pinf (fP b z).
Proof using All.
  intros b z Nb H. pose proof (good_nz z H) as N. assert (NB : RtoC b <> RtoC 0) by (intros E; apply RtoC_inj in E; contradiction). pose proof (cEx' z).
  replace (fP b z) with (/ RtoC b * (Cexp (- (ga * z)) - z * fK b z - RtoC 0)) by (unfold fP; field; exact NB).
  eapply limC_ext_loc; [|apply limC_scal, limC_minus; [apply limC_minus; [apply limC_const|apply limC_scal, K_good, H]|apply (tail J0 0 b z okJ0 H)]]. apply filter_forall. intros T. cbv beta.
  assert (D : CI (fun x => RtoC b * (RtoC 1 * Ex x z * RtoC (J1 (b * x))) + z * (ka x * Ex x z * RtoC (J0 (b * x)))) 0 T = - (RtoC (J0 (b * T)) * Ex T z) - - (RtoC (J0 (b * 0)) * Ex 0 z)).
  { apply (CI_derive (fun x => - (RtoC (J0 (b * x)) * Ex x z))); [|cct]. intros x. eapply dC_eq; [apply dC_opp, dC_mult; [apply dC_R, J0b_derive|apply (Ex_derive be ka k M Hbe Hka Hbk Hk HM)]|].
    rewrite RtoC_mult, RtoC_opp. rgC. }
  rewrite CI_plus in D by cct. rewrite !CI_scal in D by cct. rewrite Rmult_0_r, J0_0 in D. fold (IT ka J0 T b z) (IT (fun _ => RtoC 1) J1 T b z) in D. change (Cexp (- (ga * z))) with (Ex 0 z).
  replace (T ^ 0 * J0 (b * T))%R with (J0 (b * T))%R by (cbn [pow]; ring).
  assert (E : RtoC b * IT (fun _ => RtoC 1) J1 T b z = Ex 0 z - z * IT ka J0 T b z - RtoC (J0 (b * T)) * Ex T z).
  { transitivity (RtoC b * IT (fun _ => RtoC 1) J1 T b z + z * IT ka J0 T b z - z * IT ka J0 T b z); [ring|]. rewrite D. ring. }
  rewrite <- E. field. exact NB.
Qed.
Lemma P'_good : forall b z, b <> 0%R -> good z -> limC (fun T => IT be J1 T b z) pinf (fP' b z).
Proof using All.
  intros b z Nb H. pose proof (good_nz z H) as N.
  eapply limC_ext_loc; [|eapply limC_eq; [apply (der (fun _ => RtoC 1) J1 b (fP b) z (- z * fP' b z) okJ1 (cC_const (RtoC 1)) (gb_const (RtoC 1)) (fun w => P_good b w Nb) H (fP_derive b z H Nb))|field; exact N]].
  apply filter_forall. intros T. apply CI_ext. intros x. ring.
Qed.

(** the transform of the inverse of the square root *)
Section InvRoot.
Hypothesis Hn : forall x, be x <> RtoC 0.
Lemma cbi : cC (fun x => / be x).
Proof using All. eapply cC_derive. intros x. apply dC_inv; [apply Hbe|apply Hn]. Qed.
Lemma ka_i : forall x, ka x = RtoC x / be x.
Proof using All. intros x. rewrite <- (Hbk x). field. apply Hn. Qed.
Lemma cJ2 : forall J u x, (forall y, continuous J y) -> c2 (fun u x => RtoC (J (u * x)%R)) u x.
Proof using All. intros J u x HJ. apply c2_R. apply (c2_comp J (fun s x => (s * x)%R)); [exact HJ|]. apply continuity_2d_pt_mult; [apply continuity_2d_pt_id1|apply continuity_2d_pt_id2]. Qed.
Lemma KT_b : forall T z u, is_deriveC (fun u => IT ka J0 T u z) u (CI (fun x => ka x * Ex x z * RtoC (- x * J1 (u * x))) 0 T).
Proof using All.
  intros T z u. pose proof (cEx' z). apply (CI_param (fun u x => ka x * Ex x z * RtoC (J0 (u * x))) (fun u x => ka x * Ex x z * RtoC (- x * J1 (u * x)))).
  - apply filter_forall. intros v x. apply is_deriveC_scal, dC_R. pose proof (J0b_derive x v) as D. eapply is_derive_ext; [|eapply eq_ind; [exact D|]].
    + intros t. cbv beta. now rewrite Rmult_comm.
    + now rewrite (Rmult_comm x v).
  - intros x. eapply c2_mult; [apply (c2_2 (fun x => ka x * Ex x z)); apply (cC_mult ka); [exact Hka|apply cEx']|].
    apply c2_R. apply continuity_2d_pt_mult; [apply continuity_2d_pt_opp, continuity_2d_pt_id2|]. apply (c2_comp J1 (fun s x => (s * x)%R)); [exact J1_cont|]. apply continuity_2d_pt_mult; [apply continuity_2d_pt_id1|apply continuity_2d_pt_id2].
  - apply filter_forall. intros v. cct.
Qed.
Lemma Q_b : forall T z u, is_deriveC (fun u => RtoC u * IT (fun x => / be x) J1 T u z) u (RtoC u * IT ka J0 T u z).
Proof using All.
  intros T z u. pose proof (cEx' z). pose proof cbi.
  apply dC_ext with (f := fun u => CI (fun x => / be x * Ex x z * RtoC (u * J1 (u * x))) 0 T).
  { intros t. unfold IT. rewrite <- CI_scal by cct. apply CI_ext. intros x. rewrite RtoC_mult. ring. }
  eapply dC_eq; [apply (CI_param (fun u x => / be x * Ex x z * RtoC (u * J1 (u * x))) (fun u x => / be x * Ex x z * RtoC (x * u * J0 (u * x))))|].
  - apply filter_forall. intros v x. apply is_deriveC_scal, dC_R. pose proof (xJ1_derive x v) as D. eapply is_derive_ext; [|eapply eq_ind; [exact D|]].
    + intros t. cbv beta. now rewrite (Rmult_comm x t).
    + now rewrite (Rmult_comm x v).
  - intros x. eapply c2_mult; [apply (c2_2 (fun x => / be x * Ex x z)); apply (cC_mult (fun x => / be x)); [exact cbi|apply cEx']|].
    apply c2_R. apply continuity_2d_pt_mult; [apply continuity_2d_pt_mult; [apply continuity_2d_pt_id2|apply continuity_2d_pt_id1]|]. apply (c2_comp J0 (fun s x => (s * x)%R)); [exact J0_cont|]. apply continuity_2d_pt_mult; [apply continuity_2d_pt_id1|apply continuity_2d_pt_id2].
  - apply filter_forall. intros v. cct.
  - unfold IT. rewrite <- CI_scal by cct. apply CI_ext. intros x. rewrite ka_i, !RtoC_mult. field. apply Hn.
Qed.
Lemma RR_b : forall z u, good z -> is_deriveC (fun u => RR u z) u (RtoC u / RR u z).
Proof using All.
  intros z u H. pose proof (RR_ne u z H) as N. unfold Sommer.RR in *. eapply dC_eq; [apply dC_sqrt; [apply is_deriveC_plus; [apply is_deriveC_const|apply (dC_R (fun u => u * u)%R u (2 * u)%R)]|]|].
  - auto_derive; [exact I|ring].
  - destruct H. cbn [fst Cplus RtoC]. assert (0 <= u * u)%R by apply Rle_0_sqr. lra.
  - cbv beta. rewrite RtoC_mult, c2s. match goal with |- ?a = ?b => change (@eq C a b) end. field. try (split; [exact N|apply Re_pos_nz; cbn; lra]).
Qed.
Lemma F_b : forall z u, good z -> is_deriveC (fun u => - Cexp (- (ga * RR u z)) / ga) u (RtoC u * fK u z).
Proof using All.
  intros z u H. pose proof (RR_b z u H) as HR. pose proof (RR_ne u z H) as N. unfold fK, Cdiv. eapply dC_eq; [dCt HR HR; apply Hn|]. cbv beta. match goal with |- ?a = ?b => change (@eq C a b) end. field. split; [exact N|apply Hn].
Qed.
Lemma Q_good : forall b z, (0 < b)%R -> good z -> limC (fun T => IT (fun x => / be x) J1 T b z) pinf (fQ b z).
Proof using All.
  intros b z Pb H. assert (NB : RtoC b <> RtoC 0) by (intros E; apply RtoC_inj in E; lra). pose proof (Hn 0) as NG. destruct (H) as [H1 H2].
  assert (CK : forall T, cC (fun u => IT ka J0 T u z)) by (intros T; eapply cC_derive; intros u; apply KT_b).
  assert (CF : cC (fun u => RtoC u * fK u z)).
  { apply cC_mult; [apply cC_id|]. eapply cC_derive. intros u. pose proof (RR_b z u H) as HR. pose proof (RR_ne u z H) as N. unfold fK, Cdiv. dCt HR HR. exact N. }
  assert (E : forall T, RtoC b * IT (fun x => / be x) J1 T b z - RtoC b * fQ b z = CI (fun u => RtoC u * IT ka J0 T u z - RtoC u * fK u z) 0 b).
  { intros T. assert (D : CI (fun u => RtoC u * IT ka J0 T u z - RtoC u * fK u z) 0 b = (RtoC b * IT (fun x => / be x) J1 T b z - - Cexp (- (ga * RR b z)) / ga) - (RtoC 0 * IT (fun x => / be x) J1 T 0 z - - Cexp (- (ga * RR 0 z)) / ga)).
    { apply (CI_derive (fun u => RtoC u * IT (fun x => / be x) J1 T u z - - Cexp (- (ga * RR u z)) / ga)).
      - intros u. apply is_deriveC_minus; [apply Q_b|apply F_b, H].
      - apply cC_minus; [|exact CF]. apply cC_mult; [apply cC_id|apply CK]. }
    rewrite D. replace (RR 0 z) with z; [unfold fQ; field; tauto|]. unfold Sommer.RR. symmetry. apply Csqrt_uniq; [|exact H1]. rewrite Rmult_0_l. ring. }
  assert (L : limC (fun T => RtoC b * IT (fun x => / be x) J1 T b z) pinf (RtoC b * fQ b z)).
  { apply (limC_bound _ _ (fun T => 2 * (b * b) * rg k z b T)%R 0).
    - intros T HT. rewrite E. eapply Rle_trans; [apply (CI_bound _ (fun _ => b * rg k z b T)%R)|].
      + lra.
      + apply cC_minus; [|exact CF]. apply cC_mult; [apply cC_id|apply CK].
      + intros; apply continuous_const.
      + intros u Hu. replace (RtoC u * IT ka J0 T u z - RtoC u * fK u z) with (RtoC u * Cminus (IT ka J0 T u z) (fK u z)) by ring. rewrite Cmod_mult, Cmod_R, Rabs_pos_eq by lra.
        apply Rmult_le_compat; [lra|apply Cmod_ge_0|lra|]. assert (T0 : (0 <= T)%R) by lra. assert (HB : (Rabs u <= b)%R) by (rewrite Rabs_pos_eq; lra). exact (KT_bound be ka k M Hbe Hka Hbk Hk HM u z H1 H2 b T HB T0).
      + rewrite (RInt_const (V := V)). unfold scal; cbn [scal]; unfold mult; cbn. right. ring.
    - replace 0%R with (2 * (b * b) * 0)%R at 1 by ring. apply filterlim_Rmult; [apply filterlim_Rconst|]. apply (rg_lim be ka k M Hbe Hka Hbk Hk HM 0 z H1 H2). }
  replace (fQ b z) with (/ RtoC b * (RtoC b * fQ b z)) by (field; exact NB). eapply limC_ext_loc; [|apply limC_scal, L]. apply filter_forall. intros T. cbv beta. field. exact NB.
Qed.
End InvRoot.
End Som2.
