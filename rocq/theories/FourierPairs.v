(** Sine, cosine and Gaussian Hankel transforms in closed form. *)

From Coq Require Import Reals List Bool Lia Lra Psatz.
From Coquelicot Require Import Coquelicot.
From Verif Require Import CBase ODE FullspaceMaxwell Bessel Cint Hankel Sommer Gauss.
Import ListNotations.
Local Open Scope R_scope.

Lemma RI_ftc : forall F f a b, (forall x, is_derive F x (f x)) -> (forall x, continuous f x) -> RInt f a b = F b - F a.
Proof.
  intros F f a b H Hf. transitivity (minus (F b) (F a)); [|reflexivity]. apply (is_RInt_unique (V := V)). apply (is_RInt_derive (V := V) F); intros; auto.
Qed.
Lemma RI_lin : forall (f g : R -> R) c d a b, (forall x, continuous f x) -> (forall x, continuous g x) -> RInt (fun x => c * f x + d * g x) a b = c * RInt f a b + d * RInt g a b.
Proof.
  intros f g c d a b Hf Hg.
  assert (E1 : ex_RInt f a b) by (apply (ex_RInt_continuous (V := V)); auto). assert (E2 : ex_RInt g a b) by (apply (ex_RInt_continuous (V := V)); auto).
  transitivity (RInt (fun x => c * f x) a b + RInt (fun x => d * g x) a b).
  - apply (RInt_plus (V := V) (fun x => c * f x) (fun x => d * g x)); [apply (ex_RInt_scal (V := V) f a b c E1)|apply (ex_RInt_scal (V := V) g a b d E2)].
  - f_equal; [apply (RInt_scal (V := V) f a b c E1)|apply (RInt_scal (V := V) g a b d E2)].
Qed.
Lemma RI_bound : forall (f g : R -> R) a b, a <= b -> (forall x, continuous f x) -> (forall x, continuous g x) -> (forall x, a <= x <= b -> Rabs (f x) <= g x) -> Rabs (RInt f a b) <= RInt g a b.
Proof.
  intros f g a b Hab Hf Hg H. eapply Rle_trans; [apply abs_RInt_le; [exact Hab|apply (ex_RInt_continuous (V := V)); auto]|].
  apply RInt_le; [exact Hab| | |].
  - apply (ex_RInt_continuous (V := V)). intros x _. apply (continuous_comp f Rabs); [apply Hf|apply continuous_Rabs].
  - apply (ex_RInt_continuous (V := V)). auto.
  - intros x Hx. apply H. lra.
Qed.
Ltac cder := intros; match goal with |- continuous ?f ?x => apply (ex_derive_continuous f); auto_derive end.

(** a function is controlled by one whose derivative dominates *)
Lemma dom : forall (f g f' g' : R -> R) a b, a <= b -> (forall x, a <= x <= b -> is_derive f x (f' x)) -> (forall x, a <= x <= b -> is_derive g x (g' x)) ->
  (forall x, a <= x <= b -> Rabs (f' x) <= g' x) -> Rabs (f b - f a) <= g b - g a.
Proof.
  intros f g f' g' a b Hab Df Dg H.
  assert (M : forall s, Rabs s = 1 -> s * (f b - f a) <= g b - g a).
  { intros s Hs. destruct (MVT_gen (fun x => g x - s * f x) a b (fun x => g' x - s * f' x)) as (c & Hc & E).
    - intros x Hx. rewrite Rmin_left, Rmax_right in Hx by exact Hab. assert (D1 := Df x ltac:(lra)). assert (D2 := Dg x ltac:(lra)).
      apply (is_derive_minus (V := R_NormedModule) g (fun x => s * f x)); [exact D2|]. apply (is_derive_scal f x s); exact D1.
    - intros x Hx. rewrite Rmin_left, Rmax_right in Hx by exact Hab. apply cont_pt, (ex_derive_continuous (fun x => g x - s * f x)). eexists.
      apply (is_derive_minus (V := R_NormedModule) g (fun x => s * f x)); [apply Dg; lra|]. apply (is_derive_scal f x s), Df. lra.
    - rewrite Rmin_left, Rmax_right in Hc by exact Hab. cbv beta in E. specialize (H c Hc).
      assert (Q : s * f' c <= g' c) by (eapply Rle_trans; [apply Rle_abs|]; rewrite Rabs_mult, Hs; lra). nra. }
  apply Rabs_le. pose proof (M 1 Rabs_R1) as M1. assert (M2 := M (-1) ltac:(rewrite Rabs_left; lra)). lra.
Qed.
Lemma lim_bound : forall (f : R -> R) l g T1, (forall T, T1 < T -> Rabs (f T - l) <= g T) -> filterlim g pinf (locally 0) -> filterlim f pinf (locally l).
Proof.
  intros f l g T1 H Hg. apply lim_eps. intros e He. destruct (proj1 (lim_eps g 0) Hg e He) as [A HA]. exists (Rmax A T1). intros T HT.
  assert (A < T) by (eapply Rle_lt_trans; [apply Rmax_l|exact HT]). assert (T1 < T) by (eapply Rle_lt_trans; [apply Rmax_r|exact HT]).
  eapply Rle_lt_trans; [now apply H|]. specialize (HA T H0). rewrite Rminus_0_r in HA. eapply Rle_lt_trans; [apply Rle_abs|exact HA].
Qed.
Lemma lim_le : forall (f g : R -> R) T1, (forall T, T1 < T -> Rabs (f T) <= g T) -> filterlim g pinf (locally 0) -> filterlim f pinf (locally 0).
Proof. intros f g T1 H. apply (lim_bound f 0 g T1). intros T HT. rewrite Rminus_0_r. auto. Qed.
Lemma lim_ext : forall (f g : R -> R) l, (forall T, f T = g T) -> filterlim f pinf (locally l) -> filterlim g pinf (locally l).
Proof. intros f g l H. apply filterlim_ext. exact H. Qed.
Lemma lim_eq : forall (f : R -> R) a b, filterlim f pinf (locally a) -> a = b -> filterlim f pinf (locally b).
Proof. intros; now subst. Qed.
Lemma gauss_dec : forall n a, 0 < a -> filterlim (fun T => T ^ n * exp (- (a * (T * T)))) pinf (locally 0).
Proof.
  intros n a Ha. apply (lim_le _ (fun T => 1 * (T ^ n * exp (- (a * T)))) 1); [|now apply pow_dec_lim]. intros T HT. rewrite Rabs_pos_eq, Rmult_1_l.
  - apply Rmult_le_compat_l; [apply pow_le; lra|]. apply exp_le_mono, Ropp_le_contravar, Rmult_le_compat_l; [lra|nra].
  - apply Rmult_le_pos; [apply pow_le; lra|left; apply exp_pos].
Qed.

(** *** exponential *)
Section Expo.
Variables (a b : R).
Hypothesis Ha : 0 < a.
Lemma den_pos : 0 < b * b + a * a. Proof using All. nra. Qed.
Lemma cos2_pair : filterlim (fun T => RInt (fun x => exp (- a * x) * cos (b * x)) 0 T) pinf (locally (a / (b * b + a * a))).
Proof using All.
  pose proof den_pos as D. set (F := fun x => exp (- a * x) * ((b * sin (b * x) - a * cos (b * x)) / (b * b + a * a))).
  apply (lim_ext (fun T => F T - F 0)).
  - intros T. symmetry. apply RI_ftc; [|cder; exact I]. intros x. unfold F. auto_derive; [exact I|]. field. lra.
  - unfold F. rewrite !Rmult_0_r, exp_0, sin_0, cos_0. apply (lim_bound _ _ (fun T => ((Rabs b + a) / (b * b + a * a)) * (T ^ 0 * exp (- (a * T)))) 0); [|now apply pow_dec_lim].
    intros T HT. cbn [pow]. replace (- a * T) with (- (a * T)) by ring. replace (_ - _ - _) with (exp (- (a * T)) * ((b * sin (b * T) - a * cos (b * T)) / (b * b + a * a))) by (field; lra).
    rewrite Rabs_mult, (Rabs_pos_eq (exp _)) by (left; apply exp_pos). rewrite Rmult_1_l, (Rmult_comm _ (exp _)). apply Rmult_le_compat_l; [left; apply exp_pos|].
    unfold Rdiv. rewrite Rabs_mult, (Rabs_pos_eq (/ _)) by (left; now apply Rinv_0_lt_compat). apply Rmult_le_compat_r; [left; now apply Rinv_0_lt_compat|].
    eapply Rle_trans; [apply (Rabs_triang (b * sin (b * T)) (- (a * cos (b * T))))|]. rewrite Rabs_Ropp, !Rabs_mult, (Rabs_pos_eq a) by lra. pose proof (abs_sin (b * T)). pose proof (abs_cos (b * T)). pose proof (Rabs_pos b). nra.
Qed.
Lemma sin2_pair : filterlim (fun T => RInt (fun x => exp (- a * x) * sin (b * x)) 0 T) pinf (locally (b / (b * b + a * a))).
Proof using All.
  pose proof den_pos as D. set (F := fun x => exp (- a * x) * (- (a * sin (b * x) + b * cos (b * x)) / (b * b + a * a))).
  apply (lim_ext (fun T => F T - F 0)).
  - intros T. symmetry. apply RI_ftc; [|cder; exact I]. intros x. unfold F. auto_derive; [exact I|]. field. lra.
  - unfold F. rewrite !Rmult_0_r, exp_0, sin_0, cos_0. apply (lim_bound _ _ (fun T => ((Rabs b + a) / (b * b + a * a)) * (T ^ 0 * exp (- (a * T)))) 0); [|now apply pow_dec_lim].
    intros T HT. cbn [pow]. replace (- a * T) with (- (a * T)) by ring. replace (_ - _ - _) with (exp (- (a * T)) * (- (a * sin (b * T) + b * cos (b * T)) / (b * b + a * a))) by (field; lra).
    rewrite Rabs_mult, (Rabs_pos_eq (exp _)) by (left; apply exp_pos). rewrite Rmult_1_l, (Rmult_comm _ (exp _)). apply Rmult_le_compat_l; [left; apply exp_pos|].
    unfold Rdiv. rewrite Rabs_mult, (Rabs_pos_eq (/ _)) by (left; now apply Rinv_0_lt_compat). apply Rmult_le_compat_r; [left; now apply Rinv_0_lt_compat|].
    rewrite Rabs_Ropp. eapply Rle_trans; [apply Rabs_triang|]. rewrite !Rabs_mult, (Rabs_pos_eq a) by lra. pose proof (abs_sin (b * T)). pose proof (abs_cos (b * T)). pose proof (Rabs_pos b). nra.
Qed.
End Expo.

(** *** Gaussian; the common argument *)
Lemma gauss_ode : forall (G G' : R -> R -> R) (e : R -> R) (q l b : R), 0 < q ->
  (forall T u, is_derive (G T) u (G' T u)) -> (forall T u, 0 <= T -> Rabs (G' T u + u / (2 * q) * G T u) <= e T) ->
  filterlim e pinf (locally 0) -> filterlim (fun T => G T 0) pinf (locally l) -> 0 <= b -> filterlim (fun T => G T b) pinf (locally (l * exp (- (b * b) / (4 * q)))).
Proof.
  intros G G' e q l b Hq HD HB He H0 Hb.
  assert (W : filterlim (fun T => G T b * exp (b * b / (4 * q))) pinf (locally l)).
  { apply (lim_ext (fun T => G T 0 + (G T b * exp (b * b / (4 * q)) - G T 0))); [intros; ring|]. replace l with (l + 0) by ring. apply filterlim_Rplus; [exact H0|].
    apply (lim_le _ (fun T => (b * exp (b * b / (4 * q))) * e T) 0).
    - intros T HT. assert (D := dom (fun u => G T u * exp (u * u / (4 * q))) (fun u => exp (b * b / (4 * q)) * e T * u) (fun u => (G' T u + u / (2 * q) * G T u) * exp (u * u / (4 * q))) (fun _ => exp (b * b / (4 * q)) * e T) 0 b Hb).
      cbv beta in D. replace (G T 0 * exp (0 * 0 / (4 * q))) with (G T 0) in D by (rewrite Rmult_0_l; unfold Rdiv; rewrite Rmult_0_l, exp_0; ring).
      eapply Rle_trans; [apply D|right; ring].
      + intros u _. pose proof (HD T u) as DG. assert (EG : ex_derive (G T) u) by (eexists; exact DG). auto_derive; [tauto|]. change (Derive (fun x => G T x) u) with (Derive (G T) u). rewrite (is_derive_unique _ _ _ DG). unfold Rdiv. field. lra.
      + intros u _. auto_derive; [exact I|ring].
      + intros u Hu. rewrite Rabs_mult, (Rabs_pos_eq (exp _)) by (left; apply exp_pos). rewrite (Rmult_comm (exp _)). assert (T0 : 0 <= T) by lra. apply Rmult_le_compat; [apply Rabs_pos|left; apply exp_pos|now apply HB|].
        apply exp_le_mono. unfold Rdiv. apply Rmult_le_compat_r; [left; apply Rinv_0_lt_compat; lra|nra].
    - replace 0 with (b * exp (b * b / (4 * q)) * 0) at 1 by ring. apply filterlim_Rmult; [apply filterlim_Rconst|exact He]. }
  apply (lim_ext (fun T => G T b * exp (b * b / (4 * q)) * exp (- (b * b) / (4 * q)))).
  - intros T. rewrite Rmult_assoc, <- exp_plus. replace (b * b / (4 * q) + - (b * b) / (4 * q)) with 0 by (field; lra). rewrite exp_0. ring.
  - apply filterlim_Rmult; [exact W|apply filterlim_Rconst].
Qed.

Section Gau.
Variables (a b : R).
Hypothesis Ha : 0 < a.
Hypothesis Hb : 0 <= b.
Lemma lim_lin : forall c, 0 < c -> filterlim (fun T => c * T) pinf pinf.
Proof using All.
  intros c Hc P [N HN]. exists (N / c). intros x Hx. apply HN. apply Rmult_lt_compat_l with (r := c) in Hx; [|exact Hc]. replace (c * (N / c)) with N in Hx by (field; lra). exact Hx.
Qed.
Definition GC (T u : R) : R := RInt (fun x => exp (- a ^ 2 * x ^ 2) * cos (u * x)) 0 T.
Definition GC' (T u : R) : R := RInt (fun x => - x * exp (- a ^ 2 * x ^ 2) * sin (u * x)) 0 T.
Lemma GC_derive : forall T u, is_derive (GC T) u (GC' T u).
Proof using All.
  intros T u. apply (RI_param (fun u x => exp (- a ^ 2 * x ^ 2) * cos (u * x)) (fun u x => - x * exp (- a ^ 2 * x ^ 2) * sin (u * x))).
  - intros v x. auto_derive; [exact I|]. cbn [pow]. ring.
  - intros x. apply continuity_2d_pt_mult.
    + apply (continuity_1d_2d_pt_comp (fun x => - x * exp (- a ^ 2 * x ^ 2)) (fun _ b : R => b)); [apply cont_pt; cder; exact I|apply continuity_2d_pt_id2].
    + apply (c2_comp sin (fun s x => s * x)); [exact cont_sin|]. apply continuity_2d_pt_mult; [apply continuity_2d_pt_id1|apply continuity_2d_pt_id2].
  - cder. exact I.
Qed.
Lemma GC_parts : forall T u, 1 * GC' T u + u / (2 * a ^ 2) * GC T u = exp (- a ^ 2 * T ^ 2) * sin (u * T) / (2 * a ^ 2).
Proof using All.
  intros T u. unfold GC, GC'. rewrite <- RI_lin by (cder; exact I).
  rewrite (RI_ftc (fun x => exp (- a ^ 2 * x ^ 2) * sin (u * x) / (2 * a ^ 2))).
  - rewrite Rmult_0_r, sin_0. unfold Rdiv. ring.
  - intros x. auto_derive; [exact I|]. cbn [pow]. field. lra.
  - cder. exact I.
Qed.
Lemma a2_pos : 0 < a ^ 2. Proof using All. apply pow_lt, Ha. Qed.
Lemma cos1_pair : filterlim (fun T => GC T b) pinf (locally (sqrt PI * exp (- b ^ 2 / (4 * a ^ 2)) / (2 * a))).
Proof using All.
  pose proof a2_pos as A2. replace (sqrt PI * exp (- b ^ 2 / (4 * a ^ 2)) / (2 * a)) with (sqrt PI / (2 * a) * exp (- (b * b) / (4 * a ^ 2))).
  2:{ replace (- (b * b) / (4 * a ^ 2)) with (- b ^ 2 / (4 * a ^ 2)) by (field; lra). field. lra. }
  apply (gauss_ode GC GC' (fun T => / (2 * a ^ 2) * (T ^ 0 * exp (- (a ^ 2 * (T * T))))) (a ^ 2) (sqrt PI / (2 * a)) b A2).
  - apply GC_derive.
  - intros T u HT. rewrite <- (Rmult_1_l (GC' T u)), GC_parts. cbn [pow]. unfold Rdiv. rewrite !Rabs_mult, (Rabs_pos_eq (exp _)), (Rabs_pos_eq (/ _)) by (left; try apply exp_pos; apply Rinv_0_lt_compat; cbn [pow] in A2; lra).
    replace (- (a * (a * 1)) * (T * (T * 1))) with (- (a * (a * 1) * (T * T))) by ring. pose proof (abs_sin (u * T)). pose proof (exp_pos (- (a * (a * 1) * (T * T)))). assert (0 < / (2 * (a * (a * 1)))) by (apply Rinv_0_lt_compat; cbn [pow] in A2; lra). pose proof (Rabs_pos (sin (u * T))).
    rewrite Rmult_1_l, (Rmult_comm (/ _)). apply Rmult_le_compat_r; [lra|]. nra.
  - replace 0 with (/ (2 * a ^ 2) * 0) at 1 by ring. apply filterlim_Rmult; [apply filterlim_Rconst|]. now apply gauss_dec.
  - apply (lim_ext (fun T => / a * gi (a * T))).
    + intros T. unfold GC. replace (/ a * gi (a * T)) with (/ a * gi (a * T) - / a * gi (a * 0)).
      * symmetry. apply (RI_ftc (fun x => / a * gi (a * x))); [|cder; exact I]. intros x. pose proof (gi_derive (a * x)) as D. assert (ED : ex_derive gi (a * x)) by (eexists; exact D). auto_derive; [exact ED|].
        change (Derive (fun x0 => gi x0) (a * x)) with (Derive gi (a * x)). rewrite (is_derive_unique _ _ _ D). rewrite Rmult_0_l, cos_0. replace (- a ^ 2 * x ^ 2) with (- (a * x * (a * x))) by ring. field. lra.
      * rewrite Rmult_0_r. replace (gi 0) with 0; [ring|]. unfold gi. symmetry. apply (RInt_point (V := V)).
    + replace (sqrt PI / (2 * a)) with (/ a * (sqrt PI / 2)) by (field; lra). apply filterlim_Rmult; [apply filterlim_Rconst|]. apply (filterlim_comp _ _ _ (fun T => a * T) gi _ pinf); [now apply lim_lin|apply gi_lim].
  - exact Hb.
Qed.
Lemma sin1_pair : filterlim (fun T => RInt (fun x => x * exp (- a ^ 2 * x ^ 2) * sin (b * x)) 0 T) pinf (locally (sqrt PI * b * exp (- b ^ 2 / (4 * a ^ 2)) / (4 * a ^ 3))).
Proof using All.
  pose proof a2_pos as A2. apply (lim_ext (fun T => b / (2 * a ^ 2) * GC T b - / (2 * a ^ 2) * (exp (- a ^ 2 * T ^ 2) * sin (b * T)))).
  - intros T. transitivity (- GC' T b); [pose proof (GC_parts T b) as P; unfold Rdiv in *; lra|]. unfold GC'.
    transitivity (RInt (fun x => -1 * (- x * exp (- a ^ 2 * x ^ 2) * sin (b * x)) + 0 * 0) 0 T).
    + rewrite (RI_lin (fun x => - x * exp (- a ^ 2 * x ^ 2) * sin (b * x)) (fun _ => 0)) by (cder; exact I). ring.
    + apply RInt_ext. intros x _. match goal with |- ?a = ?b => change (@eq R a b) end. ring.
  - replace (sqrt PI * b * exp (- b ^ 2 / (4 * a ^ 2)) / (4 * a ^ 3)) with (b / (2 * a ^ 2) * (sqrt PI * exp (- b ^ 2 / (4 * a ^ 2)) / (2 * a)) - 0) by (field; lra).
    apply filterlim_Rminus; [apply filterlim_Rmult; [apply filterlim_Rconst|apply cos1_pair]|].
    replace 0 with (/ (2 * a ^ 2) * 0) at 1 by ring. apply filterlim_Rmult; [apply filterlim_Rconst|]. apply (lim_le _ (fun T => T ^ 0 * exp (- (a ^ 2 * (T * T)))) 0); [|now apply gauss_dec].
    intros T HT. rewrite Rabs_mult, (Rabs_pos_eq (exp _)) by (left; apply exp_pos). replace (- a ^ 2 * T ^ 2) with (- (a ^ 2 * (T * T))) by ring. pose proof (abs_sin (b * T)). pose proof (exp_pos (- (a ^ 2 * (T * T)))). rewrite pow_O. nra.
Qed.

(** Gaussian Hankel pairs *)
Definition GH (T u : R) : R := RInt (fun x => x * exp (- a * x ^ 2) * J0 (u * x)) 0 T.
Definition GH' (T u : R) : R := RInt (fun x => - (x ^ 2 * exp (- a * x ^ 2)) * J1 (u * x)) 0 T.
Lemma cJ0 : forall u x, continuous (fun x => J0 (u * x)) x. Proof using All. intros. apply (continuous_comp (fun x => u * x) J0); [cder; exact I|apply J0_cont]. Qed.
Lemma cJ1 : forall u x, continuous (fun x => J1 (u * x)) x. Proof using All. intros. apply (continuous_comp (fun x => u * x) J1); [cder; exact I|apply J1_cont]. Qed.
Lemma cGH : forall u x, continuous (fun x => x * exp (- a * x ^ 2) * J0 (u * x)) x.
Proof using All. intros u x. apply (continuous_mult (K := R_AbsRing) (fun x => x * exp (- a * x ^ 2)) (fun x => J0 (u * x))); [cder; exact I|apply cJ0]. Qed.
Lemma cGH' : forall u x, continuous (fun x => - (x ^ 2 * exp (- a * x ^ 2)) * J1 (u * x)) x.
Proof using All. intros u x. apply (continuous_mult (K := R_AbsRing) (fun x => - (x ^ 2 * exp (- a * x ^ 2))) (fun x => J1 (u * x))); [cder; exact I|apply cJ1]. Qed.
Lemma GH_derive : forall T u, is_derive (GH T) u (GH' T u).
Proof using All.
  intros T u. apply (RI_param (fun u x => x * exp (- a * x ^ 2) * J0 (u * x)) (fun u x => - (x ^ 2 * exp (- a * x ^ 2)) * J1 (u * x))).
  - intros v x. pose proof (J0_derive (v * x)) as D. assert (ED : ex_derive J0 (v * x)) by (eexists; exact D). auto_derive; [exact ED|]. change (Derive (fun x0 => J0 x0) (v * x)) with (Derive J0 (v * x)). rewrite (is_derive_unique _ _ _ D). cbn [pow]. ring.
  - intros x. apply continuity_2d_pt_mult.
    + apply (continuity_1d_2d_pt_comp (fun x => - (x ^ 2 * exp (- a * x ^ 2))) (fun _ b : R => b)); [apply cont_pt; cder; exact I|apply continuity_2d_pt_id2].
    + apply (c2_comp J1 (fun s x => s * x)); [exact J1_cont|]. apply continuity_2d_pt_mult; [apply continuity_2d_pt_id1|apply continuity_2d_pt_id2].
  - intros; apply cGH.
Qed.
Lemma GH_parts : forall T u, 1 * GH' T u + u / (2 * a) * GH T u = T * J1 (u * T) * exp (- a * T ^ 2) / (2 * a).
Proof using All.
  intros T u. unfold GH, GH'. rewrite <- RI_lin by (intros; first [apply cGH'|apply cGH]).
  rewrite (RI_ftc (fun x => x * J1 (u * x) * exp (- a * x ^ 2) / (2 * a))).
  - rewrite Rmult_0_l. unfold Rdiv. ring.
  - intros x. pose proof (xJ1_derive u x) as D. apply (is_derive_ext (fun x => (fun x => x * J1 (u * x)) x * (exp (- a * x ^ 2) / (2 * a)))); [intros; cbn; unfold Rdiv; ring|].
    assert (W : is_derive (fun x => exp (- a * x ^ 2) / (2 * a)) x (- x * exp (- a * x ^ 2))) by (auto_derive; [exact I|unfold Rdiv; cbn [pow]; field; lra]).
    pose proof (is_derive_mult (K := R_AbsRing) (fun x => x * J1 (u * x)) (fun x => exp (- a * x ^ 2) / (2 * a)) x _ _ D W Rmult_comm) as Q. eapply eq_ind; [exact Q|]. unfold plus, mult; cbn [plus mult]. unfold plus, mult; cbn -[pow]. field. lra.
  - intros x. apply (continuous_plus (V := R_NormedModule) (fun x => 1 * (- (x ^ 2 * exp (- a * x ^ 2)) * J1 (u * x))) (fun x => u / (2 * a) * (x * exp (- a * x ^ 2) * J0 (u * x)))).
    + apply (continuous_mult (K := R_AbsRing) (fun _ => 1)); [apply continuous_const|apply cGH'].
    + apply (continuous_mult (K := R_AbsRing) (fun _ => u / (2 * a))); [apply continuous_const|apply cGH].
Qed.
Lemma j0_1_pair : filterlim (fun T => GH T b) pinf (locally (exp (- b ^ 2 / (4 * a)) / (2 * a))).
Proof using All.
  replace (exp (- b ^ 2 / (4 * a)) / (2 * a)) with (/ (2 * a) * exp (- (b * b) / (4 * a))).
  2:{ replace (- (b * b) / (4 * a)) with (- b ^ 2 / (4 * a)) by (field; lra). field. lra. }
  apply (gauss_ode GH GH' (fun T => / (2 * a) * (T ^ 1 * exp (- (a * (T * T))))) a (/ (2 * a)) b Ha).
  - apply GH_derive.
  - intros T u HT. rewrite <- (Rmult_1_l (GH' T u)), GH_parts. unfold Rdiv. rewrite !Rabs_mult, (Rabs_pos_eq (exp _)), (Rabs_pos_eq (/ _)), (Rabs_pos_eq T) by first [exact HT|left; apply exp_pos|left; apply Rinv_0_lt_compat; lra].
    replace (- a * T ^ 2) with (- (a * (T * T))) by ring. pose proof (J1_abs (u * T)). pose proof (exp_pos (- (a * (T * T)))). assert (0 < / (2 * a)) by (apply Rinv_0_lt_compat; lra). pose proof (Rabs_pos (J1 (u * T))).
    rewrite pow_1, (Rmult_comm (/ _)). apply Rmult_le_compat_r; [lra|]. apply Rmult_le_compat_r; [lra|]. nra.
  - replace 0 with (/ (2 * a) * 0) at 1 by ring. apply filterlim_Rmult; [apply filterlim_Rconst|]. now apply gauss_dec.
  - apply (lim_ext (fun T => / (2 * a) - / (2 * a) * (T ^ 0 * exp (- (a * (T * T)))))).
    + intros T. unfold GH. rewrite (RI_ftc (fun x => - (exp (- a * x ^ 2) / (2 * a)))).
      * rewrite pow_O. replace (- a * T ^ 2) with (- (a * (T * T))) by ring. replace (- a * 0 ^ 2) with 0 by ring. rewrite exp_0. field. lra.
      * intros x. rewrite Rmult_0_l, J0_0. auto_derive; [exact I|]. unfold Rdiv. cbn [pow]. field. lra.
      * intros x. apply cGH.
    + apply (lim_eq _ (/ (2 * a) - / (2 * a) * 0)); [|match goal with |- ?x = ?y => change (@eq R x y) end; ring]. apply filterlim_Rminus; [apply filterlim_Rconst|]. apply filterlim_Rmult; [apply filterlim_Rconst|]. now apply gauss_dec.
  - exact Hb.
Qed.
Lemma j1_1_pair : filterlim (fun T => RInt (fun x => x ^ 2 * exp (- a * x ^ 2) * J1 (b * x)) 0 T) pinf (locally (b / (4 * a ^ 2) * exp (- b ^ 2 / (4 * a)))).
Proof using All.
  apply (lim_ext (fun T => b / (2 * a) * GH T b - / (2 * a) * (T * J1 (b * T) * exp (- a * T ^ 2)))).
  - intros T. transitivity (- GH' T b); [pose proof (GH_parts T b) as P; unfold Rdiv in *; lra|]. unfold GH'.
    transitivity (RInt (fun x => -1 * (- (x ^ 2 * exp (- a * x ^ 2)) * J1 (b * x)) + 0 * 0) 0 T).
    + rewrite (RI_lin (fun x => - (x ^ 2 * exp (- a * x ^ 2)) * J1 (b * x)) (fun _ => 0)) by (intros; first [apply cGH'|apply continuous_const]). ring.
    + apply RInt_ext. intros x _. match goal with |- ?a = ?b => change (@eq R a b) end. ring.
  - replace (b / (4 * a ^ 2) * exp (- b ^ 2 / (4 * a))) with (b / (2 * a) * (exp (- b ^ 2 / (4 * a)) / (2 * a)) - 0) by (field; lra).
    apply filterlim_Rminus; [apply filterlim_Rmult; [apply filterlim_Rconst|apply j0_1_pair]|].
    replace 0 with (/ (2 * a) * 0) at 1 by ring. apply filterlim_Rmult; [apply filterlim_Rconst|]. apply (lim_le _ (fun T => T ^ 1 * exp (- (a * (T * T)))) 0); [|now apply gauss_dec].
    intros T HT. rewrite !Rabs_mult, (Rabs_pos_eq (exp _)), (Rabs_pos_eq T) by first [lra|left; apply exp_pos]. replace (- a * T ^ 2) with (- (a * (T * T))) by ring. pose proof (J1_abs (b * T)). pose proof (exp_pos (- (a * (T * T)))). pose proof (Rabs_pos (J1 (b * T))). rewrite pow_1. apply Rmult_le_compat_r; [lra|]. nra.
Qed.
End Gau.

(** *** rational functions *)
Section Rat.
Variable a : R.
Hypothesis Ha : 0 < a.
Lemma q_pos : forall x, 0 < a ^ 2 + x ^ 2. Proof using All. intros x. assert (0 < a ^ 2) by (apply pow_lt, Ha). pose proof (pow2_ge_0 x). lra. Qed.
Ltac qq := match goal with |- context [a * (a * 1) + ?x * (?x * 1)] => pose proof (q_pos x) as QQ; cbn [pow] in QQ; lra | |- context [a ^ 2 + ?x ^ 2] => pose proof (q_pos x) as QQ; lra | _ => exact I end.
Ltac cdq := intros; match goal with |- continuous ?f ?x => apply (ex_derive_continuous f); auto_derive; repeat split; try qq end.
Definition RF (T u : R) : R := RInt (fun x => 1 / (a ^ 2 + x ^ 2) * cos (u * x)) 0 T.
Definition RF1 (T u : R) : R := RInt (fun x => - (x / (a ^ 2 + x ^ 2)) * sin (u * x)) 0 T.
Definition RF2 (T u : R) : R := RInt (fun x => - (x ^ 2 / (a ^ 2 + x ^ 2)) * cos (u * x)) 0 T.
Lemma RF_derive : forall T u, is_derive (RF T) u (RF1 T u).
Proof using All.
  intros T u. apply (RI_param (fun u x => 1 / (a ^ 2 + x ^ 2) * cos (u * x)) (fun u x => - (x / (a ^ 2 + x ^ 2)) * sin (u * x))).
  - intros v x. auto_derive; [exact I|]. unfold Rdiv. cbn [pow]. ring.
  - intros x. apply continuity_2d_pt_mult.
    + apply (continuity_1d_2d_pt_comp (fun x => - (x / (a ^ 2 + x ^ 2))) (fun _ b : R => b)); [apply cont_pt; cdq|apply continuity_2d_pt_id2].
    + apply (c2_comp sin (fun s x => s * x)); [exact cont_sin|]. apply continuity_2d_pt_mult; [apply continuity_2d_pt_id1|apply continuity_2d_pt_id2].
  - cdq.
Qed.
Lemma RF1_derive : forall T u, is_derive (RF1 T) u (RF2 T u).
Proof using All.
  intros T u. apply (RI_param (fun u x => - (x / (a ^ 2 + x ^ 2)) * sin (u * x)) (fun u x => - (x ^ 2 / (a ^ 2 + x ^ 2)) * cos (u * x))).
  - intros v x. auto_derive; [exact I|]. unfold Rdiv. cbn [pow]. ring.
  - intros x. apply continuity_2d_pt_mult.
    + apply (continuity_1d_2d_pt_comp (fun x => - (x ^ 2 / (a ^ 2 + x ^ 2))) (fun _ b : R => b)); [apply cont_pt; cdq|apply continuity_2d_pt_id2].
    + apply (c2_comp cos (fun s x => s * x)); [exact cont_cos|]. apply continuity_2d_pt_mult; [apply continuity_2d_pt_id1|apply continuity_2d_pt_id2].
  - cdq.
Qed.
Lemma RF2_eq : forall T u, u <> 0 -> RF2 T u = a ^ 2 * RF T u - sin (u * T) / u.
Proof using All.
  intros T u N. assert (E : RInt (fun x => cos (u * x)) 0 T = sin (u * T) / u).
  { rewrite (RI_ftc (fun x => sin (u * x) / u)); [rewrite Rmult_0_r, sin_0; unfold Rdiv; match goal with |- ?p = ?q => change (@eq R p q) end; ring| |cder; exact I]. intros x. auto_derive; [exact I|]. unfold Rdiv. field. exact N. }
  rewrite <- E. transitivity (a ^ 2 * RF T u + -1 * RInt (fun x => cos (u * x)) 0 T); [|match goal with |- ?p = ?q => change (@eq R p q) end; ring]. unfold RF, RF2. rewrite <- (RI_lin (fun x => 1 / (a ^ 2 + x ^ 2) * cos (u * x)) (fun x => cos (u * x))); [|cdq|cder; exact I].
  apply RInt_ext. intros x _. match goal with |- ?p = ?q => change (@eq R p q) end. pose proof (q_pos x). field. lra.
Qed.
Lemma RF_small : forall T u, 0 <= T -> Rabs (RF T u) <= T / a ^ 2.
Proof using All.
  intros T u HT. assert (A2 : 0 < a ^ 2) by (apply pow_lt, Ha). eapply Rle_trans; [apply (RI_bound _ (fun _ => / a ^ 2) 0 T HT)|].
  - cdq.
  - intros; apply continuous_const.
  - intros x Hx. rewrite Rabs_mult. pose proof (abs_cos (u * x)). pose proof (Rabs_pos (cos (u * x))). pose proof (q_pos x) as Q. unfold Rdiv. rewrite Rmult_1_l. assert (0 < / (a ^ 2 + x ^ 2)) by now apply Rinv_0_lt_compat. rewrite (Rabs_pos_eq (/ _)) by lra.
    assert (/ (a ^ 2 + x ^ 2) <= / a ^ 2) by (apply Rinv_le_contravar; [exact A2|pose proof (pow2_ge_0 x); lra]). nra.
  - rewrite (RInt_const (V := V)). unfold scal; cbn; unfold mult; cbn. right. field. lra.
Qed.
Lemma sin_abs : forall y, Rabs (sin y) <= Rabs y.
Proof using All.
  assert (P : forall y, 0 <= y -> Rabs (sin y) <= y).
  { intros y Hy. assert (D := dom sin (fun x => x) cos (fun _ => 1) 0 y Hy). rewrite sin_0, !Rminus_0_r in D. apply D; intros.
    - auto_derive; [exact I|ring].
    - auto_derive; [exact I|reflexivity].
    - apply abs_cos. }
  intros y. destruct (Rle_dec 0 y) as [H|H]; [rewrite (Rabs_pos_eq y) by exact H; now apply P|]. rewrite <- (Rabs_Ropp y), <- (Rabs_Ropp (sin y)), <- sin_neg. rewrite (Rabs_pos_eq (- y)) by lra. apply P. lra.
Qed.
Lemma RF1_small : forall T u, 0 <= T -> Rabs (RF1 T u) <= T * (T / a ^ 2).
Proof using All.
  intros T u HT. assert (A2 : 0 < a ^ 2) by (apply pow_lt, Ha). eapply Rle_trans; [apply (RI_bound _ (fun _ => T / a ^ 2) 0 T HT)|].
  - cdq.
  - intros; apply continuous_const.
  - intros x Hx. rewrite Rabs_mult, Rabs_Ropp. pose proof (abs_sin (u * x)). pose proof (Rabs_pos (sin (u * x))). pose proof (q_pos x) as Q. unfold Rdiv. assert (0 < / (a ^ 2 + x ^ 2)) by now apply Rinv_0_lt_compat. rewrite Rabs_mult, (Rabs_pos_eq (/ _)), (Rabs_pos_eq x) by lra.
    assert (L : / (a ^ 2 + x ^ 2) <= / a ^ 2) by (apply Rinv_le_contravar; [exact A2|pose proof (pow2_ge_0 x); lra]). assert (P : x * / (a ^ 2 + x ^ 2) <= T * / a ^ 2) by (apply Rmult_le_compat; lra). assert (0 <= x * / (a ^ 2 + x ^ 2)) by (apply Rmult_le_pos; lra). nra.
  - rewrite (RInt_const (V := V)). unfold scal; cbn; unfold mult; cbn. right. field. lra.
Qed.
Lemma RF1_near : forall T u, 0 <= T -> 0 <= u -> Rabs (RF1 T u) <= u * T.
Proof using All.
  intros T u HT Hu. eapply Rle_trans; [apply (RI_bound _ (fun _ => u) 0 T HT)|].
  - cdq.
  - intros; apply continuous_const.
  - intros x Hx. rewrite Rabs_mult, Rabs_Ropp. pose proof (sin_abs (u * x)) as S. pose proof (Rabs_pos (sin (u * x))). pose proof (q_pos x) as Q. unfold Rdiv. assert (I0 : 0 < / (a ^ 2 + x ^ 2)) by now apply Rinv_0_lt_compat. rewrite Rabs_mult, (Rabs_pos_eq (/ _)), (Rabs_pos_eq x) by lra.
    rewrite (Rabs_pos_eq (u * x)) in S by nra. assert (K : x ^ 2 * / (a ^ 2 + x ^ 2) <= 1). { apply Rmult_le_reg_r with (a ^ 2 + x ^ 2); [exact Q|]. rewrite Rmult_assoc, Rinv_l by lra. assert (0 < a ^ 2) by (apply pow_lt, Ha). lra. }
    eapply Rle_trans; [apply Rmult_le_compat_l; [apply Rmult_le_pos; lra|exact S]|]. replace (x * / (a ^ 2 + x ^ 2) * (u * x)) with (u * (x ^ 2 * / (a ^ 2 + x ^ 2))) by ring. nra.
  - rewrite (RInt_const (V := V)). unfold scal; cbn; unfold mult; cbn. right. ring.
Qed.
Definition RH (T u : R) : R := RF1 T u + a * RF T u.
Definition RX (T u : R) : R := RH T u * exp (- (a * u)) - cos (u * T) * exp (- (a * u)) / (u * T).
Definition RY (T u : R) : R := exp (- (a * u)) / (u * T).
Lemma RX_dom : forall T u B, 0 < T -> 0 < u -> u <= B -> Rabs (RX T B - RX T u) <= RY T u.
Proof using All.
  intros T u B HT Hu HB. assert (D := dom (RX T) (fun u => - RY T u) (fun u => cos (u * T) / T * (exp (- (a * u)) * (a / u + / (u * u)))) (fun u => / T * (exp (- (a * u)) * (a / u + / (u * u)))) u B HB).
  assert (P : 0 < RY T B) by (unfold RY; apply Rdiv_lt_0_compat; [apply exp_pos|nra]). eapply Rle_trans; [apply D|lra].
  - intros x Hx. unfold RX, RH. pose proof (RF_derive T x) as D0. pose proof (RF1_derive T x) as D1. assert (E0 : ex_derive (RF T) x) by (eexists; exact D0). assert (E1 : ex_derive (RF1 T) x) by (eexists; exact D1).
    auto_derive; [repeat split; try assumption; nra|]. change (Derive (fun x0 => RF T x0) x) with (Derive (RF T) x). change (Derive (fun x0 => RF1 T x0) x) with (Derive (RF1 T) x). rewrite (is_derive_unique _ _ _ D0), (is_derive_unique _ _ _ D1), RF2_eq by lra. field. lra.
  - intros x Hx. unfold RY. auto_derive; [repeat split; nra|]. field. lra.
  - intros x Hx. assert (0 < exp (- (a * x)) * (a / x + / (x * x))).
    { apply Rmult_lt_0_compat; [apply exp_pos|]. assert (0 < a / x) by (apply Rdiv_lt_0_compat; lra). assert (0 < / (x * x)) by (apply Rinv_0_lt_compat; nra). lra. }
    rewrite Rabs_mult. rewrite (Rabs_pos_eq (_ * _)) by lra. apply Rmult_le_compat_r; [lra|]. unfold Rdiv. rewrite Rabs_mult. assert (0 < / T) by now apply Rinv_0_lt_compat. rewrite (Rabs_pos_eq (/ T)) by lra. pose proof (abs_cos (x * T)). nra.
Qed.
Lemma RX_lim : forall T, 0 < T -> filterlim (RX T) pinf (locally 0).
Proof using All.
  intros T HT. assert (A2 : 0 < a ^ 2) by (apply pow_lt, Ha). apply (lim_le _ (fun u => (T * (T / a ^ 2) + a * (T / a ^ 2) + / T) * (u ^ 0 * exp (- (a * u)))) 1); [|now apply pow_dec_lim].
  intros u Hu. unfold RX. replace (RH T u * exp (- (a * u)) - cos (u * T) * exp (- (a * u)) / (u * T)) with ((RH T u - cos (u * T) / (u * T)) * exp (- (a * u))) by (field; lra).
  rewrite Rabs_mult, (Rabs_pos_eq (exp _)), pow_O, Rmult_1_l by (left; apply exp_pos). apply Rmult_le_compat_r; [left; apply exp_pos|].
  eapply Rle_trans; [apply Rabs_triang|]. rewrite Rabs_Ropp. apply Rplus_le_compat.
  - unfold RH. eapply Rle_trans; [apply Rabs_triang|]. rewrite Rabs_mult, (Rabs_pos_eq a) by lra. apply Rplus_le_compat; [apply RF1_small; lra|]. apply Rmult_le_compat_l; [lra|]. apply RF_small. lra.
  - unfold Rdiv. rewrite Rabs_mult, Rinv_mult. assert (0 < / T) by now apply Rinv_0_lt_compat. assert (0 < / u <= 1) by (split; [apply Rinv_0_lt_compat; lra|rewrite <- Rinv_1; apply Rinv_le_contravar; lra]). rewrite (Rabs_pos_eq (_ * _)) by nra. pose proof (abs_cos (u * T)). pose proof (Rabs_pos (cos (u * T))). assert (0 <= / u * / T <= / T) by nra. nra.
Qed.
Lemma RH_bound : forall T u, 0 < T -> 0 < u -> Rabs (RH T u) <= 2 / (u * T).
Proof using All.
  intros T u HT Hu. assert (Y0 : 0 < RY T u) by (unfold RY; apply Rdiv_lt_0_compat; [apply exp_pos|nra]).
  assert (XB : Rabs (RX T u) <= RY T u).
  { destruct (Rle_dec (Rabs (RX T u)) (RY T u)) as [H|H]; [exact H|exfalso]. apply Rnot_le_lt in H. destruct (proj1 (lim_eps _ _) (RX_lim T HT) (Rabs (RX T u) - RY T u)) as [B HB]; [lra|].
    specialize (HB (Rmax B u + 1)). pose proof (Rmax_l B u). pose proof (Rmax_r B u). assert (L : B < Rmax B u + 1) by lra. specialize (HB L). rewrite Rminus_0_r in HB. assert (D := RX_dom T u (Rmax B u + 1) HT Hu ltac:(lra)).
    assert (Q : Rabs (RX T u) <= Rabs (RX T (Rmax B u + 1)) + Rabs (RX T (Rmax B u + 1) - RX T u)).
    { replace (RX T u) with (RX T (Rmax B u + 1) + - (RX T (Rmax B u + 1) - RX T u)) at 1 by ring. eapply Rle_trans; [apply Rabs_triang|]. rewrite Rabs_Ropp. lra. }
    lra. }
  assert (E : RH T u = (RX T u + cos (u * T) * RY T u) * exp (a * u)).
  { unfold RX, RY. transitivity (RH T u * (exp (- (a * u)) * exp (a * u))); [rewrite <- exp_plus; replace (- (a * u) + a * u) with 0 by ring; rewrite exp_0; ring|]. field. lra. }
  rewrite E, Rabs_mult, (Rabs_pos_eq (exp _)) by (left; apply exp_pos).
  replace (2 / (u * T)) with (2 * RY T u * exp (a * u)).
  - apply Rmult_le_compat_r; [left; apply exp_pos|]. eapply Rle_trans; [apply Rabs_triang|]. rewrite Rabs_mult, (Rabs_pos_eq (RY T u)) by lra. pose proof (abs_cos (u * T)). nra.
  - unfold RY. transitivity (2 / (u * T) * (exp (- (a * u)) * exp (a * u))); [field; lra|]. rewrite <- exp_plus. replace (- (a * u) + a * u) with 0 by ring. rewrite exp_0. ring.
Qed.
Lemma RW_bound : forall T b, 0 < T -> 1 / T <= b -> Rabs (RF T b * exp (a * b) - RF T (1 / T) * exp (a * (1 / T))) <= exp (a * b) * (4 * sqrt b / sqrt T).
Proof using All.
  intros T b HT Hb. assert (IT : 0 < 1 / T) by (apply Rdiv_lt_0_compat; lra). assert (ST : 0 < sqrt T) by now apply sqrt_lt_R0.
  assert (D := dom (fun u => RF T u * exp (a * u)) (fun u => exp (a * b) * (4 * sqrt u / sqrt T)) (fun u => RH T u * exp (a * u)) (fun u => exp (a * b) * (2 / (sqrt u * sqrt T))) (1 / T) b Hb). cbv beta in D.
  eapply Rle_trans; [apply D|].
  - intros u Hu. pose proof (RF_derive T u) as D0. assert (E0 : ex_derive (RF T) u) by (eexists; exact D0). auto_derive; [tauto|]. change (Derive (fun x0 => RF T x0) u) with (Derive (RF T) u). rewrite (is_derive_unique _ _ _ D0). unfold RH. ring.
  - intros u Hu. assert (0 < sqrt u) by (apply sqrt_lt_R0; lra). auto_derive; [lra|]. field. lra.
  - intros u Hu. assert (U0 : 0 < u) by lra. assert (SU : 0 < sqrt u) by (apply sqrt_lt_R0; lra). rewrite Rabs_mult, (Rabs_pos_eq (exp _)), Rmult_comm by (left; apply exp_pos). apply Rmult_le_compat; [left; apply exp_pos|apply Rabs_pos|apply exp_le_mono; nra|].
    eapply Rle_trans; [now apply RH_bound|]. unfold Rdiv. apply Rmult_le_compat_l; [lra|]. apply Rinv_le_contravar; [nra|].
    assert (UT : 1 <= u * T). { destruct Hu as [Hu _]. apply Rmult_le_compat_r with (r := T) in Hu; [|lra]. replace (1 / T * T) with 1 in Hu by (field; lra). exact Hu. }
    rewrite <- sqrt_mult by lra. rewrite <- (sqrt_square (u * T)) at 2 by nra. apply sqrt_le_1_alt. nra.
  - assert (0 <= exp (a * b) * (4 * sqrt (1 / T) / sqrt T)); [|lra]. apply Rmult_le_pos; [left; apply exp_pos|]. apply Rmult_le_pos; [pose proof (sqrt_pos (1 / T)); lra|left; now apply Rinv_0_lt_compat].
Qed.
Lemma RF_0 : forall T, RF T 0 = atan (T / a) / a.
Proof using All.
  intros T. unfold RF. rewrite (RI_ftc (fun x => atan (x / a) / a)).
  - replace (0 / a) with 0 by (unfold Rdiv; ring). rewrite atan_0. unfold Rdiv. ring.
  - intros x. rewrite Rmult_0_l, cos_0. pose proof (q_pos x) as Q. auto_derive; [exact I|]. unfold Rsqr. field. cbn [pow] in Q. repeat split; nra.
  - cdq.
Qed.
Lemma inv_lim : filterlim (fun T => 1 / T) pinf (locally 0).
Proof using All.
  apply lim_eps. intros e He. exists (/ e). intros T HT. assert (0 < / e) by now apply Rinv_0_lt_compat. rewrite Rminus_0_r, Rabs_pos_eq by (apply Rlt_le, Rdiv_lt_0_compat; lra).
  unfold Rdiv. rewrite Rmult_1_l, <- (Rinv_inv e). apply Rinv_lt_contravar; [nra|exact HT].
Qed.
Lemma invs_lim : filterlim (fun T => / sqrt T) pinf (locally 0).
Proof using All.
  apply lim_eps. intros e He. exists (/ (e * e)). intros T HT. assert (0 < / (e * e)) by (apply Rinv_0_lt_compat; nra). assert (0 < sqrt T) by (apply sqrt_lt_R0; lra). rewrite Rminus_0_r, Rabs_pos_eq by (left; now apply Rinv_0_lt_compat).
  rewrite <- (Rinv_inv e). assert (0 < / e) by now apply Rinv_0_lt_compat. apply Rinv_lt_contravar; [nra|]. rewrite <- (sqrt_square (/ e)) by lra. apply sqrt_lt_1_alt. rewrite <- Rinv_mult. lra.
Qed.
Lemma atan_lim : filterlim atan pinf (locally (PI / 2)).
Proof using All.
  apply lim_eps. intros e He. pose proof PI_RGT_0. set (y := PI / 2 - Rmin e 1). assert (M1 : 0 < Rmin e 1 <= e) by (split; [apply Rmin_pos; lra|apply Rmin_l]). assert (M2 : Rmin e 1 <= 1) by apply Rmin_r. assert (P3 : 2 < PI) by (pose proof PI2_1; lra).
  exists (tan y). intros T HT. apply atan_increasing in HT. rewrite atan_tan in HT by (unfold y; lra). pose proof (atan_bound T) as B. apply Rabs_def1; unfold y in HT; lra.
Qed.
Lemma RF0_lim : filterlim (fun T => RF T 0) pinf (locally (PI / (2 * a))).
Proof using All.
  apply (lim_ext (fun T => atan (/ a * T) * / a)); [intros T; rewrite RF_0; unfold Rdiv; now rewrite (Rmult_comm T)|].
  apply (lim_eq _ (PI / 2 * / a)); [|match goal with |- ?x = ?y => change (@eq R x y) end; field; lra]. apply filterlim_Rmult; [|apply filterlim_Rconst].
  apply (filterlim_comp _ _ _ (fun T => / a * T) atan _ pinf); [|apply atan_lim]. intros P [N HN]. exists (N * a). intros x Hx. apply HN. apply Rmult_lt_reg_r with a; [exact Ha|]. replace (/ a * x * a) with x by (field; lra). exact Hx.
Qed.
Lemma cos3_pair : forall b, 0 <= b -> filterlim (fun T => RF T b) pinf (locally (PI * exp (- a * b) / (2 * a))).
Proof using All.
  intros b [Hb|Hb]; [|subst b; rewrite Rmult_0_r, exp_0, Rmult_1_r; exact RF0_lim].
  assert (L1 : filterlim (fun T => RF T (1 / T)) pinf (locally (PI / (2 * a)))).
  { apply (lim_ext (fun T => RF T 0 + (RF T (1 / T) - RF T 0))); [intros; ring|]. apply (lim_eq _ (PI / (2 * a) + 0)); [|match goal with |- ?x = ?y => change (@eq R x y) end; ring]. apply filterlim_Rplus; [exact RF0_lim|].
    apply (lim_le _ (fun T => 1 / T) 0); [|exact inv_lim]. intros T HT. assert (IT : 0 <= 1 / T) by (apply Rlt_le, Rdiv_lt_0_compat; lra).
    assert (D := dom (RF T) (fun u => u) (RF1 T) (fun _ => 1) 0 (1 / T) IT). rewrite Rminus_0_r in D. apply D.
    - intros u _. apply RF_derive.
    - intros u _. auto_derive; [exact I|reflexivity].
    - intros u Hu. eapply Rle_trans; [apply RF1_near; lra|]. destruct Hu as [_ Hu]. apply Rmult_le_compat_r with (r := T) in Hu; [|lra]. replace (1 / T * T) with 1 in Hu by (field; lra). exact Hu. }
  assert (L2 : filterlim (fun T => exp (a * (1 / T))) pinf (locally 1)).
  { apply (lim_eq _ (exp (a * 0))); [|rewrite Rmult_0_r; apply exp_0]. apply (filterlim_comp _ _ _ (fun T => 1 / T) (fun y => exp (a * y)) _ (locally 0)); [exact inv_lim|]. apply (ex_derive_continuous (fun y => exp (a * y)) 0). auto_derive. exact I. }
  assert (L3 : filterlim (fun T => RF T b * exp (a * b)) pinf (locally (PI / (2 * a)))).
  { apply (lim_ext (fun T => RF T (1 / T) * exp (a * (1 / T)) + (RF T b * exp (a * b) - RF T (1 / T) * exp (a * (1 / T))))); [intros; ring|].
    apply (lim_eq _ (PI / (2 * a) * 1 + 0)); [|match goal with |- ?x = ?y => change (@eq R x y) end; ring]. apply filterlim_Rplus; [now apply filterlim_Rmult|].
    apply (lim_le _ (fun T => (exp (a * b) * (4 * sqrt b)) * / sqrt T) (/ b)).
    - intros T HT. assert (0 < / b) by now apply Rinv_0_lt_compat. eapply Rle_trans; [apply RW_bound; [lra|]|right; unfold Rdiv; ring]. unfold Rdiv. rewrite Rmult_1_l, <- (Rinv_inv b). apply Rinv_le_contravar; lra.
    - apply (lim_eq _ (exp (a * b) * (4 * sqrt b) * 0)); [|match goal with |- ?x = ?y => change (@eq R x y) end; ring]. apply filterlim_Rmult; [apply filterlim_Rconst|exact invs_lim]. }
  apply (lim_ext (fun T => RF T b * exp (a * b) * exp (- a * b))).
  - intros T. rewrite Rmult_assoc, <- exp_plus. replace (a * b + - a * b) with 0 by ring. rewrite exp_0. ring.
  - apply (lim_eq _ (PI / (2 * a) * exp (- a * b))); [|match goal with |- ?x = ?y => change (@eq R x y) end; field; lra]. apply filterlim_Rmult; [exact L3|apply filterlim_Rconst].
Qed.
Lemma sin3_pair : forall b, 0 < b -> filterlim (fun T => RInt (fun x => x / (a ^ 2 + x ^ 2) * sin (b * x)) 0 T) pinf (locally (PI * exp (- a * b) / 2)).
Proof using All.
  intros b Hb. apply (lim_ext (fun T => a * RF T b - RH T b)).
  - intros T. transitivity (- RF1 T b); [unfold RH; ring|]. unfold RF1. transitivity (RInt (fun x => -1 * (- (x / (a ^ 2 + x ^ 2)) * sin (b * x)) + 0 * 0) 0 T).
    + rewrite (RI_lin (fun x => - (x / (a ^ 2 + x ^ 2)) * sin (b * x)) (fun _ => 0)); [ring|cdq|intros; apply continuous_const].
    + apply RInt_ext. intros x _. match goal with |- ?p = ?q => change (@eq R p q) end. ring.
  - apply (lim_eq _ (a * (PI * exp (- a * b) / (2 * a)) - 0)); [|match goal with |- ?x = ?y => change (@eq R x y) end; field; lra].
    apply filterlim_Rminus; [apply filterlim_Rmult; [apply filterlim_Rconst|apply cos3_pair; lra]|].
    apply (lim_le _ (fun T => 2 / b * (1 / T)) 0).
    + intros T HT. eapply Rle_trans; [apply RH_bound; lra|]. right. field. lra.
    + apply (lim_eq _ (2 / b * 0)); [|match goal with |- ?x = ?y => change (@eq R x y) end; ring]. apply filterlim_Rmult; [apply filterlim_Rconst|exact inv_lim].
Qed.
End Rat.
