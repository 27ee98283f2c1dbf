(** Time-domain half-space solutions: the impulse response is the time derivative
    of the switch-on response, and its Laplace transform is the Laplace-domain
    solution, for the direct and the reflected fields (C58). *)

From Coq Require Import ZArith Reals List Bool Lia Lra Psatz.
From Coquelicot Require Import Coquelicot.
From Verif Require Import PyBase CBase ODE Halfspace Gauss HalfspaceThm.
Import ListNotations.
Local Open Scope R_scope.

(** ** Real versions *)
Definition st0 (t u : R) := erfc (sqrt (t / u)).
Definition st1 (t u : R) := exp (- t / u) / sqrt (PI * u).
Definition st2 (t u : R) := st1 t u * (sqrt t / u).
Definition im0 (t u : R) := sqrt (t / (PI * u ^ 3)) * exp (- t / u).
Definition im1 (t u : R) := (t / u - 1 / 2) / sqrt t * im0 t u.
Definition im2 (t u : R) := (t / u - 3 / 2) / u * im0 t u.

Lemma im0_eq : forall t u, 0 < t -> 0 < u -> im0 t u = sqrt t / (sqrt PI * (u * sqrt u)) * exp (- t / u).
Proof.
  intros t u Ht Hu. unfold im0. f_equal. pose proof PI_RGT_0 as P. pose proof (sqrt_lt_R0 _ P). pose proof (sqrt_lt_R0 _ Hu). pose proof (sqrt_lt_R0 _ Ht).
  assert (Q : 0 < PI * u ^ 3) by (apply Rmult_lt_0_compat; [lra|apply pow_lt; lra]).
  apply HalfspaceThm.sqrt_u.
  - apply Rlt_le, Rdiv_lt_0_compat; [lra|]. repeat (apply Rmult_lt_0_compat; [lra|]). lra.
  - replace (sqrt t / (sqrt PI * (u * sqrt u)) * (sqrt t / (sqrt PI * (u * sqrt u)))) with ((sqrt t * sqrt t) / ((sqrt PI * sqrt PI) * (u * u * (sqrt u * sqrt u)))) by (field; repeat split; lra).
    rewrite !sqrt_sqrt by lra. field. split; lra.
Qed.
Lemma st1_eq : forall t u, 0 < u -> st1 t u = exp (- t / u) / (sqrt PI * sqrt u).
Proof. intros t u Hu. unfold st1. pose proof PI_RGT_0. rewrite sqrt_mult by lra. reflexivity. Qed.

Lemma pos_loc : forall u, 0 < u -> locally u (fun v => 0 < v).
Proof. intros u Hu. exists (mkposreal u Hu). intros v Hv. unfold ball in Hv. simpl in Hv. unfold AbsRing_ball, abs, minus, plus, opp in Hv. simpl in Hv. apply Rabs_def2 in Hv. lra. Qed.

Lemma st0_derive : forall t u, 0 < t -> 0 < u -> is_derive (st0 t) u (im0 t u).
Proof.
  intros t u Ht Hu. pose proof (sqrt_lt_R0 _ Hu) as Su. pose proof (sqrt_lt_R0 _ Ht) as Sq. pose proof sqrtPI as SP.
  assert (Q : 0 < t / u) by now apply Rdiv_lt_0_compat.
  apply (is_derive_ext_loc (fun v => erfc (sqrt t / sqrt v))).
  { apply filter_imp with (2 := pos_loc u Hu). intros v Hv. unfold st0. now rewrite sqrt_div_alt by lra. }
  pose proof (erfc_derive (sqrt t / sqrt u)) as D.
  assert (D2 : is_derive (fun v => sqrt t / sqrt v) u (- (sqrt t / (2 * (u * sqrt u))))).
  { auto_derive; [split; [lra|split; [lra|exact I]]|]. assert (E : sqrt u * sqrt u = u) by (apply sqrt_sqrt; lra). rewrite <- E at 4. field. lra. }
  replace (im0 t u) with (scal (- (sqrt t / (2 * (u * sqrt u)))) (- (2 / sqrt PI) * exp (- (sqrt t / sqrt u * (sqrt t / sqrt u))))).
  - apply (is_derive_comp erfc (fun v => sqrt t / sqrt v) u); assumption.
  - rewrite im0_eq by assumption. unfold scal. simpl. unfold mult. simpl.
    replace (sqrt t / sqrt u * (sqrt t / sqrt u)) with (t / u).
    2: { transitivity ((sqrt t * sqrt t) / (sqrt u * sqrt u)); [rewrite !sqrt_sqrt by lra; reflexivity|field; lra]. }
    replace (- (t / u)) with (- t / u) by (unfold Rdiv; ring). field. repeat split; lra.
Qed.

Lemma st1_derive : forall t u, 0 < t -> 0 < u -> is_derive (st1 t) u (im1 t u).
Proof.
  intros t u Ht Hu. pose proof (sqrt_lt_R0 _ Hu) as Su. pose proof (sqrt_lt_R0 _ Ht) as Sq. pose proof sqrtPI as SP.
  apply (is_derive_ext_loc (fun v => exp (- t / v) / (sqrt PI * sqrt v))).
  { apply filter_imp with (2 := pos_loc u Hu). intros v Hv. now rewrite st1_eq. }
  unfold im1. rewrite im0_eq by assumption.
  auto_derive; [repeat split; try lra; apply Rgt_not_eq, Rmult_lt_0_compat; lra|].
  replace (- t * / u) with (- t / u) by reflexivity. generalize (exp (- t / u)). intros e. assert (E : sqrt u * sqrt u = u) by (apply sqrt_sqrt; lra).
  assert (Eu : forall f : R -> R, f u = f (sqrt u * sqrt u)) by (intros f; now rewrite E).
  set (w := sqrt u) in *. set (a := sqrt t) in *. clearbody w a. rewrite <- E in *. clear E Eu. field. repeat split; lra.
Qed.

Lemma st2_derive : forall t u, 0 < t -> 0 < u -> is_derive (st2 t) u (im2 t u).
Proof.
  intros t u Ht Hu. pose proof (sqrt_lt_R0 _ Hu) as Su. pose proof (sqrt_lt_R0 _ Ht) as Sq. pose proof sqrtPI as SP.
  apply (is_derive_ext_loc (fun v => exp (- t / v) / (sqrt PI * sqrt v) * (sqrt t / v))).
  { apply filter_imp with (2 := pos_loc u Hu). intros v Hv. unfold st2. now rewrite st1_eq. }
  unfold im2. rewrite im0_eq by assumption.
  auto_derive; [repeat split; try lra; apply Rgt_not_eq, Rmult_lt_0_compat; lra|].
  replace (- t * / u) with (- t / u) by reflexivity. generalize (exp (- t / u)). intros e. assert (E : sqrt u * sqrt u = u) by (apply sqrt_sqrt; lra).
  set (w := sqrt u) in *. set (a := sqrt t) in *. clearbody w a. rewrite <- E in *. clear E. field. repeat split; lra.
Qed.

(** ** Laplace transforms *)
Lemma gen_antider : forall (F f : R -> R) (A B : R),
  (forall u, 0 < u -> is_derive F u (f u)) -> (forall u, 0 < u -> continuous f u) ->
  filterlim F (at_right 0) (locally A) -> filterlim F (Rbar_locally p_infty) (locally B) ->
  is_RInt_gen f (at_right 0) (Rbar_locally p_infty) (B - A).
Proof.
  intros F f A B HF Hf HA HB P HP.
  assert (L : filterlim (fun ab : R * R => F (snd ab) - F (fst ab)) (filter_prod (at_right 0) (Rbar_locally p_infty)) (locally (B - A))).
  { apply (filterlim_comp_2 (F := filter_prod (at_right 0) (Rbar_locally p_infty)) (G := locally B) (H := locally (- A)) (I := locally (B - A)) (fun ab => F (snd ab)) (fun ab => - F (fst ab)) Rplus).
    - apply (filterlim_comp _ _ _ snd F _ (Rbar_locally p_infty)); [apply filterlim_snd|exact HB].
    - apply (filterlim_comp _ _ _ (fun ab => F (fst ab)) Ropp _ (locally A)).
      + apply (filterlim_comp _ _ _ fst F _ (at_right 0)); [apply filterlim_fst|exact HA].
      + apply (filterlim_opp (V := R_NormedModule) A).
    - apply (filterlim_plus (V := R_NormedModule) B (- A)). }
  specialize (L P HP). unfold filtermapi, filtermap in *.
  assert (Pos : filter_prod (at_right 0) (Rbar_locally p_infty) (fun ab : R * R => 0 < fst ab /\ 0 < snd ab)).
  { apply Filter_prod with (fun a => 0 < a) (fun b => 0 < b); [|exists 0; trivial|intros; split; assumption].
    exists (mkposreal 1 Rlt_0_1). intros y _ Hy. exact Hy. }
  generalize (filter_and _ _ L Pos). apply filter_imp. intros [a b] [H1 [H2 H3]]. cbn [fst snd] in *.
  exists (F b - F a). split; [|exact H1].
  assert (M : forall x, Rmin a b <= x <= Rmax a b -> 0 < x).
  { intros x [Hx _]. unfold Rmin in Hx. destruct (Rle_dec a b); lra. }
  apply (is_RInt_derive (V := R_CompleteNormedModule) F f); intros x Hx; [apply HF|apply Hf]; now apply M.
Qed.

(** limits with square roots *)
Lemma sqrt_small : forall c, 0 < c -> at_right 0 (fun u => 0 < u /\ sqrt u < c).
Proof.
  intros c Hc. assert (P : 0 < c * c) by now apply Rmult_lt_0_compat. exists (mkposreal _ P). intros u Hb Hu. split; [exact Hu|].
  unfold ball in Hb. simpl in Hb. unfold AbsRing_ball, abs, minus, plus, opp in Hb. simpl in Hb. apply Rabs_def2 in Hb.
  rewrite <- (sqrt_square c) by lra. apply sqrt_lt_1; lra.
Qed.
Lemma sqrt_large : forall c, 0 < c -> Rbar_locally p_infty (fun u => 0 < u /\ c < sqrt u).
Proof.
  intros c Hc. exists (c * c). intros u Hu. assert (P : 0 < c * c) by now apply Rmult_lt_0_compat. split; [lra|].
  rewrite <- (sqrt_square c) by lra. apply sqrt_lt_1; lra.
Qed.
Lemma near0 : forall (F : (R -> Prop) -> Prop) (FF : Filter F) (f : R -> R), (forall e, 0 < e -> F (fun u => Rabs (f u) < e)) -> filterlim f F (locally 0).
Proof.
  intros F FF f H P [e He]. unfold filtermap. generalize (H e (cond_pos e)). apply filter_imp. intros u Hu. apply He.
  unfold ball. simpl. unfold AbsRing_ball, abs, minus, plus, opp. simpl. replace (f u + - 0) with (f u) by ring. exact Hu.
Qed.
(** |f| <= K sqrt u near 0 *)
Lemma lim0_0 : forall f K, 0 < K -> (forall u, 0 < u -> Rabs (f u) <= K * sqrt u) -> filterlim f (at_right 0) (locally 0).
Proof.
  intros f K HK H. apply near0; [apply at_right_proper_filter || typeclasses eauto|]. intros e He. assert (P : 0 < e / K) by now apply Rdiv_lt_0_compat.
  generalize (sqrt_small _ P). apply filter_imp. intros u [Hu Hs]. apply Rle_lt_trans with (1 := H u Hu).
  apply (Rmult_lt_compat_l K) in Hs; [|lra]. replace (K * (e / K)) with e in Hs by (field; lra). lra.
Qed.
(** |f| <= K / sqrt u at infinity *)
Lemma lim0_p : forall f K, 0 < K -> (forall u, 1 < u -> Rabs (f u) <= K / sqrt u) -> filterlim f (Rbar_locally p_infty) (locally 0).
Proof.
  intros f K HK H. apply near0; [typeclasses eauto|]. intros e He. assert (P : 0 < K / e) by now apply Rdiv_lt_0_compat.
  assert (Q : 0 < Rmax 1 (K / e)) by (apply Rlt_le_trans with 1; [lra|apply Rmax_l]).
  generalize (sqrt_large _ Q). apply filter_imp. intros u [Hu Hs].
  assert (M1 := Rmax_l 1 (K / e)). assert (M2 := Rmax_r 1 (K / e)).
  assert (U1 : 1 < u). { assert (E : sqrt u * sqrt u = u) by (apply sqrt_sqrt; lra). nra. }
  apply Rle_lt_trans with (1 := H u U1).
  apply (Rmult_lt_reg_r (sqrt u)); [lra|]. replace (K / sqrt u * sqrt u) with K by (field; lra).
  assert (X : K / e < sqrt u) by lra. apply (Rmult_lt_compat_l e) in X; [|lra]. replace (e * (K / e)) with K in X by (field; lra). exact X.
Qed.

Section Lap.
Variables (t s : R).
Hypothesis Ht : 0 < t.
Hypothesis Hs : 0 < s.
Let a := sqrt t.
Let b := sqrt s.
Lemma a_pos : 0 < a. Proof. now apply sqrt_lt_R0. Qed.
Lemma b_pos : 0 < b. Proof. now apply sqrt_lt_R0. Qed.
Lemma aa : a * a = t. Proof. apply sqrt_sqrt; lra. Qed.
Lemma bb : b * b = s. Proof. apply sqrt_sqrt; lra. Qed.

Definition uM (u : R) := a / sqrt u - b * sqrt u.
Definition uP (u : R) := a / sqrt u + b * sqrt u.
Definition eM (u : R) := erfc (uM u).
Definition eP (u : R) := erfc (uP u).

Lemma uM_0 : filterlim uM (at_right 0) (Rbar_locally p_infty).
Proof.
  intros P [M HM]. unfold filtermap. pose proof a_pos. pose proof b_pos.
  assert (Q : 0 < Rmin 1 (a / (Rabs M + b + 1))). { apply Rmin_pos; [lra|]. apply Rdiv_lt_0_compat; [lra|]. pose proof (Rabs_pos M). lra. }
  generalize (sqrt_small _ Q). apply filter_imp. intros u [Hu Hw]. apply HM.
  assert (M1 := Rmin_l 1 (a / (Rabs M + b + 1))). assert (M2 := Rmin_r 1 (a / (Rabs M + b + 1))).
  pose proof (sqrt_lt_R0 _ Hu) as Sw. set (w := sqrt u) in *. unfold uM. fold w. clearbody w.
  assert (K : Rabs M + b + 1 < a / w).
  { pose proof (Rabs_pos M). apply (Rmult_lt_reg_r w); [lra|]. replace (a / w * w) with a by (field; lra).
    assert (X : w < a / (Rabs M + b + 1)) by lra. apply (Rmult_lt_compat_l (Rabs M + b + 1)) in X; [|lra].
    replace ((Rabs M + b + 1) * (a / (Rabs M + b + 1))) with a in X by (field; lra). lra. }
  pose proof (Rle_abs M). assert (b * w < b * 1) by (apply Rmult_lt_compat_l; lra). lra.
Qed.
Lemma uP_0 : filterlim uP (at_right 0) (Rbar_locally p_infty).
Proof.
  intros P HP. unfold filtermap. generalize (uM_0). intros U. destruct HP as [M HM].
  assert (HQ : Rbar_locally p_infty (fun v => M < v)) by (exists M; trivial).
  specialize (U _ HQ). unfold filtermap in U. assert (Pos : at_right 0 (fun u => 0 < u)) by (exists (mkposreal 1 Rlt_0_1); intros; assumption).
  generalize (filter_and _ _ U Pos). apply filter_imp. intros u [U1 U2]. apply HM. unfold uM in U1. unfold uP.
  pose proof (sqrt_lt_R0 _ U2). pose proof b_pos. assert (0 < b * sqrt u) by now apply Rmult_lt_0_compat. lra.
Qed.
Lemma uM_p : filterlim uM (Rbar_locally p_infty) (Rbar_locally m_infty).
Proof.
  intros P [M HM]. unfold filtermap. pose proof a_pos. pose proof b_pos.
  assert (Q : 0 < Rmax 1 ((Rabs M + a + 1) / b)) by (apply Rlt_le_trans with 1; [lra|apply Rmax_l]).
  generalize (sqrt_large _ Q). apply filter_imp. intros u [Hu Hw]. apply HM.
  assert (M1 := Rmax_l 1 ((Rabs M + a + 1) / b)). assert (M2 := Rmax_r 1 ((Rabs M + a + 1) / b)).
  pose proof (sqrt_lt_R0 _ Hu) as Sw. set (w := sqrt u) in *. unfold uM. fold w. clearbody w.
  assert (K : Rabs M + a + 1 < b * w).
  { assert (X : (Rabs M + a + 1) / b < w) by lra. apply (Rmult_lt_compat_l b) in X; [|lra].
    replace (b * ((Rabs M + a + 1) / b)) with (Rabs M + a + 1) in X by (field; lra). lra. }
  assert (a / w < a). { apply (Rmult_lt_reg_r w); [lra|]. replace (a / w * w) with a by (field; lra). rewrite <- (Rmult_1_r a) at 1. apply Rmult_lt_compat_l; lra. }
  pose proof (Rle_abs (- M)). rewrite Rabs_Ropp in *. lra.
Qed.
Lemma uP_p : filterlim uP (Rbar_locally p_infty) (Rbar_locally p_infty).
Proof.
  intros P [M HM]. unfold filtermap. pose proof a_pos. pose proof b_pos.
  assert (HQ : Rbar_locally m_infty (fun v => v < - M)) by (exists (- M); trivial).
  generalize (uM_p _ HQ). intros U. unfold filtermap in U. assert (Pos : Rbar_locally p_infty (fun u => 0 < u)) by (exists 0; trivial).
  generalize (filter_and _ _ U Pos). apply filter_imp. intros u [U1 U2]. apply HM. unfold uM in U1. unfold uP.
  pose proof (sqrt_lt_R0 _ U2). assert (0 < a / sqrt u) by (apply Rdiv_lt_0_compat; lra). lra.
Qed.

Lemma eM_0 : filterlim eM (at_right 0) (locally 0).
Proof. exact (filterlim_comp _ _ _ uM erfc _ _ _ uM_0 erfc_p). Qed.
Lemma eP_0 : filterlim eP (at_right 0) (locally 0).
Proof. exact (filterlim_comp _ _ _ uP erfc _ _ _ uP_0 erfc_p). Qed.
Lemma eM_p : filterlim eM (Rbar_locally p_infty) (locally 2).
Proof. exact (filterlim_comp _ _ _ uM erfc _ _ _ uM_p erfc_m). Qed.
Lemma eP_p : filterlim eP (Rbar_locally p_infty) (locally 0).
Proof. exact (filterlim_comp _ _ _ uP erfc _ _ _ uP_p erfc_p). Qed.

Definition Ee (u : R) := exp (- t / u) * exp (- (s * u)).
Lemma Ee_M : forall u, 0 < u -> exp (- 2 * (a * b)) * exp (- (uM u * uM u)) = Ee u.
Proof.
  intros u Hu. unfold Ee. rewrite <- !exp_plus. apply f_equal. unfold uM. rewrite <- aa, <- bb. pose proof (sqrt_lt_R0 _ Hu).
  assert (E : sqrt u * sqrt u = u) by (apply sqrt_sqrt; lra). rewrite <- E at 5 6. field. lra.
Qed.
Lemma Ee_P : forall u, 0 < u -> exp (2 * (a * b)) * exp (- (uP u * uP u)) = Ee u.
Proof.
  intros u Hu. unfold Ee. rewrite <- !exp_plus. apply f_equal. unfold uP. rewrite <- aa, <- bb. pose proof (sqrt_lt_R0 _ Hu).
  assert (E : sqrt u * sqrt u = u) by (apply sqrt_sqrt; lra). rewrite <- E at 5 6. field. lra.
Qed.

Lemma eM_derive : forall u, 0 < u -> is_derive eM u ((a / (2 * (u * sqrt u)) + b / (2 * sqrt u)) * (2 / sqrt PI) * exp (- (uM u * uM u))).
Proof.
  intros u Hu. pose proof (sqrt_lt_R0 _ Hu).
  assert (D : is_derive uM u (- (a / (2 * (u * sqrt u)) + b / (2 * sqrt u)))).
  { unfold uM. auto_derive; [repeat split; lra|]. assert (E : sqrt u * sqrt u = u) by (apply sqrt_sqrt; lra). set (w := sqrt u) in *. clearbody w. rewrite <- E. field. lra. }
  replace ((a / (2 * (u * sqrt u)) + b / (2 * sqrt u)) * (2 / sqrt PI) * exp (- (uM u * uM u))) with
    (scal (- (a / (2 * (u * sqrt u)) + b / (2 * sqrt u))) (- (2 / sqrt PI) * exp (- (uM u * uM u)))).
  - apply (is_derive_comp erfc uM u); [apply erfc_derive|exact D].
  - unfold scal. simpl. unfold mult. simpl. ring.
Qed.
Lemma eP_derive : forall u, 0 < u -> is_derive eP u ((a / (2 * (u * sqrt u)) - b / (2 * sqrt u)) * (2 / sqrt PI) * exp (- (uP u * uP u))).
Proof.
  intros u Hu. pose proof (sqrt_lt_R0 _ Hu).
  assert (D : is_derive uP u (- (a / (2 * (u * sqrt u)) - b / (2 * sqrt u)))).
  { unfold uP. auto_derive; [repeat split; lra|]. assert (E : sqrt u * sqrt u = u) by (apply sqrt_sqrt; lra). set (w := sqrt u) in *. clearbody w. rewrite <- E. field. lra. }
  replace ((a / (2 * (u * sqrt u)) - b / (2 * sqrt u)) * (2 / sqrt PI) * exp (- (uP u * uP u))) with
    (scal (- (a / (2 * (u * sqrt u)) - b / (2 * sqrt u))) (- (2 / sqrt PI) * exp (- (uP u * uP u)))).
  - apply (is_derive_comp erfc uP u); [apply erfc_derive|exact D].
  - unfold scal. simpl. unfold mult. simpl. ring.
Qed.

(** p, q: coefficients of the two terms *)
Definition comb (p q : R) (u : R) := p * (exp (- 2 * (a * b)) * eM u) + q * (exp (2 * (a * b)) * eP u).
Lemma comb_derive : forall p q u, 0 < u -> is_derive (comb p q) u
  (Ee u / sqrt PI * (p * (a / (u * sqrt u) + b / sqrt u) + q * (a / (u * sqrt u) - b / sqrt u))).
Proof.
  intros p q u Hu. pose proof (eM_derive u Hu) as D1. pose proof (eP_derive u Hu) as D2. pose proof (Ee_M u Hu) as E1. pose proof (Ee_P u Hu) as E2.
  assert (F1 : Derive eM u = (a / (2 * (u * sqrt u)) + b / (2 * sqrt u)) * (2 / sqrt PI) * exp (- (uM u * uM u))) by (apply is_derive_unique; exact D1).
  assert (F2 : Derive eP u = (a / (2 * (u * sqrt u)) - b / (2 * sqrt u)) * (2 / sqrt PI) * exp (- (uP u * uP u))) by (apply is_derive_unique; exact D2).
  unfold comb. auto_derive; [split; [eexists; exact D1|split; [eexists; exact D2|exact I]]|].
  change (Derive (fun x => eM x) u) with (Derive eM u). change (Derive (fun x => eP x) u) with (Derive eP u). rewrite F1, F2.
  pose proof (sqrt_lt_R0 _ Hu). pose proof sqrtPI.
  match goal with |- ?L = _ => transitivity (p * ((a / (2 * (u * sqrt u)) + b / (2 * sqrt u)) * (2 / sqrt PI) * (exp (- 2 * (a * b)) * exp (- (uM u * uM u)))) + q * ((a / (2 * (u * sqrt u)) - b / (2 * sqrt u)) * (2 / sqrt PI) * (exp (2 * (a * b)) * exp (- (uP u * uP u))))); [ring|] end.
  rewrite E1, E2. field. repeat split; lra.
Qed.
Lemma lim_lin2 : forall (F : (R -> Prop) -> Prop) (FF : Filter F) (f g : R -> R) (l m c d : R), filterlim f F (locally l) -> filterlim g F (locally m) ->
  filterlim (fun u => c * f u + d * g u) F (locally (c * l + d * m)).
Proof.
  intros F FF f g l m c d Hf Hg.
  apply (filterlim_comp_2 (G := locally (c * l)) (H := locally (d * m)) (I := locally (c * l + d * m)) (fun u => c * f u) (fun u => d * g u) Rplus).
  - apply (filterlim_comp _ _ _ f (fun y => c * y) _ (locally l)); [exact Hf|]. apply (filterlim_scal_r (V := R_NormedModule) c l).
  - apply (filterlim_comp _ _ _ g (fun y => d * y) _ (locally m)); [exact Hg|]. apply (filterlim_scal_r (V := R_NormedModule) d m).
  - apply (filterlim_plus (V := R_NormedModule) (c * l) (d * m)).
Qed.
Lemma comb_0 : forall p q, filterlim (comb p q) (at_right 0) (locally 0).
Proof.
  intros p q. apply (filterlim_ext (fun u => (p * exp (- 2 * (a * b))) * eM u + (q * exp (2 * (a * b))) * eP u)); [intros u; unfold comb; ring|].
  replace 0 with ((p * exp (- 2 * (a * b))) * 0 + (q * exp (2 * (a * b))) * 0) by ring.
  apply lim_lin2; [typeclasses eauto|replace ((p * exp (- 2 * (a * b))) * 0 + (q * exp (2 * (a * b))) * 0) with 0 by ring; exact eM_0|replace ((p * exp (- 2 * (a * b))) * 0 + (q * exp (2 * (a * b))) * 0) with 0 by ring; exact eP_0].
Qed.
Lemma comb_p : forall p q, filterlim (comb p q) (Rbar_locally p_infty) (locally (2 * p * exp (- 2 * (a * b)))).
Proof.
  intros p q. apply (filterlim_ext (fun u => (p * exp (- 2 * (a * b))) * eM u + (q * exp (2 * (a * b))) * eP u)); [intros u; unfold comb; ring|].
  assert (E : 2 * p * exp (- 2 * (a * b)) = (p * exp (- 2 * (a * b))) * 2 + (q * exp (2 * (a * b))) * 0) by ring. rewrite E.
  apply lim_lin2; [typeclasses eauto|exact eM_p|exact eP_p].
Qed.

Lemma Ee_pos : forall u, 0 < Ee u. Proof. intros. unfold Ee. apply Rmult_lt_0_compat; apply exp_pos. Qed.
Lemma Ee_le1 : forall u, 0 < u -> Ee u <= 1.
Proof.
  intros u Hu. unfold Ee. rewrite <- exp_plus, <- exp_0. apply Rlt_le, exp_increasing.
  assert (0 < t / u) by now apply Rdiv_lt_0_compat. assert (0 < s * u) by now apply Rmult_lt_0_compat. unfold Rdiv in *. lra.
Qed.
Lemma Ee_le : forall u, 0 < u -> Ee u <= 4 * (u * u) / (t * t).
Proof.
  intros u Hu. assert (Q : 0 < t / u) by now apply Rdiv_lt_0_compat.
  assert (X : exp (- t / u) <= 4 * (u * u) / (t * t)).
  { assert (Y : t / u / 2 < exp (t / u / 2)). { pose proof (exp_ineq1 (t / u / 2) ltac:(lra)). lra. }
    assert (Z : (t / u / 2) * (t / u / 2) <= exp (t / u)).
    { assert (E : exp (t / u) = exp (t / u / 2) * exp (t / u / 2)) by (rewrite <- exp_plus; apply f_equal; lra). rewrite E. apply Rmult_le_compat; lra. }
    replace (- t / u) with (- (t / u)) by (unfold Rdiv; ring). rewrite exp_Ropp.
    replace (4 * (u * u) / (t * t)) with (/ ((t / u / 2) * (t / u / 2))) by (field; repeat split; lra).
    apply Rinv_le_contravar; [|exact Z]. apply Rmult_lt_0_compat; lra. }
  assert (W : exp (- (s * u)) <= 1). { rewrite <- exp_0. apply Rlt_le, exp_increasing. assert (0 < s * u) by now apply Rmult_lt_0_compat. lra. }
  unfold Ee. rewrite <- (Rmult_1_r (4 * (u * u) / (t * t))). apply Rmult_le_compat; try assumption; apply Rlt_le, exp_pos.
Qed.

Definition r1 (u : R) := Ee u / (sqrt PI * sqrt u).
Definition r2 (u : R) := Ee u * a / (sqrt PI * (u * sqrt u)).

Lemma r2_0 : filterlim r2 (at_right 0) (locally 0).
Proof.
  pose proof a_pos. pose proof sqrtPI. assert (T2 : 0 < t * t) by now apply Rmult_lt_0_compat.
  apply lim0_0 with (4 * a / (sqrt PI * (t * t))). { apply Rdiv_lt_0_compat; [lra|]. now apply Rmult_lt_0_compat. }
  intros u Hu. pose proof (sqrt_lt_R0 _ Hu). pose proof (Ee_pos u). pose proof (Ee_le u Hu) as L. unfold r2.
  assert (Q : 0 < sqrt PI * (u * sqrt u)) by (apply Rmult_lt_0_compat; [lra|now apply Rmult_lt_0_compat]).
  rewrite Rabs_right. 2: { apply Rle_ge, Rlt_le, Rdiv_lt_0_compat; [now apply Rmult_lt_0_compat|lra]. }
  apply Rle_trans with (4 * (u * u) / (t * t) * a / (sqrt PI * (u * sqrt u))).
  - apply Rmult_le_compat_r; [apply Rlt_le, Rinv_0_lt_compat; lra|]. apply Rmult_le_compat_r; lra.
  - right. assert (E : sqrt u * sqrt u = u) by (apply sqrt_sqrt; lra). set (w := sqrt u) in *. clearbody w. rewrite <- E. field. repeat split; lra.
Qed.
Lemma r1_0 : filterlim r1 (at_right 0) (locally 0).
Proof.
  pose proof sqrtPI. assert (T2 : 0 < t * t) by now apply Rmult_lt_0_compat.
  (* |r1| <= 4 u sqrt u / (sqrt PI t^2) <= K sqrt u for u <= 1: use a bound with u < 1 *)
  apply near0; [typeclasses eauto|]. intros e He.
  assert (KP : 0 < 4 / (sqrt PI * (t * t))) by (apply Rdiv_lt_0_compat; [lra|now apply Rmult_lt_0_compat]).
  assert (Q : 0 < Rmin 1 (e / (4 / (sqrt PI * (t * t))))) by (apply Rmin_pos; [lra|now apply Rdiv_lt_0_compat]).
  generalize (sqrt_small _ Q). apply filter_imp. intros u [Hu Hw]. pose proof (sqrt_lt_R0 _ Hu). pose proof (Ee_pos u). pose proof (Ee_le u Hu) as L.
  assert (M1 := Rmin_l 1 (e / (4 / (sqrt PI * (t * t))))). assert (M2 := Rmin_r 1 (e / (4 / (sqrt PI * (t * t))))).
  unfold r1. assert (QQ : 0 < sqrt PI * sqrt u) by now apply Rmult_lt_0_compat.
  rewrite Rabs_right. 2: { apply Rle_ge, Rlt_le, Rdiv_lt_0_compat; lra. }
  apply Rle_lt_trans with (4 / (sqrt PI * (t * t)) * sqrt u).
  - apply Rle_trans with (4 * (u * u) / (t * t) / (sqrt PI * sqrt u)).
    + apply Rmult_le_compat_r; [apply Rlt_le, Rinv_0_lt_compat; lra|exact L].
    + assert (E : sqrt u * sqrt u = u) by (apply sqrt_sqrt; lra). set (w := sqrt u) in *. assert (w < 1) by lra. clearbody w. rewrite <- E.
      replace (4 * (w * w * (w * w)) / (t * t) / (sqrt PI * w)) with (4 / (sqrt PI * (t * t)) * (w * (w * w))) by (field; repeat split; lra).
      apply Rmult_le_compat_l; [lra|]. nra.
  - assert (X : sqrt u < e / (4 / (sqrt PI * (t * t)))) by lra. apply (Rmult_lt_compat_l (4 / (sqrt PI * (t * t)))) in X; [|lra].
    replace (4 / (sqrt PI * (t * t)) * (e / (4 / (sqrt PI * (t * t))))) with e in X by (field; repeat split; lra). lra.
Qed.
Lemma r1_p : filterlim r1 (Rbar_locally p_infty) (locally 0).
Proof.
  pose proof sqrtPI. apply lim0_p with (/ sqrt PI). { now apply Rinv_0_lt_compat. }
  intros u Hu. assert (U0 : 0 < u) by lra. pose proof (sqrt_lt_R0 _ U0). pose proof (Ee_pos u). pose proof (Ee_le1 u U0) as L. unfold r1.
  assert (Q : 0 < sqrt PI * sqrt u) by now apply Rmult_lt_0_compat.
  rewrite Rabs_right. 2: { apply Rle_ge, Rlt_le, Rdiv_lt_0_compat; lra. }
  apply Rle_trans with (1 / (sqrt PI * sqrt u)); [apply Rmult_le_compat_r; [apply Rlt_le, Rinv_0_lt_compat; lra|exact L]|].
  right. field. split; lra.
Qed.
Lemma r2_p : filterlim r2 (Rbar_locally p_infty) (locally 0).
Proof.
  pose proof sqrtPI. pose proof a_pos. apply lim0_p with (a / sqrt PI). { now apply Rdiv_lt_0_compat. }
  intros u Hu. assert (U0 : 0 < u) by lra. pose proof (sqrt_lt_R0 _ U0) as W. pose proof (Ee_pos u). pose proof (Ee_le1 u U0) as L. unfold r2.
  assert (Q : 0 < sqrt PI * (u * sqrt u)) by (apply Rmult_lt_0_compat; [lra|now apply Rmult_lt_0_compat]).
  rewrite Rabs_right. 2: { apply Rle_ge, Rlt_le, Rdiv_lt_0_compat; [now apply Rmult_lt_0_compat|lra]. }
  replace (Ee u * a / (sqrt PI * (u * sqrt u))) with (a / sqrt PI / sqrt u * (Ee u / u)) by (field; repeat split; lra).
  rewrite <- (Rmult_1_r (a / sqrt PI / sqrt u)) at 2. apply Rmult_le_compat_l.
  - apply Rlt_le, Rdiv_lt_0_compat; [now apply Rdiv_lt_0_compat|lra].
  - apply (Rmult_le_reg_r u); [lra|]. replace (Ee u / u * u) with (Ee u) by (field; lra). lra.
Qed.

Lemma r1_derive : forall u, 0 < u -> is_derive r1 u (Ee u / (sqrt PI * sqrt u) * (t / (u * u) - s - / (2 * u))).
Proof.
  intros u Hu. pose proof (sqrt_lt_R0 _ Hu) as Su. pose proof sqrtPI as SP. unfold r1, Ee.
  auto_derive; [repeat split; try lra; apply Rgt_not_eq, Rmult_lt_0_compat; lra|].
  replace (- t * / u) with (- t / u) by reflexivity. generalize (exp (- t / u)). generalize (exp (- (s * u))). intros e1 e2. assert (E : sqrt u * sqrt u = u) by (apply sqrt_sqrt; lra).
  set (w := sqrt u) in *. clearbody w. rewrite <- E in *. clear E. field. repeat split; lra.
Qed.
Lemma r2_derive : forall u, 0 < u -> is_derive r2 u (Ee u * a / (sqrt PI * (u * sqrt u)) * (t / (u * u) - s - 3 / (2 * u))).
Proof.
  intros u Hu. pose proof (sqrt_lt_R0 _ Hu) as Su. pose proof sqrtPI as SP. unfold r2, Ee.
  auto_derive; [repeat split; try lra; apply Rgt_not_eq, Rmult_lt_0_compat; [lra|apply Rmult_lt_0_compat; lra]|].
  replace (- t * / u) with (- t / u) by reflexivity. generalize (exp (- t / u)). generalize (exp (- (s * u))). intros e1 e2. assert (E : sqrt u * sqrt u = u) by (apply sqrt_sqrt; lra).
  set (w := sqrt u) in *. clearbody w. rewrite <- E in *. clear E. field. repeat split; lra.
Qed.

Lemma im0_Ee : forall u, 0 < u -> im0 t u * exp (- (s * u)) = Ee u * a / (sqrt PI * (u * sqrt u)).
Proof.
  intros u Hu. rewrite im0_eq by assumption. unfold Ee. fold a. pose proof (sqrt_lt_R0 _ Hu). pose proof sqrtPI. field. repeat split; lra.
Qed.
Lemma im0_cont : forall (c : R -> R) u, 0 < u -> ex_derive c u -> continuous (fun v => c v * im0 t v * exp (- (s * v))) u.
Proof.
  intros c u Hu Hc. apply (ex_derive_continuous (fun v => c v * im0 t v * exp (- (s * v))) u).
  assert (Q : 0 < PI * (u * u * u)) by (pose proof PI_RGT_0; apply Rmult_lt_0_compat; [lra|]; apply Rmult_lt_0_compat; [apply Rmult_lt_0_compat; lra|lra]).
  unfold im0. auto_derive.
  assert (Q2 : 0 < t * / (PI * (u * (u * (u * 1))))) by (apply Rmult_lt_0_compat; [lra|]; apply Rinv_0_lt_compat; lra).
  split; [exact Hc|]. repeat split; lra.
Qed.

Definition lap (f : R -> R) (L : R) : Prop := is_RInt_gen (fun u => f u * exp (- (s * u))) (at_right 0) (Rbar_locally p_infty) L.

Lemma lap_f0 : lap (im0 t) (exp (- 2 * (a * b))).
Proof.
  unfold lap. replace (exp (- 2 * (a * b))) with (2 * (1 / 2) * exp (- 2 * (a * b)) - 0) by field.
  apply gen_antider with (comb (1 / 2) (1 / 2)); [| |apply comb_0|apply comb_p].
  - intros u Hu. rewrite im0_Ee by exact Hu. pose proof (comb_derive (1 / 2) (1 / 2) u Hu) as D. pose proof (sqrt_lt_R0 _ Hu). pose proof sqrtPI.
    replace (Ee u * a / (sqrt PI * (u * sqrt u))) with (Ee u / sqrt PI * (1 / 2 * (a / (u * sqrt u) + b / sqrt u) + 1 / 2 * (a / (u * sqrt u) - b / sqrt u))) by (field; repeat split; lra).
    exact D.
  - intros u Hu. apply (continuous_ext (fun v => 1 * im0 t v * exp (- (s * v)))); [intros; f_equal; ring|]. apply im0_cont; [exact Hu|apply ex_derive_const].
Qed.

Lemma lim_add : forall (F : (R -> Prop) -> Prop) (FF : Filter F) (f g : R -> R) (l : R), filterlim f F (locally l) -> filterlim g F (locally 0) ->
  filterlim (fun u => f u + g u) F (locally l).
Proof.
  intros F FF f g l Hf Hg. pose proof (lim_lin2 F FF f g l 0 1 1 Hf Hg) as L. replace (1 * l + 1 * 0) with l in L by ring.
  apply (filterlim_ext (fun u => 1 * f u + 1 * g u)); [intros; ring|exact L].
Qed.

Lemma lap_f1 : lap (im1 t) (b * exp (- 2 * (a * b))).
Proof.
  unfold lap. replace (b * exp (- 2 * (a * b))) with (2 * (b / 2) * exp (- 2 * (a * b)) - 0) by field.
  apply gen_antider with (fun u => comb (b / 2) (- (b / 2)) u + r1 u).
  - intros u Hu. pose proof (comb_derive (b / 2) (- (b / 2)) u Hu) as D1. pose proof (r1_derive u Hu) as D2. pose proof (sqrt_lt_R0 _ Hu) as Su. pose proof sqrtPI as SP. pose proof a_pos as Pa.
    assert (E : im1 t u * exp (- (s * u)) = plus (Ee u / sqrt PI * (b / 2 * (a / (u * sqrt u) + b / sqrt u) + - (b / 2) * (a / (u * sqrt u) - b / sqrt u))) (Ee u / (sqrt PI * sqrt u) * (t / (u * u) - s - / (2 * u)))).
    { unfold im1. rewrite Rmult_assoc. rewrite im0_Ee by exact Hu. fold a. unfold plus. simpl. rewrite <- bb. field. repeat split; lra. }
    rewrite E. apply (is_derive_plus (V := R_NormedModule)); assumption.
  - intros u Hu. apply (continuous_ext (fun v => (t / v - 1 / 2) / a * im0 t v * exp (- (s * v)))); [reflexivity|]. apply im0_cont; [exact Hu|]. pose proof a_pos. auto_derive. repeat split; lra.
  - apply lim_add; [typeclasses eauto|apply comb_0|exact r1_0].
  - apply lim_add; [typeclasses eauto|apply comb_p|exact r1_p].
Qed.

Lemma lap_f2 : lap (im2 t) (s * exp (- 2 * (a * b))).
Proof.
  unfold lap. replace (s * exp (- 2 * (a * b))) with (2 * (s / 2) * exp (- 2 * (a * b)) - 0) by field.
  apply gen_antider with (fun u => comb (s / 2) (s / 2) u + r2 u).
  - intros u Hu. pose proof (comb_derive (s / 2) (s / 2) u Hu) as D1. pose proof (r2_derive u Hu) as D2. pose proof (sqrt_lt_R0 _ Hu) as Su. pose proof sqrtPI as SP. pose proof a_pos as Pa.
    assert (E : im2 t u * exp (- (s * u)) = plus (Ee u / sqrt PI * (s / 2 * (a / (u * sqrt u) + b / sqrt u) + (s / 2) * (a / (u * sqrt u) - b / sqrt u))) (Ee u * a / (sqrt PI * (u * sqrt u)) * (t / (u * u) - s - 3 / (2 * u)))).
    { unfold im2. rewrite Rmult_assoc. rewrite im0_Ee by exact Hu. unfold plus. simpl. field. repeat split; lra. }
    rewrite E. apply (is_derive_plus (V := R_NormedModule)); assumption.
  - intros u Hu. apply (continuous_ext (fun v => (t / v - 3 / 2) / v * im0 t v * exp (- (s * v)))); [reflexivity|]. apply im0_cont; [exact Hu|]. auto_derive. repeat split; lra.
  - apply lim_add; [typeclasses eauto|apply comb_0|exact r2_0].
  - apply lim_add; [typeclasses eauto|apply comb_p|exact r2_p].
Qed.
End Lap.

(** ** The fields *)
Definition hs_val (r : res hs_out) (i : nat) : C :=
  match r with Ok o => nth 0 (nth i (out_parts o) []) (RtoC 0) | Err _ => RtoC 0 end.

Section Fields.
Variables (ive kve : Z -> C -> C) (ab : Z) (off angle zs zr : R) (etaH etaV : C).
Hypothesis Hres : 0 < hs_res etaH.
Hypothesis HV : 0 < fst etaV.
Hypothesis Hoff : 0 < off.
Let rs := hs_res etaH.
Let an := hs_aniso etaV rs.
Let g := hs_geo off angle zs zr rs an.
Let cf := hs_coef ab g zs zr rs an.

Lemma an_pos : 0 < an.
Proof. unfold an, hs_aniso. apply Rdiv_lt_0_compat; [lra|]. apply sqrt_lt_R0. now apply Rmult_lt_0_compat. Qed.
Lemma xy_pos : 0 < (cos angle * off) ^ 2 + (sin angle * off) ^ 2.
Proof.
  replace ((cos angle * off) ^ 2 + (sin angle * off) ^ 2) with (off * off * (Rsqr (sin angle) + Rsqr (cos angle))) by (unfold Rsqr; ring).
  rewrite sin2_cos2. assert (0 < off * off) by now apply Rmult_lt_0_compat. lra.
Qed.
Lemma geo_pos : 0 < rh g /\ 0 < rp g /\ 0 < rm g /\ 0 < tsm g /\ 0 < tm g /\ 0 < tsp g /\ 0 < tp g.
Proof.
  pose proof xy_pos as XY. pose proof an_pos as PA. pose proof mu0_pos as PM.
  assert (R : forall h, 0 < sqrt ((cos angle * off) ^ 2 + (sin angle * off) ^ 2 + h ^ 2)).
  { intros h. apply sqrt_lt_R0. pose proof (Rle_0_sqr h). unfold Rsqr in *. simpl. simpl in XY. lra. }
  assert (T : forall x, 0 < x -> 0 < mu0 * x ^ 2 / (rs * 4)). { intros x Hx. apply Rdiv_lt_0_compat; [apply Rmult_lt_0_compat; [lra|now apply pow_lt]|unfold rs; lra]. }
  assert (T2 : forall x, 0 < x -> 0 < mu0 * x ^ 2 / (rs * an ^ 2 * 4)).
  { intros x Hx. apply Rdiv_lt_0_compat; [apply Rmult_lt_0_compat; [lra|now apply pow_lt]|]. assert (0 < rs * an ^ 2) by (apply Rmult_lt_0_compat; [exact Hres|now apply pow_lt]). lra. }
  unfold g, hs_geo; cbn [rh rp rm tsm tm tsp tp]. split; [now apply sqrt_lt_R0|]. split; [apply R|]. split; [apply R|].
  split; [apply T2, R|]. split; [apply T, R|]. split; [apply T2, R|apply T, R].
Qed.

Definition is_time (inp : hs_in) := match inp with HTime (-1) _ => False | _ => True end.
Definition at_of (inp : hs_in) (w : hs_at) : Prop :=
  match inp with HFreq _ [s] => w = AtS s | HTime 1 [u] => w = AtStep u | HTime 0 [u] => w = AtImp u | _ => False end.

Lemma hs_five : forall inp w, at_of inp w ->
  exists isr, halfspace ive kve inp Dtetm ab off angle zs zr etaH etaV =
    Ok (let p := hs_part ive kve isr w ab off angle zs zr rs an in Five [p_dTE p] [p_dTM p] [p_rTE p] [p_rTM p] [p_air p]).
Proof.
  intros inp w H. destruct geo_pos as [G1 [G2 [G3 _]]]. unfold halfspace. fold rs an g.
  destruct (Req_EM_T (rm g) 0); [exfalso; lra|]. destruct (Req_EM_T (rp g) 0); [exfalso; lra|]. destruct (Req_EM_T (rh g) 0); [exfalso; lra|].
  rewrite andb_false_r.
  destruct inp as [isr l|sg l].
  - destruct l as [|s [|? ?]]; try contradiction. simpl in H. subst w. exists isr. reflexivity.
  - exists true. destruct sg as [|[q|q|]|q]; try contradiction; destruct l as [|u [|? ?]]; try contradiction; simpl in H; subst w; reflexivity.
Qed.

(** the four fields as combinations of f0, f1, f2 *)
Definition cmb (i : nat) : R * (R * R * R) :=
  match i with
  | 0%nat => (tm g, (0, c1m cf, c2m cf))
  | 1%nat => (tsm g, (s0m cf, s1m cf, s2m cf))
  | 2%nat => (tp g, (c0p cf, c1p cf, c2p cf))
  | _ => (tsp g, (s0p cf, s1p cf, s2p cf))
  end.
Lemma hs_val_cmb : forall inp w i, at_of inp w -> (i < 4)%nat ->
  hs_val (halfspace ive kve inp Dtetm ab off angle zs zr etaH etaV) i =
  let '(t, (p, q, r)) := cmb i in Cplus (Cplus (rc p (hs_f0 w t)) (rc q (hs_f1 w t))) (rc r (hs_f2 w t)).
Proof.
  intros inp w i H Hi. destruct (hs_five inp w H) as [isr ->]. cbv zeta. unfold hs_part. fold g cf.
  destruct i as [|[|[|[|i]]]]; [..|lia]; unfold hs_val, cmb, hs_fields; cbn [out_parts nth p_dTE p_dTM p_rTE p_rTM]; try reflexivity.
  unfold rc. rewrite Cmult_0_l, Cplus_0_l. reflexivity.
Qed.
Lemma cmb_pos : forall i, 0 < fst (cmb i).
Proof. intros i. destruct geo_pos as [_ [_ [_ [A [B [D E]]]]]]. destruct i as [|[|[|i]]]; assumption. Qed.

Lemma rc_fst : forall r c, fst (rc r c) = r * fst c. Proof. intros r [x y]. unfold rc, Cmult, RtoC. cbn [fst snd]. ring. Qed.
Lemma rc_snd : forall r c, snd (rc r c) = r * snd c. Proof. intros r [x y]. unfold rc, Cmult, RtoC. cbn [fst snd]. ring. Qed.

Lemma step_fst : forall t u, fst (hs_f0 (AtStep u) t) = st0 t u /\ fst (hs_f1 (AtStep u) t) = st1 t u /\ fst (hs_f2 (AtStep u) t) = st2 t u /\
  snd (hs_f0 (AtStep u) t) = 0 /\ snd (hs_f1 (AtStep u) t) = 0 /\ snd (hs_f2 (AtStep u) t) = 0.
Proof. intros t u. cbn [hs_f2 hs_f1 hs_f0]. unfold Cmult, RtoC. cbn [fst snd]. repeat split; unfold st2, st1; ring. Qed.
Lemma imp_fst : forall t u, fst (hs_f0 (AtImp u) t) = im0 t u /\ fst (hs_f1 (AtImp u) t) = im1 t u /\ fst (hs_f2 (AtImp u) t) = im2 t u /\
  snd (hs_f0 (AtImp u) t) = 0 /\ snd (hs_f1 (AtImp u) t) = 0 /\ snd (hs_f2 (AtImp u) t) = 0.
Proof. intros t u. cbn [hs_f2 hs_f1 hs_f0]. unfold Cmult, RtoC. cbn [fst snd]. repeat split; unfold im2, im1, im0; ring. Qed.
Lemma lap_fst : forall t s, 0 < t -> 0 < s -> let e := exp (- 2 * (sqrt t * sqrt s)) in
  fst (hs_f0 (AtS (RtoC s)) t) = e /\ fst (hs_f1 (AtS (RtoC s)) t) = sqrt s * e /\ fst (hs_f2 (AtS (RtoC s)) t) = s * e /\
  snd (hs_f0 (AtS (RtoC s)) t) = 0 /\ snd (hs_f1 (AtS (RtoC s)) t) = 0 /\ snd (hs_f2 (AtS (RtoC s)) t) = 0.
Proof.
  intros t s Ht Hs e. cbn [hs_f2 hs_f1 hs_f0].
  assert (E : Cexp (Cmult (RtoC (-2)) (Csqrt (Cmult (RtoC s) (RtoC t)))) = RtoC e).
  { rewrite <- RtoC_mult. rewrite Csqrt_RtoC by (apply Rmult_le_pos; lra). rewrite <- RtoC_mult, RtoC_Cexp. apply f_equal. unfold e. apply f_equal.
    rewrite sqrt_mult by lra. ring. }
  rewrite E. rewrite Csqrt_RtoC by lra. unfold Cmult, RtoC. cbn [fst snd]. repeat split; ring.
Qed.

Theorem hs_impulse_is_derivative : forall i u, (i < 4)%nat -> 0 < u ->
  is_deriveC (fun v => hs_val (halfspace ive kve (HTime 1 [v]) Dtetm ab off angle zs zr etaH etaV) i) u
             (hs_val (halfspace ive kve (HTime 0 [u]) Dtetm ab off angle zs zr etaH etaV) i).
Proof.
  intros i u Hi Hu. pose proof (cmb_pos i) as P.
  apply (is_deriveC_ext_loc (fun v => let '(t, (p, q, r)) := cmb i in Cplus (Cplus (rc p (hs_f0 (AtStep v) t)) (rc q (hs_f1 (AtStep v) t))) (rc r (hs_f2 (AtStep v) t)))).
  { apply filter_forall. intros v. symmetry. apply (hs_val_cmb (HTime 1 [v])); [reflexivity|exact Hi]. }
  rewrite (hs_val_cmb (HTime 0 [u]) (AtImp u) i eq_refl Hi).
  destruct (cmb i) as [t [[p q] r]]. cbn [fst] in P. destruct (imp_fst t u) as [I0 [I1 [I2 [J0 [J1 J2]]]]].
  split.
  - apply (is_derive_ext (fun v => p * st0 t v + q * st1 t v + r * st2 t v)).
    { intros v. destruct (step_fst t v) as [S0 [S1 [S2 _]]]. unfold Cplus. cbn [fst]. rewrite !rc_fst, S0, S1, S2. reflexivity. }
    unfold Cplus. cbn [fst]. rewrite !rc_fst, I0, I1, I2.
    pose proof (st0_derive t u P Hu) as D0. pose proof (st1_derive t u P Hu) as D1. pose proof (st2_derive t u P Hu) as D2.
    apply (is_derive_plus (V := R_NormedModule)); [apply (is_derive_plus (V := R_NormedModule))|].
    + apply (is_derive_scal (st0 t) u p (im0 t u) D0).
    + apply (is_derive_scal (st1 t) u q (im1 t u) D1).
    + apply (is_derive_scal (st2 t) u r (im2 t u) D2).
  - apply (is_derive_ext (fun _ => 0)).
    { intros v. destruct (step_fst t v) as [_ [_ [_ [S0 [S1 S2]]]]]. unfold Cplus. cbn [snd]. rewrite !rc_snd, S0, S1, S2. match goal with |- ?x = ?y => change (@eq R x y) end. ring. }
    unfold Cplus. cbn [snd]. rewrite !rc_snd, J0, J1, J2. replace (p * 0 + q * 0 + r * 0) with 0 by ring. auto_derive; [exact I|reflexivity].
Qed.

Theorem hs_laplace_of_impulse : forall i s, (i < 4)%nat -> 0 < s ->
  let im u := hs_val (halfspace ive kve (HTime 0 [u]) Dtetm ab off angle zs zr etaH etaV) i in
  let L := hs_val (halfspace ive kve (HFreq true [RtoC s]) Dtetm ab off angle zs zr etaH etaV) i in
  (forall u, snd (im u) = 0) /\ snd L = 0 /\
  is_RInt_gen (fun u => fst (im u) * exp (- (s * u))) (at_right 0) (Rbar_locally p_infty) (fst L).
Proof.
  intros i s Hi Hs im L. pose proof (cmb_pos i) as P.
  assert (EI : forall u, im u = let '(t, (p, q, r)) := cmb i in Cplus (Cplus (rc p (hs_f0 (AtImp u) t)) (rc q (hs_f1 (AtImp u) t))) (rc r (hs_f2 (AtImp u) t))).
  { intros u. apply (hs_val_cmb (HTime 0 [u])); [reflexivity|exact Hi]. }
  assert (EL : L = let '(t, (p, q, r)) := cmb i in Cplus (Cplus (rc p (hs_f0 (AtS (RtoC s)) t)) (rc q (hs_f1 (AtS (RtoC s)) t))) (rc r (hs_f2 (AtS (RtoC s)) t))).
  { apply (hs_val_cmb (HFreq true [RtoC s])); [reflexivity|exact Hi]. }
  clearbody im L. destruct (cmb i) as [t [[p q] r]]. cbn [fst] in P.
  destruct (lap_fst t s P Hs) as [I0 [I1 [I2 [J0 [J1 J2]]]]].
  split; [|split].
  - intros u. rewrite EI. destruct (imp_fst t u) as [_ [_ [_ [S0 [S1 S2]]]]]. unfold Cplus. cbn [snd]. rewrite !rc_snd, S0, S1, S2. ring.
  - rewrite EL. unfold Cplus. cbn [snd]. rewrite !rc_snd, J0, J1, J2. ring.
  - rewrite EL. unfold Cplus. cbn [fst]. rewrite !rc_fst, I0, I1, I2.
    pose proof (lap_f0 t s P Hs) as D0. pose proof (lap_f1 t s P Hs) as D1. pose proof (lap_f2 t s P Hs) as D2. unfold lap in *.
    apply (is_RInt_gen_scal (V := R_CompleteNormedModule) _ p) in D0. apply (is_RInt_gen_scal (V := R_CompleteNormedModule) _ q) in D1. apply (is_RInt_gen_scal (V := R_CompleteNormedModule) _ r) in D2.
    assert (D := is_RInt_gen_plus (V := R_CompleteNormedModule) _ _ _ _ (is_RInt_gen_plus (V := R_CompleteNormedModule) _ _ _ _ D0 D1) D2).
    match type of D with is_RInt_gen ?f _ _ _ => enough (X : (fun u => fst (im u) * exp (- (s * u))) = f) by (rewrite X; exact D) end.
    apply FunctionalExtensionality.functional_extensionality. intros u. rewrite EI. destruct (imp_fst t u) as [S0 [S1 [S2 _]]]. unfold Cplus. cbn [fst]. rewrite !rc_fst, S0, S1, S2.
    unfold plus, scal. simpl. unfold mult. simpl. match goal with |- ?x = ?y => change (@eq R x y) end. ring.
Qed.
End Fields.
