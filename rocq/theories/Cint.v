(** Integrals of complex functions of a real variable, with a parameter, and their
    limits. *)

From Coq Require Import Reals List Bool Lia Lra Psatz.
From Coquelicot Require Import Coquelicot.
From Verif Require Import CBase ODE FullspaceMaxwell.
Import ListNotations.
Local Open Scope R_scope.

Notation V := R_CompleteNormedModule.
Definition CI (f : R -> C) (a b : R) : C := (RInt (fun x => fst (f x)) a b, RInt (fun x => snd (f x)) a b).
Definition cC (f : R -> C) : Prop := forall x, contC f x.

Lemma cC_fst : forall f, cC f -> forall x, continuous (fun t => fst (f t)) x. Proof. intros f H x. apply (proj1 (H x)). Qed.
Lemma cC_snd : forall f, cC f -> forall x, continuous (fun t => snd (f t)) x. Proof. intros f H x. apply (proj2 (H x)). Qed.
Lemma cC_pair : forall f : R -> C, (forall x, continuous (fun t => fst (f t)) x) -> (forall x, continuous (fun t => snd (f t)) x) -> cC f.
Proof. intros f H1 H2 x. split; [apply H1|apply H2]. Qed.
Lemma ex_fst : forall f a b, cC f -> ex_RInt (fun x => fst (f x)) a b.
Proof. intros f a b H. apply (ex_RInt_continuous (V := V)). intros; now apply cC_fst. Qed.
Lemma ex_snd : forall f a b, cC f -> ex_RInt (fun x => snd (f x)) a b.
Proof. intros f a b H. apply (ex_RInt_continuous (V := V)). intros; now apply cC_snd. Qed.
Lemma cC_const : forall c, cC (fun _ => c). Proof. intros c. apply cC_pair; intros; apply continuous_const. Qed.
Lemma cC_R : forall f : R -> R, (forall x, continuous f x) -> cC (fun t => RtoC (f t)).
Proof. intros f H. apply cC_pair; intros x; cbn; [apply H|apply continuous_const]. Qed.
Lemma cC_id : cC RtoC. Proof. apply (cC_R (fun t => t)). intros; apply continuous_id. Qed.
Lemma cC_plus : forall f g, cC f -> cC g -> cC (fun t => Cplus (f t) (g t)).
Proof.
  intros f g Hf Hg. apply cC_pair; intros x; cbn; [apply (continuous_plus (V := R_NormedModule) (fun t => fst (f t)) (fun t => fst (g t)))|apply (continuous_plus (V := R_NormedModule) (fun t => snd (f t)) (fun t => snd (g t)))]; auto using cC_fst, cC_snd.
Qed.
Lemma cC_opp : forall f, cC f -> cC (fun t => Copp (f t)).
Proof. intros f Hf. apply cC_pair; intros x; cbn; [apply (continuous_opp (V := R_NormedModule) (fun t => fst (f t)))|apply (continuous_opp (V := R_NormedModule) (fun t => snd (f t)))]; auto using cC_fst, cC_snd. Qed.
Lemma cC_minus : forall f g, cC f -> cC g -> cC (fun t => Cminus (f t) (g t)).
Proof. intros f g Hf Hg. apply (cC_plus f (fun t => Copp (g t))); [exact Hf|now apply cC_opp]. Qed.
Lemma cC_mult : forall f g, cC f -> cC g -> cC (fun t => Cmult (f t) (g t)).
Proof.
  intros f g Hf Hg. pose proof (cC_fst f Hf) as a. pose proof (cC_snd f Hf) as b. pose proof (cC_fst g Hg) as c. pose proof (cC_snd g Hg) as d.
  apply cC_pair; intros x; cbn.
  - apply (continuous_minus (V := R_NormedModule) (fun t => fst (f t) * fst (g t)) (fun t => snd (f t) * snd (g t))); apply (continuous_mult (K := R_AbsRing)); auto.
  - apply (continuous_plus (V := R_NormedModule) (fun t => fst (f t) * snd (g t)) (fun t => snd (f t) * fst (g t))); apply (continuous_mult (K := R_AbsRing)); auto.
Qed.
Lemma cC_exp : forall f, cC f -> cC (fun t => Cexp (f t)).
Proof.
  intros f Hf. apply cC_pair; intros x; cbn; apply (continuous_mult (K := R_AbsRing)).
  - apply (continuous_comp (fun t => fst (f t)) exp); [now apply cC_fst|apply (ex_derive_continuous exp); auto_derive; exact I].
  - apply (continuous_comp (fun t => snd (f t)) cos); [now apply cC_snd|apply (ex_derive_continuous cos); auto_derive; exact I].
  - apply (continuous_comp (fun t => fst (f t)) exp); [now apply cC_fst|apply (ex_derive_continuous exp); auto_derive; exact I].
  - apply (continuous_comp (fun t => snd (f t)) sin); [now apply cC_snd|apply (ex_derive_continuous sin); auto_derive; exact I].
Qed.
Lemma cC_derive : forall f f', (forall x, is_deriveC f x (f' x)) -> cC f.
Proof. intros f f' H x. eapply is_deriveC_cont, H. Qed.

Lemma CI_ext : forall f g a b, (forall x, f x = g x) -> CI f a b = CI g a b.
Proof. intros f g a b H. unfold CI. f_equal; apply (RInt_ext (V := V)); intros; now rewrite H. Qed.
Lemma CI_ext_in : forall f g a b, (forall x, Rmin a b < x < Rmax a b -> f x = g x) -> CI f a b = CI g a b.
Proof. intros f g a b H. unfold CI. f_equal; apply (RInt_ext (V := V)); intros; now rewrite H. Qed.
Lemma CI_plus : forall f g a b, cC f -> cC g -> CI (fun x => Cplus (f x) (g x)) a b = Cplus (CI f a b) (CI g a b).
Proof.
  intros f g a b Hf Hg. unfold CI, Cplus. cbn [fst snd].
  f_equal; [apply (RInt_plus (V := V) (fun x => fst (f x)) (fun x => fst (g x)))|apply (RInt_plus (V := V) (fun x => snd (f x)) (fun x => snd (g x)))]; auto using ex_fst, ex_snd.
Qed.
Lemma CI_scal : forall c f a b, cC f -> CI (fun x => Cmult c (f x)) a b = Cmult c (CI f a b).
Proof.
  intros [c d] f a b Hf. unfold CI, Cmult. cbn [fst snd].
  assert (E1 := ex_fst f a b Hf). assert (E2 := ex_snd f a b Hf).
  assert (S1 : forall k, RInt (fun x => k * fst (f x)) a b = k * RInt (fun x => fst (f x)) a b) by (intros k; apply (RInt_scal (V := V) (fun x => fst (f x)) a b k E1)).
  assert (S2 : forall k, RInt (fun x => k * snd (f x)) a b = k * RInt (fun x => snd (f x)) a b) by (intros k; apply (RInt_scal (V := V) (fun x => snd (f x)) a b k E2)).
  assert (X1 : forall k, ex_RInt (fun x => k * fst (f x)) a b) by (intros k; apply (ex_RInt_scal (V := V) (fun x => fst (f x)) a b k E1)).
  assert (X2 : forall k, ex_RInt (fun x => k * snd (f x)) a b) by (intros k; apply (ex_RInt_scal (V := V) (fun x => snd (f x)) a b k E2)).
  f_equal; rewrite <- ?S1, <- ?S2.
  - apply (RInt_minus (V := V) (fun x => c * fst (f x)) (fun x => d * snd (f x))); auto.
  - apply (RInt_plus (V := V) (fun x => c * snd (f x)) (fun x => d * fst (f x))); auto.
Qed.
Lemma CI_opp : forall f a b, cC f -> CI (fun x => Copp (f x)) a b = Copp (CI f a b).
Proof. intros f a b Hf. rewrite (CI_ext _ (fun x => Cmult (Copp (RtoC 1)) (f x))) by (intros; ring). rewrite CI_scal by exact Hf. ring. Qed.
Lemma CI_minus : forall f g a b, cC f -> cC g -> CI (fun x => Cminus (f x) (g x)) a b = Cminus (CI f a b) (CI g a b).
Proof. intros f g a b Hf Hg. unfold Cminus. rewrite (CI_plus f (fun x => Copp (g x))) by auto using cC_opp. now rewrite CI_opp. Qed.

(** fundamental theorem *)
Lemma CI_derive : forall F f a b, (forall x, is_deriveC F x (f x)) -> cC f -> CI f a b = Cminus (F b) (F a).
Proof.
  intros F f a b H Hf. unfold CI. apply injective_projections; cbn [fst snd Cminus Cplus Copp].
  - transitivity (minus (fst (F b)) (fst (F a))); [|reflexivity]. apply (is_RInt_unique (V := V)). apply (is_RInt_derive (V := V) (fun x => fst (F x))); intros; [apply H|now apply cC_fst].
  - transitivity (minus (snd (F b)) (snd (F a))); [|reflexivity]. apply (is_RInt_unique (V := V)). apply (is_RInt_derive (V := V) (fun x => snd (F x))); intros; [apply H|now apply cC_snd].
Qed.

Lemma Cmod_le_sum : forall z : C, Cmod z <= Rabs (fst z) + Rabs (snd z).
Proof.
  intros [a b]. cbn [fst snd]. pose proof (Rabs_pos a). pose proof (Rabs_pos b). unfold Cmod. cbn [fst snd]. apply Rsqr_incr_0_var; [|lra]. rewrite Rsqr_sqrt by nra. 
  rewrite <- (pow2_abs a), <- (pow2_abs b). unfold Rsqr. nra.
Qed.
Lemma CI_bound : forall f (g : R -> R) a b, a <= b -> cC f -> (forall x, continuous g x) -> (forall x, a <= x <= b -> Cmod (f x) <= g x) -> Cmod (CI f a b) <= 2 * RInt g a b.
Proof.
  intros f g a b Hab Hf Hg H. eapply Rle_trans; [apply Cmod_le_sum|]. unfold CI. cbn [fst snd].
  assert (EG : ex_RInt g a b) by (apply (ex_RInt_continuous (V := V)); intros; apply Hg).
  assert (B : forall p : C -> R, (forall z : C, Rabs (p z) <= Cmod z) -> (forall x, continuous (fun t => p (f t)) x) -> Rabs (RInt (fun x => p (f x)) a b) <= RInt g a b).
  { intros p Hp Hc. assert (EP : ex_RInt (fun x => p (f x)) a b) by (apply (ex_RInt_continuous (V := V)); intros; apply Hc).
    eapply Rle_trans; [apply abs_RInt_le; [exact Hab|exact EP]|]. apply RInt_le; [exact Hab| |exact EG|].
    - apply (ex_RInt_continuous (V := V)). intros x _. apply (continuous_comp (fun t => p (f t)) Rabs); [apply Hc|apply continuous_Rabs].
    - intros x Hx. eapply Rle_trans; [apply Hp|apply H; lra]. }
  assert (B1 := B fst fst_le_Cmod (cC_fst f Hf)). assert (B2 := B snd snd_le_Cmod (cC_snd f Hf)). lra.
Qed.

(** ** Continuity in two variables *)
Definition c2 (F : R -> R -> C) (u v : R) : Prop := continuity_2d_pt (fun a b => fst (F a b)) u v /\ continuity_2d_pt (fun a b => snd (F a b)) u v.
Lemma c2_plus : forall F G u v, c2 F u v -> c2 G u v -> c2 (fun a b => Cplus (F a b) (G a b)) u v.
Proof. intros F G u v [H1 H2] [H3 H4]. split; cbn; apply continuity_2d_pt_plus; assumption. Qed.
Lemma c2_opp : forall F u v, c2 F u v -> c2 (fun a b => Copp (F a b)) u v.
Proof. intros F u v [H1 H2]. split; cbn; apply continuity_2d_pt_opp; assumption. Qed.
Lemma c2_mult : forall F G u v, c2 F u v -> c2 G u v -> c2 (fun a b => Cmult (F a b) (G a b)) u v.
Proof. intros F G u v [H1 H2] [H3 H4]. split; cbn; [apply continuity_2d_pt_minus|apply continuity_2d_pt_plus]; apply continuity_2d_pt_mult; assumption. Qed.
Lemma c2_const : forall c u v, c2 (fun _ _ => c) u v.
Proof. intros. split; apply continuity_2d_pt_const. Qed.
Lemma c2_exp : forall F u v, c2 F u v -> c2 (fun a b => Cexp (F a b)) u v.
Proof.
  intros F u v [H1 H2]. split; cbn; apply continuity_2d_pt_mult.
  - apply (continuity_1d_2d_pt_comp exp); [apply derivable_continuous_pt, derivable_pt_exp|exact H1].
  - apply (continuity_1d_2d_pt_comp cos); [apply derivable_continuous_pt, derivable_pt_cos|exact H2].
  - apply (continuity_1d_2d_pt_comp exp); [apply derivable_continuous_pt, derivable_pt_exp|exact H1].
  - apply (continuity_1d_2d_pt_comp sin); [apply derivable_continuous_pt, derivable_pt_sin|exact H2].
Qed.
Lemma c2_R : forall F u v, continuity_2d_pt F u v -> c2 (fun a b => RtoC (F a b)) u v.
Proof. intros F u v H. split; cbn; [exact H|apply continuity_2d_pt_const]. Qed.
Lemma cont_pt : forall (f : R -> R) x, continuous f x -> continuity_pt f x.
Proof. intros f x H. now apply continuity_pt_filterlim. Qed.
Lemma c2_1 : forall f u v, contC f u -> c2 (fun a _ => f a) u v.
Proof.
  intros f u v [H1 H2]. split.
  - apply (continuity_1d_2d_pt_comp (fun t => fst (f t)) (fun a _ : R => a)); [apply cont_pt, H1|apply continuity_2d_pt_id1].
  - apply (continuity_1d_2d_pt_comp (fun t => snd (f t)) (fun a _ : R => a)); [apply cont_pt, H2|apply continuity_2d_pt_id1].
Qed.
Lemma c2_2 : forall f u v, contC f v -> c2 (fun _ b => f b) u v.
Proof.
  intros f u v [H1 H2]. split.
  - apply (continuity_1d_2d_pt_comp (fun t => fst (f t)) (fun _ b : R => b)); [apply cont_pt, H1|apply continuity_2d_pt_id2].
  - apply (continuity_1d_2d_pt_comp (fun t => snd (f t)) (fun _ b : R => b)); [apply cont_pt, H2|apply continuity_2d_pt_id2].
Qed.
Lemma c2_comp : forall (f : R -> R) G u v, (forall x, continuous f x) -> continuity_2d_pt G u v -> continuity_2d_pt (fun a b => f (G a b)) u v.
Proof. intros f G u v H HG. apply (continuity_1d_2d_pt_comp f G); [apply cont_pt, H|exact HG]. Qed.

(** ** Derivative with respect to a parameter *)
Lemma CI_param : forall (F DF : R -> R -> C) a b u, locally u (fun v => forall x, is_deriveC (fun w => F w x) v (DF v x)) ->
  (forall x, c2 DF u x) -> locally u (fun v => cC (F v)) -> is_deriveC (fun v => CI (F v) a b) u (CI (DF u) a b).
Proof.
  intros F DF a b u HD HC HI.
  assert (HD0 := locally_singleton _ _ HD).
  split; unfold CI; cbn [fst snd].
  - replace (RInt (fun x => fst (DF u x)) a b) with (RInt (fun x => Derive (fun w => fst (F w x)) u) a b).
    + apply (is_derive_RInt_param (fun v x => fst (F v x))).
      * eapply filter_imp; [|exact HD]. intros v Hv x _. exists (fst (DF v x)). apply Hv.
      * intros x _. apply (continuity_2d_pt_ext_loc (fun v y => fst (DF v y))); [|apply HC].
        destruct HD as [e He]. exists e. intros v y Hv _. symmetry. apply is_derive_unique. apply (He v Hv y).
      * eapply filter_imp; [|exact HI]. intros v Hv. now apply ex_fst.
    + apply (RInt_ext (V := V)). intros x _. apply is_derive_unique. apply HD0.
  - replace (RInt (fun x => snd (DF u x)) a b) with (RInt (fun x => Derive (fun w => snd (F w x)) u) a b).
    + apply (is_derive_RInt_param (fun v x => snd (F v x))).
      * eapply filter_imp; [|exact HD]. intros v Hv x _. exists (snd (DF v x)). apply Hv.
      * intros x _. apply (continuity_2d_pt_ext_loc (fun v y => snd (DF v y))); [|apply HC].
        destruct HD as [e He]. exists e. intros v y Hv _. symmetry. apply is_derive_unique. apply (He v Hv y).
      * eapply filter_imp; [|exact HI]. intros v Hv. now apply ex_snd.
    + apply (RInt_ext (V := V)). intros x _. apply is_derive_unique. apply HD0.
Qed.

(** ** Limits of derivatives *)
Notation pinf := (Rbar_locally p_infty).
Lemma lim_eps : forall (f : R -> R) l, filterlim f pinf (locally l) <-> (forall e, 0 < e -> exists T0, forall T, T0 < T -> Rabs (f T - l) < e).
Proof.
  intros f l. split.
  - intros H e He. specialize (H (ball l (mkposreal e He)) (locally_ball l (mkposreal e He))). destruct H as [M HM]. exists M. intros T HT. apply (HM T HT).
  - intros H P [e HP]. destruct (H e (cond_pos e)) as [T0 HT]. exists T0. intros T L. apply HP. apply (HT T L).
Qed.
Lemma mvt_abs : forall (f f' : R -> R) a b M, (forall c, Rmin a b <= c <= Rmax a b -> is_derive f c (f' c)) -> (forall c, Rmin a b <= c <= Rmax a b -> Rabs (f' c) <= M) ->
  Rabs (f b - f a) <= M * Rabs (b - a).
Proof.
  intros f f' a b M Hd Hb. destruct (MVT_gen f a b f') as (c & Hc & E).
  - intros x Hx. apply Hd. lra.
  - intros x Hx. apply cont_pt, (ex_derive_continuous f). eexists. now apply Hd.
  - rewrite E, Rabs_mult. apply Rmult_le_compat_r; [apply Rabs_pos|now apply Hb].
Qed.
Lemma lim_derive : forall (F F1 F2 : R -> R -> R) (f : R -> R) (l x e M T1 : R), 0 < e ->
  (forall T u, Rabs (u - x) < e -> is_derive (F T) u (F1 T u)) -> (forall T u, Rabs (u - x) < e -> is_derive (F1 T) u (F2 T u)) ->
  (forall T u, T1 < T -> Rabs (u - x) < e -> Rabs (F2 T u) <= M) ->
  (forall u, Rabs (u - x) < e -> filterlim (fun T => F T u) pinf (locally (f u))) -> is_derive f x l -> filterlim (fun T => F1 T x) pinf (locally l).
Proof.
  intros F F1 F2 f l x e M T1 He D1 D2 B2 HL Hf. apply lim_eps. intros eps Hp.
  assert (M0 : 0 <= M). { eapply Rle_trans; [apply Rabs_pos|apply (B2 (T1 + 1) x); [lra|]]. unfold Rminus. rewrite Rplus_opp_r, Rabs_R0. exact He. }
  apply is_derive_Reals in Hf. destruct (Hf (eps / 4)) as [d Hd]; [lra|].
  set (eta := Rmin (Rmin (e / 2) (d / 2)) (eps / (4 * (M + 1)))).
  assert (E0 : 0 < eta). { apply Rmin_pos; [apply Rmin_pos; [lra|pose proof (cond_pos d); lra]|]. apply Rdiv_lt_0_compat; lra. }
  assert (E1 : eta <= e / 2) by (eapply Rle_trans; apply Rmin_l). assert (E2 : eta <= d / 2) by (eapply Rle_trans; [apply Rmin_l|apply Rmin_r]).
  assert (E3 : M * eta <= eps / 4). { assert (K : eta <= eps / (4 * (M + 1))) by apply Rmin_r. apply Rmult_le_compat_l with (r := M + 1) in K; [|lra]. replace ((M + 1) * (eps / (4 * (M + 1)))) with (eps / 4) in K by (field; lra). nra. }
  assert (Hx : Rabs (x - x) < e) by (unfold Rminus; rewrite Rplus_opp_r, Rabs_R0; exact He).
  assert (Hxe : Rabs (x + eta - x) < e) by (replace (x + eta - x) with eta by ring; rewrite Rabs_pos_eq; lra).
  assert (HE : forall t, 0 < t -> exists T0, forall T, T0 < T -> Rabs (F T x - f x) < t /\ Rabs (F T (x + eta) - f (x + eta)) < t).
  { intros t Ht. destruct (proj1 (lim_eps _ _) (HL x Hx) t Ht) as [T2 H2]. destruct (proj1 (lim_eps _ _) (HL _ Hxe) t Ht) as [T3 H3]. exists (Rmax T2 T3). intros T HT.
    split; [apply H2|apply H3]; eapply Rle_lt_trans; [apply Rmax_l|exact HT|apply Rmax_r|exact HT]. }
  destruct (HE (eps / 8 * eta)) as [T2 H2]; [nra|]. exists (Rmax T1 T2). intros T HT.
  assert (HT1 : T1 < T) by (eapply Rle_lt_trans; [apply Rmax_l|exact HT]). destruct (H2 T) as [G1 G2]; [eapply Rle_lt_trans; [apply Rmax_r|exact HT]|].
  assert (IN : forall c, Rmin x (x + eta) <= c <= Rmax x (x + eta) -> Rabs (c - x) <= eta).
  { intros c Hc. rewrite Rmin_left, Rmax_right in Hc by lra. rewrite Rabs_pos_eq; lra. }
  destruct (MVT_gen (F T) x (x + eta) (F1 T)) as (c & Hc & Ec).
  { intros u Hu. apply D1. specialize (IN u ltac:(lra)). lra. }
  { intros u Hu. apply cont_pt, (ex_derive_continuous (F T)). eexists. apply D1. specialize (IN u Hu). lra. }
  pose proof (IN c Hc) as Lc.
  assert (K1 : Rabs (F1 T c - F1 T x) <= M * Rabs (c - x)).
  { apply (mvt_abs (F1 T) (F2 T)); intros u Hu; (assert (Lu : Rabs (u - x) <= eta) by (rewrite Rmin_left, Rmax_right in Hc by lra; rewrite Rmin_left, Rmax_right in Hu by lra; rewrite Rabs_pos_eq; lra)).
    - apply D2. lra.
    - apply B2; lra. }
  assert (K2 : Rabs (F1 T c - F1 T x) <= eps / 4) by (assert (M * Rabs (c - x) <= M * eta) by (apply Rmult_le_compat_l; lra); lra).
  specialize (Hd eta ltac:(lra)). assert (Hdd : Rabs eta < d) by (rewrite Rabs_pos_eq; pose proof (cond_pos d); lra). specialize (Hd Hdd).
  replace (x + eta - x) with eta in Ec by ring.
  assert (K3 : Rabs (F1 T c - (f (x + eta) - f x) / eta) <= eps / 4).
  { replace (F1 T c - (f (x + eta) - f x) / eta) with (((F T (x + eta) - f (x + eta)) - (F T x - f x)) / eta).
    - unfold Rdiv. rewrite Rabs_mult, (Rabs_pos_eq (/ eta)) by (left; now apply Rinv_0_lt_compat).
      assert (Rabs (F T (x + eta) - f (x + eta) - (F T x - f x)) <= eps / 4 * eta).
      { eapply Rle_trans; [apply (Rabs_triang (F T (x + eta) - f (x + eta)) (- (F T x - f x)))|]. rewrite Rabs_Ropp. lra. }
      apply Rmult_le_compat_r with (r := / eta) in H; [|left; now apply Rinv_0_lt_compat]. replace (eps / 4 * eta * / eta) with (eps * / 4) in H by (field; lra). exact H.
    - apply (Rmult_eq_reg_r eta); [|lra]. field_simplify; try lra. }
  replace (F1 T x - l) with (- (F1 T c - F1 T x) + (F1 T c - (f (x + eta) - f x) / eta) + ((f (x + eta) - f x) / eta - l)) by ring.
  eapply Rle_lt_trans; [apply Rabs_triang|]. eapply Rle_lt_trans; [apply Rplus_le_compat_r, Rabs_triang|]. rewrite Rabs_Ropp. lra.
Qed.
