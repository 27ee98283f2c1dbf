(** Fields given by a wavenumber integral of up- and down-going plane waves: the partial derivatives
    are integrals of the same kind, and the curl equations hold under the integral sign. *)

From Coq Require Import Reals ZArith List Bool Lia Lra Psatz.
From Coquelicot Require Import Coquelicot.
From Verif Require Import PyBase CBase Kernel KernelSpec KernelPhys KernelClosed KernelPassive KernelMain KernelBVP ODE Bessel KernelBessel FullspaceCurl FullspaceEM Cint Sommer Sommer2 Homog LayAsym LayConv LayWave.
Local Open Scope R_scope.
Local Open Scope C_scope.

Lemma W_dx : forall u lam x Y, trg u -> is_deriveC (fun w => W u (lam * w) Y) x (Ci * RtoC lam * W (fun t => kh 1 t * u t)%R (lam * x) Y).
Proof.
  intros u lam x Y Hu. pose proof (trg_mult _ _ (trg_kh 1) Hu) as [Hv _]. destruct Hu as [Hu _].
  set (D := fun w t => RtoC (u t) * (Ci * RtoC (lam * cos t) * pl (lam * w) Y t)).
  assert (E : CI (D x) 0 (2 * PI) = Ci * RtoC lam * W (fun t => kh 1 t * u t)%R (lam * x) Y).
  { unfold W. change (CInt (fun t => RtoC (kh 1 t * u t) * pl (lam * x) Y t)) with (CI (fun t => RtoC (kh 1 t * u t) * pl (lam * x) Y t) 0 (2 * PI)). rewrite <- CI_scal by now apply cC_pl.
    apply CI_ext. intros t. unfold D, kh. cbn [Z.eqb Pos.eqb]. rewrite !RtoC_mult. ring. }
  rewrite <- E. apply (CI_param (fun w t => RtoC (u t) * pl (lam * w) Y t) D).
  - apply filter_forall. intros v t. unfold D. apply is_deriveC_scal, pl_dx.
  - intros t. unfold D. apply c2_mult; [apply c2_2; apply cC_R; exact Hu|]. apply c2_mult.
    + apply c2_2. apply cC_mult; [apply cC_const|]. apply cC_R. intros s. apply (ex_derive_continuous (fun t => lam * cos t)%R). auto_derive. exact I.
    + split; unfold pl; cbn [fst snd]; [apply (c2_comp cos); [exact cont_cos|]|apply (c2_comp sin); [exact cont_sin|]]; apply continuity_2d_pt_plus;
       try (apply continuity_2d_pt_mult; [apply continuity_2d_pt_mult; [apply continuity_2d_pt_const|apply continuity_2d_pt_id1]|apply (c2_comp cos); [exact cont_cos|apply continuity_2d_pt_id2]]);
       (apply continuity_2d_pt_mult; [apply continuity_2d_pt_const|apply (c2_comp sin); [exact cont_sin|apply continuity_2d_pt_id2]]).
  - apply filter_forall. intros v. now apply cC_pl.
Qed.
Lemma W_dy : forall u lam X y, trg u -> is_deriveC (fun w => W u X (lam * w)) y (Ci * RtoC lam * W (fun t => kh 2 t * u t)%R X (lam * y)).
Proof.
  intros u lam X y Hu. pose proof (trg_mult _ _ (trg_kh 2) Hu) as [Hv _]. destruct Hu as [Hu _].
  set (D := fun w t => RtoC (u t) * (Ci * RtoC (lam * sin t) * pl X (lam * w) t)).
  assert (E : CI (D y) 0 (2 * PI) = Ci * RtoC lam * W (fun t => kh 2 t * u t)%R X (lam * y)).
  { unfold W. change (CInt (fun t => RtoC (kh 2 t * u t) * pl X (lam * y) t)) with (CI (fun t => RtoC (kh 2 t * u t) * pl X (lam * y) t) 0 (2 * PI)). rewrite <- CI_scal by now apply cC_pl.
    apply CI_ext. intros t. unfold D, kh. cbn [Z.eqb Pos.eqb]. rewrite !RtoC_mult. ring. }
  rewrite <- E. apply (CI_param (fun w t => RtoC (u t) * pl X (lam * w) t) D).
  - apply filter_forall. intros v t. unfold D. apply is_deriveC_scal, pl_dy.
  - intros t. unfold D. apply c2_mult; [apply c2_2; apply cC_R; exact Hu|]. apply c2_mult.
    + apply c2_2. apply cC_mult; [apply cC_const|]. apply cC_R. intros s. apply (ex_derive_continuous (fun t => lam * sin t)%R). auto_derive. exact I.
    + split; unfold pl; cbn [fst snd]; [apply (c2_comp cos); [exact cont_cos|]|apply (c2_comp sin); [exact cont_sin|]]; (apply continuity_2d_pt_plus;
       [apply continuity_2d_pt_mult; [apply continuity_2d_pt_const|apply (c2_comp cos); [exact cont_cos|apply continuity_2d_pt_id2]]|
        apply continuity_2d_pt_mult; [apply continuity_2d_pt_mult; [apply continuity_2d_pt_const|apply continuity_2d_pt_id1]|apply (c2_comp sin); [exact cont_sin|apply continuity_2d_pt_id2]]]).
  - apply filter_forall. intros v. now apply cC_pl.
Qed.

(** ** Terms *)
Section Term.
Variables (g : R -> C) (za zb c : R).
Hypothesis Cg : eb 0 g.
Hypothesis Pg : forall lam : R, (0 <= lam)%R -> (0 <= fst (g lam))%R.
Definition ud (A B : R -> C) (z lam : R) : C := A lam * Cexp (- (g lam * RtoC (z - za))) + B lam * Cexp (- (g lam * RtoC (zb - z))).
Definition term (A B : R -> C) (u : R -> R) (x y z lam : R) : C := ud A B z lam * W u (lam * x) (lam * y).

Lemma ud_dz : forall A B z lam, is_deriveC (fun w => ud A B w lam) z (ud (fun l => - (g l) * A l) (fun l => g l * B l) z lam).
Proof.
  intros A B z lam. unfold ud. set (G := g lam).
  replace (- G * A lam * Cexp (- (G * RtoC (z - za))) + G * B lam * Cexp (- (G * RtoC (zb - z)))) with
    (A lam * (- G * Cexp (- G * RtoC z + G * RtoC za)) + B lam * (G * Cexp (G * RtoC z + - (G * RtoC zb)))).
  2:{ replace (- G * RtoC z + G * RtoC za) with (- (G * RtoC (z - za))) by (rewrite RtoC_minus; ring). replace (G * RtoC z + - (G * RtoC zb)) with (- (G * RtoC (zb - z))) by (rewrite RtoC_minus; ring). ring. }
  apply is_deriveC_plus; apply is_deriveC_scal.
  - apply (is_deriveC_ext_loc (fun w => Cexp (- G * RtoC w + G * RtoC za))); [|apply is_deriveC_exp]. apply filter_forall. intros w. f_equal. rewrite RtoC_minus. ring.
  - apply (is_deriveC_ext_loc (fun w => Cexp (G * RtoC w + - (G * RtoC zb)))); [|apply is_deriveC_exp]. apply filter_forall. intros w. f_equal. rewrite RtoC_minus. ring.
Qed.
Lemma fam_exp : forall (p : R -> R) (D : R -> Prop), (forall z, continuous p z) -> (forall z, D z -> (0 <= p z)%R) -> fam D 0 (fun z lam => Cexp (- (g lam * RtoC (p z)))).
Proof using Cg Pg.
  intros p D Cp Pp. split.
  - intros z lam Hz. apply c2_exp, c2_opp, c2_mult; [apply c2_2; apply Cg|]. apply c2_1. now apply (cC_R p).
  - exists 1%R, 0%nat. split; [lra|]. intros z lam Hz Hl. unfold bnd. rewrite Rmult_0_l, Ropp_0, exp_0, pow_O, !Rmult_1_r.
    rewrite Cmod_Cexp. rewrite <- exp_0. apply exp_le_mono. cbn [fst snd Copp Cmult RtoC]. specialize (Pg lam Hl). specialize (Pp z Hz). nra.
Qed.
Lemma fam_ud : forall (D : R -> Prop) A B, (forall z, D z -> (za <= z <= zb)%R) -> eb c A -> eb c B -> fam D c (ud A B).
Proof using Cg Pg.
  intros D A B HD HA HB. unfold ud. apply fam_plus; (apply fam_mult0; [now apply fam_eb|]); apply fam_exp.
  - intros z. apply (ex_derive_continuous (fun z => z - za)%R). auto_derive. exact I.
  - intros z Hz. specialize (HD z Hz). lra.
  - intros z. apply (ex_derive_continuous (fun z => zb - z)%R). auto_derive. exact I.
  - intros z Hz. specialize (HD z Hz). lra.
Qed.
Lemma eb_ud : forall A B z, (za <= z <= zb)%R -> eb c A -> eb c B -> eb c (ud A B z).
Proof using Cg Pg.
  intros A B z Hz HA HB. destruct (fam_ud (fun w => w = z) A B ltac:(intros w ->; exact Hz) HA HB) as [C1 (M & n & HM & B')].
  split; [apply c2_cC; intros; now apply C1|]. exists M, n. split; [exact HM|]. intros x Hx. now apply B'.
Qed.
Lemma fam_cst : forall D f, eb c f -> fam D c (fun _ l => f l). Proof. intros. now apply fam_eb. Qed.

Lemma term_dx : forall A B u x y z lam, trg u ->
  is_deriveC (fun w => term A B u w y z lam) x (term (fun l => Ci * RtoC l * A l) (fun l => Ci * RtoC l * B l) (fun t => kh 1 t * u t)%R x y z lam).
Proof.
  intros A B u x y z lam Hu. unfold term.
  replace (ud (fun l => Ci * RtoC l * A l) (fun l => Ci * RtoC l * B l) z lam * W (fun t => kh 1 t * u t)%R (lam * x) (lam * y)) with (ud A B z lam * (Ci * RtoC lam * W (fun t => kh 1 t * u t)%R (lam * x) (lam * y))) by (unfold ud; ring).
  apply is_deriveC_scal. now apply W_dx.
Qed.
Lemma term_dy : forall A B u x y z lam, trg u ->
  is_deriveC (fun w => term A B u x w z lam) y (term (fun l => Ci * RtoC l * A l) (fun l => Ci * RtoC l * B l) (fun t => kh 2 t * u t)%R x y z lam).
Proof.
  intros A B u x y z lam Hu. unfold term.
  replace (ud (fun l => Ci * RtoC l * A l) (fun l => Ci * RtoC l * B l) z lam * W (fun t => kh 2 t * u t)%R (lam * x) (lam * y)) with (ud A B z lam * (Ci * RtoC lam * W (fun t => kh 2 t * u t)%R (lam * x) (lam * y))) by (unfold ud; ring).
  apply is_deriveC_scal. now apply W_dy.
Qed.
Lemma term_dz : forall A B u x y z lam,
  is_deriveC (fun w => term A B u x y w lam) z (term (fun l => - (g l) * A l) (fun l => g l * B l) u x y z lam).
Proof.
  intros A B u x y z lam. unfold term. set (w0 := W u (lam * x) (lam * y)).
  apply (is_deriveC_ext_loc (fun w => w0 * ud A B w lam)); [apply filter_forall; intros; ring|]. 
  replace (ud (fun l => - g l * A l) (fun l => g l * B l) z lam * w0) with (w0 * ud (fun l => - g l * A l) (fun l => g l * B l) z lam) by ring.
  apply is_deriveC_scal, ud_dz.
Qed.
Lemma term_fx : forall D A B u y z, (za <= z <= zb)%R -> eb c A -> eb c B -> trg u -> fam D c (fun x lam => term A B u x y z lam).
Proof using Cg Pg. intros D A B u y z Hz HA HB Hu. unfold term. apply fam_mult0; [apply fam_eb; now apply eb_ud|now apply fam_Wx]. Qed.
Lemma term_fy : forall D A B u x z, (za <= z <= zb)%R -> eb c A -> eb c B -> trg u -> fam D c (fun y lam => term A B u x y z lam).
Proof using Cg Pg. intros D A B u x z Hz HA HB Hu. unfold term. apply fam_mult0; [apply fam_eb; now apply eb_ud|now apply fam_Wy]. Qed.
Lemma term_fz : forall (D : R -> Prop) A B u x y, (forall z, D z -> (za <= z <= zb)%R) -> eb c A -> eb c B -> trg u -> fam D c (fun z lam => term A B u x y z lam).
Proof using Cg Pg. intros D A B u x y HD HA HB Hu. unfold term. apply fam_mult0; [now apply fam_ud|now apply fam_Wz]. Qed.
Lemma eb_il : forall A, eb c A -> eb c (fun l => Ci * RtoC l * A l).
Proof. intros A HA. apply (eb_mult0 c (fun l => Ci * RtoC l) A); [apply eb_scal, eb_id|exact HA]. Qed.
Lemma eb_g : forall A, eb c A -> eb c (fun l => g l * A l).
Proof using Cg. intros A HA. now apply (eb_mult0 c g A). Qed.
Lemma eb_mg : forall A, eb c A -> eb c (fun l => - g l * A l).
Proof using Cg. intros A HA. apply (eb_mult0 c (fun l => - g l) A); [now apply eb_opp|exact HA]. Qed.
End Term.

(** ** Fields with a TM and a TE part *)
Section Field.
Variables (gm ge : R -> C) (za zb c : R).
Hypothesis Cm : eb 0 gm.
Hypothesis Ce : eb 0 ge.
Hypothesis Pm : forall lam : R, (0 <= lam)%R -> (0 <= fst (gm lam))%R.
Hypothesis Pe : forall lam : R, (0 <= lam)%R -> (0 <= fst (ge lam))%R.
Hypothesis Hc : (0 < c)%R.
Definition fld (A B : R -> C) (u : R -> R) (A' B' : R -> C) (u' : R -> R) (x y z lam : R) : C := term gm za zb A B u x y z lam + term ge za zb A' B' u' x y z lam.
Definition il (A : R -> C) (l : R) : C := Ci * RtoC l * A l.

Lemma fld_dx : forall A B u A' B' u' (f : R -> C) x y z e, (0 < e)%R -> (za <= z <= zb)%R -> eb c A -> eb c B -> eb c A' -> eb c B' -> trg u -> trg u' ->
  (forall w, (Rabs (w - x) < e)%R -> improper (fld A B u A' B' u' w y z) (f w)) ->
  exists l, improper (fld (il A) (il B) (fun t => kh 1 t * u t)%R (il A') (il B') (fun t => kh 1 t * u' t)%R x y z) l /\ is_deriveC f x l.
Proof using Cm Ce Pm Pe Hc.
  intros A B u A' B' u' f x y z e He Hz HA HB HA' HB' Hu Hu' HI. pose proof (trg_mult _ _ (trg_kh 1) Hu) as Hv. pose proof (trg_mult _ _ (trg_kh 1) Hu') as Hv'.
  apply (improper_derive_fam (fun w lam => fld A B u A' B' u' w y z lam) (fun w lam => fld (il A) (il B) (fun t => kh 1 t * u t)%R (il A') (il B') (fun t => kh 1 t * u' t)%R w y z lam)
    (fun w lam => fld (il (il A)) (il (il B)) (fun t => kh 1 t * (kh 1 t * u t))%R (il (il A')) (il (il B')) (fun t => kh 1 t * (kh 1 t * u' t))%R w y z lam) f c x e He Hc).
  - unfold fld. apply fam_plus; now apply term_fx.
  - unfold fld. apply fam_plus; apply term_fx; try assumption; now apply eb_il.
  - unfold fld. apply fam_plus; apply term_fx; try assumption; try (apply eb_il; now apply eb_il); apply trg_mult; try assumption; apply trg_kh.
  - intros w lam. unfold fld. apply is_deriveC_plus; now apply term_dx.
  - intros w lam. unfold fld. apply is_deriveC_plus; apply term_dx; assumption.
  - exact HI.
Qed.
Lemma fld_dy : forall A B u A' B' u' (f : R -> C) x y z e, (0 < e)%R -> (za <= z <= zb)%R -> eb c A -> eb c B -> eb c A' -> eb c B' -> trg u -> trg u' ->
  (forall w, (Rabs (w - y) < e)%R -> improper (fld A B u A' B' u' x w z) (f w)) ->
  exists l, improper (fld (il A) (il B) (fun t => kh 2 t * u t)%R (il A') (il B') (fun t => kh 2 t * u' t)%R x y z) l /\ is_deriveC f y l.
Proof using Cm Ce Pm Pe Hc.
  intros A B u A' B' u' f x y z e He Hz HA HB HA' HB' Hu Hu' HI. pose proof (trg_mult _ _ (trg_kh 2) Hu) as Hv. pose proof (trg_mult _ _ (trg_kh 2) Hu') as Hv'.
  apply (improper_derive_fam (fun w lam => fld A B u A' B' u' x w z lam) (fun w lam => fld (il A) (il B) (fun t => kh 2 t * u t)%R (il A') (il B') (fun t => kh 2 t * u' t)%R x w z lam)
    (fun w lam => fld (il (il A)) (il (il B)) (fun t => kh 2 t * (kh 2 t * u t))%R (il (il A')) (il (il B')) (fun t => kh 2 t * (kh 2 t * u' t))%R x w z lam) f c y e He Hc).
  - unfold fld. apply fam_plus; now apply term_fy.
  - unfold fld. apply fam_plus; apply term_fy; try assumption; now apply eb_il.
  - unfold fld. apply fam_plus; apply term_fy; try assumption; try (apply eb_il; now apply eb_il); apply trg_mult; try assumption; apply trg_kh.
  - intros w lam. unfold fld. apply is_deriveC_plus; now apply term_dy.
  - intros w lam. unfold fld. apply is_deriveC_plus; apply term_dy; assumption.
  - exact HI.
Qed.
Lemma fld_dz : forall A B u A' B' u' (f : R -> C) x y z e, (0 < e)%R -> (forall w, (Rabs (w - z) < e)%R -> (za <= w <= zb)%R) -> eb c A -> eb c B -> eb c A' -> eb c B' -> trg u -> trg u' ->
  (forall w, (Rabs (w - z) < e)%R -> improper (fld A B u A' B' u' x y w) (f w)) ->
  exists l, improper (fld (fun l => - gm l * A l) (fun l => gm l * B l) u (fun l => - ge l * A' l) (fun l => ge l * B' l) u' x y z) l /\ is_deriveC f z l.
Proof using Cm Ce Pm Pe Hc.
  intros A B u A' B' u' f x y z e He Hz HA HB HA' HB' Hu Hu' HI.
  apply (improper_derive_fam (fun w lam => fld A B u A' B' u' x y w lam) (fun w lam => fld (fun l => - gm l * A l) (fun l => gm l * B l) u (fun l => - ge l * A' l) (fun l => ge l * B' l) u' x y w lam)
    (fun w lam => fld (fun l => - gm l * (- gm l * A l)) (fun l => gm l * (gm l * B l)) u (fun l => - ge l * (- ge l * A' l)) (fun l => ge l * (ge l * B' l)) u' x y w lam) f c z e He Hc).
  - unfold fld. apply fam_plus; now apply term_fz.
  - unfold fld. apply fam_plus; apply term_fz; try assumption; first [apply eb_mg; assumption|apply eb_g; assumption].
  - unfold fld. apply fam_plus; apply term_fz; try assumption; first [apply eb_mg; [assumption|]; apply eb_mg; assumption|apply eb_g; [assumption|]; apply eb_g; assumption].
  - intros w lam. unfold fld. apply is_deriveC_plus; apply term_dz.
  - intros w lam. unfold fld. apply is_deriveC_plus; apply term_dz.
  - exact HI.
Qed.
Lemma fld_eb : forall A B u A' B' u' x y z, (za <= z <= zb)%R -> eb c A -> eb c B -> eb c A' -> eb c B' -> trg u -> trg u' -> eb c (fld A B u A' B' u' x y z).
Proof using Cm Ce Pm Pe.
  intros A B u A' B' u' x y z Hz HA HB HA' HB' Hu Hu'. 
  assert (F : fam (fun w => w = z) c (fun w lam => fld A B u A' B' u' x y w lam)) by (unfold fld; apply fam_plus; apply term_fz; try assumption; intros w ->; exact Hz).
  destruct F as [C1 (M & n & HM & B0)]. split; [apply (c2_cC (fun w lam => fld A B u A' B' u' x y w lam)); intros; now apply C1|]. exists M, n. split; [exact HM|]. intros l Hl. now apply (B0 z l).
Qed.
End Field.

Lemma improper_sub : forall F G a b, improper F a -> improper G b -> improper (fun x => F x - G x) (a - b).
Proof.
  intros F G a b [E1 L1] [E2 L2]. assert (EE : forall T : R, (0 <= T)%R -> CI (fun x => F x - G x) 0 T = CI F 0 T - CI G 0 T).
  { intros T HT. destruct (E1 T HT) as [A1 A2], (E2 T HT) as [B1 B2]. unfold CI. apply injective_projections; cbn [fst snd Cminus Cplus Copp].
    - exact (RInt_minus (V := R_CompleteNormedModule) (fun x => fst (F x)) (fun x => fst (G x)) 0 T A1 B1).
    - exact (RInt_minus (V := R_CompleteNormedModule) (fun x => snd (F x)) (fun x => snd (G x)) 0 T A2 B2). }
  split.
  - intros T HT. destruct (E1 T HT) as [A1 A2], (E2 T HT) as [B1 B2]. split; cbn [fst snd Cminus Cplus Copp].
    + exact (ex_RInt_minus (V := R_NormedModule) (fun x => fst (F x)) (fun x => fst (G x)) 0 T A1 B1).
    + exact (ex_RInt_minus (V := R_NormedModule) (fun x => snd (F x)) (fun x => snd (G x)) 0 T A2 B2).
  - apply (limC_ext_loc (fun T => CI F 0 T - CI G 0 T)); [|now apply limC_minus]. exists 0%R. intros T HT. symmetry. apply EE. lra.
Qed.
Lemma improper_scal : forall c F a, improper F a -> improper (fun x => c * F x) (c * a).
Proof.
  intros [c1 c2] F a [E L].
  assert (X : forall (p q : R) f h T, ex_RInt f 0 T -> ex_RInt h 0 T -> is_RInt (fun x => p * f x + q * h x)%R 0 T (p * RInt f 0 T + q * RInt h 0 T)%R).
  { intros p q f h T H1 H2. apply (is_RInt_plus (V := R_NormedModule) (fun x => p * f x)%R (fun x => q * h x)%R); [apply (is_RInt_scal (V := R_NormedModule) f 0 T p)|apply (is_RInt_scal (V := R_NormedModule) h 0 T q)]; now apply (RInt_correct (V := R_CompleteNormedModule)). }
  assert (Y : forall T : R, (0 <= T)%R -> is_RInt (fun x => fst ((c1, c2) * F x)) 0 T (fst ((c1, c2) * CI F 0 T)) /\ is_RInt (fun x => snd ((c1, c2) * F x)) 0 T (snd ((c1, c2) * CI F 0 T))).
  { intros T HT. destruct (E T HT) as [A1 A2]. split.
    - replace (fst ((c1, c2) * CI F 0 T)) with (c1 * RInt (fun x => fst (F x)) 0 T + - c2 * RInt (fun x => snd (F x)) 0 T)%R by (cbn; ring).
      apply (is_RInt_ext (fun x => c1 * fst (F x) + - c2 * snd (F x))%R); [intros; cbn; ring|]. now apply X.
    - replace (snd ((c1, c2) * CI F 0 T)) with (c2 * RInt (fun x => fst (F x)) 0 T + c1 * RInt (fun x => snd (F x)) 0 T)%R by (cbn; ring).
      apply (is_RInt_ext (fun x => c2 * fst (F x) + c1 * snd (F x))%R); [intros; cbn; ring|]. now apply X. }
  split.
  - intros T HT. destruct (Y T HT) as [A B]. split; eexists; eassumption.
  - apply (limC_ext_loc (fun T => (c1, c2) * CI F 0 T)); [|now apply limC_scal]. exists 0%R. intros T HT. destruct (Y T ltac:(lra)) as [A B]. unfold CI at 2.
    now rewrite (is_RInt_unique _ _ _ _ A), (is_RInt_unique _ _ _ _ B), <- surjective_pairing.
Qed.
