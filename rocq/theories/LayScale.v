(** Scaling law of the response of a layered model. *)

From Coq Require Import Reals ZArith List Bool Lia Lra Psatz QArith.
From Coquelicot Require Import Coquelicot.
From Verif Require Import PyBase CBase Kernel KernelSpec KernelPhys KernelClosed KernelPassive KernelSym KernelSplit KernelMain KernelBVP Utils UtilsAb ODE Bessel KernelBessel KernelThm KernelThm2 KernelFinal FullspaceThm FullspaceCurl FullspaceField FullspaceEM HalfspaceThm Cint Sommer Sommer2 Homog HomogThm LayAsym LayConv LayWave LayField LayMaxwell LayCode LayVal LayEM LayCont LaySym.
Import ListNotations.
Local Open Scope R_scope.
Local Open Scope C_scope.

(** ** Change of variables in the improper integral *)
Lemma improper_stretch : forall (F : R -> C) (k : R) V, (0 < k)%R -> improper F V -> improper (fun x => F (k * x)%R) (RtoC (/ k) * V).
Proof.
  intros F k V Hk [E L].
  assert (EX : forall (p : C -> R), (forall T : R, (0 <= T)%R -> ex_RInt (fun x => p (F x)) 0 T) -> forall T : R, (0 <= T)%R -> is_RInt (fun x => p (F (k * x)%R)) 0 T (/ k * RInt (fun x => p (F x)) 0 (k * T))%R).
  { intros p H T HT. pose proof (RInt_correct _ _ _ (H (k * T)%R ltac:(nra))) as I.
    replace 0%R with (k * 0 + 0)%R in I at 1 by ring. replace (k * T)%R with (k * T + 0)%R in I at 1 by ring.
    apply (is_RInt_comp_lin (V := R_NormedModule)) in I. apply (is_RInt_scal (V := R_NormedModule) _ _ _ (/ k)%R) in I. refine (is_RInt_ext _ _ _ _ _ _ I).
    intros x _. unfold scal; cbn; unfold mult; cbn. replace (k * x + 0)%R with (k * x)%R by ring. field. lra. }
  split.
  - intros T HT. split; eexists.
    + apply (EX fst); [intros; now apply E|exact HT].
    + apply (EX snd); [intros; now apply E|exact HT].
  - refine (limC_ext_loc (fun T => RtoC (/ k) * CI F 0 (k * T)%R) _ _ _ _).
    + exists 0%R. intros T HT. unfold CI.
      rewrite (is_RInt_unique _ _ _ _ (EX fst ltac:(intros; now apply E) T ltac:(lra))), (is_RInt_unique _ _ _ _ (EX snd ltac:(intros; now apply E) T ltac:(lra))).
      apply injective_projections; unfold Cmult, RtoC; cbn [fst snd]; ring.
    + apply limC_scal. assert (M : filterlim (fun T : R => (k * T)%R) (Rbar_locally p_infty) (Rbar_locally p_infty)).
      { intros P [M HM]. exists (M / k)%R. intros T HT. apply HM. apply (Rmult_lt_compat_l k) in HT; [|exact Hk]. replace (k * (M / k))%R with M in HT by (field; lra). exact HT. }
      destruct L as [L1 L2]. split; [exact (filterlim_comp _ _ _ _ _ _ _ _ M L1)|exact (filterlim_comp _ _ _ _ _ _ _ _ M L2)].
Qed.

(** ** One mode *)
Lemma Cdiv_scal : forall (c : R) (a b : C), c <> 0%R -> (RtoC c * a) / (RtoC c * b) = a / b.
Proof.
  intros c a b Hc. destruct (Ceq_dec b 0) as [->|Hb].
  - replace (RtoC c * 0) with (RtoC 0) by ring. unfold Cdiv. replace (/ RtoC 0) with (RtoC 0); [ring|]. apply injective_projections; cbn; unfold Rdiv; ring.
  - field. split; [exact Hb|]. intros W. apply (f_equal fst) in W. cbn in W. lra.
Qed.

Section Mode.
(** e scaled by al, lengths by L, the wavenumber by 1/L, the vertical wavenumber by 1/L *)
Variables (e g e' g' : nat -> C) (z z' : nat -> R) (N : nat) (al L : R).
Hypothesis Hal : (0 < al)%R.
Hypothesis HL : (0 < L)%R.
Hypothesis He : forall k, e' k = RtoC al * e k.
Hypothesis Hg : forall k, g' k = RtoC (/ L) * g k.
Hypothesis Hz : forall k, z' k = (L * z k)%R.

Lemma sc_dec : forall k d d', d' = (L * d)%R -> dec g' k d' = dec g k d.
Proof using HL Hg. intros k d d' ->. unfold dec. f_equal. rewrite Hg. apply injective_projections; cbn; field; lra. Qed.
Lemma sc_thick : forall k, thick z' k = (L * thick z k)%R.
Proof using Hz. intros. unfold thick. rewrite !Hz. ring. Qed.
Lemma sc_E1 : forall k, E1 g' z' k = E1 g z k.
Proof using HL Hg Hz. intros. unfold E1. apply sc_dec, sc_thick. Qed.
Lemma sc_E2 : forall k, E2 g' z' k = E2 g z k.
Proof using HL Hg Hz. intros. unfold E2. f_equal. rewrite Hg, sc_thick. apply injective_projections; cbn; field; lra. Qed.
Lemma sc_rl : forall k, rl e' g' k = rl e g k.
Proof using Hal HL He Hg.
  intros k. unfold rl. rewrite !He, !Hg. rewrite <- (Cdiv_scal (al * / L)%R (e (S k) * g k - e k * g (S k)) (e (S k) * g k + e k * g (S k))).
  - rewrite RtoC_mult. apply f_equal2; ring.
  - apply Rgt_not_eq. apply Rmult_lt_0_compat; [exact Hal|now apply Rinv_0_lt_compat].
Qed.
Lemma sc_RdnF : forall m k, RdnF e' g' z' m k = RdnF e g z m k.
Proof using Hal HL He Hg Hz. induction m; intros k; [reflexivity|]. cbn [RdnF]. now rewrite IHm, sc_E2, sc_rl. Qed.
Lemma sc_Rdn : forall k, Rdn e' g' z' N k = Rdn e g z N k.
Proof using Hal HL He Hg Hz. intros. apply sc_RdnF. Qed.
Lemma sc_Rup : forall k, Rup e' g' z' k = Rup e g z k.
Proof using Hal HL He Hg Hz. induction k; [reflexivity|]. cbn [Rup]. now rewrite IHk, sc_E2, sc_rl. Qed.
Lemma sc_Ms : forall s, Ms e' g' z' N s = Ms e g z N s.
Proof using Hal HL He Hg Hz. intros. unfold Ms. now rewrite sc_Rup, sc_Rdn, sc_E2. Qed.
Lemma sc_bsd : forall pm s zs, bsd e' g' z' pm s (L * zs)%R = bsd e g z pm s zs.
Proof using Hal HL He Hg Hz. intros. unfold bsd. rewrite sc_Rup, (sc_dec s (z (S s) - zs)), (sc_dec s (thick z s + (zs - z s))); [reflexivity|rewrite sc_thick, Hz; ring|rewrite Hz; ring]. Qed.
Lemma sc_bsu : forall pm s zs, bsu e' g' z' N pm s (L * zs)%R = bsu e g z N pm s zs.
Proof using Hal HL He Hg Hz. intros. unfold bsu. rewrite sc_Rdn, (sc_dec s (zs - z s)), (sc_dec s (thick z s + (z (S s) - zs))); [reflexivity|rewrite sc_thick, Hz; ring|rewrite Hz; ring]. Qed.
Lemma sc_tdn : forall k, tdn e' g' z' N k = tdn e g z N k.
Proof using Hal HL He Hg Hz. intros. unfold tdn. now rewrite !sc_Rdn, sc_E2. Qed.
Lemma sc_tup : forall k, tup e' g' z' k = tup e g z k.
Proof using Hal HL He Hg Hz. intros. unfold tup. now rewrite !sc_Rup, sc_E2. Qed.
Lemma sc_amp_dn : forall pm s r zs, amp_dn e' g' z' N pm s r (L * zs)%R = amp_dn e g z N pm s r zs.
Proof using Hal HL He Hg Hz. intros. unfold amp_dn. rewrite sc_bsd, sc_Ms, sc_tdn. f_equal. apply prodC_ext. intros. now rewrite sc_E1, sc_tdn. Qed.
Lemma sc_amp_up : forall pm s r zs, amp_up e' g' z' N pm s r (L * zs)%R = amp_up e g z N pm s r zs.
Proof using Hal HL He Hg Hz. intros. unfold amp_up. rewrite sc_bsu, sc_Ms, sc_tup. f_equal. apply prodC_ext. intros. now rewrite sc_E1, sc_tup. Qed.
Lemma sc_sign : forall x, Rsign (L * x) = Rsign x.
Proof using HL. intros x. unfold Rsign. repeat (destruct (Rlt_dec _ _)); try reflexivity; exfalso; nra. Qed.
Lemma sc_G : forall pm sg s r zs zr xd, G_mode e' g' z' N pm sg s r (L * zs) (L * zr) xd = G_mode e g z N pm sg s r zs zr xd.
Proof using Hal HL He Hg Hz.
  intros. unfold G_mode. destruct (s =? r)%nat.
  - f_equal.
    + unfold G_same. rewrite sc_bsd, sc_bsu, sc_Ms, sc_Rdn, sc_Rup, (sc_dec s (z (S s) - zr)), (sc_dec s (zr - z s)); [reflexivity|rewrite Hz; ring|rewrite Hz; ring].
    + destruct xd; [reflexivity|]. unfold G_dir, dsgn. rewrite (sc_dec s (Rabs (zs - zr))).
      * replace (L * zr - L * zs)%R with (L * (zr - zs))%R by ring. now rewrite sc_sign.
      * replace (L * zs - L * zr)%R with (L * (zs - zr))%R by ring. rewrite Rabs_mult, (Rabs_pos_eq L) by lra. reflexivity.
  - destruct (r <? s)%nat.
    + unfold G_up. rewrite sc_amp_up, sc_Rup, sc_E1, (sc_dec r (z (S r) - zr)), (sc_dec r (zr - z r)); [reflexivity|rewrite Hz; ring|rewrite Hz; ring].
    + unfold G_dn. rewrite sc_amp_dn, sc_Rdn, sc_E1, (sc_dec r (zr - z r)), (sc_dec r (z (S r) - zr)); [reflexivity|rewrite Hz; ring|rewrite Hz; ring].
Qed.
Definition pick (c : C) (x : R) : C := if Ceq_dec c 1 then RtoC x else RtoC 1.
Lemma sc_wsrc : forall pm k, wsrc e' g' pm k = pick pm (al * L) * wsrc e g pm k.
Proof using Hal HL He Hg.
  intros pm k. unfold wsrc, pick. destruct (Ceq_dec pm 1); [|ring]. rewrite He, Hg.
  transitivity ((RtoC (al * L) * e k) / g k); [|unfold Cdiv; ring].
  rewrite <- (Cdiv_scal (/ L)%R (RtoC (al * L) * e k) (g k)) by (apply Rgt_not_eq; now apply Rinv_0_lt_compat).
  apply f_equal2; [|reflexivity]. rewrite Cmult_assoc, <- RtoC_mult. do 2 f_equal. field. lra.
Qed.
Definition unpick (c : C) (x : R) : C := if Ceq_dec c 1 then RtoC 1 else RtoC x.
Lemma sc_wgt : forall sg k, wgt e' g' sg k = unpick sg (/ (al * L)) * wgt e g sg k.
Proof using Hal HL He Hg.
  intros sg k. unfold wgt, unpick. destruct (Ceq_dec sg 1); [ring|]. rewrite He, Hg.
  transitivity ((RtoC (/ (al * L)) * g k) / e k); [|unfold Cdiv; ring].
  rewrite <- (Cdiv_scal al (RtoC (/ (al * L)) * g k) (e k)) by lra.
  apply f_equal2; [|reflexivity]. rewrite Cmult_assoc, <- RtoC_mult. do 2 f_equal. field. lra.
Qed.
End Mode.

Lemma sc_gam : forall h v q h' v' q' (al be L : R) lam k, (0 < al)%R -> (0 < L)%R -> (al * be * (L * L) = 1)%R -> h' k = RtoC al * h k -> v' k = RtoC al * v k -> q' k = RtoC be * q k ->
  gam h' v' q' (/ L * lam) k = RtoC (/ L) * gam h v q lam k.
Proof.
  intros h v q h' v' q' al be L lam k Ha HL E Eh Ev Eq. unfold gam. rewrite Eh, Ev, Eq, Cdiv_scal by lra.
  rewrite <- (sqrt_square (/ L)) at 3 by (apply Rlt_le; now apply Rinv_0_lt_compat). rewrite <- Csqrt_scale by (apply Rlt_le; apply Rmult_lt_0_compat; now apply Rinv_0_lt_compat). f_equal.
  assert (B : (al * be = / L * / L)%R). { apply (Rmult_eq_reg_r (L * L)); [|nra]. rewrite E. field. lra. }
  rewrite <- B, (RtoC_mult al be). replace (RtoC (/ L * lam * (/ L * lam))) with (RtoC al * RtoC be * RtoC (lam * lam)); [unfold Cdiv; ring|]. rewrite <- !RtoC_mult. f_equal. rewrite B. ring.
Qed.
Lemma sc_T : forall e v q e' v' q' z z' N s r zs zr pm sg (al be L : R) lam, (0 < al)%R -> (0 < L)%R -> (al * be * (L * L) = 1)%R ->
  (forall k, e' k = RtoC al * e k) -> (forall k, v' k = RtoC al * v k) -> (forall k, q' k = RtoC be * q k) -> (forall k, z' k = L * z k)%R ->
  Tp e' v' q' z' N s r (L * zs) (L * zr) pm sg (/ L * lam) = pick pm (al * L) * unpick sg (/ (al * L)) * Tp e v q z N s r zs zr pm sg lam.
Proof.
  intros e v q e' v' q' z z' N s r zs zr pm sg al be L lam Ha HL E Ee Ev Eq Ez. unfold Tp.
  assert (G : forall k, gam e' v' q' (/ L * lam) k = RtoC (/ L) * gam e v q lam k) by (intros; apply (sc_gam _ _ _ _ _ _ al be); auto).
  rewrite (sc_wsrc e (gam e v q lam) e' _ al L Ha HL Ee G), (sc_wgt e (gam e v q lam) e' _ al L Ha HL Ee G), (sc_G e (gam e v q lam) e' _ z z' N al L Ha HL Ee G Ez). ring.
Qed.

(** ** The response *)
(** Scale of the field a due to a source b: electric source and receiver 1/(al L), both magnetic 1/(be L) = al L, mixed 1. *)
Definition scl (al L : R) (a b : Z) : R := ((if (a <=? 3)%Z then / (al * L) else 1) * (if (b <=? 3)%Z then 1 else al * L))%R.

Lemma lay_stretch : forall L z n x, (0 < L)%R -> lay (fun k => L * z k)%R n (L * x)%R = lay z n x.
Proof. intros L z n x HL. induction n; [reflexivity|]. cbn [lay]. rewrite IHn. destruct (Rlt_dec _ _), (Rlt_dec _ _); try reflexivity; exfalso; nra. Qed.
Lemma passive_scale : forall eH eV zH zV z N (al be L : R), (0 < al)%R -> (0 < be)%R -> (0 < L)%R -> passive_medium eH eV zH zV z N ->
  passive_medium (fun k => RtoC al * eH k) (fun k => RtoC al * eV k) (fun k => RtoC be * zH k) (fun k => RtoC be * zV k) (fun k => L * z k)%R N.
Proof.
  assert (P : forall (c : R) (x : C), (0 < c)%R -> RtoC c * x = RtoC 0 -> x = RtoC 0).
  { intros c x Hc W. transitivity (RtoC (/ c) * (RtoC c * x)); [|rewrite W; ring]. rewrite Cmult_assoc, <- RtoC_mult. replace (/ c * c)%R with 1%R by (field; lra). ring. }
  intros eH eV zH zV z N al be L Ha Hb HL []. constructor; intros k Hk.
  - specialize (pme_eH k Hk). cbn. nra.
  - specialize (pme_eV k Hk). cbn. nra.
  - specialize (pme_zH k Hk). cbn. nra.
  - specialize (pme_zV k Hk). cbn. nra.
  - intros W. apply (pme_zH0 k Hk). now apply (P be).
  - intros W. apply (pme_zV0 k Hk). now apply (P be).
  - specialize (pme_z k Hk). nra.
Qed.

Lemma sc_inv : forall (al L : R) lam (v : C), (0 < al)%R -> (0 < L)%R -> Ci * RtoC (/ L * lam) / (RtoC al * v) = RtoC (/ (al * L)) * (Ci * RtoC lam / v).
Proof.
  intros al L lam v Ha HL. rewrite <- (Cdiv_scal al (Ci * RtoC lam) v) by lra. unfold Cdiv. rewrite !Cmult_assoc. f_equal.
  transitivity (Ci * (RtoC (/ (al * L)) * RtoC al * RtoC lam)); [|ring]. f_equal. rewrite <- !RtoC_mult. f_equal. field. lra.
Qed.
Lemma pick_1 : forall x, pick 1 x = RtoC x. Proof. intros. unfold pick. destruct (Ceq_dec 1 1); [reflexivity|contradiction]. Qed.
Lemma pick_m1 : forall x, pick (- (1)) x = RtoC 1. Proof. intros. unfold pick. destruct (Ceq_dec _ 1) as [W|]; [|reflexivity]. now apply m1_neq_1 in W. Qed.
Lemma unpick_1 : forall x, unpick 1 x = RtoC 1. Proof. intros. unfold unpick. destruct (Ceq_dec 1 1); [reflexivity|contradiction]. Qed.
Lemma unpick_m1 : forall x, unpick (- (1)) x = RtoC x. Proof. intros. unfold unpick. destruct (Ceq_dec _ 1) as [W|]; [|reflexivity]. now apply m1_neq_1 in W. Qed.
Ltac six b := assert (b = 1 \/ b = 2 \/ b = 3 \/ b = 4 \/ b = 5 \/ b = 6)%Z as [-> | [-> | [-> | [-> | [-> | ->]]]]] by lia.
Lemma inv_c : forall (al L : R), (0 < al)%R -> (0 < L)%R -> RtoC (/ (al * L)) * RtoC (al * L) = 1.
Proof. intros. rewrite <- RtoC_mult. f_equal. apply Rinv_l. nra. Qed.

Section Wts.
Variables (al be L : R).
Hypothesis Ha : (0 < al)%R.
Hypothesis Hb : (0 < be)%R.
Hypothesis HL : (0 < L)%R.
Hypothesis E : (al * be * (L * L) = 1)%R.
Lemma beL : (be * L = / (al * L))%R. Proof using Ha HL E. apply (Rmult_eq_reg_r (al * L)); [|nra]. rewrite Rinv_l by nra. lra. Qed.
Lemma alL : (/ (be * L) = al * L)%R. Proof using Ha HL E. rewrite beL. apply Rinv_inv. Qed.

Lemma srcM : forall v b lam, (1 <= b <= 6)%Z -> pick (pmTM b) (al * L) * wM (RtoC al * v) b (/ L * lam) = RtoC (if (b <=? 3)%Z then 1 else al * L) * wM v b lam.
Proof using Ha HL.
  intros v b lam Hb'. pose proof (inv_c al L Ha HL) as I. six b; unfold pmTM, wM; cbn [Z.leb Z.eqb Z.compare Pos.compare Pos.compare_cont Pos.eqb]; rewrite ?pick_1, ?pick_m1, ?sc_inv by assumption; try ring.
  transitivity (RtoC (/ (al * L)) * RtoC (al * L) * (Ci * RtoC lam / v)); [ring|rewrite I; ring].
Qed.
Lemma recM : forall v a lam, (1 <= a <= 6)%Z -> unpick (pmTM a) (/ (al * L)) * wM (RtoC al * v) a (/ L * lam) = RtoC (if (a <=? 3)%Z then / (al * L) else 1) * wM v a lam.
Proof using Ha HL.
  intros v a lam Ha'. six a; unfold pmTM, wM; cbn [Z.leb Z.eqb Z.compare Pos.compare Pos.compare_cont Pos.eqb]; rewrite ?unpick_1, ?unpick_m1, ?sc_inv by assumption; ring.
Qed.
Lemma srcE : forall v b lam, (1 <= b <= 6)%Z -> pick (pmTE b) (be * L) * wE (RtoC be * v) b (/ L * lam) = RtoC (if (b <=? 3)%Z then / (al * L) else 1) * wE v b lam.
Proof using Ha Hb HL E.
  intros v b lam Hb'. pose proof (inv_c be L Hb HL) as I. six b; unfold pmTE, wE; cbn [Z.leb Z.eqb Z.compare Pos.compare Pos.compare_cont Pos.eqb orb]; rewrite ?pick_1, ?pick_m1, ?sc_inv by assumption; rewrite ?beL; try ring.
  rewrite <- beL. transitivity (RtoC (/ (be * L)) * RtoC (be * L) * (Ci * RtoC lam / v)); [ring|rewrite I; ring].
Qed.
Lemma recE : forall v a lam, (1 <= a <= 6)%Z -> unpick (pmTE a) (/ (be * L)) * wE (RtoC be * v) a (/ L * lam) = RtoC (if (a <=? 3)%Z then 1 else al * L) * wE v a lam.
Proof using Ha Hb HL E.
  intros v a lam Ha'. six a; unfold pmTE, wE; cbn [Z.leb Z.eqb Z.compare Pos.compare Pos.compare_cont Pos.eqb orb]; rewrite ?unpick_1, ?unpick_m1, ?sc_inv by assumption; rewrite ?alL; ring.
Qed.

Lemma vint_scale : forall eH eV zH zV z N s r a b zs x y zr lam, (1 <= a <= 6)%Z -> (1 <= b <= 6)%Z ->
  vint (fun k => RtoC al * eH k) (fun k => RtoC al * eV k) (fun k => RtoC be * zH k) (fun k => RtoC be * zV k) (fun k => L * z k)%R N s r a b (L * zs) (L * x) (L * y) (L * zr) (/ L * lam)
  = RtoC (/ L * scl al L a b) * vint eH eV zH zV z N s r a b zs x y zr lam.
Proof using Ha Hb HL E.
  intros eH eV zH zV z N s r a b zs x y zr lam Ha' Hb'. rewrite !vint_syv by assumption. unfold syv, tp.
  rewrite (sc_T eH eV zH _ _ _ z _ N s r zs zr _ _ al be L lam), (sc_T zH zV eH _ _ _ z _ N s r zs zr _ _ be al L lam) by (first [assumption|reflexivity|rewrite <- E; ring]).
  replace (/ L * lam * (L * x))%R with (lam * x)%R by (field; lra). replace (/ L * lam * (L * y))%R with (lam * y)%R by (field; lra).
  replace (fac (/ L * lam)) with (RtoC (/ L) * fac lam) by (unfold fac; rewrite <- RtoC_mult; f_equal; unfold Rdiv; ring).
  generalize (Tp eH eV zH z N s r zs zr (pmTM b) (pmTM a) lam) (Tp zH zV eH z N s r zs zr (pmTE b) (pmTE a) lam) (W (fun t => kap a t * kap b t)%R (lam * x) (lam * y)) (W (fun t => the a t * the b t)%R (lam * x) (lam * y)). intros T T' u v.
  transitivity (RtoC (/ L) * fac lam * (tM a * ((unpick (pmTM a) (/ (al * L)) * wM (RtoC al * eV r) a (/ L * lam)) * (pick (pmTM b) (al * L) * wM (RtoC al * eV s) b (/ L * lam))) * T * u
     + tE a * sE b * ((unpick (pmTE a) (/ (be * L)) * wE (RtoC be * zV r) a (/ L * lam)) * (pick (pmTE b) (be * L) * wE (RtoC be * zV s) b (/ L * lam))) * T' * v)); [ring|].
  rewrite srcM, recM, srcE, recE by assumption.
  assert (K1 : RtoC (scl al L a b) = RtoC (if (a <=? 3)%Z then / (al * L) else 1) * RtoC (if (b <=? 3)%Z then 1 else al * L)) by (rewrite <- RtoC_mult; reflexivity).
  assert (K2 : RtoC (scl al L a b) = RtoC (if (a <=? 3)%Z then 1 else al * L) * RtoC (if (b <=? 3)%Z then / (al * L) else 1)).
  { rewrite <- RtoC_mult. f_equal. unfold scl. destruct (a <=? 3)%Z, (b <=? 3)%Z; try ring; field; lra. }
  rewrite RtoC_mult. transitivity (RtoC (/ L) * fac lam * (RtoC (scl al L a b) * (tM a * wM (eV r) a lam * wM (eV s) b lam * T * u) + RtoC (scl al L a b) * (tE a * sE b * wE (zV r) a lam * wE (zV s) b lam * T' * v))); [|ring].
  rewrite K1 at 1. rewrite K2. ring.
Qed.
End Wts.

Lemma scl_pos : forall al L a b, (0 < al)%R -> (0 < L)%R -> (0 < scl al L a b)%R.
Proof. intros al L a b Ha HL. assert (0 < al * L)%R by nra. pose proof (Rinv_0_lt_compat _ H). unfold scl. destruct (a <=? 3)%Z, (b <=? 3)%Z; nra. Qed.

Theorem lay_scale : forall eH eV zH zV z N (al be L : R) a b xs ys zs x y zr V, passive_medium eH eV zH zV z N -> (0 < al)%R -> (0 < be)%R -> (0 < L)%R -> (al * be * (L * L) = 1)%R ->
  (1 <= a <= 6)%Z -> (1 <= b <= 6)%Z -> off_axis xs ys x y ->
  lay_xyz eH eV zH zV z N false a b xs ys zs x y zr V <->
  lay_xyz (fun k => RtoC al * eH k) (fun k => RtoC al * eV k) (fun k => RtoC be * zH k) (fun k => RtoC be * zV k) (fun k => L * z k)%R N false a b (L * xs) (L * ys) (L * zs) (L * x) (L * y) (L * zr) (RtoC (scl al L a b / (L * L)) * V).
Proof.
  intros eH eV zH zV z N al be L a b xs ys zs x y zr V PM Ha Hb HL E Ha' Hb' HO.
  pose proof (fun lam => passive_model_ok _ _ _ _ _ _ lam PM) as OK. pose proof (fun lam => passive_model_ok _ _ _ _ _ _ lam (passive_scale _ _ _ _ _ _ al be L Ha Hb HL PM)) as OK'.
  assert (HO' : off_axis (L * xs) (L * ys) (L * x) (L * y)).
  { unfold off_axis in *. replace ((L * x - L * xs) * (L * x - L * xs) + (L * y - L * ys) * (L * y - L * ys))%R with (L * L * ((x - xs) * (x - xs) + (y - ys) * (y - ys)))%R by ring. apply Rmult_lt_0_compat; [nra|exact HO]. }
  rewrite (lay_iff eH eV zH zV z N OK) by assumption. rewrite (lay_iff _ _ _ _ _ N OK') by assumption. rewrite !lay_stretch by exact HL.
  replace (L * x - L * xs)%R with (L * (x - xs))%R by ring. replace (L * y - L * ys)%R with (L * (y - ys))%R by ring.
  pose proof (scl_pos al L a b Ha HL) as S0. pose proof (Rinv_0_lt_compat _ HL) as IL.
  set (s := lay z N zs). set (r := lay z N zr).
  pose proof (fun lam => vint_scale al be L Ha Hb HL E eH eV zH zV z N s r a b zs (x - xs)%R (y - ys)%R zr lam Ha' Hb') as VS.
  set (F := vint eH eV zH zV z N s r a b zs (x - xs)%R (y - ys)%R zr) in *. set (G := vint (fun k => RtoC al * eH k) _ _ _ _ _ _ _ _ _ _ _ _ _) in *. cbv beta in VS.
  split; intros I.
  - apply (improper_stretch _ L _ HL) in I. apply (improper_scal (RtoC (/ L * scl al L a b))) in I.
    replace (RtoC (scl al L a b / (L * L)) * V) with (RtoC (/ L * scl al L a b) * (RtoC (/ L) * V)).
    + refine (improper_ext _ _ _ _ I). intros lam Hl. change (G lam = RtoC (/ L * scl al L a b) * F (L * lam)%R). rewrite <- VS. f_equal. field. lra.
    + rewrite Cmult_assoc, <- RtoC_mult. do 2 f_equal. field. lra.
  - apply (improper_stretch _ (/ L) _ IL) in I. apply (improper_scal (RtoC (L / scl al L a b))) in I.
    replace (RtoC (L / scl al L a b) * (RtoC (/ / L) * (RtoC (scl al L a b / (L * L)) * V))) with V in I.
    + refine (improper_ext _ _ _ _ I). intros lam Hl. change (F lam = RtoC (L / scl al L a b) * G (/ L * lam)%R). unfold G. rewrite VS. rewrite Cmult_assoc, <- RtoC_mult. replace (L / scl al L a b * (/ L * scl al L a b))%R with 1%R by (field; lra). ring.
    + rewrite !Cmult_assoc, <- !RtoC_mult. replace (L / scl al L a b * / / L * (scl al L a b / (L * L)))%R with 1%R by (field; lra). ring.
Qed.

(** ** In terms of conductivities, permittivities, permeabilities and the frequency *)
Definition adm (sig eps : nat -> R) (s : C) (k : nat) : C := RtoC (sig k) + s * RtoC (eps k).
Definition imp (mu : nat -> R) (s : C) (k : nat) : C := s * RtoC (mu k).
Theorem lay_lengths : forall sH sV eH eV mH mV (s : C) z N (L : R) a b xs ys zs x y zr V, passive_medium (adm sH eH s) (adm sV eV s) (imp mH s) (imp mV s) z N -> (0 < L)%R ->
  (1 <= a <= 6)%Z -> (1 <= b <= 6)%Z -> off_axis xs ys x y ->
  let s' := RtoC (/ (L * L)) * s in let up := fun (eps : nat -> R) k => (L * L * eps k)%R in
  lay_xyz (adm sH eH s) (adm sV eV s) (imp mH s) (imp mV s) z N false a b xs ys zs x y zr V <->
  lay_xyz (adm sH (up eH) s') (adm sV (up eV) s') (imp mH s') (imp mV s') (fun k => L * z k)%R N false a b (L * xs) (L * ys) (L * zs) (L * x) (L * y) (L * zr)
    (RtoC ((if (a <=? 3)%Z then / L else 1) * (if (b <=? 3)%Z then 1 else L) / (L * L)) * V).
Proof.
  intros sH sV eH eV mH mV s z N L a b xs ys zs x y zr V PM HL Ha Hb HO s' up.
  assert (HI : (0 < / (L * L))%R) by (apply Rinv_0_lt_compat; nra).
  rewrite (lay_scale _ _ _ _ z N 1 (/ (L * L)) L a b xs ys zs x y zr V PM) by (first [lra|assumption|field; lra]). unfold scl. rewrite !Rmult_1_l.
  assert (A : forall sg ep, adm sg (up ep) s' = (fun k => RtoC 1 * adm sg ep s k)).
  { intros sg ep. apply FunctionalExtensionality.functional_extensionality. intros k. unfold adm, up, s'. rewrite Cmult_1_l. apply f_equal2; [reflexivity|]. apply injective_projections; unfold RtoC, Cmult; cbn [fst snd]; field; lra. }
  assert (B : forall mu, imp mu s' = (fun k => RtoC (/ (L * L)) * imp mu s k)).
  { intros mu. apply FunctionalExtensionality.functional_extensionality. intros k. unfold imp, s'. ring. }
  rewrite !A, !B. reflexivity.
Qed.
