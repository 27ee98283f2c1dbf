(** Complex conjugation of the parameters; real responses for real parameters. *)

From Coq Require Import Reals ZArith List Bool Lia Lra Psatz QArith.
From Coquelicot Require Import Coquelicot.
From Verif Require Import PyBase CBase Kernel KernelSpec KernelPhys KernelClosed KernelPassive KernelSym KernelSplit KernelMain KernelBVP Utils UtilsAb ODE Bessel KernelBessel KernelThm KernelThm2 KernelFinal FullspaceThm FullspaceCurl FullspaceField FullspaceEM HalfspaceThm Cint Sommer Sommer2 Homog HomogThm LayAsym LayConv LayWave LayField LayMaxwell LayCode LayVal LayEM LayCont LaySym LayScale.
Import ListNotations.
Local Open Scope R_scope.
Local Open Scope C_scope.

Lemma cj_plus : forall a b, Cconj (a + b) = Cconj a + Cconj b. Proof. intros [a1 a2] [b1 b2]. apply injective_projections; cbn; ring. Qed.
Lemma cj_minus : forall a b, Cconj (a - b) = Cconj a - Cconj b. Proof. intros [a1 a2] [b1 b2]. apply injective_projections; cbn; ring. Qed.
Lemma cj_mult : forall a b, Cconj (a * b) = Cconj a * Cconj b. Proof. intros [a1 a2] [b1 b2]. apply injective_projections; cbn; ring. Qed.
Lemma cj_opp : forall a, Cconj (- a) = - Cconj a. Proof. intros [a1 a2]. apply injective_projections; cbn; ring. Qed.
Lemma cj_inv : forall a, Cconj (/ a) = / Cconj a.
Proof. intros [a b]. unfold Cinv, Cconj. cbn [fst snd]. replace (a ^ 2 + (- b) ^ 2)%R with (a ^ 2 + b ^ 2)%R by ring. apply injective_projections; cbn [fst snd]; unfold Rdiv; ring. Qed.
Lemma cj_div : forall a b, Cconj (a / b) = Cconj a / Cconj b. Proof. intros. unfold Cdiv. now rewrite cj_mult, cj_inv. Qed.
Lemma cj_R : forall x : R, Cconj (RtoC x) = RtoC x. Proof. intros. apply injective_projections; cbn; ring. Qed.
Lemma cj_cj : forall a, Cconj (Cconj a) = a. Proof. intros [a b]. apply injective_projections; cbn; ring. Qed.
Lemma cj_exp : forall a, Cconj (Cexp a) = Cexp (Cconj a). Proof. intros [a b]. unfold Cexp, Cconj. cbn [fst snd]. rewrite cos_neg, sin_neg. apply injective_projections; cbn; ring. Qed.
Lemma cj_Ci : Cconj Ci = - Ci. Proof. apply injective_projections; cbn; ring. Qed.
Lemma cj_sqrt : forall a, (0 < fst (Csqrt a))%R -> Csqrt (Cconj a) = Cconj (Csqrt a).
Proof.
  intros [a b] H. unfold Csqrt, Cconj in *. cbn [fst snd] in *.
  assert (M : Cmod (a, (- b)%R) = Cmod (a, b)) by (unfold Cmod; cbn [fst snd]; f_equal; ring). rewrite M.
  apply injective_projections; cbn [fst snd]; [reflexivity|].
  destruct (Rlt_dec (- b) 0), (Rlt_dec b 0); try lra.
  assert (b = 0)%R by lra. subst b.
  assert (P : (0 < a)%R). { destruct (Rlt_dec 0 a); [assumption|]. exfalso. apply Rlt_irrefl with 0%R. apply Rlt_le_trans with (1 := H). apply Req_le. unfold Cmod. cbn [fst snd]. replace (a ^ 2 + 0 ^ 2)%R with (a * a)%R by ring. rewrite sqrt_square_abs || fold (Rsqr a); rewrite ?sqrt_Rsqr_abs. rewrite Rabs_left1 by lra. replace ((- a + a) / 2)%R with 0%R by field. apply sqrt_0. }
  replace (Cmod (a, 0%R)) with a. { replace ((a - a) / 2)%R with 0%R by field. rewrite sqrt_0. ring. }
  unfold Cmod. cbn [fst snd]. replace (a ^ 2 + 0 ^ 2)%R with (a * a)%R by ring. now rewrite sqrt_square by lra.
Qed.
Ltac cj := repeat first [rewrite cj_plus|rewrite cj_minus|rewrite cj_mult|rewrite cj_opp|rewrite cj_div|rewrite cj_R].

Section Mode.
Variables (e g e' g' : nat -> C) (z : nat -> R) (N : nat).
Hypothesis He : forall k, (k <= N)%nat -> e' k = Cconj (e k).
Hypothesis Hg : forall k, (k <= N)%nat -> g' k = Cconj (g k).
Lemma j_dec : forall k d, (k <= N)%nat -> dec g' k d = Cconj (dec g k d).
Proof using Hg. intros k d H. unfold dec. rewrite cj_exp. f_equal. cj. now rewrite Hg. Qed.
Lemma j_E1 : forall k, (k <= N)%nat -> E1 g' z k = Cconj (E1 g z k).
Proof using Hg. intros. unfold E1. now apply j_dec. Qed.
Lemma j_E2 : forall k, (k <= N)%nat -> E2 g' z k = Cconj (E2 g z k).
Proof using Hg. intros k H. unfold E2. rewrite cj_exp. f_equal. cj. now rewrite Hg. Qed.
Lemma j_rl : forall k, (k < N)%nat -> rl e' g' k = Cconj (rl e g k).
Proof using He Hg. intros k H. unfold rl. cj. now rewrite !He, !Hg by lia. Qed.
Lemma j_RdnF : forall m k, (m + k <= N)%nat -> RdnF e' g' z m k = Cconj (RdnF e g z m k).
Proof using He Hg. induction m; intros k H; cbn [RdnF]; [now rewrite cj_R|]. rewrite IHm, j_E2, j_rl by lia. now cj. Qed.
Lemma j_Rdn : forall k, (k <= N)%nat -> Rdn e' g' z N k = Cconj (Rdn e g z N k).
Proof using He Hg. intros k H. apply j_RdnF. lia. Qed.
Lemma j_Rup : forall k, (k <= N)%nat -> Rup e' g' z k = Cconj (Rup e g z k).
Proof using He Hg. induction k; intros H; cbn [Rup]; [now rewrite cj_R|]. rewrite IHk, j_E2, j_rl by lia. now cj. Qed.
Lemma j_Ms : forall s, (s <= N)%nat -> Ms e' g' z N s = Cconj (Ms e g z N s).
Proof using He Hg. intros s H. unfold Ms. cj. now rewrite j_Rup, j_Rdn, j_E2. Qed.
Lemma j_tdn : forall k, (k < N)%nat -> tdn e' g' z N k = Cconj (tdn e g z N k).
Proof using He Hg. intros k H. unfold tdn. cj. now rewrite !j_Rdn, j_E2 by lia. Qed.
Lemma j_tup : forall k, (k < N)%nat -> tup e' g' z k = Cconj (tup e g z k).
Proof using He Hg. intros k H. unfold tup. cj. now rewrite !j_Rup, j_E2 by lia. Qed.
Lemma j_prod : forall f f' n a, (forall k, (a <= k < a + n)%nat -> f' k = Cconj (f k)) -> prodC f' a n = Cconj (prodC f a n).
Proof. intros f f' n. induction n; intros a H; cbn [prodC]; [now rewrite cj_R|]. cj. rewrite H by lia. f_equal. apply IHn. intros; apply H; lia. Qed.
Variables (pm sg : C).
Hypothesis Hpm : pm1 pm.
Hypothesis Hsg : pm1 sg.
Lemma j_pm : Cconj pm = pm. Proof using Hpm. destruct Hpm as [-> | ->]; now cj. Qed.
Lemma j_sg : Cconj sg = sg. Proof using Hsg. destruct Hsg as [-> | ->]; now cj. Qed.
Lemma j_bsd : forall s zs, (s <= N)%nat -> bsd e' g' z pm s zs = Cconj (bsd e g z pm s zs).
Proof using He Hg Hpm. intros s zs H. unfold bsd. cj. now rewrite j_pm, j_Rup, !j_dec. Qed.
Lemma j_bsu : forall s zs, (s <= N)%nat -> bsu e' g' z N pm s zs = Cconj (bsu e g z N pm s zs).
Proof using He Hg Hpm. intros s zs H. unfold bsu. cj. now rewrite j_pm, j_Rdn, !j_dec. Qed.
Lemma j_amp_dn : forall s r zs, (s < r <= N)%nat -> amp_dn e' g' z N pm s r zs = Cconj (amp_dn e g z N pm s r zs).
Proof using He Hg Hpm. intros s r zs H. unfold amp_dn. rewrite (j_prod (fun k => E1 g z k * tdn e g z N k)); [|intros k Hk; rewrite j_E1, j_tdn by lia; now cj]. cj. now rewrite j_bsd, j_Ms, j_tdn by lia. Qed.
Lemma j_amp_up : forall s r zs, (r < s <= N)%nat -> amp_up e' g' z N pm s r zs = Cconj (amp_up e g z N pm s r zs).
Proof using He Hg Hpm. intros s r zs H. unfold amp_up. rewrite (j_prod (fun k => E1 g z k * tup e g z (k - 1))); [|intros k Hk; rewrite j_E1, j_tup by lia; now cj]. cj. now rewrite j_pm, j_bsu, j_Ms, j_tup by lia. Qed.
Lemma j_G : forall s r zs zr xd, (s <= N)%nat -> (r <= N)%nat -> G_mode e' g' z N pm sg s r zs zr xd = Cconj (G_mode e g z N pm sg s r zs zr xd).
Proof using He Hg Hpm Hsg.
  intros s r zs zr xd Hs Hr. unfold G_mode. destruct (Nat.eqb_spec s r).
  - cj. apply f_equal2.
    + unfold G_same. cj. now rewrite j_pm, j_sg, j_Rdn, j_Rup, j_bsd, j_bsu, j_Ms, !j_dec.
    + destruct xd; [now cj|]. unfold G_dir, dsgn. cj. rewrite j_sg, j_dec by assumption. destruct (Ceq_dec _ _); now cj.
  - destruct (Nat.ltb_spec r s).
    + unfold G_up. cj. rewrite j_sg, j_amp_up, j_Rup, j_E1, !j_dec by lia. reflexivity.
    + unfold G_dn. cj. rewrite j_sg, j_amp_dn, j_Rdn, j_E1, !j_dec by lia. reflexivity.
Qed.
Lemma j_wsrc : forall k, (k <= N)%nat -> wsrc e' g' pm k = Cconj (wsrc e g pm k).
Proof using He Hg. intros k H. unfold wsrc. destruct (Ceq_dec _ _); [|now cj]. cj. now rewrite He, Hg. Qed.
Lemma j_wgt : forall k, (k <= N)%nat -> wgt e' g' sg k = Cconj (wgt e g sg k).
Proof using He Hg. intros k H. unfold wgt. destruct (Ceq_dec _ _); [now cj|]. cj. now rewrite He, Hg. Qed.
End Mode.

(** ** Integrals *)
Lemma cj_CI : forall f a b, (ex_RInt (fun x => snd (f x)) a b) -> Cconj (CI f a b) = CI (fun x => Cconj (f x)) a b.
Proof. intros f a b H. unfold CI, Cconj. cbn [fst snd]. apply injective_projections; cbn [fst snd]; [reflexivity|]. symmetry. exact (RInt_opp (V := R_CompleteNormedModule) _ _ _ H). Qed.
Lemma improper_conj : forall F V, improper F V -> improper (fun x => Cconj (F x)) (Cconj V).
Proof.
  intros F V [E [L1 L2]]. split.
  - intros T HT. destruct (E T HT) as [A B]. split; [exact A|]. exact (ex_RInt_opp (V := R_NormedModule) _ _ _ B).
  - refine (limC_ext_loc (fun T => Cconj (CI F 0 T)) _ _ _ _).
    + exists 0%R. intros T HT. apply cj_CI. apply E. lra.
    + split; [exact L1|]. apply (filterlim_comp _ _ _ (fun T => snd (CI F 0 T)) (fun x : R => (- x)%R) _ (locally (snd V))); [exact L2|]. exact (filterlim_opp (V := R_NormedModule) (snd V)).
Qed.
Lemma cj_W : forall u X Y, trg u -> Cconj (W u X Y) = W u (- X) (- Y).
Proof.
  intros u X Y [Hu _]. unfold W. change (Cconj (CI (fun t => RtoC (u t) * pl X Y t) 0 (2 * PI)) = CI (fun t => RtoC (u t) * pl (- X) (- Y) t) 0 (2 * PI)).
  rewrite cj_CI.
  - apply CI_ext. intros t. rewrite cj_mult, cj_R. f_equal. unfold pl, Cconj. cbn [fst snd]. replace (- X * cos t + - Y * sin t)%R with (- (X * cos t + Y * sin t))%R by ring. now rewrite cos_neg, sin_neg.
  - apply (ex_RInt_continuous (V := R_CompleteNormedModule)). intros t _. exact (cC_snd _ (cC_pl u X Y Hu) t).
Qed.

(** ** The integrand *)
Definition jw (b : Z) : R := if (b =? 3)%Z || (b =? 6)%Z then (-1)%R else 1%R.
Lemma jw_par : forall b, (jw b * par b = -1)%R. Proof. intros b. unfold jw, par. destruct (_ || _); ring. Qed.
Lemma j_wM : forall v b lam, Cconj (wM v b lam) = RtoC (jw b) * wM (Cconj v) b lam.
Proof. intros v b lam. unfold wM, jw. destruct (b =? 3)%Z; cbn [orb]; [cj; rewrite cj_Ci, cm1'; unfold Cdiv; ring|]. destruct (b =? 6)%Z; cj; ring. Qed.
Lemma j_wE : forall v b lam, Cconj (wE v b lam) = RtoC (jw b) * wE (Cconj v) b lam.
Proof. intros v b lam. unfold wE, jw. destruct (b =? 3)%Z; cbn [orb]; [cj; ring|]. destruct (b =? 6)%Z; cj; [rewrite cj_Ci, cm1'; unfold Cdiv; ring|ring]. Qed.
Lemma j_t : forall a, Cconj (tM a) = tM a /\ Cconj (tE a) = tE a /\ Cconj (sE a) = sE a.
Proof. intros a. unfold tM, tE, sE. repeat split; [destruct (a <=? 2)%Z|destruct (a =? 6)%Z|destruct (a <=? 2)%Z]; now cj. Qed.

Section Conj.
Variables (eH eV zH zV eH' eV' zH' zV' : nat -> C) (z : nat -> R) (N : nat).
Hypothesis PM : passive_medium eH eV zH zV z N.
Hypothesis H1 : forall k, (k <= N)%nat -> eH' k = Cconj (eH k).
Hypothesis H2 : forall k, (k <= N)%nat -> eV' k = Cconj (eV k).
Hypothesis H3 : forall k, (k <= N)%nat -> zH' k = Cconj (zH k).
Hypothesis H4 : forall k, (k <= N)%nat -> zV' k = Cconj (zV k).

Lemma passive_conj : passive_medium eH' eV' zH' zV' z N.
Proof using PM H1 H2 H3 H4.
  destruct PM. constructor; intros k Hk; rewrite ?H1, ?H2, ?H3, ?H4 by exact Hk; cbn [fst Cconj]; auto.
  - intros W. apply (pme_zH0 k Hk). rewrite <- (cj_cj (zH k)), W. now cj.
  - intros W. apply (pme_zV0 k Hk). rewrite <- (cj_cj (zV k)), W. now cj.
Qed.
Lemma gam_cj : forall (h v q h' v' q' : nat -> C) lam k, h' k = Cconj (h k) -> v' k = Cconj (v k) -> q' k = Cconj (q k) -> (0 < fst (gam h v q lam k))%R -> gam h' v' q' lam k = Cconj (gam h v q lam k).
Proof. intros h v q h' v' q' lam k E1 E2 E3 P. unfold gam in *. rewrite <- cj_sqrt by exact P. f_equal. cj. now rewrite E1, E2, E3. Qed.
Lemma gM_cj : forall lam k, (k <= N)%nat -> gam eH' eV' zH' lam k = Cconj (gam eH eV zH lam k).
Proof using PM H1 H2 H3. intros lam k Hk. apply gam_cj; auto. exact (pas_g _ _ _ _ _ (passive_TM _ _ _ _ _ _ lam PM) k Hk). Qed.
Lemma gE_cj : forall lam k, (k <= N)%nat -> gam zH' zV' eH' lam k = Cconj (gam zH zV eH lam k).
Proof using PM H1 H3 H4. intros lam k Hk. apply gam_cj; auto. exact (pas_g _ _ _ _ _ (passive_TE _ _ _ _ _ _ lam PM) k Hk). Qed.

Lemma vint_conj : forall s r a b zs x y zr lam, (s <= N)%nat -> (r <= N)%nat -> (1 <= a <= 6)%Z -> (1 <= b <= 6)%Z ->
  vint eH' eV' zH' zV' z N s r a b zs x y zr lam = Cconj (vint eH eV zH zV z N s r a b zs x y zr lam).
Proof using PM H1 H2 H3 H4.
  intros s r a b zs x y zr lam Hs Hr Ha Hb. rewrite !vint_syv by assumption. unfold syv, tp, Tp. cj. rewrite !j_wM, !j_wE, !cj_W by (apply trg_mult; first [apply trg_kap|apply trg_the]).
  rewrite (W_par2 (kap a) (kap b) (par a) (par b)) by (first [apply trg_kap|apply par_1|intros; now apply kap_pi]). rewrite (W_par2 (the a) (the b) (par a) (par b)) by (first [apply trg_the|apply par_1|intros; now apply the_pi]).
  rewrite (W_ext (fun t => kap b t * kap a t)%R (fun t => kap a t * kap b t)%R) by (intros; ring). rewrite (W_ext (fun t => the b t * the a t)%R (fun t => the a t * the b t)%R) by (intros; ring).
  destruct (j_t a) as (-> & -> & _). destruct (j_t b) as (_ & _ & ->).
  rewrite <- (j_wsrc eH (gam eH eV zH lam) eH' (gam eH' eV' zH' lam) N H1 (gM_cj lam) (pmTM b) s Hs), <- (j_wgt eH (gam eH eV zH lam) eH' (gam eH' eV' zH' lam) N H1 (gM_cj lam) (pmTM a) r Hr).
  rewrite <- (j_wsrc zH (gam zH zV eH lam) zH' (gam zH' zV' eH' lam) N H3 (gE_cj lam) (pmTE b) s Hs), <- (j_wgt zH (gam zH zV eH lam) zH' (gam zH' zV' eH' lam) N H3 (gE_cj lam) (pmTE a) r Hr).
  rewrite <- (j_G eH (gam eH eV zH lam) eH' (gam eH' eV' zH' lam) z N H1 (gM_cj lam) (pmTM b) (pmTM a) (pm1_TM b) (pm1_TM a) s r zs zr false Hs Hr).
  rewrite <- (j_G zH (gam zH zV eH lam) zH' (gam zH' zV' eH' lam) z N H3 (gE_cj lam) (pmTE b) (pmTE a) (pm1_TE b) (pm1_TE a) s r zs zr false Hs Hr).
  rewrite <- (H2 r Hr), <- (H2 s Hs), <- (H4 r Hr), <- (H4 s Hs). unfold fac. rewrite cj_R.
  assert (K : RtoC (jw a) * RtoC (jw b) * RtoC (par a * par b) = 1). { rewrite <- !RtoC_mult. f_equal. pose proof (jw_par a). pose proof (jw_par b). replace (jw a * jw b * (par a * par b))%R with ((jw a * par a) * (jw b * par b))%R by ring. rewrite H, H0. ring. }
  match goal with |- ?f * (?m + ?t) = _ => transitivity (f * ((RtoC (jw a) * RtoC (jw b) * RtoC (par a * par b)) * m + (RtoC (jw a) * RtoC (jw b) * RtoC (par a * par b)) * t)); [rewrite K|]; ring end.
Qed.
Theorem lay_conj : forall a b xs ys zs x y zr V, (1 <= a <= 6)%Z -> (1 <= b <= 6)%Z -> off_axis xs ys x y ->
  lay_xyz eH eV zH zV z N false a b xs ys zs x y zr V <-> lay_xyz eH' eV' zH' zV' z N false a b xs ys zs x y zr (Cconj V).
Proof using PM H1 H2 H3 H4.
  intros a b xs ys zs x y zr V Ha Hb HO.
  pose proof (fun lam => passive_model_ok _ _ _ _ _ _ lam PM) as OK. pose proof (fun lam => passive_model_ok _ _ _ _ _ _ lam passive_conj) as OK'.
  rewrite (lay_iff eH eV zH zV z N OK) by assumption. rewrite (lay_iff _ _ _ _ _ N OK') by assumption.
  pose proof (fun lam => vint_conj (lay z N zs) (lay z N zr) a b zs (x - xs)%R (y - ys)%R zr lam (lay_le _ _ _) (lay_le _ _ _) Ha Hb) as E.
  split; intros I.
  - refine (improper_ext _ _ _ _ (improper_conj _ _ I)). intros lam _. apply E.
  - apply improper_conj in I. rewrite cj_cj in I. refine (improper_ext _ _ _ _ I). intros lam _. now rewrite E, cj_cj.
Qed.
End Conj.

Lemma lay_unique : forall eH eV zH zV z N xd a b xs ys zs x y zr V V', lay_xyz eH eV zH zV z N xd a b xs ys zs x y zr V -> lay_xyz eH eV zH zV z N xd a b xs ys zs x y zr V' -> V = V'.
Proof. intros eH eV zH zV z N xd a b xs ys zs x y zr V V'. unfold lay_xyz. destruct (_ || _)%bool; [intros -> ->; reflexivity|apply hankel_unique]. Qed.
Theorem lay_real : forall eH eV zH zV z N a b xs ys zs x y zr V, passive_medium eH eV zH zV z N ->
  (forall k, (k <= N)%nat -> snd (eH k) = 0 /\ snd (eV k) = 0 /\ snd (zH k) = 0 /\ snd (zV k) = 0)%R ->
  (1 <= a <= 6)%Z -> (1 <= b <= 6)%Z -> off_axis xs ys x y -> lay_xyz eH eV zH zV z N false a b xs ys zs x y zr V -> snd V = 0%R.
Proof.
  intros eH eV zH zV z N a b xs ys zs x y zr V PM HR Ha Hb HO HV.
  assert (J : forall c : C, snd c = 0%R -> c = Cconj c) by (intros [c d] Hc; cbn in Hc; subst; apply injective_projections; cbn; ring).
  assert (K : lay_xyz eH eV zH zV z N false a b xs ys zs x y zr (Cconj V)).
  { apply (fun h1 h2 h3 h4 => proj1 (lay_conj eH eV zH zV eH eV zH zV z N PM h1 h2 h3 h4 a b xs ys zs x y zr V Ha Hb HO)); first [assumption|intros k Hk; destruct (HR k Hk) as (A & B & C0 & D); apply J; assumption]. }
  pose proof (lay_unique _ _ _ _ _ _ _ _ _ _ _ _ _ _ _ _ _ HV K) as E. apply (f_equal snd) in E. cbn in E. lra.
Qed.
Theorem lay_negative : forall sH sV eH eV mH mV (s : C) z N a b xs ys zs x y zr V, passive_medium (adm sH eH s) (adm sV eV s) (imp mH s) (imp mV s) z N ->
  (1 <= a <= 6)%Z -> (1 <= b <= 6)%Z -> off_axis xs ys x y ->
  lay_xyz (adm sH eH s) (adm sV eV s) (imp mH s) (imp mV s) z N false a b xs ys zs x y zr V <->
  lay_xyz (adm sH eH (Cconj s)) (adm sV eV (Cconj s)) (imp mH (Cconj s)) (imp mV (Cconj s)) z N false a b xs ys zs x y zr (Cconj V).
Proof. intros. apply lay_conj; first [assumption|intros; unfold adm, imp; now cj]. Qed.
Theorem lay_negfreq : forall sH sV eH eV mH mV (f : R) z N a b xs ys zs x y zr V,
  let s := fun f : R => (0, 2 * PI * f)%R in
  passive_medium (adm sH eH (s f)) (adm sV eV (s f)) (imp mH (s f)) (imp mV (s f)) z N ->
  (1 <= a <= 6)%Z -> (1 <= b <= 6)%Z -> off_axis xs ys x y ->
  lay_xyz (adm sH eH (s f)) (adm sV eV (s f)) (imp mH (s f)) (imp mV (s f)) z N false a b xs ys zs x y zr V <->
  lay_xyz (adm sH eH (s (- f)%R)) (adm sV eV (s (- f)%R)) (imp mH (s (- f)%R)) (imp mV (s (- f)%R)) z N false a b xs ys zs x y zr (Cconj V).
Proof.
  intros sH sV eH eV mH mV f z N a b xs ys zs x y zr V s PM Ha Hb HO. rewrite (lay_negative sH sV eH eV mH mV (s f)) by assumption.
  replace (Cconj (s f)) with (s (- f)%R); [reflexivity|]. unfold s. apply injective_projections; cbn; ring.
Qed.
