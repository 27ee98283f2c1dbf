(** Symmetries of the response of a layered model in space. *)

From Coq Require Import Reals ZArith List Bool Lia Lra Psatz QArith.
From Coquelicot Require Import Coquelicot.
From Verif Require Import PyBase CBase Kernel KernelSpec KernelPhys KernelClosed KernelPassive KernelSym KernelSplit KernelMain KernelBVP Utils UtilsAb ODE Bessel KernelBessel KernelThm KernelThm2 KernelFinal FullspaceThm FullspaceCurl FullspaceField FullspaceEM Cint Sommer Sommer2 Homog HomogThm LayAsym LayConv LayWave LayField LayMaxwell LayCode LayVal LayEM LayCont.
Import ListNotations.
Local Open Scope R_scope.
Local Open Scope C_scope.

(** ** The response as one integral *)
Section Iff.
Variables (eH eV zH zV : nat -> C) (z : nat -> R) (N : nat).
Hypothesis OK : forall lam, model_ok eH eV zH zV z N lam.

Lemma hankel_of_val : forall a b xs ys zs x y zr V, fs_pair a b -> off_axis xs ys x y ->
  hankel_value eH eV zH zV z N (10 * a + b) false (sqrt ((x - xs) * (x - xs) + (y - ys) * (y - ys))) (atan2 (y - ys) (x - xs)) zs zr V
  <-> improper (vint eH eV zH zV z N (lay z N zs) (lay z N zr) a b zs (x - xs) (y - ys) zr) V.
Proof using OK.
  intros a b xs ys zs x y zr V HP HO. destruct (pair_class a b HP) as (ab & CA & _). destruct (code_class _ ab _ _ CA (ex_intro _ a (ex_intro _ b (conj HP eq_refl)))) as [KA VC].
  destruct (polar (x - xs) (y - ys)) as [PX PY]. unfold off_axis in HO. pose proof (sqrt_lt_R0 _ HO) as HS. set (off := sqrt _) in *. set (phi := atan2 _ _) in *.
  set (s := lay z N zs). set (r := lay z N zr). set (ms := (3 <? b)%Z) in *. set (mr := (3 <? a)%Z) in *.
  set (F0 := fun lam => let PQ := resp eH eV zH zV z N lam ab false ms mr s r zs zr in bessel_sum ab lam off (ang_exact (eval_angle phi ms mr) ab) (collect ab mr lam (fst PQ) (snd PQ))).
  assert (E : forall lam : R, (0 < lam)%R -> F0 lam = vint eH eV zH zV z N s r a b zs (x - xs) (y - ys) zr lam).
  { intros lam Hl. unfold F0. rewrite (code_val eH eV zH zV z N s r zs zr lam (OK lam) (lay_le _ _ _) (lay_le _ _ _) a b ab ms mr off phi HP CA Hl HS). unfold vint.
    replace (lam * off * cos phi)%R with (lam * (x - xs))%R by (rewrite <- PX; ring). replace (lam * off * sin phi)%R with (lam * (y - ys))%R by (rewrite <- PY; ring). reflexivity. }
  assert (W : forall lam, wcall eH eV zH zV z N lam ab false ms mr s r zs zr = Ok (collect ab mr lam (fst (resp eH eV zH zV z N lam ab false ms mr s r zs zr)) (snd (resp eH eV zH zV z N lam ab false ms mr s r zs zr)))).
  { intros lam. rewrite wcall_gcall, gcall_resp; [|apply OK|exact VC|apply lay_le|apply lay_le]. cbn [bind]. now destruct (resp _ _ _ _ _ _ _ _ _ _ _ _ _ _ _). }
  split.
  - intros (ab' & ms' & mr' & F & CA' & HF & IM). rewrite CA in CA'. injection CA' as <- <- <-.
    refine (improper_ext _ F V _ IM). intros lam Hl. destruct (HF lam) as (PJ & WC & ->). fold s r in WC. rewrite W in WC. injection WC as <-. symmetry. exact (E lam Hl).
  - intros IM. exists ab, ms, mr, F0. split; [exact CA|]. split.
    + intros lam. eexists. split; [apply W|reflexivity].
    + refine (improper_ext _ _ V E IM).
Qed.

Lemma lay_iff : forall a b xs ys zs x y zr V, (1 <= a <= 6)%Z -> (1 <= b <= 6)%Z -> off_axis xs ys x y ->
  lay_xyz eH eV zH zV z N false a b xs ys zs x y zr V <-> improper (vint eH eV zH zV z N (lay z N zs) (lay z N zr) a b zs (x - xs) (y - ys) zr) V.
Proof using OK.
  intros a b xs ys zs x y zr V Ha Hb HO. unfold lay_xyz. destruct (_ || _)%bool eqn:FP; [|apply hankel_of_val; [now apply fs_pair_dec|exact HO]].
  assert (Z0 : forall lam, vint eH eV zH zV z N (lay z N zs) (lay z N zr) a b zs (x - xs) (y - ys) zr lam = RtoC 0).
  { intros lam. apply orb_true_iff in FP. destruct FP as [F|F]; apply andb_true_iff in F; destruct F as [F1 F2]; apply Z.eqb_eq in F1, F2; subst; unfold vint, val, alf, bet; cbn [Z.eqb Z.leb Z.compare Pos.compare Pos.compare_cont Pos.eqb]; cbv zeta; unfold Cdiv; ring. }
  split.
  - intros ->. refine (improper_ext _ _ _ _ improper_0). intros; apply Z0.
  - intros I. apply (improper_unique (fun _ => RtoC 0)); [|exact improper_0]. refine (improper_ext _ _ _ _ I). intros; now rewrite Z0.
Qed.
End Iff.

Lemma iff_scal : forall (F G : R -> C) (s V : C), s * s = 1 -> (forall lam : R, (0 < lam)%R -> G lam = s * F lam) -> (improper F V <-> improper G (s * V)).
Proof.
  intros F G s V Hs E. split; intros I.
  - refine (improper_ext _ _ _ E _). now apply improper_scal.
  - apply (improper_scal s) in I. replace (s * (s * V)) with V in I by (transitivity (s * s * V); [rewrite Hs|]; ring). refine (improper_ext _ _ _ _ I). intros lam Hl. rewrite (E lam Hl). transitivity (s * s * F lam); [rewrite Hs|]; ring.
Qed.

(** ** Symmetric form: receiver weight, source weight, potential and pattern of each mode *)
Definition wM (eV : C) (b : Z) (lam : R) : C := if (b =? 3)%Z then Ci * RtoC lam / eV else if (b =? 6)%Z then RtoC 0 else RtoC 1.
Definition wE (zV : C) (b : Z) (lam : R) : C := if (b =? 3)%Z then RtoC 0 else if (b =? 6)%Z then Ci * RtoC lam / zV else RtoC 1.
Definition tM (a : Z) : C := if (a <=? 2)%Z then RtoC 1 else - (1).
Definition sE (b : Z) : C := if (b <=? 2)%Z then RtoC 1 else - (1).
Definition tE (a : Z) : C := if (a =? 6)%Z then RtoC 1 else - (1).
Lemma alf_w : forall eV b lam, alf eV b lam = fac lam * wM eV b lam.
Proof. intros. unfold alf, wM. destruct (b =? 3)%Z; [unfold Cdiv; ring|]. destruct (b =? 6)%Z; ring. Qed.
Lemma bet_w : forall zV b lam, (1 <= b <= 6)%Z -> bet zV b lam = fac lam * (sE b * wE zV b lam).
Proof.
  intros zV b lam Hb. unfold bet, sE, wE. destruct (Z.leb_spec b 2).
  - destruct (Z.eqb_spec b 3); [lia|]. destruct (Z.eqb_spec b 6); [lia|]. ring.
  - destruct (b =? 3)%Z; [ring|]. destruct (b =? 6)%Z; [unfold Cdiv|]; ring.
Qed.

Definition syv (eV_s zV_s eV_r zV_r : C) (T T' : C -> C -> C) (a b : Z) (lam X Y : R) : C :=
  fac lam * (tM a * wM eV_r a lam * wM eV_s b lam * T (pmTM b) (pmTM a) * W (fun t => kap a t * kap b t)%R X Y
           + tE a * sE b * wE zV_r a lam * wE zV_s b lam * T' (pmTE b) (pmTE a) * W (fun t => the a t * the b t)%R X Y).

Lemma W_one : forall u X Y, W (fun t => 1 * u t)%R X Y = W u X Y.
Proof. intros. apply W_ext. intros; ring. Qed.

Lemma val_syv : forall eV_s zV_s eV_r zV_r (T T' : C -> C -> C) a b lam X Y, (1 <= a <= 6)%Z -> (1 <= b <= 6)%Z ->
  val eV_s zV_s eV_r zV_r (T (pmTM b) (RtoC 1)) (T (pmTM b) (- (1))) (T' (pmTE b) (RtoC 1)) (T' (pmTE b) (- (1))) a b lam X Y = syv eV_s zV_s eV_r zV_r T T' a b lam X Y.
Proof.
  intros eV_s zV_s eV_r zV_r T T' a b lam X Y Ha Hb. unfold val, syv. rewrite alf_w, bet_w by assumption. cbv zeta.
  generalize (wM eV_s b lam) (sE b) (wE zV_s b lam) (pmTM b) (pmTE b) (kap b) (the b). intros m se w pm pe k h. unfold wM, wE, tM, tE, pmTM, pmTE, kap, the.
  assert (a = 1 \/ a = 2 \/ a = 3 \/ a = 4 \/ a = 5 \/ a = 6)%Z as [-> | [-> | [-> | [-> | [-> | ->]]]]] by lia;
    cbn [Z.eqb Z.leb Z.compare Pos.compare Pos.compare_cont Pos.eqb orb Z.sub Z.opp Z.add Z.pos_sub Pos.pred_double Z.pred_double Z.succ_double Z.double]; rewrite ?W_one; unfold Cdiv; ring.
Qed.
Definition tp (e v q : nat -> C) (z : nat -> R) (N s r : nat) (zs zr lam : R) (pm sg : C) : C := Tp e v q z N s r zs zr pm sg lam.
Lemma vint_syv : forall eH eV zH zV z N s r a b zs x y zr lam, (1 <= a <= 6)%Z -> (1 <= b <= 6)%Z ->
  vint eH eV zH zV z N s r a b zs x y zr lam = syv (eV s) (zV s) (eV r) (zV r) (tp eH eV zH z N s r zs zr lam) (tp zH zV eH z N s r zs zr lam) a b lam (lam * x) (lam * y).
Proof. intros. rewrite <- val_syv by assumption. reflexivity. Qed.

(** ** Reciprocity *)
Definition mixed (a b : Z) : C := if xorb (3 <? a)%Z (3 <? b)%Z then - (1) else RtoC 1.
Lemma mixed_sq : forall a b, mixed a b * mixed a b = 1.
Proof. intros a b. unfold mixed. destruct (xorb _ _); ring. Qed.

Definition par (b : Z) : R := if (b =? 3)%Z || (b =? 6)%Z then 1%R else (-1)%R.
Lemma par_1 : forall b, (par b = 1 \/ par b = -1)%R. Proof. intros. unfold par. destruct (_ || _); tauto. Qed.
Lemma kap_pi : forall b t, (1 <= b <= 6)%Z -> (kap b (t + PI) = par b * kap b t)%R.
Proof. intros b t Hb. unfold kap, par. destruct (Z.leb_spec b 2); [destruct (Z.eqb_spec b 3); [lia|]; destruct (Z.eqb_spec b 6); [lia|]; cbn [orb]; rewrite kh_pi; ring|]. destruct (_ || _); [ring|]. rewrite th_pi. ring. Qed.
Lemma the_pi : forall b t, (1 <= b <= 6)%Z -> (the b (t + PI) = par b * the b t)%R.
Proof. intros b t Hb. unfold the, par. destruct (Z.leb_spec b 2); [destruct (Z.eqb_spec b 3); [lia|]; destruct (Z.eqb_spec b 6); [lia|]; cbn [orb]; rewrite th_pi; ring|]. destruct (_ || _); [ring|]. rewrite kh_pi. ring. Qed.
Lemma W_par2 : forall f g (p q : R) X Y, trg f -> trg g -> (p = 1 \/ p = -1)%R -> (q = 1 \/ q = -1)%R -> (forall t, f (t + PI) = p * f t)%R -> (forall t, g (t + PI) = q * g t)%R ->
  W (fun t => f t * g t)%R (- X) (- Y) = RtoC (p * q) * W (fun t => g t * f t)%R X Y.
Proof.
  intros f g p q X Y Hf Hg Hp Hq Ef Eg. rewrite (W_par _ (p * q)%R).
  - f_equal. apply W_ext. intros; ring.
  - now apply trg_mult.
  - destruct Hp; destruct Hq; subst; [left|right|right|left]; ring.
  - intros t. rewrite Ef, Eg. ring.
Qed.
Lemma sgnM : forall a b, (1 <= a <= 6)%Z -> (1 <= b <= 6)%Z -> a <> 6%Z -> b <> 6%Z -> tM b * RtoC (par b * par a) = mixed a b * tM a.
Proof.
  intros a b Ha Hb Na Nb. unfold tM, par, mixed.
  destruct (Z.leb_spec a 2), (Z.leb_spec b 2), (Z.eqb_spec a 3), (Z.eqb_spec b 3), (Z.eqb_spec a 6), (Z.eqb_spec b 6), (Z.ltb_spec 3 a), (Z.ltb_spec 3 b); try lia; cbn [orb xorb]; apply injective_projections; cbn; ring.
Qed.
Lemma sgnE : forall a b, (1 <= a <= 6)%Z -> (1 <= b <= 6)%Z -> a <> 3%Z -> b <> 3%Z -> tE b * sE a * RtoC (par b * par a) = mixed a b * (tE a * sE b).
Proof.
  intros a b Ha Hb Na Nb. unfold tE, sE, par, mixed.
  destruct (Z.leb_spec a 2), (Z.leb_spec b 2), (Z.eqb_spec a 3), (Z.eqb_spec b 3), (Z.eqb_spec a 6), (Z.eqb_spec b 6), (Z.ltb_spec 3 a), (Z.ltb_spec 3 b); try lia; cbn [orb xorb]; apply injective_projections; cbn; ring.
Qed.
Lemma wM6 : forall eV lam, wM eV 6 lam = RtoC 0. Proof. reflexivity. Qed.
Lemma wE3 : forall zV lam, wE zV 3 lam = RtoC 0. Proof. reflexivity. Qed.
(** weights that vanish hide the sign of a mode *)
Lemma hid : forall (d1 d2 : bool) (s1 s2 u v t : C), (d1 = true -> u = RtoC 0) -> (d2 = true -> v = RtoC 0) -> (d1 = false -> d2 = false -> s1 = s2) -> s1 * (u * v * t) = s2 * (u * v * t).
Proof. intros d1 d2 s1 s2 u v t H1 H2 H. destruct d1; [rewrite H1 by reflexivity; ring|]. destruct d2; [rewrite H2 by reflexivity; ring|]. now rewrite H. Qed.

Lemma vint_rec : forall eH eV zH zV z N s r a b zs zr x y lam, model_ok eH eV zH zV z N lam -> (s <= N)%nat -> (r <= N)%nat -> (1 <= a <= 6)%Z -> (1 <= b <= 6)%Z ->
  vint eH eV zH zV z N r s b a zr (- x) (- y) zs lam = mixed a b * vint eH eV zH zV z N s r a b zs x y zr lam.
Proof.
  intros eH eV zH zV z N s r a b zs zr x y lam OK Hs Hr Ha Hb. rewrite !vint_syv by assumption. unfold syv, tp.
  rewrite <- (Tm_rec eH eV zH zV z N s r zs zr lam OK Hs Hr), <- (Te_rec eH eV zH zV z N s r zs zr lam OK Hs Hr) by (apply pm1_TM || apply pm1_TE).
  replace (lam * - x)%R with (- (lam * x))%R by ring. replace (lam * - y)%R with (- (lam * y))%R by ring.
  rewrite (W_par2 (kap b) (kap a) (par b) (par a)) by (first [apply trg_kap|apply par_1|intros; now apply kap_pi]). rewrite (W_par2 (the b) (the a) (par b) (par a)) by (first [apply trg_the|apply par_1|intros; now apply the_pi]).
  generalize (Tp eH eV zH z N s r zs zr (pmTM b) (pmTM a) lam) (Tp zH zV eH z N s r zs zr (pmTE b) (pmTE a) lam). intros T T'.
  set (u := W _ _ _). set (v := W _ _ _).
  pose proof (hid (a =? 6)%Z (b =? 6)%Z (tM b * RtoC (par b * par a)) (mixed a b * tM a) (wM (eV r) a lam) (wM (eV s) b lam) (T * u)) as H1.
  pose proof (hid (a =? 3)%Z (b =? 3)%Z (tE b * sE a * RtoC (par b * par a)) (mixed a b * (tE a * sE b)) (wE (zV r) a lam) (wE (zV s) b lam) (T' * v)) as H2.
  transitivity (fac lam * (tM b * RtoC (par b * par a) * (wM (eV r) a lam * wM (eV s) b lam * (T * u)) + tE b * sE a * RtoC (par b * par a) * (wE (zV r) a lam * wE (zV s) b lam * (T' * v)))); [ring|].
  rewrite H1, H2; [ring|intros E; apply Z.eqb_eq in E; subst; reflexivity|intros E; apply Z.eqb_eq in E; subst; reflexivity|intros E1 E2; apply Z.eqb_neq in E1, E2; now apply sgnE|intros E; apply Z.eqb_eq in E; subst; reflexivity|intros E; apply Z.eqb_eq in E; subst; reflexivity|intros E1 E2; apply Z.eqb_neq in E1, E2; now apply sgnM].
Qed.

Theorem lay_reciprocity : forall eH eV zH zV z N a b xs ys zs x y zr V, passive_medium eH eV zH zV z N -> (1 <= a <= 6)%Z -> (1 <= b <= 6)%Z -> off_axis xs ys x y ->
  lay_xyz eH eV zH zV z N false a b xs ys zs x y zr V <-> lay_xyz eH eV zH zV z N false b a x y zr xs ys zs (mixed a b * V).
Proof.
  intros eH eV zH zV z N a b xs ys zs x y zr V PM Ha Hb HO. pose proof (fun lam => passive_model_ok _ _ _ _ _ _ lam PM) as OK.
  rewrite (lay_iff eH eV zH zV z N OK) by assumption. rewrite (lay_iff eH eV zH zV z N OK) by (try assumption; unfold off_axis in *; nra).
  apply iff_scal; [apply mixed_sq|]. intros lam _. replace (xs - x)%R with (- (x - xs))%R by ring. replace (ys - y)%R with (- (y - ys))%R by ring. apply vint_rec; try assumption; try apply lay_le. apply OK.
Qed.

Lemma hid2 : forall (d1 d2 : bool) (s1 s2 u v t1 t2 : C), (d1 = true -> u = RtoC 0) -> (d2 = true -> v = RtoC 0) -> (d1 = false -> d2 = false -> s1 * t1 = s2 * t2) -> s1 * (u * v * t1) = s2 * (u * v * t2).
Proof. intros d1 d2 s1 s2 u v t1 t2 H1 H2 H. destruct d1; [rewrite H1 by reflexivity; ring|]. destruct d2; [rewrite H2 by reflexivity; ring|]. transitivity (u * v * (s1 * t1)); [ring|]. rewrite H by reflexivity. ring. Qed.

(** ** Duality *)
Definition dual (a : Z) : Z := if (3 <? a)%Z then (a - 3)%Z else (a + 3)%Z.
Lemma dual_in : forall a, (1 <= a <= 6)%Z -> (1 <= dual a <= 6)%Z.
Proof. intros a Ha. unfold dual. destruct (Z.ltb_spec 3 a); lia. Qed.
Lemma vint_dual : forall eH eV zH zV z N s r a b zs zr x y lam, (1 <= a <= 6)%Z -> (1 <= b <= 6)%Z ->
  vint zH zV eH eV z N s r (dual a) (dual b) zs x y zr lam = mixed a b * vint eH eV zH zV z N s r a b zs x y zr lam.
Proof.
  intros eH eV zH zV z N s r a b zs zr x y lam Ha Hb. rewrite !vint_syv by (try apply dual_in; assumption). unfold syv.
  assert (D : forall c, (1 <= c <= 6)%Z -> (c <> 3%Z -> pmTM (dual c) = pmTE c) /\ (c <> 6%Z -> pmTE (dual c) = pmTM c) /\ (forall t, kap (dual c) t = the c t) /\ (forall t, the (dual c) t = kap c t) /\
    (forall e l, wM e (dual c) l = wE e c l) /\ (forall e l, wE e (dual c) l = wM e c l)).
  { intros c Hc. unfold pmTM, pmTE, kap, the, wM, wE, dual. assert (c = 1 \/ c = 2 \/ c = 3 \/ c = 4 \/ c = 5 \/ c = 6)%Z as [-> | [-> | [-> | [-> | [-> | ->]]]]] by lia; repeat split; try reflexivity; intros; contradiction. }
  destruct (D a Ha) as (A1 & A2 & A3 & A4 & A5 & A6). destruct (D b Hb) as (B1 & B2 & B3 & B4 & B5 & B6). rewrite A5, A6, B5, B6.
  rewrite (W_ext (fun t => kap (dual a) t * kap (dual b) t)%R (fun t => the a t * the b t)%R) by (intros; now rewrite A3, B3).
  rewrite (W_ext (fun t => the (dual a) t * the (dual b) t)%R (fun t => kap a t * kap b t)%R) by (intros; now rewrite A4, B4).
  set (u := W _ _ _). set (v := W _ _ _). set (T := tp zH zV eH z N s r zs zr lam). set (T' := tp eH eV zH z N s r zs zr lam).
  pose proof (hid2 (a =? 3)%Z (b =? 3)%Z (tM (dual a)) (mixed a b * (tE a * sE b)) (wE (zV r) a lam) (wE (zV s) b lam) (T (pmTM (dual b)) (pmTM (dual a)) * u) (T (pmTE b) (pmTE a) * u)) as H1.
  pose proof (hid2 (a =? 6)%Z (b =? 6)%Z (tE (dual a) * sE (dual b)) (mixed a b * tM a) (wM (eV r) a lam) (wM (eV s) b lam) (T' (pmTE (dual b)) (pmTE (dual a)) * v) (T' (pmTM b) (pmTM a) * v)) as H2.
  transitivity (fac lam * (tM (dual a) * (wE (zV r) a lam * wE (zV s) b lam * (T (pmTM (dual b)) (pmTM (dual a)) * u)) + tE (dual a) * sE (dual b) * (wM (eV r) a lam * wM (eV s) b lam * (T' (pmTE (dual b)) (pmTE (dual a)) * v)))); [ring|].
  rewrite H1, H2; [ring| | | | | |]; try (intros E; apply Z.eqb_eq in E; subst; reflexivity); intros E1 E2; apply Z.eqb_neq in E1, E2; first [rewrite A2, B2 by assumption|rewrite A1, B1 by assumption]; f_equal; unfold mixed, tM, tE, sE, dual;
    (destruct (Z.ltb_spec 3 a), (Z.ltb_spec 3 b); cbn [xorb]; repeat (match goal with |- context [(?p <=? ?q)%Z] => destruct (Z.leb_spec p q) | |- context [(?p =? ?q)%Z] => destruct (Z.eqb_spec p q) end; try lia); ring).
Qed.
Theorem lay_duality : forall eH eV zH zV z N a b xs ys zs x y zr V, passive_medium eH eV zH zV z N -> (1 <= a <= 6)%Z -> (1 <= b <= 6)%Z -> off_axis xs ys x y ->
  lay_xyz eH eV zH zV z N false a b xs ys zs x y zr V <-> lay_xyz zH zV eH eV z N false (dual a) (dual b) xs ys zs x y zr (mixed a b * V).
Proof.
  intros eH eV zH zV z N a b xs ys zs x y zr V PM Ha Hb HO. pose proof (fun lam => passive_model_ok _ _ _ _ _ _ lam PM) as OK.
  rewrite (lay_iff eH eV zH zV z N OK) by assumption. rewrite (lay_iff zH zV eH eV z N (fun lam => model_ok_swap _ _ _ _ _ _ _ (OK lam))) by (try apply dual_in; assumption).
  apply iff_scal; [apply mixed_sq|]. intros lam _. now apply vint_dual.
Qed.

(** ** Mirror image in depth *)
Definition flip (a b : Z) : C := (if inb a [3; 4; 5]%Z then - (1) else RtoC 1) * (if inb b [3; 4; 5]%Z then - (1) else RtoC 1).
Lemma flip_sq : forall a b, flip a b * flip a b = 1.
Proof. intros a b. unfold flip. destruct (inb a _), (inb b _); ring. Qed.
Lemma tp_mirror : forall e v q z N s r zs zr lam pm sg, pm1 pm -> pm1 sg -> (s <= N)%nat -> (r <= N)%nat ->
  tp (mir N e) (mir N v) (mir N q) (mirz z N) N (N - s) (N - r) (- zs) (- zr) lam pm sg = pm * sg * tp e v q z N s r zs zr lam pm sg.
Proof.
  intros e v q z N s r zs zr lam pm sg Hp Hg Hs Hr. unfold tp, Tp. change (gam (mir N e) (mir N v) (mir N q) lam) with (mir N (gam e v q lam)).
  rewrite G_mode_mirror by assumption. unfold wsrc, wgt. rewrite !mir_at by assumption. ring.
Qed.
Lemma vint_mirror : forall eH eV zH zV z N s r a b zs zr x y lam, (s <= N)%nat -> (r <= N)%nat -> (1 <= a <= 6)%Z -> (1 <= b <= 6)%Z ->
  vint (mir N eH) (mir N eV) (mir N zH) (mir N zV) (mirz z N) N (N - s) (N - r) a b (- zs) x y (- zr) lam = flip a b * vint eH eV zH zV z N s r a b zs x y zr lam.
Proof.
  intros eH eV zH zV z N s r a b zs zr x y lam Hs Hr Ha Hb. rewrite !vint_syv by assumption. unfold syv. rewrite !tp_mirror by (assumption || apply pm1_TM || apply pm1_TE). rewrite !mir_at by assumption.
  set (u := W _ _ _). set (v := W _ _ _). set (T := tp eH eV zH z N s r zs zr lam (pmTM b) (pmTM a)). set (T' := tp zH zV eH z N s r zs zr lam (pmTE b) (pmTE a)).
  pose proof (hid (a =? 6)%Z (b =? 6)%Z (pmTM b * pmTM a) (flip a b) (wM (eV r) a lam) (wM (eV s) b lam) (T * u)) as H1.
  pose proof (hid (a =? 3)%Z (b =? 3)%Z (pmTE b * pmTE a) (flip a b) (wE (zV r) a lam) (wE (zV s) b lam) (T' * v)) as H2.
  transitivity (fac lam * (tM a * (pmTM b * pmTM a * (wM (eV r) a lam * wM (eV s) b lam * (T * u))) + tE a * sE b * (pmTE b * pmTE a * (wE (zV r) a lam * wE (zV s) b lam * (T' * v))))); [ring|].
  rewrite H1, H2; [ring| | | | | |]; try (intros E; apply Z.eqb_eq in E; subst; reflexivity); intros E1 E2; apply Z.eqb_neq in E1, E2; unfold flip, pmTM, pmTE, inb; cbn [existsb];
    (repeat (match goal with |- context [(?p <=? ?q)%Z] => destruct (Z.leb_spec p q) | |- context [(?p =? ?q)%Z] => destruct (Z.eqb_spec p q) end; try lia; subst); cbn [orb]; ring).
Qed.
Theorem lay_mirror_xyz : forall eH eV zH zV z N a b xs ys zs x y zr s r V, passive_medium eH eV zH zV z N -> increasing z N -> in_layer z N s zs -> in_layer z N r zr -> (1 <= a <= 6)%Z -> (1 <= b <= 6)%Z -> off_axis xs ys x y ->
  lay_xyz eH eV zH zV z N false a b xs ys zs x y zr V <-> lay_xyz (mir N eH) (mir N eV) (mir N zH) (mir N zV) (mirz z N) N false a b xs ys (- zs) x y (- zr) (flip a b * V).
Proof.
  intros eH eV zH zV z N a b xs ys zs x y zr s r V PM HZ Is Ir Ha Hb HO. pose proof (fun lam => passive_model_ok _ _ _ _ _ _ lam PM) as OK.
  rewrite (lay_iff eH eV zH zV z N OK) by assumption. rewrite (lay_iff _ _ _ _ _ N (fun lam => passive_model_ok _ _ _ _ _ _ lam (passive_mirror _ _ _ _ _ _ PM))) by assumption.
  rewrite (lay_mirror z N s zs HZ Is), (lay_mirror z N r zr HZ Ir). rewrite (lay_in z N HZ s zs Is), (lay_in z N HZ r zr Ir).
  apply iff_scal; [apply flip_sq|]. intros lam _. apply vint_mirror; try assumption; [apply Is|apply Ir].
Qed.

(** ** Rotation about the vertical axis and reflection *)
Definition rotR (th : R) (a : Z) (f : Z -> R) : R :=
  if (a =? 1)%Z then (cos th * f 1%Z - sin th * f 2%Z)%R else if (a =? 2)%Z then (sin th * f 1%Z + cos th * f 2%Z)%R
  else if (a =? 4)%Z then (cos th * f 4%Z - sin th * f 5%Z)%R else if (a =? 5)%Z then (sin th * f 4%Z + cos th * f 5%Z)%R else f a.
Definition rotC (th : R) (a : Z) (f : Z -> C) : C :=
  if (a =? 1)%Z then RtoC (cos th) * f 1%Z - RtoC (sin th) * f 2%Z else if (a =? 2)%Z then RtoC (sin th) * f 1%Z + RtoC (cos th) * f 2%Z
  else if (a =? 4)%Z then RtoC (cos th) * f 4%Z - RtoC (sin th) * f 5%Z else if (a =? 5)%Z then RtoC (sin th) * f 4%Z + RtoC (cos th) * f 5%Z else f a.
Lemma rotC_ext : forall h a f g, (1 <= a <= 6)%Z -> (forall c, (1 <= c <= 6)%Z -> f c = g c) -> rotC h a f = rotC h a g.
Proof. intros h a f g Ha H. unfold rotC. rewrite !(H 1%Z), !(H 2%Z), !(H 4%Z), !(H 5%Z), (H a) by lia. reflexivity. Qed.
Lemma rotC_plus : forall h a f g, rotC h a (fun c => f c + g c) = rotC h a f + rotC h a g.
Proof. intros. unfold rotC. repeat destruct (_ =? _)%Z; ring. Qed.
Lemma rotC_scal : forall h a k f, rotC h a (fun c => k * f c) = k * rotC h a f.
Proof. intros. unfold rotC. repeat destruct (_ =? _)%Z; ring. Qed.
Definition hpair {A} (g : Z -> A) : Prop := g 1%Z = g 2%Z /\ g 4%Z = g 5%Z.
Lemma rotC_w : forall h a (g f : Z -> C), hpair g -> rotC h a (fun c => g c * f c) = g a * rotC h a f.
Proof.
  intros h a g f [H1 H2]. unfold rotC. destruct (Z.eqb_spec a 1) as [->|]; [rewrite <- H1; ring|]. destruct (Z.eqb_spec a 2) as [->|]; [rewrite <- H1; ring|].
  destruct (Z.eqb_spec a 4) as [->|]; [rewrite <- H2; ring|]. destruct (Z.eqb_spec a 5) as [->|]; [rewrite <- H2; ring|]. reflexivity.
Qed.
Lemma kh_rot : forall h t, kh 1 (t + h) = (cos h * kh 1 t - sin h * kh 2 t)%R /\ kh 2 (t + h) = (sin h * kh 1 t + cos h * kh 2 t)%R.
Proof. intros h t. unfold kh. cbn [Z.eqb Pos.eqb]. rewrite cos_plus, sin_plus. split; ring. Qed.
Lemma th_rot : forall h t, th 1 (t + h) = (cos h * th 1 t - sin h * th 2 t)%R /\ th 2 (t + h) = (sin h * th 1 t + cos h * th 2 t)%R.
Proof. intros h t. unfold th. cbn [Z.eqb Pos.eqb]. rewrite cos_plus, sin_plus. split; ring. Qed.
Lemma kap_rot : forall h a t, (1 <= a <= 6)%Z -> kap a (t + h) = rotR h a (fun c => kap c t).
Proof.
  intros h a t Ha. destruct (kh_rot h t) as [K1 K2]. destruct (th_rot h t) as [T1 T2].
  assert (a = 1 \/ a = 2 \/ a = 3 \/ a = 4 \/ a = 5 \/ a = 6)%Z as [-> | [-> | [-> | [-> | [-> | ->]]]]] by lia; [exact K1|exact K2|reflexivity|exact T1|exact T2|reflexivity].
Qed.
Lemma the_rot : forall h a t, (1 <= a <= 6)%Z -> the a (t + h) = rotR h a (fun c => the c t).
Proof.
  intros h a t Ha. destruct (kh_rot h t) as [K1 K2]. destruct (th_rot h t) as [T1 T2].
  assert (a = 1 \/ a = 2 \/ a = 3 \/ a = 4 \/ a = 5 \/ a = 6)%Z as [-> | [-> | [-> | [-> | [-> | ->]]]]] by lia; [exact T1|exact T2|reflexivity|exact K1|exact K2|reflexivity].
Qed.
Lemma W_lin2 : forall (c1 c2 : R) u1 u2 X Y, trg u1 -> trg u2 -> W (fun t => c1 * u1 t + c2 * u2 t)%R X Y = RtoC c1 * W u1 X Y + RtoC c2 * W u2 X Y.
Proof. intros c1 c2 u1 u2 X Y H1 H2. apply (W_lin (fun t => RtoC (c1 * u1 t + c2 * u2 t))); [exact H1|exact H2|]. intros t. now rewrite RtoC_plus, !RtoC_mult. Qed.
Lemma W_rot1 : forall h a (u : Z -> R -> R) v X Y, (forall c, trg (u c)) -> trg v -> W (fun t => rotR h a (fun c => u c t) * v t)%R X Y = rotC h a (fun c => W (fun t => u c t * v t)%R X Y).
Proof.
  intros h a u v X Y Hu Hv. unfold rotR, rotC.
  assert (L : forall c d i j, W (fun t => (c * u i t + d * u j t) * v t)%R X Y = RtoC c * W (fun t => u i t * v t)%R X Y + RtoC d * W (fun t => u j t * v t)%R X Y).
  { intros c d i j. rewrite <- W_lin2 by (apply trg_mult; auto). apply W_ext. intros; ring. }
  assert (M : forall c d i j, W (fun t => (c * u i t - d * u j t) * v t)%R X Y = RtoC c * W (fun t => u i t * v t)%R X Y - RtoC d * W (fun t => u j t * v t)%R X Y).
  { intros c d i j. rewrite (W_ext _ (fun t => (c * u i t + (- d) * u j t) * v t)%R) by (intros; ring). rewrite L, RtoC_opp. ring. }
  destruct (a =? 1)%Z; [exact (M _ _ 1%Z 2%Z)|]. destruct (a =? 2)%Z; [exact (L _ _ 1%Z 2%Z)|]. destruct (a =? 4)%Z; [exact (M _ _ 4%Z 5%Z)|]. destruct (a =? 5)%Z; [exact (L _ _ 4%Z 5%Z)|]. reflexivity.
Qed.
(** the pattern seen from a rotated offset *)
Lemma W_turn : forall u h X Y, trg u -> periodic u -> W u (X * cos h - Y * sin h) (X * sin h + Y * cos h) = W (fun t => u (t + h)%R) X Y.
Proof.
  intros u h X Y [Hu _] P. set (X' := (X * cos h - Y * sin h)%R). set (Y' := (X * sin h + Y * cos h)%R). pose proof (cC_pl u X' Y' Hu) as K.
  assert (PL : forall t, pl X' Y' (t + h) = pl X Y t).
  { intros t. unfold pl. replace (X' * cos (t + h) + Y' * sin (t + h))%R with (X * cos t + Y * sin t)%R; [reflexivity|]. unfold X', Y'. rewrite cos_plus, sin_plus. pose proof (sin2_cos2 h) as S. unfold Rsqr in S.
    replace ((X * cos h - Y * sin h) * (cos t * cos h - sin t * sin h) + (X * sin h + Y * cos h) * (sin t * cos h + cos t * sin h))%R with ((X * cos t + Y * sin t) * (sin h * sin h + cos h * cos h))%R by ring. rewrite S. ring. }
  transitivity (CInt (fun t => RtoC (u (t + h)%R) * pl X' Y' (t + h))); [|apply CInt_ext; intros t; now rewrite PL].
  unfold W, CInt. f_equal.
  - symmetry. apply (RInt_period (fun t => fst (RtoC (u t) * pl X' Y' t)) h); [intros t; apply K|].
    intros t. cbn [fst snd Cmult RtoC pl]. rewrite P. unfold pl; cbn [fst snd]. replace (t + 2 * PI)%R with (t + 2 * INR 1 * PI)%R by (cbn; ring). now rewrite cos_period, sin_period.
  - symmetry. apply (RInt_period (fun t => snd (RtoC (u t) * pl X' Y' t)) h); [intros t; apply K|].
    intros t. cbn [fst snd Cmult RtoC pl]. rewrite P. unfold pl; cbn [fst snd]. replace (t + 2 * PI)%R with (t + 2 * INR 1 * PI)%R by (cbn; ring). now rewrite cos_period, sin_period.
Qed.
Lemma W_rot2 : forall h a b (u : Z -> R -> R) X Y, (1 <= a <= 6)%Z -> (1 <= b <= 6)%Z -> (forall c, trg (u c)) -> (forall c (t : R), (1 <= c <= 6)%Z -> u c (t + PI)%R = (par c * u c t)%R) -> (forall c (t : R), (1 <= c <= 6)%Z -> u c (t + h)%R = rotR h c (fun d => u d t)) ->
  W (fun t => u a t * u b t)%R (X * cos h - Y * sin h) (X * sin h + Y * cos h) = rotC h a (fun c => rotC h b (fun d => W (fun t => u c t * u d t)%R X Y)).
Proof.
  intros h a b u X Y Ha Hb Ht Hp Hr. rewrite W_turn; [|now apply trg_mult|].
  - rewrite (W_ext _ (fun t => rotR h a (fun c => u c t) * u b (t + h))%R) by (intros; now rewrite (Hr a)).
    assert (TB : trg (fun t => u b (t + h)%R)).
    { destruct (Ht b) as [H1 H2]. split; [|intros; apply H2]. intros t. apply (continuous_comp (fun t => t + h)%R (u b)); [|apply H1]. apply (continuous_plus (V := R_NormedModule) (fun t => t) (fun _ => h)); [apply continuous_id|apply continuous_const]. }
    rewrite W_rot1 by (assumption). apply rotC_ext; [exact Ha|]. intros c Hc.
    rewrite (W_ext _ (fun t => rotR h b (fun d => u d t) * u c t)%R) by (intros; rewrite (Hr b) by assumption; ring). rewrite W_rot1 by (auto). apply rotC_ext; [exact Hb|]. intros d Hd. apply W_ext. intros; ring.
  - apply (per2 _ (par a * par b)%R); [destruct (par_1 a) as [-> | ->], (par_1 b) as [-> | ->]; [left|right|right|left]; ring|]. intros t. rewrite !Hp by assumption. ring.
Qed.

Lemma vint_rot : forall eH eV zH zV z N s r a b zs zr x y lam h, (1 <= a <= 6)%Z -> (1 <= b <= 6)%Z ->
  vint eH eV zH zV z N s r a b zs (x * cos h - y * sin h) (x * sin h + y * cos h) zr lam = rotC h a (fun c => rotC h b (fun d => vint eH eV zH zV z N s r c d zs x y zr lam)).
Proof.
  intros eH eV zH zV z N s r a b zs zr x y lam h Ha Hb. rewrite vint_syv by assumption.
  transitivity (rotC h a (fun c => rotC h b (fun d => syv (eV s) (zV s) (eV r) (zV r) (tp eH eV zH z N s r zs zr lam) (tp zH zV eH z N s r zs zr lam) c d lam (lam * x) (lam * y)))).
  2:{ apply rotC_ext; [exact Ha|]. intros c Hc. apply rotC_ext; [exact Hb|]. intros d Hd. now rewrite vint_syv. }
  unfold syv. generalize (tp eH eV zH z N s r zs zr lam) (tp zH zV eH z N s r zs zr lam). intros T T'.
  replace (lam * (x * cos h - y * sin h))%R with (lam * x * cos h - lam * y * sin h)%R by ring. replace (lam * (x * sin h + y * cos h))%R with (lam * x * sin h + lam * y * cos h)%R by ring.
  rewrite (W_rot2 h a b kap) by (first [assumption|apply trg_kap|intros; now apply kap_pi|intros; now apply kap_rot]). rewrite (W_rot2 h a b the) by (first [assumption|apply trg_the|intros; now apply the_pi|intros; now apply the_rot]).
  set (u := fun c d => W (fun t => kap c t * kap d t)%R (lam * x) (lam * y)). set (v := fun c d => W (fun t => the c t * the d t)%R (lam * x) (lam * y)).
  assert (HM : forall e, hpair (fun c => wM e c lam)) by (intros; split; reflexivity). assert (HE : forall e, hpair (fun c => wE e c lam)) by (intros; split; reflexivity).
  assert (IN : forall (A : C -> C -> C) (cm : Z -> C) (pm : Z -> C) (fa fb : Z -> C) (U : Z -> Z -> C) k, hpair cm -> hpair pm -> hpair fa -> hpair fb ->
    rotC h a (fun c => rotC h b (fun d => k * (cm c * fa c * fb d * A (pm d) (pm c)) * U c d)) = k * (cm a * fa a * fb b * A (pm b) (pm a)) * rotC h a (fun c => rotC h b (fun d => U c d))).
  { intros A cm pm fa fb U k [C1 C2] [P1 P2] [A1 A2] [B1 B2]. transitivity (rotC h a (fun c => k * (cm c * fa c * fb b * A (pm b) (pm c)) * rotC h b (fun d => U c d))).
    - apply rotC_ext; [exact Ha|]. intros c Hc. apply (rotC_w h b (fun d => k * (cm c * fa c * fb d * A (pm d) (pm c)))). split; [now rewrite B1, P1|now rewrite B2, P2].
    - apply (rotC_w h a (fun c => k * (cm c * fa c * fb b * A (pm b) (pm c)))). split; [now rewrite C1, A1, P1|now rewrite C2, A2, P2]. }
  pose proof (IN T tM pmTM (fun c => wM (eV r) c lam) (fun c => wM (eV s) c lam) u (fac lam) ltac:(now split) ltac:(now split) (HM _) (HM _)) as I1. cbv beta in I1.
  pose proof (IN T' tE pmTE (fun c => wE (zV r) c lam) (fun d => sE d * wE (zV s) d lam) v (fac lam) ltac:(now split) ltac:(now split) (HE _) ltac:(now split)) as I2. cbv beta in I2.
  transitivity (fac lam * (tM a * wM (eV r) a lam * wM (eV s) b lam * T (pmTM b) (pmTM a)) * rotC h a (fun c => rotC h b (fun d => u c d)) + fac lam * (tE a * wE (zV r) a lam * (sE b * wE (zV s) b lam) * T' (pmTE b) (pmTE a)) * rotC h a (fun c => rotC h b (fun d => v c d))); [unfold u, v; ring|].
  rewrite <- I1, <- I2, <- rotC_plus. apply rotC_ext; [exact Ha|]. intros c Hc. rewrite <- rotC_plus. apply rotC_ext; [exact Hb|]. intros d Hd. unfold u, v. ring.
Qed.
Lemma improper_rot : forall h a (F : Z -> R -> C) (V : Z -> C), (1 <= a <= 6)%Z -> (forall c, (1 <= c <= 6)%Z -> improper (F c) (V c)) -> improper (fun lam => rotC h a (fun c => F c lam)) (rotC h a V).
Proof.
  intros h a F V Ha H. unfold rotC.
  assert (L : forall k l i j, (1 <= i <= 6)%Z -> (1 <= j <= 6)%Z -> improper (fun lam => k * F i lam + l * F j lam) (k * V i + l * V j)) by (intros; apply improper_plus; apply improper_scal; auto).
  assert (M : forall k l i j, (1 <= i <= 6)%Z -> (1 <= j <= 6)%Z -> improper (fun lam => k * F i lam - l * F j lam) (k * V i - l * V j)) by (intros; apply improper_sub; apply improper_scal; auto).
  destruct (a =? 1)%Z; [apply (M _ _ 1%Z 2%Z); lia|]. destruct (a =? 2)%Z; [apply (L _ _ 1%Z 2%Z); lia|]. destruct (a =? 4)%Z; [apply (M _ _ 4%Z 5%Z); lia|]. destruct (a =? 5)%Z; [apply (L _ _ 4%Z 5%Z); lia|]. now apply H.
Qed.
Theorem lay_rotation : forall eH eV zH zV z N h xs ys zs x y zr (V : Z -> Z -> C), passive_medium eH eV zH zV z N -> off_axis xs ys x y ->
  (forall a b, (1 <= a <= 6)%Z -> (1 <= b <= 6)%Z -> lay_xyz eH eV zH zV z N false a b xs ys zs x y zr (V a b)) ->
  forall a b, (1 <= a <= 6)%Z -> (1 <= b <= 6)%Z ->
  lay_xyz eH eV zH zV z N false a b xs ys zs (xs + ((x - xs) * cos h - (y - ys) * sin h)) (ys + ((x - xs) * sin h + (y - ys) * cos h)) zr (rotC h a (fun c => rotC h b (fun d => V c d))).
Proof.
  intros eH eV zH zV z N h xs ys zs x y zr V PM HO HV a b Ha Hb. pose proof (fun lam => passive_model_ok _ _ _ _ _ _ lam PM) as OK.
  assert (X : forall p q : R, (p + q - p)%R = q) by (intros; ring).
  apply (lay_iff eH eV zH zV z N OK); try assumption.
  { unfold off_axis in *. rewrite !X. pose proof (sin2_cos2 h) as S. unfold Rsqr in S.
    replace (((x - xs) * cos h - (y - ys) * sin h) * ((x - xs) * cos h - (y - ys) * sin h) + ((x - xs) * sin h + (y - ys) * cos h) * ((x - xs) * sin h + (y - ys) * cos h))%R with (((x - xs) * (x - xs) + (y - ys) * (y - ys)) * (sin h * sin h + cos h * cos h))%R by ring. rewrite S. lra. }
  rewrite !X.
  refine (improper_ext _ _ _ (fun lam _ => vint_rot eH eV zH zV z N _ _ a b zs zr (x - xs) (y - ys) lam h Ha Hb) _).
  apply (improper_rot h a (fun c lam => rotC h b (fun d => vint eH eV zH zV z N (lay z N zs) (lay z N zr) c d zs (x - xs) (y - ys) zr lam)) (fun c => rotC h b (fun d => V c d)) Ha). intros c Hc.
  apply (improper_rot h b (fun d lam => vint eH eV zH zV z N (lay z N zs) (lay z N zr) c d zs (x - xs) (y - ys) zr lam) (fun d => V c d) Hb). intros d Hd.
  apply (lay_iff eH eV zH zV z N OK); auto.
Qed.

(** Reflection at a vertical plane: the field components 2, 4 and 6 change sign. *)
Definition refy (a b : Z) : C := (if inb a [2; 4; 6]%Z then - (1) else RtoC 1) * (if inb b [2; 4; 6]%Z then - (1) else RtoC 1).
Lemma refy_sq : forall a b, refy a b * refy a b = 1.
Proof. intros a b. unfold refy. destruct (inb a _), (inb b _); ring. Qed.
Definition rs (a : Z) : R := if inb a [2; 4; 6]%Z then (-1)%R else 1%R.
Lemma W_neg : forall u (s : R) X Y, trg u -> (forall t, u (2 * PI - t) = s * u t)%R -> W u X (- Y) = RtoC s * W u X Y.
Proof.
  intros u s X Y [Hu Hb] H. pose proof (cC_pl u X (- Y) Hu) as K.
  change (W u X (- Y) = RtoC s * CI (fun t => RtoC (u t) * pl X Y t) 0 (2 * PI)). rewrite <- CI_scal by now apply cC_pl.
  transitivity (CInt (fun t => RtoC (u (2 * PI - t)%R) * pl X (- Y) (2 * PI - t)%R)).
  - unfold W, CInt. f_equal.
    + symmetry. apply (RInt_flip (fun t => fst (RtoC (u t) * pl X (- Y) t)) (2 * PI)). intros t. apply K.
    + symmetry. apply (RInt_flip (fun t => snd (RtoC (u t) * pl X (- Y) t)) (2 * PI)). intros t. apply K.
  - change (CI (fun t => RtoC (u (2 * PI - t)%R) * pl X (- Y) (2 * PI - t)%R) 0 (2 * PI) = CI (fun t => RtoC s * (RtoC (u t) * pl X Y t)) 0 (2 * PI)). apply CI_ext. intros t. rewrite H, RtoC_mult. unfold pl. rewrite cos_2pi_m, sin_2pi_m.
    replace (X * cos t + - Y * - sin t)%R with (X * cos t + Y * sin t)%R by ring. ring.
Qed.
Lemma kap_ref : forall a t, (1 <= a <= 5)%Z -> kap a (2 * PI - t) = (rs a * kap a t)%R.
Proof.
  intros a t Ha. unfold kap, rs. assert (a = 1 \/ a = 2 \/ a = 3 \/ a = 4 \/ a = 5)%Z as [-> | [-> | [-> | [-> | ->]]]] by lia; unfold inb, kh, th; cbn [existsb Z.eqb Pos.eqb Z.leb Z.compare Pos.compare Pos.compare_cont orb Z.sub Z.opp Z.add Z.pos_sub Pos.pred_double Z.pred_double Z.succ_double Z.double]; rewrite ?cos_2pi_m, ?sin_2pi_m; ring.
Qed.
Lemma the_ref : forall a t, (1 <= a <= 6)%Z -> a <> 3%Z -> the a (2 * PI - t) = (- rs a * the a t)%R.
Proof.
  intros a t Ha Na. unfold the, rs. assert (a = 1 \/ a = 2 \/ a = 4 \/ a = 5 \/ a = 6)%Z as [-> | [-> | [-> | [-> | ->]]]] by lia; unfold inb, kh, th; cbn [existsb Z.eqb Pos.eqb Z.leb Z.compare Pos.compare Pos.compare_cont orb Z.sub Z.opp Z.add Z.pos_sub Pos.pred_double Z.pred_double Z.succ_double Z.double]; rewrite ?cos_2pi_m, ?sin_2pi_m; ring.
Qed.
Lemma refy_rs : forall a b, refy a b = RtoC (rs a * rs b).
Proof. intros a b. unfold refy, rs. destruct (inb a _), (inb b _); apply injective_projections; cbn; ring. Qed.
Lemma vint_ref : forall eH eV zH zV z N s r a b zs zr x y lam, (1 <= a <= 6)%Z -> (1 <= b <= 6)%Z ->
  vint eH eV zH zV z N s r a b zs x (- y) zr lam = refy a b * vint eH eV zH zV z N s r a b zs x y zr lam.
Proof.
  intros eH eV zH zV z N s r a b zs zr x y lam Ha Hb. rewrite !vint_syv by assumption. unfold syv. replace (lam * - y)%R with (- (lam * y))%R by ring.
  set (T := tp eH eV zH z N s r zs zr lam (pmTM b) (pmTM a)). set (T' := tp zH zV eH z N s r zs zr lam (pmTE b) (pmTE a)).
  set (u := W (fun t => kap a t * kap b t)%R (lam * x) (lam * y)). set (v := W (fun t => the a t * the b t)%R (lam * x) (lam * y)). set (u' := W _ _ (- _)). set (v' := W _ _ (- _)).
  pose proof (hid2 (a =? 6)%Z (b =? 6)%Z 1 (refy a b) (wM (eV r) a lam) (wM (eV s) b lam) (T * u') (T * u)) as H1.
  pose proof (hid2 (a =? 3)%Z (b =? 3)%Z 1 (refy a b) (wE (zV r) a lam) (wE (zV s) b lam) (T' * v') (T' * v)) as H2.
  transitivity (fac lam * (tM a * (1 * (wM (eV r) a lam * wM (eV s) b lam * (T * u'))) + tE a * sE b * (1 * (wE (zV r) a lam * wE (zV s) b lam * (T' * v'))))); [ring|].
  rewrite H1, H2; [ring| | | | | |]; try (intros E; apply Z.eqb_eq in E; subst; reflexivity); intros E1 E2; apply Z.eqb_neq in E1, E2; rewrite refy_rs.
  - unfold v', v. rewrite (W_neg _ (rs a * rs b)); [ring|apply trg_mult; apply trg_the|]. intros t. rewrite !the_ref by (assumption || lia). ring.
  - unfold u', u. rewrite (W_neg _ (rs a * rs b)); [ring|apply trg_mult; apply trg_kap|]. intros t. rewrite !kap_ref by lia. ring.
Qed.
Theorem lay_reflection : forall eH eV zH zV z N a b xs ys zs x y zr V, passive_medium eH eV zH zV z N -> (1 <= a <= 6)%Z -> (1 <= b <= 6)%Z -> off_axis xs ys x y ->
  lay_xyz eH eV zH zV z N false a b xs ys zs x y zr V <-> lay_xyz eH eV zH zV z N false a b xs (- ys) zs x (- y) zr (refy a b * V).
Proof.
  intros eH eV zH zV z N a b xs ys zs x y zr V PM Ha Hb HO. pose proof (fun lam => passive_model_ok _ _ _ _ _ _ lam PM) as OK.
  rewrite (lay_iff eH eV zH zV z N OK) by assumption. rewrite (lay_iff eH eV zH zV z N OK) by (try assumption; unfold off_axis in *; nra).
  apply iff_scal; [apply refy_sq|]. intros lam _. replace (- y - - ys)%R with (- (y - ys))%R by ring. now apply vint_ref.
Qed.

(** ** Translation and artificial interfaces *)
Lemma hankel_same : forall eH eV zH zV z N eH' eV' zH' zV' z' N' raw xd off phi zs zr zs' zr',
  (forall lam ab ms mr, check_ab (AbNum (inject_Z raw)) = Ok (ab, ms, mr) -> wcall eH eV zH zV z N lam ab xd ms mr (lay z N zs) (lay z N zr) zs zr = wcall eH' eV' zH' zV' z' N' lam ab xd ms mr (lay z' N' zs') (lay z' N' zr') zs' zr') ->
  forall V, hankel_value eH eV zH zV z N raw xd off phi zs zr V <-> hankel_value eH' eV' zH' zV' z' N' raw xd off phi zs' zr' V.
Proof.
  intros eH eV zH zV z N eH' eV' zH' zV' z' N' raw xd off phi zs zr zs' zr' H V. split; intros (ab & ms & mr & F & CA & HF & IM); exists ab, ms, mr, F; (split; [exact CA|]); (split; [|exact IM]); intros lam; destruct (HF lam) as (PJ & W & E); exists PJ; (split; [|exact E]).
  - now rewrite <- (H lam ab ms mr CA).
  - now rewrite (H lam ab ms mr CA).
Qed.
Theorem lay_translation : forall eH eV zH zV z N xd a b xs ys zs x y zr V dx dy dz, passive_medium eH eV zH zV z N -> (1 <= a <= 6)%Z -> (1 <= b <= 6)%Z ->
  lay_xyz eH eV zH zV z N xd a b xs ys zs x y zr V <-> lay_xyz eH eV zH zV (fun k => z k + dz)%R N xd a b (xs + dx) (ys + dy) (zs + dz) (x + dx) (y + dy) (zr + dz) V.
Proof.
  intros eH eV zH zV z N xd a b xs ys zs x y zr V dx dy dz PM Ha Hb. unfold lay_xyz. destruct (_ || _)%bool eqn:FP; [reflexivity|].
  replace (x + dx - (xs + dx))%R with (x - xs)%R by ring. replace (y + dy - (ys + dy))%R with (y - ys)%R by ring.
  apply hankel_same. intros lam ab ms mr CA. destruct (code_class _ ab ms mr CA (ex_intro _ a (ex_intro _ b (conj (fs_pair_dec a b Ha Hb FP) eq_refl)))) as [_ VC].
  rewrite !wcall_gcall. now rewrite translate_invariant.
Qed.
Theorem lay_split_xyz : forall eH eV zH zV z N m zi a b xs ys zs x y zr V, passive_medium eH eV zH zV z N -> increasing z N -> in_layer z N m zi -> (1 <= a <= 6)%Z -> (1 <= b <= 6)%Z ->
  lay_xyz (spl m eH) (spl m eV) (spl m zH) (spl m zV) (splz m zi z) (S N) false a b xs ys zs x y zr V <-> lay_xyz eH eV zH zV z N false a b xs ys zs x y zr V.
Proof.
  intros eH eV zH zV z N m zi a b xs ys zs x y zr V PM HZ Im Ha Hb. unfold lay_xyz. destruct (_ || _)%bool eqn:FP; [reflexivity|].
  apply hankel_same. intros lam ab ms mr CA. destruct (code_class _ ab ms mr CA (ex_intro _ a (ex_intro _ b (conj (fs_pair_dec a b Ha Hb FP) eq_refl)))) as [_ VC].
  rewrite !wcall_gcall. now rewrite split_invariant.
Qed.
