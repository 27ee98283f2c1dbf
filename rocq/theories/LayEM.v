(** The responses of a layered model, as functions of the receiver position, solve Maxwell's
    equations inside every layer. *)

From Coq Require Import Reals ZArith List Bool Lia Lra Psatz QArith.
From Coquelicot Require Import Coquelicot.
From Verif Require Import PyBase CBase Kernel KernelSpec KernelPhys KernelClosed KernelPassive KernelMain KernelBVP Utils UtilsAb ODE Bessel KernelBessel KernelThm KernelThm2 KernelFinal FullspaceThm FullspaceCurl FullspaceField FullspaceEM Cint Sommer Sommer2 Homog HomogThm LayAsym LayConv LayWave LayField LayMaxwell LayCode LayVal.
Import ListNotations.
Local Open Scope R_scope.
Local Open Scope C_scope.

(** Component a of the field of source component b (1-3 electric, 4-6 magnetic) at the receiver
    (x, y, zr), source at (xs, ys, zs): the value of the wavenumber integral of wavenumber();
    the two combinations without response are zero (model.py dipole: check_ab 36, 63). *)
Definition lay_xyz (eH eV zH zV : nat -> C) (z : nat -> R) (N : nat) (xd : bool) (a b : Z) (xs ys zs x y zr : R) (V : C) : Prop :=
  if (a =? 3)%Z && (b =? 6)%Z || (a =? 6)%Z && (b =? 3)%Z then V = RtoC 0
  else hankel_value eH eV zH zV z N (10 * a + b) xd (sqrt ((x - xs) * (x - xs) + (y - ys) * (y - ys))) (atan2 (y - ys) (x - xs)) zs zr V.

(** ** Neighbourhood of a depth inside a layer *)
Lemma lay_near : forall z N x, (forall k, (1 <= k <= N)%nat -> x <> z k) -> exists e : R, (0 < e)%R /\ forall w, (Rabs (w - x) <= e)%R -> lay z N w = lay z N x.
Proof.
  induction N; intros x H.
  - exists 1%R. split; [lra|reflexivity].
  - destruct IHN with (x := x) as (e & He & E); [intros; apply H; lia|]. pose proof (H (S N) ltac:(lia)) as HN. pose proof (Rabs_pos_lt (z (S N) - x) ltac:(lra)) as HA.
    exists (Rmin e (Rabs (z (S N) - x) / 2)). split; [apply Rmin_case; lra|]. intros w Hw. pose proof (Rmin_l e (Rabs (z (S N) - x) / 2)). pose proof (Rmin_r e (Rabs (z (S N) - x) / 2)).
    cbn [lay]. rewrite (E w) by lra.
    assert (HW : (Rabs (w - x) < Rabs (z (S N) - x))%R) by lra.
    destruct (Rlt_dec (z (S N)) x), (Rlt_dec (z (S N)) w); try reflexivity; exfalso; revert HW; unfold Rabs; destruct (Rcase_abs (w - x)), (Rcase_abs (z (S N) - x)); lra.
Qed.

Lemma eb_alf : forall eV b, eb 0 (alf eV b).
Proof.
  intros eV b. pose proof (eb_pow1 (8 * PI * PI)) as F. unfold alf. destruct (b =? 3)%Z; [|destruct (b =? 6)%Z; [apply eb_zero|exact F]].
  apply (eb_ext 0 (fun l => (Ci / eV) * (RtoC l * fac l))); [intros; unfold Cdiv; ring|]. apply eb_scal. apply (eb_mult0 0 RtoC fac); [apply eb_id|exact F].
Qed.
Lemma eb_bet : forall zV b, eb 0 (bet zV b).
Proof.
  intros zV b. pose proof (eb_pow1 (8 * PI * PI)) as F. unfold bet. destruct (b <=? 2)%Z; [exact F|]. destruct (b =? 3)%Z; [apply eb_zero|]. destruct (b =? 6)%Z; [|apply eb_opp; exact F].
  apply (eb_ext 0 (fun l => (- (Ci / zV)) * (RtoC l * fac l))); [intros; unfold Cdiv; ring|]. apply eb_scal. apply (eb_mult0 0 RtoC fac); [apply eb_id|exact F].
Qed.

Section One.
Variables (h v q : nat -> C) (z : nat -> R) (N : nat).
Hypothesis ML : forall k, (k <= N)%nat -> mlayer (h k) (v k) (q k).
Hypothesis HZ : increasing z N.
Hypothesis RG : forall lam, regular h (gam h v q lam) z N.
Variable a : R.
Hypothesis Ha : (0 < a)%R.
Hypothesis Hm : forall k, (k <= N)%nat -> (a <= fst (ms (h k) (v k)))%R.
Definition Ad (w : R -> C) (pm : C) (s k : nat) (zs za lam : R) : C := w lam * (wsrc h (gam h v q lam) pm s * cdn h (gam h v q lam) z N pm s k zs za).
Definition Au (w : R -> C) (pm : C) (s k : nat) (zs zb lam : R) : C := w lam * (wsrc h (gam h v q lam) pm s * cup h (gam h v q lam) z N pm s k zs zb).
Lemma eb_Adu : forall w pm s k zs za d, eb 0 w -> inlay z N s zs -> inlay z N k za -> (d <= Rabs (zs - za))%R -> eb (a * d) (Ad w pm s k zs za) /\ eb (a * d) (Au w pm s k zs za).
Proof using ML HZ RG Ha Hm.
  intros w pm s k zs za d Hw Hs Hk Hd.
  assert (M : forall sg, eb (a * d) (fun lam => G_mode h (gam h v q lam) z N pm sg s k zs za false)) by (intros sg; apply (eb_weak (a * Rabs (zs - za))); [apply (eb_mode h v q z N ML HZ RG a Ha Hm); assumption|apply Rmult_le_compat_l; lra]).
  assert (WS : eb 0 (fun lam => wsrc h (gam h v q lam) pm s)) by (apply (eb_wsrc h v q N ML); apply Hs).
  split; unfold Ad, Au; (apply (eb_mult0 (a * d) w); [exact Hw|]); (apply (eb_mult0 (a * d) (fun lam => wsrc h (gam h v q lam) pm s)); [exact WS|]); unfold cdn, cup, Cdiv.
  - apply (eb_ext _ (fun lam => / 2 * (G_mode h (gam h v q lam) z N pm 1 s k zs za false - G_mode h (gam h v q lam) z N pm (- (1)) s k zs za false))); [intros; ring|]. apply eb_scal, eb_minus; apply M.
  - apply (eb_ext _ (fun lam => / 2 * (G_mode h (gam h v q lam) z N pm 1 s k zs za false + G_mode h (gam h v q lam) z N pm (- (1)) s k zs za false))); [intros; ring|]. apply eb_scal, eb_plus; apply M.
Qed.
(** the potential and its weighted derivative *)
Lemma Tp_ud : forall w pm s k zs za zb x lam, pm1 pm -> (s <= N)%nat -> (k <= N)%nat -> (za <= zb)%R -> (k = s -> (zs < za)%R \/ (zb < zs)%R) -> (za <= x <= zb)%R ->
  w lam * Tp h v q z N s k zs x pm 1 lam = ud (fun l => gam h v q l k) za zb (Ad w pm s k zs za) (Au w pm s k zs zb) x lam /\
  w lam * Tp h v q z N s k zs x pm (- (1)) lam = ud (fun l => gam h v q l k) za zb (fun l => - / h k * (gam h v q l k * Ad w pm s k zs za l)) (fun l => / h k * (gam h v q l k * Au w pm s k zs zb l)) x lam.
Proof.
  intros w pm s k zs za zb x lam Hp Hs Hk Hab Hd Hx. unfold Tp, ud, Ad, Au.
  rewrite !(mode_rep h (gam h v q lam) z N pm s zs k za zb Hp Hs Hk Hab Hd) by (first [now left|now right|assumption]).
  rewrite wgt_1, wgt_m1. unfold dec. split; [ring|]. unfold Cdiv. ring.
Qed.
End One.

(** ** The fields at a point *)
Lemma fs_pair_dec : forall a b, (1 <= a <= 6)%Z -> (1 <= b <= 6)%Z -> ((a =? 3)%Z && (b =? 6)%Z || (a =? 6)%Z && (b =? 3)%Z)%bool = false -> fs_pair a b.
Proof.
  intros a b Ha Hb E. apply orb_false_iff in E. destruct E as [E1 E2]. split; [lia|]. split; intros [-> ->]; discriminate.
Qed.

Section Layered.
Variables (eH eV zH zV : nat -> C) (z : nat -> R) (N : nat).
Hypothesis LY : layered eH eV zH zV z N.

(** the integrand at an off-axis receiver *)
Lemma lay_valx : forall xd a b xs ys zs x y zr V, fs_pair a b -> off_axis xs ys x y ->
  hankel_value eH eV zH zV z N (10 * a + b) xd (sqrt ((x - xs) * (x - xs) + (y - ys) * (y - ys))) (atan2 (y - ys) (x - xs)) zs zr V ->
  let s := lay z N zs in let r := lay z N zr in
  improper (fun lam => val (eV s) (zV s) (eV r) (zV r) (Tx xd eH eV zH z N s r zs zr (pmTM b) 1 lam) (Tx xd eH eV zH z N s r zs zr (pmTM b) (- (1)) lam)
     (Tx xd zH zV eH z N s r zs zr (pmTE b) 1 lam) (Tx xd zH zV eH z N s r zs zr (pmTE b) (- (1)) lam) a b lam (lam * (x - xs)) (lam * (y - ys))) V.
Proof using LY.
  intros xd a b xs ys zs x y zr V HP HO (ab & ms & mr & F & CA & HF & IM) s r.
  pose proof (ly_passive _ _ _ _ _ _ LY) as PM. destruct (code_class _ ab ms mr CA (ex_intro _ a (ex_intro _ b (conj HP eq_refl)))) as [KA VC].
  refine (improper_ext _ F V _ IM). intros lam Hl. destruct (HF lam) as (PJ & WC & ->).
  rewrite wcall_gcall in WC. rewrite gcall_resp in WC; [|now apply passive_model_ok|exact VC|apply lay_le|apply lay_le]. cbn [bind] in WC.
  destruct (polar (x - xs) (y - ys)) as [PX PY]. unfold off_axis in HO. pose proof (sqrt_lt_R0 _ HO) as HS. set (off := sqrt _) in *. set (phi := atan2 _ _) in *.
  pose proof (code_valx xd eH eV zH zV z N s r zs zr lam (passive_model_ok _ _ _ _ _ _ lam PM) (lay_le _ _ _) (lay_le _ _ _) a b ab ms mr off phi HP CA Hl HS) as E. cbv zeta in E.
  fold s r in WC. destruct (resp eH eV zH zV z N lam ab xd ms mr s r zs zr) as [P Q]. cbn [fst snd] in E. injection WC as <-. rewrite E.
  replace (lam * off * cos phi)%R with (lam * (x - xs))%R by (rewrite <- PX; ring). replace (lam * off * sin phi)%R with (lam * (y - ys))%R by (rewrite <- PY; ring). reflexivity.
Qed.
Lemma lay_val : forall a b xs ys zs x y zr V, fs_pair a b -> off_axis xs ys x y ->
  hankel_value eH eV zH zV z N (10 * a + b) false (sqrt ((x - xs) * (x - xs) + (y - ys) * (y - ys))) (atan2 (y - ys) (x - xs)) zs zr V ->
  let s := lay z N zs in let r := lay z N zr in
  improper (fun lam => val (eV s) (zV s) (eV r) (zV r) (Tp eH eV zH z N s r zs zr (pmTM b) 1 lam) (Tp eH eV zH z N s r zs zr (pmTM b) (- (1)) lam)
     (Tp zH zV eH z N s r zs zr (pmTE b) 1 lam) (Tp zH zV eH z N s r zs zr (pmTE b) (- (1)) lam) a b lam (lam * (x - xs)) (lam * (y - ys))) V.
Proof using LY. exact (lay_valx false). Qed.
End Layered.

Lemma val_eI : forall eH eV zH zV b (s k : nat) gm ge za zb (A B A' B' : R -> C) (P Q p q : R -> C) x y zr,
  (forall lam : R, alf (eV s) b lam * P lam = ud gm za zb A B zr lam) -> (forall lam, alf (eV s) b lam * Q lam = ud gm za zb (fun l => - / eH * (gm l * A l)) (fun l => / eH * (gm l * B l)) zr lam) ->
  (forall lam : R, bet (zV s) b lam * p lam = ud ge za zb A' B' zr lam) -> (forall lam, bet (zV s) b lam * q lam = ud ge za zb (fun l => - / zH * (ge l * A' l)) (fun l => / zH * (ge l * B' l)) zr lam) ->
  forall a lam, (1 <= a <= 3)%Z ->
  eI eH (eV k) gm ge za zb A B A' B' (kap b) (the b) a x y zr lam = val (eV s) (zV s) (eV k) (zV k) (P lam) (Q lam) (p lam) (q lam) a b lam (lam * x) (lam * y) /\
  hI zH (zV k) gm ge za zb A B A' B' (kap b) (the b) a x y zr lam = val (eV s) (zV s) (eV k) (zV k) (P lam) (Q lam) (p lam) (q lam) (a + 3) b lam (lam * x) (lam * y).
Proof.
  intros eH eV zH zV b s k gm ge za zb A B A' B' P Q p q x y zr HP HQ Hp Hq a lam Ha. specialize (HP lam). specialize (HQ lam). specialize (Hp lam). specialize (Hq lam).
  assert (a = 1 \/ a = 2 \/ a = 3)%Z as [-> | [-> | ->]] by lia; [change (1 + 3)%Z with 4%Z|change (2 + 3)%Z with 5%Z|change (3 + 3)%Z with 6%Z]; unfold eI, hI, val; cbn [Z.eqb Z.leb Z.compare Pos.compare Pos.compare_cont Pos.eqb Z.add Z.sub Z.opp Z.pos_sub Pos.add Pos.add_carry Pos.succ Pos.pred_double Z.succ_double Z.pred_double Z.double]; cbv zeta; unfold fld, term.
  1,2: rewrite HP, HQ, Hp, Hq; unfold ud, Cdiv; split; ring.
  split; [transitivity (- (Ci * RtoC lam / eV k * (alf (eV s) b lam * P lam) * W (kap b) (lam * x) (lam * y))); [rewrite HP|unfold Cdiv; ring]|transitivity (Ci * RtoC lam / zV k * (bet (zV s) b lam * p lam) * W (the b) (lam * x) (lam * y)); [rewrite Hp|unfold Cdiv; ring]]; unfold ud, il, Cdiv; cbv beta; ring.
Qed.

Lemma deriveC_shift : forall (f : R -> C) c x l, is_deriveC f (x - c) l -> is_deriveC (fun t => f (t - c)%R) x l.
Proof.
  intros f c x l [H1 H2].
  assert (K : forall g : R -> R, forall m, is_derive g (x - c)%R m -> is_derive (fun t => g (t - c)%R) x m).
  { intros g m Hg. replace m with (scal 1%R m) by (unfold scal; cbn; unfold mult; cbn; ring). apply (is_derive_comp (V := R_NormedModule) g (fun t => t - c)%R x); [exact Hg|]. auto_derive; [exact I|ring]. }
  split; [exact (K _ _ H1)|exact (K _ _ H2)].
Qed.
Lemma maxwell_shift : forall eH eV zH zV (E H : Z -> R -> R -> R -> C) xs ys x y z,
  maxwell eH eV zH zV (fun a x y z => E a (x + xs)%R (y + ys)%R z) (fun a x y z => H a (x + xs)%R (y + ys)%R z) (x - xs) (y - ys) z -> maxwell eH eV zH zV E H x y z.
Proof.
  intros eH eV zH zV E H xs ys x y z.
  assert (EQ : forall t c : R, (t - c + c)%R = t) by (intros; ring).
  assert (K : forall (F : Z -> R -> R -> R -> C) c1 c2 c3, curl_is (fun a x y z => F a (x + xs)%R (y + ys)%R z) (x - xs) (y - ys) z c1 c2 c3 -> curl_is F x y z c1 c2 c3).
  { intros F c1 c2 c3 (A1 & A2 & A3). rewrite !EQ in *.
    assert (EX : forall a y0 z0 l, is_deriveC (fun t => F a (t + xs)%R y0 z0) (x - xs) l -> is_deriveC (fun t => F a t y0 z0) x l).
    { intros a y0 z0 l D. apply deriveC_shift in D. refine (is_deriveC_ext_loc _ _ _ _ _ D). apply filter_forall. intros t. now rewrite EQ. }
    assert (EY : forall a x0 z0 l, is_deriveC (fun t => F a x0 (t + ys)%R z0) (y - ys) l -> is_deriveC (fun t => F a x0 t z0) y l).
    { intros a x0 z0 l D. apply deriveC_shift in D. refine (is_deriveC_ext_loc _ _ _ _ _ D). apply filter_forall. intros t. now rewrite EQ. }
    split; [|split]; [destruct A1 as (d & d' & D & D' & ED)|destruct A2 as (d & d' & D & D' & ED)|destruct A3 as (d & d' & D & D' & ED)]; exists d, d'; (split; [|split]); auto. }
  intros [M1 M2]. rewrite !EQ in M1, M2. split; apply K; assumption.
Qed.

Lemma improper_0 : improper (fun _ => RtoC 0) (RtoC 0).
Proof.
  destruct (eb_improper 1 (fun _ => RtoC 0) (eb_zero 1) ltac:(lra)) as [V HV]. pose proof (improper_scal (RtoC 0) _ _ HV) as I.
  replace (RtoC 0 * V) with (RtoC 0) in I by ring. refine (improper_ext _ _ _ _ I). intros. ring.
Qed.

(** ** Maxwell's equations inside the layers *)
Theorem layered_maxwell_any : forall eH eV zH zV z N b xs ys zs (E H : Z -> R -> R -> R -> C), layered eH eV zH zV z N -> (1 <= b <= 6)%Z ->
  (forall a x y zr, (1 <= a <= 3)%Z -> off_axis xs ys x y -> zr <> zs ->
     lay_xyz eH eV zH zV z N false a b xs ys zs x y zr (E a x y zr) /\ lay_xyz eH eV zH zV z N false (a + 3) b xs ys zs x y zr (H a x y zr)) ->
  forall x y zr, off_axis xs ys x y -> zr <> zs -> (forall k, (1 <= k <= N)%nat -> zr <> z k) ->
  let k := lay z N zr in maxwell (eH k) (eV k) (zH k) (zV k) E H x y zr.
Proof.
  intros eH eV zH zV z N b xs ys zs E H LY Hb HV x y zr HO Hz Hi k.
  destruct (lay_near z N zr Hi) as (e1 & He1 & N1).
  assert (N2 : exists e2, (0 < e2)%R /\ forall x' y', (Rabs (x' - (x - xs)) < e2)%R -> (Rabs (y' - (y - ys)) < e2)%R -> (0 < x' * x' + y' * y')%R).
  { unfold off_axis in HO. destruct (Req_dec (x - xs) 0) as [X0|X0].
    - assert (Y0 : (y - ys <> 0)%R) by (intros Y0; rewrite X0, Y0 in HO; lra). exists (Rabs (y - ys)). split; [now apply Rabs_pos_lt|]. intros x' y' _ Hy.
      assert (y' <> 0)%R by (intros ->; rewrite Rminus_0_l, Rabs_Ropp in Hy; lra). pose proof (Rsqr_pos_lt y' H0) as P. unfold Rsqr in P. nra.
    - exists (Rabs (x - xs)). split; [now apply Rabs_pos_lt|]. intros x' y' Hx _.
      assert (x' <> 0)%R by (intros ->; rewrite Rminus_0_l, Rabs_Ropp in Hx; lra). pose proof (Rsqr_pos_lt x' H0) as P. unfold Rsqr in P. nra. }
  destruct N2 as (e2 & He2 & N2). pose proof (Rabs_pos_lt (zr - zs) ltac:(lra)) as Hd.
  assert (EE : exists e, (0 < e)%R /\ (e <= e1)%R /\ (e <= e2)%R /\ (e <= Rabs (zr - zs) / 2)%R).
  { exists (Rmin e1 (Rmin e2 (Rabs (zr - zs) / 2))). pose proof (Rmin_l e1 (Rmin e2 (Rabs (zr - zs) / 2))). pose proof (Rmin_r e1 (Rmin e2 (Rabs (zr - zs) / 2))). pose proof (Rmin_l e2 (Rabs (zr - zs) / 2)). pose proof (Rmin_r e2 (Rabs (zr - zs) / 2)).
    split; [|lra]. apply Rmin_case; [assumption|]. apply Rmin_case; lra. }
  destruct EE as (e & He & Le1 & Le2 & Le3). set (za := (zr - e)%R). set (zb := (zr + e)%R). set (s := lay z N zs).
  assert (IN : forall w, (za <= w <= zb)%R -> (Rabs (w - zr) <= e)%R) by (intros w W; unfold za, zb in W; apply Rabs_le; lra).
  assert (LK : forall w, (za <= w <= zb)%R -> lay z N w = k) by (intros w W; apply N1; specialize (IN w W); lra).
  assert (ZS : (zs < za)%R \/ (zb < zs)%R) by (unfold za, zb; revert Le3 Hd; unfold Rabs; destruct (Rcase_abs (zr - zs)); [right|left]; lra).
  assert (DA : (e <= Rabs (zs - za))%R /\ (e <= Rabs (zs - zb))%R).
  { unfold za, zb. revert Le3 Hd. unfold Rabs. destruct (Rcase_abs (zr - zs)), (Rcase_abs (zs - (zr - e))), (Rcase_abs (zs - (zr + e))); lra. }
  destruct DA as [DA DB]. assert (Hab : (za <= zb)%R) by (unfold za, zb; lra).
  pose proof (lay_le z N zr : (k <= N)%nat) as Hk. pose proof (lay_le z N zs : (s <= N)%nat) as Hs. pose proof (ly_z _ _ _ _ _ _ LY) as HZ. pose proof (ly_passive _ _ _ _ _ _ LY) as PM.
  pose proof (lay_inlay z N zs HZ : inlay z N s zs) as IS.
  assert (IA : inlay z N k za) by (rewrite <- (LK za) by (unfold za, zb; lra); now apply lay_inlay). assert (IB : inlay z N k zb) by (rewrite <- (LK zb) by (unfold za, zb; lra); now apply lay_inlay).
  destruct (rate2 _ _ _ _ _ _ LY) as (al & Hal & RM & RE).
  pose proof (MTM _ _ _ _ _ _ LY) as ML1. pose proof (MTE _ _ _ _ _ _ LY) as ML2. pose proof (RTM _ _ _ _ _ _ LY) as RG1. pose proof (RTE _ _ _ _ _ _ LY) as RG2.
  pose proof (passive_model_ok _ _ _ _ _ _ 0 PM) as OK.
  apply (maxwell_shift _ _ _ _ _ _ xs ys).
  apply (univ_maxwell (eH k) (eV k) (zH k) (zV k) (fun l => gam eH eV zH l k) (fun l => gam zH zV eH l k) za zb (al * e)
    (Ad eH eV zH z N (alf (eV s) b) (pmTM b) s k zs za) (Au eH eV zH z N (alf (eV s) b) (pmTM b) s k zs zb)
    (Ad zH zV eH z N (bet (zV s) b) (pmTE b) s k zs za) (Au zH zV eH z N (bet (zV s) b) (pmTE b) s k zs zb) (kap b) (the b)) with (e := e).
  - now apply OK.
  - now apply OK.
  - now apply OK.
  - now apply OK.
  - apply (eb_lg (eH k) (eV k) (zH k)). now apply ML1.
  - apply (eb_lg (zH k) (zV k) (eH k)). now apply ML2.
  - intros lam _. apply Csqrt_Re_ge_0.
  - intros lam _. apply Csqrt_Re_ge_0.
  - intros lam. unfold gam. rewrite Csqrt_sqr, RtoC_mult. field. now apply OK.
  - intros lam. unfold gam. rewrite Csqrt_sqr, RtoC_mult. field. now apply OK.
  - now apply Rmult_lt_0_compat.
  - exact (proj1 (eb_Adu eH eV zH z N ML1 HZ RG1 al Hal RM (alf (eV s) b) (pmTM b) s k zs za e (eb_alf _ _) IS IA DA)).
  - exact (proj2 (eb_Adu eH eV zH z N ML1 HZ RG1 al Hal RM (alf (eV s) b) (pmTM b) s k zs zb e (eb_alf _ _) IS IB DB)).
  - exact (proj1 (eb_Adu zH zV eH z N ML2 HZ RG2 al Hal RE (bet (zV s) b) (pmTE b) s k zs za e (eb_bet _ _) IS IA DA)).
  - exact (proj2 (eb_Adu zH zV eH z N ML2 HZ RG2 al Hal RE (bet (zV s) b) (pmTE b) s k zs zb e (eb_bet _ _) IS IB DB)).
  - apply trg_kap.
  - apply trg_the.
  - exact He.
  - intros w W. apply Rabs_def2 in W. unfold za, zb. lra.
  - intros a x' y' z' Ha (NX & NY & NZ).
    assert (HO' : off_axis xs ys (x' + xs) (y' + ys)).
    { unfold off_axis. replace (x' + xs - xs)%R with x' by ring. replace (y' + ys - ys)%R with y' by ring. apply N2; lra. }
    assert (W' : (za <= z' <= zb)%R) by (apply Rabs_def2 in NZ; unfold za, zb; lra).
    assert (Zne : z' <> zs) by lra. destruct (HV a (x' + xs)%R (y' + ys)%R z' Ha HO' Zne) as [V1 V2].
    pose proof (fun lam => Tp_ud eH eV zH z N (alf (eV s) b) (pmTM b) s k zs za zb z' lam (pm1_TM b) Hs Hk Hab (fun _ => ZS) W') as T1.
    pose proof (fun lam => Tp_ud zH zV eH z N (bet (zV s) b) (pmTE b) s k zs za zb z' lam (pm1_TE b) Hs Hk Hab (fun _ => ZS) W') as T2.
    pose proof (val_eI (eH k) eV (zH k) zV b s k _ _ za zb _ _ _ _ _ _ _ _ x' y' z' (fun l => proj1 (T1 l)) (fun l => proj2 (T1 l)) (fun l => proj1 (T2 l)) (fun l => proj2 (T2 l)) a) as VE.
    split.
    + unfold lay_xyz in V1. destruct ((a =? 3)%Z && (b =? 6)%Z || (a =? 6)%Z && (b =? 3)%Z)%bool eqn:FP.
      * assert (a = 3 /\ b = 6)%Z as [-> ->]. { apply orb_true_iff in FP. destruct FP as [F|F]; apply andb_true_iff in F; destruct F as [F1 F2]; apply Z.eqb_eq in F1, F2; lia. }
        rewrite V1. refine (improper_ext _ _ _ _ improper_0). intros lam _. rewrite (proj1 (VE lam Ha)). unfold val, alf. cbn [Z.eqb Z.leb Z.compare Pos.compare Pos.compare_cont Pos.eqb]. unfold Cdiv. ring.
      * apply (lay_val eH eV zH zV z N LY a b xs ys zs _ _ z' _ (fs_pair_dec a b ltac:(lia) Hb FP) HO') in V1. cbv zeta in V1. rewrite (LK z' W') in V1.
        replace (x' + xs - xs)%R with x' in V1 by ring. replace (y' + ys - ys)%R with y' in V1 by ring.
        refine (improper_ext _ _ _ _ V1). intros lam _. exact (proj1 (VE lam Ha)).
    + unfold lay_xyz in V2. destruct ((a + 3 =? 3)%Z && (b =? 6)%Z || (a + 3 =? 6)%Z && (b =? 3)%Z)%bool eqn:FP.
      * assert (a = 3 /\ b = 3)%Z as [-> ->]. { apply orb_true_iff in FP. destruct FP as [F|F]; apply andb_true_iff in F; destruct F as [F1 F2]; apply Z.eqb_eq in F1, F2; lia. }
        rewrite V2. refine (improper_ext _ _ _ _ improper_0). intros lam _. rewrite (proj2 (VE lam Ha)). unfold val, bet. cbn. unfold Cdiv. ring.
      * apply (lay_val eH eV zH zV z N LY (a + 3) b xs ys zs _ _ z' _ (fs_pair_dec (a + 3) b ltac:(lia) Hb FP) HO') in V2. cbv zeta in V2. rewrite (LK z' W') in V2.
        replace (x' + xs - xs)%R with x' in V2 by ring. replace (y' + ys - ys)%R with y' in V2 by ring.
        refine (improper_ext _ _ _ _ V2). intros lam _. exact (proj2 (VE lam Ha)).
Qed.

(** The value is unique, and it exists away from the source depth. *)
Lemma lay_xyz_unique : forall eH eV zH zV z N xd a b xs ys zs x y zr V V', lay_xyz eH eV zH zV z N xd a b xs ys zs x y zr V -> lay_xyz eH eV zH zV z N xd a b xs ys zs x y zr V' -> V = V'.
Proof. intros eH eV zH zV z N xd a b xs ys zs x y zr V V'. unfold lay_xyz. destruct (_ || _)%bool; [intros -> ->; reflexivity|apply hankel_unique]. Qed.
Lemma lay_xyz_exists : forall eH eV zH zV z N xd a b xs ys zs x y zr, layered eH eV zH zV z N -> (1 <= a <= 6)%Z -> (1 <= b <= 6)%Z -> zr <> zs -> exists V, lay_xyz eH eV zH zV z N xd a b xs ys zs x y zr V.
Proof.
  intros eH eV zH zV z N xd a b xs ys zs x y zr LY Ha Hb Hz. unfold lay_xyz. destruct (_ || _)%bool eqn:F; [now exists (RtoC 0)|].
  apply layered_converges; [exact LY|now apply fs_pair_dec|congruence].
Qed.
Definition lay_fun (eH eV zH zV : nat -> C) (z : nat -> R) (N : nat) (xd : bool) (a b : Z) (xs ys zs x y zr : R) : C :=
  iota (T := CompleteNormedModule.CompleteSpace _ C_R_CompleteNormedModule) (lay_xyz eH eV zH zV z N xd a b xs ys zs x y zr).
Lemma lay_fun_ok : forall eH eV zH zV z N xd a b xs ys zs x y zr, (exists V, lay_xyz eH eV zH zV z N xd a b xs ys zs x y zr V) -> lay_xyz eH eV zH zV z N xd a b xs ys zs x y zr (lay_fun eH eV zH zV z N xd a b xs ys zs x y zr).
Proof.
  intros eH eV zH zV z N xd a b xs ys zs x y zr [V HV]. refine (iota_correct (V := C_R_CompleteNormedModule) (lay_xyz eH eV zH zV z N xd a b xs ys zs x y zr) _). exists V. split; [exact HV|]. intros V' HV'. exact (lay_xyz_unique _ _ _ _ _ _ _ _ _ _ _ _ _ _ _ _ _ HV HV').
Qed.

Theorem layered_maxwell : forall eH eV zH zV z N b xs ys zs, layered eH eV zH zV z N -> (1 <= b <= 6)%Z ->
  exists E H : Z -> R -> R -> R -> C,
    (forall a x y zr, (1 <= a <= 3)%Z -> zr <> zs ->
       lay_xyz eH eV zH zV z N false a b xs ys zs x y zr (E a x y zr) /\ lay_xyz eH eV zH zV z N false (a + 3) b xs ys zs x y zr (H a x y zr)) /\
    (forall k x y zr, off_axis xs ys x y -> in_layer z N k zr -> zr <> zs -> maxwell (eH k) (eV k) (zH k) (zV k) E H x y zr).
Proof.
  intros eH eV zH zV z N b xs ys zs LY Hb.
  exists (fun a x y zr => lay_fun eH eV zH zV z N false a b xs ys zs x y zr), (fun a x y zr => lay_fun eH eV zH zV z N false (a + 3) b xs ys zs x y zr).
  assert (V : forall a x y zr, (1 <= a <= 3)%Z -> zr <> zs -> lay_xyz eH eV zH zV z N false a b xs ys zs x y zr (lay_fun eH eV zH zV z N false a b xs ys zs x y zr) /\ lay_xyz eH eV zH zV z N false (a + 3) b xs ys zs x y zr (lay_fun eH eV zH zV z N false (a + 3) b xs ys zs x y zr)).
  { intros a x y zr Ha Hz. split; apply lay_fun_ok, lay_xyz_exists; try assumption; lia. }
  split; [exact V|]. intros k x y zr HO HL Hz.
  pose proof (ly_z _ _ _ _ _ _ LY) as HZ.
  assert (MON : forall i j, (1 <= i)%nat -> (i <= j <= N)%nat -> (z i <= z j)%R) by (intros; apply (z_incr z N HZ); assumption).
  rewrite <- (lay_in z N HZ k zr HL).
  apply (layered_maxwell_any eH eV zH zV z N b xs ys zs); try assumption.
  - intros a x' y' zr' Ha _ Hz'. now apply V.
  - intros i Hi ->. destruct HL as (H1 & H2 & H3).
    destruct (le_lt_dec i k) as [L|L].
    + destruct H2 as [->|H2]; [lia|]. pose proof (MON i k ltac:(lia) ltac:(lia)). lra.
    + destruct H3 as [->|H3]; [lia|]. pose proof (MON (S k) i ltac:(lia) ltac:(lia)). lra.
Qed.
