(** With the direct field in the space domain: the reflected field solves Maxwell's equations in the
    whole source layer, and so does its sum with the closed-form direct field, at the depth of the
    source too. *)

From Coq Require Import Reals ZArith List Bool Lia Lra Psatz QArith.
From Coquelicot Require Import Coquelicot.
From Verif Require Import PyBase CBase Kernel KernelSpec KernelPhys KernelClosed KernelPassive KernelMain KernelBVP Utils UtilsAb ODE Bessel KernelBessel KernelThm KernelThm2 KernelFinal Fullspace FullspaceThm FullspaceCurl FullspaceField FullspaceEM Cint Sommer Sommer2 Homog HomogThm LayAsym LayConv LayWave LayField LayMaxwell LayCode LayVal LayEM.
Import ListNotations.
Local Open Scope R_scope.
Local Open Scope C_scope.

(** ** The reflected waves in the source layer *)
Definition cdr (e g : nat -> C) (z : nat -> R) (N : nat) (pm : C) (s : nat) (zs za : R) : C :=
  (G_mode e g z N pm 1 s s zs za true - G_mode e g z N pm (- (1)) s s zs za true) / 2.
Definition cur (e g : nat -> C) (z : nat -> R) (N : nat) (pm : C) (s : nat) (zs zb : R) : C :=
  (G_mode e g z N pm 1 s s zs zb true + G_mode e g z N pm (- (1)) s s zs zb true) / 2.
Lemma refl_rep : forall e g z N pm s zs za zb, pm1 pm -> (s <= N)%nat -> (za <= zb)%R ->
  forall sg x, pm1 sg -> (za <= x <= zb)%R ->
  G_mode e g z N pm sg s s zs x true = sg * cdr e g z N pm s zs za * dec g s (x - za) + cur e g z N pm s zs zb * dec g s (zb - x).
Proof.
  intros e g z N pm s zs za zb Hp Hs Hab. unfold cdr, cur. destruct (wf_same e g z N pm s zs Hs) as (a & b & _ & _ & HG).
  apply (rep_wave g s zs za zb a b (fun sg x => G_mode e g z N pm sg s s zs x true) Hab). intros sg x _ _. specialize (HG sg x). unfold G_mode in HG |- *. rewrite Nat.eqb_refl in HG |- *.
  transitivity (G_same e g z N pm sg s zs x + G_dir g pm sg s zs x - G_dir g pm sg s zs x); [ring|]. rewrite HG. ring.
Qed.

Section One.
Variables (h v q : nat -> C) (z : nat -> R) (N : nat).
Hypothesis ML : forall k, (k <= N)%nat -> mlayer (h k) (v k) (q k).
Hypothesis HZ : increasing z N.
Hypothesis RG : forall lam, regular h (gam h v q lam) z N.
Variable a : R.
Hypothesis Ha : (0 < a)%R.
Hypothesis Hm : forall k, (k <= N)%nat -> (a <= fst (ms (h k) (v k)))%R.
Definition Dr (w : R -> C) (pm : C) (s : nat) (zs za lam : R) : C := w lam * (wsrc h (gam h v q lam) pm s * cdr h (gam h v q lam) z N pm s zs za).
Definition Ur (w : R -> C) (pm : C) (s : nat) (zs zb lam : R) : C := w lam * (wsrc h (gam h v q lam) pm s * cur h (gam h v q lam) z N pm s zs zb).
Lemma eb_DUr : forall w pm s zs za, eb 0 w -> in_layer z N s zs -> in_layer z N s za -> exists c, (0 < c)%R /\ eb c (Dr w pm s zs za) /\ eb c (Ur w pm s zs za).
Proof using ML HZ RG Ha Hm.
  intros w pm s zs za Hw Hs Hk.
  destruct (eb_refl h v q z N ML HZ RG a Ha Hm pm 1 s zs za Hs Hk) as (c1 & P1 & B1). destruct (eb_refl h v q z N ML HZ RG a Ha Hm pm (- (1)) s zs za Hs Hk) as (c2 & P2 & B2).
  pose proof (eb_weak _ (Rmin c1 c2) _ B1 (Rmin_l _ _)) as C1. pose proof (eb_weak _ (Rmin c1 c2) _ B2 (Rmin_r _ _)) as C2.
  exists (Rmin c1 c2). split; [now apply Rmin_case|].
  assert (WS : eb 0 (fun lam => wsrc h (gam h v q lam) pm s)) by (apply (eb_wsrc h v q N ML); apply Hs).
  split; unfold Dr, Ur; (apply (eb_mult0 (Rmin c1 c2) w); [exact Hw|]); (apply (eb_mult0 (Rmin c1 c2) (fun lam => wsrc h (gam h v q lam) pm s)); [exact WS|]); unfold cdr, cur, Cdiv.
  - apply (eb_ext _ (fun lam => / 2 * (G_mode h (gam h v q lam) z N pm 1 s s zs za true - G_mode h (gam h v q lam) z N pm (- (1)) s s zs za true))); [intros; ring|]. apply eb_scal, eb_minus; assumption.
  - apply (eb_ext _ (fun lam => / 2 * (G_mode h (gam h v q lam) z N pm 1 s s zs za true + G_mode h (gam h v q lam) z N pm (- (1)) s s zs za true))); [intros; ring|]. apply eb_scal, eb_plus; assumption.
Qed.
Lemma Tx_ud : forall w pm s zs za zb x lam, pm1 pm -> (s <= N)%nat -> (za <= zb)%R -> (za <= x <= zb)%R ->
  w lam * Tx true h v q z N s s zs x pm 1 lam = ud (fun l => gam h v q l s) za zb (Dr w pm s zs za) (Ur w pm s zs zb) x lam /\
  w lam * Tx true h v q z N s s zs x pm (- (1)) lam = ud (fun l => gam h v q l s) za zb (fun l => - / h s * (gam h v q l s * Dr w pm s zs za l)) (fun l => / h s * (gam h v q l s * Ur w pm s zs zb l)) x lam.
Proof.
  intros w pm s zs za zb x lam Hp Hs Hab Hx. unfold Tx, ud, Dr, Ur.
  rewrite !(refl_rep h (gam h v q lam) z N pm s zs za zb Hp Hs Hab) by (first [now left|now right|assumption]).
  rewrite wgt_1, wgt_m1. unfold dec. split; [ring|]. unfold Cdiv. ring.
Qed.
End One.

Lemma axis_near : forall x y, (0 < x * x + y * y)%R -> exists e2, (0 < e2)%R /\ forall x' y', (Rabs (x' - x) < e2)%R -> (Rabs (y' - y) < e2)%R -> (0 < x' * x' + y' * y')%R.
Proof.
  intros x y HO. destruct (Req_dec x 0) as [X0|X0].
  - assert (Y0 : (y <> 0)%R) by (intros Y0; rewrite X0, Y0 in HO; lra). exists (Rabs y). split; [now apply Rabs_pos_lt|]. intros x' y' _ Hy.
    assert (y' <> 0)%R by (intros ->; rewrite Rminus_0_l, Rabs_Ropp in Hy; lra). pose proof (Rsqr_pos_lt y' H) as P. unfold Rsqr in P. nra.
  - exists (Rabs x). split; [now apply Rabs_pos_lt|]. intros x' y' Hx _.
    assert (x' <> 0)%R by (intros ->; rewrite Rminus_0_l, Rabs_Ropp in Hx; lra). pose proof (Rsqr_pos_lt x' H) as P. unfold Rsqr in P. nra.
Qed.
Lemma in_near : forall z N k x, in_layer z N k x -> exists e : R, (0 < e)%R /\ forall w, (Rabs (w - x) <= e)%R -> in_layer z N k w.
Proof.
  intros z N k x (H0 & H1 & H2).
  assert (A : exists e1 : R, (0 < e1)%R /\ forall w, (Rabs (w - x) <= e1)%R -> k = 0%nat \/ (z k < w)%R).
  { destruct H1 as [H1|H1]; [exists 1%R; split; [lra|auto]|]. exists ((x - z k) / 2)%R. split; [lra|]. intros w W. right. apply Rabs_le_between in W. lra. }
  assert (B : exists e1 : R, (0 < e1)%R /\ forall w, (Rabs (w - x) <= e1)%R -> k = N \/ (w < z (S k))%R).
  { destruct H2 as [H2|H2]; [exists 1%R; split; [lra|auto]|]. exists ((z (S k) - x) / 2)%R. split; [lra|]. intros w W. right. apply Rabs_le_between in W. lra. }
  destruct A as (e1 & P1 & A). destruct B as (e2 & P2 & B). exists (Rmin e1 e2). split; [now apply Rmin_case|]. intros w W. pose proof (Rmin_l e1 e2). pose proof (Rmin_r e1 e2).
  split; [exact H0|]. split; [apply A; lra|apply B; lra].
Qed.

(** ** The reflected field *)
Theorem reflected_maxwell_any : forall eH eV zH zV z N b s xs ys zs (E H : Z -> R -> R -> R -> C), layered eH eV zH zV z N -> (1 <= b <= 6)%Z -> in_layer z N s zs ->
  (forall a x y zr, (1 <= a <= 3)%Z -> off_axis xs ys x y -> in_layer z N s zr ->
     lay_xyz eH eV zH zV z N true a b xs ys zs x y zr (E a x y zr) /\ lay_xyz eH eV zH zV z N true (a + 3) b xs ys zs x y zr (H a x y zr)) ->
  forall x y zr, off_axis xs ys x y -> in_layer z N s zr -> maxwell (eH s) (eV s) (zH s) (zV s) E H x y zr.
Proof.
  intros eH eV zH zV z N b s xs ys zs E H LY Hb ZS HV x y zr HO ZR.
  destruct (in_near z N s zr ZR) as (e1 & He1 & N1). destruct (axis_near _ _ HO) as (e2 & He2 & N2).
  assert (EE : exists e, (0 < e)%R /\ (e <= e1)%R /\ (e <= e2)%R).
  { exists (Rmin e1 e2). split; [now apply Rmin_case|]. split; [apply Rmin_l|apply Rmin_r]. }
  destruct EE as (e & He & Le1 & Le2). set (za := (zr - e)%R). set (zb := (zr + e)%R).
  assert (IN : forall w, (za <= w <= zb)%R -> in_layer z N s w) by (intros w W; unfold za, zb in W; apply N1, Rabs_le; lra).
  assert (Hab : (za <= zb)%R) by (unfold za, zb; lra).
  pose proof (proj1 ZS) as Hs. pose proof (ly_z _ _ _ _ _ _ LY) as HZ. pose proof (ly_passive _ _ _ _ _ _ LY) as PM.
  pose proof (lay_in z N HZ s zs ZS) as LS.
  assert (IA : in_layer z N s za) by (apply IN; lra). assert (IB : in_layer z N s zb) by (apply IN; lra).
  destruct (rate2 _ _ _ _ _ _ LY) as (al & Hal & RM & RE).
  pose proof (MTM _ _ _ _ _ _ LY) as ML1. pose proof (MTE _ _ _ _ _ _ LY) as ML2. pose proof (RTM _ _ _ _ _ _ LY) as RG1. pose proof (RTE _ _ _ _ _ _ LY) as RG2.
  pose proof (passive_model_ok _ _ _ _ _ _ 0 PM) as OK.
  destruct (eb_DUr eH eV zH z N ML1 HZ RG1 al Hal RM (alf (eV s) b) (pmTM b) s zs za (eb_alf _ _) ZS IA) as (c1 & P1 & B1 & _).
  destruct (eb_DUr eH eV zH z N ML1 HZ RG1 al Hal RM (alf (eV s) b) (pmTM b) s zs zb (eb_alf _ _) ZS IB) as (c2 & P2 & _ & B2).
  destruct (eb_DUr zH zV eH z N ML2 HZ RG2 al Hal RE (bet (zV s) b) (pmTE b) s zs za (eb_bet _ _) ZS IA) as (c3 & P3 & B3 & _).
  destruct (eb_DUr zH zV eH z N ML2 HZ RG2 al Hal RE (bet (zV s) b) (pmTE b) s zs zb (eb_bet _ _) ZS IB) as (c4 & P4 & _ & B4).
  assert (CC : exists c, (0 < c)%R /\ (c <= c1)%R /\ (c <= c2)%R /\ (c <= c3)%R /\ (c <= c4)%R).
  { exists (Rmin (Rmin c1 c2) (Rmin c3 c4)). pose proof (Rmin_l (Rmin c1 c2) (Rmin c3 c4)). pose proof (Rmin_r (Rmin c1 c2) (Rmin c3 c4)). pose proof (Rmin_l c1 c2). pose proof (Rmin_r c1 c2). pose proof (Rmin_l c3 c4). pose proof (Rmin_r c3 c4).
    split; [repeat apply Rmin_case; assumption|lra]. }
  destruct CC as (c & Pc & L1 & L2 & L3 & L4).
  apply (maxwell_shift _ _ _ _ _ _ xs ys).
  apply (univ_maxwell (eH s) (eV s) (zH s) (zV s) (fun l => gam eH eV zH l s) (fun l => gam zH zV eH l s) za zb c
    (Dr eH eV zH z N (alf (eV s) b) (pmTM b) s zs za) (Ur eH eV zH z N (alf (eV s) b) (pmTM b) s zs zb)
    (Dr zH zV eH z N (bet (zV s) b) (pmTE b) s zs za) (Ur zH zV eH z N (bet (zV s) b) (pmTE b) s zs zb) (kap b) (the b)) with (e := e).
  - now apply OK.
  - now apply OK.
  - now apply OK.
  - now apply OK.
  - apply (eb_lg (eH s) (eV s) (zH s)). now apply ML1.
  - apply (eb_lg (zH s) (zV s) (eH s)). now apply ML2.
  - intros lam _. apply Csqrt_Re_ge_0.
  - intros lam _. apply Csqrt_Re_ge_0.
  - intros lam. unfold gam. rewrite Csqrt_sqr, RtoC_mult. field. now apply OK.
  - intros lam. unfold gam. rewrite Csqrt_sqr, RtoC_mult. field. now apply OK.
  - exact Pc.
  - exact (eb_weak _ _ _ B1 L1).
  - exact (eb_weak _ _ _ B2 L2).
  - exact (eb_weak _ _ _ B3 L3).
  - exact (eb_weak _ _ _ B4 L4).
  - apply trg_kap.
  - apply trg_the.
  - exact He.
  - intros w W. apply Rabs_def2 in W. unfold za, zb. lra.
  - intros a x' y' z' Ha (NX & NY & NZ).
    assert (HO' : off_axis xs ys (x' + xs) (y' + ys)).
    { unfold off_axis. replace (x' + xs - xs)%R with x' by ring. replace (y' + ys - ys)%R with y' by ring. apply N2; lra. }
    assert (W' : (za <= z' <= zb)%R) by (apply Rabs_def2 in NZ; unfold za, zb; lra).
    destruct (HV a (x' + xs)%R (y' + ys)%R z' Ha HO' (IN z' W')) as [V1 V2].
    pose proof (fun lam => Tx_ud eH eV zH z N (alf (eV s) b) (pmTM b) s zs za zb z' lam (pm1_TM b) Hs Hab W') as T1.
    pose proof (fun lam => Tx_ud zH zV eH z N (bet (zV s) b) (pmTE b) s zs za zb z' lam (pm1_TE b) Hs Hab W') as T2.
    pose proof (val_eI (eH s) eV (zH s) zV b s s _ _ za zb _ _ _ _ _ _ _ _ x' y' z' (fun l => proj1 (T1 l)) (fun l => proj2 (T1 l)) (fun l => proj1 (T2 l)) (fun l => proj2 (T2 l)) a) as VE.
    pose proof (lay_in z N HZ s z' (IN z' W')) as LK.
    split.
    + unfold lay_xyz in V1. destruct ((a =? 3)%Z && (b =? 6)%Z || (a =? 6)%Z && (b =? 3)%Z)%bool eqn:FP.
      * assert (a = 3 /\ b = 6)%Z as [-> ->]. { apply orb_true_iff in FP. destruct FP as [F|F]; apply andb_true_iff in F; destruct F as [F1 F2]; apply Z.eqb_eq in F1, F2; lia. }
        rewrite V1. refine (improper_ext _ _ _ _ improper_0). intros lam _. rewrite (proj1 (VE lam Ha)). unfold val, alf. cbn [Z.eqb Z.leb Z.compare Pos.compare Pos.compare_cont Pos.eqb]. unfold Cdiv. ring.
      * apply (lay_valx eH eV zH zV z N LY true a b xs ys zs _ _ z' _ (fs_pair_dec a b ltac:(lia) Hb FP) HO') in V1. cbv zeta in V1. rewrite LK, LS in V1.
        replace (x' + xs - xs)%R with x' in V1 by ring. replace (y' + ys - ys)%R with y' in V1 by ring.
        refine (improper_ext _ _ _ _ V1). intros lam _. exact (proj1 (VE lam Ha)).
    + unfold lay_xyz in V2. destruct ((a + 3 =? 3)%Z && (b =? 6)%Z || (a + 3 =? 6)%Z && (b =? 3)%Z)%bool eqn:FP.
      * assert (a = 3 /\ b = 3)%Z as [-> ->]. { apply orb_true_iff in FP. destruct FP as [F|F]; apply andb_true_iff in F; destruct F as [F1 F2]; apply Z.eqb_eq in F1, F2; lia. }
        rewrite V2. refine (improper_ext _ _ _ _ improper_0). intros lam _. rewrite (proj2 (VE lam Ha)). unfold val, bet. cbn. unfold Cdiv. ring.
      * apply (lay_valx eH eV zH zV z N LY true (a + 3) b xs ys zs _ _ z' _ (fs_pair_dec (a + 3) b ltac:(lia) Hb FP) HO') in V2. cbv zeta in V2. rewrite LK, LS in V2.
        replace (x' + xs - xs)%R with x' in V2 by ring. replace (y' + ys - ys)%R with y' in V2 by ring.
        refine (improper_ext _ _ _ _ V2). intros lam _. exact (proj2 (VE lam Ha)).
Qed.

(** ** Sum with the direct field *)
Lemma maxwell_plus : forall eH eV zH zV (E H F G : Z -> R -> R -> R -> C) x y z, maxwell eH eV zH zV E H x y z -> maxwell eH eV zH zV F G x y z ->
  maxwell eH eV zH zV (fun a x y z => E a x y z + F a x y z) (fun a x y z => H a x y z + G a x y z) x y z.
Proof.
  intros eH eV zH zV E H F G x y z [A1 A2] [B1 B2]. split.
  - pose proof (curl_plus _ _ _ _ _ _ _ _ _ _ _ A1 B1) as T.
    replace (- (zH * (H 1%Z x y z + G 1%Z x y z))) with (- (zH * H 1%Z x y z) + - (zH * G 1%Z x y z)) by ring.
    replace (- (zH * (H 2%Z x y z + G 2%Z x y z))) with (- (zH * H 2%Z x y z) + - (zH * G 2%Z x y z)) by ring.
    replace (- (zV * (H 3%Z x y z + G 3%Z x y z))) with (- (zV * H 3%Z x y z) + - (zV * G 3%Z x y z)) by ring. exact T.
  - pose proof (curl_plus _ _ _ _ _ _ _ _ _ _ _ A2 B2) as T.
    replace (eH * (E 1%Z x y z + F 1%Z x y z)) with (eH * E 1%Z x y z + eH * F 1%Z x y z) by ring.
    replace (eH * (E 2%Z x y z + F 2%Z x y z)) with (eH * E 2%Z x y z + eH * F 2%Z x y z) by ring.
    replace (eV * (E 3%Z x y z + F 3%Z x y z)) with (eV * E 3%Z x y z + eV * F 3%Z x y z) by ring. exact T.
Qed.
Lemma maxwell_depth : forall eH eV zH zV (E H F G : Z -> R -> R -> R -> C) x y z e, (0 < e)%R ->
  (forall a x' y' z', (Rabs (z' - z) < e)%R -> E a x' y' z' = F a x' y' z' /\ H a x' y' z' = G a x' y' z') ->
  maxwell eH eV zH zV E H x y z -> maxwell eH eV zH zV F G x y z.
Proof.
  intros eH eV zH zV E H F G x y z e He EQ [M1 M2].
  assert (K : forall (P Q : Z -> R -> R -> R -> C), (forall a x' y' z', (Rabs (z' - z) < e)%R -> P a x' y' z' = Q a x' y' z') -> forall c1 c2 c3, curl_is P x y z c1 c2 c3 -> curl_is Q x y z c1 c2 c3).
  { intros P Q PQ c1 c2 c3 (A1 & A2 & A3). assert (Z0 : (Rabs (z - z) < e)%R) by (rewrite Rminus_eq_0, Rabs_R0; exact He).
    assert (EX : forall a l, is_deriveC (fun t => P a t y z) x l -> is_deriveC (fun t => Q a t y z) x l).
    { intros a l D. refine (is_deriveC_ext_loc _ _ _ _ _ D). apply filter_forall. intros t. now apply PQ. }
    assert (EY : forall a l, is_deriveC (fun t => P a x t z) y l -> is_deriveC (fun t => Q a x t z) y l).
    { intros a l D. refine (is_deriveC_ext_loc _ _ _ _ _ D). apply filter_forall. intros t. now apply PQ. }
    assert (EZ : forall a l, is_deriveC (fun t => P a x y t) z l -> is_deriveC (fun t => Q a x y t) z l).
    { intros a l D. refine (is_deriveC_ext_loc _ _ _ _ _ D). exists (mkposreal e He). intros t Ht. now apply PQ. }
    split; [|split]; [destruct A1 as (d & d' & D & D' & ED)|destruct A2 as (d & d' & D & D' & ED)|destruct A3 as (d & d' & D & D' & ED)]; exists d, d'; (split; [|split]); auto. }
  assert (Z0 : (Rabs (z - z) < e)%R) by (rewrite Rminus_eq_0, Rabs_R0; exact He).
  assert (EE : forall a, E a x y z = F a x y z) by (intros a; exact (proj1 (EQ a x y z Z0))). assert (EH : forall a, H a x y z = G a x y z) by (intros a; exact (proj2 (EQ a x y z Z0))).
  split.
  - rewrite <- !EH. apply (K E F); [intros; now apply EQ|exact M1].
  - rewrite <- !EE. apply (K H G); [intros; now apply EQ|exact M2].
Qed.

(** The response with xdirect=True: the wavenumber integral without the direct field, plus, with
    source and receiver in one layer, the closed form of a full space of this layer (model.py:1622-1668). *)
Definition lay_total (rdt : bool) (etas zetas : list C) (eH eV zH zV : nat -> C) (z : nat -> R) (N : nat) (a b : Z) (xs ys zs x y zr : R) (T : C) : Prop :=
  exists V, lay_xyz eH eV zH zV z N true a b xs ys zs x y zr V /\
    if (lay z N zr =? lay z N zs)%nat then let k := lay z N zr in exists W, fs_xyz rdt etas zetas a b xs ys zs (eH k) (eV k) (zH k) (zV k) x y zr = Ok W /\ T = V + W else T = V.
(** real data, and the lists of the data that the direct field looks at, are those of a passive model *)
Definition fs_data (rdt : bool) (etas zetas : list C) (b : Z) (eH zH : C) : Prop :=
  (forall c, In c zetas -> 0 <= snd c)%R /\ ((3 < b)%Z -> rdt = false /\ In eH etas /\ (forall e, In e etas -> 0 < snd e)%R /\ (0 < snd zH)%R).

Lemma total_value : forall rdt etas zetas eH eV zH zV z N a b xs ys zs x y zr T, layered eH eV zH zV z N -> (1 <= a <= 6)%Z -> (1 <= b <= 6)%Z -> off_axis xs ys x y -> zs <> zr ->
  fs_data rdt etas zetas b (eH (lay z N zs)) (zH (lay z N zs)) ->
  lay_total rdt etas zetas eH eV zH zV z N a b xs ys zs x y zr T -> lay_xyz eH eV zH zV z N false a b xs ys zs x y zr T.
Proof.
  intros rdt etas zetas eH eV zH zV z N a b xs ys zs x y zr T LY Ha Hb HO Hz [HZ HD] (V & HV & HT). unfold lay_xyz, fs_xyz in *. pose proof (ly_passive _ _ _ _ _ _ LY) as PM.
  destruct ((a =? 3)%Z && (b =? 6)%Z || (a =? 6)%Z && (b =? 3)%Z)%bool eqn:FP.
  - destruct (lay z N zr =? lay z N zs)%nat; [|now rewrite HT]. cbv zeta in HT. destruct HT as (W & EW & ->). injection EW as <-. rewrite HV. ring.
  - pose proof (fs_pair_dec a b Ha Hb FP) as HP. destruct (Nat.eqb_spec (lay z N zr) (lay z N zs)) as [L|L].
    + cbv zeta in HT. destruct HT as (W & EW & ->). rewrite L in EW.
      assert (AN : (negb rdt && fs_anyneg (3 <? b)%Z (3 <? a)%Z etas zetas = fs_anyneg (3 <? b)%Z (3 <? a)%Z etas zetas)%bool).
      { destruct rdt; [|reflexivity]. cbn [negb andb]. symmetry. destruct (Z.ltb_spec 3 b) as [B|B]; [destruct (HD B) as [D _]; discriminate D|]. unfold fs_anyneg. rewrite andb_false_r. now apply anyneg_false. }
      rewrite AN in EW. pose proof (sqrt_lt_R0 _ HO) as HS.
      destruct (direct_value rdt a b eH eV zH zV z N _ (atan2 (y - ys) (x - xs)) zs zr etas zetas PM Hz HS HP (eq_sym L) (ly_m _ _ _ _ _ _ LY _ (lay_le z N zs)) HZ (fun _ B => HD B)) as (W' & EW' & IFF).
      rewrite EW in EW'. assert (W = W') by congruence. subst W'. now apply IFF.
    + subst T. destruct (pair_class a b HP) as (ab & CA & _). destruct (code_class _ ab _ _ CA (ex_intro _ a (ex_intro _ b (conj HP eq_refl)))) as [KA VC].
      apply (direct_other (10 * a + b) eH eV zH zV z N _ _ zs zr V ab _ _ PM CA VC); [congruence|exact HV].
Qed.

Lemma fs_maxwell_any : forall rdt etas zetas b xs ys zs eH eV zH zV, homog_medium eH eV zH zV -> fs_data rdt etas zetas b eH zH -> (1 <= b <= 6)%Z ->
  exists E H : Z -> R -> R -> R -> C,
    (forall a x y z, (1 <= a <= 3)%Z -> off_axis xs ys x y ->
       fs_xyz rdt etas zetas a b xs ys zs eH eV zH zV x y z = Ok (E a x y z) /\ fs_xyz rdt etas zetas (a + 3) b xs ys zs eH eV zH zV x y z = Ok (H a x y z)) /\
    (forall x y z, off_axis xs ys x y -> maxwell eH eV zH zV E H x y z).
Proof.
  intros rdt etas zetas b xs ys zs eH eV zH zV HM [HZ HD] Hb. destruct HM as [A1 A2 A3 A4 _]. pose proof (re_pos_quad1 _ A1) as Q1. pose proof (re_pos_quad1 _ A2) as Q2.
  destruct (Z_lt_le_dec 3 b) as [B|B].
  - destruct (HD B) as (-> & D1 & D2 & D3). apply fs_maxwell_magnetic; try assumption. lia.
  - apply fs_maxwell_electric; try assumption. lia.
Qed.

Theorem total_maxwell : forall rdt etas zetas eH eV zH zV z N b s xs ys zs, layered eH eV zH zV z N -> (1 <= b <= 6)%Z -> in_layer z N s zs ->
  fs_data rdt etas zetas b (eH s) (zH s) ->
  exists E H : Z -> R -> R -> R -> C,
    (forall a x y zr, (1 <= a <= 3)%Z -> off_axis xs ys x y ->
       lay_total rdt etas zetas eH eV zH zV z N a b xs ys zs x y zr (E a x y zr) /\ lay_total rdt etas zetas eH eV zH zV z N (a + 3) b xs ys zs x y zr (H a x y zr)) /\
    (forall k x y zr, off_axis xs ys x y -> in_layer z N k zr -> maxwell (eH k) (eV k) (zH k) (zV k) E H x y zr).
Proof.
  intros rdt etas zetas eH eV zH zV z N b s xs ys zs LY Hb ZS FD.
  pose proof (ly_z _ _ _ _ _ _ LY) as HZ. pose proof (lay_in z N HZ s zs ZS) as LS.
  destruct (fs_maxwell_any rdt etas zetas b xs ys zs _ _ _ _ (ly_m _ _ _ _ _ _ LY s (proj1 ZS)) FD Hb) as (EF & HF & VF & MF).
  set (ER := fun a x y zr => lay_fun eH eV zH zV z N true a b xs ys zs x y zr). set (HR := fun a x y zr => lay_fun eH eV zH zV z N true (a + 3) b xs ys zs x y zr).
  set (E := fun a x y zr => ER a x y zr + (if (lay z N zr =? s)%nat then EF a x y zr else RtoC 0)). set (H := fun a x y zr => HR a x y zr + (if (lay z N zr =? s)%nat then HF a x y zr else RtoC 0)).
  assert (VR : forall a x y zr, (1 <= a <= 3)%Z -> lay_xyz eH eV zH zV z N true a b xs ys zs x y zr (ER a x y zr) /\ lay_xyz eH eV zH zV z N true (a + 3) b xs ys zs x y zr (HR a x y zr)).
  { intros a x y zr Ha.
    assert (K : forall c, (1 <= c <= 6)%Z -> exists V, lay_xyz eH eV zH zV z N true c b xs ys zs x y zr V).
    { intros c Hc. destruct (Req_dec zr zs) as [->|NE]; [|apply lay_xyz_exists; assumption]. unfold lay_xyz. destruct (_ || _)%bool eqn:FP; [now exists (RtoC 0)|].
      apply (reflected_converges c b eH eV zH zV z N _ _ s); try assumption. now apply fs_pair_dec. }
    split; apply lay_fun_ok, K; lia. }
  assert (VT : forall a x y zr, (1 <= a <= 3)%Z -> off_axis xs ys x y ->
       lay_total rdt etas zetas eH eV zH zV z N a b xs ys zs x y zr (E a x y zr) /\ lay_total rdt etas zetas eH eV zH zV z N (a + 3) b xs ys zs x y zr (H a x y zr)).
  { intros a x y zr Ha HO. destruct (VR a x y zr Ha) as [V1 V2]. destruct (VF a x y zr Ha HO) as [F1 F2]. split; [exists (ER a x y zr)|exists (HR a x y zr)]; (split; [assumption|]); rewrite LS; unfold E, H; (destruct (Nat.eqb_spec (lay z N zr) s) as [L|L]; cbv zeta; [rewrite L; eauto|ring]). }
  exists E, H. split; [exact VT|]. intros k x y zr HO ZR.
  destruct (Req_dec zr zs) as [EQ|NE].
  - assert (k = s) as ->. { rewrite EQ in ZR. rewrite <- (lay_in z N HZ k zs ZR). exact LS. }
    destruct (in_near z N s zr ZR) as (e & He & NR).
    refine (maxwell_depth _ _ _ _ (fun a x y z => ER a x y z + EF a x y z) (fun a x y z => HR a x y z + HF a x y z) E H x y zr e He _ (maxwell_plus _ _ _ _ _ _ _ _ _ _ _ _ (MF x y zr HO))).
    + intros a x' y' z' Hz'. unfold E, H. rewrite (lay_in z N HZ s z' (NR z' (Rlt_le _ _ Hz'))), Nat.eqb_refl. split; reflexivity.
    + apply (reflected_maxwell_any eH eV zH zV z N b s xs ys zs); try assumption. intros a x' y' z' Ha _ _. now apply VR.
  - rewrite <- (lay_in z N HZ k zr ZR). apply (layered_maxwell_any eH eV zH zV z N b xs ys zs); try assumption.
    + intros a x' y' z' Ha HO' Hz'. destruct (VT a x' y' z' Ha HO') as [T1 T2]. rewrite <- LS in FD. split; (refine (total_value rdt etas zetas eH eV zH zV z N _ b xs ys zs x' y' z' _ LY _ Hb HO' (fun K => Hz' (eq_sym K)) FD _); [lia|assumption]).
    + assert (MON : forall i j, (1 <= i)%nat -> (i <= j <= N)%nat -> (z i <= z j)%R) by (intros; apply (z_incr z N HZ); assumption).
      intros i Hi ->. destruct ZR as (H1 & H2 & H3). destruct (le_lt_dec i k) as [L|L].
      * destruct H2 as [->|H2]; [lia|]. pose proof (MON i k ltac:(lia) ltac:(lia)). lra.
      * destruct H3 as [->|H3]; [lia|]. pose proof (MON (S k) i ltac:(lia) ltac:(lia)). lra.
Qed.

Theorem reflected_maxwell : forall eH eV zH zV z N b s xs ys zs, layered eH eV zH zV z N -> (1 <= b <= 6)%Z -> in_layer z N s zs ->
  exists E H : Z -> R -> R -> R -> C,
    (forall a x y zr, (1 <= a <= 3)%Z -> in_layer z N s zr ->
       lay_xyz eH eV zH zV z N true a b xs ys zs x y zr (E a x y zr) /\ lay_xyz eH eV zH zV z N true (a + 3) b xs ys zs x y zr (H a x y zr)) /\
    (forall x y zr, off_axis xs ys x y -> in_layer z N s zr -> maxwell (eH s) (eV s) (zH s) (zV s) E H x y zr).
Proof.
  intros eH eV zH zV z N b s xs ys zs LY Hb ZS.
  exists (fun a x y zr => lay_fun eH eV zH zV z N true a b xs ys zs x y zr), (fun a x y zr => lay_fun eH eV zH zV z N true (a + 3) b xs ys zs x y zr).
  assert (V : forall a x y zr, (1 <= a <= 3)%Z -> in_layer z N s zr -> lay_xyz eH eV zH zV z N true a b xs ys zs x y zr (lay_fun eH eV zH zV z N true a b xs ys zs x y zr) /\ lay_xyz eH eV zH zV z N true (a + 3) b xs ys zs x y zr (lay_fun eH eV zH zV z N true (a + 3) b xs ys zs x y zr)).
  { intros a x y zr Ha ZR.
    assert (K : forall c, (1 <= c <= 6)%Z -> exists V, lay_xyz eH eV zH zV z N true c b xs ys zs x y zr V).
    { intros c Hc. unfold lay_xyz. destruct (_ || _)%bool eqn:FP; [now exists (RtoC 0)|]. apply (reflected_converges c b eH eV zH zV z N _ _ s); try assumption. now apply fs_pair_dec. }
    split; apply lay_fun_ok, K; lia. }
  split; [exact V|]. apply (reflected_maxwell_any eH eV zH zV z N b s xs ys zs); try assumption. intros a x y zr Ha _ ZR. now apply V.
Qed.
