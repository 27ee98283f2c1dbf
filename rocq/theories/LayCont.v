(** Continuity of the fields of a layered model across its interfaces. *)

From Coq Require Import Reals ZArith List Bool Lia Lra Psatz QArith.
From Coquelicot Require Import Coquelicot.
From Verif Require Import PyBase CBase Kernel KernelSpec KernelPhys KernelClosed KernelPassive KernelMain KernelBVP Utils UtilsAb ODE Bessel KernelBessel KernelThm KernelThm2 KernelFinal FullspaceThm FullspaceCurl FullspaceField FullspaceEM Cint Sommer Sommer2 Homog HomogThm LayAsym LayConv LayWave LayField LayMaxwell LayCode LayVal LayEM.
Import ListNotations.
Local Open Scope R_scope.
Local Open Scope C_scope.

Lemma Cmod_parts : forall (a : C) M, (Rabs (fst a) <= M)%R -> (Rabs (snd a) <= M)%R -> (Cmod a <= 2 * M)%R.
Proof.
  intros a M H1 H2. pose proof (Rabs_pos (fst a)). unfold Cmod. rewrite <- (sqrt_Rsqr (2 * M)) by lra. apply sqrt_le_1_alt. unfold Rsqr.
  assert (B : forall x, (Rabs x <= M)%R -> (x ^ 2 <= M * M)%R). { intros x Hx. cbn [pow]. rewrite Rmult_1_r. rewrite <- (Rabs_pos_eq (x * x)) by apply Rle_0_sqr. rewrite Rabs_mult. pose proof (Rabs_pos x). nra. }
  pose proof (B _ H1). pose proof (B _ H2). nra.
Qed.
Lemma improper_bound : forall G V K, improper G V -> (forall T : R, (0 <= T)%R -> (Cmod (CI G 0 T) <= K)%R) -> (Cmod V <= 2 * K)%R.
Proof.
  intros G V K [_ [L1 L2]] B.
  assert (P : forall (f : R -> R) l, filterlim f (Rbar_locally p_infty) (locally l) -> (forall T : R, (0 <= T)%R -> (Rabs (f T) <= K)%R) -> (Rabs l <= K)%R).
  { intros f l L Bf. apply (filterlim_le (F := Rbar_locally p_infty) (fun T => Rabs (f T)) (fun _ => K) (Rabs l) K).
    - exists 0%R. intros T HT. apply Bf. lra.
    - apply (filterlim_comp _ _ _ f Rabs _ (locally l)); [exact L|]. apply continuous_Rabs.
    - apply filterlim_const. }
  apply Cmod_parts.
  - apply (P _ _ L1). intros T HT. eapply Rle_trans; [|exact (B T HT)]. apply (fst_le_Cmod (CI G 0 T)).
  - apply (P _ _ L2). intros T HT. eapply Rle_trans; [|exact (B T HT)]. apply (snd_le_Cmod (CI G 0 T)).
Qed.
Lemma improper_lip : forall (F0 F1 : R -> R -> C) (f : R -> C) (c za zb : R), (0 < c)%R ->
  let D := fun u => (za <= u <= zb)%R in
  fam D c F0 -> fam D c F1 -> (forall u lam, is_deriveC (fun w => F0 w lam) u (F1 u lam)) -> (forall u, D u -> improper (F0 u) (f u)) ->
  exists K, (0 <= K)%R /\ forall u u', D u -> D u' -> (Cmod (f u' - f u)%C <= K * Rabs (u' - u))%R.
Proof.
  intros F0 F1 f c za zb Hc D [C0 _] [_ (M & n & HM & B1)] HD HI.
  destruct (eb_tail2 c _ (bnd_eb (2 * M) n c ltac:(lra)) Hc) as (K & HK & T2). exists (2 * K)%R. split; [lra|]. intros u u' Hu Hu'.
  destruct (Req_dec u' u) as [->|Ne]; [replace (f u - f u) with (RtoC 0) by ring; rewrite Cmod_0, Rminus_eq_0, Rabs_R0; lra|].
  assert (Hd : (0 < Rabs (u' - u))%R) by (apply Rabs_pos_lt; lra). set (d := Rabs (u' - u)) in *.
  assert (Cc : forall v, D v -> cC (F0 v)) by (intros v Hv; apply (c2_cC F0); intros; now apply C0).
  pose proof (improper_scal (RtoC (/ d)) _ _ (improper_sub _ _ _ _ (HI u' Hu') (HI u Hu))) as I.
  assert (E : (Cmod (f u' - f u)%C = d * Cmod (RtoC (/ d) * (f u' - f u))%C)%R).
  { rewrite Cmod_mult, Cmod_R, Rabs_pos_eq by (left; now apply Rinv_0_lt_compat). field. lra. }
  rewrite E. rewrite (Rmult_comm (2 * K)). apply Rmult_le_compat_l; [lra|]. apply (improper_bound _ _ _ I). intros T HT.
  eapply Rle_trans; [apply (T2 (fun x => RtoC (/ d) * (F0 u' x - F0 u x)))|].
  - apply cC_mult; [apply cC_const|apply cC_minus; now apply Cc].
  - intros lam Hl. rewrite Cmod_mult, Cmod_R, Rabs_pos_eq by (left; now apply Rinv_0_lt_compat). rewrite Cmod_R, (Rabs_pos_eq (bnd (2 * M) n c lam)).
    2:{ unfold bnd. apply Rmult_le_pos; [apply Rmult_le_pos; [lra|apply pow_le; lra]|left; apply exp_pos]. }
    assert (Q : forall p : C -> R, (forall a : C, (Rabs (p a) <= Cmod a)%R) -> (forall v, is_derive (fun w => p (F0 w lam)) v (p (F1 v lam))) -> (Rabs (p (F0 u' lam) - p (F0 u lam)) <= bnd M n c lam * d)%R).
    { intros p Hp Dp. apply (mvt_abs (fun w => p (F0 w lam)) (fun w => p (F1 w lam)) u u' (bnd M n c lam)); [intros; apply Dp|]. intros w Hw. eapply Rle_trans; [apply Hp|]. apply B1; [|exact Hl].
      unfold D in *. revert Hw. unfold Rmin, Rmax. destruct (Rle_dec u u'); lra. }
    assert (Z : (Cmod (F0 u' lam - F0 u lam)%C <= 2 * (bnd M n c lam * d))%R).
    { apply Cmod_parts; [apply (Q fst); [apply fst_le_Cmod|intros v; apply (HD v lam)]|apply (Q snd); [apply snd_le_Cmod|intros v; apply (HD v lam)]]. }
    apply (Rmult_le_reg_l d); [exact Hd|]. rewrite <- Rmult_assoc, Rinv_r, Rmult_1_l by lra. eapply Rle_trans; [exact Z|]. unfold bnd. lra.
  - lra.
  - rewrite Rmult_0_r, Ropp_0, exp_0. lra.
Qed.
Lemma lip_lim : forall (f : R -> C) x a b K, (a <= x <= b)%R -> (forall u, (a <= u <= b)%R -> (Cmod (f u - f x)%C <= K * Rabs (u - x))%R) -> (0 <= K)%R ->
  ((x < b)%R -> limC f (at_right x) (f x)) /\ ((a < x)%R -> limC f (at_left x) (f x)).
Proof.
  intros f x a b K Hx HL HK.
  assert (P : forall (p : C -> R), (forall c d : C, (p (Cminus c d) = p c - p d)%R) -> (forall a : C, (Rabs (p a) <= Cmod a)%R) -> forall eps : posreal, exists d : posreal, forall u, (a <= u <= b)%R -> (Rabs (u - x) < d)%R -> (Rabs (p (f u) - p (f x)) < eps)%R).
  { intros p Hp Hc eps. assert (Hd : (0 < eps / (K + 1))%R) by (apply Rdiv_lt_0_compat; [apply cond_pos|lra]). exists (mkposreal _ Hd). intros u Hu Hd'. cbn in Hd'. rewrite <- Hp. eapply Rle_lt_trans; [apply Hc|]. eapply Rle_lt_trans; [apply HL, Hu|].
    apply Rle_lt_trans with ((K + 1) * Rabs (u - x))%R; [pose proof (Rabs_pos (u - x)); nra|]. apply (Rmult_lt_compat_l (K + 1)) in Hd'; [|lra]. replace ((K + 1) * (eps / (K + 1)))%R with (pos eps) in Hd' by (field; lra). exact Hd'. }
  assert (Q : forall p : C -> R, (forall c d : C, (p (Cminus c d) = p c - p d)%R) -> (forall a : C, (Rabs (p a) <= Cmod a)%R) -> ((x < b)%R -> filterlim (fun u => p (f u)) (at_right x) (locally (p (f x)))) /\ ((a < x)%R -> filterlim (fun u => p (f u)) (at_left x) (locally (p (f x))))).
  { intros p Hp Hc. split; intros HB; apply filterlim_locally; intros eps; destruct (P p Hp Hc eps) as [d Hd].
    - assert (Hm : (0 < Rmin d (b - x))%R) by (apply Rmin_case; [apply cond_pos|lra]). exists (mkposreal _ Hm). intros u Bu Gu. unfold ball in Bu; cbn in Bu. unfold AbsRing_ball, abs, minus, plus, opp in Bu; cbn in Bu. fold (Rminus u x) in Bu.
      pose proof (Rmin_l d (b - x)). pose proof (Rmin_r d (b - x)). change (Rabs (p (f u) - p (f x)) < eps)%R. apply Hd; [apply Rabs_def2 in Bu; lra|lra].
    - assert (Hm : (0 < Rmin d (x - a))%R) by (apply Rmin_case; [apply cond_pos|lra]). exists (mkposreal _ Hm). intros u Bu Gu. unfold ball in Bu; cbn in Bu. unfold AbsRing_ball, abs, minus, plus, opp in Bu; cbn in Bu. fold (Rminus u x) in Bu.
      pose proof (Rmin_l d (x - a)). pose proof (Rmin_r d (x - a)). change (Rabs (p (f u) - p (f x)) < eps)%R. apply Hd; [apply Rabs_def2 in Bu; lra|lra]. }
  destruct (Q fst (fun a b => eq_refl) fst_le_Cmod) as [A1 A2]. destruct (Q snd (fun a b => eq_refl) snd_le_Cmod) as [B1 B2]. split; intros HB; split; auto.
Qed.

Section Side.
Variables (gm ge : R -> C) (za zb c : R).
Hypothesis Cm : eb 0 gm.
Hypothesis Ce : eb 0 ge.
Hypothesis Pm : forall lam : R, (0 <= lam)%R -> (0 <= fst (gm lam))%R.
Hypothesis Pe : forall lam : R, (0 <= lam)%R -> (0 <= fst (ge lam))%R.
Hypothesis Hc : (0 < c)%R.
Lemma fld_lip : forall A B u A' B' u' (f : R -> C) x y, eb c A -> eb c B -> eb c A' -> eb c B' -> trg u -> trg u' ->
  (forall w, (za <= w <= zb)%R -> improper (fld gm ge za zb A B u A' B' u' x y w) (f w)) ->
  exists K, (0 <= K)%R /\ forall w w', (za <= w <= zb)%R -> (za <= w' <= zb)%R -> (Cmod (f w' - f w)%C <= K * Rabs (w' - w))%R.
Proof using Cm Ce Pm Pe Hc.
  intros A B u A' B' u' f x y HA HB HA' HB' Hu Hu' HI.
  assert (G1 : forall g h, eb 0 g -> eb c h -> eb c (fun l => - g l * h l)) by (intros g h Hg Hh; apply (eb_mult0 c (fun l => - g l) h); [now apply eb_opp|exact Hh]).
  assert (G2 : forall g h, eb 0 g -> eb c h -> eb c (fun l => g l * h l)) by (intros g h Hg Hh; now apply (eb_mult0 c g h)).
  apply (improper_lip (fun w lam => fld gm ge za zb A B u A' B' u' x y w lam) (fun w lam => fld gm ge za zb (fun l => - gm l * A l) (fun l => gm l * B l) u (fun l => - ge l * A' l) (fun l => ge l * B' l) u' x y w lam) f c za zb Hc).
  - unfold fld. apply fam_plus; [apply (term_fz gm za zb c Cm Pm)|apply (term_fz ge za zb c Ce Pe)]; auto.
  - unfold fld. apply fam_plus; [apply (term_fz gm za zb c Cm Pm)|apply (term_fz ge za zb c Ce Pe)]; auto.
  - intros w lam. unfold fld. apply is_deriveC_plus; apply term_dz.
  - exact HI.
Qed.
Lemma eI_fld : forall eH eV A B A' B' kp tt a, eb c A -> eb c B -> eb c A' -> eb c B' -> trg kp -> trg tt ->
  exists A1 B1 u1 A2 B2 u2, eI eH eV gm ge za zb A B A' B' kp tt a = fld gm ge za zb A1 B1 u1 A2 B2 u2 /\ eb c A1 /\ eb c B1 /\ eb c A2 /\ eb c B2 /\ trg u1 /\ trg u2.
Proof using Cm.
  intros eH eV A B A' B' kp tt a HA HB HA' HB' Hk Ht. unfold eI. destruct (a =? 3)%Z; do 6 eexists; (split; [reflexivity|]).
  - split; [apply (eb_scal c (- / eV) (il A)), eb_il, HA|]. split; [apply (eb_scal c (- / eV) (il B)), eb_il, HB|]. split; [apply eb_zero|split; [apply eb_zero|split; assumption]].
  - split; [apply (eb_scal c (- / eH) (fun l => gm l * A l)), (eb_mult0 c gm A); assumption|]. split; [apply (eb_scal c (/ eH) (fun l => gm l * B l)), (eb_mult0 c gm B); assumption|].
    split; [now apply eb_opp|]. split; [now apply eb_opp|]. split; [apply (trg_mult (kh a) kp); [apply trg_kh|exact Hk]|apply (trg_mult (th a) tt); [apply trg_th|exact Ht]].
Qed.
Lemma hI_fld : forall zH zV A B A' B' kp tt a, eb c A -> eb c B -> eb c A' -> eb c B' -> trg kp -> trg tt ->
  exists A1 B1 u1 A2 B2 u2, hI zH zV gm ge za zb A B A' B' kp tt a = fld gm ge za zb A1 B1 u1 A2 B2 u2 /\ eb c A1 /\ eb c B1 /\ eb c A2 /\ eb c B2 /\ trg u1 /\ trg u2.
Proof using Ce.
  intros zH zV A B A' B' kp tt a HA HB HA' HB' Hk Ht. unfold hI. destruct (a =? 3)%Z; do 6 eexists; (split; [reflexivity|]).
  - split; [apply eb_zero|split; [apply eb_zero|]]. split; [apply (eb_scal c (/ zV) (il A')), eb_il, HA'|]. split; [apply (eb_scal c (/ zV) (il B')), eb_il, HB'|]. split; assumption.
  - split; [now apply eb_opp|]. split; [now apply eb_opp|]. split; [apply (eb_scal c (/ zH) (fun l => ge l * A' l)), (eb_mult0 c ge A'); assumption|]. split; [apply (eb_scal c (- / zH) (fun l => ge l * B' l)), (eb_mult0 c ge B'); assumption|].
    split; [apply (trg_mult (th a) kp); [apply trg_th|exact Hk]|apply (trg_mult (kh a) tt); [apply trg_kh|exact Ht]].
Qed.
End Side.

(** ** One closed interval of depths in one layer *)
Definition vint (eH eV zH zV : nat -> C) (z : nat -> R) (N : nat) (s k : nat) (a b : Z) (zs x y w lam : R) : C :=
  val (eV s) (zV s) (eV k) (zV k) (Tp eH eV zH z N s k zs w (pmTM b) 1 lam) (Tp eH eV zH z N s k zs w (pmTM b) (- (1)) lam)
      (Tp zH zV eH z N s k zs w (pmTE b) 1 lam) (Tp zH zV eH z N s k zs w (pmTE b) (- (1)) lam) a b lam (lam * x) (lam * y).

Section Iv.
Variables (eH eV zH zV : nat -> C) (z : nat -> R) (N : nat).
Hypothesis LY : layered eH eV zH zV z N.
Variables (s k : nat) (zs za zb : R).
Hypothesis IS : inlay z N s zs.
Hypothesis IA : inlay z N k za.
Hypothesis IB : inlay z N k zb.
Hypothesis Hab : (za <= zb)%R.
Hypothesis ZS : (zs < za)%R \/ (zb < zs)%R.

Lemma vint_lip : forall a b x y (f : R -> C), (1 <= a <= 6)%Z -> (forall w, (za <= w <= zb)%R -> improper (vint eH eV zH zV z N s k a b zs x y w) (f w)) ->
  exists K, (0 <= K)%R /\ forall w w', (za <= w <= zb)%R -> (za <= w' <= zb)%R -> (Cmod (f w' - f w)%C <= K * Rabs (w' - w))%R.
Proof using All.
  intros a b x y f Ha HI. destruct (rate2 _ _ _ _ _ _ LY) as (al & Hal & RM & RE). pose proof (ly_z _ _ _ _ _ _ LY) as HZ. pose proof (ly_passive _ _ _ _ _ _ LY) as PM.
  pose proof (MTM _ _ _ _ _ _ LY) as ML1. pose proof (MTE _ _ _ _ _ _ LY) as ML2. pose proof (RTM _ _ _ _ _ _ LY) as RG1. pose proof (RTE _ _ _ _ _ _ LY) as RG2.
  assert (Hs : (s <= N)%nat) by apply IS. assert (Hk : (k <= N)%nat) by apply IA.
  assert (EE : exists e, (0 < e)%R /\ (e <= Rabs (zs - za))%R /\ (e <= Rabs (zs - zb))%R).
  { exists (Rmin (Rabs (zs - za)) (Rabs (zs - zb))). split; [apply Rmin_case; apply Rabs_pos_lt; lra|]. split; [apply Rmin_l|apply Rmin_r]. }
  destruct EE as (e & He & DA & DB). assert (Hce : (0 < al * e)%R) by now apply Rmult_lt_0_compat.
  pose proof (proj1 (eb_Adu eH eV zH z N ML1 HZ RG1 al Hal RM (alf (eV s) b) (pmTM b) s k zs za e (eb_alf _ _) IS IA DA)) as BA.
  pose proof (proj2 (eb_Adu eH eV zH z N ML1 HZ RG1 al Hal RM (alf (eV s) b) (pmTM b) s k zs zb e (eb_alf _ _) IS IB DB)) as BB.
  pose proof (proj1 (eb_Adu zH zV eH z N ML2 HZ RG2 al Hal RE (bet (zV s) b) (pmTE b) s k zs za e (eb_bet _ _) IS IA DA)) as BA'.
  pose proof (proj2 (eb_Adu zH zV eH z N ML2 HZ RG2 al Hal RE (bet (zV s) b) (pmTE b) s k zs zb e (eb_bet _ _) IS IB DB)) as BB'.
  assert (Cm : eb 0 (fun l => gam eH eV zH l k)) by (apply (eb_lg (eH k) (eV k) (zH k)); now apply ML1).
  assert (Ce : eb 0 (fun l => gam zH zV eH l k)) by (apply (eb_lg (zH k) (zV k) (eH k)); now apply ML2).
  assert (Pm : forall lam : R, (0 <= lam)%R -> (0 <= fst (gam eH eV zH lam k))%R) by (intros; apply Csqrt_Re_ge_0).
  assert (Pe : forall lam : R, (0 <= lam)%R -> (0 <= fst (gam zH zV eH lam k))%R) by (intros; apply Csqrt_Re_ge_0).
  assert (VE : forall w, (za <= w <= zb)%R -> forall a0 lam, (1 <= a0 <= 3)%Z -> _) by exact (fun w W' a0 lam =>
    val_eI (eH k) eV (zH k) zV b s k _ _ za zb _ _ _ _ _ _ _ _ x y w
      (fun lam => proj1 (Tp_ud eH eV zH z N (alf (eV s) b) (pmTM b) s k zs za zb w lam (pm1_TM b) Hs Hk Hab (fun _ => ZS) W')) (fun lam => proj2 (Tp_ud eH eV zH z N (alf (eV s) b) (pmTM b) s k zs za zb w lam (pm1_TM b) Hs Hk Hab (fun _ => ZS) W'))
      (fun lam => proj1 (Tp_ud zH zV eH z N (bet (zV s) b) (pmTE b) s k zs za zb w lam (pm1_TE b) Hs Hk Hab (fun _ => ZS) W')) (fun lam => proj2 (Tp_ud zH zV eH z N (bet (zV s) b) (pmTE b) s k zs za zb w lam (pm1_TE b) Hs Hk Hab (fun _ => ZS) W')) a0 lam).
  destruct (Z_le_gt_dec a 3) as [L|L].
  - destruct (eI_fld (fun l => gam eH eV zH l k) (fun l => gam zH zV eH l k) za zb (al * e) Cm (eH k) (eV k) _ _ _ _ (kap b) (the b) a BA BB BA' BB' (trg_kap b) (trg_the b)) as (A1 & B1 & u1 & A2 & B2 & u2 & EF & H1 & H2 & H3 & H4 & H5 & H6).
    apply (fld_lip (fun l => gam eH eV zH l k) (fun l => gam zH zV eH l k) za zb (al * e) Cm Ce Pm Pe Hce A1 B1 u1 A2 B2 u2 f x y H1 H2 H3 H4 H5 H6).
    intros w W'. rewrite <- EF. refine (improper_ext _ _ _ _ (HI w W')). intros lam _. exact (proj1 (VE w W' a lam ltac:(lia))).
  - destruct (hI_fld (fun l => gam eH eV zH l k) (fun l => gam zH zV eH l k) za zb (al * e) Ce (zH k) (zV k) _ _ _ _ (kap b) (the b) (a - 3) BA BB BA' BB' (trg_kap b) (trg_the b)) as (A1 & B1 & u1 & A2 & B2 & u2 & EF & H1 & H2 & H3 & H4 & H5 & H6).
    apply (fld_lip (fun l => gam eH eV zH l k) (fun l => gam zH zV eH l k) za zb (al * e) Cm Ce Pm Pe Hce A1 B1 u1 A2 B2 u2 f x y H1 H2 H3 H4 H5 H6).
    intros w W'. rewrite <- EF. refine (improper_ext _ _ _ _ (HI w W')). intros lam _. pose proof (proj2 (VE w W' (a - 3)%Z lam ltac:(lia))) as X. replace (a - 3 + 3)%Z with a in X by ring. exact X.
Qed.
End Iv.

(** ** The layers on both sides of a depth *)
Lemma lay_left : forall z N x, exists e, (0 < e)%R /\ forall w, (x - e <= w <= x)%R -> lay z N w = lay z N x.
Proof.
  intros z N x. induction N as [|N IH].
  - exists 1%R. split; [lra|reflexivity].
  - destruct IH as (e & He & E). cbn [lay]. destruct (Rlt_dec (z (S N)) x) as [L|L].
    + exists (Rmin e ((x - z (S N)) / 2)). split; [apply Rmin_case; lra|]. intros w Hw. pose proof (Rmin_r e ((x - z (S N)) / 2)). destruct (Rlt_dec (z (S N)) w); [reflexivity|lra].
    + exists e. split; [exact He|]. intros w Hw. destruct (Rlt_dec (z (S N)) w); [lra|now apply E].
Qed.
Lemma lay_rght : forall z N x, increasing z N -> exists e k, (0 < e)%R /\ (forall w, (x < w <= x + e)%R -> lay z N w = k) /\ inlay z N k x /\
  (k = lay z N x \/ exists j, (j < N)%nat /\ k = S j /\ lay z N x = j /\ x = z (S j)).
Proof.
  intros z N x HZ.
  assert (P : forall n, (n <= N)%nat -> exists e k, (0 < e)%R /\ (forall w, (x < w <= x + e)%R -> lay z n w = k) /\ (k <= n)%nat /\ (k = 0%nat \/ (z k <= x)%R) /\ (forall j, (k < j <= n)%nat -> (x < z j)%R)).
  { induction n as [|n IH]; intros Hn.
    - exists 1%R, 0%nat. split; [lra|]. split; [reflexivity|]. split; [lia|]. split; [now left|]. intros; lia.
    - destruct (IH ltac:(lia)) as (e & k & He & E & K1 & K2 & K3). destruct (Rle_dec (z (S n)) x) as [L|L].
      + exists 1%R, (S n). split; [lra|]. split; [intros w Hw; cbn [lay]; destruct (Rlt_dec (z (S n)) w); [reflexivity|lra]|]. split; [lia|]. split; [now right|]. intros; lia.
      + exists (Rmin e ((z (S n) - x) / 2)), k. split; [apply Rmin_case; lra|]. pose proof (Rmin_l e ((z (S n) - x) / 2)). pose proof (Rmin_r e ((z (S n) - x) / 2)).
        split; [intros w Hw; cbn [lay]; destruct (Rlt_dec (z (S n)) w); [lra|apply E; lra]|]. split; [lia|]. split; [exact K2|]. intros j Hj. destruct (Nat.eq_dec j (S n)) as [->|]; [lra|apply K3; lia]. }
  destruct (P N (le_n N)) as (e & k & He & E & K1 & K2 & K3). exists e, k. split; [exact He|]. split; [exact E|]. split.
  - split; [exact K1|]. split; [intros Hk; destruct K2; [lia|assumption]|]. intros Hk. left. apply K3. lia.
  - assert (R' : k = N \/ (x <= z (S k))%R) by (destruct (Nat.eq_dec k N); [now left|right; left; apply K3; lia]).
    destruct k as [|j]; [left; symmetry; apply (lay_in' z N HZ); try lia; auto|].
    destruct K2 as [K2|K2]; [discriminate|]. destruct K2 as [K2|K2].
    + left. symmetry. apply (lay_in' z N HZ); try lia; auto.
    + right. exists j. rewrite <- K2. split; [lia|]. split; [reflexivity|]. split; [apply (lay_z z N HZ); lia|reflexivity].
Qed.

(** ** Continuity *)
Definition nrm (eV zV : nat -> C) (a : Z) (k : nat) : C := if (a =? 3)%Z then eV k else if (a =? 6)%Z then zV k else RtoC 1.

Section Cont.
Variables (eH eV zH zV : nat -> C) (z : nat -> R) (N : nat).
Hypothesis LY : layered eH eV zH zV z N.

Lemma vint_lay : forall a b xs ys zs x y zr V, (1 <= a <= 6)%Z -> (1 <= b <= 6)%Z -> off_axis xs ys x y -> lay_xyz eH eV zH zV z N false a b xs ys zs x y zr V ->
  improper (vint eH eV zH zV z N (lay z N zs) (lay z N zr) a b zs (x - xs) (y - ys) zr) V.
Proof using LY.
  intros a b xs ys zs x y zr V Ha Hb HO HV. unfold lay_xyz in HV. destruct (_ || _)%bool eqn:FP.
  - subst V. refine (improper_ext _ _ _ _ improper_0). intros lam _.
    apply orb_true_iff in FP. destruct FP as [F|F]; apply andb_true_iff in F; destruct F as [F1 F2]; apply Z.eqb_eq in F1, F2; subst; unfold vint, val, alf, bet; cbn [Z.eqb Z.leb Z.compare Pos.compare Pos.compare_cont Pos.eqb]; cbv zeta; unfold Cdiv; ring.
  - exact (lay_val eH eV zH zV z N LY a b xs ys zs x y zr V (fs_pair_dec a b Ha Hb FP) HO HV).
Qed.

Lemma Tp_iface : forall h v q, (forall lam, regular h (gam h v q lam) z N) -> (forall k, (k <= N)%nat -> h k <> 0) -> forall s zs j pm sg lam, inlay z N s zs -> (j < N)%nat -> z (S j) <> zs -> pm1 pm -> pm1 sg ->
  Tp h v q z N s j zs (z (S j)) pm sg lam = Tp h v q z N s (S j) zs (z (S j)) pm sg lam.
Proof.
  intros h v q RG Hh s zs j pm sg lam (I1 & I2 & I3) Hj Hz Hp Hg. unfold Tp.
  assert (X : forall a b c : C, a * b * c = a * (b * c)) by (intros; ring). rewrite !X. f_equal.
  apply (G_mode_continuous h (gam h v q lam) z N (RG lam)); try assumption.
  - intros ->. specialize (I3 ltac:(lia)). lra.
  - intros ->. specialize (I2 ltac:(lia)). lra.
Qed.

Lemma vint_iface : forall a b zs j x y lam, (1 <= a <= 6)%Z -> (j < N)%nat -> z (S j) <> zs ->
  nrm eV zV a (S j) * vint eH eV zH zV z N (lay z N zs) (S j) a b zs x y (z (S j)) lam = nrm eV zV a j * vint eH eV zH zV z N (lay z N zs) j a b zs x y (z (S j)) lam.
Proof using LY.
  intros a b zs j x y lam Ha Hj Hz. pose proof (ly_z _ _ _ _ _ _ LY) as HZ. pose proof (lay_inlay z N zs HZ) as IS.
  pose proof (passive_model_ok _ _ _ _ _ _ 0 (ly_passive _ _ _ _ _ _ LY)) as OK.
  assert (P1 : pm1 (RtoC 1)) by now left. assert (P2 : pm1 (- (1))) by now right.
  unfold vint. rewrite !(Tp_iface eH eV zH (RTM _ _ _ _ _ _ LY) (mo_eH _ _ _ _ _ _ _ OK) (lay z N zs) zs j) by (try assumption; apply pm1_TM).
  rewrite !(Tp_iface zH zV eH (RTE _ _ _ _ _ _ LY) (mo_zH _ _ _ _ _ _ _ OK) (lay z N zs) zs j) by (try assumption; apply pm1_TE).
  pose proof (mo_eV _ _ _ _ _ _ _ OK j ltac:(lia)). pose proof (mo_eV _ _ _ _ _ _ _ OK (S j) ltac:(lia)). pose proof (mo_zV _ _ _ _ _ _ _ OK j ltac:(lia)). pose proof (mo_zV _ _ _ _ _ _ _ OK (S j) ltac:(lia)).
  unfold nrm, val. cbv zeta. destruct (Z.eqb_spec a 3) as [->|]; [cbn [Z.leb Z.compare Pos.compare Pos.compare_cont]; field; split; assumption|].
  destruct (Z.eqb_spec a 6) as [->|]; [cbn [Z.leb Z.compare Pos.compare Pos.compare_cont]; field; split; assumption|]. destruct (a <=? 3)%Z; reflexivity.
Qed.

Theorem layered_continuous : forall a b xs ys zs x y (F : R -> C), (1 <= a <= 6)%Z -> (1 <= b <= 6)%Z -> off_axis xs ys x y ->
  (forall w, w <> zs -> lay_xyz eH eV zH zV z N false a b xs ys zs x y w (F w)) ->
  forall zr, zr <> zs -> contC (fun w => nrm eV zV a (lay z N w) * F w) zr.
Proof using LY.
  intros a b xs ys zs x y F Ha Hb HO HF zr Hz. pose proof (ly_z _ _ _ _ _ _ LY) as HZ. pose proof (lay_inlay z N zs HZ) as IS.
  pose proof (passive_model_ok _ _ _ _ _ _ 0 (ly_passive _ _ _ _ _ _ LY)) as OK.
  assert (NN : forall k, (k <= N)%nat -> nrm eV zV a k <> RtoC 0) by (intros k Hk; unfold nrm; destruct (a =? 3)%Z; [now apply OK|destruct (a =? 6)%Z; [now apply OK|apply one_nz]]).
  assert (VI : forall w, w <> zs -> improper (vint eH eV zH zV z N (lay z N zs) (lay z N w) a b zs (x - xs) (y - ys) w) (F w)) by (intros; apply vint_lay; auto).
  pose proof (Rabs_pos_lt (zr - zs) ltac:(lra)) as Hd.
  apply contC_lr.
  - destruct (lay_rght z N zr HZ) as (e1 & kr & He1 & E1 & IK & CS). set (e := Rmin e1 (Rabs (zr - zs) / 2)).
    assert (He : (0 < e)%R) by (apply Rmin_case; lra). pose proof (Rmin_l e1 (Rabs (zr - zs) / 2)) as L1. pose proof (Rmin_r e1 (Rabs (zr - zs) / 2)) as L2. fold e in L1, L2.
    assert (ZS : (zs < zr)%R \/ (zr + e < zs)%R) by (revert L2 Hd; unfold Rabs; destruct (Rcase_abs (zr - zs)); [right|left]; lra).
    assert (Hkr : (kr <= N)%nat) by apply IK.
    set (F' := fun w => if Req_EM_T w zr then nrm eV zV a (lay z N zr) / nrm eV zV a kr * F zr else F w).
    assert (VI' : forall w, (zr <= w <= zr + e)%R -> improper (vint eH eV zH zV z N (lay z N zs) kr a b zs (x - xs) (y - ys) w) (F' w)).
    { intros w Hw. unfold F'. destruct (Req_EM_T w zr) as [->|Ne].
      - refine (improper_ext _ _ _ _ (improper_scal (nrm eV zV a (lay z N zr) / nrm eV zV a kr) _ _ (VI zr Hz))). intros lam _.
        destruct CS as [->|(j & Hj & -> & LJ & EJ)]; [field; apply NN, lay_le|]. rewrite LJ.
        pose proof (vint_iface a b zs j (x - xs) (y - ys) lam Ha Hj ltac:(congruence)) as VX. rewrite <- EJ in VX.
        pose proof (NN (S j) ltac:(lia)) as NZ. revert VX NZ. generalize (nrm eV zV a (S j)) (nrm eV zV a j) (vint eH eV zH zV z N (lay z N zs) (S j) a b zs (x - xs) (y - ys) zr lam) (vint eH eV zH zV z N (lay z N zs) j a b zs (x - xs) (y - ys) zr lam).
        intros n1 n2 v1 v2 VX NZ. transitivity (n2 * v2 / n1); [rewrite <- VX; field; exact NZ|field; exact NZ].
      - rewrite <- (E1 w) by lra. apply VI. lra. }
    assert (IB : inlay z N kr (zr + e)) by (rewrite <- (E1 (zr + e)%R) by lra; now apply lay_inlay).
    destruct (vint_lip eH eV zH zV z N LY (lay z N zs) kr zs zr (zr + e) IS IK IB ltac:(lra) ZS a b (x - xs) (y - ys) F' Ha VI') as (K & HK & LP).
    assert (HL : limC F' (at_right zr) (F' zr)) by (apply (lip_lim F' zr zr (zr + e) K); [lra|intros u Hu; apply LP; lra|exact HK|lra]).
    apply (limC_scal (nrm eV zV a kr)) in HL.
    assert (EQ : nrm eV zV a kr * F' zr = nrm eV zV a (lay z N zr) * F zr) by (unfold F'; destruct (Req_EM_T zr zr) as [_|X]; [field; now apply NN|contradiction]).
    rewrite EQ in HL. refine (limC_ext_loc _ _ _ _ HL). assert (HH : (0 < e)%R) by exact He. exists (mkposreal e HH). intros w Bw Gw. unfold ball in Bw; cbn in Bw. unfold AbsRing_ball, abs, minus, plus, opp in Bw; cbn in Bw. fold (Rminus w zr) in Bw. apply Rabs_def2 in Bw.
    unfold F'. destruct (Req_EM_T w zr) as [->|_]; [lra|]. rewrite (E1 w) by lra. reflexivity.
  - destruct (lay_left z N zr) as (e1 & He1 & E1). set (e := Rmin e1 (Rabs (zr - zs) / 2)).
    assert (He : (0 < e)%R) by (apply Rmin_case; lra). pose proof (Rmin_l e1 (Rabs (zr - zs) / 2)) as L1. pose proof (Rmin_r e1 (Rabs (zr - zs) / 2)) as L2. fold e in L1, L2.
    assert (ZS : (zs < zr - e)%R \/ (zr < zs)%R) by (revert L2 Hd; unfold Rabs; destruct (Rcase_abs (zr - zs)); [right|left]; lra).
    assert (IA : inlay z N (lay z N zr) (zr - e)) by (rewrite <- (E1 (zr - e)%R) by lra; now apply lay_inlay).
    destruct (vint_lip eH eV zH zV z N LY (lay z N zs) (lay z N zr) zs (zr - e) zr IS IA (lay_inlay z N zr HZ) ltac:(lra) ZS a b (x - xs) (y - ys) F Ha) as (K & HK & LP).
    { intros w Hw. rewrite <- (E1 w) by lra. apply VI. lra. }
    assert (HL : limC F (at_left zr) (F zr)) by (apply (lip_lim F zr (zr - e) zr K); [lra|intros u Hu; apply LP; lra|exact HK|lra]).
    apply (limC_scal (nrm eV zV a (lay z N zr))) in HL. refine (limC_ext_loc _ _ _ _ HL). assert (HH : (0 < e)%R) by exact He. exists (mkposreal e HH). intros w Bw Gw. unfold ball in Bw; cbn in Bw. unfold AbsRing_ball, abs, minus, plus, opp in Bw; cbn in Bw. fold (Rminus w zr) in Bw. apply Rabs_def2 in Bw.
    rewrite (E1 w) by lra. reflexivity.
Qed.
End Cont.
