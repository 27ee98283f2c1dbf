(** The responses of a layered model as the layers below a given one are moved down, in space. *)

From Coq Require Import Reals ZArith QArith List Bool Lia Lra Psatz.
From Coquelicot Require Import Coquelicot.
From Verif Require Import PyBase CBase ODE Kernel KernelSpec KernelPhys KernelClosed KernelPassive KernelSym KernelSplit KernelMain KernelBVP Utils UtilsAb Bessel KernelBessel KernelThm KernelThm2 KernelThin KernelDeep KernelFinal
  FullspaceThm FullspaceField FullspaceEM Cint Hankel Sommer Homog HomogThm LayAsym LayConv LayWave LayField LayMaxwell LayCode LayVal LayEM LayDeep.
Import ListNotations.
Local Open Scope R_scope.
Local Open Scope C_scope.

(** ** The real part of the vertical wavenumber is bounded from below by a positive number *)
Lemma lg_min : forall h v q, mlayer h v q -> (forall x : R, (0 < fst (lg h v q x))%R) -> exists kap : R, (0 < kap)%R /\ forall x : R, (0 <= x)%R -> (kap <= fst (lg h v q x))%R.
Proof.
  intros h v q ML P. destruct (lg_low h v q ML) as (K & HK & L). assert (S : (0 < fst (ms h v))%R) by (apply ms_pos, ML).
  set (T := ((K + 1) / fst (ms h v))%R). assert (HT : (0 <= T)%R) by (apply Rlt_le, Rdiv_lt_0_compat; lra).
  destruct (continuity_ab_min (fun x => fst (lg h v q x)) 0 T HT) as (m & M1 & M2).
  { intros c _. apply continuity_pt_filterlim. apply (proj1 (lg_cont h v q ML c)). }
  exists (Rmin 1 (fst (lg h v q m))). split; [apply Rmin_glb_lt; [lra|apply P]|]. intros x Hx. destruct (Rle_lt_dec x T) as [Q|Q].
  - eapply Rle_trans; [apply Rmin_r|]. apply M1. lra.
  - eapply Rle_trans; [apply Rmin_l|]. specialize (L x Hx). assert (fst (ms h v) * T = K + 1)%R by (unfold T; field; lra). nra.
Qed.

(** ** Layered models with fewer or moved layers *)
Lemma layered_top : forall eH eV zH zV z N M, layered eH eV zH zV z M -> (N <= M)%nat -> layered eH eV zH zV z N.
Proof. intros eH eV zH zV z N M [A B] H. split; [intros k Hk; apply A; lia|]. intros k Hk. apply B. lia. Qed.
Lemma layered_deep0 : forall eH eV zH zV z N M D, layered eH eV zH zV z M -> (0 <= D)%R -> layered eH eV zH zV (deep N z D) M.
Proof.
  intros eH eV zH zV z N M D [A B] HD. split; [exact A|]. intros k Hk. specialize (B k Hk). unfold deep. destruct (Nat.leb_spec k N), (Nat.leb_spec (S k) N); first [lia|lra].
Qed.

Section Resp.
Variables (eH eV zH zV : nat -> C) (z : nat -> R) (N M : nat).
Hypothesis LY : layered eH eV zH zV z M.
Hypothesis HM : (N < M)%nat.
Let LN : layered eH eV zH zV z N. Proof. apply (layered_top _ _ _ _ _ N M LY). lia. Qed.
Lemma kap2 : exists kap : R, (0 < kap)%R /\ (forall x : R, (0 <= x)%R -> (kap <= fst (gam eH eV zH x N))%R) /\ (forall x : R, (0 <= x)%R -> (kap <= fst (gam zH zV eH x N))%R).
Proof using LY HM.
  destruct (lg_min (eH N) (eV N) (zH N)) as (k1 & P1 & B1).
  { apply (MTM _ _ _ _ _ _ LN). lia. } { intros x. apply (pas_g _ _ _ _ _ (passive_TM _ _ _ _ _ _ x (ly_passive _ _ _ _ _ _ LN)) N). lia. }
  destruct (lg_min (zH N) (zV N) (eH N)) as (k2 & P2 & B2).
  { apply (MTE _ _ _ _ _ _ LN). lia. } { intros x. apply (pas_g _ _ _ _ _ (passive_TE _ _ _ _ _ _ x (ly_passive _ _ _ _ _ _ LN)) N). lia. }
  exists (Rmin k1 k2). split; [now apply Rmin_glb_lt|]. split; intros x Hx; [eapply Rle_trans; [apply Rmin_l|now apply B1]|eapply Rle_trans; [apply Rmin_r|now apply B2]].
Qed.
Theorem ap_resp : exists kap a : R, (0 < kap)%R /\ (0 < a)%R /\ forall ab xd ms mr s r zs zr, inlay z N s zs -> inlay z N r zr ->
  ap kap (a * Rabs (zs - zr)) (fun D lam => fst (resp eH eV zH zV (deep N z D) M lam ab xd ms mr s r zs zr)) (fun lam => fst (resp eH eV zH zV z N lam ab xd ms mr s r zs zr)) /\
  ap kap (a * Rabs (zs - zr)) (fun D lam => snd (resp eH eV zH zV (deep N z D) M lam ab xd ms mr s r zs zr)) (fun lam => snd (resp eH eV zH zV z N lam ab xd ms mr s r zs zr)).
Proof using LY HM.
  destruct kap2 as (kap & Pk & K1 & K2). destruct (rate2 _ _ _ _ _ _ LY) as (a & Pa & A1 & A2). exists kap, a. split; [exact Pk|]. split; [exact Pa|]. intros ab xd ms mr s r zs zr IS IR. pose proof (ly_z _ _ _ _ _ _ LY) as HI.
  assert (TM : forall s r zs zr, inlay z N s zs -> inlay z N r zr -> ap kap (a * Rabs (zs - zr)) (fun D lam => PTM eH eV zH (deep N z D) M lam ab xd s r zs zr) (fun lam => PTM eH eV zH z N lam ab xd s r zs zr)).
  { intros. apply (ap_PTM eH eV zH z N M HM (MTM _ _ _ _ _ _ LY) HI (RTM _ _ _ _ _ _ LN) (RTM _ _ _ _ _ _ LY) a Pa A1 kap Pk K1); assumption. }
  assert (TMm : forall s r zs zr, inlay z N s zs -> inlay z N r zr -> ap kap (a * Rabs (zs - zr)) (fun D lam => PTM zH zV eH (deep N z D) M lam ab xd s r zs zr) (fun lam => PTM zH zV eH z N lam ab xd s r zs zr)).
  { intros. apply (ap_PTM zH zV eH z N M HM (MTE _ _ _ _ _ _ LY) HI (RTE _ _ _ _ _ _ LN) (RTE _ _ _ _ _ _ LY) a Pa A2 kap Pk K2); assumption. }
  assert (TE : forall s r zs zr, inlay z N s zs -> inlay z N r zr -> ap kap (a * Rabs (zs - zr)) (fun D lam => PTE zH zV eH (deep N z D) M lam ab xd s r zs zr) (fun lam => PTE zH zV eH z N lam ab xd s r zs zr)).
  { intros. apply (ap_PTE zH zV eH z N M HM (MTE _ _ _ _ _ _ LY) HI (RTE _ _ _ _ _ _ LN) (RTE _ _ _ _ _ _ LY) a Pa A2 kap Pk K2); assumption. }
  assert (TEm : forall s r zs zr, inlay z N s zs -> inlay z N r zr -> ap kap (a * Rabs (zs - zr)) (fun D lam => PTE eH eV zH (deep N z D) M lam ab xd s r zs zr) (fun lam => PTE eH eV zH z N lam ab xd s r zs zr)).
  { intros. apply (ap_PTE eH eV zH z N M HM (MTM _ _ _ _ _ _ LY) HI (RTM _ _ _ _ _ _ LN) (RTM _ _ _ _ _ _ LY) a Pa A1 kap Pk K1); assumption. }
  unfold resp. destruct mr; [destruct ms|]; cbn [fst snd].
  - split; apply (ap_opp kap Pk); [apply TMm|apply TEm]; assumption.
  - replace (Rabs (zs - zr)) with (Rabs (zr - zs)) by apply Rabs_minus_sym. split; [apply TM|apply TE]; assumption.
  - split; [apply TM|apply TE]; assumption.
Qed.
End Resp.

Lemma ap_bessel : forall kap ab mr off A c (P Q : R -> R -> C) (p q : R -> C), (0 < kap)%R -> In ab kernel_abs -> ap kap c P p -> ap kap c Q q ->
  ap kap c (fun D lam => bessel_sum ab lam off A (collect ab mr lam (P D lam) (Q D lam))) (fun lam => bessel_sum ab lam off A (collect ab mr lam (p lam) (q lam))).
Proof.
  intros kap ab mr off A c P Q p q Hk Hab HP HQ.
  apply (ap_ext kap c (fun D lam => P D lam * bessel_sum ab lam off A (collect ab mr lam (RtoC 1) (RtoC 0)) + Q D lam * bessel_sum ab lam off A (collect ab mr lam (RtoC 0) (RtoC 1))) _
    (fun lam => p lam * bessel_sum ab lam off A (collect ab mr lam (RtoC 1) (RtoC 0)) + q lam * bessel_sum ab lam off A (collect ab mr lam (RtoC 0) (RtoC 1)))); [intros D x; symmetry; now apply bessel_lin|intros x; symmetry; now apply bessel_lin|].
  assert (B : forall u w : C, ap kap 0 (fun _ lam => bessel_sum ab lam off A (collect ab mr lam u w)) (fun lam => bessel_sum ab lam off A (collect ab mr lam u w))).
  { intros u w. apply (ap_eb kap 0 (fun lam => bessel_sum ab lam off A (collect ab mr lam u w))). apply eb_bessel; [exact Hab|apply eb_const|apply eb_const]. }
  apply (ap_plus kap Hk); [apply (ap_mult0r kap Hk c P _ p _ HP (B _ _))|apply (ap_mult0r kap Hk c Q _ q _ HQ (B _ _))].
Qed.

(** ** Integration *)
Lemma improper_close : forall K n c, (0 <= K)%R -> (0 < c)%R -> exists K', (0 <= K')%R /\ forall F G V W (e : R), cC F -> cC G -> improper F V -> improper G W -> (0 < e)%R ->
  (forall x : R, (0 <= x)%R -> (Cmod (Cminus (G x) (F x)) <= bnd K n c x * e)%R) -> (Cmod (Cminus W V) <= K' * e)%R.
Proof.
  intros K n c HK Hc. destruct (eb_tail2 c _ (bnd_eb K n c HK) Hc) as (K' & HK' & TB). exists K'. split; [exact HK'|]. intros F G V W e CF CG [_ LV] [_ LW] He B.
  assert (CD : cC (fun x => G x - F x)) by (apply cC_minus; assumption).
  assert (T : forall T : R, (0 <= T)%R -> (Cmod (Cminus (CI G 0 T) (CI F 0 T)) <= K' * e)%R).
  { intros T HT. rewrite <- CI_minus by assumption. assert (CS : cC (fun x => RtoC (/ e) * (G x - F x))) by (apply cC_mult; [apply cC_const|exact CD]).
    assert (Q : (Cmod (CI (fun x => Cmult (RtoC (/ e)) (Cminus (G x) (F x))) 0 T) <= K' * exp (- (c / 2 * 0)))%R).
    { apply TB; [exact CS| |lra]. intros x Hx. rewrite Cmod_mult, !Cmod_R. pose proof (bnd_pos K n c x HK Hx) as BP. rewrite (Rabs_pos_eq (bnd K n c x)) by exact BP. assert (IE : (0 < / e)%R) by now apply Rinv_0_lt_compat. rewrite Rabs_pos_eq by lra.
      specialize (B x Hx). apply (Rmult_le_compat_l (/ e)) in B; [|lra]. replace (/ e * (bnd K n c x * e))%R with (bnd K n c x) in B by (field; lra). exact B. }
    rewrite CI_scal in Q by exact CD. rewrite Cmod_mult, Cmod_R, Rmult_0_r, Ropp_0, exp_0, Rmult_1_r in Q. assert (IE : (0 < / e)%R) by now apply Rinv_0_lt_compat. rewrite Rabs_pos_eq in Q by lra.
    apply (Rmult_le_compat_l e) in Q; [|lra]. rewrite <- Rmult_assoc, Rinv_r, Rmult_1_l in Q by lra. lra. }
  assert (L : lim (fun T => CI G 0 T - CI F 0 T) (W - V)) by (apply (limC_minus _ (F := Rbar_locally p_infty)); assumption).
  apply Rnot_lt_le. intros X. destruct (proj1 (limC_eps _ _) L (Cmod (Cminus W V) - K' * e)%R ltac:(lra)) as [T0 H0].
  set (T1 := (Rmax T0 0 + 1)%R). assert (Y1 : (T0 < T1)%R) by (unfold T1; pose proof (Rmax_l T0 0); lra). assert (Y2 : (0 <= T1)%R) by (unfold T1; pose proof (Rmax_r T0 0); lra).
  specialize (H0 T1 Y1). specialize (T T1 Y2). pose proof (Cmod_triangle (CI G 0 T1 - CI F 0 T1) (- (CI G 0 T1 - CI F 0 T1 - (W - V)))) as TR.
  replace (CI G 0 T1 - CI F 0 T1 + - (CI G 0 T1 - CI F 0 T1 - (W - V))) with (W - V) in TR by ring. rewrite Cmod_opp in TR. lra.
Qed.

Lemma integrand_resp : forall eH eV zH zV z N a b xd off phi zs zr ab ms mr, layered eH eV zH zV z N -> fs_pair a b -> check_ab (AbNum (inject_Z (10 * a + b))) = Ok (ab, ms, mr) ->
  integrand eH eV zH zV z N (10 * a + b) xd off phi zs zr (fun lam => bessel_sum ab lam off (ang_exact (eval_angle phi ms mr) ab) (collect ab mr lam (fst (resp eH eV zH zV z N lam ab xd ms mr (lay z N zs) (lay z N zr) zs zr)) (snd (resp eH eV zH zV z N lam ab xd ms mr (lay z N zs) (lay z N zr) zs zr)))).
Proof.
  intros eH eV zH zV z N a b xd off phi zs zr ab ms mr LY HP CA. destruct (code_class _ ab ms mr CA (ex_intro _ a (ex_intro _ b (conj HP eq_refl)))) as [KA VC].
  exists ab, ms, mr. split; [exact CA|]. intros lam. eexists. split; [|reflexivity].
  rewrite wcall_gcall. rewrite gcall_resp; [|apply passive_model_ok, ly_passive, LY|exact VC|apply lay_le|apply lay_le]. cbn [bind]. now destruct (resp _ _ _ _ _ _ _ _ _ _ _ _ _ _ _).
Qed.
(** the value is the integral of that integrand, which is continuous *)
Lemma hankel_resp : forall eH eV zH zV z N a b xd off phi zs zr V F, layered eH eV zH zV z N -> fs_pair a b -> integrand eH eV zH zV z N (10 * a + b) xd off phi zs zr F ->
  hankel_value eH eV zH zV z N (10 * a + b) xd off phi zs zr V -> cC F /\ improper F V.
Proof.
  intros eH eV zH zV z N a b xd off phi zs zr V F LY HP HF (ab & ms & mr & G & CA & HG & IM).
  assert (IG : integrand eH eV zH zV z N (10 * a + b) xd off phi zs zr G) by (exists ab, ms, mr; now split). pose proof (integrand_unique _ _ _ _ _ _ _ _ _ _ _ _ _ _ HF IG) as E. split.
  - destruct (integrand_eb _ _ _ _ _ _ LY) as (rt & _ & Q). destruct (Q a b xd off phi zs zr HP) as (H & IH & EH). pose proof (integrand_unique _ _ _ _ _ _ _ _ _ _ _ _ _ _ IH HF) as E2. apply (cC_ext H); [exact E2|exact (eb_cC _ _ EH)].
  - apply (improper_ext F G); [intros x _; apply E|exact IM].
Qed.

Theorem layered_deep : forall eH eV zH zV z N M xd a b xs ys zs x y zr, layered eH eV zH zV z M -> (N < M)%nat -> (1 <= a <= 6)%Z -> (1 <= b <= 6)%Z -> zr <> zs ->
  exists (V : C) (K kap D0 : R), (0 < kap)%R /\ lay_xyz eH eV zH zV z N xd a b xs ys zs x y zr V /\
    forall D : R, (D0 <= D)%R -> exists V', lay_xyz eH eV zH zV (deep N z D) M xd a b xs ys zs x y zr V' /\ (Cmod (Cminus V' V) <= K * exp (- (kap * D)))%R.
Proof.
  intros eH eV zH zV z N M xd a b xs ys zs x y zr LY HM Ha Hb Hz. pose proof (layered_top _ _ _ _ _ N M LY ltac:(lia)) as LN.
  destruct (lay_xyz_exists eH eV zH zV z N xd a b xs ys zs x y zr LN Ha Hb Hz) as [V HV]. exists V.
  assert (EX : forall D, (0 <= D)%R -> exists V', lay_xyz eH eV zH zV (deep N z D) M xd a b xs ys zs x y zr V') by (intros D HD; apply lay_xyz_exists; try assumption; now apply layered_deep0).
  unfold lay_xyz in *. destruct (_ || _)%bool eqn:F.
  { exists 0%R, 1%R, 0%R. split; [lra|]. split; [exact HV|]. intros D HD. exists (RtoC 0). split; [reflexivity|]. rewrite HV. replace (RtoC 0 - RtoC 0) with (RtoC 0) by ring. rewrite Cmod_0. lra. }
  pose proof (fs_pair_dec a b Ha Hb F) as HP. destruct (pair_class a b HP) as (ab & CA & _). destruct (code_class _ ab _ _ CA (ex_intro _ a (ex_intro _ b (conj HP eq_refl)))) as [KA VC].
  destruct (ap_resp eH eV zH zV z N M LY HM) as (kap & rt & Pk & Pr & AP). set (off := sqrt _) in *. set (phi := atan2 _ _) in *.
  destruct (AP ab xd (3 <? b)%Z (3 <? a)%Z (lay z N zs) (lay z N zr) zs zr (lay_inlay z N zs (ly_z _ _ _ _ _ _ LN)) (lay_inlay z N zr (ly_z _ _ _ _ _ _ LN))) as [B1 B2].
  destruct (ap_bessel kap ab (3 <? a)%Z off (ang_exact (eval_angle phi (3 <? b)%Z (3 <? a)%Z) ab) _ _ _ _ _ Pk KA B1 B2) as (K & n & D0 & HK & HD0 & _ & B). clear AP B1 B2.
  assert (Hc : (0 < rt * Rabs (zs - zr))%R) by (apply Rmult_lt_0_compat; [exact Pr|apply Rabs_pos_lt; lra]).
  destruct (improper_close K n _ HK Hc) as (K' & HK' & IC). exists K', kap, (Rmax D0 (Rmax (zs - z (S N)) (zr - z (S N)))). split; [exact Pk|]. split; [exact HV|]. intros D HD.
  assert (D1 : (D0 <= D)%R) by (eapply Rle_trans; [apply Rmax_l|exact HD]).
  assert (D2 : (zs - z (S N) <= D)%R) by (eapply Rle_trans; [|exact HD]; eapply Rle_trans; [|apply Rmax_r]; apply Rmax_l).
  assert (D3 : (zr - z (S N) <= D)%R) by (eapply Rle_trans; [|exact HD]; eapply Rle_trans; [|apply Rmax_r]; apply Rmax_r).
  destruct (EX D ltac:(lra)) as [V' HV']. exists V'. split; [exact HV'|]. pose proof (layered_deep0 _ _ _ _ _ N M D LY ltac:(lra)) as LD.
  destruct (hankel_resp _ _ _ _ _ _ _ _ _ _ _ _ _ _ _ LN HP (integrand_resp _ _ _ _ _ _ _ _ xd off phi zs zr _ _ _ LN HP CA) HV) as [C1 I1].
  destruct (hankel_resp _ _ _ _ _ _ _ _ _ _ _ _ _ _ _ LD HP (integrand_resp _ _ _ _ _ _ _ _ xd off phi zs zr _ _ _ LD HP CA) HV') as [C2 I2].
  apply (IC _ _ _ _ _ C1 C2 I1 I2); [apply exp_pos|]. intros l Hl.
  assert (ZM : forall k, (1 <= k < M)%nat -> (z k <= z (S k))%R) by (intros k Hkk; left; apply (ly_z _ _ _ _ _ _ LY); exact Hkk).
  rewrite !lay_deep by first [assumption|lra]. exact (B D l D1 Hl).
Qed.
