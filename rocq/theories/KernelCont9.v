(** The field without the direct part (xdirect=True, source and receiver in the same layer) depends continuously on all
    parameters, also at equal depths. *)

From Coq Require Import Reals ZArith QArith List Bool Lia Lra Psatz.
From Coquelicot Require Import Coquelicot.
From Verif Require Import PyBase CBase ODE Bessel Sommer Cint Hankel Kernel KernelSpec KernelClosed KernelPassive KernelPhys KernelMain KernelBessel KernelBVP KernelThm KernelThm2 KernelDeep KernelFinal HalfspaceThm Utils UtilsAb Fullspace FullspaceThm FullspaceEM FullspaceField Homog HomogThm LayAsym LayConv LayDeep3 Transform TransformDlf Model ModelFem KernelCont KernelCont2 KernelCont3 KernelCont4 KernelCont6 KernelCont7 KernelCont8.
Import ListNotations.
Local Open Scope R_scope.
Local Open Scope C_scope.
Local Open Scope res_scope.

(** the length of the shorter of the two paths from the source to the receiver over an interface of layer k *)
Definition rho (z : nat -> R) (N k : nat) (zs zr : R) : R :=
  Rmin (if (k <? N)%nat then (z (S k) - zs) + (z (S k) - zr) else 1)%R (if (0 <? k)%nat then (zs - z k) + (zr - z k) else 1)%R.
Lemma rho_sym : forall z N k x y, rho z N k x y = rho z N k y x.
Proof. intros z N k x y. unfold rho. f_equal; [destruct (k <? N)%nat|destruct (0 <? k)%nat]; ring. Qed.
Lemma rho_pos : forall z N k x y, in_layer z N k x -> in_layer z N k y -> (0 < rho z N k x y)%R.
Proof.
  intros z N k x y (_ & A & B) (_ & A' & B'). unfold rho. apply Rmin_glb_lt; [destruct (Nat.ltb_spec k N); [|lra]|destruct (Nat.ltb_spec 0 k); [|lra]].
  - destruct B as [B|B]; [lia|]. destruct B' as [B'|B']; [lia|]. lra.
  - destruct A as [A|A]; [lia|]. destruct A' as [A'|A']; [lia|]. lra.
Qed.
Lemma toR_min : forall T (F : (T -> Prop) -> Prop), Filter F -> forall f g a b, toR F f a -> toR F g b -> toR F (fun t => Rmin (f t) (g t)) (Rmin a b).
Proof.
  intros T F FF f g a b A B. assert (E : forall x y, Rmin x y = ((x + y - Rabs (x - y)) * / 2)%R). { intros x y. unfold Rmin, Rabs. destruct (Rle_dec x y), (Rcase_abs _); lra. }
  rewrite E. assert (L : toR F (fun t => (f t + g t - Rabs (f t - g t)) * / 2)%R ((a + b - Rabs (a - b)) * / 2)%R).
  { apply toR_mult; [assumption| |now apply toR_const]. apply toR_minus; [assumption|now apply toR_plus|]. apply (toR_comp F (fun t => f t - g t)%R Rabs); [apply continuous_Rabs|now apply toR_minus]. }
  apply toR_eps; [assumption|]. intros e He. eapply filter_imp; [|exact (proj1 (toR_eps F _ _) L e He)]. intros t Ht. cbn beta in *. rewrite E. exact Ht.
Qed.
Lemma c_rho : forall T (F : (T -> Prop) -> Prop), Filter F -> forall (z : T -> nat -> R) z0 zs zr (zs0 zr0 : R) N k, (forall i, (1 <= i <= N)%nat -> toR F (fun t => z t i) (z0 i)) -> (k <= N)%nat -> toR F zs zs0 -> toR F zr zr0 ->
  toR F (fun t => rho (z t) N k (zs t) (zr t)) (rho z0 N k zs0 zr0).
Proof.
  intros T F FF z z0 zs zr zs0 zr0 N k Iz Hk Is Ir. unfold rho. apply toR_min; [assumption| |].
  - destruct (Nat.ltb_spec k N); [|now apply toR_const]. pose proof (Iz (S k) ltac:(lia)) as A. apply toR_plus; [assumption| |]; now apply toR_minus.
  - destruct (Nat.ltb_spec 0 k); [|now apply toR_const]. pose proof (Iz k ltac:(lia)) as A. apply toR_plus; [assumption| |]; now apply toR_minus.
Qed.
Lemma c_inlay : forall T (F : (T -> Prop) -> Prop), Filter F -> forall (z : T -> nat -> R) z0 zs (zs0 : R) N k, (forall i, (1 <= i <= N)%nat -> toR F (fun t => z t i) (z0 i)) -> toR F zs zs0 ->
  in_layer z0 N k zs0 -> F (fun t => in_layer (z t) N k (zs t)).
Proof.
  intros T F FF z z0 zs zs0 N k Iz Is (Hk & A & B). unfold in_layer. apply filter_and; [now apply filter_forall|]. apply filter_and.
  - destruct A as [A|A]; [apply filter_forall; now left|]. destruct (Nat.eq_dec k 0) as [E|NE]; [apply filter_forall; now left|]. eapply filter_imp; [|exact (toR_lt F (fun t => z t k) zs _ _ (Iz k ltac:(lia)) Is A)]. intros t Ht. now right.
  - destruct (Nat.eq_dec k N) as [E|NE]; [apply filter_forall; now left|]. destruct B as [B|B]; [contradiction|]. eapply filter_imp; [|exact (toR_lt F zs (fun t => z t (S k)) _ _ Is (Iz (S k) ltac:(lia)) B)]. intros t Ht. now right.
Qed.

Section OneMode.
Context {T : Type} (F : (T -> Prop) -> Prop) {FF : Filter F}.
Variables (h v q : T -> nat -> C) (z : T -> nat -> R) (h0 v0 q0 : nat -> C) (z0 : nat -> R) (N : nat).
Hypothesis Ih : forall k, (k <= N)%nat -> toC F (fun t => h t k) (h0 k).
Hypothesis Iv : forall k, (k <= N)%nat -> toC F (fun t => v t k) (v0 k).
Hypothesis Iq : forall k, (k <= N)%nat -> toC F (fun t => q t k) (q0 k).
Hypothesis Iz : forall k, (1 <= k <= N)%nat -> toR F (fun t => z t k) (z0 k).
Hypothesis ML : forall k, (k <= N)%nat -> mlayer (h0 k) (v0 k) (q0 k).
Hypothesis Hz : increasing z0 N.
Hypothesis Hzt : forall t, increasing (z t) N.
Notation g p := (gam (h (fst p)) (v (fst p)) (q (fst p)) (snd p)).
Variable a : R.
Hypothesis Ha : (0 < a)%R.
Hypothesis HA : forall k, (k <= N)%nat -> (a < fst (ms (h0 k) (v0 k)))%R.
Variables (zs zr : T -> R) (k : nat).
Hypothesis (Kk : (k <= N)%nat).
Hypothesis (LS : forall t, inlay (z t) N k (zs t)) (LR : forall t, inlay (z t) N k (zr t)).
Lemma ub_refl : forall pm sg, ub F (fun t => a * rho (z t) N k (zs t) (zr t))%R (fun p => G_same (h (fst p)) (g p) (z (fst p)) N pm sg k (zs (fst p)) (zr (fst p))).
Proof using All.
  intros pm sg. unfold G_same. apply ub_plus; [assumption| |].
  - destruct (Nat.eq_dec k N) as [E|NE].
    + eapply ub_eq; [assumption| |now apply ub_zero]. intros x. cbv beta. rewrite E, Rdn_N. unfold Cdiv. ring.
    + eapply ub_weak; [assumption|apply (ub_mult F (fun t => a * (z t (S k) - zs t))%R (fun t => a * (z t (S k) - zr t))%R)|].
      * unfold Cdiv. apply ub_mult0r; [assumption| |now apply (ub_Msi F h v q z h0 v0 q0 z0 N Ih Iv Iq Iz ML Hz Hzt a Ha HA)]. apply ub_mult0; [assumption|now apply (ub_Rd F h v q z h0 v0 q0 z0 N Ih Iv Iq Iz ML Hz Hzt a Ha HA)|apply (ub_bsd F h v q z h0 v0 q0 z0 N Ih Iv Iq Iz ML Hz Hzt a Ha HA zs zr k k Kk Kk LS LR pm); lia].
      * apply (ub_dk F h v q h0 v0 q0 N Ih Iv Iq ML a HA k (fun t => z t (S k) - zr t)%R); [lia|]. intros t. destruct (LR t) as (_ & _ & Q). specialize (Q ltac:(lia)). lra.
      * intros t. cbn beta. rewrite <- Rmult_plus_distr_l. apply Rmult_le_compat_l; [lra|]. unfold rho. eapply Rle_trans; [apply Rmin_l|]. destruct (Nat.ltb_spec k N); [lra|lia].
  - apply ub_scal; [assumption|]. destruct (Nat.eq_dec k 0) as [E|NE].
    + eapply ub_eq; [assumption| |now apply ub_zero]. intros x. cbv beta. rewrite E. cbn [Rup]. unfold Cdiv. ring.
    + eapply ub_weak; [assumption|apply (ub_mult F (fun t => a * (zs t - z t k))%R (fun t => a * (zr t - z t k))%R)|].
      * unfold Cdiv. apply ub_mult0r; [assumption| |now apply (ub_Msi F h v q z h0 v0 q0 z0 N Ih Iv Iq Iz ML Hz Hzt a Ha HA)]. apply ub_mult0; [assumption|now apply (ub_Ru F h v q z h0 v0 q0 z0 N Ih Iv Iq Iz ML Hz Hzt a Ha HA)|apply (ub_bsu F h v q z h0 v0 q0 z0 N Ih Iv Iq Iz ML Hz Hzt a Ha HA zs zr k k Kk Kk LS LR pm); lia].
      * apply (ub_dk F h v q h0 v0 q0 N Ih Iv Iq ML a HA k (fun t => zr t - z t k)%R); [lia|]. intros t. destruct (LR t) as (_ & Q & _). specialize (Q ltac:(lia)). lra.
      * intros t. cbn beta. rewrite <- Rmult_plus_distr_l. apply Rmult_le_compat_l; [lra|]. unfold rho. eapply Rle_trans; [apply Rmin_r|]. destruct (Nat.ltb_spec 0 k); [lra|lia].
Qed.
Lemma ub_moder : forall pm sg, ub F (fun t => a * rho (z t) N k (zs t) (zr t))%R (fun p => G_mode (h (fst p)) (g p) (z (fst p)) N pm sg k k (zs (fst p)) (zr (fst p)) true).
Proof using All. intros pm sg. unfold G_mode. rewrite Nat.eqb_refl. apply ub_plus; [assumption|apply ub_refl|now apply ub_zero]. Qed.
Lemma ub_PTMr : forall ab, ub F (fun t => a * rho (z t) N k (zs t) (zr t))%R (fun p => PTM (h (fst p)) (v (fst p)) (q (fst p)) (z (fst p)) N (snd p) ab true k k (zs (fst p)) (zr (fst p))).
Proof using All.
  intros ab. unfold PTM. destruct (mode_used true ab); [|now apply ub_zero]. apply ub_mult0; [assumption|now apply (ub_fTM F h v q h0 v0 q0 N)|]. apply ub_moder.
Qed.
Lemma ub_PTEr : forall ab, ub F (fun t => a * rho (z t) N k (zs t) (zr t))%R (fun p => PTE (h (fst p)) (v (fst p)) (q (fst p)) (z (fst p)) N (snd p) ab true k k (zs (fst p)) (zr (fst p))).
Proof using All.
  intros ab. unfold PTE. destruct (mode_used false ab); [|now apply ub_zero]. apply ub_mult0; [assumption|now apply (ub_fTE F h v q h0 v0 q0 N)|]. apply ub_moder.
Qed.
End OneMode.

(** ** The exact response without the direct field *)
Section Exact.
Context {T : Type} (F : (T -> Prop) -> Prop) {FF : Filter F}.
Variables (eH eV zH zV : T -> nat -> C) (z : T -> nat -> R) (zs zr off phi : T -> R) (eH0 eV0 zH0 zV0 : nat -> C) (z0 : nat -> R) (zs0 zr0 off0 phi0 : R) (N : nat).
Hypothesis IeH : forall k, (k <= N)%nat -> toC F (fun t => eH t k) (eH0 k).
Hypothesis IeV : forall k, (k <= N)%nat -> toC F (fun t => eV t k) (eV0 k).
Hypothesis IzH : forall k, (k <= N)%nat -> toC F (fun t => zH t k) (zH0 k).
Hypothesis IzV : forall k, (k <= N)%nat -> toC F (fun t => zV t k) (zV0 k).
Hypothesis Iz : forall k, (1 <= k <= N)%nat -> toR F (fun t => z t k) (z0 k).
Hypothesis Is : toR F zs zs0.
Hypothesis Ir : toR F zr zr0.
Hypothesis Io : toR F off off0.
Hypothesis Ip : toR F phi phi0.
Hypothesis Hoff : off0 <> 0%R.
Hypothesis LY0 : layered eH0 eV0 zH0 zV0 z0 N.
Hypothesis LYt : forall t, layered (eH t) (eV t) (zH t) (zV t) (z t) N.
Variables (s : nat).
Hypothesis I0s : in_layer z0 N s zs0.
Hypothesis I0r : in_layer z0 N s zr0.
Hypothesis Its : forall t, in_layer (z t) N s (zs t).
Hypothesis Itr : forall t, in_layer (z t) N s (zr t).
Let Ks : (s <= N)%nat. Proof. apply I0s. Qed.
Let LS : forall t, inlay (z t) N s (zs t). Proof. intros t. rewrite <- (lay_in (z t) N (ly_z _ _ _ _ _ _ (LYt t)) s (zs t) (Its t)). apply lay_inlay, LYt. Qed.
Let LR : forall t, inlay (z t) N s (zr t). Proof. intros t. rewrite <- (lay_in (z t) N (ly_z _ _ _ _ _ _ (LYt t)) s (zr t) (Itr t)). apply lay_inlay, LYt. Qed.
Lemma ub_respr : exists a : R, (0 < a)%R /\ forall ab msrc mrec,
  ub F (fun t => a * rho (z t) N s (zs t) (zr t))%R (fun p => fst (resp (eH (fst p)) (eV (fst p)) (zH (fst p)) (zV (fst p)) (z (fst p)) N (snd p) ab true msrc mrec s s (zs (fst p)) (zr (fst p)))) /\
  ub F (fun t => a * rho (z t) N s (zs t) (zr t))%R (fun p => snd (resp (eH (fst p)) (eV (fst p)) (zH (fst p)) (zV (fst p)) (z (fst p)) N (snd p) ab true msrc mrec s s (zs (fst p)) (zr (fst p)))).
Proof using All.
  destruct (rate3 eH0 eV0 zH0 zV0 z0 N LY0) as (a & Pa & A1 & A2). exists a. split; [exact Pa|]. intros ab msrc mrec. pose proof (ly_z _ _ _ _ _ _ LY0) as HI. pose proof (fun t => ly_z _ _ _ _ _ _ (LYt t)) as HIt.
  pose proof (MTM _ _ _ _ _ _ LY0) as M1. pose proof (MTE _ _ _ _ _ _ LY0) as M2.
  assert (SY : forall f, ub F (fun t => a * rho (z t) N s (zr t) (zs t))%R f -> ub F (fun t => a * rho (z t) N s (zs t) (zr t))%R f) by (intros f H; eapply ub_weak; [assumption|exact H|]; intros t; cbn beta; rewrite rho_sym; lra).
  unfold resp. destruct mrec; [destruct msrc|]; cbn [fst snd]; split.
  - apply ub_opp; [assumption|]. now apply (ub_PTMr F zH zV eH z zH0 zV0 eH0 z0 N).
  - apply ub_opp; [assumption|]. now apply (ub_PTEr F eH eV zH z eH0 eV0 zH0 z0 N).
  - apply SY. now apply (ub_PTMr F eH eV zH z eH0 eV0 zH0 z0 N).
  - apply SY. now apply (ub_PTEr F zH zV eH z zH0 zV0 eH0 z0 N).
  - now apply (ub_PTMr F eH eV zH z eH0 eV0 zH0 z0 N).
  - now apply (ub_PTEr F zH zV eH z zH0 zV0 eH0 z0 N).
Qed.
Variables (ab : Z) (msrc mrec : bool).
Hypothesis KA : In ab kernel_abs.
Hypothesis VC : valid_call ab msrc mrec.
Lemma ig_jointr : forall x0 : R, toC (filter_prod F (locally x0)) (fun p => ig N s s ab true msrc mrec (eH (fst p)) (eV (fst p)) (zH (fst p)) (zV (fst p)) (z (fst p)) (off (fst p)) (phi (fst p)) (zs (fst p)) (zr (fst p)) (snd p)) (ig N s s ab true msrc mrec eH0 eV0 zH0 zV0 z0 off0 phi0 zs0 zr0 x0).
Proof using All.
  intros x0. set (G := filter_prod F (locally x0)). assert (FG : Filter G) by (apply filter_prod_filter; [exact FF|apply locally_filter]).
  assert (GF : forall P : T -> Prop, F P -> G (fun p => P (fst p))). { intros P H. exists P (fun _ => True); [exact H|apply filter_true|]. intros x y A _. exact A. }
  assert (GR : forall f l, toR F f l -> toR G (fun p => f (fst p)) l). { intros f l H. apply toR_eps; [assumption|]. intros e He. exact (GF (fun t => (Rabs (f t - l) < e)%R) (proj1 (toR_eps F f l) H e He)). }
  assert (GC : forall f l, toC F f l -> toC G (fun p => f (fst p)) l). { intros f l [A B]. split; [exact (GR (fun t => fst (f t)) _ A)|exact (GR (fun t => snd (f t)) _ B)]. }
  assert (GX : toR G (fun p => snd p) x0). { apply toR_eps; [assumption|]. intros e He. exists (fun _ => True) (fun x => (Rabs (x - x0) < e)%R); [apply filter_true|exists (mkposreal e He); intros y Hy; exact Hy|]. intros x y _ A. exact A. }
  assert (RP : forall a b c d y l x w, layered a b c d y N -> gcall a b c d y N l ab true msrc mrec s s x w = Ok (resp a b c d y N l ab true msrc mrec s s x w)).
  { intros a b c d y l x w LY. apply gcall_resp; [apply passive_model_ok, ly_passive, LY|exact VC|exact Ks|exact Ks]. }
  destruct (green_fixed G (fun p => eH (fst p)) (fun p => eV (fst p)) (fun p => zH (fst p)) (fun p => zV (fst p)) (fun p => z (fst p)) (fun p => snd p) (fun p => zs (fst p)) (fun p => zr (fst p)) eH0 eV0 zH0 zV0 z0 x0 zs0 zr0 N
    (fun k Hk => GC _ _ (IeH k Hk)) (fun k Hk => GC _ _ (IeV k Hk)) (fun k Hk => GC _ _ (IzH k Hk)) (fun k Hk => GC _ _ (IzV k Hk)) (fun k Hk => GR _ _ (Iz k Hk)) GX (GR _ _ Is) (GR _ _ Ir) (ly_passive _ _ _ _ _ _ LY0)
    (filter_forall _ (fun p => ly_passive _ _ _ _ _ _ (LYt (fst p)))) ab true msrc mrec s s VC Ks Ks (fun X : true = false => False_ind _ (Bool.diff_true_false X))) as (p & q & E & H).
  rewrite (RP _ _ _ _ _ _ _ _ LY0) in E. apply Ok_inj in E.
  unfold ig. rewrite E. cbn [fst snd]. apply (c_bessel G (fun p => snd p) (fun p => off (fst p)) (fun p => ang_exact (eval_angle (phi (fst p)) msrc mrec) ab)); try assumption.
  - exact (GR _ _ Io).
  - exact (GR _ _ (c_ang F phi phi0 Ip ab msrc mrec)).
  - apply toC_eps; [assumption|]. intros e He. eapply filter_imp; [|exact (H e He)]. intros x (p' & q' & E' & B1 & B2). rewrite (RP _ _ _ _ _ _ _ _ (LYt (fst x))) in E'. apply Ok_inj in E'. rewrite E'. exact B1.
  - apply toC_eps; [assumption|]. intros e He. eapply filter_imp; [|exact (H e He)]. intros x (p' & q' & E' & B1 & B2). rewrite (RP _ _ _ _ _ _ _ _ (LYt (fst x))) in E'. apply Ok_inj in E'. rewrite E'. exact B2.
Qed.
Theorem reflected_all : forall (V : T -> C) V0, (forall t, improper (ig N s s ab true msrc mrec (eH t) (eV t) (zH t) (zV t) (z t) (off t) (phi t) (zs t) (zr t)) (V t)) -> improper (ig N s s ab true msrc mrec eH0 eV0 zH0 zV0 z0 off0 phi0 zs0 zr0) V0 -> toC F V V0.
Proof using All.
  intros V V0 HV HV0. destruct ub_respr as (a & Pa & B). destruct (B ab msrc mrec) as [B1 B2].
  pose proof (ub_bessel F off (fun t => ang_exact (eval_angle (phi t) msrc mrec) ab) off0 _ Io (c_ang F phi phi0 Ip ab msrc mrec) Hoff ab mrec _ _ _ KA B1 B2) as UB.
  set (d := rho z0 N s zs0 zr0). assert (D : (0 < d)%R) by now apply rho_pos. assert (C0 : (0 < a * (d / 2))%R) by (apply Rmult_lt_0_compat; lra).
  assert (FC : F (fun t => (a * (d / 2) <= a * rho (z t) N s (zs t) (zr t))%R)).
  { pose proof (c_rho T F FF z z0 zs zr zs0 zr0 N s Iz Ks Is Ir) as L.
    eapply filter_imp; [|exact (toR_lt F (fun _ => d / 2)%R _ _ _ (toR_const F _) L ltac:(unfold d in *; lra))]. intros t Ht. cbn beta in Ht. apply Rmult_le_compat_l; lra. }
  destruct (ub_exp F _ _ _ UB C0 FC) as (K & HK & BD).
  assert (CC : forall a b c d y o ph x w, layered a b c d y N -> in_layer y N s x -> in_layer y N s w -> cC (ig N s s ab true msrc mrec a b c d y o ph x w)).
  { intros a' b' c' d' y o ph x w LY A1 A2. pose proof (ly_z _ _ _ _ _ _ LY) as HI. apply ig_cC; [assumption|assumption|now apply lay_in|now apply lay_in]. }
  refine (dominated F (fun t => ig N s s ab true msrc mrec (eH t) (eV t) (zH t) (zV t) (z t) (off t) (phi t) (zs t) (zr t)) (ig N s s ab true msrc mrec eH0 eV0 zH0 zV0 z0 off0 phi0 zs0 zr0) _ ig_jointr V V0 K (a * (d / 2) / 2) _ HK _ BD HV HV0).
  - now apply CC.
  - lra.
  - intros t. now apply CC.
Qed.
End Exact.

Theorem reflected_continuous : forall T (F : (T -> Prop) -> Prop), Filter F -> forall (eH eV zH zV : T -> nat -> C) (z : T -> nat -> R) (zs zr off phi : T -> R) (eH0 eV0 zH0 zV0 : nat -> C) (z0 : nat -> R) (zs0 zr0 off0 phi0 : R) N s,
  (forall k, (k <= N)%nat -> toC F (fun t => eH t k) (eH0 k)) -> (forall k, (k <= N)%nat -> toC F (fun t => eV t k) (eV0 k)) ->
  (forall k, (k <= N)%nat -> toC F (fun t => zH t k) (zH0 k)) -> (forall k, (k <= N)%nat -> toC F (fun t => zV t k) (zV0 k)) ->
  (forall k, (1 <= k <= N)%nat -> toR F (fun t => z t k) (z0 k)) -> toR F zs zs0 -> toR F zr zr0 -> toR F off off0 -> toR F phi phi0 ->
  off0 <> 0%R -> in_layer z0 N s zs0 -> in_layer z0 N s zr0 ->
  layered eH0 eV0 zH0 zV0 z0 N -> F (fun t => layered (eH t) (eV t) (zH t) (zV t) (z t) N) ->
  forall a b (V : T -> C) V0, fs_pair a b ->
  F (fun t => hankel_value (eH t) (eV t) (zH t) (zV t) (z t) N (10 * a + b) true (off t) (phi t) (zs t) (zr t) (V t)) ->
  hankel_value eH0 eV0 zH0 zV0 z0 N (10 * a + b) true off0 phi0 zs0 zr0 V0 -> toC F V V0.
Proof.
  intros T F FF eH eV zH zV z zs zr off phi eH0 eV0 zH0 zV0 z0 zs0 zr0 off0 phi0 N s IeH IeV IzH IzV Iz Is Ir Io Ip Hoff S0 R0 LY0 LYt a b V V0 HP HV HV0.
  destruct (pair_class a b HP) as (ab & CA & _). destruct (code_class _ ab _ _ CA (ex_intro _ a (ex_intro _ b (conj HP eq_refl)))) as [KA VC].
  pose proof (c_inlay T F FF z z0 zs zs0 N s Iz Is S0) as L1. pose proof (c_inlay T F FF z z0 zr zr0 N s Iz Ir R0) as L2.
  set (Q := fun t => layered (eH t) (eV t) (zH t) (zV t) (z t) N /\ hankel_value (eH t) (eV t) (zH t) (zV t) (z t) N (10 * a + b) true (off t) (phi t) (zs t) (zr t) (V t) /\ in_layer (z t) N s (zs t) /\ in_layer (z t) N s (zr t)).
  assert (FQ : F Q) by (apply filter_and; [exact LYt|apply filter_and; [exact HV|apply filter_and; [exact L1|exact L2]]]).
  assert (HG : forall c d e f y o p x w W, layered c d e f y N -> in_layer y N s x -> in_layer y N s w -> hankel_value c d e f y N (10 * a + b) true o p x w W -> improper (ig N s s ab true (3 <? b)%Z (3 <? a)%Z c d e f y o p x w) W).
  { intros c d e f y o p x w W LY A1 A2 K. pose proof (hankel_ig _ _ _ _ _ N a b _ _ _ _ _ _ ab _ _ LY CA VC K) as M. pose proof (ly_z _ _ _ _ _ _ LY) as HI. rewrite (lay_in y N HI s x A1), (lay_in y N HI s w A2) in M. exact M. }
  apply (sub_back F Q V V0 FQ).
  refine (reflected_all (subF F Q) (fun x => eH (proj1_sig x)) (fun x => eV (proj1_sig x)) (fun x => zH (proj1_sig x)) (fun x => zV (proj1_sig x)) (fun x => z (proj1_sig x)) (fun x => zs (proj1_sig x)) (fun x => zr (proj1_sig x)) (fun x => off (proj1_sig x)) (fun x => phi (proj1_sig x))
    eH0 eV0 zH0 zV0 z0 zs0 zr0 off0 phi0 N (fun k Hk => sub_C F Q _ _ (IeH k Hk)) (fun k Hk => sub_C F Q _ _ (IeV k Hk)) (fun k Hk => sub_C F Q _ _ (IzH k Hk)) (fun k Hk => sub_C F Q _ _ (IzV k Hk)) (fun k Hk => sub_R F Q _ _ (Iz k Hk))
    (sub_R F Q _ _ Is) (sub_R F Q _ _ Ir) (sub_R F Q _ _ Io) (sub_R F Q _ _ Ip) Hoff LY0 (fun x => proj1 (proj2_sig x)) s S0 R0 (fun x => proj1 (proj2 (proj2 (proj2_sig x)))) (fun x => proj2 (proj2 (proj2 (proj2_sig x)))) ab _ _ KA VC (fun x => V (proj1_sig x)) V0 _ _).
  - intros [t (K1 & K2 & K3 & K4)]. cbn [proj1_sig]. now apply HG.
  - now apply HG.
Qed.
Theorem reflected_medium : forall T (F : (T -> Prop) -> Prop), Filter F -> forall (eH eV zH zV : T -> nat -> C) (z : T -> nat -> R) (zs zr off phi : T -> R) (eH0 eV0 zH0 zV0 : nat -> C) (z0 : nat -> R) (zs0 zr0 off0 phi0 : R) N s,
  (forall k, (k <= N)%nat -> toC F (fun t => eH t k) (eH0 k)) -> (forall k, (k <= N)%nat -> toC F (fun t => eV t k) (eV0 k)) ->
  (forall k, (k <= N)%nat -> toC F (fun t => zH t k) (zH0 k)) -> (forall k, (k <= N)%nat -> toC F (fun t => zV t k) (zV0 k)) ->
  (forall k, (1 <= k <= N)%nat -> toR F (fun t => z t k) (z0 k)) -> toR F zs zs0 -> toR F zr zr0 -> toR F off off0 -> toR F phi phi0 ->
  off0 <> 0%R -> in_layer z0 N s zs0 -> in_layer z0 N s zr0 ->
  layered eH0 eV0 zH0 zV0 z0 N -> F (fun t => layered (eH t) (eV t) (zH t) (zV t) (z t) N) ->
  forall a b, fs_pair a b -> exists V0, hankel_value eH0 eV0 zH0 zV0 z0 N (10 * a + b) true off0 phi0 zs0 zr0 V0 /\
  forall e : R, (0 < e)%R -> F (fun t => exists V, hankel_value (eH t) (eV t) (zH t) (zV t) (z t) N (10 * a + b) true (off t) (phi t) (zs t) (zr t) V /\ (Cmod (Cminus V V0) < e)%R).
Proof.
  intros T F FF eH eV zH zV z zs zr off phi eH0 eV0 zH0 zV0 z0 zs0 zr0 off0 phi0 N s IeH IeV IzH IzV Iz Is Ir Io Ip Hoff S0 R0 LY0 LYt a b HP.
  destruct (reflected_converges a b _ _ _ _ _ _ off0 phi0 s zs0 zr0 LY0 HP S0 R0) as [V0 HV0]. exists V0. split; [exact HV0|]. intros e He.
  set (H := fun t V => hankel_value (eH t) (eV t) (zH t) (zV t) (z t) N (10 * a + b) true (off t) (phi t) (zs t) (zr t) V).
  assert (L : toC (relF F H) snd V0).
  { refine (reflected_continuous (T * C) (relF F H) (relF_filter F H) (fun x => eH (fst x)) (fun x => eV (fst x)) (fun x => zH (fst x)) (fun x => zV (fst x)) (fun x => z (fst x)) (fun x => zs (fst x)) (fun x => zr (fst x)) (fun x => off (fst x)) (fun x => phi (fst x))
      eH0 eV0 zH0 zV0 z0 zs0 zr0 off0 phi0 N s (fun k Hk => rel_C F H _ _ (IeH k Hk)) (fun k Hk => rel_C F H _ _ (IeV k Hk)) (fun k Hk => rel_C F H _ _ (IzH k Hk)) (fun k Hk => rel_C F H _ _ (IzV k Hk)) (fun k Hk => rel_R F H _ _ (Iz k Hk))
      (rel_R F H _ _ Is) (rel_R F H _ _ Ir) (rel_R F H _ _ Io) (rel_R F H _ _ Ip) Hoff S0 R0 LY0 (rel_F F H _ LYt) a b snd V0 HP _ HV0).
    unfold relF. apply filter_forall. intros t v K. exact K. }
  pose proof (proj1 (toC_eps (relF F H) _ _) L e He) as B. unfold relF in B.
  pose proof (c_inlay T F FF z z0 zs zs0 N s Iz Is S0) as L1. pose proof (c_inlay T F FF z z0 zr zr0 N s Iz Ir R0) as L2.
  eapply filter_imp; [|exact (filter_and _ _ B (filter_and _ _ LYt (filter_and _ _ L1 L2)))]. intros t (B1 & B2 & B3 & B4).
  destruct (reflected_converges a b _ _ _ _ _ _ (off t) (phi t) s (zs t) (zr t) B2 HP B3 B4) as [V HV]. exists V. split; [exact HV|]. exact (B1 V HV).
Qed.
