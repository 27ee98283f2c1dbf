(** Differentiating the wavenumber integral under the integral sign: integrals over the angle,
    improper integrals with exponential bounds, up- and down-going waves. *)

From Coq Require Import Reals ZArith List Bool Lia Lra Psatz.
From Coquelicot Require Import Coquelicot.
From Verif Require Import PyBase CBase Kernel KernelSpec KernelPhys KernelClosed KernelPassive KernelMain KernelBVP ODE Bessel KernelBessel Cint Sommer Sommer2 Homog LayAsym LayConv.
Local Open Scope R_scope.
Local Open Scope C_scope.
Notation pinf := (Rbar_locally p_infty).

(** ** Improper integrals depending on a parameter *)
Lemma lim_unif_derive : forall (F F1 : R -> R -> R) (f : R -> R) (l x e : R), (0 < e)%R ->
  (forall T u, (Rabs (u - x) < e)%R -> is_derive (F T) u (F1 T u)) -> (forall T, continuous (F1 T) x) ->
  (forall eps : R, (0 < eps)%R -> exists T0 : R, forall T T' u : R, (T0 < T)%R -> (T0 < T')%R -> (Rabs (u - x) < e)%R -> (Rabs (F1 T u - F1 T' u) <= eps)%R) ->
  (forall u, (Rabs (u - x) < e)%R -> filterlim (fun T => F T u) pinf (locally (f u))) -> filterlim (fun T => F1 T x) pinf (locally l) -> is_derive f x l.
Proof.
  intros F F1 f l x e He HD HC HU HF HL. apply is_derive_Reals. intros eps Heps. destruct (HU (eps / 5)%R ltac:(lra)) as [T0 HT0].
  destruct (proj1 (lim_eps _ _) HL (eps / 5)%R ltac:(lra)) as [T1 HT1]. set (S := (Rmax T0 T1 + 1)%R). pose proof (Rmax_l T0 T1). pose proof (Rmax_r T0 T1).
  assert (E5 : (0 < eps / 5)%R) by lra. specialize (HC S (ball (F1 S x) (mkposreal _ E5)) (locally_ball _ _)). destruct HC as [d Hd].
  assert (Hm : (0 < Rmin d e)%R) by (apply Rmin_case; [apply cond_pos|exact He]). exists (mkposreal _ Hm). intros h Hh Ha. cbn in Ha.
  assert (Ha1 : (Rabs h < d)%R) by (eapply Rlt_le_trans; [exact Ha|apply Rmin_l]). assert (Ha2 : (Rabs h < e)%R) by (eapply Rlt_le_trans; [exact Ha|apply Rmin_r]).
  assert (B : forall T : R, (T0 < T)%R -> forall u : R, (Rabs (u - x) <= Rabs h)%R -> (Rabs (F1 T u - l) <= 3 / 5 * eps)%R).
  { intros T HT u Hu. pose proof (HT0 T S u HT ltac:(unfold S; lra) ltac:(lra)) as A1. pose proof (HT1 S ltac:(unfold S; lra)) as A2. cbv beta in A2.
    assert (A3 : (Rabs (F1 S u - F1 S x) < eps / 5)%R). { apply (Hd u). unfold ball; cbn; unfold AbsRing_ball, abs, minus, plus, opp; cbn. replace (u + - x)%R with (u - x)%R by ring. lra. }
    replace (F1 T u - l)%R with ((F1 T u - F1 S u) + ((F1 S u - F1 S x) + (F1 S x - l)))%R by ring.
    eapply Rle_trans; [apply Rabs_triang|]. eapply Rle_trans; [apply Rplus_le_compat_l, Rabs_triang|]. lra. }
  assert (Bh : forall T : R, (T0 < T)%R -> (Rabs (F T (x + h) - F T x - h * l) <= 3 / 5 * eps * Rabs h)%R).
  { intros T HT. pose proof (mvt_abs (fun u => F T u - u * l)%R (fun u => F1 T u - l)%R x (x + h) (3 / 5 * eps)%R) as M. cbv beta in M.
    replace (F T (x + h) - F T x - h * l)%R with (F T (x + h) - (x + h) * l - (F T x - x * l))%R by ring. replace (Rabs h) with (Rabs (x + h - x)) by (f_equal; ring). apply M.
    - intros c Hc. assert (Hcx : (Rabs (c - x) <= Rabs h)%R). { revert Hc. unfold Rmin, Rmax. destruct (Rle_dec x (x + h)); intros; unfold Rabs; destruct (Rcase_abs (c - x)), (Rcase_abs h); lra. }
      apply (is_derive_minus (V := R_NormedModule) (F T) (fun u => u * l)%R); [apply HD; lra|]. auto_derive; [exact I|ring].
    - intros c Hc. assert (Hcx : (Rabs (c - x) <= Rabs h)%R). { revert Hc. unfold Rmin, Rmax. destruct (Rle_dec x (x + h)); intros; unfold Rabs; destruct (Rcase_abs (c - x)), (Rcase_abs h); lra. }
      apply B; assumption. }
  assert (HH : (0 < Rabs h)%R) by now apply Rabs_pos_lt.
  assert (Fin : (Rabs (f (x + h) - f x - h * l) <= 4 / 5 * eps * Rabs h)%R).
  { assert (E20 : (0 < eps * Rabs h / 20)%R) by (pose proof (Rmult_lt_0_compat eps (Rabs h) Heps HH); lra).
    destruct (proj1 (lim_eps _ _) (HF (x + h)%R ltac:(replace (x + h - x)%R with h by ring; exact Ha2)) _ E20) as [T2 HT2].
    destruct (proj1 (lim_eps _ _) (HF x ltac:(replace (x - x)%R with 0%R by ring; rewrite Rabs_R0; exact He)) _ E20) as [T3 HT3].
    set (T := (Rmax T0 (Rmax T2 T3) + 1)%R). pose proof (Rmax_l T0 (Rmax T2 T3)). pose proof (Rmax_r T0 (Rmax T2 T3)). pose proof (Rmax_l T2 T3). pose proof (Rmax_r T2 T3).
    specialize (HT2 T ltac:(unfold T; lra)). specialize (HT3 T ltac:(unfold T; lra)). specialize (Bh T ltac:(unfold T; lra)). cbv beta in HT2, HT3.
    replace (f (x + h) - f x - h * l)%R with ((F T (x + h) - F T x - h * l) + (- (F T (x + h) - f (x + h)) + (F T x - f x)))%R by ring.
    eapply Rle_trans; [apply Rabs_triang|]. eapply Rle_trans; [apply Rplus_le_compat_l, Rabs_triang|]. rewrite Rabs_Ropp. lra. }
  replace ((f (x + h) - f x) / h - l)%R with ((f (x + h) - f x - h * l) / h)%R by (field; exact Hh). unfold Rdiv. rewrite Rabs_mult, Rabs_inv.
  apply (Rmult_lt_reg_r (Rabs h)); [exact HH|]. rewrite Rmult_assoc, Rinv_l, Rmult_1_r by lra. pose proof (Rmult_lt_0_compat eps (Rabs h) Heps HH). lra.
Qed.

Lemma c2_cont : forall F u v, c2 F u v -> contC (F u) v.
Proof.
  intros F u v [H1 H2]. assert (X : forall G : R -> R -> R, continuity_2d_pt G u v -> filterlim (G u) (locally v) (locally (G u v))).
  { intros G H P [e He]. destruct (H e) as [d Hd]. exists d. intros y Hy. apply He. unfold ball; cbn; unfold AbsRing_ball, abs, minus, plus, opp; cbn. apply Hd; [rewrite Rminus_eq_0, Rabs_R0; apply cond_pos|exact Hy]. }
  split; [exact (X _ H1)|exact (X _ H2)].
Qed.
Lemma c2_cC : forall F u, (forall v, c2 F u v) -> cC (F u). Proof. intros F u H v. apply c2_cont, H. Qed.

Lemma eb_tail2 : forall c phi, eb c phi -> (0 < c)%R -> exists K, (0 <= K)%R /\ forall f, cC f -> (forall x : R, (0 <= x)%R -> (Cmod (f x) <= Cmod (phi x))%R) ->
  forall S T : R, (0 <= S <= T)%R -> (Cmod (CI f S T) <= K * exp (- (c / 2 * S)))%R.
Proof.
  intros c phi H Hc. destruct (eb_exp c phi H Hc) as (K & HK & B). exists (2 * (K / (c / 2)))%R. split; [apply Rmult_le_pos; [lra|apply Rmult_le_pos; [exact HK|left; apply Rinv_0_lt_compat; lra]]|].
  intros f Cf Hf S T HST. eapply Rle_trans; [apply (CI_bound f (fun x => K * exp (- (c / 2 * x)))%R)|].
  - lra.
  - exact Cf.
  - intros x. apply (ex_derive_continuous (fun x => K * exp (- (c / 2 * x)))%R). auto_derive. exact I.
  - intros x Hx. eapply Rle_trans; [apply Hf; lra|]. apply B. lra.
  - rewrite Rmult_assoc. apply Rmult_le_compat_l; [lra|]. apply exp_int2; lra.
Qed.
Lemma eb_le : forall c phi f, eb c phi -> cC f -> (forall x : R, (0 <= x)%R -> (Cmod (f x) <= Cmod (phi x))%R) -> eb c f.
Proof. intros c phi f [_ (M & n & HM & B)] Cf H. split; [exact Cf|]. exists M, n. split; [exact HM|]. intros x Hx. eapply Rle_trans; [apply H, Hx|apply B, Hx]. Qed.

Lemma improper_derive : forall (F0 F1 F2 : R -> R -> C) (phi : R -> C) (f : R -> C) (c x e : R), (0 < e)%R -> (0 < c)%R -> eb c phi ->
  (forall u lam, (Rabs (u - x) < e)%R -> c2 F0 u lam /\ c2 F1 u lam /\ c2 F2 u lam) ->
  (forall u lam, (Rabs (u - x) < e)%R -> is_deriveC (fun w => F0 w lam) u (F1 u lam) /\ is_deriveC (fun w => F1 w lam) u (F2 u lam)) ->
  (forall u lam, (Rabs (u - x) < e)%R -> (0 <= lam)%R -> (Cmod (F1 u lam) <= Cmod (phi lam))%R) ->
  (forall u, (Rabs (u - x) < e)%R -> improper (F0 u) (f u)) ->
  exists l, improper (F1 x) l /\ is_deriveC f x l.
Proof.
  intros F0 F1 F2 phi f c x e He Hc EB HC HD HB HI.
  assert (X0 : (Rabs (x - x) < e)%R) by (rewrite Rminus_eq_0, Rabs_R0; exact He).
  assert (NB : forall u : R, (Rabs (u - x) < e)%R -> locally u (fun v => (Rabs (v - x) < e)%R)).
  { intros u Hu. assert (P : (0 < e - Rabs (u - x))%R) by lra. exists (mkposreal _ P). intros v Hv. unfold ball in Hv; cbn in Hv; unfold AbsRing_ball, abs, minus, plus, opp in Hv; cbn in Hv.
    replace (v - x)%R with ((v + - u) + (u - x))%R by ring. eapply Rle_lt_trans; [apply Rabs_triang|]. lra. }
  assert (C0 : forall u, (Rabs (u - x) < e)%R -> cC (F0 u)) by (intros u Hu; apply c2_cC; intros; now apply HC).
  assert (C1 : forall u, (Rabs (u - x) < e)%R -> cC (F1 u)) by (intros u Hu; apply c2_cC; intros; now apply HC).
  destruct (eb_improper c (F1 x)) as [l Hl]; [apply (eb_le c phi); [exact EB|now apply C1|intros; now apply HB]|exact Hc|]. exists l. split; [exact Hl|].
  assert (D0 : forall T u, (Rabs (u - x) < e)%R -> is_deriveC (fun v => CI (F0 v) 0 T) u (CI (F1 u) 0 T)).
  { intros T u Hu. apply CI_param; [|intros; now apply HC|]; (eapply filter_imp; [|apply (NB u Hu)]); cbv beta; intros v Hv; [intros y; now apply HD|now apply C0]. }
  assert (D1 : forall T, is_deriveC (fun v => CI (F1 v) 0 T) x (CI (F2 x) 0 T)).
  { intros T. apply CI_param; [|intros; now apply HC|]; (eapply filter_imp; [|apply (NB x X0)]); cbv beta; intros v Hv; [intros y; now apply HD|now apply C1]. }
  assert (U : forall eps : R, (0 < eps)%R -> exists T0 : R, forall T T' u : R, (T0 < T)%R -> (T0 < T')%R -> (Rabs (u - x) < e)%R -> (Cmod (CI (F1 u) 0 T - CI (F1 u) 0 T')%C <= eps)%R).
  { destruct (eb_tail2 c phi EB Hc) as (K & HK & TB). intros eps Heps. assert (E1 : (0 < eps / (K + 1))%R) by (apply Rdiv_lt_0_compat; lra).
    pose proof (exp_dec_lim (c / 2) ltac:(lra)) as L. destruct (L (ball 0%R (mkposreal _ E1)) (locally_ball 0%R (mkposreal _ E1))) as [T1 HT]. exists (Rmax T1 0). pose proof (Rmax_l T1 0). pose proof (Rmax_r T1 0).
    assert (Y : forall T T' u : R, (Rmax T1 0 < T)%R -> (T <= T')%R -> (Rabs (u - x) < e)%R -> (Cmod (CI (F1 u) 0 T - CI (F1 u) 0 T')%C <= eps)%R).
    { intros T T' u P1 P2 Hu. rewrite (CI_chasles (F1 u) 0 T T' (C1 u Hu)). replace (CI (F1 u) 0 T - (CI (F1 u) 0 T + CI (F1 u) T T')) with (- CI (F1 u) T T') by ring. rewrite Cmod_opp.
      eapply Rle_trans; [apply (TB (F1 u) (C1 u Hu)); [intros; now apply HB|lra]|].
      specialize (HT T ltac:(lra)). cbv beta in HT. unfold ball in HT; cbn in HT; unfold AbsRing_ball, abs, minus, plus, opp in HT; cbn in HT. rewrite Ropp_0, Rplus_0_r, Rabs_pos_eq in HT by (left; apply exp_pos).
      pose proof (exp_pos (- (c / 2 * T))). apply Rle_trans with ((K + 1) * exp (- (c / 2 * T)))%R; [nra|]. apply Rlt_le in HT. apply (Rmult_le_compat_l (K + 1)) in HT; [|lra]. replace ((K + 1) * (eps / (K + 1)))%R with eps in HT by (field; lra). exact HT. }
    intros T T' u P1 P2 Hu. destruct (Rle_lt_dec T T') as [Q|Q]; [now apply Y|]. replace (CI (F1 u) 0 T - CI (F1 u) 0 T') with (- (CI (F1 u) 0 T' - CI (F1 u) 0 T)) by ring. rewrite Cmod_opp. apply Y; auto. lra. }
  split.
  - apply (lim_unif_derive (fun T u => fst (CI (F0 u) 0 T)) (fun T u => fst (CI (F1 u) 0 T)) (fun u => fst (f u)) (fst l) x e He).
    + intros T u Hu. exact (proj1 (D0 T u Hu)).
    + intros T. apply (ex_derive_continuous (fun u => fst (CI (F1 u) 0 T))). exists (fst (CI (F2 x) 0 T)). exact (proj1 (D1 T)).
    + intros eps Heps. destruct (U eps Heps) as [T0 HT0]. exists T0. intros T T' u P1 P2 P3. eapply Rle_trans; [apply (fst_le_Cmod (CI (F1 u) 0 T - CI (F1 u) 0 T'))|now apply HT0].
    + intros u Hu. exact (proj1 (proj2 (HI u Hu))).
    + exact (proj1 (proj2 Hl)).
  - apply (lim_unif_derive (fun T u => snd (CI (F0 u) 0 T)) (fun T u => snd (CI (F1 u) 0 T)) (fun u => snd (f u)) (snd l) x e He).
    + intros T u Hu. exact (proj2 (D0 T u Hu)).
    + intros T. apply (ex_derive_continuous (fun u => snd (CI (F1 u) 0 T))). exists (snd (CI (F2 x) 0 T)). exact (proj2 (D1 T)).
    + intros eps Heps. destruct (U eps Heps) as [T0 HT0]. exists T0. intros T T' u P1 P2 P3. eapply Rle_trans; [apply (snd_le_Cmod (CI (F1 u) 0 T - CI (F1 u) 0 T'))|now apply HT0].
    + intros u Hu. exact (proj2 (proj2 (HI u Hu))).
    + exact (proj2 (proj2 Hl)).
Qed.

Definition bnd (M : R) (n : nat) (c lam : R) : R := (M * (1 + lam) ^ n * exp (- (c * lam)))%R.
Lemma bnd_eb : forall M n c, (0 <= M)%R -> eb c (fun lam => RtoC (bnd M n c lam)).
Proof.
  intros M n c HM. split.
  - apply cC_R. intros x. apply (ex_derive_continuous (bnd M n c)). unfold bnd. auto_derive. exact I.
  - exists M, n. split; [exact HM|]. intros x Hx. unfold bnd. rewrite Cmod_R, Rabs_pos_eq; [apply Rle_refl|]. apply Rmult_le_pos; [apply Rmult_le_pos; [exact HM|apply pow_le; lra]|left; apply exp_pos].
Qed.
(** Families of integrands, continuous and uniformly bounded. *)
Definition fam (D : R -> Prop) (c : R) (F : R -> R -> C) : Prop :=
  (forall u lam, D u -> c2 F u lam) /\ exists M n, (0 <= M)%R /\ forall u lam, D u -> (0 <= lam)%R -> (Cmod (F u lam) <= bnd M n c lam)%R.
Lemma bnd_le : forall M n c lam M' n' c' , (0 <= M)%R -> (0 <= lam)%R -> (M <= M')%R -> (n <= n')%nat -> (c' <= c)%R -> (bnd M n c lam <= bnd M' n' c' lam)%R.
Proof.
  intros M n c lam M' n' c' HM Hl H1 H2 H3. unfold bnd. apply Rmult_le_compat; [apply Rmult_le_pos; [exact HM|apply pow_le; lra]|left; apply exp_pos| |].
  - apply Rmult_le_compat; [exact HM|apply pow_le; lra|exact H1|apply Rle_pow; [lra|exact H2]].
  - apply exp_le_mono. nra.
Qed.
Lemma fam_plus : forall D c F G, fam D c F -> fam D c G -> fam D c (fun u l => F u l + G u l).
Proof.
  intros D c F G [C1 (M & n & HM & B)] [C2 (M' & n' & HM' & B')]. split; [intros; apply c2_plus; auto|]. exists (M + M')%R, (Nat.max n n'). split; [lra|]. intros u lam Hu Hl.
  eapply Rle_trans; [apply Cmod_triangle|]. specialize (B u lam Hu Hl). specialize (B' u lam Hu Hl).
  pose proof (bnd_le M n c lam M (Nat.max n n') c HM Hl (Rle_refl _) (Nat.le_max_l _ _) (Rle_refl _)). pose proof (bnd_le M' n' c lam M' (Nat.max n n') c HM' Hl (Rle_refl _) (Nat.le_max_r _ _) (Rle_refl _)).
  unfold bnd in *. rewrite !Rmult_plus_distr_r. lra.
Qed.
Lemma fam_mult : forall D c c' F G, fam D c F -> fam D c' G -> fam D (c + c') (fun u l => F u l * G u l).
Proof.
  intros D c c' F G [C1 (M & n & HM & B)] [C2 (M' & n' & HM' & B')]. split; [intros; apply c2_mult; auto|]. exists (M * M')%R, (n + n')%nat. split; [nra|]. intros u lam Hu Hl.
  rewrite Cmod_mult. specialize (B u lam Hu Hl). specialize (B' u lam Hu Hl).
  replace (bnd (M * M') (n + n') (c + c') lam) with (bnd M n c lam * bnd M' n' c' lam)%R.
  - apply Rmult_le_compat; try apply Cmod_ge_0; assumption.
  - unfold bnd. rewrite pow_add. replace (- ((c + c') * lam))%R with (- (c * lam) + - (c' * lam))%R by ring. rewrite exp_plus. ring.
Qed.
Lemma fam_mult0 : forall D c F G, fam D c F -> fam D 0 G -> fam D c (fun u l => F u l * G u l).
Proof. intros D c F G H1 H2. replace c with (c + 0)%R by ring. now apply fam_mult. Qed.
Lemma fam_eb : forall D c f, eb c f -> fam D c (fun _ l => f l).
Proof. intros D c f [H1 (M & n & HM & B)]. split; [intros; apply c2_2, H1|]. exists M, n. split; [exact HM|]. intros u lam _ Hl. now apply B. Qed.
Lemma fam_ext : forall D c F G, (forall u l, F u l = G u l) -> fam D c F -> fam D c G.
Proof.
  intros D c F G E [C1 (M & n & HM & B)]. split.
  - intros u lam Hu. destruct (C1 u lam Hu) as [A1 A2]. split; [apply (continuity_2d_pt_ext (fun a b => fst (F a b))); [intros a b; now rewrite E|exact A1]|apply (continuity_2d_pt_ext (fun a b => snd (F a b))); [intros a b; now rewrite E|exact A2]].
  - exists M, n. split; [exact HM|]. intros u lam Hu Hl. rewrite <- E. now apply B.
Qed.

Lemma improper_derive_fam : forall (F0 F1 F2 : R -> R -> C) (f : R -> C) (c x e : R), (0 < e)%R -> (0 < c)%R ->
  let D := fun u => (Rabs (u - x) < e)%R in
  fam D c F0 -> fam D c F1 -> fam D c F2 ->
  (forall u lam, is_deriveC (fun w => F0 w lam) u (F1 u lam)) -> (forall u lam, is_deriveC (fun w => F1 w lam) u (F2 u lam)) ->
  (forall u, D u -> improper (F0 u) (f u)) ->
  exists l, improper (F1 x) l /\ is_deriveC f x l.
Proof.
  intros F0 F1 F2 f c x e He Hc D H0 H1 H2 D0 D1 HI. destruct H1 as [C1 (M & n & HM & B)].
  apply (improper_derive F0 F1 F2 (fun lam => RtoC (bnd M n c lam)) f c x e He Hc (bnd_eb M n c HM)).
  - intros u lam Hu. split; [exact (proj1 H0 u lam Hu)|split; [exact (C1 u lam Hu)|exact (proj1 H2 u lam Hu)]].
  - intros u lam _. split; [apply D0|apply D1].
  - intros u lam Hu Hl. eapply Rle_trans; [apply B; assumption|]. rewrite Cmod_R. apply Rle_abs.
  - exact HI.
Qed.

(** ** Integrals over the angle *)
Definition pl (X Y t : R) : C := (cos (X * cos t + Y * sin t), sin (X * cos t + Y * sin t)).
Definition W (u : R -> R) (X Y : R) : C := CInt (fun t => RtoC (u t) * pl X Y t).
Definition trg (u : R -> R) : Prop := (forall t, continuous u t) /\ forall t, (Rabs (u t) <= 1)%R.
Lemma trg_mult : forall u v, trg u -> trg v -> trg (fun t => u t * v t)%R.
Proof.
  intros u v [A1 A2] [B1 B2]. split; [intros; apply (continuous_mult (K := R_AbsRing)); auto|]. intros t. rewrite Rabs_mult. specialize (A2 t). specialize (B2 t).
  pose proof (Rabs_pos (u t)). pose proof (Rabs_pos (v t)). nra.
Qed.
Lemma cont_cos : forall t, continuous cos t. Proof. intros. apply (ex_derive_continuous cos). auto_derive. exact I. Qed.
Lemma cont_sin : forall t, continuous sin t. Proof. intros. apply (ex_derive_continuous sin). auto_derive. exact I. Qed.
Lemma trg_kh : forall i, trg (kh i).
Proof. intros i. unfold kh. destruct (i =? 1)%Z; (split; [|intros; apply Rabs_le, COS_bound || apply Rabs_le, SIN_bound]); [exact cont_cos|exact cont_sin]. Qed.
Lemma trg_th : forall i, trg (th i).
Proof.
  intros i. unfold th. destruct (i =? 1)%Z; split.
  - intros t. apply (continuous_opp (V := R_NormedModule) sin), cont_sin.
  - intros t. rewrite Rabs_Ropp. apply Rabs_le, SIN_bound.
  - exact cont_cos.
  - intros t. apply Rabs_le, COS_bound.
Qed.
Lemma trg_1 : trg (fun _ => 1%R). Proof. split; [intros; apply continuous_const|]. intros. rewrite Rabs_R1. lra. Qed.
Lemma cC_pl : forall u X Y, (forall t, continuous u t) -> cC (fun t => RtoC (u t) * pl X Y t).
Proof.
  intros u X Y Hu. apply cC_mult; [now apply cC_R|].
  apply cC_pair; intros x; unfold pl; cbn [fst snd]; [apply (ex_derive_continuous (fun t => cos (X * cos t + Y * sin t)))|apply (ex_derive_continuous (fun t => sin (X * cos t + Y * sin t)))]; auto_derive; exact I.
Qed.
Lemma W_ext : forall u v X Y, (forall t, u t = v t) -> W u X Y = W v X Y.
Proof. intros u v X Y H. apply CInt_ext. intros; now rewrite H. Qed.
Lemma W_opp : forall u X Y, trg u -> W (fun t => - u t)%R X Y = - W u X Y.
Proof.
  intros u X Y [Hu _]. change (CI (fun t => RtoC (- u t) * pl X Y t) 0 (2 * PI) = - CI (fun t => RtoC (u t) * pl X Y t) 0 (2 * PI)).
  rewrite <- CI_opp by now apply cC_pl. apply CI_ext. intros t. rewrite RtoC_opp. ring.
Qed.
Lemma W_plus : forall u v X Y, trg u -> trg v -> W (fun t => u t + v t)%R X Y = W u X Y + W v X Y.
Proof.
  intros u v X Y [Hu _] [Hv _]. change (CI (fun t => RtoC (u t + v t) * pl X Y t) 0 (2 * PI) = CI (fun t => RtoC (u t) * pl X Y t) 0 (2 * PI) + CI (fun t => RtoC (v t) * pl X Y t) 0 (2 * PI)).
  rewrite <- CI_plus by now apply cC_pl. apply CI_ext. intros t. rewrite RtoC_plus. ring.
Qed.
Lemma two_pi : (0 <= 2 * PI)%R. Proof. pose proof PI_RGT_0. lra. Qed.
Lemma CI_const_bound : forall f M, cC f -> (forall t, (Cmod (f t) <= M)%R) -> (Cmod (CI f 0 (2 * PI)) <= 4 * PI * M)%R.
Proof.
  intros f M Cf H. eapply Rle_trans; [apply (CI_bound f (fun _ => M) 0 (2 * PI) two_pi Cf)|].
  - intros; apply continuous_const.
  - intros; apply H.
  - rewrite RInt_const. unfold scal; cbn; unfold mult; cbn. lra.
Qed.
Lemma pl_mod : forall X Y t, Cmod (pl X Y t) = 1%R.
Proof. intros. unfold pl, Cmod. cbn [fst snd]. rewrite <- sqrt_1. f_equal. pose proof (sin2_cos2 (X * cos t + Y * sin t)) as H. unfold Rsqr in H. cbn [pow]. lra. Qed.
Lemma W_bound : forall u X Y, trg u -> (Cmod (W u X Y) <= 4 * PI)%R.
Proof.
  intros u X Y [H1 H2]. rewrite <- (Rmult_1_r (4 * PI)). apply (CI_const_bound (fun t => RtoC (u t) * pl X Y t)); [now apply cC_pl|]. intros t. rewrite Cmod_mult, Cmod_R, pl_mod, Rmult_1_r. apply H2.
Qed.
Lemma cos_lip : forall a b, (Rabs (cos b - cos a) <= 1 * Rabs (b - a))%R.
Proof. intros a b. apply (mvt_abs cos (fun x => - sin x)%R); intros; [auto_derive; [exact I|ring]|]. rewrite Rabs_Ropp. apply Rabs_le, SIN_bound. Qed.
Lemma sin_lip : forall a b, (Rabs (sin b - sin a) <= 1 * Rabs (b - a))%R.
Proof. intros a b. apply (mvt_abs sin cos); intros; [auto_derive; [exact I|ring]|]. apply Rabs_le, COS_bound. Qed.
Lemma pl_lip : forall X Y X' Y' t, (Cmod (pl X Y t - pl X' Y' t)%C <= 2 * (Rabs (X - X') + Rabs (Y - Y')))%R.
Proof.
  intros X Y X' Y' t. eapply Rle_trans; [apply Cmod_le_sum|]. unfold pl. cbn [fst snd Cminus Cplus Copp].
  pose proof (cos_lip (X' * cos t + Y' * sin t) (X * cos t + Y * sin t)) as A. pose proof (sin_lip (X' * cos t + Y' * sin t) (X * cos t + Y * sin t)) as B. unfold Rminus in A, B.
  assert (E : (Rabs (X * cos t + Y * sin t + - (X' * cos t + Y' * sin t)) <= Rabs (X - X') + Rabs (Y - Y'))%R).
  { replace (X * cos t + Y * sin t + - (X' * cos t + Y' * sin t))%R with ((X - X') * cos t + (Y - Y') * sin t)%R by ring. eapply Rle_trans; [apply Rabs_triang|]. rewrite !Rabs_mult.
    assert (C1 : (Rabs (cos t) <= 1)%R) by apply Rabs_le, COS_bound. assert (C2 : (Rabs (sin t) <= 1)%R) by apply Rabs_le, SIN_bound.
    pose proof (Rabs_pos (X - X')). pose proof (Rabs_pos (Y - Y')). pose proof (Rabs_pos (cos t)). pose proof (Rabs_pos (sin t)). nra. }
  lra.
Qed.
Lemma W_lip : forall u X Y X' Y', trg u -> (Cmod (W u X Y - W u X' Y')%C <= 8 * PI * (Rabs (X - X') + Rabs (Y - Y')))%R.
Proof.
  intros u X Y X' Y' [H1 H2]. change (Cmod (CI (fun t => RtoC (u t) * pl X Y t) 0 (2 * PI) - CI (fun t => RtoC (u t) * pl X' Y' t) 0 (2 * PI))%C <= 8 * PI * (Rabs (X - X') + Rabs (Y - Y')))%R.
  rewrite <- CI_minus by now apply cC_pl. replace (8 * PI * (Rabs (X - X') + Rabs (Y - Y')))%R with (4 * PI * (2 * (Rabs (X - X') + Rabs (Y - Y'))))%R by ring.
  apply CI_const_bound; [apply cC_minus; now apply cC_pl|]. intros t. replace (RtoC (u t) * pl X Y t - RtoC (u t) * pl X' Y' t) with (RtoC (u t) * (pl X Y t - pl X' Y' t)) by ring.
  rewrite Cmod_mult, Cmod_R. pose proof (pl_lip X Y X' Y' t). specialize (H2 t). pose proof (Rabs_pos (u t)). pose proof (Cmod_ge_0 (pl X Y t - pl X' Y' t)). nra.
Qed.
Lemma c2_lip : forall (H : R -> R -> C) (p q : R -> R -> R) K u v, (0 < K)%R -> (forall a b, (Cmod (H a b - H u v)%C <= K * (Rabs (p a b - p u v) + Rabs (q a b - q u v)))%R) ->
  continuity_2d_pt p u v -> continuity_2d_pt q u v -> c2 H u v.
Proof.
  intros H p q K u v HK HL Cp Cq.
  assert (X : forall eps : posreal, locally_2d (fun a b => (Cmod (H a b - H u v)%C < eps)%R) u v).
  { intros eps. assert (E : (0 < eps / (2 * K))%R) by (apply Rdiv_lt_0_compat; [apply cond_pos|lra]). specialize (Cp (mkposreal _ E)). specialize (Cq (mkposreal _ E)). cbn in Cp, Cq.
    pose proof (locally_2d_and _ _ _ _ Cp Cq) as A. eapply locally_2d_impl; [|exact A]. apply locally_2d_forall. intros a b [A1 A2]. eapply Rle_lt_trans; [apply HL|].
    apply Rlt_le_trans with (K * (eps / (2 * K) + eps / (2 * K)))%R; [apply Rmult_lt_compat_l; lra|]. right. field. lra. }
  split; intros eps; (eapply locally_2d_impl; [|exact (X eps)]); apply locally_2d_forall; intros a b A; eapply Rle_lt_trans; [|exact A| |exact A].
  - apply (fst_le_Cmod (H a b - H u v)).
  - apply (snd_le_Cmod (H a b - H u v)).
Qed.
Lemma fam_Wx : forall D u y, trg u -> fam D 0 (fun x lam => W u (lam * x) (lam * y)).
Proof.
  intros D u y Hu. split.
  - intros x lam _. apply (c2_lip _ (fun a b => b * a)%R (fun a b => b * y)%R (8 * PI)); [pose proof PI_RGT_0; lra| | |].
    + intros a b. now apply W_lip.
    + apply continuity_2d_pt_mult; [apply continuity_2d_pt_id2|apply continuity_2d_pt_id1].
    + apply continuity_2d_pt_mult; [apply continuity_2d_pt_id2|apply continuity_2d_pt_const].
  - exists (4 * PI)%R, 0%nat. split; [pose proof PI_RGT_0; lra|]. intros x lam _ _. unfold bnd. rewrite Rmult_0_l, Ropp_0, exp_0, pow_O, !Rmult_1_r. now apply W_bound.
Qed.
Lemma fam_Wy : forall D u x, trg u -> fam D 0 (fun y lam => W u (lam * x) (lam * y)).
Proof.
  intros D u x Hu. split.
  - intros y lam _. apply (c2_lip _ (fun a b => b * x)%R (fun a b => b * a)%R (8 * PI)); [pose proof PI_RGT_0; lra| | |].
    + intros a b. now apply W_lip.
    + apply continuity_2d_pt_mult; [apply continuity_2d_pt_id2|apply continuity_2d_pt_const].
    + apply continuity_2d_pt_mult; [apply continuity_2d_pt_id2|apply continuity_2d_pt_id1].
  - exists (4 * PI)%R, 0%nat. split; [pose proof PI_RGT_0; lra|]. intros y lam _ _. unfold bnd. rewrite Rmult_0_l, Ropp_0, exp_0, pow_O, !Rmult_1_r. now apply W_bound.
Qed.
Lemma fam_Wz : forall D u x y, trg u -> fam D 0 (fun _ lam => W u (lam * x) (lam * y)).
Proof.
  intros D u x y Hu. split.
  - intros z lam _. apply (c2_lip _ (fun a b => b * x)%R (fun a b => b * y)%R (8 * PI)); [pose proof PI_RGT_0; lra| | |].
    + intros a b. now apply W_lip.
    + apply continuity_2d_pt_mult; [apply continuity_2d_pt_id2|apply continuity_2d_pt_const].
    + apply continuity_2d_pt_mult; [apply continuity_2d_pt_id2|apply continuity_2d_pt_const].
  - exists (4 * PI)%R, 0%nat. split; [pose proof PI_RGT_0; lra|]. intros z lam _ _. unfold bnd. rewrite Rmult_0_l, Ropp_0, exp_0, pow_O, !Rmult_1_r. now apply W_bound.
Qed.
Lemma pl_dx : forall lam x Y t, is_deriveC (fun w => pl (lam * w) Y t) x (Ci * RtoC (lam * cos t) * pl (lam * x) Y t).
Proof. intros. unfold pl. split; cbn [fst snd Ci Cmult RtoC]; (auto_derive; [exact I|]); ring. Qed.
Lemma pl_dy : forall lam X y t, is_deriveC (fun w => pl X (lam * w) t) y (Ci * RtoC (lam * sin t) * pl X (lam * y) t).
Proof. intros. unfold pl. split; cbn [fst snd Ci Cmult RtoC]; (auto_derive; [exact I|]); ring. Qed.
