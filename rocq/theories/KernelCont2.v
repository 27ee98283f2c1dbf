(** The response of the kernel depends continuously on all parameters: the calls of greenfct and wavenumber. *)

From Coq Require Import Reals ZArith List Bool Lia Lra.
From Coquelicot Require Import Coquelicot.
From Verif Require Import PyBase CBase ODE Sommer Cint Kernel KernelSpec KernelClosed KernelPassive KernelPhys KernelMain KernelBVP KernelThm KernelThm2 KernelDeep KernelFinal LayDeep3 KernelCont.
Import ListNotations.
Local Open Scope R_scope.
Local Open Scope C_scope.
Local Open Scope res_scope.

Section Lim.
Context {T : Type} (F : (T -> Prop) -> Prop) {FF : Filter F}.
Notation toR := (toR F).
Notation toC := (toC F).

Lemma c_gam : forall (h v q : T -> nat -> C) lam (h0 v0 q0 : nat -> C) lam0 k, v0 k <> 0 -> (0 < fst (gam h0 v0 q0 lam0 k))%R ->
  toC (fun t => h t k) (h0 k) -> toC (fun t => v t k) (v0 k) -> toC (fun t => q t k) (q0 k) -> toR lam lam0 ->
  toC (fun t => gam (h t) (v t) (q t) (lam t) k) (gam h0 v0 q0 lam0 k).
Proof using FF.
  intros h v q lam h0 v0 q0 lam0 k V P Ih Iv Iq Il. unfold gam in *. apply toC_sqrt; [assumption|exact P|]. apply toC_plus; [assumption| |now apply toC_mult].
  apply toC_mult; [assumption|now apply toC_div|]. apply toC_RtoC; [assumption|]. now apply toR_mult.
Qed.

Section One.
Variables (h v q : T -> nat -> C) (z : T -> nat -> R) (lam zs zr : T -> R) (h0 v0 q0 : nat -> C) (z0 : nat -> R) (lam0 zs0 zr0 : R) (N : nat).
Hypothesis Ih : forall k, (k <= N)%nat -> toC (fun t => h t k) (h0 k).
Hypothesis Iv : forall k, (k <= N)%nat -> toC (fun t => v t k) (v0 k).
Hypothesis Iq : forall k, (k <= N)%nat -> toC (fun t => q t k) (q0 k).
Hypothesis Iz : forall k, toR (fun t => z t k) (z0 k).
Hypothesis Il : toR lam lam0.
Hypothesis Is : toR zs zs0.
Hypothesis Ir : toR zr zr0.
Hypothesis H0 : forall k, (k <= N)%nat -> h0 k <> 0.
Hypothesis V0 : forall k, (k <= N)%nat -> v0 k <> 0.
Hypothesis G0 : forall k, (k <= N)%nat -> (0 < fst (gam h0 v0 q0 lam0 k))%R.
Hypothesis REG : regular h0 (gam h0 v0 q0 lam0) z0 N.
Notation g t := (gam (h t) (v t) (q t) (lam t)).
Notation g0 := (gam h0 v0 q0 lam0).

Lemma g_nz : forall k, (k <= N)%nat -> g0 k <> 0.
Proof using G0. intros k Hk E. specialize (G0 k Hk). rewrite E in G0. cbn in G0. lra. Qed.
Lemma Ig : forall k, (k <= N)%nat -> toC (fun t => g t k) (g0 k).
Proof using All. intros k Hk. apply c_gam; auto. Qed.
Lemma c_wsrc : forall pm k, (k <= N)%nat -> toC (fun t => wsrc (h t) (g t) pm k) (wsrc h0 g0 pm k).
Proof using All. intros pm k Hk. unfold wsrc. destruct (Ceq_dec pm 1); [|now apply toC_const]. apply toC_div; [assumption|now apply g_nz|now apply Ih|now apply Ig]. Qed.
Lemma c_wgt : forall sg k, (k <= N)%nat -> toC (fun t => wgt (h t) (g t) sg k) (wgt h0 g0 sg k).
Proof using All. intros sg k Hk. unfold wgt. destruct (Ceq_dec sg 1); [now apply toC_const|]. apply toC_div; [assumption|now apply H0|now apply Ig|now apply Ih]. Qed.
Lemma c_opt : forall (b : bool) (f : T -> C) (l : C), toC f l -> toC (fun t => if b then f t else RtoC 1) (if b then l else RtoC 1).
Proof using FF. intros [] f l H; [exact H|now apply toC_const]. Qed.
Lemma nz_opt : forall (b : bool) (c : C), c <> 0 -> (if b then c else RtoC 1) <> 0.
Proof. intros [] c H; [exact H|apply C1_neq_0]. Qed.
Lemma c_fTM : forall ab s r, (s <= N)%nat -> (r <= N)%nat -> toC (fun t => fTM (h t) (v t) (g t) ab s r) (fTM h0 v0 g0 ab s r).
Proof using All.
  intros ab s r Hs Hr. unfold fTM. apply toC_div; [assumption|now apply nz_opt, V0| |now apply c_opt, Iv]. apply toC_div; [assumption|now apply nz_opt, V0| |now apply c_opt, Iv].
  apply toC_mult; [assumption| |now apply c_wgt]. apply toC_mult; [assumption|now apply toC_const|now apply c_wsrc].
Qed.
Lemma c_fTE : forall ab s, (s <= N)%nat -> toC (fun t => fTE (h t) (v t) (g t) ab s) (fTE h0 v0 g0 ab s).
Proof using All. intros ab s Hs. unfold fTE. apply toC_div; [assumption|now apply nz_opt, V0|now apply c_wsrc|now apply c_opt, Iv]. Qed.
Lemma c_PTM : forall ab xd s r, (s <= N)%nat -> (r <= N)%nat -> (xd = false -> zs0 <> zr0) ->
  toC (fun t => PTM (h t) (v t) (q t) (z t) N (lam t) ab xd s r (zs t) (zr t)) (PTM h0 v0 q0 z0 N lam0 ab xd s r zs0 zr0).
Proof using All.
  intros ab xd s r Hs Hr X. unfold PTM. destruct (mode_used true ab); [|now apply toC_const]. apply toC_mult; [assumption|now apply c_fTM|]. apply c_mode; auto. exact Ig.
Qed.
Lemma c_PTE : forall ab xd s r, (s <= N)%nat -> (r <= N)%nat -> (xd = false -> zs0 <> zr0) ->
  toC (fun t => PTE (h t) (v t) (q t) (z t) N (lam t) ab xd s r (zs t) (zr t)) (PTE h0 v0 q0 z0 N lam0 ab xd s r zs0 zr0).
Proof using All.
  intros ab xd s r Hs Hr X. unfold PTE. destruct (mode_used false ab); [|now apply toC_const]. apply toC_mult; [assumption|now apply c_fTE|]. apply c_mode; auto. exact Ig.
Qed.
End One.

(** The layer number of a depth that is not at an interface does not change under small changes. *)
Lemma c_lay : forall (z : T -> nat -> R) z0 (x : T -> R) x0 n, (forall k, (1 <= k <= n)%nat -> toR (fun t => z t k) (z0 k)) -> toR x x0 ->
  (forall k, (1 <= k <= n)%nat -> z0 k <> x0) -> F (fun t => lay (z t) n (x t) = lay z0 n x0).
Proof using FF.
  intros z z0 x x0 n Iz Ix. induction n; intros D; [apply filter_forall; reflexivity|].
  assert (IH : F (fun t => lay (z t) n (x t) = lay z0 n x0)) by (apply IHn; intros; [apply Iz|apply D]; lia). specialize (Iz (S n) ltac:(lia)). specialize (D (S n) ltac:(lia)).
  cbn [lay]. destruct (Rlt_dec (z0 (S n)) x0) as [L|L].
  - eapply filter_imp; [|exact (toR_lt F _ _ _ _ Iz Ix L)]. intros t Ht. cbn beta in Ht. destruct (Rlt_dec _ _); [reflexivity|contradiction].
  - assert (L' : (x0 < z0 (S n))%R) by lra. eapply filter_imp; [|exact (filter_and _ _ IH (toR_lt F _ _ _ _ Ix Iz L'))]. intros t [E Ht]. cbn beta in Ht. destruct (Rlt_dec _ _); [lra|exact E].
Qed.

Section All.
Variables (eH eV zH zV : T -> nat -> C) (z : T -> nat -> R) (lam zs zr : T -> R) (eH0 eV0 zH0 zV0 : nat -> C) (z0 : nat -> R) (lam0 zs0 zr0 : R) (N : nat).
Hypothesis IeH : forall k, (k <= N)%nat -> toC (fun t => eH t k) (eH0 k).
Hypothesis IeV : forall k, (k <= N)%nat -> toC (fun t => eV t k) (eV0 k).
Hypothesis IzH : forall k, (k <= N)%nat -> toC (fun t => zH t k) (zH0 k).
Hypothesis IzV : forall k, (k <= N)%nat -> toC (fun t => zV t k) (zV0 k).
Hypothesis Iz : forall k, (1 <= k <= N)%nat -> toR (fun t => z t k) (z0 k).
Hypothesis Il : toR lam lam0.
Hypothesis Is : toR zs zs0.
Hypothesis Ir : toR zr zr0.
Hypothesis PM0 : passive_medium eH0 eV0 zH0 zV0 z0 N.
Hypothesis PM : F (fun t => passive_medium (eH t) (eV t) (zH t) (zV t) (z t) N).

(** The depths outside of 1..N do not occur; they are replaced by zero. *)
Definition cut (y : nat -> R) (k : nat) : R := if ((1 <=? k) && (k <=? N))%nat then y k else 0%R.
Lemma cut_in : forall y k, (1 <= k <= N)%nat -> y k = cut y k.
Proof. intros y k Hk. unfold cut. rewrite (proj2 (Nat.leb_le 1 k)), (proj2 (Nat.leb_le k N)) by lia. reflexivity. Qed.
Lemma c_cut : forall k, toR (fun t => cut (z t) k) (cut z0 k).
Proof using FF Iz. intros k. unfold cut. destruct (Nat.leb_spec 1 k), (Nat.leb_spec k N); cbn [andb]; try (now apply toR_const). now apply Iz. Qed.
Lemma pm_cut : forall a b c d y, passive_medium a b c d y N -> passive_medium a b c d (cut y) N.
Proof. intros a b c d y []. constructor; try assumption. intros k Hk. rewrite <- !cut_in by lia. now apply pme_z. Qed.
Lemma gcall_cut : forall a b c d y l ab xd ms mr s r x w, gcall a b c d (cut y) N l ab xd ms mr s r x w = gcall a b c d y N l ab xd ms mr s r x w.
Proof. intros. unfold gcall. now rewrite (depth_ext (cut y) y N) by (intros; symmetry; now apply cut_in). Qed.

(** With the layers of source and receiver fixed, both values of greenfct converge. *)
Theorem green_fixed : forall ab xd msrc mrec s r, valid_call ab msrc mrec -> (s <= N)%nat -> (r <= N)%nat -> (xd = false -> zs0 <> zr0) ->
  exists p q, gcall eH0 eV0 zH0 zV0 z0 N lam0 ab xd msrc mrec s r zs0 zr0 = Ok (p, q) /\
  forall e : R, (0 < e)%R -> F (fun t => exists p' q', gcall (eH t) (eV t) (zH t) (zV t) (z t) N (lam t) ab xd msrc mrec s r (zs t) (zr t) = Ok (p', q') /\ (Cmod (Cminus p' p) < e)%R /\ (Cmod (Cminus q' q) < e)%R).
Proof using All.
  intros ab xd msrc mrec s r HV Hs Hr X. pose proof (pm_cut _ _ _ _ _ PM0) as PC. pose proof (passive_model_ok _ _ _ _ _ _ lam0 PC) as OK.
  exists (fst (resp eH0 eV0 zH0 zV0 (cut z0) N lam0 ab xd msrc mrec s r zs0 zr0)), (snd (resp eH0 eV0 zH0 zV0 (cut z0) N lam0 ab xd msrc mrec s r zs0 zr0)).
  split. { rewrite <- gcall_cut, gcall_resp by assumption. apply f_equal, surjective_pairing. }
  pose proof (pas_g _ _ _ _ _ (passive_TM _ _ _ _ _ _ lam0 PC)) as G1. pose proof (pas_g _ _ _ _ _ (passive_TE _ _ _ _ _ _ lam0 PC)) as G2.
  destruct OK as [O1 O2 O3 O4 O5 O6 R1 R2]. pose proof c_cut as IC.
  assert (LL : toC (fun t => fst (resp (eH t) (eV t) (zH t) (zV t) (cut (z t)) N (lam t) ab xd msrc mrec s r (zs t) (zr t))) (fst (resp eH0 eV0 zH0 zV0 (cut z0) N lam0 ab xd msrc mrec s r zs0 zr0)) /\
    toC (fun t => snd (resp (eH t) (eV t) (zH t) (zV t) (cut (z t)) N (lam t) ab xd msrc mrec s r (zs t) (zr t))) (snd (resp eH0 eV0 zH0 zV0 (cut z0) N lam0 ab xd msrc mrec s r zs0 zr0))).
  { assert (X' : xd = false -> zr0 <> zs0) by (intros Y E; apply (X Y); now symmetry).
    unfold resp. destruct mrec; [destruct msrc|]; cbn [fst snd]; split; try (apply toC_opp; [assumption|]); first [apply (c_PTM _ _ _ (fun t => cut (z t)))|apply (c_PTE _ _ _ (fun t => cut (z t)))]; assumption. }
  destruct LL as [LA LB]. intros e He. eapply filter_imp; [|exact (filter_and _ _ PM (filter_and _ _ (proj1 (toC_eps F _ _) LA e He) (proj1 (toC_eps F _ _) LB e He)))].
  intros t [P [A B]]. cbn beta in A, B. eexists. eexists. split; [|split; [exact A|exact B]].
  rewrite <- gcall_cut, gcall_resp; [apply f_equal, surjective_pairing|apply passive_model_ok, pm_cut, P|assumption..].
Qed.
(** Source and receiver off the interfaces. *)
Theorem green_continuous : forall ab xd msrc mrec, valid_call ab msrc mrec -> (forall k, (1 <= k <= N)%nat -> z0 k <> zs0 /\ z0 k <> zr0) -> (xd = false -> zs0 <> zr0) ->
  exists p q, gcall eH0 eV0 zH0 zV0 z0 N lam0 ab xd msrc mrec (lay z0 N zs0) (lay z0 N zr0) zs0 zr0 = Ok (p, q) /\
  forall e : R, (0 < e)%R -> F (fun t => exists p' q', gcall (eH t) (eV t) (zH t) (zV t) (z t) N (lam t) ab xd msrc mrec (lay (z t) N (zs t)) (lay (z t) N (zr t)) (zs t) (zr t) = Ok (p', q') /\ (Cmod (Cminus p' p) < e)%R /\ (Cmod (Cminus q' q) < e)%R).
Proof using All.
  intros ab xd msrc mrec HV D X. destruct (green_fixed ab xd msrc mrec (lay z0 N zs0) (lay z0 N zr0) HV (lay_le _ _ _) (lay_le _ _ _) X) as (p & q & E & H).
  exists p, q. split; [exact E|]. intros e He. specialize (H e He).
  pose proof (c_lay z z0 zs zs0 N Iz Is (fun k Hk => proj1 (D k Hk))) as L1. pose proof (c_lay z z0 zr zr0 N Iz Ir (fun k Hk => proj2 (D k Hk))) as L2.
  eapply filter_imp; [|exact (filter_and _ _ H (filter_and _ _ L1 L2))]. intros t [A [B1 B2]]. cbn beta in *. rewrite B1, B2. exact A.
Qed.
End All.
End Lim.
