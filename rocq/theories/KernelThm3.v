(** kernel.greenfct returns the solution of the boundary-value problem. *)

From Coq Require Import Reals ZArith List Bool Lia Lra Psatz.
From Coquelicot Require Import Coquelicot.
From Verif Require Import PyBase CBase Kernel KernelSpec KernelRefl KernelClosed KernelPhys
  KernelPassive KernelSym KernelSplit ODE KernelBVP KernelMain KernelThm KernelThm2.
Import ListNotations.
Local Open Scope R_scope.
Local Open Scope C_scope.
Local Open Scope res_scope.

Section Green.
Variables (eH eV zH zV : nat -> C) (z : nat -> R) (N : nat) (lam : R).
Hypothesis PM : passive_medium eH eV zH zV z N.
Hypothesis HI : increasing z N.
Variables (s : nat) (zs : R).
Hypothesis Hin : in_layer z N s zs.

Let OK := passive_model_ok _ _ _ _ _ _ lam PM.
Let Hs : (s <= N)%nat := proj1 Hin.
Notation wTM := (wmode eV zH lam).
Notation wTE := (wmode zV eH lam).
Notation gTM := (gam eH eV zH lam).
Notation gTE := (gam zH zV eH lam).

(** First (TM) and second (TE) value returned for a receiver at depth x. *)
Definition tm_value (ab : Z) (x : R) (v : C) : Prop :=
  forall msrc, exists q, gcall eH eV zH zV z N lam ab false msrc false s (lay z N x) zs x = Ok (v, q).
Definition te_value (ab : Z) (x : R) (v : C) : Prop :=
  forall msrc, exists p, gcall eH eV zH zV z N lam ab false msrc false s (lay z N x) zs x = Ok (p, v).

Lemma tm_val : forall ab x, In ab kernel_abs ->
  tm_value ab x (PTM eH eV zH z N lam ab false s (lay z N x) zs x).
Proof. intros ab x H msrc. eexists. rewrite greenfct_ee; auto using lay_le; apply Hs. Qed.
Lemma te_val : forall ab x, In ab kernel_abs ->
  te_value ab x (PTE zH zV eH z N lam ab false s (lay z N x) zs x).
Proof. intros ab x H msrc. eexists. rewrite greenfct_ee; auto using lay_le; apply Hs. Qed.

Lemma sol_TM : forall pm, pm1 pm ->
  bvp eH wTM z N zs (jumpP eH gTM pm s) (jumpQ eH gTM pm s)
    (fP eH gTM z N pm s zs) (fQ eH gTM z N pm s zs).
Proof. intros pm Hp. apply fPQ_bvp; auto. apply (passive_TM eH eV zH zV z N lam PM). Qed.
Lemma sol_TE : forall pm, pm1 pm ->
  bvp zH wTE z N zs (jumpP zH gTE pm s) (jumpQ zH gTE pm s)
    (fP zH gTE z N pm s zs) (fQ zH gTE z N pm s zs).
Proof. intros pm Hp. apply fPQ_bvp; auto. apply (passive_TE eH eV zH zV z N lam PM). Qed.

Lemma uniq_TM : forall pm P Q, pm1 pm ->
  bvp eH wTM z N zs (jumpP eH gTM pm s) (jumpQ eH gTM pm s) P Q ->
  forall x, x <> zs -> P x = fP eH gTM z N pm s zs x /\ Q x = fQ eH gTM z N pm s zs x.
Proof.
  intros pm P Q Hp B x Hx. pose proof (passive_TM eH eV zH zV z N lam PM) as PT.
  eapply (bvp_unique_all eH wTM z N zs); [..|exact B|apply sol_TM; exact Hp|exact Hx].
  - apply PT.
  - apply PT.
  - apply PT.
  - apply PT.
  - intros k Hk. now apply (wTM_nz eH eV zH zV z N lam PM).
Qed.
Lemma uniq_TE : forall pm P Q, pm1 pm ->
  bvp zH wTE z N zs (jumpP zH gTE pm s) (jumpQ zH gTE pm s) P Q ->
  forall x, x <> zs -> P x = fP zH gTE z N pm s zs x /\ Q x = fQ zH gTE z N pm s zs x.
Proof.
  intros pm P Q Hp B x Hx. pose proof (passive_TE eH eV zH zV z N lam PM) as PT.
  eapply (bvp_unique_all zH wTE z N zs); [..|exact B|apply sol_TE; exact Hp|exact Hx].
  - apply PT.
  - apply PT.
  - apply PT.
  - apply PT.
  - intros k Hk. apply Re_pos_neq_0. now apply (wTE_pos eH eV zH zV z N lam PM).
Qed.

Lemma C2 : RtoC 2 = 1 + 1.
Proof. rewrite <- RtoC_plus. apply f_equal; lra. Qed.
Lemma jTMp : jumpP eH gTM 1 s = 0 /\ jumpQ eH gTM 1 s = - (2).
Proof. rewrite C2. apply jump_plus; [apply OK|apply OK]; exact Hs. Qed.
Lemma jTEp : jumpP zH gTE 1 s = 0 /\ jumpQ zH gTE 1 s = - (2).
Proof. rewrite C2. apply jump_plus; [apply OK|apply OK]; exact Hs. Qed.
Lemma jTMm : jumpP eH gTM (- (1)) s = 2 /\ jumpQ eH gTM (- (1)) s = 0.
Proof. rewrite C2. apply jump_minus. Qed.
Lemma jTEm : jumpP zH gTE (- (1)) s = 2 /\ jumpQ zH gTE (- (1)) s = 0.
Proof. rewrite C2. apply jump_minus. Qed.

Ltac each_in H := cbn [In] in H; repeat (destruct H as [H|H]; [subst|]); [..|contradiction].
Ltac tm_eq :=
  unfold PTM, fTM, fP, fQ, cpm, csg; cbn -[cz wsrc wgt gam Cmult Cdiv Copp G_mode lay sgnTM];
  rewrite ?cz_m1; change (cz 1) with (RtoC 1);
  rewrite ?wsrc_1, ?wsrc_m1, ?wgt_1, ?wgt_m1, ?Cdiv_1_r.

(** Horizontal electric source: P jumps by 2. *)
Theorem green_TM_h : forall P Q, bvp eH wTM z N zs 2 0 P Q -> forall x, x <> zs ->
  (forall ab, In ab [11; 12; 21; 22]%Z -> tm_value ab x (Q x)) /\
  (forall ab, In ab [31; 32]%Z -> tm_value ab x (P x / eV (lay z N x))).
Proof.
  intros P Q B x Hx. destruct jTMm as [J1 J2].
  destruct (uniq_TM (- (1)) P Q (or_intror eq_refl)) with (x := x) as [EP EQ]; auto.
  { rewrite J1, J2. exact B. }
  rewrite EP, EQ. split; intros ab Hab.
  - replace (fQ eH gTM z N (- (1)) s zs x) with (PTM eH eV zH z N lam ab false s (lay z N x) zs x).
    + apply tm_val. each_in Hab; unfold kernel_abs; cbn [In]; tauto.
    + each_in Hab; tm_eq; unfold sgnTM; cbn -[Cmult Cdiv Copp gam G_mode lay]; ring.
  - replace (fP eH gTM z N (- (1)) s zs x / eV (lay z N x)) with (PTM eH eV zH z N lam ab false s (lay z N x) zs x).
    + apply tm_val. each_in Hab; unfold kernel_abs; cbn [In]; tauto.
    + each_in Hab; tm_eq; unfold sgnTM; cbn -[Cmult Cdiv Copp gam G_mode lay]; unfold Cdiv; ring.
Qed.

(** Vertical electric and horizontal magnetic sources: Q jumps by -2. *)
Theorem green_TM_v : forall P Q, bvp eH wTM z N zs 0 (- (2)) P Q -> forall x, x <> zs ->
  (forall ab, In ab [14; 15; 24; 25]%Z -> tm_value ab x (Q x)) /\
  (forall ab, In ab [34; 35]%Z -> tm_value ab x (P x / eV (lay z N x))) /\
  (forall ab, In ab [13; 23]%Z -> tm_value ab x (- (Q x / eV s))) /\
  tm_value 33 x (P x / eV s / eV (lay z N x)).
Proof.
  intros P Q B x Hx. destruct jTMp as [J1 J2].
  destruct (uniq_TM 1 P Q (or_introl eq_refl)) with (x := x) as [EP EQ]; auto.
  { rewrite J1, J2. exact B. }
  rewrite EP, EQ. split; [|split; [|split]].
  - intros ab Hab.
    replace (fQ eH gTM z N 1 s zs x) with (PTM eH eV zH z N lam ab false s (lay z N x) zs x).
    + apply tm_val. each_in Hab; unfold kernel_abs; cbn [In]; tauto.
    + each_in Hab; tm_eq; unfold sgnTM; cbn -[Cmult Cdiv Copp gam G_mode lay]; ring.
  - intros ab Hab.
    replace (fP eH gTM z N 1 s zs x / eV (lay z N x)) with (PTM eH eV zH z N lam ab false s (lay z N x) zs x).
    + apply tm_val. each_in Hab; unfold kernel_abs; cbn [In]; tauto.
    + each_in Hab; tm_eq; unfold sgnTM; cbn -[Cmult Cdiv Copp gam G_mode lay]; unfold Cdiv; ring.
  - intros ab Hab.
    replace (- (fQ eH gTM z N 1 s zs x / eV s)) with (PTM eH eV zH z N lam ab false s (lay z N x) zs x).
    + apply tm_val. each_in Hab; unfold kernel_abs; cbn [In]; tauto.
    + each_in Hab; tm_eq; unfold sgnTM; cbn -[Cmult Cdiv Copp gam G_mode lay]; unfold Cdiv; ring.
  - replace (fP eH gTM z N 1 s zs x / eV s / eV (lay z N x)) with (PTM eH eV zH z N lam 33 false s (lay z N x) zs x).
    + apply tm_val. unfold kernel_abs; cbn [In]; tauto.
    + tm_eq; unfold sgnTM; cbn -[Cmult Cdiv Copp gam G_mode lay]; unfold Cdiv; ring.
Qed.

(** TE mode. *)
Theorem green_TE_e : forall P Q, bvp zH wTE z N zs 0 (- (2)) P Q -> forall x, x <> zs ->
  (forall ab, In ab [11; 12; 21; 22]%Z -> te_value ab x (P x)) /\
  (forall ab, In ab [16; 26]%Z -> te_value ab x (P x / zV s)).
Proof.
  intros P Q B x Hx. destruct jTEp as [J1 J2].
  destruct (uniq_TE 1 P Q (or_introl eq_refl)) with (x := x) as [EP EQ]; auto.
  { rewrite J1, J2. exact B. }
  rewrite EP. split.
  - intros ab Hab.
    replace (fP zH gTE z N 1 s zs x) with (PTE zH zV eH z N lam ab false s (lay z N x) zs x).
    + apply te_val. each_in Hab; unfold kernel_abs; cbn [In]; tauto.
    + each_in Hab; unfold PTE, fTE, fP, cpm, csg; cbn -[cz wsrc wgt gam Cmult Cdiv Copp G_mode lay];
        change (cz 1) with (RtoC 1); rewrite Cdiv_1_r; reflexivity.
  - intros ab Hab.
    replace (fP zH gTE z N 1 s zs x / zV s) with (PTE zH zV eH z N lam ab false s (lay z N x) zs x).
    + apply te_val. each_in Hab; unfold kernel_abs; cbn [In]; tauto.
    + each_in Hab; unfold PTE, fTE, fP, cpm, csg; cbn -[cz wsrc wgt gam Cmult Cdiv Copp G_mode lay];
        change (cz 1) with (RtoC 1); unfold Cdiv; ring.
Qed.
Theorem green_TE_m : forall P Q, bvp zH wTE z N zs 2 0 P Q -> forall x, x <> zs ->
  forall ab, In ab [14; 15; 24; 25]%Z -> te_value ab x (P x).
Proof.
  intros P Q B x Hx ab Hab. destruct jTEm as [J1 J2].
  destruct (uniq_TE (- (1)) P Q (or_intror eq_refl)) with (x := x) as [EP EQ]; auto.
  { rewrite J1, J2. exact B. }
  rewrite EP.
  replace (fP zH gTE z N (- (1)) s zs x) with (PTE zH zV eH z N lam ab false s (lay z N x) zs x).
  + apply te_val. each_in Hab; unfold kernel_abs; cbn [In]; tauto.
  + each_in Hab; unfold PTE, fTE, fP, cpm, csg; cbn -[cz wsrc wgt gam Cmult Cdiv Copp G_mode lay];
        change (cz 1) with (RtoC 1); rewrite !cz_m1, Cdiv_1_r; reflexivity.
Qed.

(** Modes that do not contribute. *)
Theorem green_unused : forall x,
  (forall ab, In ab [16; 26]%Z -> tm_value ab x 0) /\
  (forall ab, In ab [13; 23; 31; 32; 33; 34; 35]%Z -> te_value ab x 0).
Proof.
  intros x. split; intros ab Hab.
  - replace (RtoC 0) with (PTM eH eV zH z N lam ab false s (lay z N x) zs x).
    + apply tm_val. each_in Hab; unfold kernel_abs; cbn [In]; tauto.
    + each_in Hab; reflexivity.
  - replace (RtoC 0) with (PTE zH zV eH z N lam ab false s (lay z N x) zs x).
    + apply te_val. each_in Hab; unfold kernel_abs; cbn [In]; tauto.
    + each_in Hab; reflexivity.
Qed.

(** Solutions exist. *)
Theorem bvp_exists : forall TM jump_in_P : bool, exists P Q,
  bvp (if TM then eH else zH) (if TM then wTM else wTE) z N zs
      (if jump_in_P then RtoC 2 else RtoC 0) (if jump_in_P then RtoC 0 else Copp 2) P Q.
Proof.
  intros TM jP. destruct TM, jP.
  - destruct jTMm as [J1 J2]. exists (fP eH gTM z N (- (1)) s zs), (fQ eH gTM z N (- (1)) s zs).
    rewrite <- J1, <- J2. apply sol_TM. right; reflexivity.
  - destruct jTMp as [J1 J2]. exists (fP eH gTM z N 1 s zs), (fQ eH gTM z N 1 s zs).
    rewrite <- J1, <- J2. apply sol_TM. left; reflexivity.
  - destruct jTEm as [J1 J2]. exists (fP zH gTE z N (- (1)) s zs), (fQ zH gTE z N (- (1)) s zs).
    rewrite <- J1, <- J2. apply sol_TE. right; reflexivity.
  - destruct jTEp as [J1 J2]. exists (fP zH gTE z N 1 s zs), (fQ zH gTE z N 1 s zs).
    rewrite <- J1, <- J2. apply sol_TE. left; reflexivity.
Qed.
End Green.
