(** Layer attribution, the boundary-value problem, and reflection
    coefficients. *)

From Coq Require Import Reals ZArith List Bool Lia Lra Psatz.
From Coquelicot Require Import Coquelicot.
From Verif Require Import PyBase CBase Kernel KernelSpec KernelRefl KernelClosed KernelPhys
  KernelPassive KernelSym KernelSplit ODE KernelBVP KernelMain KernelThm.
Import ListNotations.
Local Open Scope R_scope.
Local Open Scope C_scope.
Local Open Scope res_scope.

(** ** Layer attribution *)
Definition increasing (z : nat -> R) (N : nat) : Prop :=
  forall k, (1 <= k < N)%nat -> (z k < z (S k))%R.

Lemma lay_spec : forall z N n x, increasing z N -> (n <= N)%nat ->
  (lay z n x = 0%nat \/ z (lay z n x) < x)%R /\
  (forall j, (lay z n x < j <= n)%nat -> (x <= z j)%R).
Proof.
  intros z N n x HI. induction n; intros Hn.
  - simpl. split; [left; reflexivity|intros; lia].
  - cbn [lay]. destruct (Rlt_dec (z (S n)) x) as [L|L].
    + split; [right; exact L|intros; lia].
    + destruct (IHn ltac:(lia)) as [A B]. split; [exact A|].
      intros j Hj. destruct (Nat.eq_dec j (S n)) as [->|]; [lra|apply B; lia].
Qed.

Lemma inc_lt : forall z N i j, increasing z N -> (1 <= i)%nat -> (i < j <= N)%nat -> (z i < z j)%R.
Proof. intros z N i j H. apply z_mono. exact H. Qed.

(** depth order follows from layer order *)
Lemma lay_order : forall z N x y, increasing z N -> (lay z N x < lay z N y)%nat -> (x < y)%R.
Proof.
  intros z N x y HI H. destruct (lay_spec z N N x HI (le_n N)) as [_ B].
  destruct (lay_spec z N N y HI (le_n N)) as [[A|A] _]; [lia|].
  pose proof (lay_le z N y). specialize (B (lay z N y) ltac:(lia)). lra.
Qed.

Lemma lay_char : forall z N k x, increasing z N -> (k <= N)%nat -> (k = 0%nat \/ z k < x)%R ->
  (k = N \/ x <= z (S k))%R -> lay z N x = k.
Proof. intros z N k x HI Hk H1 H2. apply (lay_in' z N HI); auto. Qed.

Lemma lay_translate : forall z N x c, lay (fun k => z k + c)%R N (x + c) = lay z N x.
Proof.
  induction N; intros x c; [reflexivity|]. cbn [lay]. rewrite IHN.
  destruct (Rlt_dec (z (S N) + c) (x + c)), (Rlt_dec (z (S N)) x); try reflexivity; lra.
Qed.

Lemma lay_mirror : forall z N s x, increasing z N -> in_layer z N s x ->
  lay (mirz z N) N (- x) = (N - s)%nat.
Proof.
  intros z N s x HI [Hs [H1 H2]]. apply lay_char.
  - intros k Hk. unfold mirz. replace (S N - k)%nat with (S (N - k)) by lia.
    replace (S N - S k)%nat with (N - k)%nat by lia.
    pose proof (HI (N - k)%nat ltac:(lia)). lra.
  - lia.
  - destruct (Nat.eq_dec s N) as [->|]; [left; lia|right].
    unfold mirz. replace (S N - (N - s))%nat with (S s) by lia. destruct H2; [lia|lra].
  - destruct (Nat.eq_dec s 0) as [->|]; [left; lia|right].
    unfold mirz. replace (S N - S (N - s))%nat with s by lia. destruct H1; [lia|lra].
Qed.

(** Layer of a depth after inserting an interface at zi into layer m. *)
Section SplitLay.
Variables (z : nat -> R) (N m : nat) (zi : R).
Hypothesis HI : increasing z N.
Hypothesis Hm : (m <= N)%nat.
Hypothesis Hzi : in_layer z N m zi.
Notation z' := (splz m zi z).
Let sl_le := splz_le z N m zi Hm.
Let sl_S := splz_S z N m zi Hm.
Let sl_gt := splz_gt z N m zi Hm.

Lemma splz_inc : increasing z' (S N).
Proof.
  intros k Hk. destruct Hzi as [_ [A B]].
  destruct (lt_eq_lt_dec k m) as [[L|L]|L].
  - rewrite !sl_le by lia. apply HI. lia.
  - subst k. rewrite sl_S. rewrite sl_le by lia. destruct A; [lia|assumption].
  - destruct (Nat.eq_dec k (S m)) as [->|].
    + rewrite sl_S, sl_gt by lia. destruct B; [lia|assumption].
    + destruct k as [|k]; [lia|]. rewrite !sl_gt by lia. apply HI. lia.
Qed.

Lemma lay_split : forall x, newlay m (lay z N x) (lay z' (S N) x).
Proof.
  intros x. pose proof (lay_le z N x) as HL. destruct (lay_spec z N N x HI (le_n N)) as [A B].
  set (k := lay z N x) in *. destruct Hzi as [_ [C D]].
  destruct (lt_eq_lt_dec k m) as [[L|L]|L].
  - assert (E : lay z' (S N) x = k).
    { apply lay_char; [apply splz_inc|lia| |].
      - rewrite sl_le by lia. exact A.
      - right. rewrite sl_le by lia. apply B. lia. }
    rewrite E. left. split; [exact L|reflexivity].
  - destruct (Rlt_dec zi x) as [X|X].
    + assert (E : lay z' (S N) x = S m).
      { apply lay_char; [apply splz_inc|lia| |].
        - right. now rewrite sl_S.
        - destruct (Nat.eq_dec m N) as [->|]; [left; reflexivity|right].
          rewrite sl_gt by lia. apply B. lia. }
      rewrite E. right. right. split; [exact L|right; reflexivity].
    + assert (E : lay z' (S N) x = m).
      { apply lay_char; [apply splz_inc|lia| |].
        - rewrite sl_le by lia. rewrite <- L. exact A.
        - right. rewrite sl_S. lra. }
      rewrite E. right. right. split; [exact L|left; reflexivity].
  - assert (E : lay z' (S N) x = S k).
    { apply lay_char; [apply splz_inc|lia| |].
      - right. rewrite sl_gt by lia. destruct A; [lia|assumption].
      - destruct (Nat.eq_dec k N) as [->|]; [left; reflexivity|right].
        rewrite sl_gt by lia. apply B. lia. }
    rewrite E. right. left. split; [exact L|reflexivity].
Qed.
Lemma lay_split_order : forall x y, lay z' (S N) x = m -> lay z' (S N) y = S m -> (x < y)%R.
Proof.
  intros x y Hx Hy. apply (lay_order z' (S N)); [apply splz_inc|lia].
Qed.
End SplitLay.

Lemma passive_split : forall eH eV zH zV z N m zi, passive_medium eH eV zH zV z N ->
  increasing z N -> in_layer z N m zi ->
  passive_medium (spl m eH) (spl m eV) (spl m zH) (spl m zV) (splz m zi z) (S N).
Proof.
  intros eH eV zH zV z N m zi PM HI Hzi.
  assert (L : forall k, (k <= S N)%nat -> (old m k <= N)%nat).
  { intros k Hk. unfold old. destruct (Nat.leb_spec k m); [|lia]. destruct Hzi. lia. }
  constructor; intros k Hk; unfold spl.
  - apply PM; auto.
  - apply PM; auto.
  - apply PM; auto.
  - apply PM; auto.
  - apply PM; auto.
  - apply PM; auto.
  - left. apply splz_inc with (N := N); auto. exact (proj1 Hzi).
Qed.

(** ** C04 *)
Theorem split_invariant : forall eH eV zH zV z N lam m zi ab msrc mrec zs zr,
  passive_medium eH eV zH zV z N -> increasing z N -> in_layer z N m zi ->
  valid_call ab msrc mrec ->
  gcall (spl m eH) (spl m eV) (spl m zH) (spl m zV) (splz m zi z) (S N) lam ab false msrc mrec
        (lay (splz m zi z) (S N) zs) (lay (splz m zi z) (S N) zr) zs zr
  = gcall eH eV zH zV z N lam ab false msrc mrec (lay z N zs) (lay z N zr) zs zr.
Proof.
  intros eH eV zH zV z N lam m zi ab msrc mrec zs zr PM HI Hzi HV.
  pose proof (passive_model_ok _ _ _ _ _ _ lam PM) as OK.
  pose proof (passive_model_ok _ _ _ _ _ _ lam (passive_split _ _ _ _ _ _ _ _ PM HI Hzi)) as OK'.
  pose proof (proj1 Hzi) as Hm.
  rewrite !gcall_resp by (auto using lay_le). apply f_equal. unfold resp.
  pose proof (lay_le z N zs) as L1. pose proof (lay_le z N zr) as L2.
  pose proof (lay_split z N m zi HI Hm Hzi zs) as N1. pose proof (lay_split z N m zi HI Hm Hzi zr) as N2.
  assert (O1 : lay z N zs = m -> lay z N zr = m -> lay (splz m zi z) (S N) zs = m ->
     lay (splz m zi z) (S N) zr = S m -> (zs < zr)%R).
  { intros. eapply (lay_split_order z N m zi); eauto. }
  assert (O2 : lay z N zs = m -> lay z N zr = m -> lay (splz m zi z) (S N) zs = S m ->
     lay (splz m zi z) (S N) zr = m -> (zr < zs)%R).
  { intros. eapply (lay_split_order z N m zi); eauto. }
  destruct mrec; [destruct msrc|].
  - f_equal; f_equal.
    + eapply PTM_split; eauto using model_ok_swap.
    + eapply PTE_split; eauto using model_ok_swap.
  - f_equal.
    + eapply PTM_split; eauto.
    + eapply PTE_split; eauto.
  - f_equal.
    + eapply PTM_split; eauto.
    + eapply PTE_split; eauto.
Qed.

(** ** C05 *)
Theorem uniform_fullspace : forall (eh ev zh zv : C) z N lam ab msrc mrec zs zr,
  (0 < fst eh)%R -> (0 < fst ev)%R -> (0 <= fst zh)%R -> (0 <= fst zv)%R -> zh <> 0 -> zv <> 0 ->
  increasing z N -> valid_call ab msrc mrec ->
  gcall (cst eh) (cst ev) (cst zh) (cst zv) z N lam ab false msrc mrec (lay z N zs) (lay z N zr) zs zr
  = gcall (cst eh) (cst ev) (cst zh) (cst zv) z 0 lam ab false msrc mrec 0 0 zs zr.
Proof.
  intros eh ev zh zv z N lam ab msrc mrec zs zr H1 H2 H3 H4 H5 H6 HI HV.
  assert (PM : forall M, (M <= N)%nat -> passive_medium (cst eh) (cst ev) (cst zh) (cst zv) z M).
  { intros M HM. constructor; intros; unfold cst; auto. left. apply HI. lia. }
  rewrite !gcall_resp; auto using lay_le.
  2:{ apply passive_model_ok. apply PM. lia. }
  2:{ apply passive_model_ok. apply PM. lia. }
  apply f_equal. unfold resp.
  pose proof (lay_order z N zs zr HI) as O1. pose proof (lay_order z N zr zs HI) as O2.
  destruct mrec; [destruct msrc|].
  - f_equal; f_equal; [apply PTM_uniform|apply PTE_uniform]; assumption.
  - f_equal; [apply PTM_uniform|apply PTE_uniform]; assumption.
  - f_equal; [apply PTM_uniform|apply PTE_uniform]; assumption.
Qed.

(** ** C06 *)
Theorem translate_invariant : forall eH eV zH zV z N lam ab xd msrc mrec zs zr c,
  passive_medium eH eV zH zV z N -> valid_call ab msrc mrec ->
  gcall eH eV zH zV (fun k => z k + c)%R N lam ab xd msrc mrec
    (lay (fun k => z k + c)%R N (zs + c)) (lay (fun k => z k + c)%R N (zr + c)) (zs + c) (zr + c)
  = gcall eH eV zH zV z N lam ab xd msrc mrec (lay z N zs) (lay z N zr) zs zr.
Proof.
  intros eH eV zH zV z N lam ab xd msrc mrec zs zr c PM HV.
  assert (PM' : passive_medium eH eV zH zV (fun k => z k + c)%R N).
  { constructor; try apply PM. intros. apply Rplus_le_compat_r. now apply PM. }
  pose proof (passive_model_ok _ _ _ _ _ _ lam PM) as OK.
  pose proof (passive_model_ok _ _ _ _ _ _ lam PM') as OK'.
  rewrite !gcall_resp by (auto using lay_le). rewrite !lay_translate. apply f_equal. unfold resp.
  destruct mrec; [destruct msrc|]; f_equal; try apply f_equal; apply PTM_translate || apply PTE_translate.
Qed.

(** ** C08 *)
Lemma passive_mirror : forall eH eV zH zV z N, passive_medium eH eV zH zV z N ->
  passive_medium (mir N eH) (mir N eV) (mir N zH) (mir N zV) (mirz z N) N.
Proof.
  intros eH eV zH zV z N PM. constructor; intros k Hk; unfold mir.
  - apply PM; lia.
  - apply PM; lia.
  - apply PM; lia.
  - apply PM; lia.
  - apply PM; lia.
  - apply PM; lia.
  - unfold mirz. pose proof (pme_z _ _ _ _ _ _ PM (N - k)%nat ltac:(lia)).
    replace (S N - k)%nat with (S (N - k)) by lia. replace (S N - S k)%nat with (N - k)%nat by lia. lra.
Qed.

Theorem mirror_symmetry : forall eH eV zH zV z N lam ab xd msrc mrec s r zs zr p q,
  passive_medium eH eV zH zV z N -> valid_call ab msrc mrec -> (s <= N)%nat -> (r <= N)%nat ->
  gcall eH eV zH zV z N lam ab xd msrc mrec s r zs zr = Ok (p, q) ->
  gcall (mir N eH) (mir N eV) (mir N zH) (mir N zV) (mirz z N) N lam ab xd msrc mrec
    (N - s) (N - r) (- zs) (- zr) = Ok (chi ab * p, chi ab * q).
Proof.
  intros eH eV zH zV z N lam ab xd msrc mrec s r zs zr p q PM HV Hs Hr E.
  pose proof (passive_model_ok _ _ _ _ _ _ lam PM) as OK.
  pose proof (passive_model_ok _ _ _ _ _ _ lam (passive_mirror _ _ _ _ _ _ PM)) as OK'.
  assert (HK : In ab kernel_abs).
  { unfold valid_call in HV. destruct (mrec && msrc); [now apply ee_kernel|exact HV]. }
  rewrite gcall_resp in E by assumption. rewrite gcall_resp by (auto; lia).
  injection E as E. apply f_equal. unfold resp in *.
  destruct mrec; [destruct msrc|]; injection E as <- <-; f_equal;
    rewrite ?PTM_mirror, ?PTE_mirror by assumption; ring.
Qed.

(** ** C09 *)
Theorem passive_total : forall eH eV zH zV z N lam ab xd msrc mrec s r zs zr,
  passive_medium eH eV zH zV z N -> valid_call ab msrc mrec -> (s <= N)%nat -> (r <= N)%nat ->
  exists p q, gcall eH eV zH zV z N lam ab xd msrc mrec s r zs zr = Ok (p, q).
Proof.
  intros eH eV zH zV z N lam ab xd msrc mrec s r zs zr PM HV Hs Hr.
  rewrite gcall_resp by (auto using passive_model_ok). destruct (resp _ _ _ _ _ _ _ _ _ _ _ _ _ _ _).
  eexists _, _. reflexivity.
Qed.

(** ** Uniqueness at all depths *)
Lemma at_right_notin : forall (l : list R) x, at_right x (fun t => ~ In t l).
Proof.
  induction l as [|a l IH]; intros x.
  - apply filter_forall. auto.
  - assert (A : at_right x (fun t => t <> a)).
    { unfold at_right, within. destruct (Rlt_dec a x).
      - apply filter_forall. intros t Ht. lra.
      - destruct (Req_EM_T a x) as [->|Hne].
        + apply filter_forall. intros t Ht. lra.
        + assert (L : (x < a)%R) by lra. eapply filter_imp; [|apply (open_lt a); exact L]. intros t Ht _. lra. }
    eapply filter_imp; [|exact (filter_and _ _ A (IH x))]. intros t [H1 H2] [H|H]; auto.
Qed.

Lemma bvp_unique_all : forall (e w : nat -> C) z N zs jp jq P1 Q1 P2 Q2,
  (forall k, (k <= N)%nat -> (0 <= fst (e k))%R) -> (forall k, (k <= N)%nat -> (0 <= fst (w k))%R) ->
  (forall k, (k <= N)%nat -> (0 < fst (e k) + fst (w k))%R) ->
  (forall k, (k <= N)%nat -> e k <> 0) -> (forall k, (k <= N)%nat -> w k <> 0) ->
  bvp e w z N zs jp jq P1 Q1 -> bvp e w z N zs jp jq P2 Q2 ->
  forall x, x <> zs -> P1 x = P2 x /\ Q1 x = Q2 x.
Proof.
  intros e w z N zs jp jq P1 Q1 P2 Q2 H1 H2 H3 H4 H5 B1 B2 x Hx.
  pose proof (bvp_unique e w z N zs H1 H2 H3 H4 H5 jp jq P1 Q1 P2 Q2 B1 B2) as U.
  destruct (in_dec Req_EM_T x (ifaces z N)) as [Hi|Hi].
  2:{ apply U; [apply in_ifaces; exact Hi|exact Hx]. }
  apply ifaces_in in Hi. destruct Hi as [k [Hk ->]].
  destruct (bvp_c _ _ _ _ _ _ _ _ _ B1 k Hk Hx) as [C1 C2].
  destruct (bvp_c _ _ _ _ _ _ _ _ _ B2 k Hk Hx) as [C3 C4].
  assert (EV : at_right (z k) (fun t => P1 t = P2 t /\ Q1 t = Q2 t)).
  { eapply filter_imp; [|exact (at_right_notin (zs :: ifaces z N) (z k))].
    intros t Ht. apply U; [apply in_ifaces; intro; apply Ht; right; assumption|].
    intro E. apply Ht. left. auto. }
  split.
  - eapply (limC_unique (at_right (z k))).
    + eapply limC_sub; [apply at_right_locally|exact C1].
    + eapply limC_ext_loc; [|eapply limC_sub; [apply at_right_locally|exact C3]].
      eapply filter_imp; [|exact EV]. intros t [E _]. now rewrite E.
  - eapply (limC_unique (at_right (z k))).
    + eapply limC_sub; [apply at_right_locally|exact C2].
    + eapply limC_ext_loc; [|eapply limC_sub; [apply at_right_locally|exact C4]].
      eapply filter_imp; [|exact EV]. intros t [_ E]. now rewrite E.
Qed.
