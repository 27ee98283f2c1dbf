(** QWE: an element converging at the second test is returned as zero; the
    geometric series; QUAD: the convergence flag (C18, C19). *)

From Coq Require Import ZArith Reals List Bool String Lia Lra Psatz.
From Coquelicot Require Import Coquelicot.
From Verif Require Import PyBase CBase Kernel Utils UtilsLayer Transform TransformDlf TransformQwe.
Import ListNotations.
Local Open Scope R_scope.
Local Open Scope C_scope.

(** ** Sizes of the floating-point constants *)
Lemma dbl_tiny_pos : 0 < dbl_tiny.
Proof. unfold dbl_tiny. apply Rinv_0_lt_compat, pow_lt. lra. Qed.
Lemma dbl_tiny_small : dbl_tiny < / 2 ^ 60.
Proof.
  unfold dbl_tiny. apply Rinv_lt_contravar; [apply Rmult_lt_0_compat; apply pow_lt; lra|].
  apply Rlt_pow; [lra|]. apply Nat.ltb_lt. vm_compute. reflexivity.
Qed.
Lemma dbl_max_large : 2 ^ 60 < dbl_max.
Proof.
  unfold dbl_max.
  assert (A : 1 < 2 - / 2 ^ 52). { assert (/ 2 ^ 52 < 1); [|lra]. assert (1 < 2 ^ 52) by (apply (Rlt_pow 2 0 52); [lra|lia]). rewrite <- Rinv_1. apply Rinv_lt_contravar; lra. }
  assert (B : 2 ^ 60 < 2 ^ 1023). { apply Rlt_pow; [lra|]. apply Nat.ltb_lt. vm_compute. reflexivity. }
  assert (C0 : 0 < 2 ^ 1023) by (apply pow_lt; lra).
  set (a := 2 ^ 60) in *. set (b := 2 ^ 1023) in *. clearbody a b. nra.
Qed.

Lemma recip_ok : forall a d, dbl_tiny <= Cmod d -> recip_or_max a d = Cplus a (Cdiv (RtoC 1) d).
Proof. intros a d H. unfold recip_or_max. now rewrite Rltb_false. Qed.

(** ** A geometric series is summed exactly from three terms

    s_n = c_0 q (1 - q^n)/(1 - q): eps_2^(n) is the limit. *)
Fixpoint cpw (q : C) (n : nat) : C := match n with O => RtoC 1 | S m => Cmult q (cpw q m) end.

Theorem eps2_geometric : forall (s : nat -> C) (l c q : C),
  (forall n, s n = Cplus l (Cmult c (cpw q n))) -> c <> RtoC 0 -> q <> RtoC 0 -> q <> RtoC 1 ->
  forall n, dbl_tiny <= Cmod (Cminus (s (n + 1)%nat) (s n)) ->
  dbl_tiny <= Cmod (Cminus (s (n + 2)%nat) (s (n + 1)%nat)) ->
  dbl_tiny <= Cmod (Cminus (eps s 1 (n + 1)) (eps s 1 n)) ->
  eps s 2 n = l.
Proof.
  intros s l c q Hs Hc Hq Hq1 n T1 T2 T3.
  change 2%nat with (1 + 1)%nat. rewrite eps_S. rewrite recip_ok by exact T3.
  change (eps_prev s 1 (n + 1)) with (s (n + 1)%nat).
  assert (E1 : forall m, eps s 1 m = recip_or_max (RtoC 0) (Cminus (s (m + 1)%nat) (s m))) by reflexivity.
  rewrite !E1. replace (n + 1 + 1)%nat with (n + 2)%nat by lia. rewrite !recip_ok by assumption.
  rewrite !Hs. replace (n + 2)%nat with (S (S n)) by lia. replace (n + 1)%nat with (S n) by lia. simpl cpw.
  assert (Hn : cpw q n <> RtoC 0).
  { clear -Hq. induction n; simpl; [intros H0; apply RtoC_inj in H0; lra|]. now apply Cmult_neq_0. }
  assert (Hd : Cminus q (RtoC 1) <> RtoC 0).
  { intros H. apply Hq1. transitivity (Cplus (Cminus q (RtoC 1)) (RtoC 1)); [ring|]. rewrite H. ring. }
  assert (Hd' : Cminus (RtoC 1) q <> RtoC 0).
  { intros H. apply Hq1. transitivity (Cminus (RtoC 1) (Cminus (RtoC 1) q)); [ring|]. rewrite H. ring. }
  set (Q := cpw q n) in *.
  replace (Cminus (Cplus l (Cmult c (Cmult q (Cmult q Q)))) (Cplus l (Cmult c (Cmult q Q))))
    with (Cmult (Cmult (Cmult c q) Q) (Cminus q (RtoC 1))) by ring.
  replace (Cminus (Cplus l (Cmult c (Cmult q Q))) (Cplus l (Cmult c Q)))
    with (Cmult (Cmult c Q) (Cminus q (RtoC 1))) by ring.
  field. repeat split; auto.
Qed.

(** ** QWE converging at the first possible test returns zero *)
Definition wit_delta : R := / 2 ^ 40.
(** first interval 1, second 1, third 2^-40, then nothing *)
Definition wit (e i : nat) : C :=
  match i with 0%nat => RtoC 1 | 1%nat => RtoC 1 | 2%nat => RtoC wit_delta | _ => RtoC 0 end.

Lemma Cmod_R : forall x, Cmod (RtoC x) = Rabs x.
Proof. apply Cmod_R. Qed.

Lemma wit_delta_bounds : 0 < wit_delta <= / 2 ^ 40 /\ wit_delta < / 1000 /\ / 2 ^ 60 < wit_delta.
Proof.
  unfold wit_delta. split; [split; [apply Rinv_0_lt_compat, pow_lt; lra|lra]|].
  split; apply Rinv_lt_contravar; try (apply Rmult_lt_0_compat; try apply pow_lt; lra).
  - apply Rlt_le_trans with (2 ^ 10); [lra|]. apply Rle_pow; [lra|lia].
  - apply Rlt_pow; [lra|lia].
Qed.

Lemma wit_E1 : extrapolated (wit 0) 1 = RtoC 2.
Proof.
  unfold extrapolated. change (1 mod 2)%nat with 1%nat. change (1 - 1)%nat with 0%nat.
  unfold eps. simpl. rewrite Cplus_0_l. unfold RtoC, Cplus; simpl. f_equal; lra.
Qed.

Lemma wit_E2 : extrapolated (wit 0) 2 = RtoC (2 + wit_delta / (1 - wit_delta)).
Proof.
  destruct wit_delta_bounds as [[D0 _] [D1 D2]]. pose proof dbl_tiny_small as T.
  assert (T60 : / 2 ^ 60 < / 1000).
  { apply Rinv_lt_contravar; [apply Rmult_lt_0_compat; [lra|apply pow_lt; lra]|].
    apply Rlt_le_trans with (2 ^ 10); [lra|]. apply Rle_pow; [lra|lia]. }
  unfold extrapolated. change (2 mod 2)%nat with 0%nat. change (2 - 0)%nat with (1 + 1)%nat.
  set (s := psum (wit 0)).
  assert (S0 : s 0%nat = RtoC 0) by reflexivity.
  assert (S1 : s 1%nat = RtoC 1) by (unfold s; simpl; apply Cplus_0_l).
  assert (S2 : s 2%nat = RtoC (1 + wit_delta)) by (unfold s; simpl; rewrite Cplus_0_l, <- RtoC_plus; reflexivity).
  assert (E1 : forall m, eps s 1 m = recip_or_max (RtoC 0) (Cminus (s (m + 1)%nat) (s m))) by reflexivity.
  assert (A0 : eps s 1 0 = RtoC 1).
  { rewrite E1. simpl (0 + 1)%nat. rewrite S1, S0. rewrite <- RtoC_minus. rewrite recip_ok.
    - rewrite Cplus_0_l, <- RtoC_div by lra. f_equal. lra.
    - rewrite Cmod_R, Rabs_right by lra. lra. }
  assert (A1 : eps s 1 1 = RtoC (/ wit_delta)).
  { rewrite E1. simpl (1 + 1)%nat. rewrite S2, S1. rewrite <- RtoC_minus. rewrite recip_ok.
    - rewrite Cplus_0_l, <- RtoC_div by lra. f_equal. field. lra.
    - rewrite Cmod_R, Rabs_right by lra. lra. }
  assert (I1 : 1000 < / wit_delta).
  { rewrite <- (Rinv_inv 1000). apply Rinv_lt_contravar; [apply Rmult_lt_0_compat; lra|lra]. }
  rewrite eps_S. simpl (0 + 1)%nat. change (eps_prev s 1 1) with (s 1%nat).
  rewrite A0, A1, S1, <- RtoC_minus. rewrite recip_ok by (rewrite Cmod_R, Rabs_right by lra; lra).
  rewrite <- RtoC_div by lra. change (wit 0 0) with (RtoC 1). rewrite <- !RtoC_plus. f_equal. field. lra.
Qed.

Lemma wit_within : forall rtol atol, / 10 ^ 8 <= rtol -> 0 <= atol ->
  within rtol atol (extrapolated (wit 0) 2) (extrapolated (wit 0) 1).
Proof.
  intros rtol atol Hr Ha. unfold within. rewrite wit_E1, wit_E2. rewrite <- RtoC_minus, !Cmod_R.
  destruct wit_delta_bounds as [[D0 Dm] [D1 D2]].
  assert (Q : 0 < wit_delta / (1 - wit_delta) <= 2 * wit_delta).
  { split; [apply Rdiv_lt_0_compat; lra|]. apply (Rmult_le_reg_r (1 - wit_delta)); [lra|].
    unfold Rdiv. rewrite Rmult_assoc, Rinv_l by lra. nra. }
  rewrite !Rabs_right by lra.
  assert (W : wit_delta < / 10 ^ 8).
  { unfold wit_delta. apply Rinv_lt_contravar; [apply Rmult_lt_0_compat; apply pow_lt; lra|].
    replace (10 ^ 8)%R with (100000000)%R by ring. apply Rlt_le_trans with (2 ^ 30)%R; [|apply Rle_pow; [lra|lia]].
    replace (2 ^ 30)%R with 1073741824%R by ring. lra. }
  nra.
Qed.

Theorem qwe_early_zero : forall rtol atol zc maxint, (4 <= maxint)%nat -> / 10 ^ 8 <= rtol -> 0 <= atol ->
  qwe rtol atol maxint zc wit 1 = Ok ([RtoC 0], 3%Z, true).
Proof.
  intros rtol atol zc maxint Hm Hr Ha.
  destruct (qwe_spec rtol atol maxint zc wit 1) as [out [last [conv [-> [HL [Hlen [HO HC]]]]]]]; [lia|].
  assert (P2 : passes rtol atol zc wit 0 2).
  { unfold passes, E. apply not_conv_intro; [|now apply wit_within].
    rewrite wit_E2. destruct wit_delta_bounds as [[D0 _] [D1 D2]].
    assert (0 < wit_delta / (1 - wit_delta)) by (apply Rdiv_lt_0_compat; lra).
    intros H0. apply RtoC_inj in H0. lra. }
  assert (L2 : (last <= 2)%nat).
  { destruct (Nat.le_gt_cases last 2) as [G | G]; [exact G|]. destruct HC as [HA _].
    destruct (HA 2%nat ltac:(lia)) as [e [He NP]]. replace e with 0%nat in NP by lia. exfalso. exact (NP 2%nat ltac:(lia) P2). }
  destruct HC as [HA [HC1 HC2]].
  assert (Cv : conv = true) by (apply HC1; lia).
  destruct (HC2 Cv 0%nat ltac:(lia)) as [i0 [Hi0 Pi0]]. assert (last = 2)%nat as -> by lia.
  destruct out as [|v [|? ?]]; simpl in Hlen; try lia.
  rewrite Cv. f_equal. f_equal. f_equal. f_equal.
  destruct (HO 0%nat ltac:(lia)) as [[i1 [Hi1 [_ [_ Ev]]]] | [NP _]].
  - cbn [nth] in Ev. rewrite Ev. replace i1 with 2%nat by lia. rewrite Nat.eqb_refl. unfold clean, RtoC. cbn [fst snd].
    pose proof dbl_max_large. assert (0 < 2 ^ 60) by (apply pow_lt; lra). rewrite Reqb_false by lra. reflexivity.
  - exfalso. exact (NP 2%nat ltac:(lia) P2).
Qed.

(** ** Values returned at convergence *)
Theorem qwe_returned : forall rtol atol maxint zc contrib n out kc conv, (2 <= maxint)%nat ->
  qwe rtol atol maxint zc contrib n = Ok (out, kc, conv) ->
  forall e, (e < n)%nat -> forall i0, (3 <= i0)%nat ->
  (Z.of_nat i0 < kc)%Z ->
  passes rtol atol zc contrib e i0 -> (forall m, (2 <= m < i0)%nat -> ~ passes rtol atol zc contrib e m) ->
  fst (extrapolated (contrib e) (i0 - 1)) <> dbl_max -> extrapolated (contrib e) i0 <> RtoC 0 ->
  nth e out (RtoC 0) = extrapolated (contrib e) (i0 - 1) /\
  within rtol atol (extrapolated (contrib e) i0) (nth e out (RtoC 0)).
Proof.
  intros rtol atol maxint zc contrib n out kc conv Hm H e He i0 Hi0 Hk P NP Hmx Hnz.
  destruct (qwe_spec rtol atol maxint zc contrib n Hm) as [out' [last [conv' [E1 [HL [Hlen [HO HC]]]]]]].
  rewrite H in E1. inversion E1; subst out' kc conv'; clear E1.
  assert (V : nth e out (RtoC 0) = extrapolated (contrib e) (i0 - 1)).
  { destruct (HO e He) as [[i1 [Hi1 [P1 [NP1 Ev]]]] | [NP1 _]].
    - assert (i1 = i0).
      { destruct (Nat.lt_trichotomy i1 i0) as [L | [L | L]]; [|exact L|].
        - exfalso. exact (NP i1 ltac:(lia) P1).
        - exfalso. exact (NP1 i0 ltac:(lia) P). }
      subst i1. rewrite Ev. destruct (Nat.eqb_spec i0 2); [lia|]. unfold clean, E. now rewrite Reqb_false.
    - exfalso. exact (NP1 i0 ltac:(lia) P). }
  split; [exact V|]. rewrite V. unfold passes, E in P. apply not_conv_false in P. destruct P as [P | [P _]]; [exact P|contradiction].
Qed.

(** ** QUAD *)
Definition problem (r : R * nat) : Prop := (3 < snd r)%nat.

Section Q.
Variable rquad : (R -> R) -> R * nat.
Variables j0 j1 : R -> R.
(** scipy.integrate.quad with full_output returns at least three items *)
Hypothesis H3 : forall g, (3 <= snd (rquad g))%nat.

Lemma quad_block_conv : forall k ig acc, snd (quad_block rquad k ig acc) = true ->
  snd acc = true /\ forall sr si, k = Some (sr, si) -> ~ problem (rquad (ig sr)).
Proof.
  intros [[sr si]|] ig [v c]; unfold quad_block; cbn [fst snd]; [|intros H; split; [exact H|discriminate]].
  intros H. pose proof (H3 (ig sr)) as G.
  assert (LO : len_or (snd (rquad (ig sr))) (snd (rquad (ig si))) = snd (rquad (ig sr))).
  { unfold len_or. destruct (Nat.eqb_spec (snd (rquad (ig sr))) 0); [lia|reflexivity]. }
  rewrite LO in H. destruct (Nat.ltb_spec 3 (snd (rquad (ig sr)))) as [L | L]; [discriminate|]. split; [exact H|].
  intros sr' si' E. inversion E; subst. unfold problem. lia.
Qed.

Theorem quad_real_truthful : forall s0 s1 s0b ab off ang,
  snd (quad rquad j0 j1 s0 s1 s0b ab off ang) = true ->
  (forall sr si, s0 = Some (sr, si) -> ~ problem (rquad (quad_PJ0 j0 sr off))) /\
  (forall sr si, s1 = Some (sr, si) -> ~ problem (rquad (quad_PJ1 j1 sr ab off ang))) /\
  (forall sr si, s0b = Some (sr, si) -> ~ problem (rquad (quad_PJ0b j0 sr off ang))).
Proof.
  intros s0 s1 s0b ab off ang H. unfold quad in H.
  apply quad_block_conv in H. destruct H as [H A]. apply quad_block_conv in H. destruct H as [H B].
  apply quad_block_conv in H. destruct H as [_ D]. auto.
Qed.
End Q.

(** an integrator which reports a problem for one integrand only *)
Definition wit_quad (g : R -> R) : R * nat := (0, if Req_EM_T (g 1) 7 then 4%nat else 3%nat).

Theorem quad_imag_ignored :
  snd (quad wit_quad (fun _ => 1) (fun _ => 1) (Some (fun _ => 0, fun _ => 7)) None None 33 1 1) = true /\
  problem (wit_quad (quad_PJ0 (fun _ => 1) (fun _ => 7) 1)) /\
  forall g, (3 <= snd (wit_quad g))%nat.
Proof.
  split; [|split].
  - unfold quad, quad_block, wit_quad. cbn [fst snd]. unfold quad_PJ0 at 1.
    destruct (Req_EM_T (0 * 1) 7) as [H | H]; [lra|]. reflexivity.
  - unfold problem, wit_quad, quad_PJ0. cbn [snd]. destruct (Req_EM_T (7 * 1) 7) as [H | H]; [lia|lra].
  - intros g. unfold wit_quad. simpl. destruct (Req_EM_T (g 1) 7); lia.
Qed.
