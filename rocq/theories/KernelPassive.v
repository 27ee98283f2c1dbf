(** Passive media: the denominators of the recursion never vanish.

    A mode is described per layer by the medium parameter e, by w with
    Gamma^2 = e w, and by Gamma.  For TM: e = etaH, w = lambda^2/etaV + zetaH;
    for TE: e = zetaH, w = lambda^2/zetaV + etaH.  Passive means
    Re e >= 0, Re w >= 0, not both zero.  The proof follows the power flow
    Re(conj(p) q), which can only decrease away from the source. *)

From Coq Require Import Reals ZArith List Bool Lia Lra Psatz.
From Coquelicot Require Import Coquelicot.
From Verif Require Import PyBase CBase KernelSpec KernelClosed KernelPhys.
Import ListNotations.
Local Open Scope R_scope.

(** Power flow into a medium of reflection coefficient R, for admittance y. *)
Definition pflow (y rho : C) : R :=
  fst y * (1 - (fst rho * fst rho + snd rho * snd rho)) + 2 * snd y * snd rho.

Lemma C_ext : forall a b : C, fst a = fst b -> snd a = snd b -> a = b.
Proof. intros [a1 a2] [b1 b2]; simpl; intros -> ->; reflexivity. Qed.

Lemma Cneq0_norm : forall a : C, a <> RtoC 0 -> 0 < fst a * fst a + snd a * snd a.
Proof.
  intros [a b] H; simpl.
  destruct (Req_dec a 0) as [->|Ha]; [|nra].
  destruct (Req_dec b 0) as [->|Hb]; [|nra].
  exfalso; apply H; reflexivity.
Qed.

Lemma pflow_neq : forall y R, 0 < pflow y R -> Cplus (RtoC 1) R <> RtoC 0.
Proof.
  intros [yr yi] [rr ri] H E. unfold pflow in H. simpl in *.
  injection E as E1 E2. assert (rr = -1) by lra. assert (ri = 0) by lra. subst. nra.
Qed.

Lemma pflow_M : forall y R U, 0 < pflow y R -> 0 < pflow y U ->
  Cminus (RtoC 1) (Cmult U R) <> RtoC 0.
Proof.
  intros [yr yi] [rr ri] [ur ui] H1 H2 E. unfold pflow in *. simpl in *.
  injection E as E1 E2.
  assert (A1 : ur * rr - ui * ri = 1) by lra.
  assert (A2 : ur * ri + ui * rr = 0) by lra.
  assert (B1 : ui * (rr*rr + ri*ri) = - ri).
  { transitivity (rr * (ur * ri + ui * rr) - ri * (ur * rr - ui * ri)); [ring|]. rewrite A1, A2; ring. }
  assert (B2 : (ur*ur+ui*ui) * (rr*rr+ri*ri) = 1).
  { transitivity ((ur*rr - ui*ri)*(ur*rr - ui*ri) + (ur*ri+ui*rr)*(ur*ri+ui*rr)); [ring|].
    rewrite A1, A2; ring. }
  assert (B3 : (yr * (1 - (ur*ur+ui*ui)) + 2*yi*ui) * (rr*rr+ri*ri)
     = - (yr * (1 - (rr*rr+ri*ri)) + 2*yi*ri)).
  { transitivity (yr * ((rr*rr+ri*ri) - (ur*ur+ui*ui)*(rr*rr+ri*ri)) + 2*yi*(ui*(rr*rr+ri*ri))); [ring|].
    rewrite B1, B2; ring. }
  assert (0 <= rr*rr+ri*ri) by nra. nra.
Qed.

(** Crossing an interface: Y is the admittance seen below it. *)
Lemma pflow_Y : forall y T, 0 < pflow y T ->
  0 < fst (Cdiv (Cmult y (Cminus (RtoC 1) T)) (Cplus (RtoC 1) T)).
Proof.
  intros y T H. pose proof (pflow_neq _ _ H) as Hn. apply Cneq0_norm in Hn.
  destruct y as [yr yi], T as [tr ti]. unfold pflow in H. simpl in *.
  set (n := (1 + tr) * ((1 + tr) * 1) + (0 + ti) * ((0 + ti) * 1)).
  assert (Hn' : 0 < n) by (unfold n; nra).
  match goal with |- 0 < ?t => replace t with
   ((yr * (1 - (tr*tr+ti*ti)) + 2*yi*ti) / n) by (field; lra) end.
  apply Rdiv_lt_0_compat; assumption.
Qed.

Lemma pflow_R : forall y Y R, 0 < fst y -> 0 < fst Y ->
  Cmult R (Cplus y Y) = Cminus y Y -> 0 < pflow y R.
Proof.
  intros [yr yi] [a b] [rr ri] Hy HY E. unfold pflow. simpl in *.
  injection E as E1 E2.
  set (A := yr + a) in *. set (B := yi + b) in *.
  assert (F1 : ri * (A*A+B*B) = (yi - b)*A - (yr - a)*B).
  { replace (yi - b) with (rr * B + ri * A) by lra.
    replace (yr - a) with (rr * A - ri * B) by lra. ring. }
  assert (F2 : (rr*rr+ri*ri) * (A*A+B*B) = (yi-b)*(yi-b) + (yr-a)*(yr-a)).
  { replace (yi - b) with (rr * B + ri * A) by lra.
    replace (yr - a) with (rr * A - ri * B) by lra. ring. }
  assert (F3 : (yr * (1 - (rr*rr+ri*ri)) + 2*yi*ri) * (A*A+B*B) = 4 * (yr*yr+yi*yi) * a).
  { transitivity (yr * ((A*A+B*B) - (rr*rr+ri*ri)*(A*A+B*B)) + 2*yi*(ri*(A*A+B*B))); [ring|].
    rewrite F1, F2. unfold A, B. ring. }
  assert (0 < A) by (unfold A; lra).
  assert (0 < A*A+B*B) by nra.
  assert (0 < 4 * (yr*yr+yi*yi) * a) by (apply Rmult_lt_0_compat; nra).
  nra.
Qed.

(** Propagation over a distance d. *)
Lemma pflow_prop : forall y g R d, 0 < fst y -> 0 < fst g ->
  Rabs (fst g * fst y) >= Rabs (snd g * snd y) -> 0 <= d ->
  0 < pflow y R ->
  0 < pflow y (Cmult R (Cexp (Copp (Cmult (Cmult (RtoC 2) g) (RtoC d))))).
Proof.
  intros [yr yi] [gr gi] [rr ri] d Hy Hg Hgy Hd H0.
  unfold pflow in *. cbn [fst snd] in *.
  set (F := fun x => yr * (exp (2*gr*x) - (rr*rr+ri*ri) * exp (- (2*gr*x)))
                     + 2*yi*(ri * cos (2*gi*x) - rr * sin (2*gi*x))).
  set (dF := fun x => yr * (2*gr*exp (2*gr*x) + (rr*rr+ri*ri) * (2*gr*exp (- (2*gr*x))))
                     + 2*yi*(- (ri * (2*gi*sin (2*gi*x))) - rr * (2*gi*cos (2*gi*x)))).
  assert (HdF : forall x, is_derive F x (dF x)).
  { intros x. unfold F, dF. auto_derive; [trivial|]. ring. }
  assert (HP : forall x, 0 <= dF x).
  { intros x. unfold dF. set (s := sin (2*gi*x)). set (c := cos (2*gi*x)).
    set (E := exp (2*gr*x)). assert (HE : 0 < E) by apply exp_pos.
    rewrite exp_Ropp. fold E.
    assert (SC : s*s + c*c = 1).
    { pose proof (sin2_cos2 (2*gi*x)) as Q. unfold Rsqr in Q. exact Q. }
    set (n2 := rr*rr+ri*ri). assert (Hn2 : 0 <= n2) by (unfold n2; nra).
    assert (Hn : sqrt n2 * sqrt n2 = n2) by (apply sqrt_sqrt; exact Hn2).
    set (n := sqrt n2) in *. assert (Hn0 : 0 <= n) by apply sqrt_pos.
    assert (A1 : 2 * n <= E + n2 * / E).
    { assert (HEi : 0 < / E) by (apply Rinv_0_lt_compat; exact HE).
      assert (HEE : E * / E = 1) by (apply Rinv_r; lra).
      assert (0 <= (E - n) * (E - n) * / E) by (apply Rmult_le_pos; [apply Rle_0_sqr|lra]).
      replace ((E - n) * (E - n) * / E) with (E * (E * / E) - 2*n*(E * / E) + n*n* / E) in H by ring.
      rewrite HEE, Hn in H. lra. }
    assert (A2 : Rabs (ri * s + rr * c) <= n).
    { apply Rsqr_incr_0_var; [|exact Hn0]. rewrite <- Rsqr_abs. unfold Rsqr. rewrite Hn.
      unfold n2. assert (0 <= (ri*c - rr*s)*(ri*c-rr*s)) by apply Rle_0_sqr.
      assert ((ri*s+rr*c)*(ri*s+rr*c) + (ri*c-rr*s)*(ri*c-rr*s) = (rr*rr+ri*ri)*(s*s+c*c)) by ring.
      rewrite SC in H1. lra. }
    replace (yr * (2*gr*E + n2*(2*gr* / E)) + 2*yi*(-(ri*(2*gi*s)) - rr*(2*gi*c)))
      with (2*(gr*yr)*(E + n2 * / E) - 4 * ((gi*yi) * (ri*s+rr*c))) by ring.
    assert (A3 : Rabs ((gi*yi)*(ri*s+rr*c)) <= (gr*yr)*n).
    { rewrite Rabs_mult. apply Rmult_le_compat; try apply Rabs_pos; [|exact A2].
      rewrite (Rabs_pos_eq (gr*yr)) in Hgy by nra. lra. }
    assert (0 < gr*yr) by nra.
    pose proof (Rle_abs ((gi*yi)*(ri*s+rr*c))) as A4. nra. }
  assert (HF0 : 0 < F 0).
  { unfold F. rewrite !Rmult_0_r, Ropp_0, exp_0, cos_0, sin_0.
    match goal with |- 0 < ?t => replace t with
      (yr * (1 - (rr*rr+ri*ri)) + 2*yi*ri) by ring end. exact H0. }
  assert (HFd : F 0 <= F d).
  { destruct (MVT_gen F 0 d dF) as [c [_ Hc]].
    - intros; apply HdF.
    - intros x _. apply derivable_continuous_pt. exists (dF x). apply is_derive_Reals. apply HdF.
    - specialize (HP c). nra. }
  unfold Cexp, Cmult, Copp, RtoC. cbn [fst snd].
  replace (- ((2 * gr - 0 * gi) * d - (2 * gi + 0 * gr) * 0)) with (- (2*gr*d)) by ring.
  replace (- ((2 * gr - 0 * gi) * 0 + (2 * gi + 0 * gr) * d)) with (- (2*gi*d)) by ring.
  rewrite cos_neg, sin_neg.
  set (s := sin (2*gi*d)). set (c := cos (2*gi*d)). set (E := exp (2*gr*d)).
  assert (HE : 0 < E) by apply exp_pos.
  assert (SC : s*s + c*c = 1).
  { pose proof (sin2_cos2 (2*gi*d)) as Q. unfold Rsqr in Q. exact Q. }
  rewrite exp_Ropp. fold E.
  assert (HEE : E * / E = 1) by (apply Rinv_r; lra).
  assert (HEi : 0 < / E) by (apply Rinv_0_lt_compat; exact HE).
  match goal with |- 0 < ?t => replace t with (F d * / E) end.
  - apply Rmult_lt_0_compat; lra.
  - unfold F. rewrite exp_Ropp. fold s c E.
    transitivity (yr * ((E * / E) - (rr*rr+ri*ri) * (s*s+c*c) * (/ E * / E))
       + 2*yi*(ri*c - rr*s) * / E).
    + rewrite SC. ring.
    + rewrite HEE. ring.
Qed.

Section Passive.
Variables (e w g : nat -> C) (z : nat -> R) (N : nat).
Record passive_mode : Prop := {
  pas_e : forall k, (k <= N)%nat -> 0 <= fst (e k);
  pas_w : forall k, (k <= N)%nat -> 0 <= fst (w k);
  pas_ew : forall k, (k <= N)%nat -> 0 < fst (e k) + fst (w k);
  pas_e0 : forall k, (k <= N)%nat -> e k <> RtoC 0;
  pas_gg : forall k, (k <= N)%nat -> Cmult (g k) (g k) = Cmult (e k) (w k);
  pas_g : forall k, (k <= N)%nat -> 0 < fst (g k);
  pas_z : forall k, (1 <= k < N)%nat -> z k <= z (S k)
}.
Hypothesis PAS : passive_mode.

Local Open Scope C_scope.
Notation y k := (g k / e k).

Lemma pas_gnz : forall k, (k <= N)%nat -> g k <> 0.
Proof. intros k Hk. apply Re_pos_neq_0. now apply (pas_g PAS). Qed.

Lemma pas_y : forall k, (k <= N)%nat -> (0 < fst (y k))%R.
Proof.
  intros k Hk. pose proof (pas_e PAS k Hk) as H1. pose proof (pas_w PAS k Hk) as H2.
  pose proof (pas_ew PAS k Hk) as H3. pose proof (Cneq0_norm _ (pas_e0 PAS k Hk)) as H4.
  pose proof (pas_gg PAS k Hk) as H5. pose proof (pas_g PAS k Hk) as H6.
  destruct (e k) as [c d], (w k) as [u v], (g k) as [a b]. simpl in *.
  injection H5 as E1 E2.
  assert (Hn : (0 < c * (c * 1) + d * (d * 1))%R) by nra.
  match goal with |- (0 < ?t)%R => replace t with
    ((a*c + b*d) / (c*(c*1)+d*(d*1)))%R by (field; lra) end.
  apply Rdiv_lt_0_compat; [|assumption].
  (* Re (g^2 conj e) = |e|^2 Re w *)
  assert (K : ((a*a - b*b)*c + 2*a*b*d = (c*c+d*d)*u)%R).
  { replace (a*a - b*b)%R with (c*u - d*v)%R by lra.
    replace (2*a*b)%R with (c*v+d*u)%R by lra. ring. }
  destruct (Rlt_le_dec 0 (a*c+b*d)) as [|L]; [assumption|exfalso].
  assert (K2 : ((c*c+d*d)*u + c*(a*a+b*b) = 2*a*(a*c+b*d))%R) by (rewrite <- K; ring).
  assert (Q1 : (0 <= (c*c+d*d)*u)%R) by (apply Rmult_le_pos; nra).
  assert (Q2 : (0 <= c*(a*a+b*b))%R) by (apply Rmult_le_pos; nra).
  assert (Q3 : (a * (a*c+b*d) <= 0)%R) by nra.
  assert (Z1 : (c*(a*a+b*b) = 0)%R) by lra.
  assert (Z2 : ((c*c+d*d)*u = 0)%R) by lra.
  assert (c = 0%R) by (apply Rmult_integral in Z1; destruct Z1; nra).
  assert (u = 0%R) by (apply Rmult_integral in Z2; destruct Z2; nra).
  lra.
Qed.

Lemma pas_gy : forall k, (k <= N)%nat ->
  (Rabs (fst (g k) * fst (y k)) >= Rabs (snd (g k) * snd (y k)))%R.
Proof.
  intros k Hk. pose proof (pas_y k Hk) as Hy. pose proof (pas_g PAS k Hk) as Hg.
  pose proof (pas_e0 PAS k Hk) as He.
  assert (E1 : e k * y k = g k) by (field; assumption).
  assert (E2 : g k * y k = w k).
  { transitivity (g k * g k / e k); [unfold Cdiv; ring|]. rewrite (pas_gg PAS k Hk). field. assumption. }
  pose proof (pas_e PAS k Hk) as H1. pose proof (pas_w PAS k Hk) as H2.
  set (Y := y k) in *. clearbody Y.
  destruct (e k) as [c d], (w k) as [u v], (g k) as [a b], Y as [p q]. simpl in *.
  injection E1 as F1 F2. injection E2 as F3 F4.
  rewrite (Rabs_pos_eq (a*p)) by nra. apply Rle_ge.
  assert (K : (a*p + b*q = c*(p*p+q*q))%R) by (rewrite <- F1, <- F2; ring).
  assert ((0 <= c*(p*p+q*q))%R) by (apply Rmult_le_pos; nra).
  unfold Rabs; destruct (Rcase_abs (b*q)); lra.
Qed.

(** The step across an interface, written for either direction. *)
Lemma pflow_step : forall (e1 g1 e2 g2 T : C), e1 <> 0 -> e2 <> 0 ->
  (0 < fst (g1 / e1)%C)%R -> (0 < fst (g2 / e2)%C)%R -> (0 < pflow (g2 / e2)%C T)%R ->
  let r := (e2 * g1 - e1 * g2) / (e2 * g1 + e1 * g2) in
  e2 * g1 + e1 * g2 <> 0 /\ 1 + r * T <> 0 /\ (0 < pflow (g1 / e1)%C ((r + T) / (1 + r * T))%C)%R.
Proof.
  intros e1 g1 e2 g2 T He1 He2 Hy1 Hy2 HT r.
  set (y1 := g1 / e1) in *. set (y2 := g2 / e2) in *.
  assert (S12 : e2 * g1 + e1 * g2 = e1 * e2 * (y1 + y2)).
  { unfold y1, y2. field. split; assumption. }
  assert (D12 : e2 * g1 - e1 * g2 = e1 * e2 * (y1 - y2)).
  { unfold y1, y2. field. split; assumption. }
  assert (Hyy : y1 + y2 <> 0).
  { apply Re_pos_neq_0. change (0 < fst y1 + fst y2)%R. lra. }
  assert (Hr : r = (y1 - y2) / (y1 + y2)).
  { unfold r. rewrite S12, D12. field. repeat split; assumption. }
  pose proof (pflow_neq _ _ HT) as Hu. pose proof (pflow_Y _ _ HT) as HY.
  set (Y := y2 * (1 - T) / (1 + T)) in *.
  assert (HyY : y1 + Y <> 0).
  { apply Re_pos_neq_0. change (0 < fst y1 + fst Y)%R. lra. }
  assert (Hden : 1 + r * T = (1 + T) * (y1 + Y) / (y1 + y2)).
  { rewrite Hr. unfold Y. field. split; assumption. }
  assert (Hd : 1 + r * T <> 0).
  { rewrite Hden. intro Hc. apply (Cmult_neq_0 _ _ Hu) in HyY as Hc2.
    apply Hc2. transitivity ((1 + T) * (y1 + Y) / (y1 + y2) * (y1 + y2)); [field; assumption|].
    rewrite Hc. ring. }
  split; [|split].
  - rewrite S12. apply Cmult_neq_0; [apply Cmult_neq_0|]; assumption.
  - exact Hd.
  - apply pflow_R with (Y := Y); [assumption|exact HY|].
    transitivity ((r + T) * (y1 + Y) / (1 + r * T)); [unfold Cdiv; ring|].
    rewrite Hden.
    assert (Hnum : r + T = (1 + T) * (y1 - Y) / (y1 + y2)).
    { rewrite Hr. unfold Y. field. split; assumption. }
    rewrite Hnum. field. repeat split; assumption.
Qed.

Lemma E2_dec : forall k, E2 g z k = Cexp (- (2 * g k * RtoC (thick z k))).
Proof. reflexivity. Qed.

Lemma pflow_E2 : forall k R, (k <= N)%nat -> (1 <= k < N)%nat -> (0 < pflow (y k) R)%R ->
  (0 < pflow (y k) (R * E2 g z k)%C)%R.
Proof.
  intros k R Hk Hk2 H. unfold E2. apply pflow_prop; auto using pas_y, pas_gy.
  - apply (pas_g PAS); assumption.
  - unfold thick. pose proof (pas_z PAS k Hk2). lra.
Qed.

Lemma pflow_0 : forall k, (k <= N)%nat -> (0 < pflow (y k) 0)%R.
Proof. intros k Hk. pose proof (pas_y k Hk) as H. unfold pflow. simpl in *. lra. Qed.

Lemma pas_down : forall m k, (k + m = N)%nat ->
  (0 < pflow (y k) (Rdn e g z N k))%R /\
  (m <> 0%nat -> den_rl e g k <> 0 /\ den_dn e g z N k <> 0).
Proof.
  induction m; intros k Hk.
  - replace k with N by lia. rewrite Rdn_N. split; [apply pflow_0; lia|lia].
  - destruct (IHm (S k) ltac:(lia)) as [IH _].
    assert (HT : (0 < pflow (y (S k)) (Rdn e g z N (S k) * E2 g z (S k))%C)%R).
    { destruct (Nat.eq_dec (S k) N) as [HN|HN].
      - rewrite HN, Rdn_N. replace (0 * E2 g z N) with (RtoC 0) by ring. apply pflow_0; lia.
      - apply pflow_E2; try lia. exact IH. }
    destruct (pflow_step (e k) (g k) (e (S k)) (g (S k)) _
       (pas_e0 PAS k ltac:(lia)) (pas_e0 PAS (S k) ltac:(lia))
       (pas_y k ltac:(lia)) (pas_y (S k) ltac:(lia)) HT) as [A [B D]].
    split; [|intros _; split; [exact A|exact B]].
    rewrite (Rdn_step e g z N k) by lia. exact D.
Qed.

Lemma neg_rl : forall k, - rl e g k
  = (e k * g (S k) - e (S k) * g k) / (e k * g (S k) + e (S k) * g k).
Proof.
  intros. unfold rl. rewrite (Cplus_comm (e k * g (S k))). unfold Cdiv. ring.
Qed.

Lemma pas_up : forall k, (k <= N)%nat ->
  (0 < pflow (y k) (Rup e g z k))%R /\
  (forall j, k = S j -> den_up e g z j <> 0).
Proof.
  induction k; intros Hk.
  - split; [apply pflow_0; lia|discriminate].
  - destruct (IHk ltac:(lia)) as [IH _].
    assert (HT : (0 < pflow (y k) (Rup e g z k * E2 g z k)%C)%R).
    { destruct (Nat.eq_dec k 0) as [->|].
      - replace (Rup e g z 0 * E2 g z 0) with (RtoC 0) by (simpl; ring). apply pflow_0; lia.
      - apply pflow_E2; try lia. exact IH. }
    destruct (pflow_step (e (S k)) (g (S k)) (e k) (g k) _
       (pas_e0 PAS (S k) ltac:(lia)) (pas_e0 PAS k ltac:(lia))
       (pas_y (S k) ltac:(lia)) (pas_y k ltac:(lia)) HT) as [A [B D]].
    split.
    + rewrite Rup_step. unfold den_up. rewrite neg_rl. exact D.
    + intros j E. injection E as <-. unfold den_up. rewrite neg_rl. exact B.
Qed.

Lemma pas_Rdn : forall k, (k <= N)%nat -> (0 < pflow (y k) (Rdn e g z N k))%R.
Proof. intros k Hk. apply (pas_down (N - k) k). lia. Qed.
Lemma pas_Rup : forall k, (k <= N)%nat -> (0 < pflow (y k) (Rup e g z k))%R.
Proof. intros k Hk. apply (pas_up k Hk). Qed.

(** Every denominator of the model is nonzero for a passive stack. *)
Theorem passive_regular : regular e g z N.
Proof.
  constructor.
  - intros k Hk. apply (pas_down (N - k) k); lia.
  - intros k Hk. apply (pas_down (N - k) k); lia.
  - intros k Hk. apply (proj2 (pas_up (S k) ltac:(lia))). reflexivity.
  - intros k Hk. apply (pflow_neq (y k)). apply pflow_E2; try lia. apply pas_Rdn; lia.
  - intros k Hk. apply (pflow_neq (y k)). apply pflow_E2; try lia. apply pas_Rup; lia.
  - intros k Hk. replace (Rup e g z k * Rdn e g z N k * E2 g z k)
      with (Rup e g z k * E2 g z k * Rdn e g z N k) by ring.
    apply (pflow_M (y k)); [apply pas_Rdn; lia|]. apply pflow_E2; try lia. apply pas_Rup; lia.
Qed.
End Passive.
