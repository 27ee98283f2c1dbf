(** The direct and reflected fields of the half-space solution as functions of the
    receiver position. *)

From Coq Require Import ZArith Reals List Bool Lia Lra Psatz.
From Coquelicot Require Import Coquelicot.
From Verif Require Import PyBase CBase ODE Gauss Halfspace HalfspaceThm HalfspaceTime FullspaceMaxwell FullspaceField Utils FullspaceEM HalfspaceSym HalfspaceZero WaveField WaveField2 WaveField3 HalfspaceWave.
Import ListNotations.
Local Open Scope R_scope.
Local Open Scope C_scope.

Definition kap (res : R) : R := sqrt (mu0 / res).

(** the four fields; z is the vertical distance to the source or to its image *)
Definition fseq (ka : R) (g : nat -> R -> C) (n : nat) (r : R) : C := g n (ka * r / 2)%R.
Definition hfg (res lam : R) (g : nat -> R -> C) (i : nat) (b a : Z) (x y z : R) : C :=
  let ka := kap res in let kl := (ka / lam)%R in
  match i with
  | 0%nat => RtoC (res / (4 * PI)) * (if (b =? 3)%Z then RtoC 0 else te_field (mixS ka (RtoC 0) (fseq ka g)) (mixQ ka (RtoC 0) (fseq ka g)) b a x y z)
  | 1%nat => RtoC (res * lam / (4 * PI)) * (if (b =? 3)%Z then tv_field lam (Ua kl (fseq kl g)) (Na kl (fseq kl g)) a x y z
                else tm_field lam (mixS kl (RtoC 1) (fseq kl g)) (mixQ kl (RtoC 1) (fseq kl g)) (Ua kl (fseq kl g)) b a x y z)
  | 2%nat => RtoC (res / (4 * PI)) * (if (b =? 3)%Z then RtoC 0 else te_field (mixS ka (RtoC 2) (fseq ka g)) (mixQ ka (RtoC 2) (fseq ka g)) b a x y z)
  | _ => RtoC (res * lam / (4 * PI)) * (if (b =? 3)%Z then - tv_field lam (Ua kl (fseq kl g)) (Na kl (fseq kl g)) a x y z
                else tm_field lam (mixS kl (RtoC 1) (fseq kl g)) (mixQ kl (RtoC 1) (fseq kl g)) (Ua kl (fseq kl g)) b a x y z)
  end.
Definition hfield (res lam : R) (w : hs_at) := hfg res lam (sq_q w).

Section Link.
Variables (ive kve : Z -> C -> C) (isr : bool) (w : hs_at) (res lam zs z x y : R).
Hypotheses (Hres : (0 < res)%R) (Hlam : (0 < lam)%R) (Hw : at_ok w) (Hzz : (0 < z + zs)%R) (Ho : off_z x y 0).
Let ka := kap res.
Let kl := (ka / lam)%R.
Let rho := sqrt (x * x + y * y).

Lemma ka_facts : (0 < ka)%R /\ (mu0 = res * ka * ka)%R /\ (sqrt (mu0 * res) = res * ka)%R.
Proof using Hres.
  pose proof mu0_pos as M. assert (P : (0 < mu0 / res)%R) by (apply Rdiv_lt_0_compat; assumption). assert (K : (0 < ka)%R) by now apply sqrt_lt_R0.
  assert (KK : (ka * ka = mu0 / res)%R) by (apply sqrt_sqrt; lra). assert (E : (mu0 = res * ka * ka)%R) by (rewrite Rmult_assoc, KK; field; lra).
  split; [exact K|]. split; [exact E|]. rewrite E. replace (res * ka * ka * res)%R with ((res * ka) * (res * ka))%R by ring. rewrite sqrt_square; [reflexivity|]. apply Rlt_le. now apply Rmult_lt_0_compat.
Qed.

Lemma geoW : exists rho, (0 < rho)%R /\ (rho * rho = x * x + y * y)%R /\ hs_geo (sqrt (x * x + y * y)) (atan2 y x) zs z res lam =
  {| g_x := x; g_y := y; rh := rho; hp := (z + zs)%R; hm := Rabs (z - zs); hsp := ((z + zs) * lam)%R; hsm := (Rabs (z - zs) * lam)%R;
     rp := dist 1 x y (z + zs); rm := dist 1 x y (z - zs); rsp := dist lam x y (z + zs); rsm := dist lam x y (z - zs);
     tp := (ka * dist 1 x y (z + zs) / 2 * (ka * dist 1 x y (z + zs) / 2))%R; tm := (ka * dist 1 x y (z - zs) / 2 * (ka * dist 1 x y (z - zs) / 2))%R;
     tsp := (kl * dist lam x y (z + zs) / 2 * (kl * dist lam x y (z + zs) / 2))%R; tsm := (kl * dist lam x y (z - zs) / 2 * (kl * dist lam x y (z - zs) / 2))%R |}.
Proof using Hres Hlam Hzz Ho.
  exists rho. unfold off_z in Ho. assert (P : (0 < rho)%R) by now apply sqrt_lt_R0. split; [exact P|]. split; [apply sqrt_sqrt; lra|].
  destruct (polar x y) as [PX PY]. unfold hs_geo. rewrite PX, PY. rewrite (Rabs_pos_eq (z + zs)) by lra.
  destruct ka_facts as (K & M & _).
  assert (R1 : forall u, sqrt (x ^ 2 + y ^ 2 + u ^ 2) = dist 1 x y u) by (intros u; unfold dist; f_equal; ring).
  assert (R2 : forall u, sqrt (x ^ 2 + y ^ 2 + (Rabs u * lam) ^ 2) = dist lam x y u).
  { intros u. unfold dist. f_equal. rewrite Rpow_mult_distr, pow2_abs. ring. }
  assert (R3 : sqrt (x ^ 2 + y ^ 2) = rho) by (unfold rho; f_equal; ring).
  assert (R4 : sqrt (x ^ 2 + y ^ 2 + ((z + zs) * lam) ^ 2) = dist lam x y (z + zs)) by (unfold dist; f_equal; ring).
  assert (R5 : sqrt (x ^ 2 + y ^ 2 + Rabs (z - zs) ^ 2) = dist 1 x y (z - zs)) by (rewrite pow2_abs; apply R1).
  rewrite R1, R2, R3, R4, R5. unfold kl. f_equal; rewrite M; field; lra.
Qed.

Lemma D_rho : forall l u, (RtoC (dist l x y u) * RtoC (dist l x y u) - RtoC (l * u) * RtoC (l * u)) = RtoC (x * x + y * y).
Proof using Ho.
  intros l u. destruct (dist_facts l x y u Ho) as (_ & _ & E). rewrite <- !RtoC_mult, E, <- RtoC_minus. f_equal. ring.
Qed.
End Link.

Ltac push := unfold Rdiv, Rminus; cbn [pow]; repeat first [rewrite RtoC_plus | rewrite RtoC_mult | rewrite RtoC_opp | rewrite RtoC_inv0].

Lemma part_fields : forall ive kve isr w res lam zs z x y a b, (0 < res)%R -> (0 < lam)%R -> at_ok w -> (0 < z + zs)%R -> off_z x y 0 -> (1 <= a <= 3)%Z -> (1 <= b <= 3)%Z ->
  let P := hs_part ive kve isr w (10 * a + b) (sqrt (x * x + y * y)) (atan2 y x) zs z res lam in
  p_dTE P = hfield res lam w 0 b a x y (z - zs) /\ p_dTM P = hfield res lam w 1 b a x y (z - zs) /\
  p_rTE P = hfield res lam w 2 b a x y (z + zs) /\ p_rTM P = hfield res lam w 3 b a x y (z + zs).
Proof.
  intros ive kve isr w res lam zs z x y a b Hres Hlam Hw Hzz Ho Ha Hb P.
  destruct (geoW res lam zs z x y Hres Hlam Hzz Ho) as (rho & Hrho & R2 & G).
  unfold P, hs_part. rewrite G. clear P G.
  destruct (ka_facts res Hres) as (K & M & SM). set (ka := kap res) in *.
  destruct (dist_facts 1 x y (z - zs) Ho) as (P1 & _). destruct (dist_facts 1 x y (z + zs) Ho) as (P2 & _).
  destruct (dist_facts lam x y (z - zs) Ho) as (P3 & _). destruct (dist_facts lam x y (z + zs) Ho) as (P4 & _).
  pose proof (D_rho x y Ho 1 (z - zs)) as D1. pose proof (D_rho x y Ho 1 (z + zs)) as D2. pose proof (D_rho x y Ho lam (z - zs)) as D3. pose proof (D_rho x y Ho lam (z + zs)) as D4.
  assert (KL : (0 < ka / lam)%R) by (apply Rdiv_lt_0_compat; assumption).
  assert (Q : forall k r, (0 < k)%R -> (0 < r)%R -> (0 < k * r / 2)%R) by (intros k r Hk Hr; unfold Rdiv; repeat apply Rmult_lt_0_compat; lra).
  unfold hs_fields. cbn [tp tm tsp tsm p_dTE p_dTM p_rTE p_rTM].
  destruct (sq_f w _ _ Hw (Q ka _ K P1) eq_refl) as (A0 & A1 & A2). destruct (sq_f w _ _ Hw (Q ka _ K P2) eq_refl) as (B0 & B1 & B2).
  destruct (sq_f w _ _ Hw (Q _ _ KL P3) eq_refl) as (C0 & C1 & C2). destruct (sq_f w _ _ Hw (Q _ _ KL P4) eq_refl) as (E0 & E1 & E2).
  rewrite A1, A2, B0, B1, B2, C0, C1, C2, E0, E1, E2. clear A0 A1 A2 B0 B1 B2 C0 C1 C2 E0 E1 E2 Q.
  unfold hfield, hfg. fold ka.
  assert (NL : RtoC lam <> RtoC 0) by (apply HalfspaceDc.RC_neq; lra). assert (NP : RtoC PI <> RtoC 0) by (apply HalfspaceDc.RC_neq; pose proof PI_RGT_0; lra).
  assert (NR : RtoC rho <> RtoC 0) by (apply HalfspaceDc.RC_neq; lra).
  assert (N1 : RtoC (dist 1 x y (z - zs)) <> RtoC 0) by (apply HalfspaceDc.RC_neq; lra). assert (N2 : RtoC (dist 1 x y (z + zs)) <> RtoC 0) by (apply HalfspaceDc.RC_neq; lra).
  assert (N3 : RtoC (dist lam x y (z - zs)) <> RtoC 0) by (apply HalfspaceDc.RC_neq; lra). assert (N4 : RtoC (dist lam x y (z + zs)) <> RtoC 0) by (apply HalfspaceDc.RC_neq; lra).
  unfold te_field, tm_field, tv_field, qf, at_p, mixS, mixQ, Ua, Qa, Na, Sb, Qb.
  rewrite D1, D2, D3, D4, <- R2. clear D1 D2 D3 D4.
  assert (HF : forall k n r, sq_q w n (k * r / 2) = fseq k (sq_q w) n r) by reflexivity. rewrite !HF. clear HF.
  assert (YY : RtoC y * RtoC y = RtoC rho * RtoC rho - RtoC x * RtoC x) by (rewrite <- !RtoC_mult, R2, <- RtoC_minus; f_equal; ring).
  assert (XX : RtoC x * RtoC x = RtoC rho * RtoC rho - RtoC y * RtoC y) by (rewrite YY; ring).
  assert (AB : ((Rabs (z - zs) * lam) ^ 2 = (lam * (z - zs)) ^ 2)%R) by (rewrite Rpow_mult_distr, pow2_abs; ring).
  set (f1 := fseq ka (sq_q w)) in *. set (f2 := fseq (ka / lam) (sq_q w)) in *. clearbody f1 f2.
  assert (Hm : Req_EM_T rho 0 = right (Rgt_not_eq _ _ Hrho) \/ True) by now right. clear Hm.
  set (d1 := dist 1 x y (z - zs)) in *. set (d2 := dist 1 x y (z + zs)) in *. set (d3 := dist lam x y (z - zs)) in *. set (d4 := dist lam x y (z + zs)) in *. clearbody d1 d2 d3 d4.
  destruct (three a Ha) as [-> | [-> | ->]]; destruct (three b Hb) as [-> | [-> | ->]]; change (10 * 1 + 1)%Z with 11%Z; change (10 * 1 + 2)%Z with 12%Z; change (10 * 1 + 3)%Z with 13%Z;
   change (10 * 2 + 1)%Z with 21%Z; change (10 * 2 + 2)%Z with 22%Z; change (10 * 2 + 3)%Z with 23%Z; change (10 * 3 + 1)%Z with 31%Z; change (10 * 3 + 2)%Z with 32%Z; change (10 * 3 + 3)%Z with 33%Z;
   unfold hs_coef, hs_delta, hs_xy, hs_rev; cbn [inb existsb Z.eqb Pos.eqb orb andb g_x g_y rh hp hm hsp hsm rp rm rsp rsm];
   try (destruct (Req_EM_T rho 0) as [F0|_]; [exfalso; lra|]);
   cbn [s0m s0p s1m s1p s2m s2p c0p c1m c1p c2m c2p]; rewrite ?SM, ?M; unfold te_al, te_be, te_ga, tm_al, tm_be, tm_ga, ij, qp, sel, rc; cbn [Z.eqb Pos.eqb andb negb].
  all: rewrite ?AB; split; [|split; [|split]]; push; nums; rewrite ?cm1; eC; try solve [ring];
    first [field; repeat split; try assumption; intros F0; apply (f_equal fst) in F0; cbn in F0; lra
          |rewrite YY; field; repeat split; try assumption; intros F0; apply (f_equal fst) in F0; cbn in F0; lra
          |rewrite XX; field; repeat split; try assumption; intros F0; apply (f_equal fst) in F0; cbn in F0; lra].
Qed.

(** conductivities seen by the components *)
Definition sig (res lam : R) (a : Z) : R := if (a =? 3)%Z then (/ (res * lam * lam))%R else (/ res)%R.

Lemma te_scal : forall c S Q b a x y z, te_field (fun r z => c * S r z) (fun r z => c * Q r z) b a x y z = c * te_field S Q b a x y z.
Proof. intros c S Q b a x y z. unfold te_field, qf, at_p. destruct (a =? 3)%Z; eC; ring. Qed.
Lemma tm_scal : forall c lam S Q U b a x y z, tm_field lam (fun r z => c * S r z) (fun r z => c * Q r z) (fun r z => c * U r z) b a x y z = c * tm_field lam S Q U b a x y z.
Proof. intros c lam S Q U b a x y z. unfold tm_field, qf, at_p. destruct (a =? 3)%Z; eC; ring. Qed.
Lemma tv_scal : forall c lam U N a x y z, tv_field lam (fun r z => c * U r z) (fun r z => c * N r z) a x y z = c * tv_field lam U N a x y z.
Proof. intros c lam U N a x y z. unfold tv_field, at_p. destruct (a =? 3)%Z; eC; ring. Qed.

Lemma curlcurl_0 : forall c, curlcurl_is (fun _ _ _ _ => c) (fun _ _ _ _ => RtoC 0) off_z.
Proof.
  intros c. exists (fun _ _ _ _ _ => RtoC 0), (fun _ _ _ _ _ _ => RtoC 0). intros x y z D. split; [|split]; intros; try apply pd_const. ring.
Qed.

Theorem hfield_curl : forall res lam w i b, (0 < res)%R -> (0 < lam)%R -> at_ok w -> (1 <= b <= 3)%Z ->
  curlcurl_is (hfield res lam w i b) (fun a x y z => - (RtoC (mu0 * sig res lam a) * hfg res lam (next w) i b a x y z)) off_z.
Proof.
  intros res lam w i b Hres Hlam Hw Hb. destruct (ka_facts res Hres) as (K & M & _). set (ka := kap res) in *. assert (KL : (0 < ka / lam)%R) by (apply Rdiv_lt_0_compat; assumption).
  assert (S1 : RtoC (mu0 * / res) = RtoC ka * RtoC ka) by (rewrite <- RtoC_mult; f_equal; rewrite M; field; lra).
  assert (S2 : RtoC (mu0 * / (res * lam * lam)) = RtoC (ka / lam) * RtoC (ka / lam)) by (rewrite <- RtoC_mult; f_equal; rewrite M; field; lra).
  assert (S3 : RtoC (lam * lam) * (RtoC (ka / lam) * RtoC (ka / lam)) = RtoC ka * RtoC ka) by (rewrite <- !RtoC_mult; f_equal; field; lra).
  pose proof (fun n r => fsq_d ka w n r K Hw) as F1. pose proof (fun n r => fsq_d (ka / lam) w n r KL Hw) as F2.
  assert (TE : forall c, curlcurl_is (fun a x y z => RtoC (res / (4 * PI)) * (if (b =? 3)%Z then RtoC 0 else te_field (mixS ka c (fseq ka (sq_q w))) (mixQ ka c (fseq ka (sq_q w))) b a x y z))
     (fun a x y z => - (RtoC (mu0 * sig res lam a) * (RtoC (res / (4 * PI)) * (if (b =? 3)%Z then RtoC 0 else te_field (mixS ka c (fseq ka (next w))) (mixQ ka c (fseq ka (next w))) b a x y z)))) off_z).
  { intros c. destruct (Z.eqb_spec b 3) as [E|E].
    - apply (curlcurl_ext (fun _ _ _ _ => RtoC (res / (4 * PI)) * RtoC 0) _ (fun _ _ _ _ => RtoC 0) _ off_z off_open); [|apply curlcurl_0]. intros a x y z Ha Ho. split; ring.
    - refine (curlcurl_ext _ _ _ _ off_z off_open _ (curlcurl_scal (RtoC (res / (4 * PI))) _ _ _ (te_seq ka (fsq ka w) F1 c b ltac:(lia)))).
      intros a x y z Ha Ho. split; [reflexivity|]. rewrite te_scal. change (shift2 (fsq ka w)) with (fseq ka (next w)). unfold sig. destruct (Z.eqb_spec a 3) as [->|Ea].
      + unfold te_field. cbn [Z.eqb Pos.eqb]. ring.
      + rewrite S1. ring. }
  assert (TM : curlcurl_is (fun a x y z => if (b =? 3)%Z then tv_field lam (Ua (ka / lam) (fseq (ka / lam) (sq_q w))) (Na (ka / lam) (fseq (ka / lam) (sq_q w))) a x y z
                else tm_field lam (mixS (ka / lam) (RtoC 1) (fseq (ka / lam) (sq_q w))) (mixQ (ka / lam) (RtoC 1) (fseq (ka / lam) (sq_q w))) (Ua (ka / lam) (fseq (ka / lam) (sq_q w))) b a x y z)
     (fun a x y z => - (RtoC (mu0 * sig res lam a) * (if (b =? 3)%Z then tv_field lam (Ua (ka / lam) (fseq (ka / lam) (next w))) (Na (ka / lam) (fseq (ka / lam) (next w))) a x y z
                else tm_field lam (mixS (ka / lam) (RtoC 1) (fseq (ka / lam) (next w))) (mixQ (ka / lam) (RtoC 1) (fseq (ka / lam) (next w))) (Ua (ka / lam) (fseq (ka / lam) (next w))) b a x y z))) off_z).
  { destruct (Z.eqb_spec b 3) as [E|E].
    - refine (curlcurl_ext _ _ _ _ off_z off_open _ (tv_seq (ka / lam) (fsq (ka / lam) w) F2 lam)).
      intros a x y z Ha Ho. split; [reflexivity|]. rewrite tv_scal. change (shift2 (fsq (ka / lam) w)) with (fseq (ka / lam) (next w)). unfold sig. destruct (Z.eqb_spec a 3) as [->|Ea]; [rewrite S2; ring|rewrite S1, <- S3; ring].
    - refine (curlcurl_ext _ _ _ _ off_z off_open _ (tm_seq (ka / lam) (fsq (ka / lam) w) F2 lam b ltac:(lia))).
      intros a x y z Ha Ho. split; [reflexivity|]. rewrite tm_scal. change (shift2 (fsq (ka / lam) w)) with (fseq (ka / lam) (next w)). unfold sig. destruct (Z.eqb_spec a 3) as [->|Ea]; [rewrite S2; ring|rewrite S1, <- S3; ring]. }
  unfold hfield, hfg. fold ka. destruct i as [|[|[|i]]].
  - apply TE.
  - refine (curlcurl_ext _ _ _ _ off_z off_open _ (curlcurl_scal (RtoC (res * lam / (4 * PI))) _ _ _ TM)). intros a x y z Ha Ho. split; [reflexivity|]. ring.
  - apply TE.
  - destruct (b =? 3)%Z.
    + refine (curlcurl_ext _ _ _ _ off_z off_open _ (curlcurl_scal (- RtoC (res * lam / (4 * PI))) _ _ _ TM)). intros a x y z Ha Ho. split; ring.
    + refine (curlcurl_ext _ _ _ _ off_z off_open _ (curlcurl_scal (RtoC (res * lam / (4 * PI))) _ _ _ TM)). intros a x y z Ha Ho. split; [reflexivity|]. ring.
Qed.

(** the field is linear in the first three functions at one point *)
Definition bas (j n : nat) (_ : R) : C := if (j =? n)%nat then RtoC 1 else RtoC 0.
Lemma hfg_lin : forall res lam i b a x y z, exists q, forall g, hfg res lam g i b a x y z
   = hfg res lam (bas 0) i b a x y z * g 0%nat q + hfg res lam (bas 1) i b a x y z * g 1%nat q + hfg res lam (bas 2) i b a x y z * g 2%nat q.
Proof.
  intros res lam i b a x y z.
  assert (TE : forall c d : C, exists q, forall g, let F := fun g => d * (if (b =? 3)%Z then RtoC 0 else te_field (mixS (kap res) c (fseq (kap res) g)) (mixQ (kap res) c (fseq (kap res) g)) b a x y z) in
     F g = F (bas 0) * g 0%nat q + F (bas 1) * g 1%nat q + F (bas 2) * g 2%nat q).
  { intros c d. exists (kap res * dist 1 x y z / 2)%R. intros g F. unfold F. clear F. destruct (b =? 3)%Z; [ring|]. unfold te_field. destruct (a =? 3)%Z; [ring|].
    unfold qf, at_p, mixS, mixQ, Ua, Qa, Sb, Qb, fseq, bas. cbn [Nat.eqb]. eC. ring. }
  set (kl := (kap res / lam)%R).
  assert (TM : forall d : C, exists q, forall g, let F := fun g => d * (if (b =? 3)%Z then tv_field lam (Ua kl (fseq kl g)) (Na kl (fseq kl g)) a x y z
                else tm_field lam (mixS kl (RtoC 1) (fseq kl g)) (mixQ kl (RtoC 1) (fseq kl g)) (Ua kl (fseq kl g)) b a x y z) in
     F g = F (bas 0) * g 0%nat q + F (bas 1) * g 1%nat q + F (bas 2) * g 2%nat q).
  { intros d. exists (kl * dist lam x y z / 2)%R. intros g F. unfold F. clear F. unfold tv_field, tm_field. destruct (b =? 3)%Z, (a =? 3)%Z;
    unfold qf, at_p, mixS, mixQ, Ua, Na, Qa, Sb, Qb, fseq, bas; cbn [Nat.eqb]; eC; ring. }
  unfold hfg. fold kl. destruct i as [|[|[|i]]].
  - exact (TE _ _).
  - exact (TM _).
  - exact (TE _ _).
  - destruct (TM (RtoC (res * lam / (4 * PI)))) as (q & H). destruct (TM (- RtoC (res * lam / (4 * PI)))) as (q' & H'). cbv zeta in H, H'. destruct (b =? 3)%Z.
    + exists q'. intros g. 
      assert (W : forall u : C, RtoC (res * lam / (4 * PI)) * - u = - RtoC (res * lam / (4 * PI)) * u) by (intros; ring). rewrite !W. apply H'.
    + exists q. exact H.
Qed.

(** what the source-free equation turns the three kinds of signal into *)
Theorem hfg_next_S : forall res lam s i b a x y z, hfg res lam (next (AtS s)) i b a x y z = s * hfield res lam (AtS s) i b a x y z.
Proof.
  intros res lam s i b a x y z. unfold hfield. destruct (hfg_lin res lam i b a x y z) as (q & L). rewrite (L (next (AtS s))), (L (sq_q (AtS s))), !next_S. ring.
Qed.
Theorem hfg_next_step : forall res lam T i b a x y z, hfg res lam (next (AtStep T)) i b a x y z = hfield res lam (AtImp T) i b a x y z.
Proof. reflexivity. Qed.
Theorem hfg_next_imp : forall res lam T i b a x y z, (0 < T)%R -> is_deriveC (fun T => hfield res lam (AtImp T) i b a x y z) T (hfg res lam (next (AtImp T)) i b a x y z).
Proof.
  intros res lam T i b a x y z HT. unfold hfield. destruct (hfg_lin res lam i b a x y z) as (q & L). rewrite (L (next (AtImp T))).
  refine (is_deriveC_ext_loc _ _ _ _ _ (is_deriveC_plus _ _ _ _ _ (is_deriveC_plus _ _ _ _ _ (is_deriveC_scal (hfg res lam (bas 0) i b a x y z) _ _ _ (next_imp T 0 q HT ltac:(lia))) (is_deriveC_scal (hfg res lam (bas 1) i b a x y z) _ _ _ (next_imp T 1 q HT ltac:(lia)))) (is_deriveC_scal (hfg res lam (bas 2) i b a x y z) _ _ _ (next_imp T 2 q HT ltac:(lia))))).
  apply filter_forall. intros t. cbv beta. rewrite (L (sq_q (AtImp t))). reflexivity.
Qed.
