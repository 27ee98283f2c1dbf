(** Closed form of the Green's function of one mode, and the proof that
    kernel.fields/kernel.greenfct compute it. *)

From Coq Require Import Reals ZArith List Bool Lia Lra.
From Coquelicot Require Import Coquelicot.
From Verif Require Import PyBase CBase Kernel KernelSpec KernelRefl.
Import ListNotations.
Local Open Scope R_scope.
Local Open Scope C_scope.
Local Open Scope res_scope.

Fixpoint prodC (f : nat -> C) (a n : nat) : C :=
  match n with O => 1 | S n' => f a * prodC f (S a) n' end.

Lemma prodC_snoc : forall f n a, prodC f a (S n) = prodC f a n * f (a + n)%nat.
Proof.
  intros f n; induction n; intros a.
  - cbn [prodC]. rewrite Nat.add_0_r. ring.
  - change (prodC f a (S (S n))) with (f a * prodC f (S a) (S n)).
    rewrite IHn. cbn [prodC]. replace (S a + n)%nat with (a + S n)%nat by lia. ring.
Qed.

Lemma prodC_ext : forall f h n a,
  (forall k, (a <= k < a + n)%nat -> f k = h k) -> prodC f a n = prodC h a n.
Proof.
  intros f h n; induction n; intros a H; cbn [prodC]; [reflexivity|].
  rewrite H by lia. f_equal. apply IHn. intros; apply H; lia.
Qed.

Section Closed.
Variables (e g : nat -> C) (z : nat -> R) (N : nat).
Notation eL := (arr e N).
Notation gL := (arr g N).
Notation dL := (depth_arr z N).
Notation Rd := (Rdn e g z N).
Notation Ru := (Rup e g z).
Notation ee2 := (E2 g z).
Notation ee1 := (E1 g z).

Definition Ms (s : nat) : C := 1 - Ru s * Rd s * ee2 s.
(** Wave arriving at the bottom (top) of the source layer: direct wave plus
    the one reflected at the opposite side.  pm is the source polarity. *)
Definition bsd (pm : C) (s : nat) (zs : R) : C :=
  dec g s (z (S s) - zs)%R + pm * Ru s * dec g s (thick z s + (zs - z s))%R.
Definition bsu (pm : C) (s : nat) (zs : R) : C :=
  dec g s (zs - z s)%R + pm * Rd s * dec g s (thick z s + (z (S s) - zs))%R.
Definition tdn (k : nat) : C := (1 + Rd k) / (1 + Rd (S k) * ee2 (S k)).
Definition tup (k : nat) : C := (1 + Ru (S k)) / (1 + Ru k * ee2 k).

Definition amp_dn (pm : C) (s r : nat) (zs : R) : C :=
  bsd pm s zs / Ms s * tdn s * prodC (fun k => ee1 k * tdn k) (S s) (r - S s).
Definition amp_up (pm : C) (s r : nat) (zs : R) : C :=
  pm * bsu pm s zs / Ms s * tup (s - 1) * prodC (fun k => ee1 k * tup (k - 1)) (S r) (s - S r).

Definition G_same (pm sg : C) (s : nat) (zs zr : R) : C :=
  Rd s * bsd pm s zs / Ms s * dec g s (z (S s) - zr)%R
  + pm * sg * (Ru s * bsu pm s zs / Ms s * dec g s (zr - z s)%R).
Definition G_dn (pm sg : C) (s r : nat) (zs zr : R) : C :=
  amp_dn pm s r zs * (sg * dec g r (zr - z r)%R + Rd r * ee1 r * dec g r (z (S r) - zr)%R).
Definition G_up (pm sg : C) (s r : nat) (zs zr : R) : C :=
  amp_up pm s r zs * (dec g r (z (S r) - zr)%R + sg * Ru r * ee1 r * dec g r (zr - z r)%R).

Record regular : Prop := {
  reg_rl : forall k, (k < N)%nat -> den_rl e g k <> 0;
  reg_dn : forall k, (k < N)%nat -> den_dn e g z N k <> 0;
  reg_up : forall k, (k < N)%nat -> den_up e g z k <> 0;
  reg_d : forall k, (0 < k < N)%nat -> 1 + Rd k * ee2 k <> 0;
  reg_u : forall k, (0 < k < N)%nat -> 1 + Ru k * ee2 k <> 0;
  reg_M : forall k, (0 < k < N)%nat -> 1 - Ru k * Rd k * ee2 k <> 0
}.

Hypothesis REG : regular.

(** [nth] of the returned reflection lists *)
Lemma idx_map_seq : forall A (f : nat -> A) a n k, (k < n)%nat ->
  idx (map f (seq a n)) (Z.of_nat k) = Ok (f (a + k)%nat).
Proof.
  intros. rewrite idx_nth with (d := f O) by (rewrite map_length, seq_length; lia).
  rewrite map_nth, seq_nth by lia. reflexivity.
Qed.

Lemma idx_hd : forall A (x : A) l, idx (x :: l) 0 = Ok x.
Proof. reflexivity. Qed.

Lemma Ru_0 : Ru 0 = 0.
Proof. reflexivity. Qed.
Lemma Rd_N : Rd N = 0.
Proof. apply Rdn_N. Qed.

Lemma regd : forall k, (0 < k <= N)%nat -> 1 + Rd k * ee2 k <> 0.
Proof.
  intros k Hk. destruct (Nat.eq_dec k N) as [->|].
  - rewrite Rd_N. replace (1 + 0 * ee2 N) with (RtoC 1) by ring. apply C1_neq_0.
  - apply (reg_d REG). lia.
Qed.
Lemma regu : forall k, (k < N)%nat -> 1 + Ru k * ee2 k <> 0.
Proof.
  intros k Hk. destruct (Nat.eq_dec k 0) as [->|].
  - rewrite Ru_0. replace (1 + 0 * ee2 0) with (RtoC 1) by ring. apply C1_neq_0.
  - apply (reg_u REG). lia.
Qed.
Lemma regM : forall k, (k <= N)%nat -> Ms k <> 0.
Proof.
  intros k Hk. unfold Ms. destruct (Nat.eq_dec k 0) as [->|].
  - rewrite Ru_0. replace (1 - 0 * Rd 0 * ee2 0) with (RtoC 1) by ring. apply C1_neq_0.
  - destruct (Nat.eq_dec k N) as [->|].
    + rewrite Rd_N. replace (1 - Ru N * 0 * ee2 N) with (RtoC 1) by ring. apply C1_neq_0.
    + apply (reg_M REG). lia.
Qed.

Lemma Ms_0 : Ms 0 = 1.
Proof. unfold Ms. rewrite Ru_0. ring. Qed.
Lemma Ms_N : Ms N = 1.
Proof. unfold Ms. rewrite Rd_N. ring. Qed.

(** ** The multi-layer product *)

Lemma fields_loop_dn : forall n s P0 Rpm, (1 <= n)%nat -> (s + n <= N)%nat ->
  (forall k, (k <= n)%nat -> idx Rpm (Z.of_nat k) = Ok (Rd (s + k)%nat)) ->
  foldM (fields_step dL Rpm gL (Z.of_nat s) (-1) (Z.of_nat N + 1 - 1))
        (zrange 2 (Z.of_nat n + 1)) P0
  = Ok (P0 * prodC (fun k => ee1 k * tdn k) (S s) (n - 1)).
Proof.
  intros n s P0 Rpm Hn Hs HR.
  set (I := fun (j : nat) (P : C) => P = P0 * prodC (fun k => ee1 k * tdn k) (S s) j).
  destruct (foldM_inv _ _ (fields_step dL Rpm gL (Z.of_nat s) (-1) (Z.of_nat N + 1 - 1)) I
      (zrange 2 (Z.of_nat n + 1)) P0) as [P [EQ HI]].
  - unfold I. cbn [prodC]. ring.
  - intros j P x Hx HI. apply zrange_nth in Hx. destruct Hx as [-> Hj].
    unfold I in HI. subst P. unfold fields_step.
    replace (Z.of_nat s + (2 + Z.of_nat j) + -1 + 1)%Z with (Z.of_nat (s + j + 2)) by lia.
    replace (Z.of_nat s + (2 + Z.of_nat j) + -1)%Z with (Z.of_nat (s + j + 1)) by lia.
    replace (2 + Z.of_nat j + -1)%Z with (Z.of_nat (j + 1)) by lia.
    replace (Z.of_nat s + (2 + Z.of_nat j))%Z with (Z.of_nat (s + j + 2)) by lia.
    rewrite !idx_depth by lia. rewrite HR by lia. rewrite !idx_arr by lia. cbn [bind xsub xexpm].
    set (k := (s + j + 1)%nat).
    assert (Hstep : forall q, q = (1 + Rd (S k) * ee2 (S k)) ->
       P0 * prodC (fun k => ee1 k * tdn k) (S s) j * ((1 + Rd k) * ee1 k) / q
       = P0 * prodC (fun k => ee1 k * tdn k) (S s) (S j)).
    { intros q ->. rewrite prodC_snoc. replace (S s + j)%nat with k by (unfold k; lia).
      unfold tdn, Cdiv. ring. }
    destruct (Z.eqb_spec (Z.of_nat (s + j + 2)) (Z.of_nat N + 1 - 1)) as [HN|HN]; cbn [negb].
    + eexists; split; [reflexivity|]. unfold I. rewrite <- (Hstep 1).
      * replace (s + (j + 1))%nat with k by (unfold k; lia).
        replace (z (s + j + 2)%nat - z k)%R with (thick z k) by (unfold thick, k; do 2 f_equal; lia).
        rewrite Cdiv_1_r. reflexivity.
      * replace (S k) with N by (unfold k; lia). rewrite Rd_N. ring.
    + replace (Z.of_nat (s + j + 2) + 1)%Z with (Z.of_nat (s + j + 3)) by lia.
      rewrite !idx_depth by lia. cbn [bind xsub].
      replace (2 + Z.of_nat j)%Z with (Z.of_nat (j + 2)) by lia.
      rewrite HR by lia. rewrite ?idx_arr by lia. cbn [bind xexpm].
      rewrite cdiv_ok.
      * eexists; split; [reflexivity|]. unfold I. rewrite <- (Hstep _ eq_refl).
        replace (s + (j + 1))%nat with k by (unfold k; lia).
        replace (s + (j + 2))%nat with (S k) by (unfold k; lia).
        replace (s + j + 2)%nat with (S k) by (unfold k; lia).
        replace (s + j + 3)%nat with (S (S k)) by (unfold k; lia).
        reflexivity.
      * replace (s + (j + 2))%nat with (S k) by (unfold k; lia).
        replace (s + j + 2)%nat with (S k) by (unfold k; lia).
        replace (s + j + 3)%nat with (S (S k)) by (unfold k; lia).
        apply (regd (S k)). unfold k; lia.
  - rewrite EQ. f_equal. unfold I in HI. rewrite HI. rewrite zrange_length.
    do 2 f_equal. lia.
Qed.

Lemma fields_loop_up : forall n r P0 Rpm, (1 <= n)%nat -> (r + n <= N)%nat ->
  (forall k, (k <= n)%nat -> idx Rpm (Z.of_nat k) = Ok (Ru (r + k)%nat)) ->
  foldM (fields_step dL Rpm gL (Z.of_nat r) 1 0)
        (zrange 0 (Z.of_nat n + 1 - 2)) P0
  = Ok (P0 * prodC (fun k => ee1 k * tup (k - 1)) (S r) (n - 1)).
Proof.
  intros n r P0 Rpm Hn Hs HR.
  set (I := fun (j : nat) (P : C) => P = P0 * prodC (fun k => ee1 k * tup (k - 1)) (S r) j).
  destruct (foldM_inv _ _ (fields_step dL Rpm gL (Z.of_nat r) 1 0) I
      (zrange 0 (Z.of_nat n + 1 - 2)) P0) as [P [EQ HI]].
  - unfold I. cbn [prodC]. ring.
  - intros j P x Hx HI. apply zrange_nth in Hx. destruct Hx as [-> Hj].
    unfold I in HI. subst P. unfold fields_step.
    replace (Z.of_nat r + (0 + Z.of_nat j) + 1 + 1)%Z with (Z.of_nat (r + j + 2)) by lia.
    replace (Z.of_nat r + (0 + Z.of_nat j) + 1)%Z with (Z.of_nat (r + j + 1)) by lia.
    replace (0 + Z.of_nat j + 1)%Z with (Z.of_nat (j + 1)) by lia.
    replace (Z.of_nat r + (0 + Z.of_nat j))%Z with (Z.of_nat (r + j)) by lia.
    rewrite !idx_depth by lia. rewrite HR by lia. rewrite !idx_arr by lia. cbn [bind xsub xexpm].
    set (k := (r + j)%nat).
    assert (Hstep : forall q, q = (1 + Ru k * ee2 k) ->
       P0 * prodC (fun k => ee1 k * tup (k - 1)) (S r) j * ((1 + Ru (S k)) * ee1 (S k)) / q
       = P0 * prodC (fun k => ee1 k * tup (k - 1)) (S r) (S j)).
    { intros q ->. rewrite prodC_snoc. replace (S r + j)%nat with (S k) by (unfold k; lia).
      replace (S k - 1)%nat with k by lia. unfold tup, Cdiv. ring. }
    replace (r + (j + 1))%nat with (S k) by (unfold k; lia).
    replace (k + 1)%nat with (S k) by lia.
    replace (k + 2)%nat with (S (S k)) by lia.
    destruct (Z.eqb_spec (Z.of_nat k) 0) as [H0|H0]; cbn [negb].
    + eexists; split; [reflexivity|]. unfold I. rewrite <- (Hstep 1).
      * rewrite Cdiv_1_r. reflexivity.
      * replace k with 0%nat by lia. rewrite Ru_0. ring.
    + replace (Z.of_nat k + 1)%Z with (Z.of_nat (S k)) by lia.
      assert (Hjn : (j < n - 1)%nat) by lia.
      rewrite !idx_depth by (unfold k in *; lia). cbn [bind xsub].
      replace (0 + Z.of_nat j)%Z with (Z.of_nat j) by lia.
      rewrite HR by lia. fold k. rewrite ?idx_arr by (unfold k in *; lia). cbn [bind xexpm].
      rewrite cdiv_ok.
      * eexists; split; [reflexivity|]. unfold I. rewrite <- (Hstep _ eq_refl).
        reflexivity.
      * apply regu. unfold k; lia.
  - rewrite EQ. f_equal. unfold I in HI. rewrite HI. rewrite zrange_length.
    do 2 f_equal. lia.
Qed.

Definition zpm (b : bool) : Z := if b then 1%Z else (-1)%Z.
Definition cpm (TM : bool) (ab : Z) : C := cz (zpm (plus_of TM ab)).

(** ** fields *)

Lemma fields_dn_skip : forall Rp Rm s r zs ab TM, (s <= N)%nat -> (r <= N)%nat ->
  (r = 0 \/ r < s)%nat ->
  fields_dir false dL Rp Rm gL (Z.of_nat r) (Z.of_nat s) zs ab TM = Ok (cz 0).
Proof.
  intros Rp Rm s r zs ab TM Hs Hr H. unfold fields_dir. rewrite zlen_arr.
  assert (E : exists x y, idx dL (Z.of_nat s) = Ok x /\ xsub (Fin zs) x = Ok y).
  { destruct s; [exists NInf, PInf; split; reflexivity|].
    exists (Fin (z (S s))). eexists. split; [apply idx_depth; lia|reflexivity]. }
  destruct E as [x [y [E1' E2']]]. rewrite E1'. cbn [bind]. rewrite E2'. cbn [bind].
  rewrite idx_arr by lia. cbn [bind andb negb].
  destruct (Z.eqb_spec (Z.of_nat r) 0); [reflexivity|].
  destruct (Z.ltb_spec (Z.of_nat r) (Z.of_nat s)); [reflexivity|lia].
Qed.

Lemma fields_up_skip : forall Rp Rm s r zs ab TM, (s <= N)%nat -> (r <= N)%nat ->
  (r = N \/ s < r)%nat ->
  fields_dir true dL Rp Rm gL (Z.of_nat r) (Z.of_nat s) zs ab TM = Ok (cz 0).
Proof.
  intros Rp Rm s r zs ab TM Hs Hr H. unfold fields_dir. rewrite zlen_arr.
  assert (E : exists x y, idx dL (Z.of_nat s) = Ok x /\ xsub (Fin zs) x = Ok y).
  { destruct s; [exists NInf, PInf; split; reflexivity|].
    exists (Fin (z (S s))). eexists. split; [apply idx_depth; lia|reflexivity]. }
  destruct E as [x [y [E1' E2']]]. rewrite E1'. cbn [bind]. rewrite E2'. cbn [bind].
  rewrite idx_arr by lia. cbn [bind andb negb].
  destruct (Z.eqb_spec (Z.of_nat r) (Z.of_nat N + 1 - 1)); [reflexivity|].
  destruct (Z.gtb_spec (Z.of_nat r) (Z.of_nat s)); [reflexivity|lia].
Qed.

Lemma fields_dn_same : forall s zs ab TM, (0 < s <= N)%nat ->
  fields_dir false dL [Rd s] [Ru s] gL (Z.of_nat s) (Z.of_nat s) zs ab TM
  = Ok (Ru s * bsu (cpm TM ab) s zs / Ms s).
Proof.
  intros s zs ab TM Hs. unfold fields_dir. rewrite zlen_arr.
  rewrite idx_depth by lia. cbn [bind xsub].
  rewrite idx_arr by lia. cbn [bind andb negb].
  destruct (Z.eqb_spec (Z.of_nat s) 0); [lia|].
  destruct (Z.ltb_spec (Z.of_nat s) (Z.of_nat s)); [lia|]. cbn [orb].
  rewrite Z.eqb_refl.
  destruct (Z.eqb_spec (Z.of_nat s) (Z.of_nat N + 1 - 1)) as [HN|HN].
  - replace s with N in * by lia. rewrite idx_hd. cbn [bind xexpm].
    unfold bsu. rewrite Ms_N, Rd_N. rewrite Cdiv_1_r. f_equal.
    unfold dec. ring.
  - rewrite !idx_hd. cbn [bind].
    replace (Z.of_nat s + 1)%Z with (Z.of_nat (S s)) by lia.
    rewrite idx_depth by lia. cbn [bind xsub xexpm xadd].
    rewrite cdiv_ok by (apply (regM s); lia). f_equal.
    change (cz 1 - Ru s * Rd s * Cexp (- (cz 2 * g s * (z (S s) - z s)%R))) with (Ms s).
    unfold bsu, cpm, zpm, Cdiv, dec, thick.
    destruct (plus_of TM ab); cbv beta iota; ring.
Qed.

Lemma fields_up_same : forall s zs ab TM, (s < N)%nat ->
  fields_dir true dL [Rd s] [Ru s] gL (Z.of_nat s) (Z.of_nat s) zs ab TM
  = Ok (Rd s * bsd (cpm TM ab) s zs / Ms s).
Proof.
  intros s zs ab TM Hs. unfold fields_dir. rewrite zlen_arr.
  destruct (Nat.eq_dec s 0) as [->|Hs0].
  - rewrite idx_depth_0. cbn [bind xsub].
    change 0%Z with (Z.of_nat 0) at 1 2 3 4 5 6 7.
    rewrite !idx_arr by lia. cbn [bind andb negb].
    destruct (Z.eqb_spec (Z.of_nat 0) (Z.of_nat N + 1 - 1)); [lia|].
    replace (Z.of_nat 0 >? Z.of_nat 0)%Z with false by reflexivity.
    cbn [orb]. replace (Z.of_nat 0 =? Z.of_nat 0)%Z with true by reflexivity.
    replace (Z.of_nat 0 + 1)%Z with (Z.of_nat 1) by lia. cbn [negb].
    rewrite idx_depth by lia. cbn [bind xsub]. rewrite idx_hd. cbn [bind xexpm].
    unfold bsd. rewrite Ms_0, Ru_0. rewrite Cdiv_1_r. f_equal. unfold dec. ring.
  - rewrite idx_depth by lia. cbn [bind xsub].
    rewrite idx_arr by lia. cbn [bind andb negb].
    destruct (Z.eqb_spec (Z.of_nat s) (Z.of_nat N + 1 - 1)); [lia|].
    destruct (Z.gtb_spec (Z.of_nat s) (Z.of_nat s)); [lia|]. cbn [orb negb].
    rewrite Z.eqb_refl.
    destruct (Z.eqb_spec (Z.of_nat s) 0); [lia|].
    rewrite !idx_hd. cbn [bind].
    replace (Z.of_nat s + 1)%Z with (Z.of_nat (S s)) by lia.
    rewrite !idx_depth by lia. cbn [bind xsub xexpm xadd].
    rewrite cdiv_ok.
    + f_equal.
      unfold bsd, cpm, zpm, Cdiv, dec, thick.
      destruct (plus_of TM ab); cbv beta iota;
        replace (cz 1 - Rd s * Ru s * Cexp (- (cz 2 * g s * (z (S s) - z s)%R))) with (Ms s)
          by (unfold Ms, E2, thick, cz; ring);
        ring.
    + intro HM. apply (regM s); [lia|]. rewrite <- HM. unfold Ms, E2, thick, cz. ring.
Qed.
Lemma fields_dn_diff : forall s r zs ab TM Rp Rm, (s < r <= N)%nat ->
  (forall k, (k <= r - s)%nat -> idx Rp (Z.of_nat k) = Ok (Rd (s + k)%nat)) ->
  ((0 < s)%nat -> idx Rm 0 = Ok (Ru s)) ->
  fields_dir false dL Rp Rm gL (Z.of_nat r) (Z.of_nat s) zs ab TM
  = Ok (amp_dn (cpm TM ab) s r zs).
Proof.
  intros s r zs ab TM Rp Rm Hs HRp HRm. unfold fields_dir. rewrite zlen_arr.
  assert (Hdt : exists dt dm0, idx dL (Z.of_nat s) = Ok dt /\ xsub (Fin zs) dt = Ok dm0 /\
     ((0 < s)%nat -> dt = Fin (z s) /\ dm0 = Fin (zs - z s)%R)).
  { destruct (Nat.eq_dec s 0) as [->|].
    - exists NInf, PInf. repeat split; try reflexivity; lia.
    - exists (Fin (z s)), (Fin (zs - z s)%R). rewrite idx_depth by lia. repeat split. }
  destruct Hdt as [dt [dm0 [E1' [E2' E3']]]]. rewrite E1'. cbn [bind]. rewrite E2'. cbn [bind].
  rewrite idx_arr by lia. cbn [bind andb negb].
  destruct (Z.eqb_spec (Z.of_nat r) 0); [lia|].
  destruct (Z.ltb_spec (Z.of_nat r) (Z.of_nat s)); [lia|]. cbn [orb].
  destruct (Z.eqb_spec (Z.of_nat s) (Z.of_nat r)); [lia|].
  destruct (Z.eqb_spec (Z.of_nat s) (Z.of_nat N + 1 - 1)); [lia|].
  pose proof (HRp 0%nat) as HR0. change (Z.of_nat 0) with 0%Z in HR0.
  rewrite HR0 by lia. rewrite Nat.add_0_r. cbn [bind].
  replace (Z.of_nat s + 1)%Z with (Z.of_nat (S s)) by lia.
  rewrite idx_depth by lia. cbn [bind xsub].
  set (P0 := bsd (cpm TM ab) s zs / Ms s * (1 + Rd s)).
  match goal with |- context[bind (if (Z.of_nat s =? 0)%Z then ?a else ?b) _] =>
    assert (HP0 : (if (Z.of_nat s =? 0)%Z then a else b) = Ok P0) end.
  { destruct (Z.eqb_spec (Z.of_nat s) 0) as [H0|H0].
    - cbn [xexpm bind]. f_equal. unfold P0. replace s with 0%nat by lia. rewrite Ms_0, Cdiv_1_r.
      unfold bsd. rewrite Ru_0. unfold dec, cz. ring.
    - rewrite HRm by lia. destruct E3' as [-> ->]; [lia|]. cbn [bind xsub xexpm xadd].
      rewrite cdiv_ok by (apply (regM s); lia). cbn [bind]. f_equal.
      change (cz 1 - Ru s * Rd s * Cexp (- (cz 2 * g s * (z (S s) - z s)%R))) with (Ms s).
      unfold P0, bsd, cpm, zpm, Cdiv, dec, thick, cz. destruct (plus_of TM ab); ring. }
  rewrite HP0. clear HP0. cbn [bind].
  set (P1 := bsd (cpm TM ab) s zs / Ms s * tdn s).
  match goal with |- context[bind (if (Z.of_nat (S s) <? Z.of_nat N + 1 - 1)%Z then ?a else ?b) _] =>
    assert (HP1 : (if (Z.of_nat (S s) <? Z.of_nat N + 1 - 1)%Z then a else b) = Ok P1) end.
  { destruct (Z.ltb_spec (Z.of_nat (S s)) (Z.of_nat N + 1 - 1)) as [HN|HN].
    - replace (Z.of_nat (S s) - 1 * -1)%Z with (Z.of_nat (S (S s))) by lia.
      replace (Z.of_nat s - 1 * -1)%Z with (Z.of_nat (S s)) by lia.
      rewrite !idx_depth by lia. cbn [bind xsub isfinite].
      replace (0 - 1 * -1)%Z with (Z.of_nat 1) by lia. rewrite HRp by lia.
      rewrite idx_arr by lia. cbn [bind xexpm].
      replace (s + 1)%nat with (S s) by lia.
      rewrite cdiv_ok by (apply (regd (S s)); lia). f_equal.
      unfold P1, P0, tdn, Cdiv, E2, thick, cz. ring.
    - f_equal. unfold P0, P1, tdn. replace (S s) with N by lia. rewrite Rd_N.
      replace (1 + 0 * ee2 N) with (RtoC 1) by ring. rewrite Cdiv_1_r. ring. }
  rewrite HP1. clear HP1. cbn [bind].
  replace (Z.abs (Z.of_nat s - Z.of_nat r) + 1)%Z with (Z.of_nat (r - s) + 1)%Z by lia.
  unfold amp_dn. fold P1.
  destruct (Z.gtb_spec (Z.of_nat (r - s) + 1) 2) as [Hn|Hn].
  - rewrite fields_loop_dn; [|lia|lia|exact HRp].
    f_equal. f_equal. f_equal. lia.
  - replace (r - S s)%nat with 0%nat by lia. cbn [prodC]. f_equal. ring.
Qed.

Lemma fields_up_diff : forall s r zs ab TM Rp Rm, (r < s <= N)%nat ->
  (forall k, (k <= s - r)%nat -> idx Rm (Z.of_nat k) = Ok (Ru (r + k)%nat)) ->
  ((s < N)%nat -> idx Rp (Z.of_nat (s - r)) = Ok (Rd s)) ->
  fields_dir true dL Rp Rm gL (Z.of_nat r) (Z.of_nat s) zs ab TM
  = Ok (amp_up (cpm TM ab) s r zs).
Proof.
  intros s r zs ab TM Rp Rm Hs HRm HRp. unfold fields_dir. rewrite zlen_arr.
  rewrite idx_depth by lia. cbn [bind xsub].
  rewrite idx_arr by lia. cbn [bind andb negb].
  destruct (Z.eqb_spec (Z.of_nat r) (Z.of_nat N + 1 - 1)); [lia|].
  destruct (Z.gtb_spec (Z.of_nat r) (Z.of_nat s)); [lia|]. cbn [orb].
  destruct (Z.eqb_spec (Z.of_nat s) (Z.of_nat r)); [lia|].
  replace (Z.abs (Z.of_nat s - Z.of_nat r) + 1 - 1)%Z with (Z.of_nat (s - r)) by lia.
  rewrite HRm by lia. replace (r + (s - r))%nat with s by lia. cbn [bind].
  set (pmv := cpm TM ab).
  assert (Hmu : cz (if negb (plus_of TM ab) then -1 else 1)%Z = pmv)
    by (unfold pmv, cpm, zpm; destruct (plus_of TM ab); reflexivity).
  assert (Hpm : cz (if plus_of TM ab then 1 else -1)%Z = pmv)
    by (unfold pmv, cpm, zpm; destruct (plus_of TM ab); reflexivity).
  assert (Hpp : pmv * pmv = 1)
    by (unfold pmv, cpm, zpm, cz, RtoC, Cmult; destruct (plus_of TM ab); simpl; f_equal; ring).
  rewrite Hmu, Hpm.
  set (P0 := pmv * bsu pmv s zs / Ms s * (1 + Ru s)).
  match goal with |- context[bind (if (Z.of_nat s =? Z.of_nat N + 1 - 1)%Z then ?a else ?b) _] =>
    assert (HP0 : (if (Z.of_nat s =? Z.of_nat N + 1 - 1)%Z then a else b) = Ok P0) end.
  { destruct (Z.eqb_spec (Z.of_nat s) (Z.of_nat N + 1 - 1)) as [H0|H0].
    - cbn [xexpm bind]. f_equal. unfold P0. replace s with N by lia. rewrite Ms_N, Cdiv_1_r.
      unfold bsu. rewrite Rd_N. unfold dec, cz. ring.
    - rewrite HRp by lia. cbn [negb].
      replace (Z.of_nat s + 1)%Z with (Z.of_nat (S s)) by lia.
      rewrite idx_depth by lia. cbn [bind xsub xexpm xadd].
      assert (HMs : cz 1 - Rd s * Ru s * Cexp (- (cz 2 * g s * (z (S s) - z s)%R)) = Ms s)
        by (unfold Ms, E2, thick, cz; ring).
      rewrite HMs. rewrite cdiv_ok by (apply (regM s); lia). cbn [bind]. f_equal.
      unfold P0, bsu, Cdiv, dec, thick, cz. ring. }
  rewrite HP0. clear HP0. cbn [bind].
  set (P1 := pmv * bsu pmv s zs / Ms s * tup (s - 1)).
  replace (Z.of_nat s + 1 - 1 * 1)%Z with (Z.of_nat s) by lia.
  replace (Z.of_nat s - 1 * 1)%Z with (Z.of_nat (s - 1)) by lia.
  replace (Z.of_nat (s - r) - 1 * 1)%Z with (Z.of_nat (s - r - 1)) by lia.
  rewrite idx_depth by lia. cbn [bind].
  match goal with |- context[bind (bind (idx dL (Z.of_nat (s-1))) ?f) _] =>
    assert (HP1 : bind (idx dL (Z.of_nat (s-1))) f = Ok P1) end.
  { destruct (Nat.eq_dec s 1) as [Hs1|Hs1].
    - subst s. cbn [bind xsub isfinite]. rewrite idx_depth_0. cbn [bind xsub isfinite].
      f_equal. unfold P0, P1, tup. change (1 - 1)%nat with 0%nat. rewrite Ru_0.
      replace (1 + 0 * ee2 0) with (RtoC 1) by ring. rewrite Cdiv_1_r. reflexivity.
    - rewrite idx_depth by lia. cbn [bind xsub isfinite].
      rewrite HRm by lia. rewrite idx_arr by lia. cbn [bind xexpm].
      replace (r + (s - r - 1))%nat with (s - 1)%nat by lia.
      assert (HD : cz 1 + Ru (s - 1)%nat * Cexp (- (cz 2 * g (s - 1)%nat * (z s - z (s - 1)%nat)%R))
        = 1 + Ru (s-1)%nat * ee2 (s-1)%nat).
      { unfold E2, thick, cz. replace (S (s - 1)) with s by lia. reflexivity. }
      rewrite HD. rewrite cdiv_ok by (apply regu; lia). f_equal.
      unfold P1, P0, tup, Cdiv. replace (S (s - 1)) with s by lia. ring. }
  rewrite HP1. clear HP1. cbn [bind].
  replace (Z.abs (Z.of_nat s - Z.of_nat r) + 1)%Z with (Z.of_nat (s - r) + 1)%Z by lia.
  unfold amp_up. fold pmv. fold P1.
  destruct (Z.gtb_spec (Z.of_nat (s - r) + 1) 2) as [Hn|Hn].
  - rewrite fields_loop_up; [|lia|lia|exact HRm].
    f_equal. f_equal. f_equal. lia.
  - replace (s - S r)%nat with 0%nat by lia. cbn [prodC]. f_equal. ring.
Qed.

(** ** greenfct, one mode *)

Definition csg (TM : bool) (ab : Z) : C :=
  cz (if TM && inb ab [11; 12; 13; 21; 22; 23; 14; 24; 15; 25]%Z then -1 else 1).

(** Direct wave: exp(-Gamma |z-z'|), with its sign. *)
Definition dsgn (pm sg : C) (x : R) : C :=
  sg * (if Ceq_dec (pm * sg) 1 then 1 else RtoC (Rsign x)).
Definition G_dir (pm sg : C) (s : nat) (zs zr : R) : C :=
  dec g s (Rabs (zs - zr)) * dsgn pm sg (zr - zs).

Definition G_mode (pm sg : C) (s r : nat) (zs zr : R) (xdirect : bool) : C :=
  if Nat.eqb s r then
    G_same pm sg s zs zr + (if xdirect then 0 else G_dir pm sg s zs zr)
  else if Nat.ltb r s then G_up pm sg s r zs zr
  else G_dn pm sg s r zs zr.

Lemma gtb_1 : forall n, (Z.of_nat n + 1 >? 1)%Z = (0 <? n)%nat.
Proof.
  intros. destruct (Z.gtb_spec (Z.of_nat n + 1) 1), (Nat.ltb_spec 0 n); try reflexivity; lia.
Qed.

End Closed.

(** ab codes that reach the kernel, with the mode they use. *)
Definition kernel_abs : list Z :=
  [11; 12; 13; 14; 15; 16; 21; 22; 23; 24; 25; 26; 31; 32; 33; 34; 35]%Z.

Lemma cz_mult : forall a b, cz a * cz b = cz (a * b).
Proof. intros. unfold cz. rewrite mult_IZR. now rewrite RtoC_mult. Qed.

Ltac each_ab H :=
  unfold kernel_abs in H; cbn [In] in H;
  repeat (destruct H as [H|H]; [subst|]); [..|contradiction].

Lemma chi_ok : forall TM ab, In ab kernel_abs -> mode_used TM ab = true ->
  cpm TM ab * csg TM ab
  = cz (if inb ab [13; 23; 31; 32; 14; 24; 15; 25]%Z then -1 else 1).
Proof.
  intros TM ab H Hm. unfold cpm, csg. rewrite cz_mult. f_equal.
  each_ab H; destruct TM; try discriminate Hm; reflexivity.
Qed.

Lemma cz_m1 : cz (-1) = - (1).
Proof. unfold cz, RtoC, Copp; simpl. f_equal; lra. Qed.

Lemma cz_m1_neq : cz (-1) <> 1.
Proof. intro H. unfold cz in H. injection H. lra. Qed.

Section Closed2.
Variables (e g : nat -> C) (z : nat -> R) (N : nat).
Notation eL := (arr e N).
Notation gL := (arr g N).
Notation dL := (depth_arr z N).
Hypothesis REG : regular e g z N.

Lemma direct_ok : forall TM ab s zs zr, In ab kernel_abs -> mode_used TM ab = true ->
  (let directf := dec g s (Rabs (zs - zr)) in
   let directf := if TM && inb ab minus_ab then Cmult directf (cz (-1)) else directf in
   if inb ab [13; 14; 15; 23; 24; 25; 31; 32]%Z
   then Cmult directf (RtoC (Rsign (zr - zs))) else directf)
  = G_dir g (cpm TM ab) (csg TM ab) s zs zr.
Proof.
  intros TM ab s zs zr H Hm. unfold G_dir, dsgn. rewrite chi_ok by assumption.
  unfold csg.
  assert (D1 : forall A (x y : A), (if Ceq_dec (cz 1) 1 then x else y) = x).
  { intros. destruct (Ceq_dec (cz 1) 1); [reflexivity|]. exfalso; apply n; reflexivity. }
  assert (D2 : forall A (x y : A), (if Ceq_dec (cz (-1)) 1 then x else y) = y).
  { intros. destruct (Ceq_dec (cz (-1)) 1); [|reflexivity]. exfalso; now apply cz_m1_neq. }
  each_ab H; destruct TM; try discriminate Hm; cbn [andb];
    cbn -[Ceq_dec cz Cmult dec Rsign]; rewrite ?D1, ?D2; unfold cz; ring.
Qed.

Theorem green_mode_closed : forall TM ab s r zs zr xdirect,
  In ab kernel_abs -> mode_used TM ab = true -> (s <= N)%nat -> (r <= N)%nat ->
  green_mode TM dL eL gL (Z.of_nat r) (Z.of_nat s) zs zr ab xdirect
  = Ok (G_mode e g z N (cpm TM ab) (csg TM ab) s r zs zr xdirect).
Proof.
  intros TM ab s r zs zr xdirect Hab Hm Hs Hr.
  pose proof (direct_ok TM ab s zs zr Hab Hm) as Hdir. cbv zeta in Hdir.
  pose proof (chi_ok TM ab Hab Hm) as Hchi.
  unfold green_mode. rewrite zlen_arr, gtb_1. rewrite idx_arr by lia. cbn [bind].
  destruct (Nat.ltb_spec 0 N) as [HN|HN].
  2:{ (* one layer *)
    assert (s = 0 /\ r = 0 /\ N = 0)%nat as [-> [-> ->]] by lia. cbn [bind].
    rewrite Z.eqb_refl. cbn [andb]. unfold G_mode. rewrite Nat.eqb_refl.
    assert (HG : G_same e g z 0 (cpm TM ab) (csg TM ab) 0 zs zr = 0).
    { unfold G_same. rewrite Rdn_N. cbn [Rup]. unfold Cdiv. ring. }
    rewrite HG. destruct xdirect; cbn [negb].
    - f_equal. unfold cz. ring.
    - cbn [xexpm bind]. f_equal.
      change (Cexp (- (g 0%nat * Rabs (zs - zr)))) with (dec g 0 (Rabs (zs - zr))).
      rewrite Hdir. unfold cz. ring. }
  (* propagators *)
  match goal with |- context[bind (if negb (Z.of_nat r =? Z.of_nat N + 1 - 1)%Z then ?a else ?b) _] =>
    assert (HWu : exists Wu, (if negb (Z.of_nat r =? Z.of_nat N + 1 - 1)%Z then a else b) = Ok Wu
       /\ ((r < N)%nat -> Wu = dec g r (z (S r) - zr)%R)
       /\ ((r = N)%nat -> Wu = 0)) end.
  { destruct (Z.eqb_spec (Z.of_nat r) (Z.of_nat N + 1 - 1)) as [H|H]; cbn [negb].
    - exists (cz 0). repeat split; lia.
    - replace (Z.of_nat r + 1)%Z with (Z.of_nat (S r)) by lia.
      rewrite idx_depth by lia. cbn [bind xsub xexpm]. eexists; split; [reflexivity|].
      split; [reflexivity|lia]. }
  destruct HWu as [Wu [HWu [HWu1 HWu2]]].
  match goal with |- context[bind (if negb (Z.of_nat r =? 0)%Z then ?a else ?b) _] =>
    assert (HWd : exists Wd, (if negb (Z.of_nat r =? 0)%Z then a else b) = Ok Wd
       /\ ((0 < r)%nat -> Wd = dec g r (zr - z r)%R)
       /\ ((r = 0)%nat -> Wd = 0)) end.
  { destruct (Z.eqb_spec (Z.of_nat r) 0) as [H|H]; cbn [negb].
    - exists (cz 0). repeat split; lia.
    - rewrite idx_depth by lia. cbn [bind xsub xexpm]. eexists; split; [reflexivity|].
      split; [reflexivity|lia]. }
  destruct HWd as [Wd [HWd [HWd1 HWd2]]].
  unfold G_mode.
  destruct (Nat.eqb_spec s r) as [Hsr|Hsr].
  - (* same layer *)
    subst r. unfold reflections.
    rewrite reflections_plus_same; [|lia|intros k Hk; split; [apply (reg_rl _ _ _ _ REG)|apply (reg_dn _ _ _ _ REG)]; lia].
    cbn [bind].
    rewrite reflections_minus_same; [|lia|intros k Hk; split; [apply (reg_rl _ _ _ _ REG)|apply (reg_up _ _ _ _ REG)]; lia].
    cbn [bind]. rewrite HWu. cbn [bind]. rewrite HWd. cbn [bind].
    unfold fields.
    assert (HPd : fields_dir false dL [Rdn e g z N s] [Rup e g z s] gL (Z.of_nat s) (Z.of_nat s) zs ab TM
      = Ok (if Nat.eqb s 0 then RtoC 0 else Rup e g z s * bsu e g z N (cpm TM ab) s zs / Ms e g z N s)).
    { destruct (Nat.eqb_spec s 0).
      - apply fields_dn_skip; lia.
      - apply fields_dn_same; [exact REG|lia]. }
    assert (HPu : fields_dir true dL [Rdn e g z N s] [Rup e g z s] gL (Z.of_nat s) (Z.of_nat s) zs ab TM
      = Ok (if Nat.eqb s N then RtoC 0 else Rdn e g z N s * bsd e g z (cpm TM ab) s zs / Ms e g z N s)).
    { destruct (Nat.eqb_spec s N).
      - apply fields_up_skip; lia.
      - apply fields_up_same; [exact REG|lia]. }
    rewrite HPd. cbn [bind]. rewrite HPu. cbn [bind]. rewrite Z.eqb_refl. cbn [andb].
    match goal with |- context[Cplus ?x _] => idtac end.
    set (Pu := if Nat.eqb s N then RtoC 0 else _). set (Pd := if Nat.eqb s 0 then RtoC 0 else _).
    assert (HG : (if inb ab [13; 23; 31; 32; 14; 24; 15; 25]%Z
                  then Pu * Wu - Pd * Wd else Pu * Wu + Pd * Wd)
                 = G_same e g z N (cpm TM ab) (csg TM ab) s zs zr).
    { unfold G_same. rewrite Hchi.
      assert (H1 : Pu * Wu = Rdn e g z N s * bsd e g z (cpm TM ab) s zs / Ms e g z N s
                             * dec g s (z (S s) - zr)).
      { unfold Pu. destruct (Nat.eqb_spec s N) as [E|E].
        - rewrite E at 1. rewrite Rdn_N. unfold Cdiv. ring.
        - rewrite HWu1 by lia. reflexivity. }
      assert (H2 : Pd * Wd = Rup e g z s * bsu e g z N (cpm TM ab) s zs / Ms e g z N s
                             * dec g s (zr - z s)).
      { unfold Pd. destruct (Nat.eqb_spec s 0) as [E|E].
        - rewrite E at 1. cbn [Rup]. unfold Cdiv. ring.
        - rewrite HWd1 by lia. reflexivity. }
      rewrite H1, H2. destruct (inb ab [13; 23; 31; 32; 14; 24; 15; 25]%Z); rewrite ?cz_m1; unfold cz; ring. }
    rewrite HG. destruct xdirect; cbn [negb].
    + f_equal. ring.
    + cbn [xexpm bind]. f_equal. f_equal. exact Hdir.
  - destruct (Nat.ltb_spec r s) as [Hlt|Hge].
    + (* receiver above *)
      unfold reflections.
      assert (HRp : exists Rp, reflections_dir true dL eL gL (Z.of_nat r) (Z.of_nat s) = Ok Rp
         /\ ((s < N)%nat -> idx Rp (Z.of_nat (s - r)) = Ok (Rdn e g z N s))).
      { destruct (Nat.eq_dec s N) as [->|HsN].
        - eexists; split; [apply reflections_plus_odd; [lia|]|lia].
          intros k Hk; split; [apply (reg_rl _ _ _ _ REG)|apply (reg_dn _ _ _ _ REG)]; lia.
        - eexists; split; [apply reflections_plus_diff; try lia|].
          + intros k Hk; split; [apply (reg_rl _ _ _ _ REG)|apply (reg_dn _ _ _ _ REG)]; lia.
          + intros _. rewrite idx_map_seq by lia. do 2 f_equal. lia. }
      destruct HRp as [Rp [HRp HRp']]. rewrite HRp. cbn [bind].
      rewrite reflections_minus_diff; try lia.
      2:{ intros k Hk; split; [apply (reg_rl _ _ _ _ REG)|apply (reg_up _ _ _ _ REG)]; lia. }
      cbn [bind]. rewrite HWu. cbn [bind]. rewrite HWd. cbn [bind].
      replace (Nat.min s r) with r by lia. replace (Nat.max s r) with s by lia.
      set (Rm := map (Rup e g z) (seq r (s - r + 1))).
      assert (HRm : forall k, (k <= s - r)%nat -> idx Rm (Z.of_nat k) = Ok (Rup e g z (r + k)%nat)).
      { intros k Hk. unfold Rm. apply idx_map_seq. lia. }
      unfold fields. rewrite fields_dn_skip by lia. cbn [bind].
      rewrite (fields_up_diff e g z N REG s r zs ab TM Rp Rm) by (try lia; assumption).
      cbn [bind].
      destruct (Z.eqb_spec (Z.of_nat s) (Z.of_nat r)); [lia|].
      destruct (Z.eqb_spec (Z.of_nat r) (Z.of_nat N + 1 - 1)); [lia|].
      destruct (Z.ltb_spec (Z.of_nat r) (Z.of_nat s)); [|lia].
      replace (Z.of_nat r + 1)%Z with (Z.of_nat (S r)) by lia.
      rewrite idx_depth by lia. cbn [bind].
      pose proof (HRm 0%nat) as HR0. change (Z.of_nat 0) with 0%Z in HR0.
      rewrite HR0 by lia. rewrite Nat.add_0_r.
      unfold G_up. rewrite <- HWu1 by lia.
      destruct (Nat.eq_dec r 0) as [->|Hr0].
      * change (Z.of_nat 0) with 0%Z. rewrite idx_depth_0. cbn [bind xsub xexpm]. f_equal. f_equal.
        f_equal. rewrite HWd2 by reflexivity. cbn [Rup]. unfold cz; ring.
      * rewrite idx_depth by lia. cbn [bind xsub xexpm]. f_equal. f_equal. f_equal.
        rewrite HWd1 by lia. reflexivity.
    + (* receiver below *)
      unfold reflections.
      rewrite reflections_plus_diff; try lia.
      2:{ intros k Hk; split; [apply (reg_rl _ _ _ _ REG)|apply (reg_dn _ _ _ _ REG)]; lia. }
      cbn [bind].
      assert (HRm : exists Rm, reflections_dir false dL eL gL (Z.of_nat r) (Z.of_nat s) = Ok Rm
         /\ ((0 < s)%nat -> idx Rm 0 = Ok (Rup e g z s))).
      { destruct (Nat.eq_dec s 0) as [->|Hs0].
        - eexists; split; [apply reflections_minus_odd; [lia|]|lia].
          intros k Hk; split; [apply (reg_rl _ _ _ _ REG)|apply (reg_up _ _ _ _ REG)]; lia.
        - eexists; split; [apply reflections_minus_diff; try lia|].
          + intros k Hk; split; [apply (reg_rl _ _ _ _ REG)|apply (reg_up _ _ _ _ REG)]; lia.
          + intros _. change 0%Z with (Z.of_nat 0). rewrite idx_map_seq by lia. do 2 f_equal. lia. }
      destruct HRm as [Rm [HRm HRm']]. rewrite HRm. cbn [bind].
      rewrite HWu. cbn [bind]. rewrite HWd. cbn [bind].
      replace (Nat.min s r) with s by lia. replace (Nat.max s r) with r by lia.
      set (Rp := map (Rdn e g z N) (seq s (r - s + 1))).
      assert (HRp : forall k, (k <= r - s)%nat -> idx Rp (Z.of_nat k) = Ok (Rdn e g z N (s + k)%nat)).
      { intros k Hk. unfold Rp. apply idx_map_seq. lia. }
      unfold fields.
      rewrite (fields_dn_diff e g z N REG s r zs ab TM Rp Rm) by (try lia; assumption).
      cbn [bind]. rewrite fields_up_skip by lia. cbn [bind].
      destruct (Z.eqb_spec (Z.of_nat s) (Z.of_nat r)); [lia|].
      destruct (Z.ltb_spec (Z.of_nat r) (Z.of_nat s)); [lia|].
      replace (Z.abs (Z.of_nat s - Z.of_nat r)) with (Z.of_nat (r - s)) by lia.
      rewrite HRp by lia. replace (s + (r - s))%nat with r by lia.
      unfold G_dn. rewrite <- HWd1 by lia.
      destruct (Z.eqb_spec (Z.of_nat r) (Z.of_nat N + 1 - 1)) as [HrN|HrN].
      * cbn [bind xexpm]. f_equal. f_equal. f_equal. replace r with N by lia. rewrite Rdn_N. ring.
      * replace (Z.of_nat r + 1)%Z with (Z.of_nat (S r)) by lia.
        rewrite !idx_depth by lia. cbn [bind xsub xexpm]. f_equal. f_equal. f_equal.
        rewrite HWu1 by lia. reflexivity.
Qed.

End Closed2.
