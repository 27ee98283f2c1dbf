(** Orientation factors, finite bipoles and survey expansion: proofs. *)
From Coq Require Import Reals ZArith List Bool String Lia Lra Psatz QArith.
From Coquelicot Require Import Coquelicot.
From Verif Require Import PyBase CBase UtilsAb Utils UtilsLayer UtilsModel UtilsFreq.
Import ListNotations.
Local Open Scope R_scope.
Local Open Scope res_scope.

(** Cartesian component k (1: x, 2: y, 3: z) of the unit vector with azimuth a
    and dip d. *)
Definition unitv (k : Z) (a d : R) : R :=
  if (k =? 1)%Z then cos a * cos d else if (k =? 2)%Z then sin a * cos d else sin d.

Lemma dir123 : forall k, (1 <= k <= 3)%Z -> (k = 1 \/ k = 2 \/ k = 3)%Z.
Proof. lia. Qed.

Lemma geo_entry : forall m msrc mrec r s sa sd ra rd, (1 <= r <= 3)%Z -> (1 <= s <= 3)%Z ->
  geo_fact1 m (ab_entry msrc mrec r s) sa sd ra rd msrc mrec =
  let f := unitv r ra rd * unitv s sa sd in if Rltb (Rabs f) (min_angle m) then 0 else f.
Proof.
  intros m msrc mrec r s sa sd ra rd Hr Hs.
  destruct (dir123 r Hr) as [A|[A|A]]; destruct (dir123 s Hs) as [B|[B|B]]; subst r s;
    destruct msrc, mrec; reflexivity.
Qed.

(** ** Components that are left out *)
Lemma sin_nPI : forall (n : Z) d, Rabs (sin (IZR n * PI + d)) = Rabs (sin d).
Proof.
  assert (P : forall (n : nat) d, Rabs (sin (INR n * PI + d)) = Rabs (sin d)).
  { induction n; intros d; [rewrite Rmult_0_l, Rplus_0_l; reflexivity|].
    rewrite S_INR. replace ((INR n + 1) * PI + d) with (INR n * PI + (d + PI)) by ring.
    rewrite IHn, neg_sin, Rabs_Ropp. reflexivity. }
  intros n d. destruct n as [|p|p].
  - rewrite Rmult_0_l, Rplus_0_l. reflexivity.
  - rewrite <- (positive_nat_Z p), <- INR_IZR_INZ. apply P.
  - rewrite <- Pos2Z.opp_pos, <- (positive_nat_Z p), opp_IZR, <- INR_IZR_INZ.
    rewrite <- (P (Pos.to_nat p) (- INR (Pos.to_nat p) * PI + d)). f_equal. f_equal. ring.
Qed.

Lemma sin_le_abs : forall d, Rabs (sin d) <= Rabs d.
Proof.
  intros d. destruct (Rle_lt_dec 0 d) as [H|H].
  - destruct (Rle_lt_dec d (PI / 2)) as [H1|H1].
    + assert (0 <= sin d) by (apply sin_ge_0; pose proof PI_RGT_0; lra).
      rewrite !Rabs_right by lra. destruct (Req_dec d 0) as [->|]; [rewrite sin_0; lra|]. left. apply sin_lt_x. lra.
    + pose proof (SIN_bound d). rewrite (Rabs_right d) by lra. apply Rabs_le. pose proof PI_RGT_0. pose proof PI2_1. lra.
  - assert (G : Rabs (sin (- d)) <= Rabs (- d)).
    { destruct (Rle_lt_dec (- d) (PI / 2)) as [H1|H1].
      + assert (0 <= sin (- d)) by (apply sin_ge_0; pose proof PI_RGT_0; lra).
        rewrite !Rabs_right by lra. left. apply sin_lt_x. lra.
      + pose proof (SIN_bound (- d)). rewrite (Rabs_right (- d)) by lra. apply Rabs_le. pose proof PI2_1. lra. }
    rewrite sin_neg, !Rabs_Ropp in G. exact G.
Qed.

(** Angle = floor * pi/2 + remainder. *)
Lemma mod90_eq : forall x, x = IZR (ffloor (x / (PI / 2))) * (PI / 2) + mod90 x.
Proof. intros. unfold mod90. ring. Qed.
Lemma quad_even : forall x, quad90 x = 0%Z -> exists n, x = IZR n * PI + mod90 x.
Proof.
  intros x H. unfold quad90 in H. exists (ffloor (x / (PI / 2)) / 2)%Z.
  rewrite (mod90_eq x) at 1. f_equal.
  replace (ffloor (x / (PI / 2))) with (2 * (ffloor (x / (PI / 2)) / 2))%Z at 1
    by (pose proof (Z.div_mod (ffloor (x / (PI / 2))) 2 ltac:(lia)); lia).
  rewrite mult_IZR. lra.
Qed.
Lemma quad_odd : forall x, quad90 x = 1%Z -> exists n, x = IZR n * PI + (PI / 2 + mod90 x).
Proof.
  intros x H. unfold quad90 in H. exists (ffloor (x / (PI / 2)) / 2)%Z.
  rewrite (mod90_eq x) at 1.
  replace (ffloor (x / (PI / 2))) with (2 * (ffloor (x / (PI / 2)) / 2) + 1)%Z at 1
    by (pose proof (Z.div_mod (ffloor (x / (PI / 2))) 2 ltac:(lia)); lia).
  rewrite plus_IZR, mult_IZR. lra.
Qed.

Lemma isclose0_true : forall a, isclose0 a = true <-> Rabs a <= / 10 ^ 8.
Proof. intros. unfold isclose0. apply Rleb_true. Qed.

Lemma axis_even : forall l x, axis_of l = Some 0%Z -> In x l -> Rabs (sin x) <= / 10 ^ 8.
Proof.
  intros l x H Hx. unfold axis_of in H.
  destruct (forallb (fun x => isclose0 (mod90 x)) l) eqn:A; [|discriminate].
  destruct (forallb (fun x => (quad90 x =? 0)%Z) l) eqn:B.
  - rewrite forallb_forall in A, B. specialize (A x Hx). specialize (B x Hx).
    apply isclose0_true in A. apply Z.eqb_eq in B. destruct (quad_even x B) as [n E].
    rewrite E, sin_nPI. eapply Rle_trans; [apply sin_le_abs|exact A].
  - destruct (forallb (fun x => (quad90 x =? 1)%Z) l); discriminate.
Qed.
Lemma axis_odd : forall l x, axis_of l = Some 1%Z -> In x l -> Rabs (cos x) <= / 10 ^ 8.
Proof.
  intros l x H Hx. unfold axis_of in H.
  destruct (forallb (fun x => isclose0 (mod90 x)) l) eqn:A; [|discriminate].
  destruct (forallb (fun x => (quad90 x =? 0)%Z) l); [discriminate|].
  destruct (forallb (fun x => (quad90 x =? 1)%Z) l) eqn:B; [|discriminate].
  rewrite forallb_forall in A, B. specialize (A x Hx). specialize (B x Hx).
  apply isclose0_true in A. apply Z.eqb_eq in B. destruct (quad_odd x B) as [n E].
  replace (cos x) with (sin (IZR n * PI + (PI + mod90 x))).
  - rewrite sin_nPI, Rplus_comm, neg_sin, Rabs_Ropp. eapply Rle_trans; [apply sin_le_abs|exact A].
  - rewrite E at 2. rewrite cos_sin. f_equal. lra.
Qed.

Lemma abs_mul_le : forall a b e, Rabs a <= e -> Rabs b <= 1 -> Rabs (a * b) <= e.
Proof.
  intros a b e Ha Hb. rewrite Rabs_mult. pose proof (Rabs_pos a). pose proof (Rabs_pos b).
  apply Rle_trans with (Rabs a * 1); [apply Rmult_le_compat_l; auto|lra].
Qed.
Lemma cos_abs1 : forall x, Rabs (cos x) <= 1.
Proof. intros. apply Rabs_le. apply COS_bound. Qed.
Lemma sin_abs1 : forall x, Rabs (sin x) <= 1.
Proof. intros. apply Rabs_le. apply SIN_bound. Qed.

Lemma unitv_abs1 : forall k a d, Rabs (unitv k a d) <= 1.
Proof.
  intros. unfold unitv. destruct (k =? 1)%Z; [apply abs_mul_le; apply cos_abs1|].
  destruct (k =? 2)%Z; [apply abs_mul_le; [apply sin_abs1|apply cos_abs1]|apply sin_abs1].
Qed.

Lemma skipped_small : forall azm dip k a d, (1 <= k <= 3)%Z -> keep_dir azm dip k = false -> In a azm -> In d dip ->
  Rabs (unitv k a d) <= / 10 ^ 8.
Proof.
  intros azm dip k a d Hk H Ha Hd. unfold keep_dir in H. apply andb_false_iff in H. unfold unitv.
  assert (AX : forall l, axis_of l = None \/ axis_of l = Some 0%Z \/ axis_of l = Some 1%Z).
  { intros l. unfold axis_of. destruct (forallb _ l); auto. destruct (forallb _ l); auto. destruct (forallb _ l); auto. }
  destruct H as [H|H].
  - destruct (AX azm) as [E|[E|E]]; rewrite E in H; [discriminate| |]; apply negb_false_iff, Z.eqb_eq in H; subst k; simpl.
    + apply abs_mul_le; [eapply axis_even; eauto|apply cos_abs1].
    + apply abs_mul_le; [eapply axis_odd; eauto|apply cos_abs1].
  - destruct (AX dip) as [E|[E|E]]; rewrite E in H; [discriminate| |].
    + apply negb_false_iff, Z.eqb_eq in H; subst k; simpl. eapply axis_even; eauto.
    + apply Z.eqb_neq in H. destruct (dir123 k Hk) as [-> | [-> | ->]]; simpl; [| |lia].
      * rewrite Rmult_comm. apply abs_mul_le; [eapply axis_odd; eauto|apply cos_abs1].
      * rewrite Rmult_comm. apply abs_mul_le; [eapply axis_odd; eauto|apply sin_abs1].
Qed.

(** ** Contraction with the response tensor *)
(** Sum over a list of components, as in the loop over ab in model.bipole
    (model.py:571-590). *)
Fixpoint csum (l : list C) : C := match l with [] => RtoC 0 | x :: l' => Cplus x (csum l') end.
Lemma csum_app : forall a b, csum (a ++ b) = Cplus (csum a) (csum b).
Proof. induction a; intros b; simpl; [now rewrite Cplus_0_l|]. rewrite IHa. apply Cplus_assoc. Qed.

Definition dirs : list Z := [1; 2; 3]%Z.
Definition pairs9 : list (Z * Z) := flat_map (fun r => map (fun s => (r, s)) dirs) dirs.

Definition ab_response (m : mins) (msrc mrec : bool) (sa sd ra rd : list R) (a d a' d' : R) (T : Z -> C) : C :=
  csum (map (fun ab => Cmult (RtoC (geo_fact1 m ab a d a' d' msrc mrec)) (T ab)) (get_abs msrc mrec sa sd ra rd)).
Definition contraction (msrc mrec : bool) (a d a' d' : R) (T : Z -> C) : C :=
  csum (map (fun rs => Cmult (RtoC (unitv (fst rs) a' d' * unitv (snd rs) a d)) (T (ab_entry msrc mrec (fst rs) (snd rs)))) pairs9).
Definition tensor_norm (msrc mrec : bool) (T : Z -> C) : R :=
  fold_right Rplus 0 (map (fun rs => Cmod (T (ab_entry msrc mrec (fst rs) (snd rs)))) pairs9).

Lemma get_abs_pairs : forall msrc mrec sa sd ra rd,
  get_abs msrc mrec sa sd ra rd =
  flat_map (fun rs => if keep_dir ra rd (fst rs) && keep_dir sa sd (snd rs) then [ab_entry msrc mrec (fst rs) (snd rs)] else []) pairs9.
Proof. intros. unfold get_abs, pairs9, dirs. cbn [flat_map map fst snd app]. rewrite ?app_nil_r, <- ?app_assoc. reflexivity. Qed.

Lemma sum_bound : forall (f : Z * Z -> option R) (g : Z * Z -> R) (T : Z * Z -> C) e l,
  (forall rs, In rs l -> Rabs ((match f rs with Some w => w | None => 0 end) - g rs) <= e) ->
  Cmod (Cminus (csum (flat_map (fun rs => match f rs with Some w => [Cmult (RtoC w) (T rs)] | None => [] end) l))
               (csum (map (fun rs => Cmult (RtoC (g rs)) (T rs)) l)))
  <= e * fold_right Rplus 0 (map (fun rs => Cmod (T rs)) l).
Proof.
  induction l as [|rs l IH]; intros H.
  - simpl. replace (Cminus 0 0) with (RtoC 0) by (unfold Cminus; rewrite Cplus_opp_r; reflexivity). rewrite Cmod_0. lra.
  - simpl flat_map. simpl map. simpl fold_right. rewrite csum_app. cbn [csum].
    assert (He : Rabs (match f rs with Some w => w | None => 0 end - g rs) <= e) by (apply H; simpl; auto).
    set (w := match f rs with Some w => w | None => 0 end) in *.
    assert (Ew : csum (match f rs with Some w => [Cmult (RtoC w) (T rs)] | None => [] end) = Cmult (RtoC w) (T rs)).
    { unfold w. destruct (f rs); simpl; [now rewrite Cplus_0_r|]. now rewrite Cmult_0_l. }
    rewrite Ew.
    match goal with |- Cmod (Cminus (Cplus ?a ?b) (Cplus ?c ?d)) <= _ =>
      replace (Cminus (Cplus a b) (Cplus c d)) with (Cplus (Cminus a c) (Cminus b d)) by ring end.
    eapply Rle_trans; [apply Cmod_triangle|]. rewrite Rmult_plus_distr_l. apply Rplus_le_compat.
    + replace (Cminus (Cmult (RtoC w) (T rs)) (Cmult (RtoC (g rs)) (T rs))) with (Cmult (RtoC (w - g rs)) (T rs))
        by (rewrite RtoC_minus; ring).
      rewrite Cmod_mult, Cmod_R. apply Rmult_le_compat_r; [apply Cmod_ge_0|exact He].
    + apply IH. intros. apply H. simpl; auto.
Qed.

Lemma clip_small : forall m f, 0 <= min_angle m -> Rabs ((if Rltb (Rabs f) (min_angle m) then 0 else f) - f) <= min_angle m.
Proof.
  intros m f Hm. destruct (Rltb (Rabs f) (min_angle m)) eqn:E.
  - apply Rltb_true in E. rewrite Rminus_0_l, Rabs_Ropp. lra.
  - rewrite Rminus_eq_0, Rabs_R0. exact Hm.
Qed.

Theorem tensor_contraction : forall m msrc mrec sa sd ra rd a d a' d' T, 0 <= min_angle m ->
  In a sa -> In d sd -> In a' ra -> In d' rd ->
  Cmod (Cminus (ab_response m msrc mrec sa sd ra rd a d a' d' T) (contraction msrc mrec a d a' d' T))
  <= Rmax (/ 10 ^ 8) (min_angle m) * tensor_norm msrc mrec T.
Proof.
  intros m msrc mrec sa sd ra rd a d a' d' T Hm Ha Hd Ha' Hd'.
  unfold ab_response, contraction, tensor_norm.
  set (f := fun rs : Z * Z => if keep_dir ra rd (fst rs) && keep_dir sa sd (snd rs)
     then Some (geo_fact1 m (ab_entry msrc mrec (fst rs) (snd rs)) a d a' d' msrc mrec) else None).
  replace (map (fun ab => Cmult (RtoC (geo_fact1 m ab a d a' d' msrc mrec)) (T ab)) (get_abs msrc mrec sa sd ra rd))
    with (flat_map (fun rs => match f rs with Some w => [Cmult (RtoC w) (T (ab_entry msrc mrec (fst rs) (snd rs)))] | None => [] end) pairs9).
  2:{ rewrite get_abs_pairs, flat_map_concat_map, flat_map_concat_map, concat_map, map_map. f_equal. apply map_ext.
      intros rs. unfold f. destruct (keep_dir ra rd (fst rs) && keep_dir sa sd (snd rs)); reflexivity. }
  apply (sum_bound f (fun rs => unitv (fst rs) a' d' * unitv (snd rs) a d) (fun rs => T (ab_entry msrc mrec (fst rs) (snd rs)))).
  intros [r s] Hrs. cbn [fst snd].
  assert (R3 : (1 <= r <= 3)%Z /\ (1 <= s <= 3)%Z).
  { unfold pairs9, dirs in Hrs. simpl in Hrs. repeat (destruct Hrs as [Hrs|Hrs]; [inversion Hrs; lia|]). destruct Hrs. }
  destruct R3 as [Hr Hs]. unfold f. cbn [fst snd].
  destruct (keep_dir ra rd r) eqn:K1; [destruct (keep_dir sa sd s) eqn:K2|]; cbn [andb].
  - rewrite geo_entry by auto. eapply Rle_trans; [apply clip_small; exact Hm|apply Rmax_r].
  - rewrite Rminus_0_l, Rabs_Ropp, Rmult_comm. eapply Rle_trans; [|apply Rmax_l].
    apply abs_mul_le; [eapply skipped_small; eauto|apply unitv_abs1].
  - rewrite Rminus_0_l, Rabs_Ropp. eapply Rle_trans; [|apply Rmax_l].
    apply abs_mul_le; [eapply skipped_small; eauto|apply unitv_abs1].
Qed.

(** Exact when no angular threshold applies and nothing is skipped. *)
Theorem tensor_exact : forall m msrc mrec sa sd ra rd a d a' d' T, min_angle m <= 0 ->
  (forall k, (1 <= k <= 3)%Z -> (keep_dir sa sd k = false -> unitv k a d = 0) /\ (keep_dir ra rd k = false -> unitv k a' d' = 0)) ->
  ab_response m msrc mrec sa sd ra rd a d a' d' T = contraction msrc mrec a d a' d' T.
Proof.
  intros m msrc mrec sa sd ra rd a d a' d' T Hm HK. unfold ab_response, contraction.
  rewrite get_abs_pairs.
  assert (G : forall l, (forall rs, In rs l -> (1 <= fst rs <= 3)%Z /\ (1 <= snd rs <= 3)%Z) ->
    csum (map (fun ab => Cmult (RtoC (geo_fact1 m ab a d a' d' msrc mrec)) (T ab))
      (flat_map (fun rs => if keep_dir ra rd (fst rs) && keep_dir sa sd (snd rs) then [ab_entry msrc mrec (fst rs) (snd rs)] else []) l)) =
    csum (map (fun rs => Cmult (RtoC (unitv (fst rs) a' d' * unitv (snd rs) a d)) (T (ab_entry msrc mrec (fst rs) (snd rs)))) l)).
  { induction l as [|[r s] l IH]; intros Hl; [reflexivity|]. destruct (Hl (r, s)) as [Hr Hs]; [simpl; auto|].
    cbn [fst snd] in Hr, Hs. cbn [flat_map map fst snd]. rewrite map_app, csum_app. cbn [csum].
    rewrite IH by (intros; apply Hl; simpl; auto). f_equal.
    destruct (HK r Hr) as [_ K1]. destruct (HK s Hs) as [K2 _].
    destruct (keep_dir ra rd r) eqn:E1; [destruct (keep_dir sa sd s) eqn:E2|]; cbn [andb map csum].
    - rewrite geo_entry by auto. cbn zeta. destruct (Rltb _ _) eqn:E; [|now rewrite Cplus_0_r].
      apply Rltb_true in E. pose proof (Rabs_pos (unitv r a' d' * unitv s a d)). lra.
    - rewrite K2, Rmult_0_r, Cmult_0_l by auto. reflexivity.
    - rewrite K1, Rmult_0_l, Cmult_0_l by auto. reflexivity. }
  apply G. intros rs H. unfold pairs9, dirs in H. simpl in H.
  repeat (destruct H as [H|H]; [subst rs; simpl; lia|]). destruct H.
Qed.

(** ** Axis-aligned dipoles *)
Definition quarter (k : Z) : R := deg2rad (90 * IZR k).
Lemma quarter_eq : forall k, quarter k = IZR k * (PI / 2).
Proof. intros. unfold quarter, deg2rad. field. Qed.
Lemma floor_IZR : forall n, ffloor (IZR n) = n.
Proof.
  intros n. unfold ffloor. destruct (base_Int_part (IZR n)) as [A B].
  apply le_IZR in A. assert (IZR n < IZR (Int_part (IZR n) + 1)) as L by (rewrite plus_IZR; lra). apply lt_IZR in L. lia.
Qed.
Lemma quarter_div : forall k, quarter k / (PI / 2) = IZR k.
Proof. intros. rewrite quarter_eq. field. pose proof PI_RGT_0. lra. Qed.
Lemma quarter_quad : forall k, quad90 (quarter k) = (k mod 2)%Z.
Proof. intros. unfold quad90. rewrite quarter_div, floor_IZR. reflexivity. Qed.
Lemma quarter_mod : forall k, mod90 (quarter k) = 0.
Proof. intros. unfold mod90. rewrite quarter_div, floor_IZR, quarter_eq. ring. Qed.

Lemma axis_quarter : forall k, axis_of [quarter k] = Some (k mod 2)%Z.
Proof.
  intros. unfold axis_of. cbn [forallb]. rewrite quarter_mod, quarter_quad.
  assert (isclose0 0 = true) as ->.
  { apply isclose0_true. rewrite Rabs_R0. left. apply Rinv_0_lt_compat, pow_lt. lra. }
  cbn [andb]. pose proof (Z.mod_pos_bound k 2 ltac:(lia)).
  destruct (Z.eq_dec (k mod 2) 0) as [->|]; [reflexivity|]. assert ((k mod 2)%Z = 1%Z) as -> by lia. reflexivity.
Qed.

Definition quarter_axis (ka kd : Z) : Z :=
  if Z.odd kd then 3%Z else if Z.odd ka then 2%Z else 1%Z.
(** Orientation along the axis: +1 or -1. *)
Definition qsign (k : Z) : R := if (k mod 4 <? 2)%Z then 1 else -1.
Definition quarter_sign (ka kd : Z) : R :=
  if Z.odd kd then qsign kd else qsign ka * qsign kd.

Lemma odd_mod : forall k, Z.odd k = (k mod 2 =? 1)%Z.
Proof. intros. rewrite Zmod_odd. destruct (Z.odd k); reflexivity. Qed.

Lemma keep_quarter : forall ka kd k, (1 <= k <= 3)%Z ->
  keep_dir [quarter ka] [quarter kd] k = (k =? quarter_axis ka kd)%Z.
Proof.
  intros ka kd k Hk. unfold keep_dir, quarter_axis. rewrite !axis_quarter, !odd_mod.
  pose proof (Z.mod_pos_bound ka 2 ltac:(lia)). pose proof (Z.mod_pos_bound kd 2 ltac:(lia)).
  assert (A : (ka mod 2 = 0 \/ ka mod 2 = 1)%Z) by lia. assert (B : (kd mod 2 = 0 \/ kd mod 2 = 1)%Z) by lia.
  destruct (dir123 k Hk) as [-> | [-> | ->]]; destruct A as [-> | ->]; destruct B as [-> | ->]; reflexivity.
Qed.

Lemma sin_cos_quarter : forall k,
  sin (quarter k) = (if Z.odd k then qsign k else 0) /\
  cos (quarter k) = (if Z.odd k then 0 else qsign k).
Proof.
  intros k. rewrite quarter_eq. pose proof (Z.div_mod k 4 ltac:(lia)) as D. pose proof (Z.mod_pos_bound k 4 ltac:(lia)) as B.
  assert (E : IZR k * (PI / 2) = IZR (k mod 4) * (PI / 2) + 2 * IZR (k / 4) * PI).
  { rewrite D at 1. rewrite plus_IZR, mult_IZR. lra. }
  assert (O : Z.odd k = Z.odd (k mod 4)).
  { rewrite D at 1. rewrite Z.odd_add, Z.odd_mul. simpl. destruct (Z.odd (k mod 4)); reflexivity. }
  unfold qsign. rewrite O. set (q := (k / 4)%Z) in *.
  assert (SC : forall x, sin (x + 2 * IZR q * PI) = sin x /\ cos (x + 2 * IZR q * PI) = cos x).
  { intros x. destruct q as [|p|p].
    - rewrite Rmult_0_r, Rmult_0_l, Rplus_0_r. auto.
    - rewrite <- (positive_nat_Z p), <- INR_IZR_INZ. split; [apply sin_period|apply cos_period].
    - rewrite <- Pos2Z.opp_pos, <- (positive_nat_Z p), opp_IZR, <- INR_IZR_INZ. split.
      + rewrite <- (sin_period (x + 2 * - INR (Pos.to_nat p) * PI) (Pos.to_nat p)). f_equal. ring.
      + rewrite <- (cos_period (x + 2 * - INR (Pos.to_nat p) * PI) (Pos.to_nat p)). f_equal. ring. }
  rewrite E, (proj1 (SC _)), (proj2 (SC _)).
  assert (K : (k mod 4 = 0 \/ k mod 4 = 1 \/ k mod 4 = 2 \/ k mod 4 = 3)%Z) by lia.
  destruct K as [K|[K|[K|K]]]; rewrite K; simpl.
  - rewrite Rmult_0_l, sin_0, cos_0. auto.
  - rewrite Rmult_1_l, sin_PI2, cos_PI2. auto.
  - replace (2 * (PI / 2)) with PI by lra. rewrite sin_PI, cos_PI. auto.
  - rewrite sin_3PI2, cos_3PI2. auto.
Qed.

Lemma unitv_quarter : forall ka kd, unitv (quarter_axis ka kd) (quarter ka) (quarter kd) = quarter_sign ka kd.
Proof.
  intros. unfold unitv, quarter_axis, quarter_sign.
  destruct (sin_cos_quarter ka) as [SA CA]. destruct (sin_cos_quarter kd) as [SD CD]. rewrite SA, CA, SD, CD.
  destruct (Z.odd kd), (Z.odd ka); simpl; ring.
Qed.
Lemma quarter_sign_abs : forall ka kd, Rabs (quarter_sign ka kd) = 1.
Proof.
  assert (Q : forall k, Rabs (qsign k) = 1).
  { intros. unfold qsign. destruct (_ <? _)%Z; [apply Rabs_R1|]. rewrite Rabs_left; lra. }
  intros. unfold quarter_sign. destruct (Z.odd kd); [apply Q|]. rewrite Rabs_mult, !Q. ring.
Qed.

(** ab_entry is what check_ab computes for the code of the two directions. *)
Lemma ab_entry_check : forall (msrc mrec : bool) r s, (1 <= r <= 3)%Z -> (1 <= s <= 3)%Z ->
  check_ab (AbNum (inject_Z (10 * (r + (if mrec then 3 else 0)) + (s + (if msrc then 3 else 0)))%Z)) =
  Ok (ab_entry msrc mrec r s, msrc, mrec).
Proof.
  intros msrc mrec r s Hr Hs. destruct (dir123 r Hr) as [-> | [-> | ->]]; destruct (dir123 s Hs) as [-> | [-> | ->]];
   destruct msrc, mrec; vm_compute; reflexivity.
Qed.

Lemma axis_range : forall ka kd, (1 <= quarter_axis ka kd <= 3)%Z.
Proof. intros. unfold quarter_axis. destruct (Z.odd kd), (Z.odd ka); lia. Qed.

Theorem axis_aligned : forall m (msrc mrec : bool) sa sd ra rd, min_angle m <= 1 ->
  let s := quarter_axis sa sd in let r := quarter_axis ra rd in
  exists ab,
    check_ab (AbNum (inject_Z (10 * (r + (if mrec then 3 else 0)) + (s + (if msrc then 3 else 0)))%Z)) = Ok (ab, msrc, mrec) /\
    get_abs msrc mrec [quarter sa] [quarter sd] [quarter ra] [quarter rd] = [ab] /\
    get_geo_fact m ab [quarter sa] [quarter sd] [quarter ra] [quarter rd] msrc mrec
      = [[quarter_sign ra rd * quarter_sign sa sd]].
Proof.
  intros m msrc mrec sa sd ra rd Hm s r. exists (ab_entry msrc mrec r s).
  pose proof (axis_range sa sd) as Hs. pose proof (axis_range ra rd) as Hr. fold s in Hs. fold r in Hr.
  split; [now apply ab_entry_check|]. split.
  - rewrite get_abs_pairs. unfold pairs9, dirs. cbn [flat_map map app fst snd]. rewrite !keep_quarter by lia.
    fold s. fold r. destruct (dir123 r Hr) as [E1 | [E1 | E1]]; destruct (dir123 s Hs) as [E2 | [E2 | E2]]; rewrite E1, E2; reflexivity.
  - unfold get_geo_fact, zipbc, outer. cbn. rewrite geo_entry by auto. cbn zeta. unfold s, r. rewrite !unitv_quarter.
    rewrite Rabs_mult, !quarter_sign_abs. replace (1 * 1) with 1 by ring.
    destruct (Rltb 1 (min_angle m)) eqn:E; [apply Rltb_true in E; lra|reflexivity].
Qed.

(** ** Finite bipoles *)
Lemma sum3_pos : forall a b c, (a <> 0 \/ b <> 0 \/ c <> 0) -> 0 < a * a + b * b + c * c.
Proof.
  intros a b c H. assert (0 <= a * a) by nra. assert (0 <= b * b) by nra. assert (0 <= c * c) by nra.
  destruct H as [H|[H|H]].
  - assert (0 < a * a) by nra. lra.
  - assert (0 < b * b) by nra. lra.
  - assert (0 < c * c) by nra. lra.
Qed.

Lemma bip_direction : forall dx dy dz, (dx <> 0 \/ dy <> 0 \/ dz <> 0) ->
  let l := bip_len dx dy dz in let a := bip_azm dx dy in let d := bip_dip dx dy dz in
  0 < l /\ l * unitv 1 a d = dx /\ l * unitv 2 a d = dy /\ l * unitv 3 a d = dz.
Proof.
  intros dx dy dz H l a d. pose proof (sum3_pos dx dy dz H) as P.
  assert (Pl : 0 < l) by (apply sqrt_lt_R0; exact P).
  assert (Sq : l * l = dx * dx + dy * dy + dz * dz) by (apply sqrt_sqrt; lra).
  set (u := dz / l).
  assert (Bu : -1 <= u <= 1).
  { assert (dz <= l). { apply Rnot_lt_le. intro. assert (l * l < dz * dz) by nra. assert (0 <= dx * dx) by nra. assert (0 <= dy * dy) by nra. lra. }
    assert (- l <= dz). { apply Rnot_lt_le. intro. assert (l * l < dz * dz) by nra. assert (0 <= dx * dx) by nra. assert (0 <= dy * dy) by nra. lra. }
    unfold u. split.
    - apply Rmult_le_reg_r with l; [auto|]. unfold Rdiv. rewrite Rmult_assoc, Rinv_l by lra. lra.
    - apply Rmult_le_reg_r with l; [auto|]. unfold Rdiv. rewrite Rmult_assoc, Rinv_l by lra. lra. }
  assert (SD : sin d = u). { unfold d, bip_dip. fold l. fold u. rewrite sin_shift. apply cos_acos. exact Bu. }
  assert (CD : l * cos d = sqrt (dx * dx + dy * dy)).
  { unfold d, bip_dip. fold l. fold u. rewrite cos_shift, sin_acos by exact Bu.
    rewrite <- (sqrt_square l) at 1 by lra. rewrite <- sqrt_mult; [|nra|unfold Rsqr; nra].
    f_equal. unfold u, Rsqr. replace (l * l * (1 - dz / l * (dz / l))) with (l * l - dz * dz) by (field; lra).
    rewrite Sq. ring. }
  destruct (atan2_polar dx dy) as [X [Y _]]. fold (bip_azm dx dy) in X, Y. fold a in X, Y.
  split; [exact Pl|]. unfold unitv; simpl. split; [|split].
  - replace (l * (cos a * cos d)) with (l * cos d * cos a) by ring. rewrite CD. exact X.
  - replace (l * (sin a * cos d)) with (l * cos d * sin a) by ring. rewrite CD. exact Y.
  - rewrite SD. unfold u. field. lra.
Qed.

(** Rounding of coordinates *)
Lemma rint_close : forall x, Rabs (IZR (rint x) - x) <= / 2.
Proof.
  intros x. unfold rint, ffloor. destruct (base_Int_part x) as [B1 B2].
  set (f := Int_part x) in *.
  destruct (Rltb (x - IZR f) (/ 2)) eqn:E1.
  - apply Rltb_true in E1. apply Rabs_le. lra.
  - apply Rltb_false in E1. destruct (Rltb (/ 2) (x - IZR f)) eqn:E2.
    + apply Rltb_true in E2. rewrite plus_IZR. apply Rabs_le. lra.
    + apply Rltb_false in E2. assert (x - IZR f = / 2) by lra.
      destruct (Z.even f); [|rewrite plus_IZR]; apply Rabs_le; lra.
Qed.
Lemma pow10_pos : forall n, 0 < pow10 n.
Proof. intros. unfold pow10. apply powerRZ_lt. lra. Qed.
Lemma round_dec_close : forall n x, Rabs (round_dec n x - x) <= / 2 / pow10 n.
Proof.
  intros n x. unfold round_dec. pose proof (pow10_pos n) as P.
  replace (IZR (rint (x * pow10 n)) / pow10 n - x) with ((IZR (rint (x * pow10 n)) - x * pow10 n) * / pow10 n) by (field; lra).
  rewrite Rabs_mult, (Rabs_right (/ pow10 n)) by (left; now apply Rinv_0_lt_compat).
  unfold Rdiv. apply Rmult_le_compat_r; [left; now apply Rinv_0_lt_compat|apply rint_close].
Qed.
Lemma rndco_default : forall m n, min_off m = / pow10 n -> rndco m = n.
Proof.
  intros m n H. unfold rndco. rewrite H.
  replace (1 / / pow10 n) with (pow10 n) by (field; pose proof (pow10_pos n); lra).
  unfold pow10. assert (L10 : 0 < ln 10) by (rewrite <- ln_1; apply ln_increasing; lra).
  rewrite powerRZ_Rpower by lra. unfold Rpower. rewrite ln_exp.
  replace (IZR n * ln 10 / ln 10) with (IZR n) by (field; lra).
  unfold rint. rewrite floor_IZR. rewrite Rminus_eq_0.
  destruct (Rltb 0 (/ 2)) eqn:E; [reflexivity|]. apply Rltb_false in E. lra.
Qed.
