(** * The phase of EMArray *)
From Coq Require Import ZArith List Lia Lra Reals String Bool.
From Coquelicot Require Import Complex.
From Verif Require Import PyBase CBase Utils Transform UtilsArgs UtilsLayer UtilsFreq.
Import ListNotations.
Local Open Scope R_scope.

Ltac rb :=
  repeat match goal with
  | |- context [Rltb ?a ?b] =>
      let E := fresh "E" in destruct (Rltb a b) eqn:E; [apply Rltb_true in E | apply Rltb_false in E]
  | |- context [Rleb ?a ?b] =>
      let E := fresh "E" in destruct (Rleb a b) eqn:E; [apply Rleb_true in E | apply Rleb_false in E]
  | |- context [Reqb ?a ?b] =>
      let E := fresh "E" in destruct (Reqb a b) eqn:E; [apply Reqb_true in E | apply Reqb_false in E]
  end.

Lemma atan2_opp : forall y x, y <> 0 -> atan2 (- y) x = - atan2 y x.
Proof.
  intros y x Hy. unfold atan2.
  replace (- y / x) with (- (y / x)) by (unfold Rdiv; ring). rewrite atan_opp.
  rb; lra.
Qed.

(** the raw angle is a phase of the number, in [-pi, pi] *)
Lemma angle1_polar : forall z, cnum_ok z ->
  let r := sqrt (c_re z * c_re z + c_im z * c_im z) in
  r * cos (angle1 z) = c_re z /\ r * sin (angle1 z) = c_im z /\ - PI <= angle1 z <= PI.
Proof.
  intros [x y nx ny] [_ _]. cbn [c_re c_im]. unfold angle1. cbn [c_re c_im c_nre c_nim].
  pose proof PI_RGT_0 as PP. destruct (atan2_polar x y) as (A & B & D).
  destruct (Reqb y 0) eqn:E.
  - apply Reqb_true in E. subst y. replace (x * x + 0 * 0) with (Rsqr x) by (unfold Rsqr; ring). rewrite sqrt_Rsqr_abs.
    destruct (Rltb x 0 || Reqb x 0 && nx)%bool eqn:F.
    + assert (Hx : x <= 0).
      { apply orb_true_iff in F. destruct F as [F|F]; [apply Rltb_true in F; lra|].
        apply andb_true_iff in F. destruct F as [F _]. apply Reqb_true in F. lra. }
      rewrite Rabs_left1 by lra. destruct ny; [rewrite cos_neg, sin_neg|]; rewrite cos_PI, sin_PI; repeat split; lra.
    + assert (Hx : 0 <= x).
      { apply orb_false_iff in F. destruct F as [F _]. apply Rltb_false in F. lra. }
      rewrite Rabs_right by lra. rewrite cos_0, sin_0. repeat split; lra.
  - repeat split; auto; lra.
Qed.

Definition conj1 (z : cnum) : cnum := mkc (c_re z) (- c_im z) (c_nre z) (negb (c_nim z)).
Lemma angle1_conj : forall z, angle1 (conj1 z) = - angle1 z.
Proof.
  intros [x y nx ny]. unfold angle1, conj1. cbn [c_re c_im c_nre c_nim].
  destruct (Reqb (- y) 0) eqn:E; [apply Reqb_true in E|apply Reqb_false in E];
    (destruct (Reqb y 0) eqn:E'; [apply Reqb_true in E'|apply Reqb_false in E']; try lra).
  - destruct (Rltb x 0 || Reqb x 0 && nx)%bool; [|lra]. destruct ny; cbn; lra.
  - apply atan2_opp. exact E'.
Qed.

(** ** Unwrapping *)
Lemma fmod_spec : forall x p, 0 < p -> 0 <= fmod x p < p /\ exists n, fmod x p = x + IZR n * p.
Proof.
  intros x p Hp. unfold fmod, ffloor. destruct (base_Int_part (x / p)) as [A B].
  set (z := Int_part (x / p)) in *. clearbody z.
  assert (H1 : IZR z * p <= x). { apply (Rmult_le_compat_r p) in A; [|lra]. replace (x / p * p) with x in A by (field; lra). exact A. }
  assert (H2 : x < (IZR z + 1) * p).
  { assert (C : x / p < IZR z + 1) by lra. apply (Rmult_lt_compat_r p) in C; [|lra].
    replace (x / p * p) with x in C by (field; lra). exact C. }
  split; [lra|]. exists (- z)%Z. rewrite opp_IZR. ring.
Qed.

(** the corrected difference lies in [-pi, pi], and the correction is a
    multiple of 2 pi *)
Lemma ph_correct_spec : forall d,
  Rabs (d + ph_correct d) <= PI /\ exists n, ph_correct d = IZR n * (2 * PI).
Proof.
  intros d. pose proof PI_RGT_0 as PP. unfold ph_correct.
  destruct (fmod_spec (d + PI) (2 * PI)) as [[A B] (n & E)]; [lra|]. set (f := fmod (d + PI) (2 * PI)) in *. clearbody f.
  destruct (Rltb (Rabs d) PI) eqn:F.
  - apply Rltb_true in F. split; [rewrite Rplus_0_r; lra|]. exists 0%Z. ring.
  - destruct (Reqb (f - PI) (- PI) && Rltb 0 d)%bool eqn:G.
    + apply andb_true_iff in G. destruct G as [G _]. apply Reqb_true in G.
      split; [replace (d + (PI - d)) with PI by ring; rewrite Rabs_right; lra|].
      exists (n + 1)%Z. rewrite plus_IZR. assert (f = 0) by lra. lra.
    + split; [replace (d + (f - PI - d)) with (f - PI) by ring; apply Rabs_le; lra|].
      exists n. lra.
Qed.

Lemma IZR_2PI : forall n m a, a = IZR n * (2 * PI) -> a = IZR m * (2 * PI) -> n = m.
Proof.
  intros n m a H1 H2. pose proof PI_RGT_0 as PP. apply eq_IZR.
  apply (Rmult_eq_reg_r (2 * PI)); lra.
Qed.

Lemma ph_correct_odd : forall d, ph_correct (- d) = - ph_correct d.
Proof.
  intros d. pose proof PI_RGT_0 as PP. unfold ph_correct. rewrite Rabs_Ropp.
  destruct (Rltb (Rabs d) PI) eqn:F; [lra|]. apply Rltb_false in F.
  destruct (fmod_spec (d + PI) (2 * PI)) as [[A B] (n & E)]; [lra|]. set (f := fmod (d + PI) (2 * PI)) in *. clearbody f.
  destruct (fmod_spec (- d + PI) (2 * PI)) as [[A' B'] (n' & E')]; [lra|].
  set (g := fmod (- d + PI) (2 * PI)) in *. clearbody g.
  (* f + g is a multiple of 2 pi in [0, 4 pi) *)
  assert (S : f + g = IZR (n + n' + 1) * (2 * PI)) by (rewrite !plus_IZR; lra).
  assert (K : (n + n' + 1 = 0 \/ n + n' + 1 = 1)%Z).
  { assert (L1 : (-1 < n + n' + 1)%Z) by (apply lt_IZR; apply (Rmult_lt_reg_r (2 * PI)); lra).
    assert (L2 : (n + n' + 1 < 2)%Z) by (apply lt_IZR; apply (Rmult_lt_reg_r (2 * PI)); lra). lia. }
  destruct (Reqb (f - PI) (- PI)) eqn:Ef; [apply Reqb_true in Ef|apply Reqb_false in Ef];
    (destruct (Reqb (g - PI) (- PI)) eqn:Eg; [apply Reqb_true in Eg|apply Reqb_false in Eg]); cbn [andb].
  - destruct (Rltb 0 d) eqn:D; [apply Rltb_true in D|apply Rltb_false in D];
      (destruct (Rltb 0 (- d)) eqn:D'; [apply Rltb_true in D'|apply Rltb_false in D']); try lra.
    assert (d = 0) by lra. subst d. rewrite Rabs_R0 in F. lra.
  - exfalso. destruct K as [K|K]; rewrite K in S; lra.
  - exfalso. destruct K as [K|K]; rewrite K in S; lra.
  - destruct K as [K|K]; rewrite K in S; lra.
Qed.

(** the unwrapped values as a recursion *)
Fixpoint unw (acc x : R) (t : list R) : list R :=
  match t with
  | [] => []
  | y :: t' => (y + (acc + ph_correct (y - x))) :: unw (acc + ph_correct (y - x)) y t'
  end.
Lemma unw_eq : forall t acc x,
  map2 Rplus t (cumsum_from acc (map ph_correct (diffl (x :: t)))) = unw acc x t.
Proof.
  induction t as [|y t IH]; intros acc x; [reflexivity|].
  unfold diffl. cbn [tl]. unfold map2 at 2. cbn [combine map fst snd cumsum_from]. unfold map2 at 1.
  cbn [combine map fst snd unw]. f_equal. rewrite <- IH. reflexivity.
Qed.
Lemma unwrap_eq : forall x t, unwrap (x :: t) = x :: unw 0 x t.
Proof. intros. unfold unwrap. rewrite unw_eq. reflexivity. Qed.

Lemma unw_len : forall t acc x, List.length (unw acc x t) = List.length t.
Proof. induction t; intros; cbn; [reflexivity|rewrite IHt; reflexivity]. Qed.

Lemma unw_mult : forall t acc x, (exists n, acc = IZR n * (2 * PI)) ->
  forall k, (k < List.length t)%nat -> exists n, nth k (unw acc x t) 0 = nth k t 0 + IZR n * (2 * PI).
Proof.
  induction t as [|y t IH]; intros acc x (n & Hn) k Hk; [cbn in Hk; lia|].
  destruct (ph_correct_spec (y - x)) as [_ (m & Hm)].
  assert (E : acc + ph_correct (y - x) = IZR (n + m) * (2 * PI)) by (rewrite plus_IZR; lra).
  destruct k as [|k]; cbn [unw nth].
  - exists (n + m)%Z. rewrite E. reflexivity.
  - apply IH; [exists (n + m)%Z; exact E|cbn in Hk; lia].
Qed.

Lemma unw_step : forall t acc x k, (k < List.length t)%nat ->
  Rabs (nth k (unw acc x t) 0 - nth k ((x + acc) :: unw acc x t) 0) <= PI.
Proof.
  induction t as [|y t IH]; intros acc x k Hk; [cbn in Hk; lia|].
  destruct (ph_correct_spec (y - x)) as [H _].
  destruct k as [|k]; cbn [unw nth].
  - replace (y + (acc + ph_correct (y - x)) - (x + acc)) with (y - x + ph_correct (y - x)) by ring. exact H.
  - apply (IH (acc + ph_correct (y - x)) y k). cbn in Hk. lia.
Qed.

Lemma unw_opp : forall t acc x, unw (- acc) (- x) (map Ropp t) = map Ropp (unw acc x t).
Proof.
  induction t as [|y t IH]; intros acc x; [reflexivity|]. cbn [map unw].
  assert (E : - acc + ph_correct (- y - - x) = - (acc + ph_correct (y - x))).
  { replace (- y - - x) with (- (y - x)) by ring. rewrite ph_correct_odd. ring. }
  rewrite E. f_equal; [ring|apply IH].
Qed.

Lemma unwrap_len : forall p, List.length (unwrap p) = List.length p.
Proof. destruct p; [reflexivity|]. rewrite unwrap_eq. cbn. rewrite unw_len. reflexivity. Qed.
Lemma unwrap_mult : forall p k, (k < List.length p)%nat -> exists n, nth k (unwrap p) 0 = nth k p 0 + IZR n * (2 * PI).
Proof.
  intros [|x t] k Hk; [cbn in Hk; lia|]. rewrite unwrap_eq. destruct k as [|k]; cbn [nth].
  - exists 0%Z. ring.
  - apply unw_mult; [exists 0%Z; ring|cbn in Hk; lia].
Qed.
Lemma unwrap_step : forall p k, (S k < List.length p)%nat -> Rabs (nth (S k) (unwrap p) 0 - nth k (unwrap p) 0) <= PI.
Proof.
  intros [|x t] k Hk; [cbn in Hk; lia|]. rewrite unwrap_eq.
  assert (Hk' : (k < List.length t)%nat) by (cbn in Hk; lia).
  pose proof (unw_step t 0 x k Hk') as H. rewrite Rplus_0_r in H. exact H.
Qed.
Lemma unwrap_opp : forall p, unwrap (map Ropp p) = map Ropp (unwrap p).
Proof.
  intros [|x t]; [reflexivity|]. cbn [map]. rewrite !unwrap_eq. cbn [map]. f_equal.
  rewrite <- unw_opp. rewrite Ropp_0. reflexivity.
Qed.

(** ** The method pha *)
Definition size (a : emarray) : nat := List.length (em_list a).

Lemma pha_len : forall a deg u lag, List.length (pha a deg u lag) = size a.
Proof.
  intros a deg u lag. unfold pha, size.
  assert (L : List.length (em_list (np_conj a)) = List.length (em_list a)) by (destruct a; cbn; [rewrite map_length|]; reflexivity).
  set (p := map angle1 (em_list (if lag then a else np_conj a))).
  assert (P : List.length p = List.length (em_list a)) by (unfold p; rewrite map_length; destruct lag; auto).
  destruct deg; rewrite ?map_length; (destruct (u && _)%bool; rewrite ?unwrap_len; exact P).
Qed.

Lemma map_len_opp : forall (f g : cnum -> R) l, (forall z, f z = - g z) -> map f l = map Ropp (map g l).
Proof. intros f g l H. rewrite map_map. apply map_ext. exact H. Qed.

Theorem pha_lead : forall l deg u, pha (EmC l) deg u false = map Ropp (pha (EmC l) deg u true).
Proof.
  intros l deg u. unfold pha. cbn [np_conj em_list].
  change (map (fun z => mkc (c_re z) (- c_im z) (c_nre z) (negb (c_nim z))) l) with (map conj1 l).
  rewrite map_map. rewrite (map_len_opp _ angle1 l angle1_conj). rewrite !map_length.
  set (p := map angle1 l). set (b := (u && (1 <? List.length l)%nat)%bool).
  replace (if b then unwrap (map Ropp p) else map Ropp p) with (map Ropp (if b then unwrap p else p))
    by (destruct b; [rewrite unwrap_opp|]; reflexivity).
  destruct deg; [|reflexivity]. rewrite !map_map. apply map_ext. intros x. ring.
Qed.

Theorem pha_deg : forall a u lag, pha a true u lag = map (fun x => x * (180 / PI)) (pha a false u lag).
Proof. reflexivity. Qed.

Theorem pha_raw : forall a k, (k < size a)%nat ->
  nth k (pha a false false true) 0 = angle1 (nth k (em_list a) (mkc 0 0 false false)).
Proof.
  intros a k Hk. unfold pha. cbn [andb].
  rewrite (nth_indep _ 0 (angle1 (mkc 0 0 false false))) by (rewrite map_length; exact Hk). apply map_nth.
Qed.

Theorem pha_unwrap : forall a lag k, (k < size a)%nat ->
  exists n, nth k (pha a false true lag) 0 = nth k (pha a false false lag) 0 + IZR n * (2 * PI).
Proof.
  intros a lag k Hk. pose proof (pha_len a false false lag) as L. unfold pha in *. cbn [andb] in *.
  set (p := map angle1 (em_list (if lag then a else np_conj a))) in *.
  destruct (1 <? List.length p)%nat; [|exists 0%Z; ring]. apply unwrap_mult. lia.
Qed.

Theorem pha_step : forall a lag k, (S k < size a)%nat ->
  Rabs (nth (S k) (pha a false true lag) 0 - nth k (pha a false true lag) 0) <= PI.
Proof.
  intros a lag k Hk. pose proof (pha_len a false false lag) as L. unfold pha in *. cbn [andb] in *.
  set (p := map angle1 (em_list (if lag then a else np_conj a))) in *.
  destruct (1 <? List.length p)%nat eqn:E; [|apply Nat.ltb_ge in E; lia]. apply unwrap_step. lia.
Qed.

(** for real dtype the lead phase equals the lag phase *)
Theorem pha_real_same : forall l deg u, pha (EmR l) deg u false = pha (EmR l) deg u true.
Proof. reflexivity. Qed.
Lemma pha_real_neg : pha (EmR [(-1, true)]) false true true = [PI].
Proof.
  unfold pha. cbn [em_list map fst snd andb List.length Nat.ltb Nat.leb]. unfold angle1. cbn [c_re c_im c_nre c_nim].
  rewrite (proj2 (Reqb_true 0 0) eq_refl). rewrite (proj2 (Rltb_true (-1) 0)) by lra. reflexivity.
Qed.
