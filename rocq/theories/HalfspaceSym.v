(** Symmetries of the half-space solution: mirror image of the TM part, no vertical field
    at the surface, exchange of source and receiver, rotation about the vertical. *)

From Coq Require Import ZArith Reals List Bool Lia Lra Psatz.
From Coquelicot Require Import Coquelicot.
From Verif Require Import PyBase CBase Halfspace Stehfest HalfspaceThm.
Import ListNotations.
Local Open Scope R_scope.
Local Open Scope C_scope.

(** ** Lists of parts *)
Definition linear_part (f : hpart -> C) : Prop := forall a b, f (part_sub a b) = Cminus (f a) (f b).
Definition the_part (i : nat) (p : hpart) : C := nth i [p_dTE p; p_dTM p; p_rTE p; p_rTM p; p_air p] (RtoC 0).
Lemma part_linear : forall i, linear_part (the_part i).
Proof. intros i a b. unfold the_part, part_sub. cbn [p_dTE p_dTM p_rTE p_rTM p_air]. do 5 (destruct i as [|i]; [reflexivity|]). destruct i; cbn; ring. Qed.

Section Lists.
Variables (ive kve : Z -> C -> C).
Definition PP (isr : bool) (w : hs_at) (ab : Z) (off angle zs zr res aniso : R) : hpart := hs_part ive kve isr w ab off angle zs zr res aniso.
(** a linear combination of two solutions, part by part *)
Lemma parts_lin : forall f g h c d inp ab1 off1 an1 zs1 zr1 res1 ai1 ab2 off2 an2 zs2 zr2 res2 ai2 ab3 off3 an3 zs3 zr3 res3 ai3,
  linear_part f -> linear_part g -> linear_part h ->
  (forall isr w, f (PP isr w ab1 off1 an1 zs1 zr1 res1 ai1) = Cplus (Cmult c (g (PP isr w ab2 off2 an2 zs2 zr2 res2 ai2))) (Cmult d (h (PP isr w ab3 off3 an3 zs3 zr3 res3 ai3)))) ->
  forall k, nth k (map f (hs_parts ive kve inp ab1 off1 an1 zs1 zr1 res1 ai1)) (RtoC 0) =
    Cplus (Cmult c (nth k (map g (hs_parts ive kve inp ab2 off2 an2 zs2 zr2 res2 ai2)) (RtoC 0))) (Cmult d (nth k (map h (hs_parts ive kve inp ab3 off3 an3 zs3 zr3 res3 ai3)) (RtoC 0))).
Proof.
  intros f g h c d inp ab1 off1 an1 zs1 zr1 res1 ai1 ab2 off2 an2 zs2 zr2 res2 ai2 ab3 off3 an3 zs3 zr3 res3 ai3 Lf Lg Lh H.
  assert (W : forall A (l : list A) (F G K : A -> C), (forall a, F a = Cplus (Cmult c (G a)) (Cmult d (K a))) -> forall k, nth k (map F l) (RtoC 0) = Cplus (Cmult c (nth k (map G l) (RtoC 0))) (Cmult d (nth k (map K l) (RtoC 0)))).
  { intros A l F G K HF. induction l as [|a l IH]; intros [|k]; cbn [map nth]; [ring|ring|apply HF|apply IH]. }
  intros k. unfold hs_parts. unfold PP in H. destruct inp as [isr l|sg l].
  - rewrite !map_map. apply W. intros s. apply H.
  - destruct (sg =? -1)%Z.
    + rewrite !map_app. cbn [map]. rewrite !last_last, !removelast_last, !map_map. apply W. intros t. rewrite Lf, Lg, Lh, !H. ring.
    + destruct (sg =? 1)%Z; rewrite !map_map; apply W; intros t; apply H.
Qed.
Lemma parts_len : forall inp ab off an zs zr res ai, List.length (hs_parts ive kve inp ab off an zs zr res ai) = match inp with HFreq _ s => List.length s | HTime _ t => List.length t end.
Proof.
  intros. unfold hs_parts. destruct inp as [isr l|sg l]; [apply map_length|]. destruct (sg =? -1)%Z.
  - rewrite map_app. cbn [map]. rewrite removelast_last, !map_length. reflexivity.
  - destruct (sg =? 1)%Z; apply map_length.
Qed.
End Lists.

(** ** The geometry *)
Lemma sqr_sum : forall off an : R, ((cos an * off) ^ 2 + (sin an * off) ^ 2 = off ^ 2)%R.
Proof. intros. pose proof (sin2_cos2 an) as E. unfold Rsqr in E. cbn [pow]. nra. Qed.
Lemma geo_angle : forall off an zs zr res ai, hs_geo off an zs zr res ai =
  let g := hs_geo off 0 zs zr res ai in
  Build_hgeo (cos an * off) (sin an * off) (rh g) (hp g) (hm g) (hsp g) (hsm g) (rp g) (rm g) (rsp g) (rsm g) (tp g) (tm g) (tsp g) (tsm g).
Proof. intros. unfold hs_geo. cbn [rh hp hm hsp hsm rp rm rsp rsm tp tm tsp tsm g_x g_y]. rewrite !sqr_sum. reflexivity. Qed.
Lemma geo_swap : forall off an zs zr res ai, hs_geo off (an + PI) zr zs res ai =
  let g := hs_geo off an zs zr res ai in
  Build_hgeo (- g_x g) (- g_y g) (rh g) (hp g) (hm g) (hsp g) (hsm g) (rp g) (rm g) (rsp g) (rsm g) (tp g) (tm g) (tsp g) (tsm g).
Proof.
  intros. unfold hs_geo. cbn [rh hp hm hsp hsm rp rm rsp rsm tp tm tsp tsm g_x g_y]. rewrite !neg_cos, !neg_sin. rewrite !(Rplus_comm zs zr), !(Rabs_minus_sym zs zr).
  replace (- cos an * off)%R with (- (cos an * off))%R by ring. replace (- sin an * off)%R with (- (sin an * off))%R by ring.
  replace ((- (cos an * off)) ^ 2)%R with ((cos an * off) ^ 2)%R by ring. replace ((- (sin an * off)) ^ 2)%R with ((sin an * off) ^ 2)%R by ring. reflexivity.
Qed.
Lemma geo_mirror : forall off an zs zr res ai, hs_geo off an (- zs) zr res ai =
  let g := hs_geo off an zs zr res ai in
  Build_hgeo (g_x g) (g_y g) (rh g) (hm g) (hp g) (hsm g) (hsp g) (rm g) (rp g) (rsm g) (rsp g) (tm g) (tp g) (tsm g) (tsp g).
Proof.
  intros. unfold hs_geo. cbn [rh hp hm hsp hsm rp rm rsp rsm tp tm tsp tsm g_x g_y]. replace (zr + - zs)%R with (zr - zs)%R by ring. replace (zr - - zs)%R with (zr + zs)%R by ring. reflexivity.
Qed.

(** ** The mirror image of the TM part *)
Definition mirror_sign (ab : Z) : R := if inb ab [13; 23; 33]%Z then -1 else 1.
Definition nine : list Z := [11; 12; 13; 21; 22; 23; 31; 32; 33]%Z.
Lemma geo_pos : forall off an zs zr res ai, let g := hs_geo off an zs zr res ai in rp g <> 0 -> rm g <> 0 -> rh g = 0 -> hm g <> 0 /\ hp g <> 0.
Proof.
  intros off an zs zr res ai g Hp Hm Hh. unfold g, hs_geo in *. cbn [rp rm rh hm hp] in *.
  assert (E : ((cos an * off) ^ 2 + (sin an * off) ^ 2)%R = 0%R). { apply sqrt_eq_0 in Hh; [exact Hh|]. pose proof (pow2_ge_0 (cos an * off)). pose proof (pow2_ge_0 (sin an * off)). lra. }
  split; intros Z0.
  - apply Hm. rewrite E, Z0. replace (0 + 0 ^ 2)%R with 0%R by ring. apply sqrt_0.
  - apply Hp. rewrite E, Z0. replace (0 + 0 ^ 2)%R with 0%R by ring. apply sqrt_0.
Qed.
Lemma coef_mirror : forall ab off an zs zr res ai, In ab nine -> (0 <= zs + zr)%R ->
  let g := hs_geo off an zs zr res ai in rp g <> 0 -> rm g <> 0 ->
  let c := hs_coef ab g zs zr res ai in let c' := hs_coef ab (hs_geo off an (- zs) zr res ai) (- zs) zr res ai in
  (s0p c = mirror_sign ab * s0m c' /\ s1p c = mirror_sign ab * s1m c' /\ s2p c = mirror_sign ab * s2m c')%R.
Proof.
  intros ab off an zs zr res ai Hab Hz g Hp Hm c c'. unfold c, c'. rewrite geo_mirror. cbv zeta. fold g.
  pose proof (geo_pos off an zs zr res ai Hp Hm) as GP. fold g in GP.
  assert (Hh : hp g = (zr - - zs)%R). { unfold g, hs_geo. cbn [hp]. rewrite Rabs_pos_eq by lra. ring. }
  unfold nine in Hab. cbn [In] in Hab.
  destruct Hab as [<- | [<- | [<- | [<- | [<- | [<- | [<- | [<- | [<- | []]]]]]]]]]; unfold hs_coef, mirror_sign, hs_xy, hs_rev, hs_delta; cbn [inb existsb Z.eqb Pos.eqb orb];
    cbn [s0p s1p s2p s0m s1m s2m rh hm hp rsp rsm hsp hsm g_x g_y];
    try (try rewrite <- Hh; repeat split; unfold Rdiv; ring);
    (destruct (Req_EM_T (rh g) 0) as [E | E]; [destruct (GP E) as [G1 G2]|]);
    destruct (Req_EM_T (hm g) 0); destruct (Req_EM_T (hp g) 0); try contradiction; repeat split; ring.
Qed.

(** the guards of the solution *)
Definition hs_guard (inp : hs_in) (ab : Z) (g : hgeo) : bool :=
  (if Req_EM_T (rm g) 0 then true else false) || (if Req_EM_T (rp g) 0 then true else false) || (hs_imp0 inp ab && (if Req_EM_T (rh g) 0 then true else false)).
Lemma hs_tetm : forall ive kve inp ab off an zs zr eH eV, let res := hs_res eH in let ai := hs_aniso eV res in
  halfspace ive kve inp Dtetm ab off an zs zr eH eV = if hs_guard inp ab (hs_geo off an zs zr res ai) then Err NanE else
    let ps := hs_parts ive kve inp ab off an zs zr res ai in Ok (Five (map (the_part 0) ps) (map (the_part 1) ps) (map (the_part 2) ps) (map (the_part 3) ps) (map (the_part 4) ps)).
Proof.
  intros. unfold halfspace, hs_guard. fold res. fold ai. destruct (Req_EM_T (rm _) 0); [reflexivity|]. destruct (Req_EM_T (rp _) 0); [reflexivity|]. cbn [orb]. destruct (hs_imp0 inp ab && _); reflexivity.
Qed.
Lemma guard_ok : forall inp ab g, hs_guard inp ab g = false -> rm g <> 0 /\ rp g <> 0.
Proof. intros inp ab g. unfold hs_guard. destruct (Req_EM_T (rm g) 0); [discriminate|]. destruct (Req_EM_T (rp g) 0); [discriminate|]. auto. Qed.

Lemma list_eqC : forall (l m : list C), List.length l = List.length m -> (forall k, nth k l (RtoC 0) = nth k m (RtoC 0)) -> l = m.
Proof. intros l m HL H. apply (nth_ext l m (RtoC 0) (RtoC 0) HL). intros k _. apply H. Qed.
Lemma nth_map_mul : forall (c : C) (l : list C) k, nth k (map (Cmult c) l) (RtoC 0) = Cmult c (nth k l (RtoC 0)).
Proof. intros c l. induction l as [|a l IH]; intros [|k]; cbn [map nth]; [ring|ring|reflexivity|apply IH]. Qed.

Lemma mirror_parts : forall ive kve isr w ab off an zs zr res ai, In ab nine -> (0 <= zs + zr)%R -> rp (hs_geo off an zs zr res ai) <> 0 -> rm (hs_geo off an zs zr res ai) <> 0 ->
  the_part 3 (hs_part ive kve isr w ab off an zs zr res ai) = Cmult (RtoC (mirror_sign ab)) (the_part 1 (hs_part ive kve isr w ab off an (- zs) zr res ai)).
Proof.
  intros ive kve isr w ab off an zs zr res ai Hab Hz Hp Hm. destruct (coef_mirror ab off an zs zr res ai Hab Hz Hp Hm) as (E0 & E1 & E2).
  unfold the_part, hs_part, hs_fields. cbn [p_dTE p_dTM p_rTE p_rTM p_air nth]. rewrite E0, E1, E2.
  assert (ET : tsp (hs_geo off an zs zr res ai) = tsm (hs_geo off an (- zs) zr res ai)) by (rewrite geo_mirror; reflexivity). rewrite ET. unfold rc. rewrite !RtoC_mult. ring.
Qed.
Theorem hs_mirror : forall ive kve inp ab off an zs zr eH eV dTE dTM rTE rTM a, In ab nine -> (0 <= zs + zr)%R ->
  halfspace ive kve inp Dtetm ab off an zs zr eH eV = Ok (Five dTE dTM rTE rTM a) ->
  exists dTE' dTM' rTE' rTM' a', halfspace ive kve inp Dtetm ab off an (- zs) zr eH eV = Ok (Five dTE' dTM' rTE' rTM' a') /\ rTM = map (Cmult (RtoC (mirror_sign ab))) dTM'.
Proof.
  intros ive kve inp ab off an zs zr eH eV dTE dTM rTE rTM a Hab Hz H. pose proof (hs_tetm ive kve inp ab off an zs zr eH eV) as T. pose proof (hs_tetm ive kve inp ab off an (- zs) zr eH eV) as T'.
  cbv zeta in T, T'. set (res := hs_res eH) in *. set (ai := hs_aniso eV res) in *. rewrite T in H. destruct (hs_guard inp ab (hs_geo off an zs zr res ai)) eqn:G; [discriminate|].
  assert (G' : hs_guard inp ab (hs_geo off an (- zs) zr res ai) = false). { rewrite geo_mirror. unfold hs_guard in *. cbn [rm rp rh]. rewrite (orb_comm (if Req_EM_T (rp _) 0 then true else false)). exact G. }
  rewrite G' in T'. do 5 eexists. split; [exact T'|]. destruct (guard_ok _ _ _ G) as [Hm Hp].
  assert (E : rTM = map (the_part 3) (hs_parts ive kve inp ab off an zs zr res ai)) by congruence. rewrite E.
  apply list_eqC; [rewrite !map_length, !parts_len; reflexivity|]. intros k. rewrite nth_map_mul.
  rewrite (parts_lin ive kve (the_part 3) (the_part 1) (the_part 1) (RtoC (mirror_sign ab)) (RtoC 0) inp ab off an zs zr res ai ab off an (- zs) zr res ai ab off an (- zs) zr res ai); [ring|apply part_linear..|].
  intros isr w. unfold PP. rewrite (mirror_parts ive kve isr w ab off an zs zr res ai Hab Hz Hp Hm). ring.
Qed.

(** ** No vertical field at the surface *)
Lemma surface_parts : forall ive kve isr w ab off an zs res ai, In ab [31; 32; 33]%Z -> (0 <= zs)%R ->
  let p := hs_part ive kve isr w ab off an zs 0 res ai in
  Cplus (p_dTM p) (p_rTM p) = RtoC 0 /\ p_dTE p = RtoC 0 /\ p_rTE p = RtoC 0 /\ p_air p = RtoC 0.
Proof.
  intros ive kve isr w ab off an zs res ai Hab Hz p. unfold p, hs_part, hs_fields. cbn [p_dTM p_rTM p_dTE p_rTE p_air].
  set (g := hs_geo off an zs 0 res ai).
  assert (E1 : hp g = zs). { unfold g, hs_geo. cbn [hp]. rewrite Rabs_pos_eq by lra. ring. }
  assert (E2 : hm g = zs). { unfold g, hs_geo. cbn [hm]. replace (0 - zs)%R with (- zs)%R by ring. rewrite Rabs_Ropp, Rabs_pos_eq by lra. ring. }
  assert (E3 : rsp g = rsm g). { unfold g, hs_geo in *. cbn [rsp rsm hm hp] in *. now rewrite E1, E2. }
  assert (E4 : tsp g = tsm g). { unfold g, hs_geo in *. cbn [tsp tsm rsp rsm] in *. now rewrite E3. }
  assert (E5 : hsp g = hsm g). { unfold g, hs_geo in *. cbn [hsp hsm hm hp] in *. now rewrite E1, E2. }
  assert (Ca : forall c, c = hs_coef ab g zs 0 res ai -> (s0p c = - s0m c)%R /\ (s1p c = - s1m c)%R /\ (s2p c = - s2m c)%R /\ c0p c = 0 /\ c1m c = 0 /\ c1p c = 0 /\ c2m c = 0 /\ c2p c = 0 /\ hs_air ive kve isr w ab g res = RtoC 0).
  { intros c ->. cbn [In] in Hab. destruct Hab as [<- | [<- | [<- | []]]]; unfold hs_coef, hs_air, hs_xy, hs_rev, hs_delta; cbn [inb existsb Z.eqb Pos.eqb orb];
      cbn [s0p s1p s2p s0m s1m s2m c0p c1m c1p c2m c2p]; rewrite ?E1, ?E3, ?E5; repeat split; unfold Rdiv; ring. }
  destruct (Ca _ eq_refl) as (-> & -> & -> & -> & -> & -> & -> & -> & ->). rewrite E4. unfold rc. rewrite !RtoC_opp. repeat split; ring.
Qed.
Theorem hs_surface : forall ive kve inp ab off an zs eH eV out, In ab [31; 32; 33]%Z -> (0 <= zs)%R ->
  halfspace ive kve inp Dhs ab off an zs 0 eH eV = Ok out -> exists l, out = One l /\ forall v, In v l -> v = RtoC 0.
Proof.
  intros ive kve inp ab off an zs eH eV out Hab Hz H. pose proof H as H0. unfold halfspace in H0. destruct (Req_EM_T _ 0); [discriminate|]. destruct (Req_EM_T _ 0); [discriminate|]. destruct (hs_imp0 inp ab && _); [discriminate|].
  set (ps := hs_parts _ _ _ _ _ _ _ _ _ _) in *. assert (E : out = One (map (fun p => Cplus (Cplus (p_d p) (p_r p)) (p_air p)) ps)) by congruence.
  eexists; split; [exact E|]. intros v Hv.
  set (tot := fun p : hpart => Cplus (Cplus (p_d p) (p_r p)) (p_air p)) in *.
  assert (LT : linear_part tot). { intros x y. unfold tot, part_sub. cbn [p_d p_r p_air]. ring. }
  assert (ZT : forall isr w, tot (PP ive kve isr w ab off an zs 0 (hs_res eH) (hs_aniso eV (hs_res eH))) = RtoC 0).
  { intros isr w. unfold PP. destruct (surface_parts ive kve isr w ab off an zs (hs_res eH) (hs_aniso eV (hs_res eH)) Hab Hz) as (S1 & S2 & S3 & S4).
    unfold tot. set (p := hs_part _ _ _ _ _ _ _ _ _ _ _) in *. assert (D : p_d p = Cplus (p_dTM p) (p_dTE p)) by reflexivity. assert (Rr : p_r p = Cplus (p_rTM p) (p_rTE p)) by reflexivity.
    rewrite D, Rr, S2, S3, S4. transitivity (Cplus (p_dTM p) (p_rTM p)); [ring|exact S1]. }
  destruct (In_nth _ _ (RtoC 0) Hv) as (k & _ & <-).
  assert (L := parts_lin ive kve tot tot tot (RtoC 0) (RtoC 0) inp ab off an zs 0 (hs_res eH) (hs_aniso eV (hs_res eH)) ab off an zs 0 (hs_res eH) (hs_aniso eV (hs_res eH)) ab off an zs 0 (hs_res eH) (hs_aniso eV (hs_res eH)) LT LT LT).
  unfold ps. rewrite L; [ring|]. intros isr w. rewrite ZT. ring.
Qed.

(** ** Exchange of source and receiver *)
Definition swap_code (ab : Z) : Z := (10 * (ab mod 10) + ab / 10)%Z.
Lemma coef_swap : forall ab off an zs zr res ai, In ab nine ->
  hs_coef (swap_code ab) (hs_geo off (an + PI) zr zs res ai) zr zs res ai = hs_coef ab (hs_geo off an zs zr res ai) zs zr res ai.
Proof.
  intros ab off an zs zr res ai Hab. rewrite geo_swap. cbv zeta. set (g := hs_geo off an zs zr res ai).
  unfold nine in Hab. cbn [In] in Hab.
  destruct Hab as [<- | [<- | [<- | [<- | [<- | [<- | [<- | [<- | [<- | []]]]]]]]]];
    match goal with |- context [swap_code ?k] => let v := eval vm_compute in (swap_code k) in change (swap_code k) with v end;
    unfold hs_coef, hs_xy, hs_rev, hs_delta; cbn [inb existsb Z.eqb Pos.eqb orb]; cbn [rh hm hp rsp rsm rp rm hsp hsm g_x g_y]; try reflexivity;
    rewrite ?Rmult_opp_opp, ?(Rmult_comm (g_y g) (g_x g));
    repeat match goal with |- context [(?k * - ?x * - ?y)%R] => replace (k * - x * - y)%R with (k * x * y)%R by ring end;
    repeat match goal with |- context [(?k * ?y * ?x)%R] => match y with g_y g => match x with g_x g => replace (k * y * x)%R with (k * x * y)%R by ring end end end; try reflexivity;
    f_equal; unfold Rdiv; ring.
Qed.
Lemma air_swap : forall ive kve isr w ab off an zs zr res ai, In ab nine ->
  hs_air ive kve isr w (swap_code ab) (hs_geo off (an + PI) zr zs res ai) res = hs_air ive kve isr w ab (hs_geo off an zs zr res ai) res.
Proof.
  intros ive kve isr w ab off an zs zr res ai Hab. rewrite geo_swap. cbv zeta. set (g := hs_geo off an zs zr res ai).
  unfold nine in Hab. cbn [In] in Hab.
  destruct Hab as [<- | [<- | [<- | [<- | [<- | [<- | [<- | [<- | [<- | []]]]]]]]]];
    match goal with |- context [swap_code ?k] => let v := eval vm_compute in (swap_code k) in change (swap_code k) with v end;
    unfold hs_air, hs_xy, hs_delta; cbn [inb existsb Z.eqb Pos.eqb orb]; cbn [rh g_x g_y]; try reflexivity;
    unfold hs_air_imp, hs_airwave; cbn [rh hp rp g_x g_y]; rewrite ?Rmult_opp_opp, ?(Rmult_comm (g_y g) (g_x g)); reflexivity.
Qed.
Theorem hs_exchange : forall ive kve inp sol ab off an zs zr eH eV, In ab nine ->
  halfspace ive kve inp sol (swap_code ab) off (an + PI) zr zs eH eV = halfspace ive kve inp sol ab off an zs zr eH eV.
Proof.
  intros ive kve inp sol ab off an zs zr eH eV Hab. set (res := hs_res eH). set (ai := hs_aniso eV res).
  assert (P : forall isr w, hs_part ive kve isr w (swap_code ab) off (an + PI) zr zs res ai = hs_part ive kve isr w ab off an zs zr res ai).
  { intros isr w. unfold hs_part. rewrite coef_swap, air_swap by exact Hab. rewrite geo_swap. reflexivity. }
  assert (PS : hs_parts ive kve inp (swap_code ab) off (an + PI) zr zs res ai = hs_parts ive kve inp ab off an zs zr res ai).
  { unfold hs_parts. destruct inp as [isr l|sg l].
    - apply map_ext. intros s. apply P.
    - destruct (sg =? -1)%Z; [|destruct (sg =? 1)%Z; apply map_ext; intros t; apply P].
      rewrite !(map_ext _ _ (fun t => P true (AtStep t))), !P. reflexivity. }
  assert (HI : hs_imp0 inp (swap_code ab) = hs_imp0 inp ab). { unfold hs_imp0, nine in *. cbn [In] in Hab. destruct Hab as [<- | [<- | [<- | [<- | [<- | [<- | [<- | [<- | [<- | []]]]]]]]]]; reflexivity. }
  unfold halfspace. fold res. fold ai. rewrite PS, HI, geo_swap. reflexivity.
Qed.

(** ** Rotation about the vertical axis *)
Definition dirc (a : Z) (an : R) : R := if (a =? 1)%Z then cos an else sin an.
Definition kron (a b : Z) : R := if (a =? b)%Z then 1 else 0.
Ltac two := match goal with H : (1 <= ?a <= 2)%Z |- _ => assert (a = 1 \/ a = 2)%Z by lia; clear H end.
Lemma fold_left_ext_eq : forall A B (f g : A -> B -> A) l a, (forall x y, f x y = g x y) -> fold_left f l a = fold_left g l a.
Proof. intros A B f g l. induction l as [|y l IH]; intros a H; [reflexivity|]. cbn [fold_left]. rewrite H. now apply IH. Qed.
Lemma airwave_lin : forall ive kve isr z g res k1 k2 f1 f2 d1 d2,
  hs_airwave ive kve isr z g res (k1 * f1 + k2 * f2) (k1 * d1 + k2 * d2) = Cplus (Cmult (RtoC k1) (hs_airwave ive kve isr z g res f1 d1)) (Cmult (RtoC k2) (hs_airwave ive kve isr z g res f2 d2)).
Proof.
  intros. unfold hs_airwave, rc. cbv zeta. set (P2 := Cminus (Cmult (RtoC 4) _) _). match goal with |- context [Cplus (Cplus (Cmult (Cmult (Cmult z (RtoC mu0)) (RtoC (hp g * rp g))) ?u) ?v) ?w] => set (P4 := Cplus (Cplus (Cmult (Cmult (Cmult z (RtoC mu0)) (RtoC (hp g * rp g))) u) v) w) end.
  replace ((k1 * f1 + k2 * f2) * hp g)%R with (k1 * (f1 * hp g) + k2 * (f2 * hp g))%R by ring.
  replace (3 * (k1 * f1 + k2 * f2) / rp g ^ 2 - (k1 * d1 + k2 * d2))%R with (k1 * (3 * f1 / rp g ^ 2 - d1) + k2 * (3 * f2 / rp g ^ 2 - d2))%R by (unfold Rdiv; ring).
  rewrite !RtoC_plus, !(RtoC_mult k1), !(RtoC_mult k2). unfold Cdiv. ring.
Qed.
Lemma airimp_lin : forall ive t g res k1 k2 x1 y1 x2 y2 d1 d2 x y,
  (x * y = k1 * (x1 * y1) + k2 * (x2 * y2))%R ->
  hs_air_imp ive t g res (k1 * d1 + k2 * d2) x y = Cplus (Cmult (RtoC k1) (hs_air_imp ive t g res d1 x1 y1)) (Cmult (RtoC k2) (hs_air_imp ive t g res d2 x2 y2)).
Proof.
  intros. unfold hs_air_imp, rc. cbv zeta. rewrite H.
  replace (2 * (k1 * d1 + k2 * d2 - (k1 * (x1 * y1) + k2 * (x2 * y2)) / rh g ^ 2))%R with (k1 * (2 * (d1 - x1 * y1 / rh g ^ 2)) + k2 * (2 * (d2 - x2 * y2 / rh g ^ 2)))%R by (unfold Rdiv; ring).
  replace (mu0 / (2 * res * t) * (rh g ^ 2 * (k1 * d1 + k2 * d2) - (k1 * (x1 * y1) + k2 * (x2 * y2))) - (k1 * d1 + k2 * d2))%R
    with (k1 * (mu0 / (2 * res * t) * (rh g ^ 2 * d1 - x1 * y1) - d1) + k2 * (mu0 / (2 * res * t) * (rh g ^ 2 * d2 - x2 * y2) - d2))%R by (unfold Rdiv; ring).
  rewrite !RtoC_plus, !(RtoC_mult k1), !(RtoC_mult k2). ring.
Qed.

Section Rot.
Variables (off an zs zr res ai : R).
Let G := hs_geo off 0 zs zr res ai.
Let rh2 : (rh G ^ 2 = off ^ 2)%R.
Proof. unfold G, hs_geo. cbn [rh]. rewrite sqr_sum. apply pow2_sqrt, pow2_ge_0. Qed.
Definition mixr (a b : Z) (u v : R) : R := (dirc a an * dirc b an * u + (kron a b - dirc a an * dirc b an) * v)%R.
Definition mixc (a b : Z) (u v : C) : C := Cplus (Cmult (RtoC (dirc a an * dirc b an)) u) (Cmult (RtoC (kron a b - dirc a an * dirc b an)) v).
Lemma gx0 : g_x G = off. Proof. unfold G, hs_geo. cbn [g_x]. rewrite cos_0. ring. Qed.
Lemma gy0 : g_y G = 0%R. Proof. unfold G, hs_geo. cbn [g_y]. rewrite sin_0. ring. Qed.
Lemma off0 : rh G = 0 -> off = 0%R. Proof. intros E. rewrite E in rh2. cbn [pow] in rh2. nra. Qed.

Lemma coef_rot : forall a b, (1 <= a <= 2)%Z -> (1 <= b <= 2)%Z ->
  let c := hs_coef (10 * a + b) (hs_geo off an zs zr res ai) zs zr res ai in let u := hs_coef 11 G zs zr res ai in let v := hs_coef 22 G zs zr res ai in
  s0m c = mixr a b (s0m u) (s0m v) /\ s1m c = mixr a b (s1m u) (s1m v) /\ s2m c = mixr a b (s2m u) (s2m v) /\
  s0p c = mixr a b (s0p u) (s0p v) /\ s1p c = mixr a b (s1p u) (s1p v) /\ s2p c = mixr a b (s2p u) (s2p v) /\
  c0p c = mixr a b (c0p u) (c0p v) /\ c1m c = mixr a b (c1m u) (c1m v) /\ c1p c = mixr a b (c1p u) (c1p v) /\ c2m c = mixr a b (c2m u) (c2m v) /\ c2p c = mixr a b (c2p u) (c2p v).
Proof using All.
  intros a b Ha Hb c u v. unfold c, u, v. rewrite (geo_angle off an). cbv zeta. fold G.
  assert (Ea : (a = 1 \/ a = 2)%Z) by lia. assert (Eb : (b = 1 \/ b = 2)%Z) by lia. unfold mixr.
  pose proof (sin2_cos2 an) as SC. unfold Rsqr in SC. assert (CC : (cos an * cos an = 1 - sin an * sin an)%R) by lra.
  destruct Ea as [-> | ->]; destruct Eb as [-> | ->];
    match goal with |- context [hs_coef (10 * ?p + ?q) _ _ _ _ _] => let w := eval vm_compute in (10 * p + q)%Z in change (10 * p + q)%Z with w end;
    unfold hs_coef, hs_xy, hs_delta, dirc, kron; cbn [inb existsb Z.eqb Pos.eqb orb]; cbn [rh hm hp rsp rsm rp rm hsp hsm g_x g_y]; rewrite !gx0, !gy0, !rh2;
    cbn [s0p s1p s2p s0m s1m s2m c0p c1m c1p c2m c2p];
    (destruct (Req_EM_T (rh G) 0) as [E | E]; [pose proof (off0 E) as O; destruct (Req_EM_T (hm G) 0)|]); try rewrite O; repeat split; unfold Rdiv; try ring.
Qed.
Lemma air_rot : forall ive kve isr w a b, (1 <= a <= 2)%Z -> (1 <= b <= 2)%Z ->
  hs_air ive kve isr w (10 * a + b) (hs_geo off an zs zr res ai) res = mixc a b (hs_air ive kve isr w 11 G res) (hs_air ive kve isr w 22 G res).
Proof using All.
  intros ive kve isr w a b Ha Hb. rewrite (geo_angle off an). cbv zeta. fold G. unfold mixc. set (k1 := (dirc a an * dirc b an)%R). set (k2 := (kron a b - k1)%R).
  set (g' := Build_hgeo (cos an * off) (sin an * off) (rh G) (hp G) (hm G) (hsp G) (hsm G) (rp G) (rm G) (rsp G) (rsm G) (tp G) (tm G) (tsp G) (tsm G)).
  assert (XY : exists x y d, hs_xy (10 * a + b) (g_x g') (g_y g') = (x, y) /\ hs_delta (10 * a + b) = d /\ inb (10 * a + b)%Z [11; 12; 21; 22]%Z = true /\
     (x * y = k1 * (off * off) + k2 * (0 * 0) /\ d = k1 * 1 + k2 * 1)%R).
  { assert (Ea : (a = 1 \/ a = 2)%Z) by lia. assert (Eb : (b = 1 \/ b = 2)%Z) by lia. do 3 eexists. split; [|split; [reflexivity|]].
    - unfold g'. cbn [g_x g_y]. apply surjective_pairing.
    - unfold k2, k1. destruct Ea as [-> | ->]; destruct Eb as [-> | ->]; (split; [reflexivity|]); unfold hs_xy, hs_delta, dirc, kron; cbn [Z.mul Z.add Pos.mul Pos.add Pos.succ inb existsb Z.eqb Pos.eqb orb fst snd]; split; ring. }
  destruct XY as (x & y & d & EXY & Ed & EI & E1 & E2). unfold hs_air. rewrite EXY, Ed, EI.
  unfold hs_xy, hs_delta; cbn [inb existsb Z.eqb Pos.eqb orb]. rewrite gx0, gy0.
  assert (EF : (rh g' ^ 2 * d - x * y = k1 * (rh G ^ 2 * 1 - off * off) + k2 * (rh G ^ 2 * 1 - 0 * 0))%R). { change (rh g') with (rh G). rewrite E1, E2. ring. }
  rewrite EF. destruct w as [z|t|t].
  - change (hs_airwave ive kve isr z g' res) with (hs_airwave ive kve isr z G res). rewrite E2. apply airwave_lin.
  - rewrite <- !RtoC_mult, <- RtoC_plus. f_equal. rewrite <- stehfest_linear. unfold stehfest. apply fold_left_ext_eq. intros acc k.
    assert (EK : forall z, fst (hs_airwave ive kve true z g' res (k1 * (rh G ^ 2 * 1 - off * off) + k2 * (rh G ^ 2 * 1 - 0 * 0)) d) =
      (k1 * fst (hs_airwave ive kve true z G res (rh G ^ 2 * 1 - off * off) 1) + k2 * fst (hs_airwave ive kve true z G res (rh G ^ 2 * 1 - 0 * 0) 1))%R).
    { intros z. change (hs_airwave ive kve true z g' res) with (hs_airwave ive kve true z G res). rewrite E2, airwave_lin. cbn [Cplus Cmult RtoC fst snd]. ring. }
    rewrite EK. reflexivity.
  - change (hs_air_imp ive t g' res) with (hs_air_imp ive t G res). rewrite E2. apply airimp_lin. rewrite E1. reflexivity.
Qed.
Lemma part_rot : forall ive kve isr w a b i, (1 <= a <= 2)%Z -> (1 <= b <= 2)%Z -> (i < 5)%nat ->
  the_part i (hs_part ive kve isr w (10 * a + b) off an zs zr res ai) = mixc a b (the_part i (hs_part ive kve isr w 11 off 0 zs zr res ai)) (the_part i (hs_part ive kve isr w 22 off 0 zs zr res ai)).
Proof using All.
  intros ive kve isr w a b i Ha Hb Hi. destruct (coef_rot a b Ha Hb) as (E1 & E2 & E3 & E4 & E5 & E6 & E7 & E8 & E9 & E10 & E11).
  unfold hs_part, hs_fields. cbv zeta. rewrite air_rot by assumption. fold G. rewrite E1, E2, E3, E4, E5, E6, E7, E8, E9, E10, E11. rewrite (geo_angle off an). cbv zeta. fold G. cbn [tsm tsp tm tp].
  unfold the_part. cbn [p_dTE p_dTM p_rTE p_rTM p_air]. unfold mixr, mixc, rc.
  do 5 (destruct i as [|i]; [cbn [nth]; rewrite ?RtoC_plus, ?RtoC_mult, ?RtoC_minus, ?RtoC_mult; ring|]). lia.
Qed.
(** components with one or two vertical directions *)
Definition coef_is (k : R) (c u : hcoef) : Prop :=
  (s0m c = k * s0m u /\ s1m c = k * s1m u /\ s2m c = k * s2m u /\ s0p c = k * s0p u /\ s1p c = k * s1p u /\ s2p c = k * s2p u /\
   c0p c = k * c0p u /\ c1m c = k * c1m u /\ c1p c = k * c1p u /\ c2m c = k * c2m u /\ c2p c = k * c2p u)%R.
Lemma coef_rotz : forall a, (1 <= a <= 2)%Z ->
  coef_is (dirc a an) (hs_coef (10 * a + 3) (hs_geo off an zs zr res ai) zs zr res ai) (hs_coef 13 G zs zr res ai) /\
  coef_is (dirc a an) (hs_coef (30 + a) (hs_geo off an zs zr res ai) zs zr res ai) (hs_coef 31 G zs zr res ai) /\
  coef_is 1 (hs_coef 33 (hs_geo off an zs zr res ai) zs zr res ai) (hs_coef 33 G zs zr res ai).
Proof using All.
  intros a Ha. assert (Ea : (a = 1 \/ a = 2)%Z) by lia. rewrite (geo_angle off an). cbv zeta. fold G. unfold coef_is, hs_coef, hs_rev, hs_xy, hs_delta, dirc.
  destruct Ea as [-> | ->]; cbn [Z.mul Z.add Pos.mul Pos.add Pos.succ inb existsb Z.eqb Pos.eqb orb]; cbn [s0p s1p s2p s0m s1m s2m c0p c1m c1p c2m c2p rh hm hp rsp rsm rp rm hsp hsm g_x g_y];
    rewrite !gx0; repeat split; unfold Rdiv; ring.
Qed.
Lemma fields_is : forall k c u w i, (i < 4)%nat -> coef_is k c u ->
  forall g' air air', (tsm g' = tsm G /\ tsp g' = tsp G /\ tm g' = tm G /\ tp g' = tp G)%R -> the_part i (hs_fields c g' w air) = Cmult (RtoC k) (the_part i (hs_fields u G w air')).
Proof using All.
  intros k c u w i Hi (E1 & E2 & E3 & E4 & E5 & E6 & E7 & E8 & E9 & E10 & E11) g' air air' (T1 & T2 & T3 & T4). unfold hs_fields, the_part. cbn [p_dTE p_dTM p_rTE p_rTM p_air].
  rewrite T1, T2, T3, T4, E1, E2, E3, E4, E5, E6, E7, E8, E9, E10, E11. unfold rc. rewrite !RtoC_mult. do 4 (destruct i as [|i]; [cbn [nth]; ring|]). lia.
Qed.
Lemma air_vertical : forall ive kve isr w ab g', inb ab [11; 12; 21; 22]%Z = false -> hs_air ive kve isr w ab g' res = RtoC 0.
Proof using All. intros. unfold hs_air. rewrite H. destruct (hs_xy ab (g_x g') (g_y g')). reflexivity. Qed.
Lemma part_rotz : forall ive kve isr w a i, (1 <= a <= 2)%Z -> (i < 5)%nat ->
  the_part i (hs_part ive kve isr w (10 * a + 3) off an zs zr res ai) = Cmult (RtoC (dirc a an)) (the_part i (hs_part ive kve isr w 13 off 0 zs zr res ai)) /\
  the_part i (hs_part ive kve isr w (30 + a) off an zs zr res ai) = Cmult (RtoC (dirc a an)) (the_part i (hs_part ive kve isr w 31 off 0 zs zr res ai)) /\
  the_part i (hs_part ive kve isr w 33 off an zs zr res ai) = the_part i (hs_part ive kve isr w 33 off 0 zs zr res ai).
Proof using All.
  intros ive kve isr w a i Ha Hi. destruct (coef_rotz a Ha) as (K1 & K2 & K3).
  assert (GT : let g' := hs_geo off an zs zr res ai in (tsm g' = tsm G /\ tsp g' = tsp G /\ tm g' = tm G /\ tp g' = tp G)%R) by (rewrite (geo_angle off an); repeat split).
  assert (I1 : inb (10 * a + 3)%Z [11; 12; 21; 22]%Z = false) by (assert (Ea : (a = 1 \/ a = 2)%Z) by lia; destruct Ea as [-> | ->]; reflexivity).
  assert (I2 : inb (30 + a)%Z [11; 12; 21; 22]%Z = false) by (assert (Ea : (a = 1 \/ a = 2)%Z) by lia; destruct Ea as [-> | ->]; reflexivity).
  unfold hs_part. cbv zeta. fold G. rewrite (air_vertical ive kve isr w _ _ I1), (air_vertical ive kve isr w _ _ I2), !air_vertical by reflexivity.
  destruct (Nat.eq_dec i 4) as [-> | Hn].
  - unfold the_part, hs_fields. cbn [p_air nth]. repeat split; ring.
  - assert (Hi4 : (i < 4)%nat) by lia. split; [apply (fields_is _ _ _ _ _ Hi4 K1 _ _ _ GT)|]. split; [apply (fields_is _ _ _ _ _ Hi4 K2 _ _ _ GT)|].
    rewrite (fields_is _ _ _ w _ Hi4 K3 _ (RtoC 0) (RtoC 0) GT). ring.
Qed.
End Rot.
Lemma guard_rot : forall inp ab1 ab2 off an zs zr res ai, inb ab1 [11; 12; 21; 22]%Z = inb ab2 [11; 12; 21; 22]%Z ->
  hs_guard inp ab1 (hs_geo off an zs zr res ai) = hs_guard inp ab2 (hs_geo off 0 zs zr res ai).
Proof. intros inp ab1 ab2 off an zs zr res ai H. rewrite (geo_angle off an). unfold hs_guard, hs_imp0. cbn [rm rp rh]. destruct inp as [isr l|sg l]; [reflexivity|]. rewrite H. reflexivity. Qed.
Definition parts_of (o : hs_out) (i k : nat) : C := nth k (nth i (out_parts o) []) (RtoC 0).
Lemma parts_of_five : forall (ps : list hpart) i k, (i < 5)%nat -> parts_of (Five (map (the_part 0) ps) (map (the_part 1) ps) (map (the_part 2) ps) (map (the_part 3) ps) (map (the_part 4) ps)) i k = nth k (map (the_part i) ps) (RtoC 0).
Proof. intros ps i k Hi. unfold parts_of, out_parts. do 5 (destruct i as [|i]; [reflexivity|]). lia. Qed.
Ltac okeq H := match type of H with Ok ?u = Ok ?z => assert (z = u) by congruence; subst z end.
Theorem hs_rotation : forall ive kve inp off an zs zr eH eV a b inline broad o, (1 <= a <= 2)%Z -> (1 <= b <= 2)%Z ->
  halfspace ive kve inp Dtetm 11 off 0 zs zr eH eV = Ok inline -> halfspace ive kve inp Dtetm 22 off 0 zs zr eH eV = Ok broad ->
  halfspace ive kve inp Dtetm (10 * a + b) off an zs zr eH eV = Ok o ->
  forall i k, (i < 5)%nat -> parts_of o i k = Cplus (Cmult (RtoC (dirc a an * dirc b an)) (parts_of inline i k)) (Cmult (RtoC (kron a b - dirc a an * dirc b an)) (parts_of broad i k)).
Proof.
  intros ive kve inp off an zs zr eH eV a b inline broad o Ha Hb H1 H2 H3 i k Hi. rewrite hs_tetm in H1, H2, H3. cbv zeta in H1, H2, H3.
  destruct (hs_guard inp 11 _); [discriminate|]. destruct (hs_guard inp 22 _); [discriminate|]. destruct (hs_guard inp (10 * a + b) _); [discriminate|].
  okeq H1. okeq H2. okeq H3. rewrite !parts_of_five by exact Hi. apply parts_lin; try apply part_linear. intros isr w. unfold PP. apply part_rot; assumption.
Qed.
Theorem hs_rotation_vertical : forall ive kve inp off an zs zr eH eV a oh ov u v, (1 <= a <= 2)%Z ->
  halfspace ive kve inp Dtetm 13 off 0 zs zr eH eV = Ok oh -> halfspace ive kve inp Dtetm 31 off 0 zs zr eH eV = Ok ov ->
  halfspace ive kve inp Dtetm (10 * a + 3) off an zs zr eH eV = Ok u -> halfspace ive kve inp Dtetm (30 + a) off an zs zr eH eV = Ok v ->
  (forall i k, (i < 5)%nat -> parts_of u i k = Cmult (RtoC (dirc a an)) (parts_of oh i k) /\ parts_of v i k = Cmult (RtoC (dirc a an)) (parts_of ov i k)) /\
  halfspace ive kve inp Dtetm 33 off an zs zr eH eV = halfspace ive kve inp Dtetm 33 off 0 zs zr eH eV.
Proof.
  intros ive kve inp off an zs zr eH eV a oh ov u v Ha H1 H2 H3 H4. split.
  - intros i k Hi. rewrite hs_tetm in H1, H2, H3, H4. cbv zeta in H1, H2, H3, H4.
    destruct (hs_guard inp 13 _); [discriminate|]. destruct (hs_guard inp 31 _); [discriminate|]. destruct (hs_guard inp (10 * a + 3) _); [discriminate|]. destruct (hs_guard inp (30 + a) _); [discriminate|].
    okeq H1. okeq H2. okeq H3. okeq H4. rewrite !parts_of_five by exact Hi.
    set (res := hs_res eH) in *. set (ai := hs_aniso eV res) in *. split.
    + rewrite (parts_lin ive kve (the_part i) (the_part i) (the_part i) (RtoC (dirc a an)) (RtoC 0) inp _ off an zs zr res ai 13 off 0 zs zr res ai 13 off 0 zs zr res ai); [ring|apply part_linear..|].
      intros isr w. unfold PP. destruct (part_rotz off an zs zr res ai ive kve isr w a i Ha Hi) as (E & _ & _). rewrite E. ring.
    + rewrite (parts_lin ive kve (the_part i) (the_part i) (the_part i) (RtoC (dirc a an)) (RtoC 0) inp _ off an zs zr res ai 31 off 0 zs zr res ai 31 off 0 zs zr res ai); [ring|apply part_linear..|].
      intros isr w. unfold PP. destruct (part_rotz off an zs zr res ai ive kve isr w a i Ha Hi) as (_ & E & _). rewrite E. ring.
  - rewrite !hs_tetm. cbv zeta. set (res := hs_res eH). set (ai := hs_aniso eV res). rewrite (guard_rot inp 33 33) by reflexivity. destruct (hs_guard inp 33 _); [reflexivity|].
    assert (E : forall i, (i < 5)%nat -> map (the_part i) (hs_parts ive kve inp 33 off an zs zr res ai) = map (the_part i) (hs_parts ive kve inp 33 off 0 zs zr res ai)).
    { intros i Hi. apply list_eqC; [rewrite !map_length, !parts_len; reflexivity|]. intros k.
      rewrite (parts_lin ive kve (the_part i) (the_part i) (the_part i) (RtoC 1) (RtoC 0) inp 33 off an zs zr res ai 33 off 0 zs zr res ai 33 off 0 zs zr res ai); [ring|apply part_linear..|].
      intros isr w. unfold PP. destruct (part_rotz off an zs zr res ai ive kve isr w a i Ha Hi) as (_ & _ & E). rewrite E. ring. }
    rewrite !E by lia. reflexivity.
Qed.
