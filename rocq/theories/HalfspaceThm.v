(** The half-space solution: the parts add up (C38), the diffusive full space
    'dfs' is [fullspace] with real conductivities (C57). *)

From Coq Require Import ZArith Reals List Bool Lia Lra Psatz QArith.
From Coquelicot Require Import Coquelicot.
From Verif Require Import PyBase CBase Fullspace FullspaceThm FullspaceField Halfspace.
Import ListNotations.
Local Open Scope R_scope.
Local Open Scope C_scope.
Local Open Scope res_scope.

(** ** C38: parts *)
Definition add2 (a b : list C) : list C := map (fun p => Cplus (fst p) (snd p)) (combine a b).

Lemma add2_map : forall A (f g : A -> C) l, add2 (map f l) (map g l) = map (fun a => Cplus (f a) (g a)) l.
Proof. induction l as [|a l IH]; [reflexivity|]. unfold add2 in *. cbn [map combine]. rewrite IH. reflexivity. Qed.

Definition hs_ok (ive kve : Z -> C -> C) (inp : hs_in) (ab : Z) (off angle zsrc zrec : R) (etaH etaV : C) : Prop :=
  exists out, halfspace ive kve inp Dhs ab off angle zsrc zrec etaH etaV = Ok out.

Lemma part_d : forall ive kve inp ab off angle zsrc zrec res aniso p,
  In p (hs_parts ive kve inp ab off angle zsrc zrec res aniso) ->
  p_d p = Cplus (p_dTE p) (p_dTM p) /\ p_r p = Cplus (p_rTE p) (p_rTM p).
Proof.
  intros ive kve inp ab off angle zsrc zrec res aniso p H. unfold hs_parts in H.
  assert (W : forall isr w, let q := hs_part ive kve isr w ab off angle zsrc zrec res aniso in
    p_d q = Cplus (p_dTE q) (p_dTM q) /\ p_r q = Cplus (p_rTE q) (p_rTM q)).
  { intros isr w q. unfold q, hs_part, hs_fields. cbn [p_d p_dTE p_dTM p_r p_rTE p_rTM]. split; ring. }
  destruct inp as [isr l|signal l].
  - apply in_map_iff in H as [s [<- _]]. apply W.
  - destruct (signal =? -1)%Z.
    + rewrite map_app in H; cbn [map] in H; rewrite last_last, removelast_last in H. apply in_map_iff in H as [q [<- Hq]]. apply in_map_iff in Hq as [t [<- _]].
      unfold part_sub. cbn [p_d p_dTE p_dTM p_r p_rTE p_rTM].
      destruct (W true (AtStep t)) as [-> ->]. destruct (W true (AtStep (10 ^ 4)%R)) as [-> ->]. split; ring.
    + destruct (signal =? 1)%Z; apply in_map_iff in H as [t [<- _]]; apply W.
Qed.

Theorem hs_sums : forall ive kve inp ab off angle zsrc zrec etaH etaV,
  let H sol := halfspace ive kve inp sol ab off angle zsrc zrec etaH etaV in
  forall out, H Dhs = Ok out ->
  exists dTE dTM rTE rTM a, H Dtetm = Ok (Five dTE dTM rTE rTM a) /\
    H Dsplit = Ok (Three (add2 dTE dTM) (add2 rTE rTM) a) /\
    H Dfs = Ok (One (add2 dTE dTM)) /\
    H Dhs = Ok (One (add2 (add2 (add2 dTE dTM) (add2 rTE rTM)) a)).
Proof.
  intros ive kve inp ab off angle zsrc zrec etaH etaV H out HO. unfold H, halfspace in *.
  destruct (Req_EM_T _ 0); [discriminate|]. destruct (Req_EM_T _ 0); [discriminate|].
  destruct (hs_imp0 inp ab && _); [discriminate|].
  set (ps := hs_parts _ _ _ _ _ _ _ _ _ _).
  do 5 eexists. split; [reflexivity|].
  assert (ED : add2 (map p_dTE ps) (map p_dTM ps) = map p_d ps).
  { rewrite add2_map. apply map_ext_in. intros p Hp. symmetry. apply (part_d _ _ _ _ _ _ _ _ _ _ _ Hp). }
  assert (ER : add2 (map p_rTE ps) (map p_rTM ps) = map p_r ps).
  { rewrite add2_map. apply map_ext_in. intros p Hp. symmetry. apply (part_d _ _ _ _ _ _ _ _ _ _ _ Hp). }
  rewrite ED, ER, add2_map, add2_map. repeat split; reflexivity.
Qed.

(** signal -1 is the switch-on response at 10^4 s minus the switch-on response *)
Definition out_parts (o : hs_out) : list (list C) :=
  match o with One a => [a] | Three d r a => [d; r; a] | Five a b c d e => [a; b; c; d; e] end.

Theorem hs_switch_off : forall ive kve times sol ab off angle zsrc zrec etaH etaV,
  let H signal ts := halfspace ive kve (HTime signal ts) sol ab off angle zsrc zrec etaH etaV in
  forall out, H (-1)%Z times = Ok out ->
  exists on dc, H 1%Z times = Ok on /\ H 1%Z [(10 ^ 4)%R] = Ok dc /\
    List.length (out_parts on) = List.length (out_parts out) /\ List.length (out_parts dc) = List.length (out_parts out) /\
    forall i, (i < List.length (out_parts out))%nat ->
      exists c, nth i (out_parts dc) [] = [c] /\
      nth i (out_parts out) [] = map (fun v => Cminus c v) (nth i (out_parts on) []).
Proof.
  intros ive kve times sol ab off angle zsrc zrec etaH etaV H out HO. unfold H, halfspace in *.
  destruct (Req_EM_T _ 0); [discriminate|]. destruct (Req_EM_T _ 0); [discriminate|].
  cbn [hs_imp0] in *. change (negb (-1 =? -1)%Z) with false in HO. change (negb (1 =? 1)%Z) with false. rewrite !andb_false_r || idtac. cbn [andb] in *.
  apply (f_equal (fun r => match r with Ok v => v | Err _ => One [] end)) in HO.
  do 2 eexists. split; [reflexivity|]. split; [reflexivity|].
  subst out. unfold hs_parts. change (-1 =? -1)%Z with true. change (1 =? -1)%Z with false. change (1 =? 1)%Z with true. cbv iota zeta.
  rewrite map_app; cbn [map]; rewrite last_last, removelast_last.
  destruct sol; cbn [out_parts List.length]; (split; [reflexivity|split; [reflexivity|]]); intros i Hi;
    repeat (destruct i as [|i]; [eexists; split; [reflexivity|]; cbn [nth]; rewrite !map_map; apply map_ext; intros t; unfold part_sub; cbn [p_d p_dTE p_dTM p_r p_rTE p_rTM p_air]; try reflexivity; ring|]); cbn [List.length] in Hi; lia.
Qed.

(** every solution has one value per frequency or time *)
Theorem hs_lengths : forall ive kve inp sol ab off angle zsrc zrec etaH etaV out l,
  halfspace ive kve inp sol ab off angle zsrc zrec etaH etaV = Ok out -> In l (out_parts out) ->
  List.length l = match inp with HFreq _ s => List.length s | HTime _ t => List.length t end.
Proof.
  intros ive kve inp sol ab off angle zsrc zrec etaH etaV out l HO HI. unfold halfspace in HO.
  destruct (Req_EM_T _ 0); [discriminate|]. destruct (Req_EM_T _ 0); [discriminate|]. destruct (hs_imp0 inp ab && _); [discriminate|].
  apply (f_equal (fun r => match r with Ok v => v | Err _ => One [] end)) in HO. subst out.
  assert (L : List.length (hs_parts ive kve inp ab off angle zsrc zrec (hs_res etaH) (hs_aniso etaV (hs_res etaH))) =
    match inp with HFreq _ s => List.length s | HTime _ t => List.length t end).
  { unfold hs_parts. destruct inp as [isr s|signal t]; [apply map_length|].
    destruct (signal =? -1)%Z; [|destruct (signal =? 1)%Z; apply map_length].
    rewrite map_app. cbn [map]. rewrite removelast_last, !map_length. reflexivity. }
  rewrite <- L. destruct sol; cbn [out_parts In] in HI; repeat (destruct HI as [<- | HI]; [apply map_length|]); destruct HI.
Qed.

(** ** C57: the direct field is the full space *)
Lemma Csqrt_scale : forall a z, (0 <= a)%R -> Csqrt (Cmult (RtoC a) z) = Cmult (RtoC (sqrt a)) (Csqrt z).
Proof.
  intros a [x y] Ha. destruct (Req_dec a 0) as [->|N].
  - rewrite sqrt_0, !Cmult_0_l. rewrite Csqrt_RtoC by lra. now rewrite sqrt_0.
  - assert (Pa : (0 < a)%R) by lra. unfold Csqrt. rewrite Cmod_mult, Cmod_R, Rabs_right by lra.
    set (M := Cmod (x, y)). assert (M0 : (0 <= M + x)%R /\ (0 <= M - x)%R).
    { pose proof (fst_le_Cmod (x, y)) as H. cbn [fst] in H. fold M in H. unfold Rabs in H. destruct (Rcase_abs x); lra. }
    unfold Cmult, RtoC. cbn [fst snd]. apply injective_projections; cbn [fst snd].
    + replace ((a * M + (a * x - 0 * y)) / 2)%R with (a * ((M + x) / 2))%R by field. rewrite sqrt_mult by lra. ring.
    + replace ((a * M - (a * x - 0 * y)) / 2)%R with (a * ((M - x) / 2))%R by field. rewrite sqrt_mult by lra.
      destruct (Rlt_dec (a * y + 0 * x) 0) as [L|L], (Rlt_dec y 0) as [L'|L']; try ring; exfalso; nra.
Qed.

Lemma RtoC_inv0 : forall r, RtoC (/ r) = Cinv (RtoC r).
Proof.
  intros r. destruct (Req_dec r 0) as [->|N]; [rewrite Cinv_0, Rinv_0; reflexivity|now apply RtoC_inv'].
Qed.

Lemma mu0_pos : (0 < mu0)%R.
Proof. unfold mu0. pose proof PI_RGT_0. apply Rmult_lt_0_compat; [|assumption]. apply Rdiv_lt_0_compat; [lra|]. apply pow_lt. lra. Qed.

(** push RtoC to the atoms *)
Ltac rc_push := unfold Rdiv, Rminus; cbn [pow]; repeat first [rewrite RtoC_mult | rewrite RtoC_plus | rewrite RtoC_opp | rewrite RtoC_inv0].

Section Direct.
Variables (rho sigV : R) (off angle zs zr : R) (s : C) (rdt : bool).
Hypothesis Hrho : (0 < rho)%R.
Hypothesis HsV : (0 < sigV)%R.
Hypothesis Hoff : (0 < off)%R.
Hypothesis Hs : quad1 s.

Let l := (1 / sqrt (sigV * rho))%R.
Let x := (cos angle * off)%R.
Let y := (sin angle * off)%R.
Let g := hs_geo off angle zs zr rho l.
Let m := sqrt mu0.
Let w := sqrt rho.
Let q := Csqrt s.
Let dz := (zr - zs)%R.

Lemma l_pos : (0 < l)%R.
Proof. unfold l. apply Rdiv_lt_0_compat; [lra|]. apply sqrt_lt_R0. now apply Rmult_lt_0_compat. Qed.
Lemma w_pos : (0 < w)%R. Proof. apply sqrt_lt_R0. exact Hrho. Qed.
Lemma m_pos : (0 < m)%R. Proof. apply sqrt_lt_R0. exact mu0_pos. Qed.
Lemma mm : (m * m)%R = mu0. Proof. apply sqrt_sqrt. pose proof mu0_pos. lra. Qed.
Lemma ww : (w * w)%R = rho. Proof. apply sqrt_sqrt. lra. Qed.
Lemma qq : Cmult q q = s. Proof. apply Csqrt_sqr. Qed.
Lemma ll : (l * l)%R = (/ (sigV * rho))%R.
Proof.
  unfold l. assert (0 < sigV * rho)%R by now apply Rmult_lt_0_compat.
  assert (E := sqrt_sqrt (sigV * rho) ltac:(lra)). assert (P := sqrt_lt_R0 _ H). rewrite <- E at 3. field. lra.
Qed.
Lemma sigV_l : sigV = (/ (w * w * (l * l)))%R.
Proof. rewrite ww, ll. assert (0 < sigV * rho)%R by now apply Rmult_lt_0_compat. field. split; lra. Qed.
Lemma off2 : (x * x + y * y = off * off)%R.
Proof.
  unfold x, y. pose proof (sin2_cos2 angle) as SC. unfold Rsqr in SC.
  transitivity (off * off * (sin angle * sin angle + cos angle * cos angle))%R; [ring|rewrite SC; ring].
Qed.
Lemma g_rh : rh g = off.
Proof. unfold g, hs_geo. cbn [rh]. fold x y. replace (x ^ 2 + y ^ 2)%R with (off * off)%R by (rewrite <- off2; ring). apply sqrt_square. lra. Qed.
Lemma sq_abs : forall t : R, (Rabs t * Rabs t = t * t)%R.
Proof. intros t. rewrite <- Rabs_mult. apply Rabs_right. apply Rle_ge, Rle_0_sqr. Qed.
Lemma g_rm : rm g = sqrt (off * off + dz * dz).
Proof. unfold g, hs_geo. cbn [rm]. fold x y. f_equal. rewrite <- off2. unfold dz. pose proof (sq_abs (zr - zs)). simpl. lra. Qed.
Lemma g_rsm : rsm g = sqrt (off * off + dz * dz * (l * l)).
Proof.
  unfold g, hs_geo. cbn [rsm]. fold x y. f_equal. rewrite <- off2. unfold dz. pose proof (sq_abs (zr - zs)) as E.
  replace ((Rabs (zr - zs) * l) ^ 2)%R with (Rabs (zr - zs) * Rabs (zr - zs) * (l * l))%R by ring. rewrite E. ring.
Qed.
Lemma rm_pos : (0 < rm g)%R.
Proof. rewrite g_rm. apply sqrt_lt_R0. pose proof (Rle_0_sqr dz) as A. unfold Rsqr in A. assert (0 < off * off)%R by now apply Rmult_lt_0_compat. lra. Qed.
Lemma rsm_pos : (0 < rsm g)%R.
Proof.
  rewrite g_rsm. apply sqrt_lt_R0. pose proof (Rle_0_sqr (dz * l)) as A. unfold Rsqr in A. assert (0 < off * off)%R by now apply Rmult_lt_0_compat.
  replace (dz * dz * (l * l))%R with (dz * l * (dz * l))%R by ring. lra.
Qed.
Lemma g_hsm2 : (hsm g ^ 2 = dz * dz * (l * l))%R.
Proof. unfold g, hs_geo. cbn [hsm]. pose proof (sq_abs (zr - zs)) as E. replace ((Rabs (zr - zs) * l) ^ 2)%R with (Rabs (zr - zs) * Rabs (zr - zs) * (l * l))%R by ring. rewrite E. reflexivity. Qed.

Let sH := RtoC (/ rho).
Let sV := RtoC sigV.
Let ze := Cmult s (RtoC mu0).

Lemma d_RTM : fs_R off zs zr sH sV = RtoC (rsm g).
Proof.
  unfold fs_R, sH, sV. rewrite g_rsm.
  assert (E : Cplus (RtoC (off * off)) (Cdiv (Cmult (RtoC ((zs - zr) * (zs - zr))) (RtoC (/ rho))) (RtoC sigV)) = RtoC (off * off + dz * dz * (l * l))).
  { unfold Cdiv. rewrite <- RtoC_inv0, <- !RtoC_mult, <- RtoC_plus. apply f_equal. rewrite ll. unfold dz. field. split; lra. }
  rewrite E. apply Csqrt_RtoC. pose proof (Rle_0_sqr (dz * l)) as A. unfold Rsqr in A. assert (0 < off * off)%R by now apply Rmult_lt_0_compat.
  replace (dz * dz * (l * l))%R with (dz * l * (dz * l))%R by ring. lra.
Qed.
Lemma ze_nz : ze <> RtoC 0.
Proof. destruct Hs as [_ [_ H]]. apply Cmult_nz; [exact H|]. apply RtoC_neq_0. pose proof mu0_pos. lra. Qed.
Lemma d_RTE : fs_R off zs zr ze ze = RtoC (rm g).
Proof.
  unfold fs_R. rewrite g_rm.
  assert (E : Cplus (RtoC (off * off)) (Cdiv (Cmult (RtoC ((zs - zr) * (zs - zr))) ze) ze) = RtoC (off * off + dz * dz)).
  { rewrite RtoC_plus. replace (dz * dz)%R with ((zs - zr) * (zs - zr))%R by (unfold dz; ring). field. exact ze_nz. }
  rewrite E. apply Csqrt_RtoC. pose proof (Rle_0_sqr dz) as A. unfold Rsqr in A. assert (0 < off * off)%R by now apply Rmult_lt_0_compat. lra.
Qed.
Lemma sqrt_u : forall u v : R, (0 <= v)%R -> (v * v)%R = u -> sqrt u = v.
Proof. intros u v Hv <-. now apply sqrt_square. Qed.
Lemma d_lTM : fs_lGam sV ze = Cmult (RtoC (m / (w * l))) q.
Proof.
  unfold fs_lGam, ze, sV. replace (Cmult (Cmult s (RtoC mu0)) (RtoC sigV)) with (Cmult (RtoC (mu0 * sigV)) s) by (rewrite RtoC_mult; ring).
  pose proof mu0_pos. pose proof m_pos. pose proof w_pos. pose proof l_pos.
  rewrite Csqrt_scale by (apply Rmult_le_pos; lra). f_equal. apply f_equal. apply sqrt_u.
  - apply Rlt_le, Rdiv_lt_0_compat; [lra|]. now apply Rmult_lt_0_compat.
  - rewrite sigV_l, <- mm. field. split; lra.
Qed.
Lemma d_lTE : fs_lGam ze sH = Cmult (RtoC (m / w)) q.
Proof.
  unfold fs_lGam, ze, sH. replace (Cmult (RtoC (/ rho)) (Cmult s (RtoC mu0))) with (Cmult (RtoC (mu0 * / rho)) s) by (rewrite RtoC_mult; ring).
  pose proof mu0_pos. pose proof m_pos. pose proof w_pos.
  rewrite Csqrt_scale. 2: { apply Rmult_le_pos; [lra|]. apply Rlt_le, Rinv_0_lt_compat. lra. } f_equal. apply f_equal. apply sqrt_u.
  - apply Rlt_le, Rdiv_lt_0_compat; lra.
  - rewrite <- ww, <- mm. field. lra.
Qed.
Lemma d_lTM' : fs_lGam ze sH = Cmult (RtoC (m / w)) q. Proof. exact d_lTE. Qed.
Lemma d_vTM : Csqrt (Cdiv sH sV) = RtoC l.
Proof.
  unfold sH, sV, Cdiv. rewrite <- RtoC_inv0, <- RtoC_mult. pose proof l_pos.
  assert (E : (/ rho * / sigV = l * l)%R) by (rewrite ll; field; split; lra). rewrite E.
  rewrite Csqrt_RtoC by (apply Rmult_le_pos; lra). apply f_equal, sqrt_square. lra.
Qed.
Lemma d_vTE : Csqrt (Cdiv ze ze) = RtoC 1.
Proof. replace (Cdiv ze ze) with (RtoC 1) by (field; exact ze_nz). rewrite Csqrt_RtoC by lra. now rewrite sqrt_1. Qed.
Lemma d_sz : fs_root rdt false ze = Ok (Cmult (RtoC m) q).
Proof.
  assert (E : Csqrt ze = Cmult (RtoC m) q).
  { unfold ze. rewrite Cmult_comm. pose proof mu0_pos. now rewrite Csqrt_scale by lra. }
  unfold fs_root. rewrite <- E. destruct rdt; [|reflexivity]. destruct (Rlt_dec (fst ze) 0) as [L|]; [|reflexivity].
  exfalso. destruct Hs as [A _]. unfold ze, Cmult, RtoC in L. cbn [fst snd] in L. pose proof mu0_pos. nra.
Qed.
Lemma d_se : fs_root rdt false sH = Ok (RtoC (/ w)).
Proof.
  pose proof w_pos. assert (0 < / rho)%R by now apply Rinv_0_lt_compat.
  assert (E : Csqrt sH = RtoC (/ w)).
  { unfold sH. rewrite Csqrt_RtoC by lra. apply f_equal, sqrt_u; [apply Rlt_le, Rinv_0_lt_compat; lra|]. rewrite <- ww. field. lra. }
  unfold fs_root. rewrite <- E. destruct rdt; [|reflexivity]. destruct (Rlt_dec (fst sH) 0) as [L|]; [|reflexivity].
  exfalso. unfold sH in L. cbn [fst RtoC] in L. lra.
Qed.
Lemma d_f0s : hs_f0 (AtS s) (tsm g) = Cexp (Copp (Cmult (Cmult (RtoC (m / (w * l))) q) (RtoC (rsm g)))).
Proof.
  cbn [hs_f0]. apply (f_equal Cexp). change (tsm g) with (mu0 * (rsm g) ^ 2 / (rho * l ^ 2 * 4))%R.
  pose proof mu0_pos. pose proof m_pos. pose proof w_pos. pose proof l_pos. pose proof rsm_pos.
  assert (E : (mu0 * (rsm g) ^ 2 / (rho * l ^ 2 * 4) = (m * rsm g / (2 * w * l)) * (m * rsm g / (2 * w * l)))%R).
  { rewrite <- mm, <- ww. field. split; lra. }
  rewrite E. rewrite (Cmult_comm s). rewrite Csqrt_scale by apply Rle_0_sqr. rewrite sqrt_square.
  2: { apply Rlt_le, Rdiv_lt_0_compat; [|apply Rmult_lt_0_compat; lra]. now apply Rmult_lt_0_compat. }
  fold q. replace (m * rsm g / (2 * w * l))%R with (/ 2 * (m / (w * l) * rsm g))%R by (field; split; lra).
  rewrite !RtoC_mult. replace (RtoC (-2)) with (Copp (RtoC 2)) by (rewrite <- RtoC_opp; reflexivity). rewrite RtoC_inv0. field.
  apply RtoC_neq_0. lra.
Qed.
Lemma d_f0 : hs_f0 (AtS s) (tm g) = Cexp (Copp (Cmult (Cmult (RtoC (m / w)) q) (RtoC (rm g)))).
Proof.
  cbn [hs_f0]. apply (f_equal Cexp). change (tm g) with (mu0 * (rm g) ^ 2 / (rho * 4))%R.
  pose proof mu0_pos. pose proof m_pos. pose proof w_pos. pose proof rm_pos.
  assert (E : (mu0 * (rm g) ^ 2 / (rho * 4) = (m * rm g / (2 * w)) * (m * rm g / (2 * w)))%R).
  { rewrite <- mm, <- ww. field. lra. }
  rewrite E. rewrite (Cmult_comm s). rewrite Csqrt_scale by apply Rle_0_sqr. rewrite sqrt_square.
  2: { apply Rlt_le, Rdiv_lt_0_compat; [|lra]. now apply Rmult_lt_0_compat. }
  fold q. replace (m * rm g / (2 * w))%R with (/ 2 * (m / w * rm g))%R by (field; lra).
  rewrite !RtoC_mult. replace (RtoC (-2)) with (Copp (RtoC 2)) by (rewrite <- RtoC_opp; reflexivity). rewrite RtoC_inv0. field.
  apply RtoC_neq_0. lra.
Qed.
Lemma d_sq : sqrt (mu0 * rho) = (m * w)%R.
Proof. unfold m, w. apply sqrt_mult; [pose proof mu0_pos; lra|lra]. Qed.

Lemma two : RtoC 2 = Cplus (RtoC 1) (RtoC 1). Proof. rewrite <- RtoC_plus. apply f_equal. ring. Qed.
Lemma three : RtoC 3 = Cplus (RtoC 1) (Cplus (RtoC 1) (RtoC 1)). Proof. rewrite <- !RtoC_plus. apply f_equal. ring. Qed.

Theorem hs_direct_fs : forall a b air, (1 <= a <= 3)%Z -> (1 <= b <= 3)%Z ->
  fs_comp rdt false a b off angle zs zr sH sV ze ze =
  Ok (p_d (hs_fields (hs_coef (10 * a + b) g zs zr rho l) g (AtS s) air)).
Proof.
  intros a b air Ha Hb.
  unfold hs_fields. cbn [p_d]. unfold hs_f2, hs_f1. rewrite d_f0s, d_f0. fold q.
  set (e1 := Cexp (Copp (Cmult (Cmult (RtoC (m / (w * l))) q) (RtoC (rsm g))))).
  set (e2 := Cexp (Copp (Cmult (Cmult (RtoC (m / w)) q) (RtoC (rm g))))).
  unfold hs_coef. rewrite d_sq, g_rh. destruct (Req_EM_T off 0) as [Z0|_]; [exfalso; lra|].
  change (g_x g) with x. change (g_y g) with y.
  assert (FS : forall ab, fullspace rdt false off angle zs zr sH sV ze ze ab false false = fs_gin rdt false false off x y zs zr sH sV ze ze ab) by reflexivity.
  assert (Pm := m_pos). assert (Pw := w_pos). assert (Pl := l_pos). assert (P1 := rsm_pos). assert (P2 := rm_pos). assert (PP := PI_RGT_0).
  assert (Q0 : q <> RtoC 0) by (apply Csqrt_nz; apply Hs).
  assert (CA : forall n, RtoC n <> RtoC 0 <-> n <> 0%R) by (intros n; split; [intros A B; apply A; now rewrite B|apply RtoC_neq_0]).
  assert (N1 : RtoC (rsm g) <> RtoC 0) by (apply RtoC_neq_0; lra).
  assert (N2 : RtoC (rm g) <> RtoC 0) by (apply RtoC_neq_0; lra).
  assert (N3 : RtoC off <> RtoC 0) by (apply RtoC_neq_0; lra).
  assert (N4 : RtoC m <> RtoC 0) by (apply RtoC_neq_0; lra).
  assert (N5 : RtoC w <> RtoC 0) by (apply RtoC_neq_0; lra).
  assert (N6 : RtoC l <> RtoC 0) by (apply RtoC_neq_0; lra).
  assert (N7 : RtoC PI <> RtoC 0) by (apply RtoC_neq_0; lra).
  assert (N8 : RtoC 4 <> RtoC 0) by (apply RtoC_neq_0; lra).
  assert (N10 : RtoC 1 <> RtoC 0) by (apply RtoC_neq_0; lra).
  assert (S3 : (zs - zr = - dz)%R) by (unfold dz; ring).
  assert (Es : s = Cmult q q) by (symmetry; apply qq).
  unfold fs_comp.
  assert (a = 1 \/ a = 2 \/ a = 3)%Z as Ea by lia. assert (b = 1 \/ b = 2 \/ b = 3)%Z as Eb by lia.
  destruct Ea as [-> | [-> | ->]]; destruct Eb as [-> | [-> | ->]];
  (match goal with |- bind ?c _ = _ => let v := eval vm_compute in c in change c with v end); cbn [bind]; rewrite FS;
  unfold fs_gin, fs_uGam; rewrite d_RTM, d_RTE, d_lTM, d_lTE, d_vTM, d_vTE, d_sz, d_se; cbn [bind];
  fold e1 e2; 
  unfold hs_delta, hs_xy, hs_rev;
  repeat match goal with |- context [(10 * ?u + ?v)%Z] => let k := eval compute in (10 * u + v)%Z in change (10 * u + v)%Z with k end;
  inbs;
  repeat match goal with |- context [Z.eqb ?u ?v] => let k := eval compute in (Z.eqb u v) in change (Z.eqb u v) with k end; cbv iota zeta;
  cbn [s0m s1m s2m c1m c2m]; fold dz; rewrite ?g_hsm2, ?S3;
  apply f_equal; unfold rc, c4pi, sH, sV, ze; rewrite ?sigV_l, <- ?ww, <- ?mm, Es; rc_push; rewrite ?three, ?two; clearbody e1 e2.
  all: try (field; repeat split; assumption).
Qed.
End Direct.
