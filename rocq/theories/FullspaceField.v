(** The full-space solution solves Maxwell's equations away from the source. *)

From Coq Require Import ZArith Reals List Bool Lia Lra Psatz QArith.
From Coquelicot Require Import Coquelicot.
From Verif Require Import PyBase CBase ODE Utils UtilsAb UtilsFreq Fullspace FullspaceThm FullspaceMaxwell FullspaceCurl.
Import ListNotations.
Local Open Scope R_scope.
Local Open Scope C_scope.
Local Open Scope res_scope.

(** ** Parameters in the closed first quadrant (sigma + i omega eps, i omega mu, or real) *)
Definition quad1 (c : C) : Prop := 0 <= fst c /\ 0 <= snd c /\ c <> RtoC 0.

Lemma quad1_norm : forall c, quad1 c -> 0 < fst c * fst c + snd c * snd c.
Proof.
  intros [a b] [A [B N]]. cbn [fst snd] in *.
  assert (a <> 0 \/ b <> 0)%R as [H | H].
  { destruct (Req_dec a 0) as [-> |]; [right|left; assumption]. intros ->. apply N. reflexivity. }
  - assert (0 < a) by lra. nra.
  - assert (0 < b) by lra. nra.
Qed.

Lemma Csqrt_nz : forall w, w <> RtoC 0 -> Csqrt w <> RtoC 0.
Proof. intros w H E. apply H. rewrite <- (Csqrt_sqr w), E. apply Cmult_0_l. Qed.

Lemma Csqrt_upper : forall w, 0 <= snd w -> 0 <= snd (Csqrt w).
Proof.
  intros w H. unfold Csqrt. cbn [snd]. destruct (Rlt_dec (snd w) 0); [lra|]. pose proof (sqrt_pos ((Cmod w - fst w) / 2)). lra.
Qed.

Lemma Csqrt_wedge : forall w, 0 <= fst w -> Rabs (snd (Csqrt w)) <= fst (Csqrt w).
Proof.
  intros w H. pose proof (Csqrt_Re_ge_0 w) as P. pose proof (Csqrt_sqr w) as Sq.
  apply (f_equal fst) in Sq. unfold Cmult in Sq. cbn [fst snd] in Sq. destruct (Csqrt w) as [c d]. cbn [fst snd] in *. rewrite <- (Rabs_right c) by lra. apply Rsqr_le_abs_0. unfold Rsqr. lra.
Qed.

(** a product of two roots is the principal root of the product *)
Lemma root_prod : forall u s k : C, 0 <= fst u -> 0 <= snd u -> Rabs (snd s) <= fst s -> 0 <= fst k -> 0 <= snd k ->
  k <> RtoC 0 -> Cmult (Cmult u s) (Cmult u s) = Cmult k k -> Cmult u s = k.
Proof.
  intros u s k A B D P Q N E.
  assert (F : Cmult (Cminus (Cmult u s) k) (Cplus (Cmult u s) k) = RtoC 0).
  { transitivity (Cminus (Cmult (Cmult u s) (Cmult u s)) (Cmult k k)); [ring|]. rewrite E. ring. }
  destruct (Ceq_dec (Cplus (Cmult u s) k) (RtoC 0)) as [Z|NZ].
  - exfalso. apply N. destruct u as [a b], s as [c d], k as [p q]. unfold Cmult, Cplus in Z. cbn [fst snd] in *.
    assert (Z1 := f_equal fst Z). assert (Z2 := f_equal snd Z). cbn [fst snd RtoC] in Z1, Z2.
    pose proof (Rle_abs d). pose proof (Rle_abs (- d)). rewrite Rabs_Ropp in *.
    assert (0 <= a * (c + d)) by (apply Rmult_le_pos; lra). assert (0 <= b * (c - d)) by (apply Rmult_le_pos; lra).
    assert (p + q <= 0) by nra. replace p with 0%R by lra. replace q with 0%R by lra. reflexivity.
  - assert (Z : Cminus (Cmult u s) k = RtoC 0).
    { transitivity (Cmult (Cmult (Cminus (Cmult u s) k) (Cplus (Cmult u s) k)) (Cinv (Cplus (Cmult u s) k))); [field; exact NZ|]. rewrite F. ring. }
    transitivity (Cplus (Cminus (Cmult u s) k) k); [ring|]. rewrite Z. ring.
Qed.

Lemma quad1_mult_im : forall a b, quad1 a -> quad1 b -> 0 <= snd (Cmult a b).
Proof. intros [a b] [c d] [A [B _]] [P [Q _]]. cbn [fst snd Cmult] in *. assert (0 <= a * d) by (apply Rmult_le_pos; lra). assert (0 <= b * c) by (apply Rmult_le_pos; lra). lra. Qed.

Lemma quad1_div_re : forall a b, quad1 a -> quad1 b -> 0 <= fst (Cdiv a b).
Proof.
  intros [a b] [c d] [A [B _]] HB. pose proof (quad1_norm _ HB) as N. destruct HB as [P [Q _]]. unfold Cdiv, Cinv, Cmult. cbn [fst snd] in *.
  replace (a * (c / (c ^ 2 + d ^ 2)) - b * (- d / (c ^ 2 + d ^ 2)))%R with ((a * c + b * d) / (c * c + d * d))%R by (field; lra).
  apply Rdiv_le_0_compat; [|lra]. assert (0 <= a * c) by (apply Rmult_le_pos; lra). assert (0 <= b * d) by (apply Rmult_le_pos; lra). lra.
Qed.

Lemma Cmult_nz : forall a b, a <> RtoC 0 -> b <> RtoC 0 -> Cmult a b <> RtoC 0.
Proof. intros. now apply Cmult_neq_0. Qed.
Lemma Cdiv_nz : forall a b, a <> RtoC 0 -> b <> RtoC 0 -> Cdiv a b <> RtoC 0.
Proof. intros a b A B E. apply A. transitivity (Cmult (Cdiv a b) b); [field; exact B|]. rewrite E. ring. Qed.

(** ** The roots of the code in terms of k and the anisotropy roots *)
Section Roots.
Variables eH eV zH : C.
Hypothesis QeH : quad1 eH. Hypothesis QeV : quad1 eV. Hypothesis QzH : quad1 zH.
Let s := Csqrt (Cdiv eH eV).
Let k := Csqrt (Cmult eH zH).

Lemma s_nz : s <> RtoC 0.
Proof. apply Csqrt_nz, Cdiv_nz; [apply QeH|apply QeV]. Qed.
Lemma k_nz : k <> RtoC 0.
Proof. apply Csqrt_nz, Cmult_nz; [apply QeH|apply QzH]. Qed.

Lemma lGam_ks : fs_lGam eV zH = Cdiv k s.
Proof.
  assert (E : Cmult (fs_lGam eV zH) s = k).
  { unfold fs_lGam. apply root_prod.
    - apply Csqrt_Re_ge_0.
    - apply Csqrt_upper, quad1_mult_im; assumption.
    - apply Csqrt_wedge, quad1_div_re; assumption.
    - apply Csqrt_Re_ge_0.
    - apply Csqrt_upper, quad1_mult_im; assumption.
    - apply k_nz.
    - transitivity (Cmult (Cmult (Csqrt (Cmult zH eV)) (Csqrt (Cmult zH eV))) (Cmult s s)); [ring|].
      unfold s, k. rewrite !Csqrt_sqr. field. apply QeV. }
  rewrite <- E. field. apply s_nz.
Qed.

Lemma root_zeta_eta : Cmult (Csqrt zH) (Csqrt eH) = k.
Proof.
  apply root_prod.
  - apply Csqrt_Re_ge_0.
  - apply Csqrt_upper, QzH.
  - apply Csqrt_wedge, QeH.
  - apply Csqrt_Re_ge_0.
  - apply Csqrt_upper, quad1_mult_im; assumption.
  - apply k_nz.
  - transitivity (Cmult (Cmult (Csqrt zH) (Csqrt zH)) (Cmult (Csqrt eH) (Csqrt eH))); [ring|].
    unfold k. rewrite !Csqrt_sqr. ring.
Qed.

Lemma eV_s : eV = Cdiv eH (Cmult s s).
Proof.
  unfold s. rewrite Csqrt_sqr. field. split; [apply QeV|apply QeH].
Qed.
Lemma zH_k : zH = Cdiv (Cmult k k) eH.
Proof. unfold k. rewrite Csqrt_sqr. field. apply QeH. Qed.

Lemma fs_R_rad : forall off zs zr x y, (off * off = x * x + y * y)%R -> fs_R off zs zr eH eV = rad (Cmult s s) x y (zr - zs).
Proof.
  intros off zs zr x y E. unfold fs_R, rad, s. rewrite Csqrt_sqr. apply (f_equal Csqrt). rewrite E.
  replace ((zs - zr) * (zs - zr))%R with ((zr - zs) * (zr - zs))%R by ring. unfold Cdiv. ring.
Qed.
End Roots.

(** ** The code's components as sums of the two modes *)
Definition modeE (eH eV zH zV : C) (b a : Z) (x y z : R) : C :=
  let s := Csqrt (Cdiv eH eV) in let s' := Csqrt (Cdiv zH zV) in let k := Csqrt (Cmult eH zH) in
  Cplus (at_pt s k (tmE s k eH) b a x y z) (at_pt s' k (teE s' k eH) b a x y z).
Definition modeH (eH eV zH zV : C) (b a : Z) (x y z : R) : C :=
  let s := Csqrt (Cdiv eH eV) in let s' := Csqrt (Cdiv zH zV) in let k := Csqrt (Cmult eH zH) in
  Cplus (at_pt s k (tmH s k) b a x y z) (at_pt s' k (teH s' k) b a x y z).

Lemma c4pi_nz : c4pi <> RtoC 0.
Proof. unfold c4pi. intros W. apply (f_equal fst) in W. simpl in W. pose proof PI_RGT_0. lra. Qed.

Ltac dosub := repeat match goal with |- context [(?a =? ?b)%Z] => let v := eval compute in (a =? b)%Z in change (a =? b)%Z with v
  | |- context [(?a <? ?b)%Z] => let v := eval compute in (a <? b)%Z in change (a <? b)%Z with v end; cbn [andb orb]; cbv iota zeta.

Lemma RtoC_inv' : forall r, r <> 0%R -> RtoC (/ r) = Cinv (RtoC r).
Proof. intros. now rewrite RtoC_inv. Qed.

Theorem fs_modes : forall rdt a b off angle zs zr eH eV zH zV,
  quad1 eH -> quad1 eV -> quad1 zH -> quad1 zV -> off <> 0%R ->
  (1 <= a <= 3)%Z -> (1 <= b <= 3)%Z ->
  let x := (cos angle * off)%R in let y := (sin angle * off)%R in
  fs_comp rdt false a b off angle zs zr eH eV zH zV = Ok (Cdiv (modeE eH eV zH zV b a x y (zr - zs)) c4pi) /\
  ((a <> 3 \/ b <> 3)%Z ->
   fs_comp rdt false (a + 3) b off angle zs zr eH eV zH zV = Ok (Cdiv (modeH eH eV zH zV b a x y (zr - zs)) c4pi)).
Proof.
  intros rdt a b off angle zs zr eH eV zH zV QeH QeV QzH QzV Hoff Ha Hb x y.
  assert (HO : (off * off = x * x + y * y)%R).
  { unfold x, y. pose proof (sin2_cos2 angle) as SC. unfold Rsqr in SC.
    transitivity (off * off * (sin angle * sin angle + cos angle * cos angle))%R; [rewrite SC; ring|ring]. }
  assert (HP : 0 < x * x + y * y) by (rewrite <- HO; apply Rsqr_pos_lt; exact Hoff).
  unfold fs_comp, fullspace. fold x y.
  assert (RT : forall w, quad1 w -> fs_root rdt false w = Ok (Csqrt w)).
  { intros w [Q _]. unfold fs_root. destruct rdt; [|reflexivity]. destruct (Rlt_dec (fst w) 0); [lra|reflexivity]. }
  assert (RZ := RT zH QzH). assert (RE := RT eH QeH). clear RT.
  unfold fs_gin, fs_term. rewrite RZ, RE. cbn [bind]. clear RZ RE.
  replace ((- x) * (- x))%R with (x * x)%R by ring.
  pose proof (fs_R_rad eH eV off zs zr x y HO) as T1. pose proof (fs_R_rad zH zV off zs zr x y HO) as T2.
  pose proof (fs_R_rad eH eV off zr zs x y HO) as T3. pose proof (fs_R_rad zH zV off zr zs x y HO) as T4.
  rewrite fs_R_exch in T3. rewrite fs_R_exch in T4.
  rewrite ?(fs_R_exch off zr zs), T1, T2. clear T3 T4.
  rewrite (lGam_ks eH eV zH QeH QeV QzH), (lGam_ks zH zV eH QzH QzV QeH).
  replace (Csqrt (Cmult zH eH)) with (Csqrt (Cmult eH zH)) by (apply (f_equal Csqrt); ring).
  unfold modeE, modeH, fs_uGam.
  pose proof (root_zeta_eta eH zH QeH QzH) as T4e.
  pose proof (eV_s eH eV QeH QeV) as EV. pose proof (eV_s zH zV QzH QzV) as ZV. pose proof (zH_k eH zH QeH) as ZH.
  pose proof (Csqrt_nz eH (proj2 (proj2 QeH))) as NE.
  assert (SE : Csqrt zH = Cdiv (Cmult (Csqrt (Cmult eH zH)) (Csqrt eH)) eH).
  { rewrite <- T4e. transitivity (Cdiv (Cmult (Csqrt zH) (Cmult (Csqrt eH) (Csqrt eH))) eH); [rewrite Csqrt_sqr; field; apply QeH|field; apply QeH]. }
  rewrite SE. clear SE T4e T1 T2.
  pose proof (s_nz eH eV QeH QeV) as NS. pose proof (s_nz zH zV QzH QzV) as NS'. pose proof (k_nz eH zH QeH QzH) as NK.
  assert (NR : rad (Cmult (Csqrt (Cdiv eH eV)) (Csqrt (Cdiv eH eV))) x y (zr - zs) <> RtoC 0).
  { apply rad_neq; [|exact HP]. rewrite Csqrt_sqr. now apply quad1_div_re. }
  assert (NR' : rad (Cmult (Csqrt (Cdiv zH zV)) (Csqrt (Cdiv zH zV))) x y (zr - zs) <> RtoC 0).
  { apply rad_neq; [|exact HP]. rewrite Csqrt_sqr. now apply quad1_div_re. }
  unfold at_pt, irad, att, irho.
  set (s := Csqrt (Cdiv eH eV)) in *. set (s' := Csqrt (Cdiv zH zV)) in *. set (k := Csqrt (Cmult eH zH)) in *.
  set (Rr := rad (Cmult s s) x y (zr - zs)) in *. set (R' := rad (Cmult s' s') x y (zr - zs)) in *.
  set (G := Cexp (Copp (Cmult (Cdiv k s) Rr))). set (G' := Cexp (Copp (Cmult (Cdiv k s') R'))).
  set (q := Csqrt eH) in *.
  assert (HE : eH <> RtoC 0) by apply QeH.
  clearbody G G' R' Rr s s' k q. 
  clear QeH QeV QzH QzV. subst eV zV zH. clear Hoff.
  clearbody x y.
  assert (PN : Cplus (Cmult (RtoC x) (RtoC x)) (Cmult (RtoC y) (RtoC y)) <> RtoC 0).
  { rewrite <- !RtoC_mult, <- RtoC_plus. now apply rho_neq. }
  assert (PN' : (x * x + y * y <> 0)%R) by lra.
  pose proof c4pi_nz as N4.
  split.
  - assert (P : In (a, b) (list_prod [1; 2; 3]%Z [1; 2; 3]%Z)).
    { apply in_prod.
      - assert (a = 1 \/ a = 2 \/ a = 3)%Z as [-> | [-> | ->]] by lia; simpl; tauto.
      - assert (b = 1 \/ b = 2 \/ b = 3)%Z as [-> | [-> | ->]] by lia; simpl; tauto. }
    clear Ha Hb HP. 
    each P; checkab; cbv iota; inbs; apply f_equal;
    rewrite ?HO; unfold tmE, teE, hor, radt, dlt, cax; dosub; unfold Rdiv, Rminus;
    rewrite ?RtoC_mult, ?RtoC_plus, ?RtoC_opp, ?RtoC_mult, ?RtoC_plus, ?RtoC_opp, ?(RtoC_inv' (x * x + y * y)) by exact PN';
    rewrite ?RtoC_plus, ?RtoC_mult, ?RtoC_plus, ?RtoC_opp, ?c3s, ?c2s.
    all: try solve [field; repeat split; assumption].
  - intros HN. assert (P : In (a, b) [(1, 1); (1, 2); (1, 3); (2, 1); (2, 2); (2, 3); (3, 1); (3, 2)]%Z).
    { assert (a = 1 \/ a = 2 \/ a = 3)%Z as [-> | [-> | ->]] by lia; assert (b = 1 \/ b = 2 \/ b = 3)%Z as [-> | [-> | ->]] by lia; simpl; try tauto; exfalso; lia. }
    clear Ha Hb HP HN.
    each P; checkab; cbv iota; inbs; cbn [bind]; apply f_equal;
    rewrite ?HO; unfold tmH, teH, par2; dosub; unfold Rdiv, Rminus;
    rewrite ?RtoC_mult, ?RtoC_plus, ?RtoC_opp, ?RtoC_mult, ?RtoC_plus, ?RtoC_opp, ?(RtoC_inv' (x * x + y * y)) by exact PN';
    rewrite ?RtoC_plus, ?RtoC_mult, ?RtoC_plus, ?RtoC_opp, ?c3s, ?c2s, ?cm1.
    all: try solve [field; repeat split; assumption].
Qed.

(** ** Cartesian coordinates *)
Lemma dC_shift : forall f c t d, is_deriveC f (t - c)%R d -> is_deriveC (fun u => f (u - c)%R) t d.
Proof.
  intros f c t d [A B]. split.
  - apply (is_derive_ext (fun u => fst (f (u - c)%R))); [reflexivity|].
    replace (fst d) with (1 * fst d)%R by ring. apply (is_derive_comp (fun v => fst (f v)) (fun u => (u - c)%R)); [exact A|]. auto_derive; trivial; ring.
  - apply (is_derive_ext (fun u => snd (f (u - c)%R))); [reflexivity|].
    replace (snd d) with (1 * snd d)%R by ring. apply (is_derive_comp (fun v => snd (f v)) (fun u => (u - c)%R)); [exact B|]. auto_derive; trivial; ring.
Qed.

Lemma curl_shift : forall F xs ys zs x y z c1 c2 c3, curl_is F (x - xs) (y - ys) (z - zs) c1 c2 c3 ->
  curl_is (fun i x y z => F i (x - xs)%R (y - ys)%R (z - zs)%R) x y z c1 c2 c3.
Proof.
  intros F xs ys zs x y z c1 c2 c3 [[d1 [e1 [A1 [B1 E1]]]] [[d2 [e2 [A2 [B2 E2]]]] [d3 [e3 [A3 [B3 E3]]]]]].
  split; [|split].
  - exists d1, e1. split; [exact (dC_shift (fun t => F 3%Z (x - xs)%R t (z - zs)%R) ys y d1 A1)|]. split; [exact (dC_shift (fun t => F 2%Z (x - xs)%R (y - ys)%R t) zs z e1 B1)|exact E1].
  - exists d2, e2. split; [exact (dC_shift (fun t => F 1%Z (x - xs)%R (y - ys)%R t) zs z d2 A2)|]. split; [exact (dC_shift (fun t => F 3%Z t (y - ys)%R (z - zs)%R) xs x e2 B2)|exact E2].
  - exists d3, e3. split; [exact (dC_shift (fun t => F 2%Z t (y - ys)%R (z - zs)%R) xs x d3 A3)|]. split; [exact (dC_shift (fun t => F 1%Z (x - xs)%R t (z - zs)%R) ys y e3 B3)|exact E3].
Qed.

Lemma rho_loc_x : forall x y, 0 < x * x + y * y -> locally x (fun t => 0 < t * t + y * y).
Proof.
  intros x y H. assert (C0 : continuous (fun t : R => (t * t + y * y)%R) x).
  { apply (ex_derive_continuous (fun t : R => (t * t + y * y)%R) x). auto_derive; trivial. }
  apply (C0 (fun v => 0 < v)). apply (open_gt 0); exact H.
Qed.
Lemma rho_loc_y : forall x y, 0 < x * x + y * y -> locally y (fun t => 0 < x * x + t * t).
Proof. intros x y H. apply (filter_imp (fun t => 0 < t * t + x * x)); [intros; lra|]. apply rho_loc_x. lra. Qed.

Lemma curl_ext : forall F G x y z c1 c2 c3, 0 < x * x + y * y ->
  (forall i x y z, (1 <= i <= 3)%Z -> 0 < x * x + y * y -> G i x y z = F i x y z) -> curl_is F x y z c1 c2 c3 -> curl_is G x y z c1 c2 c3.
Proof.
  intros F G x y z c1 c2 c3 H E [[d1 [e1 [A1 [B1 E1]]]] [[d2 [e2 [A2 [B2 E2]]]] [d3 [e3 [A3 [B3 E3]]]]]].
  assert (LZ : locally z (fun _ => 0 < x * x + y * y)) by (apply filter_forall; intros; exact H).
  pose proof (rho_loc_x x y H) as LX. pose proof (rho_loc_y x y H) as LY.
  split; [|split].
  - exists d1, e1. split; [|split; [|exact E1]].
    + apply (is_deriveC_ext_loc (fun t => F 3%Z x t z)); [|exact A1]. apply (filter_imp _ _ (fun t P => eq_sym (E 3%Z x t z ltac:(lia) P)) LY).
    + apply (is_deriveC_ext_loc (fun t => F 2%Z x y t)); [|exact B1]. apply (filter_imp _ _ (fun t P => eq_sym (E 2%Z x y t ltac:(lia) P)) LZ).
  - exists d2, e2. split; [|split; [|exact E2]].
    + apply (is_deriveC_ext_loc (fun t => F 1%Z x y t)); [|exact A2]. apply (filter_imp _ _ (fun t P => eq_sym (E 1%Z x y t ltac:(lia) P)) LZ).
    + apply (is_deriveC_ext_loc (fun t => F 3%Z t y z)); [|exact B2]. apply (filter_imp _ _ (fun t P => eq_sym (E 3%Z t y z ltac:(lia) P)) LX).
  - exists d3, e3. split; [|split; [|exact E3]].
    + apply (is_deriveC_ext_loc (fun t => F 2%Z t y z)); [|exact A3]. apply (filter_imp _ _ (fun t P => eq_sym (E 2%Z t y z ltac:(lia) P)) LX).
    + apply (is_deriveC_ext_loc (fun t => F 1%Z x t z)); [|exact B3]. apply (filter_imp _ _ (fun t P => eq_sym (E 1%Z x t z ltac:(lia) P)) LY).
Qed.

Lemma curl_modeE : forall eH eV zH zV b x y z, quad1 eH -> quad1 eV -> quad1 zH -> quad1 zV -> (1 <= b <= 3)%Z -> 0 < x * x + y * y ->
  curl_is (modeE eH eV zH zV b) x y z (Copp (Cmult zH (modeH eH eV zH zV b 1 x y z)))
    (Copp (Cmult zH (modeH eH eV zH zV b 2 x y z))) (Copp (Cmult zV (modeH eH eV zH zV b 3 x y z))) /\
  curl_is (modeH eH eV zH zV b) x y z (Cmult eH (modeE eH eV zH zV b 1 x y z))
    (Cmult eH (modeE eH eV zH zV b 2 x y z)) (Cmult eV (modeE eH eV zH zV b 3 x y z)).
Proof.
  intros eH eV zH zV b x y z QeH QeV QzH QzV Hb Hr.
  pose proof (eV_s eH eV QeH QeV) as EV. pose proof (eV_s zH zV QzH QzV) as ZV. pose proof (zH_k eH zH QeH) as ZH.
  pose proof (s_nz eH eV QeH QeV) as NS. pose proof (s_nz zH zV QzH QzV) as NS'. pose proof (k_nz eH zH QeH QzH) as NK.
  assert (P1 : 0 <= fst (Cmult (Csqrt (Cdiv eH eV)) (Csqrt (Cdiv eH eV)))) by (rewrite Csqrt_sqr; now apply quad1_div_re).
  assert (P2 : 0 <= fst (Cmult (Csqrt (Cdiv zH zV)) (Csqrt (Cdiv zH zV)))) by (rewrite Csqrt_sqr; now apply quad1_div_re).
  unfold modeE, modeH. cbv zeta.
  set (s := Csqrt (Cdiv eH eV)) in *. set (s' := Csqrt (Cdiv zH zV)) in *. set (k := Csqrt (Cmult eH zH)) in *.
  assert (HE : eH <> RtoC 0) by apply QeH.
  clearbody s s' k. clear QeH QeV QzH QzV. subst eV zV zH.
  assert (TM : curl_is (at_pt s k (tmE s k eH) b) x y z (Copp (Cmult (zh k eH) (at_pt s k (tmH s k) b 1 x y z))) (Copp (Cmult (zh k eH) (at_pt s k (tmH s k) b 2 x y z))) (RtoC 0) /\
    curl_is (at_pt s k (tmH s k) b) x y z (Cmult eH (at_pt s k (tmE s k eH) b 1 x y z)) (Cmult eH (at_pt s k (tmE s k eH) b 2 x y z)) (Cmult (Cdiv eH (Cmult s s)) (at_pt s k (tmE s k eH) b 3 x y z))).
  { assert (b = 1 \/ b = 2 \/ b = 3)%Z as [-> | [-> | ->]] by lia; split.
    - now apply curl_tmE_1. - now apply curl_tmH_1. - now apply curl_tmE_2. - now apply curl_tmH_2. - now apply curl_tmE_3. - now apply curl_tmH_3. }
  assert (TE : curl_is (at_pt s' k (teE s' k eH) b) x y z (Copp (Cmult (zh k eH) (at_pt s' k (teH s' k) b 1 x y z))) (Copp (Cmult (zh k eH) (at_pt s' k (teH s' k) b 2 x y z))) (Copp (Cmult (Cdiv (zh k eH) (Cmult s' s')) (at_pt s' k (teH s' k) b 3 x y z))) /\
    curl_is (at_pt s' k (teH s' k) b) x y z (Cmult eH (at_pt s' k (teE s' k eH) b 1 x y z)) (Cmult eH (at_pt s' k (teE s' k eH) b 2 x y z)) (RtoC 0)).
  { assert (b = 1 \/ b = 2 \/ b = 3)%Z as [-> | [-> | ->]] by lia; split.
    - now apply curl_teE_1. - now apply curl_teH_1. - now apply curl_teE_2. - now apply curl_teH_2. - now apply curl_teE_3. - now apply curl_teH_3. }
  destruct TM as [T1 T2], TE as [T3 T4]. unfold zh in *.
  assert (M3 : at_pt s k (tmH s k) b 3 x y z = RtoC 0).
  { assert (b = 1 \/ b = 2 \/ b = 3)%Z as [-> | [-> | ->]] by lia; reflexivity. }
  assert (N3 : at_pt s' k (teE s' k eH) b 3 x y z = RtoC 0).
  { assert (b = 1 \/ b = 2 \/ b = 3)%Z as [-> | [-> | ->]] by lia; reflexivity. }
  split.
  - pose proof (curl_plus _ _ _ _ _ _ _ _ _ _ _ T1 T3) as T. 
    match type of T with curl_is _ _ _ _ ?a ?b ?c => match goal with |- curl_is _ _ _ _ ?a' ?b' ?c' =>
      assert (Ea : a = a') by ring; assert (Eb : b = b') by ring; assert (Ec : c = c') by (rewrite M3; ring) end end.
    rewrite <- Ea, <- Eb, <- Ec. exact T.
  - pose proof (curl_plus _ _ _ _ _ _ _ _ _ _ _ T2 T4) as T. 
    match type of T with curl_is _ _ _ _ ?a ?b ?c => match goal with |- curl_is _ _ _ _ ?a' ?b' ?c' =>
      assert (Ea : a = a') by ring; assert (Eb : b = b') by ring; assert (Ec : c = c') by (rewrite N3; ring) end end.
    rewrite <- Ea, <- Eb, <- Ec. exact T.
Qed.
