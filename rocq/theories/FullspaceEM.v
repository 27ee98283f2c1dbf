(** Maxwell's equations for the full-space solution in Cartesian coordinates, and
    the closed form for isotropic media. *)

From Coq Require Import ZArith Reals List Bool Lia Lra Psatz QArith.
From Coquelicot Require Import Coquelicot.
From Verif Require Import PyBase CBase ODE Utils UtilsAb UtilsFreq Fullspace FullspaceThm FullspaceMaxwell FullspaceCurl FullspaceField.
Import ListNotations.
Local Open Scope R_scope.
Local Open Scope C_scope.
Local Open Scope res_scope.

(** Component a (receiver) for source b as [fem] evaluates it: offset and angle of
    [get_off_ang], zero for 36 and 63, and the sign decision over all frequencies. *)
Definition fs_xyz (rdt : bool) (etas zetas : list C) (a b : Z) (xs ys zs : R) (eH eV zH zV : C) (x y z : R) : res C :=
  if (a =? 3)%Z && (b =? 6)%Z || (a =? 6)%Z && (b =? 3)%Z then Ok (RtoC 0)
  else fs_comp rdt (negb rdt && fs_anyneg (3 <? b)%Z (3 <? a)%Z etas zetas) a b
         (sqrt ((x - xs) * (x - xs) + (y - ys) * (y - ys))) (atan2 (y - ys) (x - xs)) zs z eH eV zH zV.

Definition off_axis (xs ys x y : R) : Prop := 0 < (x - xs) * (x - xs) + (y - ys) * (y - ys).

(** ** Specification: curl E = - zeta H, curl H = eta E *)
Definition maxwell (eH eV zH zV : C) (E H : Z -> R -> R -> R -> C) (x y z : R) : Prop :=
  curl_is E x y z (Copp (Cmult zH (H 1%Z x y z))) (Copp (Cmult zH (H 2%Z x y z))) (Copp (Cmult zV (H 3%Z x y z))) /\
  curl_is H x y z (Cmult eH (E 1%Z x y z)) (Cmult eH (E 2%Z x y z)) (Cmult eV (E 3%Z x y z)).

Lemma anyneg_false : forall l : list C, (forall c, In c l -> 0 <= snd c) -> existsb (fun c => if Rlt_dec (snd c) 0 then true else false) l = false.
Proof.
  intros l H. apply not_true_is_false. intros E. apply existsb_exists in E. destruct E as [c [I F]]. specialize (H c I).
  destruct (Rlt_dec (snd c) 0); [lra|discriminate].
Qed.

Lemma polar : forall dx dy, (cos (atan2 dy dx) * sqrt (dx * dx + dy * dy) = dx)%R /\ (sin (atan2 dy dx) * sqrt (dx * dx + dy * dy) = dy)%R.
Proof. intros dx dy. destruct (atan2_polar dx dy) as [A [B _]]. split; rewrite Rmult_comm; assumption. Qed.

Lemma fs_xyz_electric : forall rdt etas zetas a b xs ys zs eH eV zH zV x y z,
  quad1 eH -> quad1 eV -> quad1 zH -> quad1 zV -> (forall c, In c zetas -> 0 <= snd c) ->
  (1 <= a <= 3)%Z -> (1 <= b <= 3)%Z -> off_axis xs ys x y ->
  fs_xyz rdt etas zetas a b xs ys zs eH eV zH zV x y z = Ok (Cdiv (modeE eH eV zH zV b a (x - xs) (y - ys) (z - zs)) c4pi) /\
  fs_xyz rdt etas zetas (a + 3) b xs ys zs eH eV zH zV x y z = Ok (Cdiv (modeH eH eV zH zV b a (x - xs) (y - ys) (z - zs)) c4pi).
Proof.
  intros rdt etas zetas a b xs ys zs eH eV zH zV x y z Q1 Q2 Q3 Q4 HZ Ha Hb HO. unfold off_axis in HO.
  assert (S0 : sqrt ((x - xs) * (x - xs) + (y - ys) * (y - ys)) <> 0%R) by (apply Rgt_not_eq; now apply sqrt_lt_R0).
  destruct (fs_modes rdt a b _ (atan2 (y - ys) (x - xs)) zs z eH eV zH zV Q1 Q2 Q3 Q4 S0 Ha Hb) as [M1 M2].
  destruct (polar (x - xs) (y - ys)) as [PX PY]. rewrite PX, PY in M1, M2.
  unfold fs_xyz, fs_anyneg.
  assert (Ba : (3 <? a)%Z = false) by (apply Z.ltb_ge; lia). assert (Bb : (3 <? b)%Z = false) by (apply Z.ltb_ge; lia).
  rewrite Bb, Ba, !andb_false_r. cbn [andb].
  rewrite !(anyneg_false zetas HZ), !andb_false_r.
  assert ((b =? 6)%Z = false) as -> by (apply Z.eqb_neq; lia). assert ((a =? 6)%Z = false) as -> by (apply Z.eqb_neq; lia).
  rewrite !andb_false_r. cbn [orb andb]. split; [exact M1|].
  destruct (Z.eqb_spec (a + 3) 6) as [E1|E1]; [destruct (Z.eqb_spec b 3) as [E2|E2]|]; cbn [andb].
  - assert (a = 3)%Z by lia. subst a b. apply f_equal. unfold modeH, at_pt, tmH, teH. cbv zeta. 
    unfold Cdiv. ring.
  - apply M2. right; exact E2.
  - apply M2. left; lia.
Qed.

Theorem fs_maxwell_electric : forall rdt etas zetas b xs ys zs eH eV zH zV,
  quad1 eH -> quad1 eV -> quad1 zH -> quad1 zV -> (forall c, In c zetas -> 0 <= snd c) -> (1 <= b <= 3)%Z ->
  exists E H : Z -> R -> R -> R -> C,
    (forall a x y z, (1 <= a <= 3)%Z -> off_axis xs ys x y ->
       fs_xyz rdt etas zetas a b xs ys zs eH eV zH zV x y z = Ok (E a x y z) /\
       fs_xyz rdt etas zetas (a + 3) b xs ys zs eH eV zH zV x y z = Ok (H a x y z)) /\
    (forall x y z, off_axis xs ys x y -> maxwell eH eV zH zV E H x y z).
Proof.
  intros rdt etas zetas b xs ys zs eH eV zH zV Q1 Q2 Q3 Q4 HZ Hb.
  exists (fun a x y z => Cmult (Cinv c4pi) (modeE eH eV zH zV b a (x - xs) (y - ys) (z - zs))), (fun a x y z => Cmult (Cinv c4pi) (modeH eH eV zH zV b a (x - xs) (y - ys) (z - zs))).
  split.
  - intros a x y z Ha HO. destruct (fs_xyz_electric rdt etas zetas a b xs ys zs eH eV zH zV x y z Q1 Q2 Q3 Q4 HZ Ha Hb HO) as [-> ->].
    unfold Cdiv. split; apply f_equal; ring.
  - intros x y z HO. destruct (curl_modeE eH eV zH zV b (x - xs) (y - ys) (z - zs) Q1 Q2 Q3 Q4 Hb HO) as [CE CH].
    apply curl_shift in CE. apply curl_shift in CH. 
    apply (curl_scal (Cinv c4pi)) in CE. apply (curl_scal (Cinv c4pi)) in CH.
    split.
    + match type of CE with curl_is _ _ _ _ ?a ?b ?c => match goal with |- curl_is _ _ _ _ ?a' ?b' ?c' =>
        assert (Ea : a = a') by ring; assert (Eb : b = b') by ring; assert (Ec : c = c') by ring end end.
      rewrite <- Ea, <- Eb, <- Ec. exact CE.
    + match type of CH with curl_is _ _ _ _ ?a ?b ?c => match goal with |- curl_is _ _ _ _ ?a' ?b' ?c' =>
        assert (Ea : a = a') by ring; assert (Eb : b = b') by ring; assert (Ec : c = c') by ring end end.
      rewrite <- Ea, <- Eb, <- Ec. exact CH.
Qed.

(** ** Magnetic sources, by duality *)
Lemma fs_xyz_magnetic : forall etas zetas a b xs ys zs eH eV zH zV x y z,
  In eH etas -> (forall e, In e etas -> 0 < snd e) -> 0 < snd zH ->
  (1 <= a <= 3)%Z -> (1 <= b <= 3)%Z -> 
  fs_xyz false etas zetas (a + 3) (b + 3) xs ys zs eH eV zH zV x y z = fs_xyz false zetas etas a b xs ys zs zH zV eH eV x y z /\
  rmul (RtoC (-1)) (fs_xyz false etas zetas a (b + 3) xs ys zs eH eV zH zV x y z) = fs_xyz false zetas etas (a + 3) b xs ys zs zH zV eH eV x y z.
Proof.
  intros etas zetas a b xs ys zs eH eV zH zV x y z Hin He Hz Ha Hb. unfold fs_xyz.
  assert (Ba : (3 <? a)%Z = false) by (apply Z.ltb_ge; lia). assert (Bb : (3 <? b)%Z = false) by (apply Z.ltb_ge; lia).
  assert (Ca : (3 <? a + 3)%Z = true) by (apply Z.ltb_lt; lia). assert (Cb : (3 <? b + 3)%Z = true) by (apply Z.ltb_lt; lia).
  rewrite Ba, Bb, Ca, Cb.
  assert ((b =? 6)%Z = false) as -> by (apply Z.eqb_neq; lia). assert ((a =? 6)%Z = false) as -> by (apply Z.eqb_neq; lia).
  assert ((b + 3 =? 3)%Z = false) as -> by (apply Z.eqb_neq; lia). assert ((a + 3 =? 3)%Z = false) as -> by (apply Z.eqb_neq; lia).
  rewrite !andb_false_r. cbn [andb orb negb]. split.
  - now apply fs_dual_mm.
  - assert (EE : ((a =? 3) && (b + 3 =? 6) = (a + 3 =? 6) && (b =? 3))%Z%bool).
    { destruct (Z.eqb_spec a 3), (Z.eqb_spec (b + 3) 6), (Z.eqb_spec (a + 3) 6), (Z.eqb_spec b 3); try reflexivity; lia. }
    rewrite EE, orb_false_r. destruct ((a + 3 =? 6) && (b =? 3))%Z%bool eqn:E.
    + unfold rmul; cbn [bind]. apply f_equal. ring.
    + symmetry. apply fs_dual_mixed; [|exact Ha|lia].
      split; [lia|]. apply andb_false_iff in E. split; [lia|]. intros [E1 E2].
      destruct E as [E|E]; apply Z.eqb_neq in E; lia.
Qed.

Theorem fs_maxwell_magnetic : forall etas zetas b xs ys zs eH eV zH zV,
  quad1 eH -> quad1 eV -> quad1 zH -> quad1 zV ->
  In eH etas -> (forall e, In e etas -> 0 < snd e) -> 0 < snd zH -> (4 <= b <= 6)%Z ->
  exists E H : Z -> R -> R -> R -> C,
    (forall a x y z, (1 <= a <= 3)%Z -> off_axis xs ys x y ->
       fs_xyz false etas zetas a b xs ys zs eH eV zH zV x y z = Ok (E a x y z) /\
       fs_xyz false etas zetas (a + 3) b xs ys zs eH eV zH zV x y z = Ok (H a x y z)) /\
    (forall x y z, off_axis xs ys x y -> maxwell eH eV zH zV E H x y z).
Proof.
  intros etas zetas b xs ys zs eH eV zH zV Q1 Q2 Q3 Q4 Hin He Hz Hb.
  assert (He' : forall e, In e etas -> 0 <= snd e) by (intros e I; apply Rlt_le; auto).
  destruct (fs_maxwell_electric false zetas etas (b - 3) xs ys zs zH zV eH eV Q3 Q4 Q1 Q2 He' ltac:(lia)) as [E [H [HV HM]]].
  exists (fun a x y z => Cmult (RtoC (-1)) (H a x y z)), E. split.
  - intros a x y z Ha HO. destruct (HV a x y z Ha HO) as [V1 V2].
    destruct (fs_xyz_magnetic etas zetas a (b - 3) xs ys zs eH eV zH zV x y z Hin He Hz Ha ltac:(lia)) as [D1 D2].
    replace (b - 3 + 3)%Z with b in D1, D2 by lia. rewrite D1, V1. split; [|reflexivity].
    rewrite V2 in D2. unfold rmul in D2. destruct (fs_xyz false etas zetas a b xs ys zs eH eV zH zV x y z) as [v|]; cbn [bind] in D2; [|discriminate].
    injection D2 as D2. apply f_equal. rewrite <- D2, cm1. ring.
  - intros x y z HO. destruct (HM x y z HO) as [CE CH]. split.
    + apply (curl_scal (RtoC (-1))) in CH. rewrite cm1 in *.
      match type of CH with curl_is _ _ _ _ ?a ?b ?c => match goal with |- curl_is _ _ _ _ ?a' ?b' ?c' =>
        assert (Ea : a = a') by ring; assert (Eb : b = b') by ring; assert (Ec : c = c') by ring end end.
      rewrite <- Ea, <- Eb, <- Ec. exact CH.
    + rewrite cm1. match type of CE with curl_is _ _ _ _ ?a ?b ?c => match goal with |- curl_is _ _ _ _ ?a' ?b' ?c' =>
        assert (Ea : a = a') by ring; assert (Eb : b = b') by ring; assert (Ec : c = c') by ring end end.
      rewrite <- Ea, <- Eb, <- Ec. exact CE.
Qed.

(** ** Isotropic media: the textbook dyadics *)
Definition lev (a b c : Z) : R :=
  match a, b, c with 1, 2, 3 | 2, 3, 1 | 3, 1, 2 => 1%R | 2, 1, 3 | 3, 2, 1 | 1, 3, 2 => (-1)%R | _, _, _ => 0%R end%Z.
Definition comp3 (x y z : R) (a : Z) : R := if (a =? 1)%Z then x else if (a =? 2)%Z then y else z.

(** g = exp(-gamma R)/(4 pi R) *)
Definition iso_g (gam : C) (x y z : R) : C :=
  let Rr := sqrt (x * x + y * y + z * z) in
  Cdiv (Cexp (Copp (Cmult gam (RtoC Rr)))) (RtoC (4 * PI * Rr)).

(** electric field of an electric dipole: grad div g / eta - zeta g, written out *)
Definition iso_ee (eta zeta : C) (a b : Z) (x y z : R) : C :=
  let gam := Csqrt (Cmult eta zeta) in
  let Rr := sqrt (x * x + y * y + z * z) in
  let rr := (comp3 x y z a * comp3 x y z b / (Rr * Rr))%R in
  let d := if (a =? b)%Z then 1%R else 0%R in
  Cmult (Cminus (Cdiv (Cplus (Cmult (RtoC (3 * rr - d)) (Cplus (RtoC (/ (Rr * Rr))) (Cdiv gam (RtoC Rr)))) (Cmult (Cmult gam gam) (RtoC rr))) eta)
                (Cmult zeta (RtoC d)))
        (iso_g gam x y z).

(** magnetic field of an electric dipole: curl of g *)
Definition iso_me (eta zeta : C) (a b : Z) (x y z : R) : C :=
  let gam := Csqrt (Cmult eta zeta) in
  let Rr := sqrt (x * x + y * y + z * z) in
  let w := (lev a b 1 * x + lev a b 2 * y + lev a b 3 * z)%R in
  Cmult (Cmult (RtoC (w / Rr)) (Cplus gam (RtoC (/ Rr)))) (iso_g gam x y z).

Lemma Csqrt_1 : Csqrt (RtoC 1) = RtoC 1.
Proof. rewrite Csqrt_RtoC by lra. now rewrite sqrt_1. Qed.

Lemma rad_1 : forall x y z, rad (RtoC 1) x y z = RtoC (sqrt (x * x + y * y + z * z)).
Proof.
  intros x y z. unfold rad. rewrite <- RtoC_mult, <- RtoC_plus. rewrite Csqrt_RtoC.
  - apply (f_equal RtoC), (f_equal sqrt). ring.
  - nra.
Qed.

Lemma modes_iso : forall eta zeta a b x y z, quad1 eta -> quad1 zeta -> (1 <= a <= 3)%Z -> (1 <= b <= 3)%Z -> 0 < x * x + y * y ->
  Cdiv (modeE eta eta zeta zeta b a x y z) c4pi = iso_ee eta zeta a b x y z /\
  Cdiv (modeH eta eta zeta zeta b a x y z) c4pi = iso_me eta zeta a b x y z.
Proof.
  intros eta zeta a b x y z Q1 Q2 Ha Hb HO.
  pose proof (zH_k eta zeta Q1) as ZH. pose proof (k_nz eta zeta Q1 Q2) as NK.
  assert (NE : eta <> RtoC 0) by apply Q1. assert (NZ : zeta <> RtoC 0) by apply Q2.
  unfold modeE, modeH, iso_ee, iso_me, iso_g.
  replace (Cdiv eta eta) with (RtoC 1) by (field; exact NE). replace (Cdiv zeta zeta) with (RtoC 1) by (field; exact NZ).
  rewrite Csqrt_1. set (k := Csqrt (Cmult eta zeta)) in *. clearbody k. rewrite ZH.
  unfold at_pt. cbv zeta. rewrite Cmult_1_l.
  unfold irad, att, irho. rewrite rad_1. replace (Cdiv k (RtoC 1)) with k by (field; intros W; apply (f_equal fst) in W; simpl in W; lra).
  assert (SP : 0 < sqrt (x * x + y * y + z * z)) by (apply sqrt_lt_R0; nra).
  assert (SQ : (sqrt (x * x + y * y + z * z) * sqrt (x * x + y * y + z * z) = x * x + y * y + z * z)%R) by (apply sqrt_sqrt; nra).
  set (r := sqrt (x * x + y * y + z * z)) in *. clearbody r.
  replace (4 * PI * r)%R with ((4 * PI) * r)%R by ring. rewrite RtoC_mult. fold c4pi.
  generalize (Cexp (Copp (Cmult k (RtoC r)))). intros G. pose proof c4pi_nz as N4.
  assert (RN : RtoC r <> RtoC 0) by (intros W; apply (f_equal fst) in W; simpl in W; lra).
  assert (PN : Cplus (Cmult (RtoC x) (RtoC x)) (Cmult (RtoC y) (RtoC y)) <> RtoC 0).
  { rewrite <- !RtoC_mult, <- RtoC_plus. now apply rho_neq. }
  assert (RS : Cmult (RtoC r) (RtoC r) = Cplus (Cplus (Cmult (RtoC x) (RtoC x)) (Cmult (RtoC y) (RtoC y))) (Cmult (RtoC z) (RtoC z))).
  { rewrite <- !RtoC_mult, <- !RtoC_plus. now rewrite SQ. }
  assert (RI : forall t, t <> 0%R -> RtoC (/ t) = Cinv (RtoC t)) by (intros; now rewrite RtoC_inv).
  assert (N1 : RtoC 1 <> RtoC 0) by (intros W; apply (f_equal fst) in W; simpl in W; lra).
  assert (R2 : (r * r <> 0)%R) by nra. assert (R1 : (r <> 0)%R) by lra.
  assert (P : In (a, b) (list_prod [1; 2; 3]%Z [1; 2; 3]%Z)).
  { apply in_prod.
    - assert (a = 1 \/ a = 2 \/ a = 3)%Z as [-> | [-> | ->]] by lia; simpl; tauto.
    - assert (b = 1 \/ b = 2 \/ b = 3)%Z as [-> | [-> | ->]] by lia; simpl; tauto. }
  clear Ha Hb HO Q1 Q2 ZH NZ SQ SP zeta.
  split.
  - each P; unfold tmE, teE, hor, radt, dlt, cax, comp3; dosub; unfold Rdiv, Rminus;
    rewrite ?RtoC_plus, ?RtoC_mult, ?RtoC_opp, ?RtoC_mult, ?(RI (r * r)%R R2), ?(RI r R1);
    rewrite ?RtoC_plus, ?RtoC_mult, ?RtoC_opp, ?c3s, ?c2s; unfold Cdiv, Cminus; rewrite ?Cinv_mult_any;
    idtac.
    all: try solve [field_simplify_eq; try (repeat split; assumption); unpair; ring [RS]].
  - each P; unfold tmH, teH, par2, lev; dosub; unfold Rdiv, Rminus;
    rewrite ?RtoC_plus, ?RtoC_mult, ?RtoC_opp, ?RtoC_mult, ?(RI (r * r)%R R2), ?(RI r R1);
    rewrite ?RtoC_plus, ?RtoC_mult, ?RtoC_opp, ?c3s, ?c2s, ?cm1; unfold Cdiv, Cminus; rewrite ?Cinv_mult_any.
    all: try solve [ring | field_simplify_eq; try (repeat split; assumption); unpair; ring [RS]].
Qed.

Theorem fs_isotropic : forall rdt etas zetas a b xs ys zs eta zeta x y z,
  quad1 eta -> quad1 zeta -> (forall c, In c zetas -> 0 <= snd c) ->
  (1 <= a <= 3)%Z -> (1 <= b <= 3)%Z -> off_axis xs ys x y ->
  fs_xyz rdt etas zetas a b xs ys zs eta eta zeta zeta x y z = Ok (iso_ee eta zeta a b (x - xs) (y - ys) (z - zs)) /\
  fs_xyz rdt etas zetas (a + 3) b xs ys zs eta eta zeta zeta x y z = Ok (iso_me eta zeta a b (x - xs) (y - ys) (z - zs)).
Proof.
  intros rdt etas zetas a b xs ys zs eta zeta x y z Q1 Q2 HZ Ha Hb HO.
  destruct (fs_xyz_electric rdt etas zetas a b xs ys zs eta eta zeta zeta x y z Q1 Q1 Q2 Q2 HZ Ha Hb HO) as [-> ->].
  destruct (modes_iso eta zeta a b (x - xs) (y - ys) (z - zs) Q1 Q2 Ha Hb HO) as [-> ->]. split; reflexivity.
Qed.

Lemma Ok_inj : forall (A : Type) (u v : A), Ok u = Ok v -> u = v.
Proof. intros A u v H. congruence. Qed.

Theorem fs_isotropic_magnetic : forall etas zetas a b xs ys zs eta zeta x y z,
  quad1 eta -> quad1 zeta -> In eta etas -> (forall e, In e etas -> 0 < snd e) -> 0 < snd zeta ->
  (1 <= a <= 3)%Z -> (1 <= b <= 3)%Z -> off_axis xs ys x y ->
  fs_xyz false etas zetas (a + 3) (b + 3) xs ys zs eta eta zeta zeta x y z = Ok (iso_ee zeta eta a b (x - xs) (y - ys) (z - zs)) /\
  fs_xyz false etas zetas a (b + 3) xs ys zs eta eta zeta zeta x y z = Ok (Copp (iso_me zeta eta a b (x - xs) (y - ys) (z - zs))).
Proof.
  intros etas zetas a b xs ys zs eta zeta x y z Q1 Q2 Hin He Hz Ha Hb HO.
  destruct (fs_xyz_magnetic etas zetas a b xs ys zs eta eta zeta zeta x y z Hin He Hz Ha Hb) as [D1 D2].
  destruct (fs_isotropic false zetas etas a b xs ys zs zeta eta x y z Q2 Q1 (fun c I => Rlt_le _ _ (He c I)) Ha Hb HO) as [V1 V2].
  rewrite D1. split; [exact V1|]. rewrite V2 in D2.
  destruct (fs_xyz false etas zetas a (b + 3) xs ys zs eta eta zeta zeta x y z) as [v|]; unfold rmul in D2; cbn [bind] in D2; [|discriminate].
  apply Ok_inj in D2. apply f_equal. rewrite <- D2, cm1. ring.
Qed.

(** ** Laplace domain: two magnetic dipoles with horizontal directions *)
Theorem fs_laplace_mm : forall an a b off angle zs zr eH eV zH zV,
  (4 <= a <= 5)%Z -> (4 <= b <= 5)%Z -> 0 < fst eH -> fs_comp true an a b off angle zs zr eH eV zH zV = Err NanE.
Proof.
  intros an a b off angle zs zr eH eV zH zV Ha Hb He.
  assert (P : In (a, b) (list_prod [4; 5]%Z [4; 5]%Z)).
  { apply in_prod.
    - assert (a = 4 \/ a = 5)%Z as [-> | ->] by lia; simpl; tauto.
    - assert (b = 4 \/ b = 5)%Z as [-> | ->] by lia; simpl; tauto. }
  clear Ha Hb. unfold fs_comp, fullspace.
  assert (R1 : fs_root true true (Copp eH) = Err NanE).
  { unfold fs_root. destruct (Rlt_dec (fst (Copp eH)) 0) as [|N]; [reflexivity|]. exfalso. apply N. simpl. lra. }
  each P; checkab; cbv iota; unfold fs_gin; inbs; rewrite R1; reflexivity.
Qed.
