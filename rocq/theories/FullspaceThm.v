(** Symmetries of the full-space solution (C39). *)

From Coq Require Import ZArith Reals List Bool Lia Lra Psatz QArith.
From Coquelicot Require Import Coquelicot.
From Verif Require Import PyBase CBase UtilsAb Fullspace.
Import ListNotations.
Local Open Scope R_scope.
Local Open Scope C_scope.
Local Open Scope res_scope.

(** ** Specification *)

(** Response of component (a, b), receiver a and source b, 1-3 electric and 4-6 magnetic,
    as fem calls it *)
Definition fs_comp (rdt an : bool) (a b : Z) (off angle zsrc zrec : R) (etaH etaV zetaH zetaV : C) : res C :=
  '(ab, msrc, mrec) <- check_ab (AbNum (inject_Z (10 * a + b))) ;;
  fullspace rdt an off angle zsrc zrec etaH etaV zetaH zetaV ab msrc mrec.

(** [fs_comp] is not called for the vanishing components 36 and 63 *)
Definition fs_pair (a b : Z) : Prop :=
  (1 <= a <= 6 /\ 1 <= b <= 6)%Z /\ ~ (a = 3 /\ b = 6)%Z /\ ~ (a = 6 /\ b = 3)%Z.

Definition fs_pairs : list (Z * Z) :=
  filter (fun p => negb ((fst p =? 3)%Z && (snd p =? 6)%Z || (fst p =? 6)%Z && (snd p =? 3)%Z))
    (list_prod [1; 2; 3; 4; 5; 6]%Z [1; 2; 3; 4; 5; 6]%Z).

Lemma fs_pair_in : forall a b, fs_pair a b -> In (a, b) fs_pairs.
Proof.
  intros a b [[Ha Hb] [N1 N2]]. unfold fs_pairs. apply filter_In. split.
  - apply in_prod; [|].
    + assert (a = 1 \/ a = 2 \/ a = 3 \/ a = 4 \/ a = 5 \/ a = 6)%Z as [-> | [-> | [-> | [-> | [-> | ->]]]]] by lia; simpl; tauto.
    + assert (b = 1 \/ b = 2 \/ b = 3 \/ b = 4 \/ b = 5 \/ b = 6)%Z as [-> | [-> | [-> | [-> | [-> | ->]]]]] by lia; simpl; tauto.
  - cbn [fst snd]. destruct (Z.eqb_spec a 3), (Z.eqb_spec b 6), (Z.eqb_spec a 6), (Z.eqb_spec b 3); subst; simpl; try reflexivity; exfalso; tauto.
Qed.

(** +1 for two electric or two magnetic dipoles, -1 for mixed *)
Definition mixed (a b : Z) : C := if xorb (3 <? a)%Z (3 <? b)%Z then RtoC (-1) else RtoC 1.

(** rotation about the vertical axis by 90 degrees: x -> y, y -> -x *)
Definition rot (a : Z) : Z := match a with 1 => 2 | 2 => 1 | 4 => 5 | 5 => 4 | _ => a end%Z.
Definition rsgn (a : Z) : R := if ((a =? 2)%Z || (a =? 5)%Z)%bool then (-1)%R else 1%R.

Definition rmul (c : C) (r : res C) : res C := x <- r ;; Ok (Cmult c x).

(** ** Computation *)
Ltac inbs := repeat match goal with |- context [inb ?a ?l] => let v := eval compute in (inb a l) in change (inb a l) with v end; cbv iota.
Ltac each H := match type of H with In (?a, ?b) _ =>
  vm_compute in H;
  repeat (destruct H as [H | H]; [injection H as <- <-; idtac |]); [.. | destruct H] end.

Lemma cm1 : RtoC (-1) = Copp (RtoC 1).
Proof. apply injective_projections; simpl; lra. Qed.

Ltac rtoc := unfold Rdiv, Rminus; rewrite ?RtoC_mult, ?RtoC_plus, ?RtoC_opp, ?RtoC_mult, ?RtoC_plus, ?RtoC_opp, ?RtoC_mult, ?RtoC_plus, ?RtoC_opp, ?cm1.

(** the case analysis over the root in term4 *)
Ltac roots := repeat match goal with
  | |- context [bind (fs_root ?r ?n ?z) _] => destruct (fs_root r n z); cbn [bind]; [|reflexivity] end.

Lemma fs_R_exch : forall off zs zr h v, fs_R off zs zr h v = fs_R off zr zs h v.
Proof. intros. unfold fs_R. now replace ((zs - zr) * (zs - zr))%R with ((zr - zs) * (zr - zs))%R by ring. Qed.

Ltac checkab := match goal with |- context [check_ab ?x] => let v := eval vm_compute in (check_ab x) in change (check_ab x) with v end; cbn [bind].

Theorem fs_exchange : forall rdt an a b off angle zs zr eH eV zH zV, fs_pair a b ->
  fs_comp rdt an b a off (angle + PI) zr zs eH eV zH zV = rmul (mixed a b) (fs_comp rdt an a b off angle zs zr eH eV zH zV).
Proof.
  intros rdt an a b off angle zs zr eH eV zH zV H. apply fs_pair_in in H.
  unfold fs_comp, fullspace, rmul.
  rewrite neg_cos, neg_sin. 
  replace (- cos angle * off)%R with (- (cos angle * off))%R by ring.
  replace (- sin angle * off)%R with (- (sin angle * off))%R by ring.
  generalize (cos angle * off)%R, (sin angle * off)%R. intros x y.
  each H; repeat checkab; cbv iota; unfold fs_gin; rewrite ?(fs_R_exch off zr zs); inbs; cbn [bind]; roots; cbn [bind]; apply f_equal;
  unfold mixed; cbn [Z.ltb Z.compare Pos.compare Pos.compare_cont xorb]; try destruct an; unfold fs_term; rtoc; unfold Cminus, Cdiv; try ring.
Qed.

Theorem fs_rotation : forall rdt an a b off angle zs zr eH eV zH zV, fs_pair a b ->
  fs_comp rdt an (rot a) (rot b) off (angle + PI / 2) zs zr eH eV zH zV =
  rmul (RtoC (rsgn a * rsgn b)) (fs_comp rdt an a b off angle zs zr eH eV zH zV).
Proof.
  intros rdt an a b off angle zs zr eH eV zH zV H. apply fs_pair_in in H.
  unfold fs_comp, fullspace, rmul. rewrite (Rplus_comm angle). rewrite <- cos_sin.
  replace (cos (PI / 2 + angle)) with (- sin angle)%R by (rewrite sin_cos; ring).
  replace (- sin angle * off)%R with (- (sin angle * off))%R by ring.
  generalize (cos angle * off)%R, (sin angle * off)%R. intros x y.
  each H; unfold rot; repeat checkab; cbv iota; unfold fs_gin; inbs; cbn [bind]; roots; cbn [bind]; apply f_equal;
  unfold rsgn; cbn [Z.eqb Pos.eqb orb]; cbv iota; try destruct an; unfold fs_term; rtoc; unfold Cminus, Cdiv; try ring.
Qed.

(** ** Duality *)
Lemma Cinv_0 : Cinv (RtoC 0) = RtoC 0.
Proof. apply injective_projections; simpl; unfold Rdiv; ring. Qed.
Lemma Cinv_mult_any : forall u v, Cinv (Cmult u v) = Cmult (Cinv u) (Cinv v).
Proof.
  intros u v. destruct (Ceq_dec u (RtoC 0)) as [-> | U]; [rewrite Cmult_0_l, Cinv_0; ring|].
  destruct (Ceq_dec v (RtoC 0)) as [-> | V]; [rewrite Cmult_0_r, Cinv_0; ring|].
  field. split; auto.
Qed.

Lemma Cinv_opp : forall v, Cinv (Copp v) = Copp (Cinv v).
Proof.
  intros [a b]. unfold Cinv, Copp. cbn [fst snd].
  replace ((- a) ^ 2 + (- b) ^ 2)%R with (a ^ 2 + b ^ 2)%R by ring.
  apply injective_projections; simpl; unfold Rdiv; ring.
Qed.

Lemma fs_lGam_opp : forall v z, fs_lGam (Copp v) (Copp z) = fs_lGam v z.
Proof. intros. unfold fs_lGam. apply (f_equal Csqrt). ring. Qed.
Lemma fs_R_opp : forall off zs zr h v, fs_R off zs zr (Copp h) (Copp v) = fs_R off zs zr h v.
Proof. intros. unfold fs_R. apply (f_equal Csqrt). unfold Cdiv. rewrite Cinv_opp. ring. Qed.
Lemma fs_uGam_opp : forall l r h v, fs_uGam l r (Copp h) (Copp v) = fs_uGam l r h v.
Proof. intros. unfold fs_uGam. apply f_equal2; [reflexivity|]. apply f_equal. apply (f_equal Csqrt). unfold Cdiv. rewrite Cinv_opp. ring. Qed.

Lemma Csqrt_opp_above : forall z, 0 < snd z -> Csqrt (Copp z) = Cmult (Copp Ci) (Csqrt z).
Proof.
  intros [a b] H. cbn [snd] in H. unfold Csqrt. rewrite Cmod_opp. cbn [fst snd Copp].
  destruct (Rlt_dec (- b) 0); [|lra]. destruct (Rlt_dec b 0); [lra|].
  apply injective_projections; simpl.
  - replace (Cmod (a, b) + - a)%R with (Cmod (a, b) - a)%R by ring. ring.
  - replace (Cmod (a, b) - - a)%R with (Cmod (a, b) + a)%R by ring. ring.
Qed.

(** Magnetic fields of electric dipoles and electric fields of magnetic ones are
    exchanged with a change of sign when eta and zeta are *)
Theorem fs_dual_mixed : forall rdt an an' a b off angle zs zr eH eV zH zV, fs_pair (a + 3) b -> (1 <= a <= 3)%Z -> (b <= 3)%Z ->
  fs_comp rdt an (a + 3) b off angle zs zr eH eV zH zV =
  rmul (RtoC (-1)) (fs_comp rdt an' a (b + 3) off angle zs zr zH zV eH eV).
Proof.
  intros rdt an an' a b off angle zs zr eH eV zH zV H La Lb.
  assert (P : In (a, b) [(1, 1); (1, 2); (1, 3); (2, 1); (2, 2); (2, 3); (3, 1); (3, 2)]%Z).
  { destruct H as [[A B] [N1 N2]]. assert (a = 1 \/ a = 2 \/ a = 3)%Z as [-> | [-> | ->]] by lia; assert (b = 1 \/ b = 2 \/ b = 3)%Z as [-> | [-> | ->]] by lia; simpl; try tauto; exfalso; apply N2; auto. }
  clear H La Lb. unfold fs_comp, fullspace, rmul.
  generalize (cos angle * off)%R, (sin angle * off)%R. intros x y.
  assert (LC : forall u v, fs_lGam u v = fs_lGam v u) by (intros; unfold fs_lGam; apply (f_equal Csqrt); ring).
  each P; repeat checkab; cbv iota; unfold fs_gin; rewrite ?(fs_R_exch off zr zs); inbs; cbn [bind]; apply f_equal;
  rewrite ?(Cmult_comm zH eH), ?(LC eV zH), ?(LC zV eH); unfold fs_term; rtoc; unfold Cminus, Cdiv; try ring.
Qed.

(** Two magnetic dipoles: exchange eta and zeta of the electric response.
    [etas], [zetas]: values at all frequencies of the call. *)
Definition anyneg_of (l : list C) : bool := existsb (fun c => if Rlt_dec (snd c) 0 then true else false) l.

Theorem fs_dual_mm : forall a b off angle zs zr eH eV zH zV etas zetas,
  (1 <= a <= 3)%Z -> (1 <= b <= 3)%Z ->
  In eH etas -> (forall e, In e etas -> 0 < snd e) -> 0 < snd zH ->
  fs_comp false (fs_anyneg true true etas zetas) (a + 3) (b + 3) off angle zs zr eH eV zH zV =
  fs_comp false (fs_anyneg false false zetas etas) a b off angle zs zr zH zV eH eV.
Proof.
  intros a b off angle zs zr eH eV zH zV etas zetas Ha Hb Hin He Hz.
  assert (A1 : fs_anyneg true true etas zetas = true).
  { unfold fs_anyneg. cbn [andb]. apply existsb_exists. exists (Copp eH). split; [now apply in_map|].
    specialize (He eH Hin). destruct (Rlt_dec (snd (Copp eH)) 0) as [|N]; [reflexivity|]. exfalso; apply N. simpl. lra. }
  assert (A2 : fs_anyneg false false zetas etas = false).
  { unfold fs_anyneg. cbn [andb]. destruct (existsb _ etas) eqn:E; [|reflexivity]. apply existsb_exists in E.
    destruct E as [e [I1 I2]]. specialize (He e I1). destruct (Rlt_dec (snd e) 0); [lra|discriminate]. }
  rewrite A1, A2. clear A1 A2. pose proof (He eH Hin) as Hes. clear Hin He etas zetas.
  assert (P : In (a, b) (list_prod [1; 2; 3]%Z [1; 2; 3]%Z)).
  { apply in_prod.
    - assert (a = 1 \/ a = 2 \/ a = 3)%Z as [-> | [-> | ->]] by lia; simpl; tauto.
    - assert (b = 1 \/ b = 2 \/ b = 3)%Z as [-> | [-> | ->]] by lia; simpl; tauto. }
  clear Ha Hb. unfold fs_comp, fullspace.
  generalize (cos angle * off)%R, (sin angle * off)%R. intros x y.
  assert (R1 : fs_root false true (Copp eH) = Ok (Cmult (Copp Ci) (Csqrt eH))).
  { unfold fs_root. destruct (Req_EM_T (snd (Copp eH)) 0) as [E|_]; [simpl in E; lra|]. now rewrite Csqrt_opp_above. }
  assert (R2 : fs_root false true (Copp zH) = Ok (Cmult (Copp Ci) (Csqrt zH))).
  { unfold fs_root. destruct (Req_EM_T (snd (Copp zH)) 0) as [E|_]; [simpl in E; lra|]. now rewrite Csqrt_opp_above. }
  assert (NZ : Csqrt zH <> RtoC 0).
  { intros E. pose proof (Csqrt_sqr zH) as Q. rewrite E in Q. rewrite Cmult_0_l in Q. rewrite <- Q in Hz. simpl in Hz. lra. }
  assert (II : Cmult Ci Ci = Copp (RtoC 1)) by (apply injective_projections; simpl; ring).
  assert (IV : Cinv Ci = Copp Ci) by (apply injective_projections; simpl; field).
  each P; repeat checkab; cbv iota; unfold fs_gin; rewrite ?fs_lGam_opp, ?fs_R_opp, ?fs_uGam_opp; inbs; rewrite ?R1, ?R2; unfold fs_root; cbn [bind]; apply f_equal;
  unfold fs_term; rtoc; unfold Cminus, Cdiv; rewrite ?Cinv_mult_any, ?Cinv_opp, ?IV.
  all: first [ring | ring [II]].
Qed.

(** For purely conductive media (zero permittivity) the sign of term4 is lost: all
    values [etas] are real, so no imaginary part of -eta is negative, but the root
    is taken below the real axis. *)
Definition term4_mm (a b : Z) (off x y zs zr : R) (eH eV zH zV : C) : C :=
  let c1 := if (a =? 2)%Z && (b =? 2)%Z then y else x in
  let c2 := if (a =? 1)%Z && (b =? 1)%Z then x else y in
  let d := if (a =? b)%Z then 1%R else 0%R in
  Cdiv (Cmult (Cmult (Csqrt eH) (RtoC (2 * c1 * c2 / (off * off) - d)))
     (Cminus (Cexp (Copp (Cmult (fs_lGam zV eH) (fs_R off zs zr zH zV)))) (Cexp (Copp (Cmult (fs_lGam eV zH) (fs_R off zs zr eH eV))))))
     (Cmult (Cmult c4pi (Csqrt zH)) (RtoC (off * off))).

Lemma Csqrt_neg_real : forall x, 0 <= x -> Csqrt (RtoC (- x)) = (0%R, sqrt x).
Proof.
  intros x Hx. unfold Csqrt. cbn [fst snd RtoC]. rewrite Cmod_R, Rabs_Ropp, Rabs_right by lra.
  destruct (Rlt_dec 0 0); [lra|]. apply injective_projections; simpl.
  - replace ((x + - x) / 2)%R with 0%R by field. apply sqrt_0.
  - replace ((x - - x) / 2)%R with x by field. ring.
Qed.

Theorem fs_mm_conductive : forall a b off angle zs zr sH eV zH zV etas zetas,
  (1 <= a <= 2)%Z -> (1 <= b <= 2)%Z ->
  (forall e, In e etas -> snd e = 0%R) -> 0 < sH -> 0 < snd zH ->
  exists v, fs_comp false (fs_anyneg false false zetas etas) a b off angle zs zr zH zV (RtoC sH) eV = Ok v /\
  fs_comp false (fs_anyneg true true etas zetas) (a + 3) (b + 3) off angle zs zr (RtoC sH) eV zH zV =
  Ok (Cplus v (Cmult (RtoC 2) (term4_mm a b off (cos angle * off) (sin angle * off) zs zr (RtoC sH) eV zH zV))).
Proof.
  intros a b off angle zs zr sH eV zH zV etas zetas Ha Hb He Hs Hz.
  assert (A1 : fs_anyneg true true etas zetas = false).
  { unfold fs_anyneg. cbn [andb]. apply not_true_is_false. intros E. apply existsb_exists in E.
    destruct E as [e [I1 I2]]. apply in_map_iff in I1. destruct I1 as [e' [<- I1]]. specialize (He e' I1).
    destruct (Rlt_dec (snd (Copp e')) 0) as [L|]; [simpl in L; lra|discriminate]. }
  assert (A2 : fs_anyneg false false zetas etas = false).
  { unfold fs_anyneg. cbn [andb]. destruct (existsb _ etas) eqn:E; [|reflexivity]. apply existsb_exists in E.
    destruct E as [e [I1 I2]]. specialize (He e I1). destruct (Rlt_dec (snd e) 0); [lra|discriminate]. }
  rewrite A1, A2. clear A1 A2 He etas zetas.
  assert (P : In (a, b) (list_prod [1; 2]%Z [1; 2]%Z)).
  { apply in_prod.
    - assert (a = 1 \/ a = 2)%Z as [-> | ->] by lia; simpl; tauto.
    - assert (b = 1 \/ b = 2)%Z as [-> | ->] by lia; simpl; tauto. }
  clear Ha Hb. unfold fs_comp, fullspace, term4_mm.
  generalize (cos angle * off)%R, (sin angle * off)%R. intros x y.
  assert (SQ : Csqrt (RtoC sH) = RtoC (sqrt sH)) by (apply Csqrt_RtoC; lra).
  assert (R1 : fs_root false true (Copp (RtoC sH)) = Ok (Cmult (Copp Ci) (Csqrt (RtoC sH)))).
  { unfold fs_root. destruct (Req_EM_T (snd (Copp (RtoC sH))) 0) as [E|N]; [|exfalso; apply N; simpl; lra].
    rewrite SQ. replace (Copp (RtoC sH)) with (RtoC (- sH)) by (apply injective_projections; simpl; ring). rewrite Csqrt_neg_real by lra.
    apply f_equal. apply injective_projections; simpl; ring. }
  assert (R2 : fs_root false true (Copp zH) = Ok (Cmult (Copp Ci) (Csqrt zH))).
  { unfold fs_root. destruct (Req_EM_T (snd (Copp zH)) 0) as [E|_]; [simpl in E; lra|]. now rewrite Csqrt_opp_above. }
  clear SQ.
  assert (II : Cmult Ci Ci = Copp (RtoC 1)) by (apply injective_projections; simpl; ring).
  assert (IV : Cinv Ci = Copp Ci) by (apply injective_projections; simpl; field).
  assert (C2 : RtoC 2 = Cplus (RtoC 1) (RtoC 1)) by (apply injective_projections; simpl; ring).
  generalize dependent (RtoC sH). intros eH R1.
  each P; repeat checkab; cbv iota; unfold fs_gin; rewrite ?fs_lGam_opp, ?fs_R_opp, ?fs_uGam_opp; inbs; rewrite ?R1, ?R2; unfold fs_root; cbn [bind];
  (eexists; split; [reflexivity|]); apply f_equal;
  cbn [Z.eqb Pos.eqb andb]; cbv iota; rtoc; unfold Cminus, Cdiv; rewrite ?Cinv_mult_any, ?Cinv_opp, ?IV, ?C2.
  all: ring [II].
Qed.
