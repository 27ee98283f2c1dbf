(** Every component code of a layered model as TM and TE potentials of its source. *)

From Coq Require Import Reals ZArith List Bool Lia Lra Psatz QArith.
From Coquelicot Require Import Coquelicot.
From Verif Require Import PyBase CBase Kernel KernelSpec KernelPhys KernelClosed KernelPassive KernelMain KernelBVP Utils UtilsAb ODE Bessel KernelBessel KernelThm KernelFinal FullspaceThm FullspaceCurl FullspaceEM Cint Sommer Sommer2 Homog HomogThm LayAsym LayConv LayWave LayField LayMaxwell LayCode.
Import ListNotations.
Local Open Scope R_scope.
Local Open Scope C_scope.

Definition pmTM (b : Z) : C := if (b <=? 2)%Z then - (1) else RtoC 1.
Definition pmTE (b : Z) : C := if (b <=? 2)%Z || (b =? 6)%Z then RtoC 1 else - (1).
Definition kap (b : Z) (t : R) : R := if (b <=? 2)%Z then kh b t else if (b =? 3)%Z || (b =? 6)%Z then 1%R else th (b - 3) t.
Definition the (b : Z) (t : R) : R := if (b <=? 2)%Z then th b t else if (b =? 3)%Z || (b =? 6)%Z then 1%R else kh (b - 3) t.
Definition alf (eV : C) (b : Z) (lam : R) : C := if (b =? 3)%Z then Ci * RtoC lam * fac lam / eV else if (b =? 6)%Z then RtoC 0 else fac lam.
Definition bet (zV : C) (b : Z) (lam : R) : C :=
  if (b <=? 2)%Z then fac lam else if (b =? 3)%Z then RtoC 0 else if (b =? 6)%Z then - (Ci * RtoC lam * fac lam / zV) else - fac lam.

Lemma trg_kap : forall b, trg (kap b).
Proof. intros b. unfold kap. destruct (b <=? 2)%Z; [apply trg_kh|]. destruct (_ || _); [apply trg_1|apply trg_th]. Qed.
Lemma trg_the : forall b, trg (the b).
Proof. intros b. unfold the. destruct (b <=? 2)%Z; [apply trg_th|]. destruct (_ || _); [apply trg_1|apply trg_kh]. Qed.
Lemma pm1_TM : forall b, pm1 (pmTM b). Proof. intros b. unfold pmTM. destruct (b <=? 2)%Z; [now right|now left]. Qed.
Lemma pm1_TE : forall b, pm1 (pmTE b). Proof. intros b. unfold pmTE. destruct ((b <=? 2)%Z || (b =? 6)%Z); [now left|now right]. Qed.

(** Potential of one mode with its source and receiver weights; with or without the direct wave. *)
Definition Tx (xd : bool) (e v q : nat -> C) (z : nat -> R) (N : nat) (s r : nat) (zs zr : R) (pm sg : C) (lam : R) : C :=
  wsrc e (gam e v q lam) pm s * wgt e (gam e v q lam) sg r * G_mode e (gam e v q lam) z N pm sg s r zs zr xd.
Definition Tp (e v q : nat -> C) (z : nat -> R) (N : nat) (s r : nat) (zs zr : R) (pm sg : C) (lam : R) : C :=
  wsrc e (gam e v q lam) pm s * wgt e (gam e v q lam) sg r * G_mode e (gam e v q lam) z N pm sg s r zs zr false.

(** Electric (a = 1..3) and magnetic (a = 4..6) field for the source b. *)
Definition val (eV_s zV_s eV_r zV_r P Q p q : C) (a b : Z) (lam X Y : R) : C :=
  let al := alf eV_s b lam in let be := bet zV_s b lam in
  if (a <=? 3)%Z then
    if (a =? 3)%Z then - (Ci * RtoC lam / eV_r * al * P * W (kap b) X Y)
    else al * Q * W (fun t => kh a t * kap b t)%R X Y - be * p * W (fun t => th a t * the b t)%R X Y
  else if (a =? 6)%Z then Ci * RtoC lam / zV_r * be * p * W (the b) X Y
  else - (al * P * W (fun t => th (a - 3) t * kap b t)%R X Y + be * q * W (fun t => kh (a - 3) t * the b t)%R X Y).

Lemma ll : forall l : R, RtoC (l * l) = - (Ci * RtoC l * (Ci * RtoC l)).
Proof. intros l. apply injective_projections; cbn; ring. Qed.
Lemma cm1' : RtoC (-1) = - (1). Proof. apply injective_projections; cbn; ring. Qed.
Lemma one_nz : RtoC 1 <> RtoC 0. Proof. intros W. apply (f_equal fst) in W. cbn in W. lra. Qed.

Section Val.
Variables (xd : bool) (eH eV zH zV : nat -> C) (z : nat -> R) (N : nat) (s r : nat) (zs zr lam : R).
Hypothesis OK : model_ok eH eV zH zV z N lam.
Hypothesis Hs : (s <= N)%nat.
Hypothesis Hr : (r <= N)%nat.
Notation Tm := (fun pm sg => Tx xd eH eV zH z N s r zs zr pm sg lam).
Notation Te := (fun pm sg => Tx xd zH zV eH z N s r zs zr pm sg lam).

Lemma Tmx_rec : forall pm sg, pm1 pm -> pm1 sg -> Tm pm sg = Tx xd eH eV zH z N r s zr zs sg pm lam.
Proof using OK Hs Hr. intros pm sg P S. unfold Tx. apply G_mode_recip; try assumption; apply OK. Qed.
Lemma Tex_rec : forall pm sg, pm1 pm -> pm1 sg -> Te pm sg = Tx xd zH zV eH z N r s zr zs sg pm lam.
Proof using OK Hs Hr. intros pm sg P S. unfold Tx. apply G_mode_recip; try assumption; apply OK. Qed.

Ltac wnorm := repeat match goal with |- context [W ?u ?X ?Y] => match goal with |- context [W ?v X Y] =>
  assert_fails (constr_eq u v); let E := fresh in assert (E : W u X Y = W v X Y) by (apply W_ext; intros; cbn; ring); rewrite E; clear E end end.

Theorem code_valx : forall a b ab ms mr off phi, fs_pair a b -> check_ab (AbNum (inject_Z (10 * a + b))) = Ok (ab, ms, mr) -> (0 < lam)%R -> (0 < off)%R ->
  let PQ := resp eH eV zH zV z N lam ab xd ms mr s r zs zr in
  bessel_sum ab lam off (ang_exact (eval_angle phi ms mr) ab) (collect ab mr lam (fst PQ) (snd PQ))
  = val (eV s) (zV s) (eV r) (zV r) (Tm (pmTM b) (RtoC 1)) (Tm (pmTM b) (- (1))) (Te (pmTE b) (RtoC 1)) (Te (pmTE b) (- (1))) a b lam (lam * off * cos phi) (lam * off * sin phi).
Proof using OK Hs Hr.
  intros a b ab ms mr off phi HP CA Hl Ho PQ. subst PQ.
  destruct (code_class _ ab ms mr CA (ex_intro _ a (ex_intro _ b (conj HP eq_refl)))) as [KA VC].
  rewrite bessel_all; [|exact KA|exact Hl|exact Ho| |].
  2:{ intros MU. unfold resp, PTM. destruct mr; [destruct ms|]; cbn [fst]; rewrite MU; ring. }
  2:{ intros MU. unfold resp, PTE. destruct mr; [destruct ms|]; cbn [snd]; rewrite MU; ring. }
  assert (EA : eval_angle phi ms mr = if (mr && negb ms)%bool then (phi + PI)%R else phi) by reflexivity. rewrite EA. clear EA.
  set (X := (lam * off * cos phi)%R). set (Y := (lam * off * sin phi)%R).
  pose proof (mo_eH _ _ _ _ _ _ _ OK s Hs) as A1. pose proof (mo_eH _ _ _ _ _ _ _ OK r Hr) as A2.
  pose proof (mo_eV _ _ _ _ _ _ _ OK s Hs) as A3. pose proof (mo_eV _ _ _ _ _ _ _ OK r Hr) as A4.
  pose proof (mo_zH _ _ _ _ _ _ _ OK s Hs) as A5. pose proof (mo_zH _ _ _ _ _ _ _ OK r Hr) as A6.
  pose proof (mo_zV _ _ _ _ _ _ _ OK s Hs) as A7. pose proof (mo_zV _ _ _ _ _ _ _ OK r Hr) as A8.
  pose proof (mo_gTM _ _ _ _ _ _ _ OK s Hs) as A9. pose proof (mo_gTM _ _ _ _ _ _ _ OK r Hr) as A10.
  pose proof (mo_gTE _ _ _ _ _ _ _ OK s Hs) as A11. pose proof (mo_gTE _ _ _ _ _ _ _ OK r Hr) as A12.
  assert (P1 : pm1 (RtoC 1)) by now left. assert (P2 : pm1 (- (1))) by now right.
  destruct (mr && negb ms)%bool eqn:SW; [rewrite spec_W_pi; rewrite (Tmx_rec (pmTM b) (RtoC 1) (pm1_TM b) P1), (Tmx_rec (pmTM b) (- (1)) (pm1_TM b) P2), (Tex_rec (pmTE b) (RtoC 1) (pm1_TE b) P1), (Tex_rec (pmTE b) (- (1)) (pm1_TE b) P2)|rewrite spec_W]; fold X Y;
  apply fs_pair_in in HP; cbn in HP;
  (decompose [or] HP; clear HP; try contradiction); match goal with E : (_, _) = (a, b) |- _ => injection E as <- <- end;
  (assert (CB := CA); vm_compute in CB; injection CB as <- <- <-; try discriminate SW);
  clear - A1 A2 A3 A4 A5 A6 A7 A8 A9 A10 A11 A12.
  all: unfold resp, PTM, PTE, fTM, fTE, sgnTM, cpm, csg, zpm, plus_of, mode_used, plusset, srcc, recc, cs1, cs2, us2, us1, spar, val, alf, bet, kap, the, pmTM, pmTE, srcc, recc, Tx;
    cbn [inb existsb Z.eqb Z.ltb Z.leb Z.compare Pos.compare Pos.compare_cont Pos.eqb Z.div Z.modulo Z.div_eucl Z.pos_div_eucl Z.sub Z.opp Z.add Z.mul Pos.mul Pos.add Z.pos_sub Pos.pred_double Z.double Z.succ_double Z.pred_double orb andb negb fst snd].
  all: rewrite ?cz_m1, ?wsrc_cz1, ?wgt_cz1, ?wsrc_1, ?wgt_1, ?wsrc_m1, ?wgt_m1, ?ll; change (cz 1) with (RtoC 1); wnorm; rewrite ?cm1'.
  all: repeat match goal with |- context [G_mode ?e ?g z N ?a ?b ?c ?d ?x ?y ?f] => generalize (G_mode e g z N a b c d x y f); intro end;
    repeat match goal with |- context [W ?u ?a ?b] => generalize (W u a b); intro end; generalize (fac lam); intro; field; repeat split; first [assumption|exact one_nz].
Qed.
End Val.

Theorem code_val : forall eH eV zH zV z N s r zs zr lam, model_ok eH eV zH zV z N lam -> (s <= N)%nat -> (r <= N)%nat ->
  forall a b ab ms mr off phi, fs_pair a b -> check_ab (AbNum (inject_Z (10 * a + b))) = Ok (ab, ms, mr) -> (0 < lam)%R -> (0 < off)%R ->
  let PQ := resp eH eV zH zV z N lam ab false ms mr s r zs zr in
  bessel_sum ab lam off (ang_exact (eval_angle phi ms mr) ab) (collect ab mr lam (fst PQ) (snd PQ))
  = val (eV s) (zV s) (eV r) (zV r) (Tp eH eV zH z N s r zs zr (pmTM b) (RtoC 1) lam) (Tp eH eV zH z N s r zs zr (pmTM b) (- (1)) lam)
      (Tp zH zV eH z N s r zs zr (pmTE b) (RtoC 1) lam) (Tp zH zV eH z N s r zs zr (pmTE b) (- (1)) lam) a b lam (lam * off * cos phi) (lam * off * sin phi).
Proof. exact (code_valx false). Qed.
Lemma Tm_rec : forall eH eV zH zV z N s r zs zr lam, model_ok eH eV zH zV z N lam -> (s <= N)%nat -> (r <= N)%nat -> forall pm sg, pm1 pm -> pm1 sg ->
  Tp eH eV zH z N s r zs zr pm sg lam = Tp eH eV zH z N r s zr zs sg pm lam.
Proof. exact (Tmx_rec false). Qed.
Lemma Te_rec : forall eH eV zH zV z N s r zs zr lam, model_ok eH eV zH zV z N lam -> (s <= N)%nat -> (r <= N)%nat -> forall pm sg, pm1 pm -> pm1 sg ->
  Tp zH zV eH z N s r zs zr pm sg lam = Tp zH zV eH z N r s zr zs sg pm lam.
Proof. exact (Tex_rec false). Qed.
