(** The two modes of the full-space solution as polynomials in the coordinates,
    1/R, 1/rho^2 and exp(-l R), and their curls. *)

From Coq Require Import ZArith Reals List Bool Lia Lra Psatz QArith.
From Coquelicot Require Import Coquelicot.
From Verif Require Import PyBase CBase ODE UtilsAb Fullspace FullspaceThm FullspaceMaxwell.
Import ListNotations.
Local Open Scope R_scope.
Local Open Scope C_scope.
Local Open Scope res_scope.

(** ** Specification: curl of a complex vector field F 1, F 2, F 3 of real coordinates *)
Definition curl_is (F : Z -> R -> R -> R -> C) (x y z : R) (c1 c2 c3 : C) : Prop :=
  (exists d d', is_deriveC (fun t => F 3%Z x t z) y d /\ is_deriveC (fun t => F 2%Z x y t) z d' /\ Cminus d d' = c1) /\
  (exists d d', is_deriveC (fun t => F 1%Z x y t) z d /\ is_deriveC (fun t => F 3%Z t y z) x d' /\ Cminus d d' = c2) /\
  (exists d d', is_deriveC (fun t => F 2%Z t y z) x d /\ is_deriveC (fun t => F 1%Z x t z) y d' /\ Cminus d d' = c3).

Lemma curl_plus : forall F G x y z a1 a2 a3 b1 b2 b3, curl_is F x y z a1 a2 a3 -> curl_is G x y z b1 b2 b3 ->
  curl_is (fun i x y z => Cplus (F i x y z) (G i x y z)) x y z (Cplus a1 b1) (Cplus a2 b2) (Cplus a3 b3).
Proof.
  intros F G x y z a1 a2 a3 b1 b2 b3 [A1 [A2 A3]] [B1 [B2 B3]].
  split; [|split].
  - destruct A1 as [d [d' [P [Q E]]]], B1 as [e [e' [P' [Q' E']]]]. exists (Cplus d e), (Cplus d' e').
    split; [now apply (is_deriveC_plus (fun t => F 3%Z x t z) (fun t => G 3%Z x t z))|]. split; [now apply (is_deriveC_plus (fun t => F 2%Z x y t) (fun t => G 2%Z x y t))|]. rewrite <- E, <- E'. ring.
  - destruct A2 as [d [d' [P [Q E]]]], B2 as [e [e' [P' [Q' E']]]]. exists (Cplus d e), (Cplus d' e').
    split; [now apply (is_deriveC_plus (fun t => F 1%Z x y t) (fun t => G 1%Z x y t))|]. split; [now apply (is_deriveC_plus (fun t => F 3%Z t y z) (fun t => G 3%Z t y z))|]. rewrite <- E, <- E'. ring.
  - destruct A3 as [d [d' [P [Q E]]]], B3 as [e [e' [P' [Q' E']]]]. exists (Cplus d e), (Cplus d' e').
    split; [now apply (is_deriveC_plus (fun t => F 2%Z t y z) (fun t => G 2%Z t y z))|]. split; [now apply (is_deriveC_plus (fun t => F 1%Z x t z) (fun t => G 1%Z x t z))|]. rewrite <- E, <- E'. ring.
Qed.

Lemma curl_scal : forall c F x y z a1 a2 a3, curl_is F x y z a1 a2 a3 ->
  curl_is (fun i x y z => Cmult c (F i x y z)) x y z (Cmult c a1) (Cmult c a2) (Cmult c a3).
Proof.
  intros c F x y z a1 a2 a3 [A1 [A2 A3]].
  split; [|split].
  - destruct A1 as [d [d' [P [Q E]]]]. exists (Cmult c d), (Cmult c d').
    split; [now apply (is_deriveC_scal c (fun t => F 3%Z x t z))|]. split; [now apply (is_deriveC_scal c (fun t => F 2%Z x y t))|]. rewrite <- E. ring.
  - destruct A2 as [d [d' [P [Q E]]]]. exists (Cmult c d), (Cmult c d').
    split; [now apply (is_deriveC_scal c (fun t => F 1%Z x y t))|]. split; [now apply (is_deriveC_scal c (fun t => F 3%Z t y z))|]. rewrite <- E. ring.
  - destruct A3 as [d [d' [P [Q E]]]]. exists (Cmult c d), (Cmult c d').
    split; [now apply (is_deriveC_scal c (fun t => F 2%Z t y z))|]. split; [now apply (is_deriveC_scal c (fun t => F 1%Z x t z))|]. rewrite <- E. ring.
Qed.

(** ** Radius, attenuation and 1/rho^2 *)
Definition rad (kap : C) (x y z : R) : C := Csqrt (Cplus (RtoC (x * x + y * y)) (Cmult (RtoC (z * z)) kap)).
Definition irad kap x y z : C := Cinv (rad kap x y z).
Definition att (l kap : C) (x y z : R) : C := Cexp (Copp (Cmult l (rad kap x y z))).
Definition irho (x y : R) : C := Cinv (RtoC (x * x + y * y)).

Lemma dC_id : forall x, is_deriveC RtoC x (RtoC 1).
Proof. intros x. split; [change (is_derive (fun t : R => t) x 1%R); auto_derive; trivial|change (is_derive (fun _ : R => 0%R) x 0%R); auto_derive; trivial]. Qed.
Lemma dC_id' : forall x, is_deriveC (fun t => RtoC t) x (RtoC 1).
Proof. exact dC_id. Qed.

Lemma dC_eq : forall f x a b, is_deriveC f x a -> a = b -> is_deriveC f x b.
Proof. intros; subst; assumption. Qed.

Section Leaves.
Variables (kap l : C) (x y z : R).
Hypothesis Hk : 0 <= fst kap.
Hypothesis Hr : 0 < x * x + y * y.

Let q : C := Cplus (RtoC (x * x + y * y)) (Cmult (RtoC (z * z)) kap).
Lemma q_pos : 0 < fst q.
Proof. unfold q. destruct kap as [a b]. cbn [fst snd RtoC Cplus Cmult] in *. assert (0 <= z * z * a) by (apply Rmult_le_pos; nra). lra. Qed.
Lemma rad_sqr : Cmult (rad kap x y z) (rad kap x y z) = q.
Proof. apply Csqrt_sqr. Qed.
Lemma rad_neq : rad kap x y z <> RtoC 0.
Proof.
  intros E. pose proof rad_sqr as S. rewrite E, Cmult_0_l in S. pose proof q_pos as P. rewrite <- S in P. simpl in P. lra.
Qed.

Lemma d_q : (is_deriveC (fun t => Cplus (RtoC (t * t + y * y)) (Cmult (RtoC (z * z)) kap)) x (RtoC (2 * x))) /\
  (is_deriveC (fun t => Cplus (RtoC (x * x + t * t)) (Cmult (RtoC (z * z)) kap)) y (RtoC (2 * y))) /\
  (is_deriveC (fun t => Cplus (RtoC (x * x + y * y)) (Cmult (RtoC (t * t)) kap)) z (Cmult (RtoC (2 * z)) kap)).
Proof.
  destruct kap as [a b]. split; [|split]; (split; cbn [fst snd RtoC Cplus Cmult]; auto_derive; trivial; ring).
Qed.

Let Q := irad kap x y z.
Let G := att l kap x y z.

Lemma d_of_q : forall (f : R -> C) t0 a, is_deriveC f t0 a -> f t0 = q ->
  is_deriveC (fun t => Cinv (Csqrt (f t))) t0 (Copp (Cmult (Cdiv a (RtoC 2)) (Cmult Q (Cmult Q Q)))) /\
  is_deriveC (fun t => Cexp (Copp (Cmult l (Csqrt (f t))))) t0 (Copp (Cmult (Cmult l (Cdiv a (RtoC 2))) (Cmult Q G))).
Proof.
  intros f t0 a D E.
  assert (S : is_deriveC (fun t => Csqrt (f t)) t0 (Cdiv a (Cmult (RtoC 2) (Csqrt (f t0))))) by (apply dC_sqrt; [exact D|rewrite E; apply q_pos]).
  assert (R0 : Csqrt (f t0) = rad kap x y z) by (rewrite E; reflexivity). pose proof rad_neq as N.
  assert (N2 : RtoC 2 <> RtoC 0) by (intros W; apply (f_equal fst) in W; simpl in W; lra).
  split.
  - eapply dC_eq; [apply (dC_inv _ _ _ S); rewrite R0; exact N|]. rewrite R0. unfold Q, irad. field. auto.
  - eapply dC_eq; [apply (dC_exp (fun t => Copp (Cmult l (Csqrt (f t))))); apply dC_opp; apply is_deriveC_scal; exact S|].
    rewrite R0. unfold Q, irad, G, att. field. auto.
Qed.

Lemma two2 : forall c, Cdiv (Cmult (RtoC 2) c) (RtoC 2) = c.
Proof. intros c. field. intros W; apply (f_equal fst) in W; simpl in W; lra. Qed.
Lemma two2' : forall c, Cdiv (RtoC (2 * c)) (RtoC 2) = RtoC c.
Proof. intros c. rewrite RtoC_mult. apply two2. Qed.

Lemma dQx : is_deriveC (fun t => irad kap t y z) x (Copp (Cmult (RtoC x) (Cmult Q (Cmult Q Q)))).
Proof. destruct d_q as [D _]. apply d_of_q in D; [|reflexivity]. destruct D as [D _]. rewrite two2' in D. exact D. Qed.
Lemma dQy : is_deriveC (fun t => irad kap x t z) y (Copp (Cmult (RtoC y) (Cmult Q (Cmult Q Q)))).
Proof. destruct d_q as [_ [D _]]. apply d_of_q in D; [|reflexivity]. destruct D as [D _]. rewrite two2' in D. exact D. Qed.
Lemma dQz : is_deriveC (fun t => irad kap x y t) z (Copp (Cmult (Cmult kap (RtoC z)) (Cmult Q (Cmult Q Q)))).
Proof.
  destruct d_q as [_ [_ D]]. apply d_of_q in D; [|reflexivity]. destruct D as [D _]. eapply dC_eq; [exact D|].
  rewrite RtoC_mult. field. intros W; apply (f_equal fst) in W; simpl in W; lra.
Qed.
Lemma dGx : is_deriveC (fun t => att l kap t y z) x (Copp (Cmult (Cmult l (RtoC x)) (Cmult Q G))).
Proof. destruct d_q as [D _]. apply d_of_q in D; [|reflexivity]. destruct D as [_ D]. rewrite two2' in D. exact D. Qed.
Lemma dGy : is_deriveC (fun t => att l kap x t z) y (Copp (Cmult (Cmult l (RtoC y)) (Cmult Q G))).
Proof. destruct d_q as [_ [D _]]. apply d_of_q in D; [|reflexivity]. destruct D as [_ D]. rewrite two2' in D. exact D. Qed.
Lemma dGz : is_deriveC (fun t => att l kap x y t) z (Copp (Cmult (Cmult l (Cmult kap (RtoC z))) (Cmult Q G))).
Proof.
  destruct d_q as [_ [_ D]]. apply d_of_q in D; [|reflexivity]. destruct D as [_ D]. eapply dC_eq; [exact D|].
  rewrite RtoC_mult. field. intros W; apply (f_equal fst) in W; simpl in W; lra.
Qed.

Let P := irho x y.
Lemma rho_neq : RtoC (x * x + y * y) <> RtoC 0.
Proof. intros W. apply (f_equal fst) in W. simpl in W. lra. Qed.
Lemma dPx : is_deriveC (fun t => irho t y) x (Copp (Cmult (RtoC (2 * x)) (Cmult P P))).
Proof.
  eapply dC_eq; [apply (dC_inv (fun t => RtoC (t * t + y * y)) x (RtoC (2 * x))); [|apply rho_neq]|reflexivity].
  split; cbn [fst snd RtoC]; auto_derive; trivial; ring.
Qed.
Lemma dPy : is_deriveC (fun t => irho x t) y (Copp (Cmult (RtoC (2 * y)) (Cmult P P))).
Proof.
  eapply dC_eq; [apply (dC_inv (fun t => RtoC (x * x + t * t)) y (RtoC (2 * y))); [|apply rho_neq]|reflexivity].
  split; cbn [fst snd RtoC]; auto_derive; trivial; ring.
Qed.
End Leaves.

(** ** The two modes for an electric source in direction b (times 4 pi) *)
Section Modes.
Variables (s k e : C).
(** coordinates, 1/R, exp(-k R / s), 1/rho^2 *)
Definition cax (X Y Z : C) (a : BinNums.Z) : C := if (a =? 1)%Z then X else if (a =? 2)%Z then Y else Z.
Definition dlt (a b : BinNums.Z) : C := if (a =? b)%Z then RtoC 1 else RtoC 0.

Definition radt (Q : C) : C := Cplus (Cplus (Cmult (RtoC 3) (Cmult Q Q)) (Cmult (RtoC 3) (Cmult (Cdiv k s) Q))) (Cmult (Cdiv k s) (Cdiv k s)).

Definition hor (X Y P : C) (a b : BinNums.Z) : C :=
  Cmult (Cmult (Cdiv k e) (Cminus (Cmult (RtoC 2) (Cmult (cax X Y X a) (Cmult (cax X Y X b) P))) (dlt a b))) P.

Definition tmE (X Y Z Q G P : C) (a b : BinNums.Z) : C :=
  if (a <? 3)%Z && (b <? 3)%Z then
    let ab := Cmult (cax X Y Z a) (cax X Y Z b) in
    Cmult G (Cminus
      (Cmult (Cdiv Q s)
        (Cminus (Cplus (Cmult (Cminus (Cmult (RtoC 3) (Cmult ab (Cmult Q Q))) (dlt a b))
                              (Cplus (Cmult (Cdiv (Cmult s s) e) (Cmult Q Q)) (Cmult (Cdiv (Cmult k s) e) Q)))
                       (Cmult (Cdiv (Cmult k k) e) (Cmult ab (Cmult Q Q))))
                (Cmult (Cdiv (Cmult k k) e) (Cmult ab P))))
      (hor X Y P a b))
  else if (a <? 3)%Z || (b <? 3)%Z then
    let al := if (a <? 3)%Z then cax X Y Z a else cax X Y Z b in
    Cmult G (Cmult (Cdiv (Cmult s (Cmult s s)) e) (Cmult (Cmult Z al) (Cmult (Cmult Q (Cmult Q Q)) (radt Q))))
  else
    Cmult G (Cmult (Cmult (Cdiv s e) Q)
      (Cminus (Cminus (Cmult (Cmult (Cmult s s) (Cmult s s)) (Cmult (Cmult Z Z) (Cmult (Cmult Q Q) (radt Q))))
                      (Cmult (Cmult s s) (Cmult Q (Cplus Q (Cdiv k s)))))
              (Cmult k k))).

Definition par2 (Q P : C) : C := Cplus (Cplus (Cmult (RtoC 2) P) (Cmult (Cdiv k s) Q)) (Cmult Q Q).

(** H_a for source b; [sg] selects which pairs of coordinates enter the diagonal *)
Definition tmH (X Y Z Q G P : C) (a b : BinNums.Z) : C :=
  let f := Cmult G (Cmult Z (Cmult P (Cmult s Q))) in
  let v := Cmult G (Cmult (Cmult s (Cmult Q Q)) (Cplus (Cdiv k s) Q)) in
  match a, b with
  | 1, 1 => Cmult f (Cmult (Cmult X Y) (par2 Q P))
  | 2, 2 => Copp (Cmult f (Cmult (Cmult X Y) (par2 Q P)))
  | 2, 1 => Copp (Cmult f (Cminus (Cmult (Cmult X X) (par2 Q P)) (RtoC 1)))
  | 1, 2 => Cmult f (Cminus (Cmult (Cmult Y Y) (par2 Q P)) (RtoC 1))
  | 1, 3 => Copp (Cmult Y v)
  | 2, 3 => Cmult X v
  | _, _ => RtoC 0
  end%Z.

Definition teE (X Y Z Q G P : C) (a b : BinNums.Z) : C :=
  if (a <? 3)%Z && (b <? 3)%Z then
    Cmult G (Cplus (Cmult (Cdiv Q s) (Cmult (Cdiv (Cmult k k) e) (Cminus (Cmult (Cmult (cax X Y Z a) (cax X Y Z b)) P) (dlt a b))))
                   (hor X Y P a b))
  else RtoC 0.

Definition teH (X Y Z Q G P : C) (a b : BinNums.Z) : C :=
  let f := Cmult G (Cmult Z (Cmult P (Cmult s Q))) in
  let v := Cmult G (Cmult (Cmult s (Cmult Q Q)) (Cplus (Cdiv k s) Q)) in
  match a, b with
  | 1, 1 => Copp (Cmult f (Cmult (Cmult X Y) (par2 Q P)))
  | 2, 2 => Cmult f (Cmult (Cmult X Y) (par2 Q P))
  | 2, 1 => Copp (Cmult f (Cminus (Cmult (Cmult Y Y) (par2 Q P)) (RtoC 1)))
  | 1, 2 => Cmult f (Cminus (Cmult (Cmult X X) (par2 Q P)) (RtoC 1))
  | 3, 1 => Cmult Y v
  | 3, 2 => Copp (Cmult X v)
  | _, _ => RtoC 0
  end%Z.
End Modes.

Definition at_pt (s k : C) (F : C -> C -> C -> C -> C -> C -> BinNums.Z -> BinNums.Z -> C) (b : BinNums.Z) (a : BinNums.Z) (x y z : R) : C :=
  let kap := Cmult s s in
  F (RtoC x) (RtoC y) (RtoC z) (irad kap x y z) (att (Cdiv k s) kap x y z) (irho x y) a b.

Ltac dC1 := lazymatch goal with
  | |- is_deriveC (fun _ => ?c) ?x _ => exact (is_deriveC_const c x)
  | |- is_deriveC (fun t => RtoC t) ?x _ => exact (dC_id' x)
  | |- is_deriveC (fun t => Cmult (@?f t) (@?g t)) ?x _ => eapply (dC_mult f g x); [dC1 | dC1]
  | |- is_deriveC (fun t => Cplus (@?f t) (@?g t)) ?x _ => eapply (is_deriveC_plus f g x); [dC1 | dC1]
  | |- is_deriveC (fun t => Copp (@?f t)) ?x _ => eapply (dC_opp f x); dC1
  | |- _ => eassumption
  end.

(** field_simplify_eq leaves its integer coefficients as reduced pairs *)
Ltac unpair := repeat match goal with
  | |- context [((?a * ?c + - (?b * ?d))%R, (?a * ?d + ?b * ?c)%R)] =>
      change ((a * c + - (b * d))%R, (a * d + b * c)%R) with (Cmult (a, b) (c, d))
  | |- context [((?a + ?b)%R, (?c + ?d)%R)] => change ((a + b)%R, (c + d)%R) with (Cplus (a, c) (b, d))
  end; change (R1, R0) with (RtoC 1) in *; change (R0, R0) with (RtoC 0) in *.

Section Curl.
Variables (s k e : C) (x y z : R).
Hypothesis Hs : s <> RtoC 0.
Hypothesis Hk : k <> RtoC 0.
Hypothesis He : e <> RtoC 0.
Hypothesis Hp : 0 <= fst (Cmult s s).
Hypothesis Hr : 0 < x * x + y * y.

Let X := RtoC x. Let Y := RtoC y. Let Z := RtoC z.
Let kap := Cmult s s.
Let Rr := rad kap x y z.

Ltac leaves := 
  pose proof (dQx kap (RtoC 0) x y z Hp Hr) as LQx; pose proof (dQy kap (RtoC 0) x y z Hp Hr) as LQy; pose proof (dQz kap (RtoC 0) x y z Hp Hr) as LQz;
  pose proof (dGx kap (Cdiv k s) x y z Hp Hr) as LGx; pose proof (dGy kap (Cdiv k s) x y z Hp Hr) as LGy; pose proof (dGz kap (Cdiv k s) x y z Hp Hr) as LGz;
  pose proof (dPx x y Hr) as LPx; pose proof (dPy x y Hr) as LPy;
  unfold Cdiv in LGx, LGy, LGz.

Lemma c2s : RtoC 2 = Cplus (RtoC 1) (RtoC 1). Proof. rewrite <- RtoC_plus. f_equal. Qed.
Lemma c3s : RtoC 3 = Cplus (RtoC 1) (Cplus (RtoC 1) (RtoC 1)). Proof. rewrite <- !RtoC_plus. apply (f_equal RtoC). ring. Qed.
Lemma c2nz : RtoC 2 <> RtoC 0. Proof. intros W; apply (f_equal fst) in W; simpl in W; lra. Qed.

Ltac fin := 
  unfold irad, irho; fold Rr; rewrite ?RtoC_plus, ?RtoC_mult, ?c3s, ?c2s; fold X Y Z;
  let RN := fresh "RN" in let RS := fresh "RS" in let PN := fresh "PN" in
  assert (RN : Rr <> RtoC 0) by (apply rad_neq; assumption);
  assert (RS : Cmult Rr Rr = Cplus (Cplus (Cmult X X) (Cmult Y Y)) (Cmult (Cmult Z Z) (Cmult s s)))
    by (unfold Rr; rewrite rad_sqr by assumption; unfold X, Y, Z, kap; rewrite RtoC_plus, !RtoC_mult; reflexivity);
  assert (PN : Cplus (Cmult X X) (Cmult Y Y) <> RtoC 0)
    by (unfold X, Y; rewrite <- !RtoC_mult, <- RtoC_plus; apply rho_neq; assumption);
  fold kap; generalize (att (Cmult k (Cinv s)) kap x y z); intros G;
  unfold kap;
  clearbody Rr X Y Z; first [solve [field_simplify_eq; [first [reflexivity | unpair; ring [RS]] | repeat split; assumption]] | ring].

Ltac go := leaves;
  unfold curl_is, at_pt, tmE, tmH, teE, teH, hor, radt, par2, dlt, cax; cbn [Z.ltb Z.eqb Z.compare Pos.compare Pos.compare_cont Pos.eqb andb orb]; cbv iota zeta; fold kap;
  unfold Cminus, Cdiv;
  split; [|split]; (eexists _, _; split; [dC1|split; [dC1|]]); fin.

Definition zh : C := Cdiv (Cmult k k) e.

Lemma curl_tmE_1 : curl_is (at_pt s k (tmE s k e) 1) x y z (Copp (Cmult zh (at_pt s k (tmH s k) 1 1 x y z))) (Copp (Cmult zh (at_pt s k (tmH s k) 1 2 x y z))) (RtoC 0).
Proof. unfold zh. go. Qed.
Lemma curl_tmH_1 : curl_is (at_pt s k (tmH s k) 1) x y z (Cmult e (at_pt s k (tmE s k e) 1 1 x y z)) (Cmult e (at_pt s k (tmE s k e) 1 2 x y z)) (Cmult (Cdiv e (Cmult s s)) (at_pt s k (tmE s k e) 1 3 x y z)).
Proof. go. Qed.
Lemma curl_tmE_2 : curl_is (at_pt s k (tmE s k e) 2) x y z (Copp (Cmult zh (at_pt s k (tmH s k) 2 1 x y z))) (Copp (Cmult zh (at_pt s k (tmH s k) 2 2 x y z))) (RtoC 0).
Proof. unfold zh. go. Qed.
Lemma curl_tmH_2 : curl_is (at_pt s k (tmH s k) 2) x y z (Cmult e (at_pt s k (tmE s k e) 2 1 x y z)) (Cmult e (at_pt s k (tmE s k e) 2 2 x y z)) (Cmult (Cdiv e (Cmult s s)) (at_pt s k (tmE s k e) 2 3 x y z)).
Proof. go. Qed.
Lemma curl_tmE_3 : curl_is (at_pt s k (tmE s k e) 3) x y z (Copp (Cmult zh (at_pt s k (tmH s k) 3 1 x y z))) (Copp (Cmult zh (at_pt s k (tmH s k) 3 2 x y z))) (RtoC 0).
Proof. unfold zh. go. Qed.
Lemma curl_tmH_3 : curl_is (at_pt s k (tmH s k) 3) x y z (Cmult e (at_pt s k (tmE s k e) 3 1 x y z)) (Cmult e (at_pt s k (tmE s k e) 3 2 x y z)) (Cmult (Cdiv e (Cmult s s)) (at_pt s k (tmE s k e) 3 3 x y z)).
Proof. go. Qed.
Lemma curl_teE_1 : curl_is (at_pt s k (teE s k e) 1) x y z (Copp (Cmult zh (at_pt s k (teH s k) 1 1 x y z))) (Copp (Cmult zh (at_pt s k (teH s k) 1 2 x y z))) (Copp (Cmult (Cdiv zh (Cmult s s)) (at_pt s k (teH s k) 1 3 x y z))).
Proof. unfold zh. go. Qed.
Lemma curl_teH_1 : curl_is (at_pt s k (teH s k) 1) x y z (Cmult e (at_pt s k (teE s k e) 1 1 x y z)) (Cmult e (at_pt s k (teE s k e) 1 2 x y z)) (RtoC 0).
Proof. go. Qed.
Lemma curl_teE_2 : curl_is (at_pt s k (teE s k e) 2) x y z (Copp (Cmult zh (at_pt s k (teH s k) 2 1 x y z))) (Copp (Cmult zh (at_pt s k (teH s k) 2 2 x y z))) (Copp (Cmult (Cdiv zh (Cmult s s)) (at_pt s k (teH s k) 2 3 x y z))).
Proof. unfold zh. go. Qed.
Lemma curl_teH_2 : curl_is (at_pt s k (teH s k) 2) x y z (Cmult e (at_pt s k (teE s k e) 2 1 x y z)) (Cmult e (at_pt s k (teE s k e) 2 2 x y z)) (RtoC 0).
Proof. go. Qed.
Lemma curl_teE_3 : curl_is (at_pt s k (teE s k e) 3) x y z (Copp (Cmult zh (at_pt s k (teH s k) 3 1 x y z))) (Copp (Cmult zh (at_pt s k (teH s k) 3 2 x y z))) (Copp (Cmult (Cdiv zh (Cmult s s)) (at_pt s k (teH s k) 3 3 x y z))).
Proof. unfold zh. go. Qed.
Lemma curl_teH_3 : curl_is (at_pt s k (teH s k) 3) x y z (Cmult e (at_pt s k (teE s k e) 3 1 x y z)) (Cmult e (at_pt s k (teE s k e) 3 2 x y z)) (RtoC 0).
Proof. go. Qed.
End Curl.
