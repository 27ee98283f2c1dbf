(** The kernel's component codes as superpositions of TM and TE waves in the receiver layer. *)

From Coq Require Import Reals ZArith List Bool Lia Lra Psatz.
From Coquelicot Require Import Coquelicot.
From Verif Require Import PyBase CBase Kernel KernelSpec KernelPhys KernelClosed KernelPassive KernelMain KernelBVP ODE Bessel KernelBessel KernelThm KernelFinal FullspaceThm FullspaceCurl FullspaceEM Cint Sommer Sommer2 Homog HomogThm LayAsym LayConv LayWave LayField LayMaxwell.
Import ListNotations.
Local Open Scope R_scope.
Local Open Scope C_scope.

(** ** Up- and down-going waves between two depths of the receiver layer *)
Definition cdn (e g : nat -> C) (z : nat -> R) (N : nat) (pm : C) (s k : nat) (zs za : R) : C :=
  (G_mode e g z N pm 1 s k zs za false - G_mode e g z N pm (- (1)) s k zs za false) / 2.
Definition cup (e g : nat -> C) (z : nat -> R) (N : nat) (pm : C) (s k : nat) (zs zb : R) : C :=
  (G_mode e g z N pm 1 s k zs zb false + G_mode e g z N pm (- (1)) s k zs zb false) / 2.

Lemma half_dbl : forall a : C, (a + a) / 2 = a.
Proof. intros a. replace (RtoC 2) with (1 + 1) by (rewrite <- RtoC_plus; f_equal; lra). field. intros W. apply (f_equal fst) in W. cbn in W. lra. Qed.

Lemma rep_wave : forall (g : nat -> C) k zs za zb (a b : C) (G : C -> R -> C), (za <= zb)%R ->
  (forall sg x, pm1 sg -> (za <= x <= zb)%R -> G sg x = wave g k zs a b sg x) ->
  forall sg x, pm1 sg -> (za <= x <= zb)%R ->
  G sg x = sg * ((G 1 za - G (- (1)) za) / 2) * dec g k (x - za) + (G 1 zb + G (- (1)) zb) / 2 * dec g k (zb - x).
Proof.
  intros g k zs za zb a b G Hab HG sg x Hs Hx. assert (P1 : pm1 1) by now left. assert (P2 : pm1 (- (1))) by now right.
  rewrite !(HG _ za) by (assumption || lra). rewrite !(HG _ zb) by (assumption || lra). rewrite HG by assumption. unfold wave.
  replace (1 * a * dec g k (za - zs) + b * dec g k (zs - za) - (- (1) * a * dec g k (za - zs) + b * dec g k (zs - za))) with (a * dec g k (za - zs) + a * dec g k (za - zs)) by ring.
  replace (1 * a * dec g k (zb - zs) + b * dec g k (zs - zb) + (- (1) * a * dec g k (zb - zs) + b * dec g k (zs - zb))) with (b * dec g k (zs - zb) + b * dec g k (zs - zb)) by ring.
  rewrite !half_dbl. replace (x - zs)%R with (za - zs + (x - za))%R by ring. replace (zs - x)%R with (zs - zb + (zb - x))%R by ring. rewrite !dec_plus. ring.
Qed.

Lemma mode_rep : forall e g z N pm s zs k za zb, pm1 pm -> (s <= N)%nat -> (k <= N)%nat -> (za <= zb)%R -> (k = s -> (zs < za)%R \/ (zb < zs)%R) ->
  forall sg x, pm1 sg -> (za <= x <= zb)%R ->
  G_mode e g z N pm sg s k zs x false = sg * cdn e g z N pm s k zs za * dec g k (x - za) + cup e g z N pm s k zs zb * dec g k (zb - x).
Proof.
  intros e g z N pm s zs k za zb Hpm Hs Hk Hab Hd. unfold cdn, cup.
  assert (D : ((s <= k)%nat /\ (k = s -> (zs < za)%R)) \/ ((k <= s)%nat /\ (k = s -> (zb < zs)%R))).
  { destruct (lt_eq_lt_dec s k) as [[L|L]|L]; [left|subst; destruct (Hd eq_refl); [left|right]|right]; split; try lia; intros; assumption || lia. }
  destruct D as [[D1 D2]|[D1 D2]].
  - destruct (wf_below e g z N pm s zs Hs k (conj D1 Hk)) as (a & b & _ & HG).
    apply (rep_wave g k zs za zb a b (fun sg x => G_mode e g z N pm sg s k zs x false) Hab). intros sg x _ Hx. apply HG. intros E. specialize (D2 E). lra.
  - destruct (wf_above e g z N pm s zs Hpm Hs k D1) as (a & b & _ & HG).
    apply (rep_wave g k zs za zb a b (fun sg x => G_mode e g z N pm sg s k zs x false) Hab). intros sg x P Hx. apply HG; [exact P|]. intros E. specialize (D2 E). lra.
Qed.

(** ** The angular integral of the spectrum *)
Lemma pw_pl : forall X phi t, pw X phi t = pl (X * cos phi) (X * sin phi) t.
Proof. intros X phi t. unfold pw, pl. rewrite cos_minus. replace (X * (cos t * cos phi + sin t * sin phi))%R with (X * cos phi * cos t + X * sin phi * sin t)%R by ring. reflexivity. Qed.
Lemma W_lin : forall (f : R -> C) (c1 c2 : C) u1 u2 X Y, trg u1 -> trg u2 -> (forall t, f t = c1 * RtoC (u1 t) + c2 * RtoC (u2 t)) ->
  CInt (fun t => f t * pl X Y t) = c1 * W u1 X Y + c2 * W u2 X Y.
Proof.
  intros f c1 c2 u1 u2 X Y H1 H2 E. change (CI (fun t => f t * pl X Y t) 0 (2 * PI) = c1 * CI (fun t => RtoC (u1 t) * pl X Y t) 0 (2 * PI) + c2 * CI (fun t => RtoC (u2 t) * pl X Y t) 0 (2 * PI)).
  pose proof (cC_pl u1 X Y (proj1 H1)) as K1. pose proof (cC_pl u2 X Y (proj1 H2)) as K2.
  rewrite <- !CI_scal by assumption. rewrite <- CI_plus by (apply cC_mult; [apply cC_const|assumption]). apply CI_ext. intros t. rewrite E. ring.
Qed.
Lemma kh_pi : forall i t, kh i (t + PI) = (- kh i t)%R.
Proof. intros i t. unfold kh. destruct (i =? 1)%Z; [apply neg_cos|apply neg_sin]. Qed.
Lemma th_pi : forall i t, th i (t + PI) = (- th i t)%R.
Proof. intros i t. unfold th. destruct (i =? 1)%Z; [rewrite neg_sin; ring|apply neg_cos]. Qed.
Lemma per2 : forall (u : R -> R) (s : R), (s = 1 \/ s = -1)%R -> (forall t, u (t + PI) = s * u t)%R -> periodic u.
Proof. intros u s Hs H t. replace (t + 2 * PI)%R with (t + PI + PI)%R by ring. rewrite !H. destruct Hs; subst; ring. Qed.
Lemma W_par : forall u (s : R) X Y, trg u -> (s = 1 \/ s = -1)%R -> (forall t, u (t + PI) = s * u t)%R -> W u (- X) (- Y) = RtoC s * W u X Y.
Proof.
  intros u s X Y [Hu Hb] Hs H. pose proof (per2 u s Hs H) as P. pose proof (cC_pl u X Y Hu) as K.
  assert (E : W u X Y = RtoC s * W u (- X) (- Y)).
  { change (W u X Y = RtoC s * CI (fun t => RtoC (u t) * pl (- X) (- Y) t) 0 (2 * PI)). rewrite <- CI_scal by now apply cC_pl.
    transitivity (CInt (fun t => RtoC (u (t + PI)%R) * pl X Y (t + PI))).
    - unfold W, CInt. f_equal.
      + symmetry. apply (RInt_period (fun t => fst (RtoC (u t) * pl X Y t)) PI); [intros t; apply K|].
        intros t. cbn [fst snd Cmult RtoC pl]. rewrite P. unfold pl; cbn [fst snd]. replace (t + 2 * PI)%R with (t + 2 * INR 1 * PI)%R by (cbn; ring). now rewrite cos_period, sin_period.
      + symmetry. apply (RInt_period (fun t => snd (RtoC (u t) * pl X Y t)) PI); [intros t; apply K|].
        intros t. cbn [fst snd Cmult RtoC pl]. rewrite P. unfold pl; cbn [fst snd]. replace (t + 2 * PI)%R with (t + 2 * INR 1 * PI)%R by (cbn; ring). now rewrite cos_period, sin_period.
    - change (CI (fun t => RtoC (u (t + PI)%R) * pl X Y (t + PI)) 0 (2 * PI) = CI (fun t => RtoC s * (RtoC (u t) * pl (- X) (- Y) t)) 0 (2 * PI)). apply CI_ext. intros t. rewrite H, RtoC_mult. unfold pl. rewrite neg_cos, neg_sin.
      replace (X * - cos t + Y * - sin t)%R with (- X * cos t + - Y * sin t)%R by ring. ring. }
  rewrite E, Cmult_assoc, <- RtoC_mult. replace (s * s)%R with 1%R by (destruct Hs; subst; ring). ring.
Qed.

(** Coefficients and directions of the spectrum. *)
Definition cs1 (ab : Z) (lam : R) (p : C) : C :=
  if (recc ab =? 3)%Z then if (srcc ab =? 3)%Z then RtoC (lam * lam) * p else - (Ci * RtoC lam * p)
  else if (srcc ab =? 3)%Z then - (Ci * RtoC lam * p) else if (srcc ab =? 6)%Z then RtoC 0 else p.
Definition cs2 (ab : Z) (lam : R) (q : C) : C :=
  if (recc ab =? 3)%Z then RtoC 0
  else if (srcc ab =? 3)%Z then RtoC 0 else if (srcc ab =? 6)%Z then Ci * RtoC lam * q else if (srcc ab <? 3)%Z then - q else q.
Definition us1 (ab : Z) (t : R) : R :=
  let a := recc ab in let b := srcc ab in
  if (a =? 3)%Z then if (b =? 3)%Z then 1%R else if (b <? 3)%Z then kh b t else th (b - 3) t
  else if (b =? 3)%Z then kh a t else if (b =? 6)%Z then th a t else if (b <? 3)%Z then (kh a t * kh b t)%R else (kh a t * th (b - 3) t)%R.
Definition us2 (ab : Z) (t : R) : R :=
  let a := recc ab in let b := srcc ab in
  if (a =? 3)%Z then us1 ab t
  else if (b =? 3)%Z then kh a t else if (b =? 6)%Z then th a t else if (b <? 3)%Z then (th a t * th b t)%R else (th a t * kh (b - 3) t)%R.
Definition spar (ab : Z) : R :=
  if (recc ab =? 3)%Z then if (srcc ab =? 3)%Z then 1%R else (-1)%R else if (srcc ab =? 3)%Z || (srcc ab =? 6)%Z then (-1)%R else 1%R.

Lemma spec_split : forall ab lam p q t, spectrum ab lam p q t = cs1 ab lam p * RtoC (us1 ab t) + cs2 ab lam q * RtoC (us2 ab t).
Proof.
  intros ab lam p q t. unfold spectrum, cs1, cs2, us2, us1.
  destruct (recc ab =? 3)%Z; destruct (srcc ab =? 3)%Z; try destruct (srcc ab =? 6)%Z; try destruct (srcc ab <? 3)%Z; rewrite ?RtoC_mult; ring.
Qed.
Lemma us_trg : forall ab, trg (us1 ab) /\ trg (us2 ab).
Proof.
  intros ab. unfold us2, us1. pose proof trg_1 as T1. pose proof trg_kh as K. pose proof trg_th as T.
  assert (M : forall f g, (forall i, trg (f i)) -> (forall i, trg (g i)) -> forall i j : Z, trg (fun t => f i t * g j t)%R) by (intros; now apply trg_mult).
  destruct (recc ab =? 3)%Z; destruct (srcc ab =? 3)%Z; try destruct (srcc ab =? 6)%Z; try destruct (srcc ab <? 3)%Z; split; first [exact T1|apply K|apply T|apply (M kh kh K K)|apply (M th th T T)|apply (M kh th K T)|apply (M th kh T K)].
Qed.
Lemma us_par : forall ab t, (us1 ab (t + PI) = spar ab * us1 ab t)%R /\ (us2 ab (t + PI) = spar ab * us2 ab t)%R.
Proof.
  intros ab t. unfold us2, us1, spar.
  destruct (recc ab =? 3)%Z; destruct (srcc ab =? 3)%Z; try destruct (srcc ab =? 6)%Z; try destruct (srcc ab <? 3)%Z; cbn [orb]; rewrite ?kh_pi, ?th_pi; split; ring.
Qed.
Lemma spec_W : forall ab lam p q X phi, CInt (fun t => spectrum ab lam p q t * pw X phi t)
  = cs1 ab lam p * W (us1 ab) (X * cos phi) (X * sin phi) + cs2 ab lam q * W (us2 ab) (X * cos phi) (X * sin phi).
Proof.
  intros ab lam p q X phi. destruct (us_trg ab) as [U1 U2]. rewrite <- (W_lin (spectrum ab lam p q)); [|exact U1|exact U2|intros; apply spec_split].
  apply CInt_ext. intros t. now rewrite pw_pl.
Qed.
Lemma spec_W_pi : forall ab lam p q X phi, CInt (fun t => spectrum ab lam p q t * pw X (phi + PI) t)
  = RtoC (spar ab) * (cs1 ab lam p * W (us1 ab) (X * cos phi) (X * sin phi) + cs2 ab lam q * W (us2 ab) (X * cos phi) (X * sin phi)).
Proof.
  intros ab lam p q X phi. rewrite spec_W. rewrite neg_cos, neg_sin. destruct (us_trg ab) as [U1 U2].
  assert (S : (spar ab = 1 \/ spar ab = -1)%R) by (unfold spar; destruct (_ =? _)%Z; destruct (_ =? _)%Z; try destruct (_ =? _)%Z; cbn [orb]; tauto).
  replace (X * - cos phi)%R with (- (X * cos phi))%R by ring. replace (X * - sin phi)%R with (- (X * sin phi))%R by ring.
  rewrite (W_par (us1 ab) (spar ab)); [|exact U1|exact S|intros; apply us_par]. rewrite (W_par (us2 ab) (spar ab)); [|exact U2|exact S|intros; apply us_par]. ring.
Qed.
