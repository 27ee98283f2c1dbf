(** The curl equations for a superposition of TM and TE plane waves in one layer. *)

From Coq Require Import Reals ZArith List Bool Lia Lra Psatz.
From Coquelicot Require Import Coquelicot.
From Verif Require Import PyBase CBase Kernel KernelSpec KernelPhys KernelClosed KernelPassive KernelMain KernelBVP ODE Bessel KernelBessel FullspaceCurl FullspaceEM Cint Sommer Sommer2 Homog HomogThm LayAsym LayConv LayWave LayField.
Local Open Scope R_scope.
Local Open Scope C_scope.

Lemma W_th1 : forall u X Y, trg u -> W (fun t => th 1 t * u t)%R X Y = - W (fun t => kh 2 t * u t)%R X Y.
Proof. intros u X Y Hu. rewrite <- (W_opp (fun t => kh 2 t * u t)%R) by (apply trg_mult; [apply trg_kh|exact Hu]). apply W_ext. intros t. unfold th, kh. cbn [Z.eqb Pos.eqb]. ring. Qed.
Lemma W_th2 : forall u X Y, W (fun t => th 2 t * u t)%R X Y = W (fun t => kh 1 t * u t)%R X Y.
Proof. intros u X Y. apply W_ext. intros t. unfold th, kh. cbn [Z.eqb Pos.eqb]. ring. Qed.
Lemma W_12 : forall u X Y, W (fun t => kh 1 t * (kh 2 t * u t))%R X Y = W (fun t => kh 2 t * (kh 1 t * u t))%R X Y.
Proof. intros u X Y. apply W_ext. intros t. ring. Qed.
Lemma W_k1t2 : forall u X Y, W (fun t => kh 1 t * (th 2 t * u t))%R X Y = W (fun t => kh 1 t * (kh 1 t * u t))%R X Y.
Proof. intros u X Y. apply W_ext. intros t. unfold th, kh. cbn [Z.eqb Pos.eqb]. ring. Qed.
Lemma W_k2t1 : forall u X Y, trg u -> W (fun t => kh 2 t * (th 1 t * u t))%R X Y = - W (fun t => kh 2 t * (kh 2 t * u t))%R X Y.
Proof. intros u X Y Hu. rewrite <- (W_opp (fun t => kh 2 t * (kh 2 t * u t))%R) by (apply trg_mult; [apply trg_kh|]; apply trg_mult; [apply trg_kh|exact Hu]). apply W_ext. intros t. unfold th, kh. cbn [Z.eqb Pos.eqb]. ring. Qed.
Lemma W_k1t1 : forall u X Y, trg u -> W (fun t => kh 1 t * (th 1 t * u t))%R X Y = - W (fun t => kh 2 t * (kh 1 t * u t))%R X Y.
Proof. intros u X Y Hu. rewrite <- (W_opp (fun t => kh 2 t * (kh 1 t * u t))%R) by (apply trg_mult; [apply trg_kh|]; apply trg_mult; [apply trg_kh|exact Hu]). apply W_ext. intros t. unfold th, kh. cbn [Z.eqb Pos.eqb]. ring. Qed.
Lemma W_sq : forall u X Y, trg u -> W (fun t => kh 1 t * (kh 1 t * u t))%R X Y = W u X Y - W (fun t => kh 2 t * (kh 2 t * u t))%R X Y.
Proof.
  intros u X Y Hu. assert (E : W u X Y = W (fun t => kh 1 t * (kh 1 t * u t))%R X Y + W (fun t => kh 2 t * (kh 2 t * u t))%R X Y).
  { rewrite <- W_plus by (apply trg_mult; [apply trg_kh|]; apply trg_mult; [apply trg_kh|exact Hu]). apply W_ext. intros t. unfold kh. cbn [Z.eqb Pos.eqb]. pose proof (sin2_cos2 t) as S. unfold Rsqr in S.
    replace (cos t * (cos t * u t) + sin t * (sin t * u t))%R with ((sin t * sin t + cos t * cos t) * u t)%R by ring. rewrite S. ring. }
  rewrite E. ring.
Qed.

Lemma il2 : forall (l : R) (k a : C), Ci * RtoC l * (k * (Ci * RtoC l * a)) = - (k * RtoC l * RtoC l * a).
Proof. intros l k a. replace (Ci * RtoC l * (k * (Ci * RtoC l * a))) with ((Ci * Ci) * (k * RtoC l * RtoC l * a)) by ring. replace (Ci * Ci) with (- RtoC 1) by (apply injective_projections; cbn; ring). ring. Qed.
Lemma il1 : forall (l : R) (a : C), Ci * RtoC l * - (a) = - (Ci * RtoC l * a). Proof. intros. ring. Qed.

Section Univ.
Variables (eH eV zH zV : C) (gm ge : R -> C) (za zb c : R) (A B A' B' : R -> C) (kap the : R -> R).
Hypothesis NeH : eH <> RtoC 0.
Hypothesis NeV : eV <> RtoC 0.
Hypothesis NzH : zH <> RtoC 0.
Hypothesis NzV : zV <> RtoC 0.
Hypothesis Cm : eb 0 gm.
Hypothesis Ce : eb 0 ge.
Hypothesis Pm : forall lam : R, (0 <= lam)%R -> (0 <= fst (gm lam))%R.
Hypothesis Pe : forall lam : R, (0 <= lam)%R -> (0 <= fst (ge lam))%R.
Hypothesis Sm : forall lam, gm lam * gm lam = eH * (RtoC lam * RtoC lam / eV + zH).
Hypothesis Se : forall lam, ge lam * ge lam = zH * (RtoC lam * RtoC lam / zV + eH).
Hypothesis Hc : (0 < c)%R.
Hypothesis HA : eb c A.
Hypothesis HB : eb c B.
Hypothesis HA' : eb c A'.
Hypothesis HB' : eb c B'.
Hypothesis Hk : trg kap.
Hypothesis Ht : trg the.
Notation F := (fld gm ge za zb).
Definition eI (a : Z) : R -> R -> R -> R -> C :=
  if (a =? 3)%Z then F (fun l => - / eV * il A l) (fun l => - / eV * il B l) kap (fun _ => RtoC 0) (fun _ => RtoC 0) the
  else F (fun l => - / eH * (gm l * A l)) (fun l => / eH * (gm l * B l)) (fun t => kh a t * kap t)%R (fun l => - A' l) (fun l => - B' l) (fun t => th a t * the t)%R.
Definition hI (a : Z) : R -> R -> R -> R -> C :=
  if (a =? 3)%Z then F (fun _ => RtoC 0) (fun _ => RtoC 0) kap (fun l => / zV * il A' l) (fun l => / zV * il B' l) the
  else F (fun l => - A l) (fun l => - B l) (fun t => th a t * kap t)%R (fun l => / zH * (ge l * A' l)) (fun l => - / zH * (ge l * B' l)) (fun t => kh a t * the t)%R.

Lemma eb_ilc : forall f, eb c f -> eb c (il f). Proof. intros f Hf. unfold il. now apply eb_il. Qed.
Ltac ebs := lazymatch goal with
  | |- eb _ (fun _ => RtoC 0) => apply eb_zero
  | |- eb _ (fun l => Cmult ?k (il ?f l)) => apply (eb_scal c k (il f)), eb_ilc; assumption
  | |- eb _ (fun l => Cmult ?k (Cmult (?g l) (?f l))) => apply (eb_scal c k (fun l => g l * f l)), (eb_mult0 c g f); assumption
  | |- eb _ (fun l => Copp (?f l)) => apply (eb_opp c f); assumption
  | |- trg (fun t => Rmult (kh ?a t) (?u t)) => apply (trg_mult (kh a) u); [apply trg_kh|assumption]
  | |- trg (fun t => Rmult (th ?a t) (?u t)) => apply (trg_mult (th a) u); [apply trg_th|assumption]
  | |- _ => assumption end.

Variables (x y z e : R).
Hypothesis He : (0 < e)%R.
Hypothesis Hz : forall w, (Rabs (w - z) < e)%R -> (za <= w <= zb)%R.
Definition near (x' y' z' : R) : Prop := (Rabs (x' - x) < e)%R /\ (Rabs (y' - y) < e)%R /\ (Rabs (z' - z) < e)%R.
Lemma r0 : forall w, (Rabs (w - w) < e)%R. Proof using He. intros. rewrite Rminus_eq_0, Rabs_R0. exact He. Qed.

Lemma gm_eH : forall lam, gm lam * (gm lam * / eH) = RtoC lam * RtoC lam * / eV + zH.
Proof using NeH NeV Sm. intros lam. rewrite Cmult_assoc, Sm. field. split; assumption. Qed.
Lemma ge_zH : forall lam, ge lam * (ge lam * / zH) = RtoC lam * RtoC lam * / zV + eH.
Proof using NzH NzV Se. intros lam. rewrite Cmult_assoc, Se. field. split; assumption. Qed.

Lemma fdx : forall A B u A' B' u' (f : R -> C), (forall w, (Rabs (w - x) < e)%R -> improper (F A B u A' B' u' w y z) (f w)) -> eb c A /\ eb c B /\ eb c A' /\ eb c B' /\ trg u /\ trg u' ->
  exists l, improper (F (il A) (il B) (fun t => kh 1 t * u t)%R (il A') (il B') (fun t => kh 1 t * u' t)%R x y z) l /\ is_deriveC f x l.
Proof using Cm Ce Pm Pe Hc He Hz. intros a b u a' b' u' f I (H1 & H2 & H3 & H4 & H5 & H6). exact (fld_dx gm ge za zb c Cm Ce Pm Pe Hc a b u a' b' u' f x y z e He (Hz z (r0 z)) H1 H2 H3 H4 H5 H6 I). Qed.
Lemma fdy : forall A B u A' B' u' (f : R -> C), (forall w, (Rabs (w - y) < e)%R -> improper (F A B u A' B' u' x w z) (f w)) -> eb c A /\ eb c B /\ eb c A' /\ eb c B' /\ trg u /\ trg u' ->
  exists l, improper (F (il A) (il B) (fun t => kh 2 t * u t)%R (il A') (il B') (fun t => kh 2 t * u' t)%R x y z) l /\ is_deriveC f y l.
Proof using Cm Ce Pm Pe Hc He Hz. intros a b u a' b' u' f I (H1 & H2 & H3 & H4 & H5 & H6). exact (fld_dy gm ge za zb c Cm Ce Pm Pe Hc a b u a' b' u' f x y z e He (Hz z (r0 z)) H1 H2 H3 H4 H5 H6 I). Qed.
Lemma fdz : forall A B u A' B' u' (f : R -> C), (forall w, (Rabs (w - z) < e)%R -> improper (F A B u A' B' u' x y w) (f w)) -> eb c A /\ eb c B /\ eb c A' /\ eb c B' /\ trg u /\ trg u' ->
  exists l, improper (F (fun l => - gm l * A l) (fun l => gm l * B l) u (fun l => - ge l * A' l) (fun l => ge l * B' l) u' x y z) l /\ is_deriveC f z l.
Proof using Cm Ce Pm Pe Hc He Hz. intros a b u a' b' u' f I (H1 & H2 & H3 & H4 & H5 & H6). exact (fld_dz gm ge za zb c Cm Ce Pm Pe Hc a b u a' b' u' f x y z e He Hz H1 H2 H3 H4 H5 H6 I). Qed.
Lemma close_eq : forall (F1 F2 G : R -> C) l1 l2 (k v : C), improper F1 l1 -> improper F2 l2 -> improper G v -> (forall lam, F1 lam - F2 lam = k * G lam) -> l1 - l2 = k * v.
Proof.
  intros F1 F2 G l1 l2 k v I1 I2 IG E. pose proof (improper_sub _ _ _ _ I1 I2) as I. pose proof (improper_scal k G v IG) as J.
  apply (improper_unique (fun x => F1 x - F2 x)); [exact I|]. apply (improper_ext _ (fun x => k * G x)); [intros; apply E|exact J].
Qed.
Ltac ebs6 := split; [ebs|split; [ebs|split; [ebs|split; [ebs|split; [ebs|ebs]]]]].
Ltac alg := intros lam; unfold eI, hI; cbn [Z.eqb Pos.eqb]; unfold fld, term, ud, il;
  try change (W (fun t => th 2 t * kap t)%R (lam * x) (lam * y)) with (W (fun t => kh 1 t * kap t)%R (lam * x) (lam * y)); try change (W (fun t => kh 1 t * (th 2 t * kap t))%R (lam * x) (lam * y)) with (W (fun t => kh 1 t * (kh 1 t * kap t))%R (lam * x) (lam * y)); try rewrite (W_12 kap); try change (W (fun t => th 2 t * the t)%R (lam * x) (lam * y)) with (W (fun t => kh 1 t * the t)%R (lam * x) (lam * y)); try change (W (fun t => kh 1 t * (th 2 t * the t))%R (lam * x) (lam * y)) with (W (fun t => kh 1 t * (kh 1 t * the t))%R (lam * x) (lam * y)); try rewrite (W_12 the);
  try rewrite (W_th1 kap (lam * x)%R (lam * y)%R Hk); try rewrite (W_k2t1 kap (lam * x)%R (lam * y)%R Hk); try rewrite (W_k1t1 kap (lam * x)%R (lam * y)%R Hk); try rewrite (W_sq kap (lam * x)%R (lam * y)%R Hk); try rewrite (W_th1 the (lam * x)%R (lam * y)%R Ht); try rewrite (W_k2t1 the (lam * x)%R (lam * y)%R Ht); try rewrite (W_k1t1 the (lam * x)%R (lam * y)%R Ht); try rewrite (W_sq the (lam * x)%R (lam * y)%R Ht);
  repeat match goal with |- context [W ?u ?X ?Y] => generalize (W u X Y); intro end;
  repeat match goal with |- context [Cexp ?a] => generalize (Cexp a); intro end;
  pose proof (gm_eH lam) as KM; pose proof (ge_zH lam) as KE;
  generalize dependent (gm lam); intros km KM; generalize dependent (ge lam); intros ke KE;
  assert (M1 : forall a, - km * (- / eH * (km * a)) = (RtoC lam * RtoC lam * / eV + zH) * a) by (intros; rewrite <- KM; ring);
  assert (M2 : forall a, km * (/ eH * (km * a)) = (RtoC lam * RtoC lam * / eV + zH) * a) by (intros; rewrite <- KM; ring);
  assert (E1 : forall a, - ke * (/ zH * (ke * a)) = - (RtoC lam * RtoC lam * / zV + eH) * a) by (intros; rewrite <- KE; ring);
  assert (E2 : forall a, ke * (- / zH * (ke * a)) = - (RtoC lam * RtoC lam * / zV + eH) * a) by (intros; rewrite <- KE; ring);
  rewrite ?il2, ?M1, ?M2, ?E1, ?E2; field; repeat split; assumption.

Theorem univ_maxwell : forall E H : Z -> R -> R -> R -> C,
  (forall a x' y' z', (1 <= a <= 3)%Z -> near x' y' z' -> improper (eI a x' y' z') (E a x' y' z') /\ improper (hI a x' y' z') (H a x' y' z')) ->
  maxwell eH eV zH zV E H x y z.
Proof using All.
  intros E H HI. pose proof (r0 x) as Rx. pose proof (r0 y) as Ry. pose proof (r0 z) as Rz. pose proof (Hz z Rz) as Zz.
  assert (N0 : near x y z) by (repeat split; assumption).
  assert (DX : forall a, (1 <= a <= 3)%Z -> forall w, (Rabs (w - x) < e)%R -> improper (eI a w y z) (E a w y z) /\ improper (hI a w y z) (H a w y z)) by (intros; apply HI; [assumption|repeat split; assumption]).
  assert (DY : forall a, (1 <= a <= 3)%Z -> forall w, (Rabs (w - y) < e)%R -> improper (eI a x w z) (E a x w z) /\ improper (hI a x w z) (H a x w z)) by (intros; apply HI; [assumption|repeat split; assumption]).
  assert (DZ : forall a, (1 <= a <= 3)%Z -> forall w, (Rabs (w - z) < e)%R -> improper (eI a x y w) (E a x y w) /\ improper (hI a x y w) (H a x y w)) by (intros; apply HI; [assumption|repeat split; assumption]).
  assert (XE : forall a, (1 <= a <= 3)%Z -> _) by exact (fun a Ha w Hw => proj1 (DX a Ha w Hw)). assert (XH : forall a, (1 <= a <= 3)%Z -> _) by exact (fun a Ha w Hw => proj2 (DX a Ha w Hw)).
  assert (YE : forall a, (1 <= a <= 3)%Z -> _) by exact (fun a Ha w Hw => proj1 (DY a Ha w Hw)). assert (YH : forall a, (1 <= a <= 3)%Z -> _) by exact (fun a Ha w Hw => proj2 (DY a Ha w Hw)).
  assert (ZE : forall a, (1 <= a <= 3)%Z -> _) by exact (fun a Ha w Hw => proj1 (DZ a Ha w Hw)). assert (ZH : forall a, (1 <= a <= 3)%Z -> _) by exact (fun a Ha w Hw => proj2 (DZ a Ha w Hw)).
  assert (V0 : forall a, (1 <= a <= 3)%Z -> improper (eI a x y z) (E a x y z) /\ improper (hI a x y z) (H a x y z)) by (intros; now apply HI).
  assert (I1 : (1 <= 1 <= 3)%Z) by lia. assert (I2 : (1 <= 2 <= 3)%Z) by lia. assert (I3 : (1 <= 3 <= 3)%Z) by lia.
  clear HI DX DY DZ.
  split; (split; [|split]).
  - destruct (fdy _ _ _ _ _ _ (fun t => E 3%Z x t z) (YE 3%Z I3)) as (l1 & L1 & D1); [ebs6|].
    destruct (fdz _ _ _ _ _ _ (fun t => E 2%Z x y t) (ZE 2%Z I2)) as (l2 & L2 & D2); [ebs6|].
    exists l1, l2. split; [exact D1|split; [exact D2|]].
    pose proof (V0 1%Z I1) as [VE VH]. rewrite (close_eq _ _ _ _ _ (- zH) _ L1 L2 VH); [ring|]. clear -NeH NeV NzH NzV Hk Ht Sm Se. alg.
  - destruct (fdz _ _ _ _ _ _ (fun t => E 1%Z x y t) (ZE 1%Z I1)) as (l1 & L1 & D1); [ebs6|].
    destruct (fdx _ _ _ _ _ _ (fun t => E 3%Z t y z) (XE 3%Z I3)) as (l2 & L2 & D2); [ebs6|].
    exists l1, l2. split; [exact D1|split; [exact D2|]].
    pose proof (V0 2%Z I2) as [VE VH]. rewrite (close_eq _ _ _ _ _ (- zH) _ L1 L2 VH); [ring|]. clear -NeH NeV NzH NzV Hk Ht Sm Se. alg.
  - destruct (fdx _ _ _ _ _ _ (fun t => E 2%Z t y z) (XE 2%Z I2)) as (l1 & L1 & D1); [ebs6|].
    destruct (fdy _ _ _ _ _ _ (fun t => E 1%Z x t z) (YE 1%Z I1)) as (l2 & L2 & D2); [ebs6|].
    exists l1, l2. split; [exact D1|split; [exact D2|]].
    pose proof (V0 3%Z I3) as [VE VH]. rewrite (close_eq _ _ _ _ _ (- zV) _ L1 L2 VH); [ring|]. clear -NeH NeV NzH NzV Hk Ht Sm Se. alg.
  - destruct (fdy _ _ _ _ _ _ (fun t => H 3%Z x t z) (YH 3%Z I3)) as (l1 & L1 & D1); [ebs6|].
    destruct (fdz _ _ _ _ _ _ (fun t => H 2%Z x y t) (ZH 2%Z I2)) as (l2 & L2 & D2); [ebs6|].
    exists l1, l2. split; [exact D1|split; [exact D2|]].
    pose proof (V0 1%Z I1) as [VE VH]. rewrite (close_eq _ _ _ _ _ (eH) _ L1 L2 VE); [ring|]. clear -NeH NeV NzH NzV Hk Ht Sm Se. alg.
  - destruct (fdz _ _ _ _ _ _ (fun t => H 1%Z x y t) (ZH 1%Z I1)) as (l1 & L1 & D1); [ebs6|].
    destruct (fdx _ _ _ _ _ _ (fun t => H 3%Z t y z) (XH 3%Z I3)) as (l2 & L2 & D2); [ebs6|].
    exists l1, l2. split; [exact D1|split; [exact D2|]].
    pose proof (V0 2%Z I2) as [VE VH]. rewrite (close_eq _ _ _ _ _ (eH) _ L1 L2 VE); [ring|]. clear -NeH NeV NzH NzV Hk Ht Sm Se. alg.
  - destruct (fdx _ _ _ _ _ _ (fun t => H 2%Z t y z) (XH 2%Z I2)) as (l1 & L1 & D1); [ebs6|].
    destruct (fdy _ _ _ _ _ _ (fun t => H 1%Z x t z) (YH 1%Z I1)) as (l2 & L2 & D2); [ebs6|].
    exists l1, l2. split; [exact D1|split; [exact D2|]].
    pose proof (V0 3%Z I3) as [VE VH]. rewrite (close_eq _ _ _ _ _ (eV) _ L1 L2 VE); [ring|]. clear -NeH NeV NzH NzV Hk Ht Sm Se. alg.
Qed.
End Univ.
