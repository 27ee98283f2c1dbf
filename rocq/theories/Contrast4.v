(** Weak contrasts: an interface without contrast and the separate direct field, also at equal depths of source and receiver. *)

From Coq Require Import Reals ZArith QArith List Bool Lia Lra.
From Coquelicot Require Import Coquelicot.
From Verif Require Import PyBase CBase ODE Kernel KernelSpec KernelClosed KernelPassive KernelPhys KernelMain KernelBVP KernelSplit KernelThm KernelThm2 KernelFinal KernelBessel Utils UtilsAb Fullspace FullspaceThm FullspaceEM FullspaceField Homog HomogThm LayAsym LayConv Model ModelFem KernelCont KernelCont2 KernelCont4 KernelCont7 KernelCont8 KernelCont9 FullCont FullCont2 Contrast Contrast2.
Import ListNotations.
Local Open Scope R_scope.
Local Open Scope C_scope.
Local Open Scope res_scope.

Lemma in_split : forall z N m zi s x, in_layer z N m zi -> in_layer (splz m zi z) (S N) s x -> in_layer z N (old m s) x.
Proof.
  intros z N m zi s x (M1 & M2 & M3) (K1 & K2 & K3). unfold old. destruct (Nat.leb_spec s m) as [L|L].
  - split; [lia|]. split.
    + destruct K2 as [K2|K2]; [now left|]. right. unfold splz in K2. destruct (Nat.leb_spec s m); [exact K2|lia].
    + destruct K3 as [K3|K3]; [lia|]. unfold splz in K3. destruct (Nat.leb_spec (S s) m) as [L1|L1]; [now right|]. assert (s = m) by lia. subst s. rewrite Nat.eqb_refl in K3. destruct M3 as [M3|M3]; [now left|right; lra].
  - split; [lia|]. split.
    + destruct K2 as [K2|K2]; [lia|]. unfold splz in K2. destruct (Nat.leb_spec s m); [lia|]. destruct (Nat.eqb_spec s (S m)) as [E|E]; [|now right]. subst s. replace (S m - 1)%nat with m by lia. destruct M2 as [M2|M2]; [now left|right; lra].
    + destruct K3 as [K3|K3]; [left; lia|]. unfold splz in K3. destruct (Nat.leb_spec (S s) m); [lia|]. destruct (Nat.eqb_spec (S s) (S m)); [lia|]. right. replace (S s - 1)%nat with (S (s - 1)) in K3 by lia. exact K3.
Qed.
Lemma reflected_split : forall eH eV zH zV z N m zi s a b off phi zs zr V, layered eH eV zH zV z N -> in_layer z N m zi -> fs_pair a b ->
  in_layer (splz m zi z) (S N) s zs -> in_layer (splz m zi z) (S N) s zr ->
  hankel_value (spl m eH) (spl m eV) (spl m zH) (spl m zV) (splz m zi z) (S N) (10 * a + b) true off phi zs zr V <-> hankel_value eH eV zH zV z N (10 * a + b) true off phi zs zr V.
Proof.
  intros eH eV zH zV z N m zi s a b off phi zs zr V LY IL HP IS IR. destruct (pair_class a b HP) as (ab & CA & _). destruct (code_class _ ab _ _ CA (ex_intro _ a (ex_intro _ b (conj HP eq_refl)))) as [KA VC].
  pose proof (layered_split _ _ _ _ _ _ _ _ LY IL) as LS. pose proof (ly_passive _ _ _ _ _ _ LY) as PM. pose proof (ly_passive _ _ _ _ _ _ LS) as PS.
  pose proof (lay_in _ _ (ly_z _ _ _ _ _ _ LS) s zs IS) as E1. pose proof (lay_in _ _ (ly_z _ _ _ _ _ _ LS) s zr IR) as E2.
  pose proof (lay_in _ _ (ly_z _ _ _ _ _ _ LY) _ zs (in_split _ _ _ _ _ _ IL IS)) as E3. pose proof (lay_in _ _ (ly_z _ _ _ _ _ _ LY) _ zr (in_split _ _ _ _ _ _ IL IR)) as E4.
  assert (Ks : (s <= S N)%nat) by apply IS. assert (Ko : (old m s <= N)%nat) by (rewrite <- E3; apply lay_le).
  assert (E : forall lam, wcall (spl m eH) (spl m eV) (spl m zH) (spl m zV) (splz m zi z) (S N) lam ab true (3 <? b)%Z (3 <? a)%Z s s zs zr = wcall eH eV zH zV z N lam ab true (3 <? b)%Z (3 <? a)%Z (old m s) (old m s) zs zr).
  { intros lam. rewrite !wcall_gcall. pose proof (split_invariant eH eV zH zV z N lam m zi ab (3 <? b)%Z (3 <? a)%Z zs zr PM (ly_z _ _ _ _ _ _ LY) IL VC) as SI. rewrite E1, E2, E3, E4 in SI.
    pose proof (proj1 (direct_switch _ _ _ _ _ _ lam ab _ _ _ _ zs zr PS VC Ks Ks) eq_refl) as D1. pose proof (proj1 (direct_switch _ _ _ _ _ _ lam ab _ _ _ _ zs zr PM VC Ko Ko) eq_refl) as D2.
    rewrite D1, D2 in SI. destruct (passive_total _ _ _ _ _ _ lam ab true _ _ _ _ zs zr PS VC Ks Ks) as [p [q F1]]. destruct (passive_total _ _ _ _ _ _ lam ab true _ _ _ _ zs zr PM VC Ko Ko) as [p' [q' F2]].
    rewrite F1, F2 in SI |- *. change (only s (spl m eH)) with (only (old m s) eH) in SI. change (only s (spl m eV)) with (only (old m s) eV) in SI. change (only s (spl m zH)) with (only (old m s) zH) in SI. change (only s (spl m zV)) with (only (old m s) zV) in SI.
    assert (ZZ : forall Y, gcall (only (old m s) eH) (only (old m s) eV) (only (old m s) zH) (only (old m s) zV) Y 0 lam ab false (3 <? b)%Z (3 <? a)%Z 0 0 zs zr = gcall (only (old m s) eH) (only (old m s) eV) (only (old m s) zH) (only (old m s) zV) z 0 lam ab false (3 <? b)%Z (3 <? a)%Z 0 0 zs zr) by reflexivity.
    rewrite (ZZ (splz m zi z)) in SI. assert (PM0 : passive_medium (only (old m s) eH) (only (old m s) eV) (only (old m s) zH) (only (old m s) zV) z 0).
    { apply (cst_passive (eH (old m s)) (eV (old m s)) (zH (old m s)) (zV (old m s))); [now apply LY|intros k Hk; lia]. }
    destruct (passive_total _ _ _ _ z 0 lam ab false _ _ 0 0 zs zr PM0 VC (le_n 0) (le_n 0)) as [p0 [q0 F0]]. rewrite F0 in SI. cbn [add2 bind] in SI. apply Ok_inj in SI.
    assert (P : p = p'). { assert (H : p + p0 = p' + p0) by congruence. replace p with (p + p0 - p0) by ring. rewrite H. ring. } assert (Q : q = q'). { assert (H : q + q0 = q' + q0) by congruence. replace q with (q + q0 - q0) by ring. rewrite H. ring. }
    now rewrite P, Q. }
  split; intros (ab' & ms & mr & G & CA' & B & I); rewrite CA in CA'; apply Ok_inj in CA'; assert (X : ab' = ab /\ ms = (3 <? b)%Z /\ mr = (3 <? a)%Z) by (repeat split; congruence); destruct X as (-> & -> & ->);
    exists ab, (3 <? b)%Z, (3 <? a)%Z, G; (split; [exact CA|]); (split; [|exact I]); intros lam; destruct (B lam) as (PJ & F1 & F2); exists PJ; (split; [|exact F2]).
  - rewrite E1, E2 in F1. rewrite E3, E4. now rewrite <- E.
  - rewrite E3, E4 in F1. rewrite E1, E2. now rewrite E.
Qed.
Section User.
Context {T : Type} (F : (T -> Prop) -> Prop) {FF : Filter F}.
Variables (x : T -> earth) (x0 : earth) (N l s : nat) (zi : R) (m : mins) (f zs zr off phi : T -> R) (f0 zs0 zr0 off0 phi0 : R).
Hypothesis (SA0 : sane N x0) (HI : increasing (x_dep x0) N) (IL : in_layer (x_dep x0) N l zi).
Hypothesis (CE : conv_earth F (S N) x (spl_earth l zi x0)) (SAt : F (fun t => sane (S N) (x t))).
Hypothesis (Hm : (0 < min_freq m)%R) (Hf : f0 <> 0%R) (Ho : (0 < off0)%R).
Hypothesis (If : toR F f f0) (Is : toR F zs zs0) (Ir : toR F zr zr0) (Io : toR F off off0) (Ip : toR F phi phi0).
Hypothesis (S0 : in_layer (splz l zi (x_dep x0)) (S N) s zs0) (R0 : in_layer (splz l zi (x_dep x0)) (S N) s zr0).
Variables (a b : Z).
Hypothesis HP : fs_pair a b.
Hypothesis MM : (3 < a)%Z -> (3 < b)%Z -> (0 < f0)%R /\ (0 < x_epH x0 (old l s))%R.
Theorem total_contrast : exists V0 W0, val_user m a b N true f0 x0 off0 phi0 zs0 zr0 V0 /\ fs_user m a b (old l s) f0 x0 off0 phi0 zs0 zr0 = Ok W0 /\
  forall e : R, (0 < e)%R -> F (fun t => exists V W, val_user m a b (S N) true (f t) (x t) (off t) (phi t) (zs t) (zr t) V /\ fs_user m a b s (f t) (x t) (off t) (phi t) (zs t) (zr t) = Ok W /\ (Cmod (Cminus (Cplus V W) (Cplus V0 W0)) < e)%R).
Proof using All.
  assert (HS : increasing (x_dep (spl_earth l zi x0)) (S N)) by (apply splz_inc; [exact HI|apply IL|exact IL]). pose proof (sane_split x0 N l zi (proj1 IL) HS SA0) as SS.
  destruct (total_user F x (spl_earth l zi x0) (S N) s m f zs zr off phi f0 zs0 zr0 off0 phi0 CE SS HS SAt Hm Hf Ho If Is Ir Io Ip S0 R0 a b HP MM) as (V0 & W0 & A & B & H).
  exists V0, W0. split; [|split; [exact B|exact H]].
  exact (proj1 (reflected_split _ _ _ _ _ _ l zi s a b off0 phi0 zs0 zr0 V0 (sane_layered m N f0 x0 Hm SA0 HI) IL HP S0 R0) A).
Qed.
End User.
