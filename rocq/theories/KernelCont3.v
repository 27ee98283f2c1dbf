(** The result of the digital linear filter depends continuously on all parameters. *)

From Coq Require Import Reals ZArith List Bool Lia Lra.
From Coquelicot Require Import Coquelicot.
From Verif Require Import PyBase CBase ODE Sommer Cint Kernel KernelSpec KernelClosed KernelPassive KernelPhys KernelMain KernelBVP KernelThm KernelThm2 KernelDeep KernelFinal LayDeep3 Transform TransformDlf Model ModelFem KernelCont KernelCont2.
Import ListNotations.
Local Open Scope R_scope.
Local Open Scope C_scope.
Local Open Scope res_scope.

Definition gval1 (x : res (C * C)) : C := match x with Ok (p, _) => p | Err _ => RtoC 0 end.
Definition gval2 (x : res (C * C)) : C := match x with Ok (_, q) => q | Err _ => RtoC 0 end.

Section Lim.
Context {T : Type} (F : (T -> Prop) -> Prop) {FF : Filter F}.
Notation toR := (toR F).
Notation toC := (toC F).

Lemma c_collect : forall ab mrec lam p q lam0 p0 q0, toR lam lam0 -> toC p p0 -> toC q q0 ->
  toC (fun t => oval (t0 (collect ab mrec (lam t) (p t) (q t)))) (oval (t0 (collect ab mrec lam0 p0 q0))) /\
  toC (fun t => oval (t1 (collect ab mrec (lam t) (p t) (q t)))) (oval (t1 (collect ab mrec lam0 p0 q0))) /\
  toC (fun t => oval (t0b (collect ab mrec (lam t) (p t) (q t)))) (oval (t0b (collect ab mrec lam0 p0 q0))).
Proof using FF.
  intros ab mrec lam p q lam0 p0 q0 Il Ip Iq.
  assert (P4 : RtoC (4 * PI) <> 0). { intros X. apply (f_equal fst) in X. cbn [fst RtoC] in X. pose proof PI_RGT_0. lra. }
  assert (Pt : toC (fun t => Cdiv (Cplus (p t) (q t)) (RtoC (4 * PI))) (Cdiv (Cplus p0 q0) (RtoC (4 * PI)))).
  { apply toC_div; [assumption|exact P4| |now apply toC_const]. now apply toC_plus. }
  assert (L1 : toC (fun t => RtoC (lam t)) (RtoC lam0)) by now apply toC_RtoC.
  assert (L2 : toC (fun t => RtoC (lam t * lam t)) (RtoC (lam0 * lam0))) by (apply toC_RtoC; [assumption|now apply toR_mult]).
  assert (L3 : toC (fun t => RtoC (lam t * lam t * lam t)) (RtoC (lam0 * lam0 * lam0))) by (apply toC_RtoC; [assumption|apply toR_mult; [assumption|now apply toR_mult|assumption]]).
  assert (LD : forall c : R, toC (fun t => RtoC (lam t / c)) (RtoC (lam0 / c))) by (intros c; apply toC_RtoC; [assumption|apply toR_mult; [assumption..|now apply toR_const]]).
  assert (LM : toC (fun t => Cminus (p t) (q t)) (Cminus p0 q0)) by now apply toC_minus.
  assert (KM : forall (c : C) f l, toC f l -> toC (fun t => Cmult c (f t)) (Cmult c l)) by (intros c f l H; apply toC_mult; [assumption|now apply toC_const|exact H]).
  assert (MM : forall f h (a b : C), toC f a -> toC h b -> toC (fun t => Cmult (f t) (h t)) (Cmult a b)) by (intros; now apply toC_mult).
  unfold collect. cbv zeta.
  destruct (inb ab [11; 12; 21; 22; 14; 24; 15; 25]%Z); destruct (inb ab [11; 22; 24; 15]%Z);
  destruct (inb ab [13; 23; 31; 32; 34; 35; 16; 26]%Z); destruct (inb ab [33]%Z); destruct (inb ab [11; 22; 24; 15; 33]%Z);
  cbn [t0 t1 t0b oval fst snd negb]; (split; [|split]); first [now apply toC_const|apply MM; [apply KM; exact Pt|assumption]|apply KM; exact Pt|apply MM; [exact LM|apply LD]].
Qed.
Lemma c_fsum : forall w base (k : T -> R -> C) (k0 : R -> C) r r0, (0 < r0)%R -> toR r r0 ->
  (forall l l0, toR l l0 -> toC (fun t => k t (l t)) (k0 l0)) -> toC (fun t => fsum w base (k t) (r t)) (fsum w base k0 r0).
Proof using FF.
  induction w as [|x w IH]; intros base k k0 r r0 P Ir H; [destruct base; now apply toC_const|]. destruct base as [|b base]; [now apply toC_const|]. cbn [fsum].
  apply toC_plus; [assumption| |now apply IH]. apply toC_mult; [assumption| |now apply toC_const].
  apply (H (fun t => (b / r t)%R)). unfold Rdiv. apply toR_mult; [assumption|now apply toR_const|]. apply toR_inv; [assumption|lra|exact Ir].
Qed.

Section All.
Variables (eH eV zH zV : T -> nat -> C) (z : T -> nat -> R) (zs zr off ang : T -> R) (eH0 eV0 zH0 zV0 : nat -> C) (z0 : nat -> R) (zs0 zr0 off0 ang0 : R) (N : nat).
Hypothesis IeH : forall k, (k <= N)%nat -> toC (fun t => eH t k) (eH0 k).
Hypothesis IeV : forall k, (k <= N)%nat -> toC (fun t => eV t k) (eV0 k).
Hypothesis IzH : forall k, (k <= N)%nat -> toC (fun t => zH t k) (zH0 k).
Hypothesis IzV : forall k, (k <= N)%nat -> toC (fun t => zV t k) (zV0 k).
Hypothesis Iz : forall k, (1 <= k <= N)%nat -> toR (fun t => z t k) (z0 k).
Hypothesis Is : toR zs zs0.
Hypothesis Ir : toR zr zr0.
Hypothesis Io : toR off off0.
Hypothesis Ia : toR ang ang0.
Hypothesis Hoff : (0 < off0)%R.
Hypothesis PM0 : passive_medium eH0 eV0 zH0 zV0 z0 N.
Hypothesis PM : F (fun t => passive_medium (eH t) (eV t) (zH t) (zV t) (z t) N).
Notation row t := (mkrow (arr (eH t) N) (arr (eV t) N) (arr (zH t) N) (arr (zV t) N)).
Notation row0 := (mkrow (arr eH0 N) (arr eV0 N) (arr zH0 N) (arr zV0 N)).

Lemma kern_gcall : forall a b c d y l ab xd ms mr s r x w, passive_medium a b c d y N -> valid_call ab ms mr -> (s <= N)%nat -> (r <= N)%nat ->
  kern x w s r y N ab xd ms mr (mkrow (arr a N) (arr b N) (arr c N) (arr d N)) l = collect ab mr l (gval1 (gcall a b c d y N l ab xd ms mr s r x w)) (gval2 (gcall a b c d y N l ab xd ms mr s r x w)).
Proof.
  intros a b c d y l ab xd ms mr s r x w P HV Hs Hr. unfold kern, wavenumber. cbn [r_eH r_eV r_zH r_zV].
  destruct (passive_total a b c d y N l ab xd ms mr s r x w P HV Hs Hr) as (p & q & E). rewrite E. unfold gcall in E. rewrite E. reflexivity.
Qed.
Theorem dlf_value_fixed : forall filt ab xd msrc mrec s r, valid_call ab msrc mrec -> (s <= N)%nat -> (r <= N)%nat -> (xd = false -> zs0 <> zr0) ->
  toC (fun t => dlf_value filt ab (fun l => let G := gcall (eH t) (eV t) (zH t) (zV t) (z t) N l ab xd msrc mrec s r (zs t) (zr t) in collect ab mrec l (gval1 G) (gval2 G)) (off t) (ang t))
    (dlf_value filt ab (fun l => let G := gcall eH0 eV0 zH0 zV0 z0 N l ab xd msrc mrec s r zs0 zr0 in collect ab mrec l (gval1 G) (gval2 G)) off0 ang0).
Proof using All.
  intros filt ab xd msrc mrec s r HV Hs Hr X. cbv zeta.
  assert (G : forall l l0, toR l l0 ->
    toC (fun t => gval1 (gcall (eH t) (eV t) (zH t) (zV t) (z t) N (l t) ab xd msrc mrec s r (zs t) (zr t))) (gval1 (gcall eH0 eV0 zH0 zV0 z0 N l0 ab xd msrc mrec s r zs0 zr0)) /\
    toC (fun t => gval2 (gcall (eH t) (eV t) (zH t) (zV t) (z t) N (l t) ab xd msrc mrec s r (zs t) (zr t))) (gval2 (gcall eH0 eV0 zH0 zV0 z0 N l0 ab xd msrc mrec s r zs0 zr0))).
  { intros l l0 L. destruct (green_fixed F eH eV zH zV z l zs zr eH0 eV0 zH0 zV0 z0 l0 zs0 zr0 N IeH IeV IzH IzV Iz L Is Ir PM0 PM ab xd msrc mrec s r HV Hs Hr X) as (p & q & E & H).
    rewrite E. cbn [gval1 gval2]. split; apply toC_eps; try assumption; intros e He; (eapply filter_imp; [|exact (H e He)]); intros t (p' & q' & E' & A & B); rewrite E'; assumption. }
  assert (R0 : RtoC off0 <> 0). { intros Y. apply (f_equal fst) in Y. cbn [fst RtoC] in Y. lra. }
  assert (Ro : toC (fun t => RtoC (off t)) (RtoC off0)) by now apply toC_RtoC.
  unfold dlf_value, sum_noang, sum_ang, part_of. cbv zeta.
  apply toC_div; [assumption|exact R0| |exact Ro]. apply toC_plus; [assumption| |apply toC_mult; [assumption|now apply toC_RtoC|apply toC_plus; [assumption| |]]].
  - apply c_fsum; [assumption..|]. intros l l0 L. destruct (G l l0 L) as [A B]. apply (c_collect ab mrec l _ _ l0 _ _ L A B).
  - assert (Z : toC (fun t => fsum (f_j1 filt) (f_base filt) (fun l => oval (t1 (collect ab mrec l (gval1 (gcall (eH t) (eV t) (zH t) (zV t) (z t) N l ab xd msrc mrec s r (zs t) (zr t))) (gval2 (gcall (eH t) (eV t) (zH t) (zV t) (z t) N l ab xd msrc mrec s r (zs t) (zr t)))))) (off t))
      (fsum (f_j1 filt) (f_base filt) (fun l => oval (t1 (collect ab mrec l (gval1 (gcall eH0 eV0 zH0 zV0 z0 N l ab xd msrc mrec s r zs0 zr0)) (gval2 (gcall eH0 eV0 zH0 zV0 z0 N l ab xd msrc mrec s r zs0 zr0))))) off0)).
    { apply c_fsum; [assumption..|]. intros l l0 L. destruct (G l l0 L) as [A B]. apply (c_collect ab mrec l _ _ l0 _ _ L A B). }
    destruct (inb ab j2_components); [|exact Z]. now apply toC_div.
  - apply c_fsum; [assumption..|]. intros l l0 L. destruct (G l l0 L) as [A B]. apply (c_collect ab mrec l _ _ l0 _ _ L A B).
Qed.
Lemma dlf_ext : forall filt ab K K' r a, (forall l, K l = K' l) -> dlf_value filt ab K r a = dlf_value filt ab K' r a.
Proof.
  intros filt ab K K' r a H. assert (S : forall p w b, fsum w b (part_of p K) r = fsum w b (part_of p K') r).
  { intros p. induction w as [|x w IH]; intros [|b bs]; try reflexivity. cbn [fsum]. rewrite IH. unfold part_of. now rewrite H. }
  unfold dlf_value, sum_noang, sum_ang. now rewrite !S.
Qed.
Theorem dlf_continuous : forall spl filt ab xd msrc mrec, well_formed filt -> valid_call ab msrc mrec -> (forall k, (1 <= k <= N)%nat -> z0 k <> zs0 /\ z0 k <> zr0) -> (xd = false -> zs0 <> zr0) ->
  exists v, dlf_calc spl filt 0 zs0 zr0 (Z.of_nat (lay z0 N zs0)) (Z.of_nat (lay z0 N zr0)) (depth_arr z0 N) ab msrc mrec [row0] [off0] [ang0] xd = Ok ([[v]], 1%Z, true) /\
  forall e : R, (0 < e)%R -> F (fun t => exists v', dlf_calc spl filt 0 (zs t) (zr t) (Z.of_nat (lay (z t) N (zs t))) (Z.of_nat (lay (z t) N (zr t))) (depth_arr (z t) N) ab msrc mrec [row t] [off t] [ang t] xd = Ok ([[v']], 1%Z, true) /\ (Cmod (Cminus v' v) < e)%R).
Proof using All.
  intros spl filt ab xd msrc mrec HF HV D X.
  assert (C : forall a b c d y x w o an, passive_medium a b c d y N -> (0 < o)%R ->
    dlf_calc spl filt 0 x w (Z.of_nat (lay y N x)) (Z.of_nat (lay y N w)) (depth_arr y N) ab msrc mrec [mkrow (arr a N) (arr b N) (arr c N) (arr d N)] [o] [an] xd
    = Ok ([[dlf_value filt ab (fun l => let G := gcall a b c d y N l ab xd msrc mrec (lay y N x) (lay y N w) x w in collect ab mrec l (gval1 G) (gval2 G)) o an]], 1%Z, true)).
  { intros a b c d y x w o an P Ho. rewrite (dlf_separable spl filt y N ab msrc mrec (lay y N x) (lay y N w) x w xd HF HV (lay_le _ _ _) (lay_le _ _ _)); try discriminate; try reflexivity.
    - unfold table. cbn [map combine fst snd]. do 5 f_equal. apply dlf_ext. intros l. apply kern_gcall; [exact P|exact HV|apply lay_le..].
    - intros w0 [<-|[]]. now exists a, b, c, d.
    - intros o' [<-|[]]. exact Ho. }
  eexists. split; [apply C; [exact PM0|exact Hoff]|]. intros e He.
  pose proof (dlf_value_fixed filt ab xd msrc mrec (lay z0 N zs0) (lay z0 N zr0) HV (lay_le _ _ _) (lay_le _ _ _) X) as V. pose proof (proj1 (toC_eps F _ _) V e He) as V'. clear V. rename V' into V.
  pose proof (c_lay F z z0 zs zs0 N Iz Is (fun k Hk => proj1 (D k Hk))) as L1. pose proof (c_lay F z z0 zr zr0 N Iz Ir (fun k Hk => proj2 (D k Hk))) as L2.
  pose proof (toR_lt F (fun _ => 0%R) off 0 off0 (toR_const F 0) Io Hoff) as L3.
  eapply filter_imp; [|exact (filter_and _ _ (filter_and _ _ PM V) (filter_and _ _ L3 (filter_and _ _ L1 L2)))]. intros t [[P A] [Q [B1 B2]]]. cbn beta in *.
  eexists. split; [apply C; assumption|]. rewrite B1, B2. exact A.
Qed.
End All.
End Lim.
