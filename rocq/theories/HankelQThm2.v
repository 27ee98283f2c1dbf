(** Hankel transforms by quadrature: adaptive quadrature, offsets on their own,
    the dependence of the splined version on the other offsets (C70). *)

From Coq Require Import ZArith Reals List Bool String Lia Lra Psatz.
From Coquelicot Require Import Coquelicot.
From Verif Require Import PyBase CBase Kernel Utils UtilsLayer Transform TransformDlf TransformQwe TransformQuad UtilsArgs Model ModelFem Fourier FourierSum FourierFft FourierLog3 FourierQwe HankelQ HankelQThm Fullspace FullspaceThm BipoleCol RoutinesThm Routines Bipole BipoleThm BipoleLoop BipolePlace BipoleMain BipoleFinal BipoleTotal UtilsModel UtilsFreq KernelSpec KernelMain KernelThm KernelThm2.
Import ListNotations.
Local Open Scope R_scope.
Local Open Scope C_scope.
Local Open Scope res_scope.

(** ** Adaptive quadrature *)
Section Quad.
Variable rq : (R -> R) -> R * nat.
Variables j0 j1 : R -> R.
Variables (lo hi : R).

(** the quadratures of real and imaginary part *)
Definition exact_on (g : R -> R) : Prop := is_RInt (V := R_NormedModule) g lo hi (fst (rq g)).
Definition part_integrands (s : option ((R -> R) * (R -> R))) (f : (R -> R) -> R -> R) : list (R -> R) :=
  match s with Some (re, im) => [f re; f im] | None => [] end.
Definition quad_integrands (s0 s1 s0b : option ((R -> R) * (R -> R))) (ab : Z) (r ang : R) : list (R -> R) :=
  part_integrands s0 (fun s => quad_PJ0 j0 s r) ++ part_integrands s1 (fun s => quad_PJ1 j1 s ab r ang)
  ++ part_integrands s0b (fun s => quad_PJ0b j0 s r ang).

Definition is_CInt (g : R -> C) (v : C) : Prop :=
  is_RInt (V := R_NormedModule) (fun l => fst (g l)) lo hi (fst v) /\ is_RInt (V := R_NormedModule) (fun l => snd (g l)) lo hi (snd v).

Lemma is_CInt_plus : forall f g u v, is_CInt f u -> is_CInt g v -> is_CInt (fun l => Cplus (f l) (g l)) (Cplus u v).
Proof using.
  intros f g u v [A B] [A' B']. split; [exact (is_RInt_plus (V := R_NormedModule) _ _ _ _ _ _ A A')|exact (is_RInt_plus (V := R_NormedModule) _ _ _ _ _ _ B B')].
Qed.
Lemma is_CInt_zero : is_CInt (fun _ => RtoC 0) (RtoC 0).
Proof using.
  split; cbn [fst snd RtoC]; pose proof (is_RInt_const (V := R_NormedModule) lo hi 0%R) as W;
    replace (scal (hi - lo)%R (0%R : R_NormedModule)) with 0%R in W by (unfold scal; cbn; unfold mult; cbn; rgR); exact W.
Qed.
Lemma is_CInt_ext : forall f g v, (forall l, f l = g l) -> is_CInt f v -> is_CInt g v.
Proof using. intros f g v H [A B]. split; [apply (is_RInt_ext (V := R_NormedModule) (fun l => fst (f l)))|apply (is_RInt_ext (V := R_NormedModule) (fun l => snd (f l)))]; auto; intros; now rewrite H. Qed.

(** block by block *)
Lemma block_int : forall s f acc G (w : R -> C), (forall sp l, f sp l = sp (ln l) * fst (w l) /\ snd (w l) = 0)%R ->
  (forall g, In g (part_integrands s f) -> exact_on g) -> is_CInt G (fst acc) ->
  is_CInt (fun l => Cplus (G l) (Cmult (hq_at s l) (w l))) (fst (quad_block rq s f acc)).
Proof using.
  intros s f acc G w HF HE HG. unfold quad_block, hq_at. destruct s as [[re im]|].
  - cbn [fst]. apply is_CInt_plus; [exact HG|]. cbn [part_integrands In] in HE. split; cbn [fst snd].
    + apply (is_RInt_ext (V := R_NormedModule) (f re)); [|apply HE; auto]. intros l _. destruct (HF re l) as [E1 E2]. rewrite E1. unfold Cmult. cbn [fst snd]. rewrite E2. rgR.
    + apply (is_RInt_ext (V := R_NormedModule) (f im)); [|apply HE; auto]. intros l _. destruct (HF im l) as [E1 E2]. rewrite E1. unfold Cmult. cbn [fst snd]. rewrite E2. rgR.
  - apply (is_CInt_ext G); [|exact HG]. intros l. ring.
Qed.

(** if every quadrature is exact, the value is the integral *)
Theorem quad_exact : forall s0 s1 s0b ab r ang,
  (forall g, In g (quad_integrands s0 s1 s0b ab r ang) -> exact_on g) ->
  is_CInt (hankel_integrand j0 j1 ab (hq_at s0) (hq_at s1) (hq_at s0b) r ang) (fst (quad rq j0 j1 s0 s1 s0b ab r ang)).
Proof using.
  intros s0 s1 s0b ab r ang H. unfold quad_integrands in H. unfold quad.
  set (w0 := fun l => RtoC (j0 (r * l)%R)).
  set (w1 := fun l => RtoC (ang * (if isJ2 ab then / r else 1) * j1 (r * l))%R).
  set (w2 := fun l => RtoC (ang * j0 (r * l))%R).
  apply (is_CInt_ext (fun l => Cplus (Cplus (Cplus (RtoC 0) (Cmult (hq_at s0 l) (w0 l))) (Cmult (hq_at s1 l) (w1 l))) (Cmult (hq_at s0b l) (w2 l)))).
  - intros l. unfold hankel_integrand, w0, w1, w2. rewrite !RtoC_mult. destruct (isJ2 ab); [|ring].
    unfold Cdiv. assert (EI : RtoC (/ r) = Cinv (RtoC r)).
    { destruct (Req_dec r 0) as [->|N]; [|now apply RtoC_inv]. rewrite Cinv_0, Rinv_0. reflexivity. }
    rewrite EI. ring.
  - apply block_int; [| |apply block_int; [| |apply block_int; [| |apply is_CInt_zero]]].
    + intros sp l. unfold quad_PJ0b, w2. cbn [fst snd RtoC]. split; [ring|reflexivity].
    + intros g Hg. apply H. apply in_or_app. right. apply in_or_app. right. exact Hg.
    + intros sp l. unfold quad_PJ1, w1, isJ2. cbn [fst snd RtoC]. cbv zeta. destruct (inb ab _); (split; [unfold Rdiv; ring|reflexivity]).
    + intros g Hg. apply H. apply in_or_app. right. apply in_or_app. left. exact Hg.
    + intros sp l. unfold quad_PJ0, w0. cbn [fst snd RtoC]. split; [ring|reflexivity].
    + intros g Hg. apply H. apply in_or_app. left. exact Hg.
Qed.
End Quad.

(** ** [hankel_quad] *)
Section Each.
Variable rquad : (R -> R) -> R -> R -> R -> R -> nat -> R * nat.
Variable isp : list R -> list R -> R -> R.
Variables j0 j1 j2 : R -> R.
Variables gx gw : list R.

Definition quad_grid (ppd a b : R) : res (list R) :=
  let npt := ztrunc ((log10 b - log10 a) * ppd + 1) in
  if (npt <? 4)%Z then Err ValueError else logspace (log10 a) (log10 b) npt.
Definition quad_value (ab : Z) (K : kint) (rtol atol a b : R) (limit : nat) (p : R * R) : C * bool :=
  quad (fun g => rquad g a b atol rtol limit) j0 j1 (K0 K) (K1 K) (K0b K) ab (fst p) (snd p).

Theorem quad_each : forall wn used ab off ang rtol atol ppd a b limit,
  hankel_quad rquad isp j0 j1 wn used ab off ang rtol atol ppd a b limit =
  (il <- quad_grid ppd a b ;; P <- mapM wn il ;;
   let K := interpolated isp used il P in
   Ok (map (fun p => fst (quad_value ab K rtol atol a b limit p)) (combine off ang), 1%Z,
       forallb (fun p => snd (quad_value ab K rtol atol a b limit p)) (combine off ang))).
Proof using.
  intros wn used ab off ang rtol atol ppd a b limit. unfold hankel_quad, quad_grid. cbv zeta.
  destruct (_ <? 4)%Z; [reflexivity|]. destruct (logspace _ _ _) as [il|]; cbn [bind]; [|reflexivity].
  destruct (mapM wn il) as [P|]; cbn [bind]; [|reflexivity]. destruct used as [[u0 u1] u0b]. reflexivity.
Qed.

(** ** Offsets on their own *)
Lemma combine_single : forall (off ang : list R) j, List.length ang = List.length off -> (j < List.length off)%nat ->
  forall (f : R * R -> C), map f (combine [nth j off 0%R] [nth j ang 0%R]) = [nth j (map f (combine off ang)) (RtoC 0)].
Proof using.
  intros off ang j La Hj f. cbn [combine map]. f_equal.
  rewrite (nth_indep _ (RtoC 0) (f (0, 0)%R)) by (rewrite map_length, combine_length; lia). rewrite map_nth, combine_nth by congruence. reflexivity.
Qed.

Theorem quad_columnwise : forall valid rtol atol ppd a b limit zs zr ls lr depth ab ms mr xd,
  columnwise valid (quad_calc rquad isp j0 j1 rtol atol ppd a b limit zs zr ls lr depth ab ms mr) xd.
Proof using.
  intros valid rtol atol ppd a b limit zs zr ls lr depth ab ms mr xd rows off ang M k c NR La Hv Hp H SH j Hj.
  unfold quad_calc in *. rewrite quad_each in H. rewrite quad_each.
  destruct (quad_grid ppd a b) as [il|]; cbn [bind] in *; [|discriminate].
  destruct (mapM _ il) as [P|]; cbn [bind] in *; [|discriminate]. injection H as <- _ _.
  do 2 eexists. cbv zeta. rewrite (combine_single off ang j La Hj (fun p => fst (quad_value ab (interpolated isp (used_of ab) il P) rtol atol a b limit p))).
  cbn [colm map]. reflexivity.
Qed.

Lemma qwe_short : forall rtol atol maxint zc contrib n, (maxint < 2)%nat -> qwe rtol atol maxint zc contrib n = Err UnboundLocal.
Proof using. intros rtol atol maxint zc contrib n H. unfold qwe. replace (maxint - 1)%nat with 0%nat by lia. reflexivity. Qed.

Theorem qwe_columnwise : forall valid rtol atol zc maxint dq a b limit zs zr ls lr depth ab ms mr xd,
  columnwise valid (qwe_calc rquad isp j0 j1 j2 gx gw rtol atol zc maxint 0 dq a b limit zs zr ls lr depth ab ms mr) xd.
Proof using.
  intros valid rtol atol zc maxint dq a b limit zs zr ls lr depth ab ms mr xd rows off ang M k c NR La Hv Hp H SH j Hj.
  unfold qwe_calc, hankel_qwe in *. rewrite Reqb_refl in *. set (wn := row_wn _ _ _ _ _ _ _ _ _ _) in *.
  fold (qx j1 j2 maxint) in *. set (nq := List.length gx) in *. set (x := qx j1 j2 maxint) in *.
  apply bind_ok in H. destruct H as ([[v kc] cv] & HQ & H). apply bind_ok in HQ. destruct HQ as (P & EP & HQ). injection H as <- _ _.
  destruct (Nat.lt_ge_cases maxint 2) as [Hm|Hm]; [rewrite qwe_short in HQ by exact Hm; discriminate|].
  pose proof (BipoleCol.mapM_nth _ off P 0%R [] j EP Hj) as E1. cbn [mapM nth]. rewrite E1. cbn [bind].
  set (ctr := fun e i => Cmult _ _) in HQ. destruct (qwe_each rtol atol zc maxint ctr (List.length off) Hm) as [kc1 Q1].
  rewrite Q1 in HQ. injection HQ as HV _ _.
  match goal with |- context [qwe rtol atol maxint zc ?f _] => set (ctr' := f); destruct (qwe_each rtol atol zc maxint ctr' 1 Hm) as [kc2 Q2] end.
  cbn [List.length]. rewrite Q2. cbn [bind seq map]. do 2 eexists. do 3 f_equal. cbn [colm map]. do 2 f_equal. rewrite <- HV.
  rewrite FourierFft.nth_map_seq by exact Hj. unfold ctr, ctr'. cbn [nth]. reflexivity.
Qed.

Definition qwe_mk (rtol atol : R) (zc : C -> bool) (maxint : nat) (dq : R) :=
  qwe_calc rquad isp j0 j1 j2 gx gw rtol atol zc maxint 0 dq None None None.
Definition quad_mk (rtol atol ppd a b : R) (limit : nat) := quad_calc rquad isp j0 j1 rtol atol ppd a b limit.

Lemma rows_nonempty : forall m hook depth q freq mo, plain_model m depth q freq ->
  rows_of (apply_hook hook (q_res q) mo (check_frequency m freq (m_res mo) (m_aniso mo) (m_epermH mo) (m_epermV mo) (m_mpermH mo) (m_mpermV mo))) <> [].
Proof using.
  intros m hook depth q freq mo [[v HR] HW HD M1 M2 MU FN]. rewrite HR. cbn [apply_hook].
  match goal with |- rows_of ?f <> [] => set (fo := f) end.
  destruct (freq_lengths m freq (m_res mo) (m_aniso mo) (m_epermH mo) (m_epermV mo) (m_mpermH mo) (m_mpermV mo)) as (L1 & L2 & L3 & L4). fold fo in L1, L2, L3, L4.
  assert (LR : List.length (rows_of fo) = List.length freq) by (unfold rows_of; rewrite map_length, !combine_length; lia).
  intros E. rewrite E in LR. destruct freq; [congruence|discriminate].
Qed.

Theorem qwe_column_call : forall m hook rtol atol zc maxint dq depth q freq msrc mrec xdirect, plain_model m depth q freq ->
  column_call m hook (qwe_mk rtol atol zc maxint dq) depth q freq msrc mrec xdirect.
Proof using.
  intros m hook rtol atol zc maxint dq depth q freq msrc mrec xdirect HP mo ms st mr rt Em Ex Ey rows.
  split; [exact (rows_nonempty m hook depth q freq mo HP)|]. exists (fun _ => True). split; [auto|]. intros. apply qwe_columnwise.
Qed.
Theorem quad_column_call : forall m hook rtol atol ppd a b limit depth q freq msrc mrec xdirect, plain_model m depth q freq ->
  column_call m hook (quad_mk rtol atol ppd a b limit) depth q freq msrc mrec xdirect.
Proof using.
  intros m hook rtol atol ppd a b limit depth q freq msrc mrec xdirect HP mo ms st mr rt Em Ex Ey rows.
  split; [exact (rows_nonempty m hook depth q freq mo HP)|]. exists (fun _ => True). split; [auto|]. intros. apply quad_columnwise.
Qed.
End Each.
