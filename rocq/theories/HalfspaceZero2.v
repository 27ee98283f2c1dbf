(** The half-space solution for a vanishing horizontal offset: vertical components, airwave, and
    the solution as returned. *)

From Coq Require Import ZArith Reals List Bool Lia Lra Psatz.
From Coquelicot Require Import Coquelicot.
From Verif Require Import PyBase CBase ODE FullspaceMaxwell Halfspace HalfspaceThm HalfspaceSym Gauss HalfspaceTime HalfspaceDc HalfspaceZero.
Import ListNotations.
Local Open Scope R_scope.
Local Open Scope C_scope.

(** ** Components with a vertical dipole *)
Section Vertical.
Variables (ab : Z) (an zs zr res lam : R) (w : hs_at).
Hypothesis Hw : at_ok w.
Hypothesis Hres : (0 < res)%R.
Hypothesis Hlam : (0 < lam)%R.
Hypothesis Hm : zs <> zr.
Hypothesis Hp : (zs <> - zr)%R.
Let G (off : R) := hs_geo off an zs zr res lam.
Let h := Rabs (zr - zs).
Let h' := Rabs (zr + zs).
Let Pt (off : R) := hs_fields (hs_coef ab (G off) zs zr res lam) (G off) w (RtoC 0).
Let rs (k off : R) := sqrt (off ^ 2 + (k * lam) ^ 2).
Let ts (k off : R) := (mu0 * rs k off ^ 2 / (res * lam ^ 2 * 4))%R.
Hypothesis Hab : In ab nine.
Hypothesis Hnot : ~ In ab four.
Lemma v_ders : forall k, (0 < k)%R -> ex_derive (rs k) 0%R /\ (0 < rs k 0)%R.
Proof using All.
  intros k Hk. assert (0 < k * lam)%R by now apply Rmult_lt_0_compat. split; [unfold rs; auto_derive; cbn [pow]; nra|]. apply S_pos. assumption.
Qed.
Lemma v_f : forall k, (0 < k)%R -> limC (fun off => hs_f0 w (ts k off)) z0 (hs_f0 w (ts k 0)) /\ limC (fun off => hs_f1 w (ts k off)) z0 (hs_f1 w (ts k 0)) /\ limC (fun off => hs_f2 w (ts k off)) z0 (hs_f2 w (ts k 0)).
Proof using All.
  intros k Hk. destruct (lim_f w res lam k 0 0 Hw Hres Hlam Hk (mu0 / (res * 4) / lam ^ 2)) as (F0 & F1 & F2).
  assert (T : forall off, ts k off = (mu0 * k ^ 2 / (res * 4) + mu0 / (res * 4) / lam ^ 2 * off ^ 2)%R) by (intros off; apply (core_ts w res lam k 0 0 Hw Hres Hlam Hk)).
  assert (T0 : ts k 0 = (mu0 * k ^ 2 / (res * 4))%R) by (rewrite T; ring). rewrite T0.
  split; [|split].
  - refine (lim0_ext _ _ _ _ F0). intros off _. now rewrite T.
  - refine (lim0_ext _ _ _ _ F1). intros off _. now rewrite T.
  - refine (lim0_ext _ _ _ _ F2). intros off _. now rewrite T.
Qed.
Lemma v_lin : forall (A0 A1 A2 : R -> R) k, (0 < k)%R -> ex_derive A0 0%R -> ex_derive A1 0%R -> ex_derive A2 0%R ->
  limC (fun off => rc (A0 off) (hs_f0 w (ts k off)) + rc (A1 off) (hs_f1 w (ts k off)) + rc (A2 off) (hs_f2 w (ts k off))) z0
       (rc (A0 0%R) (hs_f0 w (ts k 0)) + rc (A1 0%R) (hs_f1 w (ts k 0)) + rc (A2 0%R) (hs_f2 w (ts k 0))).
Proof using All.
  intros A0 A1 A2 k Hk D0 D1 D2. destruct (v_f k Hk) as (F0 & F1 & F2).
  apply limC_plus; [apply limC_plus|]; (apply lim0_mult; [|assumption]); (apply RlimC0; [assumption|reflexivity]).
Qed.
Definition vdir : R := if inb ab [22; 23; 32]%Z then sin an else cos an.
Let vA (off : R) : hcoef := hs_coef ab {| g_x := cos an * off; g_y := sin an * off; rh := off; hp := h'; hm := h; hsp := h' * lam; hsm := h * lam;
     rp := sqrt (off ^ 2 + h' ^ 2); rm := sqrt (off ^ 2 + h ^ 2);
     rsp := rs h' off; rsm := rs h off;
     tp := mu0 * (sqrt (off ^ 2 + h' ^ 2)) ^ 2 / (res * 4); tm := mu0 * (sqrt (off ^ 2 + h ^ 2)) ^ 2 / (res * 4);
     tsp := ts h' off; tsm := ts h off |} zs zr res lam.
Lemma v_coef : ex_derive (fun off => s0m (vA off)) 0%R /\ ex_derive (fun off => s1m (vA off)) 0%R /\ ex_derive (fun off => s2m (vA off)) 0%R /\
  ex_derive (fun off => s0p (vA off)) 0%R /\ ex_derive (fun off => s1p (vA off)) 0%R /\ ex_derive (fun off => s2p (vA off)) 0%R /\
  forall off, c0p (vA off) = 0%R /\ c1m (vA off) = 0%R /\ c1p (vA off) = 0%R /\ c2m (vA off) = 0%R /\ c2p (vA off) = 0%R.
Proof using All.
  assert (P1 : (0 < h)%R) by (apply Rabs_pos_lt; lra). assert (P2 : (0 < h')%R) by (apply Rabs_pos_lt; lra). destruct (v_ders h P1) as [D1 R1]. destruct (v_ders h' P2) as [D2 R2]. pose proof PI_RGT_0.
  clearbody h h' rs. assert (H3 : ab = 13%Z \/ ab = 23%Z \/ ab = 31%Z \/ ab = 32%Z \/ ab = 33%Z).
  { unfold nine, four in *. cbn [In] in *. intuition congruence. }
  unfold vA. generalize (ts h') (ts h). intros T1 T2. clear Pt Hab Hnot vA. destruct H3 as [-> | [-> | [-> | [-> | ->]]]]; unfold hs_coef, hs_xy; cbn [inb existsb Z.eqb Pos.eqb orb andb negb g_x g_y rh hp hm hsp hsm rp rm rsp rsm s0m s1m s2m s0p s1p s2p c0p c1m c1p c2m c2p];
    (repeat (split; [auto_derive; repeat split; try assumption; nzp|])); intros; repeat split; reflexivity.
Qed.
Theorem vertical_lim : limC (fun off => p_d (Pt off)) z0 (p_d (Pt 0)) /\ limC (fun off => p_r (Pt off)) z0 (p_r (Pt 0)).
Proof using All.
  assert (P1 : (0 < h)%R) by (apply Rabs_pos_lt; lra). assert (P2 : (0 < h')%R) by (apply Rabs_pos_lt; lra).
  destruct v_coef as (A0 & A1 & A2 & B0 & B1 & B2 & Z).
  assert (GE : forall off, (0 <= off)%R -> p_d (Pt off) = rc (s0m (vA off)) (hs_f0 w (ts h off)) + rc (s1m (vA off)) (hs_f1 w (ts h off)) + rc (s2m (vA off)) (hs_f2 w (ts h off))
    /\ p_r (Pt off) = rc (s0p (vA off)) (hs_f0 w (ts h' off)) + rc (s1p (vA off)) (hs_f1 w (ts h' off)) + rc (s2p (vA off)) (hs_f2 w (ts h' off))).
  { intros off Ho. unfold Pt, G. rewrite (G_eq ab an zs zr res lam w Hw Hres Hlam Hm Hp off Ho). fold h h'. fold (rs h off) (rs h' off). fold (ts h off) (ts h' off).
    change (hs_coef ab _ zs zr res lam) with (vA off). unfold hs_fields. cbn [p_d p_r tp tm tsp tsm]. destruct (Z off) as (Z1 & Z2 & Z3 & Z4 & Z5). rewrite Z1, Z2, Z3, Z4, Z5. unfold rc. split; ring. }
  destruct (GE 0%R (Rle_refl 0)) as [E1 E2]. rewrite E1, E2. split.
  - refine (lim0_ext _ _ _ _ (v_lin _ _ _ h P1 A0 A1 A2)). intros off Ho. symmetry. apply GE. lra.
  - refine (lim0_ext _ _ _ _ (v_lin _ _ _ h' P2 B0 B1 B2)). intros off Ho. symmetry. apply GE. lra.
Qed.
End Vertical.

(** ** The airwave *)
(** the scaled Bessel functions are continuous along rays: at zero ([ive]) and away from it ([kve]) *)
Definition bessel_rays (ive kve : Z -> C -> C) : Prop :=
  (forall n z, In n [0; 1; 2]%Z -> limC (fun x => ive n (RtoC x * z)) z0 (ive n (RtoC 0))) /\
  (forall n z (x : R), In n [0; 1]%Z -> z <> RtoC 0 -> (0 < x)%R -> contC (fun x => kve n (RtoC x * z)) x).

Lemma lim0_comp : forall (F : R -> C) (u : R -> R) x, contC F x -> filterlim u z0 (locally x) -> limC (fun off => F (u off)) z0 (F x).
Proof. intros F u x [H1 H2] L. split; [apply (filterlim_comp _ _ _ u (fun t => fst (F t)) z0 (locally x)); assumption|apply (filterlim_comp _ _ _ u (fun t => snd (F t)) z0 (locally x)); assumption]. Qed.
Lemma lim0_right : forall (F : R -> C) (u : R -> R) l, limC F z0 l -> filterlim u z0 z0 -> limC (fun off => F (u off)) z0 l.
Proof. intros F u l [H1 H2] L. split; [apply (filterlim_comp _ _ _ u (fun t => fst (F t)) z0 z0); assumption|apply (filterlim_comp _ _ _ u (fun t => snd (F t)) z0 z0); assumption]. Qed.
Lemma contC_mult : forall f g x, contC f x -> contC g x -> contC (fun t => f t * g t) x.
Proof.
  intros f g x [F1 F2] [G1 G2]. split; cbn [fst snd Cmult].
  - apply filterlim_Rminus; apply filterlim_Rmult; assumption.
  - apply filterlim_Rplus; apply filterlim_Rmult; assumption.
Qed.

Section Air.
Variables (ive kve : Z -> C -> C) (isr : bool) (s : C) (an zs zr res lam c d : R).
Hypothesis HB : bessel_rays ive kve.
Hypothesis Hs : s <> RtoC 0.
Hypothesis Hres : (0 < res)%R.
Hypothesis Hp : (zs <> - zr)%R.
Let G (off : R) := hs_geo off an zs zr res lam.
Let h' := Rabs (zr + zs).
Let Hh : (0 < h')%R. Proof. apply Rabs_pos_lt. lra. Qed.
Let r (off : R) := sqrt (off ^ 2 + h' ^ 2).
Let zeta := (s * RtoC mu0)%C.
Let gam := Csqrt (Cdiv zeta (RtoC res)).
Let sz := Csqrt zeta.
Let sr := Csqrt (RtoC res * zeta).
Lemma zeta_nz : zeta <> RtoC 0.
Proof using All. apply Cmult_neq_0; [exact Hs|]. apply RC_neq. pose proof mu0_pos. lra. Qed.
Lemma sqrt_nz : forall z, z <> RtoC 0 -> Csqrt z <> RtoC 0.
Proof using. intros z Hz E. apply Hz. rewrite <- (Csqrt_sqr z), E. ring. Qed.
Lemma sz_nz : sz <> RtoC 0. Proof using All. apply sqrt_nz, zeta_nz. Qed.
Lemma gam_nz : gam <> RtoC 0.
Proof using All. apply sqrt_nz. unfold Cdiv. apply Cmult_neq_0; [exact zeta_nz|]. rewrite <- RtoC_inv0. apply RC_neq. apply Rinv_neq_0_compat. lra. Qed.
Lemma r_fac : (0 < r 0)%R /\ r 0 = h' /\ ex_derive r 0%R /\ forall off, (0 < off)%R -> (h' < r off)%R.
Proof using All.
  assert (E : r 0 = h') by (apply S0_eq; exact Hh). split; [rewrite E; exact Hh|]. split; [exact E|]. split; [unfold r; auto_derive; cbn [pow]; nra|].
  intros off Ho. unfold r. rewrite <- (sqrt_pow2 h') at 1 by lra. apply sqrt_lt_1_alt. split; [apply pow2_ge_0|]. assert (0 < off ^ 2)%R by now apply pow_lt. lra.
Qed.
Let BI (n : Z) (off : R) : C := RtoC (exp (- fst gam * h')) * ive n (RtoC ((r off - h') / 2) * gam).
Let BKf (n : Z) (u : R) : C := if isr then kve n (RtoC u * gam) else Cexp (Copp Ci * RtoC (snd (RtoC u * gam))) * kve n (RtoC u * gam).
Let BK (n : Z) (off : R) : C := BKf n ((r off + h') / 2).
Lemma lim_BI : forall n, In n [0; 1; 2]%Z -> limC (BI n) z0 (BI n 0).
Proof using All.
  intros n Hn. destruct r_fac as (_ & E & D & L). unfold BI. apply limC_scal. rewrite E. replace (RtoC ((h' - h') / 2) * gam) with (RtoC 0). 2: { replace ((h' - h') / 2)%R with 0%R by field. ring. }
  apply (lim0_right (fun x => ive n (RtoC x * gam)) (fun off => (r off - h') / 2)%R); [apply (proj1 HB); exact Hn|].
  intros P [e He]. assert (K : filterlim (fun off => (r off - h') / 2)%R z0 (locally ((r 0 - h') / 2)%R)) by (apply (Rlim0 (fun off => (r off - h') / 2)%R); auto_derive; exact D).
  rewrite E in K. replace ((h' - h') / 2)%R with 0%R in K by field. specialize (K (ball 0%R e) (locally_ball 0%R e)). unfold filtermap in *. generalize (filter_and _ _ K pos0). apply filter_imp. intros off [K1 K2]. apply He; [exact K1|]. pose proof (L off K2). lra.
Qed.
Lemma lim_BK : forall n, In n [0; 1]%Z -> limC (BK n) z0 (BK n 0).
Proof using All.
  intros n Hn. destruct r_fac as (_ & E & D & L). unfold BK. rewrite E. replace ((h' + h') / 2)%R with h' by field.
  apply (lim0_comp (BKf n) (fun off => (r off + h') / 2)%R).
  - assert (K := proj2 HB n gam h' Hn gam_nz Hh). unfold BKf. destruct isr; [exact K|]. apply contC_mult; [|exact K].
    eapply is_deriveC_cont. apply (dC_exp (fun u => Copp Ci * RtoC (snd (RtoC u * gam)))). apply is_deriveC_scal. apply dCR. cbn [Cmult RtoC fst snd]. auto_derive; [exact I|reflexivity].
  - assert (K : filterlim (fun off => (r off + h') / 2)%R z0 (locally ((r 0 + h') / 2)%R)) by (apply (Rlim0 (fun off => (r off + h') / 2)%R); auto_derive; exact D).
    rewrite E in K. replace ((h' + h') / 2)%R with h' in K by field. exact K.
Qed.
Let F (off : R) := (off ^ 2 * (d - c))%R.
Definition air_form (off : R) : C :=
  (zeta * sz * RtoC (F off * h' / (4 * sqrt res)) * (RtoC 4 * (BI 1 off * BK 0 off) - (RtoC 3 * BI 0 off - RtoC (4 * sqrt res / (r off + h')) * Cinv sz * BI 1 off + BI 2 off) * BK 1 off)
   - RtoC (3 * F off / (r off) ^ 2 - d) *
     (zeta * RtoC (h' * r off) * (BI 0 off * BK 0 off - BI 1 off * BK 1 off) + sr * (BI 0 off * BK 1 off) * RtoC (r off + h') + sr * (BI 1 off * BK 0 off) * RtoC (r off - h')))
  * RtoC (/ (4 * PI * (r off) ^ 3)).
Lemma air_formed : forall off, (0 <= off)%R -> hs_airwave ive kve isr s (G off) res (F off) d = air_form off.
Proof using All.
  intros off Ho. assert (Pr : (0 < r off)%R) by (apply S_pos; exact Hh). pose proof PI_RGT_0. pose proof (sqrt_lt_R0 _ Hres) as Q.
  assert (E1 : rp (G off) = r off). { unfold G, hs_geo. cbn [rp]. rewrite sqr_sum. reflexivity. }
  assert (E2 : hp (G off) = h') by reflexivity.
  unfold hs_airwave. cbv zeta. rewrite E1, E2. fold zeta. fold gam. fold sz. fold sr.
  assert (X1 : Cdiv (gam * RtoC (r off + h')) (RtoC 2) = RtoC ((r off + h') / 2) * gam). { unfold Cdiv, Rdiv. rewrite RtoC_mult, RtoC_inv0. ring. }
  assert (X2 : Cdiv (gam * RtoC (r off - h')) (RtoC 2) = RtoC ((r off - h') / 2) * gam). { unfold Cdiv, Rdiv. rewrite RtoC_mult, RtoC_inv0. ring. }
  rewrite X1, X2. fold (BKf 0 ((r off + h') / 2)) (BKf 1 ((r off + h') / 2)). fold (BK 0 off) (BK 1 off). fold (BI 0 off) (BI 1 off) (BI 2 off). unfold air_form.
  unfold Cdiv, rc. rewrite <- !RtoC_inv0.
  assert (Ci2 : Cinv (sz * RtoC (r off + h')) = Cinv sz * RtoC (/ (r off + h'))). { rewrite RtoC_inv0. field. split; [apply RC_neq; lra|exact sz_nz]. }
  rewrite Ci2. replace (F off * h' / (4 * sqrt res))%R with (F off * h' * / (4 * sqrt res))%R by reflexivity. replace (4 * sqrt res / (r off + h'))%R with (4 * sqrt res * / (r off + h'))%R by reflexivity.
  rewrite (RtoC_mult (F off * h') (/ (4 * sqrt res))), (RtoC_mult (4 * sqrt res) (/ (r off + h'))). ring.
Qed.
Lemma air_form_lim : limC air_form z0 (air_form 0).
Proof using All.
  destruct r_fac as (P & E & D & L). pose proof PI_RGT_0. pose proof (sqrt_lt_R0 _ Hres) as Q.
  assert (I0 := lim_BI 0 (or_introl eq_refl)). assert (I1 := lim_BI 1 (or_intror (or_introl eq_refl))). assert (I2 := lim_BI 2 (or_intror (or_intror (or_introl eq_refl)))).
  assert (K0 := lim_BK 0 (or_introl eq_refl)). assert (K1 := lim_BK 1 (or_intror (or_introl eq_refl))).
  assert (W : forall f : R -> R, ex_derive f 0%R -> limC (fun off => RtoC (f off)) z0 (RtoC (f 0%R))) by (intros f Hf; apply RlimC0; [exact Hf|reflexivity]).
  unfold air_form. apply lim0_mult; [apply limC_minus; apply lim0_mult|].
  - apply limC_scal. apply (W (fun off => F off * h' / (4 * sqrt res))%R). unfold F. auto_derive. exact I.
  - apply limC_minus; [apply limC_scal, lim0_mult; assumption|]. apply lim0_mult; [|assumption]. apply limC_plus; [apply limC_minus; [apply limC_scal; assumption|]|assumption].
    apply lim0_mult; [|assumption]. apply lim0_mult; [|apply limC_const]. apply (W (fun off => 4 * sqrt res / (r off + h'))%R). auto_derive. repeat split; try exact D. rewrite E. lra.
  - apply (W (fun off => 3 * F off / r off ^ 2 - d)%R). unfold F. auto_derive. repeat split; try exact D; nzp.
  - apply limC_plus; [apply limC_plus|].
    + apply lim0_mult; [apply limC_scal; apply (W (fun off => h' * r off)%R); auto_derive; exact D|]. apply limC_minus; apply lim0_mult; assumption.
    + apply lim0_mult; [apply limC_scal, lim0_mult; assumption|]. apply (W (fun off => r off + h')%R). auto_derive. exact D.
    + apply lim0_mult; [apply limC_scal, lim0_mult; assumption|]. apply (W (fun off => r off - h')%R). auto_derive. exact D.
  - apply (W (fun off => / (4 * PI * r off ^ 3))%R). auto_derive. repeat split; try exact D; nzp.
Qed.
Theorem airwave_lim : limC (fun off => hs_airwave ive kve isr s (G off) res (F off) d) z0 (hs_airwave ive kve isr s (G 0) res (F 0) d).
Proof using All.
  rewrite (air_formed 0 (Rle_refl 0)). refine (lim0_ext _ _ _ _ air_form_lim). intros off Ho. symmetry. apply air_formed. lra.
Qed.
End Air.

(** ** The solution as returned *)
Lemma steh_lim : forall (co den : nat -> R) (v : nat -> R -> R) (v0 : nat -> R) l (a : R -> R) a0, filterlim a z0 (locally a0) ->
  (forall k, In k l -> filterlim (v k) z0 (locally (v0 k))) ->
  filterlim (fun off => fold_left (fun acc k => (acc + co k * v k off / den k)%R) l (a off)) z0 (locally (fold_left (fun acc k => (acc + co k * v0 k / den k)%R) l a0)).
Proof.
  intros co den v v0. induction l as [|k l IH]; intros a a0 Ha Hv; [exact Ha|]. cbn [fold_left]. apply IH.
  - apply filterlim_Rplus; [exact Ha|]. apply filterlim_Rmult; [|apply filterlim_Rconst]. apply filterlim_Rmult; [apply filterlim_Rconst|]. apply Hv. now left.
  - intros j Hj. apply Hv. now right.
Qed.

(** the frequency or time of the k-th value *)
Definition at_k (inp : hs_in) (k : nat) : option hs_at :=
  match inp with
  | HFreq _ l => option_map AtS (nth_error l k)
  | HTime sg l => if (sg =? -1)%Z then None else option_map (if (sg =? 1)%Z then AtStep else AtImp) (nth_error l k)
  end.
Definition in_range (w : hs_at) : Prop := match w with AtS s => s <> RtoC 0 | AtStep t => (0 < t)%R | AtImp t => (0 < t)%R end.
Definition is_imp (w : hs_at) : bool := match w with AtImp _ => true | _ => false end.

Lemma parts_k : forall ive kve inp ab an zs zr res lam k w, at_k inp k = Some w ->
  exists isr, (is_imp w = true \/ isr = match w with AtS _ => isr | _ => true end) /\
    (forall off, nth_error (hs_parts ive kve inp ab off an zs zr res lam) k = Some (hs_part ive kve isr w ab off an zs zr res lam)).
Proof.
  intros ive kve inp ab an zs zr res lam k w H. unfold at_k, hs_parts in *. destruct inp as [isr l|sg l].
  - destruct (nth_error l k) as [s|] eqn:E; [|discriminate]. injection H as <-. exists isr. split; [right; reflexivity|]. intros o. now apply (map_nth_error (fun s => hs_part ive kve isr (AtS s) ab o an zs zr res lam)).
  - destruct (sg =? -1)%Z; [discriminate|]. destruct (nth_error l k) as [t|] eqn:E; [|discriminate]. cbn [option_map] in H. destruct (sg =? 1)%Z; injection H as <-; exists true; (split; [right; reflexivity|]); intros o.
    + now apply (map_nth_error (fun t => hs_part ive kve true (AtStep t) ab o an zs zr res lam)).
    + now apply (map_nth_error (fun t => hs_part ive kve true (AtImp t) ab o an zs zr res lam)).
Qed.

(** The inductive term: mu0/(4 pi h) times s exp(-h sqrt(s mu0/res)), and its inverse Laplace
    transform after division by s. *)
Definition inductive_term (res : R) (w : hs_at) (h : R) : C :=
  match w with
  | AtS s => RtoC (mu0 / (4 * PI * h)) * (s * Cexp (Copp (RtoC (h * sqrt (mu0 / res)) * Csqrt s)))
  | AtStep t => RtoC (mu0 / (4 * PI * h) * (h * sqrt (mu0 / res) / (2 * sqrt PI * t * sqrt t) * exp (- (h ^ 2 * (mu0 / res) / (4 * t)))))
  | AtImp _ => RtoC 0
  end.
Lemma lacking_ind : forall ab res w h, (0 < res)%R -> (0 < h)%R -> in_range w -> is_imp w = false -> lacking ab res w h = RtoC (hs_delta ab) * inductive_term res w h.
Proof.
  intros ab res w h Hr Hh Hw Hi. pose proof mu0_pos as Hm. pose proof PI_RGT_0 as HP. unfold lacking, rc, inductive_term.
  assert (P : (0 < mu0 / res)%R) by (apply Rdiv_lt_0_compat; assumption).
  assert (ST : sqrt (mu0 * h ^ 2 / (res * 4)) = (h * sqrt (mu0 / res) / 2)%R).
  { replace (mu0 * h ^ 2 / (res * 4))%R with ((h / 2) ^ 2 * (mu0 / res))%R by (field; lra). rewrite sqrt_mult_alt by apply pow2_ge_0. rewrite sqrt_pow2 by lra. field. }
  destruct w as [s|t|t]; [| |discriminate]; cbn [in_range] in Hw.
  - cbn [hs_f2]. rewrite f0S. 2: { apply Rlt_le, Rdiv_lt_0_compat; [|lra]. apply Rmult_lt_0_compat; [lra|]. now apply pow_lt. }
    rewrite ST. replace (RtoC (-2) * (RtoC (h * sqrt (mu0 / res) / 2) * Csqrt s)) with (Copp (RtoC (h * sqrt (mu0 / res)) * Csqrt s)).
    2: { replace (h * sqrt (mu0 / res))%R with (2 * (h * sqrt (mu0 / res) / 2))%R by field. rewrite (RtoC_mult 2). replace (h * sqrt (mu0 / res) / 2 * 2 / 2)%R with (h * sqrt (mu0 / res) / 2)%R by field.
         replace (RtoC (-2)) with (Copp (RtoC 2)) by (rewrite <- RtoC_opp; f_equal; lra). replace (2 * (h * sqrt (mu0 / res) / 2) / 2)%R with (h * sqrt (mu0 / res) / 2)%R by field. ring. }
    replace (mu0 * hs_delta ab / (4 * PI * h))%R with (hs_delta ab * (mu0 / (4 * PI * h)))%R by (field; split; lra). rewrite RtoC_mult. ring.
  - cbn [hs_f2 hs_f1]. rewrite ST. rewrite <- !RtoC_mult. f_equal. replace (- (mu0 * h ^ 2 / (res * 4)) / t)%R with (- (h ^ 2 * (mu0 / res) / (4 * t)))%R by (field; split; lra).
    rewrite sqrt_mult_alt by lra. assert (0 < sqrt PI)%R by now apply sqrt_lt_R0. assert (0 < sqrt t)%R by now apply sqrt_lt_R0. field. repeat split; lra.
Qed.

Definition split_part (r : PyBase.res hs_out) (i k : nat) : C := match r with Ok o => parts_of o i k | Err _ => RtoC 0 end.

Theorem hs_zero : forall ive kve inp ab an zs zr eH eV k w, bessel_rays ive kve -> In ab nine -> at_k inp k = Some w -> in_range w ->
  (In ab four -> is_imp w = false) ->
  let res := hs_res eH in let lam := hs_aniso eV res in (0 < res)%R -> (0 < lam)%R -> zs <> zr -> (zs <> - zr)%R ->
  let H sol off := halfspace ive kve inp sol ab off an zs zr eH eV in
  let jump h := RtoC (if inb ab [11; 22]%Z then 1 else 0) * inductive_term res w h in
  let jd := jump (Rabs (zr - zs)) in let jr := jump (Rabs (zr + zs)) in
  (forall sol off, (0 <= off)%R -> exists o, H sol off = Ok o) /\
  limC (fun off => split_part (H Dsplit off) 0 k) z0 (split_part (H Dsplit 0%R) 0 k - jd) /\
  limC (fun off => split_part (H Dsplit off) 1 k) z0 (split_part (H Dsplit 0%R) 1 k - jr) /\
  limC (fun off => split_part (H Dsplit off) 2 k) z0 (split_part (H Dsplit 0%R) 2 k) /\
  limC (fun off => split_part (H Dfs off) 0 k) z0 (split_part (H Dfs 0%R) 0 k - jd) /\
  limC (fun off => split_part (H Dhs off) 0 k) z0 (split_part (H Dhs 0%R) 0 k - (jd + jr)).
Proof.
  intros ive kve inp ab an zs zr eH eV k w HB Hab Hk Hw Hi res lam Hres Hlam Hm Hp H jump jd jr.
  assert (Ph : (0 < Rabs (zr - zs))%R) by (apply Rabs_pos_lt; lra). assert (Ph' : (0 < Rabs (zr + zs))%R) by (apply Rabs_pos_lt; lra).
  assert (Haw : at_ok w) by (destruct w; cbn in *; auto).
  destruct (parts_k ive kve inp ab an zs zr res lam k w Hk) as (isr & Hisr & HK).
  set (Pt := fun off => hs_part ive kve isr w ab off an zs zr res lam).
  set (ps := fun off => hs_parts ive kve inp ab off an zs zr res lam).
  assert (NI : In ab four -> hs_imp0 inp ab = false).
  { intros I4. specialize (Hi I4). unfold at_k, hs_imp0 in *. destruct inp as [b l|sg l]; [reflexivity|]. destruct (sg =? -1)%Z; [reflexivity|]. destruct (nth_error l k); [|discriminate]. cbn [option_map] in Hk. destruct (sg =? 1)%Z; [reflexivity|]. injection Hk as <-. discriminate Hi. }
  assert (HO : forall sol off, (0 <= off)%R -> H sol off = Ok match sol with
     | Dfs => One (map p_d (ps off)) | Dsplit => Three (map p_d (ps off)) (map p_r (ps off)) (map p_air (ps off))
     | Dtetm => Five (map p_dTE (ps off)) (map p_dTM (ps off)) (map p_rTE (ps off)) (map p_rTM (ps off)) (map p_air (ps off))
     | Dhs => One (map (fun p => Cplus (Cplus (p_d p) (p_r p)) (p_air p)) (ps off)) end).
  { intros sol off Ho. unfold H, halfspace. fold res. fold lam. rewrite (G_eq ab an zs zr res lam w Haw Hres Hlam Hm Hp off Ho). cbn [rm rp rh].
    destruct (Req_EM_T _ 0) as [E|_]; [exfalso; pose proof (S_pos off _ Ph); lra|]. destruct (Req_EM_T _ 0) as [E|_]; [exfalso; pose proof (S_pos off _ Ph'); lra|].
    destruct (hs_imp0 inp ab) eqn:EI; cbn [andb]; [|reflexivity]. destruct (Req_EM_T off 0) as [E|_]; [|reflexivity]. exfalso. unfold hs_imp0 in EI. destruct inp as [b l|sg l]; [discriminate|].
    assert (I4 : In ab four). { apply andb_prop in EI as [_ E4]. unfold inb in E4. apply existsb_exists in E4 as (x & Hx & Ex). apply Z.eqb_eq in Ex. now subst. }
    specialize (NI I4). unfold hs_imp0 in NI. congruence. }
  assert (NT : forall (f : hpart -> C) off, nth k (map f (ps off)) (RtoC 0) = f (Pt off)).
  { intros f off. apply nth_error_nth. apply map_nth_error. apply HK. }
  assert (VS : forall off, (0 <= off)%R -> split_part (H Dsplit off) 0 k = p_d (Pt off) /\ split_part (H Dsplit off) 1 k = p_r (Pt off) /\ split_part (H Dsplit off) 2 k = p_air (Pt off) /\
     split_part (H Dfs off) 0 k = p_d (Pt off) /\ split_part (H Dhs off) 0 k = p_d (Pt off) + p_r (Pt off) + p_air (Pt off)).
  { intros off Ho. rewrite !(HO _ _ Ho). unfold split_part, parts_of. cbn [out_parts nth]. rewrite !NT. repeat split; reflexivity. }
  split. { intros sol off Ho. eexists. apply HO. exact Ho. }
  destruct (VS 0%R (Rle_refl 0)) as (V1 & V2 & V3 & V4 & V5). rewrite V1, V2, V3, V4, V5.
  assert (LD : limC (fun off => p_d (Pt off)) z0 (p_d (Pt 0%R) - jd) /\ limC (fun off => p_r (Pt off)) z0 (p_r (Pt 0%R) - jr) /\ limC (fun off => p_air (Pt off)) z0 (p_air (Pt 0%R))).
  { destruct (in_dec Z.eq_dec ab four) as [I4|N4].
    - assert (DE : RtoC (if inb ab [11; 22]%Z then 1 else 0) = RtoC (hs_delta ab)). { unfold hs_delta. destruct I4 as [<- | [<- | [<- | [<- | []]]]]; reflexivity. }
      assert (J1 : jd = lacking ab res w (Rabs (zr - zs))) by (unfold jd, jump; rewrite (lacking_ind ab res w _ Hres Ph Hw (Hi I4)), DE; reflexivity).
      assert (J2 : jr = lacking ab res w (Rabs (zr + zs))) by (unfold jr, jump; rewrite (lacking_ind ab res w _ Hres Ph' Hw (Hi I4)), DE; reflexivity).
      rewrite J1, J2. destruct (parts_jump ab an zs zr res lam w Haw Hres Hlam Hm Hp I4) as [L1 L2]. split; [exact L1|]. split; [exact L2|].
      unfold Pt, hs_part, hs_fields. cbn [p_air]. 
      assert (FE : forall off, (0 <= off)%R -> let g := hs_geo off an zs zr res lam in let '(x, y) := hs_xy ab (g_x g) (g_y g) in (rh g ^ 2 * hs_delta ab - x * y = off ^ 2 * (hs_delta ab - cc ab an))%R).
      { intros off Ho. cbv zeta. pose proof (G_eq ab an zs zr res lam w Haw Hres Hlam Hm Hp off Ho) as GE. unfold hs_geo at 1 2. cbn [g_x g_y]. pose proof (xy_cc ab an off) as XY. destruct (hs_xy ab (cos an * off) (sin an * off)) as [x y]. rewrite (XY I4). rewrite GE. cbn [rh]. ring. }
      assert (AE : forall off, (0 <= off)%R -> hs_air ive kve isr w ab (hs_geo off an zs zr res lam) res =
        match w with AtS s => hs_airwave ive kve isr s (hs_geo off an zs zr res lam) res (off ^ 2 * (hs_delta ab - cc ab an)) (hs_delta ab)
        | AtStep t => RtoC (stehfest 8 (fun s => fst (hs_airwave ive kve true (RtoC s) (hs_geo off an zs zr res lam) res (off ^ 2 * (hs_delta ab - cc ab an)) (hs_delta ab))) t)
        | AtImp _ => RtoC 0 end).
      { intros off Ho. specialize (FE off Ho). unfold hs_air. cbv zeta in FE. destruct (hs_xy ab _ _) as [x y]. rewrite (inb4 ab I4). rewrite FE. specialize (Hi I4). destruct w; [reflexivity|reflexivity|discriminate]. }
      rewrite (AE 0%R (Rle_refl 0)).
      destruct w as [s|t|t]; [| |specialize (Hi I4); discriminate]; cbn [in_range] in Hw.
      + refine (lim0_ext _ _ _ _ (airwave_lim ive kve isr s an zs zr res lam (cc ab an) (hs_delta ab) HB Hw Hres Hp)). intros off Ho. symmetry. rewrite AE by lra. reflexivity.
      + refine (lim0_ext (fun off => RtoC (stehfest 8 (fun s => fst (hs_airwave ive kve true (RtoC s) (hs_geo off an zs zr res lam) res (off ^ 2 * (hs_delta ab - cc ab an)) (hs_delta ab))) t)) _ _ _ _).
        { intros off Ho. symmetry. rewrite AE by lra. reflexivity. }
        apply lim0_R. unfold stehfest.
        apply (steh_lim (coeff_dk 8) INR (fun j off => fst (hs_airwave ive kve true (RtoC (INR j * ln 2 / t)) (hs_geo off an zs zr res lam) res (off ^ 2 * (hs_delta ab - cc ab an)) (hs_delta ab)))
                (fun j => fst (hs_airwave ive kve true (RtoC (INR j * ln 2 / t)) (hs_geo 0 an zs zr res lam) res (0 ^ 2 * (hs_delta ab - cc ab an)) (hs_delta ab))) (seq 1 (2 * 8)) (fun _ => 0%R) 0%R); [apply filterlim_Rconst|].
        intros j Hj. apply in_seq in Hj. assert (Hsj : RtoC (INR j * ln 2 / t) <> RtoC 0). { apply RC_neq. pose proof (lt_0_INR j ltac:(lia)). pose proof ln_lt_2. apply Rgt_not_eq, Rdiv_lt_0_compat; [|exact Hw]. apply Rmult_lt_0_compat; lra. }
        exact (proj1 (airwave_lim ive kve true (RtoC (INR j * ln 2 / t)) an zs zr res lam (cc ab an) (hs_delta ab) HB Hsj Hres Hp)).
    - assert (E : inb ab [11; 22]%Z = false). { destruct (inb ab [11; 22]%Z) eqn:E; [|reflexivity]. exfalso. apply N4. unfold inb in E. apply existsb_exists in E as (x & Hx & Ex). apply Z.eqb_eq in Ex. subst x. unfold four. cbn [In] in *. intuition. }
      assert (J0 : forall a : C, a - RtoC (if inb ab [11; 22]%Z then 1 else 0) * a = a - RtoC 0 * a) by (intros; rewrite E; reflexivity).
      destruct (vertical_lim ab an zs zr res lam w Haw Hres Hlam Hm Hp Hab N4) as [L1 L2]. unfold jd, jr, jump. rewrite E.
      split; [eapply lim0_eq; [exact L1|unfold Pt, hs_part; cbn; ring]|]. split; [eapply lim0_eq; [exact L2|unfold Pt, hs_part; cbn; ring]|].
      assert (AV : forall off, p_air (Pt off) = RtoC 0). { intros off. unfold Pt, hs_part, hs_fields. cbn [p_air]. unfold hs_air. destruct (hs_xy ab _ _). replace (inb ab [11; 12; 21; 22]%Z) with false; [reflexivity|]. symmetry. destruct (inb ab [11; 12; 21; 22]%Z) eqn:E4; [|reflexivity]. exfalso. apply N4. unfold inb in E4. apply existsb_exists in E4 as (x & Hx & Ex). apply Z.eqb_eq in Ex. subst x. exact Hx. }
      rewrite AV. refine (lim0_ext (fun _ => RtoC 0) _ _ _ (limC_const _)). intros off _. symmetry. apply AV. }
  destruct LD as (LD & LR & LA).
  split; [|split; [|split; [|split]]].
  - refine (lim0_ext _ _ _ _ LD). intros off Ho. symmetry. apply VS. lra.
  - refine (lim0_ext _ _ _ _ LR). intros off Ho. symmetry. apply VS. lra.
  - refine (lim0_ext _ _ _ _ LA). intros off Ho. symmetry. apply VS. lra.
  - refine (lim0_ext _ _ _ _ LD). intros off Ho. symmetry. apply VS. lra.
  - eapply lim0_eq; [refine (lim0_ext _ _ _ _ (limC_plus _ _ _ _ (limC_plus _ _ _ _ LD LR) LA)); intros off Ho; symmetry; apply VS; lra|ring].
Qed.

Lemma inductive_nz : forall res w h, (0 < res)%R -> (0 < h)%R -> in_range w -> is_imp w = false -> inductive_term res w h <> RtoC 0.
Proof.
  intros res w h Hr Hh Hw Hi. pose proof mu0_pos as Hm. pose proof PI_RGT_0 as HP. assert (P : (0 < mu0 / res)%R) by (apply Rdiv_lt_0_compat; assumption).
  assert (K : (0 < mu0 / (4 * PI * h))%R) by (apply Rdiv_lt_0_compat; [lra|]; apply Rmult_lt_0_compat; lra). destruct w as [s|t|t]; cbn [in_range inductive_term is_imp] in *; [| |discriminate].
  - apply Cmult_neq_0; [apply RC_neq; lra|]. apply Cmult_neq_0; [exact Hw|]. intros E. set (z := Copp _) in E. assert (X : Cexp z * Cexp (Copp z) = RtoC 1) by (rewrite <- Cexp_plus; replace (z + Copp z) with (RtoC 0) by ring; apply Cexp_0). rewrite E in X.
    apply (f_equal fst) in X. cbn in X. lra.
  - apply RC_neq, Rgt_not_eq. apply Rmult_lt_0_compat; [exact K|]. apply Rmult_lt_0_compat; [|apply exp_pos]. apply Rdiv_lt_0_compat.
    + apply Rmult_lt_0_compat; [exact Hh|]. now apply sqrt_lt_R0.
    + apply Rmult_lt_0_compat; [|now apply sqrt_lt_R0]. apply Rmult_lt_0_compat; [|exact Hw]. apply Rmult_lt_0_compat; [lra|]. now apply sqrt_lt_R0.
Qed.
Theorem hs_zero_not : forall ive kve inp ab an zs zr eH eV k w, bessel_rays ive kve -> In ab [11; 22]%Z -> at_k inp k = Some w -> in_range w -> is_imp w = false ->
  let res := hs_res eH in let lam := hs_aniso eV res in (0 < res)%R -> (0 < lam)%R -> zs <> zr -> (zs <> - zr)%R ->
  let H sol off := halfspace ive kve inp sol ab off an zs zr eH eV in
  ~ limC (fun off => split_part (H Dfs off) 0 k) z0 (split_part (H Dfs 0%R) 0 k) /\
  ~ limC (fun off => split_part (H Dsplit off) 1 k) z0 (split_part (H Dsplit 0%R) 1 k).
Proof.
  intros ive kve inp ab an zs zr eH eV k w HB Hab Hk Hw Hi res lam Hres Hlam Hm Hp H.
  assert (Ph : (0 < Rabs (zr - zs))%R) by (apply Rabs_pos_lt; lra). assert (Ph' : (0 < Rabs (zr + zs))%R) by (apply Rabs_pos_lt; lra).
  assert (H9 : In ab nine) by (unfold nine; cbn [In] in *; intuition). assert (EI : inb ab [11; 22]%Z = true) by (destruct Hab as [<- | [<- | []]]; reflexivity).
  destruct (hs_zero ive kve inp ab an zs zr eH eV k w HB H9 Hk Hw (fun _ => Hi) Hres Hlam Hm Hp) as (_ & _ & LR & _ & LD & _). rewrite EI in LR, LD. fold (H Dsplit) (H Dfs) in *.
  assert (U : forall (f : R -> C) a j, limC f z0 (a - RtoC 1 * j) -> j <> RtoC 0 -> ~ limC f z0 a).
  { intros f a j L Nj L'. apply Nj. pose proof (limC_unique z0 f _ _ L L') as E. transitivity (a - (a - RtoC 1 * j)); [ring|]. rewrite E. ring. }
  split; [eapply U; [exact LD|]|eapply U; [exact LR|]]; apply inductive_nz; assumption.
Qed.
(** the impulse response *)
Theorem hs_zero_imp : forall ive kve sg ts sol ab an zs zr eH eV, In ab four -> sg <> (-1)%Z -> sg <> 1%Z ->
  halfspace ive kve (HTime sg ts) sol ab 0 an zs zr eH eV = Err NanE.
Proof.
  intros ive kve sg ts sol ab an zs zr eH eV Hab N1 N2. unfold halfspace. destruct (Req_EM_T _ 0); [reflexivity|]. destruct (Req_EM_T _ 0); [reflexivity|]. unfold hs_imp0. rewrite (proj2 (Z.eqb_neq _ _) N1), (proj2 (Z.eqb_neq _ _) N2), (inb4 ab Hab). cbn [negb andb].
  unfold hs_geo. cbn [rh]. destruct (Req_EM_T _ 0) as [_|N]; [reflexivity|]. exfalso. apply N. replace ((cos an * 0) ^ 2 + (sin an * 0) ^ 2)%R with 0%R by ring. apply sqrt_0.
Qed.
