(** dipole_k for the codes with a magnetic receiver whose raw code is not the computed one:
    the responses of one full space. *)

From Coq Require Import ZArith Reals List Bool String QArith Lia Lra.
From Coquelicot Require Import Coquelicot.
From Verif Require Import PyBase CBase Kernel KernelSpec KernelClosed KernelPhys KernelMain KernelThm KernelThm2 Utils UtilsAb UtilsLayer UtilsModel UtilsFreq UtilsGeo UtilsSurvey Transform TransformDlf Fullspace Model ModelFem Routines RoutinesThm Bipole BipoleCol BipoleThm BipoleLoop BipoleFinal BipoleStrength RoutinesK RoutinesKThm.
Import ListNotations.
Local Open Scope R_scope.
Local Open Scope res_scope.

(** the codes for which the raw code does not serve, and those computed instead *)
Definition bad_codes : list Z := [41; 42; 44; 45; 46; 51; 52; 53; 54; 55; 62; 64]%Z.

(** *** The angle factors *)
Lemma far : forall x t, 0 <= t -> t <= 10 -> 1 <= Rabs (x - t) -> isclose x t (/ 10 ^ 10) (/ 10 ^ 14) = false.
Proof.
  intros x t H0 H1 H. unfold isclose. destruct (Rle_dec _ _) as [L|_]; [exfalso|reflexivity]. rewrite (Rabs_pos_eq t) in L by lra.
  assert (T10 : / 10 ^ 10 <= / 100). { apply Rinv_le_contravar; [lra|]. replace 100 with (10 ^ 2) by ring. apply Rle_pow; [lra|lia]. }
  assert (T14 : / 10 ^ 14 <= / 100). { apply Rinv_le_contravar; [lra|]. replace 100 with (10 ^ 2) by ring. apply Rle_pow; [lra|lia]. }
  assert (/ 10 ^ 10 * t <= / 100 * 10) by (apply Rmult_le_compat; try lra; left; apply Rinv_0_lt_compat, pow_lt; lra). lra.
Qed.
Lemma near : forall t, isclose t t (/ 10 ^ 10) (/ 10 ^ 14) = true.
Proof.
  intros t. unfold isclose. destruct (Rle_dec _ _) as [L|N]; [reflexivity|]. exfalso. apply N. replace (t - t) with 0 by ring. rewrite Rabs_R0.
  assert (0 < / 10 ^ 10) by (apply Rinv_0_lt_compat, pow_lt; lra). assert (0 < / 10 ^ 14) by (apply Rinv_0_lt_compat, pow_lt; lra). pose proof (Rabs_pos t). nra.
Qed.

(** the angle 0 for components of the cosine, a right angle for those of the sine *)
Definition bad_angle (z : Z) : R := if inb z [41; 45; 52; 54]%Z then PI / 2 else 0.

Ltac farw := rewrite far by (pose proof PI2_3_2; pose proof PI_4; try lra; unfold Rabs; repeat destruct (Rcase_abs _); lra).

Lemma bad_factors : forall z abc ms mr, In z bad_codes -> check_ab (AbNum (inject_Z z)) = Ok (abc, ms, mr) ->
  angle_factor (bad_angle z) z ms mr <> angle_factor (bad_angle z) abc ms mr.
Proof.
  intros z abc ms mr H E. unfold bad_codes in H. cbn [In] in H. pose proof PI2_3_2 as P3. pose proof PI_4 as P4.
  assert (S3 : sin (PI / 2 + PI) = -1) by (rewrite neg_sin, sin_PI2; reflexivity).
  assert (S6 : sin ((PI / 2 + PI) * 2) = 0) by (replace ((PI / 2 + PI) * 2) with (PI + 2 * INR 1 * PI) by (cbn; field); rewrite sin_period; apply sin_PI).
  assert (C2 : cos ((0 + PI) * 2) = 1) by (replace ((0 + PI) * 2) with (2 * PI) by ring; apply cos_2PI).
  repeat (destruct H as [<-|H]; [vm_compute in E; injection E as <- <- <-; unfold angle_factor, bad_angle; cbn [inb existsb Z.eqb Pos.eqb orb andb negb]; cbv zeta iota|]); try contradiction.
  all: repeat match goal with
  | |- context [Rabs (0 + PI)] => replace (Rabs (0 + PI)) with PI by (rewrite Rabs_pos_eq; lra)
  | |- context [Rabs ((0 + PI) * 2)] => replace (Rabs ((0 + PI) * 2)) with (2 * PI) by (rewrite Rabs_pos_eq; lra)
  | |- context [Rabs (PI / 2 + PI)] => replace (Rabs (PI / 2 + PI)) with (3 * PI / 2) by (rewrite Rabs_pos_eq; lra)
  | |- context [Rabs ((PI / 2 + PI) * 2)] => replace (Rabs ((PI / 2 + PI) * 2)) with (3 * PI) by (rewrite Rabs_pos_eq; lra)
  | |- context [Rabs (PI / 2)] => replace (Rabs (PI / 2)) with (PI / 2) by (rewrite Rabs_pos_eq; lra)
  | |- context [Rabs (PI / 2 * 2)] => replace (Rabs (PI / 2 * 2)) with PI by (rewrite Rabs_pos_eq; lra)
  | |- context [Rabs (0 * 2)] => replace (Rabs (0 * 2)) with 0 by (rewrite Rmult_0_l, Rabs_R0; reflexivity)
  | |- context [Rabs 0] => replace (Rabs 0) with 0 by (rewrite Rabs_R0; reflexivity)
  end.
  all: repeat match goal with
  | |- context [isclose ?t ?t _ _] => rewrite near
  | |- context [isclose ?a ?t _ _] => farw
  end.
  all: cbv iota; rewrite ?S3, ?S6, ?C2, ?sin_PI2, ?sin_0, ?Rmult_0_l, ?cos_0, ?Rplus_0_l, ?cos_PI; lra.
Qed.

(** *** A full space with real parameters *)
Section Space.
Variables (h v u l : R) (z : nat -> R).
Hypothesis Hh : 0 < h.
Hypothesis Hv : 0 < v.
Hypothesis Hu : 0 < u.
Hypothesis Hl : 0 < l.
Local Notation eH := (fun _ : nat => RtoC h).
Local Notation eV := (fun _ : nat => RtoC v).
Local Notation zt := (fun _ : nat => RtoC u).

Definition space_row : frow := mkrow (arr eH 0) (arr eV 0) (arr zt 0) (arr zt 0).
Lemma space_medium : passive_medium eH eV zt zt z 0.
Proof using Hh Hv Hu.
  constructor; intros k Hk; cbn; try lra; try lia; intros X; injection X; lra.
Qed.
Lemma space_passive : passive_row 0 z space_row.
Proof using Hh Hv Hu. exists eH, eV, zt, zt. split; [apply space_medium|reflexivity]. Qed.

Definition gE : R := sqrt (h / v * (l * l) + u * h).
Definition gZ : R := sqrt (l * l + u * h).
Lemma gE_pos : 0 < gE. Proof using Hh Hv Hu Hl. apply sqrt_lt_R0. assert (0 < h / v) by (apply Rdiv_lt_0_compat; lra). assert (0 < h / v * (l * l)) by (apply Rmult_lt_0_compat; nra). nra. Qed.
Lemma gZ_pos : 0 < gZ. Proof using Hh Hv Hu Hl. apply sqrt_lt_R0. nra. Qed.

Lemma gam_E : gam eH eV zt l 0 = RtoC gE.
Proof using Hh Hv Hu Hl.
  unfold gam, gE. assert (0 < h / v) by (apply Rdiv_lt_0_compat; lra). rewrite <- Csqrt_RtoC.
  - f_equal. rewrite RtoC_plus, !RtoC_mult, RtoC_div by lra. ring.
  - assert (0 < h / v * (l * l)) by (apply Rmult_lt_0_compat; nra). nra.
Qed.
Lemma gam_Z : gam zt zt eH l 0 = RtoC gZ.
Proof using Hh Hv Hu Hl.
  unfold gam, gZ. assert (N : RtoC u <> RtoC 0) by (intros X; injection X; lra). rewrite <- Csqrt_RtoC by nra. f_equal.
  rewrite RtoC_plus, !RtoC_mult. field. exact N.
Qed.

Lemma dec_R : forall (g : nat -> C) x d, g 0%nat = RtoC x -> dec g 0 d = RtoC (exp (- (x * d))).
Proof. intros g x d H. unfold dec. rewrite H, <- RtoC_mult, <- RtoC_opp. apply RtoC_Cexp. Qed.

Lemma cpm_val : forall TM ab, cpm TM ab = if plus_of TM ab then RtoC 1 else Copp (RtoC 1).
Proof. intros TM ab. unfold cpm, zpm. destruct (plus_of TM ab); [reflexivity|]. unfold cz. rewrite <- RtoC_opp. reflexivity. Qed.
Lemma csg_val : forall TM ab, csg TM ab = if (TM && inb ab [11; 12; 13; 21; 22; 23; 14; 24; 15; 25]%Z)%bool then Copp (RtoC 1) else RtoC 1.
Proof. intros TM ab. unfold csg. destruct (_ && _)%bool; [|reflexivity]. unfold cz. rewrite <- RtoC_opp. reflexivity. Qed.

Lemma dsgn_eq : forall x, dsgn (Copp (RtoC 1)) (Copp (RtoC 1)) x = Copp (RtoC 1) /\ dsgn (RtoC 1) (RtoC 1) x = RtoC 1 /\
  dsgn (RtoC 1) (Copp (RtoC 1)) x = Copp (RtoC (Rsign x)) /\ dsgn (Copp (RtoC 1)) (RtoC 1) x = RtoC (Rsign x).
Proof.
  intros x. unfold dsgn.
  assert (A : Cmult (Copp (RtoC 1)) (Copp (RtoC 1)) = RtoC 1) by ring. assert (B : Cmult (RtoC 1) (RtoC 1) = RtoC 1) by ring.
  assert (D : Cmult (RtoC 1) (Copp (RtoC 1)) <> RtoC 1) by (intros X; apply (f_equal fst) in X; cbn in X; lra).
  assert (F : Cmult (Copp (RtoC 1)) (RtoC 1) <> RtoC 1) by (intros X; apply (f_equal fst) in X; cbn in X; lra).
  repeat split; repeat destruct (Ceq_dec _ _); try contradiction; try ring.
Qed.

Ltac opening := unfold PTM, PTE; cbn [mode_used negb inb existsb Z.eqb Pos.eqb orb]; rewrite !G_mode_1layer; unfold fTM, fTE, G_dir; rewrite ?(cpm_val true), ?(cpm_val false), ?(csg_val true), ?(csg_val false);
  cbn [plus_of inb existsb Z.eqb Pos.eqb orb andb negb plusset].
Ltac closing := cbn [sgnTM inb existsb Z.eqb Pos.eqb orb];
  repeat match goal with |- context [(?a =? ?b)%Z] => let x := eval vm_compute in (a =? b)%Z in change (a =? b)%Z with x end; cbv iota;
  rewrite !Rmult_1_r; repeat split; rewrite ?RtoC_opp; unfold Rdiv; rewrite ?RtoC_mult, ?RtoC_opp, ?RtoC_inv by lra; rewrite ?RtoC_opp; field; repeat split; try assumption; try (intros X; apply (f_equal fst) in X; cbn in X; lra).

(** the responses of the two modes at a vertical distance of one *)
Lemma P_mm : forall ab, In ab [11; 12; 21; 22]%Z -> 
  PTM zt zt eH z 0 l ab false 0 0 0 1 = RtoC (- (gZ / u * exp (- gZ))) /\
  PTE eH eV zt z 0 l ab false 0 0 0 1 = RtoC (h / gE * exp (- gE)).
Proof using All.
  intros ab H. cbn [In] in H. pose proof gE_pos as GE. pose proof gZ_pos as GZ.
  assert (A1 : Rabs (0 - 1) = 1) by (unfold Rabs; destruct (Rcase_abs _); lra).
  assert (Nh : RtoC h <> RtoC 0) by (intros X; injection X; lra). assert (Nu : RtoC u <> RtoC 0) by (intros X; injection X; lra). assert (NE : RtoC gE <> RtoC 0) by (intros X; injection X; lra).
  repeat (destruct H as [<-|H]; [opening; 
    rewrite (proj1 (dsgn_eq _)), (proj1 (proj2 (dsgn_eq _))), wsrc_1, wsrc_m1, wgt_m1, (dec_R _ gZ), (dec_R _ gE) by (first [apply gam_E|apply gam_Z]); rewrite A1, gam_E, gam_Z; closing|]); try contradiction.
Qed.
Lemma P_mm3 : forall ab, In ab [13; 31]%Z ->
  PTM zt zt eH z 0 l ab false 0 0 0 1 = RtoC (exp (- gZ) / u) /\ PTE eH eV zt z 0 l ab false 0 0 0 1 = RtoC 0.
Proof using All.
  intros ab H. cbn [In] in H. pose proof gE_pos as GE. pose proof gZ_pos as GZ. assert (NZ : RtoC gZ <> RtoC 0) by (intros X; injection X; lra).
  assert (A1 : Rabs (0 - 1) = 1) by (unfold Rabs; destruct (Rcase_abs _); lra).
  assert (A2 : Rsign (1 - 0) = 1) by (unfold Rsign; destruct (Rlt_dec _ _); [lra|]; destruct (Rlt_dec _ _); lra).
  assert (Nh : RtoC h <> RtoC 0) by (intros X; injection X; lra). assert (Nu : RtoC u <> RtoC 0) by (intros X; injection X; lra). assert (NE : RtoC gE <> RtoC 0) by (intros X; injection X; lra).
  destruct H as [<-|[<-|[]]]; (split; [|reflexivity]); opening.
  - rewrite (proj1 (proj2 (proj2 (dsgn_eq _)))), wsrc_1, wgt_m1, (dec_R _ gZ), A1, A2, gam_Z by apply gam_Z. closing.
  - rewrite (proj2 (proj2 (proj2 (dsgn_eq _)))), wsrc_m1, wgt_1, (dec_R _ gZ), A1, A2 by apply gam_Z. closing.
Qed.
Lemma P_em : forall ab, In ab [14; 24; 15; 25]%Z ->
  PTM eH eV zt z 0 l ab false 0 0 1 0 = RtoC (exp (- gE)) /\ PTE zt zt eH z 0 l ab false 0 0 1 0 = RtoC (- exp (- gZ)).
Proof using All.
  intros ab H. cbn [In] in H. pose proof gE_pos as GE. pose proof gZ_pos as GZ. assert (NZ : RtoC gZ <> RtoC 0) by (intros X; injection X; lra).
  assert (A1 : Rabs (1 - 0) = 1) by (unfold Rabs; destruct (Rcase_abs _); lra).
  assert (A2 : RtoC (Rsign (0 - 1)) = Copp (RtoC 1)) by (rewrite <- RtoC_opp; f_equal; unfold Rsign; destruct (Rlt_dec _ _); lra).
  assert (Nh : RtoC h <> RtoC 0) by (intros X; injection X; lra). assert (Nu : RtoC u <> RtoC 0) by (intros X; injection X; lra). assert (NE : RtoC gE <> RtoC 0) by (intros X; injection X; lra).
  repeat (destruct H as [<-|H]; [opening;
    rewrite (proj1 (proj2 (proj2 (dsgn_eq _)))), (proj2 (proj2 (proj2 (dsgn_eq _)))), wsrc_1, wsrc_m1, wgt_m1, (dec_R _ gE), (dec_R _ gZ) by (first [apply gam_E|apply gam_Z]); rewrite A1, A2, gam_E; closing|]); try contradiction.
Qed.
Lemma P_35 : PTM eH eV zt z 0 l 35 false 0 0 1 0 = RtoC (h / gE / v * exp (- gE)) /\ PTE zt zt eH z 0 l 35 false 0 0 1 0 = RtoC 0.
Proof using All.
  pose proof gE_pos as GE. assert (A1 : Rabs (1 - 0) = 1) by (unfold Rabs; destruct (Rcase_abs _); lra).
  assert (Nv : RtoC v <> RtoC 0) by (intros X; injection X; lra). assert (NE : RtoC gE <> RtoC 0) by (intros X; injection X; lra).
  split; [|reflexivity]. opening. rewrite (proj1 (proj2 (dsgn_eq _))), wsrc_1, wgt_1, (dec_R _ gE), A1, gam_E by apply gam_E. closing.
Qed.
Lemma P_26 : PTM eH eV zt z 0 l 26 false 0 0 1 0 = RtoC 0 /\ PTE zt zt eH z 0 l 26 false 0 0 1 0 = RtoC (exp (- gZ) / gZ).
Proof using All.
  pose proof gZ_pos as GZ. assert (A1 : Rabs (1 - 0) = 1) by (unfold Rabs; destruct (Rcase_abs _); lra).
  assert (Nu : RtoC u <> RtoC 0) by (intros X; injection X; lra). assert (NZ : RtoC gZ <> RtoC 0) by (intros X; injection X; lra).
  split; [reflexivity|]. opening. rewrite (proj1 (proj2 (dsgn_eq _))), wsrc_1, (dec_R _ gZ), A1, gam_Z by apply gam_Z. closing.
Qed.
End Space.

(** the part that belongs to the Bessel function of first order *)
Lemma collect_t1 : forall ab mr l p q, In ab [11; 12; 21; 22; 13; 31; 14; 24; 15; 25; 35; 26]%Z -> 0 < l ->
  exists c, t1 (collect ab mr l p q) = Some (Cmult c (Cplus p q)) /\ c <> RtoC 0.
Proof.
  intros ab mr l p q H Hl. cbn [In] in H. assert (D : 4 * PI <> 0) by (pose proof PI_RGT_0; lra). assert (D1 : RtoC (4 * PI) <> RtoC 0) by (intros X; injection X; lra).
  assert (K1 : RtoC (/ (4 * PI)) <> RtoC 0) by (intros X; injection X; apply Rinv_neq_0_compat; exact D).
  assert (K2 : RtoC (l * l / (4 * PI)) <> RtoC 0). { intros X; injection X. apply Rgt_not_eq. apply Rdiv_lt_0_compat; [nra|pose proof PI_RGT_0; lra]. }
  assert (Z1 : forall s, s = 1%Z \/ s = (-1)%Z -> cz s <> RtoC 0) by (intros s [-> | ->] X; apply (f_equal fst) in X; cbn in X; lra).
  repeat (destruct H as [<-|H]; [unfold collect; cbn [inb existsb Z.eqb Pos.eqb orb negb t1 fst snd]|]); try contradiction.
  all: match goal with
  | |- exists c, Some (Cmult (cz ?s) (Cdiv ?a ?b)) = _ /\ _ => exists (Cmult (cz s) (RtoC (/ (4 * PI)))); split; [f_equal; rewrite RtoC_inv by exact D; field; exact D1|apply Cmult_neq_0; [apply Z1; destruct mr; cbn; tauto|exact K1]]
  | |- exists c, Some (Cmult (Cmult (cz ?s) (Cdiv ?a ?b)) ?k) = _ /\ _ => exists (Cmult (cz s) (RtoC (l * l / (4 * PI)))); split; [f_equal; rewrite RtoC_div by exact D; field; exact D1|apply Cmult_neq_0; [apply Z1; destruct mr; cbn; tauto|exact K2]]
  end.
Qed.

Lemma bad_kernel : forall z abc ms mr h v u l zz, In z bad_codes -> check_ab (AbNum (inject_Z z)) = Ok (abc, ms, mr) ->
  0 < h -> 0 < v -> 0 < u -> 0 < l -> (if ms then v = h else v < h) ->
  exists w, t1 (kern 0 1 0 0 zz 0 abc false ms mr (space_row h v u) l) = Some w /\ w <> RtoC 0.
Proof.
  intros z abc ms mr h v u l zz H E Hh Hv Hu Hl HM.
  assert (HV : valid_call abc ms mr /\ In abc [11; 12; 21; 22; 13; 31; 14; 24; 15; 25; 35; 26]%Z /\ mr = true /\
    if ms then In abc [11; 12; 21; 22]%Z \/ In abc [13; 31]%Z else In abc [14; 24; 15; 25]%Z \/ abc = 35%Z \/ abc = 26%Z).
  { unfold bad_codes in H. cbn [In] in H.
    repeat (destruct H as [<-|H]; [vm_compute in E; injection E as <- <- <-; split; [unfold valid_call; vm_compute; tauto|split; [cbn; tauto|split; [reflexivity|cbn; tauto]]]|]). contradiction. }
  destruct HV as (HV & HI & -> & HG). clear H E.
  pose proof (space_medium h v u zz Hh Hv Hu) as PM. pose proof (passive_model_ok _ _ _ _ _ _ l PM) as OK.
  pose proof (gcall_resp _ _ _ _ zz 0 l abc false ms true 0 0 0 1 OK HV (le_n 0) (le_n 0)) as G. unfold gcall in G.
  unfold kern, wavenumber, space_row. cbn [r_eH r_eV r_zH r_zV]. change (Z.of_nat 0) with 0%Z in *. rewrite G. clear G. unfold resp.
  pose proof (gE_pos h v u l Hh Hv Hu Hl) as GE. pose proof (gZ_pos h v u l Hh Hv Hu Hl) as GZ.
  assert (EP := exp_pos (- gE h v u l)). assert (EZ := exp_pos (- gZ h u l)).
  destruct ms; cbn [bind].
  - match goal with |- context [collect abc true l ?p ?q] => destruct (collect_t1 abc true l p q HI Hl) as (c & -> & NC) end.
    eexists. split; [reflexivity|]. apply Cmult_neq_0; [exact NC|]. destruct HG as [HG|HG].
    + destruct (P_mm h v u l zz Hh Hv Hu Hl abc HG) as [-> ->]. rewrite <- !RtoC_opp, <- RtoC_plus. intros X. injection X. clear X. subst v.
      assert (S : gE h h u l = gZ h u l) by (unfold gE, gZ; f_equal; field; lra). rewrite S in *. clear S.
      assert (SQ : gZ h u l * gZ h u l = l * l + u * h) by (unfold gZ; apply sqrt_sqrt; nra).
      set (g := gZ h u l) in *. set (e := exp (- g)) in *.
      replace (- - (g / u * e) + - (h / g * e)) with (e * (g * g - u * h) / (u * g)) by (field; lra). rewrite SQ. apply Rgt_not_eq.
      apply Rdiv_lt_0_compat; [apply Rmult_lt_0_compat; nra|nra].
    + destruct (P_mm3 h v u l zz Hh Hv Hu Hl abc HG) as [-> ->]. rewrite <- !RtoC_opp, <- RtoC_plus. intros X. injection X. clear X.
      apply Rlt_not_eq. assert (0 < exp (- gZ h u l) / u) by (apply Rdiv_lt_0_compat; lra). lra.
  - match goal with |- context [collect abc true l ?p ?q] => destruct (collect_t1 abc true l p q HI Hl) as (c & -> & NC) end.
    eexists. split; [reflexivity|]. apply Cmult_neq_0; [exact NC|]. destruct HG as [HG|[->| ->]].
    + destruct (P_em h v u l zz Hh Hv Hu Hl abc HG) as [-> ->]. rewrite <- RtoC_plus. intros X. injection X. clear X.
      assert (L : gZ h u l < gE h v u l).
      { unfold gZ, gE. apply sqrt_lt_1_alt. split; [nra|]. assert (1 < h / v) by (apply Rmult_lt_reg_r with v; [lra|]; unfold Rdiv; rewrite Rmult_assoc, Rinv_l by lra; lra). assert (0 < (h / v - 1) * (l * l)) by (apply Rmult_lt_0_compat; nra). lra. }
      assert (exp (- gE h v u l) < exp (- gZ h u l)) by (apply exp_increasing; lra). lra.
    + destruct (P_35 h v u l zz Hh Hv Hu Hl) as [-> ->]. rewrite <- RtoC_plus. intros X. injection X. clear X.
      apply Rgt_not_eq. assert (0 < h / gE h v u l / v) by (repeat apply Rdiv_lt_0_compat; lra). nra.
    + destruct (P_26 h v u l zz Hh Hv Hu Hl) as [-> ->]. rewrite <- RtoC_plus. intros X. injection X. clear X.
      apply Rgt_not_eq. assert (0 < exp (- gZ h u l) / gZ h u l) by (apply Rdiv_lt_0_compat; lra). lra.
Qed.

(** *** One model per kind of code: a full space in the Laplace domain, with a vertical
    permittivity of zero for electric sources *)
Definition bad_q (ms : bool) : params :=
  {| q_res := ResArr (Nd [] [1]); q_aniso := None; q_eH := None; q_eV := if ms then None else Some (Nd [] [0]); q_mH := None; q_mV := None |}.
Definition bad_filt : dfilter := mkF [1] 2 [0] [1] [0] [1].
Definition bad_rec (z : Z) : list ndin := if inb z [41; 45; 52; 54]%Z then [Nd [] [0]; Nd [] [1]; Nd [] [1]] else [Nd [] [1]; Nd [] [0]; Nd [] [1]].
Definition bad_src : list ndin := [Nd [] [0]; Nd [] [0]; Nd [] [0]].

Lemma bad_geo : forall z, geometry default_mins bad_src (bad_rec z) = Ok ([1], [bad_angle z], 0, 1, 1%nat, 1%nat).
Proof.
  intros z. unfold bad_rec, bad_angle. assert (R1 : Rmax 1 (min_off default_mins) = 1).
  { unfold default_mins. cbn [min_off]. rewrite Rmax_left; [reflexivity|]. simpl. lra. }
  destruct (inb z _); unfold geometry, bad_src, check_dipole; cbn [check_var check_shape atleast1 bind List.length Nat.eqb];
    change (check_shape [1%nat] [1%nat] []) with (Ok tt); cbn [bind];
    unfold get_off_ang, map2; rewrite (proj1 (check_min_spec _ _)); cbn [combine flat_map map app fst snd]; unfold atan2.
  - replace ((0 - 0) * (0 - 0) + (1 - 0) * (1 - 0)) with 1 by ring. rewrite sqrt_1, R1.
    assert (L : Rltb 0 (0 - 0) = false) by (apply UtilsLayer.Rltb_false; lra). assert (L' : Rltb (0 - 0) 0 = false) by (apply UtilsLayer.Rltb_false; lra). 
    assert (L'' : Rltb 0 (1 - 0) = true) by (apply UtilsLayer.Rltb_true; lra). rewrite L, L', L''. reflexivity.
  - replace ((1 - 0) * (1 - 0) + (0 - 0) * (0 - 0)) with 1 by ring. rewrite sqrt_1, R1.
    assert (L : Rltb 0 (1 - 0) = true) by (apply UtilsLayer.Rltb_true; lra). rewrite L. replace ((0 - 0) / (1 - 0)) with 0 by field. rewrite atan_0. reflexivity.
Qed.
Lemma bad_wf : forall ms, inputs_wf (inp_of (bad_q ms)).
Proof. intros []; constructor; cbn; auto; intros kv []. Qed.
Lemma bad_model : forall ms, cmodel default_mins [] (inp_of (bad_q ms)) = Ok (model_of default_mins false [NInf] (inp_of (bad_q ms))).
Proof.
  intros ms. rewrite check_model_closed by apply bad_wf. change (check_depth []) with (@Ok (bool * list ext) (false, [NInf])). cbv iota beta. cbn [List.length].
  assert (AF : all_fit 1 (inp_of (bad_q ms)) = true) by (destruct ms; reflexivity). now rewrite AF.
Qed.
Lemma bad_plain : forall ms, 0 < min_res default_mins -> 0 < min_freq default_mins -> plain_model default_mins [] (bad_q ms) [-1].
Proof.
  intros ms M1 M2. constructor; try assumption; try discriminate.
  - eexists. reflexivity.
  - apply bad_wf.
  - left. intros i j H. cbn in H. lia.
  - intros o E1. rewrite bad_model in E1. injection E1 as <-. destruct ms; intros x [Hx|Hx]; cbn in Hx; destruct Hx as [<-|[]]; lra.
Qed.
Lemma bad_rows : forall m (ms : bool), 0 < min_freq m -> exists h v u, 0 < h /\ 0 < v /\ 0 < u /\ (if ms then v = h else (v < h)%R) /\
  let mo := model_of m false [NInf] (inp_of (bad_q ms)) in
  rows_of (check_frequency m [-1] (m_res mo) (m_aniso mo) (m_epermH mo) (m_epermV mo) (m_mpermH mo) (m_mpermV mo)) = [space_row h v u].
Proof.
  intros m ms M2. assert (F : Rltb 0 (-1) = false) by (apply UtilsLayer.Rltb_false; lra).
  assert (EP : 0 < epsilon_0). { unfold epsilon_0, mu_0, c_light. pose proof PI_RGT_0. apply Rdiv_lt_0_compat; [lra|]. assert (0 < 4 / 10 ^ 7) by (apply Rdiv_lt_0_compat; [lra|apply pow_lt; lra]). repeat match goal with |- (0 < _ * _)%R => apply Rmult_lt_0_compat end; lra. }
  assert (MU : 0 < mu_0). { unfold mu_0. pose proof PI_RGT_0. assert (0 < 4 / 10 ^ 7) by (apply Rdiv_lt_0_compat; [lra|apply pow_lt; lra]). nra. }
  set (f := Rmax (- (-1)) (min_freq m)). assert (Hf : 0 < f) by (apply Rlt_le_trans with (- (-1)); [lra|apply Rmax_l]).
  set (rr := Rmax 1 (min_res m)). assert (Hr : 0 < rr) by (apply Rlt_le_trans with 1; [lra|apply Rmax_l]).
  assert (Ir : 0 < 1 / rr) by (apply Rdiv_lt_0_compat; lra). assert (Fe : 0 < f * (1 * epsilon_0)) by (apply Rmult_lt_0_compat; lra).
  exists (1 / rr + f * (1 * epsilon_0)), (if ms then 1 / rr + f * (1 * epsilon_0) else 1 / rr), (f * (1 * mu_0)).
  split; [lra|]. split; [destruct ms; lra|]. split; [nra|]. split; [destruct ms; [reflexivity|lra]|].
  cbv zeta. unfold check_frequency. cbn [existsb]. rewrite F. cbn [orb negb map]. rewrite (proj1 (check_min_spec _ _)). cbn [map]. fold f.
  unfold rows_of, space_row, outer, map2. destruct ms; cbn; fold rr.
  - assert (E1 : Cplus (RtoC (1 / rr)) (Cmult (RtoC f) (RtoC (1 * epsilon_0))) = RtoC (1 / rr + f * (1 * epsilon_0))) by now rewrite RtoC_plus, (RtoC_mult f).
    replace (rr * 1 * 1) with rr by ring. rewrite E1, <- (RtoC_mult f). reflexivity.
  - assert (E1 : Cplus (RtoC (1 / rr)) (Cmult (RtoC f) (RtoC (1 * epsilon_0))) = RtoC (1 / rr + f * (1 * epsilon_0))) by now rewrite RtoC_plus, (RtoC_mult f).
    assert (E2 : Cplus (RtoC (1 / rr)) (Cmult (RtoC f) (RtoC (Rmax 0 0 * epsilon_0))) = RtoC (1 / rr)).
    { rewrite Rmax_left by lra. rewrite Rmult_0_l. ring. }
    replace (rr * 1 * 1) with rr by ring. rewrite E1, E2, <- (RtoC_mult f). reflexivity.
Qed.

Theorem dipole_k_bad : forall z, In z bad_codes -> 0 < min_res default_mins -> 0 < min_freq default_mins -> 0 < min_off default_mins ->
  exists hook spl filt q freq a EM K, well_formed filt /\ plain_model default_mins [] q freq /\
  geometry default_mins bad_src (bad_rec z) = Ok ([1], [a], 0, 1, 1%nat, 1%nat) /\
  dipole default_mins hook (dlf_mk spl filt) bad_src (bad_rec z) [] q freq (AbNum (inject_Z z)) (Some false) false false = Ok (EM, 1%nat, 1%nat) /\
  dipole_k default_mins bad_src (bad_rec z) [] q freq (map (fun b => b / 1) (f_base filt)) (AbNum (inject_Z z)) = Ok K /\
  nth 0 (nth 0 EM []) (RtoC 0) <> Cdiv (filter_sum (f_j0 filt) (f_j1 filt) (nth 0 (nth 0 K []) [])) (RtoC 1).
Proof.
  intros z Hz M1 M2 M3.
  assert (W : well_formed bad_filt) by (repeat split; cbn; repeat constructor; lra).
  assert (EA : exists abc ms mr, check_ab (AbNum (inject_Z z)) = Ok (abc, ms, mr) /\ abc <> 36%Z /\ valid_call abc ms mr /\ inb z j2_components = false).
  { unfold bad_codes in Hz. cbn [In] in Hz.
    repeat (destruct Hz as [<-|Hz]; [do 3 eexists; split; [vm_compute; reflexivity|split; [lia|split; [unfold valid_call; vm_compute; tauto|reflexivity]]]|]). contradiction. }
  destruct EA as (abc & ms & mr & EA & N36 & HV & HJ).
  pose proof (fun spl => both_closed default_mins (fun _ fo => fo) spl bad_filt bad_src (bad_rec z) [] (bad_q ms) [-1] (AbNum (inject_Z z)) false false abc ms mr [1] [bad_angle z] 0 1 1 1 _ [1 / 1]
    W (bad_plain ms M1 M2) M3 eq_refl (bad_model ms) EA N36 HV (bad_geo z) ltac:(discriminate)) as BC. cbv zeta in BC.
  destruct (bad_rows default_mins ms M2) as (h & v & u & Hh & Hv & Hu & HM & HR). cbv zeta in HR. rewrite HR in BC.
  destruct (BC (fun v _ q => map (fun _ => hd 0%R v) q)) as (N & zz & s & r & ED & Bs & Br & LR & PR & _ & E1 & E2). clear BC.
  assert (HN : N = 0%nat). { apply (f_equal (@List.length _)) in ED. unfold depth_arr in ED. cbn in ED. rewrite map_length, seq_length in ED. lia. }
  subst N. assert (s = 0%nat) by lia. assert (r = 0%nat) by lia. subst s r.
  eexists _, _, bad_filt, (bad_q ms), [-1], (bad_angle z), _, _.
  split; [exact W|]. split; [exact (bad_plain ms M1 M2)|]. split; [apply bad_geo|]. split; [exact E1|]. split; [exact E2|].
  destruct (bad_kernel z abc ms mr h v u (1 / 1) zz Hz EA Hh Hv Hu ltac:(lra) HM) as (w & EK & NW).
  pose proof (bad_factors z abc ms mr Hz EA) as AF. rewrite raw_int.
  unfold table. cbn [map combine fst snd nth f_j0 f_j1 bad_filt f_base filter_sum]. unfold dlf_value, sum_noang, sum_ang. cbn [f_j0 f_j1 bad_filt f_base fsum].
  unfold part_of. unfold k_element. change [11; 12; 21; 22; 14; 24; 15; 25]%Z with j2_components. rewrite HJ.
  set (T := kern 0 1 0 0 zz 0 abc false ms mr (space_row h v u) (1 / 1)) in *.
  set (x := angle_factor (bad_angle z) z ms mr) in *. set (y := angle_factor (bad_angle z) abc ms mr) in *.
  destruct T as [[J0 J1] J0b]. unfold t0, t1, t0b in *. cbn [fst snd] in *. subst J1. cbn [oval fst snd].
  assert (O1 : RtoC 1 <> RtoC 0) by (intros X; injection X; lra).
  intros X. apply AF. assert (Y : Cmult (RtoC y) w = Cmult (RtoC x) w).
  { match type of X with ?l = ?r => transitivity l; [|transitivity r; [exact X|]] end; clear X; destruct J0, J0b; destruct (inb abc j2_components); cbn [oval fst snd]; field; exact O1. }
  assert (V : Cmult (RtoC (x - y)) w = RtoC 0) by (rewrite RtoC_minus; transitivity (Cminus (Cmult (RtoC x) w) (Cmult (RtoC y) w)); [ring|rewrite Y; ring]).
  destruct (Req_dec (x - y) 0) as [D|D]; [lra|]. exfalso. revert V. apply Cmult_neq_0; [|exact NW]. intros Q. injection Q. exact D.
Qed.
