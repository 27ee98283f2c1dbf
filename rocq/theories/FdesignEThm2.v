(** The right-hand side of the pairs of fdesign.empy_hankel is the Hankel transform of the
    left-hand side. *)

From Coq Require Import ZArith Reals List Bool Ascii String QArith Lia Lra Psatz.
From Coquelicot Require Import Coquelicot.
From Verif Require Import PyBase CBase Text Kernel KernelSpec KernelClosed KernelPhys KernelBVP KernelMain KernelThm KernelThm2 KernelBessel KernelFinal ODE Bessel Utils UtilsAb UtilsLayer UtilsModel UtilsFreq UtilsGeo UtilsSurvey Transform TransformDlf
  Fullspace FullspaceThm FullspaceMaxwell FullspaceCurl FullspaceField Homog HomogThm Model ModelFem Routines RoutinesThm Bipole BipoleCol BipoleThm BipoleLoop BipoleFinal BipoleStrength RoutinesK RoutinesKThm FourierQwe HankelQ HankelQThm HankelQThm2 HankelQThm4 FdesignD FdesignE FdesignEThm.
Import ListNotations.
Local Open Scope R_scope.
Local Open Scope C_scope.
Local Open Scope res_scope.

(** The integrand of the transform of a pair: J0 of the first part, J1 of the first part, or
    J0 of the first and J1 of the second part divided by the distance. *)
Definition pair_integrand (j0 j1 : R -> R) (t : txt) (v : C * C) (r l : R) : C :=
  if teqb t (T "j0") then fst v * RtoC (j0 (r * l)%R)
  else if teqb t (T "j1") then fst v * RtoC (j1 (r * l)%R)
  else fst v * RtoC (j0 (r * l)%R) + snd v * RtoC (j1 (r * l)%R) / RtoC r.

(** from the kernel to the pair *)
Lemma integrand_pair : forall j0 j1 t ab x y A K r l, eh_type t ab x y A -> (0 < r)%R ->
  (exists p q, K l = collect ab false l p q) ->
  hankel_integrand j0 j1 ab (kpart t0 K) (kpart t1 K) (kpart t0b K) r A l = pair_integrand j0 j1 t (eh_pick t (eh_elem ab K A l)) r l.
Proof.
  intros j0 j1 t ab x y A K r l HT Hr (p & q & E). assert (NZ : RtoC r <> RtoC 0) by (intros W; injection W; lra).
  unfold hankel_integrand, kpart, eh_elem. rewrite E. destruct HT; unfold collect, k_element, pair_integrand, eh_pick, isJ2; cbn -[Cplus Cmult RtoC Cdiv PI cz];
  rewrite ?div_one; [ring|ring|unfold Cdiv; ring].
Qed.

(** ** Quadrature with extrapolation, source and receiver in different layers *)
Section Qwe.
Variable rquad : (R -> R) -> R -> R -> R -> R -> nat -> R * nat.
Variable isp : list R -> list R -> R -> R.
Variables (j0 j1 j2 : R -> R) (gx gw : list R).

Lemma kern_other : forall zs zr s r z N ab w l, passive_row N z w -> valid_call ab false false -> (s <= N)%nat -> (r <= N)%nat -> s <> r ->
  kern zs zr s r z N ab true false false w l = kern zs zr s r z N ab false false false w l.
Proof using.
  intros zs zr s r z N ab w l (eH & eV & zH & zV & PM & ->) HV Hs Hr NE. unfold kern, wavenumber. cbn [r_eH r_eV r_zH r_zV].
  pose proof (proj2 (direct_switch eH eV zH zV z N l ab false false s r zs zr PM HV Hs Hr) NE) as D. unfold gcall in D. rewrite D. reflexivity.
Qed.

Theorem eh_qwe : forall m hook rtol atol zc maxint dq t ab x y zs zr depth q f mo,
  plain_model m depth q [f] -> check_model m depth (q_res q) (q_aniso q) (q_eH q) (q_eV q) (q_mH q) (q_mV q) = Ok mo ->
  (0 < min_off m <= 1)%R -> (2 <= maxint)%nat -> eh_setup t = Ok (ab, x, y) ->
  m_full mo = false -> layer1 (m_depth mo) zs <> layer1 (m_depth mo) zr ->
  let P := empy_hankel m hook (qwe_mk rquad isp j0 j1 j2 gx gw rtol atol zc maxint dq) t zs zr depth q f in
  exists L, (forall k, dp_lhs P k = Ok (L k)) /\
    forall g, dp_rhs P = RhsFun g -> forall rr, (min_off m <= rr)%R ->
      g rr = Ok (qwe_value rtol atol zc maxint (fun i => gauss gx gw (fun l => pair_integrand j0 j1 t (L l) rr l) (qx j1 j2 maxint i / rr)%R (qx j1 j2 maxint (S i) / rr)%R)).
Proof using.
  intros m hook rtol atol zc maxint dq t ab x y zs zr depth q f mo HP Em [H0 H1] Hm HE HFu HNL P.
  destruct (eh_setup_inv _ _ _ _ HE) as [A HT]. destruct (eh_set m depth q f zs zr mo HP Em) as (N & z & w & s & r & HS).
  pose proof HS as [ER PR ED Els Elr Bs Br]. pose proof HP as [[v HR] _ _ _ _ _ _].
  set (K := kern zs zr s r z N ab false false false w). exists (fun k => eh_pick t (eh_elem ab K A k)). split.
  - intros k. exact (eh_lhs_val m depth q f zs zr mo N z w s r t ab x y A k Em HS HT H0 H1).
  - intros g Hg rr Hr. unfold P, empy_hankel in Hg. cbn [dp_rhs] in Hg. injection Hg as <-.
    assert (NE : s <> r) by (intros ->; apply HNL; congruence).
    unfold eh_rhs. rewrite HE. cbn [bind]. unfold dipole. rewrite Em. cbn [bind]. rewrite HR. cbn [apply_hook]. rewrite (eh_check_ab _ _ _ _ _ HT). cbn [bind].
    rewrite (eh_geo m t ab x y A rr zs zr HT H0 Hr). cbn [bind]. rewrite Els, Elr. cbn [bind]. rewrite ER, ED, HFu. unfold fem.
    assert (EI : inb ab [36]%Z = false) by (unfold inb; cbn; pose proof (eh_36 _ _ _ _ _ HT); destruct (Z.eqb_spec ab 36); [contradiction|reflexivity]). rewrite EI.
    assert (EL : (Z.of_nat s =? Z.of_nat r)%Z = false) by (apply Z.eqb_neq; lia). rewrite EL. cbn [andb orb negb bind map]. rewrite (eh_angle t ab x y A HT).
    unfold fem_calc. cbn [List.length seq foldM]. unfold loop_freq_step. cbn [nth_error bind]. unfold qwe_mk.
    destruct (qwe_layered rquad isp j0 j1 j2 gx gw z N ab false false s r zs zr true w rtol atol zc maxint dq None None None [rr] [A] (eh_valid _ _ _ _ _ HT) Bs Br PR Hm eq_refl) as [kc Q].
    { intros o [<- | []]. lra. }
    rewrite Q. cbn [bind combine map List.length]. unfold shape_ok. cbn [List.length Nat.eqb forallb andb need bind]. cbn [nth].
    unfold mat_zeros. cbn [List.length repeat nth replace bind]. unfold vadd. unfold map2. cbn [combine map fst snd bind nth Z.of_nat]. f_equal.
    unfold czeros. cbn [repeat combine map nth fst snd]. rewrite Cplus_0_l. unfold plain_value. cbn [fst snd]. apply qwe_value_ext; [exact Hm|]. intros i _. unfold gauss. f_equal. f_equal. apply map_ext. intros e. f_equal.
    rewrite (integrand_pair j0 j1 t ab x y A _ rr _ HT) by (try lra; apply kern_collect). f_equal. f_equal. unfold eh_elem, K. now rewrite kern_other by (try assumption; exact (eh_valid _ _ _ _ _ HT)).
Qed.
End Qwe.

(** ** Full space: the exact transform *)
Lemma ang_pair : forall t ab x y A, eh_type t ab x y A -> ang_exact (eval_angle (eh_phi x y) false false) ab = A.
Proof.
  intros t ab x y A HT. unfold eval_angle. cbn [andb].
  assert (E45 : eh_phi (1 / sqrt 2) (1 / sqrt 2) = (PI / 4)%R). { unfold eh_phi. rewrite <- atan_1. f_equal. pose proof sq2_pos. apply Rinv_r. lra. }
  destruct HT; unfold ang_exact; cbn [inb existsb Z.eqb Pos.eqb orb].
  - rewrite E45. replace (PI / 4 * 2)%R with (PI / 2)%R by field. apply cos_PI2.
  - unfold eh_phi. replace (0 / 1)%R with 0%R by field. rewrite atan_0. apply cos_0.
  - rewrite E45. replace (PI / 4 * 2)%R with (PI / 2)%R by field. apply sin_PI2.
Qed.

Lemma bessel_pair : forall t ab x y A K r l, eh_type t ab x y A -> (0 < r)%R -> (exists p q, K l = collect ab false l p q) ->
  bessel_sum ab l r A (K l) = pair_integrand J0 J1 t (eh_pick t (eh_elem ab K A l)) r l.
Proof.
  intros t ab x y A K r l HT Hr HK. rewrite <- (integrand_pair J0 J1 t ab x y A K r l HT Hr HK). destruct HK as (p & q & E).
  unfold hankel_integrand, bessel_sum, kpart. rewrite E, (Rmult_comm l r). destruct HT; unfold collect, isJ2; cbn -[Cplus Cmult RtoC Cdiv PI cz J0 J1]; rewrite ?div_one; unfold Cdiv; ring.
Qed.

Lemma one_row_model : forall m q f mo, plain_model m [] q [f] -> check_model m [] (q_res q) (q_aniso q) (q_eH q) (q_eV q) (q_mH q) (q_mV q) = Ok mo ->
  m_full mo = true /\ exists eH eV zH zV, homog_medium eH eV zH zV /\ (0 <= snd zH)%R /\
    rows_of (check_frequency m [f] (m_res mo) (m_aniso mo) (m_epermH mo) (m_epermV mo) (m_mpermH mo) (m_mpermV mo)) = [mkrow [eH] [eV] [zH] [zV]].
Proof.
  intros m q f mo HP Em. pose proof HP as [[v HR] HW _ M1 M2 MU _].
  assert (HE : forall e, In e (m_epermH mo) \/ In e (m_epermV mo) -> (0 <= e)%R).
  { destruct (model_positive m [] (inp_of q) mo HW M1 Em) as (_ & _ & X1 & X2 & _). intros e [H|H]; auto. }
  destruct (check_model_one m (inp_of q) mo HW Em) as (D & F & _ & _ & r & a & eh & ev & mh & mv & E1 & E2 & E3 & E4 & E5 & E6).
  split. { rewrite F. cbn [inp_of i_res]. now rewrite HR. }
  destruct (plain_setup m [] q [f] mo HP Em) as (N & z & ED & _ & _ & PR & _).
  assert (HN : N = 0%nat). { rewrite D in ED. apply (f_equal (@List.length _)) in ED. unfold depth_arr in ED. cbn in ED. rewrite map_length, seq_length in ED. lia. } subst N.
  pose proof (MU mo Em mh ltac:(left; rewrite E5; now left)) as Pmh. pose proof (MU mo Em mv ltac:(right; rewrite E6; now left)) as Pmv.
  pose proof (HE eh ltac:(left; rewrite E3; now left)) as Peh. pose proof (HE ev ltac:(right; rewrite E4; now left)) as Pev.
  rewrite E1, E2, E3, E4, E5, E6 in *. unfold check_frequency in *. set (lap := negb _) in *. clearbody lap.
  set (fr := if lap then map Ropp [f] else [f]) in *. assert (EF : exists g, fr = [g]) by (unfold fr; destruct lap; cbn; eauto). destruct EF as [g EF]. rewrite EF in *.
  rewrite (proj1 (check_min_spec _ _)) in *. cbn [map] in *. set (h := Rmax g (min_freq m)) in *.
  assert (Ph : (0 < h)%R) by (unfold h; pose proof (Rmax_r g (min_freq m)); lra). clearbody h.
  unfold rows_of, outer, map2 in *. cbn [f_etaH f_etaV f_zetaH f_zetaV map combine fst snd] in *.
  destruct (PR _ (or_introl eq_refl)) as (xH & xV & yH & yV & PM & EW). unfold arr in EW. cbn [seq map] in EW. injection EW as W1 W2 W3 W4.
  set (eH := Cplus _ _) in W1. set (eV := Cplus _ _) in W2. set (zH := Cmult _ _) in W3. set (zV := Cmult _ _) in W4.
  exists eH, eV, zH, zV.
  assert (S1 : (0 <= fst (sval lap h) /\ 0 <= snd (sval lap h))%R /\ sval lap h <> RtoC 0).
  { unfold sval. pose proof PI_RGT_0. assert (0 < PI * h)%R by (now apply Rmult_lt_0_compat).
    destruct lap; cbn [fst snd RtoC Cmult]; (split; [lra|]); intros W; [apply (f_equal fst) in W|apply (f_equal snd) in W]; cbn in W; lra. }
  destruct S1 as [[Sr Si] S0]. assert (Pe : (0 < epsilon_0)%R) by apply epsilon_0_pos. assert (Pm : (0 < mu_0)%R) by apply mu_0_pos.
  assert (I1 : forall c, (0 <= c)%R -> (0 <= snd (Cmult (sval lap h) (RtoC c)))%R) by (intros c Hc; unfold Cmult, RtoC; cbn [fst snd]; nra).
  assert (I2 : forall c, (0 <= c)%R -> (0 <= fst (Cmult (sval lap h) (RtoC c)))%R) by (intros c Hc; unfold Cmult, RtoC; cbn [fst snd]; nra).
  assert (Nz : forall c, (0 < c)%R -> Cmult (sval lap h) (RtoC c) <> RtoC 0) by (intros c Hc; apply Cmult_neq_0; [exact S0|intros W; injection W; lra]).
  assert (Qh : (0 < mh * mu_0)%R) by (now apply Rmult_lt_0_compat). assert (Qv : (0 < mv * mu_0)%R) by (now apply Rmult_lt_0_compat).
  split; [|split; [apply I1; lra|reflexivity]].
  constructor.
  - split; [rewrite W1; apply PM; lia|]. unfold eH. unfold Cplus, RtoC at 1. cbn [snd]. rewrite Rplus_0_l. apply I1. apply Rmult_le_pos; lra.
  - split; [rewrite W2; apply PM; lia|]. unfold eV. unfold Cplus, RtoC at 1. cbn [snd]. rewrite Rplus_0_l. apply I1. apply Rmult_le_pos; lra.
  - split; [apply I2; lra|]. split; [apply I1; lra|]. now apply Nz.
  - split; [apply I2; lra|]. split; [apply I1; lra|]. now apply Nz.
  - unfold zH, zV. replace (Cdiv _ _) with (RtoC (mh / mv)).
    + cbn. apply Rdiv_lt_0_compat; lra.
    + assert (NV : RtoC mv <> RtoC 0) by (intros W; injection W; lra). assert (NM : RtoC mu_0 <> RtoC 0) by (intros W; injection W; lra).
      rewrite RtoC_div by lra. rewrite !RtoC_mult. field. repeat split; assumption.
Qed.

Theorem eh_fullspace : forall m hook mk t ab x y zs zr q f mo,
  plain_model m [] q [f] -> check_model m [] (q_res q) (q_aniso q) (q_eH q) (q_eV q) (q_mH q) (q_mV q) = Ok mo ->
  (0 < min_off m <= 1)%R -> zs <> zr -> eh_setup t = Ok (ab, x, y) ->
  let P := empy_hankel m hook mk t zs zr [] q f in
  exists L g, (forall k, dp_lhs P k = Ok (L k)) /\ dp_rhs P = RhsFun g /\
    forall rr, (min_off m <= rr)%R -> exists V, g rr = Ok V /\ improper (fun l => pair_integrand J0 J1 t (L l) rr l) V.
Proof.
  intros m hook mk t ab x y zs zr q f mo HP Em [H0 H1] Hz HS0 P.
  destruct (one_row_model m q f mo HP Em) as (FU & eH & eV & zH & zV & HM & PZ & RW).
  destruct (eh_setup_inv _ _ _ _ HS0) as [A HT]. destruct (eh_set m [] q f zs zr mo HP Em) as (N & z & w & s & r & HS).
  pose proof HS as [ER PR ED Els Elr Bs Br]. pose proof HP as [[v HR] HW _ _ _ _ _].
  destruct (check_model_one m (inp_of q) mo HW Em) as (D & _).
  assert (HN : N = 0%nat). { rewrite D in ED. apply (f_equal (@List.length _)) in ED. unfold depth_arr in ED. cbn in ED. rewrite map_length, seq_length in ED. lia. } subst N.
  assert (s = 0%nat) by lia. assert (r = 0%nat) by lia. subst s r. rewrite RW in ER. injection ER as <-.
  set (w := mkrow [eH] [eV] [zH] [zV]) in *. set (K := kern zs zr 0 0 z 0 ab false false false w).
  exists (fun k => eh_pick t (eh_elem ab K A k)). eexists. split; [|split; [reflexivity|]].
  - intros k. exact (eh_lhs_val m [] q f zs zr mo 0 z w 0 0 t ab x y A k Em HS HT H0 H1).
  - intros rr Hr. assert (Pr : (0 < rr)%R) by lra.
    assert (HB : exists a b, ab = (10 * a + b)%Z /\ fs_pair a b /\ (a <= 3)%Z /\ (b <= 3)%Z).
    { destruct HT; [exists 1%Z, 1%Z|exists 3%Z, 1%Z|exists 1%Z, 2%Z]; unfold fs_pair; repeat split; lia. }
    destruct HB as (a & b & EAB & FP & Ba & Bb).
    destruct (homog_value (laplace_of [f]) a b eH eV zH zV z 0 rr (eh_phi x y) zs zr [eH] [zH] HM) as (V & EV & HV); try assumption.
    { intros k Hk. lia. }
    { intros c [<- | []]. exact PZ. }
    { intros; lia. }
    exists V. split.
    + unfold eh_rhs. rewrite HS0. cbn [bind]. unfold dipole. rewrite Em. cbn [bind]. rewrite HR. cbn [apply_hook]. rewrite (eh_check_ab _ _ _ _ _ HT). cbn [bind].
      rewrite (eh_geo m t ab x y A rr zs zr HT H0 Hr). cbn [bind]. rewrite Els, Elr. cbn [bind]. rewrite RW, FU. unfold fem.
      assert (EI : inb ab [36]%Z = false) by (unfold inb; cbn; pose proof (eh_36 _ _ _ _ _ HT); destruct (Z.eqb_spec ab 36); [contradiction|reflexivity]). rewrite EI.
      cbn [andb orb negb]. unfold fullspace_arr, w. cbn [mapM r_eH r_eV r_zH r_zV]. change (idx [eH] (Z.of_nat 0)) with (Ok eH). change (idx [eV] (Z.of_nat 0)) with (Ok eV). change (idx [zH] (Z.of_nat 0)) with (Ok zH). change (idx [zV] (Z.of_nat 0)) with (Ok zV).
      cbn [bind map fst snd combine mapM]. unfold fs_comp in EV. rewrite <- EAB, (eh_check_ab _ _ _ _ _ HT) in EV. cbn [bind] in EV.
      assert (AN : fs_anyneg false false [eH] [zH] = false) by (unfold fs_anyneg; cbn [andb existsb]; destruct (Rlt_dec (snd zH) 0); [lra|reflexivity]).
      assert (B1 : (3 <? a)%Z = false) by (apply Z.ltb_ge; lia). assert (B2 : (3 <? b)%Z = false) by (apply Z.ltb_ge; lia).
      rewrite B1, B2, AN in EV. rewrite AN, andb_false_r, EV. cbn [bind]. unfold mat_zeros, mat_add, czeros. cbn [repeat List.length map2]. unfold vadd, map2. cbn. f_equal. apply Cplus_0_l.
    + destruct HV as (ab' & ms & mr & F & CA & WB & IM). rewrite <- EAB, (eh_check_ab _ _ _ _ _ HT) in CA. injection CA as <- <- <-.
      refine (improper_ext _ F V _ IM). intros l Hl. destruct (WB l) as (PJ & E1 & ->). cbn [lay] in E1.
      rewrite (ang_pair _ _ _ _ _ HT).
      assert (EK : PJ = K l). { unfold K, kern, w. cbn [r_eH r_eV r_zH r_zV]. unfold wcall in E1. cbn [lay] in E1. change (arr (cst eH) 0) with [eH] in E1. change (arr (cst eV) 0) with [eV] in E1. change (arr (cst zH) 0) with [zH] in E1. change (arr (cst zV) 0) with [zV] in E1. rewrite E1. reflexivity. }
      rewrite EK. symmetry. apply (bessel_pair t ab x y A K rr l HT Pr). apply kern_collect.
Qed.

(** ** Layered, source and receiver in one layer *)
Lemma layer_homog : forall m depth q f mo N z eH eV zH zV, plain_model m depth q [f] ->
  check_model m depth (q_res q) (q_aniso q) (q_eH q) (q_eV q) (q_mH q) (q_mV q) = Ok mo ->
  passive_medium eH eV zH zV z N ->
  rows_of (check_frequency m [f] (m_res mo) (m_aniso mo) (m_epermH mo) (m_epermV mo) (m_mpermH mo) (m_mpermV mo)) = [mkrow (arr eH N) (arr eV N) (arr zH N) (arr zV N)] ->
  forall k, (k <= N)%nat -> homog_medium (eH k) (eV k) (zH k) (zV k).
Proof.
  intros m depth q f mo N z eH eV zH zV HP Em PM RW k Hk. pose proof HP as [[v HR] HW _ M1 M2 MU _].
  destruct (model_positive m depth (inp_of q) mo HW M1 Em) as (_ & _ & Peh & Pev & _). pose proof (MU mo Em) as Pmu.
  unfold check_frequency in RW. set (lap := negb _) in *. clearbody lap.
  set (fr := if lap then map Ropp [f] else [f]) in *. assert (EF : exists g, fr = [g]) by (unfold fr; destruct lap; cbn; eauto). destruct EF as [g EF]. rewrite EF in *.
  rewrite (proj1 (check_min_spec _ _)) in *. cbn [map] in *. set (h := Rmax g (min_freq m)) in *.
  assert (Ph : (0 < h)%R) by (unfold h; pose proof (Rmax_r g (min_freq m)); lra). clearbody h.
  unfold rows_of, outer in RW. cbn [f_etaH f_etaV f_zetaH f_zetaV map combine fst snd] in RW.
  assert (RW' := RW). apply (f_equal (hd (mkrow [] [] [] []))) in RW'. cbn [hd] in RW'. clear RW.
  pose proof (f_equal r_eH RW') as W1. pose proof (f_equal r_eV RW') as W2. pose proof (f_equal r_zH RW') as W3. pose proof (f_equal r_zV RW') as W4. clear RW'. cbn [r_eH r_eV r_zH r_zV] in W1, W2, W3, W4.
  assert (S1 : (0 <= fst (sval lap h) /\ 0 <= snd (sval lap h))%R /\ sval lap h <> RtoC 0).
  { unfold sval. pose proof PI_RGT_0. assert (0 < PI * h)%R by (now apply Rmult_lt_0_compat).
    destruct lap; cbn [fst snd RtoC Cmult]; (split; [lra|]); intros W; [apply (f_equal fst) in W|apply (f_equal snd) in W]; cbn in W; lra. }
  destruct S1 as [[Sr Si] S0]. assert (Pe : (0 < epsilon_0)%R) by apply epsilon_0_pos. assert (Pm : (0 < mu_0)%R) by apply mu_0_pos.
  assert (I1 : forall c, (0 <= c)%R -> (0 <= snd (Cmult (sval lap h) (RtoC c)))%R) by (intros c Hc; unfold Cmult, RtoC; cbn [fst snd]; nra).
  assert (I2 : forall c, (0 <= c)%R -> (0 <= fst (Cmult (sval lap h) (RtoC c)))%R) by (intros c Hc; unfold Cmult, RtoC; cbn [fst snd]; nra).
  assert (Nz : forall c, (0 < c)%R -> Cmult (sval lap h) (RtoC c) <> RtoC 0) by (intros c Hc; apply Cmult_neq_0; [exact S0|intros W; injection W; lra]).
  assert (AN : forall (u : nat -> C), nth k (arr u N) (RtoC 0) = u k).
  { intros u. unfold arr. rewrite (nth_map_any u (seq 0 (S N)) k 0%nat (RtoC 0)) by (rewrite seq_length; lia). rewrite seq_nth by lia. reflexivity. }
  assert (AL : forall (u : nat -> C), List.length (arr u N) = S N) by (intros u; unfold arr; now rewrite map_length, seq_length).
  assert (EE : forall cond eps (u : nat -> C), map2 (fun (c : R) (e : R) => Cplus (RtoC c) (Cmult (sval lap h) (RtoC (e * epsilon_0)))) cond eps = arr u N ->
    (forall e, In e eps -> (0 <= e)%R) -> (0 <= snd (u k))%R).
  { intros cond eps u E H. assert (L := f_equal (@List.length C) E). rewrite map2_length, AL in L.
    rewrite <- (AN u), <- E. rewrite (UtilsLayer.map2_nth _ _ _ _ _ _ _ 0%R 0%R) by lia. unfold Cplus, RtoC at 1. cbn [snd]. rewrite Rplus_0_l. apply I1.
    apply Rmult_le_pos; [|lra]. apply H, nth_In. lia. }
  assert (ZZ : forall mu (u : nat -> C), map (fun x : R => Cmult (sval lap h) (RtoC (x * mu_0))) mu = arr u N -> (k < List.length mu)%nat /\ u k = Cmult (sval lap h) (RtoC (nth k mu 0 * mu_0)%R)).
  { intros mu u E. assert (L := f_equal (@List.length C) E). rewrite map_length, AL in L. split; [lia|].
    rewrite <- (AN u), <- E. rewrite (nth_map_any _ mu k 0%R (RtoC 0)) by lia. reflexivity. }
  destruct (ZZ _ _ W3) as [K3 E3]. destruct (ZZ _ _ W4) as [K4 E4].
  pose proof (Pmu _ (or_introl (nth_In _ 0%R K3))) as P3. pose proof (Pmu _ (or_intror (nth_In _ 0%R K4))) as P4.
  set (mh := nth k (m_mpermH mo) 0%R) in *. set (mv := nth k (m_mpermV mo) 0%R) in *. clearbody mh mv.
  assert (Qh : (0 < mh * mu_0)%R) by (now apply Rmult_lt_0_compat). assert (Qv : (0 < mv * mu_0)%R) by (now apply Rmult_lt_0_compat).
  constructor.
  - split; [apply PM; exact Hk|]. exact (EE _ _ _ W1 Peh).
  - split; [apply PM; exact Hk|]. exact (EE _ _ _ W2 Pev).
  - rewrite E3. split; [apply I2; lra|]. split; [apply I1; lra|]. now apply Nz.
  - rewrite E4. split; [apply I2; lra|]. split; [apply I1; lra|]. now apply Nz.
  - rewrite E3, E4. replace (Cdiv _ _) with (RtoC (mh / mv)).
    + cbn. apply Rdiv_lt_0_compat; lra.
    + assert (NV : RtoC mv <> RtoC 0) by (intros W; injection W; lra). assert (NM : RtoC mu_0 <> RtoC 0) by (intros W; injection W; lra).
      rewrite RtoC_div by lra. rewrite !RtoC_mult. field. repeat split; assumption.
Qed.

Definition vsub (u v : C * C) : C * C := (fst u - fst v, snd u - snd v).
Lemma pair_sub : forall j0 j1 t u v r l, pair_integrand j0 j1 t (vsub u v) r l = pair_integrand j0 j1 t u r l - pair_integrand j0 j1 t v r l.
Proof. intros. unfold pair_integrand, vsub. cbn [fst snd]. destruct (teqb t (T "j0")); [ring|]. destruct (teqb t (T "j1")); [ring|]. unfold Cdiv. ring. Qed.

(** The left-hand side is the sum of a part whose transform is the closed-form direct field W and
    a rest; the right-hand side is W plus the quadrature of the rest. *)
Theorem eh_same_layer : forall rquad isp j0 j1 j2 gx gw m hook rtol atol zc maxint dq t ab x y zs zr depth q f mo,
  plain_model m depth q [f] -> check_model m depth (q_res q) (q_aniso q) (q_eH q) (q_eV q) (q_mH q) (q_mV q) = Ok mo ->
  (0 < min_off m <= 1)%R -> (2 <= maxint)%nat -> eh_setup t = Ok (ab, x, y) ->
  m_full mo = false -> layer1 (m_depth mo) zs = layer1 (m_depth mo) zr -> zs <> zr ->
  let P := empy_hankel m hook (qwe_mk rquad isp j0 j1 j2 gx gw rtol atol zc maxint dq) t zs zr depth q f in
  exists L Rst, (forall k, dp_lhs P k = Ok (L k)) /\
    forall g, dp_rhs P = RhsFun g -> forall rr, (min_off m <= rr)%R ->
      exists W, improper (fun l => pair_integrand J0 J1 t (vsub (L l) (Rst l)) rr l) W /\
        g rr = Ok (W + qwe_value rtol atol zc maxint (fun i => gauss gx gw (fun l => pair_integrand j0 j1 t (Rst l) rr l) (qx j1 j2 maxint i / rr)%R (qx j1 j2 maxint (S i) / rr)%R)).
Proof.
  intros rquad isp j0 j1 j2 gx gw m hook rtol atol zc maxint dq t ab x y zs zr depth q f mo HP Em [H0 H1] Hm HS0 HFu HNL Hz P.
  destruct (eh_setup_inv _ _ _ _ HS0) as [A HT]. destruct (eh_set m depth q f zs zr mo HP Em) as (N & z & w & s & r & HS).
  pose proof HS as [ER PR ED Els Elr Bs Br]. pose proof HP as [[v HR] HW _ _ _ _ _].
  assert (s = r) by (rewrite Els, Elr in HNL; assert (Z.of_nat s = Z.of_nat r) by congruence; lia). subst s. rename r into s.
  set (K := kern zs zr s s z N ab false false false w). set (K' := kern zs zr s s z N ab true false false w).
  exists (fun k => eh_pick t (eh_elem ab K A k)), (fun k => eh_pick t (eh_elem ab K' A k)). split.
  { intros k. exact (eh_lhs_val m depth q f zs zr mo N z w s s t ab x y A k Em HS HT H0 H1). }
  intros g Hg rr Hr. unfold P, empy_hankel in Hg. cbn [dp_rhs] in Hg. injection Hg as <-.
  assert (Pr : (0 < rr)%R) by lra.
  pose proof PR as (eH & eV & zH & zV & PM & EW).
  pose proof (layer_homog m depth q f mo N z eH eV zH zV HP Em PM (eq_trans ER (f_equal (fun u => [u]) EW)) s Bs) as HM.
  assert (PZ : (0 <= snd (zH s))%R) by apply (hm_zH _ _ _ _ HM).
  assert (HB : exists a b, ab = (10 * a + b)%Z /\ fs_pair a b /\ (a <= 3)%Z /\ (b <= 3)%Z).
  { destruct HT; [exists 1%Z, 1%Z|exists 3%Z, 1%Z|exists 1%Z, 2%Z]; unfold fs_pair; repeat split; lia. }
  destruct HB as (a & b & EAB & FP & Ba & Bb).
  destruct (homog_value (laplace_of [f]) a b (eH s) (eV s) (zH s) (zV s) z 0 rr (eh_phi x y) zs zr [eH s] [zH s] HM) as (W & EV & HV); try assumption.
  { intros k Hk. lia. }
  { intros c [<- | []]. exact PZ. }
  { intros; lia. }
  exists W. split.
  - destruct HV as (ab' & ms & mr & F & CA & WB & IM). rewrite <- EAB, (eh_check_ab _ _ _ _ _ HT) in CA. injection CA as <- <- <-.
    refine (improper_ext _ F W _ IM). intros l Hl. destruct (WB l) as (PJ & E1 & ->).
    rewrite (ang_pair _ _ _ _ _ HT). rewrite pair_sub, <- !(bessel_pair t ab x y A _ rr l HT Pr) by apply kern_collect.
    change (lay z 0 zs) with 0%nat in E1. change (lay z 0 zr) with 0%nat in E1. rewrite wcall_gcall in E1.
    assert (VC := eh_valid _ _ _ _ _ HT).
    pose proof (proj1 (direct_switch eH eV zH zV z N l ab false false s s zs zr PM VC Bs Bs) eq_refl) as DS.
    destruct (passive_total eH eV zH zV z N l ab true false false s s zs zr PM VC Bs Bs) as [p [qq E2]].
    change (only s eH) with (cst (eH s)) in DS. change (only s eV) with (cst (eV s)) in DS. change (only s zH) with (cst (zH s)) in DS. change (only s zV) with (cst (zV s)) in DS.
    destruct (gcall (cst (eH s)) (cst (eV s)) (cst (zH s)) (cst (zV s)) z 0 l ab false false false 0 0 zs zr) as [[p0 q0]|] eqn:E3; cbn [bind] in E1; [|discriminate].
    assert (EP : PJ = collect ab false l p0 q0) by congruence. rewrite E2 in DS. cbn [add2 bind] in DS.
    assert (EK : K l = collect ab false l (p + p0) (qq + q0)). { unfold K, kern, wavenumber. rewrite EW. cbn [r_eH r_eV r_zH r_zV]. unfold gcall in DS. rewrite DS. reflexivity. }
    assert (EK' : K' l = collect ab false l p qq). { unfold K', kern, wavenumber. rewrite EW. cbn [r_eH r_eV r_zH r_zV]. unfold gcall in E2. rewrite E2. reflexivity. }
    rewrite EP. fold K K'. rewrite EK, EK'. rewrite bessel_add by (destruct HT; vm_compute; tauto). ring.
  - unfold eh_rhs. rewrite HS0. cbn [bind]. unfold dipole. rewrite Em. cbn [bind]. rewrite HR. cbn [apply_hook]. rewrite (eh_check_ab _ _ _ _ _ HT). cbn [bind].
    rewrite (eh_geo m t ab x y A rr zs zr HT H0 Hr). cbn [bind]. rewrite Els, Elr. cbn [bind]. rewrite ER, ED, HFu. unfold fem.
    assert (EI : inb ab [36]%Z = false) by (unfold inb; cbn; pose proof (eh_36 _ _ _ _ _ HT); destruct (Z.eqb_spec ab 36); [contradiction|reflexivity]). rewrite EI.
    rewrite Z.eqb_refl. cbn [andb orb negb].
    assert (IX : forall u : nat -> C, idx (arr u N) (Z.of_nat s) = Ok (u s)). { intros u. now apply idx_arr. }
    assert (FA : fullspace_arr (laplace_of [f]) [rr] [eh_phi x y] zs zr (Z.of_nat s) [w] ab false false = Ok [[W]]).
    { unfold fullspace_arr. rewrite EW. cbn [mapM r_eH r_eV r_zH r_zV]. rewrite !IX. cbn [bind map fst snd combine mapM].
      unfold fs_comp in EV. rewrite <- EAB, (eh_check_ab _ _ _ _ _ HT) in EV. cbn [bind] in EV.
      assert (AN : fs_anyneg false false [eH s] [zH s] = false) by (unfold fs_anyneg; cbn [andb existsb]; destruct (Rlt_dec (snd (zH s)) 0); [lra|reflexivity]).
      assert (B1 : (3 <? a)%Z = false) by (apply Z.ltb_ge; lia). assert (B2 : (3 <? b)%Z = false) by (apply Z.ltb_ge; lia).
      rewrite B1, B2, AN in EV. rewrite AN, andb_false_r, EV. reflexivity. }
    rewrite FA. cbn [bind map]. rewrite (eh_angle t ab x y A HT).
    unfold fem_calc. cbn [List.length seq foldM]. unfold loop_freq_step. cbn [nth_error bind]. unfold qwe_mk.
    destruct (qwe_layered rquad isp j0 j1 j2 gx gw z N ab false false s s zs zr true w rtol atol zc maxint dq None None None [rr] [A] (eh_valid _ _ _ _ _ HT) Bs Bs PR Hm eq_refl) as [kc Q].
    { intros o [<- | []]. lra. }
    rewrite Q. cbn [bind combine map List.length]. unfold shape_ok. cbn [List.length Nat.eqb forallb andb need bind]. cbn [nth].
    unfold mat_zeros, mat_add, czeros, vadd, map2. cbn [List.length repeat nth replace bind combine map fst snd Z.of_nat]. f_equal.
    rewrite Cplus_0_l. f_equal. unfold plain_value. cbn [fst snd]. apply qwe_value_ext; [exact Hm|]. intros i _. unfold gauss. f_equal. f_equal. apply map_ext. intros e. f_equal.
    rewrite (integrand_pair j0 j1 t ab x y A _ rr _ HT) by (try lra; apply kern_collect). reflexivity.
Qed.
