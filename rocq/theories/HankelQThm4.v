(** Hankel transforms by quadrature of the layered kernel: every call of the
    routine gives a result. *)

From Coq Require Import ZArith Reals List Bool String Lia Lra Psatz.
From Coquelicot Require Import Coquelicot.
From Verif Require Import PyBase CBase Kernel Utils UtilsLayer Transform TransformDlf TransformQwe TransformQuad UtilsArgs Model ModelFem Fourier FourierSum FourierFft FourierLog3 FourierQwe HankelQ HankelQThm HankelQThm2 HankelQThm3 Fullspace FullspaceThm BipoleCol RoutinesThm Routines Bipole BipoleThm BipoleLoop BipolePlace BipoleMain BipoleFinal BipoleTotal BipoleStrength UtilsGeo UtilsSurvey UtilsModel UtilsFreq KernelSpec KernelClosed KernelMain KernelThm KernelThm2.
Import ListNotations.
Local Open Scope R_scope.
Local Open Scope C_scope.
Local Open Scope res_scope.

Lemma kern_row : forall z N ab msrc mrec s r zs zr xd w rows lam, valid_call ab msrc mrec -> (s <= N)%nat -> (r <= N)%nat -> passive_row N z w ->
  row_wn zs zr (Z.of_nat s) (Z.of_nat r) (depth_arr z N) ab msrc mrec xd (w :: rows) lam = Ok (kern zs zr s r z N ab xd msrc mrec w lam).
Proof.
  intros z N ab msrc mrec s r zs zr xd w rows lam HV Hs Hr [eH [eV [zH [zV [PM E]]]]]. unfold row_wn, kern. rewrite E. cbn [r_eH r_eV r_zH r_zV].
  destruct (passive_total eH eV zH zV z N lam ab xd msrc mrec s r zs zr PM HV Hs Hr) as [p [q Eg]].
  unfold gcall in Eg. unfold wavenumber. rewrite Eg. reflexivity.
Qed.
Lemma kern_present : forall z N ab msrc mrec s r zs zr xd w, present (used_of ab) (kern zs zr s r z N ab xd msrc mrec w).
Proof.
  intros z N ab msrc mrec s r zs zr xd w l. unfold kern.
  assert (U : forall p q, (fst (fst (used_of ab)) = false -> t0 (collect ab mrec l p q) = None) /\ (snd (fst (used_of ab)) = false -> t1 (collect ab mrec l p q) = None) /\ (snd (used_of ab) = false -> t0b (collect ab mrec l p q) = None)).
  { intros p q. destruct (used_pattern ab mrec l p q) as (A & B & D). rewrite <- A, <- B, <- D.
    destruct (t0 (collect ab mrec l p q)); destruct (t1 (collect ab mrec l p q)); destruct (t0b (collect ab mrec l p q)); cbn; repeat split; intros; congruence. }
  destruct (wavenumber _ _ _ _ _ _ _ _ _ l ab xd msrc mrec) as [t|e] eqn:EW; [|apply U].
  unfold wavenumber in EW. destruct (greenfct _ _ _ _ _ _ _ _ _ _ _ _ _ _) as [[p q]|]; cbn [bind] in EW; [|discriminate].
  inversion EW; subst t. apply U.
Qed.

Section Layered.
Variable rquad : (R -> R) -> R -> R -> R -> R -> nat -> R * nat.
Variable isp : list R -> list R -> R -> R.
Variables j0 j1 j2 : R -> R.
Variables gx gw : list R.

Theorem qwe_layered : forall z N ab msrc mrec s r zs zr xd w rtol atol zc maxint dq a b limit off ang, valid_call ab msrc mrec -> (s <= N)%nat -> (r <= N)%nat -> passive_row N z w ->
  (2 <= maxint)%nat -> List.length ang = List.length off -> (forall o, In o off -> (0 < o)%R) ->
  exists kc, qwe_calc rquad isp j0 j1 j2 gx gw rtol atol zc maxint 0 dq a b limit zs zr (Z.of_nat s) (Z.of_nat r) (depth_arr z N) ab msrc mrec [w] off ang xd =
    Ok ([map (plain_value j0 j1 j2 gx gw ab (kern zs zr s r z N ab xd msrc mrec w) rtol atol zc maxint) (combine off ang)], kc,
        (3 <=? maxint)%nat && forallb (plain_conv j0 j1 j2 gx gw ab (kern zs zr s r z N ab xd msrc mrec w) rtol atol zc maxint) (combine off ang)).
Proof using.
  intros z N ab msrc mrec s r zs zr xd w rtol atol zc maxint dq a b limit off ang HV Hs Hr Hw Hm La Ho.
  destruct (qwe_plain rquad isp j0 j1 j2 gx gw (row_wn zs zr (Z.of_nat s) (Z.of_nat r) (depth_arr z N) ab msrc mrec xd [w]) (kern zs zr s r z N ab xd msrc mrec w) (used_of ab) ab off ang rtol atol zc maxint dq a b limit Hm La) as [kc Q].
  - intros o Hin. specialize (Ho o Hin). lra.
  - apply kern_present.
  - intros o l _ _. now apply kern_row.
  - exists kc. unfold qwe_calc. rewrite Q. reflexivity.
Qed.

(** the splined call in full: the kernel is evaluated on the grid only *)
Theorem quad_layered : forall z N ab msrc mrec s r zs zr xd w rtol atol ppd a b limit off ang il, valid_call ab msrc mrec -> (s <= N)%nat -> (r <= N)%nat -> passive_row N z w ->
  quad_grid ppd a b = Ok il ->
  let K := interpolated isp (used_of ab) il (map (kern zs zr s r z N ab xd msrc mrec w) il) in
  quad_calc rquad isp j0 j1 rtol atol ppd a b limit zs zr (Z.of_nat s) (Z.of_nat r) (depth_arr z N) ab msrc mrec [w] off ang xd =
    Ok ([map (fun p => fst (quad_value rquad j0 j1 ab K rtol atol a b limit p)) (combine off ang)], 1%Z,
        forallb (fun p => snd (quad_value rquad j0 j1 ab K rtol atol a b limit p)) (combine off ang)).
Proof using.
  intros z N ab msrc mrec s r zs zr xd w rtol atol ppd a b limit off ang il HV Hs Hr Hw Hg K. unfold quad_calc. rewrite quad_each, Hg. cbn [bind].
  rewrite (mapM_row _ _ _ (kern zs zr s r z N ab xd msrc mrec w)); [reflexivity|]. intros y _. now apply kern_row.
Qed.

Lemma one_row : forall (off : list R) (v : list C), List.length v = List.length off -> shape_ok 1 (List.length off) [v] = true.
Proof using. intros off v H. unfold shape_ok. cbn. rewrite H, Nat.eqb_refl. reflexivity. Qed.

Theorem qwe_total : forall z N ab msrc mrec s r zs zr xd rtol atol zc maxint dq, valid_call ab msrc mrec -> (s <= N)%nat -> (r <= N)%nat -> (2 <= maxint)%nat ->
  total_calc true (passive_row N z) (qwe_mk rquad isp j0 j1 j2 gx gw rtol atol zc maxint dq zs zr (Z.of_nat s) (Z.of_nat r) (depth_arr z N) ab msrc mrec) xd.
Proof using.
  intros z N ab msrc mrec s r zs zr xd rtol atol zc maxint dq HV Hs Hr Hm rows off ang L _ Ho La Hv Hp. specialize (L eq_refl).
  destruct rows as [|w [|]]; try discriminate L.
  destruct (qwe_layered z N ab msrc mrec s r zs zr xd w rtol atol zc maxint dq None None None off ang HV Hs Hr (Hv w (or_introl eq_refl)) Hm La Hp) as [kc Q].
  do 3 eexists. split; [exact Q|]. apply one_row. rewrite map_length, combine_length. lia.
Qed.
Theorem quad_total : forall z N ab msrc mrec s r zs zr xd rtol atol ppd a b limit il, valid_call ab msrc mrec -> (s <= N)%nat -> (r <= N)%nat ->
  quad_grid ppd a b = Ok il ->
  total_calc true (passive_row N z) (quad_mk rquad isp j0 j1 rtol atol ppd a b limit zs zr (Z.of_nat s) (Z.of_nat r) (depth_arr z N) ab msrc mrec) xd.
Proof using.
  intros z N ab msrc mrec s r zs zr xd rtol atol ppd a b limit il HV Hs Hr Hg rows off ang L _ Ho La Hv Hp. specialize (L eq_refl).
  destruct rows as [|w [|]]; try discriminate L. do 3 eexists. split.
  - unfold quad_mk. apply (quad_layered z N ab msrc mrec s r zs zr xd w rtol atol ppd a b limit off ang il HV Hs Hr (Hv w (or_introl eq_refl)) Hg).
  - apply one_row. rewrite map_length, combine_length. lia.
Qed.

Theorem qwe_bipole_total : forall m gl hook rtol atol zc maxint dq src rec depth q freq msrc mrec srcpts recpts st xdirect lo mo ms stp mr rt bs br,
  (2 <= maxint)%nat -> plain_model m depth q freq -> (0 < min_off m)%R -> xdirect <> Some true ->
  full_rule gl srcpts -> full_rule gl recpts ->
  (0 < sizes src)%nat -> (0 < sizes rec)%nat -> List.Forall nd_wf src -> List.Forall nd_wf rec ->
  check_model m depth (q_res q) (q_aniso q) (q_eH q) (q_eV q) (q_mH q) (q_mV q) = Ok mo ->
  check_mx true msrc = Ok (ms, stp) -> check_mx false mrec = Ok (mr, rt) -> check_bipole src = Ok bs -> check_bipole rec = Ok br ->
  exists E, bipole m gl hook (qwe_mk rquad isp j0 j1 j2 gx gw rtol atol zc maxint dq) src rec depth q freq msrc mrec srcpts recpts st xdirect true lo = Ok E /\ List.length E = List.length freq.
Proof using.
  intros m gl hook rtol atol zc maxint dq src rec depth q freq msrc mrec srcpts recpts st xdirect lo mo ms stp mr rt bs br Hm HP HO NX Gs Gr Ps Pr Ws Wr Em Ex Ey Es Er.
  apply (bipole_total_gen m gl hook (qwe_mk rquad isp j0 j1 j2 gx gw rtol atol zc maxint dq) src rec depth q freq msrc mrec srcpts recpts st xdirect true lo mo ms stp mr rt bs br); try assumption.
  intros N z zs zr s r ab Hs Hr He H36. apply qwe_total; auto. now apply entry_valid.
Qed.
Theorem quad_bipole_total : forall m gl hook rtol atol ppd a b limit il src rec depth q freq msrc mrec srcpts recpts st xdirect lo mo ms stp mr rt bs br,
  quad_grid ppd a b = Ok il -> plain_model m depth q freq -> (0 < min_off m)%R -> xdirect <> Some true ->
  full_rule gl srcpts -> full_rule gl recpts ->
  (0 < sizes src)%nat -> (0 < sizes rec)%nat -> List.Forall nd_wf src -> List.Forall nd_wf rec ->
  check_model m depth (q_res q) (q_aniso q) (q_eH q) (q_eV q) (q_mH q) (q_mV q) = Ok mo ->
  check_mx true msrc = Ok (ms, stp) -> check_mx false mrec = Ok (mr, rt) -> check_bipole src = Ok bs -> check_bipole rec = Ok br ->
  exists E, bipole m gl hook (quad_mk rquad isp j0 j1 rtol atol ppd a b limit) src rec depth q freq msrc mrec srcpts recpts st xdirect true lo = Ok E /\ List.length E = List.length freq.
Proof using.
  intros m gl hook rtol atol ppd a b limit il src rec depth q freq msrc mrec srcpts recpts st xdirect lo mo ms stp mr rt bs br Hg HP HO NX Gs Gr Ps Pr Ws Wr Em Ex Ey Es Er.
  apply (bipole_total_gen m gl hook (quad_mk rquad isp j0 j1 rtol atol ppd a b limit) src rec depth q freq msrc mrec srcpts recpts st xdirect true lo mo ms stp mr rt bs br); try assumption.
  intros N z zs zr s r ab Hs Hr He H36. apply (quad_total z N ab ms mr s r zs zr _ rtol atol ppd a b limit il); auto. now apply entry_valid.
Qed.

(** the value of an offset in two splined calls with the same smallest and
    largest offset *)
Theorem spline_extremes : forall wn used ab off ang off' ang' rtol atol zc maxint ppd dq a b limit rmin rmax v kc cv v' kc' cv',
  (forall i, (i <= maxint)%nat -> (0 < qx j1 j2 maxint i)%R) -> (forall g, In g gx -> (-1 < g < 1)%R) -> (0 < List.length gx)%nat -> (2 <= maxint)%nat -> ppd <> 0%R ->
  (0 < rmin)%R -> List.length ang = List.length off -> List.length ang' = List.length off' ->
  (forall r, In r off -> (rmin <= r <= rmax)%R) -> (forall r, In r off' -> (rmin <= r <= rmax)%R) ->
  In rmin off -> In rmin off' -> In rmax off -> In rmax off' ->
  hankel_qwe rquad isp j0 j1 j2 gx gw wn used ab off ang rtol atol zc maxint ppd dq a b limit = Ok (v, kc, cv) ->
  hankel_qwe rquad isp j0 j1 j2 gx gw wn used ab off' ang' rtol atol zc maxint ppd dq a b limit = Ok (v', kc', cv') ->
  forall i j, (i < List.length off)%nat -> (j < List.length off')%nat -> nth i off 0%R = nth j off' 0%R -> nth i ang 0%R = nth j ang' 0%R ->
  nth i v (RtoC 0) = nth j v' (RtoC 0).
Proof using.
  intros wn used ab off ang off' ang' rtol atol zc maxint ppd dq a b limit rmin rmax v kc cv v' kc' cv' Hx Hg Hn Hm Hp H0 La La' B B' I1 I2 I3 I4 E E' i j Hi Hj Eo Ea.
  rewrite qwe_spline in E by (try assumption; intros r Hr; specialize (B r Hr); lra).
  rewrite qwe_spline in E' by (try assumption; intros r Hr; specialize (B' r Hr); lra).
  rewrite <- (grid_extremes j1 j2 gx maxint Hx Hg ltac:(nia) ppd off off' rmin rmax H0 B B' I1 I2 I3 I4) in E'.
  destruct (spl_grid _ _ _ _ _ _) as [il|]; cbn [bind] in E, E'; [|discriminate]. destruct (mapM wn il) as [P|]; cbn [bind] in E, E'; [|discriminate].
  cbv zeta in E, E'. set (K := interpolated isp used il P) in *. injection E as <- _ _. injection E' as <- _ _.
  set (f := spl_value _ _ _ _ _ _ _ _ _ _ _ _ _ _ _ _).
  rewrite (nth_indep _ (RtoC 0) (f (0, 0)%R)) by (rewrite map_length, combine_length; lia). rewrite map_nth, combine_nth by lia.
  rewrite (nth_indep (map f (combine off' ang')) (RtoC 0) (f (0, 0)%R)) by (rewrite map_length, combine_length; lia). rewrite map_nth, combine_nth by lia.
  rewrite Eo, Ea. reflexivity.
Qed.
End Layered.
