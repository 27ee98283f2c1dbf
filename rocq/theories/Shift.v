(** Vertical translation of whole modelling calls: interfaces, sources and receivers
    moved by the same amount. *)

From Coq Require Import ZArith QArith Reals List Bool Lia Lra.
From Coquelicot Require Import Coquelicot.
From Verif Require Import PyBase CBase Kernel UtilsAb Utils UtilsLayer Transform Fullspace Model Routines Bipole BipoleCol BipoleFinal RoutinesK.
Import ListNotations.
Local Open Scope R_scope.
Local Open Scope res_scope.

Definition xsh (c : R) (x : ext) : ext := match x with Fin y => Fin (y + c) | _ => x end.
Definition up (c : R) (depth : list ext) : list ext := map (xsh c) depth.
(** the depth is the third of the three or five arguments of a dipole *)
Definition nd_up (c : R) (v : ndin) : ndin := match v with Nd sh d => Nd sh (map (fun x => x + c) d) | NdBad => NdBad end.
Definition pt_up (c : R) (p : list ndin) : list ndin := match p with x :: y :: z :: t => x :: y :: nd_up c z :: t | _ => p end.

Section Sh.
Variable c : R.
Notation sh := (xsh c).

Lemma idx_map : forall {A B} (f : A -> B) l i, idx (map f l) i = bind (idx l i) (fun a => Ok (f a)).
Proof.
  intros A B f l i. unfold idx, zlen. rewrite map_length. cbv zeta. destruct (_ <? 0)%Z; [reflexivity|]. rewrite nth_error_map. now destruct (nth_error l _).
Qed.
Lemma xsub_sh : forall a b, xsub (sh a) (sh b) = xsub a b.
Proof. intros [|x|] [|y|]; cbn; try reflexivity. do 2 f_equal. ring. Qed.
Lemma xsub_shl : forall z b, xsub (Fin (z + c)) (sh b) = xsub (Fin z) b.
Proof. intros z b. apply (xsub_sh (Fin z) b). Qed.
Lemma xsub_shr : forall z b, xsub (sh b) (Fin (z + c)) = xsub b (Fin z).
Proof. intros z b. apply (xsub_sh b (Fin z)). Qed.

Ltac ext_ := apply FunctionalExtensionality.functional_extensionality; intros ?.
Ltac step := match goal with
  | |- ?a = ?a => reflexivity
  | |- bind ?a _ = bind ?a _ => destruct a; cbn [bind]
  end.

Lemma refl_step_up : forall pm depth e g lrec lsrc mm first st iz, refl_step pm (up c depth) e g lrec lsrc mm first st iz = refl_step pm depth e g lrec lsrc mm first st iz.
Proof.
  intros pm depth e g lrec lsrc mm first [[t Ref] iz0] iz. unfold refl_step, up. rewrite !idx_map. do 5 (step; try reflexivity). f_equal.
  destruct (iz =? first)%Z; [reflexivity|]. do 2 (match goal with |- context [idx depth ?i] => destruct (idx depth i); cbn [bind]; [|reflexivity] end). now rewrite xsub_sh.
Qed.
Lemma reflections_up : forall depth e g lrec lsrc, reflections (up c depth) e g lrec lsrc = reflections depth e g lrec lsrc.
Proof.
  intros depth e g lrec lsrc. unfold reflections, reflections_dir. cbv zeta.
  assert (E : forall pm mm first, refl_step pm (up c depth) e g lrec lsrc mm first = refl_step pm depth e g lrec lsrc mm first).
  { intros pm mm first. ext_. ext_. apply refl_step_up. }
  f_equal; [|ext_; f_equal].
  - destruct (zrange_down _ _) as [|f l]; [reflexivity|]. now rewrite E.
  - destruct (zrange 1 _) as [|f l]; [reflexivity|]. now rewrite E.
Qed.
Lemma fields_step_up : forall depth Rpm g isr pup last P iz, fields_step (up c depth) Rpm g isr pup last P iz = fields_step depth Rpm g isr pup last P iz.
Proof.
  intros depth Rpm g isr pup last P iz. unfold fields_step, up. rewrite !idx_map.
  do 2 (match goal with |- context [idx depth ?i] => destruct (idx depth i); cbn [bind]; [|reflexivity] end). rewrite xsub_sh. do 4 (step; try reflexivity).
  destruct (negb _); [|reflexivity].
  do 2 (match goal with |- context [idx depth ?i] => destruct (idx depth i); cbn [bind]; [|reflexivity] end). now rewrite xsub_sh.
Qed.
Lemma fields_dir_up : forall u depth Rp Rm g lrec lsrc zs ab TM, fields_dir u (up c depth) Rp Rm g lrec lsrc (zs + c) ab TM = fields_dir u depth Rp Rm g lrec lsrc zs ab TM.
Proof.
  intros u depth Rp Rm g lrec lsrc zs ab TM. unfold fields_dir.
  assert (E : forall Rpm isr pup last, fields_step (up c depth) Rpm g isr pup last = fields_step depth Rpm g isr pup last).
  { intros. ext_. ext_. apply fields_step_up. }
  unfold up. rewrite !idx_map. fold (up c depth).
  destruct (idx depth lsrc) as [dt|]; cbn [bind]; [|reflexivity]. rewrite xsub_shl.
  assert (E1 : (if (lsrc =? zlen g - 1)%Z then Err UnboundLocal else dbot <- bind (idx depth (lsrc + 1)) (fun a => Ok (sh a));; xsub dbot (sh dt))
     = (if (lsrc =? zlen g - 1)%Z then Err UnboundLocal else dbot <- idx depth (lsrc + 1);; xsub dbot dt)).
  { destruct (lsrc =? zlen g - 1)%Z; [reflexivity|]. destruct (idx depth (lsrc + 1)); cbn [bind]; [apply xsub_sh|reflexivity]. }
  assert (E2 : (if (lsrc =? zlen g - 1)%Z then Err UnboundLocal else dbot <- bind (idx depth (lsrc + 1)) (fun a => Ok (sh a));; xsub dbot (Fin (zs + c)))
     = (if (lsrc =? zlen g - 1)%Z then Err UnboundLocal else dbot <- idx depth (lsrc + 1);; xsub dbot (Fin zs))).
  { destruct (lsrc =? zlen g - 1)%Z; [reflexivity|]. destruct (idx depth (lsrc + 1)); cbn [bind]; [apply xsub_shr|reflexivity]. }
  rewrite E1, E2. destruct (xsub (Fin zs) dt); cbn [bind]; [|reflexivity]. destruct (idx g lsrc); cbn [bind]; [|reflexivity].
  destruct (u && _); [reflexivity|]. destruct (negb u && _); [reflexivity|]. destruct (lsrc =? lrec)%Z; [reflexivity|]. rewrite E.
  step; [|reflexivity]. step; [|reflexivity]. f_equal. destruct (u || _); [|reflexivity].
  do 2 (match goal with |- context [idx depth ?i] => destruct (idx depth i); cbn [bind]; [|reflexivity] end). now rewrite xsub_sh.
Qed.
Lemma map_idx : forall depth i, idx (up c depth) i = bind (idx depth i) (fun a => Ok (sh a)).
Proof. intros. apply idx_map. Qed.
Lemma green_mode_up : forall TM depth e g lrec lsrc zs zr ab xd, green_mode TM (up c depth) e g lrec lsrc (zs + c) (zr + c) ab xd = green_mode TM depth e g lrec lsrc zs zr ab xd.
Proof.
  intros TM depth e g lrec lsrc zs zr ab xd. unfold green_mode. rewrite reflections_up. rewrite (map_idx depth lrec), (map_idx depth (lrec + 1)).
  replace (zs + c - (zr + c)) with (zs - zr) by ring. replace (zr + c - (zs + c)) with (zr - zs) by ring.
  step; [|reflexivity].
  assert (E1 : (d1 <- bind (idx depth (lrec + 1)) (fun a => Ok (sh a));; dd <- xsub d1 (Fin (zr + c));; xexpm a dd) = (d1 <- idx depth (lrec + 1);; dd <- xsub d1 (Fin zr);; xexpm a dd)).
  { destruct (idx depth (lrec + 1)); cbn [bind]; [|reflexivity]. now rewrite xsub_shr. }
  assert (E2 : (d1 <- bind (idx depth lrec) (fun a => Ok (sh a));; dd <- xsub (Fin (zr + c)) d1;; xexpm a dd) = (d1 <- idx depth lrec;; dd <- xsub (Fin zr) d1;; xexpm a dd)).
  { destruct (idx depth lrec); cbn [bind]; [|reflexivity]. now rewrite xsub_shl. }
  rewrite E1, E2. clear E1 E2.
  match goal with |- bind ?x _ = bind ?y _ => assert (E0 : x = y) end.
  { destruct (zlen g >? 1)%Z; [|reflexivity]. step; [|reflexivity]. destruct a0 as [Rp Rm]. step; [|reflexivity]. step; [|reflexivity]. unfold fields. now rewrite !fields_dir_up. }
  rewrite E0. clear E0. step; [|reflexivity]. destruct a0 as [[[[[Rp Rm] Wu] Wd] Pu] Pd]. destruct (lsrc =? lrec)%Z; [reflexivity|]. f_equal.
  destruct (lrec =? _)%Z; [reflexivity|]. do 2 (match goal with |- context [idx depth ?i] => destruct (idx depth i); cbn [bind]; [|reflexivity] end). now rewrite xsub_sh.
Qed.
Theorem wavenumber_up : forall zs zr ls lr depth eH eV zH zV lam ab xd ms mr,
  wavenumber (zs + c) (zr + c) ls lr (up c depth) eH eV zH zV lam ab xd ms mr = wavenumber zs zr ls lr depth eH eV zH zV lam ab xd ms mr.
Proof.
  intros. unfold wavenumber. f_equal. unfold greenfct. cbv zeta. 
  assert (E : forall TM, green_pass TM (up c depth) (if mr && ms then map Copp zH else eH) (if mr && ms then map Copp zV else eV) (if mr && ms then map Copp eH else zH) (if mr && ms then map Copp eV else zV)
     (if mr && negb ms then ls else lr) (if mr && negb ms then lr else ls) (if mr && negb ms then zr + c else zs + c) (if mr && negb ms then zs + c else zr + c) lam ab xd
   = green_pass TM depth (if mr && ms then map Copp zH else eH) (if mr && ms then map Copp zV else eV) (if mr && ms then map Copp eH else zH) (if mr && ms then map Copp eV else zV)
     (if mr && negb ms then ls else lr) (if mr && negb ms then lr else ls) (if mr && negb ms then zr else zs) (if mr && negb ms then zs else zr) lam ab xd).
  { intros TM. unfold green_pass. f_equal. ext_. f_equal. destruct (mr && negb ms); apply green_mode_up. }
  rewrite !E. reflexivity.
Qed.

(** the full-space solution depends on zrec - zsrc only *)
Lemma fullspace_up : forall rdt an off ang zs zr eH eV zH zV ab ms mr,
  fullspace rdt an off ang (zs + c) (zr + c) eH eV zH zV ab ms mr = fullspace rdt an off ang zs zr eH eV zH zV ab ms mr.
Proof.
  intros.
  assert (E : forall a b neg xo yo p q r t, fs_gin rdt neg an off xo yo (a + c) (b + c) p q r t ab = fs_gin rdt neg an off xo yo a b p q r t ab).
  { intros. unfold fs_gin. cbv zeta. unfold fs_R. replace (a + c - (b + c)) with (a - b) by ring. replace (b + c - (a + c)) with (b - a) by ring. reflexivity. }
  unfold fullspace. now rewrite !E.
Qed.

(** *** the checks *)
Lemma xltb_sh : forall a b, xltb (sh a) (sh b) = xltb a b.
Proof. intros [|x|] [|y|]; cbn; try reflexivity. unfold Rltb. destruct (Rlt_dec _ _), (Rlt_dec x y); try reflexivity; lra. Qed.
Lemma all_dec_up : forall d, all_dec (up c d) = all_dec d.
Proof. induction d as [|a [|b t] IH]; try reflexivity. unfold up in *. cbn [map] in *. change (xltb (sh b) (sh a) && all_dec (sh b :: map sh t) = xltb b a && all_dec (b :: t))%bool. now rewrite IH, xltb_sh. Qed.
Lemma any_dec_up : forall d, any_dec (up c d) = any_dec d.
Proof. induction d as [|a [|b t] IH]; try reflexivity. unfold up in *. cbn [map] in *. change (xltb (sh b) (sh a) || any_dec (sh b :: map sh t) = xltb b a || any_dec (b :: t))%bool. now rewrite IH, xltb_sh. Qed.
Lemma drop_pinf_up : forall d, drop_pinf (up c d) = up c (drop_pinf d).
Proof.
  intros d. unfold drop_pinf, up. change NInf with (sh NInf) at 1.
  assert (L : last (map sh d) (sh NInf) = sh (last d NInf)) by (induction d as [|a [|b t] IH]; try reflexivity; exact IH).
  assert (RM : removelast (map sh d) = map sh (removelast d)). { clear. induction d as [|a [|b t] IH]; try reflexivity. change (sh a :: removelast (map sh (b :: t)) = sh a :: map sh (removelast (b :: t))). now rewrite IH. }
  rewrite L, RM. destruct (last d NInf); reflexivity.
Qed.
Lemma check_depth_up : forall d, check_depth (up c d) = bind (check_depth d) (fun p => Ok (fst p, up c (snd p))).
Proof.
  intros d. unfold check_depth. rewrite all_dec_up. replace (List.length (up c d)) with (List.length d) by (unfold up; now rewrite map_length).
  set (sw := (1 <? List.length d)%nat && all_dec d). replace (if sw then rev (up c d) else up c d) with (up c (if sw then rev d else d)) by (unfold up; destruct sw; [now rewrite map_rev|reflexivity]).
  set (d' := if sw then rev d else d). rewrite any_dec_up. destruct (any_dec d'); [reflexivity|]. destruct d' as [|a t]; [reflexivity|]. cbn [up map].
  assert (EX : xeqb (sh a) NInf = xeqb a NInf) by (destruct a; reflexivity). rewrite EX. cbn [bind fst snd]. f_equal. f_equal. rewrite <- drop_pinf_up. f_equal. now destruct (xeqb a NInf).
Qed.
Definition mo_up (mo : model_out) : model_out := {| m_depth := up c (m_depth mo); m_res := m_res mo; m_aniso := m_aniso mo; m_epermH := m_epermH mo; m_epermV := m_epermV mo;
  m_mpermH := m_mpermH mo; m_mpermV := m_mpermV mo; m_full := m_full mo; m_extra := m_extra mo |}.
Lemma check_model_up : forall m d rs an eH eV mH mV, check_model m (up c d) rs an eH eV mH mV = bind (check_model m d rs an eH eV mH mV) (fun mo => Ok (mo_up mo)).
Proof.
  intros m d rs an eH eV mH mV. unfold check_model. rewrite check_depth_up. destruct (check_depth d) as [[sw d']|]; cbn [bind fst snd]; [|reflexivity].
  replace (List.length (up c d')) with (List.length d') by (unfold up; now rewrite map_length).
  repeat (match goal with |- bind ?a _ = bind (bind ?a _) _ => destruct a as [?|]; cbn [bind]; [|reflexivity] | p : (_ * _)%type |- _ => destruct p end). reflexivity.
Qed.
Lemma layer1_up : forall d z, layer1 (up c d) (z + c) = layer1 d z.
Proof.
  intros d z. unfold layer1, get_layer_nr. cbn [flat_map]. f_equal.
  assert (E : map2 (fun a p => xltb a (Fin (z + c)) && xgeb p (Fin (z + c))) (up c d) (tl (up c d) ++ [PInf]) = map2 (fun a p => xltb a (Fin z) && xgeb p (Fin z)) d (tl d ++ [PInf])).
  { replace (tl (up c d) ++ [PInf]) with (up c (tl d ++ [PInf])) by (unfold up; rewrite map_app; now destruct d). generalize (tl d ++ [PInf]). unfold up, map2. induction d as [|a t IH]; intros [|b l]; try reflexivity.
    cbn [map combine fst snd]. rewrite IH. f_equal. unfold xgeb. change (Fin (z + c)) with (sh (Fin z)). now rewrite !xltb_sh. }
  now rewrite E.
Qed.
Lemma check_var_up : forall v s1 s2, check_var (nd_up c v) s1 s2 = bind (check_var v s1 s2) (fun p => Ok (fst p, map (fun x => x + c) (snd p))).
Proof. intros [sh0 d|] s1 s2; [|reflexivity]. cbn [nd_up check_var]. destruct s1; [reflexivity|]. now destruct (check_shape _ _ _). Qed.
Lemma check_dipole_up : forall p, check_dipole (pt_up c p) = bind (check_dipole p) (fun q => let '(x, y, z, n) := q in Ok (x, y, map (fun t => t + c) z, n)).
Proof.
  intros [|x [|y [|z [|w t]]]]; try reflexivity. cbn [pt_up check_dipole].
  destruct (check_var x [] []) as [[? dx]|]; cbn [bind]; [|reflexivity]. destruct (check_var y [] []) as [[? dy]|]; cbn [bind]; [|reflexivity].
  match goal with |- bind ?a _ = _ => destruct a as [[? ?]|]; cbn [bind]; [|reflexivity] end. rewrite check_var_up. now destruct (check_var z [1%nat] []) as [[? ?]|].
Qed.
Lemma geometry_up : forall m src rec, geometry m (pt_up c src) (pt_up c rec) = bind (geometry m src rec) (fun q => let '(off, an, zs, zr, ns, nr) := q in Ok (off, an, zs + c, zr + c, ns, nr)).
Proof.
  intros m src rec. unfold geometry. rewrite !check_dipole_up. destruct (check_dipole src) as [[[[sx sy] sz] ns]|]; cbn [bind]; [|reflexivity].
  destruct (check_dipole rec) as [[[[rx ry] rz] nr]|]; cbn [bind]; [|reflexivity]. destruct (get_off_ang m sx sy rx ry) as [off an].
  destruct sz as [|zs [|? ?]]; try reflexivity. destruct rz as [|zr [|? ?]]; reflexivity.
Qed.

(** *** the calls *)
Definition mk_t := R -> R -> Z -> Z -> list ext -> Z -> bool -> bool -> hankel.
Definition shiftable (mk : mk_t) : Prop := forall zs zr ls lr d ab ms mr, mk (zs + c) (zr + c) ls lr (up c d) ab ms mr = mk zs zr ls lr d ab ms mr.
Definition hook_ok (hook : hookt) : Prop := forall mo fo, hook (mo_up mo) fo = hook mo fo.

Lemma dlf_shiftable : forall spl filt ppd, shiftable (dlf_calc spl filt ppd).
Proof.
  intros spl filt ppd zs zr ls lr d ab ms mr. unfold dlf_calc. ext_. ext_. ext_. ext_. f_equal. ext_. ext_. destruct (nth_error _ _); [|reflexivity]. apply wavenumber_up.
Qed.
Lemma fullspace_arr_up : forall rdt off an zs zr lr rows ab ms mr, fullspace_arr rdt off an (zs + c) (zr + c) lr rows ab ms mr = fullspace_arr rdt off an zs zr lr rows ab ms mr.
Proof.
  intros. unfold fullspace_arr. f_equal. ext_. f_equal. ext_. destruct x0 as [[[? ?] ?] ?]. f_equal. ext_. apply fullspace_up.
Qed.
Lemma fem_up : forall rdt calc ab off an zs zr ls lr rows xd full ms mr lf lo cv,
  fem rdt calc ab off an (zs + c) (zr + c) ls lr rows xd full ms mr lf lo cv = fem rdt calc ab off an zs zr ls lr rows xd full ms mr lf lo cv.
Proof. intros. unfold fem. now rewrite fullspace_arr_up. Qed.

Theorem dipole_up : forall m hook mk src rec depth q freq ab xd lf lo, shiftable mk -> hook_ok hook ->
  dipole m hook mk (pt_up c src) (pt_up c rec) (up c depth) q freq ab xd lf lo = dipole m hook mk src rec depth q freq ab xd lf lo.
Proof.
  intros m hook mk src rec depth q freq ab xd lf lo HM HH. unfold dipole. rewrite check_model_up. destruct (check_model m depth _ _ _ _ _ _) as [mo|]; cbn [bind]; [|reflexivity].
  rewrite geometry_up. cbn [mo_up m_depth m_res m_aniso m_epermH m_epermV m_mpermH m_mpermV m_full m_extra].
  set (fo := check_frequency _ _ _ _ _ _ _ _). replace (apply_hook hook (q_res q) (mo_up mo) fo) with (apply_hook hook (q_res q) mo fo) by (unfold apply_hook; destruct (q_res q); [reflexivity|now rewrite HH]).
  destruct (check_ab ab) as [[[abc ms] mr]|]; cbn [bind]; [|reflexivity]. destruct (geometry m src rec) as [[[[[[off an] zs] zr] ns] nr]|]; cbn [bind]; [|reflexivity].
  rewrite !layer1_up. step; [|reflexivity]. step; [|reflexivity]. now rewrite HM, fem_up.
Qed.
Theorem dipole_k_up : forall m src rec depth q freq wl ab,
  dipole_k m (pt_up c src) (pt_up c rec) (up c depth) q freq wl ab = dipole_k m src rec depth q freq wl ab.
Proof.
  intros m src rec depth q freq wl ab. unfold dipole_k. rewrite check_model_up. destruct (check_model m depth _ _ _ _ _ _) as [mo|]; cbn [bind]; [|reflexivity].
  rewrite geometry_up. cbn [mo_up m_depth m_res m_aniso m_epermH m_epermV m_mpermH m_mpermV m_full m_extra].
  destruct (check_ab ab) as [[[abc ms] mr]|]; cbn [bind]; [|reflexivity]. destruct (geometry m src rec) as [[[[[[off an] zs] zr] ns] nr]|]; cbn [bind]; [|reflexivity].
  rewrite !layer1_up. step; [|reflexivity]. step; [|reflexivity]. destruct (inb abc _); [reflexivity|]. f_equal. f_equal. ext_. f_equal. ext_. apply wavenumber_up.
Qed.

(** *** bipole with dipoles as sources and receivers *)
Notation add_c := (map (fun x => x + c)).
Definition bip_up (b : bip) : bip := {| b_arr := match b_arr b with x :: y :: z :: t => x :: y :: add_c z :: t | l => l end; b_n := b_n b; b_nz := b_nz b; b_dip := b_dip b |}.
Definition ad_up (t : azmdip) : azmdip := {| t_x := t_x t; t_y := t_y t; t_z := add_c (t_z t); t_azm := t_azm t; t_dip := t_dip t; t_gw := t_gw t; t_pts := t_pts t; t_w := t_w t |}.
Definition set_up (k : setting) : setting := mkSet (k_m k) (k_mk k) (up c (k_depth k)) (k_rows k) (k_lap k) (k_full k) (k_xd k) (k_lf k) (k_lo k) (k_ms k) (k_mr k) (k_st k) (k_rt k).
Definition five (p : list ndin) : Prop := List.length p = 5%nat.

Lemma chck_dipole_up : forall mx x y z, chck_dipole mx x y (nd_up c z) = bind (chck_dipole mx x y z) (fun q => Ok (fst q, add_c (snd q))).
Proof.
  intros mx x y z. unfold chck_dipole. destruct (check_var x [1%nat] [mx]) as [[? ?]|]; cbn [bind]; [|reflexivity]. destruct (check_var y [1%nat] [mx]) as [[? ?]|]; cbn [bind]; [|reflexivity].
  rewrite check_var_up. destruct (check_var z [1%nat] [mx]) as [[? dz]|]; cbn [bind fst snd]; [|reflexivity]. destruct dz as [|z0 dz]; [reflexivity|].
  change (add_c (z0 :: dz)) with ((z0 + c) :: add_c dz). cbv beta iota.
  assert (E : forallb (fun v => isclose0 (v - (z0 + c))) ((z0 + c) :: add_c dz) = forallb (fun v => isclose0 (v - z0)) (z0 :: dz)).
  { change ((z0 + c) :: add_c dz) with (add_c (z0 :: dz)). induction (z0 :: dz) as [|v vs IH]; [reflexivity|]. cbn [map forallb]. rewrite IH. do 2 f_equal. ring. }
  cbv beta iota zeta. rewrite E. cbn [bind fst snd]. destruct (forallb _ (z0 :: dz)); reflexivity.
Qed.
Lemma check_bipole_up : forall p, five p -> check_bipole (pt_up c p) = bind (check_bipole p) (fun b => Ok (bip_up b)).
Proof.
  intros p H. unfold five in H. destruct p as [|x [|y [|z [|a [|d [|? ?]]]]]]; try discriminate H. clear H. cbn [pt_up].
  unfold check_bipole. replace (maxl (map nd_size [x; y; nd_up c z; a; d])) with (maxl (map nd_size [x; y; z; a; d])) by (cbn [map]; do 3 f_equal; destruct z; [cbn; now rewrite map_length|reflexivity]).
  set (mx := maxl _). rewrite chck_dipole_up. destruct (chck_dipole mx x y z) as [[[dx dy] dz]|]; cbn [bind fst snd]; [|reflexivity].
  destruct (check_var a [1%nat] [mx]) as [[? da]|]; cbn [bind]; [|reflexivity]. destruct (check_var d [1%nat] [mx]) as [[? dd]|]; cbn [bind]; [|reflexivity]. rewrite map_length. reflexivity.
Qed.
Lemma check_bipole_dip : forall p b, five p -> check_bipole p = Ok b -> b_dip b = true /\ exists x y z a d, b_arr b = [x; y; z; a; d].
Proof.
  intros p b H E. unfold five in H. destruct p as [|x [|y [|z [|a [|d [|? ?]]]]]]; try discriminate H. clear H. unfold check_bipole in E. set (mx := maxl _) in E.
  destruct (chck_dipole mx x y z) as [[[dx dy] dz]|]; cbn [bind] in E; [|discriminate]. destruct (check_var a [1%nat] [mx]) as [[? da]|]; cbn [bind] in E; [|discriminate].
  destruct (check_var d [1%nat] [mx]) as [[? dd]|]; cbn [bind] in E; [|discriminate]. injection E as <-. cbn [b_dip b_arr]. split; [reflexivity|]. repeat eexists.
Qed.
Lemma get_azm_dip_up : forall m gl x y z a d iz nz pts st src,
  get_azm_dip m gl [x; y; add_c z; a; d] iz nz pts true st src = bind (get_azm_dip m gl [x; y; z; a; d] iz nz pts true st src) (fun t => Ok (ad_up t)).
Proof.
  intros. unfold get_azm_dip. cbv zeta. cbn [mapM]. destruct (Nat.eqb nz 1).
  - reflexivity.
  - rewrite idx_map. destruct (idx x (Z.of_nat iz)); cbn [bind]; [|reflexivity]. destruct (idx y (Z.of_nat iz)); cbn [bind]; [|reflexivity]. destruct (idx z (Z.of_nat iz)); cbn [bind]; [|reflexivity].
    destruct (idx a (Z.of_nat iz)); cbn [bind]; [|reflexivity]. destruct (idx d (Z.of_nat iz)); reflexivity.
Qed.
Section Block.
Variable k : setting.
Hypothesis HM : shiftable (k_mk k).
Lemma ab_loop_up : forall irec isrc ts tr off an zs zr ls lr abs,
  ab_loop (set_up k) irec isrc (ad_up ts) (ad_up tr) off an (zs + c) (zr + c) ls lr abs = ab_loop k irec isrc ts tr off an zs zr ls lr abs.
Proof.
  intros. unfold ab_loop. cbn [set_up ad_up k_m k_mk k_depth k_rows k_lap k_full k_xd k_lf k_lo k_ms k_mr t_azm t_dip]. f_equal. ext_. ext_. now rewrite HM, fem_up.
Qed.
Lemma rec_point_up : forall irec isrc ts tr abs sx sy zs ls EM irg,
  rec_point (set_up k) irec isrc (ad_up ts) (ad_up tr) abs sx sy (zs + c) ls EM irg = rec_point k irec isrc ts tr abs sx sy zs ls EM irg.
Proof.
  intros. unfold rec_point. cbn [ad_up t_x t_y t_z t_pts t_gw]. rewrite idx_map. destruct (idx (t_z tr) (Z.of_nat irg)) as [zr|]; cbn [bind]; [|reflexivity].
  change (k_m (set_up k)) with (k_m k). destruct (get_off_ang _ _ _ _ _) as [off an]. change (k_depth (set_up k)) with (up c (k_depth k)). rewrite layer1_up.
  destruct (layer1 (k_depth k) zr) as [lr|]; cbn [bind]; [|reflexivity]. now rewrite ab_loop_up.
Qed.
Lemma src_point_up : forall irec isrc ts tr abs EM isg, src_point (set_up k) irec isrc (ad_up ts) (ad_up tr) abs EM isg = src_point k irec isrc ts tr abs EM isg.
Proof.
  intros. unfold src_point. cbn [ad_up t_x t_y t_z t_pts t_gw]. rewrite idx_map. destruct (idx (t_z ts) (Z.of_nat isg)) as [zs|]; cbn [bind]; [|reflexivity].
  change (k_depth (set_up k)) with (up c (k_depth k)). rewrite layer1_up. destruct (layer1 (k_depth k) zs) as [ls|]; cbn [bind]; [|reflexivity].
  replace (rec_point (set_up k) irec isrc (ad_up ts) (ad_up tr) abs (stride 0 isg (t_pts ts) (t_x ts)) (stride 0 isg (t_pts ts) (t_y ts)) (zs + c) ls)
    with (rec_point k irec isrc ts tr abs (stride 0 isg (t_pts ts) (t_x ts)) (stride 0 isg (t_pts ts) (t_y ts)) zs ls); [reflexivity|].
  ext_. ext_. symmetry. apply rec_point_up.
Qed.
Lemma block_up : forall st irec isrc ts tr, block (set_up k) st irec isrc (ad_up ts) (ad_up tr) = block k st irec isrc ts tr.
Proof.
  intros. unfold block. cbn [ad_up t_azm t_dip t_pts t_w]. change (k_ms (set_up k)) with (k_ms k). change (k_mr (set_up k)) with (k_mr k). change (k_rows (set_up k)) with (k_rows k).
  replace (src_point (set_up k) irec isrc (ad_up ts) (ad_up tr)) with (src_point k irec isrc ts tr); [reflexivity|]. ext_. ext_. ext_. symmetry. apply src_point_up.
Qed.
Lemma loops_up : forall gl sp rp st bs br, b_dip bs = true -> b_dip br = true -> (exists x y z a d, b_arr bs = [x; y; z; a; d]) -> (exists x y z a d, b_arr br = [x; y; z; a; d]) ->
  bipole_loops (set_up k) gl sp rp st (bip_up bs) (bip_up br) = bipole_loops k gl sp rp st bs br.
Proof.
  intros gl sp rp st bs br D1 D2 (x1 & y1 & z1 & a1 & d1 & E1) (x2 & y2 & z2 & a2 & d2 & E2). unfold bipole_loops. cbn [bip_up b_arr b_n b_nz b_dip]. rewrite D1, D2, E1, E2.
  change (k_rows (set_up k)) with (k_rows k). change (k_m (set_up k)) with (k_m k). f_equal. ext_. ext_. rewrite get_azm_dip_up. destruct (get_azm_dip _ gl [x1; y1; z1; a1; d1] _ _ _ _ _ _) as [ts|]; cbn [bind]; [|reflexivity].
  f_equal. ext_. ext_. rewrite get_azm_dip_up. destruct (get_azm_dip _ gl [x2; y2; z2; a2; d2] _ _ _ _ _ _) as [tr|]; cbn [bind]; [|reflexivity]. now rewrite block_up.
Qed.
End Block.

Theorem bipole_array_up : forall m gl hook mk src rec depth q freq ms mr sp rp st xd lf lo, shiftable mk -> hook_ok hook -> five src -> five rec ->
  bipole_array m gl hook mk (pt_up c src) (pt_up c rec) (up c depth) q freq ms mr sp rp st xd lf lo = bipole_array m gl hook mk src rec depth q freq ms mr sp rp st xd lf lo.
Proof.
  intros m gl hook mk src rec depth q freq ms mr sp rp st xd lf lo HM HH F1 F2. unfold bipole_array. rewrite check_model_up. destruct (check_model m depth _ _ _ _ _ _) as [mo|]; cbn [bind]; [|reflexivity].
  cbn [mo_up m_depth m_res m_aniso m_epermH m_epermV m_mpermH m_mpermV m_full m_extra].
  set (fo := check_frequency _ _ _ _ _ _ _ _). replace (apply_hook hook (q_res q) (mo_up mo) fo) with (apply_hook hook (q_res q) mo fo) by (unfold apply_hook; destruct (q_res q); [reflexivity|now rewrite HH]).
  destruct (check_mx true ms) as [[bms xs]|]; cbn [bind]; [|reflexivity]. rewrite !check_bipole_up by assumption. destruct (check_bipole src) as [bs|] eqn:Eb; cbn [bind]; [|reflexivity].
  destruct (check_mx false mr) as [[bmr xr]|]; cbn [bind]; [|reflexivity]. destruct (check_bipole rec) as [br|] eqn:Er; cbn [bind]; [|reflexivity].
  destruct (check_bipole_dip src bs F1 Eb) as (D1 & A1). destruct (check_bipole_dip rec br F2 Er) as (D2 & A2).
  match goal with |- bind (bipole_loops ?k1 _ _ _ _ _ _) _ = bind (bipole_loops ?k2 _ _ _ _ _ _) _ => change k1 with (set_up k2); rewrite (loops_up k2) end; [reflexivity|assumption..].
Qed.
End Sh.
