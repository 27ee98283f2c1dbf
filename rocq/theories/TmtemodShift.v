(** Vertical translation of the TM/TE split. *)

From Coq Require Import ZArith QArith Reals List Bool Lia Lra.
From Coquelicot Require Import Coquelicot.
From Verif Require Import PyBase CBase Kernel KernelSpec KernelRefl KernelClosed KernelPhys KernelPassive KernelMain KernelThm UtilsAb Utils Transform
  Model ModelFem Routines RoutinesThm Bipole BipoleCol BipoleFinal RoutinesK RoutinesKThm Tmtemod TmtemodThm Shift.
Import ListNotations.
Local Open Scope R_scope.
Local Open Scope C_scope.
Local Open Scope res_scope.

(** all parts but "+-" are the same, and that one differs by [d] *)
Definition moved (d : C) (p p' : parts) : Prop :=
  p_uu p' = p_uu p /\ p_ud p' = p_ud p /\ p_dd p' = p_dd p /\ p_df p' = p_df p /\ p_du p' = p_du p + d.

Lemma parts_eq : forall p q, p_uu p = p_uu q -> p_ud p = p_ud q -> p_du p = p_du q -> p_dd p = p_dd q -> p_df p = p_df q -> p = q.
Proof. intros [] []; cbn; intros; subst; reflexivity. Qed.

Section Sh.
Variable c : R.
Notation sh := (xsh c).

Ltac ext_ := apply FunctionalExtensionality.functional_extensionality; intros ?.
Ltac step := match goal with
  | |- ?a = ?a => reflexivity
  | |- bind ?a _ = bind ?a _ => destruct a; cbn [bind]
  end.

Lemma tm_pass_shift : forall u depth Rp Rm g lrec lsrc zs TM, tm_pass u (up c depth) Rp Rm g lrec lsrc (zs + c) TM = tm_pass u depth Rp Rm g lrec lsrc zs TM.
Proof.
  intros u depth Rp Rm g lrec lsrc zs TM. unfold tm_pass. replace (zlen (up c depth)) with (zlen depth) by (unfold zlen, up; now rewrite map_length).
  rewrite !(map_idx c). destruct (idx depth lsrc) as [dt|]; cbn [bind]; [|reflexivity]. rewrite xsub_shl.
  assert (E1 : (if (lsrc =? zlen depth - 1)%Z then Err UnboundLocal else dbot <- bind (idx depth (lsrc + 1)) (fun a => Ok (sh a));; xsub dbot (sh dt))
     = (if (lsrc =? zlen depth - 1)%Z then Err UnboundLocal else dbot <- idx depth (lsrc + 1);; xsub dbot dt)).
  { destruct (lsrc =? zlen depth - 1)%Z; [reflexivity|]. destruct (idx depth (lsrc + 1)); cbn [bind]; [apply xsub_sh|reflexivity]. }
  assert (E2 : (if (lsrc =? zlen depth - 1)%Z then Err UnboundLocal else dbot <- bind (idx depth (lsrc + 1)) (fun a => Ok (sh a));; xsub dbot (Fin (zs + c)))
     = (if (lsrc =? zlen depth - 1)%Z then Err UnboundLocal else dbot <- idx depth (lsrc + 1);; xsub dbot (Fin zs))).
  { destruct (lsrc =? zlen depth - 1)%Z; [reflexivity|]. destruct (idx depth (lsrc + 1)); cbn [bind]; [apply xsub_shr|reflexivity]. }
  rewrite E1, E2. reflexivity.
Qed.
Lemma tm_mode_shift : forall TM depth eH eV zH zV lrec lsrc zs zr lam, tm_mode TM (up c depth) eH eV zH zV lrec lsrc (zs + c) (zr + c) lam = tm_mode TM depth eH eV zH zV lrec lsrc zs zr lam.
Proof.
  intros TM depth eH eV zH zV lrec lsrc zs zr lam. unfold tm_mode. replace (zlen (up c depth)) with (zlen depth) by (unfold zlen, up; now rewrite map_length). 
  replace (zs + c - (zr + c))%R with (zs - zr)%R by ring. rewrite !(map_idx c).
  step; [|reflexivity]. step; [|reflexivity]. rewrite reflections_up. step; [|reflexivity]. destruct a1 as [Rp Rm].
  assert (E1 : (d1 <- bind (idx depth (lrec + 1)) (fun a => Ok (sh a));; dd <- xsub d1 (Fin (zr + c));; xexpm a0 dd) = (d1 <- idx depth (lrec + 1);; dd <- xsub d1 (Fin zr);; xexpm a0 dd)).
  { destruct (idx depth (lrec + 1)); cbn [bind]; [|reflexivity]. now rewrite xsub_shr. }
  assert (E2 : (d1 <- bind (idx depth lrec) (fun a => Ok (sh a));; dd <- xsub (Fin (zr + c)) d1;; xexpm a0 dd) = (d1 <- idx depth lrec;; dd <- xsub (Fin zr) d1;; xexpm a0 dd)).
  { destruct (idx depth lrec); cbn [bind]; [|reflexivity]. now rewrite xsub_shl. }
  rewrite E1, E2. step; [|reflexivity]. step; [|reflexivity]. rewrite !tm_pass_shift. reflexivity.
Qed.

(** the correction: only the exponential of the part "+-" changes *)
Lemma tm_corr_shift : forall r depth ze lrec lsrc zs zr af off sg p, tm_corr r depth ze lrec lsrc zs zr af off sg = Ok p ->
  exists Rp Rm np lg, rp_rm r depth ze lrec lsrc af off = Ok (Rp, Rm, np) /\ idx (gam0 r) lsrc = Ok lg /\
    exists p', tm_corr r (up c depth) ze lrec lsrc (zs + c) (zr + c) af off sg = Ok p' /\
      moved (np * Rm * (Cexp (- (lg * RtoC (zr + zs + 2 * c))) - Cexp (- (lg * RtoC (zr + zs))))) p p'.
Proof.
  intros r depth ze lrec lsrc zs zr af off sg p H. unfold tm_corr in *.
  replace (up c depth ++ [PInf]) with (up c (depth ++ [PInf])) by (unfold up; now rewrite map_app). rewrite !(map_idx c).
  assert (ER : rp_rm r (up c depth) ze lrec lsrc af off = rp_rm r depth ze lrec lsrc af off).
  { unfold rp_rm. replace (up c depth ++ [PInf]) with (up c (depth ++ [PInf])) by (unfold up; now rewrite map_app). rewrite !(map_idx c). step; [|reflexivity].
    destruct (idx (depth ++ [PInf]) (lsrc + 1)); cbn [bind]; [|reflexivity]. destruct (idx (depth ++ [PInf]) lsrc); cbn [bind]; [|reflexivity]. rewrite xsub_sh, reflections_up. reflexivity. }
  rewrite ER. destruct (idx (gam0 r) lsrc) as [lg|]; cbn [bind] in *; [|discriminate].
  destruct (idx (depth ++ [PInf]) (lsrc + 1)) as [d1|]; cbn [bind] in *; [|discriminate]. destruct (idx (depth ++ [PInf]) lsrc) as [d0|]; cbn [bind] in *; [|discriminate]. rewrite xsub_sh.
  destruct (xsub d1 d0) as [ds|]; cbn [bind] in *; [|discriminate]. destruct (rp_rm r depth ze lrec lsrc af off) as [[[Rp Rm] np]|]; cbn [bind] in *; [|discriminate].
  exists Rp, Rm, np, lg. split; [reflexivity|]. split; [reflexivity|].
  replace (- (zr + c) + (zs + c))%R with (- zr + zs)%R by ring. replace (zr + c - (zs + c))%R with (zr - zs)%R by ring.
  destruct (twice_plus ds (- zr + zs)) as [x0|]; cbn [bind] in *; [|discriminate]. destruct (xexpm lg x0) as [e0|]; cbn [bind] in *; [|discriminate].
  destruct (idx (depth ++ [PInf]) (lrec + 1)) as [dr|]; cbn [bind] in *; [|discriminate].
  replace (twice_plus (sh dr) (- (zr + c) - (zs + c))) with (twice_plus dr (- zr - zs)) by (destruct dr; cbn; try reflexivity; do 2 f_equal; ring).
  destruct (twice_plus dr (- zr - zs)) as [x1|]; cbn [bind] in *; [|discriminate]. destruct (xexpm lg x1) as [e1|]; cbn [bind xexpm] in *; [|discriminate].
  destruct (twice_plus ds (zr - zs)) as [x3|]; cbn [bind] in *; [|discriminate]. destruct (xexpm lg x3) as [e3|]; cbn [bind] in *; [|discriminate].
  eexists. split; [reflexivity|]. match type of H with Ok ?u = Ok ?v => assert (HW : v = u) by congruence end. rewrite HW. unfold moved. cbn [p_uu p_ud p_du p_dd p_df].
  repeat split; try reflexivity. replace (zr + c + (zs + c))%R with (zr + zs + 2 * c)%R by ring. ring.
Qed.

(** the source in the first layer: no reflections from above *)
Lemma rp_rm_first : forall r depth ze af off Rp Rm np, rp_rm r depth ze 0 0 af off = Ok (Rp, Rm, np) -> Rm = 0.
Proof.
  intros r depth ze af off Rp Rm np H. unfold rp_rm in H. destruct (idx (gam0 r) 0) as [lg|] eqn:EG; cbn [bind] in H; [|discriminate].
  destruct (idx _ (0 + 1)) as [d1|]; cbn [bind] in H; [|discriminate]. destruct (idx (depth ++ [PInf]) 0) as [d0|]; cbn [bind] in H; [|discriminate].
  destruct (xsub d1 d0); cbn [bind] in H; [|discriminate].
  assert (EM : reflections_dir false depth ze (gam0 r) 0 0 = Ok [cz 0]).
  { unfold reflections_dir. cbn [Z.max Z.min Z.compare Z.add Z.sub Z.opp Z.mul]. change (zrange 1 1) with (@nil Z). cbv beta iota zeta.
    replace (Z.min (zlen (gam0 r)) 1) with 1%Z; [reflexivity|]. unfold idx, norm_idx in EG. cbn in EG. destruct (gam0 r) as [|x l]; [discriminate|]. unfold zlen. cbn [List.length]. lia. }
  unfold reflections in H. destruct (reflections_dir true depth ze (gam0 r) 0 0) as [P|e]; cbn [bind] in H; [|discriminate]. rewrite EM in H. cbn [bind] in H.
  destruct (idx P 0); cbn [bind] in H; [|discriminate]. change (idx [cz 0] 0) with (Ok (cz 0)) in H. cbn [bind] in H. destruct (xexpm _ _); cbn [bind] in H; [|discriminate].
  destruct (idx (r_zH r) 0); cbn [bind] in H; [|discriminate]. destruct (cdiv _ _); cbn [bind] in H; [|discriminate]. inversion H. reflexivity.
Qed.

(** the change of the part "+-" of one mode *)
Definition du_change (r : frow) (depth : list ext) (ze : list C) (l : Z) (zs zr af off : R) (d : C) : Prop :=
  exists Rp Rm np lg, rp_rm r depth ze l l af off = Ok (Rp, Rm, np) /\ idx (gam0 r) l = Ok lg /\
    d = np * Rm * (Cexp (- (lg * RtoC (zr + zs + 2 * c))) - Cexp (- (lg * RtoC (zr + zs)))).

Theorem tm_element_shift : forall filt r depth l zs zr off af tm te, tm_element filt r depth l l zs zr off af = Ok (tm, te) ->
  exists tm' te' dm de, tm_element filt r (up c depth) l l (zs + c) (zr + c) off af = Ok (tm', te') /\
    moved dm tm tm' /\ moved de te te' /\ du_change r depth (r_eH r) l zs zr af off dm /\ du_change r depth (r_zH r) l zs zr af off de.
Proof.
  intros filt r depth l zs zr off af tm te H. unfold tm_element in *. set (lam := map _ _) in *.
  assert (EF : forall TM, tm_mode TM (up c depth) (r_eH r) (r_eV r) (r_zH r) (r_zV r) l l (zs + c) (zr + c) = tm_mode TM depth (r_eH r) (r_eV r) (r_zH r) (r_zV r) l l zs zr).
  { intros TM. ext_. apply tm_mode_shift. }
  rewrite !EF. destruct (mapM (tm_mode true _ _ _ _ _ _ _ _ _) lam) as [ptm|]; cbn [bind] in *; [|discriminate].
  destruct (mapM (tm_mode false _ _ _ _ _ _ _ _ _) lam) as [pte|]; cbn [bind] in *; [|discriminate].
  destruct (tm_corr r depth (r_zH r) l l zs zr af off 1) as [ce|] eqn:E1; cbn [bind] in *; [|discriminate].
  destruct (tm_corr r depth (r_eH r) l l zs zr af off (-1)) as [cm|] eqn:E2; cbn [bind] in *; [|discriminate].
  destruct (tm_corr_shift _ _ _ _ _ _ _ _ _ _ _ E1) as (Rp1 & Rm1 & np1 & lg1 & A1 & B1 & ce' & F1 & M1).
  destruct (tm_corr_shift _ _ _ _ _ _ _ _ _ _ _ E2) as (Rp2 & Rm2 & np2 & lg2 & A2 & B2 & cm' & F2 & M2).
  rewrite F1, F2. cbn [bind]. injection H as <- <-. do 4 eexists. split; [reflexivity|].
  assert (MA : forall a d p p', moved d p p' -> moved d (p_add a p) (p_add a p')).
  { intros a d p p' (H1 & H2 & H3 & H4 & H5). unfold moved, p_add. cbn [p_uu p_ud p_du p_dd p_df]. rewrite H1, H2, H3, H4, H5. repeat split. ring. }
  split; [apply MA, M2|]. split; [apply MA, M1|]. split; [exists Rp2, Rm2, np2, lg2|exists Rp1, Rm1, np1, lg1]; now repeat split.
Qed.

Definition four_same (p p' : parts) : Prop := p_uu p' = p_uu p /\ p_ud p' = p_ud p /\ p_dd p' = p_dd p /\ p_df p' = p_df p.

Lemma mapM_rel : forall {A B} (P : B -> B -> Prop) (f g : A -> res B) l t, (forall x y, In x l -> f x = Ok y -> exists y', g x = Ok y' /\ P y y') -> mapM f l = Ok t ->
  exists t', mapM g l = Ok t' /\ Forall2 P t t'.
Proof.
  intros A B P f g. induction l as [|x l IH]; intros t H E; cbn [mapM] in *.
  - injection E as <-. exists []. split; [reflexivity|constructor].
  - destruct (f x) as [y|] eqn:Ex; cbn [bind] in E; [|discriminate]. destruct (mapM f l) as [ys|]; cbn [bind] in E; [|discriminate]. injection E as <-.
    destruct (H x y (or_introl eq_refl) Ex) as (y' & G1 & G2). destruct (IH ys) as (ys' & G3 & G4); [intros a b Ha; apply H; now right|reflexivity|].
    exists (y' :: ys'). rewrite G1. cbn [bind]. rewrite G3. split; [reflexivity|]. now constructor.
Qed.

Theorem tm_dipole_shift : forall m filt src rec depth rs aniso eperm mperm freq T,
  tm_dipole m filt src rec depth rs aniso eperm mperm freq = Ok T ->
  exists T', tm_dipole m filt (pt_up c src) (pt_up c rec) (up c depth) rs aniso eperm mperm freq = Ok T' /\
    Forall2 (Forall2 (fun p p' => four_same (fst p) (fst p') /\ four_same (snd p) (snd p'))) T T' /\
    (forall mo off an zs zr ns nr, check_model m depth rs aniso eperm eperm mperm mperm = Ok mo -> geometry m src rec = Ok (off, an, zs, zr, ns, nr) -> layer1 (m_depth mo) zs = Ok 0%Z -> T' = T).
Proof.
  intros m filt src rec depth rs aniso eperm mperm freq T H. unfold tm_dipole in *. rewrite check_model_up. destruct (check_model m depth _ _ _ _ _ _) as [mo|] eqn:Em; cbn [bind] in *; [|discriminate].
  rewrite geometry_up. cbn [mo_up m_depth m_res m_aniso m_epermH m_epermV m_mpermH m_mpermV m_full m_extra].
  destruct (geometry m src rec) as [[[[[[off an] zs] zr] ns] nr]|] eqn:Eg; cbn [bind] in *; [|discriminate]. rewrite !layer1_up.
  destruct (layer1 (m_depth mo) zs) as [ls|] eqn:El; cbn [bind] in *; [|discriminate]. destruct (layer1 (m_depth mo) zr) as [lr|]; cbn [bind] in *; [|discriminate].
  destruct (ls =? lr)%Z eqn:Elr; cbn [negb] in *; [|discriminate]. apply Z.eqb_eq in Elr. subst lr. replace (List.length (up c (m_depth mo))) with (List.length (m_depth mo)) by (unfold up; now rewrite map_length).
  destruct (_ <? 2)%nat; [discriminate|]. destruct (1 <? _)%nat; [discriminate|].
  set (P := fun p p' : parts * parts => (four_same (fst p) (fst p') /\ four_same (snd p) (snd p')) /\ (ls = 0%Z -> p' = p)).
  assert (HE : forall r p y, tm_element filt r (m_depth mo) ls ls zs zr (fst p) (angle_factor (snd p) 11 false false) = Ok y ->
    exists y', tm_element filt r (up c (m_depth mo)) ls ls (zs + c) (zr + c) (fst p) (angle_factor (snd p) 11 false false) = Ok y' /\ P y y').
  { intros r p [tm te] E. destruct (tm_element_shift _ _ _ _ _ _ _ _ _ _ E) as (tm' & te' & dm & de & E' & M1 & M2 & D1 & D2). exists (tm', te'). split; [exact E'|].
    destruct M1 as (H1 & H2 & H3 & H4 & H5), M2 as (H6 & H7 & H8 & H9 & H10). split; [repeat split; assumption|].
    intros Z0. rewrite Z0 in D1, D2. destruct D1 as (Rp1 & Rm1 & np1 & lg1 & A1 & _ & ->), D2 as (Rp2 & Rm2 & np2 & lg2 & A2 & _ & ->).
    apply rp_rm_first in A1. apply rp_rm_first in A2. subst Rm1 Rm2. f_equal; apply parts_eq; try assumption; [rewrite H5|rewrite H10]; ring. }
  assert (HR : forall r t, In r (rows_of (check_frequency m freq (m_res mo) (m_aniso mo) (m_epermH mo) (m_epermV mo) (m_mpermH mo) (m_mpermV mo))) ->
      mapM (fun p => tm_element filt r (m_depth mo) ls ls zs zr (fst p) (angle_factor (snd p) 11 false false)) (combine off an) = Ok t ->
    exists t', mapM (fun p => tm_element filt r (up c (m_depth mo)) ls ls (zs + c) (zr + c) (fst p) (angle_factor (snd p) 11 false false)) (combine off an) = Ok t' /\ Forall2 P t t').
  { intros r t _ E. refine (mapM_rel P _ _ _ t _ E). intros p y _ Ey. exact (HE r p y Ey). }
  destruct (mapM_rel (Forall2 P) _ _ _ T HR H) as (T' & E' & F2).
  exists T'. split; [exact E'|]. split.
  - clear -F2. induction F2 as [|a b la lb Hab _ IH]; constructor; [|exact IH]. clear -Hab. induction Hab as [|x y lx ly Hxy _ IH]; constructor; [apply Hxy|exact IH].
  - intros mo0 off0 an0 zs0 zr0 ns0 nr0 E1 E2 E3. assert (mo0 = mo) by congruence. subst mo0. assert (zs0 = zs) by congruence. subst zs0. assert (Z0 : ls = 0%Z) by congruence.
    clear -F2 Z0. induction F2 as [|a b la lb Hab _ IH]; [reflexivity|]. f_equal; [|exact IH]. clear -Hab Z0. induction Hab as [|x y lx ly Hxy _ IH]; [reflexivity|]. f_equal; [apply Hxy, Z0|exact IH].
Qed.
End Sh.

(** ** The part "+-" moves *)
Lemma Cinv_nz : forall x : C, x <> 0 -> / x <> 0.
Proof. intros x Hx E. assert (H : x * / x = 1) by (now apply Cinv_r). rewrite E, Cmult_0_r in H. apply (f_equal fst) in H. cbn in H. lra. Qed.
Lemma Cmul_zero : forall a b : C, a * b = 0 -> a = 0 \/ b = 0.
Proof. intros a b H. destruct (Ceq_dec a 0) as [Ha|Ha]; [now left|]. destruct (Ceq_dec b 0) as [Hb|Hb]; [now right|]. exfalso. exact (Cmult_neq_0 a b Ha Hb H). Qed.
Lemma exp_moves : forall (lg : C) (a c : R), (0 < fst lg)%R -> c <> 0%R -> Cexp (- (lg * RtoC (a + 2 * c))) <> Cexp (- (lg * RtoC a)).
Proof.
  intros lg a c Hg Hc E. apply (f_equal Cmod) in E. rewrite !Cmod_Cexp in E. apply exp_inv in E. destruct lg as [x y]. cbn in E, Hg. assert (x * c = 0)%R by lra. apply Rmult_integral in H. lra.
Qed.

Theorem du_moves : forall eH eV zH zV z N filt s zs zr off af c tm te,
  passive_medium eH eV zH zV z N -> (s <= N)%nat -> (0 < off)%R -> af <> 0%R -> c <> 0%R -> Rup eH (g0 eH eV zH) z s <> 0 ->
  tm_element filt (mkrow (arr eH N) (arr eV N) (arr zH N) (arr zV N)) (depth_arr z N) (Z.of_nat s) (Z.of_nat s) zs zr off af = Ok (tm, te) ->
  exists tm' te', tm_element filt (mkrow (arr eH N) (arr eV N) (arr zH N) (arr zV N)) (up c (depth_arr z N)) (Z.of_nat s) (Z.of_nat s) (zs + c) (zr + c) off af = Ok (tm', te') /\
    p_du tm' <> p_du tm.
Proof.
  intros eH eV zH zV z N filt s zs zr off af c tm te PM Hs Ho Ha Hc HR E. set (w := mkrow _ _ _ _) in *.
  destruct (tm_element_shift c _ _ _ _ _ _ _ _ _ _ E) as (tm' & te' & dm & de & E' & (_ & _ & _ & _ & M) & _ & (Rp & Rm & np & lg & A & B & D) & _).
  exists tm', te'. split; [exact E'|]. rewrite M. intros K.
  assert (D0 : dm = 0). { transitivity (p_du tm + dm - p_du tm); [ring|]. rewrite K. ring. }
  pose proof (tm_corr_closed eH eV zH zV z N PM eH (-1) s zs zr af off (reg0_TM _ _ _ _ _ _ PM) Hs Ho) as TC. fold w in TC.
  assert (Elg : lg = g0 eH eV zH s). { unfold w in B. rewrite gam0_arr in B. rewrite idx_arr in B by lia. congruence. }
  assert (NP : np * Rm * Cexp (- (lg * RtoC (zr + zs))) = npf eH eV zH z N eH s af off * Rup eH (g0 eH eV zH) z s * dec (g0 eH eV zH) s (zr + zs)).
  { unfold tm_corr in TC. change (r_eH w) with (arr eH N) in A. rewrite B in TC. cbn [bind] in TC.
    destruct (idx _ (Z.of_nat s + 1)) as [d1|]; cbn [bind] in TC; [|discriminate]. destruct (idx (depth_arr z N ++ [PInf]) (Z.of_nat s)) as [d0|]; cbn [bind] in TC; [|discriminate].
    destruct (xsub d1 d0) as [ds|]; cbn [bind] in TC; [|discriminate]. rewrite A in TC. cbn [bind] in TC.
    destruct (twice_plus ds (- zr + zs)) as [x0|]; cbn [bind] in TC; [|discriminate]. destruct (xexpm lg x0) as [e0|]; cbn [bind] in TC; [|discriminate].
    destruct (twice_plus d1 (- zr - zs)) as [x1|]; cbn [bind] in TC; [|discriminate]. destruct (xexpm lg x1) as [e1|]; cbn [bind xexpm] in TC; [|discriminate].
    destruct (twice_plus ds (zr - zs)) as [x3|]; cbn [bind] in TC; [|discriminate]. destruct (xexpm lg x3) as [e3|]; cbn [bind] in TC; [|discriminate].
    apply (f_equal (fun r => match r with Ok p => p_du p | Err _ => RtoC 0 end)) in TC. exact TC. }
  assert (N0 : npf eH eV zH z N eH s af off <> 0).
  { unfold npf. pose proof PI_RGT_0. pose proof (passive_model_ok eH eV zH zV z N 0 PM) as [_ _ o3 _ _ _ _ _]. apply Cmult_neq_0.
    - apply Cmult_neq_0; [now apply RtoC_neq_0|apply o3; lia].
    - apply Cinv_nz, Cmult_neq_0; [apply Cmult_neq_0; [apply Cmult_neq_0|]|]; [apply RtoC_neq_0; nra|apply RtoC_neq_0; lra|apply (g0_nz eH eV zH zV z N PM); lia|apply (regM eH _ z N (reg0_TM _ _ _ _ _ _ PM)); lia]. }
  assert (NE : np * Rm <> 0).
  { intros K0. rewrite K0, Cmult_0_l in NP. symmetry in NP. apply Cmul_zero in NP. destruct NP as [NP|NP]; [|exact (Cexp_neq_0 _ NP)]. apply Cmul_zero in NP. destruct NP; contradiction. }
  rewrite D in D0. apply Cmul_zero in D0. destruct D0 as [D0|D0]; [contradiction|].
  apply (exp_moves lg (zr + zs) c); [rewrite Elg; apply (g0_pos eH eV zH zV z N PM); lia|exact Hc|].
  transitivity (Cexp (- (lg * (zr + zs + 2 * c)%R)) - Cexp (- (lg * (zr + zs)%R)) + Cexp (- (lg * (zr + zs)%R))); [ring|]. rewrite D0. ring.
Qed.

(** two layers that differ in their horizontal resistivity only reflect *)
Lemma Rup_two : forall eH eV zH zV z, passive_medium eH eV zH zV z 1 -> zH 0%nat = zH 1%nat -> eH 0%nat <> eH 1%nat -> Rup eH (g0 eH eV zH) z 1 <> 0.
Proof.
  intros eH eV zH zV z PM EZ NE H. cbn [Rup] in H.
  pose proof (passive_model_ok eH eV zH zV z 1 0 PM) as [o1 _ o3 _ _ _ _ _].
  assert (H1 : rl eH (g0 eH eV zH) 0 = 0).
  { transitivity (- ((- rl eH (g0 eH eV zH) 0 + 0 * E2 (g0 eH eV zH) z 0) / (1 + - rl eH (g0 eH eV zH) 0 * (0 * E2 (g0 eH eV zH) z 0)))); [field; intros K; apply (f_equal fst) in K; cbn in K; lra|]. rewrite H. ring. }
  unfold rl in H1. pose proof (reg_rl _ _ _ _ (reg0_TM _ _ _ _ _ _ PM) 0%nat ltac:(lia)) as D. unfold den_rl in D.
  assert (H2 : eH 1%nat * g0 eH eV zH 0 = eH 0%nat * g0 eH eV zH 1).
  { transitivity ((eH 1%nat * g0 eH eV zH 0 - eH 0%nat * g0 eH eV zH 1) / (eH 1%nat * g0 eH eV zH 0 + eH 0%nat * g0 eH eV zH 1) * (eH 1%nat * g0 eH eV zH 0 + eH 0%nat * g0 eH eV zH 1) + eH 0%nat * g0 eH eV zH 1); [field; exact D|]. rewrite H1. ring. }
  assert (S0 : g0 eH eV zH 0 * g0 eH eV zH 0 = zH 0%nat * eH 0%nat) by (rewrite g0_val; apply Csqrt_sqr). assert (S1 : g0 eH eV zH 1 * g0 eH eV zH 1 = zH 1%nat * eH 1%nat) by (rewrite g0_val; apply Csqrt_sqr).
  assert (H3 : eH 1%nat * eH 1%nat * (zH 0%nat * eH 0%nat) = eH 0%nat * eH 0%nat * (zH 1%nat * eH 1%nat)).
  { rewrite <- S0, <- S1. transitivity ((eH 1%nat * g0 eH eV zH 0) * (eH 1%nat * g0 eH eV zH 0)); [ring|]. rewrite H2. ring. }
  rewrite <- EZ in H3. apply NE.
  assert (H4 : (eH 1%nat - eH 0%nat) * (eH 1%nat * (zH 0%nat * eH 0%nat)) = 0).
  { transitivity (eH 1%nat * eH 1%nat * (zH 0%nat * eH 0%nat) - eH 0%nat * eH 0%nat * (zH 0%nat * eH 1%nat)); [ring|]. rewrite H3. ring. }
  apply Cmul_zero in H4. destruct H4 as [H4|H4].
  - transitivity (eH 1%nat - (eH 1%nat - eH 0%nat)); [ring|]. rewrite H4. ring.
  - exfalso. apply Cmul_zero in H4. destruct H4 as [H4|H4]; [apply (o1 1%nat ltac:(lia) H4)|]. apply Cmul_zero in H4. destruct H4 as [H4|H4]; [apply (o3 0%nat ltac:(lia) H4)|apply (o1 0%nat ltac:(lia) H4)].
Qed.
