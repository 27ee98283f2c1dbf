(** Consequences of the closed form for kernel.greenfct and kernel.wavenumber. *)

From Coq Require Import Reals ZArith List Bool Lia Lra Psatz.
From Coquelicot Require Import Coquelicot.
From Verif Require Import PyBase CBase Kernel KernelSpec KernelRefl KernelClosed KernelPhys
  KernelPassive KernelSym KernelSplit ODE KernelBVP KernelMain.
Import ListNotations.
Local Open Scope R_scope.
Local Open Scope C_scope.
Local Open Scope res_scope.

(** Calls the rest of the package makes: ab after [utils.check_ab]. *)
Definition valid_call (ab : Z) (msrc mrec : bool) : Prop :=
  if mrec && msrc then In ab ee_abs else In ab kernel_abs.

Definition resp (eH eV zH zV : nat -> C) (z : nat -> R) (N : nat) (lam : R) (ab : Z)
    (xd msrc mrec : bool) (s r : nat) (zs zr : R) : C * C :=
  if mrec then
    if msrc then (- PTM zH zV eH z N lam ab xd s r zs zr, - PTE eH eV zH z N lam ab xd s r zs zr)
    else (PTM eH eV zH z N lam ab xd r s zr zs, PTE zH zV eH z N lam ab xd r s zr zs)
  else (PTM eH eV zH z N lam ab xd s r zs zr, PTE zH zV eH z N lam ab xd s r zs zr).

Theorem gcall_resp : forall eH eV zH zV z N lam ab xd msrc mrec s r zs zr,
  model_ok eH eV zH zV z N lam -> valid_call ab msrc mrec -> (s <= N)%nat -> (r <= N)%nat ->
  gcall eH eV zH zV z N lam ab xd msrc mrec s r zs zr
  = Ok (resp eH eV zH zV z N lam ab xd msrc mrec s r zs zr).
Proof.
  intros eH eV zH zV z N lam ab xd msrc mrec s r zs zr OK HV Hs Hr. unfold valid_call in HV.
  destruct mrec; [destruct msrc|]; cbn [andb] in HV; unfold resp.
  - now apply greenfct_mm.
  - rewrite greenfct_me. now apply greenfct_ee.
  - now apply greenfct_ee.
Qed.

(** ** Lifting facts about G_mode to PTM and PTE *)

Section Two.
Variables (eH eV zH zV : nat -> C) (z : nat -> R) (N : nat) (lam : R).
Hypothesis OK : model_ok eH eV zH zV z N lam.

(** Continuity *)
Lemma PTM_cont : forall ab s j zs, (s <= N)%nat -> (j < N)%nat ->
  (s = j -> zs < z (S j))%R -> (s = S j -> z (S j) < zs)%R ->
  let p r := PTM eH eV zH z N lam ab false s r zs (z (S j)) in
  if (recc ab =? 3)%Z then eV j * p j = eV (S j) * p (S j) else p j = p (S j).
Proof.
  intros ab s j zs Hs Hj H1 H2 p. unfold p, PTM.
  destruct (mode_used true ab).
  2:{ destruct (recc ab =? 3)%Z; ring. }
  pose proof (G_mode_continuous eH (gam eH eV zH lam) z N (mo_TM _ _ _ _ _ _ _ OK) (mo_eH _ _ _ _ _ _ _ OK)
    (cpm true ab) (csg true ab) s j zs (cpm_pm1 _ _) (csg_pm1 _ _) Hs Hj H1 H2) as E.
  unfold fTM, Cdiv. set (iK := / (if (srcc ab =? 3)%Z then eV s else RtoC 1)).
  destruct (recc ab =? 3)%Z.
  - pose proof (mo_eV _ _ _ _ _ _ _ OK j ltac:(lia)). pose proof (mo_eV _ _ _ _ _ _ _ OK (S j) ltac:(lia)).
    transitivity (sgnTM ab * wsrc eH (gam eH eV zH lam) (cpm true ab) s * iK *
      (wgt eH (gam eH eV zH lam) (csg true ab) j *
       G_mode eH (gam eH eV zH lam) z N (cpm true ab) (csg true ab) s j zs (z (S j)) false)).
    + field. assumption.
    + rewrite E. field. assumption.
  - transitivity (sgnTM ab * wsrc eH (gam eH eV zH lam) (cpm true ab) s * iK * / 1 *
      (wgt eH (gam eH eV zH lam) (csg true ab) j *
       G_mode eH (gam eH eV zH lam) z N (cpm true ab) (csg true ab) s j zs (z (S j)) false)).
    + ring.
    + rewrite E. ring.
Qed.

Lemma csg_TE : forall ab, csg false ab = 1.
Proof. reflexivity. Qed.

Lemma PTE_cont : forall ab s j zs, (s <= N)%nat -> (j < N)%nat ->
  (s = j -> zs < z (S j))%R -> (s = S j -> z (S j) < zs)%R ->
  let p r := PTE zH zV eH z N lam ab false s r zs (z (S j)) in p j = p (S j).
Proof.
  intros ab s j zs Hs Hj H1 H2 p. unfold p, PTE.
  destruct (mode_used false ab); [|reflexivity].
  pose proof (G_mode_continuous zH (gam zH zV eH lam) z N (mo_TE _ _ _ _ _ _ _ OK) (mo_zH _ _ _ _ _ _ _ OK)
    (cpm false ab) (csg false ab) s j zs (cpm_pm1 _ _) (csg_pm1 _ _) Hs Hj H1 H2) as E.
  rewrite csg_TE in *. rewrite !wgt_1, !Cmult_1_l in E. now rewrite E.
Qed.

(** Reciprocity *)
Definition swapab (ab : Z) : Z := (srcc ab * 10 + recc ab)%Z.
Definition nvert (ab : Z) : Z := ((if srcc ab =? 3 then 1 else 0) + (if recc ab =? 3 then 1 else 0))%Z.

Ltac each_ee H := unfold ee_abs in H; cbn [In] in H;
  repeat (destruct H as [H|H]; [subst|]); [..|contradiction].

Lemma swap_facts : forall ab, In ab ee_abs ->
  cpm true (swapab ab) = csg true ab /\ csg true (swapab ab) = cpm true ab /\
  srcc (swapab ab) = recc ab /\ recc (swapab ab) = srcc ab /\
  mode_used true ab = true /\ mode_used true (swapab ab) = true /\
  sgnTM (swapab ab) = (if (nvert ab =? 1)%Z then - (1) else RtoC 1) * sgnTM ab.
Proof.
  intros ab H. each_ee H; repeat split; try reflexivity;
    unfold sgnTM, nvert, srcc, recc, swapab; cbn -[Cmult Copp]; ring.
Qed.

Lemma PTM_recip : forall ab s r zs zr xd, In ab ee_abs -> (s <= N)%nat -> (r <= N)%nat ->
  PTM eH eV zH z N lam (swapab ab) xd r s zr zs
  = (if (nvert ab =? 1)%Z then - (1) else RtoC 1) * PTM eH eV zH z N lam ab xd s r zs zr.
Proof.
  intros ab s r zs zr xd Hab Hs Hr.
  pose proof (G_mode_recip eH (gam eH eV zH lam) z N (mo_TM _ _ _ _ _ _ _ OK)
      (mo_eH _ _ _ _ _ _ _ OK) (mo_gTM _ _ _ _ _ _ _ OK) (cpm true ab) (csg true ab) s r zs zr xd
      (cpm_pm1 _ _) (csg_pm1 _ _) Hs Hr) as E.
  destruct (swap_facts ab Hab) as [F1 [F2 [F3 [F4 [F5 [F6 F7]]]]]].
  unfold PTM, fTM. rewrite F1, F2, F3, F4, F5, F6, F7. unfold Cdiv.
  set (c := if (nvert ab =? 1)%Z then - (1) else RtoC 1).
  set (i1 := / (if (srcc ab =? 3)%Z then eV s else RtoC 1)).
  set (i2 := / (if (recc ab =? 3)%Z then eV r else RtoC 1)).
  set (G1 := G_mode _ _ _ _ _ _ r s _ _ _) in *. set (G2 := G_mode _ _ _ _ _ _ s r _ _ _) in *.
  set (w1 := wsrc _ _ _ r) in *. set (w2 := wsrc _ _ _ s) in *.
  set (v1 := wgt _ _ _ r) in *. set (v2 := wgt _ _ _ s) in *.
  transitivity (c * sgnTM ab * i1 * i2 * (w1 * v2 * G1)); [ring|]. rewrite <- E. ring.
Qed.

Lemma PTE_recip : forall ab s r zs zr xd, In ab ee_abs -> (s <= N)%nat -> (r <= N)%nat ->
  PTE zH zV eH z N lam (swapab ab) xd r s zr zs = PTE zH zV eH z N lam ab xd s r zs zr.
Proof.
  intros ab s r zs zr xd Hab Hs Hr.
  assert (M : mode_used false (swapab ab) = mode_used false ab) by (each_ee Hab; reflexivity).
  unfold PTE. rewrite M. destruct (mode_used false ab) eqn:ME; [|reflexivity].
  assert (F : cpm false ab = 1 /\ cpm false (swapab ab) = 1 /\ (srcc ab =? 6)%Z = false
     /\ (srcc (swapab ab) =? 6)%Z = false).
  { each_ee Hab; try discriminate ME; repeat split; reflexivity. }
  destruct F as [F1 [F2 [F3 F4]]].
  pose proof (G_mode_recip zH (gam zH zV eH lam) z N (mo_TE _ _ _ _ _ _ _ OK)
      (mo_zH _ _ _ _ _ _ _ OK) (mo_gTE _ _ _ _ _ _ _ OK) 1 1 s r zs zr xd
      (or_introl eq_refl) (or_introl eq_refl) Hs Hr) as E.
  unfold fTE. rewrite F1, F2, F3, F4, !csg_TE. rewrite !wgt_1 in E. rewrite !Cdiv_1_r.
  rewrite !Cmult_1_r in E. symmetry. exact E.
Qed.
End Two.

(** Mirror *)
Definition chi (ab : Z) : C := if inb ab [13; 23; 31; 32; 14; 24; 15; 25]%Z then - (1) else RtoC 1.
Lemma chi_prod : forall TM ab, In ab kernel_abs -> mode_used TM ab = true ->
  cpm TM ab * csg TM ab = chi ab.
Proof.
  intros. rewrite chi_ok by assumption. unfold chi.
  destruct (inb ab _); [apply cz_m1|reflexivity].
Qed.

Lemma mir_gam : forall N h v q lam k, gam (mir N h) (mir N v) (mir N q) lam k = mir N (gam h v q lam) k.
Proof. reflexivity. Qed.
Lemma mir_at : forall N (f : nat -> C) k, (k <= N)%nat -> mir N f (N - k) = f k.
Proof. intros. unfold mir. f_equal. lia. Qed.

Lemma PTM_mirror : forall eH eV zH z N lam ab xd s r zs zr, In ab kernel_abs ->
  (s <= N)%nat -> (r <= N)%nat ->
  PTM (mir N eH) (mir N eV) (mir N zH) (mirz z N) N lam ab xd (N - s) (N - r) (- zs) (- zr)
  = chi ab * PTM eH eV zH z N lam ab xd s r zs zr.
Proof.
  intros eH eV zH z N lam ab xd s r zs zr Hab Hs Hr. unfold PTM.
  destruct (mode_used true ab) eqn:M; [|ring].
  change (gam (mir N eH) (mir N eV) (mir N zH) lam) with (mir N (gam eH eV zH lam)).
  rewrite G_mode_mirror by (auto using cpm_pm1, csg_pm1).
  rewrite chi_prod by assumption.
  assert (F : fTM (mir N eH) (mir N eV) (mir N (gam eH eV zH lam)) ab (N - s) (N - r)
     = fTM eH eV (gam eH eV zH lam) ab s r).
  { unfold fTM, wsrc, wgt. now rewrite !mir_at. }
  rewrite F. ring.
Qed.

Lemma PTE_mirror : forall zH zV eH z N lam ab xd s r zs zr, In ab kernel_abs ->
  (s <= N)%nat -> (r <= N)%nat ->
  PTE (mir N zH) (mir N zV) (mir N eH) (mirz z N) N lam ab xd (N - s) (N - r) (- zs) (- zr)
  = chi ab * PTE zH zV eH z N lam ab xd s r zs zr.
Proof.
  intros zH zV eH z N lam ab xd s r zs zr Hab Hs Hr. unfold PTE.
  destruct (mode_used false ab) eqn:M; [|ring].
  change (gam (mir N zH) (mir N zV) (mir N eH) lam) with (mir N (gam zH zV eH lam)).
  rewrite G_mode_mirror by (auto using cpm_pm1, csg_pm1).
  rewrite chi_prod by assumption.
  assert (F : fTE (mir N zH) (mir N zV) (mir N (gam zH zV eH lam)) ab (N - s)
     = fTE zH zV (gam zH zV eH lam) ab s).
  { unfold fTE, wsrc. now rewrite !mir_at. }
  rewrite F. ring.
Qed.

(** Translation *)
Lemma PTM_translate : forall eH eV zH z N lam ab xd s r zs zr c,
  PTM eH eV zH (fun k => z k + c)%R N lam ab xd s r (zs + c) (zr + c)
  = PTM eH eV zH z N lam ab xd s r zs zr.
Proof. intros. unfold PTM. now rewrite G_mode_translate. Qed.
Lemma PTE_translate : forall zH zV eH z N lam ab xd s r zs zr c,
  PTE zH zV eH (fun k => z k + c)%R N lam ab xd s r (zs + c) (zr + c)
  = PTE zH zV eH z N lam ab xd s r zs zr.
Proof. intros. unfold PTE. now rewrite G_mode_translate. Qed.

(** Direct field *)
Lemma G_mode_1layer : forall (e g : nat -> C) z pm sg zs zr,
  G_mode e g z 0 pm sg 0 0 zs zr false = G_dir g pm sg 0 zs zr.
Proof.
  intros. unfold G_mode. rewrite Nat.eqb_refl. unfold G_same. rewrite Rdn_N.
  change (Rup e g z 0) with (RtoC 0). unfold Cdiv. ring.
Qed.

(** The full space with the parameters of layer s. *)
Definition only (s : nat) (f : nat -> C) (k : nat) : C := f s.

Lemma PTM_direct : forall eH eV zH z N lam ab s r zs zr,
  PTM eH eV zH z N lam ab false s r zs zr
  = PTM eH eV zH z N lam ab true s r zs zr
    + (if Nat.eqb s r then PTM (only s eH) (only s eV) (only s zH) z 0 lam ab false 0 0 zs zr else 0).
Proof.
  intros. unfold PTM. destruct (mode_used true ab).
  2:{ destruct (Nat.eqb s r); ring. }
  destruct (Nat.eqb_spec s r) as [<-|Hne].
  - rewrite G_mode_1layer.
    change (fTM (only s eH) (only s eV) (gam (only s eH) (only s eV) (only s zH) lam) ab 0 0)
      with (fTM eH eV (gam eH eV zH lam) ab s s).
    change (G_dir (gam (only s eH) (only s eV) (only s zH) lam) (cpm true ab) (csg true ab) 0 zs zr)
      with (G_dir (gam eH eV zH lam) (cpm true ab) (csg true ab) s zs zr).
    unfold G_mode. rewrite Nat.eqb_refl. ring.
  - unfold G_mode. destruct (Nat.eqb_spec s r); [contradiction|]. ring.
Qed.
Lemma PTE_direct : forall zH zV eH z N lam ab s r zs zr,
  PTE zH zV eH z N lam ab false s r zs zr
  = PTE zH zV eH z N lam ab true s r zs zr
    + (if Nat.eqb s r then PTE (only s zH) (only s zV) (only s eH) z 0 lam ab false 0 0 zs zr else 0).
Proof.
  intros. unfold PTE. destruct (mode_used false ab).
  2:{ destruct (Nat.eqb s r); ring. }
  destruct (Nat.eqb_spec s r) as [<-|Hne].
  - rewrite G_mode_1layer.
    change (fTE (only s zH) (only s zV) (gam (only s zH) (only s zV) (only s eH) lam) ab 0)
      with (fTE zH zV (gam zH zV eH lam) ab s).
    change (G_dir (gam (only s zH) (only s zV) (only s eH) lam) (cpm false ab) (csg false ab) 0 zs zr)
      with (G_dir (gam zH zV eH lam) (cpm false ab) (csg false ab) s zs zr).
    unfold G_mode. rewrite Nat.eqb_refl. ring.
  - unfold G_mode. destruct (Nat.eqb_spec s r); [contradiction|]. ring.
Qed.

(** Uniform stack *)
Definition cst (c : C) (k : nat) : C := c.

Lemma PTM_uniform : forall h v q z N lam ab s r zs zr,
  ((s < r)%nat -> (zs < zr)%R) -> ((r < s)%nat -> (zr < zs)%R) ->
  PTM (cst h) (cst v) (cst q) z N lam ab false s r zs zr
  = PTM (cst h) (cst v) (cst q) z 0 lam ab false 0 0 zs zr.
Proof.
  intros h v q z N lam ab s r zs zr H1 H2. unfold PTM. destruct (mode_used true ab); [|reflexivity].
  rewrite G_mode_1layer.
  change (gam (cst h) (cst v) (cst q) lam) with (cst (Csqrt (h / v * RtoC (lam * lam) + q * h))).
  set (g0 := Csqrt _).
  f_equal. exact (G_mode_uniform h g0 z N (cpm true ab) (csg true ab) s r zs zr
    (cpm_pm1 _ _) (csg_pm1 _ _) H1 H2).
Qed.
Lemma PTE_uniform : forall h v q z N lam ab s r zs zr,
  ((s < r)%nat -> (zs < zr)%R) -> ((r < s)%nat -> (zr < zs)%R) ->
  PTE (cst h) (cst v) (cst q) z N lam ab false s r zs zr
  = PTE (cst h) (cst v) (cst q) z 0 lam ab false 0 0 zs zr.
Proof.
  intros h v q z N lam ab s r zs zr H1 H2. unfold PTE. destruct (mode_used false ab); [|reflexivity].
  rewrite G_mode_1layer.
  change (gam (cst h) (cst v) (cst q) lam) with (cst (Csqrt (h / v * RtoC (lam * lam) + q * h))).
  set (g0 := Csqrt _).
  f_equal. exact (G_mode_uniform h g0 z N (cpm false ab) (csg false ab) s r zs zr
    (cpm_pm1 _ _) (csg_pm1 _ _) H1 H2).
Qed.

(** Splitting a layer *)
Lemma spl_gam : forall m h v q lam k, gam (spl m h) (spl m v) (spl m q) lam k = spl m (gam h v q lam) k.
Proof. reflexivity. Qed.
Lemma newlay_old : forall m k k', newlay m k k' -> old m k' = k.
Proof.
  intros m k k' H. unfold old. destruct H as [[H ->]|[[H ->]|[-> [->| ->]]]].
  - destruct (Nat.leb_spec k m); lia.
  - destruct (Nat.leb_spec (S k) m); lia.
  - destruct (Nat.leb_spec m m); lia.
  - destruct (Nat.leb_spec (S m) m); lia.
Qed.

Section Split.
Variables (eH eV zH zV : nat -> C) (z : nat -> R) (N : nat) (lam : R) (m : nat) (zi : R).
Hypothesis Hm : (m <= N)%nat.
Hypothesis OK : model_ok eH eV zH zV z N lam.
Hypothesis OK' : model_ok (spl m eH) (spl m eV) (spl m zH) (spl m zV) (splz m zi z) (S N) lam.
Variables (s r s' r' : nat) (zs zr : R).
Hypothesis Hs : (s <= N)%nat.
Hypothesis Hr : (r <= N)%nat.
Hypothesis Ns : newlay m s s'.
Hypothesis Nr : newlay m r r'.
Hypothesis O1 : (s = m -> r = m -> s' = m -> r' = S m -> zs < zr)%R.
Hypothesis O2 : (s = m -> r = m -> s' = S m -> r' = m -> zr < zs)%R.

Lemma PTM_split : forall ab,
  PTM (spl m eH) (spl m eV) (spl m zH) (splz m zi z) (S N) lam ab false s' r' zs zr
  = PTM eH eV zH z N lam ab false s r zs zr.
Proof.
  intros ab. unfold PTM. destruct (mode_used true ab); [|reflexivity].
  change (gam (spl m eH) (spl m eV) (spl m zH) lam) with (spl m (gam eH eV zH lam)).
  rewrite (G_mode_split eH (gam eH eV zH lam) z N m zi Hm) with (s := s) (r := r);
    auto using cpm_pm1, csg_pm1.
  - f_equal. unfold fTM, wsrc, wgt, spl. now rewrite (newlay_old _ _ _ Ns), (newlay_old _ _ _ Nr).
  - exact (mo_TM _ _ _ _ _ _ _ OK').
  - exact (mo_TM _ _ _ _ _ _ _ OK).
Qed.
Lemma PTE_split : forall ab,
  PTE (spl m zH) (spl m zV) (spl m eH) (splz m zi z) (S N) lam ab false s' r' zs zr
  = PTE zH zV eH z N lam ab false s r zs zr.
Proof.
  intros ab. unfold PTE. destruct (mode_used false ab); [|reflexivity].
  change (gam (spl m zH) (spl m zV) (spl m eH) lam) with (spl m (gam zH zV eH lam)).
  rewrite (G_mode_split zH (gam zH zV eH lam) z N m zi Hm) with (s := s) (r := r);
    auto using cpm_pm1, csg_pm1.
  - f_equal. unfold fTE, wsrc, spl. now rewrite (newlay_old _ _ _ Ns).
  - exact (mo_TE _ _ _ _ _ _ _ OK').
  - exact (mo_TE _ _ _ _ _ _ _ OK).
Qed.
End Split.
