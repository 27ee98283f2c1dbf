(** The four direct and reflected parts of the half-space solution solve the source-free
    diffusive Maxwell equations, stated for the values the function returns. *)

From Coq Require Import ZArith Reals List Bool Lia Lra Psatz.
From Coquelicot Require Import Coquelicot.
From Verif Require Import PyBase CBase Utils ODE FullspaceMaxwell FullspaceEM Halfspace HalfspaceThm HalfspaceSym HalfspaceDc HalfspaceZero HalfspaceZero2 WaveField WaveField2 WaveField3 HalfspaceWave HalfspaceWave2.
Import ListNotations.
Local Open Scope R_scope.
Local Open Scope C_scope.

(** translations *)
Lemma shift_d : forall (f : R -> C) c x l, is_deriveC f (x + c)%R l -> is_deriveC (fun t => f (t + c)%R) x l.
Proof.
  intros f c x l [H1 H2]. split.
  - replace (fst l) with (scal 1%R (fst l)) by (unfold scal; cbn; unfold mult; cbn; ring). apply (is_derive_comp (fun t => fst (f t)) (fun t => (t + c)%R) x (fst l) 1%R H1). auto_derive; auto; ring.
  - replace (snd l) with (scal 1%R (snd l)) by (unfold scal; cbn; unfold mult; cbn; ring). apply (is_derive_comp (fun t => snd (f t)) (fun t => (t + c)%R) x (snd l) 1%R H2). auto_derive; auto; ring.
Qed.
Lemma curlcurl_shift : forall E r (dom : R -> R -> R -> Prop) u v w, curlcurl_is E r dom ->
  curlcurl_is (fun a x y z => E a (x + u)%R (y + v)%R (z + w)%R) (fun a x y z => r a (x + u)%R (y + v)%R (z + w)%R) (fun x y z => dom (x + u)%R (y + v)%R (z + w)%R).
Proof.
  intros E r dom u v w (D1 & D2 & H). exists (fun i a x y z => D1 i a (x + u)%R (y + v)%R (z + w)%R), (fun j i a x y z => D2 j i a (x + u)%R (y + v)%R (z + w)%R).
  intros x y z D. destruct (H _ _ _ D) as (H1 & H2 & H3). 
  assert (S : forall i F l, pd i F (x + u)%R (y + v)%R (z + w)%R l -> pd i (fun x y z => F (x + u)%R (y + v)%R (z + w)%R) x y z l).
  { intros i F l. unfold pd. destruct (i =? 1)%Z; [|destruct (i =? 2)%Z]; intros P.
    - exact (shift_d (fun t => F t (y + v)%R (z + w)%R) u x l P).
    - exact (shift_d (fun t => F (x + u)%R t (z + w)%R) v y l P).
    - exact (shift_d (fun t => F (x + u)%R (y + v)%R t) w z l P). }
  split; [|split].
  - intros i a Hi Ha. apply (S i (E a)). auto.
  - intros i j a Hi Hj Ha. apply (S j (D1 i a)). auto.
  - exact H3.
Qed.

(** The electric field of a part as a function of the receiver: part [i] (0 direct TE, 1 direct
    TM, 2 reflected TE, 3 reflected TM, 4 airwave), [k]-th frequency or time, source in
    direction [b] at (xs, ys, zs), receiver in direction [a] at (x, y, z). *)
Definition hs_E (ive kve : Z -> C -> C) (inp : hs_in) (i k : nat) (xs ys zs : R) (eH eV : C) (b a : Z) (x y z : R) : C :=
  split_part (halfspace ive kve inp Dtetm (10 * a + b) (sqrt ((x - xs) * (x - xs) + (y - ys) * (y - ys))) (atan2 (y - ys) (x - xs)) zs z eH eV) i k.

(** receivers in the ground, off the vertical line through the source *)
Definition in_ground (xs ys zs x y z : R) : Prop := (0 < (x - xs) * (x - xs) + (y - ys) * (y - ys))%R /\ (0 < z + zs)%R.

Lemma ground_open : forall xs ys zs, axis_open (in_ground xs ys zs).
Proof.
  intros xs ys zs x y z [H Z]. unfold in_ground. split; [|split].
  - apply filter_imp with (P := fun t => (0 < (t - xs) * (t - xs) + (y - ys) * (y - ys))%R); [intros t W; now split|].
    pose proof (FullspaceField.rho_loc_x (x - xs) (y - ys) H) as L.
    assert (Ct : continuous (fun t => (t - xs)%R) x) by (apply (continuous_minus (V := R_NormedModule)); [apply continuous_id|apply continuous_const]).
    exact (Ct _ L).
  - apply filter_imp with (P := fun t => (0 < (x - xs) * (x - xs) + (t - ys) * (t - ys))%R); [intros t W; now split|].
    pose proof (FullspaceField.rho_loc_y (x - xs) (y - ys) H) as L.
    assert (Ct : continuous (fun t => (t - ys)%R) y) by (apply (continuous_minus (V := R_NormedModule)); [apply continuous_id|apply continuous_const]).
    exact (Ct _ L).
  - assert (P : (0 < z + zs)%R) by exact Z. exists (mkposreal _ P). intros t Ht. split; [exact H|]. apply Rabs_def2 in Ht. unfold minus, plus, opp in Ht. cbn in Ht. lra.
Qed.

Definition isr_of (inp : hs_in) : bool := match inp with HFreq isr _ => isr | HTime _ _ => true end.
Lemma tetm_guard : forall inp xs ys zs eH eV (a b : Z) x y z, let res := hs_res eH in let lam := hs_aniso eV res in (0 < res)%R -> (0 < lam)%R -> in_ground xs ys zs x y z ->
  hs_guard inp (10 * a + b) (hs_geo (sqrt ((x - xs) * (x - xs) + (y - ys) * (y - ys))) (atan2 (y - ys) (x - xs)) zs z res lam) = false.
Proof.
  intros inp xs ys zs eH eV a b x y z res lam Hres Hlam [Ho Hz]. destruct (geoW res lam zs z (x - xs) (y - ys) Hres Hlam Hz Ho) as (rho & Hrho & R2 & ->). unfold hs_guard. cbn [rm rp rh].
  destruct (dist_facts 1 (x - xs) (y - ys) (z - zs) Ho) as (P1 & _). destruct (dist_facts 1 (x - xs) (y - ys) (z + zs) Ho) as (P2 & _).
  destruct (Req_EM_T (dist 1 (x - xs) (y - ys) (z - zs)) 0); [lra|]. destruct (Req_EM_T (dist 1 (x - xs) (y - ys) (z + zs)) 0); [lra|]. destruct (Req_EM_T rho 0); [lra|]. now rewrite andb_false_r.
Qed.
Lemma tetm_nth : forall ive kve inp k w xs ys zs eH eV (a b : Z) x y z, at_k inp k = Some w -> let res := hs_res eH in let lam := hs_aniso eV res in
  nth_error (hs_parts ive kve inp (10 * a + b) (sqrt ((x - xs) * (x - xs) + (y - ys) * (y - ys))) (atan2 (y - ys) (x - xs)) zs z res lam) k
     = Some (hs_part ive kve (isr_of inp) w (10 * a + b) (sqrt ((x - xs) * (x - xs) + (y - ys) * (y - ys))) (atan2 (y - ys) (x - xs)) zs z res lam).
Proof.
  intros ive kve inp k w xs ys zs eH eV a b x y z Hk res lam. unfold at_k in Hk. unfold hs_parts. destruct inp as [isr l|sg l].
  - destruct (nth_error l k) as [s|] eqn:E; [|discriminate]. injection Hk as <-. now apply (map_nth_error (fun s => hs_part ive kve isr (AtS s) _ _ _ _ _ _ _)).
  - destruct (sg =? -1)%Z; [discriminate|]. destruct (nth_error l k) as [t|] eqn:E; [|discriminate]. cbn [option_map] in Hk. destruct (sg =? 1)%Z; injection Hk as <-.
    + now apply (map_nth_error (fun t => hs_part ive kve true (AtStep t) _ _ _ _ _ _ _)).
    + now apply (map_nth_error (fun t => hs_part ive kve true (AtImp t) _ _ _ _ _ _ _)).
Qed.
Lemma tetm_value : forall ive kve inp k w xs ys zs eH eV a b x y z i, at_k inp k = Some w ->
  let res := hs_res eH in let lam := hs_aniso eV res in (0 < res)%R -> (0 < lam)%R -> in_ground xs ys zs x y z -> (i < 5)%nat ->
  hs_E ive kve inp i k xs ys zs eH eV b a x y z
   = the_part i (hs_part ive kve (isr_of inp) w (10 * a + b) (sqrt ((x - xs) * (x - xs) + (y - ys) * (y - ys))) (atan2 (y - ys) (x - xs)) zs z res lam).
Proof.
  intros ive kve inp k w xs ys zs eH eV a b x y z i Hk res lam Hres Hlam D Hi. unfold hs_E. rewrite hs_tetm. fold res. fold lam.
  pose proof (tetm_guard inp xs ys zs eH eV a b x y z Hres Hlam D) as Gd. fold res in Gd. fold lam in Gd. rewrite Gd. cbv zeta. cbn [split_part]. rewrite parts_of_five by exact Hi.
  apply nth_error_nth. apply map_nth_error. exact (tetm_nth ive kve inp k w xs ys zs eH eV a b x y z Hk).
Qed.

Definition zrel (i : nat) (zs : R) : R := if (i <? 2)%nat then (- zs)%R else zs.
Lemma tetm_field : forall ive kve inp k w xs ys zs eH eV a b x y z i, at_k inp k = Some w -> at_ok w ->
  let res := hs_res eH in let lam := hs_aniso eV res in (0 < res)%R -> (0 < lam)%R -> in_ground xs ys zs x y z -> (i < 4)%nat -> (1 <= a <= 3)%Z -> (1 <= b <= 3)%Z ->
  hs_E ive kve inp i k xs ys zs eH eV b a x y z = hfield res lam w i b a (x + - xs)%R (y + - ys)%R (z + zrel i zs)%R.
Proof.
  intros ive kve inp k w xs ys zs eH eV a b x y z i Hk Hw res lam Hres Hlam [Ho Hz] Hi Ha Hb.
  rewrite (tetm_value ive kve inp k w xs ys zs eH eV a b x y z i Hk Hres Hlam (conj Ho Hz)) by lia. fold res. fold lam.
  destruct (part_fields ive kve (isr_of inp) w res lam zs z (x - xs) (y - ys) a b Hres Hlam Hw Hz Ho Ha Hb) as (F0 & F1 & F2 & F3).
  unfold zrel. destruct i as [|[|[|[|i]]]]; [| | | |lia]; cbn [the_part nth Nat.ltb Nat.leb]; assumption.
Qed.

(** horizontal and vertical conductivity *)
Definition hs_sigma (eH eV : C) (a : Z) : R := if (a =? 3)%Z then fst eV else (/ hs_res eH)%R.
Lemma sig_sigma : forall eH eV a, (0 < hs_res eH)%R -> (0 < fst eV)%R -> (0 < hs_aniso eV (hs_res eH))%R /\ sig (hs_res eH) (hs_aniso eV (hs_res eH)) a = hs_sigma eH eV a.
Proof.
  intros eH eV a H V. assert (P : (0 < fst eV * hs_res eH)%R) by now apply Rmult_lt_0_compat. assert (Q : (0 < sqrt (fst eV * hs_res eH))%R) by now apply sqrt_lt_R0.
  unfold hs_aniso, sig, hs_sigma. split; [apply Rdiv_lt_0_compat; lra|]. destruct (a =? 3)%Z; [|reflexivity].
  replace (hs_res eH * (1 / sqrt (fst eV * hs_res eH)) * (1 / sqrt (fst eV * hs_res eH)))%R with (hs_res eH * / (sqrt (fst eV * hs_res eH) * sqrt (fst eV * hs_res eH)))%R by (field; lra).
  rewrite sqrt_sqrt by lra. field. split; lra.
Qed.

Section Four.
Variables (ive kve : Z -> C -> C) (xs ys zs : R) (eH eV : C) (b : Z) (i : nat).
Hypotheses (HH : (0 < hs_res eH)%R) (HV : (0 < fst eV)%R) (Hb : (1 <= b <= 3)%Z) (Hi : (i < 4)%nat).
Let E inp k := hs_E ive kve inp i k xs ys zs eH eV b.

Lemma four_curl : forall inp k w, at_k inp k = Some w -> at_ok w ->
  curlcurl_is (E inp k) (fun a x y z => - (RtoC (mu0 * hs_sigma eH eV a) * hfg (hs_res eH) (hs_aniso eV (hs_res eH)) (next w) i b a (x + - xs)%R (y + - ys)%R (z + zrel i zs)%R)) (in_ground xs ys zs).
Proof using HH HV Hb Hi.
  intros inp k w Hk Hw. destruct (sig_sigma eH eV 1 HH HV) as [Hl _].
  refine (curlcurl_ext _ _ _ _ _ (ground_open xs ys zs) _ (curlcurl_sub _ _ _ _ _ (curlcurl_shift _ _ _ (- xs)%R (- ys)%R (zrel i zs) (hfield_curl (hs_res eH) (hs_aniso eV (hs_res eH)) w i b HH Hl Hw Hb)))).
  - intros a x y z Ha D. cbv beta. destruct (sig_sigma eH eV a HH HV) as [_ <-]. split; [|reflexivity]. symmetry. exact (tetm_field ive kve inp k w xs ys zs eH eV a b x y z i Hk Hw HH Hl D Hi Ha Hb).
  - intros x y z [D _]. exact D.
Qed.

Theorem four_freq : forall isr l k s, nth_error l k = Some s ->
  curlcurl_is (E (HFreq isr l) k) (fun a x y z => - (s * RtoC (mu0 * hs_sigma eH eV a) * E (HFreq isr l) k a x y z)) (in_ground xs ys zs).
Proof using HH HV Hb Hi.
  intros isr l k s Hk. assert (W : at_k (HFreq isr l) k = Some (AtS s)) by (cbn; now rewrite Hk). destruct (sig_sigma eH eV 1 HH HV) as [Hl _].
  refine (curlcurl_ext _ _ _ _ _ (ground_open xs ys zs) _ (four_curl _ k (AtS s) W I)). intros a x y z Ha D. split; [reflexivity|].
  unfold E. rewrite (tetm_field ive kve _ k _ xs ys zs eH eV a b x y z i W I HH Hl D Hi Ha Hb). rewrite hfg_next_S. ring.
Qed.
Theorem four_step : forall ts k T, nth_error ts k = Some T -> (0 < T)%R ->
  curlcurl_is (E (HTime 1 ts) k) (fun a x y z => - (RtoC (mu0 * hs_sigma eH eV a) * E (HTime 0 ts) k a x y z)) (in_ground xs ys zs).
Proof using HH HV Hb Hi.
  intros ts k T Hk HT. assert (W : at_k (HTime 1 ts) k = Some (AtStep T)) by (cbn; now rewrite Hk). assert (W0 : at_k (HTime 0 ts) k = Some (AtImp T)) by (cbn; now rewrite Hk). destruct (sig_sigma eH eV 1 HH HV) as [Hl _].
  refine (curlcurl_ext _ _ _ _ _ (ground_open xs ys zs) _ (four_curl _ k (AtStep T) W HT)). intros a x y z Ha D. split; [reflexivity|].
  unfold E. rewrite (tetm_field ive kve _ k _ xs ys zs eH eV a b x y z i W0 HT HH Hl D Hi Ha Hb). reflexivity.
Qed.
Theorem four_imp : forall ts k T, nth_error ts k = Some T -> (0 < T)%R -> exists D : Z -> R -> R -> R -> C,
  (forall a x y z, (1 <= a <= 3)%Z -> in_ground xs ys zs x y z -> is_deriveC (fun t => E (HTime 0 [t]) 0 a x y z) T (D a x y z)) /\
  curlcurl_is (E (HTime 0 ts) k) (fun a x y z => - (RtoC (mu0 * hs_sigma eH eV a) * D a x y z)) (in_ground xs ys zs).
Proof using HH HV Hb Hi.
  intros ts k T Hk HT. assert (W : at_k (HTime 0 ts) k = Some (AtImp T)) by (cbn; now rewrite Hk). destruct (sig_sigma eH eV 1 HH HV) as [Hl _].
  exists (fun a x y z => hfg (hs_res eH) (hs_aniso eV (hs_res eH)) (next (AtImp T)) i b a (x + - xs)%R (y + - ys)%R (z + zrel i zs)%R). split.
  - intros a x y z Ha D. refine (is_deriveC_ext_loc _ _ _ _ _ (hfg_next_imp (hs_res eH) (hs_aniso eV (hs_res eH)) T i b a (x + - xs)%R (y + - ys)%R (z + zrel i zs)%R HT)).
    exists (mkposreal T HT). intros t Ht. apply Rabs_def2 in Ht. unfold minus, plus, opp in Ht. cbn in Ht. assert (Pt : (0 < t)%R) by lra.
    symmetry. exact (tetm_field ive kve (HTime 0 [t]) 0 (AtImp t) xs ys zs eH eV a b x y z i eq_refl Pt HH Hl D Hi Ha Hb).
  - exact (four_curl _ k (AtImp T) W HT).
Qed.
End Four.
