(** [fourier_fft]: which sum it computes (C67). *)

From Coq Require Import ZArith Reals List Bool String Lia Lra Psatz.
From Coquelicot Require Import Coquelicot.
From Verif Require Import PyBase CBase Kernel Utils UtilsLayer Transform TransformDlf TransformLag UtilsArgs Fullspace Model ModelFem ModelTem Fourier FourierSum.
Import ListNotations.
Local Open Scope R_scope.
Local Open Scope C_scope.
Local Open Scope res_scope.

Ltac rgR := match goal with |- ?a = ?b => change (@eq R a b) end; ring.

(** ** Specification *)

(** The values f_1, f_2, ... at the multiples of the frequency step, continued
    by a straight line that ends at zero at number [ntot]. *)
Definition ramp (f : list C) (nfreq ntot : nat) (m : nat) : C :=
  if (m <=? nfreq)%nat then nth (m - 1) f (RtoC 0)
  else Cmult (nth (nfreq - 1) f (RtoC 0)) (RtoC (INR (ntot - m) / INR (ntot - nfreq))).

(** The inverse Fourier sum over positive and negative frequencies, for one time *)
Definition fourier_sum (F : nat -> C) (ntot : nat) (dfreq t : R) : R :=
  (dfreq * sR (fun i => 2 * fst (F (i + 1)%nat * cis (2 * PI * (INR (i + 1) * dfreq) * t))%C)%R ntot)%R.

(** What is computed: the contribution of the positive frequencies is moved by two
    frequency steps and lacks the first one. *)
Definition fft_sum (F : nat -> C) (ntot : nat) (dfreq t : R) : R :=
  (dfreq * (sR (fun i => fst (F (i + 1)%nat * cis (2 * PI * (INR (i + 1) * dfreq) * t))%C)%R ntot
          + sR (fun i => fst (F (i + 2)%nat * cis (2 * PI * (INR i * dfreq) * t))%C)%R (ntot - 1)))%R.

(** ** The spectrum *)
Lemma nth_map_seq : forall A (g : nat -> A) d n k, (k < n)%nat -> nth k (map g (seq 0 n)) d = g k.
Proof. intros A g d n k H. rewrite (nth_indep _ d (g 0%nat)) by (now rewrite map_length, seq_length). rewrite map_nth, seq_nth by exact H. reflexivity. Qed.

Lemma nth_tl : forall A (l : list A) k d, nth k (tl l) d = nth (S k) l d.
Proof. intros A [|x l] [|k] d; reflexivity. Qed.
Lemma length_tl : forall A (l : list A), List.length (tl l) = (List.length l - 1)%nat.
Proof. intros A [|x l]; cbn; lia. Qed.

Lemma spectrum_length : forall f, f <> [] -> List.length (fft_spectrum f) = (2 * List.length f)%nat.
Proof.
  intros f H. unfold fft_spectrum. rewrite !app_length, length_tl, map_length, rev_length. cbn [List.length].
  assert (0 < List.length f)%nat by (destruct f; [congruence|cbn; lia]). lia.
Qed.
Lemma spectrum_lo : forall f k, (k < List.length f - 1)%nat -> nth k (fft_spectrum f) (RtoC 0) = nth (k + 1) f (RtoC 0).
Proof.
  intros f k H. unfold fft_spectrum. rewrite app_nth1 by (rewrite length_tl; lia). rewrite nth_tl. f_equal. lia.
Qed.
Lemma spectrum_mid : forall f, f <> [] -> nth (List.length f - 1) (fft_spectrum f) (RtoC 0) = RtoC 0.
Proof.
  intros f H. unfold fft_spectrum. rewrite app_nth2 by (rewrite length_tl; lia). rewrite length_tl.
  replace (List.length f - 1 - (List.length f - 1))%nat with 0%nat by lia. reflexivity.
Qed.
Lemma spectrum_hi : forall f j, (j < List.length f)%nat ->
  nth (List.length f + j) (fft_spectrum f) (RtoC 0) = Cconj (nth (List.length f - 1 - j) f (RtoC 0)).
Proof.
  intros f j H. unfold fft_spectrum. rewrite app_nth2 by (rewrite length_tl; lia). rewrite length_tl.
  replace (List.length f + j - (List.length f - 1))%nat with (S j) by lia. cbn [app nth].
  rewrite (nth_indep _ (RtoC 0) (Cconj (RtoC 0))) by (rewrite map_length, rev_length; lia).
  rewrite map_nth, rev_nth by lia. f_equal. f_equal. lia.
Qed.

(** ** One sample *)
Lemma fft_sample : forall f N (x : R) (z : Z), N = List.length f -> f <> [] ->
  (2 * INR N * x = 2 * PI * IZR z)%R ->
  fst (sC (fun k => nth k (fft_spectrum f) (RtoC 0) * cis (INR k * x)) (2 * N)) =
  (sR (fun i => fst (nth i f (RtoC 0) * cis (INR (i + 1) * x))%C) N
   + sR (fun i => fst (nth (i + 1) f (RtoC 0) * cis (INR i * x))%C) (N - 1))%R.
Proof.
  intros f N x z HN Hf Hx. assert (PN : (0 < N)%nat) by (subst N; destruct f; [congruence|cbn; lia]).
  replace (2 * N)%nat with ((N - 1 + 1) + N)%nat by lia. rewrite sC_app.
  replace (N - 1 + 1)%nat with (S (N - 1)) by lia. rewrite sC_S.
  replace (nth (N - 1) (fft_spectrum f) (RtoC 0)) with (RtoC 0) by (subst N; symmetry; now apply spectrum_mid).
  replace (S (N - 1)) with N by lia.
  rewrite (sC_ext _ (fun i => nth (i + 1) f (RtoC 0) * cis (INR i * x)) (N - 1)) by
    (intros k Hk; rewrite spectrum_lo by (subst N; lia); reflexivity).
  rewrite (sC_ext (fun k => nth (N + k) (fft_spectrum f) (RtoC 0) * cis (INR (N + k) * x))
                  (fun k => (fun i => Cconj (nth i f (RtoC 0) * cis (INR (i + 1) * x))) (N - 1 - k)%nat) N).
  - pose proof (sC_rev (fun i => Cconj (nth i f (RtoC 0) * cis (INR (i + 1) * x))) N) as RV. cbv beta in RV. rewrite RV. rewrite <- (conj_sC (fun i => nth i f (RtoC 0) * cis (INR (i + 1) * x))).
    
    assert (G : forall u v w : C, fst (u + RtoC 0 * v + Cconj w) = (fst w + fst u)%R) by (intros [u1 u2] [v1 v2] [w1 w2]; unfold Cplus, Cmult, RtoC, Cconj; cbn [fst snd]; match goal with |- ?a = ?b => change (@eq R a b) end; ring).
    rewrite G, !fst_sC. reflexivity.
  - intros k Hk. subst N. rewrite spectrum_hi by exact Hk.
    assert (A : cis (INR (List.length f + k) * x) = Cconj (cis (INR (List.length f - 1 - k + 1) * x))).
    { rewrite <- cis_neg. rewrite <- (cis_per (- (INR (List.length f - 1 - k + 1) * x)) z), <- Hx. f_equal.
      replace (List.length f - 1 - k + 1)%nat with (List.length f - k)%nat by lia. rewrite plus_INR, minus_INR by lia. ring. }
    rewrite A. apply injective_projections; cbn [fst snd Cconj Cmult]; ring.
Qed.

(** ** The array before the interpolation in time *)
Lemma nth_skipn_R : forall A (l : list A) n k d, nth k (skipn n l) d = nth (n + k) l d.
Proof. intros A l. induction l as [|x l IH]; intros [|n] k d; cbn; auto; destruct k; auto. Qed.
Lemma nth_firstn_lt : forall A (l : list A) n k d, (k < n)%nat -> nth k (firstn n l) d = nth k l d.
Proof. intros A l. induction l as [|x l IH]; intros [|n] [|k] d H; cbn; auto; try lia. apply IH. lia. Qed.

Definition fft_array (f : list C) (dfreq : R) : list R :=
  map (fun x => 2 * INR (List.length f) * x)%R (fftshift (map (fun x => x * dfreq)%R (map fst (ifft (fft_spectrum f))))).

Lemma ifft_length : forall x, List.length (ifft x) = List.length x.
Proof. intros. unfold ifft. now rewrite map_length, seq_length. Qed.
Lemma fftshift_length : forall A (x : list A), List.length (fftshift x) = List.length x.
Proof. intros. unfold fftshift. rewrite app_length, skipn_length, firstn_length. lia. Qed.
Lemma fft_array_length : forall f dfreq, f <> [] -> List.length (fft_array f dfreq) = (2 * List.length f)%nat.
Proof. intros f dfreq H. unfold fft_array. now rewrite map_length, fftshift_length, !map_length, ifft_length, spectrum_length. Qed.

Lemma fft_array_nth : forall f dfreq n, f <> [] -> (n < 2 * List.length f)%nat ->
  nth n (fft_array f dfreq) 0%R =
  fft_sum (fun m => nth (m - 1) f (RtoC 0)) (List.length f) dfreq
     ((INR n - INR (List.length f)) * (1 / (2 * INR (List.length f) * dfreq)))%R \/ dfreq = 0%R.
Proof.
  intros f dfreq n Hf Hn. destruct (Req_dec dfreq 0) as [Z|NZ]; [now right|left].
  set (N := List.length f) in *.
  assert (PN : (0 < N)%nat) by (unfold N; destruct f; [congruence|cbn; lia]).
  assert (RN : (0 < INR N)%R) by (now apply lt_0_INR).
  pose proof (spectrum_length f Hf) as LS. fold N in LS.
  assert (H1 : forall j, (j < 2 * N)%nat -> nth j (map fst (ifft (fft_spectrum f))) 0%R =
     (fst (sC (fun k => nth k (fft_spectrum f) (RtoC 0) * cis (INR k * (2 * PI * INR j / INR (2 * N))))%C (2 * N)) / INR (2 * N))%R).
  { intros j Hj. change 0%R with (fst (RtoC 0)) at 1. rewrite map_nth. unfold ifft. rewrite LS.
    rewrite nth_map_seq by exact Hj. unfold sC.
    match goal with |- fst (?a / RtoC ?b) = _ => transitivity (fst a / b)%R end.
    - unfold Cdiv. rewrite <- RtoC_inv by (rewrite mult_INR; cbn [INR]; lra). cbn [Cmult fst snd RtoC]. unfold Rdiv. rgR.
    - f_equal. f_equal. f_equal. apply map_ext. intros k. f_equal. f_equal. rewrite mult_INR. unfold Rdiv. ring. }
  unfold fft_array. fold N.
  rewrite (nth_indep _ 0%R (2 * INR N * 0)%R) by (rewrite map_length, fftshift_length, !map_length, ifft_length; lia).
  rewrite (map_nth (fun x => 2 * INR N * x)%R). unfold fftshift. rewrite !map_length, ifft_length, LS.
  replace (2 * N - 2 * N / 2)%nat with N by (rewrite Nat.mul_comm, Nat.div_mul by lia; lia).
  set (a := map (fun x => x * dfreq)%R (map fst (ifft (fft_spectrum f)))).
  assert (La : List.length a = (2 * N)%nat) by (unfold a; now rewrite !map_length, ifft_length).
  assert (Ha : forall j, (j < 2 * N)%nat -> nth j a 0%R = (nth j (map fst (ifft (fft_spectrum f))) 0 * dfreq)%R).
  { intros j Hj. unfold a. rewrite (nth_indep _ 0%R (0 * dfreq)%R) by (rewrite !map_length, ifft_length; lia).
    now rewrite (map_nth (fun x => x * dfreq)%R). }
  set (j := if (n <? N)%nat then (n + N)%nat else (n - N)%nat).
  assert (Hj : (j < 2 * N)%nat) by (unfold j; destruct (Nat.ltb_spec n N); lia).
  assert (E1 : nth n (skipn N a ++ firstn N a) 0%R = nth j a 0%R).
  { unfold j. destruct (Nat.ltb_spec n N).
    - rewrite app_nth1 by (rewrite skipn_length; lia). rewrite nth_skipn_R. f_equal. lia.
    - rewrite app_nth2 by (rewrite skipn_length; lia). rewrite skipn_length, La.
      rewrite nth_firstn_lt by lia. f_equal. lia. }
  rewrite E1, Ha, H1 by exact Hj.
  rewrite (fft_sample f N (2 * PI * INR j / INR (2 * N)) (Z.of_nat j)); [|reflexivity|exact Hf|].
  2: { rewrite <- INR_IZR_INZ, mult_INR. cbn [INR]. field. lra. }
  (* phases *)
  set (t := ((INR n - INR N) * (1 / (2 * INR N * dfreq)))%R).
  assert (PH : forall k, cis (INR k * (2 * PI * INR j / INR (2 * N))) = cis (2 * PI * (INR k * dfreq) * t)).
  { intros k. unfold j, t. rewrite mult_INR. change (INR 2) with 2%R.
    destruct (Nat.ltb_spec n N).
    - rewrite <- (cis_per (2 * PI * (INR k * dfreq) * _) (Z.of_nat k)), <- INR_IZR_INZ, plus_INR. f_equal. field. split; lra.
    - rewrite minus_INR by lia. f_equal. field. split; lra. }
  unfold fft_sum. rewrite mult_INR. change (INR 2) with 2%R.
  rewrite (sR_ext (fun i => fst (nth i f (RtoC 0) * cis (INR (i + 1) * (2 * PI * INR j / (2 * INR N)))))
                  (fun i => fst (nth (i + 1 - 1) f (RtoC 0) * cis (2 * PI * (INR (i + 1) * dfreq) * t))) N).
  2: { intros i _. replace (i + 1 - 1)%nat with i by lia. pose proof (PH (i + 1)%nat) as P. rewrite mult_INR in P. change (INR 2) with 2%R in P. now rewrite P. }
  rewrite (sR_ext (fun i => fst (nth (i + 1) f (RtoC 0) * cis (INR i * (2 * PI * INR j / (2 * INR N)))))
                  (fun i => fst (nth (i + 2 - 1) f (RtoC 0) * cis (2 * PI * (INR i * dfreq) * t))) (N - 1)).
  2: { intros i _. replace (i + 2 - 1)%nat with (i + 1)%nat by lia. pose proof (PH i) as P. rewrite mult_INR in P. change (INR 2) with 2%R in P. now rewrite P. }
  field. lra.
Qed.

(** ** The padded values *)
Lemma last_nth : forall A (l : list A) d, last l d = nth (List.length l - 1) l d.
Proof.
  intros A l d. induction l as [|x l IH]; [reflexivity|]. destruct l as [|y l]; [reflexivity|].
  change (last (x :: y :: l) d) with (last (y :: l) d). rewrite IH. cbn [List.length]. 
  replace (S (S (List.length l)) - 1)%nat with (S (S (List.length l) - 1)) by lia. reflexivity.
Qed.
Lemma pad_ramp_ok : forall f nfreq ntot, List.length f = nfreq -> (1 <= nfreq <= ntot)%nat ->
  exists g, pad_ramp f (Z.of_nat ntot - Z.of_nat nfreq) = Ok g /\ List.length g = ntot /\
    forall m, (1 <= m <= ntot)%nat -> nth (m - 1) g (RtoC 0) = ramp f nfreq ntot m.
Proof.
  intros f nfreq ntot Lf B. unfold pad_ramp. rewrite <- Nat2Z.inj_sub by lia.
  destruct (Z.ltb_spec (Z.of_nat (ntot - nfreq)) 0) as [W|_]; [lia|].
  destruct (Z.eqb_spec (Z.of_nat (ntot - nfreq)) 0) as [E|E].
  - exists f. split; [reflexivity|]. split; [lia|]. intros m Hm. unfold ramp. destruct (Nat.leb_spec m nfreq); [reflexivity|lia].
  - destruct f as [|x f]; [cbn in Lf; lia|]. eexists. split; [reflexivity|]. set (l := x :: f) in *. clearbody l. split.
    + rewrite app_length, map_length, seq_length, Nat2Z.id. lia.
    + intros m Hm. unfold ramp. destruct (Nat.leb_spec m nfreq) as [L|L].
      * rewrite app_nth1 by lia. reflexivity.
      * rewrite app_nth2 by lia. rewrite Nat2Z.id, nth_map_seq by lia. rewrite last_nth, Lf. f_equal. f_equal.
        rewrite !INR_IZR_INZ. f_equal. f_equal. lia.
Qed.

(** ** The whole transform *)
Definition fft_grid (ntot : nat) (dfreq : R) : list R :=
  map (fun n => (INR n - INR ntot) * (1 / (2 * INR ntot * dfreq)))%R (seq 0 (2 * ntot)).
(** the values at the multiples of the frequency step *)
Definition fft_input (spl : interp) (dfreq : R) (nfreq : nat) (ppd : option Z) (fEM : list C) (freq : list R) : list C :=
  match ppd with
  | Some p => if (p =? 0)%Z then fEM else cspl spl fEM freq (map (fun k => INR (k + 1) * dfreq)%R (seq 0 nfreq))
  | None => fEM
  end.

Lemma fft_sum_ext : forall F G N d t, (forall m, (1 <= m <= N)%nat -> F m = G m) -> fft_sum F N d t = fft_sum G N d t.
Proof.
  intros F G N d t H. unfold fft_sum. f_equal. f_equal; apply sR_ext; intros k Hk; rewrite H by lia; reflexivity.
Qed.

Theorem fft_value : forall spl lspl dfreq nfreq ntot ppd fEM time freq,
  (1 <= nfreq <= ntot)%nat -> dfreq <> 0%R ->
  List.length (fft_input spl dfreq nfreq ppd fEM freq) = nfreq ->
  fourier_fft spl lspl dfreq (Z.of_nat nfreq) (Z.of_nat ntot) ppd fEM time freq =
  Ok (map (fun v => v / 2 * PI)%R
        (lspl (map (fft_sum (ramp (fft_input spl dfreq nfreq ppd fEM freq) nfreq ntot) ntot dfreq) (fft_grid ntot dfreq))
              (fft_grid ntot dfreq) time), true).
Proof.
  intros spl lspl dfreq nfreq ntot ppd fEM time freq B ND LF. unfold fourier_fft.
  assert (EI : (match ppd with
            | Some p => if (p =? 0)%Z then fEM
                        else cspl spl fEM freq (map (fun k => IZR (Z.of_nat k + 1) * dfreq)%R (seq 0 (Z.to_nat (Z.of_nat nfreq))))
            | None => fEM end) = fft_input spl dfreq nfreq ppd fEM freq).
  { unfold fft_input. destruct ppd as [p|]; [|reflexivity]. destruct (p =? 0)%Z; [reflexivity|]. f_equal. rewrite Nat2Z.id.
    apply map_ext. intros k. f_equal. rewrite INR_IZR_INZ. f_equal. lia. }
  rewrite EI. set (f := fft_input spl dfreq nfreq ppd fEM freq) in *. clearbody f. clear EI.
  destruct (pad_ramp_ok f nfreq ntot LF B) as (g & Eg & Lg & Hg). rewrite Eg. cbn [bind].
  assert (PN : (0 < INR ntot)%R) by (apply lt_0_INR; lia).
  assert (Gn : g <> []) by (intros W; rewrite W in Lg; cbn in Lg; lia).
  rewrite <- INR_IZR_INZ.
  destruct (Reqb (INR ntot * dfreq) 0) eqn:EQ.
  { unfold Reqb in EQ. destruct (Req_EM_T (INR ntot * dfreq) 0) as [W|_]; [|discriminate]. apply Rmult_integral in W. destruct W; [lra|contradiction]. }
  assert (EG : map (fun k => (IZR (Z.of_nat k) - INR ntot) * (1 / (2 * INR ntot * dfreq)))%R (seq 0 (Z.to_nat (2 * Z.of_nat ntot))) = fft_grid ntot dfreq).
  { unfold fft_grid. replace (Z.to_nat (2 * Z.of_nat ntot)) with (2 * ntot)%nat by lia. apply map_ext. intros k. now rewrite <- INR_IZR_INZ. }
  rewrite EG.
  assert (EA : map (fun x => 2 * INR ntot * x)%R (fftshift (map (fun x => x * dfreq)%R (map fst (ifft (fft_spectrum g))))) =
               map (fft_sum (ramp f nfreq ntot) ntot dfreq) (fft_grid ntot dfreq)).
  { pose proof (fft_array_length g dfreq Gn) as LA. unfold fft_array in LA. rewrite Lg in LA.
    apply (nth_ext _ _ 0%R 0%R).
    - rewrite LA, map_length. unfold fft_grid. now rewrite map_length, seq_length.
    - rewrite LA. intros n Hn. destruct (fft_array_nth g dfreq n Gn ltac:(lia)) as [E|E]; [|contradiction].
      unfold fft_array in E. rewrite Lg in E. rewrite E.
      rewrite (nth_indep _ 0%R (fft_sum (ramp f nfreq ntot) ntot dfreq 0)) by (rewrite map_length; unfold fft_grid; rewrite map_length, seq_length; lia).
      rewrite map_nth. unfold fft_grid. rewrite nth_map_seq by lia. apply fft_sum_ext. intros m Hm. apply Hg. exact Hm. }
  rewrite EA, map_length, Nat.eqb_refl. reflexivity.
Qed.

(** ** Difference from the inverse Fourier sum *)
Lemma cis_shift : forall a w, Cmod (cis a - cis (a + 2 * w)) = (2 * Rabs (sin w))%R.
Proof.
  intros a w. assert (E : cis a - cis (a + 2 * w) = cis (a + w) * (0, - (2 * sin w))%R).
  { replace (cis a) with (cis (a + w) * cis (- w)) by (rewrite <- cis_plus; f_equal; ring).
    replace (cis (a + 2 * w)) with (cis (a + w) * cis w) by (rewrite <- cis_plus; f_equal; ring).
    replace (cis (a + w) * cis (- w) - cis (a + w) * cis w) with (cis (a + w) * (cis (- w) - cis w)) by ring.
    f_equal. rewrite cis_neg. apply injective_projections; cbn [fst snd cis Cconj Cminus Cplus Copp]; rgR. }
  rewrite E, Cmod_mult.
  assert (M : Cmod (cis (a + w)) = 1%R).
  { unfold Cmod, cis. cbn [fst snd]. rewrite <- !Rsqr_pow2, Rplus_comm, sin2_cos2. apply sqrt_1. }
  rewrite M. unfold Cmod. cbn [fst snd]. replace (0 ^ 2 + (- (2 * sin w)) ^ 2)%R with (Rsqr (2 * sin w)) by (unfold Rsqr; ring).
  rewrite sqrt_Rsqr_abs, Rabs_mult, (Rabs_pos_eq 2) by lra. ring.
Qed.

Lemma Cmod_cis : forall x, Cmod (cis x) = 1%R.
Proof. intros x. unfold Cmod, cis. cbn [fst snd]. rewrite <- !Rsqr_pow2, Rplus_comm, sin2_cos2. apply sqrt_1. Qed.
Lemma fst_abs : forall z : C, (Rabs (fst z) <= Cmod z)%R.
Proof.
  intros z. unfold Cmod. rewrite <- sqrt_Rsqr_abs. apply sqrt_le_1_alt. unfold Rsqr.
  pose proof (pow2_ge_0 (snd z)). cbn [pow] in *. lra.
Qed.

Theorem fft_error : forall F N dfreq t, (1 <= N)%nat -> (0 <= dfreq)%R ->
  (Rabs (fft_sum F N dfreq t - fourier_sum F N dfreq t) <=
   dfreq * (Cmod (F 1%nat) + 2 * Rabs (sin (2 * PI * dfreq * t)) * sR (fun i => Cmod (F (i + 2)%nat)) (N - 1)))%R.
Proof.
  intros F N dfreq t HN HD. unfold fft_sum, fourier_sum.
  set (A := fun i : nat => fst (F (i + 1)%nat * cis (2 * PI * (INR (i + 1) * dfreq) * t))%C).
  set (B := fun i : nat => fst (F (i + 2)%nat * cis (2 * PI * (INR i * dfreq) * t))%C).
  change (fun i : nat => (2 * fst (F (i + 1)%nat * cis (2 * PI * (INR (i + 1) * dfreq) * t))%C)%R) with (fun i => 2 * A i)%R.
  rewrite sR_scal. rewrite <- Rmult_minus_distr_l, Rabs_mult, (Rabs_pos_eq dfreq HD). apply Rmult_le_compat_l; [exact HD|].
  replace (sR A N + sR B (N - 1) - 2 * sR A N)%R with (sR B (N - 1) - sR A N)%R by ring.
  replace N with (S (N - 1)) at 2 by lia. rewrite sR_head.
  replace (sR B (N - 1) - (A 0%nat + sR (fun k => A (S k)) (N - 1)))%R with
    (- A 0%nat + sR (fun k => B k + -1 * A (S k)) (N - 1))%R by (rewrite sR_plus, sR_scal; ring).
  eapply Rle_trans; [apply Rabs_triang|]. apply Rplus_le_compat.
  - rewrite Rabs_Ropp. unfold A. eapply Rle_trans; [apply fst_abs|]. rewrite Cmod_mult, Cmod_cis. cbn [Nat.add]. lra.
  - eapply Rle_trans; [apply sR_abs|]. rewrite <- sR_scal. apply sR_le. intros k _. unfold A, B.
    replace (S k + 1)%nat with (k + 2)%nat by lia.
    assert (E : (fst (F (k + 2)%nat * cis (2 * PI * (INR k * dfreq) * t))%C + -1 * fst (F (k + 2)%nat * cis (2 * PI * (INR (k + 2) * dfreq) * t))%C)%R =
                fst (F (k + 2)%nat * (cis (2 * PI * (INR k * dfreq) * t) - cis (2 * PI * (INR k * dfreq) * t + 2 * (2 * PI * dfreq * t))))%C).
    { replace (2 * PI * (INR k * dfreq) * t + 2 * (2 * PI * dfreq * t))%R with (2 * PI * (INR (k + 2) * dfreq) * t)%R
        by (rewrite plus_INR; cbn [INR]; ring).
      generalize (F (k + 2)%nat) (cis (2 * PI * (INR k * dfreq) * t)) (cis (2 * PI * (INR (k + 2) * dfreq) * t)).
      intros [u1 u2] [v1 v2] [w1 w2]. unfold Cminus, Cplus, Copp, Cmult. cbn [fst snd]. rgR. }
    rewrite E. eapply Rle_trans; [apply fst_abs|]. rewrite Cmod_mult, cis_shift. apply Req_le. ring.
Qed.

(** ** Linear *)
Lemma ramp_lin : forall a b u v nfreq ntot m, List.length u = nfreq -> List.length v = nfreq -> (1 <= nfreq)%nat -> (1 <= m <= ntot)%nat ->
  ramp (lcC a b u v) nfreq ntot m = RtoC a * ramp u nfreq ntot m + RtoC b * ramp v nfreq ntot m.
Proof.
  intros a b u v nfreq ntot m Lu Lv H1 Hm. unfold ramp, lcC. destruct (Nat.leb_spec m nfreq).
  - rewrite (map2_nth _ _ _ _ _ _ (m - 1) (RtoC 0) (RtoC 0) (RtoC 0)) by lia. reflexivity.
  - rewrite (map2_nth _ _ _ _ _ _ (nfreq - 1) (RtoC 0) (RtoC 0) (RtoC 0)) by lia. ring.
Qed.
Lemma fft_sum_lin : forall a b F G N d t,
  fft_sum (fun m => RtoC a * F m + RtoC b * G m) N d t = (a * fft_sum F N d t + b * fft_sum G N d t)%R.
Proof.
  intros a b F G N d t. unfold fft_sum.
  assert (E : forall (u v w : C), fst ((RtoC a * u + RtoC b * v) * w)%C = (a * fst (u * w)%C + b * fst (v * w)%C)%R).
  { intros [u1 u2] [v1 v2] [w1 w2]. unfold Cplus, Cmult, RtoC. cbn [fst snd]. rgR. }
  rewrite (sR_ext _ (fun i => a * fst (F (i + 1)%nat * cis (2 * PI * (INR (i + 1) * d) * t))%C
                            + b * fst (G (i + 1)%nat * cis (2 * PI * (INR (i + 1) * d) * t))%C)%R N) by (intros; apply E).
  rewrite (sR_ext _ (fun i => a * fst (F (i + 2)%nat * cis (2 * PI * (INR i * d) * t))%C
                            + b * fst (G (i + 2)%nat * cis (2 * PI * (INR i * d) * t))%C)%R (N - 1)) by (intros; apply E).
  rewrite !sR_plus, !sR_scal. ring.
Qed.

Theorem fft_linear : forall spl lspl dfreq nfreq ntot time freq, linear_interp lspl ->
  (1 <= nfreq <= ntot)%nat -> dfreq <> 0%R ->
  exists T, linear_ft (fun v => fourier_fft spl lspl dfreq (Z.of_nat nfreq) (Z.of_nat ntot) None v time freq) T nfreq (List.length time).
Proof.
  intros spl lspl dfreq nfreq ntot time freq HS B ND.
  set (T0 := fun v => map (fft_sum (ramp v nfreq ntot) ntot dfreq) (fft_grid ntot dfreq)).
  exists (fun v => map (fun x => x / 2 * PI)%R (lspl (T0 v) (fft_grid ntot dfreq) time)).
  assert (LT : forall v, List.length (T0 v) = List.length (fft_grid ntot dfreq)) by (intros; apply map_length).
  split.
  - intros v Hv. rewrite (fft_value spl lspl dfreq nfreq ntot None v time freq B ND Hv). reflexivity.
  - intros v Hv. rewrite map_length. destruct HS as [HL _]. apply HL, LT.
  - intros a b u v Hu Hv.
    assert (E : T0 (lcC a b u v) = lcR a b (T0 u) (T0 v)).
    { unfold T0. apply map_lin. intros t _. rewrite <- fft_sum_lin. apply fft_sum_ext. intros m Hm. apply ramp_lin; auto; lia. }
    rewrite E, (spl_lin lspl HS) by apply LT. destruct HS as [HL _].
    pose proof (HL _ _ time (LT u)) as L1. pose proof (HL _ _ time (LT v)) as L2.
    apply (nth_ext _ _ 0%R 0%R).
    + unfold lcR. rewrite map_length, !map2_length, !map_length. lia.
    + intros k Hk. unfold lcR in *. rewrite map_length, map2_length in Hk.
      rewrite (nth_indep _ 0%R ((fun x => x / 2 * PI)%R 0%R)) by (rewrite map_length, map2_length; lia).
      rewrite (map_nth (fun x => x / 2 * PI)%R).
      rewrite !(map2_nth _ _ _ _ _ _ k 0%R 0%R 0%R) by (rewrite ?map_length; lia).
      rewrite (nth_indep (map _ (lspl (T0 u) _ _)) 0%R ((fun x => x / 2 * PI)%R 0%R)) by (rewrite map_length; lia).
      rewrite (nth_indep (map _ (lspl (T0 v) _ _)) 0%R ((fun x => x / 2 * PI)%R 0%R)) by (rewrite map_length; lia).
      rewrite !(map_nth (fun x => x / 2 * PI)%R). unfold Rdiv. ring.
Qed.
