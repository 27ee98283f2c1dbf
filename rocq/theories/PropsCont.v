(** Property C86: responses depend continuously on the model and the survey. *)

From Coq Require Import Reals ZArith List Bool Lia Lra.
From Coquelicot Require Import Coquelicot.
From Verif Require Import PyBase CBase ODE Kernel KernelSpec KernelClosed KernelMain KernelBVP KernelThm Utils Transform TransformDlf Model ModelFem Routines KernelCont KernelCont2 KernelCont3 KernelCont4 KernelCont5 ModelTem PropsKernel PropsTransform.
Import ListNotations.
Local Open Scope R_scope.
Local Open Scope C_scope.
Local Open Scope res_scope.

(** [toR F f l] and [toC F f l]: f tends to l along the filter F, for real and complex values; for complex values: *)
Theorem C86_limit : forall T (F : (T -> Prop) -> Prop), Filter F -> forall (f : T -> C) l, toC F f l <-> (forall e : R, (0 < e)%R -> F (fun t => (Cmod (Cminus (f t) l) < e)%R)).
Proof. exact (@toC_eps). Qed.

(** ** C86 *)
(** The two values of greenfct, for families of models, wavenumbers and depths indexed by any set T with any filter
    (sequences, real parameters, ...). *)
Theorem C86_kernel : forall T (F : (T -> Prop) -> Prop), Filter F -> forall (eH eV zH zV : T -> nat -> C) (z : T -> nat -> R) (lam zs zr : T -> R) (eH0 eV0 zH0 zV0 : nat -> C) (z0 : nat -> R) (lam0 zs0 zr0 : R) N,
  (forall k, (k <= N)%nat -> toC F (fun t => eH t k) (eH0 k)) -> (forall k, (k <= N)%nat -> toC F (fun t => eV t k) (eV0 k)) ->
  (forall k, (k <= N)%nat -> toC F (fun t => zH t k) (zH0 k)) -> (forall k, (k <= N)%nat -> toC F (fun t => zV t k) (zV0 k)) ->
  (forall k, (1 <= k <= N)%nat -> toR F (fun t => z t k) (z0 k)) -> toR F lam lam0 -> toR F zs zs0 -> toR F zr zr0 ->
  passive_medium eH0 eV0 zH0 zV0 z0 N -> F (fun t => passive_medium (eH t) (eV t) (zH t) (zV t) (z t) N) ->
  forall ab (xd : bool) msrc mrec, valid_call ab msrc mrec -> (forall k, (1 <= k <= N)%nat -> z0 k <> zs0 /\ z0 k <> zr0) -> (xd = false -> zs0 <> zr0) ->
  exists p q, gcall eH0 eV0 zH0 zV0 z0 N lam0 ab xd msrc mrec (lay z0 N zs0) (lay z0 N zr0) zs0 zr0 = Ok (p, q) /\
  forall e : R, (0 < e)%R -> F (fun t => exists p' q', gcall (eH t) (eV t) (zH t) (zV t) (z t) N (lam t) ab xd msrc mrec (lay (z t) N (zs t)) (lay (z t) N (zr t)) (zs t) (zr t) = Ok (p', q') /\ (Cmod (Cminus p' p) < e)%R /\ (Cmod (Cminus q' q) < e)%R).
Proof. exact (@green_continuous). Qed.
(** Source and receiver may be at interfaces (of the limit, too) as long as the layers they are assigned to stay the same. *)
Theorem C86_interface : forall T (F : (T -> Prop) -> Prop), Filter F -> forall (eH eV zH zV : T -> nat -> C) (z : T -> nat -> R) (lam zs zr : T -> R) (eH0 eV0 zH0 zV0 : nat -> C) (z0 : nat -> R) (lam0 zs0 zr0 : R) N,
  (forall k, (k <= N)%nat -> toC F (fun t => eH t k) (eH0 k)) -> (forall k, (k <= N)%nat -> toC F (fun t => eV t k) (eV0 k)) ->
  (forall k, (k <= N)%nat -> toC F (fun t => zH t k) (zH0 k)) -> (forall k, (k <= N)%nat -> toC F (fun t => zV t k) (zV0 k)) ->
  (forall k, (1 <= k <= N)%nat -> toR F (fun t => z t k) (z0 k)) -> toR F lam lam0 -> toR F zs zs0 -> toR F zr zr0 ->
  passive_medium eH0 eV0 zH0 zV0 z0 N -> F (fun t => passive_medium (eH t) (eV t) (zH t) (zV t) (z t) N) ->
  forall ab (xd : bool) msrc mrec s r, valid_call ab msrc mrec -> (s <= N)%nat -> (r <= N)%nat -> (xd = false -> zs0 <> zr0) ->
  exists p q, gcall eH0 eV0 zH0 zV0 z0 N lam0 ab xd msrc mrec s r zs0 zr0 = Ok (p, q) /\
  forall e : R, (0 < e)%R -> F (fun t => exists p' q', gcall (eH t) (eV t) (zH t) (zV t) (z t) N (lam t) ab xd msrc mrec s r (zs t) (zr t) = Ok (p', q') /\ (Cmod (Cminus p' p) < e)%R /\ (Cmod (Cminus q' q) < e)%R).
Proof. exact (@green_fixed). Qed.
(** The Hankel transform with the digital linear filter, as a function of everything the user gives: resistivities,
    anisotropies, permittivities, permeabilities, depths, frequency (or Laplace parameter), depths of source and receiver,
    offset and angle factor. *)
Theorem C86_model : forall T (F : (T -> Prop) -> Prop), Filter F -> forall (x : T -> earth) x0 N m (f zs zr off ang : T -> R) (f0 zs0 zr0 off0 ang0 : R),
  conv_earth F N x x0 -> sane N x0 -> F (fun t => sane N (x t)) -> (0 < min_freq m)%R -> f0 <> 0%R -> (0 < off0)%R ->
  toR F f f0 -> toR F zs zs0 -> toR F zr zr0 -> toR F off off0 -> toR F ang ang0 ->
  forall spl filt ab (xd : bool) msrc mrec, well_formed filt -> valid_call ab msrc mrec -> (forall k, (1 <= k <= N)%nat -> x_dep x0 k <> zs0 /\ x_dep x0 k <> zr0) -> (xd = false -> zs0 <> zr0) ->
  exists v, dlf_calc spl filt 0 zs0 zr0 (Z.of_nat (lay (x_dep x0) N zs0)) (Z.of_nat (lay (x_dep x0) N zr0)) (depth_arr (x_dep x0) N) ab msrc mrec (rows m N f0 x0) [off0] [ang0] xd = Ok ([[v]], 1%Z, true) /\
  forall e : R, (0 < e)%R -> F (fun t => exists v', dlf_calc spl filt 0 (zs t) (zr t) (Z.of_nat (lay (x_dep (x t)) N (zs t))) (Z.of_nat (lay (x_dep (x t)) N (zr t))) (depth_arr (x_dep (x t)) N) ab msrc mrec (rows m N (f t) (x t)) [off t] [ang t] xd = Ok ([[v']], 1%Z, true) /\ (Cmod (Cminus v' v) < e)%R).
Proof. exact (@dlf_model_continuous). Qed.
(** The same for a whole survey: nf frequencies and no offsets at once; [vec g n] is the list g 0, ..., g (n-1). *)
Theorem C86_survey : forall T (F : (T -> Prop) -> Prop), Filter F -> forall (x : T -> earth) x0 N m (zs zr : T -> R) (zs0 zr0 : R) (fr off ang : T -> nat -> R) (fr0 off0 ang0 : nat -> R) nf no,
  conv_earth F N x x0 -> sane N x0 -> F (fun t => sane N (x t)) -> (0 < min_freq m)%R -> toR F zs zs0 -> toR F zr zr0 ->
  (forall k, (k < nf)%nat -> (0 < fr0 k)%R /\ toR F (fun t => fr t k) (fr0 k)) -> (forall k, (k < no)%nat -> (0 < off0 k)%R /\ toR F (fun t => off t k) (off0 k)) -> (forall k, (k < no)%nat -> toR F (fun t => ang t k) (ang0 k)) ->
  (0 < nf)%nat -> (0 < no)%nat ->
  forall spl filt ab (xd msrc mrec : bool), well_formed filt -> valid_call ab msrc mrec -> (forall k, (1 <= k <= N)%nat -> x_dep x0 k <> zs0 /\ x_dep x0 k <> zr0) -> (xd = false -> zs0 <> zr0) ->
  let run (y : earth) (a b : R) (fs os ans : list R) := dlf_calc spl filt 0 a b (Z.of_nat (lay (x_dep y) N a)) (Z.of_nat (lay (x_dep y) N b)) (depth_arr (x_dep y) N) ab msrc mrec (rowsL m N fs y) os ans xd in
  exists v, run x0 zs0 zr0 (vec fr0 nf) (vec off0 no) (vec ang0 no) = Ok (v, 1%Z, true) /\
  forall e : R, (0 < e)%R -> F (fun t => exists v', run (x t) (zs t) (zr t) (vec (fr t) nf) (vec (off t) no) (vec (ang t) no) = Ok (v', 1%Z, true) /\
    forall i j, (i < nf)%nat -> (j < no)%nat -> (Cmod (Cminus (nth j (nth i v' []) (RtoC 0)) (nth j (nth i v []) (RtoC 0))) < e)%R).
Proof. exact (@survey_continuous). Qed.
(** In the time domain, for every linear Fourier transform (the digital linear filters, the FFT and FFTLog are linear by
    C20_dlf_standard, C20_dlf_lagged, C20_dlf_splined, C20_fft, C20_fftlog) and every signal, at fixed frequencies. *)
Theorem C86_time : forall T (F : (T -> Prop) -> Prop), Filter F -> forall (x : T -> earth) x0 N m (zs zr : T -> R) (zs0 zr0 : R) (fr : nat -> R) (off ang : T -> nat -> R) (off0 ang0 : nat -> R) nf no,
  conv_earth F N x x0 -> sane N x0 -> F (fun t => sane N (x t)) -> (0 < min_freq m)%R -> toR F zs zs0 -> toR F zr zr0 ->
  (forall k, (k < nf)%nat -> (0 < fr k)%R) -> (forall k, (k < no)%nat -> (0 < off0 k)%R /\ toR F (fun t => off t k) (off0 k)) -> (forall k, (k < no)%nat -> toR F (fun t => ang t k) (ang0 k)) ->
  (0 < nf)%nat -> (0 < no)%nat ->
  forall spl filt ab (xd msrc mrec : bool), well_formed filt -> valid_call ab msrc mrec -> (forall k, (1 <= k <= N)%nat -> x_dep x0 k <> zs0 /\ x_dep x0 k <> zr0) -> (xd = false -> zs0 <> zr0) ->
  forall calc L nt signal, linear_ft calc L nf nt ->
  let run (y : earth) (a b : R) (os ans : list R) :=
    ('(fEM, _, cv) <- dlf_calc spl filt 0 a b (Z.of_nat (lay (x_dep y) N a)) (Z.of_nat (lay (x_dep y) N b)) (depth_arr (x_dep y) N) ab msrc mrec (rowsL m N (vec fr nf) y) os ans xd ;;
     tem calc nt no fEM (vec fr nf) signal None cv) in
  exists v, run x0 zs0 zr0 (vec off0 no) (vec ang0 no) = Ok (v, true) /\
  forall e : R, (0 < e)%R -> F (fun t => exists v', run (x t) (zs t) (zr t) (vec (off t) no) (vec (ang t) no) = Ok (v', true) /\
    forall i j, (i < nt)%nat -> (j < no)%nat -> (Rabs (nth j (nth i v' []) 0 - nth j (nth i v []) 0) < e)%R).
Proof.
  intros T F FF x x0 N m zs zr zs0 zr0 fr off ang off0 ang0 nf no CE S0 S1 Hm Is Ir If Io Ia Hf Ho spl filt ab xd msrc mrec HF HV D X calc L nt signal HL.
  exact (@time_continuous T F FF x x0 N m zs zr zs0 zr0 (fun _ => fr) off ang fr off0 ang0 nf no CE S0 S1 Hm Is Ir (fun k Hk => conj (If k Hk) (toR_const F (fr k))) Io Ia Hf Ho spl filt ab xd msrc mrec HF HV D X (fun _ => eq_refl) calc L nt signal HL).
Qed.
(** The frequency zero is different: it counts as Laplace parameter, so zeta jumps from imaginary to real values. *)
Theorem C86_zero : forall m N x, (0 < min_freq m)%R -> (0 < x_muH x 0)%R ->
  (forall f, (0 < f <= min_freq m)%R -> rows m N f x = rows m N (min_freq m) x) /\
  exists w w0 z z0, rows m N (min_freq m) x = [w] /\ rows m N 0 x = [w0] /\ nth_error (r_zH w) 0 = Some z /\ nth_error (r_zH w0) 0 = Some z0 /\ fst z = 0%R /\ snd z0 = 0%R /\ (0 < fst z0)%R.
Proof.
  intros m N x Hm Hx. split.
  - intros f Hf. rewrite !rows_arr. unfold aH, aV, bH, bV. assert (E : sv m f = sv m (min_freq m)); [|now rewrite E].
    unfold sv. assert (A : Rltb 0 f = true) by (apply Rltb_true; lra). assert (B : Rltb 0 (min_freq m) = true) by (apply Rltb_true; lra). rewrite A, B. cbn [negb].
    f_equal. unfold Rltb. destruct (Rlt_dec f (min_freq m)), (Rlt_dec (min_freq m) (min_freq m)); lra.
  - eexists. eexists. eexists. eexists. split; [apply rows_arr|]. split; [apply rows_arr|]. cbn [r_zH]. split; [reflexivity|]. split; [reflexivity|].
    unfold bH, sv. assert (B : Rltb 0 (min_freq m) = true) by (apply Rltb_true; lra). assert (A : Rltb 0 0 = false) by (unfold Rltb; destruct (Rlt_dec 0 0); [lra|reflexivity]). rewrite A, B. cbn [negb].
    pose proof mu0_p. pose proof (Rmult_lt_0_compat _ _ Hx H). unfold sval. cbn [fst snd Cmult RtoC]. repeat split; try ring.
    assert (Q : (0 < (if Rltb (- 0) (min_freq m) then min_freq m else - 0))%R) by (unfold Rltb; destruct (Rlt_dec (- 0) (min_freq m)); lra). rewrite Rmult_0_l, Rminus_0_r. now apply Rmult_lt_0_compat.
Qed.

(** three layers; the resistivity and the thickness of the layer of the source, the frequency and the offset change together *)
Definition w_earth (t : R) : earth := {| x_res := fun k => match k with O => 100 | S O => 1 + t | _ => 3 end%R; x_an := fun _ => 2%R; x_epH := fun _ => 1%R; x_epV := fun _ => 1%R; x_muH := fun _ => 1%R; x_muV := fun _ => 1%R; x_dep := fun k => match k with O => 0 | S O => 0 | _ => 100 + t end%R |}.
Example C86_case : forall spl filt, well_formed filt -> exists v,
  dlf_calc spl filt 0 30 50 (Z.of_nat (lay (x_dep (w_earth 0)) 2 30)) (Z.of_nat (lay (x_dep (w_earth 0)) 2 50)) (depth_arr (x_dep (w_earth 0)) 2) 31 false false (rows {| min_freq := 1; min_time := 1; min_off := 1; min_res := 1; min_angle := 1 |} 2 2 (w_earth 0)) [500%R] [1%R] false = Ok ([[v]], 1%Z, true) /\
  forall e : R, (0 < e)%R -> locally 0%R (fun t => exists v', dlf_calc spl filt 0 30 50 (Z.of_nat (lay (x_dep (w_earth t)) 2 30)) (Z.of_nat (lay (x_dep (w_earth t)) 2 50)) (depth_arr (x_dep (w_earth t)) 2) 31 false false (rows {| min_freq := 1; min_time := 1; min_off := 1; min_res := 1; min_angle := 1 |} 2 (2 + t) (w_earth t)) [(500 + t)%R] [1%R] false = Ok ([[v']], 1%Z, true) /\ (Cmod (Cminus v' v) < e)%R).
Proof.
  intros spl filt HF.
  assert (K : forall a : R, toR (locally 0%R) (fun t : R => (a + t)%R) a).
  { intros a. apply toR_eps; [apply locally_filter|]. intros e He. exists (mkposreal e He). intros y Hy. replace (a + y - a)%R with (y - 0)%R by ring. exact Hy. }
  assert (C : forall a : R, toR (locally 0%R) (fun _ : R => a) a) by (intros a; apply toR_const, locally_filter).
  refine (C86_model R (locally 0%R) (@filter_filter _ _ (locally_filter 0%R)) w_earth (w_earth 0) 2 _ (fun t => 2 + t)%R (fun _ => 30)%R (fun _ => 50)%R (fun t => 500 + t)%R (fun _ => 1%R) 2 30 50 500 1 _ _ _ _ _ _ (K _) (C _) (C _) (K _) (C _) spl filt 31%Z false false false HF _ _ _); try (cbn; lra).
  - constructor; intros k Hk; cbn; try apply C; destruct k as [|[|k]]; try apply C; rewrite Rplus_0_r; apply K.
  - constructor; intros k Hk; cbn; try lra; destruct k as [|[|k]]; try lra; lia.
  - exists (mkposreal 1 Rlt_0_1). intros t Ht. assert (Q : (-1 < t < 1)%R). { unfold ball in Ht. cbn in Ht. unfold AbsRing_ball, abs, minus, plus, opp in Ht. cbn in Ht. apply Rabs_def2 in Ht. lra. }
    constructor; intros k Hk; cbn; try lra; destruct k as [|[|k]]; try lra; lia.
  - cbn. auto 20.
  - intros k Hk. destruct k as [|[|k]]; [lia| |]; cbn; lra.
Qed.
(** the same model, in the time domain with the sine filter *)
Example C86_time_case : exists L, linear_ft (fun v => fourier_dlf x_spl true x_filt 0 v [1]%R [1; 2; 3]%R) L 3 1 /\
  conv_earth (locally 0%R) 2 w_earth (w_earth 0) /\ sane 2 (w_earth 0) /\ locally 0%R (fun t => sane 2 (w_earth t)) /\ well_formed x_filt /\ valid_call 31 false false.
Proof.
  destruct (fourier_dlf_standard x_spl true x_filt [1]%R [1; 2; 3]%R ltac:(discriminate)) as [L [H _]]. exists L. split; [exact H|].
  assert (K : forall a : R, toR (locally 0%R) (fun t : R => (a + t)%R) a).
  { intros a. apply toR_eps; [apply locally_filter|]. intros e He. exists (mkposreal e He). intros y Hy. replace (a + y - a)%R with (y - 0)%R by ring. exact Hy. }
  assert (C : forall a : R, toR (locally 0%R) (fun _ : R => a) a) by (intros a; apply toR_const, locally_filter).
  split; [constructor; intros k Hk; cbn; try apply C; destruct k as [|[|k]]; try apply C; rewrite Rplus_0_r; apply K|].
  split; [constructor; intros k Hk; cbn; try lra; destruct k as [|[|k]]; try lra; lia|].
  split; [|split; [exact x_wf|cbn; auto 20]].
  exists (mkposreal 1 Rlt_0_1). intros t Ht. assert (Q : (-1 < t < 1)%R). { unfold ball in Ht. cbn in Ht. unfold AbsRing_ball, abs, minus, plus, opp in Ht. cbn in Ht. apply Rabs_def2 in Ht. lra. }
  constructor; intros k Hk; cbn; try lra; destruct k as [|[|k]]; try lra; lia.
Qed.
Print Assumptions C86_limit.
Print Assumptions C86_kernel.
Print Assumptions C86_interface.
Print Assumptions C86_model.
Print Assumptions C86_survey.
Print Assumptions C86_time.
Print Assumptions C86_zero.
