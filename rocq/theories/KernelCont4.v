(** The result of the digital linear filter as a function of the parameters the user gives. *)

From Coq Require Import Reals ZArith List Bool Lia Lra.
From Coquelicot Require Import Coquelicot.
From Verif Require Import PyBase CBase ODE Sommer Cint Kernel KernelSpec KernelClosed KernelPassive KernelPhys KernelMain KernelBVP KernelThm KernelThm2 KernelDeep KernelFinal LayDeep3 Utils Transform TransformDlf Model ModelFem Routines KernelCont KernelCont2 KernelCont3.
Import ListNotations.
Local Open Scope R_scope.
Local Open Scope C_scope.
Local Open Scope res_scope.

(** Parameters of the layers 0..N and depths of the interfaces 1..N. *)
Record earth := { x_res : nat -> R; x_an : nat -> R; x_epH : nat -> R; x_epV : nat -> R; x_muH : nat -> R; x_muV : nat -> R; x_dep : nat -> R }.
Record sane (N : nat) (x : earth) : Prop := {
  sa_res : forall k, (k <= N)%nat -> (0 < x_res x k)%R; sa_an : forall k, (k <= N)%nat -> (0 < x_an x k)%R;
  sa_epH : forall k, (k <= N)%nat -> (0 <= x_epH x k)%R; sa_epV : forall k, (k <= N)%nat -> (0 <= x_epV x k)%R;
  sa_muH : forall k, (k <= N)%nat -> (0 < x_muH x k)%R; sa_muV : forall k, (k <= N)%nat -> (0 < x_muV x k)%R;
  sa_dep : forall k, (1 <= k < N)%nat -> (x_dep x k <= x_dep x (S k))%R }.
(** The rows of eta and zeta that check_frequency computes for one frequency (or Laplace parameter). *)
Definition rows (m : mins) (N : nat) (f : R) (x : earth) : list frow :=
  rows_of (check_frequency m [f] (arr (x_res x) N) (arr (x_an x) N) (arr (x_epH x) N) (arr (x_epV x) N) (arr (x_muH x) N) (arr (x_muV x) N)).

Definition sv (m : mins) (f : R) : C := sval (negb (Rltb 0 f)) (if Rltb (if negb (Rltb 0 f) then - f else f) (min_freq m) then min_freq m else (if negb (Rltb 0 f) then - f else f))%R.
Definition aH (m : mins) (f : R) (x : earth) (k : nat) : C := Cplus (RtoC (1 / x_res x k)) (Cmult (sv m f) (RtoC (x_epH x k * epsilon_0))).
Definition aV (m : mins) (f : R) (x : earth) (k : nat) : C := Cplus (RtoC (1 / (x_res x k * x_an x k * x_an x k))) (Cmult (sv m f) (RtoC (x_epV x k * epsilon_0))).
Definition bH (m : mins) (f : R) (x : earth) (k : nat) : C := Cmult (sv m f) (RtoC (x_muH x k * mu_0)).
Definition bV (m : mins) (f : R) (x : earth) (k : nat) : C := Cmult (sv m f) (RtoC (x_muV x k * mu_0)).

Lemma map2_arr : forall A B D (f : A -> B -> D) a b N, map2 f (arr a N) (arr b N) = arr (fun k => f (a k) (b k)) N.
Proof.
  intros A B D f a b N. unfold map2, arr. induction (seq 0 (S N)) as [|i l IH]; [reflexivity|]. cbn [map combine fst snd]. now rewrite IH.
Qed.
Lemma map_arr : forall A B (f : A -> B) a N, map f (arr a N) = arr (fun k => f (a k)) N.
Proof. intros. unfold arr. now rewrite map_map. Qed.
Lemma rows_arr : forall m N f x, rows m N f x = [mkrow (arr (aH m f x) N) (arr (aV m f x) N) (arr (bH m f x) N) (arr (bV m f x) N)].
Proof.
  intros m N f x. unfold rows, rows_of, check_frequency. cbv zeta. cbn [existsb]. rewrite orb_false_r.
  cbn [f_etaH f_etaV f_zetaH f_zetaV]. unfold outer. destruct (Rltb 0 f) eqn:E; cbn [negb map check_min fst combine snd];
  rewrite ?map_arr, ?map2_arr, ?map2_arr; unfold aH, aV, bH, bV, sv; rewrite E; cbn [negb]; reflexivity.
Qed.
Lemma mu0_p : (0 < mu_0)%R. Proof. unfold mu_0. apply Rmult_lt_0_compat; [lra|apply PI_RGT_0]. Qed.
Lemma ep0_p : (0 < epsilon_0)%R.
Proof. unfold epsilon_0, Rdiv. rewrite Rmult_1_l. apply Rinv_0_lt_compat. pose proof mu0_p. apply Rmult_lt_0_compat; [apply Rmult_lt_0_compat; [assumption|]|]; unfold c_light; lra. Qed.
Lemma sv_cases : forall m f, (0 < min_freq m)%R -> (0 <= fst (sv m f))%R /\ sv m f <> RtoC 0.
Proof.
  intros m f Hm. unfold sv. set (c := if Rltb _ _ then _ else _). assert (P : (0 < c)%R).
  { unfold c. set (u := if negb _ then _ else _). unfold Rltb. destruct (Rlt_dec u (min_freq m)); lra. }
  clearbody c. unfold sval. destruct (negb (Rltb 0 f)).
  - split; [cbn [fst RtoC]; lra|]. intros X. apply (f_equal fst) in X. cbn [fst RtoC] in X. lra.
  - split; [cbn; lra|]. intros X. apply (f_equal snd) in X. cbn in X. pose proof (Rmult_lt_0_compat _ _ PI_RGT_0 P). lra.
Qed.
Lemma rows_passive : forall m N f x, (0 < min_freq m)%R -> sane N x -> passive_medium (aH m f x) (aV m f x) (bH m f x) (bV m f x) (x_dep x) N.
Proof.
  intros m N f x Hm []. destruct (sv_cases m f Hm) as [S1 S2]. pose proof mu0_p as M. pose proof ep0_p as E.
  assert (Z : forall y, (0 < y)%R -> Cmult (sv m f) (RtoC (y * mu_0)) <> 0).
  { intros y Hy. apply Cmult_neq_0; [exact S2|]. intros X. apply (f_equal fst) in X. cbn [fst RtoC] in X. pose proof (Rmult_lt_0_compat _ _ Hy M). lra. }
  assert (Q : forall y c, (0 <= y)%R -> (0 <= c)%R -> (0 <= fst (Cmult (sv m f) (RtoC (y * c))))%R).
  { intros y c Hy Hc. cbn [fst Cmult RtoC snd]. rewrite Rmult_0_r, Rminus_0_r. apply Rmult_le_pos; [exact S1|now apply Rmult_le_pos]. }
  constructor; intros k Hk.
  - unfold aH. cbn [fst Cplus]. pose proof (Q (x_epH x k) epsilon_0 (sa_epH0 k Hk) (Rlt_le _ _ E)). assert (0 < 1 / x_res x k)%R by (apply Rdiv_lt_0_compat; [lra|now apply sa_res0]). cbn [fst RtoC] in *. lra.
  - unfold aV. cbn [fst Cplus]. pose proof (Q (x_epV x k) epsilon_0 (sa_epV0 k Hk) (Rlt_le _ _ E)). assert (0 < 1 / (x_res x k * x_an x k * x_an x k))%R by (apply Rdiv_lt_0_compat; [lra|]; pose proof (sa_an0 k Hk); apply Rmult_lt_0_compat; [apply Rmult_lt_0_compat; [now apply sa_res0|assumption]|assumption]). cbn [fst RtoC] in *. lra.
  - apply Q; [apply Rlt_le, sa_muH0, Hk|lra].
  - apply Q; [apply Rlt_le, sa_muV0, Hk|lra].
  - apply Z, sa_muH0, Hk.
  - apply Z, sa_muV0, Hk.
  - now apply sa_dep0.
Qed.

Section Lim.
Context {T : Type} (F : (T -> Prop) -> Prop) {FF : Filter F}.
Notation toR := (toR F).
Notation toC := (toC F).

(** All parameters of the model converge. *)
Record conv_earth (N : nat) (x : T -> earth) (x0 : earth) : Prop := {
  ce_res : forall k, (k <= N)%nat -> toR (fun t => x_res (x t) k) (x_res x0 k); ce_an : forall k, (k <= N)%nat -> toR (fun t => x_an (x t) k) (x_an x0 k);
  ce_epH : forall k, (k <= N)%nat -> toR (fun t => x_epH (x t) k) (x_epH x0 k); ce_epV : forall k, (k <= N)%nat -> toR (fun t => x_epV (x t) k) (x_epV x0 k);
  ce_muH : forall k, (k <= N)%nat -> toR (fun t => x_muH (x t) k) (x_muH x0 k); ce_muV : forall k, (k <= N)%nat -> toR (fun t => x_muV (x t) k) (x_muV x0 k);
  ce_dep : forall k, (1 <= k <= N)%nat -> toR (fun t => x_dep (x t) k) (x_dep x0 k) }.

Lemma toC_ext_loc : forall f h l, F (fun t => f t = h t) -> toC f l -> toC h l.
Proof using FF.
  intros f h l E H. apply toC_eps; [assumption|]. intros e He. eapply filter_imp; [|exact (filter_and _ _ E (proj1 (toC_eps F f l) H e He))]. intros t [A B]. cbn beta in *. now rewrite <- A.
Qed.
Lemma toR_clip : forall f a c, toR f a -> toR (fun t => if Rltb (f t) c then c else f t) (if Rltb a c then c else a).
Proof using FF.
  intros f a c H. assert (E : forall y, (if Rltb y c then c else y) = ((y + c + Rabs (y - c)) / 2)%R).
  { intros y. unfold Rltb. destruct (Rlt_dec y c) as [L|L]; [rewrite Rabs_left by lra|rewrite Rabs_right by lra]; field. }
  rewrite E. apply (filterlim_ext (fun t => ((f t + c + Rabs (f t - c)) / 2)%R)); [intros t; symmetry; apply E|].
  unfold Rdiv. apply toR_mult; [assumption| |now apply toR_const]. apply toR_plus; [assumption|apply toR_plus; [assumption|exact H|now apply toR_const]|].
  apply (toR_comp F _ Rabs); [apply continuous_Rabs|]. apply toR_minus; [assumption|exact H|now apply toR_const].
Qed.
Lemma c_sv : forall m f f0, f0 <> 0%R -> toR f f0 -> toC (fun t => sv m (f t)) (sv m f0).
Proof using FF.
  intros m f f0 H0 H. destruct (Rlt_dec 0 f0) as [L|L].
  - pose proof (toR_lt F (fun _ => 0%R) f 0 f0 (toR_const F 0) H L) as P.
    unfold sv at 2. assert (E : Rltb 0 f0 = true) by now apply Rltb_true. rewrite E. cbn [negb].
    apply (toC_ext_loc (fun t => sval false (if Rltb (f t) (min_freq m) then min_freq m else f t))).
    + eapply filter_imp; [|exact P]. intros t Ht. unfold sv. apply Rltb_true in Ht. rewrite Ht. reflexivity.
    + unfold sval. apply toC_mult; [assumption|now apply toC_const|]. apply toC_RtoC; [assumption|]. apply toR_mult; [assumption|now apply toR_const|now apply toR_clip].
  - assert (L' : (f0 < 0)%R) by lra. pose proof (toR_lt F f (fun _ => 0%R) f0 0 H (toR_const F 0) L') as P.
    unfold sv at 2. assert (E : Rltb 0 f0 = false) by (unfold Rltb; destruct (Rlt_dec 0 f0); [lra|reflexivity]). rewrite E. cbn [negb].
    apply (toC_ext_loc (fun t => sval true (if Rltb (- f t) (min_freq m) then min_freq m else - f t)%R)).
    + eapply filter_imp; [|exact P]. intros t Ht. cbn beta in Ht. unfold sv. assert (Et : Rltb 0 (f t) = false) by (unfold Rltb; destruct (Rlt_dec 0 (f t)); [lra|reflexivity]). rewrite Et. reflexivity.
    + unfold sval. apply toC_RtoC; [assumption|]. apply (toR_clip (fun t => - f t)%R). now apply toR_opp.
Qed.

Theorem dlf_model_continuous : forall (x : T -> earth) x0 N m (f zs zr off ang : T -> R) (f0 zs0 zr0 off0 ang0 : R),
  conv_earth N x x0 -> sane N x0 -> F (fun t => sane N (x t)) -> (0 < min_freq m)%R -> f0 <> 0%R -> (0 < off0)%R ->
  toR f f0 -> toR zs zs0 -> toR zr zr0 -> toR off off0 -> toR ang ang0 ->
  forall spl filt ab xd msrc mrec, well_formed filt -> valid_call ab msrc mrec -> (forall k, (1 <= k <= N)%nat -> x_dep x0 k <> zs0 /\ x_dep x0 k <> zr0) -> (xd = false -> zs0 <> zr0) ->
  exists v, dlf_calc spl filt 0 zs0 zr0 (Z.of_nat (lay (x_dep x0) N zs0)) (Z.of_nat (lay (x_dep x0) N zr0)) (depth_arr (x_dep x0) N) ab msrc mrec (rows m N f0 x0) [off0] [ang0] xd = Ok ([[v]], 1%Z, true) /\
  forall e : R, (0 < e)%R -> F (fun t => exists v', dlf_calc spl filt 0 (zs t) (zr t) (Z.of_nat (lay (x_dep (x t)) N (zs t))) (Z.of_nat (lay (x_dep (x t)) N (zr t))) (depth_arr (x_dep (x t)) N) ab msrc mrec (rows m N (f t) (x t)) [off t] [ang t] xd = Ok ([[v']], 1%Z, true) /\ (Cmod (Cminus v' v) < e)%R).
Proof using FF.
  intros x x0 N m f zs zr off ang f0 zs0 zr0 off0 ang0 [] S0 S Hm Hf Ho If Is Ir Io Ia spl filt ab xd msrc mrec HF HV D X.
  pose proof (c_sv m f f0 Hf If) as CS. pose proof S0 as S0'. destruct S0'.
  assert (KR : forall (u : T -> R) a c, toR u a -> toR (fun t => u t * c)%R (a * c)%R) by (intros u a c H; apply toR_mult; [assumption|exact H|now apply toR_const]).
  assert (MU : forall (u : T -> R) a c, toR u a -> toC (fun t => Cmult (sv m (f t)) (RtoC (u t * c))) (Cmult (sv m f0) (RtoC (a * c)))).
  { intros u a c H. apply toC_mult; [assumption|exact CS|]. apply toC_RtoC; [assumption|]. now apply KR. }
  assert (IV : forall (u : T -> R) a, a <> 0%R -> toR u a -> toC (fun t => RtoC (1 / u t)) (RtoC (1 / a))).
  { intros u a Ha H. apply toC_RtoC; [assumption|]. unfold Rdiv. apply toR_mult; [assumption|now apply toR_const|]. now apply toR_inv. }
  destruct (dlf_continuous F (fun t => aH m (f t) (x t)) (fun t => aV m (f t) (x t)) (fun t => bH m (f t) (x t)) (fun t => bV m (f t) (x t)) (fun t => x_dep (x t)) zs zr off ang
    (aH m f0 x0) (aV m f0 x0) (bH m f0 x0) (bV m f0 x0) (x_dep x0) zs0 zr0 off0 ang0 N) with (spl := spl) (filt := filt) (ab := ab) (xd := xd) (msrc := msrc) (mrec := mrec) as (v & E & H); try assumption.
  - intros k Hk. unfold aH. apply toC_plus; [assumption|apply IV; [|now apply ce_res0]|apply MU; now apply ce_epH0]. pose proof (sa_res0 k Hk). lra.
  - intros k Hk. unfold aV. apply toC_plus; [assumption|apply IV|apply MU; now apply ce_epV0].
    + pose proof (sa_res0 k Hk). pose proof (sa_an0 k Hk). apply Rmult_integral_contrapositive_currified; [apply Rmult_integral_contrapositive_currified; lra|lra].
    + apply toR_mult; [assumption|apply toR_mult; [assumption|now apply ce_res0|now apply ce_an0]|now apply ce_an0].
  - intros k Hk. unfold bH. apply MU. now apply ce_muH0.
  - intros k Hk. unfold bV. apply MU. now apply ce_muV0.
  - now apply rows_passive.
  - eapply filter_imp; [|exact S]. intros t Ht. now apply rows_passive.
  - exists v. split; [rewrite rows_arr; exact E|]. intros e He. eapply filter_imp; [|exact (H e He)]. intros t Ht. rewrite rows_arr. exact Ht.
Qed.
End Lim.
