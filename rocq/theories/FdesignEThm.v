(** The transform pairs computed with the modeller (fdesign.empy_hankel). *)

From Coq Require Import ZArith Reals List Bool Ascii String QArith Lia Lra.
From Coquelicot Require Import Coquelicot.
From Verif Require Import PyBase CBase Text Kernel KernelSpec KernelClosed KernelPhys KernelMain KernelThm KernelThm2 Utils UtilsAb UtilsLayer UtilsModel UtilsFreq UtilsGeo UtilsSurvey Transform TransformDlf
  Fullspace Model ModelFem Routines RoutinesThm Bipole BipoleCol BipoleThm BipoleLoop BipoleFinal BipoleStrength RoutinesK RoutinesKThm FdesignD FdesignE.
Import ListNotations.
Local Open Scope R_scope.
Local Open Scope res_scope.

(** ** Names, components and geometry *)
Inductive eh_type : txt -> Z -> R -> R -> R -> Prop :=
| eh_j0 : eh_type (T "j0") 11 (1 / sqrt 2) (1 / sqrt 2) 0
| eh_j1 : eh_type (T "j1") 31 1 0 1
| eh_j2 : eh_type (T "j2") 12 (1 / sqrt 2) (1 / sqrt 2) 1.

Lemma eh_setup_ok : forall t ab x y A, eh_type t ab x y A -> eh_setup t = Ok (ab, x, y).
Proof. intros t ab x y A []; reflexivity. Qed.
Lemma eh_setup_inv : forall t ab x y, eh_setup t = Ok (ab, x, y) -> exists A, eh_type t ab x y A.
Proof.
  intros t ab x y. unfold eh_setup. destruct (teqb t (T "j0")) eqn:E0; [|destruct (teqb t (T "j1")) eqn:E1; [|destruct (teqb t (T "j2")) eqn:E2]]; intros H; try discriminate H;
  [apply teqb_eq in E0|apply teqb_eq in E1|apply teqb_eq in E2]; subst t;
  match type of H with Ok ?u = Ok ?v => assert (W : v = u) by congruence end; injection W as -> -> ->; eexists; constructor.
Qed.
Lemma eh_check_ab : forall t ab x y A, eh_type t ab x y A -> check_ab (AbNum (inject_Z ab)) = Ok (ab, false, false).
Proof. intros t ab x y A []; reflexivity. Qed.
Lemma eh_valid : forall t ab x y A, eh_type t ab x y A -> valid_call ab false false.
Proof. intros t ab x y A []; vm_compute; tauto. Qed.
Lemma eh_36 : forall t ab x y A, eh_type t ab x y A -> ab <> 36%Z.
Proof. intros t ab x y A []; lia. Qed.

Lemma sq2 : 1 / sqrt 2 * (1 / sqrt 2) = 1 / 2.
Proof. assert (S : sqrt 2 * sqrt 2 = 2) by (apply sqrt_sqrt; lra). assert (P := Rlt_sqrt2_0). assert (N : sqrt 2 <> 0) by lra. replace (1 / sqrt 2 * (1 / sqrt 2)) with (1 / (sqrt 2 * sqrt 2)) by (field; exact N). now rewrite S. Qed.
Lemma sq2_pos : 0 < 1 / sqrt 2.
Proof. apply Rdiv_lt_0_compat; [lra|]. exact Rlt_sqrt2_0. Qed.

Lemma eh_xy : forall t ab x y A, eh_type t ab x y A -> x * x + y * y = 1 /\ 0 < x.
Proof. intros t ab x y A []; [rewrite sq2|split; lra|rewrite sq2]; (split; [lra|exact sq2_pos]). Qed.

Definition eh_phi (x y : R) : R := atan (y / x).
Lemma eh_geo : forall m t ab x y A r zs zr, eh_type t ab x y A -> 0 < min_off m -> min_off m <= r ->
  geometry m (eh_pt 0 0 zs) (eh_pt (r * x) (r * y) zr) = Ok ([r], [eh_phi x y], zs, zr, 1%nat, 1%nat).
Proof.
  intros m t ab x y A r zs zr HT H0 Hr. destruct (eh_xy _ _ _ _ _ HT) as [HX PX].
  unfold geometry, eh_pt, check_dipole. cbn [check_var check_shape atleast1 bind List.length Nat.eqb].
  change (check_shape [1%nat] [1%nat] []) with (Ok tt). cbn [bind].
  unfold get_off_ang, map2. rewrite (proj1 (check_min_spec _ _)). cbn [combine flat_map map app fst snd].
  replace ((r * x - 0) * (r * x - 0) + (r * y - 0) * (r * y - 0)) with (r * r * (x * x + y * y)) by ring. rewrite HX, Rmult_1_r, sqrt_square by lra.
  rewrite Rmax_left by lra. unfold atan2. assert (P : 0 < r * x) by (apply Rmult_lt_0_compat; lra).
  assert (L : Rltb 0 (r * x - 0) = true) by (apply UtilsLayer.Rltb_true; lra). rewrite L. unfold eh_phi.
  replace ((r * y - 0) / (r * x - 0)) with (y / x) by (field; split; lra). reflexivity.
Qed.

Lemma not_close : forall a t, 0 <= a -> 1 / 4 <= Rabs (a - t) -> 0 < t <= 8 -> isclose (Rabs a) t (/ 10 ^ 10) (/ 10 ^ 14) = false.
Proof.
  intros a t Ha Hd Ht. unfold isclose. apply UtilsLayer.Rleb_false. rewrite (Rabs_pos_eq a Ha), (Rabs_pos_eq t) by lra.
  assert (T10 : / 10 ^ 10 <= / 100). { apply Rinv_le_contravar; [lra|]. replace 100 with (10 ^ 2) by ring. apply Rle_pow; [lra|lia]. }
  assert (T14 : / 10 ^ 14 <= / 100). { apply Rinv_le_contravar; [lra|]. replace 100 with (10 ^ 2) by ring. apply Rle_pow; [lra|lia]. }
  assert (P10 : 0 < / 10 ^ 10) by (apply Rinv_0_lt_compat, pow_lt; lra).
  assert (/ 10 ^ 10 * t <= / 100 * 8). { apply Rmult_le_compat; lra. } lra.
Qed.
Lemma close_self : forall t, isclose (Rabs t) t (/ 10 ^ 10) (/ 10 ^ 14) = true \/ t < 0.
Proof.
  intros t. destruct (Rlt_dec t 0); [now right|left]. unfold isclose. apply UtilsLayer.Rleb_true. rewrite (Rabs_pos_eq t) by lra. replace (t - t) with 0 by ring. rewrite Rabs_R0.
  assert (0 < / 10 ^ 10) by (apply Rinv_0_lt_compat, pow_lt; lra). assert (0 < / 10 ^ 14) by (apply Rinv_0_lt_compat, pow_lt; lra). assert (0 <= / 10 ^ 10 * t) by (apply Rmult_le_pos; lra). lra.
Qed.

(** the angle factor at 45 degrees (11: zero, 12: one) and at 0 degrees (31: one) *)
Lemma eh_angle : forall t ab x y A, eh_type t ab x y A -> angle_factor (eh_phi x y) ab false false = A.
Proof.
  intros t ab x y A HT. assert (PP := PI_RGT_0). assert (P4 := PI_4). assert (P3 : 3 / 2 < PI / 2) by (pose proof PI2_3_2; lra).
  assert (E45 : eh_phi (1 / sqrt 2) (1 / sqrt 2) = PI / 4). { unfold eh_phi. rewrite <- atan_1. f_equal. pose proof sq2_pos. apply Rinv_r. lra. }
  destruct HT.
  - rewrite E45. unfold angle_factor. cbn [inb existsb Z.eqb Pos.eqb orb andb negb]. cbv zeta. replace (PI / 4 * 2) with (PI / 2) by field.
    destruct (close_self (PI / 2)) as [-> | H]; [reflexivity|lra].
  - unfold eh_phi. replace (0 / 1) with 0 by field. rewrite atan_0. unfold angle_factor. cbn [inb existsb Z.eqb Pos.eqb orb andb negb]. cbv zeta.
    rewrite !not_close; try lra; [apply cos_0|..]; rewrite Rabs_left; lra.
  - rewrite E45. unfold angle_factor. cbn [inb existsb Z.eqb Pos.eqb orb andb negb]. cbv zeta. replace (PI / 4 * 2) with (PI / 2) by field.
    rewrite !not_close; try lra; [apply sin_PI2|..]; rewrite Rabs_left; lra.
Qed.

(** ** The setting *)
Record eh_setting (m : mins) (depth : list ext) (q : params) (f zs zr : R) (mo : model_out) (N : nat) (z : nat -> R) (w : frow) (s r : nat) : Prop := {
  es_row : rows_of (check_frequency m [f] (m_res mo) (m_aniso mo) (m_epermH mo) (m_epermV mo) (m_mpermH mo) (m_mpermV mo)) = [w];
  es_pass : passive_row N z w;
  es_dep : m_depth mo = depth_arr z N;
  es_ls : layer1 (m_depth mo) zs = Ok (Z.of_nat s);
  es_lr : layer1 (m_depth mo) zr = Ok (Z.of_nat r);
  es_s : (s <= N)%nat;
  es_r : (r <= N)%nat }.

Lemma eh_set : forall m depth q f zs zr mo, plain_model m depth q [f] -> check_model m depth (q_res q) (q_aniso q) (q_eH q) (q_eV q) (q_mH q) (q_mV q) = Ok mo ->
  exists N z w s r, eh_setting m depth q f zs zr mo N z w s r.
Proof.
  intros m depth q f zs zr mo HP Em. destruct (plain_setup m depth q [f] mo HP Em) as (N & z & ED & LR & NR & PR & LY).
  destruct (LY zs) as (s & Els & Bs). destruct (LY zr) as (r & Elr & Br).
  set (rows := rows_of _) in *. destruct rows as [|w [|w' rows']] eqn:ER; try discriminate LR.
  exists N, z, w, s, r. constructor; try assumption. apply PR. now left.
Qed.

(** dipole with a digital filter *)
Lemma eh_dipole : forall m hook spl filt depth q f zs zr mo N z w s r t ab x y A rr lf lo,
  well_formed filt -> plain_model m depth q [f] -> check_model m depth (q_res q) (q_aniso q) (q_eH q) (q_eV q) (q_mH q) (q_mV q) = Ok mo ->
  eh_setting m depth q f zs zr mo N z w s r -> eh_type t ab x y A -> 0 < min_off m -> min_off m <= rr -> (lf && lo = false)%bool ->
  dipole m hook (dlf_mk spl filt) (eh_pt 0 0 zs) (eh_pt (rr * x) (rr * y) zr) depth q [f] (AbNum (inject_Z ab)) (Some false) lf lo =
    Ok ([[dlf_value filt ab (kern zs zr s r z N ab false false false w) rr A]], 1%nat, 1%nat).
Proof.
  intros m hook spl filt depth q f zs zr mo N z w s r t ab x y A rr lf lo HF HP Em HS HT H0 Hr HL. destruct HS as [ER PR ED Els Elr Bs Br].
  pose proof HP as [[v HR] _ _ _ _ _ _].
  unfold dipole. rewrite Em. cbn [bind]. rewrite HR. cbn [apply_hook]. rewrite (eh_check_ab _ _ _ _ _ HT). cbn [bind].
  rewrite (eh_geo m t ab x y A rr zs zr HT H0 Hr). cbn [bind]. rewrite Els, Elr. cbn [bind]. rewrite ER, ED. unfold dlf_mk.
  destruct (fem_table (laplace_of [f]) (passive_row N z) _ _ ab [rr] [eh_phi x y] zs zr (Z.of_nat s) (Z.of_nat r) [w] (m_full mo) false false lf lo
      (dlf_separable spl filt z N ab false false s r zs zr false HF (eh_valid _ _ _ _ _ HT) Bs Br)) as (kc & EF); try discriminate; try reflexivity; try exact HL.
  - intros r0 [<- | []]. exact PR.
  - intros o [<- | []]. lra.
  - exact (eh_36 _ _ _ _ _ HT).
  - rewrite EF. cbn [bind]. unfold table. cbn [map combine fst snd]. now rewrite (eh_angle t ab x y A HT).
Qed.

(** the left-hand side *)
Definition eh_elem (ab : Z) (K : R -> triple) (A l : R) : C * C := k_element ab (K l) A 1.
Definition eh_pick (t : txt) (p : C * C) : C * C :=
  if teqb t (T "j0") then (fst p, RtoC 0) else if teqb t (T "j1") then (snd p, RtoC 0) else p.
Lemma eh_lhs_val : forall m depth q f zs zr mo N z w s r t ab x y A k,
  check_model m depth (q_res q) (q_aniso q) (q_eH q) (q_eV q) (q_mH q) (q_mV q) = Ok mo ->
  eh_setting m depth q f zs zr mo N z w s r -> eh_type t ab x y A -> 0 < min_off m -> min_off m <= 1 ->
  eh_lhs m t zs zr depth q f k = Ok (eh_pick t (eh_elem ab (kern zs zr s r z N ab false false false w) A k)).
Proof.
  intros m depth q f zs zr mo N z w s r t ab x y A k Em HS HT H0 H1. destruct HS as [ER PR ED Els Elr Bs Br].
  unfold eh_lhs. rewrite (eh_setup_ok _ _ _ _ _ HT). cbn [bind].
  assert (EK : dipole_k m (eh_pt 0 0 zs) (eh_pt x y zr) depth q [f] [k] (AbNum (inject_Z ab)) =
    Ok [[[eh_elem ab (kern zs zr s r z N ab false false false w) A k]]]).
  { unfold dipole_k. rewrite Em. cbn [bind]. rewrite (eh_check_ab _ _ _ _ _ HT). cbn [bind].
    pose proof (eh_geo m t ab x y A 1 zs zr HT H0 H1) as G. rewrite !Rmult_1_l in G. rewrite G. cbn [bind]. rewrite Els, Elr. cbn [bind].
    assert (EI : inb ab [36]%Z = false) by (unfold inb; cbn; pose proof (eh_36 _ _ _ _ _ HT); destruct (Z.eqb_spec ab 36); [contradiction|reflexivity]). rewrite EI, ER, ED.
    cbn [mapM]. rewrite (kern_ok zs zr s r z N ab false false false w k PR (eh_valid _ _ _ _ _ HT) Bs Br). cbn [bind map combine fst snd].
    rewrite raw_int, (eh_angle t ab x y A HT). reflexivity. }
  rewrite EK. cbn [bind nth]. unfold eh_pick. destruct (eh_elem _ _ _ _) as [a b]. cbn [fst snd]. destruct HT; reflexivity.
Qed.

(** ** The response of a filter *)
Lemma dot_fsum : forall w base (g : R -> C) r, List.length w = List.length base -> Transform.dot w (map (fun b => g (b / r)) base) = fsum w base g r.
Proof.
  unfold Transform.dot. induction w as [|a w IH]; intros [|b base] g r L; try discriminate L; [reflexivity|].
  injection L as L. specialize (IH base g r L). cbn [fsum]. rewrite <- IH. reflexivity.
Qed.

Lemma div_one : forall c : C, Cdiv c (RtoC 1) = c.
Proof. intros c. assert (NN : RtoC 1 <> RtoC 0) by (intros E; injection E; lra). field. exact NN. Qed.
Lemma fsum_zero : forall u l rr, fsum u l (fun _ => RtoC 0) rr = RtoC 0.
Proof. induction u as [|a u IH]; intros [|b l] rr; cbn [fsum]; try reflexivity. rewrite IH. ring. Qed.

Section Value.
Variables (zs zr : R) (s r : nat) (z : nat -> R) (N : nat) (w : frow) (filt : dfilter).
Hypothesis HF : well_formed filt.
Notation K ab := (kern zs zr s r z N ab false false false w).
Let L0 := proj1 HF.
Let L1 := proj1 (proj2 HF).

Lemma val_j0 : forall rr, dlf_value filt 11 (K 11) rr 0 =
  Cdiv (Transform.dot (f_j0 filt) (map (fun b => fst (eh_elem 11 (K 11) 0 (b / rr))) (f_base filt))) (RtoC rr).
Proof using All.
  intros rr. rewrite (dot_fsum _ _ (fun l => fst (eh_elem 11 (K 11) 0 l))) by exact L0. unfold dlf_value, sum_noang. f_equal.
  rewrite Cmult_0_l, Cplus_0_r. apply fsum_ext. intros b _. unfold part_of, eh_elem.
  destruct (kern_collect zs zr s r z N 11 false false false w (b / rr)) as (p & q & ->). unfold collect, k_element. cbn -[Cplus Cmult RtoC Cdiv PI cz]. ring.
Qed.
Lemma val_j1 : forall rr, dlf_value filt 31 (K 31) rr 1 =
  Cdiv (Transform.dot (f_j1 filt) (map (fun b => snd (eh_elem 31 (K 31) 1 (b / rr))) (f_base filt))) (RtoC rr).
Proof using All.
  intros rr. rewrite (dot_fsum _ _ (fun l => snd (eh_elem 31 (K 31) 1 l))) by exact L1. unfold dlf_value, sum_noang, sum_ang. f_equal.
  change (inb 31 j2_components) with false. cbv iota zeta.
  assert (Z0 : forall p, (forall l, p (K 31 l) = None) -> fsum (f_j0 filt) (f_base filt) (part_of p (K 31)) rr = RtoC 0).
  { intros p Hp. rewrite (fsum_ext _ _ _ (fun _ => RtoC 0)) by (intros b _; unfold part_of; rewrite Hp; reflexivity).
    apply fsum_zero. }
  rewrite (Z0 t0), (Z0 t0b).
  2,3: intros l; destruct (kern_collect zs zr s r z N 31 false false false w l) as (p & q & ->); reflexivity.
  rewrite Cmult_1_l, Cplus_0_l, Cplus_0_r. apply fsum_ext. intros b _. unfold part_of, eh_elem.
  destruct (kern_collect zs zr s r z N 31 false false false w (b / rr)) as (p & q & ->). unfold collect, k_element. cbn -[Cplus Cmult RtoC Cdiv PI cz]. ring.
Qed.
Lemma val_j2 : forall rr, 0 < rr -> dlf_value filt 12 (K 12) rr 1 =
  Cplus (Cdiv (Transform.dot (f_j0 filt) (map (fun b => fst (eh_elem 12 (K 12) 1 (b / rr))) (f_base filt))) (RtoC rr))
        (Cdiv (Transform.dot (f_j1 filt) (map (fun b => snd (eh_elem 12 (K 12) 1 (b / rr))) (f_base filt))) (RtoC (rr ^ 2))).
Proof using All.
  intros rr Hr. assert (NZ : RtoC rr <> RtoC 0) by (intros E; injection E; lra).
  rewrite (dot_fsum _ _ (fun l => snd (eh_elem 12 (K 12) 1 l))) by exact L1. rewrite (dot_fsum _ _ (fun l => fst (eh_elem 12 (K 12) 1 l))) by exact L0.
  unfold dlf_value, sum_noang, sum_ang. change (inb 12 j2_components) with true. cbv iota zeta.
  assert (Z0 : forall p, (forall l, p (K 12 l) = None) -> fsum (f_j0 filt) (f_base filt) (part_of p (K 12)) rr = RtoC 0).
  { intros p Hp. rewrite (fsum_ext _ _ _ (fun _ => RtoC 0)) by (intros b _; unfold part_of; rewrite Hp; reflexivity).
    apply fsum_zero. }
  rewrite (Z0 t0).
  2: intros l; destruct (kern_collect zs zr s r z N 12 false false false w l) as (p & q & ->); reflexivity.
  rewrite (fsum_ext (f_j0 filt) (f_base filt) (part_of t0b (K 12)) (fun l => fst (eh_elem 12 (K 12) 1 l))).
  2:{ intros b _. unfold part_of, eh_elem. destruct (kern_collect zs zr s r z N 12 false false false w (b / rr)) as (p & q & ->). unfold collect, k_element. cbn -[Cplus Cmult RtoC Cdiv PI cz]. ring. }
  rewrite (fsum_ext (f_j1 filt) (f_base filt) (part_of t1 (K 12)) (fun l => snd (eh_elem 12 (K 12) 1 l))).
  2:{ intros b _. unfold part_of, eh_elem. destruct (kern_collect zs zr s r z N 12 false false false w (b / rr)) as (p & q & ->). unfold collect, k_element. cbn -[Cplus Cmult RtoC Cdiv PI cz]. rewrite div_one. ring. }
  replace (RtoC (rr ^ 2)) with (Cmult (RtoC rr) (RtoC rr)) by (rewrite <- RtoC_mult; f_equal; ring). field. exact NZ.
Qed.
End Value.

(** What the design computes for a candidate filter is what dipole computes with this filter. *)
Definition same_filter (d : dlfo) (filt : dfilter) : Prop :=
  o_attr d (T "base") = Some (f_base filt) /\ o_attr d (T "j0") = Some (f_j0 filt) /\ o_attr d (T "j1") = Some (f_j1 filt).

Lemma row_dot_val : forall (f : dpair) (e : R -> C * C) sec base x ri, (forall k, dp_lhs f k = Ok (e k)) ->
  row_dot f sec base x ri = Ok (Transform.dot x (map (fun b => if sec then snd (e (b / ri)) else fst (e (b / ri))) base)).
Proof.
  intros f e sec base x ri H. unfold row_dot. rewrite (mapM_all _ (fun b => e (b / ri))) by (intros; apply H). cbn [bind]. now rewrite map_map.
Qed.
Lemma row_cdiv : forall (v : C) ri, 0 < ri -> cdiv v (RtoC ri) = Ok (Cdiv v (RtoC ri)).
Proof. intros v ri H. apply cdiv_ok. intros W. apply (f_equal fst) in W. cbn in W. lra. Qed.

Theorem eh_filter : forall m hook mk hook' spl filt d t ab x y zs zr depth q f lf lo rs mo,
  well_formed filt -> same_filter d filt -> plain_model m depth q [f] ->
  check_model m depth (q_res q) (q_aniso q) (q_eH q) (q_eV q) (q_mH q) (q_mV q) = Ok mo ->
  0 < min_off m -> min_off m <= 1 -> (forall rr, In rr rs -> min_off m <= rr) -> (lf && lo = false)%bool ->
  eh_setup t = Ok (ab, x, y) ->
  exists out, fd_out d rs (empy_hankel m hook mk t zs zr depth q f) = Ok out /\ List.length out = List.length rs /\
    forall i, (i < List.length rs)%nat ->
      dipole m hook' (dlf_mk spl filt) (eh_pt 0 0 zs) (eh_pt (nth i rs 0 * x) (nth i rs 0 * y) zr) depth q [f] (AbNum (inject_Z ab)) (Some false) lf lo =
        Ok ([[nth i out (RtoC 0)]], 1%nat, 1%nat).
Proof.
  intros m hook mk hook' spl filt d t ab x y zs zr depth q f lf lo rs mo HF (Db & D0 & D1) HP Em H0 H1 Hrs HL HE.
  destruct (eh_setup_inv _ _ _ _ HE) as [A HT]. destruct (eh_set m depth q f zs zr mo HP Em) as (N & z & w & s & r & HS).
  set (K := kern zs zr s r z N ab false false false w).
  exists (map (fun rr => dlf_value filt ab K rr A) rs). split; [|split; [apply map_length|]].
  - assert (HLH : forall k, dp_lhs (empy_hankel m hook mk t zs zr depth q f) k = Ok (eh_pick t (eh_elem ab K A k))) by (intros k; exact (eh_lhs_val m depth q f zs zr mo N z w s r t ab x y A k Em HS HT H0 H1)).
    set (P := empy_hankel _ _ _ _ _ _ _ _ _) in *. unfold fd_out, o_get. rewrite Db. cbn [bind]. change (dp_name P) with t.
    destruct HT; cbn [teqb T]; cbv iota.
    + change (teqb (T "j0") (T "j2")) with false. cbv iota. rewrite D0. cbn [bind]. apply mapM_all. intros ri Hri. specialize (Hrs ri Hri).
      rewrite (row_dot_val P _ false _ _ ri HLH). cbn [bind]. rewrite row_cdiv by lra. f_equal. symmetry. exact (val_j0 zs zr s r z N w filt HF ri).
    + change (teqb (T "j1") (T "j2")) with false. cbv iota. rewrite D1. cbn [bind]. apply mapM_all. intros ri Hri. specialize (Hrs ri Hri).
      rewrite (row_dot_val P _ false _ _ ri HLH). cbn [bind]. rewrite row_cdiv by lra. f_equal. symmetry. exact (val_j1 zs zr s r z N w filt HF ri).
    + change (teqb (T "j2") (T "j2")) with true. cbv iota. rewrite D0, D1. cbn [bind]. apply mapM_all. intros ri Hri. specialize (Hrs ri Hri).
      rewrite (row_dot_val P _ false _ _ ri HLH), (row_dot_val P _ true _ _ ri HLH). cbn [bind]. rewrite row_cdiv by lra. cbn [bind].
      rewrite row_cdiv by (apply pow_lt; lra). cbn [bind]. f_equal. symmetry. apply (val_j2 zs zr s r z N w filt HF ri). lra.
  - intros i Hi. rewrite (nth_map_any _ rs i 0 (RtoC 0) Hi).
    apply (eh_dipole m hook' spl filt depth q f zs zr mo N z w s r t ab x y A (nth i rs 0) lf lo HF HP Em HS HT H0); [|exact HL]. apply Hrs. now apply nth_In.
Qed.
