(** Several frequencies and offsets, and the response in the time domain, depend continuously on the parameters. *)

From Coq Require Import Reals ZArith List Bool Lia Lra.
From Coquelicot Require Import Coquelicot.
From Verif Require Import PyBase CBase ODE Sommer Cint Kernel KernelSpec KernelClosed KernelPassive KernelPhys KernelMain KernelBVP KernelThm KernelThm2 KernelDeep KernelFinal LayDeep3 Utils UtilsLayer Transform TransformDlf Fullspace Model ModelFem ModelTem Routines KernelCont KernelCont2 KernelCont3 KernelCont4.
Import ListNotations.
Local Open Scope R_scope.
Local Open Scope C_scope.
Local Open Scope res_scope.

(** g 0, ..., g (n-1) *)
Definition vec {A} (g : nat -> A) (n : nat) : list A := map g (seq 0 n).
(** The rows of eta and zeta that check_frequency computes for several frequencies. *)
Definition rowsL (m : mins) (N : nat) (fs : list R) (x : earth) : list frow :=
  rows_of (check_frequency m fs (arr (x_res x) N) (arr (x_an x) N) (arr (x_epH x) N) (arr (x_epV x) N) (arr (x_muH x) N) (arr (x_muV x) N)).
Definition row1 (m : mins) (N : nat) (f : R) (x : earth) : frow := mkrow (arr (aH m f x) N) (arr (aV m f x) N) (arr (bH m f x) N) (arr (bV m f x) N).

Lemma vec_length : forall A (g : nat -> A) n, List.length (vec g n) = n.
Proof. intros. unfold vec. now rewrite map_length, seq_length. Qed.
Lemma vec_nth : forall A (g : nat -> A) n k d, (k < n)%nat -> nth k (vec g n) d = g k.
Proof. intros. unfold vec. now apply nth_map_seq0. Qed.
Lemma vec_in : forall A (g : nat -> A) n x, In x (vec g n) -> exists k, (k < n)%nat /\ x = g k.
Proof. intros A g n x H. unfold vec in H. apply in_map_iff in H. destruct H as (k & <- & H). apply in_seq in H. exists k. split; [lia|reflexivity]. Qed.
Lemma vec_nil : forall A (g : nat -> A) n, (0 < n)%nat -> vec g n <> [].
Proof. intros A g [|n] H; [lia|discriminate]. Qed.
Lemma rowsL_arr : forall m N fs x, (forall f, In f fs -> (0 < f)%R) -> fs <> [] -> rowsL m N fs x = map (fun f => row1 m N f x) fs.
Proof.
  intros m N fs x H Hn. unfold rowsL, rows_of, check_frequency. cbv zeta.
  assert (E : existsb (fun f => Rltb 0 f) fs = true). { destruct fs as [|f fs]; [congruence|]. cbn [existsb]. rewrite (Rltb_true 0 f) by (apply H; now left). reflexivity. }
  rewrite E. cbn [negb f_etaH f_etaV f_zetaH f_zetaV]. unfold outer. clear E Hn. cbn [check_min fst]. rewrite !map_map.
  induction fs as [|f fs IH]; [reflexivity|]. cbn [map combine fst snd]. f_equal; [|apply IH; intros; apply H; now right].
  assert (E : Rltb 0 f = true) by (apply Rltb_true, H; now left).
  unfold row1, aH, aV, bH, bV, sv. rewrite E. cbn [negb]. rewrite ?map_arr, ?map2_arr, ?map2_arr. reflexivity.
Qed.

Section Lim.
Context {T : Type} (F : (T -> Prop) -> Prop) {FF : Filter F}.
Notation toR := (toR F).
Notation toC := (toC F).

Lemma all_lt : forall (P : nat -> T -> Prop) n, (forall k, (k < n)%nat -> F (P k)) -> F (fun t => forall k, (k < n)%nat -> P k t).
Proof using FF.
  intros P. induction n as [|n IH]; intros H; [apply (filter_imp (fun _ => True)); [intros; lia|apply filter_true]|].
  eapply filter_imp; [|exact (filter_and _ _ (IH (fun k Hk => H k (Nat.lt_lt_succ_r _ _ Hk))) (H n (Nat.lt_succ_diag_r n)))].
  intros t [A B] k Hk. destruct (Nat.eq_dec k n) as [->|Q]; [exact B|]. apply A. lia.
Qed.

(** ** Linear maps on lists are continuous *)
Definition spike (nf n : nat) (c : C) : list C := vec (fun k => if Nat.eqb k n then c else RtoC 0) nf.
Definition trunc (nf n : nat) (v : list C) : list C := vec (fun k => if Nat.ltb k n then nth k v (RtoC 0) else RtoC 0) nf.
Lemma lc_vec : forall a b f g n, lcC a b (vec f n) (vec g n) = vec (fun k => Cplus (Cmult (RtoC a) (f k)) (Cmult (RtoC b) (g k))) n.
Proof. intros. unfold lcC, vec. rewrite map2_mm. reflexivity. Qed.
Lemma vec_ext : forall A (f g : nat -> A) n, (forall k, (k < n)%nat -> f k = g k) -> vec f n = vec g n.
Proof. intros A f g n H. unfold vec. apply map_ext_in. intros k Hk. apply in_seq in Hk. apply H. lia. Qed.
Lemma spike_lc : forall nf n (c : C), spike nf n c = lcC (fst c) (snd c) (spike nf n (RtoC 1)) (spike nf n Ci).
Proof.
  intros nf n c. unfold spike. rewrite lc_vec. apply vec_ext. intros k _. destruct (Nat.eqb k n); apply injective_projections; unfold Cplus, Cmult, RtoC, Ci; cbn [fst snd]; ring.
Qed.
Lemma trunc_S : forall nf n v, trunc nf (S n) v = lcC 1 1 (trunc nf n v) (spike nf n (nth n v (RtoC 0))).
Proof.
  intros nf n v. unfold trunc, spike. rewrite lc_vec. apply vec_ext. intros k _.
  destruct (Nat.ltb_spec k (S n)), (Nat.ltb_spec k n), (Nat.eqb_spec k n); subst; try lia; apply injective_projections; unfold Cplus, Cmult, RtoC; cbn [fst snd]; ring.
Qed.
Lemma trunc_all : forall nf v, List.length v = nf -> trunc nf nf v = v.
Proof.
  intros nf v H. apply (nth_ext _ _ (RtoC 0) (RtoC 0)); [unfold trunc; now rewrite vec_length|]. intros k Hk. unfold trunc in *. rewrite vec_length in Hk. rewrite vec_nth by exact Hk.
  destruct (Nat.ltb_spec k nf); [reflexivity|lia].
Qed.
Theorem linear_continuous : forall calc L nf nt, linear_ft calc L nf nt -> forall (v : T -> list C) v0, (forall t, List.length (v t) = nf) -> List.length v0 = nf ->
  (forall k, (k < nf)%nat -> toC (fun t => nth k (v t) (RtoC 0)) (nth k v0 (RtoC 0))) ->
  forall j, (j < nt)%nat -> toR (fun t => nth j (L (v t)) 0%R) (nth j (L v0) 0%R).
Proof using FF.
  intros calc L nf nt HL v v0 Lv L0 H j Hj.
  assert (SP : forall n c, List.length (spike nf n c) = nf) by (intros; apply vec_length).
  assert (TR : forall n u, List.length (trunc nf n u) = nf) by (intros; apply vec_length).
  assert (LIN : forall a b p q, List.length p = nf -> List.length q = nf -> nth j (L (lcC a b p q)) 0%R = (a * nth j (L p) 0 + b * nth j (L q) 0)%R).
  { intros a b p q Hp Hq. rewrite (ft_lin _ _ _ _ HL) by assumption. unfold lcR. rewrite (map2_nth _ _ _ _ _ _ j 0%R 0%R 0%R) by (rewrite (ft_len _ _ _ _ HL); assumption). reflexivity. }
  assert (G : forall n, (n <= nf)%nat -> toR (fun t => nth j (L (trunc nf n (v t))) 0%R) (nth j (L (trunc nf n v0)) 0%R)).
  { induction n as [|n IH]; intros Hn.
    - assert (E : forall u w : list C, trunc nf 0 u = trunc nf 0 w) by (intros u w; apply vec_ext; reflexivity).
      apply (filterlim_ext (fun _ => nth j (L (trunc nf 0 v0)) 0%R)); [intros t; now rewrite (E (v t) v0)|]. now apply toR_const.
    - rewrite trunc_S, LIN, spike_lc, LIN by auto.
      apply (filterlim_ext (fun t => (1 * nth j (L (trunc nf n (v t))) 0 + 1 * (fst (nth n (v t) (RtoC 0)) * nth j (L (spike nf n (RtoC 1))) 0 + snd (nth n (v t) (RtoC 0)) * nth j (L (spike nf n Ci)) 0))%R)).
      { intros t. rewrite trunc_S, LIN, (spike_lc nf n (nth n (v t) (RtoC 0))), LIN by auto. reflexivity. }
      destruct (H n Hn) as [A B].
      apply toR_plus; [assumption|apply toR_mult; [assumption|now apply toR_const|apply IH; lia]|]. apply toR_mult; [assumption|now apply toR_const|].
      apply toR_plus; [assumption|apply toR_mult; [assumption|exact A|now apply toR_const]|apply toR_mult; [assumption|exact B|now apply toR_const]]. }
  specialize (G nf (le_n nf)). rewrite trunc_all in G by exact L0.
  apply (filterlim_ext (fun t => nth j (L (trunc nf nf (v t))) 0%R)); [intros t; now rewrite trunc_all by apply Lv|exact G].
Qed.

(** ** Tables *)
Definition ent (M : list (list C)) (i j : nat) : C := nth j (nth i M []) (RtoC 0).
Definition entR (M : list (list R)) (i j : nat) : R := nth j (nth i M []) 0%R.

Theorem tem_continuous : forall calc L nf nt freq, linear_ft calc L nf nt -> List.length freq = nf ->
  forall noff signal conv (x : T -> list (list C)) x0, (forall t, List.length (x t) = nf) -> List.length x0 = nf ->
  (forall i j, (i < nf)%nat -> (j < noff)%nat -> toC (fun t => ent (x t) i j) (ent x0 i j)) ->
  exists y0 (y : T -> list (list R)), tem calc nt noff x0 freq signal None conv = Ok (y0, conv) /\ (forall t, tem calc nt noff (x t) freq signal None conv = Ok (y t, conv)) /\
  forall i j, (i < nt)%nat -> (j < noff)%nat -> toR (fun t => entR (y t) i j) (entR y0 i j).
Proof using FF.
  intros calc L nf nt freq HL Hf noff signal conv x x0 Lx L0 H.
  exists (map (fun i => map (fun j => tem_value L (column j x0) (map (step_factor signal) freq) i) (seq 0 noff)) (seq 0 nt)). exists (fun t => map (fun i => map (fun j => tem_value L (column j (x t)) (map (step_factor signal) freq) i) (seq 0 noff)) (seq 0 nt)).
  split; [apply (tem_closed calc L nf nt freq HL Hf noff x0 signal None conv L0)|]. split; [intros t; apply (tem_closed calc L nf nt freq HL Hf noff (x t) signal None conv (Lx t))|].
  intros i j Hi Hj.
  assert (E : forall f : nat -> nat -> R, entR (map (fun i => map (f i) (seq 0 noff)) (seq 0 nt)) i j = f i j).
  { intros f. unfold entR. rewrite nth_map_seq0 by exact Hi. now rewrite nth_map_seq0 by exact Hj. }
  rewrite (E (fun i j => tem_value L (column j x0) (map (step_factor signal) freq) i)).
  apply (filterlim_ext (fun t => tem_value L (column j (x t)) (map (step_factor signal) freq) i)); [intros t; symmetry; apply (E (fun i j => tem_value L (column j (x t)) (map (step_factor signal) freq) i))|].
  unfold tem_value. apply toR_mult; [assumption|now apply toR_const|].
  assert (LC : forall y, List.length y = nf -> List.length (map2 Cmult (column j y) (map (step_factor signal) freq)) = nf).
  { intros y Hy. rewrite map2_length, column_length, map_length. lia. }
  apply (linear_continuous calc L nf nt HL (fun t => map2 Cmult (column j (x t)) (map (step_factor signal) freq))); [intros t; apply LC, Lx|now apply LC| |exact Hi].
  intros k Hk.
  assert (CN : forall y, List.length y = nf -> nth k (map2 Cmult (column j y) (map (step_factor signal) freq)) (RtoC 0) = Cmult (ent y k j) (nth k (map (step_factor signal) freq) (RtoC 0))).
  { intros y Hy. rewrite (map2_nth _ _ _ _ _ _ k (RtoC 0) (RtoC 0) (RtoC 0)) by (rewrite ?column_length, ?map_length; lia). f_equal.
    unfold column, ent. set (g := fun r : list C => nth j r (RtoC 0)). rewrite (nth_indep _ (RtoC 0) (g [])) by (rewrite map_length; lia). now rewrite map_nth. }
  rewrite (CN x0 L0). apply (toC_ext F (fun t => Cmult (ent (x t) k j) (nth k (map (step_factor signal) freq) (RtoC 0)))); [intros t; symmetry; apply CN, Lx|].
  apply toC_mult; [assumption|now apply H|now apply toC_const].
Qed.

(** ** All frequencies and offsets of a survey *)
Section All.
Variables (x : T -> earth) (x0 : earth) (N : nat) (m : mins) (zs zr : T -> R) (zs0 zr0 : R) (fr off ang : T -> nat -> R) (fr0 off0 ang0 : nat -> R) (nf no : nat).
Hypothesis CE : conv_earth F N x x0.
Hypothesis S0 : sane N x0.
Hypothesis S1 : F (fun t => sane N (x t)).
Hypothesis Hm : (0 < min_freq m)%R.
Hypothesis Is : toR zs zs0.
Hypothesis Ir : toR zr zr0.
Hypothesis If : forall k, (k < nf)%nat -> (0 < fr0 k)%R /\ toR (fun t => fr t k) (fr0 k).
Hypothesis Io : forall k, (k < no)%nat -> (0 < off0 k)%R /\ toR (fun t => off t k) (off0 k).
Hypothesis Ia : forall k, (k < no)%nat -> toR (fun t => ang t k) (ang0 k).
Hypothesis Hnf : (0 < nf)%nat.
Hypothesis Hno : (0 < no)%nat.
Variables (spl : interp) (filt : dfilter) (ab : Z) (xd msrc mrec : bool).
Hypothesis HF : well_formed filt.
Hypothesis HV : valid_call ab msrc mrec.
Hypothesis D : forall k, (1 <= k <= N)%nat -> x_dep x0 k <> zs0 /\ x_dep x0 k <> zr0.
Hypothesis X : xd = false -> zs0 <> zr0.

Definition val (y : earth) (a b f o an : R) : C := dlf_value filt ab (kern a b (lay (x_dep y) N a) (lay (x_dep y) N b) (x_dep y) N ab xd msrc mrec (row1 m N f y)) o an.
Definition whole (y : earth) (a b : R) (fs os ans : list R) := dlf_calc spl filt 0 a b (Z.of_nat (lay (x_dep y) N a)) (Z.of_nat (lay (x_dep y) N b)) (depth_arr (x_dep y) N) ab msrc mrec (rowsL m N fs y) os ans xd.
Lemma whole_table : forall y a b (f o an : nat -> R), sane N y -> (forall k, (k < nf)%nat -> (0 < f k)%R) -> (forall k, (k < no)%nat -> (0 < o k)%R) ->
  whole y a b (vec f nf) (vec o no) (vec an no) = Ok (vec (fun i => vec (fun j => val y a b (f i) (o j) (an j)) no) nf, 1%Z, true).
Proof using HF HV Hm Hnf Hno.
  intros y a b f o an SA Pf Po. unfold whole. rewrite rowsL_arr; [|intros u Hu; apply vec_in in Hu; destruct Hu as (k & Hk & ->); now apply Pf|now apply vec_nil].
  rewrite (dlf_separable spl filt (x_dep y) N ab msrc mrec (lay (x_dep y) N a) (lay (x_dep y) N b) a b xd HF HV (lay_le _ _ _) (lay_le _ _ _)).
  - do 3 f_equal. unfold table, vec. rewrite !map_map. apply map_ext. intros i. unfold val.
    clear - X. induction (seq 0 no) as [|j l IH]; [reflexivity|]. cbn [map combine fst snd]. now rewrite IH.
  - intros Q. apply map_eq_nil in Q. exact (vec_nil _ f nf Hnf Q).
  - now apply vec_nil.
  - now rewrite !vec_length.
  - intros w Hw. apply in_map_iff in Hw. destruct Hw as (u & <- & _). eexists _, _, _, _. split; [|reflexivity]. now apply rows_passive.
  - intros u Hu. apply vec_in in Hu. destruct Hu as (k & Hk & ->). now apply Po.
Qed.
Lemma val_single : forall y a b f o an, sane N y -> (0 < o)%R -> dlf_calc spl filt 0 a b (Z.of_nat (lay (x_dep y) N a)) (Z.of_nat (lay (x_dep y) N b)) (depth_arr (x_dep y) N) ab msrc mrec (rows m N f y) [o] [an] xd = Ok ([[val y a b f o an]], 1%Z, true).
Proof using HF HV Hm.
  intros y a b f o an SA Po. rewrite rows_arr.
  rewrite (dlf_separable spl filt (x_dep y) N ab msrc mrec (lay (x_dep y) N a) (lay (x_dep y) N b) a b xd HF HV (lay_le _ _ _) (lay_le _ _ _)); try discriminate; try reflexivity.
  - intros w [<-|[]]. eexists _, _, _, _. split; [|reflexivity]. now apply rows_passive.
  - intros u [<-|[]]. exact Po.
Qed.
Lemma val_lim : forall i j, (i < nf)%nat -> (j < no)%nat -> toC (fun t => val (x t) (zs t) (zr t) (fr t i) (off t j) (ang t j)) (val x0 zs0 zr0 (fr0 i) (off0 j) (ang0 j)).
Proof using All.
  intros i j Hi Hj. destruct (If i Hi) as [Pf Lf]. destruct (Io j Hj) as [Po Lo]. assert (Nf : fr0 i <> 0%R) by lra.
  destruct (dlf_model_continuous F x x0 N m (fun t => fr t i) zs zr (fun t => off t j) (fun t => ang t j) (fr0 i) zs0 zr0 (off0 j) (ang0 j) CE S0 S1 Hm Nf Po Lf Is Ir Lo (Ia j Hj) spl filt ab xd msrc mrec HF HV D X) as (v & E & H).
  rewrite val_single in E by assumption. injection E as <-. apply toC_eps; [assumption|]. intros e He.
  pose proof (toR_lt F (fun _ => 0%R) (fun t => off t j) 0 (off0 j) (toR_const F 0) Lo Po) as Q.
  eapply filter_imp; [|exact (filter_and _ _ (filter_and _ _ S1 Q) (H e He))]. intros t [[A B] (v' & E & V)]. cbn beta in *. rewrite val_single in E by assumption. injection E as <-. exact V.
Qed.
Lemma pos_f : F (fun t => forall k, (k < nf)%nat -> (0 < fr t k)%R).
Proof using All. apply all_lt. intros k Hk. destruct (If k Hk) as [P L]. exact (toR_lt F (fun _ => 0%R) (fun t => fr t k) 0 (fr0 k) (toR_const F 0) L P). Qed.
Lemma pos_o : F (fun t => forall k, (k < no)%nat -> (0 < off t k)%R).
Proof using All. apply all_lt. intros k Hk. destruct (Io k Hk) as [P L]. exact (toR_lt F (fun _ => 0%R) (fun t => off t k) 0 (off0 k) (toR_const F 0) L P). Qed.
Lemma tab_ent : forall (g : nat -> nat -> C) i j, (i < nf)%nat -> (j < no)%nat -> ent (vec (fun i => vec (g i) no) nf) i j = g i j.
Proof. intros g i j Hi Hj. unfold ent. rewrite vec_nth by exact Hi. now apply vec_nth. Qed.

Theorem survey_continuous : exists v, whole x0 zs0 zr0 (vec fr0 nf) (vec off0 no) (vec ang0 no) = Ok (v, 1%Z, true) /\
  forall e : R, (0 < e)%R -> F (fun t => exists v', whole (x t) (zs t) (zr t) (vec (fr t) nf) (vec (off t) no) (vec (ang t) no) = Ok (v', 1%Z, true) /\
    forall i j, (i < nf)%nat -> (j < no)%nat -> (Cmod (Cminus (ent v' i j) (ent v i j)) < e)%R).
Proof using All.
  eexists. split; [apply whole_table; [exact S0|intros k Hk; apply (If k Hk)|intros k Hk; apply (Io k Hk)]|]. intros e He.
  assert (V : F (fun t => forall i, (i < nf)%nat -> forall j, (j < no)%nat -> (Cmod (Cminus (val (x t) (zs t) (zr t) (fr t i) (off t j) (ang t j)) (val x0 zs0 zr0 (fr0 i) (off0 j) (ang0 j))) < e)%R)).
  { apply all_lt. intros i Hi. apply all_lt. intros j Hj. exact (proj1 (toC_eps F _ _) (val_lim i j Hi Hj) e He). }
  eapply filter_imp; [|exact (filter_and _ _ (filter_and _ _ S1 V) (filter_and _ _ pos_f pos_o))]. intros t [[A B] [C1 C2]]. cbn beta in *.
  eexists. split; [now apply whole_table|]. intros i j Hi Hj. rewrite !(tab_ent (fun i j => val _ _ _ _ _ _)) by assumption. now apply B.
Qed.
Theorem time_continuous : (forall t, fr t = fr0) -> forall calc L nt signal, linear_ft calc L nf nt ->
  let run y a b os ans := ('(fEM, _, cv) <- whole y a b (vec fr0 nf) os ans ;; tem calc nt no fEM (vec fr0 nf) signal None cv) in
  exists v, run x0 zs0 zr0 (vec off0 no) (vec ang0 no) = Ok (v, true) /\
  forall e : R, (0 < e)%R -> F (fun t => exists v', run (x t) (zs t) (zr t) (vec (off t) no) (vec (ang t) no) = Ok (v', true) /\
    forall i j, (i < nt)%nat -> (j < no)%nat -> (Rabs (entR v' i j - entR v i j) < e)%R).
Proof using All.
  intros FX calc L nt signal HL run.
  destruct (tem_continuous calc L nf nt (vec fr0 nf) HL (vec_length _ _ _) no signal true
    (fun t => vec (fun i => vec (fun j => val (x t) (zs t) (zr t) (fr t i) (off t j) (ang t j)) no) nf) (vec (fun i => vec (fun j => val x0 zs0 zr0 (fr0 i) (off0 j) (ang0 j)) no) nf)) as (y0 & y & E0 & E & H).
  - intros t. apply vec_length.
  - apply vec_length.
  - intros i j Hi Hj. rewrite (tab_ent (fun i j => val x0 zs0 zr0 (fr0 i) (off0 j) (ang0 j))) by assumption.
    apply (toC_ext F (fun t => val (x t) (zs t) (zr t) (fr t i) (off t j) (ang t j))); [intros t; now rewrite (tab_ent (fun i j => val (x t) (zs t) (zr t) (fr t i) (off t j) (ang t j)))|]. now apply val_lim.
  - exists y0. split.
    { unfold run. rewrite whole_table; [|exact S0|intros k Hk; apply (If k Hk)|intros k Hk; apply (Io k Hk)]. cbn [bind]. exact E0. }
    intros e He.
    assert (V : F (fun t => forall i, (i < nt)%nat -> forall j, (j < no)%nat -> (Rabs (entR (y t) i j - entR y0 i j) < e)%R)).
    { apply all_lt. intros i Hi. apply all_lt. intros j Hj. exact (proj1 (toR_eps F _ _) (H i j Hi Hj) e He). }
    eapply filter_imp; [|exact (filter_and _ _ (filter_and _ _ S1 V) pos_o)]. intros t [[A B] C2]. cbn beta in *.
    exists (y t). split; [|intros i j Hi Hj; now apply B]. unfold run. rewrite whole_table; [|exact A|intros k Hk; apply (If k Hk)|exact C2]. cbn [bind]. specialize (E t). cbn beta in E. rewrite (FX t) in E. exact E.
Qed.
End All.
End Lim.
