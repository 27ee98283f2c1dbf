(** Lagged convolution and splined DLF (C15, C16). *)

From Coq Require Import ZArith Reals List Bool String Lia Lra Psatz.
From Coquelicot Require Import Coquelicot.
From Verif Require Import PyBase CBase Kernel Utils UtilsLayer Transform TransformDlf.
Import ListNotations.
Local Open Scope R_scope.
Local Open Scope C_scope.
Local Open Scope res_scope.

(** ** Specification *)

(** An interpolator that is linear in the values. *)
Definition linear_interp (spl : interp) : Prop :=
  (forall (v p q : list R), List.length v = List.length p -> List.length (spl v p q) = List.length q) /\
  (forall (c : R) (u v p q : list R), List.length u = List.length p -> List.length v = List.length p ->
     spl (map2 (fun x y => x + c * y)%R u v) p q = map2 (fun x y => x + c * y)%R (spl u p q) (spl v p q)).

(** Geometric base: b_j = b_0 factor^j *)
Definition geometric (filt : dfilter) (b0 : R) : Prop :=
  0 < b0 /\ 1 < f_factor filt /\ f_base filt <> [] /\
  forall j, (j < List.length (f_base filt))%nat -> nth j (f_base filt) 0%R = (b0 * f_factor filt ^ j)%R.

(** ** ceiling *)
Lemma ceilZ_IZR : forall z, ceilZ (IZR z) = z.
Proof.
  intros z. unfold ceilZ. rewrite <- opp_IZR.
  assert (E : Int_part (IZR (- z)) = (- z)%Z).
  { unfold Int_part. rewrite <- (tech_up (IZR (- z)) (- z + 1)%Z); [lia| |]; rewrite plus_IZR; lra. }
  rewrite E. lia.
Qed.
Lemma ceilZ_ge : forall x, x <= IZR (ceilZ x).
Proof.
  intros x. unfold ceilZ. rewrite opp_IZR. destruct (base_Int_part (- x)) as [H _]. lra.
Qed.

Lemma arange_exact : forall a (n : Z) s, (0 <= n)%Z -> 0 < s ->
  arange a (a + IZR n / (1 / s)) (1 / (1 / s)) = map (fun k => a + INR k * s)%R (seq 0 (Z.to_nat n)).
Proof.
  intros a n s Hn Hs. unfold arange.
  replace ((a + IZR n / (1 / s) - a) / (1 / (1 / s)))%R with (IZR n) by (field; lra).
  rewrite ceilZ_IZR. apply map_ext. intros k. f_equal. f_equal. field. lra.
Qed.

(** ** The rearrangement *)
Lemma concat_repeat_length : forall A (v : list A) n, List.length (List.concat (repeat v n)) = (n * List.length v)%nat.
Proof. induction n; simpl; [reflexivity|]. rewrite app_length, IHn. reflexivity. Qed.

Lemma nth_concat_repeat : forall A (d : A) (v : list A) n k, (k < n * List.length v)%nat ->
  nth k (List.concat (repeat v n)) d = nth (k mod List.length v) v d.
Proof.
  intros A d v. induction n as [|n IH]; intros k Hk; [simpl in Hk; lia|]. simpl in *.
  destruct (Nat.lt_ge_cases k (List.length v)) as [L | L].
  - rewrite app_nth1 by lia. now rewrite Nat.mod_small.
  - rewrite app_nth2 by lia. rewrite IH by lia.
    f_equal. replace k with ((k - List.length v) + 1 * List.length v)%nat at 2 by lia.
    rewrite Nat.mod_add by lia. reflexivity.
Qed.

Lemma nth_firstn : forall A (d : A) (l : list A) n k, (k < n)%nat -> nth k (firstn n l) d = nth k l d.
Proof.
  induction l as [|x l IH]; intros [|n] [|k] H; simpl; try lia; auto. apply IH. lia.
Qed.
Lemma nth_skipn : forall A (d : A) (l : list A) n k, nth k (skipn n l) d = nth (n + k) l d.
Proof.
  induction l as [|x l IH]; intros [|n] k; simpl; auto. now destruct k.
Qed.

Theorem rearrange_spec : forall A (zero : A) (val : list A) n nb,
  (0 < n)%nat -> (n + nb <= List.length val + 1)%nat ->
  rearrange zero val n nb = map (fun i => map (fun j => nth (i + j) val zero) (seq 0 nb)) (seq 0 n).
Proof.
  intros A zero val n nb Hn Hl. unfold rearrange.
  set (m := List.length val) in *.
  assert (E : (List.length (List.concat (repeat val n) ++ repeat zero n) / n = m + 1)%nat).
  { rewrite app_length, concat_repeat_length, repeat_length. fold m.
    replace (n * m + n)%nat with ((m + 1) * n)%nat by lia. apply Nat.div_mul. lia. }
  rewrite E. apply map_ext_in. intros i Hi. apply in_seq in Hi.
  assert (LL : List.length (firstn nb (firstn (m + 1) (skipn (i * (m + 1)) (List.concat (repeat val n) ++ repeat zero n)))) = nb).
  { rewrite !firstn_length, skipn_length, app_length, concat_repeat_length, repeat_length. fold m. nia. }
  apply (nth_ext _ _ zero zero).
  - rewrite map_length, seq_length. exact LL.
  - rewrite LL. intros j Hj. rewrite nth_map_seq0 by lia.
    rewrite nth_firstn by lia. rewrite nth_firstn by lia. rewrite nth_skipn.
    rewrite app_nth1 by (rewrite concat_repeat_length; fold m; nia).
    rewrite nth_concat_repeat by (fold m; nia). fold m. f_equal.
    replace (i * (m + 1) + j)%nat with ((i + j) + i * m)%nat by lia.
    rewrite Nat.mod_add by lia. apply Nat.mod_small. lia.
Qed.

(** ** The grid of the lagged convolution *)
Section Grid.
Variables (filt : dfilter) (b0 : R) (off : list R) (imin imax : R).
Hypothesis HG : geometric filt b0.
Hypothesis Hmin : lmin off = Ok imin.
Hypothesis Hmax : lmax off = Ok imax.
Hypothesis Hpos : forall r, In r off -> 0 < r.

Definition lag_nout : Z :=
  nout_lag (List.length (f_base filt)) (b0 / imax) (nth (List.length (f_base filt) - 1) (f_base filt) 0 / imin)
           (1 / ln (f_factor filt)).
Definition lag_n : nat := Z.to_nat (lag_nout - Z.of_nat (List.length (f_base filt)) + 1).
(** the intermediate offsets imax, imax/factor, imax/factor^2, ... *)
Definition lag_pts : list R := map (fun i => imax / f_factor filt ^ i)%R (seq 0 lag_n).
Definition lag_lam : list R := map (fun k => b0 / imax * f_factor filt ^ k)%R (seq 0 (Z.to_nat lag_nout)).

Lemma lag_nout_ge : (Z.of_nat (List.length (f_base filt)) + 3 <= lag_nout)%Z.
Proof. unfold lag_nout, nout_lag. destruct (Z.ltb_spec (ceilZ (ln (nth (List.length (f_base filt) - 1) (f_base filt) 0 / imin / (b0 / imax)) * (1 / ln (f_factor filt))) + 1 - Z.of_nat (List.length (f_base filt))) 3); lia. Qed.

Lemma lag_n_ge : (4 <= lag_n)%nat.
Proof. unfold lag_n. pose proof lag_nout_ge. lia. Qed.

Lemma lag_lengths : (lag_n + List.length (f_base filt) = List.length lag_lam + 1)%nat.
Proof. unfold lag_lam. rewrite map_length, seq_length. unfold lag_n. pose proof lag_nout_ge. lia. Qed.

Lemma off_nonempty : off <> [].
Proof. intros ->. discriminate Hmin. Qed.

Lemma imin_imax : 0 < imin /\ imin <= imax /\ 0 < imax /\ forall r, In r off -> imin <= r <= imax.
Proof.
  destruct (lmin_spec off off_nonempty) as [m [E1 [I1 A1]]]. rewrite Hmin in E1. inversion E1; subst m.
  destruct (lmax_spec off off_nonempty) as [m [E2 [I2 A2]]]. rewrite Hmax in E2. inversion E2; subst m.
  pose proof (Hpos _ I1). pose proof (Hpos _ I2). pose proof (A1 _ I2). repeat split; auto.
Qed.

Lemma exp_ln_pow : forall x k, 0 < x -> exp (INR k * ln x) = (x ^ k)%R.
Proof. intros x k H. fold (Rpower x (INR k)). now apply Rpower_pow. Qed.

Theorem get_dlf_points_lagged : forall nr, nr < 0 ->
  get_dlf_points filt off nr = Ok ([lag_lam], PLag lag_pts).
Proof.
  intros nr Hnr. destruct HG as [Hb0 [Hf [Hne Hb]]]. destruct imin_imax as [P1 [P2 [P3 _]]].
  unfold get_dlf_points. rewrite Reqb_false by lra. rewrite Hmin, Hmax. cbn [bind].
  assert (Lb : (0 < List.length (f_base filt))%nat) by (destruct (f_base filt); [congruence|simpl; lia]).
  assert (E1 : idx (f_base filt) (-1) = Ok (nth (List.length (f_base filt) - 1) (f_base filt) 0%R)).
  { unfold idx, norm_idx. simpl Z.ltb at 2.
    change (-1 <? 0)%Z with true. cbv iota. unfold zlen.
    destruct (Z.ltb_spec (-1 + Z.of_nat (List.length (f_base filt))) 0) as [?|_]; [lia|].
    rewrite (nth_error_nth' (f_base filt) 0%R) by lia. f_equal. f_equal. lia. }
  assert (E0 : idx (f_base filt) 0 = Ok b0).
  { change 0%Z with (Z.of_nat 0). rewrite (idx_nth _ _ 0%nat 0%R Lb). rewrite (Hb 0%nat Lb). simpl. f_equal. ring. }
  rewrite E1, E0. cbn [bind]. rewrite Rltb_true by lra. fold lag_nout.
  assert (Lf : 0 < ln (f_factor filt)) by (rewrite <- ln_1; apply ln_increasing; lra).
  rewrite arange_exact; [|pose proof lag_nout_ge; lia|exact Lf].
  f_equal. f_equal; [f_equal|f_equal].
  - unfold lag_lam. rewrite map_map. apply map_ext. intros k.
    rewrite exp_plus, exp_ln by (apply Rdiv_lt_0_compat; lra). f_equal. apply exp_ln_pow. lra.
  - unfold lag_pts. fold lag_n. apply map_ext. intros k. unfold Rdiv. f_equal.
    replace (- INR k * / (1 * / ln (f_factor filt)))%R with (- (INR k * ln (f_factor filt)))%R by (field; lra).
    rewrite exp_Ropp. f_equal. apply exp_ln_pow. lra.
Qed.

(** value i+j of the kernel points is b_j divided by intermediate offset i *)
Theorem lag_points_match : forall i j, (i < lag_n)%nat -> (j < List.length (f_base filt))%nat ->
  nth (i + j) lag_lam 0%R = (nth j (f_base filt) 0 / nth i lag_pts 0)%R.
Proof.
  intros i j Hi Hj. destruct HG as [Hb0 [Hf [Hne Hb]]]. destruct imin_imax as [P1 [P2 [P3 _]]].
  pose proof lag_lengths as L. unfold lag_lam in L. rewrite map_length, seq_length in L.
  unfold lag_lam, lag_pts. rewrite !nth_map_seq0 by lia. rewrite Hb by lia. rewrite pow_add.
  assert (f_factor filt ^ i <> 0)%R by (apply pow_nonzero; lra). field. lra.
Qed.

(** the intermediate offsets enclose all requested offsets *)
Theorem lag_points_cover : nth 0 lag_pts 0%R = imax /\ nth (lag_n - 1) lag_pts 0%R <= imin.
Proof.
  destruct HG as [Hb0 [Hf [Hne Hb]]]. destruct imin_imax as [P1 [P2 [P3 _]]]. pose proof lag_n_ge as G.
  unfold lag_pts. rewrite !nth_map_seq0 by lia. split; [simpl; field|].
  set (F := f_factor filt) in *. set (nb := List.length (f_base filt)) in *.
  assert (Lb : (0 < nb)%nat) by (unfold nb; destruct (f_base filt); [congruence|simpl; lia]).
  assert (Lf : 0 < ln F) by (rewrite <- ln_1; apply ln_increasing; lra).
  assert (Hp : 0 < F ^ (lag_n - 1)) by (apply pow_lt; lra).
  apply (Rmult_le_reg_r (F ^ (lag_n - 1))); [exact Hp|]. unfold Rdiv. rewrite Rmult_assoc, Rinv_l by lra. rewrite Rmult_1_r.
  assert (KEY : ln (imax / imin) <= INR (lag_n - 1) * ln F).
  { assert (E : (ln (nth (nb - 1) (f_base filt) 0 / imin / (b0 / imax)) * (1 / ln F) = INR (nb - 1) + ln (imax / imin) / ln F)%R).
    { rewrite (Hb (nb - 1)%nat) by (fold nb; lia). fold F.
      replace (b0 * F ^ (nb - 1) / imin / (b0 / imax))%R with (F ^ (nb - 1) * (imax / imin))%R by (field; lra).
      rewrite ln_mult; [|apply pow_lt; lra|apply Rdiv_lt_0_compat; lra]. rewrite ln_pow by lra. field. lra. }
    assert (N : INR (nb - 1) + ln (imax / imin) / ln F + 1 <= IZR lag_nout).
    { unfold lag_nout, nout_lag. fold nb. fold F. rewrite E. pose proof (ceilZ_ge (INR (nb - 1) + ln (imax / imin) / ln F)) as Hc.
      destruct (Z.ltb_spec (ceilZ (INR (nb - 1) + ln (imax / imin) / ln F) + 1 - Z.of_nat nb) 3) as [L|L].
      - assert (IZR (ceilZ (INR (nb - 1) + ln (imax / imin) / ln F) + 1) <= IZR (Z.of_nat nb + 3)) by (apply IZR_le; lia).
        rewrite plus_IZR in H. lra.
      - rewrite plus_IZR. lra. }
    assert (M : INR (lag_n - 1) = (IZR lag_nout - INR nb)%R).
    { pose proof lag_nout_ge as Q. fold nb in Q. rewrite !INR_IZR_INZ, <- minus_IZR. f_equal. unfold lag_n. fold nb. lia. }
    rewrite M. rewrite minus_INR in N by lia. simpl in N.
    apply (Rmult_le_reg_r (/ ln F)); [now apply Rinv_0_lt_compat|]. rewrite Rmult_assoc, Rinv_r, Rmult_1_r by lra.
    unfold Rdiv in N. lra. }
  rewrite <- (exp_ln_pow F) by lra. rewrite <- (exp_ln imax P3) at 1. rewrite <- (exp_ln imin P1) at 1. rewrite <- exp_plus.
  destruct KEY as [KEY|KEY]; rewrite ln_div in KEY by lra.
  - left. apply exp_increasing. lra.
  - right. f_equal. lra.
Qed.

Lemma lag_lam_pos : forall x, In x lag_lam -> 0 < x.
Proof.
  destruct HG as [Hb0 [Hf _]]. destruct imin_imax as [_ [_ [P3 _]]].
  intros x Hx. unfold lag_lam in Hx. apply in_map_iff in Hx. destruct Hx as [k [<- _]].
  apply Rmult_lt_0_compat; [apply Rdiv_lt_0_compat; lra|apply pow_lt; lra].
Qed.
Lemma lag_pts_pos : forall x, In x lag_pts -> 0 < x.
Proof.
  destruct HG as [Hb0 [Hf _]]. destruct imin_imax as [_ [_ [P3 _]]].
  intros x Hx. unfold lag_pts in Hx. apply in_map_iff in Hx. destruct Hx as [k [<- _]].
  apply Rdiv_lt_0_compat; [lra|apply pow_lt; lra].
Qed.
End Grid.

(** ** Complex interpolation *)
Lemma cspl_length : forall spl, linear_interp spl -> forall v p q, List.length v = List.length p ->
  List.length (cspl spl v p q) = List.length q.
Proof.
  intros spl [HL _] v p q H. unfold cspl. rewrite map2_length, !HL by (rewrite map_length; auto). apply Nat.min_id.
Qed.

Lemma map2_pair_map : forall X (F : X -> R) (G : X -> R) (l : list X),
  map2 (fun a b => (a, b)) (map F l) (map G l) = map (fun x => (F x, G x)) l.
Proof. intros. apply map2_mm. Qed.

Lemma map2_ext_len : forall A B D (F : A -> B -> D) (da : A) (db : B) (dd : D) a b c,
  List.length a = List.length b -> List.length c = List.length a ->
  (forall k, (k < List.length a)%nat -> nth k c dd = F (nth k a da) (nth k b db)) -> map2 F a b = c.
Proof.
  intros A B D F da db dd a b c L1 L2 H. apply (nth_ext _ _ dd dd).
  - rewrite map2_length. lia.
  - rewrite map2_length. intros k Hk. rewrite (map2_nth _ _ _ _ _ _ k da db dd) by lia. symmetry. apply H. lia.
Qed.

(** interpolation of u + c v, c real *)
Lemma cspl_linear : forall spl, linear_interp spl -> forall X (U V : X -> C) (c : R) (l : list X) p q,
  List.length l = List.length p ->
  cspl spl (map (fun x => Cplus (U x) (Cmult (RtoC c) (V x))) l) p q
  = map2 (fun a b => Cplus a (Cmult (RtoC c) b)) (cspl spl (map U l) p q) (cspl spl (map V l) p q).
Proof.
  intros spl HS X U V c l p q HL. destruct HS as [HLen HLin] eqn:EHS. clear EHS. symmetry.
  assert (L : forall G : X -> R, List.length (spl (map G l) p q) = List.length q)
    by (intros; apply HLen; rewrite map_length; exact HL).
  assert (FS : forall f : C -> R, (f = fst \/ f = snd) -> forall W : X -> C,
     map f (map W l) = map (fun x => f (W x)) l) by (intros; apply map_map).
  unfold cspl. rewrite !FS by auto.
  assert (E1 : spl (map (fun x => fst (Cplus (U x) (Cmult (RtoC c) (V x)))) l) p q =
               map2 (fun x y => x + c * y)%R (spl (map (fun x => fst (U x)) l) p q) (spl (map (fun x => fst (V x)) l) p q)).
  { rewrite <- HLin by (rewrite map_length; exact HL). f_equal. rewrite map2_mm. apply map_ext. intros x. simpl. ring. }
  assert (E2 : spl (map (fun x => snd (Cplus (U x) (Cmult (RtoC c) (V x)))) l) p q =
               map2 (fun x y => x + c * y)%R (spl (map (fun x => snd (U x)) l) p q) (spl (map (fun x => snd (V x)) l) p q)).
  { rewrite <- HLin by (rewrite map_length; exact HL). f_equal. rewrite map2_mm. apply map_ext. intros x. simpl. ring. }
  rewrite E1, E2.
  apply (map2_ext_len _ _ _ _ (RtoC 0) (RtoC 0) (RtoC 0)); rewrite ?map2_length, ?L; try lia.
  intros k Hk.
  assert (Hk' : (k < List.length q)%nat) by lia.
  rewrite !(map2_nth _ _ _ _ _ _ k 0%R 0%R (RtoC 0)) by (rewrite ?map2_length, ?L; lia).
  rewrite !(map2_nth _ _ _ _ _ _ k 0%R 0%R 0%R) by (rewrite ?L; lia).
  unfold Cplus, Cmult, RtoC; simpl. f_equal; ring.
Qed.

Lemma cspl_zero : forall spl, linear_interp spl -> forall n p q, n = List.length p ->
  cspl spl (czeros n) p q = czeros (List.length q).
Proof.
  intros spl HS n p q Hn.
  assert (Lz : List.length (czeros n) = n) by apply repeat_length.
  assert (Lc : List.length (cspl spl (czeros n) p q) = List.length q) by (apply cspl_length; [exact HS|now rewrite Lz]).
  pose proof (cspl_linear spl HS unit (fun _ => RtoC 0) (fun _ => RtoC 0) (-1) (repeat tt n) p q ltac:(now rewrite repeat_length)) as E.
  assert (M : map (fun _ : unit => RtoC 0) (repeat tt n) = czeros n).
  { symmetry. apply czeros_map. now rewrite repeat_length. }
  assert (M' : map (fun _ : unit => Cplus (RtoC 0) (Cmult (RtoC (-1)) (RtoC 0))) (repeat tt n) = czeros n).
  { rewrite <- M. apply map_ext. intros _. rewrite Cmult_0_r. apply Cplus_0_l. }
  rewrite M, M' in E. rewrite E.
  apply (map2_ext_len _ _ _ _ (RtoC 0) (RtoC 0) (RtoC 0)).
  - reflexivity.
  - unfold czeros at 1. rewrite repeat_length. now rewrite Lc.
  - intros k Hk. unfold czeros at 1. rewrite nth_repeat. unfold Cplus, Cmult, RtoC. simpl. f_equal; ring.
Qed.

(** ** Closed form of the lagged-convolution DLF *)
Section Lagged.
Variables (spl : interp) (wn : nat -> R -> res triple) (K : R -> triple).
Variables (used : bool * bool * bool) (filt : dfilter) (ab : Z) (b0 : R).
Hypothesis HS : linear_interp spl.
Hypothesis HK : forall l, 0 < l -> wn 0%nat l = Ok (K l).
Hypothesis HP : pattern K used.
Hypothesis HU : some_used used = true.
Hypothesis HF : well_formed filt.
Hypothesis HG : geometric filt b0.

(** interpolation of the filter sums at the intermediate offsets *)
Definition lag_interp (imin imax : R) (g : R -> C) (off : list R) : list C :=
  let p := rev (lag_pts filt b0 imin imax) in cspl spl (map g p) p off.

Lemma part_rows : forall (off : list R) imin imax p (u : bool) w,
  lmin off = Ok imin -> lmax off = Ok imax -> (forall r, In r off -> 0 < r) ->
  List.length w = List.length (f_base filt) ->
  (forall l, isSome (p (K l)) = u) ->
  forall i, (i < lag_n filt b0 imin imax)%nat ->
  (if u then dot w (map (fun j => nth (i + j) (map (fun t => oval (p t)) (map K (lag_lam filt b0 imin imax))) (RtoC 0)) (seq 0 (List.length (f_base filt)))) else RtoC 0)
  = fsum w (f_base filt) (part_of p K) (nth i (lag_pts filt b0 imin imax) 0%R).
Proof.
  intros off imin imax p u w H1 H2 H3 Hw Hu i Hi. destruct u.
  - rewrite <- dot_fsum by exact Hw. f_equal.
    apply (nth_ext _ _ (RtoC 0) (RtoC 0)); rewrite !map_length, !seq_length; [reflexivity|].
    intros j Hj. rewrite nth_map_seq0 by lia.
    pose proof (lag_lengths filt b0 imin imax) as LL.
    rewrite (nth_indep _ (RtoC 0) (oval (p (K 0%R)))) by (rewrite !map_length; lia).
    rewrite (map_nth (fun t => oval (p t)) _ (K 0%R)).
    rewrite (map_nth K).
    rewrite (nth_indep _ (RtoC 0) (part_of p K (0 / nth i (lag_pts filt b0 imin imax) 0)%R)) by (rewrite !map_length; lia).
    rewrite (map_nth (fun b => part_of p K (b / nth i (lag_pts filt b0 imin imax) 0)%R)).
    unfold part_of. rewrite (lag_points_match filt b0 off imin imax HG H1 H2 H3) by auto. reflexivity.
  - symmetry. apply fsum_0. intros l. unfold part_of. specialize (Hu l). destruct (p (K l)); [discriminate|reflexivity].
Qed.

Theorem dlf_lagged : forall (off ang : list R) imin imax nr, nr < 0 -> List.length ang = List.length off ->
  (forall r, In r off -> 0 < r) -> lmin off = Ok imin -> lmax off = Ok imax ->
  hankel_dlf spl wn used 1 off (Some ang) ab filt nr =
  Ok ([map (fun x => Cdiv (Cplus (fst (fst x)) (Cmult (RtoC (snd (snd x))) (snd (fst x)))) (RtoC (fst (snd x))))
           (combine (combine (lag_interp imin imax (sum_noang filt K) off) (lag_interp imin imax (sum_ang filt ab K) off))
                    (combine off ang))], 1%Z, true).
Proof.
  intros off ang imin imax nr Hnr Hlen Hpos Hmin Hmax.
  assert (Hne : off <> []) by (intros Eo; rewrite Eo in Hmin; discriminate Hmin).
  unfold hankel_dlf. rewrite (get_dlf_points_lagged filt b0 off imin imax HG Hmin Hmax Hpos nr Hnr). cbn [bind].
  set (lam := lag_lam filt b0 imin imax). set (pts := lag_pts filt b0 imin imax). set (n := lag_n filt b0 imin imax).
  assert (EK : kernel_array wn 1 [lam] = Ok [[map K lam]]).
  { unfold kernel_array. simpl. rewrite (mapM_ok _ _ (wn 0%nat) K); [reflexivity|].
    intros x Hx. apply HK. eapply lag_lam_pos; eauto. }
  rewrite EK. cbn [bind]. destruct HF as [W0 [W1 Wp]].
  destruct used as [[u0 u1] u0b] eqn:EU.
  assert (Hang : ang <> []) by (destruct off, ang; simpl in *; congruence).
  unfold dlf_hankel. destruct (angle_case_spec ang Hang) as [one [has [a [-> [H1 H2]]]]]. cbn [bind].
  assert (EI : exists v, inp_signal (get_part u0 t0 [[map K lam]]) (get_part u1 t1 [[map K lam]]) (get_part u0b t0b [[map K lam]]) = Ok v).
  { unfold get_part, inp_signal. destruct u0b; [eexists; reflexivity|]. destruct u1; [eexists; reflexivity|].
    destruct u0; [eexists; reflexivity|]. discriminate HU. }
  destruct EI as [v ->]. cbn [bind]. rewrite Reqb_false by lra. rewrite Rltb_true by lra. cbn [bind].
  assert (OR : forall (u : bool) p, only_row (get_part u p [[map K lam]]) = Ok (if u then Some (map (fun t => oval (p t)) (map K lam)) else None)).
  { intros [] p; reflexivity. }
  rewrite !OR. cbn [bind].
  assert (Ln : List.length pts = n) by (unfold pts, lag_pts; now rewrite map_length, seq_length).
  assert (Gn : (4 <= n)%nat) by (unfold n; apply lag_n_ge; eauto).
  set (nb := List.length (f_base filt)).
  set (row := fun (p : triple -> option C) (i : nat) => map (fun j => nth (i + j) (map (fun t => oval (p t)) (map K lam)) (RtoC 0)) (seq 0 nb)).
  assert (RE : forall (u : bool) p, option_map (fun r => rearrange (RtoC 0) r (List.length pts) nb)
       (if u then Some (map (fun t => oval (p t)) (map K lam)) else None) = mk (seq 0 n) u (row p)).
  { intros u p; destruct u; [|reflexivity]. cbn [option_map]. unfold mk. f_equal. rewrite Ln. apply rearrange_spec; [lia|].
    rewrite !map_length. pose proof (lag_lengths filt b0 imin imax). unfold lam, n, nb. lia. }
  rewrite !RE. cbn [bound bind].
  assert (EP : pts = map (fun i => nth i pts 0%R) (seq 0 n)).
  { apply (nth_ext _ _ 0%R 0%R); rewrite ?map_length, ?seq_length, Ln; [reflexivity|].
    intros i Hi. now rewrite nth_map_seq0. }
  pose proof HP as P. unfold pattern in P.
  set (N := N_ filt (row t0) u0). set (A := A_ filt ab (fun i => nth i pts 0%R) (row t1) (row t0b) u1 u0b).
  assert (EN : forall i, (i < n)%nat -> N i = sum_noang filt K (nth i pts 0%R)).
  { intros i Hi. unfold N, N_, sum_noang, row. apply (part_rows off); auto. intros; apply P. }
  assert (EA : forall i, (i < n)%nat -> A i = sum_ang filt ab K (nth i pts 0%R)).
  { intros i Hi. unfold A, A_, sum_ang, row.
    rewrite (part_rows off imin imax t1 u1 (f_j1 filt)) by (auto; intros; apply P).
    rewrite (part_rows off imin imax t0b u0b (f_j0 filt)) by (auto; intros; apply P). reflexivity. }
  assert (RM : forall (G : nat -> C) (g : R -> C), (forall i, (i < n)%nat -> G i = g (nth i pts 0%R)) ->
     rev (map G (seq 0 n)) = map g (rev pts)).
  { intros G g H. rewrite map_rev. f_equal. rewrite EP at 1. rewrite map_map. apply map_ext_in.
    intros i Hi. apply in_seq in Hi. apply H. lia. }
  assert (ES : forall u q, isSome (get_part u q [[map K lam]]) = u) by (intros [] q; reflexivity).
  assert (EM : forall u q, isSome (mk (seq 0 n) u q) = u) by (intros [] q; reflexivity).
  assert (Lr : List.length (rev pts) = n) by (now rewrite rev_length).
  assert (LI : forall g, List.length (lag_interp imin imax g off) = List.length off).
  { intros g. unfold lag_interp. apply cspl_length; [exact HS|]. now rewrite map_length. }
  f_equal. f_equal. f_equal. f_equal.
  transitivity (vdivr (map (fun x => Cplus (fst (fst x)) (Cmult (RtoC (snd (snd x))) (snd (fst x))))
           (combine (combine (lag_interp imin imax (sum_noang filt K) off) (lag_interp imin imax (sum_ang filt ab K) off))
                    (combine off ang))) off).
  2:{ unfold vdivr. set (L := combine (combine _ _) _).
      assert (Eo : off = map (fun x => fst (snd x)) L).
      { unfold L. rewrite <- (map_map snd fst). rewrite combine_snd; [symmetry; apply combine_fst; auto|].
        rewrite !combine_length, !LI. lia. }
      rewrite Eo at 1. rewrite map2_mm. reflexivity. }
  f_equal. set (L := combine (combine _ _) _).
  assert (EIN : lag_interp imin imax (sum_noang filt K) off = map (fun x => fst (fst x)) L).
  { unfold L. rewrite <- (map_map fst fst). rewrite combine_fst; [symmetry; apply combine_fst; now rewrite !LI|].
    rewrite !combine_length, !LI. lia. }
  assert (EIA : lag_interp imin imax (sum_ang filt ab K) off = map (fun x => snd (fst x)) L).
  { unfold L. rewrite <- (map_map fst snd). rewrite combine_fst; [symmetry; apply combine_snd; now rewrite !LI|].
    rewrite !combine_length, !LI. lia. }
  assert (EAN : ang = map (fun x => snd (snd x)) L).
  { unfold L. rewrite <- (map_map snd snd). rewrite combine_snd; [symmetry; apply combine_snd; auto|].
    rewrite !combine_length, !LI. lia. }
  destruct one.
  - destruct (H1 eq_refl) as [a0 [Ha0 Hv]].
    rewrite !ES, Ln. rewrite <- (EM u1 (row t1)) at 1. rewrite <- (EM u0b (row t0b)) at 1.
    rewrite EP at 1.
    rewrite (dlf_comb_closed filt ab (seq 0 n) (fun i => nth i pts 0%R) (fun _ => a0) (row t0) (row t1) (row t0b) u0 u1 u0b n has a).
    2:{ now rewrite seq_length. }
    2:{ intros w Lw. rewrite Hv. symmetry. apply vmul_const; [|now rewrite map_length].
        intros y Hy. apply in_map_iff in Hy. destruct Hy as [? [<- _]]. reflexivity. }
    fold N. fold A.
    rewrite (RM _ (fun r => Cplus (sum_noang filt K r) (Cmult (RtoC a0) (sum_ang filt ab K r)))) by (intros i Hi; rewrite EN, EA by auto; reflexivity).
    rewrite (cspl_linear spl HS) by (unfold pts; reflexivity).
    change (map2 (fun a1 b => Cplus a1 (Cmult (RtoC a0) b)) (lag_interp imin imax (sum_noang filt K) off) (lag_interp imin imax (sum_ang filt ab K) off) = map (fun x => Cplus (fst (fst x)) (Cmult (RtoC (snd (snd x))) (snd (fst x)))) L).
    rewrite EIN, EIA, map2_mm. apply map_ext_in. intros x Hx. f_equal. f_equal. f_equal.
    symmetry. apply Ha0. rewrite EAN. now apply (in_map (fun x => snd (snd x))).
  - destruct (H2 eq_refl) as [-> ->]. rewrite Ln.
    assert (DA : dlf_ang filt ab pts n (mk (seq 0 n) u1 (row t1)) (mk (seq 0 n) u0b (row t0b)) = map A (seq 0 n)).
    { rewrite EP at 1.
      apply (dlf_ang_closed filt ab (seq 0 n) (fun i => nth i pts 0%R) (row t1) (row t0b) u1 u0b n). now rewrite seq_length. }
    rewrite DA.
    rewrite (dlf_noang_closed filt (seq 0 n) (row t0) u0 n) by (now rewrite seq_length). fold N.
    rewrite (RM A (sum_ang filt ab K) EA). rewrite (RM N (sum_noang filt K) EN).
    assert (FA : forall g, cspl spl (map g (rev pts)) (rev pts) off = lag_interp imin imax g off) by reflexivity.
    rewrite !FA.
    assert (EX : (if true && (isSome (get_part u1 t1 [[map K lam]]) || isSome (get_part u0b t0b [[map K lam]]))
             then ang_mul (inr ang) (lag_interp imin imax (sum_ang filt ab K) off) else lag_interp imin imax (sum_ang filt ab K) off)
             = map (fun x => Cmult (RtoC (snd (snd x))) (snd (fst x))) L).
    { rewrite !ES. destruct (u1 || u0b) eqn:U.
      - cbn [andb ang_mul]. rewrite EIA, EAN at 1. rewrite map2_mm. apply map_ext. intros; apply Cmult_comm.
      - cbn [andb]. 
        assert (Z : forall r, sum_ang filt ab K r = RtoC 0).
        { intros r. unfold sum_ang. destruct u1, u0b; try discriminate.
          rewrite !fsum_0; [rewrite Cdiv_0_l; destruct (inb ab _); apply Cplus_0_l| |];
            intros l; unfold part_of; destruct (P l) as [_ [Q1 Q2]]; [destruct (t0b (K l))|destruct (t1 (K l))]; try discriminate; reflexivity. }
        assert (Zl : lag_interp imin imax (sum_ang filt ab K) off = czeros (List.length off)).
        { unfold lag_interp. fold pts. rewrite <- (cspl_zero spl HS n (rev pts) off) by (now rewrite Lr).
          f_equal. rewrite (czeros_map _ (rev pts)) by (now rewrite Lr). apply map_ext. exact Z. }
        transitivity (czeros (List.length L)).
        + rewrite Zl. f_equal. rewrite <- Hlen. rewrite EAN. apply map_length.
        + rewrite (czeros_map _ L) by reflexivity. apply map_ext_in. intros x Hx.
          assert (In (snd (fst x)) (czeros (List.length off))).
          { rewrite <- Zl, EIA. now apply (in_map (fun x => snd (fst x))). }
          apply repeat_spec in H. rewrite H. symmetry. apply Cmult_0_r. }
    rewrite EX. unfold mk. destruct u0.
    + unfold vadd. rewrite EIN, map2_mm. apply map_ext. intros; apply Cplus_comm.
    + apply map_ext_in. intros x Hx.
      assert (Zl : lag_interp imin imax (sum_noang filt K) off = czeros (List.length off)).
      { unfold lag_interp. fold pts. rewrite <- (cspl_zero spl HS n (rev pts) off) by (now rewrite Lr).
        f_equal. rewrite (czeros_map _ (rev pts)) by (now rewrite Lr). apply map_ext. intros r. unfold sum_noang. apply fsum_0.
        intros l. unfold part_of. destruct (P l) as [Q0 _]. destruct (t0 (K l)); [discriminate|reflexivity]. }
      assert (In (fst (fst x)) (czeros (List.length off))).
      { rewrite <- Zl, EIN. now apply (in_map (fun x => fst (fst x))). }
      apply repeat_spec in H. rewrite H. symmetry. apply Cplus_0_l.
Qed.
End Lagged.

(** The grid of the lagged convolution in one statement *)
Lemma lag_grid : forall filt b0 off imin imax, geometric filt b0 -> lmin off = Ok imin -> lmax off = Ok imax ->
  (forall r, In r off -> (0 < r)%R) -> forall nr, (nr < 0)%R ->
  exists lam p, get_dlf_points filt off nr = Ok ([lam], PLag p) /\
    (4 <= List.length p)%nat /\
    (forall r, In r off -> (last p 0 <= r <= hd 0 p)%R) /\
    (forall i, (S i < List.length p)%nat -> nth (S i) p 0%R = (nth i p 0 / f_factor filt)%R) /\
    forall A (zero : A) (K : R -> A),
    rearrange zero (map K lam) (List.length p) (List.length (f_base filt)) =
    map (fun r => map (fun b => K (b / r)%R) (f_base filt)) p.
Proof.
  intros filt b0 off imin imax HG Hmin Hmax Hpos nr Hnr.
  exists (lag_lam filt b0 imin imax), (lag_pts filt b0 imin imax).
  set (n := lag_n filt b0 imin imax). set (p := lag_pts filt b0 imin imax). set (lam := lag_lam filt b0 imin imax).
  assert (Lp : List.length p = n) by (unfold p, lag_pts; rewrite map_length; apply seq_length).
  pose proof (lag_n_ge filt b0 imin imax) as N4. fold n in N4.
  pose proof (lag_lengths filt b0 imin imax) as LL. fold n lam in LL.
  destruct (lag_points_cover filt b0 off imin imax HG Hmin Hmax Hpos) as [C1 C2]. fold n p in C1, C2.
  assert (HL : last p 0%R = nth (n - 1) p 0%R).
  { rewrite <- Lp. clear. induction p as [|x [|y q] IH]; try reflexivity.
    change (last (x :: y :: q) 0%R) with (last (y :: q) 0%R). rewrite IH. simpl. rewrite Nat.sub_0_r. reflexivity. }
  split; [now apply get_dlf_points_lagged|]. split; [lia|]. split; [|split].
  - intros r Hr. rewrite HL. assert (hd 0%R p = nth 0 p 0%R) as -> by (destruct p; reflexivity). rewrite C1.
    assert (NE : off <> []) by (intros ->; destruct Hr).
    destruct (lmin_spec off NE) as [m1 [A1 [_ M1]]]. destruct (lmax_spec off NE) as [m2 [A2 [_ M2]]].
    rewrite A1 in Hmin. rewrite A2 in Hmax. injection Hmin as E1. injection Hmax as E2. subst m1 m2.
    specialize (M1 r Hr). specialize (M2 r Hr). lra.
  - intros i Hi. rewrite Lp in Hi. destruct HG as [_ [F1 _]]. unfold p, lag_pts. fold n.
    rewrite !nth_map_seq0 by lia. cbn [pow]. field. split; [apply pow_nonzero|]; lra.
  - intros A zero K. rewrite Lp.
    rewrite rearrange_spec by (rewrite ?map_length; lia).
    apply (nth_ext _ _ [] []); [now rewrite !map_length, seq_length|].
    rewrite map_length, seq_length. intros i Hi. rewrite nth_map_seq0 by lia.
    set (g := fun r => map (fun b => K (b / r)%R) (f_base filt)).
    rewrite (nth_indep (map g p) [] (g 0%R)) by (rewrite map_length; lia). rewrite map_nth. unfold g.
    apply (nth_ext _ _ zero zero); [now rewrite !map_length, seq_length|].
    rewrite map_length, seq_length. intros j Hj. rewrite nth_map_seq0 by lia.
    rewrite (nth_indep _ zero (K 0%R)) by (rewrite map_length; lia). rewrite map_nth.
    unfold lam, n in *. rewrite (lag_points_match filt b0 off imin imax HG Hmin Hmax Hpos) by lia.
    set (h := fun b => K (b / nth i p 0)%R).
    rewrite (nth_indep _ zero (h 0%R)) by (rewrite map_length; lia). rewrite map_nth. reflexivity.
Qed.
