(** The designed filter: base, design points and values. *)

From Coq Require Import ZArith Reals List Bool Ascii String Lia Lra Psatz.
From Coquelicot Require Import Coquelicot.
From Verif Require Import PyBase CBase Text Utils Transform UtilsArgs DataIo FilterIo Fdesign Fourier FourierSum FourierFft ArgsFreq ArgsKw UtilsLayer RoutinesKThm BipoleCol FdesignD FdesignDThm.
Import ListNotations.
Local Open Scope R_scope.
Local Open Scope res_scope.

(** ** The base *)
Lemma base_length : forall n sp sh, List.length (fd_base n sp sh) = n.
Proof. intros. unfold fd_base. now rewrite map_length, seq_length. Qed.
Lemma base_nth : forall n sp sh i, (i < n)%nat -> nth i (fd_base n sp sh) 0 = exp (sp * (INR i - INR (n / 2)) + sh).
Proof. intros. unfold fd_base. now rewrite FourierFft.nth_map_seq. Qed.
Lemma base_In : forall n sp sh b, In b (fd_base n sp sh) -> 0 < b.
Proof. intros n sp sh b H. unfold fd_base in H. apply in_map_iff in H. destruct H as (i & <- & _). apply exp_pos. Qed.
(** The logarithms of the base are equally spaced, and the middle one is [shift]. *)
Lemma base_geometric : forall n sp sh, (forall i, (S i < n)%nat -> nth (S i) (fd_base n sp sh) 0 = exp sp * nth i (fd_base n sp sh) 0) /\
  ((0 < n)%nat -> nth (n / 2) (fd_base n sp sh) 0 = exp sh).
Proof.
  intros n sp sh. split.
  - intros i Hi. rewrite !base_nth by lia. rewrite <- exp_plus. f_equal. rewrite S_INR. ring.
  - intros Hn. rewrite base_nth by (apply Nat.div_lt; lia). f_equal. ring.
Qed.

Lemma map2_const : forall {A B D} (f : A -> B -> D) c l m, (forall i da db, (i < List.length l)%nat -> f (nth i l da) (nth i m db) = c) ->
  (List.length l <= List.length m)%nat -> map2 f l m = repeat c (List.length l).
Proof.
  intros A B D f c. induction l as [|x l IH]; intros m H L; [reflexivity|]. destruct m as [|y m]; [cbn in L; lia|].
  change (map2 f (x :: l) (y :: m)) with (f x y :: map2 f l m). cbn [List.length repeat]. f_equal.
  - exact (H 0%nat x y ltac:(cbn; lia)).
  - apply IH; [|cbn in L; lia]. intros i da db Hi. apply (H (S i) da db). cbn. lia.
Qed.
Lemma rsuml_repeat : forall c n, rsuml (repeat c n) = INR n * c.
Proof. intros c n. induction n as [|n IH]; [cbn; ring|]. rewrite S_INR. change (repeat c (S n)) with (c :: repeat c n). change (rsuml (c :: repeat c n)) with (c + rsuml (repeat c n)). rewrite IH. ring. Qed.

(** The average of the quotients is the quotient. *)
Lemma ratio_spec : forall n sp sh, fd_ratio (fd_base n sp sh) = if (n <? 2)%nat then None else Some (exp sp).
Proof.
  intros n sp sh. pose proof (base_length n sp sh) as L. destruct (base_geometric n sp sh) as [G _]. pose proof (base_In n sp sh) as P.
  destruct (fd_base n sp sh) as [|x [|y t]]; cbn [List.length] in L; [subst n; reflexivity|subst n; reflexivity|].
  destruct (Nat.ltb_spec n 2); [lia|]. cbn [fd_ratio]. f_equal.
  rewrite (map2_const Rdiv (exp sp) (y :: t) (x :: y :: t)); [|intros i da db Hi|cbn; lia].
  - rewrite rsuml_repeat. field. apply not_0_INR. cbn. lia.
  - rewrite (nth_indep (y :: t) da 0) by assumption. rewrite (nth_indep (x :: y :: t) db 0) by (cbn in Hi |- *; lia).
    change (nth i (y :: t) 0) with (nth (S i) (x :: y :: t) 0). rewrite G by (cbn in Hi; lia). field.
    apply Rgt_not_eq. apply P. apply nth_In. cbn in Hi |- *. lia.
Qed.

(** ** The design points *)
Lemma fold_max : forall l x, (forall y, In y l -> y <= fold_left Rmax l x) /\ x <= fold_left Rmax l x /\ In (fold_left Rmax l x) (x :: l).
Proof.
  induction l as [|z l IH]; intros x; [cbn; split; [tauto|split; [lra|auto]]|].
  cbn [fold_left]. destruct (IH (Rmax x z)) as (A & B & D). split; [|split].
  - intros y [-> | Hy]; [|now apply A]. pose proof (Rmax_r x y). lra.
  - pose proof (Rmax_l x z). lra.
  - cbn [In] in D |- *. destruct D as [D|D]; [|now right; right]. rewrite <- D. unfold Rmax. destruct (Rle_dec x z); auto.
Qed.
Lemma fold_min : forall l x, (forall y, In y l -> fold_left Rmin l x <= y) /\ fold_left Rmin l x <= x /\ In (fold_left Rmin l x) (x :: l).
Proof.
  induction l as [|z l IH]; intros x; [cbn; split; [tauto|split; [lra|auto]]|].
  cbn [fold_left]. destruct (IH (Rmin x z)) as (A & B & D). split; [|split].
  - intros y [-> | Hy]; [|now apply A]. pose proof (Rmin_r x y). lra.
  - pose proof (Rmin_l x z). lra.
  - cbn [In] in D |- *. destruct D as [D|D]; [|now right; right]. rewrite <- D. unfold Rmin. destruct (Rle_dec x z); auto.
Qed.
Lemma ztrunc_pos : forall y, 0 <= y -> (0 <= ztrunc y)%Z.
Proof.
  intros y Hy. unfold ztrunc. rewrite (proj2 (UtilsLayer.Rleb_true 0 y)) by lra. pose proof (Int_part_bounds y) as B.
  assert (-1 < IZR (Int_part y)) by lra. apply lt_IZR in H. lia.
Qed.

(** A list of numbers is exactly the points of a logarithmic scale from a to b. *)
Definition log_scale (a b : R) (r : list R) : Prop :=
  (forall i, (i < List.length r)%nat -> 0 < nth i r 0) /\
  (r <> [] -> nth 0 r 0 = a) /\ ((2 <= List.length r)%nat -> nth (List.length r - 1) r 0 = b) /\
  (forall i, (S (S i) < List.length r)%nat -> nth (S i) r 0 / nth i r 0 = nth (S (S i)) r 0 / nth (S i) r 0).

Lemma logspace_scale : forall a b n, (0 <= n)%Z -> exists r, logspace a b n = Ok r /\ List.length r = Z.to_nat n /\ log_scale (p10 a) (p10 b) r.
Proof.
  intros a b n Hn. unfold logspace. destruct (Z.ltb_spec n 0); [lia|]. eexists. split; [reflexivity|]. rewrite map_length, seq_length. split; [reflexivity|].
  unfold log_scale. rewrite map_length, seq_length. repeat split.
  - intros i Hi. rewrite FourierFft.nth_map_seq by assumption. apply p10_pos.
  - intros NE. destruct (Z.to_nat n) as [|k]; [now contradiction NE|]. cbn [seq map nth INR]. destruct (n =? 1)%Z; [reflexivity|]. f_equal. unfold Rdiv. ring.
  - intros Hi. rewrite FourierFft.nth_map_seq by lia. destruct (Z.eqb_spec n 1); [subst; cbn in Hi; lia|]. f_equal.
    rewrite minus_INR by lia. rewrite INR_IZR_INZ, Z2Nat.id by lia. rewrite minus_IZR. cbn [INR]. field.
    rewrite <- minus_IZR. apply not_0_IZR. lia.
  - intros i Hi. rewrite !FourierFft.nth_map_seq by lia. destruct (Z.eqb_spec n 1); [subst; cbn in Hi; lia|].
    set (d := (b - a) / IZR (n - 1)). rewrite !S_INR.
    replace (a + (INR i + 1 + 1) * d) with (a + (INR i + 1) * d + d) by ring. replace (a + (INR i + 1) * d) with (a + INR i * d + d) by ring.
    rewrite !p10_plus. pose proof (p10_pos a). pose proof (p10_pos (INR i * d)). pose proof (p10_pos d). field. repeat split; lra.
Qed.

(** The design points run from 1/(largest base) to 1/(smallest base), extended on either side. *)
Lemma fd_r_spec : forall n sp sh l1 l2 fac, (0 < n)%nat -> 0 <= fac -> exists r mx mn,
  fd_r n (l1, l2, fac) (fd_base n sp sh) = Ok r /\ List.length r = Z.to_nat (ztrunc (fac * INR n)) /\
  In mx (fd_base n sp sh) /\ In mn (fd_base n sp sh) /\ (forall b, In b (fd_base n sp sh) -> mn <= b <= mx) /\
  log_scale (/ mx * p10 (- l1)) (/ mn * p10 l2) r.
Proof.
  intros n sp sh l1 l2 fac Hn Hf. pose proof (base_length n sp sh) as L. pose proof (base_In n sp sh) as P. unfold fd_r.
  destruct (fd_base n sp sh) as [|x t]; [cbn in L; lia|]. cbn [lmax lmin bind].
  destruct (fold_max t x) as (A1 & A2 & A3). destruct (fold_min t x) as (B1 & B2 & B3).
  set (mx := fold_left Rmax t x) in *. set (mn := fold_left Rmin t x) in *.
  destruct (logspace_scale (log10 (1 / mx) - l1) (log10 (1 / mn) + l2) (ztrunc (fac * INR n))) as (r & E & Lr & Sr).
  { apply ztrunc_pos. apply Rmult_le_pos; [assumption|apply pos_INR]. }
  exists r, mx, mn. split; [exact E|]. split; [exact Lr|]. split; [exact A3|]. split; [exact B3|]. split.
  - intros b [<- | Hb]; [split; assumption|]. split; [now apply B1|now apply A1].
  - pose proof (P mx A3) as Pm. pose proof (P mn B3) as Pn.
    assert (0 < 1 / mx) by (unfold Rdiv; rewrite Rmult_1_l; now apply Rinv_0_lt_compat).
    assert (0 < 1 / mn) by (unfold Rdiv; rewrite Rmult_1_l; now apply Rinv_0_lt_compat).
    unfold Rminus in Sr. rewrite !p10_plus, !p10_log10 in Sr by assumption. unfold Rdiv in Sr. rewrite !Rmult_1_l in Sr. exact Sr.
Qed.

(** ** The values *)
(** a pair whose sides are given by the functions L and G on the positive numbers *)
Definition lhs_ok (f : dpair) (L : R -> C) : Prop := forall x, 0 < x -> exists s, dp_lhs f x = Ok (L x, s).
Definition pair_ok (f : dpair) (L G : R -> C) : Prop :=
  lhs_ok f L /\ exists g, dp_rhs f = RhsFun g /\ forall x, 0 < x -> g x = Ok (G x).

(** the sum of squared residuals of the equations  Σ_j L(base_j/r_i) x_j = r_i G(r_i) *)
Definition residual (w : reimt) (L G : R -> C) (base r x : list R) : R :=
  sR (fun i => (sR (fun j => reim w (L (nth j base 0 / nth i r 0)) * nth j x 0) (List.length base) - reim w (G (nth i r 0)) * nth i r 0) ^ 2) (List.length r).
(** no non-zero filter gives zero for L at all points *)
Definition distinguishes (w : reimt) (L : R -> C) (base r : list R) : Prop :=
  forall y, (forall i, (i < List.length r)%nat -> sR (fun j => reim w (L (nth j base 0 / nth i r 0)) * y j) (List.length base) = 0) ->
    forall j, (j < List.length base)%nat -> y j = 0.

Lemma reim_scal : forall w c x, reim w (Cmult c (RtoC x)) = reim w c * x.
Proof. intros [|] [a b] x; cbn; ring. Qed.

Lemma coeff_data : forall w base r f L G, (forall b, In b base -> 0 < b) -> (forall x, In x r -> 0 < x) -> pair_ok f L G ->
  fd_lhs w base r f = Ok (map (fun ri => map (fun b => reim w (L (b / ri))) base) r) /\
  fd_rhs w r f = Ok (map (fun x => reim w (G x) * x) r).
Proof.
  intros w base r f L G Pb Pr (HL & g & Eg & HG). split.
  - unfold fd_lhs. apply mapM_all. intros ri Hr. apply mapM_all. intros b Hb.
    destruct (HL (b / ri)) as [s E]. { apply Rdiv_lt_0_compat; auto. } rewrite E. reflexivity.
  - unfold fd_rhs, call_rhs. rewrite Eg. rewrite (mapM_all g G) by auto. cbn [bind]. f_equal.
    clear -r. induction r as [|x r IH]; [reflexivity|]. cbn [map]. unfold map2 in *. cbn [combine map fst snd]. now rewrite IH, reim_scal.
Qed.
Lemma rect_nth : forall (A B D : Type) (h : A -> B -> D) (rows : list A) (cols : list B) da db dd i j, (i < List.length rows)%nat -> (j < List.length cols)%nat ->
  nth j (nth i (map (fun a => map (h a) cols) rows) []) dd = h (nth i rows da) (nth j cols db).
Proof.
  intros A B D h rows cols da db dd i j Hi Hj. rewrite (nth_map_any (fun a => map (h a) cols) rows i da [] Hi). exact (nth_map_any (h (nth i rows da)) cols j db dd Hj).
Qed.

Lemma coeff_spec : forall la w base r f L G, (forall b, In b base -> 0 < b) -> (forall x, In x r -> 0 < x) -> pair_ok f L G -> dp_name f <> T "j2" ->
  qr_ok la (List.length r) (List.length base) -> solve_ok la (Nat.min (List.length r) (List.length base)) (List.length base) ->
  exists x, fd_coeff la w base r f = Ok x /\ List.length x = List.length base /\
   ((List.length r < List.length base)%nat -> x = repeat 0 (List.length base)) /\
   ((List.length base <= List.length r)%nat -> ~ distinguishes w L base r -> x = repeat 0 (List.length base)) /\
   ((List.length base <= List.length r)%nat -> distinguishes w L base r -> forall y, List.length y = List.length base ->
      residual w L G base r x <= residual w L G base r y /\ (residual w L G base r y = residual w L G base r x -> y = x)).
Proof.
  intros la w base r f L G Pb Pr OK NJ HQ HS. destruct (coeff_data w base r f L G Pb Pr OK) as [E1 E2].
  unfold fd_coeff. rewrite (proj2 (teqb_neq _ _) NJ), E1, E2. cbn [bind].
  set (a := mat_of _). set (b := fun i => nth i _ 0).
  pose proof (solve_spec la (List.length r) (List.length base) a b HQ HS) as P. cbv zeta in P. set (x := fd_solve _ _ _ _ _) in *. clearbody x.
  destruct P as (P1 & P2 & P3 & P4).
  assert (Ha : forall i j, (i < List.length r)%nat -> (j < List.length base)%nat -> a i j = reim w (L (nth j base 0 / nth i r 0))).
  { intros i j Hi Hj. unfold a, mat_of. exact (rect_nth R R R (fun ri b => reim w (L (b / ri))) r base 0 0 0 i j Hi Hj). }
  assert (Hb : forall i, (i < List.length r)%nat -> b i = reim w (G (nth i r 0)) * nth i r 0).
  { intros i Hi. unfold b. exact (nth_map_any (fun x => reim w (G x) * x) r i 0 0 Hi). }
  assert (Hm : forall y i, (i < List.length r)%nat -> mv a (List.length base) y i = sR (fun j => reim w (L (nth j base 0 / nth i r 0)) * y j) (List.length base)).
  { intros y i Hi. unfold mv. apply sR_ext. intros j Hj. now rewrite Ha. }
  assert (HD : indep a (List.length r) (List.length base) <-> distinguishes w L base r).
  { unfold indep, distinguishes. split; intros H y Hy; apply H; intros i Hi; [rewrite Hm by assumption|rewrite <- Hm by assumption]; now apply Hy. }
  assert (Hs : forall y, ssq a b (List.length r) (List.length base) (fun j => nth j y 0) = residual w L G base r y).
  { intros y. unfold ssq, residual. apply sR_ext. intros i Hi. now rewrite Hm, Hb by assumption. }
  exists x. split; [reflexivity|]. split; [exact P1|]. split; [exact P2|]. split; [now rewrite <- HD|].
  intros Hl D y Ly. apply HD in D. destruct (P4 Hl D (fun j => nth j y 0)) as [P5 P6]. rewrite !Hs in P5, P6. split; [exact P5|].
  intros E. apply (nth_ext _ _ 0 0); [congruence|]. intros j Hj. apply P6; [exact E|lia].
Qed.

Lemma o_set_get : forall k v d q, o_get q (o_set k v d) = if teqb q k then Ok v else o_get q d.
Proof. intros. unfold o_get, o_set. cbn [o_attr]. now destruct (teqb q k). Qed.
Lemma o_add_get : forall k d q, o_get q (o_add k d) = o_get q d.
Proof. reflexivity. Qed.

(** The loop over the pairs: every pair has its values under its name. *)
Lemma fill_spec : forall la w base r fI d, (forall f, In f fI -> exists x, fd_coeff la w base r f = Ok x) -> NoDup (map dp_name fI) ->
  exists d', fd_fill la w base r fI d = Ok d' /\ (forall f, In f fI -> o_get (dp_name f) d' = fd_coeff la w base r f) /\
    (forall k, ~ In k (map dp_name fI) -> o_get k d' = o_get k d) /\ o_coeff d' = (o_coeff d ++ map dp_name fI)%list /\
    o_name d' = o_name d /\ o_factor d' = o_factor d.
Proof.
  intros la w base r. induction fI as [|f t IH]; intros d H ND.
  - exists d. cbn. rewrite app_nil_r. repeat split; tauto.
  - destruct (H f (or_introl eq_refl)) as [x E]. cbn [fd_fill]. rewrite E. cbn [bind]. inversion ND as [|? ? NI ND']; subst.
    destruct (IH (o_set (dp_name f) x (o_add (dp_name f) d)) (fun g Hg => H g (or_intror Hg)) ND') as (d' & E' & A & B & C & D & F).
    exists d'. split; [exact E'|]. split; [|split; [|split; [|split]]].
    + intros g [<- | Hg]; [|now apply A]. rewrite B by exact NI. rewrite o_set_get, teqb_refl. now rewrite E.
    + intros k Hk. cbn [map In] in Hk. rewrite B by tauto. rewrite o_set_get, o_add_get. rewrite (proj2 (teqb_neq _ _)); [reflexivity|]. intros ->. tauto.
    + rewrite C. cbn [o_coeff o_set o_add map]. now rewrite <- app_assoc.
    + rewrite D. reflexivity.
    + rewrite F. reflexivity.
Qed.

Lemma calc_spec : forall la around n sp sh fI l1 l2 fac w name, (0 < n)%nat -> 0 <= fac ->
  (forall f, In f fI -> exists L G, pair_ok f L G) -> NoDup (map dp_name fI) -> (forall f, In f fI -> dp_name f <> T "j2" /\ dp_name f <> T "base") ->
  let m := Z.to_nat (ztrunc (fac * INR n)) in qr_ok la m n -> solve_ok la (Nat.min m n) n ->
  exists d r, calculate_filter la around n sp sh fI (l1, l2, fac) w name = Ok d /\ fd_r n (l1, l2, fac) (fd_base n sp sh) = Ok r /\
    List.length r = m /\ (forall x, In x r -> 0 < x) /\
    o_name d = hd [] (split "." name) /\ o_coeff d = map dp_name fI /\ o_get (T "base") d = Ok (fd_base n sp sh) /\
    o_factor d = (if (n <? 2)%nat then None else Some (around (exp sp))) /\
    forall f L G, In f fI -> pair_ok f L G -> exists x, o_get (dp_name f) d = Ok x /\ List.length x = n /\
      ((m < n)%nat -> x = repeat 0 n) /\
      ((n <= m)%nat -> ~ distinguishes w L (fd_base n sp sh) r -> x = repeat 0 n) /\
      ((n <= m)%nat -> distinguishes w L (fd_base n sp sh) r -> forall y, List.length y = n ->
        residual w L G (fd_base n sp sh) r x <= residual w L G (fd_base n sp sh) r y /\
        (residual w L G (fd_base n sp sh) r y = residual w L G (fd_base n sp sh) r x -> y = x)).
Proof.
  intros la around n sp sh fI l1 l2 fac w name Hn Hf HP ND NN m HQ HS.
  destruct (fd_r_spec n sp sh l1 l2 fac Hn Hf) as (r & mx & mn & Er & Lr & _ & _ & _ & (Pr & _)). fold m in Lr.
  assert (Pr' : forall x, In x r -> 0 < x). { intros x Hx. destruct (In_nth r x 0 Hx) as (i & Hi & <-). now apply Pr. }
  pose proof (base_In n sp sh) as Pb. pose proof (base_length n sp sh) as Lb.
  assert (CS : forall f L G, In f fI -> pair_ok f L G -> _) by (intros f L G HI HO;
    exact (coeff_spec la w (fd_base n sp sh) r f L G Pb Pr' HO (proj1 (NN f HI)) ltac:(rewrite Lr, Lb; exact HQ) ltac:(rewrite Lr, Lb; exact HS))).
  rewrite Lb, Lr in CS. unfold calculate_filter. rewrite Er. cbn [bind].
  edestruct (fill_spec la w (fd_base n sp sh) r fI) as (d & Ed & A & B & C & D & F); [|exact ND|].
  { intros f HI. destruct (HP f HI) as (L & G & HO). destruct (CS f L G HI HO) as (x & E & _). now exists x. }
  exists d, r. split; [exact Ed|]. split; [reflexivity|]. split; [exact Lr|]. split; [exact Pr'|]. split; [exact D|]. split; [exact C|]. split; [|split].
  - rewrite B. { rewrite o_set_get, teqb_refl. reflexivity. }
    intros H. apply in_map_iff in H. destruct H as (f & E & HI). now apply (NN f HI).
  - rewrite F. cbn [o_factor o_set]. rewrite ratio_spec. now destruct (n <? 2)%nat.
  - intros f L G HI HO. destruct (CS f L G HI HO) as (x & E & R1). exists x. split; [rewrite A by exact HI; exact E|exact R1].
Qed.

(** ** What the filter does with the pair it was made of *)
Lemma dot_reim : forall w x (v : list C), List.length x = List.length v -> reim w (dot x v) = sR (fun j => reim w (nth j v (RtoC 0)) * nth j x 0) (List.length v).
Proof.
  intros w x v. revert x. induction v as [|c v IH]; intros [|y x] H; cbn in H; try discriminate; [now destruct w|].
  change (dot (y :: x) (c :: v)) with (Cplus (Cmult c (RtoC y)) (dot x v)). cbn [List.length]. rewrite sR_head. cbn [nth]. rewrite <- (IH x) by lia.
  rewrite <- (reim_scal w c y). destruct w; reflexivity.
Qed.
Lemma row_dot_spec : forall f L base x ri, (forall b, In b base -> 0 < b) -> 0 < ri -> lhs_ok f L ->
  row_dot f false base x ri = Ok (dot x (map (fun b => L (b / ri)) base)).
Proof.
  intros f L base x ri Pb Pr HL. unfold row_dot.
  assert (E : exists v, mapM (fun b => dp_lhs f (b / ri)) base = Ok v /\ map (fun p : C * C => fst p) v = map (fun b => L (b / ri)) base).
  { clear x. induction base as [|b t IH]; [exists []; auto|]. destruct IH as (v & E & M); [intros c Hc; apply Pb; now right|].
    destruct (HL (b / ri)) as [s Es]. { apply Rdiv_lt_0_compat; [apply Pb; now left|exact Pr]. }
    exists ((L (b / ri), s) :: v). cbn [mapM map fst]. rewrite Es, E, M. auto. }
  destruct E as (v & E & M). rewrite E. cbn [bind]. now rewrite M.
Qed.
Lemma out_spec : forall d r f L base x, o_get (T "base") d = Ok base -> o_get (dp_name f) d = Ok x -> dp_name f <> T "j2" ->
  (forall b, In b base -> 0 < b) -> (forall z, In z r -> 0 < z) -> lhs_ok f L ->
  fd_out d r f = Ok (map (fun ri => Cdiv (dot x (map (fun b => L (b / ri)) base)) (RtoC ri)) r).
Proof.
  intros d r f L base x Eb Ex NJ Pb Pr HO. unfold fd_out. rewrite Eb, (proj2 (teqb_neq _ _) NJ), Ex. cbn [bind]. apply mapM_all. intros ri Hr.
  rewrite (row_dot_spec f L base x ri Pb (Pr ri Hr) HO). cbn [bind]. apply cdiv_ok. intros W. apply (f_equal fst) in W. cbn in W. specialize (Pr ri Hr). lra.
Qed.
(** A filter without residual gives the right-hand side at the design points. *)
Lemma exact_out : forall w L G base r x, List.length x = List.length base -> (forall z, In z r -> 0 < z) -> residual w L G base r x = 0 ->
  forall i, (i < List.length r)%nat -> reim w (Cdiv (dot x (map (fun b => L (b / nth i r 0)) base)) (RtoC (nth i r 0))) = reim w (G (nth i r 0)).
Proof.
  intros w L G base r x Lx Pr Z i Hi. unfold residual in Z. pose proof (sR_sq_0 _ _ Z i Hi) as E. cbv beta in E.
  assert (P : 0 < nth i r 0) by (apply Pr; now apply nth_In). unfold Cdiv. rewrite <- RtoC_inv by lra. rewrite reim_scal, dot_reim by (now rewrite map_length).
  rewrite map_length.
  rewrite (sR_ext _ (fun j => reim w (L (nth j base 0 / nth i r 0)) * nth j x 0)).
  2: { intros j Hj. f_equal. f_equal. exact (nth_map_any (fun b => L (b / nth i r 0)) base j 0 (RtoC 0) Hj). }
  replace (sR _ _) with (reim w (G (nth i r 0)) * nth i r 0) by lra. field. lra.
Qed.
Lemma residual_pos : forall w L G base r x, 0 <= residual w L G base r x.
Proof. intros. unfold residual. apply sR_sq_pos. Qed.

(** If the factorisation fails, the filter has zeros. *)
Lemma calc_fails : forall la around n sp sh fI l1 l2 fac w name, (0 < n)%nat -> 0 <= fac ->
  (forall f, In f fI -> exists L G, pair_ok f L G) -> NoDup (map dp_name fI) -> (forall f, In f fI -> dp_name f <> T "j2" /\ dp_name f <> T "base") ->
  (forall a, la_qr la (Z.to_nat (ztrunc (fac * INR n))) n a = None) ->
  exists d, calculate_filter la around n sp sh fI (l1, l2, fac) w name = Ok d /\ forall f, In f fI -> o_get (dp_name f) d = Ok (repeat 0 n).
Proof.
  intros la around n sp sh fI l1 l2 fac w name Hn Hf HP ND NN HQ.
  destruct (fd_r_spec n sp sh l1 l2 fac Hn Hf) as (r & mx & mn & Er & Lr & _ & _ & _ & (Pr & _)).
  assert (Pr' : forall x, In x r -> 0 < x). { intros x Hx. destruct (In_nth r x 0 Hx) as (i & Hi & <-). now apply Pr. }
  assert (CS : forall f, In f fI -> fd_coeff la w (fd_base n sp sh) r f = Ok (repeat 0 n)).
  { intros f HI. destruct (HP f HI) as (L & G & HO). destruct (coeff_data w (fd_base n sp sh) r f L G (base_In n sp sh) Pr' HO) as [E1 E2].
    unfold fd_coeff. rewrite (proj2 (teqb_neq _ _) (proj1 (NN f HI))), E1, E2. cbn [bind]. rewrite base_length, Lr. unfold fd_solve. now rewrite HQ. }
  unfold calculate_filter. rewrite Er. cbn [bind].
  edestruct (fill_spec la w (fd_base n sp sh) r fI) as (d & Ed & A & _); [|exact ND|exists d; split; [exact Ed|]].
  { intros f HI. eauto. } { intros f HI. rewrite A by exact HI. now apply CS. }
Qed.
