(** The filter cache, filter files, fdesign files and search grids: proofs. *)

From Coq Require Import List Bool Ascii String Lia Arith ZArith Reals Lra Floats.SpecFloat.
From Verif Require Import PyBase Text Json JsonThm DataIo DataIoThm FilterIo.
Import ListNotations.
Local Open Scope res_scope.

Lemma ftype_eqb_eq : forall a b, ftype_eqb a b = true <-> a = b.
Proof. intros [] []; cbn; split; congruence. Qed.

Section Cache.
Variable quo15 : fl -> fl -> fl.
Variable lib : ftype -> txt -> option libf.
Notation load := (load_lib quo15).

(** a library function returns the base and one array per value, the base has at
    least two elements, and the names differ *)
Definition libf_ok (d : libf) : Prop :=
  List.length (l_arrays d) = S (List.length (l_values d)) /\ NoDup (T "base" :: l_values d)
  /\ exists x0 x1 r, nth_error (l_arrays d) 0 = Some (x0 :: x1 :: r).

(** the filter of a library entry, without the cache: *)
Definition is_filter (n : txt) (d : libf) (f : filt) : Prop :=
  f_name f = n /\ f_save f = n /\ f_coeff f = std_coeff
  /\ (forall i v, nth_error (T "base" :: l_values d) i = Some v -> f_attr f v = nth_error (l_arrays d) i)
  /\ (forall v, ~ In v (T "base" :: l_values d) -> f_attr f v = None)
  /\ (forall x0 x1 r, nth_error (l_arrays d) 0 = Some (x0 :: x1 :: r) -> f_factor f = Some [quo15 x1 x0]).

Lemma set_values_log : forall t n d vs i f log,
  set_values t n d i vs f log = (fst (set_values t n d i vs f []), snd (set_values t n d i vs f []) ++ log).
Proof.
  intros t n d. induction vs as [|v vs IH]; intros i f log; [reflexivity|]. cbn [set_values]. destruct (nth_error (l_arrays d) i) as [a|]; [|reflexivity].
  rewrite (IH (S i) (set_attr v a f) ((t, n) :: log)), (IH (S i) (set_attr v a f) [(t, n)]). cbn [fst snd]. rewrite <- app_assoc. reflexivity.
Qed.

Lemma load_log : forall t n d log, load t n d log = (fst (load t n d []), snd (load t n d []) ++ log).
Proof.
  intros t n d log. unfold load_lib. rewrite (set_values_log t n d _ _ _ log).
  destruct (set_values t n d 0 (T "base" :: l_values d) (new_filter n None None) []) as [[f|e] l]; reflexivity.
Qed.

Lemma set_values_ok : forall t n d vs i f log, (i + List.length vs <= List.length (l_arrays d))%nat -> NoDup vs ->
  exists g, set_values t n d i vs f log = (Ok g, repeat (t, n) (List.length vs) ++ log)
  /\ f_name g = f_name f /\ f_save g = f_save f /\ f_coeff g = f_coeff f /\ f_factor g = f_factor f
  /\ (forall k v, nth_error vs k = Some v -> f_attr g v = nth_error (l_arrays d) (i + k))
  /\ (forall v, ~ In v vs -> f_attr g v = f_attr f v).
Proof.
  intros t n d. induction vs as [|v vs IH]; intros i f log Hl Hnd.
  - exists f. split; [reflexivity|]. do 4 (split; [reflexivity|]). split; [|reflexivity]. intros [|k] v H; discriminate H.
  - cbn [set_values List.length] in *. destruct (nth_error (l_arrays d) i) as [a|] eqn:Ea; [|apply nth_error_None in Ea; lia].
    inversion Hnd as [|? ? Hv Hnd']; subst.
    destruct (IH (S i) (set_attr v a f) ((t, n) :: log) ltac:(lia) Hnd') as (g & E & H1 & H2 & H3 & H4 & H5 & H6).
    exists g. split.
    { rewrite E. f_equal. cbn [repeat app]. rewrite <- (app_assoc _ [(t, n)] log) at 1 || idtac.
      change ((t, n) :: log) with ([(t, n)] ++ log). rewrite app_assoc. f_equal. rewrite <- repeat_cons. reflexivity. }
    do 4 (split; [assumption|]). split.
    + intros [|k] q Hq; cbn in Hq.
      * injection Hq as <-. rewrite H6 by exact Hv. cbn. rewrite teqb_refl, Nat.add_0_r. symmetry. exact Ea.
      * rewrite (H5 k q Hq). f_equal. lia.
    + intros q Hq. rewrite H6 by (intros G; apply Hq; now right). cbn. assert (E' : teqb q v = false) by (apply teqb_neq; intros ->; apply Hq; now left). now rewrite E'.
Qed.

Lemma load_ok : forall t n d log, libf_ok d -> exists f, load t n d log = (Ok f, repeat (t, n) (S (List.length (l_values d))) ++ log) /\ is_filter n d f.
Proof.
  intros t n d log (Hl & Hnd & x0 & x1 & r & Hb). unfold load_lib.
  destruct (set_values_ok t n d (T "base" :: l_values d) 0 (new_filter n None None) log) as (g & E & H1 & H2 & H3 & H4 & H5 & H6); [cbn [List.length]; lia|exact Hnd|].
  rewrite E. assert (Eb : f_attr g (T "base") = Some (x0 :: x1 :: r)) by (rewrite (H5 0%nat (T "base") eq_refl); exact Hb).
  unfold get_base. rewrite Eb. cbn [bind factor_of]. eexists. split; [reflexivity|].
  unfold is_filter. cbn [set_factor f_name f_save f_coeff f_attr f_factor]. rewrite H1, H2, H3. do 3 (split; [reflexivity|]). split; [|split].
  - intros i v Hv. now apply (H5 i v).
  - intros v Hv. rewrite H6 by exact Hv. reflexivity.
  - intros y0 y1 q Hq. rewrite Hb in Hq. injection Hq as <- <- <-. reflexivity.
Qed.

Definition cinv (s : cstate) : Prop := forall t n f, cached s t n = Some f -> exists d, lib t n = Some d /\ fst (load t n d []) = Ok f.

(** what an access returns, without any cache *)
Definition direct (q : ftype * txt) : res filt :=
  match lib (fst q) (snd q) with None => Err AttributeError | Some d => fst (load (fst q) (snd q) d []) end.

Lemma access_inv : forall t n s, cinv s -> fst (access quo15 lib t n s) = direct (t, n) /\ cinv (snd (access quo15 lib t n s)).
Proof.
  intros t n s Hs. unfold access, direct. cbn [fst snd]. destruct (lib t n) as [d|] eqn:El; [|split; [reflexivity|exact Hs]].
  destruct (cached s t n) as [f|] eqn:Ec.
  - split; [|exact Hs]. destruct (Hs t n f Ec) as (d' & E1 & E2). cbn [fst]. congruence.
  - rewrite (load_log t n d (calls s)). destruct (fst (load t n d [])) as [f|e] eqn:E; (split; [reflexivity|]).
    + intros t' n' f' H. cbn [snd cached] in H. destruct (ftype_eqb t t' && teqb n n') eqn:Eq.
      * apply andb_true_iff in Eq. destruct Eq as [E1 E2]. apply ftype_eqb_eq in E1. apply teqb_eq in E2. subst t' n'. injection H as <-. exists d. now split.
      * now apply Hs.
    + exact Hs.
Qed.

Theorem accesses_direct : forall l s, cinv s -> fst (accesses quo15 lib l s) = map direct l.
Proof.
  induction l as [|[t n] l IH]; intros s Hs; [reflexivity|]. cbn [accesses map].
  destruct (access_inv t n s Hs) as [E1 E2]. destruct (access quo15 lib t n s) as [r s1] eqn:Ea. cbn [fst snd] in E1, E2.
  specialize (IH s1 E2). destruct (accesses quo15 lib l s1) as [rs s2]. cbn [fst] in *. now rewrite E1, IH.
Qed.
Lemma accesses_inv : forall l s, cinv s -> cinv (snd (accesses quo15 lib l s)).
Proof.
  induction l as [|[t n] l IH]; intros s Hs; [exact Hs|]. cbn [accesses]. destruct (access_inv t n s Hs) as [_ E2].
  destruct (access quo15 lib t n s) as [r s1]. cbn [snd] in E2. specialize (IH s1 E2). destruct (accesses quo15 lib l s1) as [rs s2]. exact IH.
Qed.
Lemma cinit_inv : cinv cinit.
Proof. intros t n f H. discriminate H. Qed.

(** calls of the library: all of them in the first access to a filter *)
Definition feqb (a b : ftype * txt) : bool := ftype_eqb (fst a) (fst b) && teqb (snd a) (snd b).
Lemma feqb_eq : forall a b, feqb a b = true <-> a = b.
Proof. intros [a b] [c d]. unfold feqb. cbn. rewrite andb_true_iff, ftype_eqb_eq, teqb_eq. split; [intros [-> ->]; reflexivity|intros E; injection E as -> ->; now split]. Qed.
Definition ncalls (q : ftype * txt) (l : list (ftype * txt)) : nat := List.length (filter (feqb q) l).
Lemma ncalls_app : forall q l m, ncalls q (l ++ m) = (ncalls q l + ncalls q m)%nat.
Proof. intros q l m. unfold ncalls. now rewrite filter_app, app_length. Qed.
Lemma ncalls_repeat : forall q p k, ncalls q (repeat p k) = if feqb q p then k else 0%nat.
Proof.
  intros q p k. induction k as [|k IH]; [cbn; destruct (feqb q p); reflexivity|]. unfold ncalls in *. cbn [repeat filter].
  destruct (feqb q p); [cbn [List.length]; now rewrite IH|exact IH].
Qed.

Theorem accesses_calls : (forall t n d, lib t n = Some d -> libf_ok d) ->
  forall l s t n d, lib t n = Some d ->
  ncalls (t, n) (calls (snd (accesses quo15 lib l s))) =
    (ncalls (t, n) (calls s) + if existsb (feqb (t, n)) l && match cached s t n with None => true | Some _ => false end then S (List.length (l_values d)) else 0)%nat.
Proof.
  intros Hlib. induction l as [|[t' n'] l IH]; intros s t n d Hd; [cbn; lia|]. cbn [accesses].
  destruct (access quo15 lib t' n' s) as [r s1] eqn:Ea. specialize (IH s1 t n d Hd). destruct (accesses quo15 lib l s1) as [rs s2]. cbn [snd] in *.
  rewrite IH. cbn [existsb]. clear IH. unfold access in Ea. destruct (lib t' n') as [d'|] eqn:El.
  - destruct (cached s t' n') as [f|] eqn:Ec.
    + injection Ea as <- <-. destruct (feqb (t, n) (t', n')) eqn:Eq; [|reflexivity]. apply feqb_eq in Eq. injection Eq as -> ->. rewrite Ec. rewrite !andb_false_r. reflexivity.
    + destruct (load_ok t' n' d' (calls s) (Hlib _ _ _ El)) as (f & E & _). rewrite E in Ea. match type of Ea with (_, ?u) = _ => assert (Hs1 : s1 = u) by congruence end. subst s1. cbn [calls cached].
      rewrite ncalls_app, ncalls_repeat.
      assert (Es : ftype_eqb t' t && teqb n' n = feqb (t, n) (t', n')).
      { unfold feqb. cbn [fst snd]. rewrite (teqb_sym n n'). destruct t, t'; reflexivity. }
      rewrite Es. destruct (feqb (t, n) (t', n')) eqn:Eq.
      * apply feqb_eq in Eq. injection Eq as -> ->. rewrite Ec. rewrite andb_false_r. assert (d' = d) by congruence. subst d'. cbn [orb andb]. lia.
      * cbn [orb]. lia.
  - injection Ea as <- <-. destruct (feqb (t, n) (t', n')) eqn:Eq; [|reflexivity]. apply feqb_eq in Eq. injection Eq as -> ->. congruence.
Qed.

End Cache.

(** ** Filter files *)
Section Files.
Variable quo15 : fl -> fl -> fl.
Variables (wr : fl -> txt) (rd : txt -> option fl).

Definition word_ok (we : fl -> txt) (v : fl) : Prop := cell_ok rd we v.

Lemma undump_dump : forall l, (forall v, In v l -> cell_ok rd wr v) -> undump rd (dump wr l) = Ok l.
Proof.
  intros l H. destruct l as [|x l]; [reflexivity|]. unfold undump, dump.
  assert (Hne : join [nl] (map wr (x :: l)) <> []).
  { destruct (H x (or_introl eq_refl)) as (_ & G & _). intros E. apply G. destruct l as [|y l]; [exact E|].
    change (join [nl] (map wr (x :: y :: l))) with (wr x ++ [nl] ++ join [nl] (map wr (y :: l))) in E. now apply app_eq_nil in E. }
  destruct (join [nl] (map wr (x :: l))) as [|c s] eqn:E; [congruence|]. rewrite <- E. clear c s E Hne.
  rewrite split_join; [|discriminate|].
  - induction (x :: l) as [|y r IH]; [reflexivity|]. cbn [map cells]. destruct (H y (or_introl eq_refl)) as (G1 & _ & G3).
    assert (E : strip (wr y) = wr y). { rewrite <- (app_nil_l (wr y)) at 1. apply strip_id; [intros c []|]. intros c Hc. now apply sepc_space, G3. }
    rewrite E, G1. rewrite IH; [reflexivity|]. intros v Hv. apply H. now right.
  - intros s Hs G. apply in_map_iff in Hs. destruct Hs as (v & <- & Hv). destruct (H v Hv) as (_ & _ & G3). apply G3 in G. destruct (sepc_space _ G) as (_ & _ & _ & G4 & _). congruence.
Qed.

Lemma ffile_inj : forall p n a b, ffile p n a = ffile p n b -> a = b.
Proof. intros p n a b H. unfold ffile in H. rewrite !app_assoc in H. apply app_inv_tail in H. now apply app_inv_head in H. Qed.

Definition attrs_ok (f : filt) : Prop := forall v l x, f_attr f v = Some l -> In x l -> cell_ok rd wr x.

(** the files after saving *)
Lemma tofile_get : forall p f w w' v, tofile wr p f w = Ok w' ->
  fget (ffile p (f_save f) v) w' =
    if existsb (teqb v) (T "base" :: f_coeff f) then match f_attr f v with Some l => Some (dump wr l) | None => fget (ffile p (f_save f) v) w end
    else fget (ffile p (f_save f) v) w.
Proof.
  intros p f w w' v H. unfold tofile, get_base in H. destruct (f_attr f (T "base")) as [b|] eqn:Eb; [|discriminate H]. cbn [bind] in H.
  match type of H with Ok ?u = Ok ?z => assert (HW : z = u) by congruence end. subst w'. clear H.
  assert (G : forall cs w0, fget (ffile p (f_save f) v) (fold_left (fun w v => match f_attr f v with Some l => fput (ffile p (f_save f) v) (dump wr l) w | None => w end) cs w0)
    = if existsb (teqb v) cs then match f_attr f v with Some l => Some (dump wr l) | None => fget (ffile p (f_save f) v) w0 end else fget (ffile p (f_save f) v) w0).
  { induction cs as [|c cs IH]; intros w0; [reflexivity|]. cbn [fold_left existsb]. rewrite IH. destruct (teqb v c) eqn:E; cbn [orb].
    - apply teqb_eq in E. subst c. destruct (f_attr f v) as [l|]; [|destruct (existsb (teqb v) cs); reflexivity]. rewrite fget_fput. destruct (existsb (teqb v) cs); reflexivity.
    - assert (E' : forall w1 l, fget (ffile p (f_save f) v) (fput (ffile p (f_save f) c) l w1) = fget (ffile p (f_save f) v) w1).
      { intros w1 l. apply fget_fput_other. intros K. apply ffile_inj in K. apply teqb_neq in E. congruence. }
      destruct (f_attr f c) as [l|]; [rewrite E'|]; reflexivity. }
  rewrite G. cbn [existsb]. destruct (teqb v (T "base")) eqn:E; cbn [orb].
  - apply teqb_eq in E. subst v. rewrite Eb, fget_fput. destruct (existsb (teqb (T "base")) (f_coeff f)); reflexivity.
  - assert (E' : forall l, fget (ffile p (f_save f) v) (fput (ffile p (f_save f) (T "base")) l w) = fget (ffile p (f_save f) v) w).
    { intros l. apply fget_fput_other. intros K. apply ffile_inj in K. apply teqb_neq in E. congruence. }
    rewrite E'. reflexivity.
Qed.

Lemma read_coeffs_ok : forall p w vs g (src : txt -> option (list fl)),
  (forall v, In v vs -> match src v with
                        | Some l => exists c, fget (ffile p (f_save g) v) w = Some c /\ undump rd c = Ok l
                        | None => fget (ffile p (f_save g) v) w = None end) ->
  exists h, read_coeffs rd p vs w g = Ok h /\ f_name h = f_name g /\ f_save h = f_save g /\ f_coeff h = f_coeff g
  /\ forall v, f_attr h v = if existsb (teqb v) vs then match src v with Some l => Some l | None => f_attr g v end else f_attr g v.
Proof.
  intros p w. induction vs as [|v vs IH]; intros g src H.
  - exists g. repeat split.
  - cbn [read_coeffs]. pose proof (H v (or_introl eq_refl)) as Hv. destruct (src v) as [l|] eqn:Es.
    + destruct Hv as (c & -> & Hc). rewrite Hc. cbn [bind].
      destruct (IH (set_attr v l g) src) as (h & E & H1 & H2 & H3 & H4); [intros q Hq; apply H; now right|].
      exists h. split; [exact E|]. do 3 (split; [assumption|]). intros q. rewrite H4. cbn [existsb set_attr f_attr].
      destruct (teqb q v) eqn:Eq; [|reflexivity]. cbn [orb]. apply teqb_eq in Eq. subst q. rewrite Es. destruct (existsb (teqb v) vs); reflexivity.
    + rewrite Hv. destruct (IH g src) as (h & E & H1 & H2 & H3 & H4); [intros q Hq; apply H; now right|].
      exists h. split; [exact E|]. do 3 (split; [assumption|]). intros q. rewrite H4. cbn [existsb].
      destruct (teqb q v) eqn:Eq; [|reflexivity]. cbn [orb]. apply teqb_eq in Eq. subst q. rewrite Es. destruct (existsb (teqb v) vs); reflexivity.
Qed.

(** Saving and loading into a new filter [g] of the same saved name.  What is loaded
    for a coefficient name is what the filter has, or, if it has none, what an
    earlier file of that name held. *)
Theorem file_trip : forall p f g w w' x0 x1 r, f_attr f (T "base") = Some (x0 :: x1 :: r) -> attrs_ok f ->
  f_save g = f_save f ->
  (forall v, In v (f_coeff g) -> f_attr f v = None \/ ~ In v (T "base" :: f_coeff f) -> fget (ffile p (f_save f) v) w = None) ->
  (forall v, f_attr g v = None) ->
  tofile wr p f w = Ok w' ->
  exists h, fromfile quo15 rd p g w' = Ok h /\ f_name h = f_name g /\ f_save h = f_save f /\ f_coeff h = f_coeff g
  /\ f_attr h (T "base") = f_attr f (T "base")
  /\ (forall v, In v (f_coeff g) -> f_attr h v = if existsb (teqb v) (T "base" :: f_coeff f) then f_attr f v else None)
  /\ f_factor h = Some [quo15 x1 x0].
Proof.
  intros p f g w w' x0 x1 r Hb Hok Hsv Hst Hg Hsave. pose proof (fun v => tofile_get p f w w' v Hsave) as HG.
  unfold fromfile. rewrite Hsv. rewrite HG. change (existsb (teqb (T "base")) (T "base" :: f_coeff f)) with true. cbv iota. rewrite Hb.
  rewrite undump_dump by (intros v Hv; now apply (Hok (T "base") _ v Hb)). cbn [bind].
  set (src := fun v => if existsb (teqb v) (T "base" :: f_coeff f) then f_attr f v else None).
  destruct (read_coeffs_ok p w' (f_coeff g) (set_attr (T "base") (x0 :: x1 :: r) g) src) as (h & E & H1 & H2 & H3 & H4).
  { intros v Hv. unfold src. cbn [set_attr f_save]. rewrite Hsv, HG.
    destruct (existsb (teqb v) (T "base" :: f_coeff f)) eqn:Ex.
    - destruct (f_attr f v) as [l|] eqn:Ea.
      + eexists. split; [reflexivity|]. apply undump_dump. intros y Hy. now apply (Hok v l y Ea).
      + apply Hst; [exact Hv|]. now left.
    - apply Hst; [exact Hv|]. right. intros G. assert (K : existsb (teqb v) (T "base" :: f_coeff f) = true) by (apply existsb_exists; exists v; split; [exact G|apply teqb_refl]). congruence. }
  rewrite E. cbn [bind]. unfold get_base.
  assert (Eb : f_attr h (T "base") = Some (x0 :: x1 :: r)).
  { rewrite H4. assert (Es : src (T "base") = Some (x0 :: x1 :: r)) by (unfold src; cbn [existsb]; rewrite teqb_refl; exact Hb).
    rewrite Es. destruct (existsb (teqb (T "base")) (f_coeff g)); [reflexivity|]. cbn [set_attr f_attr]. rewrite teqb_refl. reflexivity. }
  rewrite Eb. cbn [bind factor_of]. eexists. split; [reflexivity|]. cbn [set_factor f_name f_save f_coeff f_attr f_factor].
  rewrite H1, H2, H3, Eb. cbn [set_attr f_name f_save f_coeff]. split; [reflexivity|]. split; [exact Hsv|]. split; [reflexivity|]. split; [congruence|]. split; [|reflexivity].
  intros v Hv. rewrite H4. assert (K : existsb (teqb v) (f_coeff g) = true) by (apply existsb_exists; exists v; split; [exact Hv|apply teqb_refl]). rewrite K.
  change (if existsb (teqb v) (T "base" :: f_coeff f) then f_attr f v else None) with (src v). destruct (src v) eqn:Es; [reflexivity|].
  cbn [set_attr f_attr]. destruct (teqb v (T "base")) eqn:Ev; [|apply Hg]. apply teqb_eq in Ev. subst v. unfold src in Es. cbn [existsb] in Es. rewrite teqb_refl in Es. cbn [orb] in Es. congruence.
Qed.

(** an earlier file of a coefficient the filter does not have becomes part of it *)
Theorem file_stale : forall p f g w w' v l x0 x1 r, f_attr f (T "base") = Some (x0 :: x1 :: r) -> attrs_ok f ->
  f_save g = f_save f -> f_coeff g = [v] -> v <> T "base" -> f_attr f v = None -> (forall x, In x l -> cell_ok rd wr x) ->
  fget (ffile p (f_save f) v) w = Some (dump wr l) -> tofile wr p f w = Ok w' ->
  exists h, fromfile quo15 rd p g w' = Ok h /\ f_attr h v = Some l.
Proof.
  intros p f g w w' v l x0 x1 r Hb Hok Hsv Hc Hv Ha Hl Hw Hsave. pose proof (fun v => tofile_get p f w w' v Hsave) as HG.
  unfold fromfile. rewrite Hsv. rewrite HG. change (existsb (teqb (T "base")) (T "base" :: f_coeff f)) with true. cbv iota. rewrite Hb.
  rewrite undump_dump by (intros y Hy; now apply (Hok (T "base") _ y Hb)). cbn [bind]. rewrite Hc. cbn [read_coeffs set_attr f_save]. rewrite Hsv, HG, Ha, Hw.
  assert (E : (if existsb (teqb v) (T "base" :: f_coeff f) then Some (dump wr l) else Some (dump wr l)) = Some (dump wr l)) by (destruct (existsb (teqb v) (T "base" :: f_coeff f)); reflexivity).
  rewrite E. rewrite undump_dump by exact Hl. cbn [bind]. unfold get_base. cbn [set_attr f_attr].
  assert (E1 : teqb (T "base") v = false) by (apply teqb_neq; congruence). rewrite E1, teqb_refl. cbn [bind factor_of]. eexists. split; [reflexivity|].
  cbn [set_factor set_attr f_attr]. rewrite teqb_refl. reflexivity.
Qed.

(** a base with fewer than two elements is saved but cannot be loaded *)
Theorem file_short : forall p f w w', f_coeff f = [] -> (exists x, f_attr f (T "base") = Some [x]) -> attrs_ok f -> tofile wr p f w = Ok w' ->
  fromfile quo15 rd p f w' = Err IndexError.
Proof.
  intros p f w w' Hc [x Hb] Hok Hsave. pose proof (fun v => tofile_get p f w w' v Hsave) as HG. unfold fromfile. rewrite HG.
  change (existsb (teqb (T "base")) (T "base" :: f_coeff f)) with true. cbv iota. rewrite Hb. rewrite undump_dump by (intros y Hy; now apply (Hok (T "base") _ y Hb)).
  cbn [bind]. rewrite Hc. cbn [read_coeffs bind]. unfold get_base. cbn [set_attr f_attr]. rewrite teqb_refl. reflexivity.
Qed.

(** ** fdesign *)
Lemma digits_pow : forall k m, digits2_pos (Pos.iter xO m k) = (digits2_pos m + k)%positive.
Proof.
  intros k m. revert k. apply (Pos.peano_ind (fun k => digits2_pos (Pos.iter xO m k) = (digits2_pos m + k)%positive)).
  - cbn. lia.
  - intros k IH. rewrite Pos.iter_succ. cbn [digits2_pos]. rewrite IH. lia.
Qed.
Lemma iter_xO : forall k m, Z.pos (Pos.iter xO m k) = (Z.pos m * 2 ^ Z.pos k)%Z.
Proof.
  intros k m. revert k. apply (Pos.peano_ind (fun k => Z.pos (Pos.iter xO m k) = (Z.pos m * 2 ^ Z.pos k)%Z)).
  - change (Z.pos (m~0) = (Z.pos m * 2)%Z). lia.
  - intros k IH. rewrite Pos.iter_succ. rewrite (Pos2Z.inj_xO (Pos.iter xO m k)), IH, Pos2Z.inj_succ, Z.pow_succ_r by lia. lia.
Qed.
Lemma digits_bound : forall m, (2 ^ Z.pos (digits2_pos m) <= 2 * Z.pos m)%Z.
Proof.
  induction m as [m IH|m IH|]; cbn [digits2_pos]; [rewrite Pos2Z.inj_succ, Z.pow_succ_r by lia; lia..|cbn; lia].
Qed.

(** numbers below 2^53 are exact *)
Lemma int_of_nat : forall n, (Z.of_nat n < 2 ^ 53)%Z -> int_of (of_nat n) = Ok n.
Proof.
  intros n Hn. unfold of_nat. destruct n as [|n']; [reflexivity|]. set (n := S n') in *. destruct (Z.of_nat n) as [|m|m] eqn:Em; [lia| |lia].
  assert (Hd : (Z.pos (digits2_pos m) <= 53)%Z).
  { destruct (Z.le_gt_cases (Z.pos (digits2_pos m)) 53) as [H|H]; [exact H|exfalso]. pose proof (digits_bound m) as B.
    assert (2 ^ 54 <= 2 ^ Z.pos (digits2_pos m))%Z by (apply Z.pow_le_mono_r; lia). change (2 ^ 54)%Z with (2 * 2 ^ 53)%Z in H0. lia. }
  cbn [binary_normalize]. unfold binary_round. 
  set (d := Z.pos (digits2_pos m)) in *. assert (Hfx : forall e, (-52 <= e <= 53)%Z -> fexp 53 1024 e = (e - 53)%Z). { intros e He. unfold fexp, emin. lia. }
  assert (Hd1 : (1 <= d)%Z) by (unfold d; lia). rewrite Hfx by lia.
  assert (E : exists mz ez, shl_align m 0 (d + 0 - 53) = (mz, ez) /\ ez = (d - 53)%Z /\ Z.pos (digits2_pos mz) = 53%Z /\ Z.pos mz = (Z.pos m * 2 ^ (53 - d))%Z).
  { unfold shl_align. destruct (d + 0 - 53 - 0)%Z as [|k|k] eqn:Ek.
    - exists m, 0%Z. split; [reflexivity|]. split; [lia|]. split; [unfold d in *; lia|]. replace (53 - d)%Z with 0%Z by lia. cbn. lia.
    - lia.
    - exists (shift_pos k m), (d + 0 - 53)%Z. split; [reflexivity|]. split; [lia|]. unfold shift_pos. rewrite digits_pow, iter_xO. split; [unfold d in *; lia|]. do 2 f_equal. lia. }
  destruct E as (mz & ez & E & Hez & Hdz & Hmz). rewrite E.
  unfold binary_round_aux, shr_fexp. cbn [Zdigits2]. rewrite Hdz. rewrite Hfx by lia. replace (53 + ez - 53 - ez)%Z with 0%Z by lia.
  cbn [shr shr_record_of_loc shr_m loc_of_shr_record round_nearest_even Zdigits2]. rewrite Hdz. rewrite Hfx by lia. replace (53 + ez - 53 - ez)%Z with 0%Z by lia.
  cbn [shr shr_record_of_loc shr_m]. assert (G : (ez <=? 1024 - 53)%Z = true) by (apply Z.leb_le; lia). rewrite G.
  unfold int_of. f_equal. destruct (Z.ltb_spec ez 0) as [H|H].
  - rewrite Z.shiftr_div_pow2 by lia. rewrite Hmz. replace (- ez)%Z with (53 - d)%Z by lia. rewrite Z.div_mul by (apply Z.pow_nonzero; lia). lia.
  - rewrite Z.shiftl_mul_pow2 by lia. assert (ez = 0)%Z by lia. rewrite H0. assert (53 - d = 0)%Z by lia. rewrite H1 in Hmz. cbn in Hmz |- *. lia.
Qed.

Variable we : fl -> txt.

Lemma pad_len : forall m x, (1 <= m)%nat -> List.length (pad m x) = m.
Proof. intros m x H. unfold pad. cbn [List.length]. rewrite repeat_length. lia. Qed.

Lemma cells_words : forall r, (forall v, In v r -> cell_ok rd we v) -> r <> [] -> cells rd (split " " (join (T " ") (map we r))) = Ok r.
Proof.
  intros r H Hne. change (T " ") with [" "%char]. rewrite split_join; [|intros E; apply map_eq_nil in E; congruence|].
  - clear Hne. induction r as [|y r IH]; [reflexivity|]. cbn [map cells]. destruct (H y (or_introl eq_refl)) as (G1 & _ & G3).
    assert (E : strip (we y) = we y). { rewrite <- (app_nil_l (we y)) at 1. apply strip_id; [intros c []|]. intros c Hc. now apply sepc_space, G3. }
    rewrite E, G1. rewrite IH; [reflexivity|]. intros v Hv. apply H. now right.
  - intros s Hs G. apply in_map_iff in Hs. destruct Hs as (v & <- & Hv). destruct (H v Hv) as (_ & _ & G3). apply G3 in G. vm_compute in G. discriminate G.
Qed.

Definition wrow (r : list fl) : txt := join (T " ") (map we r).
Lemma wrow_chars : forall r c, (forall v, In v r -> cell_ok rd we v) -> In c (wrow r) -> c <> "#"%char /\ c <> nl /\ c <> cr.
Proof.
  intros r c H Hc. apply join_in in Hc. destruct Hc as [Hc|(s & Hs & Hc)].
  - destruct Hc as [<-|[]]; repeat split; discriminate.
  - apply in_map_iff in Hs. destruct Hs as (x & <- & Hx). destruct (H x Hx) as (_ & _ & G). destruct (sepc_space c (G c Hc)) as (_ & _ & H1). exact H1.
Qed.
Lemma wrow_nonnil : forall r, (forall v, In v r -> cell_ok rd we v) -> r <> [] -> wrow r <> [].
Proof.
  intros [|x r] H Hne; [congruence|]. unfold wrow. intros E. destruct (H x (or_introl eq_refl)) as (_ & G & _). apply G.
  cbn [map] in E. destruct (map we r) as [|y l]; [exact E|]. change (join (T " ") (we x :: y :: l)) with (we x ++ T " " ++ join (T " ") (y :: l)) in E.
  apply app_eq_nil in E. tauto.
Qed.

Lemma wtable_rows : forall m rs, (0 < m)%nat -> (forall r, In r rs -> List.length r = m /\ forall v, In v r -> cell_ok rd we v) -> wtable rd (map wrow rs) = Ok rs.
Proof.
  intros m rs Hm. induction rs as [|r rs IH]; intros H; [reflexivity|]. cbn [map wtable]. destruct (H r (or_introl eq_refl)) as [Hl Hx].
  unfold wrow at 1. rewrite cells_words; [|exact Hx|intros ->; cbn in Hl; lia]. cbn [bind]. rewrite IH by (intros q Hq; apply H; now right). cbn [bind].
  destruct rs as [|q rs]; [reflexivity|]. destruct (H q) as [Hq _]; [right; now left|]. rewrite Hl, Hq, Nat.eqb_refl. reflexivity.
Qed.

Lemma header_chars : forall n m h, In h (full_header n m) -> ~ In nl h /\ ~ In cr h.
Proof.
  assert (D : forall c k, c = nl \/ c = cr -> ~ In c (str_nat k)) by (intros c k [-> | ->]; now apply str_nat_not).
  assert (L : forall c (s : txt), cin c s = false -> ~ In c s) by (intros c s; apply cin_false).
  intros n m h H. unfold full_header in H. cbn [In] in H.
  repeat (destruct H as [<-|H]; [split; intros G; repeat (apply in_app_or in G; destruct G as [G|G]); first [revert G; apply D; tauto | revert G; apply L; reflexivity]|]). contradiction.
Qed.

Lemma load_full_text : forall n m u, (0 < m)%nat -> (forall r, In r (full_rows n m u) -> List.length r = m /\ forall v, In v r -> cell_ok rd we v) ->
  load_table rd (full_text we n m u) = Ok (full_rows n m u).
Proof.
  intros n m u Hm H. unfold load_table, full_text. rewrite read_lines.
  - rewrite map_app, filter_app.
    assert (E1 : forall hs, filter nonempty (map no_comment (map (fun h => T "# " ++ h) hs)) = []).
    { induction hs as [|h hs IH]; [reflexivity|]. cbn [map filter]. exact IH. }
    rewrite E1. cbn [app].
    assert (E2 : filter nonempty (map no_comment (map (fun r => join (T " ") (map we r)) (full_rows n m u))) = map wrow (full_rows n m u)).
    { revert H. generalize (full_rows n m u). induction l as [|r l IH]; intros H; [reflexivity|]. cbn [map filter]. destruct (H r (or_introl eq_refl)) as [H1 H2].
      change (join (T " ") (map we r)) with (wrow r). rewrite no_comment_id by (intros G; destruct (wrow_chars r _ H2 G) as (G1 & _); congruence).
      assert (E : teqb (wrow r) [] = false). { apply teqb_neq. apply wrow_nonnil; [exact H2|]. intros ->. cbn in H1. lia. }
      unfold nonempty at 1. rewrite E. cbn [negb]. f_equal. apply IH. intros q Hq. apply H. now right. }
    match goal with |- wtable rd ?x = _ => replace x with (map wrow (full_rows n m u)) by (symmetry; exact E2) end. now apply (wtable_rows m).
  - intros s Hs. apply in_app_or in Hs. destruct Hs as [Hs|Hs]; apply in_map_iff in Hs; destruct Hs as (h & <- & Hh).
    + apply header_chars in Hh. destruct Hh as [H1 H2]. split; intros G; apply in_app_or in G; (destruct G as [G|G]; [cbn in G; intuition discriminate|tauto]).
    + destruct (H h Hh) as [_ Hx]. split; intros G; destruct (wrow_chars h _ Hx G) as (_ & K1 & K2); congruence.
Qed.

Definition full_ok (n m : nat) (u : full) : Prop :=
  matrix n m (u_gs u) /\ matrix n m (u_gh u) /\ matrix n m (u_obj u)
  /\ (Z.of_nat n < 2 ^ 53)%Z /\ (Z.of_nat m < 2 ^ 53)%Z /\ (u_mm u <= 1)%nat.

Lemma skipn_exact : forall A (a b : list A) k, List.length a = k -> skipn k (a ++ b) = b.
Proof. intros A a b k <-. rewrite skipn_app, skipn_all, Nat.sub_diag. reflexivity. Qed.
Lemma firstn_exact : forall A (a b : list A) k, List.length a = k -> firstn k (a ++ b) = a.
Proof. intros A a b k <-. rewrite firstn_app, firstn_all, Nat.sub_diag. cbn. apply app_nil_r. Qed.

Lemma block_ok : forall n m l, matrix n m l -> block n m l = Ok l.
Proof.
  intros n m l [H1 H2]. unfold block. rewrite H1, Nat.eqb_refl. assert (E : forallb (fun r => (List.length r =? m)%nat) l = true) by (apply forallb_forall; intros r Hr; apply Nat.eqb_eq; now apply H2).
  rewrite E. reflexivity.
Qed.

Lemma read_full_ok : forall n m u, (2 <= m)%nat -> full_ok n m u -> read_full (full_rows n m u) = Ok u.
Proof.
  intros n m u Hm ([A1 A2] & [B1 B2] & [C1 C2] & Hn & Hmm & Hk). unfold read_full.
  assert (E0 : one_dim (full_rows n m u) = false).
  { unfold one_dim, full_rows. cbn [app forallb]. rewrite pad_len by lia. destruct (Nat.eqb_spec m 1); [lia|reflexivity]. }
  rewrite E0.
  change (at0 (full_rows n m u) 0) with (Ok (of_nat n)). change (at0 (full_rows n m u) 1) with (Ok (of_nat m)). change (at0 (full_rows n m u) 2) with (Ok (u_space u)).
  change (at0 (full_rows n m u) 3) with (Ok (u_shift u)). change (at0 (full_rows n m u) 4) with (Ok (u_min u)).
  cbn [bind]. rewrite int_of_nat by exact Hn. cbn [bind]. rewrite int_of_nat by exact Hmm. cbn [bind].
  set (h5 := [pad m (of_nat n); pad m (of_nat m); pad m (u_space u); pad m (u_shift u); pad m (u_min u)]). set (tl1 := [pad m (of_nat (u_mm u))]).
  assert (EF : full_rows n m u = h5 ++ u_gs u ++ u_gh u ++ u_obj u ++ tl1) by reflexivity.
  assert (Hh5 : List.length h5 = 5%nat) by reflexivity.
  assert (S1 : slice 5 (n + 5) (full_rows n m u) = u_gs u).
  { unfold slice. rewrite EF. rewrite skipn_exact by exact Hh5. replace (n + 5 - 5)%nat with n by lia. now apply firstn_exact. }
  assert (S2 : slice (n + 5) (2 * n + 5) (full_rows n m u) = u_gh u).
  { unfold slice. rewrite EF. rewrite app_assoc. rewrite skipn_exact by (rewrite app_length, Hh5, A1; lia). replace (2 * n + 5 - (n + 5))%nat with n by lia. now apply firstn_exact. }
  assert (S3 : slice (2 * n + 5) (3 * n + 5) (full_rows n m u) = u_obj u).
  { unfold slice. rewrite EF. rewrite (app_assoc (u_gs u)), app_assoc. rewrite skipn_exact by (rewrite !app_length, Hh5, A1, B1; lia). replace (3 * n + 5 - (2 * n + 5))%nat with n by lia. now apply firstn_exact. }
  assert (S4 : at0 (full_rows n m u) (3 * n + 5) = Ok (of_nat (u_mm u))).
  { unfold at0. rewrite EF. rewrite (app_assoc (u_gh u)), (app_assoc (u_gs u)), app_assoc. rewrite nth_error_app2 by (rewrite !app_length, Hh5, A1, B1, C1; lia).
    rewrite !app_length, Hh5, A1, B1, C1. replace (3 * n + 5 - (5 + (n + (n + n))))%nat with 0%nat by lia. reflexivity. }
  rewrite S1, S2, S3, S4. rewrite !block_ok by now split. cbn [bind]. rewrite int_of_nat by lia. cbn [bind]. destruct u; reflexivity.
Qed.

Lemma rows_full : forall n m u, (1 <= m)%nat -> matrix n m (u_gs u) -> matrix n m (u_gh u) -> matrix n m (u_obj u) -> forall r, In r (full_rows n m u) -> List.length r = m.
Proof.
  intros n m u Hm [_ A] [_ B] [_ C] r H. unfold full_rows in H. apply in_app_or in H. destruct H as [H|H].
  - cbn [In] in H. repeat (destruct H as [<-|H]; [now apply pad_len|]). contradiction.
  - apply in_app_or in H. destruct H as [H|H]; [now apply A|]. apply in_app_or in H. destruct H as [H|H]; [now apply B|]. apply in_app_or in H. destruct H as [H|H]; [now apply C|].
    destruct H as [<-|[]]. now apply pad_len.
Qed.

(** one shift value: the file has one column, and reading fails *)
Lemma read_full_one : forall n u, matrix n 1 (u_gs u) -> matrix n 1 (u_gh u) -> matrix n 1 (u_obj u) -> read_full (full_rows n 1 u) = Err IndexError.
Proof.
  intros n u A B C. unfold read_full. assert (E : one_dim (full_rows n 1 u) = true); [|now rewrite E].
  apply forallb_forall. intros r Hr. apply Nat.eqb_eq. now apply (rows_full n 1 u).
Qed.

Definition nums_ok (n m : nat) (u : full) : Prop := forall r v, In r (full_rows n m u) -> In v r -> cell_ok rd we v.

(** saving and loading with the full output *)
Lemma full_file_other : forall p name v, v <> T "full" -> ffile p (hd [] (split "." name)) v <> full_file p name.
Proof.
  intros p name v Hv E. unfold ffile, full_file in E. cbv zeta in E. apply app_inv_head in E. apply app_inv_head in E. apply app_inv_head in E.
  destruct (List.length (split "." name) =? 2)%nat.
  - apply (f_equal (@List.rev ascii)) in E. rewrite !rev_app_distr in E. discriminate E.
  - rewrite app_nil_r in E. change (T "_full.txt") with (T "_" ++ T "full" ++ T ".txt") in E. apply app_inv_head in E. apply app_inv_tail in E. contradiction.
Qed.

Lemma read_coeffs_ext : forall p w1 w2 vs g, (forall v, In v vs -> fget (ffile p (f_save g) v) w1 = fget (ffile p (f_save g) v) w2) -> read_coeffs rd p vs w1 g = read_coeffs rd p vs w2 g.
Proof.
  intros p w1 w2. induction vs as [|v vs IH]; intros g H; [reflexivity|]. cbn [read_coeffs]. rewrite <- (H v) by now left.
  destruct (fget (ffile p (f_save g) v) w1) as [c|].
  - destruct (undump rd c) as [l|e]; [|reflexivity]. cbn [bind]. apply IH. intros q Hq. cbn [set_attr f_save]. apply H. now right.
  - apply IH. intros q Hq. apply H. now right.
Qed.
Lemma fromfile_ext : forall p w1 w2 g, (forall v, In v (T "base" :: f_coeff g) -> fget (ffile p (f_save g) v) w1 = fget (ffile p (f_save g) v) w2) -> fromfile quo15 rd p g w1 = fromfile quo15 rd p g w2.
Proof.
  intros p w1 w2 g H. unfold fromfile. rewrite <- (H (T "base")) by now left. destruct (fget (ffile p (f_save g) (T "base")) w1) as [c|]; [|reflexivity].
  destruct (undump rd c) as [b|e]; [|reflexivity]. cbn [bind]. rewrite (read_coeffs_ext p w1 w2); [reflexivity|]. intros v Hv. cbn [set_attr f_save]. apply H. now right.
Qed.

Theorem full_trip : forall name f u p coeff w w' n m x0 x1 r, let g := new_filter (hd [] (split "." name)) None coeff in
  f_save f = hd [] (split "." name) -> f_attr f (T "base") = Some (x0 :: x1 :: r) -> attrs_ok f ->
  (forall v, In v (f_coeff g) -> f_attr f v = None \/ ~ In v (T "base" :: f_coeff f) -> fget (ffile p (f_save f) v) w = None) ->
  ~ In (T "full") (f_coeff g) ->
  (1 <= n)%nat -> (2 <= m)%nat -> full_ok n m u -> nums_ok n m u ->
  save_filter wr we name f (Some u) p w = Ok w' ->
  exists h, load_filter quo15 rd name true p coeff w' = Ok (h, Some u)
  /\ f_attr h (T "base") = f_attr f (T "base")
  /\ (forall v, In v (f_coeff g) -> f_attr h v = if existsb (teqb v) (T "base" :: f_coeff f) then f_attr f v else None)
  /\ f_factor h = Some [quo15 x1 x0].
Proof.
  intros name f u p coeff w w' n m x0 x1 r g Hsv Hb Hok Hst Hfull Hn Hm Hu Hnum Hsave.
  unfold save_filter in Hsave. destruct (tofile wr p f w) as [w1|e] eqn:Ew; [|discriminate Hsave]. cbn [bind] in Hsave.
  pose proof Hu as ([A1 A2] & [B1 B2] & [C1 C2] & _).
  assert (Em : List.length (hd [] (u_obj u)) = m). { destruct (u_obj u) as [|q l] eqn:E; [cbn in C1; lia|]. apply C2. now left. }
  cbv zeta in Hsave. rewrite C1, Em in Hsave. match type of Hsave with Ok ?u = Ok ?z => assert (HW : z = u) by congruence end. subst w'. clear Hsave.
  assert (Hsv' : f_save g = f_save f) by (rewrite Hsv; reflexivity).
  destruct (file_trip p f g w w1 x0 x1 r Hb Hok Hsv' Hst (fun _ => eq_refl) Ew) as (h & E & _ & _ & _ & H4 & H5 & H6).
  exists h. split; [|now split].
  unfold load_filter. fold g. rewrite (fromfile_ext p _ w1 g).
  - rewrite E. cbn [bind]. rewrite fget_fput. rewrite load_full_text.
    + cbn [bind]. rewrite (read_full_ok n m u Hm Hu). reflexivity.
    + lia.
    + intros q Hq. split; [apply (rows_full n m u); [lia|now split..|exact Hq]|]. intros v Hv. now apply (Hnum q v).
  - intros v Hv. apply fget_fput_other. apply full_file_other. intros ->. destruct Hv as [Hv|Hv]; [discriminate Hv|contradiction].
Qed.

Theorem full_one_shift : forall name f u p coeff w w' n x0 x1 r, let g := new_filter (hd [] (split "." name)) None coeff in
  f_save f = hd [] (split "." name) -> f_attr f (T "base") = Some (x0 :: x1 :: r) -> attrs_ok f ->
  (forall v, In v (f_coeff g) -> f_attr f v = None \/ ~ In v (T "base" :: f_coeff f) -> fget (ffile p (f_save f) v) w = None) ->
  ~ In (T "full") (f_coeff g) ->
  (1 <= n)%nat -> full_ok n 1 u -> nums_ok n 1 u ->
  save_filter wr we name f (Some u) p w = Ok w' -> load_filter quo15 rd name true p coeff w' = Err IndexError.
Proof.
  intros name f u p coeff w w' n x0 x1 r g Hsv Hb Hok Hst Hfull Hn Hu Hnum Hsave.
  unfold save_filter in Hsave. destruct (tofile wr p f w) as [w1|e] eqn:Ew; [|discriminate Hsave]. cbn [bind] in Hsave.
  pose proof Hu as (A & B & C & _). pose proof C as [C1 C2].
  assert (Em : List.length (hd [] (u_obj u)) = 1%nat). { destruct (u_obj u) as [|q l] eqn:E; [cbn in C1; lia|]. apply C2. now left. }
  cbv zeta in Hsave. rewrite C1, Em in Hsave. match type of Hsave with Ok ?u = Ok ?z => assert (HW : z = u) by congruence end. subst w'. clear Hsave.
  assert (Hsv' : f_save g = f_save f) by (rewrite Hsv; reflexivity).
  destruct (file_trip p f g w w1 x0 x1 r Hb Hok Hsv' Hst (fun _ => eq_refl) Ew) as (h & E & _).
  unfold load_filter. fold g. rewrite (fromfile_ext p _ w1 g).
  - rewrite E. cbn [bind]. rewrite fget_fput. rewrite load_full_text.
    + cbn [bind]. rewrite read_full_one by assumption. reflexivity.
    + lia.
    + intros q Hq. split; [apply (rows_full n 1 u); [lia|assumption..]|]. intros v Hv. now apply (Hnum q v).
  - intros v Hv. apply fget_fput_other. apply full_file_other. intros ->. destruct Hv as [Hv|Hv]; [discriminate Hv|contradiction].
Qed.
End Files.

(** ** Grids *)
Local Open Scope R_scope.
Lemma Int_part_unique : forall (z : Z) x, IZR z <= x < IZR z + 1 -> Int_part x = z.
Proof. intros z x [H1 H2]. symmetry. unfold Int_part. assert (E : (up x = z + 1)%Z) by (symmetry; apply tech_up; rewrite plus_IZR; lra). lia. Qed.

Lemma ceil_half : forall n : nat, (1 <= n)%nat -> ceil (INR n - 1 + 1 / 2) = Z.of_nat n.
Proof. intros n Hn. unfold ceil. rewrite (Int_part_unique (- Z.of_nat n)%Z); [lia|]. rewrite opp_IZR, <- INR_IZR_INZ. lra. Qed.

Theorem ls2ar_points : forall a b n, (2 <= n)%nat -> a <> b ->
  let g := grid (ls2ar (LsTuple a b n)) in
  List.length g = n /\ (forall i, (i < n)%nat -> nth i g 0 = a + INR i * ((b - a) / (INR n - 1))) /\ nth 0 g 0 = a /\ nth (n - 1) g 0 = b.
Proof.
  intros a b n Hn Hab g. assert (Hn1 : INR n - 1 > 0). { assert (H : INR 2 <= INR n) by (apply le_INR; exact Hn). cbn in H. lra. }
  assert (Hs : (b - a) / (INR n - 1) <> 0). { intros E. apply Hab. apply (f_equal (fun z => z * (INR n - 1))) in E. unfold Rdiv in E. rewrite Rmult_assoc, Rinv_l, Rmult_1_r, Rmult_0_l in E by lra. lra. }
  assert (Hba : b - a <> 0) by lra.
  assert (Eg : g = map (fun i => a + INR i * ((b - a) / (INR n - 1))) (seq 0 n)).
  { unfold g, ls2ar, grid. assert (E1 : (n <? 2)%nat = false) by (apply Nat.ltb_ge; exact Hn). rewrite E1. destruct (Req_EM_T a b) as [E|_]; [contradiction|]. cbn [orb].
    assert (E2 : (b + (b - a) / (INR n - 1) / 2 - a) / ((b - a) / (INR n - 1)) = INR n - 1 + 1 / 2) by (field; repeat split; lra).
    rewrite E2, ceil_half by lia. rewrite Nat2Z.id. reflexivity. }
  assert (Hlen : List.length g = n) by (rewrite Eg, map_length, seq_length; reflexivity).
  assert (Hnth : forall i, (i < n)%nat -> nth i g 0 = a + INR i * ((b - a) / (INR n - 1))).
  { intros i Hi. rewrite Eg. rewrite (nth_indep _ 0 ((fun i => a + INR i * ((b - a) / (INR n - 1))) 0%nat)) by (rewrite map_length, seq_length; exact Hi).
    rewrite (map_nth (fun i => a + INR i * ((b - a) / (INR n - 1))) (seq 0 n) 0%nat i), seq_nth by exact Hi. reflexivity. }
  split; [exact Hlen|]. split; [exact Hnth|]. split.
  - rewrite Hnth by lia. cbn [INR]. lra.
  - rewrite Hnth by lia. rewrite minus_INR by lia. cbn [INR]. field. lra.
Qed.

(** one point in all other cases *)
Theorem ls2ar_one : forall i, match i with LsFloat _ => True | LsTuple a b n => (n < 2)%nat \/ a = b end ->
  grid (ls2ar i) = [match i with LsFloat x => x | LsTuple a _ _ => a end].
Proof.
  intros i H. assert (E : forall x, grid (x, x + 1 / 2, 1) = [x]).
  { intros x. unfold grid. assert (E : (x + 1 / 2 - x) / 1 = INR 1 - 1 + 1 / 2) by (cbn [INR]; lra). rewrite E, ceil_half by lia. rewrite Nat2Z.id. cbn [seq map INR]. f_equal. lra. }
  destruct i as [x|a b n]; unfold ls2ar.
  - cbn [Nat.ltb Nat.leb orb]. apply E.
  - destruct H as [H|H].
    + apply Nat.ltb_lt in H. rewrite H. cbn [orb]. apply E.
    + destruct (Req_EM_T a b); [|contradiction]. rewrite orb_true_r. apply E.
Qed.
