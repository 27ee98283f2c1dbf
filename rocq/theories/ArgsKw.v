(** * Keyword handling, transform names, signals and the FFT length *)
From Coq Require Import ZArith List Lia Lra Reals String Ascii Bool.
From Coquelicot Require Import Complex.
From Verif Require Import PyBase CBase Utils Transform UtilsArgs UtilsLayer.
Import ListNotations.
Local Open Scope string_scope.
Local Open Scope res_scope.
Local Open Scope R_scope.

(** ** Dictionaries *)

Lemma lookup_delkey : forall V k k' (d : list (string * V)),
  lookup k (delkey k' d) = if String.eqb k k' then None else lookup k d.
Proof.
  induction d as [|[a v] t IH]; cbn [delkey filter lookup].
  - destruct (k =? k'); reflexivity.
  - fold (delkey k' t). cbn [fst]. destruct (String.eqb_spec a k') as [->|Hak]; cbn [negb].
    + rewrite IH. destruct (String.eqb_spec k k') as [->|Hk]; [reflexivity|].
      destruct (String.eqb_spec k' k); [congruence|reflexivity].
    + cbn [lookup]. rewrite IH. destruct (String.eqb_spec a k) as [->|Hk]; [|reflexivity].
      destruct (String.eqb_spec k k'); [congruence|reflexivity].
Qed.

Definition rest_of {V} (names : list string) (kw : list (string * V)) : list (string * V) :=
  filter (fun p => negb (existsb (String.eqb (fst p)) names)) kw.

Lemma rest_cons : forall V n names (kw : list (string * V)), rest_of names (delkey n kw) = rest_of (n :: names) kw.
Proof.
  induction kw as [|[k v] t IH]; [reflexivity|].
  unfold rest_of, delkey in *. cbn [filter fst existsb].
  destruct (k =? n); cbn [negb orb filter fst]; [exact IH|].
  destruct (existsb (String.eqb k) names); cbn [negb]; [exact IH|f_equal; exact IH].
Qed.

Lemma lookup_not_in : forall V k names (kw : list (string * V)), ~ In k names ->
  forall n, k <> n -> lookup k (delkey n kw) = lookup k kw.
Proof.
  intros V k names kw _ n Hn. rewrite lookup_delkey. destruct (String.eqb_spec k n); [contradiction|reflexivity].
Qed.

Definition verb_of (names : list string) (defaults : list pyv) (kw : dict) (v0 : pyv) : pyv :=
  match find (fun p => String.eqb (fst p) "verb") (combine names defaults) with
  | Some p => dget "verb" (snd p) kw
  | None => v0
  end.

Lemma verb_find : forall names ds, List.length ds = List.length names -> ~ In "verb" names ->
  find (fun p : string * pyv => String.eqb (fst p) "verb") (combine names ds) = None.
Proof.
  induction names as [|n t IH]; intros [|d ds] L Hn; try discriminate; [reflexivity|].
  cbn [combine find fst]. destruct (String.eqb_spec n "verb") as [->|].
  - exfalso. apply Hn. left. reflexivity.
  - apply IH; [cbn in L; lia|]. intros H. apply Hn. right. exact H.
Qed.

Lemma kw_fold : forall (names : list string) (pre ds : list pyv) kw out verb,
  NoDup names -> List.length ds = List.length names ->
  foldM (kw_step (pre ++ ds)%list)
    (combine (map Z.of_nat (seq (List.length pre) (List.length names))) names) (out, verb, kw)
  = Ok ((out ++ map2 (fun n d => dget n d kw) names ds)%list, verb_of names ds kw verb, rest_of names kw).
Proof.
  induction names as [|n t IH]; intros pre ds kw out verb HN L.
  - destruct ds; [|discriminate]. cbn. rewrite app_nil_r. unfold rest_of.
    replace (filter _ kw) with kw; [reflexivity|].
    induction kw as [|p k IHk]; [reflexivity|]. cbn. f_equal. exact IHk.
  - destruct ds as [|d ds]; [discriminate|].
    cbn [List.length seq map combine foldM].
    unfold kw_step at 1. cbn [fst snd].
    rewrite (idx_nth _ _ (List.length pre) d) by (rewrite app_length; cbn; lia).
    rewrite app_nth2, Nat.sub_diag by lia. cbn [nth bind]. unfold dpop.
    inversion HN as [|? ? Hn HN']; subst.
    replace (pre ++ d :: ds)%list with ((pre ++ [d]) ++ ds)%list by (rewrite <- app_assoc; reflexivity).
    replace (S (List.length pre)) with (List.length (pre ++ [d])%list) by (rewrite app_length; cbn; lia).
    cbn [bind]. rewrite IH; [|exact HN'|cbn in L; lia].
    f_equal. f_equal; [|apply rest_cons]. f_equal.
    + rewrite <- app_assoc. f_equal. cbn [app]. unfold map2. cbn [combine map fst snd]. f_equal.
      apply map_ext_in. intros [a b] Hab. cbn [fst snd]. unfold dget.
      rewrite lookup_delkey. destruct (String.eqb_spec a n) as [->|]; [|reflexivity].
      exfalso. apply Hn. exact (in_combine_l _ _ _ _ Hab).
    + unfold verb_of. cbn [combine find fst snd].
      destruct (String.eqb_spec n "verb") as [->|Hv].
      * cbn [snd]. rewrite verb_find; [reflexivity|cbn in L; lia|exact Hn].
      * destruct (find _ (combine t ds)) as [p|] eqn:E; [|reflexivity].
        unfold dget. rewrite lookup_delkey.
        destruct (String.eqb_spec "verb" n) as [E2|]; [congruence|reflexivity].
Qed.

Lemma get_kwargs_eq : forall names defaults kw, NoDup names -> List.length defaults = List.length names ->
  get_kwargs names defaults kw
  = match rest_of names kw with
    | [] => Ok (map2 (fun n d => dget n d kw) names defaults, false)
    | r => if forallb (fun p => existsb (String.eqb (fst p)) known_keys) r
           then w <- gt0 (verb_of names defaults kw (VInt 2)) ;; Ok (map2 (fun n d => dget n d kw) names defaults, w)
           else Err TypeError
    end.
Proof.
  intros names defaults kw HN L. unfold get_kwargs, zrange.
  replace (Z.to_nat (zlen names - 0)) with (List.length names) by (unfold zlen; lia).
  rewrite (map_ext (fun k => (0 + Z.of_nat k)%Z) Z.of_nat) by (intros; lia).
  pose proof (kw_fold names [] defaults kw [] (VInt 2) HN L) as E. cbn [List.length app] in E.
  rewrite E. cbn [bind]. destruct (rest_of names kw); reflexivity.
Qed.

(** the keyword arguments of the modelling routines of the package *)
Definition package_keywords : list string :=
  ["ab"; "bandpass"; "cf"; "depth"; "freq"; "freqtime"; "ft"; "ftarg"; "gain"; "ht"; "htarg"; "loop"; "mrec"; "msrc";
   "recpts"; "signal"; "solution"; "squeeze"; "srcpts"; "strength"; "wavenumber"; "xdirect"].
Lemma package_known : forall k, In k package_keywords <-> In k known_keys.
Proof. intros k. cbn [In package_keywords known_keys]. split; intros H; decompose [or] H; subst; auto 30. Qed.

(** the keyword is neither asked for by the routine nor known to the package *)
Definition unknown (names : list string) (kw : dict) : Prop :=
  exists k v, In (k, v) kw /\ ~ In k names /\ ~ In k package_keywords.
(** the keyword is not asked for by the routine *)
Definition unused (names : list string) (kw : dict) : Prop := exists k v, In (k, v) kw /\ ~ In k names.

Lemma existsb_eqb_in : forall k l, existsb (String.eqb k) l = true <-> In k l.
Proof.
  intros k l. rewrite existsb_exists. split.
  - intros (x & Hx & E). apply String.eqb_eq in E. congruence.
  - intros H. exists k. split; [exact H|apply String.eqb_refl].
Qed.
Lemma existsb_eqb_notin : forall k l, existsb (String.eqb k) l = false <-> ~ In k l.
Proof.
  intros k l. rewrite <- existsb_eqb_in. destruct (existsb (String.eqb k) l); split; intuition congruence.
Qed.

Lemma rest_in : forall names (kw : dict) p, In p (rest_of names kw) <-> In p kw /\ ~ In (fst p) names.
Proof.
  intros. unfold rest_of. rewrite filter_In. rewrite negb_true_iff, existsb_eqb_notin. reflexivity.
Qed.
Lemma rest_nil : forall names (kw : dict), rest_of names kw = [] <-> ~ unused names kw.
Proof.
  intros names kw. split.
  - intros E (k & v & H1 & H2).
    assert (H : In (k, v) (rest_of names kw)) by (apply rest_in; auto). rewrite E in H. destruct H.
  - intros H. destruct (rest_of names kw) as [|[k v] r] eqn:E; [reflexivity|]. exfalso. apply H.
    exists k, v. apply (rest_in names kw (k, v)). rewrite E. left. reflexivity.
Qed.
Lemma known_forall : forall names (kw : dict),
  forallb (fun p => existsb (String.eqb (fst p)) known_keys) (rest_of names kw) = false <-> unknown names kw.
Proof.
  intros names kw. split.
  - intros H. destruct (existsb (fun p => negb (existsb (String.eqb (fst p)) known_keys)) (rest_of names kw)) eqn:E.
    + apply existsb_exists in E. destruct E as ([k v] & Hin & Hk).
      apply rest_in in Hin. rewrite negb_true_iff, existsb_eqb_notin in Hk. cbn [fst] in Hk. rewrite <- package_known in Hk. exists k, v. cbn [fst] in *. tauto.
    + exfalso. rewrite <- not_true_iff_false in H. apply H. apply forallb_forall. intros p Hp.
      destruct (existsb (String.eqb (fst p)) known_keys) eqn:Ek; [reflexivity|].
      rewrite <- not_true_iff_false in E. exfalso. apply E. apply existsb_exists. exists p.
      split; [exact Hp|]. cbv beta. rewrite Ek. reflexivity.
  - intros (k & v & H1 & H2 & H3). apply not_true_iff_false. intros H. rewrite forallb_forall in H.
    specialize (H (k, v)). rewrite existsb_eqb_in in H. apply H3. apply package_known. apply H. apply rest_in. auto.
Qed.

(** the verbosity the routine works with is a number *)
Definition numeric (v : pyv) : Prop := match v with VInt _ | VFloat _ => True | _ => False end.
Definition positive_num (v : pyv) : Prop :=
  match v with VInt z => (0 < z)%Z | VFloat r => 0 < r | _ => False end.

Lemma gt0_num : forall v, numeric v -> exists b, gt0 v = Ok b /\ (b = true <-> positive_num v).
Proof.
  intros [|z|r|s|l|f] H; try destruct H; cbn.
  - exists (0 <? z)%Z. split; [reflexivity|]. apply Z.ltb_lt.
  - exists (Rltb 0 r). split; [reflexivity|]. apply Rltb_true.
Qed.

Theorem get_kwargs_spec : forall names defaults kw, NoDup names -> List.length defaults = List.length names ->
  numeric (verb_of names defaults kw (VInt 2)) ->
  (unknown names kw /\ get_kwargs names defaults kw = Err TypeError)
  \/ (~ unknown names kw /\
      exists w, get_kwargs names defaults kw = Ok (map2 (fun n d => dget n d kw) names defaults, w)
                /\ (w = true <-> unused names kw /\ positive_num (verb_of names defaults kw (VInt 2)))).
Proof.
  intros names defaults kw HN L Hv. rewrite (get_kwargs_eq _ _ _ HN L).
  destruct (rest_of names kw) as [|p r] eqn:E.
  - right. assert (Hu : ~ unused names kw) by (apply rest_nil; exact E). split.
    + intros (k & v & H1 & H2 & _). apply Hu. exists k, v. auto.
    + exists false. split; [reflexivity|]. split; [discriminate|]. intros [H _]. contradiction.
  - rewrite <- E. destruct (forallb _ (rest_of names kw)) eqn:Ef.
    + right. split.
      * intros H. apply known_forall in H. congruence.
      * destruct (gt0_num _ Hv) as (b & Eb & Hb). rewrite Eb. cbn [bind]. exists b.
        split; [reflexivity|]. rewrite Hb. split; [|tauto]. intros H. split; [|exact H].
        destruct p as [k v]. exists k, v. apply (rest_in names kw (k, v)). rewrite E. left. reflexivity.
    + left. split; [|reflexivity]. apply known_forall. exact Ef.
Qed.

(** ** Names *)

Lemma prefix_spec : forall s t, String.prefix s t = true <-> exists u, t = (s ++ u)%string.
Proof.
  induction s as [|c s IH]; intros t.
  - split; [intros _; exists t; reflexivity|]. intros _. destruct t; reflexivity.
  - destruct t as [|d t]; [split; [discriminate|intros (u & H); discriminate]|]. cbn.
    destruct (ascii_dec c d) as [->|Hc].
    + rewrite IH. split; intros (u & E); exists u; [congruence|injection E; auto].
    + split; [discriminate|]. intros (u & E). injection E. congruence.
Qed.

(** [s in t] holds exactly for the substrings of [t] *)
Lemma contains_spec : forall t s, contains s t = true <-> exists a b, t = (a ++ s ++ b)%string.
Proof.
  induction t as [|c t IH]; intros s.
  - change (contains s "") with (String.prefix s "" || false)%bool. rewrite orb_false_r, prefix_spec. split.
    + intros (u & E). exists "", u. exact E.
    + intros (a & b & E). destruct a; [|discriminate]. exists b. exact E.
  - change (contains s (String c t)) with (String.prefix s (String c t) || contains s t)%bool.
    rewrite orb_true_iff, prefix_spec, IH. split.
    + intros [(u & E)|(a & b & E)]; [exists "", u; exact E|]. exists (String c a), b. cbn. congruence.
    + intros (a & b & E). destruct a as [|d a]; [left; exists b; exact E|].
      right. exists a, b. injection E. auto.
Qed.

Lemma contains_quad : forall s, contains s "quad" = true <->
  In s [""; "q"; "u"; "a"; "d"; "qu"; "ua"; "ad"; "qua"; "uad"; "quad"].
Proof.
  intros s. split.
  - intros H. apply contains_spec in H. destruct H as (a & b & E).
    destruct a as [|a1 [|a2 [|a3 [|a4 [|a5 a]]]]]; cbn in E;
      destruct s as [|s1 [|s2 [|s3 [|s4 [|s5 s]]]]]; cbn in E; try discriminate;
      repeat match goal with E : String _ _ = String _ _ |- _ => injection E; clear E; intros; subst end;
      try discriminate; cbn; tauto.
  - intros H. cbn in H. repeat destruct H as [<-|H]; try reflexivity. destruct H.
Qed.

(** ** Which names are accepted *)

Definition accepted {A} (r : res A) : Prop := exists a, r = Ok a.

(** a library of filters that holds the default *)
Definition lib_ok (lib : filter_lib) (dflt : string) (attrs : list string) : Prop :=
  exists f, lib dflt = Some f /\ forall a, In a attrs -> In a (fv_attrs f).

Lemma need_filter_ok : forall f attrs, (forall a, In a attrs -> In a (fv_attrs f)) ->
  need_filter attrs (VFilt f) = Ok f.
Proof.
  intros f attrs H. unfold need_filter.
  replace (forallb (hasattr (VFilt f)) attrs) with true; [reflexivity|].
  symmetry. apply forallb_forall. intros a Ha. cbn. apply existsb_eqb_in. apply H. exact Ha.
Qed.

Lemma get_filter_default : forall lib dflt args f, lib dflt = Some f -> lookup "dlf" args = None ->
  get_filter lib dflt args = Ok (VFilt f, delkey "dlf" args).
Proof. intros lib dflt args f E Hn. unfold get_filter, dpop, dget. rewrite E. cbn [bind]. rewrite Hn. reflexivity. Qed.

Lemma check_hankel_names : forall lib ht verb,
  lib_ok lib "key_201_2009" ["base"; "j0"; "j1"; "factor"] ->
  accepted (check_hankel lib ht [] verb) <->
  In (lower ht) ["dlf"; "qwe"; ""; "q"; "u"; "a"; "d"; "qu"; "ua"; "ad"; "qua"; "uad"; "quad"].
Proof.
  intros lib ht verb (f & Ef & Hf). unfold check_hankel, ht_settings, accepted.
  destruct (String.eqb_spec (lower ht) "dlf") as [->|H1].
  - rewrite (get_filter_default _ _ [] f Ef eq_refl). cbn [bind].
    rewrite (need_filter_ok f _ Hf). cbn. split; [tauto|]. intros _. eexists. reflexivity.
  - destruct (String.eqb_spec (lower ht) "qwe") as [->|H2].
    + cbn. split; [tauto|]. intros _. eexists. reflexivity.
    + destruct (contains (lower ht) "quad") eqn:Ec.
      * apply contains_quad in Ec. split; [|intros _; cbn; eexists; reflexivity].
        intros _. right. right. exact Ec.
      * split.
        -- cbn [bind]. intros (a & E). discriminate.
        -- intros [H|[H|H]]; try congruence. apply contains_quad in H. congruence.
Qed.

(** names that are rejected are rejected with a ValueError, for all settings *)
Lemma check_hankel_rejects : forall lib ht args verb,
  ~ In (lower ht) ["dlf"; "qwe"; ""; "q"; "u"; "a"; "d"; "qu"; "ua"; "ad"; "qua"; "uad"; "quad"] ->
  check_hankel lib ht args verb = Err ValueError.
Proof.
  intros lib ht args verb H. unfold check_hankel, ht_settings.
  destruct (String.eqb_spec (lower ht) "dlf") as [E|_]; [exfalso; apply H; left; auto|].
  destruct (String.eqb_spec (lower ht) "qwe") as [E|_]; [exfalso; apply H; right; left; auto|].
  destruct (contains (lower ht) "quad") eqn:Ec; [|reflexivity].
  apply contains_quad in Ec. exfalso. apply H. right. right. exact Ec.
Qed.

(** case does not matter *)
Lemma lower_idem : forall s, lower (lower s) = lower s.
Proof.
  induction s as [|c s IH]; [reflexivity|]. cbn. f_equal; [|exact IH].
  destruct c as [[] [] [] [] [] [] [] []]; reflexivity.
Qed.
Lemma check_hankel_case : forall lib ht args verb, check_hankel lib ht args verb = check_hankel lib (lower ht) args verb.
Proof. intros. unfold check_hankel. rewrite lower_idem. reflexivity. Qed.

(** the user's settings are used where given, the defaults elsewhere *)
Lemma dget_del : forall V k k' (d : V) args, k <> k' -> dget k d (delkey k' args) = dget k d args.
Proof.
  intros V k k' d args H. unfold dget. rewrite lookup_delkey. destruct (String.eqb_spec k k'); [contradiction|reflexivity].
Qed.
Ltac dg := rewrite ?dget_del by discriminate.

Lemma hankel_quad_args : forall lib args verb rtol atol limit a b ppd,
  as_float (dget "rtol" (VFloat (/ 10 ^ 12)) args) = Ok rtol ->
  as_float (dget "atol" (VFloat (/ 10 ^ 20)) args) = Ok atol ->
  as_int (dget "limit" (VInt 500) args) = Ok limit ->
  as_float (dget "a" (VFloat (/ 10 ^ 6)) args) = Ok a ->
  as_float (dget "b" (VFloat (/ 10)) args) = Ok b ->
  as_int (dget "pts_per_dec" (VInt 40) args) = Ok ppd ->
  exists w, check_hankel lib "quad" args verb = Ok ("quad", HtQuad rtol atol limit a b (Z.max ppd 1), w).
Proof.
  intros lib args verb rtol atol limit a b ppd E1 E2 E3 E4 E5 E6.
  unfold check_hankel. change (lower "quad") with "quad".
  unfold ht_settings. change (String.eqb "quad" "dlf") with false. change (String.eqb "quad" "qwe") with false.
  change (contains "quad" "quad") with true. cbv iota. unfold dpop.
  rewrite E1. cbn [bind]. dg. rewrite E2. cbn [bind]. dg. rewrite E3. cbn [bind]. dg. rewrite E4. cbn [bind].
  dg. rewrite E5. cbn [bind]. dg. rewrite E6. cbn [bind]. eexists. reflexivity.
Qed.

Lemma hankel_qwe_args : forall lib args verb rtol atol nquad maxint ppd dq a b limit,
  as_float (dget "rtol" (VFloat (/ 10 ^ 12)) args) = Ok rtol ->
  as_float (dget "atol" (VFloat (/ 10 ^ 30)) args) = Ok atol ->
  as_int (dget "nquad" (VInt 51) args) = Ok nquad ->
  as_int (dget "maxint" (VInt 100) args) = Ok maxint ->
  as_int (dget "pts_per_dec" (VInt 0) args) = Ok ppd ->
  as_float (dget "diff_quad" (VInt 100) args) = Ok dq ->
  opt_of as_float (dget "a" VNone args) = Ok a ->
  opt_of as_float (dget "b" VNone args) = Ok b ->
  opt_of as_int (dget "limit" VNone args) = Ok limit ->
  exists w, check_hankel lib "qwe" args verb = Ok ("qwe", HtQwe rtol atol nquad maxint (Z.max ppd 0) dq a b limit, w).
Proof.
  intros lib args verb rtol atol nquad maxint ppd dq a b limit E1 E2 E3 E4 E5 E6 E7 E8 E9.
  unfold check_hankel. change (lower "qwe") with "qwe".
  unfold ht_settings. change (String.eqb "qwe" "dlf") with false. change (String.eqb "qwe" "qwe") with true.
  cbv iota. unfold dpop.
  rewrite E1. cbn [bind]. dg. rewrite E2. cbn [bind]. dg. rewrite E3. cbn [bind]. dg. rewrite E4. cbn [bind].
  dg. rewrite E5. cbn [bind]. dg. rewrite E6. cbn [bind]. dg. rewrite E7. cbn [bind]. dg. rewrite E8. cbn [bind].
  dg. rewrite E9. cbn [bind]. eexists. reflexivity.
Qed.

Lemma hankel_dlf_args : forall lib args verb f0 f ppd,
  lib "key_201_2009" = Some f0 ->
  match dget "dlf" (VFilt f0) args with
  | VStr s => lib s = Some f
  | v => v = VFilt f
  end ->
  (forall a, In a ["base"; "j0"; "j1"; "factor"] -> In a (fv_attrs f)) ->
  as_float (dget "pts_per_dec" (VFloat 0) args) = Ok ppd ->
  exists w, check_hankel lib "dlf" args verb = Ok ("dlf", HtDlf f ppd, w).
Proof.
  intros lib args verb f0 f ppd E0 Ed Hf E1.
  unfold check_hankel. change (lower "dlf") with "dlf".
  unfold ht_settings. change (String.eqb "dlf" "dlf") with true. cbv iota.
  unfold get_filter, dpop. rewrite E0. cbn [bind].
  destruct (dget "dlf" (VFilt f0) args) as [|z|r|s|l|g]; try discriminate Ed.
  - rewrite Ed. cbn [bind]. rewrite (need_filter_ok f _ Hf). cbn [bind]. dg. rewrite E1. eexists. reflexivity.
  - injection Ed as ->. cbn [bind]. rewrite (need_filter_ok f _ Hf). cbn [bind]. dg. rewrite E1. eexists. reflexivity.
Qed.

(** ** Signals *)

Lemma ztrunc_IZR : forall z, ztrunc (IZR z) = z.
Proof.
  assert (P : forall z, Int_part (IZR z) = z).
  { intros z. unfold Int_part. rewrite <- (tech_up (IZR z) (z + 1)); [lia| |]; rewrite plus_IZR; lra. }
  intros z. unfold ztrunc. destruct (Rleb 0 (IZR z)); [apply P|].
  rewrite <- opp_IZR, P. lia.
Qed.

Lemma Int_part_bounds : forall r, IZR (Int_part r) <= r < IZR (Int_part r) + 1.
Proof. intros r. destruct (base_Int_part r). lra. Qed.

(** a number is accepted as signal iff it lies strictly between -2 and 2 *)
Lemma signal_range : forall q, inb (ztrunc q) [-1; 0; 1]%Z = true <-> -2 < q < 2.
Proof.
  intros q. rewrite inb_In. cbn [In]. unfold ztrunc.
  destruct (Rleb 0 q) eqn:E.
  - apply Rleb_true in E. destruct (Int_part_bounds q) as [H1 H2]. set (z := Int_part q) in *. clearbody z.
    assert (Hz : (0 <= z)%Z). { apply le_IZR. destruct (Z_lt_le_dec z 0) as [n|n]; [|apply IZR_le; exact n].
      assert (IZR z + 1 <= 0) by (rewrite <- plus_IZR; apply IZR_le; lia). lra. }
    split.
    + intros [H|[H|[H|[]]]]; try lia; subst z; lra.
    + intros [_ H]. assert (z < 2)%Z by (apply lt_IZR; lra). lia.
  - apply Rleb_false in E. destruct (Int_part_bounds (- q)) as [H1 H2]. set (z := Int_part (- q)) in *. clearbody z.
    assert (Hz : (0 <= z)%Z). { destruct (Z_lt_le_dec z 0) as [n|n]; [|exact n].
      assert (IZR z + 1 <= 0) by (rewrite <- plus_IZR; apply IZR_le; lia). lra. }
    split.
    + intros [H|[H|[H|[]]]]; try lia.
      * assert (z = 1)%Z by lia. subst z. lra.
      * assert (z = 0)%Z by lia. subst z. lra.
    + intros [H _]. assert (z < 2)%Z by (apply lt_IZR; lra). lia.
Qed.

Lemma check_signal_num : forall m leg time q,
  check_signal m leg time (SigNum q)
  = if Rlt_dec (-2) q then if Rlt_dec q 2 then Ok (fst (check_min time (Some (min_time m))), q, None) else Err ValueError
    else Err ValueError.
Proof.
  intros. unfold check_signal. destruct (inb (ztrunc q) [-1; 0; 1]%Z) eqn:E.
  - apply signal_range in E. destruct (Rlt_dec (-2) q), (Rlt_dec q 2); try lra. reflexivity.
  - assert (H : ~ (-2 < q < 2)) by (rewrite <- signal_range; congruence).
    destruct (Rlt_dec (-2) q); [|reflexivity]. destruct (Rlt_dec q 2); [exfalso; apply H; lra|reflexivity].
Qed.

(** integers: exactly -1, 0 and 1 *)
Lemma signal_int : forall m leg time z,
  accepted (check_signal m leg time (SigNum (IZR z))) <-> In z [-1; 0; 1]%Z.
Proof.
  intros. unfold check_signal, accepted. rewrite ztrunc_IZR. destruct (inb z [-1; 0; 1]%Z) eqn:E.
  - apply inb_In in E. split; [auto|]. intros _. eexists. reflexivity.
  - split; [intros (a & H); discriminate|]. intros H. apply inb_In in H. congruence.
Qed.

(** ** Transform names and sine or cosine *)

Lemma ft_rejects : forall lib leg lgi t sg ft args, ~ In ft ["dlf"; "qwe"; "fftlog"; "fft"] ->
  ft_settings lib leg lgi t sg ft args = Err ValueError.
Proof.
  intros lib leg lgi t sg ft args H. unfold ft_settings.
  destruct (String.eqb_spec ft "dlf") as [E|_]; [exfalso; apply H; cbn; auto|].
  destruct (String.eqb_spec ft "qwe") as [E|_]; [exfalso; apply H; cbn; auto|].
  destruct (String.eqb_spec ft "fftlog") as [E|_]; [exfalso; apply H; cbn; auto|].
  destruct (String.eqb_spec ft "fft") as [E|_]; [exfalso; apply H; cbn; auto|]. reflexivity.
Qed.

Lemma check_time_rejects : forall m lib leg lgi time q ft args verb,
  -2 < q < 2 -> ~ In (lower ft) ["dlf"; "qwe"; "fftlog"; "fft"] ->
  check_time m lib leg lgi time (SigNum q) ft args verb = Err ValueError.
Proof.
  intros m lib leg lgi time q ft args verb Hq Hf. unfold check_time. rewrite check_signal_num.
  destruct (Rlt_dec (-2) q); [|lra]. destruct (Rlt_dec q 2); [|lra]. cbn [bind].
  rewrite ft_rejects by exact Hf. reflexivity.
Qed.

(** the sine or cosine transform a set of Fourier arguments stands for: FFTLog
    uses mu = 1/2 for sine and -1/2 for cosine; the FFT is neither *)
Definition uses_sine (a : ftargs) : option bool :=
  match a with
  | FtDlf _ s _ => Some s
  | FtQwe s _ _ _ _ _ _ _ _ _ => Some s
  | FtLog _ _ _ mu _ => Some (Rleb 0 mu)
  | FtFft _ _ _ _ => None
  end.

Lemma kind_choice : forall lib leg lgi t sg ft args freq targ rest,
  ft_settings lib leg lgi t sg ft args = Ok (freq, targ, rest) ->
  (0 < sg -> uses_sine targ = Some true \/ uses_sine targ = None) /\
  (sg < 0 -> uses_sine targ = Some false \/ uses_sine targ = None) /\
  (sg = 0 -> lookup "kind" args = None -> uses_sine targ = Some true \/ uses_sine targ = None) /\
  (uses_sine targ = None <-> ft = "fft").
Proof.
  intros lib leg lgi t sg ft args freq targ rest. unfold ft_settings, dpop.
  assert (Hb : forall A B (r : res A) (f : A -> res B) b, bind r f = Ok b -> exists a, r = Ok a /\ f a = Ok b).
  { intros A B [a|e] f b E; [exists a; auto|discriminate]. }
  destruct (String.eqb_spec ft "dlf") as [->|H1].
  { intros H.
    apply Hb in H. destruct H as (ppd & _ & H). apply Hb in H. destruct H as (sine & Es & H).
    apply Hb in H. destruct H as ([v ar] & _ & H). apply Hb in H. destruct H as (f & _ & H).
    apply Hb in H. destruct H as ([om x] & _ & H). injection H as _ <- _. cbn [uses_sine].
    assert (D : dget "kind" (VStr "sin") (delkey "pts_per_dec" args) = dget "kind" (VStr "sin") args) by (dg; reflexivity).
    rewrite D in Es.
    split; [|split; [|split]].
    - intros S. left. destruct (Rltb 0 sg) eqn:E; [|apply Rltb_false in E; lra]. cbn in Es. congruence.
    - intros S. left. destruct (Rltb 0 sg) eqn:E; [apply Rltb_true in E; lra|].
      destruct (Rltb sg 0) eqn:E2; [|apply Rltb_false in E2; lra]. cbn in Es. congruence.
    - intros -> Hk. left.
      destruct (Rltb 0 0) eqn:E; [apply Rltb_true in E; lra|].
      unfold dget in Es. rewrite Hk in Es. cbn in Es. congruence.
    - split; discriminate. }
  destruct (String.eqb_spec ft "qwe") as [->|H2].
  { intros H. do 9 (apply Hb in H; destruct H as (? & _ & H)).
    apply Hb in H. destruct H as ([gx gw] & _ & H). do 4 (apply Hb in H; destruct H as (? & _ & H)).
    injection H as _ <- _. cbn [uses_sine].
    split; [|split; [|split]].
    - intros S. left. f_equal. apply Rleb_true. lra.
    - intros S. left. f_equal. apply Rleb_false. lra.
    - intros -> _. left. f_equal. apply Rleb_true. lra.
    - split; discriminate. }
  destruct (String.eqb_spec ft "fftlog") as [->|H3].
  { intros H. do 6 (apply Hb in H; destruct H as (? & _ & H)).
    injection H as _ <- _. cbn [uses_sine].
    split; [|split; [|split]].
    - intros S. left. f_equal. destruct (Rleb 0 sg) eqn:E; [|apply Rleb_false in E; lra]. apply Rleb_true. lra.
    - intros S. left. f_equal. destruct (Rleb 0 sg) eqn:E; [apply Rleb_true in E; lra|]. apply Rleb_false. lra.
    - intros -> _. left. f_equal. destruct (Rleb 0 0) eqn:E; [|apply Rleb_false in E; lra]. apply Rleb_true. lra.
    - split; discriminate. }
  destruct (String.eqb_spec ft "fft") as [->|H4]; [|discriminate].
  intros H. do 5 (apply Hb in H; destruct H as (? & _ & H)). injection H as _ <- _. cbn [uses_sine].
  repeat split; auto.
Qed.

(** ** The FFT length *)

Lemma nall_eq : nall = map (fun i => 2 ^ Z.of_nat i)%Z (seq 0 30).
Proof. reflexivity. Qed.

Lemma find_seq : forall (n : Z) k m, (forall j, (j < k)%nat -> (2 ^ Z.of_nat j < n)%Z) ->
  (exists j, (k <= j < k + m)%nat /\ (n <= 2 ^ Z.of_nat j)%Z) ->
  exists j, (k <= j < k + m)%nat
    /\ find (fun p => n <=? p)%Z (map (fun i => 2 ^ Z.of_nat i)%Z (seq k m)) = Some (2 ^ Z.of_nat j)%Z
    /\ (n <= 2 ^ Z.of_nat j)%Z /\ (forall i, (i < j)%nat -> (2 ^ Z.of_nat i < n)%Z).
Proof.
  intros n k m. revert k. induction m as [|m IH]; intros k Hk (j & Hj & Hn); [lia|].
  cbn [seq map find]. destruct (n <=? 2 ^ Z.of_nat k)%Z eqn:E.
  - apply Z.leb_le in E. exists k. split; [lia|]. split; [reflexivity|]. split; [exact E|exact Hk].
  - apply Z.leb_gt in E. destruct (IH (S k)) as (i & Hi & F & B & C).
    + intros i Hi. destruct (Nat.eq_dec i k) as [->|]; [lia|apply Hk; lia].
    + exists j. split; [|exact Hn]. destruct (Nat.eq_dec j k) as [->|]; [lia|lia].
    + exists i. split; [lia|]. auto.
Qed.

(** the smallest power of two that is at least [n] *)
Definition least_pow2 (n p : Z) : Prop :=
  (exists j, 0 <= j /\ p = 2 ^ j)%Z /\ (n <= p)%Z /\ forall j, (0 <= j -> n <= 2 ^ j -> p <= 2 ^ j)%Z.

Lemma pow2_for_least : forall n, (n <= 2 ^ 29)%Z -> least_pow2 n (pow2_for n).
Proof.
  intros n Hn. unfold pow2_for. rewrite nall_eq at 1.
  destruct (find_seq n 0 30) as (j & Hj & F & B & C).
  - intros i Hi. lia.
  - exists 29%nat. split; [lia|]. exact Hn.
  - rewrite F. split; [exists (Z.of_nat j); split; [lia|reflexivity]|]. split; [exact B|].
    intros i Hi Hni. apply Z.pow_le_mono_r; [lia|].
    destruct (Z_lt_le_dec i (Z.of_nat j)) as [Hlt|]; [|lia].
    specialize (C (Z.to_nat i)). rewrite Z2Nat.id in C by lia. assert (2 ^ i < n)%Z by (apply C; lia). lia.
Qed.

Lemma pow2_for_large : forall n, (2 ^ 29 < n)%Z -> pow2_for n = 1%Z.
Proof.
  intros n Hn. unfold pow2_for. destruct (find (fun p => n <=? p)%Z nall) as [p|] eqn:E; [|reflexivity].
  exfalso. apply find_some in E. destruct E as [Hin Hle]. apply Z.leb_le in Hle.
  rewrite nall_eq in Hin. apply in_map_iff in Hin. destruct Hin as (i & <- & Hi). apply in_seq in Hi.
  assert (2 ^ Z.of_nat i <= 2 ^ 29)%Z by (apply Z.pow_le_mono_r; lia). lia.
Qed.

Lemma fft_settings_inv : forall lib leg lgi t sg args freq targ rest,
  ft_settings lib leg lgi t sg "fft" args = Ok (freq, targ, rest) ->
  exists dfreq nfreq nt ppd,
    as_float (dget "dfreq" (VFloat (2 / 1000)) args) = Ok dfreq /\
    as_int (dget "nfreq" (VInt 2048) args) = Ok nfreq /\
    as_int (dget "ntot" (VInt (pow2_for nfreq)) args) = Ok nt /\
    targ = FtFft dfreq nfreq (if (nt <? nfreq)%Z then pow2_for nfreq else nt) ppd /\
    (lookup "pts_per_dec" args = None -> ppd = None /\
       freq = map (fun k => IZR (Z.of_nat k + 1) * dfreq) (seq 0 (Z.to_nat nfreq))).
Proof.
  intros lib leg lgi t sg args freq targ rest. unfold ft_settings, dpop.
  change (String.eqb "fft" "dlf") with false. change (String.eqb "fft" "qwe") with false.
  change (String.eqb "fft" "fftlog") with false. change (String.eqb "fft" "fft") with true. cbv iota.
  assert (Hb : forall A B (r : res A) (f : A -> res B) b, bind r f = Ok b -> exists a, r = Ok a /\ f a = Ok b).
  { intros A B [a|e] f b E; [exists a; auto|discriminate]. }
  dg. intros H.
  apply Hb in H. destruct H as (dfreq & E1 & H). apply Hb in H. destruct H as (nfreq & E2 & H).
  apply Hb in H. destruct H as (nt & E3 & H). rewrite ?dget_del in E3 by discriminate.
  apply Hb in H. destruct H as (ppd & E4 & H). rewrite ?dget_del in E4 by discriminate.
  apply Hb in H. destruct H as (fr & E5 & H).
  injection H as <- <- <-. exists dfreq, nfreq, nt, (option_map (fun p => Z.max p 1) ppd).
  split; [exact E1|]. split; [exact E2|]. split; [exact E3|]. split; [reflexivity|].
  intros Hn. unfold dget in E4. rewrite Hn in E4. injection E4 as <-. split; [reflexivity|].
  cbn in E5. injection E5 as <-. reflexivity.
Qed.

Theorem fft_length : forall lib leg lgi t sg args freq dfreq nfreq ntot ppd rest,
  ft_settings lib leg lgi t sg "fft" args = Ok (freq, FtFft dfreq nfreq ntot ppd, rest) ->
  (nfreq <= 2 ^ 29)%Z ->
  (nfreq <= ntot)%Z
  /\ (lookup "ntot" args = None -> least_pow2 nfreq ntot)
  /\ (forall n, lookup "ntot" args = Some (VInt n) ->
        if (nfreq <=? n)%Z then ntot = n else least_pow2 nfreq ntot).
Proof.
  intros lib leg lgi t sg args freq dfreq nfreq ntot ppd rest H Hn.
  apply fft_settings_inv in H. destruct H as (df & nf & nt & pp & E1 & E2 & E3 & E4 & _).
  injection E4 as -> -> -> ->. pose proof (pow2_for_least nf Hn) as P.
  split; [|split].
  - destruct (nt <? nf)%Z eqn:E; [destruct P as (_ & P & _); exact P|apply Z.ltb_ge in E; exact E].
  - intros Hl. unfold dget in E3. rewrite Hl in E3. injection E3 as <-.
    destruct (pow2_for nf <? nf)%Z; exact P.
  - intros n Hl. unfold dget in E3. rewrite Hl in E3. injection E3 as <-.
    destruct (nf <=? n)%Z eqn:E.
    + apply Z.leb_le in E. destruct (n <? nf)%Z eqn:E'; [apply Z.ltb_lt in E'; lia|reflexivity].
    + apply Z.leb_gt in E. destruct (n <? nf)%Z eqn:E'; [exact P|apply Z.ltb_ge in E'; lia].
Qed.
