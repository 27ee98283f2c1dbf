(** The command-line interface: proofs. *)

From Coq Require Import List Bool Ascii String Lia Arith.
From Verif Require Import PyBase Text Json JsonThm DataIo Cli.
Import ListNotations.
Local Open Scope res_scope.

(** a word that does not start with a dash *)
Definition plain (a : txt) : Prop := prefixb (T "-") a = false.
Lemma plain_pos : forall a, plain a -> kind a = APos.
Proof. intros a H. unfold kind. unfold plain in H. rewrite H. reflexivity. Qed.

Lemma choices_plain : forall r, In r choices -> plain r.
Proof. intros r H. cbn in H. repeat (destruct H as [<-|H]; [reflexivity|]). contradiction. Qed.
Lemma choices_in : forall r, In r choices -> existsb (teqb r) choices = true.
Proof. intros r H. apply existsb_exists. exists r. split; [exact H|apply teqb_refl]. Qed.

Definition pargs3 (r i : txt) (o : option txt) : pargs := {| a_routine := Some r; a_input := Some i; a_output := o; a_report := false; a_version := false |}.

Lemma parse_two : forall r i, In r choices -> plain i -> parse_args [r; i] = Parsed (pargs3 r i None).
Proof.
  intros r i Hr Hi. unfold parse_args. cbn [scan]. rewrite (plain_pos r (choices_plain r Hr)), (plain_pos i Hi). cbn [app].
  change (r :: [i]) with [r; i]. rewrite (choices_in r Hr). reflexivity.
Qed.
Lemma parse_three : forall r i o, In r choices -> plain i -> plain o -> parse_args [r; i; o] = Parsed (pargs3 r i (Some o)).
Proof.
  intros r i o Hr Hi Ho. unfold parse_args. cbn [scan]. rewrite (plain_pos r (choices_plain r Hr)), (plain_pos i Hi), (plain_pos o Ho). cbn [app].
  rewrite (choices_in r Hr). reflexivity.
Qed.

(** what a parsed command line contains: a known routine *)
Lemma scan_routine : forall l pos grp bad rep ver p, scan l pos grp bad rep ver = Parsed p -> forall r, a_routine p = Some r -> In r choices.
Proof.
  induction l as [|a l IH]; intros pos grp bad rep ver p H r Hr.
  - cbn [scan] in H. destruct pos as [[|r0 ps]|].
    + destruct bad; [discriminate H|]. injection H as <-. discriminate Hr.
    + destruct (existsb (teqb r0) choices) eqn:E; [|discriminate H]. cbn [negb] in H.
      assert (Hin : In r0 choices). { apply existsb_exists in E. destruct E as (c & Hc & E). apply teqb_eq in E. now subst. }
      assert (G : a_routine p = Some r0). { destruct ps as [|? [|? [|? ?]]]; try discriminate H; destruct bad; try discriminate H; injection H as <-; reflexivity. }
      congruence.
    + destruct bad; [discriminate H|]. injection H as <-. discriminate Hr.
  - cbn [scan] in H. destruct (kind a).
    + destruct pos as [ps|]; [destruct grp|]; now apply (IH _ _ _ _ _ p H).
    + match type of H with (if ?b then _ else _) = _ => destruct b end; discriminate H.
    + match type of H with (if ?b then _ else _) = _ => destruct b end; [discriminate H|]. now apply (IH _ _ _ _ _ p H).
    + match type of H with (if ?b then _ else _) = _ => destruct b end; [discriminate H|]. now apply (IH _ _ _ _ _ p H).
    + match type of H with (if ?b then _ else _) = _ => destruct b end; [discriminate H|]. now apply (IH _ _ _ _ _ p H).
Qed.

(** an option is asked for: one argument is an abbreviation of it with at least one letter *)
Definition asks (l : list txt) (o : txt) : Prop := exists a t, In a l /\ (3 <= List.length a)%nat /\ o = a ++ t.
Lemma prefixb_app : forall a o, prefixb a o = true <-> exists t, o = a ++ t.
Proof.
  induction a as [|c a IH]; intros o.
  - split; [intros _; now exists o|intros _; reflexivity].
  - destruct o as [|d o]; cbn [prefixb]; [split; [discriminate|intros (t & E); discriminate E]|].
    rewrite andb_true_iff, IH. split.
    + intros (E & t & ->). apply Ascii.eqb_eq in E. subst d. now exists t.
    + intros (t & E). injection E as -> ->. split; [apply Ascii.eqb_refl|now exists t].
Qed.
Lemma abbrev_app : forall a o, abbrev a o = true <-> (3 <= List.length a)%nat /\ exists t, o = a ++ t.
Proof. intros a o. unfold abbrev. rewrite andb_true_iff, prefixb_app, Nat.leb_le. tauto. Qed.
Lemma asks_exists : forall l o, asks l o <-> existsb (fun a => abbrev a o) l = true.
Proof.
  intros l o. rewrite existsb_exists. split.
  - intros (a & t & Ha & Hl & E). exists a. split; [exact Ha|]. apply abbrev_app. split; [exact Hl|now exists t].
  - intros (a & Ha & E). apply abbrev_app in E. destruct E as (Hl & t & E). now exists a, t.
Qed.
Lemma abbrev_kind : forall a, (abbrev a (T "--version") = true <-> kind a = AVersion) /\ (abbrev a (T "--report") = true <-> kind a = AReport).
Proof.
  intros a. assert (D : forall o, In o [T "--help"; T "--report"; T "--version"] -> abbrev a o = true -> exists c t, a = "-"%char :: "-"%char :: c :: t /\ nth_error o 2 = Some c).
  { intros o Ho H. apply abbrev_app in H. destruct H as (Hl & t & E). destruct a as [|c1 [|c2 [|c3 a]]]; cbn in Hl; try lia.
    exists c3, a. cbn in Ho. repeat (destruct Ho as [<-|Ho]; [injection E as <- <- <- _; split; reflexivity|]). contradiction. }
  assert (X : forall o o', In o [T "--help"; T "--report"; T "--version"] -> In o' [T "--help"; T "--report"; T "--version"] -> nth_error o 2 <> nth_error o' 2 -> abbrev a o = true -> abbrev a o' = false).
  { intros o o' Ho Ho' N H. destruct (abbrev a o') eqn:H'; [|reflexivity]. destruct (D o Ho H) as (c & t & E & K). destruct (D o' Ho' H') as (c' & t' & E' & K'). rewrite E in E'. injection E' as -> _. congruence. }
  assert (I1 : In (T "--help") [T "--help"; T "--report"; T "--version"]) by (cbn; auto). assert (I2 : In (T "--report") [T "--help"; T "--report"; T "--version"]) by (cbn; auto). assert (I3 : In (T "--version") [T "--help"; T "--report"; T "--version"]) by (cbn; auto).
  unfold kind. split; split; intros H.
  - rewrite (X _ _ I3 I1 ltac:(discriminate) H), (X _ _ I3 I2 ltac:(discriminate) H), H. destruct (D _ I3 H) as (c & t & -> & _). reflexivity.
  - destruct (negb _); [discriminate|]. destruct (_ || _); [discriminate|]. destruct (abbrev a (T "--report")); [discriminate|]. destruct (abbrev a (T "--version")); [reflexivity|]. destruct (_ || _); discriminate.
  - rewrite (X _ _ I2 I1 ltac:(discriminate) H), H. destruct (D _ I2 H) as (c & t & -> & _). reflexivity.
  - destruct (negb _); [discriminate|]. destruct (_ || _); [discriminate|]. destruct (abbrev a (T "--report")); [reflexivity|]. destruct (abbrev a (T "--version")); [discriminate|]. destruct (_ || _); discriminate.
Qed.
Lemma scan_flags : forall l pos grp bad rep ver p, scan l pos grp bad rep ver = Parsed p ->
  a_report p = rep || existsb (fun a => abbrev a (T "--report")) l /\ a_version p = ver || existsb (fun a => abbrev a (T "--version")) l.
Proof.
  induction l as [|a l IH]; intros pos grp bad rep ver p H.
  - cbn [scan] in H. cbn [existsb]. rewrite !orb_false_r. match type of H with (if ?b then _ else _) = _ => destruct b end; [discriminate H|].
    destruct pos as [[|? [|? [|? [|? ?]]]]|]; try discriminate H; (destruct bad; [discriminate H|]); injection H as <-; split; reflexivity.
  - cbn [existsb]. destruct (abbrev_kind a) as [KV KR]. cbn [scan] in H.
    assert (FV : abbrev a (T "--version") = match kind a with AVersion => true | _ => false end).
    { destruct (abbrev a (T "--version")); [now rewrite (proj1 KV eq_refl)|]. destruct (kind a); try reflexivity. discriminate (proj2 KV eq_refl). }
    assert (FR : abbrev a (T "--report") = match kind a with AReport => true | _ => false end).
    { destruct (abbrev a (T "--report")); [now rewrite (proj1 KR eq_refl)|]. destruct (kind a); try reflexivity. discriminate (proj2 KR eq_refl). }
    rewrite FV, FR. clear KV KR FV FR. destruct (kind a).
    + cbn [orb]. destruct pos as [ps|]; [destruct grp|]; exact (IH _ _ _ _ _ p H).
    + match type of H with (if ?b then _ else _) = _ => destruct b end; discriminate H.
    + match type of H with (if ?b then _ else _) = _ => destruct b end; [discriminate H|]. destruct (IH _ _ _ _ _ p H) as [-> ->]. cbn [orb]. now rewrite orb_true_r.
    + match type of H with (if ?b then _ else _) = _ => destruct b end; [discriminate H|]. destruct (IH _ _ _ _ _ p H) as [-> ->]. cbn [orb]. now rewrite orb_true_r.
    + match type of H with (if ?b then _ else _) = _ => destruct b end; [discriminate H|]. cbn [orb]. exact (IH _ _ _ _ _ p H).
Qed.

Section Cli.
Variables (fe pr : fl -> txt) (rd : txt -> option fl).
Variables (date version : txt).
Variable call : txt -> list (txt * json fl) -> res data.
Notation main := (main fe pr rd date version call).
Notation run := (run fe pr rd date version call).
Notation save := (save_data fe pr date version).
Notation loadi := (@load_input fl rd).

(** the value of a keyword *)
Definition kw_get (k : txt) (m : list (txt * json fl)) : option (json fl) :=
  match find (fun kv => teqb k (fst kv)) m with Some kv => Some (snd kv) | None => None end.
Lemma kw_set : forall k v m q, kw_get q (dict_set k v m) = if teqb q k then Some v else kw_get q m.
Proof.
  intros k v. induction m as [|[k' v'] m IH]; intros q; unfold kw_get in *; cbn [dict_set find fst snd].
  - destruct (teqb q k); reflexivity.
  - destruct (teqb k k') eqn:E; cbn [find fst snd].
    + apply teqb_eq in E. subst k'. destruct (teqb q k) eqn:Eq; reflexivity.
    + destruct (teqb q k') eqn:Eq; [|apply IH]. destruct (teqb q k) eqn:Eq2; [|reflexivity]. apply teqb_eq in Eq, Eq2. subst. rewrite teqb_refl in E. discriminate E.
Qed.

Definition end_of (r : res unit) : outcome := match r with Ok _ => Returns None | Err e => if caught e then Returns (Some e) else Raises e end.
Lemma main_run : forall args argv w p, parse_args (match args with None => tl argv | Some l => l end) = Parsed p -> a_version p = false -> a_report p = false -> (3 <= List.length argv)%nat ->
  main args argv w = (end_of (fst (fst (run p w))), snd (fst (run p w)), snd (run p w)).
Proof.
  intros args argv w p Hp Hv Hr Hl. unfold Cli.main. rewrite Hp, Hv, Hr. assert (E : (List.length argv <? 3)%nat = false) by (apply Nat.ltb_ge; exact Hl). rewrite E.
  destruct (run p w) as [[r ev] w']. reflexivity.
Qed.

(** the parts of a computation, from the input file to the result *)
Definition computed (r i : txt) (w : fs) : res (list (txt * json fl)) := 
  match loadi i w with Ok (JObj m) => Ok m | Ok _ => Err TypeError | Err e => Err e end.

(** a command line with routine, input and possibly an output *)
Theorem main_normal : forall prog r i (o : option txt) w, In r choices -> plain i -> (forall f, o = Some f -> plain f) ->
  main None (prog :: r :: i :: match o with Some f => [f] | None => [] end) w =
  match computed r i w with
  | Err e => (end_of (Err e), [], w)
  | Ok m =>
    let kw := sq_false m in
    match call r kw with
    | Err e => (end_of (Err e), [EvCalled r kw], w)
    | Ok d =>
      match o with
      | None | Some [] => (Returns None, [EvCalled r kw; EvPrint d], w)
      | Some f => match save f d (info_text r i) w with
                  | Ok w' => (Returns None, [EvCalled r kw], w')
                  | Err e => (end_of (Err e), [EvCalled r kw], w)
                  end
      end
    end
  end.
Proof.
  intros prog r i o w Hr Hi Ho.
  assert (Hp : parse_args (r :: i :: match o with Some f => [f] | None => [] end) = Parsed (pargs3 r i o)).
  { destruct o as [f|]; [apply parse_three; auto|now apply parse_two]. }
  rewrite (main_run None (prog :: r :: i :: match o with Some f => [f] | None => [] end) w (pargs3 r i o) Hp eq_refl eq_refl) by (cbn [List.length]; destruct o; cbn [List.length]; lia).
  unfold Cli.run, computed. cbn [pargs3 a_routine a_input a_output]. destruct (loadi i w) as [[x|s|b| |l|m]|e]; try reflexivity. cbv zeta.
  destruct (call r (sq_false m)) as [d|e]; [|reflexivity]. destruct o as [[|c f]|]; try reflexivity.
  destruct (save (c :: f) d (info_text r i) w); reflexivity.
Qed.

(** for every command line: the routine is called at most once, it is one of the four, and its arguments are those of the input file with squeeze=False *)
Theorem main_calls : forall args argv w out evs w', main args argv w = (out, evs, w') ->
  (List.length (filter (fun e => match e with EvCalled _ _ => true | _ => false end) evs) <= 1)%nat
  /\ forall r kw, In (EvCalled r kw) evs -> In r choices /\ kw_get (T "squeeze") kw = Some (JBool false)
     /\ exists i m, loadi i w = Ok (JObj m) /\ forall k, k <> T "squeeze" -> kw_get k kw = kw_get k m.
Proof.
  intros args argv w out evs w' H. unfold Cli.main in H. destruct (parse_args (match args with None => tl argv | Some l => l end)) as [p|n] eqn:Ep.
  2:{ injection H as <- <- <-. split; [cbn; lia|intros r kw []]. }
  destruct (a_version p); [injection H as <- <- <-; split; [cbn; lia|intros r kw [G|[]]; discriminate G]|].
  destruct (a_report p); [injection H as <- <- <-; split; [cbn; lia|intros r kw [G|[]]; discriminate G]|].
  destruct (List.length argv <? 3)%nat; [injection H as <- <- <-; split; [cbn; lia|intros r kw [G|[]]; discriminate G]|].
  assert (Hpar := scan_routine _ _ _ _ _ _ p Ep). clear Ep.
  unfold Cli.run in H. destruct (a_routine p) as [r0|]; [|injection H as <- <- <-; split; [cbn; lia|intros r kw []]].
  specialize (Hpar r0 eq_refl).
  destruct (a_input p) as [i|]; [|injection H as <- <- <-; split; [cbn; lia|intros r kw []]].
  destruct (loadi i w) as [[x|s|b| |l|m]|e] eqn:El; try (injection H as <- <- <-; split; [cbn; lia|intros r kw []]). cbv zeta in H.
  assert (K : forall r kw, (EvCalled r kw = EvCalled r0 (sq_false m)) -> In r choices /\ kw_get (T "squeeze") kw = Some (JBool false) /\ exists i m, loadi i w = Ok (JObj m) /\ forall k, k <> T "squeeze" -> kw_get k kw = kw_get k m).
  { intros r kw E. injection E as -> ->. split; [exact Hpar|]. unfold sq_false. rewrite kw_set, teqb_refl. split; [reflexivity|]. exists i, m. split; [exact El|].
    intros k Hk. rewrite kw_set. apply teqb_neq in Hk. now rewrite Hk. }
  destruct (call r0 (sq_false m)) as [d|e].
  - destruct (a_output p) as [[|c o]|].
    + injection H as <- <- <-. split; [cbn; lia|]. intros r kw [G|[G|[]]]; [apply K; congruence|discriminate G].
    + match type of H with context [save_data _ _ _ _ ?a ?b ?c ?d] => destruct (save_data fe pr date version a b c d) end; injection H as <- <- <-; (split; [cbn; lia|]); intros r kw [G|[]]; apply K; congruence.
    + injection H as <- <- <-. split; [cbn; lia|]. intros r kw [G|[G|[]]]; [apply K; congruence|discriminate G].
  - injection H as <- <- <-. split; [cbn; lia|]. intros r kw [G|[]]. apply K. congruence.
Qed.

(** for every command line: files change only by saving the result of the routine *)
Theorem main_writes : forall args argv w out evs w', main args argv w = (out, evs, w') ->
  w' = w \/ exists r i f kw d, f <> [] /\ In (EvCalled r kw) evs /\ call r kw = Ok d /\ save f d (info_text r i) w = Ok w' /\ out = Returns None
            /\ In f (match args with None => tl argv | Some l => l end).
Proof.
  intros args argv w out evs w' H. unfold Cli.main in H. set (l0 := match args with None => tl argv | Some l => l end) in *. destruct (parse_args l0) as [p|n] eqn:Ep.
  2:{ injection H as <- <- <-. now left. }
  destruct (a_version p); [injection H as <- <- <-; now left|]. destruct (a_report p); [injection H as <- <- <-; now left|]. destruct (List.length argv <? 3)%nat; [injection H as <- <- <-; now left|].
  assert (Hin : forall f, a_output p = Some f -> In f l0).
  { assert (G : forall l pos grp bad rep ver, scan l pos grp bad rep ver = Parsed p -> forall f, a_output p = Some f -> In f l \/ match pos with Some ps => In f ps | None => False end).
    { clear. induction l as [|a l IH]; intros pos grp bad rep ver H f Hf.
      - cbn [scan] in H. right. match type of H with (if ?b then _ else _) = _ => destruct b end; [discriminate H|]. destruct pos as [ps|].
        + assert (E : a_output p = nth_error ps 2). { destruct ps as [|? [|? [|? [|? ?]]]]; try discriminate H; destruct bad; try discriminate H; injection H as <-; reflexivity. }
          rewrite E in Hf. now apply nth_error_In in Hf.
        + destruct bad; [discriminate H|]. injection H as <-. discriminate Hf.
      - cbn [scan] in H. destruct (kind a).
        + destruct pos as [ps|]; [destruct grp|].
          * destruct (IH _ _ _ _ _ H f Hf) as [G|G]; [left; now right|]. apply in_app_or in G. destruct G as [G|[<-|[]]]; [now right|left; now left].
          * destruct (IH _ _ _ _ _ H f Hf) as [G|G]; [left; now right|now right].
          * destruct (IH _ _ _ _ _ H f Hf) as [G|[<-|[]]]; left; [now right|now left].
        + match type of H with (if ?b then _ else _) = _ => destruct b end; discriminate H.
        + match type of H with (if ?b then _ else _) = _ => destruct b end; [discriminate H|]. destruct (IH _ _ _ _ _ H f Hf) as [G|G]; [left; now right|now right].
        + match type of H with (if ?b then _ else _) = _ => destruct b end; [discriminate H|]. destruct (IH _ _ _ _ _ H f Hf) as [G|G]; [left; now right|now right].
        + match type of H with (if ?b then _ else _) = _ => destruct b end; [discriminate H|]. destruct (IH _ _ _ _ _ H f Hf) as [G|G]; [left; now right|now right]. }
    intros f Hf. destruct (G _ _ _ _ _ _ Ep f Hf) as [K|[]]. exact K. }
  unfold Cli.run in H. destruct (a_routine p) as [r0|]; [|injection H as <- <- <-; now left].
  destruct (a_input p) as [i|]; [|injection H as <- <- <-; now left].
  destruct (loadi i w) as [[x|s|b| |l|m]|e] eqn:El; try (injection H as <- <- <-; now left). cbv zeta in H.
  destruct (call r0 (sq_false m)) as [d|e] eqn:Ec; [|injection H as <- <- <-; now left].
  destruct (a_output p) as [[|c o]|] eqn:Eo; try (injection H as <- <- <-; now left).
  destruct (save (c :: o) d (info_text r0 i) w) as [w2|e] eqn:Es; [|injection H as <- <- <-; now left].
  right. exists r0, i, (c :: o), (sq_false m), d.
  assert (E1 : out = Returns None) by congruence. assert (E2 : evs = [EvCalled r0 (sq_false m)]) by congruence. assert (E3 : w' = w2) by congruence. subst out evs w'.
  split; [discriminate|]. split; [now left|]. split; [exact Ec|]. split; [exact Es|]. split; [reflexivity|]. now apply Hin.
Qed.

(** for every command line: the four kinds of errors are returned and never raised *)
Theorem main_errors : forall args argv w out evs w', main args argv w = (out, evs, w') ->
  match out with
  | Returns None => True
  | Returns (Some e) => caught e = true
  | Raises e => caught e = false
  | SysExit n => evs = [] /\ w' = w
  end.
Proof.
  intros args argv w out evs w' H. unfold Cli.main in H. destruct (parse_args (match args with None => tl argv | Some l => l end)) as [p|n]; [|injection H as <- <- <-; now split].
  destruct (a_version p); [injection H as <- <- <-; exact I|]. destruct (a_report p); [injection H as <- <- <-; exact I|]. destruct (List.length argv <? 3)%nat; [injection H as <- <- <-; exact I|].
  destruct (run p w) as [[[u|e] ev] w1]; injection H as <- <- <-; [exact I|]. destruct (caught e) eqn:E; exact E.
Qed.

(** help, version and report come before everything else *)
Theorem main_version : forall args argv w p, parse_args (match args with None => tl argv | Some l => l end) = Parsed p -> a_version p = true -> main args argv w = (Returns None, [EvVersion], w).
Proof. intros args argv w p H Hv. unfold Cli.main. now rewrite H, Hv. Qed.
Theorem main_short : forall prog l w, (List.length l < 2)%nat -> forall p, parse_args l = Parsed p -> a_version p = false -> a_report p = false -> main None (prog :: l) w = (Returns None, [EvInfo], w).
Proof. intros prog l w Hl p Hp Hv Hr. unfold Cli.main. cbn [tl]. rewrite Hp, Hv, Hr. assert (E : (List.length (prog :: l) <? 3)%nat = true) by (apply Nat.ltb_lt; cbn [List.length]; lia). now rewrite E. Qed.

(** with an explicit argument list the length of sys.argv decides *)
Theorem main_explicit : forall prog r i w, In r choices -> plain i -> main (Some [r; i]) [prog] w = (Returns None, [EvInfo], w).
Proof. intros prog r i w Hr Hi. unfold Cli.main. rewrite (parse_two r i Hr Hi). reflexivity. Qed.

(** what is shown instead of a computation *)
Definition shows (o : outcome) (evs : list event) (w w' : fs) (e : event) : Prop := o = Returns None /\ evs = [e] /\ w' = w.
Theorem main_informs : forall args argv w out evs w', main args argv w = (out, evs, w') -> let l := match args with None => tl argv | Some l => l end in
  (forall n, out <> SysExit n) ->
  (asks l (T "--version") -> shows out evs w w' EvVersion) /\
  (~ asks l (T "--version") -> asks l (T "--report") -> shows out evs w w' EvReport) /\
  (~ asks l (T "--version") -> ~ asks l (T "--report") -> (List.length argv < 3)%nat -> shows out evs w w' EvInfo) /\
  (~ asks l (T "--version") -> ~ asks l (T "--report") -> (3 <= List.length argv)%nat -> ~ In EvVersion evs /\ ~ In EvReport evs /\ ~ In EvInfo evs).
Proof.
  intros args argv w out evs w' H l N. unfold Cli.main in H. fold l in H. destruct (parse_args l) as [p|n] eqn:P; [|injection H as <- <- <-; now elim (N n)].
  destruct (scan_flags l None false false false false p P) as [R V]. cbn [orb] in R, V. rewrite !asks_exists, <- R, <- V.
  destruct (a_version p).
  { injection H as <- <- <-. unfold shows. split; [intros _; auto|]. split; [congruence|]. split; congruence. }
  split; [discriminate|]. destruct (a_report p).
  { injection H as <- <- <-. unfold shows. split; [intros _ _; auto|]. split; congruence. }
  split; [discriminate|]. destruct (List.length argv <? 3)%nat eqn:L.
  { injection H as <- <- <-. apply Nat.ltb_lt in L. unfold shows. split; [intros _ _ _; auto|]. intros. lia. }
  apply Nat.ltb_ge in L. split; [intros; lia|]. intros _ _ _.
  destruct (run p w) as [[r ev] w1] eqn:E. injection H as _ <- _. unfold Cli.run in E.
  assert (G : forall e, In e ev -> match e with EvCalled _ _ | EvPrint _ => True | _ => False end).
  { intros e He. repeat match type of E with (match ?x with _ => _ end) = _ => destruct x end; injection E as _ <- _; cbn in He; repeat (destruct He as [<-|He]; [exact I|]); contradiction. }
  split; [|split]; intros W; exact (G _ W).
Qed.
End Cli.
