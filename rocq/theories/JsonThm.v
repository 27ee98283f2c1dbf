(** Reading back what was written: the JSON printer and parser of Json.v are inverse. *)

From Coq Require Import List Bool Ascii String Lia Arith.
From Verif Require Import PyBase Text Json.
Import ListNotations.
Local Open Scope res_scope.

Lemma teqb_sym : forall a b, teqb a b = teqb b a.
Proof.
  intros a b. destruct (teqb a b) eqn:E; symmetry.
  - apply teqb_eq in E. subst. apply teqb_refl.
  - apply teqb_neq. apply teqb_neq in E. congruence.
Qed.

Lemma pstr_esc : forall c r, pstr (esc c ++ r) = match pstr r with Some (a, q) => Some (c :: a, q) | None => None end.
Proof. intros c r. destruct c as [[] [] [] [] [] [] [] []]; reflexivity. Qed.

Lemma pstr_print : forall s r, pstr (flat_map esc s ++ quo :: r) = Some (s, r).
Proof.
  induction s as [|c s IH]; intros r; [reflexivity|]. cbn [flat_map]. rewrite <- app_assoc, pstr_esc, IH. reflexivity.
Qed.

Lemma fget_fput : forall f c w, fget f (fput f c w) = Some c.
Proof.
  induction w as [|[k d] w IH]; cbn; [now rewrite teqb_refl|]. destruct (teqb f k) eqn:E; cbn; rewrite E; [reflexivity|exact IH].
Qed.
Lemma fget_fput_other : forall f g c w, g <> f -> fget g (fput f c w) = fget g w.
Proof.
  intros f g c w N. induction w as [|[k d] w IH]; cbn.
  - assert (E : teqb g f = false) by now apply teqb_neq. now rewrite E.
  - destruct (teqb f k) eqn:E; cbn.
    + apply teqb_eq in E. subst k. assert (E : teqb g f = false) by now apply teqb_neq. now rewrite E.
    + destruct (teqb g k); [reflexivity|exact IH].
Qed.

Definition ws_txt (w : txt) : Prop := forall c, In c w -> cin c jws = true.
(** what may follow a number: nothing, or a character that ends it *)
Definition ends_tok (r : txt) : Prop := match r with [] => True | c :: _ => tokc c = false end.

Lemma token_app : forall t r, forallb tokc t = true -> ends_tok r -> token (t ++ r) = (t, r).
Proof.
  induction t as [|c t IH]; intros r H He; cbn.
  - destruct r as [|c r]; [reflexivity|]. cbn in He |- *. now rewrite He.
  - cbn in H. apply andb_true_iff in H. destruct H as [H1 H2]. rewrite H1, (IH r H2 He). reflexivity.
Qed.

Lemma tokc_ws : forall c, tokc c = true -> cin c jws = false.
Proof. intros c. destruct c as [[] [] [] [] [] [] [] []]; vm_compute; congruence. Qed.
Lemma ws_tokc : forall c, cin c jws = true -> tokc c = false.
Proof. intros c H. destruct (tokc c) eqn:E; [|reflexivity]. apply tokc_ws in E. congruence. Qed.
Lemma tokc_special : forall c, tokc c = true -> ceqb c quo = false /\ ceqb c "[" = false /\ ceqb c "{" = false /\ ceqb c "]" = false /\ ceqb c "}" = false.
Proof. intros c. destruct c as [[] [] [] [] [] [] [] []]; vm_compute; intros; repeat split; congruence. Qed.

Section Trip.
Context {V : Type}.
Variable pr : V -> txt.
Variable rd : txt -> option V.
Notation json := (@Json.json V).

Section Ind.
Variable P : json -> Prop.
Hypothesis Hn : forall v, P (JNum v).
Hypothesis Hs : forall s, P (JStr s).
Hypothesis Hb : forall b, P (JBool b).
Hypothesis H0 : P JNull.
Hypothesis Ha : forall l, List.Forall P l -> P (JArr l).
Hypothesis Ho : forall l, List.Forall (fun kv => P (snd kv)) l -> P (JObj l).
Fixpoint json_ind2 (v : json) : P v :=
  match v with
  | JNum x => Hn x | JStr s => Hs s | JBool b => Hb b | JNull => H0
  | JArr l => Ha l ((fix go (l : list json) : List.Forall P l :=
                       match l with [] => List.Forall_nil P | x :: l' => List.Forall_cons x (json_ind2 x) (go l') end) l)
  | JObj l => Ho l ((fix go (l : list (txt * json)) : List.Forall (fun kv => P (snd kv)) l :=
                       match l with [] => List.Forall_nil _ | x :: l' => List.Forall_cons x (json_ind2 (snd x)) (go l') end) l)
  end.
End Ind.

(** a value as python builds it: a dictionary has every key once, and numbers are
    written as words that are read back *)
Definition num_ok (v : V) : Prop :=
  rd (pr v) = Some v /\ pr v <> [] /\ forallb tokc (pr v) = true
  /\ pr v <> T "true" /\ pr v <> T "false" /\ pr v <> T "null".
Fixpoint jok (v : json) : Prop :=
  match v with
  | JNum x => num_ok x
  | JArr l => (fix go (l : list json) : Prop := match l with [] => True | x :: l' => jok x /\ go l' end) l
  | JObj l => NoDup (map fst l) /\
              (fix go (l : list (txt * json)) : Prop := match l with [] => True | x :: l' => jok (snd x) /\ go l' end) l
  | _ => True
  end.
Lemma jok_arr : forall l, jok (JArr l) <-> (forall x, In x l -> jok x).
Proof.
  induction l as [|x l IH]; [cbn; tauto|]. change (jok (JArr (x :: l))) with (jok x /\ jok (JArr l)). rewrite IH. split.
  - intros [H1 H2] y [<-|Hy]; auto.
  - intros H. split; [apply H; now left|]. intros y Hy. apply H. now right.
Qed.
Lemma jok_obj : forall l, jok (JObj l) <-> NoDup (map fst l) /\ (forall x, In x l -> jok (snd x)).
Proof.
  intros l. cbn [jok]. apply and_iff_compat_l. induction l as [|x l IH]; [cbn; tauto|].
  rewrite IH. split.
  - intros [H1 H2] y [<-|Hy]; auto.
  - intros H. split; [apply H; now left|]. intros y Hy. apply H. now right.
Qed.

Fixpoint jsize (v : json) : nat :=
  match v with
  | JArr l => S (list_sum (map (fun x => S (jsize x)) l))
  | JObj l => S (list_sum (map (fun kv => S (jsize (snd kv))) l))
  | _ => 1
  end.

(** the members of a list, with the bracket after them *)
Definition style_ok (st : style) : Prop := forall d, ws_txt (s_open st d) /\ ws_txt (s_sep st d) /\ ws_txt (s_close st d).
Lemma compact_ok : style_ok compact.
Proof. intros d. split; [|split]; intros c; cbn; intros H; try contradiction. destruct H as [<-|[]]. reflexivity. Qed.
Lemma spaces_ws : forall n, ws_txt (spaces n).
Proof. intros n c H. apply repeat_spec in H. now subst. Qed.
Lemma nl_spaces_ws : forall n, ws_txt (nl :: spaces n).
Proof. intros n c [<-|H]; [reflexivity|now apply (spaces_ws n)]. Qed.
Lemma indent2_ok : style_ok indent2.
Proof. intros d. split; [|split]; apply nl_spaces_ws. Qed.

Lemma print_head : forall st d v, jok v -> exists c r, print pr st d v = c :: r /\ cin c jws = false /\ ceqb c "]" = false.
Proof.
  intros st d v H. destruct v as [x|s|b| |[|y l]|[|y l]]; cbn.
  - destruct H as (_ & Hne & Ht & _). destruct (pr x) as [|c r]; [congruence|]. cbn in Ht. apply andb_true_iff in Ht. destruct Ht as [Ht _].
    exists c, r. split; [reflexivity|]. split; [now apply tokc_ws|now apply tokc_special].
  - eexists _, _. split; [reflexivity|]. now split.
  - destruct b; eexists _, _; (split; [reflexivity|now split]).
  - eexists _, _; (split; [reflexivity|now split]).
  - eexists _, _; (split; [reflexivity|now split]).
  - eexists _, _; (split; [reflexivity|now split]).
  - eexists _, _; (split; [reflexivity|now split]).
  - eexists _, _; (split; [reflexivity|now split]).
Qed.

Lemma skipws_app : forall w s, ws_txt w -> skipws (w ++ s) = skipws s.
Proof. intros w s H. now apply lstrip_app. Qed.
Lemma skipws_cons : forall c s, cin c jws = false -> skipws (c :: s) = c :: s.
Proof. intros c s H. apply lstrip_id. exact H. Qed.

Lemma dict_set_new : forall k (v : json) l, ~ In k (map fst l) -> dict_set k v l = l ++ [(k, v)].
Proof.
  induction l as [|[k' v'] l IH]; intros H; [reflexivity|]. cbn. assert (E : teqb k k' = false) by (apply teqb_neq; intros ->; apply H; now left).
  rewrite E. f_equal. apply IH. intros G. apply H. now right.
Qed.
Lemma dict_of_id : forall l : list (txt * json), NoDup (map fst l) -> dict_of l = l.
Proof.
  intros l H. unfold dict_of.
  assert (G : forall l acc : list (txt * json), NoDup (map fst (acc ++ l)) -> fold_left (fun a kv => dict_set (fst kv) (snd kv) a) l acc = acc ++ l).
  { clear. induction l as [|[k v] l IH]; intros acc H; [now rewrite app_nil_r|]. cbn [fold_left fst snd].
    rewrite dict_set_new.
    - rewrite IH; [now rewrite <- app_assoc|]. now rewrite <- app_assoc.
    - rewrite map_app in H. apply NoDup_remove_2 in H. intros G. apply H. apply in_or_app. now left. }
  apply (G l []). exact H.
Qed.

(** text of the members of an array, and of an object *)
Definition items (sep : txt) (l : list txt) : txt := join ("," :: sep)%char l.
Lemma items_cons : forall sep x y l, items sep (x :: y :: l) = x ++ "," %char :: sep ++ items sep (y :: l).
Proof. intros. reflexivity. Qed.

Definition member st d (kv : txt * json) : txt := print_str (fst kv) ++ T ": " ++ print pr st (S d) (snd kv).
Lemma print_arr : forall st d x l, print pr st d (JArr (x :: l)) = T "[" ++ s_open st d ++ items (s_sep st d) (map (print pr st (S d)) (x :: l)) ++ s_close st d ++ T "]".
Proof. reflexivity. Qed.
Lemma print_obj : forall st d x l, print pr st d (JObj (x :: l)) = T "{" ++ s_open st d ++ items (s_sep st d) (map (member st d) (x :: l)) ++ s_close st d ++ T "}".
Proof. reflexivity. Qed.

Lemma ends_ws : forall w c r, ws_txt w -> tokc c = false -> ends_tok (w ++ c :: r).
Proof. intros [|a w] c r H Hc; cbn; [exact Hc|]. apply ws_tokc. apply H. now left. Qed.

Definition reads (st : style) (v : json) : Prop :=
  forall d fuel w rest, jok v -> (jsize v <= fuel)%nat -> ws_txt w -> ends_tok rest ->
    pval rd fuel (w ++ print pr st d v ++ rest) = Some (v, rest).

Lemma parr_print : forall st l, style_ok st -> List.Forall (reads st) l -> (forall x, In x l -> jok x) -> l <> [] ->
  forall d fuel w rest, (list_sum (map (fun x => S (jsize x)) l) <= fuel)%nat -> ws_txt w ->
  parr rd fuel (w ++ items (s_sep st d) (map (print pr st (S d)) l) ++ s_close st d ++ T "]" ++ rest) = Some (l, rest).
Proof.
  intros st l Hst. induction l as [|x l IH]; intros HF Hok Hne d fuel w rest Hf Hw; [congruence|].
  cbn [map list_sum fold_right] in Hf. change (fold_right Nat.add 0%nat (map (fun x => S (jsize x)) l)) with (list_sum (map (fun x => S (jsize x)) l)) in Hf.
  destruct fuel as [|fuel]; [lia|]. inversion HF as [|? ? Hx HF']; subst.
  assert (Hjx : jok x) by (apply Hok; now left). cbn [parr].
  destruct l as [|y l].
  - cbn [map]. change (items (s_sep st d) [print pr st (S d) x]) with (print pr st (S d) x).
    rewrite (Hx (S d) fuel w _ Hjx); [|lia|exact Hw|apply ends_ws; [apply Hst|reflexivity]].
    rewrite skipws_app by apply Hst. change (T "]" ++ rest) with ("]"%char :: rest). rewrite skipws_cons by reflexivity. reflexivity.
  - change (map (print pr st (S d)) (x :: y :: l)) with (print pr st (S d) x :: print pr st (S d) y :: map (print pr st (S d)) l).
    rewrite items_cons. rewrite <- app_assoc. rewrite <- app_comm_cons.
    rewrite (Hx (S d) fuel w _ Hjx); [|lia|exact Hw|reflexivity].
    rewrite skipws_cons by reflexivity. change (ceqb "," "]") with false. change (ceqb "," ",") with true. cbv iota.
    rewrite <- app_assoc.
    change (print pr st (S d) y :: map (print pr st (S d)) l) with (map (print pr st (S d)) (y :: l)).
    rewrite IH; [reflexivity|exact HF'| |discriminate|lia|apply Hst].
    intros z Hz. apply Hok. now right.
Qed.

Lemma pobj_S : forall n s, pobj rd (S n) s =
    match skipws s with
    | [] => None
    | q :: r0 =>
      if ceqb q quo then
        match pstr r0 with
        | None => None
        | Some (k, r1) =>
          match skipws r1 with
          | [] => None
          | c :: r2 =>
            if ceqb c ":" then
              match pval rd n r2 with
              | None => None
              | Some (v, r) =>
                match skipws r with
                | [] => None
                | x :: r' =>
                  if ceqb x "}" then Some ([(k, v)], r')
                  else if ceqb x "," then match pobj rd n r' with Some (l, r4) => Some ((k, v) :: l, r4) | None => None end
                  else None
                end
              end
            else None
          end
        end
      else None
    end.
Proof. reflexivity. Qed.

Lemma pobj_print : forall st l, style_ok st -> List.Forall (fun kv => reads st (snd kv)) l -> (forall x, In x l -> jok (snd x)) -> l <> [] ->
  forall d fuel w rest, (list_sum (map (fun kv => S (jsize (snd kv))) l) <= fuel)%nat -> ws_txt w ->
  pobj rd fuel (w ++ items (s_sep st d) (map (member st d) l) ++ s_close st d ++ T "}" ++ rest) = Some (l, rest).
Proof.
  intros st l Hst. induction l as [|[k x] l IH]; intros HF Hok Hne d fuel w rest Hf Hw; [congruence|].
  cbn [map list_sum fold_right snd] in Hf. change (fold_right Nat.add 0%nat (map (fun kv => S (jsize (snd kv))) l)) with (list_sum (map (fun kv => S (jsize (snd kv))) l)) in Hf.
  destruct fuel as [|fuel]; [lia|]. inversion HF as [|? ? Hx HF']; subst. cbn [snd] in Hx.
  assert (Hjx : jok x) by (apply (Hok (k, x)); now left). rewrite pobj_S.
  assert (Hm : forall r, skipws (w ++ member st d (k, x) ++ r) = quo :: flat_map esc k ++ quo :: T ": " ++ print pr st (S d) x ++ r).
  { intros r. rewrite skipws_app by exact Hw. unfold member, print_str. cbn [fst snd]. rewrite <- !app_assoc. rewrite <- app_comm_cons. rewrite skipws_cons by reflexivity.
    rewrite <- !app_assoc. reflexivity. }
  destruct l as [|y l].
  - cbn [map]. change (items (s_sep st d) [member st d (k, x)]) with (member st d (k, x)).
    rewrite Hm. rewrite ceqb_refl. cbv iota. rewrite pstr_print.
    change (T ": ") with [":"; " "]%char. rewrite <- !app_comm_cons. rewrite skipws_cons by reflexivity.
    change (ceqb ":" ":") with true. cbv iota. rewrite app_nil_l. 
    match goal with |- context [pval rd fuel (?c :: ?r)] => change (c :: r) with ([c] ++ r) end.
    rewrite (Hx (S d) fuel [" "%char] _ Hjx); [|lia|apply (spaces_ws 1)|apply ends_ws; [apply Hst|reflexivity]].
    rewrite skipws_app by apply Hst. change (T "}" ++ rest) with ("}"%char :: rest). rewrite skipws_cons by reflexivity. reflexivity.
  - change (map (member st d) ((k, x) :: y :: l)) with (member st d (k, x) :: member st d y :: map (member st d) l).
    rewrite items_cons. rewrite <- app_assoc. rewrite <- app_comm_cons. rewrite Hm.
    rewrite ceqb_refl. cbv iota. rewrite pstr_print.
    change (T ": ") with [":"; " "]%char. rewrite <- !app_comm_cons. rewrite skipws_cons by reflexivity.
    change (ceqb ":" ":") with true. cbv iota. rewrite app_nil_l.
    match goal with |- context [pval rd fuel (?c :: ?r)] => change (c :: r) with ([c] ++ r) end.
    rewrite (Hx (S d) fuel [" "%char] _ Hjx); [|lia|apply (spaces_ws 1)|reflexivity].
    rewrite skipws_cons by reflexivity. change (ceqb "," "}") with false. change (ceqb "," ",") with true. cbv iota.
    rewrite <- app_assoc.
    change (member st d y :: map (member st d) l) with (map (member st d) (y :: l)).
    rewrite IH; [reflexivity|exact HF'| |discriminate|lia|apply Hst].
    intros z Hz. apply Hok. now right.
Qed.

Lemma items_head : forall sep x l (P : ascii -> Prop), (exists c r, x = c :: r /\ P c) -> exists c r, items sep (x :: l) = c :: r /\ P c.
Proof.
  intros sep x l P (c & r & -> & Hc). destruct l as [|y l].
  - exists c, r. now split.
  - rewrite items_cons. cbn. eexists _, _. split; [reflexivity|exact Hc].
Qed.

Lemma pval_S : forall n s, pval rd (S n) s =
    match skipws s with
    | [] => None
    | c :: r =>
      if ceqb c quo then match pstr r with Some (t, r') => Some (JStr t, r') | None => None end
      else if ceqb c "[" then
        match skipws r with
        | [] => None
        | x :: r' => if ceqb x "]" then Some (JArr [], r')
                     else match parr rd n r with Some (l, r2) => Some (JArr l, r2) | None => None end
        end
      else if ceqb c "{" then
        match skipws r with
        | [] => None
        | x :: r' => if ceqb x "}" then Some (JObj [], r')
                     else match pobj rd n r with Some (l, r2) => Some (JObj (dict_of l), r2) | None => None end
        end
      else
        let (t, r') := token (c :: r) in
        if teqb t (T "true") then Some (JBool true, r')
        else if teqb t (T "false") then Some (JBool false, r')
        else if teqb t (T "null") then Some (JNull, r')
        else match rd t with Some v => Some (JNum v, r') | None => None end
    end.
Proof. reflexivity. Qed.

Lemma items_open : forall o sep x l tail (P : ascii -> Prop), ws_txt o -> (exists c r, x = c :: r /\ cin c jws = false /\ P c) ->
  exists c r, skipws (o ++ items sep (x :: l) ++ tail) = c :: r /\ P c.
Proof.
  intros o sep x l tail P Ho H. destruct (items_head sep x l _ H) as (c & r & E & Hc & Hp). rewrite skipws_app by exact Ho. rewrite E.
  rewrite <- app_comm_cons. rewrite skipws_cons by exact Hc. eexists _, _. split; [reflexivity|exact Hp].
Qed.

Theorem reads_all : forall st v, style_ok st -> reads st v.
Proof.
  intros st v Hst. induction v as [x|s|b| |l IH|l IH] using json_ind2; intros d fuel w rest Hok Hf Hw He.
  - destruct Hok as (Hrd & Hne & Ht & N1 & N2 & N3). destruct fuel as [|fuel]; [cbn in Hf; lia|]. cbn [pval print]. rewrite skipws_app by exact Hw.
    destruct (pr x) as [|c r] eqn:E; [congruence|]. pose proof Ht as Ht'. cbn [forallb] in Ht. apply andb_true_iff in Ht. destruct Ht as [Hc _].
    rewrite <- app_comm_cons. rewrite skipws_cons by now apply tokc_ws. destruct (tokc_special c Hc) as (-> & -> & -> & _).
    rewrite app_comm_cons, token_app by assumption.
    apply teqb_neq in N1, N2, N3. rewrite N1, N2, N3, Hrd. reflexivity.
  - destruct fuel as [|fuel]; [cbn in Hf; lia|]. cbn [pval print]. rewrite skipws_app by exact Hw. unfold print_str. rewrite <- app_comm_cons. rewrite skipws_cons by reflexivity.
    rewrite ceqb_refl. rewrite <- app_assoc. change ([quo] ++ rest) with (quo :: rest). rewrite pstr_print. reflexivity.
  - destruct fuel as [|fuel]; [cbn in Hf; lia|]. cbn [pval print]. rewrite skipws_app by exact Hw.
    assert (E : forall t, In t [T "true"; T "false"; T "null"] -> skipws (t ++ rest) = t ++ rest /\ token (t ++ rest) = (t, rest)).
    { intros t Ht. split; [|apply token_app; [|exact He]]; cbn [In] in Ht; destruct Ht as [<-|[<-|[<-|[]]]]; reflexivity. }
    destruct b.
    + destruct (E (T "true")) as [E1 E2]; [cbn; tauto|]. rewrite E1. change (T "true") with ("t" :: T "rue")%char in *. rewrite <- app_comm_cons in *. rewrite E2. reflexivity.
    + destruct (E (T "false")) as [E1 E2]; [cbn; tauto|]. rewrite E1. change (T "false") with ("f" :: T "alse")%char in *. rewrite <- app_comm_cons in *. rewrite E2. reflexivity.
  - destruct fuel as [|fuel]; [cbn in Hf; lia|]. cbn [pval print]. rewrite skipws_app by exact Hw.
    assert (E : token (T "null" ++ rest) = (T "null", rest)) by (apply token_app; [reflexivity|exact He]).
    change (T "null") with ("n" :: T "ull")%char in *. rewrite <- app_comm_cons in *. rewrite skipws_cons by reflexivity. rewrite E. reflexivity.
  - assert (Hok' := proj1 (jok_arr l) Hok). cbn [jsize] in Hf. destruct fuel as [|fuel]; [lia|]. destruct l as [|x l].
    + cbn [pval print]. rewrite skipws_app by exact Hw. reflexivity.
    + rewrite print_arr. rewrite pval_S. rewrite skipws_app by exact Hw. rewrite <- !app_assoc.
      change (T "[") with ["["%char]. rewrite <- app_comm_cons, app_nil_l. rewrite skipws_cons by reflexivity.
      change (ceqb "[" quo) with false. change (ceqb "[" "[") with true. cbv iota.
      destruct (items_open (s_open st d) (s_sep st d) (print pr st (S d) x) (map (print pr st (S d)) l) (s_close st d ++ T "]" ++ rest) (fun c => ceqb c "]" = false)) as (c & r & E & Hc).
      { apply Hst. } { apply print_head. apply Hok'. now left. }
      pose proof (parr_print st (x :: l) Hst IH Hok' ltac:(discriminate) d fuel (s_open st d) rest ltac:(lia) (proj1 (Hst d))) as G.
      change (map (print pr st (S d)) (x :: l)) with (print pr st (S d) x :: map (print pr st (S d)) l) in *.
      match goal with |- context [skipws ?a] => replace (skipws a) with (c :: r) by (symmetry; exact E) end. rewrite Hc.
      first [rewrite G|match type of G with ?a = ?b => match goal with |- context [parr rd fuel ?q] => replace (parr rd fuel q) with b by (symmetry; exact G) | |- context [pobj rd fuel ?q] => replace (pobj rd fuel q) with b by (symmetry; exact G) end end]. reflexivity.
  - destruct (proj1 (jok_obj l) Hok) as [Hnd Hok']. cbn [jsize] in Hf. destruct fuel as [|fuel]; [lia|]. destruct l as [|x l].
    + cbn [pval print]. rewrite skipws_app by exact Hw. reflexivity.
    + rewrite print_obj. rewrite pval_S. rewrite skipws_app by exact Hw. rewrite <- !app_assoc.
      change (T "{") with ["{"%char]. rewrite <- app_comm_cons, app_nil_l. rewrite skipws_cons by reflexivity.
      change (ceqb "{" quo) with false. change (ceqb "{" "[") with false. change (ceqb "{" "{") with true. cbv iota.
      destruct (items_open (s_open st d) (s_sep st d) (member st d x) (map (member st d) l) (s_close st d ++ T "}" ++ rest) (fun c => ceqb c "}" = false)) as (c & r & E & Hc).
      { apply Hst. } { eexists _, _. split; [reflexivity|]. now split. }
      pose proof (pobj_print st (x :: l) Hst IH Hok' ltac:(discriminate) d fuel (s_open st d) rest ltac:(lia) (proj1 (Hst d))) as G.
      change (map (member st d) (x :: l)) with (member st d x :: map (member st d) l) in *.
      match goal with |- context [skipws ?a] => replace (skipws a) with (c :: r) by (symmetry; exact E) end. rewrite Hc.
      first [rewrite G|match type of G with ?a = ?b => match goal with |- context [parr rd fuel ?q] => replace (parr rd fuel q) with b by (symmetry; exact G) | |- context [pobj rd fuel ?q] => replace (pobj rd fuel q) with b by (symmetry; exact G) end end]. rewrite dict_of_id by exact Hnd. reflexivity.
Qed.

Lemma lsum_cons : forall x l, list_sum (x :: l) = (x + list_sum l)%nat.
Proof. reflexivity. Qed.
Lemma items_len : forall sep (l : list txt), (list_sum (map (@List.length ascii) l) + List.length l <= List.length (items sep l) + 1)%nat.
Proof.
  induction l as [|x [|y l] IH]; [cbn; lia| |].
  - cbn. lia.
  - rewrite items_cons. change (map (@List.length ascii) (x :: y :: l)) with (List.length x :: map (@List.length ascii) (y :: l)). rewrite lsum_cons.
    change (List.length (x :: y :: l)) with (S (List.length (y :: l))). rewrite app_length. cbn [List.length] in *. rewrite app_length. lia.
Qed.

Lemma size_len : forall st d v, jok v -> (jsize v <= 2 * List.length (print pr st d v))%nat.
Proof.
  intros st d v. revert d. induction v as [x|s|b| |l IH|l IH] using json_ind2; intros d Hok.
  - cbn. destruct Hok as (_ & H & _). destruct (pr x); [congruence|]. cbn. lia.
  - cbn. lia.
  - destruct b; cbn; lia.
  - cbn. lia.
  - destruct l as [|x l]; [cbn; lia|]. rewrite print_arr. rewrite !app_length. change (List.length (T "[")) with 1%nat. change (List.length (T "]")) with 1%nat.
    pose proof (items_len (s_sep st d) (map (print pr st (S d)) (x :: l))) as HL. rewrite map_length in HL. rewrite map_map in HL.
    assert (Hok' := proj1 (jok_arr _) Hok).
    assert (G : (list_sum (map (fun x => S (jsize x)) (x :: l)) <= 2 * list_sum (map (fun x => List.length (print pr st (S d) x)) (x :: l)) + List.length (x :: l))%nat).
    { clear HL Hok. revert IH Hok'. generalize (x :: l). clear. induction l as [|x l IHl]; intros IH Hok; [cbn; lia|]. inversion IH as [|? ? Hx IH']; subst.
      specialize (IHl IH' (fun y Hy => Hok y (or_intror Hy))). specialize (Hx (S d) (Hok x (or_introl eq_refl))).
      rewrite !map_cons, !lsum_cons. cbn [List.length]. lia. }
    cbn [jsize]. cbn [List.length] in *. lia.
  - destruct l as [|x l]; [cbn; lia|]. rewrite print_obj. rewrite !app_length. change (List.length (T "{")) with 1%nat. change (List.length (T "}")) with 1%nat.
    pose proof (items_len (s_sep st d) (map (member st d) (x :: l))) as HL. rewrite map_length in HL. rewrite map_map in HL.
    assert (Hok' := proj2 (proj1 (jok_obj _) Hok)).
    assert (G : (list_sum (map (fun kv => S (jsize (snd kv))) (x :: l)) <= 2 * list_sum (map (fun x => List.length (member st d x)) (x :: l)) + List.length (x :: l))%nat).
    { clear HL Hok. revert IH Hok'. generalize (x :: l). clear. induction l as [|x l IHl]; intros IH Hok; [cbn; lia|]. inversion IH as [|? ? Hx IH']; subst.
      specialize (IHl IH' (fun y Hy => Hok y (or_intror Hy))). specialize (Hx (S d) (Hok x (or_introl eq_refl))).
      rewrite !map_cons, !lsum_cons. cbn [List.length].
      assert (G : (List.length (print pr st (S d) (snd x)) <= List.length (member st d x))%nat) by (unfold member; rewrite !app_length; lia). lia. }
    cbn [jsize]. cbn [List.length] in *. lia.
Qed.

Theorem loads_print : forall st d v w, style_ok st -> jok v -> ws_txt w -> loads rd (print pr st d v ++ w) = Ok v.
Proof.
  intros st d v w Hst Hok Hw. unfold loads.
  assert (He : ends_tok w). { destruct w as [|c w]; [exact I|]. apply ws_tokc, Hw. now left. }
  assert (E := reads_all st v Hst d (2 * List.length (print pr st d v ++ w) + 2)%nat [] w Hok). cbn [app] in E. rewrite E.
  - assert (G : skipws w = []). { rewrite <- (app_nil_r w). now rewrite skipws_app. } now rewrite G.
  - pose proof (size_len st d v Hok). rewrite app_length. lia.
  - intros c [].
  - exact He.
Qed.

(** ** The layout of save_input is the printer with a line per parameter *)
Definition input_style : style :=
  {| s_open := fun d => match d with O => nl :: T "  " | _ => [] end;
     s_sep := fun d => match d with O => nl :: T "  " | _ => T " " end;
     s_close := fun d => match d with O => [nl] | _ => [] end |}.
Lemma input_style_ok : style_ok input_style.
Proof.
  intros [|d]; split; [|split| |split]; intros c; cbn; intros H; repeat (destruct H as [<-|H]; [reflexivity|]); contradiction.
Qed.

(** below depth 0 the two styles are the same *)
Lemma print_inner : forall v d e, print pr compact d v = print pr input_style (S e) v.
Proof.
  induction v as [x|s|b| |l IH|l IH] using json_ind2; intros d e; [reflexivity..| |].
  - destruct l as [|x l]; [reflexivity|]. rewrite !print_arr. cbn [compact input_style s_open s_sep s_close].
    assert (E : map (print pr compact (S d)) (x :: l) = map (print pr input_style (S (S e))) (x :: l)).
    { apply map_ext_in. intros y Hy. rewrite Forall_forall in IH. now apply IH. }
    rewrite E. reflexivity.
  - destruct l as [|x l]; [reflexivity|]. rewrite !print_obj. cbn [compact input_style s_open s_sep s_close].
    assert (E : map (member compact d) (x :: l) = map (member input_style (S e)) (x :: l)).
    { apply map_ext_in. intros y Hy. rewrite Forall_forall in IH. unfold member. now rewrite (IH y Hy (S d) (S e)). }
    rewrite E. reflexivity.
Qed.

Lemma dump_pair_member : forall kv, dump_pair pr kv = member input_style 0 kv.
Proof.
  intros kv. unfold dump_pair. rewrite print_obj. cbn [compact s_open s_sep s_close map app].
  change (items (T " ") [member compact 0 kv]) with (member compact 0 kv).
  change (T "{" ++ member compact 0 kv ++ T "}") with ("{"%char :: member compact 0 kv ++ ["}"%char]). cbn [tl]. rewrite removelast_last.
  unfold member. now rewrite (print_inner (snd kv) 1 0).
Qed.

Lemma fold_out : forall l (o : txt), l <> [] ->
  removelast (fold_left (fun o kv => o ++ (nl :: T "  ") ++ dump_pair pr kv ++ T ",") l o) = o ++ (nl :: T "  ") ++ items (nl :: T "  ") (map (member input_style 0) l).
Proof.
  induction l as [|x l IH]; intros o Hne; [congruence|]. cbn [fold_left]. destruct l as [|y l].
  - cbn [fold_left map]. change (T ",") with [","%char]. rewrite !app_assoc. rewrite removelast_last. rewrite dump_pair_member. reflexivity.
  - rewrite IH by discriminate. rewrite dump_pair_member.
    change (map (member input_style 0) (x :: y :: l)) with (member input_style 0 x :: member input_style 0 y :: map (member input_style 0) l).
    rewrite items_cons. change (T ",") with [","%char]. rewrite <- !app_assoc. reflexivity.
Qed.

Lemma input_text_print : forall d, d <> [] -> input_text pr d = print pr input_style 0 (JObj d).
Proof.
  intros d H. unfold input_text. rewrite fold_out by exact H. destruct d as [|x d]; [congruence|]. rewrite print_obj. cbn [input_style s_open s_sep s_close].
  rewrite <- !app_assoc. reflexivity.
Qed.

(** a dictionary with at least one entry is read back as it was *)
Theorem input_trip : forall f d w w', d <> [] -> jok (JObj d) -> save_input pr f d w = Ok w' -> load_input rd f w' = Ok (JObj d).
Proof.
  intros f d w w' Hne Hok Hs. unfold save_input in Hs. unfold load_input. destruct (ends_with (T ".json") f); [|discriminate].
  injection Hs as <-. rewrite fget_fput. rewrite input_text_print by exact Hne.
  rewrite <- (app_nil_r (print pr input_style 0 (JObj d))). apply loads_print; [exact input_style_ok|exact Hok|]. intros c [].
Qed.

(** the empty dictionary is written as an unbalanced bracket *)
Theorem input_empty : forall f w, ends_with (T ".json") f = true ->
  exists w', save_input pr f [] w = Ok w' /\ load_input rd f w' = Err ValueError.
Proof.
  intros f w H. exists (fput f (input_text pr []) w). unfold save_input, load_input. rewrite H, fget_fput. split; [reflexivity|].
  unfold input_text, loads. cbn. change (tokc "}") with false. cbn. destruct (rd []); reflexivity.
Qed.

End Trip.
