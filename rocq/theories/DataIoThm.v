(** Data files are read back: the text format and the JSON format of DataIo.v. *)

From Coq Require Import List Bool Ascii String Lia Arith ZArith Floats.SpecFloat.
From Verif Require Import PyBase Text Json JsonThm DataIo.
Import ListNotations.
Local Open Scope res_scope.

(** ** Rows *)
Lemma rows_concat : forall X n c (l : list X), List.length l = (n * c)%nat -> List.concat (rows n c l) = l.
Proof.
  induction n as [|n IH]; intros c l H; cbn [rows List.concat].
  - destruct l; [reflexivity|discriminate].
  - rewrite IH; [apply firstn_skipn|]. rewrite skipn_length. rewrite H. lia.
Qed.
Lemma rows_len : forall X n c (l : list X), List.length (rows n c l) = n.
Proof. induction n as [|n IH]; intros c l; [reflexivity|]. cbn. now rewrite IH. Qed.
Lemma rows_in : forall X n c (l r : list X), List.length l = (n * c)%nat -> In r (rows n c l) -> List.length r = c /\ (forall x, In x r -> In x l).
Proof.
  induction n as [|n IH]; intros c l r H Hr; [contradiction|]. destruct Hr as [<-|Hr].
  - split; [rewrite firstn_length; lia|]. intros x Hx. rewrite <- (firstn_skipn c l). apply in_or_app. now left.
  - destruct (IH c (skipn c l) r) as [H1 H2]; [rewrite skipn_length, H; lia|exact Hr|]. split; [exact H1|].
    intros x Hx. rewrite <- (firstn_skipn c l). apply in_or_app. right. now apply H2.
Qed.

(** ** Text files *)
Definition sepc : txt := T ",#" ++ space.

Lemma unl_id : forall s, ~ In cr s -> unl s = s.
Proof.
  induction s as [|c s IH]; intros H; [reflexivity|]. cbn [unl]. assert (E : ceqb c cr = false) by (apply ceqb_neq; intros ->; apply H; now left).
  rewrite E. f_equal. apply IH. intros G. apply H. now right.
Qed.
Lemma unlines_in : forall c l, In c (unlines l) -> c = nl \/ exists s, In s l /\ In c s.
Proof.
  intros c l H. unfold unlines in H. apply in_concat in H. destruct H as (s & Hs & Hc). apply in_map_iff in Hs. destruct Hs as (t & <- & Ht).
  apply in_app_or in Hc. destruct Hc as [Hc|[<-|[]]]; [right; exists t; now split|now left].
Qed.
Lemma read_lines : forall l, (forall s, In s l -> ~ In nl s /\ ~ In cr s) -> lines (unl (unlines l)) = l.
Proof.
  intros l H. rewrite unl_id.
  - apply lines_unlines. intros s Hs. now apply H.
  - intros G. apply unlines_in in G. destruct G as [G|(s & Hs & G)]; [discriminate G|]. now apply (H s Hs).
Qed.

Lemma join_in : forall c sep l, In c (join sep l) -> In c sep \/ exists s, In s l /\ In c s.
Proof.
  intros c sep. induction l as [|x [|y l] IH]; intros H; [contradiction| |].
  - right. exists x. split; [now left|exact H].
  - change (join sep (x :: y :: l)) with (x ++ sep ++ join sep (y :: l)) in H. apply in_app_or in H. destruct H as [H|H].
    + right. exists x. split; [now left|exact H].
    + apply in_app_or in H. destruct H as [H|H]; [now left|]. destruct (IH H) as [G|(s & Hs & G)]; [now left|]. right. exists s. split; [now right|exact G].
Qed.

Lemma split_comma : forall x l, (forall s, In s (x :: l) -> ~ In ","%char s) -> split "," (join (T ", ") (x :: l)) = x :: map (cons " "%char) l.
Proof.
  intros x l H. revert x H. induction l as [|y l IH]; intros x H.
  - cbn [join map]. apply split_plain, H. now left.
  - change (join (T ", ") (x :: y :: l)) with (x ++ ","%char :: (" "%char :: join (T ", ") (y :: l))).
    rewrite split_app by (apply H; now left). cbn [map]. f_equal.
    assert (E : split "," (" "%char :: join (T ", ") (y :: l)) = match split "," (join (T ", ") (y :: l)) with [] => [[" "%char]] | h :: t => (" "%char :: h) :: t end) by reflexivity.
    rewrite E, IH by (intros s Hs; apply H; now right). reflexivity.
Qed.

Lemma cut_plain : forall cs s, (forall c, In c s -> cin c cs = false) -> cut cs s = [s].
Proof.
  induction s as [|x s IH]; intros H; [reflexivity|]. cbn. rewrite H by now left. rewrite IH; [reflexivity|]. intros c Hc. apply H. now right.
Qed.
Lemma cut_app : forall cs a c s, (forall x, In x a -> cin x cs = false) -> cin c cs = true -> cut cs (a ++ c :: s) = a :: cut cs s.
Proof.
  induction a as [|x a IH]; intros c s H Hc; cbn.
  - now rewrite Hc.
  - rewrite H by now left. rewrite IH; [reflexivity| |exact Hc]. intros y Hy. apply H. now right.
Qed.


Lemma str_nat_not : forall n c, cin c (T "0123456789") = false -> ~ In c (str_nat n).
Proof. intros n c H G. apply uint_digits in G. unfold is_digit in G. apply cin_In in G. congruence. Qed.
Lemma digit_not : forall n c (cs : txt), In c (str_nat n) -> (forall d, In d (T "0123456789") -> cin d cs = false) -> cin c cs = false.
Proof. intros n c cs H G. apply G. now apply uint_digits in H. Qed.
Ltac digs := let d := fresh in let H := fresh in intros d H; cbn in H; repeat (destruct H as [<-|H]; [first [reflexivity|discriminate|congruence]|]); contradiction.

Lemma shape_chars : forall s c, In c (join (T ", ") (map str_nat s)) -> cin c (T ", 0123456789") = true.
Proof.
  intros s c H. apply join_in in H. destruct H as [[<-|[<-|[]]]|(t & Ht & H)]; [reflexivity..|].
  apply in_map_iff in Ht. destruct Ht as (n & <- & _). apply uint_digits in H. apply cin_In. unfold is_digit in H. right. right. exact H.
Qed.

Lemma read_shape_str : forall x s, read_shape (str_shape (x :: s)) = Ok (x :: s).
Proof.
  intros x s. unfold read_shape, str_shape.
  change (T "(" ++ join (T ", ") (map str_nat (x :: s)) ++ T ")") with ([] ++ "("%char :: (join (T ", ") (map str_nat (x :: s)) ++ ")"%char :: [])).
  rewrite cut_app; [|intros ? []|reflexivity]. rewrite cut_app; [| |reflexivity].
  - rewrite map_cons. rewrite split_comma.
    + cbn [ints]. rewrite <- (app_nil_l (str_nat x)). rewrite int_str by intros ? []. cbn [bind].
      assert (E : ints (map (cons " "%char) (map str_nat s)) = Ok s).
      { induction s as [|y s IH]; [reflexivity|]. cbn [map ints]. change (" "%char :: str_nat y) with ([" "%char] ++ str_nat y). rewrite int_str by (intros c [<-|[]]; reflexivity).
        cbn [bind]. rewrite IH. reflexivity. }
      rewrite E. reflexivity.
    + intros t Ht. assert (exists n, t = str_nat n) as [n ->].
      { destruct Ht as [<-|Ht]; [now exists x|]. apply in_map_iff in Ht. destruct Ht as (n & <- & _). now exists n. }
      now apply str_nat_not.
  - intros c Hc. apply shape_chars in Hc. revert Hc. destruct c as [[] [] [] [] [] [] [] []]; vm_compute; congruence.
Qed.

Lemma rstrip_id : forall s c, cin c space = false -> rstrip (s ++ [c]) = s ++ [c].
Proof. intros s c H. unfold rstrip. rewrite rev_app_distr. cbn [List.rev app]. rewrite lstrip_id by exact H. change (c :: List.rev s) with ([c] ++ List.rev s). rewrite rev_app_distr, rev_involutive. reflexivity. Qed.

Lemma contains_false : forall p c s, In c p -> ~ In c s -> contains p s = false.
Proof.
  intros p c s Hp. assert (G : forall p s, In c p -> ~ In c s -> prefixb p s = false).
  { clear. induction p as [|x p IH]; intros [|y s] Hp Hs; [contradiction|contradiction|reflexivity|]. cbn. destruct (ceqb x y) eqn:E; [|reflexivity]. apply ceqb_eq in E. subst y.
    destruct Hp as [->|Hp]; [exfalso; apply Hs; now left|]. cbn. apply IH; [exact Hp|]. intros H. apply Hs. now right. }
  induction s as [|y s IH]; intros Hs.
  - cbn. rewrite G; [reflexivity|exact Hp|exact Hs].
  - cbn [contains]. rewrite G; [|exact Hp|exact Hs]. apply IH. intros H. apply Hs. now right.
Qed.

(** a number of a text file is a word without separators that is read back *)
Definition cell_ok {X} (rdx : txt -> option X) (fmt : X -> txt) (x : X) : Prop :=
  rdx (fmt x) = Some x /\ fmt x <> [] /\ forall c, In c (fmt x) -> cin c sepc = false.

Lemma sepc_space : forall c, cin c sepc = false -> cin c space = false /\ c <> ","%char /\ c <> "#"%char /\ c <> nl /\ c <> cr.
Proof. intros c H. assert (G : ~ In c sepc) by now apply cin_false. split; [apply cin_false; intros K; apply G; right; right; exact K|]. repeat split; intros ->; apply G; vm_compute; tauto. Qed.

Lemma row_cells : forall X (rdx : txt -> option X) fmt r, (forall x, In x r -> cell_ok rdx fmt x) -> r <> [] ->
  cells rdx (split "," (join (T ", ") (map fmt r))) = Ok r.
Proof.
  intros X rdx fmt [|x r] H Hne; [congruence|]. rewrite map_cons. rewrite split_comma.
  - assert (Hs : forall y w, cell_ok rdx fmt y -> (forall c, In c w -> cin c space = true) -> rdx (strip (w ++ fmt y)) = Some y).
    { intros y w Hy Hw. rewrite strip_id; [apply Hy|exact Hw|]. intros c Hc. now apply sepc_space, Hy. }
    cbn [cells]. rewrite <- (app_nil_l (fmt x)). rewrite Hs; [|apply H; now left|intros c []].
    assert (E : cells rdx (map (cons " "%char) (map fmt r)) = Ok r).
    { clear Hne. assert (H' : forall y, In y r -> cell_ok rdx fmt y) by (intros y Hy; apply H; now right). clear H.
      induction r as [|y r IH]; [reflexivity|]. cbn [map cells]. change (" "%char :: fmt y) with ([" "%char] ++ fmt y).
      rewrite Hs; [|apply H'; now left|intros c [<-|[]]; reflexivity]. rewrite IH; [reflexivity|]. intros z Hz. apply H'. now right. }
    rewrite E. reflexivity.
  - intros s Hs G. assert (exists y, In y (x :: r) /\ s = fmt y) as (y & Hy & ->).
    { destruct Hs as [<-|Hs]; [exists x; split; [now left|reflexivity]|]. apply in_map_iff in Hs. destruct Hs as (y & <- & Hy). exists y. split; [now right|reflexivity]. }
    destruct (H y Hy) as (_ & _ & Hc). destruct (sepc_space _ (Hc _ G)) as (_ & H1 & _). congruence.
Qed.

Definition row_txt {X} (fmt : X -> txt) (r : list X) : txt := join (T ", ") (map fmt r).
Lemma row_chars : forall X (rdx : txt -> option X) fmt r c, (forall x, In x r -> cell_ok rdx fmt x) -> In c (row_txt fmt r) -> c <> "#"%char /\ c <> nl /\ c <> cr.
Proof.
  intros X rdx fmt r c H Hc. apply join_in in Hc. destruct Hc as [Hc|(s & Hs & Hc)].
  - destruct Hc as [<-|[<-|[]]]; repeat split; discriminate.
  - apply in_map_iff in Hs. destruct Hs as (x & <- & Hx). destruct (H x Hx) as (_ & _ & G). destruct (sepc_space c (G c Hc)) as (_ & _ & H1). exact H1.
Qed.
Lemma row_nonnil : forall X (rdx : txt -> option X) fmt r, (forall x, In x r -> cell_ok rdx fmt x) -> r <> [] -> row_txt fmt r <> [].
Proof.
  intros X rdx fmt [|x r] H Hne; [congruence|]. unfold row_txt. intros E. destruct (H x (or_introl eq_refl)) as (_ & G & _). apply G.
  cbn [map] in E. destruct (map fmt r) as [|y l]; [exact E|]. change (join (T ", ") (fmt x :: y :: l)) with (fmt x ++ T ", " ++ join (T ", ") (y :: l)) in E.
  apply app_eq_nil in E. tauto.
Qed.
Lemma no_comment_id : forall s, ~ In "#"%char s -> no_comment s = s.
Proof.
  intros s H. unfold no_comment. assert (E : split1 "#" s = None); [|now rewrite E].
  induction s as [|x s IH]; [reflexivity|]. cbn. assert (E : ceqb x "#" = false) by (apply ceqb_neq; intros ->; apply H; now left). rewrite E.
  rewrite IH; [reflexivity|]. intros G. apply H. now right.
Qed.

Lemma table_rows : forall X (rdx : txt -> option X) fmt c rs, (0 < c)%nat -> (forall r, In r rs -> List.length r = c /\ forall x, In x r -> cell_ok rdx fmt x) ->
  table rdx (map (row_txt fmt) rs) = Ok rs.
Proof.
  intros X rdx fmt c rs Hc. induction rs as [|r rs IH]; intros H; [reflexivity|]. cbn [map table]. destruct (H r (or_introl eq_refl)) as [Hl Hx].
  unfold row_txt at 1. rewrite row_cells; [|exact Hx|intros ->; cbn in Hl; lia]. cbn [bind]. rewrite IH by (intros q Hq; apply H; now right). cbn [bind].
  destruct rs as [|q rs]; [reflexivity|]. destruct (H q) as [Hq _]; [right; now left|]. rewrite Hl, Hq, Nat.eqb_refl. reflexivity.
Qed.

(** what np.loadtxt reads from the file *)
Lemma loadtxt_body : forall X (rdx : txt -> option X) fmt c (l : list X) (hs : list txt), (0 < c)%nat -> (List.length l mod c = 0)%nat ->
  (forall x, In x l -> cell_ok rdx fmt x) -> (forall h, In h hs -> exists t, h = "#"%char :: t) ->
  loadtxt rdx (hs ++ body fmt c l) = Ok l.
Proof.
  intros X rdx fmt c l hs Hc Hm Hx Hh. unfold loadtxt, body.
  assert (Hl : List.length l = (List.length l / c * c)%nat). { rewrite (Nat.div_mod (List.length l) c) at 1 by lia. rewrite Hm. lia. }
  set (rs := rows (List.length l / c) c l). assert (Hrs : forall r, In r rs -> List.length r = c /\ forall x, In x r -> cell_ok rdx fmt x).
  { intros r Hr. destruct (rows_in _ _ _ _ _ Hl Hr) as [H1 H2]. split; [exact H1|]. intros x Hx'. now apply Hx, H2. }
  assert (E : filter nonempty (map no_comment (hs ++ T "# data" :: map (fun r => join (T ", ") (map fmt r)) rs)) = map (row_txt fmt) rs).
  { rewrite map_app, filter_app.
    assert (E1 : filter nonempty (map no_comment hs) = []).
    { clear -Hh. induction hs as [|h hs IH]; [reflexivity|]. destruct (Hh h (or_introl eq_refl)) as [t ->]. cbn [map filter]. apply IH. intros g Hg. apply Hh. now right. }
    rewrite E1. rewrite map_cons. cbn [app filter].
    change (nonempty (no_comment (T "# data"))) with false. cbv iota.
    clear -Hrs Hc. induction rs as [|r rs IH]; [reflexivity|]. cbn [map filter]. destruct (Hrs r (or_introl eq_refl)) as [H1 H2].
    change (join (T ", ") (map fmt r)) with (row_txt fmt r). rewrite no_comment_id.
    2:{ intros G. destruct (row_chars _ rdx fmt r _ H2 G) as (G1 & _). congruence. }
    assert (E : teqb (row_txt fmt r) [] = false). { apply teqb_neq. apply (row_nonnil _ rdx); [exact H2|]. intros ->. cbn in H1. lia. }
    unfold nonempty at 1. rewrite E. cbn [negb]. f_equal. apply IH. intros q Hq. apply Hrs. now right. }
  rewrite E. rewrite (table_rows _ rdx fmt c rs Hc Hrs). cbn [bind]. unfold rs. rewrite rows_concat by exact Hl. reflexivity.
Qed.

Section Trip.
Variables (fe pr : fl -> txt) (rd_r : txt -> option fl) (rd_c : txt -> option fc) (rd : txt -> option fl).
Variables (date version : txt).

Definition one_line (s : txt) : Prop := ~ In nl s /\ ~ In cr s.

Hypothesis Hdate : one_line date /\ contains (T "data") date = false.
Hypothesis Hversion : one_line version /\ contains (T "data") version = false.

Lemma ml_cons : forall k v, v <> [] -> meta_line (k, v) = T "# " ++ k ++ T ":" ++ T " " ++ v.
Proof. intros k [|c v] H; [congruence|reflexivity]. Qed.

Lemma shape_nonnil : forall s, str_shape s <> [].
Proof. discriminate. Qed.
Lemma read_meta_file : forall x info rest, one_line info -> exists m, 
  read_meta (map meta_line (meta date version x info) ++ T "# data" :: rest) [] = Ok m
  /\ mget (T "shape") m = Ok (str_shape (dshape x)) /\ mget (T "dtype") m = Ok (dtype x).
Proof.
  intros x info rest Hi. unfold meta. cbn [map app].
  assert (E1 : forall l acc, exists v, read_meta (meta_line (T "date", date) :: l) acc = read_meta l ((T "date", v) :: acc)).
  { intros l acc. destruct date as [|c d] eqn:Ed.
    - eexists. reflexivity.
    - eexists. rewrite <- Ed in *. rewrite ml_cons by (rewrite Ed; discriminate). cbn [read_meta].
      assert (G : contains (T "data") (T "# " ++ T "date" ++ T ":" ++ T " " ++ date) = contains (T "data") date) by reflexivity.
      rewrite G. rewrite (proj2 Hdate). reflexivity. }
  assert (E2 : forall l acc, exists v, read_meta (meta_line (T "version", T "empymod v" ++ version) :: l) acc = read_meta l ((T "version", v) :: acc)).
  { intros l acc. eexists. rewrite ml_cons by discriminate. cbn [read_meta].
    assert (G : contains (T "data") (T "# " ++ T "version" ++ T ":" ++ T " " ++ T "empymod v" ++ version) = contains (T "data") version) by reflexivity.
    rewrite G. rewrite (proj2 Hversion). reflexivity. }
  assert (E3 : forall l acc, read_meta (meta_line (T "shape", str_shape (dshape x)) :: l) acc = read_meta l ((T "shape", str_shape (dshape x)) :: acc)).
  { intros l acc. rewrite ml_cons by apply shape_nonnil. cbn [read_meta].
    assert (G : contains (T "data") (T "# " ++ T "shape" ++ T ":" ++ T " " ++ str_shape (dshape x)) = false).
    { apply (contains_false _ "d"%char); [now left|]. intros H. cbn in H. repeat (destruct H as [H|H]; [discriminate H|]).
      apply in_app_or in H. destruct H as [H|[H|[]]]; [|discriminate H]. apply shape_chars in H. vm_compute in H. discriminate H. }
    rewrite G. unfold str_shape at 1.
    change (T "# " ++ T "shape" ++ T ":" ++ T " " ++ T "(" ++ join (T ", ") (map str_nat (dshape x)) ++ T ")") with (T "# shape" ++ ":"%char :: (T " (" ++ join (T ", ") (map str_nat (dshape x)) ++ T ")")).
    rewrite split1_app by (cbn; intuition discriminate).
    change (lstrip (T "# ") (T "# shape")) with (T "shape").
    change (lstrip (T " ") (T " (" ++ join (T ", ") (map str_nat (dshape x)) ++ T ")")) with (T "(" ++ join (T ", ") (map str_nat (dshape x)) ++ T ")").
    rewrite app_assoc. change (T ")") with [")"%char]. rewrite rstrip_id by reflexivity. rewrite <- app_assoc. reflexivity. }
  assert (E4 : forall l acc, read_meta (meta_line (T "dtype", dtype x) :: l) acc = read_meta l ((T "dtype", dtype x) :: acc)).
  { intros l acc. destruct x; reflexivity. }
  destruct (E1 (meta_line (T "version", T "empymod v" ++ version) :: meta_line (T "shape", str_shape (dshape x)) :: meta_line (T "dtype", dtype x) :: meta_line (T "info", info) :: T "# data" :: rest) []) as [v1 ->].
  destruct (E2 (meta_line (T "shape", str_shape (dshape x)) :: meta_line (T "dtype", dtype x) :: meta_line (T "info", info) :: T "# data" :: rest) [(T "date", v1)]) as [v2 ->].
  rewrite E3, E4.
  set (acc := [(T "dtype", dtype x); (T "shape", str_shape (dshape x)); (T "version", v2); (T "date", v1)]).
  cbn [read_meta]. destruct (contains (T "data") (meta_line (T "info", info))).
  - exists acc. split; [reflexivity|]. split; reflexivity.
  - assert (E : exists b, split1 ":" (meta_line (T "info", info)) = Some (T "# info", b)).
    { destruct info; eexists; reflexivity. }
    destruct E as [b ->]. exists ((lstrip (T "# ") (T "# info"), rstrip (lstrip (T " ") b)) :: acc). split; [reflexivity|]. split; reflexivity.
Qed.

Lemma meta_lines_ok : forall x info, one_line info -> forall s, In s (map meta_line (meta date version x info)) -> (exists t, s = "#"%char :: t) /\ ~ In nl s /\ ~ In cr s.
Proof.
  intros x info Hi s Hs. apply in_map_iff in Hs. destruct Hs as ([k v] & <- & Hkv). split; [eexists; reflexivity|].
  assert (Hk : one_line k /\ one_line v).
  { unfold meta in Hkv. cbn [In] in Hkv. destruct Hkv as [E|[E|[E|[E|[E|[]]]]]]; injection E as <- <-; (split; [split; cbn; intuition discriminate|]).
    - apply Hdate.
    - split; intros H; cbn in H; repeat (destruct H as [H|H]; [discriminate H|]); now apply Hversion in H.
    - split; intros H; unfold str_shape in H; cbn in H; (destruct H as [H|H]; [discriminate H|]); (apply in_app_or in H; destruct H as [H|[H|[]]]; [|discriminate H]); apply shape_chars in H; vm_compute in H; discriminate H.
    - destruct x; split; cbn; intuition discriminate.
    - exact Hi. }
  destruct Hk as [[K1 K2] [V1 V2]]. unfold meta_line. cbn [fst snd].
  split; intros H; apply in_app_or in H; (destruct H as [H|H]; [cbn in H; intuition discriminate|]); apply in_app_or in H; (destruct H as [H|H]; [tauto|]);
    apply in_app_or in H; (destruct H as [H|H]; [cbn in H; intuition discriminate|]); destruct v as [|c v]; try contradiction; apply in_app_or in H; (destruct H as [H|H]; [cbn in H; intuition discriminate|tauto]).
Qed.

Definition nd_cells (x : data) : Prop :=
  match x with
  | Real a => forall v, In v (vals a) -> cell_ok rd_r (fmt_r fe) v
  | Cplx a => forall v, In v (vals a) -> cell_ok rd_c (fmt_c fe) v
  end.
Definition data_ok (x : data) : Prop := match x with Real a => nd_ok a | Cplx a => nd_ok a end.

Lemma body_lines : forall X (rdx : txt -> option X) fmt c (l : list X) s, (0 < c)%nat -> (List.length l mod c = 0)%nat ->
  (forall x, In x l -> cell_ok rdx fmt x) -> In s (body fmt c l) -> ~ In nl s /\ ~ In cr s.
Proof.
  intros X rdx fmt c l s Hc Hm Hx [<-|Hs]; [split; cbn; intuition discriminate|].
  assert (Hl : List.length l = (List.length l / c * c)%nat). { rewrite (Nat.div_mod (List.length l) c) at 1 by lia. rewrite Hm. lia. }
  apply in_map_iff in Hs. destruct Hs as (r & <- & Hr). destruct (rows_in _ _ _ _ _ Hl Hr) as [_ H2].
  assert (G : forall x, In x r -> cell_ok rdx fmt x) by (intros x Hx'; now apply Hx, H2).
  split; intros K; destruct (row_chars _ rdx fmt r _ G K) as (_ & K1 & K2); congruence.
Qed.

Theorem text_trip : forall f x info w w' a b c, dshape x = [a; b; c] -> (0 < c)%nat -> data_ok x -> nd_cells x -> one_line info ->
  ends_with (T ".txt") f = true -> save_data fe pr date version f x info w = Ok w' -> load_data rd_r rd_c rd f w' = Ok x.
Proof.
  intros f x info w w' a b c Hs Hc Hok Hcells Hi Hf Hsave. unfold save_data in Hsave. rewrite Hs, Hf in Hsave. cbn [List.length Nat.eqb negb] in Hsave.
  unfold txt_file in Hsave. rewrite Hs in Hsave. destruct (Nat.eqb_spec c 0) as [E|_]; [lia|]. cbn [bind] in Hsave. match type of Hsave with Ok ?u = Ok ?v => assert (HW : v = u) by congruence end. subst w'. clear Hsave.
  unfold load_data. rewrite Hf, fget_fput. unfold load_txt. cbv zeta.
  set (bd := match x with Real y => body (fmt_r fe) c (vals y) | Cplx y => body (fmt_c fe) c (vals y) end).
  assert (Hmod : match x with Real y => (List.length (vals y) mod c = 0)%nat | Cplx y => (List.length (vals y) mod c = 0)%nat end).
  { destruct x as [y|y]; cbn in Hok, Hs; unfold nd_ok in Hok; rewrite Hok, Hs; cbn [prod fold_right]; rewrite Nat.mul_1_r, Nat.mul_assoc; apply Nat.mod_mul; lia. }
  assert (Hb : exists r, bd = T "# data" :: r). { unfold bd. destruct x; eexists; reflexivity. } destruct Hb as [r Hr].
  assert (Hlines : forall s, In s (map meta_line (meta date version x info) ++ bd) -> ~ In nl s /\ ~ In cr s).
  { intros s H. apply in_app_or in H. destruct H as [H|H]; [now apply meta_lines_ok in H|]. unfold bd in H. destruct x as [y|y].
    - now apply (body_lines _ rd_r (fmt_r fe) c (vals y)).
    - now apply (body_lines _ rd_c (fmt_c fe) c (vals y)). }
  rewrite read_lines by exact Hlines.
  destruct (read_meta_file x info r Hi) as (m & E1 & E2 & E3). rewrite <- Hr in E1.
  match goal with |- context [read_meta ?a ?b] => replace (read_meta a b) with (Ok m) by (symmetry; exact E1) end. cbn [bind]. rewrite E2. cbn [bind].
  rewrite Hs, read_shape_str. cbn [bind]. rewrite E3. cbn [bind].
  assert (Hh : forall h, In h (map meta_line (meta date version x info)) -> exists t, h = "#"%char :: t) by (intros h H; now apply meta_lines_ok in H).
  destruct x as [y|y]; cbn [dtype].
  - change (teqb (T "float64") (T "float64")) with true. unfold bd. cbv iota. rewrite (loadtxt_body _ rd_r (fmt_r fe) c (vals y)); [|exact Hc|exact Hmod|exact Hcells|exact Hh].
    cbn [bind]. unfold reshape. cbn in Hok, Hs. unfold nd_ok in Hok. rewrite Hok, Hs, Nat.eqb_refl. cbn [bind]. rewrite <- Hs. destruct y; reflexivity.
  - change (teqb (T "complex128") (T "float64")) with false. change (teqb (T "complex128") (T "complex128")) with true. unfold bd. cbv iota. rewrite (loadtxt_body _ rd_c (fmt_c fe) c (vals y)); [|exact Hc|exact Hmod|exact Hcells|exact Hh].
    cbn [bind]. unfold reshape. cbn in Hok, Hs. unfold nd_ok in Hok. rewrite Hok, Hs, Nat.eqb_refl. cbn [bind]. rewrite <- Hs. destruct y; reflexivity.
Qed.

(** a three-dimensional array with at least one column is always written *)
Lemma text_saves : forall f x info w a b c, dshape x = [a; b; c] -> (0 < c)%nat -> ends_with (T ".txt") f = true -> exists w', save_data fe pr date version f x info w = Ok w'.
Proof.
  intros f x info w a b c Hs Hc Hf. unfold save_data, txt_file. rewrite Hs, Hf. cbn. destruct (Nat.eqb_spec c 0) as [E|_]; [lia|]. eexists. reflexivity.
Qed.
Lemma text_empty : forall f x info w a b, dshape x = [a; b; O] -> ends_with (T ".txt") f = true -> save_data fe pr date version f x info w = Err ValueError.
Proof. intros f x info w a b Hs Hf. unfold save_data, txt_file. rewrite Hs, Hf. reflexivity. Qed.

End Trip.
