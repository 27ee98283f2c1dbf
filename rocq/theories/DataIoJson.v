(** Data files in JSON format are read back. *)

From Coq Require Import List Bool Ascii String Lia Arith ZArith Floats.SpecFloat.
From Verif Require Import PyBase Text Json JsonThm DataIo DataIoThm.
Import ListNotations.
Local Open Scope res_scope.

(** ** Doubles *)
Definition fin (x : fl) : Prop :=
  match x with S754_zero _ => True | S754_finite _ m e => bounded 53 1024 m e = true | _ => False end.
(** equal as numbers: the two zeros are not told apart *)
Definition feq (x y : fl) : Prop := x = y \/ (exists s t, x = S754_zero s /\ y = S754_zero t).
Definition fceq (x y : fc) : Prop := feq (fst x) (fst y) /\ feq (snd x) (snd y).

Fixpoint shl (k : nat) (m : positive) : positive := match k with O => m | S k' => xO (shl k' m) end.
Lemma digits_shift : forall k m, Z.pos (digits2_pos (shl k m)) = (Z.pos (digits2_pos m) + Z.of_nat k)%Z.
Proof. induction k as [|k IH]; intros m; [cbn [shl]; lia|]. cbn [shl digits2_pos]. rewrite Pos2Z.inj_succ, IH. lia. Qed.

Lemma fmul_one : forall s m e, bounded 53 1024 m e = true -> fmul f1 (S754_finite s m e) = S754_finite s m e.
Proof.
  intros s m e Hb. unfold fmul, f1. cbn [SFmul]. unfold bounded in Hb. apply andb_true_iff in Hb. destruct Hb as [Hc He].
  unfold canonical_mantissa in Hc. apply Zeq_bool_eq in Hc. apply Z.leb_le in He.
  assert (Hm : (4503599627370496 * m)%positive = shl 52 m) by reflexivity.
  rewrite Hm. unfold binary_round_aux, shr_fexp, Zdigits2. rewrite digits_shift.
  replace (Z.pos (digits2_pos m) + Z.of_nat 52 + (-52 + e))%Z with (Z.pos (digits2_pos m) + e)%Z by lia.
  rewrite Hc. replace (e - (-52 + e))%Z with 52%Z by lia.
  unfold shr. 
  assert (Hi : iter_pos shr_1 52 (shr_record_of_loc (Z.pos (shl 52 m)) loc_Exact) = {| shr_m := Z.pos m; shr_r := false; shr_s := false |}) by reflexivity.
  rewrite Hi. cbn [shr_m loc_of_shr_record round_nearest_even].
  replace (-52 + e + 52)%Z with e by lia. rewrite Hc, Z.sub_diag. cbn [shr_record_of_loc shr_m].
  assert (G : (e <=? 1024 - 53)%Z = true) by (apply Z.leb_le; lia). rewrite G. destruct s; reflexivity.
Qed.

(** 247 for one number *)
Definition recomb (a b : fl) : fc := fcadd (fcr a) (fcmul (f0, f1) (fcr b)).

Lemma recomb_finite : forall a b, fin b -> fceq (recomb a b) (a, b).
Proof.
  intros a b Hb. unfold recomb, fcadd, fcmul, fcr. cbn [fst snd].
  assert (E1 : fmul f1 f0 = f0) by reflexivity. assert (E2 : fmul f0 f0 = f0) by reflexivity. rewrite E1, E2.
  assert (E3 : fmul f1 b = b). { destruct b as [sb|sb| |sb m e]; cbn in Hb; try contradiction; [destruct sb; reflexivity|]. now apply fmul_one. }
  rewrite E3.
  assert (E4 : exists t, fsub (fmul f0 b) f0 = S754_zero t).
  { destruct b as [sb|sb| |sb m e]; cbn in Hb; try contradiction; destruct sb; eexists; reflexivity. }
  destruct E4 as [t E4]. rewrite E4. split; cbn [fst snd].
  - destruct a as [sa|sa| |sa m e]; [|left; reflexivity..]. destruct sa, t; [left; reflexivity|right..|left; reflexivity]; eexists _, _; split; reflexivity.
  - destruct b as [sb|sb| |sb m e]; cbn in Hb; try contradiction; [|left; reflexivity]. destruct sb; [right; eexists _, _; split; reflexivity|left; reflexivity].
Qed.

(** without negative zeros the numbers are exactly the same *)
Lemma recomb_exact : forall a b, fin b -> a <> S754_zero true -> b <> S754_zero true -> recomb a b = (a, b).
Proof.
  intros a b Hb Na Nb. unfold recomb, fcadd, fcmul, fcr. cbn [fst snd].
  assert (E1 : fmul f1 f0 = f0) by reflexivity. assert (E2 : fmul f0 f0 = f0) by reflexivity. rewrite E1, E2.
  assert (E3 : fmul f1 b = b). { destruct b as [sb|sb| |sb m e]; cbn in Hb; try contradiction; [destruct sb; reflexivity|]. now apply fmul_one. }
  rewrite E3.
  assert (E4 : exists t, fsub (fmul f0 b) f0 = S754_zero t).
  { destruct b as [sb|sb| |sb m e]; cbn in Hb; try contradiction; destruct sb; eexists; reflexivity. }
  destruct E4 as [t E4]. rewrite E4. f_equal.
  - destruct a as [sa|sa| |sa m e]; try reflexivity. destruct sa; [congruence|]. destruct t; reflexivity.
  - destruct b as [sb|sb| |sb m e]; cbn in Hb; try contradiction; [|reflexivity]. destruct sb; [congruence|reflexivity].
Qed.

(** an infinite imaginary part destroys the real part *)
Lemma recomb_inf : forall a s, recomb a (S754_infinity s) = (S754_nan, S754_infinity s).
Proof. intros a s. destruct a as [[]|[]| |[] m e]; destruct s; reflexivity. Qed.

(** ** Nested lists *)
(** no zero dimension but the last one *)
Fixpoint jshape (s : list nat) : Prop :=
  match s with [] => True | [n] => True | n :: s' => (0 < n)%nat /\ jshape s' end.

Fixpoint nd_go (l : list (json fl)) : res (nd fl) :=
  match l with
  | [] => Ok {| shp := [0]; vals := [] |}
  | x :: l' => a <- nd_of x;; 
               match l' with
               | [] => Ok {| shp := 1 :: shp a; vals := vals a |}
               | _ => r <- nd_go l';;
                      match shp r with
                      | n :: s' => if list_eq_dec Nat.eq_dec s' (shp a) then Ok {| shp := S n :: s'; vals := vals a ++ vals r |}
                                   else Err ValueError
                      | [] => Err ValueError
                      end
               end
  end.
Lemma nd_of_arr : forall l, nd_of (JArr l) = nd_go l.
Proof. induction l as [|x l IH]; [reflexivity|]. cbn [nd_of nd_go]. destruct l as [|y l]; [reflexivity|]. rewrite <- IH. reflexivity. Qed.

Lemma nd_go_rows : forall s n (l : list fl), (0 < n)%nat -> List.length l = (n * prod s)%nat ->
  (forall m, List.length m = prod s -> nd_of (tolist s m) = Ok {| shp := s; vals := m |}) ->
  nd_go (map (tolist s) (rows n (prod s) l)) = Ok {| shp := n :: s; vals := l |}.
Proof.
  intros s n. induction n as [|n IH]; intros l Hn Hl H; [lia|]. cbn [rows map nd_go].
  rewrite H by (rewrite firstn_length; lia). cbn [bind shp vals]. destruct n as [|n].
  - cbn [rows map]. rewrite firstn_all2 by lia. reflexivity.
  - assert (E := IH (skipn (prod s) l) ltac:(lia) ltac:(rewrite skipn_length; lia) H).
    destruct (map (tolist s) (rows (S n) (prod s) (skipn (prod s) l))) as [|y q] eqn:Eq; [discriminate Eq|]. rewrite E. cbn [bind shp vals].
    destruct (list_eq_dec Nat.eq_dec s s); [|congruence]. rewrite firstn_skipn. reflexivity.
Qed.

Lemma nd_tolist : forall s (l : list fl), jshape s -> List.length l = prod s -> nd_of (tolist s l) = Ok {| shp := s; vals := l |}.
Proof.
  induction s as [|n s IH]; intros l Hs Hl.
  - destruct l as [|x [|y l]]; try discriminate Hl. reflexivity.
  - cbn [tolist]. rewrite nd_of_arr. destruct n as [|n].
    + destruct s as [|m s]; [|cbn in Hs; lia]. destruct l; [reflexivity|discriminate Hl].
    + apply nd_go_rows; [lia|exact Hl|]. intros m Hm. apply IH; [|exact Hm]. destruct s; [exact I|]. now apply Hs.
Qed.

Lemma stack_len : forall a : nd fc, nd_ok a -> List.length (map fst (vals a) ++ map snd (vals a)) = prod (2 :: shp a).
Proof.
  intros a H. unfold nd_ok in H. assert (E : forall l : list fc, List.length (map fst l ++ map snd l) = (2 * List.length l)%nat) by (intros l; rewrite app_length, !map_length; unfold fc; lia).
  transitivity (2 * List.length (vals a))%nat; [apply E|]. rewrite H. reflexivity.
Qed.

Section Trip.
Variables (fe pr : fl -> txt) (rd_r : txt -> option fl) (rd_c : txt -> option fc) (rd : txt -> option fl).
Variables (date version : txt).

Lemma jok_tolist : forall s (l : list fl), List.length l = prod s -> (forall v, In v l -> num_ok pr rd v) -> jok pr rd (tolist s l).
Proof.
  induction s as [|n s IH]; intros l Hl H.
  - destruct l as [|x l]; [exact I|]. cbn. apply H. now left.
  - cbn [tolist]. apply jok_arr. intros x Hx. apply in_map_iff in Hx. destruct Hx as (r & <- & Hr).
    destruct (rows_in _ _ _ _ _ Hl Hr) as [H1 H2]. apply IH; [exact H1|]. intros v Hv. now apply H, H2.
Qed.

Definition jdata (x : data) : json fl :=
  match x with
  | Real a => tolist (shp a) (vals a)
  | Cplx a => tolist (2 :: shp a) (map fst (vals a) ++ map snd (vals a))
  end.
Definition jnums (x : data) : Prop :=
  match x with
  | Real a => forall v, In v (vals a) -> num_ok pr rd v
  | Cplx a => forall v, In v (vals a) -> num_ok pr rd (fst v) /\ num_ok pr rd (snd v)
  end.

Lemma jok_file : forall x info, data_ok x -> jnums x -> jok pr rd (json_file date version x info).
Proof.
  intros x info Hok Hn. unfold json_file. apply jok_obj. split.
  - unfold meta. cbn [map app fst]. repeat constructor; cbn [In]; intros H; repeat (destruct H as [H|H]; [discriminate H|]); contradiction.
  - intros kv H. apply in_app_or in H. destruct H as [H|[<-|[]]].
    + apply in_map_iff in H. destruct H as (q & <- & _). exact I.
    + cbn [snd]. destruct x as [a|a]; cbn in Hok; unfold nd_ok in Hok.
      * apply jok_tolist; [exact Hok|exact Hn].
      * apply jok_tolist; [apply stack_len; exact Hok|]. intros v Hv. apply in_app_or in Hv.
        destruct Hv as [Hv|Hv]; apply in_map_iff in Hv; destruct Hv as (z & <- & Hz); now apply Hn.
Qed.

Lemma load_file : forall f x info w w' a b c, dshape x = [a; b; c] -> data_ok x -> jnums x ->
  ends_with (T ".txt") f = false -> ends_with (T ".json") f = true ->
  save_data fe pr date version f x info w = Ok w' ->
  load_data rd_r rd_c rd f w' =
    (y <- nd_of (jdata x);; match x with Real _ => Ok (Real y) | Cplx _ => r <- recombine y;; Ok (Cplx r) end).
Proof.
  intros f x info w w' a b c Hs Hok Hn Ht Hj Hsave. unfold save_data in Hsave. rewrite Hs, Ht, Hj in Hsave. cbn [List.length Nat.eqb negb] in Hsave.
  match type of Hsave with Ok ?u = Ok ?v => assert (HW : v = u) by congruence end. subst w'. clear Hsave.
  unfold load_data. rewrite Ht, Hj, fget_fput. unfold load_json.
  rewrite <- (app_nil_r (print pr indent2 0 (json_file date version x info))).
  rewrite loads_print; [|apply indent2_ok|now apply jok_file|intros ? []]. cbn [bind]. unfold json_file.
  assert (E1 : forall v, jget (T "data") (map (fun kv => (fst kv, JStr (snd kv))) (meta date version x info) ++ [(T "data", v)]) = Ok v) by (intros v; reflexivity).
  assert (E2 : forall v, jget (T "dtype") (map (fun kv => (fst kv, JStr (snd kv))) (meta date version x info) ++ [(T "data", v)]) = Ok (JStr (dtype x))) by (intros v; reflexivity).
  rewrite E1, E2. cbn [bind]. change (match x with Real a0 => tolist (shp a0) (vals a0) | Cplx a0 => tolist (2 :: shp a0) (map fst (vals a0) ++ map snd (vals a0)) end) with (jdata x).
  destruct (nd_of (jdata x)) as [y|e]; [|reflexivity]. cbn [bind]. destruct x; reflexivity.
Qed.

Theorem json_trip_real : forall f (a : nd fl) info w w' n m c, shp a = [n; m; c] -> (0 < n)%nat -> (0 < m)%nat -> nd_ok a -> jnums (Real a) ->
  ends_with (T ".txt") f = false -> ends_with (T ".json") f = true ->
  save_data fe pr date version f (Real a) info w = Ok w' -> load_data rd_r rd_c rd f w' = Ok (Real a).
Proof.
  intros f a info w w' n m c Hs Hn Hm Hok Hnum Ht Hj Hsave.
  rewrite (load_file f (Real a) info w w' n m c Hs Hok Hnum Ht Hj Hsave). cbn [jdata].
  rewrite nd_tolist; [|rewrite Hs; cbn; tauto|exact Hok]. cbn [bind]. destruct a; reflexivity.
Qed.

Lemma combine_split_pairs : forall l : list fc, combine (map fst l) (map snd l) = l.
Proof. induction l as [|[x y] l IH]; [reflexivity|]. cbn. now rewrite IH. Qed.

Theorem json_trip_cplx : forall f (a : nd fc) info w w' n m c, shp a = [n; m; c] -> (0 < n)%nat -> (0 < m)%nat -> nd_ok a -> jnums (Cplx a) ->
  ends_with (T ".txt") f = false -> ends_with (T ".json") f = true ->
  save_data fe pr date version f (Cplx a) info w = Ok w' ->
  load_data rd_r rd_c rd f w' = Ok (Cplx {| shp := shp a; vals := map (fun z => recomb (fst z) (snd z)) (vals a) |}).
Proof.
  intros f a info w w' n m c Hs Hn Hm Hok Hnum Ht Hj Hsave.
  rewrite (load_file f (Cplx a) info w w' n m c Hs Hok Hnum Ht Hj Hsave). cbn [jdata].
  rewrite nd_tolist; [|rewrite Hs; cbn; repeat split; lia|apply stack_len; exact Hok]. cbn [bind].
  unfold nd_ok in Hok.
  unfold recombine. cbn [shp vals].
  assert (E : forall (l : list fc) k, List.length l = k -> combine (firstn k (map fst l ++ map snd l)) (firstn k (skipn k (map fst l ++ map snd l))) = l).
  { intros l k <-. rewrite firstn_app, map_length, Nat.sub_diag. rewrite firstn_all2 by (rewrite map_length; unfold fc; lia). cbn [firstn]. rewrite app_nil_r.
    rewrite skipn_app, map_length, Nat.sub_diag. rewrite skipn_all2 by (rewrite map_length; unfold fc; lia). cbn [skipn app].
    rewrite firstn_all2 by (rewrite map_length; unfold fc; lia). apply combine_split_pairs. }
  match goal with |- context [combine ?x ?y] => replace (combine x y) with (vals a) by (symmetry; exact (E (vals a) _ Hok)) end. reflexivity.
Qed.

(** shapes with no elements: the shape is lost when one of the first two dimensions is zero *)
Lemma json_shape_lost : forall f m c info w w', 
  ends_with (T ".txt") f = false -> ends_with (T ".json") f = true ->
  save_data fe pr date version f (Real {| shp := [O; m; c]; vals := [] |}) info w = Ok w' ->
  load_data rd_r rd_c rd f w' = Ok (Real {| shp := [O]; vals := [] |}).
Proof.
  intros f m c info w w' Ht Hj Hsave. rewrite (load_file f (Real {| shp := [O; m; c]; vals := [] |}) info w w' O m c eq_refl eq_refl (fun v H => False_ind _ H) Ht Hj Hsave). reflexivity.
Qed.

Lemma json_saves : forall f x info w a b c, dshape x = [a; b; c] -> ends_with (T ".txt") f = false -> ends_with (T ".json") f = true ->
  exists w', save_data fe pr date version f x info w = Ok w'.
Proof. intros f x info w a b c Hs Ht Hj. unfold save_data. rewrite Hs, Ht, Hj. cbn [List.length Nat.eqb negb]. eexists. reflexivity. Qed.

Lemma not_3d : forall f x info w, List.length (dshape x) <> 3%nat -> save_data fe pr date version f x info w = Err ValueError.
Proof. intros f x info w H. unfold save_data. apply Nat.eqb_neq in H. rewrite H. reflexivity. Qed.

End Trip.
