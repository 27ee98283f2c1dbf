(** Python run-time conventions used by the whole model.

    - exceptions are values of type [res];
    - list/array indexing follows Python: negative indices count from the end,
      an index outside [-len, len) is an [IndexError];
    - [range]/[np.arange] on integers. *)

From Coq Require Import ZArith List Bool String Lia.
Import ListNotations.
Local Open Scope Z_scope.

(** Exceptions that occur in the modelled code.  [NanE] and [ZeroDivE] stand
    for a floating-point operation whose IEEE result is nan or a division by
    zero (numpy and numba do not raise here, they return nan/inf; the model
    stops so that such a value can never go unnoticed). *)
Inductive exn : Type :=
| ValueError | TypeError | IndexError | KeyError | AttributeError
| UnboundLocal | FileNotFound | NanE | ZeroDivE.

(** Outcome of a Python call: a value or a raised exception. *)
Inductive res (A : Type) : Type :=
| Ok (a : A)
| Err (e : exn).
Arguments Ok {A} a.
Arguments Err {A} e.

(** Sequencing: an exception ends the computation. *)
Definition bind {A B} (m : res A) (f : A -> res B) : res B :=
  match m with Ok a => f a | Err e => Err e end.

Declare Scope res_scope.
Notation "x <- m ;; f" := (bind m (fun x => f))
  (at level 61, m at next level, right associativity) : res_scope.
Notation "' p <- m ;; f" := (bind m (fun p => f))
  (at level 61, p pattern, m at next level, right associativity) : res_scope.
Local Open Scope res_scope.

(** A Python [for] loop with a loop-carried state. *)
Fixpoint foldM {S X} (f : S -> X -> res S) (l : list X) (s : S) : res S :=
  match l with
  | [] => Ok s
  | x :: l' => s' <- f s x ;; foldM f l' s'
  end.

(** A Python list comprehension whose elements may raise. *)
Fixpoint mapM {X Y} (f : X -> res Y) (l : list X) : res (list Y) :=
  match l with
  | [] => Ok []
  | x :: l' => y <- f x ;; ys <- mapM f l' ;; Ok (y :: ys)
  end.

(** [len(l)] *)
Definition zlen {A} (l : list A) : Z := Z.of_nat (List.length l).

(** Python index normalisation: [i] if [0 <= i], [i + n] otherwise. *)
Definition norm_idx (n i : Z) : Z := if i <? 0 then i + n else i.

(** [l[i]] *)
Definition idx {A} (l : list A) (i : Z) : res A :=
  let j := norm_idx (zlen l) i in
  if (j <? 0) then Err IndexError
  else match nth_error l (Z.to_nat j) with
       | Some a => Ok a
       | None => Err IndexError
       end.

(** The list with entry n replaced; used for [l[i] = v]. *)
Fixpoint replace {A} (l : list A) (n : nat) (v : A) : list A :=
  match l, n with
  | [], _ => []
  | _ :: l', O => v :: l'
  | x :: l', S n' => x :: replace l' n' v
  end.

(** [l[i] = v] *)
Definition setidx {A} (l : list A) (i : Z) (v : A) : res (list A) :=
  let j := norm_idx (zlen l) i in
  if (j <? 0) || (zlen l <=? j) then Err IndexError
  else Ok (replace l (Z.to_nat j) v).

(** [range(a, b)] and [np.arange(a, b, 1)] *)
Definition zrange (a b : Z) : list Z :=
  map (fun k => a + Z.of_nat k) (seq 0 (Z.to_nat (b - a))).

(** [np.arange(a, b, -1)] *)
Definition zrange_down (a b : Z) : list Z :=
  map (fun k => a - Z.of_nat k) (seq 0 (Z.to_nat (a - b))).

(** [x in [..]] for integers *)
Definition inb (x : Z) (l : list Z) : bool := existsb (Z.eqb x) l.

(** ** Elementary facts *)

Lemma inb_In : forall x l, inb x l = true <-> In x l.
Proof.
  intros x l; unfold inb; rewrite existsb_exists; split.
  - intros [y [Hy He]]. apply Z.eqb_eq in He. now subst.
  - intros H. exists x. split; [assumption|apply Z.eqb_refl].
Qed.

Lemma zlen_nonneg : forall A (l : list A), 0 <= zlen l.
Proof. intros; unfold zlen; lia. Qed.

Lemma idx_nth : forall A (l : list A) (k : nat) (d : A),
  (k < List.length l)%nat -> idx l (Z.of_nat k) = Ok (nth k l d).
Proof.
  intros A l k d H. unfold idx, norm_idx.
  destruct (Z.ltb_spec (Z.of_nat k) 0) as [?|_]; [lia|].
  destruct (Z.ltb_spec (Z.of_nat k) 0) as [?|_]; [lia|].
  rewrite Nat2Z.id.
  rewrite (nth_error_nth' l d H). reflexivity.
Qed.

Lemma idx_ok_inv : forall A (l : list A) i a,
  idx l i = Ok a -> - zlen l <= i < zlen l.
Proof.
  intros A l i a. unfold idx, norm_idx.
  destruct (Z.ltb_spec i 0).
  - destruct (Z.ltb_spec (i + zlen l) 0); [discriminate|]. lia.
  - destruct (Z.ltb_spec i 0); [lia|].
    destruct (nth_error l (Z.to_nat i)) eqn:E; [|discriminate]. intros _.
    assert (Z.to_nat i < List.length l)%nat by (apply nth_error_Some; congruence).
    unfold zlen. lia.
Qed.

Lemma replace_length : forall A (l : list A) n v, List.length (replace l n v) = List.length l.
Proof. induction l; destruct n; simpl; auto. Qed.

Lemma nth_replace : forall A (l : list A) n v d k,
  (n < List.length l)%nat ->
  nth k (replace l n v) d = if Nat.eqb k n then v else nth k l d.
Proof.
  induction l; intros n v d k H; simpl in H; [lia|].
  destruct n; destruct k; simpl; auto.
  rewrite IHl by lia. reflexivity.
Qed.

Lemma setidx_ok : forall A (l : list A) (k : nat) v,
  (k < List.length l)%nat -> setidx l (Z.of_nat k) v = Ok (replace l k v).
Proof.
  intros A l k v H. unfold setidx, norm_idx.
  destruct (Z.ltb_spec (Z.of_nat k) 0); [lia|].
  destruct (Z.ltb_spec (Z.of_nat k) 0); [lia|]. simpl.
  destruct (Z.leb_spec (zlen l) (Z.of_nat k)); [unfold zlen in *; lia|].
  now rewrite Nat2Z.id.
Qed.

Lemma foldM_app : forall S X (f : S -> X -> res S) l1 l2 s,
  foldM f (l1 ++ l2) s = (s' <- foldM f l1 s ;; foldM f l2 s').
Proof.
  induction l1; intros; simpl; [reflexivity|].
  destruct (f s a); simpl; auto.
Qed.

(** Loop-invariant rule for a [for] loop that is known not to raise. *)
Lemma foldM_inv : forall S X (f : S -> X -> res S) (I : nat -> S -> Prop) l s,
  I O s ->
  (forall k s x, nth_error l k = Some x -> I k s ->
     exists s', f s x = Ok s' /\ I (Datatypes.S k) s') ->
  exists s', foldM f l s = Ok s' /\ I (List.length l) s'.
Proof.
  intros S X f I l. revert I. induction l; intros I s H0 Hs; simpl.
  - eauto.
  - destruct (Hs O s a eq_refl H0) as [s1 [E1 H1]]. rewrite E1. simpl.
    destruct (IHl (fun k => I (Datatypes.S k)) s1 H1) as [s2 [E2 H2]].
    + intros k s' x Hk. apply (Hs (Datatypes.S k) s' x Hk).
    + eauto.
Qed.
