(** Text files: python's string operations used by io.py, filters.py and
    scripts/fdesign.py.

    A text is a list of characters (8-bit; everything the package writes is ASCII
    except for the [info] of a data file). *)

From Coq Require Import List Bool Ascii String Lia Decimal DecimalNat DecimalFacts.
From Verif Require Import PyBase.
Import ListNotations.
Local Open Scope res_scope.

Definition txt := list ascii.
Definition T (s : string) : txt := list_ascii_of_string s.
Definition nl : ascii := ascii_of_nat 10.
Definition cr : ascii := ascii_of_nat 13.

Definition ceqb : ascii -> ascii -> bool := Ascii.eqb.
Definition cin (c : ascii) (l : txt) : bool := existsb (ceqb c) l.
Fixpoint teqb (a b : txt) : bool :=
  match a, b with
  | [], [] => true
  | x :: a', y :: b' => ceqb x y && teqb a' b'
  | _, _ => false
  end.

(** [sep.join(l)] *)
Fixpoint join (sep : txt) (l : list txt) : txt :=
  match l with
  | [] => []
  | [x] => x
  | x :: l' => x ++ sep ++ join sep l'
  end.

(** [s.split(c)] for one character *)
Fixpoint split (c : ascii) (s : txt) : list txt :=
  match s with
  | [] => [[]]
  | x :: s' => if ceqb x c then [] :: split c s'
               else match split c s' with
                    | [] => [[x]]
                    | h :: t => (x :: h) :: t
                    end
  end.

(** [s.split(c, maxsplit=1)]: the parts before and after the first [c] *)
Fixpoint split1 (c : ascii) (s : txt) : option (txt * txt) :=
  match s with
  | [] => None
  | x :: s' => if ceqb x c then Some ([], s')
               else match split1 c s' with Some (a, b) => Some (x :: a, b) | None => None end
  end.

(** the lines of a file, without their ends; a last empty line is no line *)
Definition lines (s : txt) : list txt :=
  let l := split nl s in
  match List.rev l with [] :: r => List.rev r | _ => l end.

Fixpoint prefixb (p s : txt) : bool :=
  match p, s with
  | [], _ => true
  | x :: p', y :: s' => ceqb x y && prefixb p' s'
  | _, _ => false
  end.
(** [p in s] *)
Fixpoint contains (p s : txt) : bool :=
  prefixb p s || match s with [] => false | _ :: s' => contains p s' end.

(** [s.endswith(p)] *)
Definition ends_with (p s : txt) : bool := prefixb (List.rev p) (List.rev s).

(** [s.lstrip(chars)], [s.rstrip()] (white space) *)
Fixpoint lstrip (cs s : txt) : txt :=
  match s with
  | [] => []
  | x :: s' => if cin x cs then lstrip cs s' else s
  end.
Definition space : txt := map ascii_of_nat [32; 9; 10; 13; 11; 12].
Definition strip (s : txt) : txt := List.rev (lstrip space (List.rev (lstrip space s))).
Definition rstrip (s : txt) : txt := List.rev (lstrip space (List.rev s)).

(** ** Decimal numbers *)
Fixpoint uint_txt (u : Decimal.uint) : txt :=
  match u with
  | Nil => []
  | D0 u => "0"%char :: uint_txt u | D1 u => "1"%char :: uint_txt u | D2 u => "2"%char :: uint_txt u
  | D3 u => "3"%char :: uint_txt u | D4 u => "4"%char :: uint_txt u | D5 u => "5"%char :: uint_txt u
  | D6 u => "6"%char :: uint_txt u | D7 u => "7"%char :: uint_txt u | D8 u => "8"%char :: uint_txt u
  | D9 u => "9"%char :: uint_txt u
  end.
Fixpoint txt_uint (s : txt) : option Decimal.uint :=
  match s with
  | [] => Some Nil
  | c :: s' => match txt_uint s' with
      | None => None
      | Some u =>
        if ceqb c "0" then Some (D0 u) else if ceqb c "1" then Some (D1 u) else if ceqb c "2" then Some (D2 u)
        else if ceqb c "3" then Some (D3 u) else if ceqb c "4" then Some (D4 u) else if ceqb c "5" then Some (D5 u)
        else if ceqb c "6" then Some (D6 u) else if ceqb c "7" then Some (D7 u) else if ceqb c "8" then Some (D8 u)
        else if ceqb c "9" then Some (D9 u) else None
      end
  end.

(** [str(n)] *)
Definition str_nat (n : nat) : txt := uint_txt (Nat.to_uint n).
(** [int(s)] for a number without sign *)
Definition int_txt (s : txt) : res nat :=
  match strip s with
  | [] => Err ValueError
  | t => match txt_uint t with Some u => Ok (Nat.of_uint u) | None => Err ValueError end
  end.

(** ** Facts *)
Lemma ceqb_eq : forall a b, ceqb a b = true <-> a = b.
Proof. intros a b. apply Ascii.eqb_eq. Qed.
Lemma ceqb_refl : forall a, ceqb a a = true.
Proof. intros a. apply ceqb_eq. reflexivity. Qed.
Lemma ceqb_neq : forall a b, ceqb a b = false <-> a <> b.
Proof. intros a b. apply Ascii.eqb_neq. Qed.
Lemma cin_In : forall c l, cin c l = true <-> In c l.
Proof.
  intros c l. unfold cin. rewrite existsb_exists. split.
  - intros (x & Hx & E). apply ceqb_eq in E. now subst.
  - intros H. exists c. split; [exact H|apply ceqb_refl].
Qed.
Lemma cin_false : forall c l, cin c l = false <-> ~ In c l.
Proof. intros c l. rewrite <- cin_In. destruct (cin c l); split; congruence. Qed.

Lemma split_nonnil : forall c s, split c s <> [].
Proof. intros c [|x s]; cbn; [discriminate|]. destruct (ceqb x c); [discriminate|]. destruct (split c s); discriminate. Qed.

Lemma split_plain : forall c s, ~ In c s -> split c s = [s].
Proof.
  induction s as [|x s IH]; intros H; [reflexivity|]. cbn. destruct (ceqb x c) eqn:E; [apply ceqb_eq in E; subst; exfalso; apply H; now left|].
  rewrite IH; [reflexivity|]. intros G. apply H. now right.
Qed.

Lemma split_app : forall c a s, ~ In c a -> split c (a ++ c :: s) = a :: split c s.
Proof.
  induction a as [|x a IH]; intros s H; cbn.
  - now rewrite ceqb_refl.
  - destruct (ceqb x c) eqn:E; [apply ceqb_eq in E; subst; exfalso; apply H; now left|].
    rewrite IH; [reflexivity|]. intros G. apply H. now right.
Qed.

Lemma split_join : forall c l, l <> [] -> (forall s, In s l -> ~ In c s) -> split c (join [c] l) = l.
Proof.
  induction l as [|x [|y l] IH]; intros N H; [congruence| |].
  - cbn [join]. apply split_plain, H. now left.
  - change (join [c] (x :: y :: l)) with (x ++ c :: join [c] (y :: l)). rewrite split_app by (apply H; now left).
    f_equal. apply IH; [discriminate|]. intros s Hs. apply H. now right.
Qed.

Lemma split1_app : forall c a s, ~ In c a -> split1 c (a ++ c :: s) = Some (a, s).
Proof.
  induction a as [|x a IH]; intros s H; cbn.
  - now rewrite ceqb_refl.
  - destruct (ceqb x c) eqn:E; [apply ceqb_eq in E; subst; exfalso; apply H; now left|].
    rewrite IH; [reflexivity|]. intros G. apply H. now right.
Qed.

(** a file of ended lines *)
Definition unlines (l : list txt) : txt := List.concat (map (fun s => s ++ [nl]) l).
Lemma lines_unlines : forall l, (forall s, In s l -> ~ In nl s) -> lines (unlines l) = l.
Proof.
  intros l H. unfold lines. assert (E : split nl (unlines l) = l ++ [[]]).
  { induction l as [|x l IH]; [reflexivity|]. change (unlines (x :: l)) with ((x ++ [nl]) ++ unlines l). rewrite <- app_assoc. change ([nl] ++ unlines l) with (nl :: unlines l). rewrite split_app by (apply H; now left).
    change ((x :: l) ++ [[]]) with (x :: (l ++ [[]])). apply (f_equal (cons x)). apply IH. intros s Hs. apply H. now right. }
  rewrite E, rev_app_distr. cbn [List.rev app]. apply rev_involutive.
Qed.

Lemma txt_uint_txt : forall u, txt_uint (uint_txt u) = Some u.
Proof. induction u; cbn; [reflexivity|..]; rewrite IHu; reflexivity. Qed.
Definition is_digit (c : ascii) : Prop := In c (T "0123456789").
Lemma uint_digits : forall u c, In c (uint_txt u) -> is_digit c.
Proof. induction u; intros c H; cbn in H; [contradiction|..]; (destruct H as [<-|H]; [unfold is_digit; cbn; tauto|auto]). Qed.
Lemma digit_space : forall c, is_digit c -> cin c space = false.
Proof. intros c H. unfold is_digit in H. cbn in H. repeat (destruct H as [<-|H]; [reflexivity|]). contradiction. Qed.

Lemma to_uint_cons : forall n, Nat.to_uint n <> Nil.
Proof.
  intros n E. pose proof (DecimalNat.Unsigned.of_to n) as H. rewrite E in H. cbn in H. subst n. discriminate E.
Qed.
Lemma str_nat_cons : forall n, str_nat n <> [].
Proof. intros n E. apply (to_uint_cons n). unfold str_nat in E. destruct (Nat.to_uint n); cbn in E; congruence. Qed.

Lemma lstrip_id : forall cs s, match s with [] => True | x :: _ => cin x cs = false end -> lstrip cs s = s.
Proof. intros cs [|x s] H; [reflexivity|]. cbn. now rewrite H. Qed.
Lemma lstrip_app : forall cs w s, (forall c, In c w -> cin c cs = true) -> lstrip cs (w ++ s) = lstrip cs s.
Proof. induction w as [|x w IH]; intros s H; [reflexivity|]. cbn. rewrite H by now left. apply IH. intros c Hc. apply H. now right. Qed.

Lemma strip_id : forall w s, (forall c, In c w -> cin c space = true) -> (forall c, In c s -> cin c space = false) -> strip (w ++ s) = s.
Proof.
  intros w s Hw Hs. unfold strip. rewrite lstrip_app by assumption.
  assert (E1 : lstrip space s = s) by (apply lstrip_id; destruct s; [exact I|apply Hs; now left]). rewrite E1.
  rewrite lstrip_id. { apply rev_involutive. }
  destruct (List.rev s) as [|x r] eqn:E; [exact I|]. apply Hs. apply in_rev. rewrite E. now left.
Qed.

Lemma int_str : forall w n, (forall c, In c w -> cin c space = true) -> int_txt (w ++ str_nat n) = Ok n.
Proof.
  intros w n Hw. unfold int_txt. rewrite strip_id; [|exact Hw|].
  - pose proof (str_nat_cons n) as N. destruct (str_nat n) as [|x s] eqn:E; [congruence|]. rewrite <- E. unfold str_nat. rewrite txt_uint_txt. now rewrite DecimalNat.Unsigned.of_to.
  - intros c Hc. apply digit_space. now apply (uint_digits _ _ Hc).
Qed.

Lemma teqb_eq : forall a b, teqb a b = true <-> a = b.
Proof.
  induction a as [|x a IH]; intros [|y b]; cbn; try (split; congruence).
  rewrite andb_true_iff, ceqb_eq, IH. split; [intros [-> ->]; reflexivity|intros E; injection E as -> ->; now split].
Qed.
Lemma teqb_refl : forall a, teqb a a = true.
Proof. intros a. now apply teqb_eq. Qed.
Lemma teqb_neq : forall a b, teqb a b = false <-> a <> b.
Proof. intros a b. rewrite <- teqb_eq. destruct (teqb a b); split; congruence. Qed.
