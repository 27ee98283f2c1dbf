(** JSON as written and read by python's json module, as far as io.py:37-112 and
    115-282 rely on it.

    Strings are sequences of code points below 256.  How numbers are written and read
    is a parameter ([pr], [rd]); a number is a word of letters, digits, '.', '+' and
    '-' (this includes NaN and Infinity). *)

From Coq Require Import List Bool Ascii String Lia Arith.
From Verif Require Import PyBase Text.
Import ListNotations.
Local Open Scope res_scope.

Section Json.
Context {V : Type}.

(** A JSON value; numbers are of an arbitrary type. *)
Inductive json : Type :=
| JNum (v : V) | JStr (s : txt) | JBool (b : bool) | JNull
| JArr (l : list json) | JObj (l : list (txt * json)).

(** ** Writing *)
Definition quo : ascii := ascii_of_nat 34.
Definition bsl : ascii := ascii_of_nat 92.
Definition hexd (n : nat) : ascii := nth n (T "0123456789abcdef") "0"%char.

(** [json.encoder.py_encode_basestring_ascii] *)
Definition esc (c : ascii) : txt :=
  let n := nat_of_ascii c in
  if ceqb c quo then [bsl; quo]
  else if ceqb c bsl then [bsl; bsl]
  else if (n =? 10)%nat then [bsl; "n"%char]
  else if (n =? 13)%nat then [bsl; "r"%char]
  else if (n =? 9)%nat then [bsl; "t"%char]
  else if (n =? 12)%nat then [bsl; "f"%char]
  else if (n =? 8)%nat then [bsl; "b"%char]
  else if (32 <=? n)%nat && (n <=? 126)%nat then [c]
  else [bsl; "u"%char; "0"%char; "0"%char; hexd (n / 16); hexd (n mod 16)].
Definition print_str (s : txt) : txt := quo :: flat_map esc s ++ [quo].

(** White space written inside a container at depth d: after the opening bracket,
    after a comma, and before the closing bracket *)
Record style := { s_open : nat -> txt; s_sep : nat -> txt; s_close : nat -> txt }.

Variable pr : V -> txt.

Fixpoint print (st : style) (d : nat) (v : json) : txt :=
  match v with
  | JNum x => pr x
  | JStr s => print_str s
  | JBool true => T "true"
  | JBool false => T "false"
  | JNull => T "null"
  | JArr [] => T "[]"
  | JArr l => T "[" ++ s_open st d ++ join ("," :: s_sep st d)%char (map (print st (S d)) l) ++ s_close st d ++ T "]"
  | JObj [] => T "{}"
  | JObj l => T "{" ++ s_open st d
              ++ join ("," :: s_sep st d)%char (map (fun kv => print_str (fst kv) ++ T ": " ++ print st (S d) (snd kv)) l)
              ++ s_close st d ++ T "}"
  end.

(** [json.dumps] without and with indent=2 *)
Definition compact : style := {| s_open := fun _ => []; s_sep := fun _ => T " "; s_close := fun _ => [] |}.
Definition spaces (n : nat) : txt := repeat " "%char n.
Definition indent2 : style :=
  {| s_open := fun d => nl :: spaces (2 * S d); s_sep := fun d => nl :: spaces (2 * S d); s_close := fun d => nl :: spaces (2 * d) |}.

(** ** Reading *)
Definition jws : txt := map ascii_of_nat [32; 9; 10; 13].
Definition skipws (s : txt) : txt := lstrip jws s.

Definition unhex (c : ascii) : option nat :=
  let n := nat_of_ascii c in
  if (48 <=? n)%nat && (n <=? 57)%nat then Some (n - 48)
  else if (97 <=? n)%nat && (n <=? 102)%nat then Some (n - 87)
  else if (65 <=? n)%nat && (n <=? 70)%nat then Some (n - 55)
  else None.

(** after the opening quote *)
Fixpoint pstr (s : txt) : option (txt * txt) :=
  match s with
  | [] => None
  | c :: s1 =>
    if ceqb c quo then Some ([], s1)
    else if ceqb c bsl then
      match s1 with
      | [] => None
      | e :: s2 =>
        let go (x : ascii) := match pstr s2 with Some (a, r) => Some (x :: a, r) | None => None end in
        if ceqb e quo then go quo else if ceqb e bsl then go bsl else if ceqb e "/" then go "/"%char
        else if ceqb e "n" then go nl else if ceqb e "r" then go cr else if ceqb e "t" then go (ascii_of_nat 9)
        else if ceqb e "f" then go (ascii_of_nat 12) else if ceqb e "b" then go (ascii_of_nat 8)
        else if ceqb e "u" then
          match s2 with
          | a :: b :: h :: l :: s3 =>
            match unhex a, unhex b, unhex h, unhex l with
            | Some 0, Some 0, Some x, Some y =>
              match pstr s3 with Some (t, r) => Some (ascii_of_nat (16 * x + y) :: t, r) | None => None end
            | _, _, _, _ => None
            end
          | _ => None
          end
        else None
      end
    else if (nat_of_ascii c <? 32)%nat then None
    else match pstr s1 with Some (a, r) => Some (c :: a, r) | None => None end
  end.

Definition tokc (c : ascii) : bool :=
  let n := nat_of_ascii c in
  ((48 <=? n) && (n <=? 57) || (65 <=? n) && (n <=? 90) || (97 <=? n) && (n <=? 122))%nat || cin c (T ".+-").
Fixpoint token (s : txt) : txt * txt :=
  match s with
  | [] => ([], [])
  | c :: s' => if tokc c then let (a, r) := token s' in (c :: a, r) else ([], s)
  end.

(** [dict(pairs)]: a later pair replaces the value of an earlier one *)
Fixpoint dict_set (k : txt) (v : json) (l : list (txt * json)) : list (txt * json) :=
  match l with
  | [] => [(k, v)]
  | (k', v') :: l' => if teqb k k' then (k', v) :: l' else (k', v') :: dict_set k v l'
  end.
Definition dict_of (l : list (txt * json)) : list (txt * json) := fold_left (fun acc kv => dict_set (fst kv) (snd kv) acc) l [].

Variable rd : txt -> option V.

(** A value from the head of the text, with what follows it. *)
Fixpoint pval (fuel : nat) (s : txt) : option (json * txt) :=
  match fuel with
  | O => None
  | S n =>
    match skipws s with
    | [] => None
    | c :: r =>
      if ceqb c quo then match pstr r with Some (t, r') => Some (JStr t, r') | None => None end
      else if ceqb c "[" then
        match skipws r with
        | [] => None
        | x :: r' => if ceqb x "]" then Some (JArr [], r')
                     else match parr n r with Some (l, r2) => Some (JArr l, r2) | None => None end
        end
      else if ceqb c "{" then
        match skipws r with
        | [] => None
        | x :: r' => if ceqb x "}" then Some (JObj [], r')
                     else match pobj n r with Some (l, r2) => Some (JObj (dict_of l), r2) | None => None end
        end
      else
        let (t, r') := token (c :: r) in
        if teqb t (T "true") then Some (JBool true, r')
        else if teqb t (T "false") then Some (JBool false, r')
        else if teqb t (T "null") then Some (JNull, r')
        else match rd t with Some v => Some (JNum v, r') | None => None end
    end
  end
with parr (fuel : nat) (s : txt) : option (list json * txt) :=
  match fuel with
  | O => None
  | S n =>
    match pval n s with
    | None => None
    | Some (v, r) =>
      match skipws r with
      | [] => None
      | x :: r' =>
        if ceqb x "]" then Some ([v], r')
        else if ceqb x "," then match parr n r' with Some (l, r2) => Some (v :: l, r2) | None => None end
        else None
      end
    end
  end
with pobj (fuel : nat) (s : txt) : option (list (txt * json) * txt) :=
  match fuel with
  | O => None
  | S n =>
    match skipws s with
    | [] => None
    | q :: r0 =>
      if ceqb q quo then
        match pstr r0 with
        | None => None
        | Some (k, r1) =>
          match skipws r1 with
          | [] => None
          | c :: r2 =>
            if ceqb c ":" then
              match pval n r2 with
              | None => None
              | Some (v, r) =>
                match skipws r with
                | [] => None
                | x :: r' =>
                  if ceqb x "}" then Some ([(k, v)], r')
                  else if ceqb x "," then match pobj n r' with Some (l, r4) => Some ((k, v) :: l, r4) | None => None end
                  else None
                end
              end
            else None
          end
        end
      else None
    end
  end.

(** [json.load]: one value and nothing but white space after it *)
Definition loads (s : txt) : res json :=
  match pval (2 * List.length s + 2) s with
  | Some (v, r) => match skipws r with [] => Ok v | _ => Err ValueError end
  | None => Err ValueError
  end.

(** ** io.save_input and io.load_input, io.py:56-79 and 98-112 *)

(** [json.dumps({k: v})[1:-1]] *)
Definition dump_pair (kv : txt * json) : txt :=
  let s := print compact 0 (JObj [kv]) in removelast (tl s).

(** 66-71: the text; [out[:-1]] drops the last comma *)
Definition input_text (d : list (txt * json)) : txt :=
  let out := fold_left (fun o kv => o ++ (nl :: T "  ") ++ dump_pair kv ++ T ",") d (T "{") in
  removelast out ++ (nl :: T "}").

(** Files of a directory: name to content.  The names are absolute. *)
Definition fs := list (txt * txt).
(** Content of a file, and writing a file. *)
Fixpoint fget (f : txt) (w : fs) : option txt :=
  match w with [] => None | (k, c) :: w' => if teqb f k then Some c else fget f w' end.
Fixpoint fput (f c : txt) (w : fs) : fs :=
  match w with [] => [(f, c)] | (k, c') :: w' => if teqb f k then (k, c) :: w' else (k, c') :: fput f c w' end.

(** io.py:37-79 [save_input]. *)
Definition save_input (f : txt) (d : list (txt * json)) (w : fs) : res fs :=
  if ends_with (T ".json") f then Ok (fput f (input_text d) w) else Err ValueError.
(** io.py:82-112 [load_input]. *)
Definition load_input (f : txt) (w : fs) : res json :=
  if ends_with (T ".json") f then match fget f w with Some c => loads c | None => Err FileNotFound end
  else Err ValueError.

End Json.
Arguments json : clear implicits.
