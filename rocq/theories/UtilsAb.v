(** Model of utils.check_ab. *)

From Coq Require Import ZArith List Bool String QArith Lia.
From Verif Require Import PyBase.
Import ListNotations.
Local Open Scope Z_scope.

(** Values a caller may pass for <ab>: a number (python ints and finite floats,
    as an exact rational), a string together with the integer it denotes if
    any, and anything else (None, list, ...). *)
Inductive abval := AbNum (q : Q) | AbStr (v : option Z) | AbOther.

(** python's [int(x)]: truncation towards zero (utils.py:180-183). *)
Definition py_int (a : abval) : res Z :=
  match a with
  | AbNum q => Ok (Z.quot (Qnum q) (Zpos (Qden q)))
  | AbStr (Some z) => Ok z
  | AbStr None => Err ValueError
  | AbOther => Err TypeError
  end.

(** utils.py:187-189 *)
Definition pab : list Z :=
  [11; 12; 13; 14; 15; 16; 21; 22; 23; 24; 25; 26;
   31; 32; 33; 34; 35; 36; 41; 42; 43; 44; 45; 46;
   51; 52; 53; 54; 55; 56; 61; 62; 63; 64; 65; 66].

(** utils.py:151-217.  Printing is left out. *)
Definition check_ab (a : abval) : res (Z * bool * bool) :=
  bind (py_int a) (fun ab =>
  if negb (inb ab pab) then Err ValueError
  else
    let msrc := ab mod 10 >? 3 in
    let mrec := ab / 10 >? 3 in
    let ab_calc :=
      if mrec then
        if msrc then ab - 33
        else ab mod 10 * 10 + ab / 10
      else ab in
    Ok (ab_calc, msrc, mrec)).
