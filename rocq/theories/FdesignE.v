(** The numerical transform pairs of the filter design: [empy_hankel]
    (empymod/scripts/fdesign.py:1169-1252).

    [freqtime] is one frequency.  The verbosity is left out.  The Hankel transform of
    the right-hand side is 'qwe' (check_loop, utils.py:944-946: a loop over the
    frequencies) with its settings as an argument [mk]. *)

From Coq Require Import ZArith Reals List Bool Ascii String QArith Lia.
From Coquelicot Require Import Coquelicot.
From Verif Require Import PyBase CBase Text UtilsAb Kernel Utils Transform Fullspace Model Routines RoutinesK FdesignD.
Import ListNotations.
Local Open Scope R_scope.
Local Open Scope res_scope.

(** 1218-1233: component and direction of the receiver.  For any other name the
    variables x and y are unbound, which the two functions report when they are
    called (a NameError, here [UnboundLocal]). *)
Definition eh_setup (ftype : txt) : res (Z * R * R) :=
  if teqb ftype (T "j0") then Ok (11%Z, 1 / sqrt 2, 1 / sqrt 2)
  else if teqb ftype (T "j1") then Ok (31%Z, 1, 0)
  else if teqb ftype (T "j2") then Ok (12%Z, 1 / sqrt 2, 1 / sqrt 2)
  else Err UnboundLocal.

(** a point *)
Definition eh_pt (x y z : R) : list ndin := [Nd [] [x]; Nd [] [y]; Nd [] [z]].

(** 1237-1240; an array of distances is treated one by one *)
Definition eh_rhs m hook mk (ftype : txt) (zsrc zrec : R) (depth : list ext) (q : params) (f r : R) : res C :=
  '(ab, x, y) <- eh_setup ftype ;;
  '(EM, _, _) <- dipole m hook mk (eh_pt 0 0 zsrc) (eh_pt (r * x) (r * y) zrec) depth q [f] (AbNum (inject_Z ab))
                        (Some true) true false ;;
  Ok (nth 0 (nth 0 EM []) (RtoC 0)).

(** 1243-1251; the second component is used for 'j2' only *)
Definition eh_lhs m (ftype : txt) (zsrc zrec : R) (depth : list ext) (q : params) (f k : R) : res (C * C) :=
  '(ab, x, y) <- eh_setup ftype ;;
  K <- dipole_k m (eh_pt 0 0 zsrc) (eh_pt x y zrec) depth q [f] [k] (AbNum (inject_Z ab)) ;;
  let '(lhs0, lhs1) := nth 0 (nth 0 (nth 0 K []) []) (RtoC 0, RtoC 0) in
  Ok (if teqb ftype (T "j0") then (lhs0, RtoC 0) else if teqb ftype (T "j1") then (lhs1, RtoC 0) else (lhs0, lhs1)).

(** fdesign.py:1169-1253 [empy_hankel]. *)
Definition empy_hankel m hook mk (ftype : txt) (zsrc zrec : R) (depth : list ext) (q : params) (f : R) : dpair :=
  DP ftype (eh_lhs m ftype zsrc zrec depth q f) (RhsFun (eh_rhs m hook mk ftype zsrc zrec depth q f)).

(** 1199-1205: a list of names *)
Definition empy_hankels m hook mk (ftypes : list txt) zsrc zrec depth q f : list dpair :=
  map (fun t => empy_hankel m hook mk t zsrc zrec depth q f) ftypes.
