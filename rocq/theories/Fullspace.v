(** Model of kernel.py:759-929 [fullspace] for one frequency and one offset.

    The function is element-wise in frequency and offset, with one exception:
    the sign of term4 (838-840) is decided by [np.any(zetaH.imag < 0)] over all
    frequencies; that decision is the argument [anyneg].

    In the Laplace domain all arrays are real ([rdt]), and the square root of a
    negative number is nan.  In the frequency domain the value -x of a complex x
    with zero imaginary part has imaginary part -0.0, and [np.sqrt] returns the
    root below the real axis; [neg] says that the parameters have been negated.
    Both matter for the roots in term4 only: all other roots have arguments that
    are products or quotients of two parameters of the same sign. *)

From Coq Require Import ZArith Reals List Bool.
From Coquelicot Require Import Coquelicot.
From Verif Require Import PyBase CBase.
Import ListNotations.
Local Open Scope R_scope.
Local Open Scope C_scope.
Local Open Scope res_scope.

(** The factor [4*np.pi] of kernel.py:799-896. *)
Definition c4pi : C := RtoC (4 * PI).

(** 799-803, 805-809: lGam, R and uGam of one mode; [h], [v] are the horizontal
    and vertical parameter of the mode, [z] the horizontal one of the other *)
Definition fs_lGam (v z : C) : C := Csqrt (Cmult z v).
Definition fs_R (off zsrc zrec : R) (h v : C) : C :=
  Csqrt (Cplus (RtoC (off * off)) (Cdiv (Cmult (RtoC ((zsrc - zrec) * (zsrc - zrec))) h) v)).
Definition fs_uGam (lGam Rr h v : C) : C :=
  Cdiv (Cexp (Copp (Cmult lGam Rr))) (Cmult (Cmult c4pi Rr) (Csqrt (Cdiv h v))).

(** 880-884 [term] of Eq 49 *)
Definition fs_term (lGam h v Rr : C) (off co1 co2 delta : R) : C :=
  let fac := Cmult (Cdiv (Cdiv (Cmult lGam h) v) Rr) (Cexp (Copp (Cmult lGam Rr))) in
  let t := Cplus (Cplus (RtoC (2 / (off * off))) (Cdiv lGam Rr)) (Cdiv (RtoC 1) (Cmult Rr Rr)) in
  Cmult fac (Cminus (Cmult (RtoC (co1 * co2)) t) (RtoC delta)).

(** [np.sqrt] of a parameter *)
Definition fs_root (rdt neg : bool) (z : C) : res C :=
  if rdt then if Rlt_dec (fst z) 0 then Err NanE else Ok (Csqrt z)
  else Ok (if neg then if Req_EM_T (snd z) 0 then Cconj (Csqrt z) else Csqrt z else Csqrt z).

(** 811-922: the responses, after the reciprocity switches *)
Definition fs_gin (rdt neg anyneg : bool) (off xco yco zsrc zrec : R) (etaH etaV zetaH zetaV : C) (ab : Z)
    : res C :=
  let lTM := fs_lGam etaV zetaH in
  let RTM := fs_R off zsrc zrec etaH etaV in
  let uTM := fs_uGam lTM RTM etaH etaV in
  let lTE := fs_lGam zetaV etaH in
  let RTE := fs_R off zsrc zrec zetaH zetaV in
  let uTE := fs_uGam lTE RTE zetaH zetaV in
  if inb ab [11; 12; 21; 22]%Z then                                     (* 813-843 *)
    let coo1 := if inb ab [22]%Z then yco else xco in
    let coo2 := if inb ab [11]%Z then xco else yco in
    let delta := if inb ab [11; 22]%Z then 1%R else 0%R in
    let cc := RtoC (coo1 * coo2) in
    let R2 := Cmult RTM RTM in
    let term1 := Cmult uTM (Cminus (Cdiv (RtoC (3 * coo1 * coo2)) R2) (RtoC delta)) in
    let term1 := Cmult term1 (Cplus (Cdiv (RtoC 1) (Cmult (Cmult etaV RTM) RTM)) (Cdiv (Cdiv lTM etaV) RTM)) in
    let term1 := Cplus term1 (Cdiv (Cmult (Cmult uTM zetaH) cc) R2) in
    let term2 := Cmult (Cmult (RtoC (- delta)) zetaH) uTE in
    let term3 := Cmult (Cmult (Copp zetaH) (RtoC (coo1 * coo2 / (off * off)))) (Cminus uTM uTE) in
    sz <- fs_root rdt neg zetaH ;;
    se <- fs_root rdt neg etaH ;;
    let term4 := Cmult (Copp sz) (RtoC (2 * coo1 * coo2 / (off * off) - delta)) in
    let term4 := if anyneg then Copp term4 else term4 in
    let term4 := Cmult term4 (Cminus (Cexp (Copp (Cmult lTM RTM))) (Cexp (Copp (Cmult lTE RTE)))) in
    let term4 := Cdiv term4 (Cmult (Cmult c4pi se) (RtoC (off * off))) in
    Ok (Cplus (Cplus (Cplus term1 term2) term3) term4)
  else if inb ab [13; 23; 31; 32]%Z then                                (* 845-856 *)
    let coo := if inb ab [13; 31]%Z then xco else yco in
    let term1 := Cdiv (Cmult (Cdiv etaH etaV) (RtoC ((zrec - zsrc) * coo))) (Cmult RTM RTM) in
    let term2 := Cplus (Cplus (Cdiv (RtoC 3) (Cmult RTM RTM)) (Cdiv (Cmult (RtoC 3) lTM) RTM)) (Cmult lTM lTM) in
    Ok (Cdiv (Cmult (Cmult term1 term2) uTM) etaV)
  else if inb ab [33]%Z then                                            (* 858-868 *)
    let a := Cdiv (Cmult (Cdiv etaH etaV) (RtoC (zsrc - zrec))) RTM in
    let term1 := Cmult (Cmult a a)
       (Cplus (Cplus (Cdiv (RtoC 3) (Cmult RTM RTM)) (Cdiv (Cmult (RtoC 3) lTM) RTM)) (Cmult lTM lTM)) in
    let term2 := Cminus (Cmult (Cdiv (Copp (Cdiv etaH etaV)) RTM) (Cplus (Cdiv (RtoC 1) RTM) lTM))
                        (Cmult etaH zetaH) in
    Ok (Cdiv (Cmult (Cplus term1 term2) uTM) etaV)
  else if inb ab [14; 24; 15; 25]%Z then                                (* 870-900 *)
    let diag := inb ab [14; 25]%Z in
    let c1 := if diag then xco else yco in
    let c2 := yco in
    let c3 := xco in
    let c4 := if diag then yco else xco in
    let delta := if diag then 0%R else 1%R in
    let pm := if diag then (-1)%R else 1%R in
    let sw := inb ab [15; 25]%Z in
    let coo1 := if sw then c3 else c1 in
    let coo3 := if sw then c1 else c3 in
    let coo2 := if sw then c4 else c2 in
    let coo4 := if sw then c2 else c4 in
    let dz := if inb ab [24; 25]%Z then (zsrc - zrec)%R else (zrec - zsrc)%R in
    let termTM := fs_term lTM etaH etaV RTM off coo1 coo2 delta in
    let termTE := fs_term lTE zetaH zetaV RTE off coo3 coo4 delta in
    let mult := Cdiv (RtoC dz) (Cmult (Cmult c4pi (Csqrt (Cmult etaH zetaH))) (RtoC (off * off))) in
    Ok (Cmult (Copp mult) (Cplus (Cmult (RtoC pm) termTM) termTE))
  else if inb ab [34; 35; 16; 26]%Z then                                (* 902-922 *)
    let coo := if inb ab [34; 16]%Z then yco else (- xco)%R in
    let tm := inb ab [34; 35]%Z in
    let coo := if tm then (- coo)%R else coo in
    let '(Rr, lG, uG, h, v) := if tm then (RTM, lTM, uTM, etaH, etaV) else (RTE, lTE, uTE, zetaH, zetaV) in
    Ok (Cmult (Cmult (Cdiv (Cmult (RtoC coo) (Cdiv h v)) Rr) (Cplus lG (Cdiv (RtoC 1) Rr))) uG)
  else Err UnboundLocal.

(** 781-797, 924-926: coordinates, reciprocity switches and final sign *)
Definition fullspace (rdt anyneg : bool) (off angle zsrc zrec : R) (etaH etaV zetaH zetaV : C)
    (ab : Z) (msrc mrec : bool) : res C :=
  let xco := (cos angle * off)%R in
  let yco := (sin angle * off)%R in
  if mrec then
    g <- (if msrc then fs_gin rdt true anyneg off xco yco zsrc zrec (Copp zetaH) (Copp zetaV) (Copp etaH) (Copp etaV) ab
          else fs_gin rdt false anyneg off (- xco) (- yco) zrec zsrc etaH etaV zetaH zetaV ab) ;;
    Ok (Copp g)
  else fs_gin rdt false anyneg off xco yco zsrc zrec etaH etaV zetaH zetaV ab.

(** 838: [np.any(zetaH.imag < 0)] after the switches *)
Definition fs_anyneg (msrc mrec : bool) (etaH zetaH : list C) : bool :=
  existsb (fun c => if Rlt_dec (snd c) 0 then true else false)
          (if mrec && msrc then map Copp etaH else zetaH).
