(** Model of the Hankel transforms by quadrature: [transform.hankel_qwe] and
    [transform.hankel_quad] (empymod/transform.py). *)

From Coq Require Import ZArith Reals List Bool String.
From Coquelicot Require Import Coquelicot.
From Verif Require Import PyBase CBase Kernel Utils Transform UtilsArgs Model Fourier.
Import ListNotations.
Local Open Scope R_scope.
Local Open Scope C_scope.
Local Open Scope res_scope.

(** [scipy.integrate.quad] (g, a, b, epsabs, epsrel, limit): value and number
    of returned items.  [isp x y q]: [InterpolatedUnivariateSpline(x, y)(q)].
    [j0], [j1], [j2]: Bessel functions (scipy.special).  [gx], [gw]: Gauss
    nodes and weights (roots_legendre(nquad)); nquad is their number. *)
Section HankelQ.
Variable rquad : (R -> R) -> R -> R -> R -> R -> nat -> R * nat.
Variable isp : list R -> list R -> R -> R.
Variables j0 j1 j2 : R -> R.
Variables gx gw : list R.

(** ** transform.py:185-214: zeros of J1 by Newton's method
    A zero of the derivative would give inf or nan; here it gives a number. *)
Definition hq_step (x : R) : R := (- j1 x / (j1 x / x - j2 x))%R.
Definition dbl_eps : R := (/ 2 ^ 52)%R.
Fixpoint hq_newton (n : nat) (z : list R) : list R :=
  match n with
  | O => z
  | S n' =>
      let h := map hq_step z in
      let z' := map2 Rplus z h in
      if forallb (fun p => Rltb (Rabs (fst p)) (8 * dbl_eps * snd p)) (combine h z') then z' else hq_newton n' z'
  end.
(** 193: [np.pi*np.arange(1.25, maxint+1)] *)
Definition hq_guess (maxint : nat) : list R := map (fun x => PI * x)%R (arange (5 / 4) (INR maxint + 1) 1).
Definition hq_zeros (maxint : nat) : list R := hq_newton 10 (hq_guess maxint).
(** 219: [xint] *)
Definition hq_xint (maxint : nat) : list R := (/ 10 ^ 20)%R :: hq_zeros maxint.

Section Intervals.
(** the end points of the intervals, and their number *)
Variable x : nat -> R.
Variables (nquad maxint : nat).

(** 222-225: [Bx]; index j = interval * nquad + node.  [BJ0], [BJ1] *)
Definition hq_Bx (j : nat) : R :=
  let i := (j / nquad)%nat in ((x (S i) - x i) / 2 * (nth (j mod nquad) gx 0 + 1) + x i)%R.
Definition hq_BJ (jf : R -> R) (j : nat) : R := (jf (hq_Bx j) * nth (j mod nquad) gw 0)%R.

(** 231 *)
Definition hq_lambd (r : R) : list R := map (fun j => hq_Bx j / r)%R (seq 0 (nquad * maxint)).

Definition isJ2 (ab : Z) : bool := inb ab [11; 12; 21; 22; 14; 24; 15; 25]%Z.

(** [np.dot(P[iB], BJ[iB])] of interval i, and [np.sum(np.reshape(P*BJ, (off.size,
    nquad, -1), order='F'), 1)][e, i]: element [j] of the interval is entry
    [i*nquad + j] *)
Definition hq_dot (P : list C) (jf : R -> R) (i : nat) : C :=
  csuml (map (fun j => Cmult (nth (i * nquad + j) P (RtoC 0)) (RtoC (hq_BJ jf (i * nquad + j)))) (seq 0 nquad)).

(** [getweights] of [transform.qwe] (1062-1064) for the intervals [xint/off] *)
Definition hq_weight (r : R) (i : nat) : C := RtoC ((x (S i) / r - x i / r) / 2).

(** 385-414: the call-back [getkernel] for one offset *)
Definition hq_gEM (used : bool * bool * bool) (ab : Z) (r ang : R) (P : list triple) (i : nat) : C :=
  let '(u0, u1, u0b) := used in
  let g := RtoC 0 in
  let g := if u1 then
             let g := Cplus g (Cmult (RtoC ang) (hq_dot (map (fun t => oval (t1 t)) P) j1 i)) in
             if isJ2 ab then Cdiv g (RtoC r) else g
           else g in
  let g := if u0b then Cplus g (Cmult (RtoC ang) (hq_dot (map (fun t => oval (t0b t)) P) j0 i)) else g in
  if u0 then Cplus g (hq_dot (map (fun t => oval (t0 t)) P) j0 i) else g.

(** 358-374: [sEM] of the splined version for one offset *)
Definition hq_sEM (used : bool * bool * bool) (ab : Z) (r ang : R) (P0 P1 P0b : list C) (i : nat) : C :=
  let '(u0, u1, u0b) := used in
  let s := RtoC 0 in
  let s := if u1 then
             let s := Cplus s (hq_dot P1 j1 i) in
             if isJ2 ab then Cdiv s (RtoC r) else s
           else s in
  let s := if u0b then Cplus s (hq_dot P0b j0 i) else s in
  let s := if u1 || u0b then Cmult s (RtoC ang) else s in
  if u0 then Cplus s (hq_dot P0 j0 i) else s.
End Intervals.

(** interpolated kernel (264-282, 462-481): real and imaginary part as
    functions of the logarithm of the wavenumber *)
Definition hq_spl (used : bool) (p : triple -> option C) (il : list R) (P : list triple)
    : option ((R -> R) * (R -> R)) :=
  if used then Some (isp (map ln il) (map (fun t => fst (oval (p t))) P),
                     isp (map ln il) (map (fun t => snd (oval (p t))) P))
  else None.
(** value of an interpolated kernel at a wavenumber; absent kernels add nothing *)
Definition hq_at (s : option ((R -> R) * (R -> R))) (l : R) : C :=
  match s with Some (re, im) => (re (ln l), im (ln l)) | None => RtoC 0 end.

(** 309-330: [numerator], [denominator], [doqwe]; a zero denominator is nan or
    inf, which is not smaller *)
Definition hq_tot (s0 s1 s0b : option ((R -> R) * (R -> R))) (l : R) : C :=
  Cplus (Cplus (hq_at s0 l) (hq_at s1 l)) (hq_at s0b l).
Definition hq_doqwe (x : nat -> R) (maxint : nat) (diff_quad : R) (s0 s1 s0b : option ((R -> R) * (R -> R))) (r : R) : bool :=
  forallb (fun k => let d := Cmod (hq_tot s0 s1 s0b (x (S k) / r)%R) in
             if Reqb d 0 then false else Rltb (Cmod (hq_tot s0 s1 s0b (x k / r)%R) / d)%R diff_quad) (seq 0 maxint).
(** 291-307, 336-349; [a], [b], [limit] are None or numbers, 0 counts as None *)
Definition hq_quadv (x : nat -> R) (maxint : nat) (rtol atol : R) (a b : option R) (limit : option nat) (ab : Z)
    (s0 s1 s0b : option ((R -> R) * (R -> R))) (p : R * R) : C * bool :=
  let lim := match limit with Some (S k) => S k | _ => maxint end in
  let av := match given a with Some v => v | None => (x 0%nat / fst p)%R end in
  let bv := match given b with Some v => v | None => (x maxint / fst p)%R end in
  quad (fun g => rquad g av bv atol rtol lim) j0 j1 s0 s1 s0b ab (fst p) (snd p).

(** ** transform.py:122-419 [hankel_qwe]

    [wn lam]: [kernel.wavenumber] for the frequency of the call.  Which kernels
    are None depends on [ab] only: the call at 3 wavenumbers of the version
    without spline, which finds out, is left out.  The kernels of all intervals
    are evaluated at the start; the code evaluates those it reaches. *)
Definition hankel_qwe (wn : R -> res triple) (used : bool * bool * bool) (ab : Z) (off ang : list R)
    (rtol atol : R) (zc : C -> bool) (maxint : nat) (ppd diff_quad : R) (a b : option R) (limit : option nat)
    : res (list C * Z * bool) :=
  let nquad := List.length gx in
  let xs := hq_xint maxint in
  let x := fun i => nth i xs 0%R in
  let n := List.length off in
  if Reqb ppd 0 then
    (** 383-417 *)
    P <- mapM (fun r => mapM wn (hq_lambd x nquad maxint r)) off ;;
    qwe rtol atol maxint zc
      (fun e i => Cmult (hq_gEM x nquad used ab (nth e off 0%R) (nth e ang 0%R) (nth e P []) i) (hq_weight x (nth e off 0%R) i)) n
  else
    (** 238-246 *)
    mn <- lmin (List.concat (map (hq_lambd x nquad maxint) off)) ;;
    mx <- lmax (List.concat (map (hq_lambd x nquad maxint) off)) ;;
    let start := log10 mn in let stop := log10 mx in
    let npt := ztrunc ((stop - start) * ppd + 1) in
    (** a spline of degree 3 needs four points (an error of scipy) *)
    if (npt <? 4)%Z then Err ValueError else
    il <- logspace start stop npt ;;
    P <- mapM wn il ;;
    let '(u0, u1, u0b) := used in
    let s0 := hq_spl u0 t0 il P in
    let s1 := hq_spl u1 t1 il P in
    let s0b := hq_spl u0b t0b il P in
    let doqwe r := hq_doqwe x maxint diff_quad s0 s1 s0b r in
    let quadv p := hq_quadv x maxint rtol atol a b limit ab s0 s1 s0b p in
    let el := combine off ang in
    let cq := forallb (fun p => doqwe (fst p) || snd (quadv p)) el in
    (** 351-381 *)
    let tq := filter (fun p => doqwe (fst p)) el in
    let sp s r := map (hq_at s) (hq_lambd x nquad maxint r) in
    '(vals, cv) <- match tq with
                   | [] => Ok ([], true)
                   | _ => '(EM, _, c) <- qwe rtol atol maxint zc
                            (fun e i => let p := nth e tq (0, 0)%R in
                               Cmult (hq_sEM x nquad used ab (fst p) (snd p) (sp s0 (fst p)) (sp s1 (fst p)) (sp s0b (fst p)) i)
                                     (hq_weight x (fst p) i)) (List.length tq) ;;
                          Ok (EM, c)
                   end ;;
    (** 347, 379: [fEM[i] = ...], [fEM[doqwe] = ...] *)
    let out := snd (fold_left (fun (st : list C * list C) p =>
                 if doqwe (fst p) then (tl (fst st), snd st ++ [hd (RtoC 0) (fst st)]) else (fst st, snd st ++ [fst (quadv p)]))
                 el (vals, [])) in
    (** the kernel is evaluated once *)
    Ok (out, 1%Z, cq && cv).

(** ** transform.py:422-503 [hankel_quad] *)
Definition hankel_quad (wn : R -> res triple) (used : bool * bool * bool) (ab : Z) (off ang : list R)
    (rtol atol : R) (ppd a b : R) (limit : nat) : res (list C * Z * bool) :=
  let la := log10 a in let lb := log10 b in
  let npt := ztrunc ((lb - la) * ppd + 1) in
  if (npt <? 4)%Z then Err ValueError else
  il <- logspace la lb npt ;;
  P <- mapM wn il ;;
  let '(u0, u1, u0b) := used in
  let s0 := hq_spl u0 t0 il P in
  let s1 := hq_spl u1 t1 il P in
  let s0b := hq_spl u0b t0b il P in
  let quadv p := quad (fun g => rquad g a b atol rtol limit) j0 j1 s0 s1 s0b ab (fst p) (snd p) in
  let el := combine off ang in
  Ok (map (fun p => fst (quadv p)) el, 1%Z, forallb (fun p => snd (quadv p)) el).

(** ** as used by [fem] (model.py:1634-1663)

    [utils.check_loop] (utils.py:944-946) makes [fem] call these transforms
    with one frequency at a time; only the first row is read. *)
Definition row_wn (zsrc zrec : R) (lsrc lrec : Z) (depth : list ext) (ab : Z) (msrc mrec xdir : bool) (rows : list frow)
    : R -> res triple :=
  fun lam => match rows with
             | r :: _ => wavenumber zsrc zrec lsrc lrec depth (r_eH r) (r_eV r) (r_zH r) (r_zV r) lam ab xdir msrc mrec
             | [] => Err IndexError
             end.
Definition qwe_calc (rtol atol : R) (zc : C -> bool) (maxint : nat) (ppd diff_quad : R) (a b : option R) (limit : option nat)
    (zsrc zrec : R) (lsrc lrec : Z) (depth : list ext) (ab : Z) (msrc mrec : bool) : hankel :=
  fun rows off ang xdir =>
    '(v, k, c) <- hankel_qwe (row_wn zsrc zrec lsrc lrec depth ab msrc mrec xdir rows) (used_of ab) ab off ang
                    rtol atol zc maxint ppd diff_quad a b limit ;;
    Ok ([v], k, c).
Definition quad_calc (rtol atol ppd a b : R) (limit : nat)
    (zsrc zrec : R) (lsrc lrec : Z) (depth : list ext) (ab : Z) (msrc mrec : bool) : hankel :=
  fun rows off ang xdir =>
    '(v, k, c) <- hankel_quad (row_wn zsrc zrec lsrc lrec depth ab msrc mrec xdir rows) (used_of ab) ab off ang
                    rtol atol ppd a b limit ;;
    Ok ([v], k, c).
End HankelQ.
