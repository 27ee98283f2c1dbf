(** Model of the Fourier transforms [fourier_fft], [fourier_fftlog] and
    [fourier_qwe] of empymod/transform.py.

    Real arithmetic replaces floating point.  The transforms of scipy.fftpack
    are written out as sums.  [spl] is a spline over the logarithms of the
    abscissae, [lspl] one over the abscissae themselves; both are arguments,
    as are scipy's loggamma (real part [lgr], imaginary part [lgi]), the Gauss
    nodes and [scipy.integrate.quad]. *)

From Coq Require Import ZArith Reals List Bool String.
From Coquelicot Require Import Coquelicot.
From Verif Require Import PyBase CBase Kernel Utils Transform UtilsArgs.
Import ListNotations.
Local Open Scope R_scope.
Local Open Scope C_scope.
Local Open Scope res_scope.

(** ** scipy.fftpack *)
Definition cis (x : R) : C := (cos x, sin x).

(** [scipy.fftpack.ifft]: y_j = 1/n sum_k x_k exp(2 pi i j k / n) *)
Definition ifft (x : list C) : list C :=
  let n := List.length x in
  map (fun j => Cdiv (csuml (map (fun k => Cmult (nth k x (RtoC 0)) (cis (2 * PI * INR (j * k) / INR n))) (seq 0 n)))
                     (RtoC (INR n))) (seq 0 n).

(** [scipy.fftpack.fftshift(x, 0)]: roll by n // 2 *)
Definition fftshift {A} (x : list A) : list A :=
  let h := (List.length x - List.length x / 2)%nat in skipn h x ++ firstn h x.

(** [scipy.fftpack.rfft]: [y(0), Re y(1), Im y(1), ...], with
    y(j) = sum_k x_k exp(-2 pi i j k / n); for even n the last element is
    Re y(n/2) *)
Definition rfft (x : list R) : list R :=
  let n := List.length x in
  let th j k := (2 * PI * INR (j * k) / INR n)%R in
  let re j := rsuml (map (fun k => nth k x 0 * cos (th j k))%R (seq 0 n)) in
  let im j := rsuml (map (fun k => - (nth k x 0 * sin (th j k)))%R (seq 0 n)) in
  map (fun p => if Nat.odd p then re ((p + 1) / 2)%nat else if (p =? 0)%nat then re 0%nat else im (p / 2)%nat) (seq 0 n).

(** [scipy.fftpack.irfft], the inverse of [rfft] *)
Definition irfft (y : list R) : list R :=
  let n := List.length y in
  let th j k := (2 * PI * INR (j * k) / INR n)%R in
  map (fun k =>
    ((nth 0 y 0
      + rsuml (map (fun j => 2 * (nth (2 * j - 1) y 0 * cos (th j k) - nth (2 * j) y 0 * sin (th j k)))
                   (seq 1 ((n - 1) / 2)))
      + (if Nat.even n then nth (n - 1) y 0 * cos (th (n / 2)%nat k) else 0)) / INR n)%R) (seq 0 n).

(** ** transform.py:799-842 [fourier_fft] *)

(** 829: [np.pad(f, (0, m), 'linear_ramp')]: from the last value down to zero *)
Definition pad_ramp (f : list C) (m : Z) : res (list C) :=
  if (m <? 0)%Z then Err ValueError
  else if (m =? 0)%Z then Ok f
  else match f with
       | [] => Err ValueError
       | _ => Ok (f ++ map (fun j => Cmult (last f (RtoC 0)) (RtoC (IZR (m - 1 - Z.of_nat j) / IZR m))) (seq 0 (Z.to_nat m)))
       end.

(** 832: [np.r_[fEM[1:], 0, fEM[::-1].conj()]] *)
Definition fft_spectrum (f : list C) : list C := tl f ++ [RtoC 0] ++ map Cconj (rev f).

(** transform.py:799-842 [fourier_fft]. *)
Definition fourier_fft (spl lspl : interp) (dfreq : R) (nfreq ntot : Z) (ppd : option Z)
    (fEM : list C) (time freq : list R) : res (list R * bool) :=
  let fE := match ppd with
            | Some p => if (p =? 0)%Z then fEM
                        else cspl spl fEM freq (map (fun k => IZR (Z.of_nat k + 1) * dfreq)%R (seq 0 (Z.to_nat nfreq)))
            | None => fEM
            end in
  fE <- pad_ramp fE (ntot - nfreq) ;;
  let ifftEM := map fst (ifft (fft_spectrum fE)) in
  let stEM := map (fun x => 2 * IZR ntot * x)%R (fftshift (map (fun x => x * dfreq)%R ifftEM)) in
  if Reqb (IZR ntot * dfreq) 0 then Err NanE
  else
    let dt := (1 / (2 * IZR ntot * dfreq))%R in
    let grid := map (fun k => (IZR (Z.of_nat k) - IZR ntot) * dt)%R (seq 0 (Z.to_nat (2 * ntot))) in
    stEM <- (if (List.length stEM =? List.length grid)%nat then Ok stEM else Err ValueError) ;;
    Ok (map (fun v => v / 2 * PI)%R (lspl stEM grid time), true).

(** ** transform.py:656-796 [fourier_fftlog] *)
Section FftLog.
Variables lgr lgi : R -> R -> R.

(** 706-738: argument and amplitude of kr^(-2 i y) U_mu(q + 2 i y) at
    y = m pi / (n dlnr), m = 1, 2, ...; the first element of the biased case.
    [loggamma] of a real argument is [lgr x 0], [lgi x 0]. *)
Definition fl_y (n : nat) (dlnr : R) (m : nat) : R := (INR m * (PI / (INR n * dlnr)))%R.
Definition fl_arg (q mu kr y : R) : R :=
  if Reqb q 0 then (2 * (ln (2 / kr) * y + lgi ((mu + 1) / 2) y))%R
  else (2 * ln (2 / kr) * y + lgi ((mu + 1 + q) / 2) y + lgi ((mu + 1 - q) / 2) y)%R.
Definition fl_amp (q mu y : R) : R :=
  exp (ln 2 * q + lgr ((mu + 1 + q) / 2) y - lgr ((mu + 1 - q) / 2) y).
Definition fl_first (q mu : R) : R :=
  (fl_amp q mu 0 * cos (lgi ((mu + 1 + q) / 2) 0 + lgi ((mu + 1 - q) / 2) 0))%R.

(** 753-786: multiplication of the transformed array.  [cs], [sn], [am]:
    lists argcos, argsin, argamp, of n // 2 elements.  The pairs are those of
    m = 1, ..., n // 2 - 1. *)
Definition fl_pair (q : R) (cs sn am a : list R) (p : nat) : R :=
  let m := ((p + 1) / 2)%nat in
  let ar := nth (2 * m - 1) a 0%R in
  let ai := nth (2 * m) a 0%R in
  let c := nth (m - 1) cs 0%R in
  let s := nth (m - 1) sn 0%R in
  let v := if Nat.odd p then (ar * c - ai * s)%R else (ar * s + ai * c)%R in
  if Reqb q 0 then v else (v * nth (m - 1) am 0)%R.

Definition fl_mult (q mu : R) (cs sn am a : list R) : res (list R) :=
  let n := List.length a in
  let npair := (n / 2 - 1)%nat in
  let b := map (fun p => if (p =? 0)%nat then (if Reqb q 0 then nth 0 a 0%R else (nth 0 a 0 * fl_first q mu)%R)
                         else if (p <=? 2 * npair)%nat then fl_pair q cs sn am a p
                         else nth p a 0%R) (seq 0 n) in
  if Nat.even n then
    w <- (if Reqb q 0 then idx cs (-1)
          else c <- idx cs (Z.of_nat (n / 2) - 3 - 1) ;; am <- idx am (Z.of_nat (n / 2) - 3 - 1) ;; Ok (c * am)%R) ;;
    Ok (replace b (n - 1) (nth (n - 1) b 0 * w)%R)
  else Ok b.

(** 739-796 *)
Definition fourier_fftlog (spl : interp) (q mu : R) (inp : fftlog_in) (fEM : list C) (time : list R)
    : res (list R * bool) :=
  let a := if Rltb 0 mu then map (fun z => - snd z)%R fEM else map fst fEM in
  let n := List.length a in
  if (n =? 0)%nat then Err ValueError
  else
    let dlnr := l_dlnr inp in
    let ms := seq 1 (n / 2) in
    let args := map (fun m => fl_arg q mu (l_kr inp) (fl_y n dlnr m)) ms in
    let am := map (fun m => fl_amp q mu (fl_y n dlnr m)) ms in
    let jc := ((INR n + 1) / 2)%R in
    let a := map2 (fun x k => x * exp (- (q - / 2) * (INR (k + 1) - jc) * dlnr))%R a (seq 0 n) in
    a <- fl_mult q mu (map cos args) (map sin args) am (rfft a) ;;
    let a := irfft a in
    let a := map2 (fun x k => x * exp (- ((q + / 2) * (INR (k + 1) - jc) * dlnr + q * ln (l_kr inp) - ln (l_rk inp) / 2)))%R
                  (rev a) (seq 0 n) in
    Ok (spl a (l_tcalc inp) time, true).
End FftLog.

(** ** transform.py:544-653 [fourier_qwe] *)
Section FourierQwe.
(** [scipy.integrate.quad] (g, a, b): value and number of returned items *)
Variable rquad : (R -> R) -> R -> R -> R * nat.
Variables gx gw : list R.

(** 586-589: the end points of the intervals *)
Definition fq_xint (sine : bool) (k : nat) : R :=
  if (k =? 0)%nat then (/ 10 ^ 20)%R else if sine then (INR k * PI)%R else (INR k * PI - PI / 2)%R.
Definition fq_sc (sine : bool) (x : R) : R := if sine then sin x else cos x.

(** 596-598: dx, Bx and SS; index j = interval * nquad + node *)
Definition fq_Bx (sine : bool) (nquad : nat) (j : nat) : R :=
  let i := (j / nquad)%nat in
  ((fq_xint sine (S i) - fq_xint sine i) / 2 * (nth (j mod nquad) gx 0 + 1) + fq_xint sine i)%R.
Definition fq_SS (sine : bool) (nquad : nat) (j : nat) : R :=
  (fq_sc sine (fq_Bx sine nquad j) * nth (j mod nquad) gw 0)%R.

(** 608-611: QWE is used if the interpolated values never decay by more than
    diff_quad over an interval; a zero denominator is nan or inf, which is not
    smaller *)
Definition fq_steep (f : R -> C) (diff_quad : R) (sine : bool) (maxint : nat) (t : R) : bool :=
  forallb (fun k => let d := Cmod (f (fq_xint sine (S k) / t)%R) in
             if Reqb d 0 then false else Rltb (Cmod (f (fq_xint sine k / t)%R) / d) diff_quad) (seq 0 maxint).

(** 644: [sEM[e, j]] and the weight of [transform.qwe], half the width of
    interval [i] (1065-1074, 1092-1098): element i of row e is read *)
Definition fq_contrib (f : R -> R) (sine : bool) (nquad : nat) (t : R) (i : nat) : C :=
  RtoC (f (fq_Bx sine nquad i / t)%R * fq_SS sine nquad i * ((fq_xint sine (S i) / t - fq_xint sine i / t) / 2)).

(** Python's truth value of None and numbers *)
Definition given (x : option R) : option R := match x with Some v => if Reqb v 0 then None else Some v | None => None end.

(** [fr], [fi]: the interpolated real part and negative imaginary part as
    functions of the angular frequency (601-602).  Positive times. *)
Definition fourier_qwe (fr fi : R -> R) (sine : bool) (rtol atol : R) (zc : C -> bool) (nquad maxint : nat)
    (diff_quad : R) (a b : option R) (time : list R) : res (list R * bool) :=
  let f := if sine then fi else fr in
  let doqwe t := fq_steep (fun w => (fr w, fi w)) diff_quad sine maxint t in
  let quadv t := rquad (fun w => f w * fq_sc sine (w * t))%R
                       (match given a with Some v => v | None => (fq_xint sine 0 / t)%R end)
                       (match given b with Some v => v | None => (fq_xint sine maxint / t)%R end) in
  let cq := forallb (fun t => doqwe t || (snd (quadv t) <=? 3)%nat) time in
  let tq := filter doqwe time in
  '(vals, cv) <- match tq with
                 | [] => Ok ([], true)
                 | _ => '(EM, _, c) <- qwe rtol atol maxint zc
                            (fun e i => fq_contrib f sine nquad (nth e tq 0%R) i) (List.length tq) ;;
                        Ok (map fst EM, c)
                 end ;;
  (** 648: [tEM[doqwe] = vals] *)
  let out := snd (fold_left (fun (st : list R * list R) t =>
                if doqwe t then (tl (fst st), snd st ++ [hd 0%R (fst st)]) else (fst st, snd st ++ [fst (quadv t)]))
                time (vals, [])) in
  Ok (out, cq && cv).
End FourierQwe.
