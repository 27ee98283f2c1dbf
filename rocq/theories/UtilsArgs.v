(** * Argument checks of empymod/utils.py: get_kwargs, check_hankel,
    check_time_only, check_waveform, check_time, and the phase of EMArray. *)
From Coq Require Import ZArith List Lia Reals String Ascii Bool.
From Coquelicot Require Import Complex.
From Verif Require Import PyBase CBase Utils Transform.
Import ListNotations.
Local Open Scope string_scope.
Local Open Scope res_scope.
Local Open Scope R_scope.

(** ** Values of keyword dictionaries

    A digital filter object is its list of attribute names together with the
    numbers (filters.py:51-86). *)
Record filtv := mkfv { fv_attrs : list string; fv_filt : dfilter }.
(** A Python value, as far as the keyword arguments need it. *)
Inductive pyv := VNone | VInt (z : Z) | VFloat (r : R) | VStr (s : string)
  | VArr (l : list R) | VFilt (f : filtv).
(** A Python dictionary in order of insertion. *)
Definition dict := list (string * pyv).

(** [d.get(k)] *)
Fixpoint lookup {V} (k : string) (d : list (string * V)) : option V :=
  match d with
  | [] => None
  | (k', v) :: t => if String.eqb k' k then Some v else lookup k t
  end.
(** [d] without key k, as after [d.pop(k)]. *)
Definition delkey {V} (k : string) (d : list (string * V)) : list (string * V) :=
  filter (fun p => negb (String.eqb (fst p) k)) d.
(** [d.get(k, default)] *)
Definition dget {V} (k : string) (df : V) (d : list (string * V)) : V :=
  match lookup k d with Some v => v | None => df end.
(** [d.pop(k, default)]: the value and the dictionary without the key *)
Definition dpop {V} (k : string) (df : V) (d : list (string * V)) : V * list (string * V) :=
  (dget k df d, delkey k d).

(** [s.lower()] for ASCII strings (simplification: no other characters) *)
Definition lower_ascii (c : ascii) : ascii :=
  let n := nat_of_ascii c in
  if ((65 <=? n) && (n <=? 90))%nat then ascii_of_nat (n + 32) else c.
Fixpoint lower (s : string) : string :=
  match s with
  | EmptyString => EmptyString
  | String c t => String (lower_ascii c) (lower t)
  end.
(** [s in t] for strings *)
Fixpoint contains (s t : string) : bool :=
  (String.prefix s t || match t with EmptyString => false | String _ t' => contains s t' end)%bool.

(** [v > 0] for the verbosity: TypeError for what cannot be ordered *)
Definition gt0 (v : pyv) : res bool :=
  match v with
  | VInt z => Ok (0 <? z)%Z
  | VFloat r => Ok (Rltb 0 r)
  | _ => Err TypeError
  end.

(** ** utils.py:1973-2040 [get_kwargs]

    The result is the list of values and whether the warning is printed. *)
Definition known_keys : list string :=
  ["depth"; "ht"; "htarg"; "ft"; "ftarg"; "xdirect"; "loop"; "signal"; "ab"; "freqtime"; "freq";
   "wavenumber"; "solution"; "cf"; "gain"; "msrc"; "srcpts"; "mrec"; "recpts"; "strength"; "squeeze";
   "bandpass"].

Definition kw_step (defaults : list pyv) (st : list pyv * pyv * dict) (p : Z * string) : res (list pyv * pyv * dict) :=
  let '(out, verb, kw) := st in
  d <- idx defaults (fst p) ;;
  let verb := if String.eqb (snd p) "verb" then dget (snd p) d kw else verb in
  let '(v, kw) := dpop (snd p) d kw in
  Ok (out ++ [v], verb, kw)%list.

(** utils.py:1973-2040: all names in turn, then the test for what is left. *)
Definition get_kwargs (names : list string) (defaults : list pyv) (kwargs : dict) : res (list pyv * bool) :=
  '(out, verb, kw) <- foldM (kw_step defaults) (combine (zrange 0 (zlen names)) names) ([], VInt 2, kwargs) ;;
  match kw with
  | [] => Ok (out, false)
  | _ =>
      if forallb (fun p => existsb (String.eqb (fst p)) known_keys) kw
      then w <- gt0 verb ;; Ok (out, w)
      else Err TypeError
  end.

(** ** utils.py:2157-2162 [_check_var(var, float, 0, name, ())] and with [int]

    [if shape:] is false for [()], so the shape is never checked; what happens
    further on with an array in place of a number is not modelled and counts
    as a TypeError.  None becomes nan (the error value NanE); strings holding
    a number are not modelled. *)
Definition as_float (v : pyv) : res R :=
  match v with
  | VInt z => Ok (IZR z)
  | VFloat r => Ok r
  | VNone => Err NanE
  | VStr _ => Err ValueError
  | VArr _ | VFilt _ => Err TypeError
  end.
(** conversion to an integer truncates towards zero *)
Definition ztrunc (r : R) : Z := if Rleb 0 r then Int_part r else (- Int_part (- r))%Z.
Definition as_int (v : pyv) : res Z :=
  match v with
  | VInt z => Ok z
  | VFloat r => Ok (ztrunc r)
  | VStr _ => Err ValueError
  | VNone | VArr _ | VFilt _ => Err TypeError
  end.
(** [if v is not None: _check_var(v, ...)] *)
Definition opt_of {A} (f : pyv -> res A) (v : pyv) : res (option A) :=
  match v with VNone => Ok None | _ => x <- f v ;; Ok (Some x) end.

(** a filter given by name is looked up (utils.py:569-571, 1053-1055): the
    default is always looked up first *)
Definition filter_lib := string -> option filtv.
Definition get_filter (lib : filter_lib) (dflt : string) (args : dict) : res (pyv * dict) :=
  df <- match lib dflt with Some f => Ok (VFilt f) | None => Err AttributeError end ;;
  let '(v, args) := dpop "dlf" df args in
  v <- match v with
       | VStr s => match lib s with Some f => Ok (VFilt f) | None => Err AttributeError end
       | _ => Ok v
       end ;;
  Ok (v, args).
(** [hasattr(v, a)] for a filter. *)
Definition hasattr (v : pyv) (a : string) : bool :=
  match v with VFilt f => existsb (String.eqb a) (fv_attrs f) | _ => false end.
(** utils.py:573-582, 1053-1063: a filter that lacks the needed weights is refused. *)
Definition need_filter (attrs : list string) (v : pyv) : res filtv :=
  if forallb (hasattr v) attrs
  then match v with VFilt f => Ok f | _ => Err AttributeError end
  else Err AttributeError.

(** ** utils.py:533-704 [check_hankel] *)
Inductive htargs :=
| HtDlf (filt : filtv) (ppd : R)
| HtQwe (rtol atol : R) (nquad maxint ppd : Z) (diff_quad : R) (a b : option R) (limit : option Z)
| HtQuad (rtol atol : R) (limit : Z) (a b : R) (ppd : Z).

(** the settings and the arguments that are left *)
Definition ht_settings (lib : filter_lib) (ht : string) (args : dict) : res (htargs * dict) :=
  if String.eqb ht "dlf" then
    (* 566-588 *)
    '(v, args) <- get_filter lib "key_201_2009" args ;;
    f <- need_filter ["base"; "j0"; "j1"; "factor"] v ;;
    let '(p, args) := dpop "pts_per_dec" (VFloat 0) args in
    ppd <- as_float p ;;
    Ok (HtDlf f ppd, args)
  else if String.eqb ht "qwe" then
    (* 600-641 *)
    let '(v1, args) := dpop "rtol" (VFloat (/ 10 ^ 12)) args in
    rtol <- as_float v1 ;;
    let '(v2, args) := dpop "atol" (VFloat (/ 10 ^ 30)) args in
    atol <- as_float v2 ;;
    let '(v3, args) := dpop "nquad" (VInt 51) args in
    nquad <- as_int v3 ;;
    let '(v4, args) := dpop "maxint" (VInt 100) args in
    maxint <- as_int v4 ;;
    let '(v5, args) := dpop "pts_per_dec" (VInt 0) args in
    ppd <- as_int v5 ;;
    let '(v6, args) := dpop "diff_quad" (VInt 100) args in
    dq <- as_float v6 ;;
    let '(v7, args) := dpop "a" VNone args in
    a <- opt_of as_float v7 ;;
    let '(v8, args) := dpop "b" VNone args in
    b <- opt_of as_float v8 ;;
    let '(v9, args) := dpop "limit" VNone args in
    limit <- opt_of as_int v9 ;;
    Ok (HtQwe rtol atol nquad maxint (Z.max ppd 0) dq a b limit, args)
  else if contains ht "quad" then
    (* 660-684: a substring test *)
    let '(v1, args) := dpop "rtol" (VFloat (/ 10 ^ 12)) args in
    rtol <- as_float v1 ;;
    let '(v2, args) := dpop "atol" (VFloat (/ 10 ^ 20)) args in
    atol <- as_float v2 ;;
    let '(v3, args) := dpop "limit" (VInt 500) args in
    limit <- as_int v3 ;;
    let '(v4, args) := dpop "a" (VFloat (/ 10 ^ 6)) args in
    a <- as_float v4 ;;
    let '(v5, args) := dpop "b" (VFloat (/ 10)) args in
    b <- as_float v5 ;;
    let '(v6, args) := dpop "pts_per_dec" (VInt 40) args in
    ppd <- as_int v6 ;;
    Ok (HtQuad rtol atol limit a b (Z.max ppd 1), args)
  else Err ValueError.

(** the third result is whether the warning on unknown arguments is printed
    (699-701); the other prints are not modelled *)
Definition check_hankel (lib : filter_lib) (ht : string) (htarg : dict) (verb : Z)
    : res (string * htargs * bool) :=
  let ht := lower ht in
  '(targ, args) <- ht_settings lib ht htarg ;;
  Ok (ht, targ, match args with [] => false | _ => (0 <? verb)%Z end).

(** ** utils.py:1351-1465 [check_waveform] *)

Definition diffl (l : list R) : list R := map2 (fun b a => b - a) (tl l) l.
(** [a / b] of two one-dimensional arrays with broadcasting *)
Definition bdiv (a b : list R) : res (list R) :=
  let n := List.length a in let m := List.length b in
  let a' := if (n =? 1)%nat then repeat (nth 0 a 0) m else a in
  let b' := if (m =? 1)%nat then repeat (nth 0 b 0) n else b in
  if (List.length a' =? List.length b')%nat
  then if forallb (fun x => negb (Reqb x 0)) b' then Ok (map2 Rdiv a' b') else Err NanE
  else Err ValueError.

(** one wave segment for all times, 1421-1443; [None] if it is skipped.  The
    entries for times before the segment stay zero. *)
Definition segment (gx : list R) (time nodes : list R) (i : Z) (slope : R)
    : res (option (list (list R) * list R)) :=
  if Reqb slope 0 then Ok None
  else
    n0 <- idx nodes i ;;
    if existsb (fun t => Rltb n0 t) time then
      n1 <- idx nodes (i + 1) ;;
      let ta t := t - n0 in
      let tb t := if Rltb t n1 then 0 else t - n1 in
      Ok (Some (map (fun t => if Rltb n0 t
                              then map (fun g => (tb t - ta t) / 2 * g + (ta t + tb t) / 2) gx
                              else map (fun _ => 0) gx) time,
                map (fun t => if Rltb n0 t then (tb t - ta t) / 2 * slope else 0) time))
    else Ok None.

(** [np.unique]: sorted values without repetition *)
Fixpoint uinsert (x : R) (l : list R) : list R :=
  match l with
  | [] => [x]
  | y :: t => if Rltb x y then x :: l else if Reqb x y then l else y :: uinsert x t
  end.
Definition unique (l : list R) : list R := fold_right uinsert [] l.
(** the inverse index of a value *)
Fixpoint position (x : R) (l : list R) : nat :=
  match l with
  | [] => 0%nat
  | y :: t => if Reqb x y then 0%nat else S (position x t)
  end.

Definition somes {A} (l : list (option A)) : list A :=
  flat_map (fun o => match o with Some a => [a] | None => [] end) l.

(** the result is the computed times, the signal and the function
    [apply_waveform] on arrays (one row per computed time, one column per
    survey element); [leg] is [roots_legendre] *)
Definition check_waveform (m : mins) (leg : Z -> res (list R * list R)) (time nodes amplitudes : list R)
    (signal : R) (nquad : Z) : res (list R * R * (list (list R) -> list (list R))) :=
  slopes <- bdiv (diffl amplitudes) (diffl nodes) ;;
  '(gx, gw) <- leg nquad ;;
  segs <- mapM (fun p => segment gx time nodes (fst p) (snd p)) (combine (zrange 0 (zlen slopes)) slopes) ;;
  let segs := somes segs in
  (* comp_time[t][q][s] and segment_weight[t][s] *)
  let comp := map (fun t => map (fun q => map (fun s => nth q (nth t (fst s) []) 0) segs)
                                (seq 0 (List.length gx))) (seq 0 (List.length time)) in
  let wgt := map (fun t => map (fun s => nth t (snd s) 0) segs) (seq 0 (List.length time)) in
  let flat := unique (List.concat (List.concat comp)) in
  let ctime := map (fun t => if Rltb t (min_time m) then min_time m else t) flat in
  match ctime with
  | [] => Err ValueError
  | _ =>
      let apply (resp : list (list R)) : list (list R) :=
        map2 (fun ct wt =>
                map (fun r =>
                  rsuml (map2 (fun s w =>
                          rsuml (map2 (fun row g => nth r (nth (position (nth s row 0) flat) resp []) 0 * g) ct gw)
                          * w) (seq 0 (List.length wt)) wt))
                    (seq 0 (List.length (nth 0 resp []))))
             comp wgt in
      Ok (ctime, signal, apply)
  end.

(** ** utils.py:1278-1348 [check_time_only] (new=True) *)
Inductive signal_in :=
| SigNum (q : R)
| SigWave (nodes amplitudes : list R) (signal : R) (nquad : Z).
Definition waveform := option (list (list R) -> list (list R)).

(** the times, the numerical signal and the waveform function, if any *)
Definition check_signal (m : mins) (leg : Z -> res (list R * list R)) (time : list R) (s : signal_in)
    : res (list R * R * waveform) :=
  let time := fst (check_min time (Some (min_time m))) in
  match s with
  | SigWave nd am sg nq =>
      '(t, sg, f) <- check_waveform m leg time nd am sg nq ;;
      Ok (t, sg, Some f)
  | SigNum q =>
      if inb (ztrunc q) [-1; 0; 1]%Z then Ok (time, q, None) else Err ValueError
  end.

(** ** utils.py:964-1275 [check_time] (new=True) *)
Definition log10 (x : R) : R := ln x / ln 10.
Definition p10 (x : R) : R := exp (x * ln 10).
(** [np.logspace(a, b, n)] *)
Definition logspace (a b : R) (n : Z) : res (list R) :=
  if (n <? 0)%Z then Err ValueError
  else Ok (map (fun k => p10 (if (n =? 1)%Z then a else a + INR k * ((b - a) / IZR (n - 1)))) (seq 0 (Z.to_nat n))).

(** transform.py:1260-1289 [get_fftlog_input]; [lgi x y] is the imaginary part
    of [loggamma(x + iy)] *)
Record fftlog_in := mkLog { l_freq : list R; l_tcalc : list R; l_dlnr : R; l_kr : R; l_rk : R }.
Definition get_fftlog_input (lgi : R -> R -> R) (rmin rmax : R) (n : Z) (q mu : R) : res fftlog_in :=
  if (n =? 0)%Z then Err NanE
  else
    let logrc := (rmin + rmax) / 2 in
    let nc := (IZR n + 1) / 2 in
    let dlogr := (rmax - rmin) / IZR n in
    let dlnr := dlogr * ln 10 in
    if Reqb dlnr 0 then Err NanE
    else
      let y := PI / (2 * dlnr) in
      let zp := lgi ((mu + 1 + q) / 2) y in
      let zm := lgi ((mu + 1 - q) / 2) y in
      let arg := ln 2 / dlnr + (zp + zm) / PI in
      let kr := exp ((arg - IZR (rint arg)) * dlnr) in
      let js := map (fun k => IZR (Z.of_nat k + 1)) (seq 0 (Z.to_nat n)) in
      let freq := map (fun j => p10 (logrc + (j - nc) * dlogr) / (2 * PI)) js in
      let logkc := log10 kr - logrc in
      let tcalc := map (fun j => p10 (logkc + (j - nc) * dlogr)) js in
      let rk := p10 (logrc - logkc) * PI / 2 in
      Ok (mkLog freq tcalc dlnr kr rk).

(** The settings of each Fourier transform, as check_time returns them. *)
Inductive ftargs :=
| FtDlf (ppd : R) (sine : bool) (filt : filtv)
| FtQwe (sine : bool) (rtol atol : R) (nquad maxint ppd diff_quad : Z) (a b : option R) (limit : option Z)
| FtLog (ppd : Z) (add_dec : R * R) (q mu : R) (inp : fftlog_in)
| FtFft (dfreq : R) (nfreq ntot : Z) (ppd : option Z).

(** 1186: [nall[np.argmax(nall >= nfreq)]]; argmax of all-False is 0 *)
Definition nall : list Z := map (fun i => 2 ^ i)%Z (zrange 0 30).
Definition pow2_for (n : Z) : Z :=
  match find (fun p => n <=? p)%Z nall with Some p => p | None => nth 0 nall 0%Z end.

Definition np_sign (x : R) : R := if Rltb 0 x then 1 else if Rltb x 0 then -1 else 0.

(** [add_dec]: two numbers, utils.py:1149-1151 *)
Definition as_pair (v : pyv) : res (R * R) :=
  match v with
  | VArr [a; b] => Ok (a, b)
  | VNone => Err NanE
  | VFilt _ => Err TypeError
  | _ => Err ValueError
  end.

Definition ft_settings (lib : filter_lib) (leg : Z -> res (list R * list R)) (lgi : R -> R -> R)
    (time : list R) (signal : R) (ft : string) (args : dict) : res (list R * ftargs * dict) :=
  if String.eqb ft "dlf" then
    (* 1032-1085 *)
    let '(v1, args) := dpop "pts_per_dec" (VFloat (-1)) args in
    ppd <- as_float v1 ;;
    let '(k, args) := dpop "kind" (VStr "sin") args in
    let k := if Rltb 0 signal then VStr "sin" else if Rltb signal 0 then VStr "cos" else k in
    sine <- match k with
            | VStr s => if String.eqb s "sin" then Ok true else if String.eqb s "cos" then Ok false else Err ValueError
            | _ => Err ValueError
            end ;;
    '(v, args) <- get_filter lib "key_201_2012" args ;;
    f <- need_filter ["base"; (if sine then "sin" else "cos"); "factor"] v ;;
    '(omega, _) <- get_dlf_points (fv_filt f) time ppd ;;
    Ok (map (fun w => w / 2 / PI) (List.concat omega), FtDlf ppd sine f, args)
  else if String.eqb ft "qwe" then
    (* 1087-1145; a given 'sincos' is removed and not used *)
    let args := delkey "sincos" args in
    let sine := Rleb 0 signal in
    let '(v1, args) := dpop "rtol" (VFloat (/ 10 ^ 8)) args in
    rtol <- as_float v1 ;;
    let '(v2, args) := dpop "atol" (VFloat (/ 10 ^ 20)) args in
    atol <- as_float v2 ;;
    let '(v3, args) := dpop "nquad" (VInt 21) args in
    nquad <- as_int v3 ;;
    let '(v4, args) := dpop "maxint" (VInt 200) args in
    maxint <- as_int v4 ;;
    let '(v5, args) := dpop "pts_per_dec" (VInt 20) args in
    ppd <- as_int v5 ;;
    let ppd := Z.max ppd 1 in
    let '(v6, args) := dpop "diff_quad" (VInt 100) args in
    dq <- as_int v6 ;;
    let '(v7, args) := dpop "a" VNone args in
    a <- opt_of as_float v7 ;;
    let '(v8, args) := dpop "b" VNone args in
    b <- opt_of as_float v8 ;;
    let '(v9, args) := dpop "limit" VNone args in
    limit <- opt_of as_int v9 ;;
    '(gx, _) <- leg nquad ;;
    gmin <- lmin gx ;;
    tmax <- lmax time ;;
    tmin <- lmin time ;;
    let minf := IZR (ffloor (10 * log10 ((gmin + 1) * PI / 2 / tmax))) / 10 in
    let maxf := IZR (ceilZ (10 * log10 (IZR maxint * PI / tmin))) / 10 in
    freq <- logspace minf maxf (ztrunc ((maxf - minf) * IZR ppd + 1)) ;;
    Ok (freq, FtQwe sine rtol atol nquad maxint ppd dq a b limit, args)
  else if String.eqb ft "fftlog" then
    (* 1147-1188; given 'mu', 'tcalc', ... are removed and not used *)
    let '(v1, args) := dpop "pts_per_dec" (VInt 10) args in
    ppd <- as_int v1 ;;
    let ppd := Z.max ppd 1 in
    let '(v2, args) := dpop "add_dec" (VArr [-2; 1]) args in
    ad <- as_pair v2 ;;
    let '(v3, args) := dpop "q" (VInt 0) args in
    q <- as_float v3 ;;
    let q := if Rltb 1 (Rabs q) then np_sign q else q in
    let args := delkey "mu" args in
    let mu := if Rleb 0 signal then / 2 else - / 2 in
    tmax <- lmax time ;;
    tmin <- lmin time ;;
    let minf := log10 (1 / tmax) + fst ad in
    let maxf := log10 (1 / tmin) + snd ad in
    inp <- get_fftlog_input lgi minf maxf (ztrunc (maxf - minf) * ppd) q mu ;;
    let args := delkey "rk" (delkey "kr" (delkey "dlnr" (delkey "tcalc" args))) in
    Ok (l_freq inp, FtLog ppd ad q mu inp, args)
  else if String.eqb ft "fft" then
    (* 1190-1228 *)
    let '(v1, args) := dpop "dfreq" (VFloat (2 / 1000)) args in
    dfreq <- as_float v1 ;;
    let '(v2, args) := dpop "nfreq" (VInt 2048) args in
    nfreq <- as_int v2 ;;
    let '(v3, args) := dpop "ntot" (VInt (pow2_for nfreq)) args in
    ntot <- as_int v3 ;;
    let ntot := if (ntot <? nfreq)%Z then pow2_for nfreq else ntot in
    let '(v4, args) := dpop "pts_per_dec" VNone args in
    ppd <- opt_of as_int v4 ;;
    let ppd := option_map (fun p => Z.max p 1) ppd in
    freq <- match ppd with
            | Some p =>
                let start := log10 dfreq in
                let stop := log10 (IZR nfreq * dfreq) in
                logspace start stop (ztrunc ((stop - start) * IZR p + 1))
            | None => Ok (map (fun k => IZR (Z.of_nat k + 1) * dfreq) (seq 0 (Z.to_nat nfreq)))
            end ;;
    Ok (freq, FtFft dfreq nfreq ntot ppd, args)
  else Err ValueError.

(** What check_time returns, utils.py:1267. *)
Record time_out := mkTime {
  o_time : list R; o_freq : list R; o_ft : string; o_ftarg : ftargs; o_signal : R; o_wave : waveform;
  o_warn : bool }.

(** utils.py:964-1275 [check_time]. *)
Definition check_time (m : mins) (lib : filter_lib) (leg : Z -> res (list R * list R)) (lgi : R -> R -> R)
    (time : list R) (signal : signal_in) (ft : string) (ftarg : dict) (verb : Z) : res time_out :=
  '(t, sg, wf) <- check_signal m leg time signal ;;
  let ft := lower ft in
  '(freq, targ, args) <- ft_settings lib leg lgi t sg ft ftarg ;;
  Ok (mkTime t freq ft targ sg wf (match args with [] => false | _ => (0 <? verb)%Z end)).

(** ** utils.py:77-144 [EMArray]

    IEEE zeros carry a sign, and the angle of a number with zero imaginary
    part depends on it, so an element holds the sign bits of both parts
    ([true] is negative). *)
Record cnum := mkc { c_re : R; c_im : R; c_nre : bool; c_nim : bool }.
Definition sign_ok (x : R) (neg : bool) : Prop := (x < 0 -> neg = true) /\ (0 < x -> neg = false).
Definition cnum_ok (z : cnum) : Prop := sign_ok (c_re z) (c_nre z) /\ sign_ok (c_im z) (c_nim z).
(** an array of complex or of real dtype *)
Inductive emarray := EmC (l : list cnum) | EmR (l : list (R * bool)).
Definition em_list (a : emarray) : list cnum :=
  match a with
  | EmC l => l
  | EmR l => map (fun p => mkc (fst p) 0 (snd p) false) l
  end.
(** [np.conj]: the identity for real dtype *)
Definition np_conj (a : emarray) : emarray :=
  match a with
  | EmC l => EmC (map (fun z => mkc (c_re z) (- c_im z) (c_nre z) (negb (c_nim z))) l)
  | EmR l => EmR l
  end.
(** [np.angle] = [arctan2(imag, real)] with signed zeros *)
Definition angle1 (z : cnum) : R :=
  if Reqb (c_im z) 0 then
    if (Rltb (c_re z) 0 || (Reqb (c_re z) 0 && c_nre z))%bool
    then (if c_nim z then - PI else PI) else 0
  else atan2 (c_im z) (c_re z).
(** utils.py:106-108 [amp]. *)
Definition amp (a : emarray) : list R :=
  map (fun z => sqrt (c_re z * c_re z + c_im z * c_im z)) (em_list a).

(** [np.mod(x, p)] *)
Definition fmod (x p : R) : R := x - IZR (ffloor (x / p)) * p.
(** [np.unwrap] (NumPy 2, default discontinuity pi and period 2 pi): the
    correction of one difference *)
Definition ph_correct (dd : R) : R :=
  let ddmod := fmod (dd + PI) (2 * PI) - PI in
  let ddmod := if (Reqb ddmod (- PI) && Rltb 0 dd)%bool then PI else ddmod in
  if Rltb (Rabs dd) PI then 0 else ddmod - dd.
Fixpoint cumsum_from (acc : R) (l : list R) : list R :=
  match l with [] => [] | x :: t => (acc + x) :: cumsum_from (acc + x) t end.
(** [np.unwrap] of a list of angles. *)
Definition unwrap (p : list R) : list R :=
  match p with
  | [] => []
  | x :: t => x :: map2 Rplus t (cumsum_from 0 (map ph_correct (diffl p)))
  end.
(** [pha], 107-144, for one-dimensional arrays *)
Definition pha (a : emarray) (deg unwr lag : bool) : list R :=
  let p := map angle1 (em_list (if lag then a else np_conj a)) in
  let p := if (unwr && (1 <? List.length p)%nat)%bool then unwrap p else p in
  if deg then map (fun x => x * (180 / PI)) p else p.
