(** The filter design (empymod/scripts/fdesign.py:256-475 [design], 1259-1338
    [_get_min_val], 1341-1383 [_calculate_filter]) over the real and complex numbers.

    Not modelled: printing, plotting, the files (see FilterIo.v), a [finish]
    function, and nan or inf in the transform pairs (an error value of the pair is
    passed on; the code carries nan along).  [np.linalg.qr] and [np.linalg.solve]
    are arguments, and so is the rounding to 15 digits. *)

From Coq Require Import ZArith Reals List Bool Ascii String Lia Lra.
From Coquelicot Require Import Coquelicot.
From Verif Require Import PyBase CBase Text Utils Transform UtilsArgs DataIo FilterIo Fdesign.
Import ListNotations.
Local Open Scope R_scope.
Local Open Scope C_scope.
Local Open Scope res_scope.

(** ** Transform pairs as objects *)
(** The attribute [rhs] is a function, or the array which design puts there
    (fdesign.py:420). *)
Inductive drhs : Type := RhsFun (f : R -> res C) | RhsArr (l : list C).
(** class Ghosh (fdesign.py:860-872), any name.  The second component of the left-hand
    side is the second part of a pair of name "j2" and not used for others. *)
Record dpair : Type := DP { dp_name : txt; dp_lhs : R -> res (C * C); dp_rhs : drhs }.

Definition gtxt (g : gname) : txt := match g with GJ0 => T "j0" | GJ1 => T "j1" | GSin => T "sin" | GCos => T "cos" end.
Definition pair_of (g : ghosh) : dpair :=
  DP (gtxt (gh_name g)) (fun x => v <- gh_lhs g x;; Ok (v, RtoC 0)) (RhsFun (gh_rhs g)).

(** [f.rhs(r)]: an array cannot be called *)
Definition call_rhs (f : dpair) (r : list R) : res (list C) :=
  match dp_rhs f with RhsFun g => mapM g r | RhsArr _ => Err TypeError end.

(** ** _calculate_filter *)
Definition mat : Type := nat -> nat -> R.
(** [np.linalg.qr(a)] of an (m x n) matrix: an (m x k) and a (k x n) matrix, k = min(m, n);
    [np.linalg.solve(a, b)] of a (k x n) matrix; None is a LinAlgError. *)
Record linalg : Type := LA {
  la_qr : nat -> nat -> mat -> option (mat * mat);
  la_solve : nat -> nat -> mat -> (nat -> R) -> option (list R) }.

(** [np.real] or [np.imag] *)
Inductive reimt : Type := ReR | ReI.
Definition reim (w : reimt) (c : C) : R := match w with ReR => fst c | ReI => snd c end.

(** [np.exp(spacing*(np.arange(n)-n//2) + shift)] (1346) *)
Definition fd_base (n : nat) (sp sh : R) : list R :=
  map (fun i => exp (sp * (INR i - INR (n / 2)) + sh)%R) (seq 0 n).
(** 1350-1351 *)
Definition fd_r (n : nat) (rd : R * R * R) (base : list R) : res (list R) :=
  let '(la, ra, fac) := rd in
  mx <- lmax base;; mn <- lmin base;;
  logspace (log10 (1 / mx) - la)%R (log10 (1 / mn) + ra)%R (ztrunc (fac * INR n)).

(** The new filter: attributes by name (the last assignment counts), the
    name, the factor (None is nan) and the list [filter_coeff]. *)
Record dlfo : Type := DO { o_name : txt; o_attr : txt -> option (list R); o_factor : option R; o_coeff : list txt }.
Definition o_set (k : txt) (v : list R) (d : dlfo) : dlfo :=
  DO (o_name d) (fun q => if teqb q k then Some v else o_attr d q) (o_factor d) (o_coeff d).
Definition o_get (k : txt) (d : dlfo) : res (list R) :=
  match o_attr d k with Some v => Ok v | None => Err AttributeError end.
Definition o_add (k : txt) (d : dlfo) : dlfo := DO (o_name d) (o_attr d) (o_factor d) (o_coeff d ++ [k]).

(** [np.average(base[1:]/base[:-1])] (1359); the average of nothing is nan *)
Definition fd_ratio (base : list R) : option R :=
  match base with
  | [] | [_] => None
  | _ :: t => Some (rsuml (map2 Rdiv t base) / INR (List.length t))%R
  end.

Definition mat_of (l : list (list R)) : mat := fun i j => nth j (nth i l []) 0%R.

(** the matrix and the right-hand side of one pair (1368-1369) *)
Definition fd_lhs (w : reimt) (base r : list R) (f : dpair) : res (list (list R)) :=
  mapM (fun ri => mapM (fun b => v <- dp_lhs f (b / ri)%R;; Ok (reim w (fst v))) base) r.
Definition fd_rhs (w : reimt) (r : list R) (f : dpair) : res (list R) :=
  v <- call_rhs f r;; Ok (map2 (fun x ri => reim w (x * RtoC ri)) v r).

(** 1375-1379; m rows, n columns *)
Definition fd_solve (la : linalg) (m n : nat) (a : mat) (b : nat -> R) : list R :=
  match la_qr la m n a with
  | None => repeat 0%R n
  | Some (q, u) =>
      match la_solve la (Nat.min m n) n u (fun j => rsuml (map (fun i => (b i * q i j)%R) (seq 0 m))) with
      | None => repeat 0%R n
      | Some x => x
      end
  end.

(** the values of one pair (1364-1379); a pair "j2" has a tuple as left-hand side, of
    which numpy makes a three-dimensional array: an error here *)
Definition fd_coeff (la : linalg) (w : reimt) (base r : list R) (f : dpair) : res (list R) :=
  if teqb (dp_name f) (T "j2") then Err ValueError
  else
    a <- fd_lhs w base r f;; b <- fd_rhs w r f;;
    Ok (fd_solve la (List.length r) (List.length base) (mat_of a) (fun i => nth i b 0%R)).

Fixpoint fd_fill (la : linalg) (w : reimt) (base r : list R) (fI : list dpair) (d : dlfo) : res dlfo :=
  match fI with
  | [] => Ok d
  | f :: t => x <- fd_coeff la w base r f;; fd_fill la w base r t (o_set (dp_name f) x (o_add (dp_name f) d))
  end.

(** 1341-1383 *)
Definition calculate_filter (la : linalg) (around : R -> R) (n : nat) (sp sh : R) (fI : list dpair)
    (rd : R * R * R) (w : reimt) (name : txt) : res dlfo :=
  let base := fd_base n sp sh in
  r <- fd_r n rd base;;
  fd_fill la w base r fI
    (o_set (T "base") base (DO (hd [] (split "." name)) (fun _ => None) (option_map around (fd_ratio base)) [])).

(** ** _get_min_val *)
Definition is_zeroC (c : C) : bool := if Ceq_dec c (RtoC 0) then true else false.
(** [np.abs((rhs - f.rhs)/f.rhs) > error] (1284-1287): x/0 is inf, 0/0 is nan *)
Definition is_bad (error : R) (v t : C) : bool :=
  if is_zeroC t then negb (is_zeroC (v - t)) else Rltb error (Cmod ((v - t) / t)).
Definition bad_idx (error : R) (v t : list C) : list nat :=
  filter (fun i => is_bad error (nth i v (RtoC 0)) (nth i t (RtoC 0))) (seq 0 (List.length v)).

(** 1289-1312; subtraction of natural numbers stops at zero, as [np.max([0, .])] *)
Definition imin_of (v : list C) (bad : list nat) : nat :=
  if forallb is_zeroC v then 0
  else match bad with
       | [] => List.length v - 1
       | b0 :: t => match nth_error t 3 with Some b4 => b4 - 5 | None => b0 - 1 end
       end.

Definition nth_res {A} (l : list A) (i : nat) : res A := match nth_error l i with Some a => Ok a | None => Err IndexError end.

(** the response of the filter (1271-1281) *)
Definition row_dot (f : dpair) (second : bool) (base : list R) (x : list R) (ri : R) : res C :=
  v <- mapM (fun b => dp_lhs f (b / ri)%R) base;;
  Ok (dot x (map (fun p : C * C => if second then snd p else fst p) v)).
Definition fd_out (d : dlfo) (r : list R) (f : dpair) : res (list C) :=
  base <- o_get (T "base") d;;
  if teqb (dp_name f) (T "j2") then
    x0 <- o_get (T "j0") d;; x1 <- o_get (T "j1") d;;
    mapM (fun ri => u <- row_dot f false base x0 ri;; u' <- cdiv u (RtoC ri);;
                    v <- row_dot f true base x1 ri;; v' <- cdiv v (RtoC (ri ^ 2));; Ok (u' + v')) r
  else
    x <- o_get (dp_name f) d;;
    mapM (fun ri => u <- row_dot f false base x ri;; cdiv u (RtoC ri)) r.

(** cvar: 'amp' is true (1315-1318) *)
Definition fd_one (d : dlfo) (r : list R) (error : R) (amp : bool) (f : dpair) : res (nat * R) :=
  v <- fd_out d r f;;
  match dp_rhs f with
  | RhsFun _ => Err TypeError
  | RhsArr t =>
      let i := imin_of v (bad_idx error v t) in
      if amp then x <- nth_res v i;; Ok (i, Cmod x)
      else x <- nth_res r i;; if Req_EM_T x 0 then Err NanE else Ok (i, 1 / x)%R
  end.

(** the loop (1273-1327): a later pair replaces the index and the value if its value is larger *)
Fixpoint fd_worst (d : dlfo) (r : list R) (error : R) (amp : bool) (fC : list dpair) (cur : option (nat * R)) : res (nat * R) :=
  match fC with
  | [] => match cur with Some c => Ok c | None => Err UnboundLocal end
  | f :: t =>
      n <- fd_one d r error amp f;;
      fd_worst d r error amp t
        (match cur with None => Some n | Some c => if Rltb (snd c) (snd n) then Some n else Some c end)
  end.

(** 1337-1338: the value for a filter *)
Definition objective (d : dlfo) (r : list R) (error : R) (amp : bool) (fC : list dpair) : res ext :=
  m <- fd_worst d r error amp fC None;;
  Ok (if (fst m =? 0)%nat then PInf else Fin (snd m)).

(** 1259-1338 *)
Definition get_min_val (la : linalg) (around : R -> R) (n : nat) (fI fC : list dpair) (r : list R) (rd : R * R * R)
    (error : R) (w : reimt) (amp : bool) (sp sh : R) : res ext :=
  d <- calculate_filter la around n sp sh fI rd w (T "filt");;
  objective d r error amp fC.

(** ** design *)
Definition ext_ltb (a b : ext) : bool :=
  match a, b with
  | NInf, NInf => false | NInf, _ => true
  | Fin x, Fin y => Rltb x y | Fin _, PInf => true | Fin _, NInf => false
  | PInf, _ => false
  end.
(** [np.argmin]: the first of the smallest *)
Fixpoint argmin {A} (l : list (A * ext)) : res (A * ext) :=
  match l with
  | [] => Err ValueError
  | [x] => Ok x
  | x :: t => y <- argmin t;; Ok (if ext_ltb (snd y) (snd x) then y else x)
  end.
(** scipy.optimize.brute without [finish]: the function on all points of the grid, the second
    coordinate varying first; the first point with the smallest value *)
Definition brute (f : R * R -> res ext) (s1 s2 : R * R * R) : res ((R * R) * ext) :=
  let pts := list_prod (grid s1) (grid s2) in
  v <- mapM f pts;; argmin (combine pts v).

(** Objects live in a heap, the arguments fI and fC are lists of references. *)
Definition heap : Type := list dpair.
Definition deref (h : heap) (l : list nat) : res (list dpair) := mapM (nth_res h) l.
(** [copy.deepcopy] of a list of objects: new objects, shared where they were shared.  All
    objects are copied here; those which the list does not refer to are garbage. *)
Definition deepcopy (h : heap) (l : list nat) : heap * list nat := (h ++ h, map (fun i => (List.length h + i)%nat) l).
Definition set_rhs (h : heap) (i : nat) (v : list C) : heap :=
  match nth_error h i with
  | Some f => replace h i (DP (dp_name f) (dp_lhs f) (RhsArr v))
  | None => h
  end.
(** 419-420 *)
Fixpoint put_rhs (h : heap) (fC : list nat) (r : list R) : res heap :=
  match fC with
  | [] => Ok h
  | i :: t => f <- nth_res h i;; v <- call_rhs f r;; put_rhs (set_rhs h i v) t r
  end.

Record dres : Type := DR { d_filter : dlfo; d_best : R * R; d_min : ext; d_heap : heap }.

(** 256-475.  A single pair is a list with one reference (check_f, 379-384); an empty list is
    the same as no fC (386).  [name] None is the default 'dlf_' + str(n). *)
Definition design (la : linalg) (around : R -> R) (h : heap) (n : nat) (spacing shift : lsinp) (fI : list nat)
    (fC : list nat) (r : option (list R)) (rd : R * R * R) (w : reimt) (amp : bool) (error : R) (name : txt) : res dres :=
  let '(h, fC) := match fC with [] => deepcopy h fI | _ => (h, fC) end in
  i0 <- nth_res fI 0;; f0 <- nth_res h i0;;
  if teqb (dp_name f0) (T "j2") then Err ValueError
  else
    r <- match r with None => logspace 0 5 1000 | Some r => Ok r end;;
    h <- put_rhs h fC r;;
    pI <- deref h fI;; pC <- deref h fC;;
    b <- brute (fun p => get_min_val la around n pI pC r rd error w amp (fst p) (snd p)) (ls2ar spacing) (ls2ar shift);;
    d <- calculate_filter la around n (fst (fst b)) (snd (fst b)) pI rd w name;;
    Ok (DR d (fst b) (snd b) h).
