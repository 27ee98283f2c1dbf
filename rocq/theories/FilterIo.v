(** Digital filters: the cache of filters.py:44-48 and 171-210, the filter files of
    filters.py:72-168, and the files and search grids of scripts/fdesign.py.

    Numbers are IEEE doubles; how they are written and read is a parameter, and so is
    the quotient of the first two base values rounded to 15 digits ([quo15]). *)

From Coq Require Import List Bool Ascii String Lia Arith ZArith Reals Floats.SpecFloat.
From Verif Require Import PyBase Text Json DataIo.
Import ListNotations.
Local Open Scope res_scope.

(** ** The cache *)
Inductive ftype := Fhankel | Ffourier.
Definition ftype_eqb (a b : ftype) : bool := match a, b with Fhankel, Fhankel => true | Ffourier, Ffourier => true | _, _ => false end.

(** a filter of libdlf: the names of its coefficients, and what the function returns
    (the base first) *)
Record libf := { l_values : list txt; l_arrays : list (list fl) }.

Section Filters.
Variable quo15 : fl -> fl -> fl.

(** [np.around([base[1]/base[0]], 15)] *)
Definition factor_of (b : list fl) : res (list fl) :=
  match b with x0 :: x1 :: _ => Ok [quo15 x1 x0] | _ => Err IndexError end.

(** an instance of DigitalFilter, filters.py:72-86; the attribute [base] is one of [f_attr] *)
Record filt := { f_name : txt; f_save : txt; f_coeff : list txt; f_attr : txt -> option (list fl); f_factor : option (list fl) }.
Definition std_coeff : list txt := [T "j0"; T "j1"; T "sin"; T "cos"].
Definition new_filter (name : txt) (savename : option txt) (coeff : option (list txt)) : filt :=
  {| f_name := name; f_save := match savename with None => name | Some s => s end;
     f_coeff := std_coeff ++ match coeff with None => [] | Some l => l end;
     f_attr := fun _ => None; f_factor := None |}.
Definition set_attr (k : txt) (v : list fl) (f : filt) : filt :=
  {| f_name := f_name f; f_save := f_save f; f_coeff := f_coeff f;
     f_attr := fun q => if teqb q k then Some v else f_attr f q; f_factor := f_factor f |}.
Definition set_factor (v : list fl) (f : filt) : filt :=
  {| f_name := f_name f; f_save := f_save f; f_coeff := f_coeff f; f_attr := f_attr f; f_factor := Some v |}.
Definition get_base (f : filt) : res (list fl) := match f_attr f (T "base") with Some b => Ok b | None => Err AttributeError end.

Section Cache.
(** the functions of libdlf.hankel and libdlf.fourier named in their __all__ *)
Variable lib : ftype -> txt -> option libf.

(** the cached filters, and the calls of functions of the library so far *)
Record cstate := { cached : ftype -> txt -> option filt; calls : list (ftype * txt) }.
(** 45-48: FILTERS after the import *)
Definition cinit : cstate := {| cached := fun _ _ => None; calls := [] |}.

(** 196-199: the function is called again for each of the values *)
Fixpoint set_values (t : ftype) (n : txt) (d : libf) (i : nat) (vs : list txt) (f : filt) (log : list (ftype * txt)) : res filt * list (ftype * txt) :=
  match vs with
  | [] => (Ok f, log)
  | v :: vs' => match nth_error (l_arrays d) i with
                | None => (Err IndexError, (t, n) :: log)
                | Some a => set_values t n d (S i) vs' (set_attr v a f) ((t, n) :: log)
                end
  end.
(** 196-200 *)
Definition load_lib (t : ftype) (n : txt) (d : libf) (log : list (ftype * txt)) : res filt * list (ftype * txt) :=
  match set_values t n d 0 (T "base" :: l_values d) (new_filter n None None) log with
  | (Err e, l) => (Err e, l)
  | (Ok f, l) => (b <- get_base f;; q <- factor_of b;; Ok (set_factor q f), l)
  end.

(** 184-210: access of attribute [n] of [Hankel()] or [Fourier()].  Names which are not
    filters are out of scope (AttributeError). *)
Definition access (t : ftype) (n : txt) (s : cstate) : res filt * cstate :=
  match lib t n with
  | None => (Err AttributeError, s)
  | Some d =>
    match cached s t n with
    | Some f => (Ok f, s)
    | None =>
      match load_lib t n d (calls s) with
      | (Ok f, l) => (Ok f, {| cached := fun t' n' => if ftype_eqb t t' && teqb n n' then Some f else cached s t' n'; calls := l |})
      | (Err e, l) => (Err e, {| cached := cached s; calls := l |})
      end
    end
  end.

Fixpoint accesses (l : list (ftype * txt)) (s : cstate) : list (res filt) * cstate :=
  match l with
  | [] => ([], s)
  | (t, n) :: l' => let (r, s1) := access t n s in let (rs, s2) := accesses l' s1 in (r :: rs, s2)
  end.
End Cache.

(** ** Filter files *)
Variables (wr : fl -> txt) (rd : txt -> option fl).

(** [ndarray.tofile(f, sep="\n")] and [np.fromfile(f, sep="\n")]; what cannot be read is
    an error here (numpy stops reading with a warning) *)
Definition dump (l : list fl) : txt := join [nl] (map wr l).
Definition undump (s : txt) : res (list fl) := match s with [] => Ok [] | _ => cells rd (split nl s) end.

(** [os.path.join(path, name + '_' + val + '.txt')] for a relative name *)
Definition ffile (path name val : txt) : txt := path ++ T "/" ++ name ++ T "_" ++ val ++ T ".txt".

(** 107-125 *)
Definition tofile (path : txt) (f : filt) (w : fs) : res fs :=
  b <- get_base f;;
  Ok (fold_left (fun w v => match f_attr f v with Some l => fput (ffile path (f_save f) v) (dump l) w | None => w end)
                (f_coeff f) (fput (ffile path (f_save f) (T "base")) (dump b) w)).

(** 160-165 *)
Fixpoint read_coeffs (path : txt) (vs : list txt) (w : fs) (f : filt) : res filt :=
  match vs with
  | [] => Ok f
  | v :: vs' => match fget (ffile path (f_save f) v) w with
                | None => read_coeffs path vs' w f
                | Some c => l <- undump c;; read_coeffs path vs' w (set_attr v l f)
                end
  end.
(** 148-168 *)
Definition fromfile (path : txt) (f : filt) (w : fs) : res filt :=
  match fget (ffile path (f_save f) (T "base")) w with
  | None => Err FileNotFound
  | Some c => b <- undump c;; g <- read_coeffs path (f_coeff f) w (set_attr (T "base") b f);;
              b' <- get_base g;; q <- factor_of b';; Ok (set_factor q g)
  end.

(** ** scripts/fdesign.py *)

(** whole numbers as doubles, and int() of a double *)
Definition of_nat (n : nat) : fl := binary_normalize 53 1024 (Z.of_nat n) 0 false.
Definition int_of (x : fl) : res nat :=
  match x with
  | S754_zero _ => Ok O
  | S754_finite false m e => Ok (Z.to_nat (if (e <? 0)%Z then Z.shiftr (Z.pos m) (- e) else Z.shiftl (Z.pos m) e))
  | S754_finite true _ _ => Ok O (* negative numbers do not occur *)
  | S754_infinity _ => Err ValueError (* OverflowError *)
  | S754_nan => Err ValueError
  end.

(** what design returns with full_output: (best spacing, best shift), value, the two
    grids and the objective (nspace rows of nshift values), and min_max *)
Record full := { u_space : fl; u_shift : fl; u_min : fl; u_gs : list (list fl); u_gh : list (list fl); u_obj : list (list fl); u_mm : nat }.
Definition matrix (n m : nat) (l : list (list fl)) : Prop := List.length l = n /\ forall r, In r l -> List.length r = m.

(** 491-514: one row for each number, filled with zeros *)
Definition pad (m : nat) (x : fl) : list fl := x :: repeat f0 (m - 1).
Definition full_rows (n m : nat) (u : full) : list (list fl) :=
  [pad m (of_nat n); pad m (of_nat m); pad m (u_space u); pad m (u_shift u); pad m (u_min u)]
  ++ u_gs u ++ u_gh u ++ u_obj u ++ [pad m (of_nat (u_mm u))].

(** 494-511 *)
Definition full_header (n m : nat) : list txt :=
  [T "Full inversion output from empymod.fdesign.design"; T "Line 11: Nr of spacing values"; T "Line 12: Nr of shift values";
   T "Line 13: Best spacing value"; T "Line 14: Best shift value"; T "Line 15: Min amplitude or max offset";
   T "Lines 16-" ++ str_nat (n + 15) ++ T ": Spacing matrix (" ++ str_nat n ++ T " x " ++ str_nat m ++ T ")";
   T "Lines " ++ str_nat (n + 16) ++ T "-" ++ str_nat (2 * n + 15) ++ T ": Spacing matrix (" ++ str_nat n ++ T " x " ++ str_nat m ++ T ")";
   T "Lines " ++ str_nat (2 * n + 16) ++ T "-" ++ str_nat (3 * n + 15) ++ T ": Spacing matrix (" ++ str_nat n ++ T " x " ++ str_nat m ++ T ")";
   T "Line " ++ str_nat (3 * n + 16) ++ T ": Integer: 0: min amp, 1: max r"].
(** np.savetxt with the default delimiter " "; [we] writes a number as "%.18e" *)
Variable we : fl -> txt.
Definition full_text (n m : nat) (u : full) : txt :=
  unlines (map (fun h => T "# " ++ h) (full_header n m) ++ map (fun r => join (T " ") (map we r)) (full_rows n m u)).

(** 486-491: the compressed file of a name with a suffix is not told apart *)
Definition full_file (path name : txt) : txt :=
  let parts := split "." name in
  path ++ T "/" ++ hd [] parts ++ T "_full.txt" ++ (if (List.length parts =? 2)%nat then T ".gz" else []).

(** 478-532 *)
Definition save_filter (name : txt) (f : filt) (u : option full) (path : txt) (w : fs) : res fs :=
  w1 <- tofile path f w;;
  match u with
  | None => Ok w1
  | Some u => let n := List.length (u_obj u) in let m := List.length (hd [] (u_obj u)) in
              Ok (fput (full_file path name) (full_text n m u) w1)
  end.

(** np.loadtxt of a file: a table, or one-dimensional if it has one column *)
Fixpoint wtable (l : list txt) : res (list (list fl)) :=
  match l with
  | [] => Ok []
  | x :: l' => r <- cells rd (split " " x);; t <- wtable l';;
               match t with
               | [] => Ok [r]
               | r2 :: _ => if (List.length r =? List.length r2)%nat then Ok (r :: t) else Err ValueError
               end
  end.
Definition load_table (c : txt) : res (list (list fl)) := wtable (filter nonempty (map no_comment (lines (unl c)))).
Definition one_dim (t : list (list fl)) : bool := forallb (fun r => (List.length r =? 1)%nat) t.

(** [out[i][0]] *)
Definition at0 (t : list (list fl)) (i : nat) : res fl :=
  match nth_error t i with Some (x :: _) => Ok x | _ => Err IndexError end.
Definition slice {A} (a b : nat) (t : list A) : list A := firstn (b - a) (skipn a t).
(** the assignment of a slice to an (n x m) part; broadcasting of other shapes is an error here *)
Definition block (n m : nat) (t : list (list fl)) : res (list (list fl)) :=
  if (List.length t =? n)%nat && forallb (fun r => (List.length r =? m)%nat) t then Ok t else Err ValueError.

(** 564-575; a table with one column is one-dimensional, and [out[0][0]] fails *)
Definition read_full (t : list (list fl)) : res full :=
  if one_dim t then Err IndexError
  else
    a <- at0 t 0;; n <- int_of a;; b <- at0 t 1;; m <- int_of b;;
    gs <- block n m (slice 5 (n + 5) t);;
    gh <- block n m (slice (n + 5) (2 * n + 5) t);;
    s <- at0 t 2;; h <- at0 t 3;; v <- at0 t 4;;
    mm <- at0 t (3 * n + 5);; k <- int_of mm;;
    Ok {| u_space := s; u_shift := h; u_min := v; u_gs := gs; u_gh := gh; u_obj := slice (2 * n + 5) (3 * n + 5) t; u_mm := k |}.

(** 535-578 *)
Definition load_filter (name : txt) (want : bool) (path : txt) (coeff : option (list txt)) (w : fs) : res (filt * option full) :=
  f <- fromfile path (new_filter (hd [] (split "." name)) None coeff) w;;
  if want then
    match fget (full_file path name) w with
    | None => Ok (f, None)
    | Some c => t <- load_table c;; u <- read_full t;; Ok (f, Some u)
    end
  else Ok (f, None).
End Filters.

(** 1386-1408, for real numbers: the slice for brute *)
Inductive lsinp := LsFloat (x : R) | LsTuple (a b : R) (num : nat).
Definition ls2ar (i : lsinp) : R * R * R :=
  let '(start, stop, num) := match i with LsFloat x => (x, (x + 1)%R, 1%nat) | LsTuple a b n => (a, b, n) end in
  let '(stop', step) := if (num <? 2)%nat || (if Req_EM_T start stop then true else false) then (start, 1%R)
                        else (stop, ((stop - start) / (INR num - 1))%R) in
  (start, (stop' + step / 2)%R, step).

(** the points of a slice [start:stop:step] in np.mgrid, which brute uses: ceil((stop-start)/step) points *)
Definition ceil (x : R) : Z := (- Int_part (- x))%Z.
Definition grid (s : R * R * R) : list R :=
  let '(start, stop, step) := s in
  map (fun i => (start + INR i * step)%R) (seq 0 (Z.to_nat (ceil ((stop - start) / step)))).
