(** Data files: io.py:115-253.

    Numbers are IEEE doubles ([spec_float] of the standard library).  How a double is
    written ("%+.18e" in text files, repr in JSON files) and read is a parameter;
    the theorems assume that the numbers which occur are read back as they were
    written.  The date and the version are parameters, too.  [kwargs] other than info
    are not passed. *)

From Coq Require Import List Bool Ascii String Lia Arith ZArith Floats.SpecFloat.
From Verif Require Import PyBase Text Json.
Import ListNotations.
Local Open Scope res_scope.

Definition fl := spec_float.
(** double precision *)
Definition fadd : fl -> fl -> fl := SFadd 53 1024.
Definition fsub : fl -> fl -> fl := SFsub 53 1024.
Definition fmul : fl -> fl -> fl := SFmul 53 1024.
Definition f0 : fl := S754_zero false.
Definition f1 : fl := S754_finite false 4503599627370496 (-52).

(** complex numbers of doubles, as numpy computes with them *)
Definition fc := (fl * fl)%type.
Definition fcadd (a b : fc) : fc := (fadd (fst a) (fst b), fadd (snd a) (snd b)).
Definition fcmul (a b : fc) : fc :=
  (fsub (fmul (fst a) (fst b)) (fmul (snd a) (snd b)), fadd (fmul (fst a) (snd b)) (fmul (snd a) (fst b))).
Definition fcr (x : fl) : fc := (x, f0).

(** arrays: shape and values in C order *)
Record nd (X : Type) := { shp : list nat; vals : list X }.
Arguments shp {X} _. Arguments vals {X} _.
Definition prod (l : list nat) : nat := fold_right Nat.mul 1 l.
Definition nd_ok {X} (a : nd X) : Prop := List.length (vals a) = prod (shp a).
Inductive data := Real (a : nd fl) | Cplx (a : nd fc).

(** [l] cut into [n] rows of [c] elements *)
Fixpoint rows {X} (n c : nat) (l : list X) : list (list X) :=
  match n with O => [] | S m => firstn c l :: rows m c (skipn c l) end.

Section Io.
Variables (fe pr : fl -> txt) (rd_r : txt -> option fl) (rd_c : txt -> option fc) (rd : txt -> option fl).
Variables (date version : txt).

(** ** save_data *)

(** 157: [str(shape)] of a 3-D array *)
Definition str_shape (s : list nat) : txt := T "(" ++ join (T ", ") (map str_nat s) ++ T ")".
Definition dtype (x : data) : txt := match x with Real _ => T "float64" | Cplx _ => T "complex128" end.
Definition dshape (x : data) : list nat := match x with Real a => shp a | Cplx a => shp a end.

(** 153-160 *)
Definition meta (x : data) (info : txt) : list (txt * txt) :=
  [(T "date", date); (T "version", T "empymod v" ++ version); (T "shape", str_shape (dshape x)); (T "dtype", dtype x); (T "info", info)].

(** 178 *)
Definition meta_line (kv : txt * txt) : txt :=
  T "# " ++ fst kv ++ T ":" ++ match snd kv with [] => [] | v => T " " ++ v end.

(** 166-172: one number, real or complex *)
Definition fmt_r (x : fl) : txt := fe x.
Definition fmt_c (x : fc) : txt := fe (fst x) ++ fe (snd x) ++ T "j".

(** 177-182: [data.reshape((-1, shape[2]))] fails for shape[2] = 0; np.savetxt writes
    the header line and one line per row *)
Definition body {X} (fmt : X -> txt) (c : nat) (l : list X) : list txt :=
  T "# data" :: map (fun r => join (T ", ") (map fmt r)) (rows (List.length l / c) c l).
Definition txt_file (x : data) (info : txt) : res txt :=
  match dshape x with
  | [a; b; c] =>
    if (c =? 0)%nat then Err ValueError
    else Ok (unlines (map meta_line (meta x info)
                      ++ match x with Real y => body fmt_r c (vals y) | Cplx y => body fmt_c c (vals y) end))
  | _ => Err ValueError
  end.

(** [ndarray.tolist()] *)
Fixpoint tolist (s : list nat) (l : list fl) : json fl :=
  match s with
  | [] => match l with x :: _ => JNum x | [] => JNull end
  | n :: s' => JArr (map (tolist s') (rows n (prod s') l))
  end.

(** 185-189 and the encoder, 256-282: complex data are stacked as [real, imag] *)
Definition json_file (x : data) (info : txt) : json fl :=
  JObj (map (fun kv => (fst kv, JStr (snd kv))) (meta x info)
        ++ [(T "data", match x with
                       | Real a => tolist (shp a) (vals a)
                       | Cplx a => tolist (2 :: shp a) (map fst (vals a) ++ map snd (vals a))
                       end)]).

(** 141-193 *)
Definition save_data (f : txt) (x : data) (info : txt) (w : fs) : res fs :=
  if negb (List.length (dshape x) =? 3)%nat then Err ValueError
  else if ends_with (T ".txt") f then t <- txt_file x info;; Ok (fput f t w)
  else if ends_with (T ".json") f then Ok (fput f (print pr indent2 0 (json_file x info)) w)
  else Err ValueError.

(** ** load_data *)

(** universal newlines of a file opened in text mode *)
Fixpoint unl (s : txt) : txt :=
  match s with
  | [] => []
  | c :: s' => if ceqb c cr then nl :: match s' with d :: s2 => if ceqb d nl then unl s2 else unl s' | [] => [] end
               else c :: unl s'
  end.

(** 224-230; the newest entry comes first *)
Fixpoint read_meta (l : list txt) (acc : list (txt * txt)) : res (list (txt * txt)) :=
  match l with
  | [] => Ok acc
  | x :: l' =>
    if contains (T "data") x then Ok acc
    else match split1 ":" x with
         | None => Err ValueError
         | Some (k, v) => read_meta l' ((lstrip (T "# ") k, rstrip (lstrip (T " ") v)) :: acc)
         end
  end.
Definition mget (k : txt) (m : list (txt * txt)) : res txt :=
  match fget k m with Some v => Ok v | None => Err KeyError end.

(** 231-232: the text between the first two brackets; its numbers *)
Fixpoint cut (cs s : txt) : list txt :=
  match s with
  | [] => [[]]
  | x :: s' => if cin x cs then [] :: cut cs s'
               else match cut cs s' with [] => [[x]] | h :: t => (x :: h) :: t end
  end.
Fixpoint ints (l : list txt) : res (list nat) :=
  match l with [] => Ok [] | x :: l' => n <- int_txt x;; r <- ints l';; Ok (n :: r) end.
Definition read_shape (s : txt) : res (list nat) :=
  match cut (T "()") s with
  | _ :: t :: _ => ints (split "," t)
  | _ => Err IndexError
  end.

(** np.loadtxt with delimiter ",": what follows a '#' is ignored, empty lines are
    skipped, and all rows have the same number of columns *)
Definition no_comment (x : txt) : txt := match split1 "#" x with Some (a, _) => a | None => x end.
Fixpoint cells {X} (rdx : txt -> option X) (l : list txt) : res (list X) :=
  match l with
  | [] => Ok []
  | x :: l' => match rdx (strip x) with None => Err ValueError | Some v => r <- cells rdx l';; Ok (v :: r) end
  end.
Fixpoint table {X} (rdx : txt -> option X) (l : list txt) : res (list (list X)) :=
  match l with
  | [] => Ok []
  | x :: l' => r <- cells rdx (split "," x);; t <- table rdx l';;
               match t with
               | [] => Ok [r]
               | r2 :: _ => if (List.length r =? List.length r2)%nat then Ok (r :: t) else Err ValueError
               end
  end.
Definition nonempty (x : txt) : bool := negb (teqb x []).
Definition loadtxt {X} (rdx : txt -> option X) (ls : list txt) : res (list X) :=
  t <- table rdx (filter nonempty (map no_comment ls));; Ok (List.concat t).
Definition reshape {X} (l : list X) (s : list nat) : res (nd X) :=
  if (List.length l =? prod s)%nat then Ok {| shp := s; vals := l |} else Err ValueError.

(** 221-235 *)
Definition load_txt (c : txt) : res data :=
  let ls := lines (unl c) in
  m <- read_meta ls [];;
  ss <- mget (T "shape") m;;
  s <- read_shape ss;;
  dt <- mget (T "dtype") m;;
  if teqb dt (T "float64") then l <- loadtxt rd_r ls;; a <- reshape l s;; Ok (Real a)
  else if teqb dt (T "complex128") then l <- loadtxt rd_c ls;; a <- reshape l s;; Ok (Cplx a)
  else Err TypeError.

(** np.array of nested lists of numbers; other values are out of scope *)
Fixpoint nd_of (v : json fl) : res (nd fl) :=
  match v with
  | JNum x => Ok {| shp := []; vals := [x] |}
  | JArr l =>
    (fix go (l : list (json fl)) : res (nd fl) :=
       match l with
       | [] => Ok {| shp := [0]; vals := [] |}
       | x :: l' => a <- nd_of x;; 
                    match l' with
                    | [] => Ok {| shp := 1 :: shp a; vals := vals a |}
                    | _ => r <- go l';;
                           match shp r with
                           | n :: s' => if list_eq_dec Nat.eq_dec s' (shp a) then Ok {| shp := S n :: s'; vals := vals a ++ vals r |}
                                        else Err ValueError
                           | [] => Err ValueError
                           end
                    end
       end) l
  | _ => Err TypeError
  end.

(** 247: [data[0, ...] + 1j*data[1, ...]] *)
Definition recombine (a : nd fl) : res (nd fc) :=
  match shp a with
  | S (S n) :: s => let m := prod s in
                    Ok {| shp := s; vals := map (fun ab => fcadd (fcr (fst ab)) (fcmul (f0, f1) (fcr (snd ab))))
                                                (combine (firstn m (vals a)) (firstn m (skipn m (vals a)))) |}
  | _ => Err IndexError
  end.

Definition jget (k : txt) (m : list (txt * json fl)) : res (json fl) :=
  match find (fun kv => teqb k (fst kv)) m with Some kv => Ok (snd kv) | None => Err KeyError end.

(** 238-247 *)
Definition load_json (c : txt) : res data :=
  v <- loads rd c;;
  match v with
  | JObj m => d <- jget (T "data") m;; a <- nd_of d;; t <- jget (T "dtype") m;;
              match t with
              | JStr s => if contains (T "complex") s then r <- recombine a;; Ok (Cplx r) else Ok (Real a)
              | _ => Err TypeError
              end
  | _ => Err TypeError
  end.

(** 217-253 *)
Definition load_data (f : txt) (w : fs) : res data :=
  if ends_with (T ".txt") f then match fget f w with Some c => load_txt c | None => Err FileNotFound end
  else if ends_with (T ".json") f then match fget f w with Some c => load_json c | None => Err FileNotFound end
  else Err ValueError.

End Io.
