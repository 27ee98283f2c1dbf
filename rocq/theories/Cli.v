(** The command-line interface, __main__.py.

    The modelling routines are a parameter [call]; printing is recorded as events.
    What a failing save_data leaves in the output file is not modelled. *)

From Coq Require Import List Bool Ascii String Lia Arith.
From Verif Require Import PyBase Text Json DataIo.
Import ListNotations.
Local Open Scope res_scope.

Definition choices : list txt := [T "bipole"; T "dipole"; T "loop"; T "analytical"].

(** ** argparse for the arguments of 39-79 *)
Inductive akind := APos | AHelp | AReport | AVersion | AUnknown.

Definition digit (c : ascii) : bool := cin c (T "0123456789").
(** argparse takes a negative number for a positional argument: -\d+ or -\d*\.\d+ *)
Definition neg_number (a : txt) : bool :=
  match a with
  | c :: s => ceqb c "-" &&
      match split1 "." s with
      | None => negb (teqb s []) && forallb digit s
      | Some (x, y) => forallb digit x && negb (teqb y []) && forallb digit y
      end
  | [] => false
  end.
(** an abbreviation of a long option that tells it from the others *)
Definition abbrev (a o : txt) : bool := prefixb a o && (3 <=? List.length a)%nat.
(** options with a value ("--report=x") and joined short options are errors here as in
    argparse, but reported after a later -h *)
Definition kind (a : txt) : akind :=
  if negb (prefixb (T "-") a) then APos
  else if teqb a (T "-h") || abbrev a (T "--help") then AHelp
  else if abbrev a (T "--report") then AReport
  else if abbrev a (T "--version") then AVersion
  else if teqb a (T "-") || neg_number a || cin " " a then APos
  else AUnknown.

Record pargs := { a_routine : option txt; a_input : option txt; a_output : option txt; a_report : bool; a_version : bool }.
Inductive parsed := Parsed (p : pargs) | Exits (code : nat).

(** [pos] is the first group of positional arguments (None: none seen yet), [grp]
    says whether the previous argument belongs to it, [bad] records arguments that are
    not recognised; a second group is not recognised *)
Fixpoint scan (l : list txt) (pos : option (list txt)) (grp bad rep ver : bool) : parsed :=
  let bad_choice (p : option (list txt)) := match p with Some (r :: _) => negb (existsb (teqb r) choices) | _ => false end in
  match l with
  | [] =>
    if bad_choice pos then Exits 2
    else match pos with
         | Some (_ :: _ :: _ :: _ :: _) => Exits 2
         | _ => if bad then Exits 2
                else let ps := match pos with Some p => p | None => [] end in
                     Parsed {| a_routine := nth_error ps 0; a_input := nth_error ps 1; a_output := nth_error ps 2; a_report := rep; a_version := ver |}
         end
  | a :: l' =>
    match kind a with
    | APos => match pos with
              | None => scan l' (Some [a]) true bad rep ver
              | Some p => if grp then scan l' (Some (p ++ [a])) true bad rep ver else scan l' pos false true rep ver
              end
    | k => if bad_choice pos then Exits 2
           else match k with
                | AHelp => Exits 0
                | AReport => scan l' pos false bad true ver
                | AVersion => scan l' pos false bad rep true
                | _ => scan l' pos false true rep ver
                end
    end
  end.
(** __main__.py:82: [parser.parse_args(args)]. *)
Definition parse_args (l : list txt) : parsed := scan l None false false false false.

(** ** main and run *)
Section Cli.
Variables (fe pr : fl -> txt) (rd : txt -> option fl).
Variables (date version : txt).
Variable call : txt -> list (txt * json fl) -> res data.

Inductive event := EvVersion | EvReport | EvInfo | EvCalled (r : txt) (kw : list (txt * json fl)) | EvPrint (d : data).
Inductive outcome := Returns (e : option exn) | Raises (e : exn) | SysExit (code : nat).

Definition sq_false (m : list (txt * json fl)) : list (txt * json fl) := dict_set (T "squeeze") (JBool false) m.
(** __main__.py:116: the comment in the output file. *)
Definition info_text (r i : txt) : txt := T "Generated with <empymod." ++ r ++ T "()> from input <" ++ i ++ T ">.".

(** 105-119 *)
Definition run (p : pargs) (w : fs) : res unit * list event * fs :=
  match a_routine p with
  | None => (Err TypeError, [], w)
  | Some r =>
    match (match a_input p with None => Err TypeError | Some i => load_input rd i w end) with
    | Err e => (Err e, [], w)
    | Ok (JObj m) =>
      let kw := sq_false m in
      match call r kw with
      | Err e => (Err e, [EvCalled r kw], w)
      | Ok d =>
        match a_output p with
        | Some (c :: o) =>
          match save_data fe pr date version (c :: o) d (info_text r (match a_input p with Some i => i | None => [] end)) w with
          | Ok w' => (Ok tt, [EvCalled r kw], w')
          | Err e => (Err e, [EvCalled r kw], w)
          end
        | _ => (Ok tt, [EvCalled r kw; EvPrint d], w)
        end
      end
    | Ok _ => (Err TypeError, [], w)
    end
  end.

(** 101 *)
Definition caught (e : exn) : bool :=
  match e with AttributeError | TypeError | ValueError | FileNotFound => true | _ => false end.

(** 27-102; [argv] is sys.argv *)
Definition main (args : option (list txt)) (argv : list txt) (w : fs) : outcome * list event * fs :=
  match parse_args (match args with None => tl argv | Some l => l end) with
  | Exits n => (SysExit n, [], w)
  | Parsed p =>
    if a_version p then (Returns None, [EvVersion], w)
    else if a_report p then (Returns None, [EvReport], w)
    else if (List.length argv <? 3)%nat then (Returns None, [EvInfo], w)
    else let '(r, ev, w') := run p w in
         (match r with Ok _ => Returns None | Err e => if caught e then Returns (Some e) else Raises e end, ev, w')
  end.
End Cli.
