(** Model of model.py:1597-1715, [fem] and [tem]. *)

From Coq Require Import ZArith Reals List Bool String.
From Coquelicot Require Import Coquelicot.
From Verif Require Import PyBase CBase Kernel Utils Transform Fullspace.
Import ListNotations.
Local Open Scope R_scope.
Local Open Scope C_scope.
Local Open Scope res_scope.

(** One row (one frequency) of the parameter arrays etaH, etaV, zetaH, zetaV *)
Record frow := mkrow { r_eH : list C; r_eV : list C; r_zH : list C; r_zV : list C }.

(** A Hankel transform [transform.hankel_*] with its fixed arguments applied:
    rows of the parameters, offsets, angle factors, xdirect; result: field
    (frequencies x offsets), kernel count, convergence flag. *)
Definition hankel := list frow -> list R -> list R -> bool -> res (list (list C) * Z * bool).

(** [a + b] for two-dimensional arrays, and [np.zeros]. *)
Definition mat_add (a b : list (list C)) : list (list C) := map2 vadd a b.
Definition mat_zeros (n m : nat) : list (list C) := repeat (czeros m) n.

(** shape test of [fEM += out]: (n, m) arrays *)
Definition shape_ok (n m : nat) (a : list (list C)) : bool :=
  (List.length a =? n)%nat && forallb (fun r => (List.length r =? m)%nat) a.
Definition need {A} (b : bool) (e : exn) (a : A) : res A := if b then Ok a else Err e.

(** 1621-1625: the full-space solution for all frequencies and offsets; [anyneg]
    is False for real arrays *)
Definition fullspace_arr (rdt : bool) (off angle : list R) (zsrc zrec : R) (lrec : Z) (rows : list frow)
    (ab : Z) (msrc mrec : bool) : res (list (list C)) :=
  cols <- mapM (fun r => eH <- idx (r_eH r) lrec ;; eV <- idx (r_eV r) lrec ;;
                         zH <- idx (r_zH r) lrec ;; zV <- idx (r_zV r) lrec ;;
                         Ok (eH, eV, zH, zV)) rows ;;
  let an := negb rdt && fs_anyneg msrc mrec (map (fun c => fst (fst (fst c))) cols) (map (fun c => snd (fst c)) cols) in
  mapM (fun c => let '(eH, eV, zH, zV) := c in
          mapM (fun p => fullspace rdt an (fst p) (snd p) zsrc zrec eH eV zH zV ab msrc mrec)
               (combine off angle)) cols.

(** 1640-1668: the three ways of calling the Hankel transform; the state is
    (fEM, kcount, conv) *)
Definition fem_state := (list (list C) * Z * bool)%type.

(** model.py:1645-1653: one step of the loop over frequencies. *)
Definition loop_freq_step (calc : hankel) (rows : list frow) (off ang : list R) (xdir : bool)
    (st : fem_state) (i : nat) : res fem_state :=
  let '(fEM, kc, cv) := st in
  row <- match nth_error rows i with Some r => Ok r | None => Err IndexError end ;;
  '(o, k, c) <- calc [row] off ang xdir ;;
  o <- need (shape_ok 1 (List.length off) o) ValueError o ;;
  Ok (replace fEM i (vadd (nth i fEM []) (nth 0 o [])), (kc + k)%Z, cv && c).

(** model.py:1656-1663: one step of the loop over offsets. *)
Definition loop_off_step (calc : hankel) (rows : list frow) (off ang : list R) (xdir : bool)
    (st : fem_state) (i : nat) : res fem_state :=
  let '(fEM, kc, cv) := st in
  of <- idx off (Z.of_nat i) ;;
  an <- idx ang (Z.of_nat i) ;;
  '(o, k, c) <- calc rows [of] [an] xdir ;;
  o <- need (shape_ok (List.length rows) 1 o) ValueError o ;;
  Ok (map2 (fun r oi => replace r i (Cplus (nth i r (RtoC 0)) (nth 0 oi (RtoC 0)))) fEM o,
      (kc + k)%Z, cv && c).

(** model.py:1643-1669: choice of the loop. *)
Definition fem_calc (calc : hankel) (rows : list frow) (off ang : list R) (xdir loop_freq loop_off : bool)
    (st : fem_state) : res fem_state :=
  if loop_freq then foldM (loop_freq_step calc rows off ang xdir) (seq 0 (List.length rows)) st
  else if loop_off then foldM (loop_off_step calc rows off ang xdir) (seq 0 (List.length off)) st
  else
    let '(fEM, kc, cv) := st in
    '(o, k, c) <- calc rows off ang xdir ;;
    o <- need (shape_ok (List.length rows) (List.length off) o) ValueError o ;;
    Ok (mat_add fEM o, (kc + k)%Z, cv && c).

(** 1597-1670 [fem].  [xdirect] is None, True or False; [rdt]: the arrays are
    real (Laplace domain). *)
Definition fem (rdt : bool) (calc : hankel) (ab : Z) (off angle : list R) (zsrc zrec : R) (lsrc lrec : Z)
    (rows : list frow) (xdirect : option bool) (isfullspace msrc mrec loop_freq loop_off : bool)
    (conv : bool) : res fem_state :=
  let fEM := mat_zeros (List.length rows) (List.length off) in
  if inb ab [36]%Z then Ok (fEM, 0%Z, conv)
  else
    fEM <- (if match xdirect with Some true => true | _ => false end && (isfullspace || (lsrc =? lrec)%Z)
            then f <- fullspace_arr rdt off angle zsrc zrec lrec rows ab msrc mrec ;; Ok (mat_add fEM f)
            else Ok fEM) ;;
    let xdir := match xdirect with None => true | Some b => b end in
    if negb (isfullspace && xdir) then
      let ang := map (fun a => angle_factor a ab msrc mrec) angle in
      fem_calc calc rows off ang xdir loop_freq loop_off (fEM, 0%Z, conv)
    else Ok (fEM, 0%Z, conv).

(** [transform.hankel_dlf] as used by [fem]; which kernels are used depends on [ab] *)
Definition used_of (ab : Z) : bool * bool * bool :=
  let t := collect ab false 1 (RtoC 0) (RtoC 0) in (isSome (t0 t), isSome (t1 t), isSome (t0b t)).

Definition dlf_calc (spl : interp) (filt : dfilter) (ppd : R) (zsrc zrec : R) (lsrc lrec : Z)
    (depth : list ext) (ab : Z) (msrc mrec : bool) : hankel :=
  fun rows off ang xdir =>
    let wn := fun f lam =>
      match nth_error rows f with
      | Some r => wavenumber zsrc zrec lsrc lrec depth (r_eH r) (r_eV r) (r_zH r) (r_zV r) lam ab xdir msrc mrec
      | None => Err IndexError
      end in
    hankel_dlf spl wn (used_of ab) (List.length rows) off (Some ang) ab filt ppd.

(** ** 1673-1715 [tem]

    [calc] is [transform.fourier_*] with its settings applied.  The signal is
    -1, 0 or 1; a waveform is a function applied to the final array. *)
Definition step_factor (signal : Z) (f : R) : C :=
  if inb signal [-1; 1]%Z then Cdiv (RtoC (IZR signal)) (Cmult (Cmult (RtoC 2) Ci) (RtoC (PI * f)))
  else RtoC 1.

(** [fEM[:, i]] *)
Definition column (i : nat) (fEM : list (list C)) : list C := map (fun r => nth i r (RtoC 0)) fEM.

(** model.py:1673-1715 [tem]. *)
Definition tem (calc : list C -> res (list R * bool)) (ntime noff : nat) (fEM : list (list C))
    (freq : list R) (signal : Z) (waveform : option (list (list R) -> list (list R))) (conv : bool)
    : res (list (list R) * bool) :=
  '(cols, cv) <- foldM (fun st i =>
       let '(cols, cv) := st in
       '(o, c) <- calc (map2 Cmult (column i fEM) (map (step_factor signal) freq)) ;;
       o <- need (List.length o =? ntime)%nat ValueError o ;;
       Ok (cols ++ [o], cv && c)) (seq 0 noff) ([], conv) ;;
  let tEM := map (fun t => map (fun col => 2 / PI * nth t col 0)%R cols) (seq 0 ntime) in
  Ok (match waveform with Some w => w tEM | None => tEM end, cv).
