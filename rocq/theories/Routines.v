(** Model of the modelling routines dipole (model.py:840-922, frequency domain) and
    analytical (model.py:1112-1195).

    Printing and the final [np.squeeze] are left out.  The functions 'func_eta' and
    'func_zeta' of a resistivity dictionary are one argument [hook], applied to the
    checked model and the parameter arrays.  Frequencies and times are
    one-dimensional. *)

From Coq Require Import ZArith Reals List Bool String.
From Coquelicot Require Import Coquelicot.
From Verif Require Import PyBase CBase UtilsAb Utils Fullspace Halfspace Model.
Import ListNotations.
Local Open Scope R_scope.
Local Open Scope res_scope.

(** The parameters of all frequencies, one row each. *)
Definition rows_of (fo : freq_out) : list frow :=
  map (fun p => mkrow (fst (fst p)) (snd (fst p)) (fst (snd p)) (snd (snd p)))
      (combine (combine (f_etaH fo) (f_etaV fo)) (combine (f_zetaH fo) (f_zetaV fo))).

(** frequencies are a Laplace parameter (utils.py:490-497) *)
Definition laplace_of (freq : list R) : bool := negb (existsb (fun f => Rltb 0 f) freq).

(** The arguments res, aniso, epermH, epermV, mpermH, mpermV of the modelling routines. *)
Record params := { q_res : resin; q_aniso : option ndin; q_eH : option ndin; q_eV : option ndin;
                   q_mH : option ndin; q_mV : option ndin }.

(** the geometry part common to both routines: (off, angle, zsrc, zrec, nsrc, nrec) *)
Definition geometry (m : mins) (src rec : list ndin) : res (list R * list R * R * R * nat * nat) :=
  '(sx, sy, sz, nsrc) <- check_dipole src ;;
  '(rx, ry, rz, nrec) <- check_dipole rec ;;
  let '(off, angle) := get_off_ang m sx sy rx ry in
  match sz, rz with
  | [zs], [zr] => Ok (off, angle, zs, zr, nsrc, nrec)
  | _, _ => Err ValueError
  end.

(** [get_layer_nr] for one depth, after squeeze *)
Definition layer1 (depth : list ext) (z : R) : res Z :=
  match get_layer_nr depth [z] with [k] => Ok (Z.of_nat k) | _ => Err ValueError end.

Definition hookt := model_out -> freq_out -> freq_out.

(** 1128-1131, 865-868: only for a dictionary *)
Definition apply_hook (hook : hookt) (rs : resin) (mo : model_out) (fo : freq_out) : freq_out :=
  match rs with ResArr _ => fo | ResDict _ _ => hook mo fo end.

(** ** dipole, frequency domain.  [mk] gives the Hankel transform for the checked
    geometry; the array has one row per frequency and one column per source-receiver
    pair. *)
Definition dipole (m : mins) (hook : hookt) (mk : R -> R -> Z -> Z -> list ext -> Z -> bool -> bool -> hankel)
    (src rec : list ndin) (depth : list ext) (q : params) (freq : list R) (ab : abval)
    (xdirect : option bool) (loop_freq loop_off : bool) : res (list (list C) * nat * nat) :=
  mo <- check_model m depth (q_res q) (q_aniso q) (q_eH q) (q_eV q) (q_mH q) (q_mV q) ;;
  let fo := check_frequency m freq (m_res mo) (m_aniso mo) (m_epermH mo) (m_epermV mo) (m_mpermH mo) (m_mpermV mo) in
  let fo := apply_hook hook (q_res q) mo fo in
  '(abc, msrc, mrec) <- check_ab ab ;;
  '(off, angle, zs, zr, nsrc, nrec) <- geometry m src rec ;;
  lsrc <- layer1 (m_depth mo) zs ;;
  lrec <- layer1 (m_depth mo) zr ;;
  '(EM, _, _) <- fem (laplace_of freq) (mk zs zr lsrc lrec (m_depth mo) abc msrc mrec) abc off angle zs zr lsrc lrec
                     (rows_of fo) xdirect (m_full mo) msrc mrec loop_freq loop_off true ;;
  Ok (EM, nrec, nsrc).

(** [EM.reshape((-1, nrec, nsrc), order='F')] *)
Definition reshapeF (nrec nsrc : nat) (EM : list (list C)) : list (list (list C)) :=
  map (fun row => map (fun r => map (fun s => nth (r + nrec * s) row (RtoC 0)) (seq 0 nsrc)) (seq 0 nrec)) EM.

(** ** analytical *)
Inductive solution := SolFs | SolD (s : hs_sol) | SolOther.

(** freqtime: a scalar or numpy array, or a python list *)
Inductive ftin := FtArr (l : list R) | FtList (l : list R).
Definition ft_data (f : ftin) : list R := match f with FtArr l | FtList l => l end.

(** check_solution, utils.py:1491-1509 *)
Definition check_solution (sol : solution) (signal : option Z) (msrc mrec : bool) : res unit :=
  match sol with
  | SolOther => Err ValueError
  | SolD _ => if msrc || mrec then Err ValueError else Ok tt
  | SolFs => match signal with Some _ => Err ValueError | None => Ok tt end
  end.

(** check_time_only, utils.py:1318-1336, signal a number *)
Definition check_time_only (m : mins) (time : list R) (signal : Z) : res (list R) :=
  if inb signal [-1; 0; 1]%Z then Ok (fst (check_min time (Some (min_time m)))) else Err ValueError.

(** transpose a list of columns of length n *)
Definition rows_from (n : nat) (cols : list (list C)) : list (list C) :=
  map (fun k => map (fun c => nth k c (RtoC 0)) cols) (seq 0 n).

Definition outs (k : nat) (o : hs_out) : list C :=
  match o with One a => a | Three d r a => nth k [d; r; a] [] | Five a b c d e => nth k [a; b; c; d; e] [] end.
Definition nouts (s : hs_sol) : nat := match s with Dsplit => 3%nat | Dtetm => 5%nat | _ => 1%nat end.

(** kernel.halfspace over all offsets: one array per part *)
Definition halfspace_arr (ive kve : Z -> C -> C) (inp : hs_in) (s : hs_sol) (ab : Z) (off angle : list R) (zs zr : R)
    (etaH etaV : C) (n : nat) : res (list (list (list C))) :=
  os <- mapM (fun p => halfspace ive kve inp s ab (fst p) (snd p) zs zr etaH etaV) (combine off angle) ;;
  Ok (map (fun k => rows_from n (map (outs k) os)) (seq 0 (nouts s))).

Definition analytical (m : mins) (hook : hookt) (ive kve : Z -> C -> C) (src rec : list ndin) (q : params)
    (freqtime : ftin) (sol : solution) (signal : option Z) (ab : abval)
    : res (list (list (list C)) * nat * nat) :=
  (* 1118-1120: the result of check_time_only is an array *)
  ft <- match signal with
        | Some sg => l <- check_time_only m (ft_data freqtime) sg ;; Ok (FtArr l)
        | None => Ok freqtime
        end ;;
  mo <- check_model m [] (q_res q) (q_aniso q) (q_eH q) (q_eV q) (q_mH q) (q_mV q) ;;
  let fo := check_frequency m (ft_data ft) (m_res mo) (m_aniso mo) (m_epermH mo) (m_epermV mo) (m_mpermH mo) (m_mpermV mo) in
  let freq := f_freq fo in
  let fo := apply_hook hook (q_res q) mo fo in
  '(abc, msrc, mrec) <- check_ab ab ;;
  '(off, angle, zs, zr, nsrc, nrec) <- geometry m src rec ;;
  _ <- check_solution sol signal msrc mrec ;;
  let lap := laplace_of (ft_data ft) in
  match sol with
  | SolD s =>
      (* 1161-1168 *)
      inp <- match signal with
             | Some sg => Ok (HTime sg (ft_data ft))
             | None =>
                 match ft with
                 | FtList _ => Err TypeError
                 | FtArr l => Ok (HFreq lap (map (sval lap) freq))
                 end
             end ;;
      row <- match rows_of fo with r :: _ => Ok r | [] => Err IndexError end ;;
      eH <- idx (r_eH row) 0 ;;
      eV <- idx (r_eV row) 0 ;;
      EM <- halfspace_arr ive kve inp s abc off angle zs zr eH eV (List.length freq) ;;
      Ok (EM, nrec, nsrc)
  | _ =>
      (* 1170-1178 *)
      EM <- (if inb abc [36]%Z then Ok (mat_zeros (List.length freq) (nrec * nsrc))
             else fullspace_arr lap off angle zs zr 0 (rows_of fo) abc msrc mrec) ;;
      Ok ([EM], nrec, nsrc)
  end.
