(** Model of the modelling routine bipole (model.py:431-645) and of the pole types of
    check_bipole (utils.py:268-289).

    Printing, warnings (unequal eta or zeta at a level), the kernel count, the
    convergence flag (only printed), the user function 'bandpass' (Hooks.v) and the final
    [np.squeeze] are left out.  Arrays have one row per frequency and one column per
    source-receiver pair. *)

From Coq Require Import ZArith Reals List Bool String.
From Coquelicot Require Import Coquelicot.
From Verif Require Import PyBase CBase UtilsAb Utils Transform Model Routines.
Import ListNotations.
Local Open Scope R_scope.
Local Open Scope res_scope.

(** msrc, mrec as given by the user: a bool or the strings 'b' (or 'loop') and 'j' *)
Inductive mxv := MxBool (b : bool) | MxB | MxJ | MxStr.
(** electric current density, magnetic flux density, or the plain field *)
Inductive xtype := XNone | XB | XJ.

(** utils.py:268-289; any other string, and 'j' for a source, fails in the list index
    ['Electric', 'Magnetic'][mx] *)
Definition check_mx (src : bool) (mx : mxv) : res (bool * xtype) :=
  match mx with
  | MxJ => if src then Err TypeError else Ok (false, XJ)
  | MxB => Ok (true, XB)
  | MxBool b => Ok (b, XNone)
  | MxStr => Err TypeError
  end.

(** the slice l[i::n] *)
Definition stride (d : R) (i n : nat) (l : list R) : list R :=
  map (fun j => nth (i + n * j) l d)
      (seq 0 (if (i <? List.length l)%nat then S ((List.length l - 1 - i) / n) else 0)).

(** multiplication of each row with a vector of the same length, and of each row f with
    a number *)
Definition scale_cols (v : list R) (M : list (list C)) : list (list C) :=
  map (fun row => map2 (fun a x => Cmult a (RtoC x)) row v) M.
Definition scale_mat (x : R) (M : list (list C)) : list (list C) :=
  map (map (fun a => Cmult a (RtoC x))) M.
Definition scale_rows (v : list C) (M : list (list C)) : list (list C) :=
  map2 (fun x row => map (fun a => Cmult a x) row) v M.

(** np.ones((nr, ns))*A, broadcast to that shape, then ravel('F') *)
Definition bcast2 (nr ns : nat) (A : list (list R)) : res (list R) :=
  let okd n k := (Nat.eqb k 1 || Nat.eqb k n)%bool in
  if okd nr (List.length A) && forallb (fun row => okd ns (List.length row)) A then
    Ok (flat_map (fun s => map (fun r => nth s (bcast ns (nth r (bcast nr A) [])) 0) (seq 0 nr)) (seq 0 ns))
  else Err ValueError.

(** indices of the slice a:b:step (step > 0) *)
Definition slice (a b step : nat) : list nat :=
  filter (fun k => Nat.eqb ((k - a) mod step) 0) (seq a (b - a)).

(** EM[:, cols] = S *)
Definition set_cols (cols : list nat) (S EM : list (list C)) : res (list (list C)) :=
  if (Nat.eqb (List.length S) (List.length EM) &&
      forallb (fun row => Nat.eqb (List.length row) (List.length cols)) S)%bool
  then Ok (map2 (fun srow row => fold_left (fun row p => replace row (fst p) (snd p)) (combine cols srow) row) S EM)
  else Err ValueError.

(** np.repeat(w, n) and np.tile(w, n) *)
Definition np_repeat {A} (n : nat) (l : list A) : list A := flat_map (fun a => repeat a n) l.
Definition np_tile {A} (n : nat) (l : list A) : list A := List.concat (repeat l n).

(** what the inner loops need: minimum values, parameter rows, checked depths, ... *)
Record setting := mkSet { k_m : mins; k_mk : R -> R -> Z -> Z -> list ext -> Z -> bool -> bool -> hankel;
  k_depth : list ext; k_rows : list frow; k_lap : bool; k_full : bool; k_xd : option bool;
  k_lf : bool; k_lo : bool; k_ms : bool; k_mr : bool; k_st : xtype; k_rt : xtype }.

(** value at layer l of every row of a parameter *)
Definition at_layer (f : frow -> list C) (l : Z) (rows : list frow) : res (list C) := mapM (fun r => idx (f r) l) rows.

(** 554-571: loop over the components; (irec, isrc) is the shape of the block *)
Definition ab_loop (k : setting) (irec isrc : nat) (ts tr : azmdip) (off angle : list R) (zs zr : R) (ls lr : Z)
    (abs : list Z) : res (list (list C)) :=
  foldM (fun EM ab =>
      '(o, _, _) <- fem (k_lap k) (k_mk k zs zr ls lr (k_depth k) ab (k_ms k) (k_mr k)) ab off angle zs zr ls lr
                        (k_rows k) (k_xd k) (k_full k) (k_ms k) (k_mr k) (k_lf k) (k_lo k) true ;;
      t <- bcast2 irec isrc (get_geo_fact (k_m k) ab (t_azm ts) (t_dip ts) (t_azm tr) (t_dip tr) (k_ms k) (k_mr k)) ;;
      Ok (mat_add EM (scale_cols t o)))
    abs (mat_zeros (List.length (k_rows k)) (irec * isrc)).

(** 534-591: one integration point of the receiver *)
Definition rec_point (k : setting) (irec isrc : nat) (ts tr : azmdip) (abs : list Z) (sx sy : list R) (zs : R) (ls : Z)
    (EM : list (list C)) (irg : nat) : res (list (list C)) :=
  let rx := stride 0 irg (t_pts tr) (t_x tr) in
  let ry := stride 0 irg (t_pts tr) (t_y tr) in
  zr <- idx (t_z tr) (Z.of_nat irg) ;;
  let '(off, angle) := get_off_ang (k_m k) sx sy rx ry in
  lr <- layer1 (k_depth k) zr ;;
  ab <- ab_loop k irec isrc ts tr off angle zs zr ls lr abs ;;
  ab <- match k_rt k with
        | XJ => e <- at_layer r_eH lr (k_rows k) ;; Ok (scale_rows e ab)
        | XB => e <- at_layer r_zH lr (k_rows k) ;; Ok (scale_rows e ab)
        | XNone => Ok ab
        end ;;
  w <- idx (t_gw tr) (Z.of_nat irg) ;;
  Ok (mat_add EM (scale_mat w ab)).

(** 519-602: one integration point of the source *)
Definition src_point (k : setting) (irec isrc : nat) (ts tr : azmdip) (abs : list Z) (EM : list (list C)) (isg : nat)
    : res (list (list C)) :=
  let sx := stride 0 isg (t_pts ts) (t_x ts) in
  let sy := stride 0 isg (t_pts ts) (t_y ts) in
  zs <- idx (t_z ts) (Z.of_nat isg) ;;
  ls <- layer1 (k_depth k) zs ;;
  r <- foldM (rec_point k irec isrc ts tr abs sx sy zs ls) (seq 0 (t_pts tr))
             (mat_zeros (List.length (k_rows k)) (irec * isrc)) ;;
  r <- match k_st k with
       | XB => e <- at_layer r_zH ls (k_rows k) ;; Ok (scale_rows e r)
       | _ => Ok r
       end ;;
  w <- idx (t_gw ts) (Z.of_nat isg) ;;
  Ok (mat_add EM (scale_mat w r)).

(** 514-609: the block of one source and one receiver depth *)
Definition block (k : setting) (strength : R) (irec isrc : nat) (ts tr : azmdip) : res (list (list C)) :=
  let abs := get_abs (k_ms k) (k_mr k) (t_azm ts) (t_dip ts) (t_azm tr) (t_dip tr) in
  s <- foldM (src_point k irec isrc ts tr abs) (seq 0 (t_pts ts)) (mat_zeros (List.length (k_rows k)) (irec * isrc)) ;;
  if Rltb 0 strength then
    let w := map2 Rmult (np_repeat irec (t_w ts)) (np_tile isrc (t_w tr)) in
    if (Nat.eqb (List.length (np_repeat irec (t_w ts))) (irec * isrc) && Nat.eqb (List.length (np_tile isrc (t_w tr))) (irec * isrc))%bool
    then Ok (scale_cols w s) else Err ValueError
  else Ok s.

(** 611-621: placement; the four cases *)
Definition place (nrec nrecz nsrc nsrcz isz irz : nat) (sEM EM : list (list C)) : res (list (list C)) :=
  if Nat.eqb nrec nrecz then
    if Nat.eqb nsrc nsrcz then set_cols (slice (isz * nrec + irz) (isz * nrec + irz + 1) 1) sEM EM
    else set_cols (slice irz (nsrc * nrec) nrec) sEM EM
  else
    if Nat.eqb nsrc nsrcz then set_cols (slice (isz * nrec) (nrec * (isz + 1)) 1) sEM EM
    else Ok sEM.

(** 487-621: the loops over the depths; [gl] gives the quadrature rules *)
Definition bipole_loops (k : setting) (gl : Z -> list R * list R) (srcpts recpts : Z) (strength : R) (bs br : bip)
    : res (list (list C)) :=
  let isrc := (b_n bs / b_nz bs)%nat in
  let irec := (b_n br / b_nz br)%nat in
  foldM (fun EM isz =>
      ts <- get_azm_dip (k_m k) gl (b_arr bs) isz (b_nz bs) srcpts (b_dip bs) strength true ;;
      foldM (fun EM irz =>
          tr <- get_azm_dip (k_m k) gl (b_arr br) irz (b_nz br) recpts (b_dip br) strength false ;;
          s <- block k strength irec isrc ts tr ;;
          place (b_n br) (b_nz br) (b_n bs) (b_nz bs) isz irz s EM)
        (seq 0 (b_nz br)) EM)
    (seq 0 (b_nz bs)) (mat_zeros (List.length (k_rows k)) (b_n br * b_n bs)).

(** 431-621: the array before the transform to time, with the numbers of receivers and
    sources and the checked frequencies; the transforms have been checked before ([mk], loop flags). *)
Definition bipole_array (m : mins) (gl : Z -> list R * list R) (hook : hookt)
    (mk : R -> R -> Z -> Z -> list ext -> Z -> bool -> bool -> hankel)
    (src rec : list ndin) (depth : list ext) (q : params) (freq : list R)
    (msrc mrec : mxv) (srcpts recpts : Z) (strength : R) (xdirect : option bool) (loop_freq loop_off : bool)
    : res (list (list C) * nat * nat * list R) :=
  mo <- check_model m depth (q_res q) (q_aniso q) (q_eH q) (q_eV q) (q_mH q) (q_mV q) ;;
  let fo := check_frequency m freq (m_res mo) (m_aniso mo) (m_epermH mo) (m_epermV mo) (m_mpermH mo) (m_mpermV mo) in
  let fo := apply_hook hook (q_res q) mo fo in
  '(ms, st) <- check_mx true msrc ;;
  bs <- check_bipole src ;;
  '(mr, rt) <- check_mx false mrec ;;
  br <- check_bipole rec ;;
  EM <- bipole_loops (mkSet m mk (m_depth mo) (rows_of fo) (laplace_of freq) (m_full mo) xdirect loop_freq loop_off ms mr st rt)
                     gl srcpts recpts strength bs br ;;
  Ok (EM, b_n br, b_n bs, f_freq fo).

(** 431-634 with signal None *)
Definition bipole m gl hook mk src rec depth q freq msrc mrec srcpts recpts strength xdirect loop_freq loop_off
    : res (list (list (list C))) :=
  '(EM, nrec, nsrc, _) <- bipole_array m gl hook mk src rec depth q freq msrc mrec srcpts recpts strength xdirect loop_freq loop_off ;;
  Ok (reshapeF nrec nsrc EM).

(** the reshape of 634 for times *)
Definition reshapeT (nrec nsrc : nat) (EM : list (list R)) : list (list (list R)) :=
  map (fun row => map (fun r => map (fun s => nth (r + nrec * s) row 0) (seq 0 nsrc)) (seq 0 nrec)) EM.

(** 431-634 in the time domain; the times and the Fourier transform have been checked
    before and need the frequencies [freq] ([calc], C33 and C61). *)
Definition bipole_time (calc : list C -> res (list R * bool)) (ntime : nat) (signal : Z)
    (waveform : option (list (list R) -> list (list R)))
    m gl hook mk src rec depth q freq msrc mrec srcpts recpts strength xdirect loop_freq loop_off
    : res (list (list (list R))) :=
  '(EM, nrec, nsrc, fr) <- bipole_array m gl hook mk src rec depth q freq msrc mrec srcpts recpts strength xdirect loop_freq loop_off ;;
  '(tEM, _) <- tem calc ntime (nrec * nsrc) EM fr signal waveform true ;;
  Ok (reshapeT nrec nsrc tEM).
