(** Model of the modelling routines dipole_k (model.py:1415-1487), gpr
    (model.py:1239-1290) and ip_and_q (model.py:1549-1592).

    Printing and the final [np.squeeze] are left out. *)

From Coq Require Import ZArith Reals List Bool String QArith Lia.
From Coquelicot Require Import Coquelicot.
From Verif Require Import PyBase CBase UtilsAb Kernel Utils Transform Fullspace Model Routines Bipole.
Import ListNotations.
Local Open Scope R_scope.
Local Open Scope res_scope.

(** The raw argument [ab] in a test [ab in [..]]: an integer code if it is a number
    equal to one; any other value (strings, fractions) is in no list, which is 0 here. *)
Definition raw_key (ab : abval) : Z :=
  match ab with
  | AbNum x => if Qeq_bool x (inject_Z (Z.quot (Qnum x) (Zpos (Qden x)))) then Z.quot (Qnum x) (Zpos (Qden x)) else 0%Z
  | _ => 0%Z
  end.

(** ** dipole_k

    [wavenumber] is one-dimensional: the same wavenumbers for every source-receiver
    pair.  The result [f][o][w] is the pair (PJ0, PJ1). *)

(** 1474-1484 for one element, given the kernels J0, J1, J0b, the angle factor and
    the offset; the test of 1478 is on the raw argument *)
Definition k_element (key : Z) (J : option C * option C * option C) (af off : R) : C * C :=
  let '(J0, J1, J0b) := J in
  let PJ1 := match J1 with
             | Some j => let p := Cplus (RtoC 0) (Cmult (RtoC af) j) in
                         if inb key [11; 12; 21; 22; 14; 24; 15; 25]%Z then Cdiv p (RtoC off) else p
             | None => RtoC 0
             end in
  let PJ0 := match J0 with Some j => Cplus (RtoC 0) j | None => RtoC 0 end in
  let PJ0 := match J0b with Some j => Cplus PJ0 (Cmult (RtoC af) j) | None => PJ0 end in
  (PJ0, PJ1).

Definition dipole_k (m : mins) (src rec : list ndin) (depth : list ext) (q : params) (freq : list R)
    (wavenr : list R) (ab : abval) : res (list (list (list (C * C)))) :=
  mo <- check_model m depth (q_res q) (q_aniso q) (q_eH q) (q_eV q) (q_mH q) (q_mV q) ;;
  let fo := check_frequency m freq (m_res mo) (m_aniso mo) (m_epermH mo) (m_epermV mo) (m_mpermH mo) (m_mpermV mo) in
  '(abc, msrc, mrec) <- check_ab ab ;;
  '(off, angle, zs, zr, _, _) <- geometry m src rec ;;
  (* 1442: the raw argument, not abc *)
  let ang := map (fun a => angle_factor a (raw_key ab) msrc mrec) angle in
  lsrc <- layer1 (m_depth mo) zs ;;
  lrec <- layer1 (m_depth mo) zr ;;
  if inb abc [36]%Z then
    Ok (map (fun _ => map (fun _ => map (fun _ => (RtoC 0, RtoC 0)) wavenr) off) (rows_of fo))
  else
    J <- mapM (fun r => mapM (fun l => wavenumber zs zr lsrc lrec (m_depth mo) (r_eH r) (r_eV r) (r_zH r) (r_zV r)
                                                 l abc false msrc mrec) wavenr) (rows_of fo) ;;
    Ok (map (fun Jf => map (fun p => map (fun j => k_element (raw_key ab) j (snd p) (fst p)) Jf) (combine off ang)) J).

(** ** gpr

    The times have been checked and need the frequencies [freq] ([calc] is the
    Fourier transform with its settings).  [gain] is None or a number. *)

(** 1269-1270: the Ricker wavelet, evaluated at 0 and all frequencies but the last *)
Definition ricker (cf : R) (freq : list R) : list R :=
  map (fun f => let c := (- ((f / cf) * (f / cf))) in c * exp c) (firstn (List.length freq) (0 :: removelast freq)).

(** 1280: [1 + abs((time*10**9)**gain)]; a number raised to None is a TypeError.  The
    times are positive (utils.check_time). *)
Definition gain_factor (gain : option R) (t : R) : res R :=
  match gain with Some g => Ok (1 + Rabs (Rpower (t * 10 ^ 9) g)) | None => Err TypeError end.

(** model.py:1198-1290 [gpr]. *)
Definition gpr (calc : list C -> res (list R * bool)) (time : list R) (cf : R) (gain : option R)
    m hook mk src rec depth q freq ab xdirect loop_freq loop_off : res (list (list (list R))) :=
  '(EM, nrec, nsrc) <- dipole m hook mk src rec depth q freq ab xdirect loop_freq loop_off ;;
  let EM := map2 (fun w row => map (Cmult (RtoC w)) row) (ricker cf freq) EM in
  '(tEM, _) <- tem calc (List.length time) (nrec * nsrc) EM freq 0 None true ;;
  g <- mapM (gain_factor gain) time ;;
  Ok (reshapeT nrec nsrc (map2 (fun x row => map (Rmult x) row) g tEM)).

(** ** ip_and_q *)

Definition mm_codes : list Z := [44; 45; 46; 54; 55; 56; 64; 65; 66]%Z.

(** 1570-1575: the co-planar code; the test is on the raw argument *)
Definition coplanar (ab : abval) : abval :=
  let k := raw_key ab in
  if inb k [44; 54; 64]%Z then AbNum (inject_Z 44)
  else if inb k [45; 55; 65]%Z then AbNum (inject_Z 55)
  else if inb k [46; 56; 66]%Z then AbNum (inject_Z 66)
  else ab.

(** [np.atleast_1d(x)[0]] of an array of at most one dimension *)
Definition first_of (x : ndin) : ndin := match x with Nd _ (v :: _) => Nd [] [v] | _ => NdBad end.
(** 1578-1581; a dictionary of resistivities is the only element of its object array *)
Definition first_params (q : params) : params :=
  {| q_res := match q_res q with ResArr r => ResArr (first_of r) | d => d end;
     q_aniso := option_map first_of (q_aniso q); q_eH := option_map first_of (q_eH q); q_eV := option_map first_of (q_eV q);
     q_mH := option_map first_of (q_mH q); q_mV := option_map first_of (q_mV q) |}.

(** [ab] is a given keyword (without it the default 11 is rejected).  The quotient
    is Coq's total division: numpy gives inf or nan for a zero primary field. *)
Definition ip_and_q (scale : R) m hook mk src rec depth (q : params) freq (ab : abval) loop_freq loop_off
    : res (list (list (list R)) * list (list (list R))) :=
  i <- py_int ab ;;
  if negb (inb i mm_codes) then Err ValueError
  else
    '(Hs, nrec, nsrc) <- dipole m hook mk src rec depth q freq ab None loop_freq loop_off ;;
    '(Hp, _, _) <- dipole m hook mk src rec [] (first_params q) freq (coplanar ab) (Some true) loop_freq loop_off ;;
    let H := reshapeF nrec nsrc (map2 (map2 (fun s p => Cdiv (Cmult (RtoC scale) s) p)) Hs Hp) in
    Ok (map (map (map fst)) H, map (map (map snd)) H).
