(** Model of the functions a user can supply: 'func_eta' and 'func_zeta' in the
    dictionary of resistivities (model.py:463-467, 864-868), and 'bandpass'
    (model.py:629-631, 903-905); and of the deprecated routine loop (model.py:925-942).

    A supplied function is any function of the checked model and of the values computed
    so far.  [bandpass] changes the array of the responses in place: its shape stays.
    Printing and the final [np.squeeze] are left out. *)

From Coq Require Import ZArith Reals List Bool String.
From Coquelicot Require Import Coquelicot.
From Verif Require Import PyBase CBase UtilsAb Utils Transform Model Routines Bipole.
Import ListNotations.
Local Open Scope R_scope.
Local Open Scope res_scope.

(** A new pair etaH, etaV, or zetaH, zetaV; None if the dictionary has no such entry *)
Definition userfn := option (model_out -> freq_out -> list (list C) * list (list C)).

(** model.py:463-465 *)
Definition run_eta (u : userfn) (mo : model_out) (fo : freq_out) : freq_out :=
  match u with
  | None => fo
  | Some f => {| f_freq := f_freq fo; f_etaH := fst (f mo fo); f_etaV := snd (f mo fo);
                 f_zetaH := f_zetaH fo; f_zetaV := f_zetaV fo |}
  end.
(** model.py:466-467; it sees what func_eta has returned *)
Definition run_zeta (u : userfn) (mo : model_out) (fo : freq_out) : freq_out :=
  match u with
  | None => fo
  | Some f => {| f_freq := f_freq fo; f_etaH := f_etaH fo; f_etaV := f_etaV fo;
                 f_zetaH := fst (f mo fo); f_zetaV := snd (f mo fo) |}
  end.
Definition user_hook (ueta uzeta : userfn) : hookt := fun mo fo => run_zeta uzeta mo (run_eta ueta mo fo).

(** model.py:629-631: a function of the frequencies and of the responses; None if there
    is no dictionary or no entry 'func' *)
Definition bandfn := option (list R -> list (list C) -> list (list C)).
Definition run_band (b : bandfn) (fr : list R) (EM : list (list C)) : list (list C) :=
  match b with None => EM | Some f => f fr EM end.

(** the frequencies after utils.py:490-503 *)
Definition used_freq (m : mins) (freq : list R) : list R :=
  fst (check_min (if laplace_of freq then map Ropp freq else freq) (Some (min_freq m))).

(** model.py:848-921 with signal None *)
Definition dipole_user (band : bandfn) (m : mins) (ueta uzeta : userfn) mk src rec depth q freq ab xdirect loop_freq loop_off
    : res (list (list (list C))) :=
  '(EM, nrec, nsrc) <- dipole m (user_hook ueta uzeta) mk src rec depth q freq ab xdirect loop_freq loop_off ;;
  Ok (reshapeF nrec nsrc (run_band band (used_freq m freq) EM)).
(** model.py:848-921 in the time domain, as [bipole_time] *)
Definition dipole_user_time (band : bandfn) (calc : list C -> res (list R * bool)) (ntime : nat) (signal : Z)
    (waveform : option (list (list R) -> list (list R)))
    (m : mins) (ueta uzeta : userfn) mk src rec depth q freq ab xdirect loop_freq loop_off : res (list (list (list R))) :=
  '(EM, nrec, nsrc) <- dipole m (user_hook ueta uzeta) mk src rec depth q freq ab xdirect loop_freq loop_off ;;
  '(tEM, _) <- tem calc ntime (nrec * nsrc) (run_band band (used_freq m freq) EM) (used_freq m freq) signal waveform true ;;
  Ok (reshapeT nrec nsrc tEM).

(** model.py:431-645 with signal None *)
Definition bipole_user (band : bandfn) m gl (ueta uzeta : userfn) mk src rec depth q freq msrc mrec srcpts recpts strength xdirect loop_freq loop_off
    : res (list (list (list C))) :=
  '(EM, nrec, nsrc, fr) <- bipole_array m gl (user_hook ueta uzeta) mk src rec depth q freq msrc mrec srcpts recpts strength xdirect loop_freq loop_off ;;
  Ok (reshapeF nrec nsrc (run_band band fr EM)).
(** model.py:431-645 in the time domain *)
Definition bipole_user_time (band : bandfn) (calc : list C -> res (list R * bool)) (ntime : nat) (signal : Z)
    (waveform : option (list (list R) -> list (list R)))
    m gl (ueta uzeta : userfn) mk src rec depth q freq msrc mrec srcpts recpts strength xdirect loop_freq loop_off
    : res (list (list (list R))) :=
  '(EM, nrec, nsrc, fr) <- bipole_array m gl (user_hook ueta uzeta) mk src rec depth q freq msrc mrec srcpts recpts strength xdirect loop_freq loop_off ;;
  '(tEM, _) <- tem calc ntime (nrec * nsrc) (run_band band fr EM) fr signal waveform true ;;
  Ok (reshapeT nrec nsrc tEM).

(** model.py:925-942, with the keywords a caller may add for the source: the entries
    'msrc' and 'srcpts' of [kwargs] are replaced *)
Record kws := { kw_msrc : option mxv; kw_srcpts : option Z }.
Definition kw_put (k : kws) : kws := {| kw_msrc := Some MxB; kw_srcpts := Some 1%Z |}.
Definition loop (band : bandfn) m gl ueta uzeta mk src rec depth q freq (k : kws) mrec recpts strength xdirect loop_freq loop_off :=
  let k := kw_put k in
  bipole_user band m gl ueta uzeta mk src rec depth q freq
    (match kw_msrc k with Some v => v | None => MxBool false end) mrec
    (match kw_srcpts k with Some v => v | None => 1%Z end) recpts strength xdirect loop_freq loop_off.
