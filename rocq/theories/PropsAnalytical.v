(** The routine analytical with the diffusive full-space and half-space solutions.  The case of
    the full solution is C59. *)
From Coq Require Import ZArith Reals List Bool QArith Lia Lra.
From Coquelicot Require Import Coquelicot.
From Verif Require Import PyBase CBase UtilsAb Utils UtilsModel UtilsFreq Fullspace Halfspace HalfspaceThm Model Routines RoutinesThm RoutinesK RoutinesKThm PropsUtils PropsHalfspace AnalyticalThm.
Import ListNotations.
Local Open Scope R_scope.

(** C38: part k of the result of analytical is, at frequency or time f and source-receiver pair
    c, part k of the solution of that pair, evaluated with the clipped times, or with the
    frequencies clipped and multiplied by 2 pi i (Laplace: with the opposite of the values). *)
Theorem C38_routine : forall m hook ive kve src rec q ft s signal ab EM nrec nsrc,
  analytical m hook ive kve src rec q ft (SolD s) signal ab = Ok (EM, nrec, nsrc) ->
  exists code off angle zs zr mo eH eV,
    check_ab ab = Ok (code, false, false) /\ geometry m src rec = Ok (off, angle, zs, zr, nsrc, nrec) /\
    check_model m [] (q_res q) (q_aniso q) (q_eH q) (q_eV q) (q_mH q) (q_mV q) = Ok mo /\
    (let fo := apply_hook hook (q_res q) mo (check_frequency m (used_freq m ft signal) (m_res mo) (m_aniso mo) (m_epermH mo) (m_epermV mo) (m_mpermH mo) (m_mpermV mo)) in
     nth_error (nth 0 (f_etaH fo) []) 0 = Some eH /\ nth_error (nth 0 (f_etaV fo) []) 0 = Some eV) /\
    List.length EM = nouts s /\
    forall k f c, (k < List.length EM)%nat -> (f < List.length (ft_data ft))%nat -> (c < nrec * nsrc)%nat ->
      exists o, halfspace ive kve (diff_input m ft signal) s code (nth c off 0) (nth c angle 0) zs zr eH eV = Ok o /\
        nth c (nth f (nth k EM []) []) (RtoC 0) = nth f (nth k (out_parts o) []) (RtoC 0).
Proof. exact analytical_diffusive. Qed.

(** A result only exists for electric poles, for a known solution, for a signal -1, 0 or 1, and
    the full solution only in the frequency domain. *)
Theorem C38_rejected : forall m hook ive kve src rec q ft sol signal a b, (1 <= a <= 6)%Z -> (1 <= b <= 6)%Z ->
  ((exists s, sol = SolD s) /\ (3 < a \/ 3 < b)%Z) \/ (sol = SolFs /\ signal <> None) \/ sol = SolOther \/ (exists sg, signal = Some sg /\ ~ In sg [-1; 0; 1]%Z) ->
  forall v, analytical m hook ive kve src rec q ft sol signal (AbNum (inject_Z (10 * a + b))) <> Ok v.
Proof. exact analytical_rejects. Qed.

Example C38_routine_case : exists EM,
  analytical default_mins (fun _ fo => fo) zk zk wit_src wit_rec (wit_q 0) (FtArr [- (1 / epsilon_0)]) (SolD Dfs) None (AbNum (inject_Z 33)) = Ok (EM, 1%nat, 1%nat).
Proof. exists [[[wit_val 0]]]. apply wit_analytical. lra. Qed.

Print Assumptions C38_routine.
Print Assumptions C38_rejected.
