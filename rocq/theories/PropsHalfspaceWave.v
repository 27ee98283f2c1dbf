(** The diffusive half-space solution solves the diffusive Maxwell equations: C75. *)

From Coq Require Import ZArith Reals List Bool Lia Lra Psatz.
From Coquelicot Require Import Coquelicot.
From Verif Require Import PyBase CBase ODE Halfspace HalfspaceThm HalfspaceZero2 WaveField HalfspaceWave3 HalfspaceAir2 HalfspaceAirImp2 HalfspaceOff BesselMod.
Import ListNotations.
Local Open Scope R_scope.

(** ** C75: curl curl E = - mu0 sigma dE/dt in the ground, away from the source *)

(** [hs_E]: the value returned with solution "dtetm" for a source in direction b at (xs, ys, zs)
    and a receiver in direction a at (x, y, z), part i (0 direct TE, 1 direct TM, 2 reflected TE,
    3 reflected TM, 4 airwave), k-th frequency or time.  [in_ground]: 0 < z + zs, and off the
    vertical line through the source.  [curlcurl_is E rhs dom]: E is twice differentiable in dom
    and its curl curl there is rhs.  [hs_sigma]: horizontal and vertical conductivity. *)

(** In the frequency or Laplace domain, every part on its own ... *)
Theorem C75_frequency : forall ive kve xs ys zs eH eV b isr l k s, bessel_mod ive kve -> 0 < hs_res eH -> 0 < fst eV -> (1 <= b <= 3)%Z ->
  nth_error l k = Some s -> (0 < fst s \/ snd s <> 0) -> (isr = true -> snd s = 0) -> forall i, (i < 5)%nat ->
  let E := hs_E ive kve (HFreq isr l) i k xs ys zs eH eV b in
  curlcurl_is E (fun a x y z => Copp (Cmult (Cmult s (RtoC (mu0 * hs_sigma eH eV a))) (E a x y z))) (in_ground xs ys zs).
Proof. exact all_freq. Qed.

(** ... and the returned full-space and half-space fields. *)
Theorem C75_sum : forall ive kve xs ys zs eH eV b isr l k s, bessel_mod ive kve -> 0 < hs_res eH -> 0 < fst eV -> (1 <= b <= 3)%Z ->
  nth_error l k = Some s -> (0 < fst s \/ snd s <> 0) -> (isr = true -> snd s = 0) -> forall sol, sol = Dfs \/ sol = Dhs ->
  let E := hs_sum ive kve (HFreq isr l) sol k xs ys zs eH eV b in
  curlcurl_is E (fun a x y z => Copp (Cmult (Cmult s (RtoC (mu0 * hs_sigma eH eV a))) (E a x y z))) (in_ground xs ys zs).
Proof. exact sum_freq. Qed.

(** In the time domain, the direct and reflected parts: the impulse response is the source of the
    step response ... *)
Theorem C75_step : forall ive kve xs ys zs eH eV b i, 0 < hs_res eH -> 0 < fst eV -> (1 <= b <= 3)%Z -> (i < 4)%nat ->
  let E inp k := hs_E ive kve inp i k xs ys zs eH eV b in
  forall ts k T, nth_error ts k = Some T -> 0 < T ->
  curlcurl_is (E (HTime 1 ts) k) (fun a x y z => Copp (Cmult (RtoC (mu0 * hs_sigma eH eV a)) (E (HTime 0 ts) k a x y z))) (in_ground xs ys zs).
Proof. exact four_step. Qed.

(** ... and the time derivative of the impulse response that of the impulse response. *)
Theorem C75_impulse : forall ive kve xs ys zs eH eV b i, 0 < hs_res eH -> 0 < fst eV -> (1 <= b <= 3)%Z -> (i < 4)%nat ->
  let E inp k := hs_E ive kve inp i k xs ys zs eH eV b in
  forall ts k T, nth_error ts k = Some T -> 0 < T -> exists D : Z -> R -> R -> R -> C,
  (forall a x y z, (1 <= a <= 3)%Z -> in_ground xs ys zs x y z -> is_deriveC (fun t => E (HTime 0 [t]) 0%nat a x y z) T (D a x y z)) /\
  curlcurl_is (E (HTime 0 ts) k) (fun a x y z => Copp (Cmult (RtoC (mu0 * hs_sigma eH eV a)) (D a x y z))) (in_ground xs ys zs).
Proof. exact four_imp. Qed.

(** With the modified Bessel functions also the airwave of the impulse response ... *)
Theorem C75_impulse_airwave : forall ive kve xs ys zs eH eV b, bessel_mod ive kve -> 0 < hs_res eH -> 0 < fst eV -> (1 <= b <= 3)%Z -> forall i, (i < 5)%nat ->
  let E inp k := hs_E ive kve inp i k xs ys zs eH eV b in
  forall ts k T, nth_error ts k = Some T -> 0 < T -> exists D : Z -> R -> R -> R -> C,
  (forall a x y z, (1 <= a <= 3)%Z -> in_ground xs ys zs x y z -> is_deriveC (fun t => E (HTime 0 [t]) 0%nat a x y z) T (D a x y z)) /\
  curlcurl_is (E (HTime 0 ts) k) (fun a x y z => Copp (Cmult (RtoC (mu0 * hs_sigma eH eV a)) (D a x y z))) (in_ground xs ys zs).
Proof. exact all_imp. Qed.

(** ... and the returned full-space and half-space impulse responses. *)
Theorem C75_impulse_sum : forall ive kve xs ys zs eH eV b, bessel_mod ive kve -> 0 < hs_res eH -> 0 < fst eV -> (1 <= b <= 3)%Z -> forall sol, sol = Dfs \/ sol = Dhs ->
  let E inp k := hs_sum ive kve inp sol k xs ys zs eH eV b in
  forall ts k T, nth_error ts k = Some T -> 0 < T -> exists D : Z -> R -> R -> R -> C,
  (forall a x y z, (1 <= a <= 3)%Z -> in_ground xs ys zs x y z -> is_deriveC (fun t => E (HTime 0 [t]) 0%nat a x y z) T (D a x y z)) /\
  curlcurl_is (E (HTime 0 ts) k) (fun a x y z => Copp (Cmult (RtoC (mu0 * hs_sigma eH eV a)) (D a x y z))) (in_ground xs ys zs).
Proof. exact sum_imp. Qed.

(** The switch-off response: its time derivative is minus the impulse response, but its curl curl
    is off by the impulse response at 10^4 s. *)
Theorem C75_switch_off : forall ive kve xs ys zs eH eV b i, 0 < hs_res eH -> 0 < fst eV -> (1 <= b <= 3)%Z -> (i < 4)%nat ->
  let E inp k := hs_E ive kve inp i k xs ys zs eH eV b in
  forall ts k T, nth_error ts k = Some T -> 0 < T ->
  (forall a x y z, in_ground xs ys zs x y z -> is_deriveC (fun t => E (HTime (-1) [t]) 0%nat a x y z) T (Copp (E (HTime 0 ts) k a x y z))) /\
  curlcurl_is (E (HTime (-1) ts) k) (fun a x y z => Copp (Cmult (RtoC (mu0 * hs_sigma eH eV a)) (Cplus (Copp (E (HTime 0 ts) k a x y z)) (E (HTime 0 [10 ^ 4]) 0%nat a x y z)))) (in_ground xs ys zs).
Proof. exact four_off. Qed.

(** The hypotheses are met: modified Bessel functions, frequency i, a half-space with horizontal
    resistivity 1 and vertical conductivity 1/4. *)
Example C75_case_bessel : bessel_mod x_ive x_kve /\ mI0 (RtoC 0) = RtoC 1.
Proof. split; [exact bessel_mod_ok|exact mI0_0]. Qed.
Example C75_case : 0 < hs_res (RtoC 1) /\ 0 < fst (RtoC (1 / 4)) /\ nth_error [RtoC 3; Ci] 1 = Some Ci /\ (0 < fst Ci \/ snd Ci <> 0) /\ in_ground 0 0 5 30 40 20 /\
  hs_sigma (RtoC 1) (RtoC (1 / 4)) 1 = 1 /\ hs_sigma (RtoC 1) (RtoC (1 / 4)) 3 = 1 / 4.
Proof.
  assert (E : hs_res (RtoC 1) = 1) by (unfold hs_res, Cinv, RtoC; cbn; field). unfold hs_sigma. rewrite E. cbn [Z.eqb Pos.eqb fst RtoC]. split; [lra|]. split; [lra|]. split; [reflexivity|]. split; [right; cbn; lra|]. split; [unfold in_ground; lra|]. split; lra.
Qed.

Print Assumptions C75_frequency.
Print Assumptions C75_sum.
Print Assumptions C75_step.
Print Assumptions C75_impulse.
Print Assumptions C75_impulse_airwave.
Print Assumptions C75_impulse_sum.
Print Assumptions C75_switch_off.
