(** The returned switch-off response and the diffusive Maxwell equations: it is the switch-on response
    at 10^4 s minus the switch-on response, so it misses them by the impulse response at 10^4 s. *)

From Coq Require Import ZArith Reals List Bool Lia Lra Psatz.
From Coquelicot Require Import Coquelicot.
From Verif Require Import PyBase CBase Utils ODE FullspaceMaxwell FullspaceEM Halfspace HalfspaceThm HalfspaceSym HalfspaceDc HalfspaceTime HalfspaceZero HalfspaceZero2 WaveField WaveField2 WaveField3 HalfspaceWave HalfspaceWave2 HalfspaceWave3.
Import ListNotations.
Local Open Scope R_scope.
Local Open Scope C_scope.

Section Off.
Variables (ive kve : Z -> C -> C) (xs ys zs : R) (eH eV : C) (b : Z) (i : nat).
Hypotheses (HH : (0 < hs_res eH)%R) (HV : (0 < fst eV)%R) (Hb : (1 <= b <= 3)%Z).
Let E inp k := hs_E ive kve inp i k xs ys zs eH eV b.

Lemma off_value : forall ts k T a x y z, (i < 5)%nat -> nth_error ts k = Some T -> in_ground xs ys zs x y z ->
  E (HTime (-1) ts) k a x y z = E (HTime 1 [(10 ^ 4)%R]) 0 a x y z - E (HTime 1 ts) k a x y z.
Proof using HH HV.
  intros ts k T a x y z Hi Hk D. destruct (sig_sigma eH eV 1 HH HV) as [Hl _]. unfold E, hs_E.
  assert (G : forall sg l, halfspace ive kve (HTime sg l) Dtetm (10 * a + b) (sqrt ((x - xs) * (x - xs) + (y - ys) * (y - ys))) (atan2 (y - ys) (x - xs)) zs z eH eV
     = let ps := hs_parts ive kve (HTime sg l) (10 * a + b) (sqrt ((x - xs) * (x - xs) + (y - ys) * (y - ys))) (atan2 (y - ys) (x - xs)) zs z (hs_res eH) (hs_aniso eV (hs_res eH)) in
       Ok (Five (map (the_part 0) ps) (map (the_part 1) ps) (map (the_part 2) ps) (map (the_part 3) ps) (map (the_part 4) ps))).
  { intros sg l. rewrite hs_tetm, (tetm_guard (HTime sg l) xs ys zs eH eV a b x y z HH Hl D). reflexivity. }
  rewrite !G. cbv zeta. cbn [split_part]. rewrite !parts_of_five by exact Hi. clear G.
  unfold hs_parts. change (-1 =? -1)%Z with true. change (1 =? -1)%Z with false. change (1 =? 1)%Z with true. cbv iota zeta.
  rewrite map_app. cbn [map]. rewrite last_last, removelast_last, !map_map.
  set (P t := hs_part ive kve true (AtStep t) (10 * a + b) (sqrt ((x - xs) * (x - xs) + (y - ys) * (y - ys))) (atan2 (y - ys) (x - xs)) zs z (hs_res eH) (hs_aniso eV (hs_res eH))).
  pose proof (map_nth_error (fun t => the_part i (part_sub (P (10 ^ 4)%R) (P t))) _ _ Hk) as N1. pose proof (map_nth_error (fun t => the_part i (P t)) _ _ Hk) as N2.
  apply (nth_error_nth _ _ (RtoC 0)) in N1. apply (nth_error_nth _ _ (RtoC 0)) in N2. unfold P in *. rewrite N1, N2. cbn [nth]. apply part_linear.
Qed.

Theorem four_off : (i < 4)%nat -> forall ts k T, nth_error ts k = Some T -> (0 < T)%R ->
  (forall a x y z, in_ground xs ys zs x y z -> is_deriveC (fun t => E (HTime (-1) [t]) 0 a x y z) T (- E (HTime 0 ts) k a x y z)) /\
  curlcurl_is (E (HTime (-1) ts) k) (fun a x y z => - (RtoC (mu0 * hs_sigma eH eV a) * (- E (HTime 0 ts) k a x y z + E (HTime 0 [(10 ^ 4)%R]) 0 a x y z))) (in_ground xs ys zs).
Proof using HH HV Hb.
  intros Hi ts k T Hk HT. assert (P4 : (0 < 10 ^ 4)%R) by lra. split.
  - intros a x y z D. assert (Ho : (0 < sqrt ((x - xs) * (x - xs) + (y - ys) * (y - ys)))%R) by (apply sqrt_lt_R0; destruct D; assumption).
    pose proof (hs_impulse_is_derivative ive kve (10 * a + b) _ (atan2 (y - ys) (x - xs)) zs z eH eV HH HV Ho i T Hi HT) as DD.
    assert (V : forall sg t, hs_val (halfspace ive kve (HTime sg [t]) Dtetm (10 * a + b) (sqrt ((x - xs) * (x - xs) + (y - ys) * (y - ys))) (atan2 (y - ys) (x - xs)) zs z eH eV) i = E (HTime sg [t]) 0 a x y z).
    { intros sg t. unfold hs_val, E, hs_E, split_part, parts_of. destruct (halfspace _ _ _ _ _ _ _ _ _ _ _); reflexivity. }
    assert (V0 : E (HTime 0 ts) k a x y z = E (HTime 0 [T]) 0 a x y z).
    { destruct (sig_sigma eH eV 1 HH HV) as [Hl _]. unfold E. rewrite (tetm_value ive kve (HTime 0 ts) k (AtImp T) xs ys zs eH eV a b x y z i), (tetm_value ive kve (HTime 0 [T]) 0 (AtImp T) xs ys zs eH eV a b x y z i); try assumption; try lia; try reflexivity. cbn. now rewrite Hk. }
    rewrite V0. rewrite <- V. 
    refine (is_deriveC_ext_loc (fun t => E (HTime 1 [(10 ^ 4)%R]) 0 a x y z + (- RtoC 1) * hs_val (halfspace ive kve (HTime 1 [t]) Dtetm (10 * a + b) (sqrt ((x - xs) * (x - xs) + (y - ys) * (y - ys))) (atan2 (y - ys) (x - xs)) zs z eH eV) i) _ _ _ _ _).
    { apply filter_forall. intros t. cbv beta. rewrite V. pose proof (off_value [t] 0 t a x y z ltac:(lia) eq_refl D) as OV. symmetry. refine (eq_trans OV _). match goal with |- ?u - ?v = ?u + _ * ?w => change w with v end. ring. }
    eapply dCe; [exact (is_deriveC_plus _ _ _ _ _ (is_deriveC_const _ T) (is_deriveC_scal (- RtoC 1) _ _ _ DD))|]. ring.
  - refine (curlcurl_ext _ _ _ _ _ (ground_open xs ys zs) _ (curlcurl_plus _ _ _ _ _ (four_step ive kve xs ys zs eH eV b i HH HV Hb Hi [(10 ^ 4)%R] 0 (10 ^ 4)%R eq_refl P4) (curlcurl_scal (- RtoC 1) _ _ _ (four_step ive kve xs ys zs eH eV b i HH HV Hb Hi ts k T Hk HT)))).
    intros a x y z Ha D. cbv beta. rewrite (off_value ts k T a x y z) by (first [lia|assumption]). split; [unfold E; ring|]. unfold E. ring.
Qed.
End Off.
