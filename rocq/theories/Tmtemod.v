(** Model of scripts/tmtemod.py: the response split into up- and down-going TM and TE
    parts.

    One frequency, one offset and one wavenumber at a time, as in Kernel.v; printing
    and the final reshaping and [np.squeeze] are left out. *)

From Coq Require Import ZArith Reals List Bool Lia.
From Coquelicot Require Import Coquelicot.
From Verif Require Import PyBase CBase Kernel Utils Transform Model Routines.
Import ListNotations.
Local Open Scope Z_scope.
Local Open Scope R_scope.
Local Open Scope C_scope.
Local Open Scope res_scope.

(** one value for each part: --, -+, +-, ++ and the direct field *)
Record parts := mkP { p_uu : C; p_ud : C; p_du : C; p_dd : C; p_df : C }.
Definition p_total (p : parts) : C := p_uu p + p_ud p + p_du p + p_dd p + p_df p.

(** ** 623-694 [fields]: one pass of the loop, (Pd, Pu) for the given direction

    The swaps for up=True are merged as in Kernel.v. *)
Definition tm_pass (up : bool) (depth : list ext) (Rp Rm Gam : list C) (lrec lsrc : Z) (zsrc : R) (TM : bool) : res (C * C) :=
  let nl := zlen depth in
  dtop <- idx depth lsrc ;;
  let ds := if (lsrc =? nl - 1)%Z then Err UnboundLocal else (dbot <- idx depth (lsrc + 1) ;; xsub dbot dtop) in
  let dp0 := if (lsrc =? nl - 1)%Z then Err UnboundLocal else (dbot <- idx depth (lsrc + 1) ;; xsub dbot (Fin zsrc)) in
  dm0 <- xsub (Fin zsrc) dtop ;;
  let pm := if TM then (-1)%Z else 1%Z in
  iGam <- idx Gam lsrc ;;
  if up && ((lrec =? nl - 1)%Z || (lrec >? lsrc)%Z) then Ok (cz 0, cz 0)
  else if negb up && ((lrec =? 0)%Z || (lrec <? lsrc)%Z) then Ok (cz 0, cz 0)
  else
  let dp := if up then Ok dm0 else dp0 in
  let dm := if up then dp0 else Ok dm0 in
  let Rmp := if up then Rp else Rm in
  let Rpm := if up then Rm else Rp in
  let last_layer := if up then (lsrc =? 0)%Z else (lsrc =? nl - 1)%Z in
  tRmp <- idx Rmp 0 ;;
  dm' <- dm ;;
  ex1 <- xexpm iGam dm' ;;
  if last_layer then Ok (tRmp * ex1, cz 0)
  else
    tRpm <- idx Rpm 0 ;;
    ds' <- ds ;;
    ex3 <- xexpm (cz 2 * iGam) ds' ;;
    q <- cdiv tRmp (cz 1 - tRmp * tRpm * ex3) ;;
    dp' <- dp ;;
    dsp <- xadd ds' dp' ;;
    ex2 <- xexpm iGam dsp ;;
    Ok (q * ex1, q * cz pm * tRpm * ex2).

(** ** 565-620 [greenfct]: one mode

    The factor of the other mode, which is computed but not used, is left out. *)
Definition tm_mode (TM : bool) (depth : list ext) (etaH etaV zetaH zetaV : list C) (lrec lsrc : Z) (zsrc zrec lambd : R) : res parts :=
  let e_zH := if TM then etaH else zetaH in
  let e_zV := if TM then etaV else zetaV in
  let z_eH := if TM then zetaH else etaH in
  let nl := zlen depth in
  Gam <- gammas e_zH e_zV z_eH lambd ;;
  lrecGam <- idx Gam lrec ;;
  '(Rp, Rm) <- reflections depth e_zH Gam lrec lsrc ;;
  Wu <- (if negb (lrec =? nl - 1)%Z then d1 <- idx depth (lrec + 1) ;; dd <- xsub d1 (Fin zrec) ;; xexpm lrecGam dd else Ok (cz 0)) ;;
  Wd <- (if negb (lrec =? 0)%Z then d0 <- idx depth lrec ;; dd <- xsub (Fin zrec) d0 ;; xexpm lrecGam dd else Ok (cz 0)) ;;
  '(Pdu, Pdd) <- tm_pass false depth Rp Rm Gam lrec lsrc zsrc TM ;;
  '(Pud, Puu) <- tm_pass true depth Rp Rm Gam lrec lsrc zsrc TM ;;
  df <- xexpm lrecGam (Fin (Rabs (zsrc - zrec))) ;;
  f <- (if TM then e <- idx etaH lrec ;; cdiv lrecGam e else z <- idx zetaH lsrc ;; g <- idx Gam lsrc ;; cdiv z g) ;;
  Ok (mkP (Puu * Wu * f) (Pud * Wu * f) (Pdu * Wd * f) (Pdd * Wd * f) ((if TM then - df else df) * f)).

(** ** 361-562 [dipole] *)

(** 494-502: the filter sums of one part; [sg] is -1 for TE and 1 for TM *)
Fixpoint dot (l : list C) (w : list R) : C :=
  match l, w with x :: l', y :: w' => x * RtoC y + dot l' w' | _, _ => RtoC 0 end.
Definition tm_sum (filt : dfilter) (sg : R) (lam : list R) (af off : R) (val : list C) : C :=
  (RtoC af * dot (map Copp val) (f_j1 filt) / RtoC off
   + dot (map (fun vl => RtoC ((af + sg) / 2) * fst vl * RtoC (snd vl)) (combine val lam)) (f_j0 filt)) / RtoC (4 * PI * off).
Definition sum_parts (filt : dfilter) (sg : R) (lam : list R) (af off : R) (ps : list parts) : parts :=
  let S (p : parts -> C) := tm_sum filt sg lam af off (map p ps) in
  mkP (S p_uu) (S p_ud) (S p_du) (S p_dd) (S p_df).

(** 504-535: Rp, Rm and npfct for zero wavenumber *)
Definition gam0 (r : frow) : list C := map (fun p => Csqrt (fst p * snd p)) (combine (r_zH r) (r_eH r)).
Definition rp_rm (r : frow) (depth : list ext) (z_eta : list C) (lrec lsrc : Z) (af off : R) : res (C * C * C) :=
  let ddepth := depth ++ [PInf] in
  lgam <- idx (gam0 r) lsrc ;;
  d1 <- idx ddepth (lsrc + 1) ;; d0 <- idx ddepth lsrc ;; ds <- xsub d1 d0 ;;
  '(Rps, Rms) <- reflections depth z_eta (gam0 r) lrec lsrc ;;
  Rp <- idx Rps 0 ;; Rm <- idx Rms 0 ;;
  ex <- xexpm (cz 2 * lgam) ds ;;
  z <- idx (r_zH r) lsrc ;;
  np <- cdiv (RtoC af * z) (RtoC (4 * PI * off) * RtoC off * lgam * (cz 1 - Rp * Rm * ex)) ;;
  Ok (Rp, Rm, np).

(** [2*x + y] *)
Definition twice_plus (x : ext) (y : R) : res ext := a <- xadd x x ;; xadd a (Fin y).

(** 537-549: the non-physical contributions; [sg] is 1 for TE and -1 for TM *)
Definition tm_corr (r : frow) (depth : list ext) (z_eta : list C) (lrec lsrc : Z) (zsrc zrec af off : R) (sg : Z) : res parts :=
  let ddepth := depth ++ [PInf] in
  lgam <- idx (gam0 r) lsrc ;;
  d1 <- idx ddepth (lsrc + 1) ;; d0 <- idx ddepth lsrc ;; ds <- xsub d1 d0 ;;
  '(Rp, Rm, np) <- rp_rm r depth z_eta lrec lsrc af off ;;
  x0 <- twice_plus ds (- zrec + zsrc)%R ;; e0 <- xexpm lgam x0 ;;
  dr <- idx ddepth (lrec + 1) ;;
  x1 <- twice_plus dr (- zrec - zsrc)%R ;; e1 <- xexpm lgam x1 ;;
  e2 <- xexpm lgam (Fin (zrec + zsrc)) ;;
  x3 <- twice_plus ds (zrec - zsrc)%R ;; e3 <- xexpm lgam x3 ;;
  Ok (mkP (cz sg * (np * Rp * Rm * e0)) (np * Rp * e1) (np * Rm * e2) (cz sg * (np * Rp * Rm * e3)) (RtoC 0)).
(** Sum of two sets of parts. *)
Definition p_add (a b : parts) : parts :=
  mkP (p_uu a + p_uu b) (p_ud a + p_ud b) (p_du a + p_du b) (p_dd a + p_dd b) (p_df a + p_df b).

(** one frequency and one offset with its angle factor: (TM, TE) *)
Definition tm_element (filt : dfilter) (r : frow) (depth : list ext) (lrec lsrc : Z) (zsrc zrec off af : R) : res (parts * parts) :=
  let lam := map (fun b => (b / off)%R) (f_base filt) in
  tm <- mapM (tm_mode true depth (r_eH r) (r_eV r) (r_zH r) (r_zV r) lrec lsrc zsrc zrec) lam ;;
  te <- mapM (tm_mode false depth (r_eH r) (r_eV r) (r_zH r) (r_zV r) lrec lsrc zsrc zrec) lam ;;
  cte <- tm_corr r depth (r_zH r) lrec lsrc zsrc zrec af off 1 ;;
  ctm <- tm_corr r depth (r_eH r) lrec lsrc zsrc zrec af off (-1) ;;
  Ok (p_add (sum_parts filt 1 lam af off tm) ctm, p_add (sum_parts filt (-1) lam af off te) cte).

(** the result [f][o] is (TM, TE) for frequency [f] (at most one) and the source-receiver pair [o] *)
Definition tm_dipole (m : mins) (filt : dfilter) (src rec : list ndin) (depth : list ext) (rs : resin) (aniso eperm mperm : option ndin) (freq : list R)
    : res (list (list (parts * parts))) :=
  mo <- check_model m depth rs aniso eperm eperm mperm mperm ;;
  let fo := check_frequency m freq (m_res mo) (m_aniso mo) (m_epermH mo) (m_epermV mo) (m_mpermH mo) (m_mpermV mo) in
  '(off, angle, zs, zr, _, _) <- geometry m src rec ;;
  lsrc <- layer1 (m_depth mo) zs ;;
  lrec <- layer1 (m_depth mo) zr ;;
  if negb (lsrc =? lrec)%Z then Err ValueError
  else if (List.length (m_depth mo) <? 2)%nat then Err ValueError
  else if (1 <? List.length freq)%nat then Err ValueError
  else mapM (fun r => mapM (fun p => tm_element filt r (m_depth mo) lrec lsrc zs zr (fst p) (angle_factor (snd p) 11 false false)) (combine off angle)) (rows_of fo).
