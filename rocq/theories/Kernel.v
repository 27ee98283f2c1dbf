(** Model of empymod/kernel.py (wavenumber-domain part).

    The Python routines work on arrays with axes frequency, offset, layer and
    wavenumber.  Every loop over frequency [i], offset [ii] and wavenumber [iv]
    treats its elements independently, so the model is written for one
    frequency, one offset and one wavenumber; the layer axis is a list.
    Arithmetic is exact.  Indexing is checked ([IndexError]), inf-inf is
    [NanE], division by zero is [ZeroDivE], a name read before assignment is
    [UnboundLocal]. *)

From Coq Require Import Reals ZArith List Bool.
From Coquelicot Require Import Coquelicot.
From Verif Require Import PyBase CBase.
Import ListNotations.
Local Open Scope Z_scope.
Local Open Scope res_scope.

(** An integer used as a number. *)
Definition cz (z : Z) : C := RtoC (IZR z).

(** ** kernel.py:422-517 [reflections] *)

(** Body of the layer loop, kernel.py:470-501.  The state is
    (tRef, Ref, izout); [tRef] is unbound before the first iteration. *)
Definition refl_step (pm : Z) (depth : list ext) (e_zH Gam : list C)
    (lrec lsrc minmax first : Z) (st : option C * list C * Z) (iz : Z)
    : res (option C * list C * Z) :=
  let '(tRef, Ref, izout) := st in
  ra <- idx e_zH (iz + pm) ;;
  rb <- idx e_zH iz ;;
  g0 <- idx Gam iz ;;
  g1 <- idx Gam (iz + pm) ;;
  let rloca := Cmult ra g0 in
  let rlocb := Cmult rb g1 in
  rloc <- cdiv (Cminus rloca rlocb) (Cplus rloca rlocb) ;;
  tRef' <- (if iz =? first then Ok rloc
            else
              d1 <- idx depth (iz + 1 + pm) ;;
              d0 <- idx depth (iz + pm) ;;
              ddepth <- xsub d1 d0 ;;
              tr <- (match tRef with Some t => Ok t | None => Err UnboundLocal end) ;;
              ex <- xexpm (Cmult (cz 2) g1) ddepth ;;
              let term := Cmult tr ex in
              cdiv (Cplus rloc term) (Cplus (cz 1) (Cmult rloc term))) ;;
  if negb (lrec =? lsrc) && (pm * iz <=? minmax) then
    Ref' <- setidx Ref izout tRef' ;;
    Ok (Some tRef', Ref', izout - pm)
  else Ok (Some tRef', Ref, izout).

(** One pass of the loop over [plus] in [True, False], kernel.py:444-514. *)
Definition reflections_dir (plus : bool) (depth : list ext) (e_zH Gam : list C)
    (lrec lsrc : Z) : res (list C) :=
  let nlayer := zlen Gam in
  let maxl := Z.max lrec lsrc in
  let minl := Z.min lrec lsrc in
  let pm := if plus then 1 else -1 in
  let layer_count := if plus then zrange_down (nlayer - 2) (minl - 1)
                     else zrange 1 (maxl + 1) in
  let izout0 := if plus then Z.abs (lsrc - lrec) else 0 in
  let minmax := if plus then pm * maxl else pm * minl in
  let shiftplus := (lrec <? lsrc) && (lrec =? 0) && negb plus in
  let shiftminus := (lrec >? lsrc) && (lrec =? nlayer - 1) && plus in
  let izout := if shiftplus || shiftminus then izout0 - pm else izout0 in
  let Ref := repeat (cz 0) (Z.to_nat (Z.min nlayer (maxl - minl + 1))) in
  match layer_count with
  | [] => Ok Ref
  | first :: _ =>
      '(tRef, Ref', _) <- foldM (refl_step pm depth e_zH Gam lrec lsrc minmax first)
                                layer_count (None, Ref, izout) ;;
      if lsrc =? lrec then
        (t <- (match tRef with Some t => Ok t | None => Err UnboundLocal end) ;; Ok [t])
      else Ok Ref'
  end.

(** kernel.py:422-517: returns (Rp, Rm). *)
Definition reflections (depth : list ext) (e_zH Gam : list C) (lrec lsrc : Z)
    : res (list C * list C) :=
  Rp <- reflections_dir true depth e_zH Gam lrec lsrc ;;
  Rm <- reflections_dir false depth e_zH Gam lrec lsrc ;;
  Ok (Rp, Rm).

(** ** kernel.py:521-698 [fields] *)

(** kernel.py:569-573 *)
Definition plusset : list Z := [13; 23; 33; 14; 24; 34; 15; 25; 35].
Definition plus_of (TM : bool) (ab : Z) : bool :=
  if TM then inb ab plusset else negb (inb ab plusset).

(** "Second compute P for all other layers", kernel.py:667-689; body for one
    [iz]. *)
Definition fields_step (depth : list ext) (Rpm Gam : list C) (isr pup last : Z)
    (P : C) (iz : Z) : res C :=
  d1 <- idx depth (isr + iz + pup + 1) ;;
  d0 <- idx depth (isr + iz + pup) ;;
  ddepth <- xsub d1 d0 ;;
  tiRpm <- idx Rpm (iz + pup) ;;
  piGam <- idx Gam (isr + iz + pup) ;;
  ex <- xexpm piGam ddepth ;;
  let P1 := Cmult P (Cmult (Cplus (cz 1) tiRpm) ex) in
  if negb (isr + iz =? last) then
    d1' <- idx depth (isr + iz + 1) ;;
    d0' <- idx depth (isr + iz) ;;
    ddepth' <- xsub d1' d0' ;;
    tiRpm' <- idx Rpm iz ;;
    piGam2 <- idx Gam (isr + iz) ;;
    ex' <- xexpm (Cmult (cz 2) piGam2) ddepth' ;;
    cdiv P1 (Cplus (cz 1) (Cmult tiRpm' ex'))
  else Ok P1.

(** One pass of the loop [for up in [False, True]], kernel.py:541-695.
    The assignments before the loop (541-583) and the swaps for up=True
    (592-605) are merged: the pass for up=False changes none of the swapped
    variables, so the pass for up=True always starts from the initial ones.
    [ds] and [dp] are unbound if the source is in the last layer. *)
Definition fields_dir (up : bool) (depth : list ext) (Rp Rm Gam : list C)
    (lrec lsrc : Z) (zsrc : R) (ab : Z) (TM : bool) : res C :=
  let nlayer := zlen Gam in
  let nlsr := Z.abs (lsrc - lrec) + 1 in
  let first_layer0 := lsrc =? 0 in
  let last_layer0 := lsrc =? nlayer - 1 in
  dtop <- idx depth lsrc ;;
  let ds := if lsrc =? nlayer - 1 then Err UnboundLocal
            else (dbot <- idx depth (lsrc + 1) ;; xsub dbot dtop) in
  let dp0 := if lsrc =? nlayer - 1 then Err UnboundLocal
             else (dbot <- idx depth (lsrc + 1) ;; xsub dbot (Fin zsrc)) in
  dm0 <- xsub (Fin zsrc) dtop ;;
  let plus := plus_of TM ab in
  let pm := if plus then 1 else -1 in
  iGam <- idx Gam lsrc ;;
  if up && ((lrec =? nlayer - 1) || (lrec >? lsrc)) then Ok (cz 0)
  else if negb up && ((lrec =? 0) || (lrec <? lsrc)) then Ok (cz 0)
  else
  (* swaps if up *)
  let dp := if up then Ok dm0 else dp0 in
  let dm := if up then (if negb last_layer0 then dp0 else Ok dm0) else Ok dm0 in
  let Rmp := if up then Rp else Rm in
  let Rpm := if up then Rm else Rp in
  let first_layer := if up then last_layer0 else first_layer0 in
  let last_layer := if up then first_layer0 else last_layer0 in
  let rsrcl := if up then nlsr - 1 else 0 in
  let izrange := if up then zrange 0 (nlsr - 2) else zrange 2 nlsr in
  let isr := if up then lrec else lsrc in
  let last := if up then 0 else nlayer - 1 in
  let pup := if up then 1 else -1 in
  let mupm := if up && negb plus then -1 else 1 in
  if lsrc =? lrec then
    if last_layer then
      tRmp <- idx Rmp 0 ;;
      d <- dm ;;
      ex <- xexpm iGam d ;;
      Ok (Cmult tRmp ex)
    else
      tRpm <- idx Rpm 0 ;;
      tRmp <- idx Rmp 0 ;;
      dm' <- dm ;; dp' <- dp ;; ds' <- ds ;;
      p1 <- xexpm iGam dm' ;;
      dsp <- xadd ds' dp' ;;
      ex2 <- xexpm iGam dsp ;;
      let p2 := Cmult (Cmult (cz pm) tRpm) ex2 in
      ex3 <- xexpm (Cmult (cz 2) iGam) ds' ;;
      let p3 := Cminus (cz 1) (Cmult (Cmult tRmp tRpm) ex3) in
      cdiv (Cmult (Cplus p1 p2) tRmp) p3
  else
    iRpm <- idx Rpm rsrcl ;;
    P0 <- (if first_layer then
             dp' <- dp ;;
             ex <- xexpm iGam dp' ;;
             Ok (Cmult (Cmult (Cplus (cz 1) iRpm) (cz mupm)) ex)
           else
             iRmp <- idx Rmp rsrcl ;;
             dm' <- dm ;; dp' <- dp ;; ds' <- ds ;;
             ex1 <- xexpm iGam dp' ;;
             let p1 := Cmult (cz mupm) ex1 in
             dsm <- xadd ds' dm' ;;
             ex2 <- xexpm iGam dsm ;;
             let p2 := Cmult (Cmult (Cmult (cz pm) (cz mupm)) iRmp) ex2 in
             ex3 <- xexpm (Cmult (cz 2) iGam) ds' ;;
             p3 <- cdiv (Cplus (cz 1) iRpm)
                        (Cminus (cz 1) (Cmult (Cmult iRmp iRpm) ex3)) ;;
             Ok (Cmult (Cplus p1 p2) p3)) ;;
    P1 <- (if up || (negb up && (lsrc + 1 <? nlayer - 1)) then
             d1 <- idx depth (lsrc + 1 - 1 * pup) ;;
             d0 <- idx depth (lsrc - 1 * pup) ;;
             ddepth <- xsub d1 d0 ;;
             if isfinite ddepth then
               tiRpm <- idx Rpm (rsrcl - 1 * pup) ;;
               tiGam <- idx Gam (lsrc - 1 * pup) ;;
               ex <- xexpm (Cmult (cz 2) tiGam) ddepth ;;
               cdiv P0 (Cplus (cz 1) (Cmult tiRpm ex))
             else Ok P0
           else Ok P0) ;;
    if nlsr >? 2 then foldM (fields_step depth Rpm Gam isr pup last) izrange P1
    else Ok P1.

(** kernel.py:521-698: returns (Pu, Pd). *)
Definition fields (depth : list ext) (Rp Rm Gam : list C) (lrec lsrc : Z)
    (zsrc : R) (ab : Z) (TM : bool) : res (C * C) :=
  Pd <- fields_dir false depth Rp Rm Gam lrec lsrc zsrc ab TM ;;
  Pu <- fields_dir true depth Rp Rm Gam lrec lsrc zsrc ab TM ;;
  Ok (Pu, Pd).

(** ** kernel.py:175-418 [greenfct] *)

(** kernel.py:229-239: uppercase Gamma per layer. *)
Fixpoint gammas (e_zH e_zV z_eH : list C) (lambd : R) : res (list C) :=
  match e_zH, e_zV, z_eH with
  | [], _, _ => Ok []
  | h :: hs, v :: vs, z :: zs =>
      h_div_v <- cdiv h v ;;
      let h_times_h := Cmult z h in
      let g := Csqrt (Cplus (Cmult h_div_v (RtoC (lambd * lambd))) h_times_h) in
      gs <- gammas hs vs zs lambd ;;
      Ok (g :: gs)
  | _, _, _ => Err IndexError
  end.

(** [np.sign] *)
Definition Rsign (x : R) : R :=
  if Rlt_dec x 0 then (-1)%R else if Rlt_dec 0 x then 1%R else 0%R.

Definition minus_ab : list Z := [11; 12; 13; 14; 15; 21; 22; 23; 24; 25].

(** kernel.py:241-350: the Green's function of one mode for given Gamma. *)
Definition green_mode (TM : bool) (depth : list ext) (e_zH Gam : list C)
    (lrec lsrc : Z) (zsrc zrec : R) (ab : Z) (xdirect : bool) : res C :=
  let nlayer := zlen Gam in
  lrecGam <- idx Gam lrec ;;
  (* nlayer > 1: reflections, propagators, fields *)
  parts <- (if nlayer >? 1 then
              '(Rp, Rm) <- reflections depth e_zH Gam lrec lsrc ;;
              Wu <- (if negb (lrec =? nlayer - 1) then
                       d1 <- idx depth (lrec + 1) ;;
                       dd <- xsub d1 (Fin zrec) ;;
                       xexpm lrecGam dd
                     else Ok (cz 0)) ;;
              Wd <- (if negb (lrec =? 0) then
                       d0 <- idx depth lrec ;;
                       dd <- xsub (Fin zrec) d0 ;;
                       xexpm lrecGam dd
                     else Ok (cz 0)) ;;
              '(Pu, Pd) <- fields depth Rp Rm Gam lrec lsrc zsrc ab TM ;;
              Ok (Rp, Rm, Wu, Wd, Pu, Pd)
            else Ok ([], [], cz 0, cz 0, cz 0, cz 0)) ;;
  let '(Rp, Rm, Wu, Wd, Pu, Pd) := parts in
  if lsrc =? lrec then
    let green0 :=
      if (nlayer >? 1) && inb ab [13; 23; 31; 32; 14; 24; 15; 25] then
        Cminus (Cmult Pu Wu) (Cmult Pd Wd)
      else if nlayer >? 1 then Cplus (Cmult Pu Wu) (Cmult Pd Wd)
      else cz 0 in
    if negb xdirect then
      directf <- xexpm lrecGam (Fin (Rabs (zsrc - zrec))) ;;
      let directf := if TM && inb ab minus_ab then Cmult directf (cz (-1)) else directf in
      let directf := if inb ab [13; 14; 15; 23; 24; 25; 31; 32]
                     then Cmult directf (RtoC (Rsign (zrec - zsrc))) else directf in
      Ok (Cplus green0 directf)
    else Ok green0
  else
    ddepth <- (if lrec =? nlayer - 1 then Ok (Fin 0)
               else d1 <- idx depth (lrec + 1) ;; d0 <- idx depth lrec ;; xsub d1 d0) ;;
    fexp <- xexpm lrecGam ddepth ;;
    let pmw := if TM && inb ab [11; 12; 13; 21; 22; 23; 14; 24; 15; 25] then -1 else 1 in
    if lrec <? lsrc then
      Rm0 <- idx Rm 0 ;;
      Ok (Cmult Pu (Cplus Wu (Cmult (Cmult (Cmult (cz pmw) Rm0) fexp) Wd)))
    else
      Rpl <- idx Rp (Z.abs (lsrc - lrec)) ;;
      Ok (Cmult Pd (Cplus (Cmult (cz pmw) Wd) (Cmult (Cmult Rpl fexp) Wu))).

(** kernel.py:352-415: ab-specific factors.  [gTM]/[gTE] are the (Gam, green)
    of the computed modes; a skipped mode is unbound. *)
Definition green_factors (ab : Z) (etaH etaV zetaH zetaV : list C) (lrec lsrc : Z)
    (gTM gTE : res (list C * C)) : res (C * C) :=
  if inb ab [11; 12; 21; 22] then
    '(gamTM, GTM) <- gTM ;; '(gamTE, GTE) <- gTE ;;
    g <- idx gamTM lrec ;; e <- idx etaH lrec ;; f1 <- cdiv g e ;;
    z <- idx zetaH lsrc ;; gs <- idx gamTE lsrc ;; f2 <- cdiv z gs ;;
    Ok (Cmult GTM f1, Cmult GTE f2)
  else if inb ab [14; 15; 24; 25] then
    '(gamTM, GTM) <- gTM ;; '(_, GTE) <- gTE ;;
    es <- idx etaH lsrc ;; er <- idx etaH lrec ;; fact <- cdiv es er ;;
    gr <- idx gamTM lrec ;; gs <- idx gamTM lsrc ;;
    G <- cdiv (Cmult GTM (Cmult fact gr)) gs ;;
    Ok (G, GTE)
  else if inb ab [13; 23] then
    '(gamTM, GTM) <- gTM ;;
    es <- idx etaH lsrc ;; er <- idx etaH lrec ;; ev <- idx etaV lsrc ;;
    f1 <- cdiv es er ;; fact <- cdiv f1 ev ;;
    gr <- idx gamTM lrec ;; gs <- idx gamTM lsrc ;;
    G <- cdiv (Cmult GTM (Cmult (Copp fact) gr)) gs ;;
    Ok (G, cz 0)
  else if inb ab [31; 32] then
    '(_, GTM) <- gTM ;;
    ev <- idx etaV lrec ;; G <- cdiv GTM ev ;;
    Ok (G, cz 0)
  else if inb ab [34; 35] then
    '(gamTM, GTM) <- gTM ;;
    es <- idx etaH lsrc ;; ev <- idx etaV lrec ;; fact <- cdiv es ev ;;
    gs <- idx gamTM lsrc ;; f <- cdiv fact gs ;;
    Ok (Cmult GTM f, cz 0)
  else if inb ab [16; 26] then
    '(gamTE, GTE) <- gTE ;;
    zs <- idx zetaH lsrc ;; zv <- idx zetaV lsrc ;; fact <- cdiv zs zv ;;
    gs <- idx gamTE lsrc ;; f <- cdiv fact gs ;;
    Ok (cz 0, Cmult GTE f)
  else if inb ab [33] then
    '(gamTM, GTM) <- gTM ;;
    es <- idx etaH lsrc ;; evs <- idx etaV lsrc ;; evr <- idx etaV lrec ;;
    f1 <- cdiv es evs ;; fact <- cdiv f1 evr ;;
    gs <- idx gamTM lsrc ;; f <- cdiv fact gs ;;
    Ok (Cmult GTM f, cz 0)
  else
    '(_, GTM) <- gTM ;; '(_, GTE) <- gTE ;; Ok (GTM, GTE).

(** kernel.py:218-223: is the mode computed for this ab? *)
Definition mode_used (TM : bool) (ab : Z) : bool :=
  if TM then negb (inb ab [16; 26])
  else negb (inb ab [13; 23; 31; 32; 33; 34; 35]).

(** One pass of the loop over TM in [True, False], kernel.py:215-358. *)
Definition green_pass (TM : bool) (depth : list ext) (etaH etaV zetaH zetaV : list C)
    (lrec lsrc : Z) (zsrc zrec lambd : R) (ab : Z) (xdirect : bool)
    : res (list C * C) :=
  let e_zH := if TM then etaH else zetaH in
  let e_zV := if TM then etaV else zetaV in
  let z_eH := if TM then zetaH else etaH in
  Gam <- gammas e_zH e_zV z_eH lambd ;;
  g <- green_mode TM depth e_zH Gam lrec lsrc zsrc zrec ab xdirect ;;
  Ok (Gam, g).

Definition greenfct (zsrc zrec : R) (lsrc lrec : Z) (depth : list ext)
    (etaH etaV zetaH zetaV : list C) (lambd : R) (ab : Z) (xdirect msrc mrec : bool)
    : res (C * C) :=
  (* kernel.py:203-213: reciprocity switches for magnetic receivers *)
  let mm := mrec && msrc in
  let me := mrec && negb msrc in
  let etaH' := if mm then map Copp zetaH else etaH in
  let zetaH' := if mm then map Copp etaH else zetaH in
  let etaV' := if mm then map Copp zetaV else etaV in
  let zetaV' := if mm then map Copp etaV else zetaV in
  let zsrc' := if me then zrec else zsrc in
  let zrec' := if me then zsrc else zrec in
  let lsrc' := if me then lrec else lsrc in
  let lrec' := if me then lsrc else lrec in
  let pass TM := if mode_used TM ab
                 then green_pass TM depth etaH' etaV' zetaH' zetaV' lrec' lsrc'
                                 zsrc' zrec' lambd ab xdirect
                 else Err UnboundLocal in
  _ <- (if mode_used true ab then (_ <- pass true ;; Ok tt) else Ok tt) ;;
  _ <- (if mode_used false ab then (_ <- pass false ;; Ok tt) else Ok tt) ;;
  green_factors ab etaH' etaV' zetaH' zetaV' lrec' lsrc' (pass true) (pass false).

(** ** kernel.py:51-171 [wavenumber] *)

(** kernel.py:101-168: grouping into PJ0, PJ1, PJ0b ([None] if not allocated).
    [Ptot] is (PTM + PTE)/(4 pi). *)
Definition collect (ab : Z) (mrec : bool) (lambd : R) (PTM PTE : C)
    : option C * option C * option C :=
  let Ptot := Cdiv (Cplus PTM PTE) (RtoC (4 * PI)) in
  let sign0 := if mrec then -1 else 1 in
  let z (l : list Z) : option C := if inb ab l then Some (cz 0) else None in
  let PJ0 := z [11; 22; 24; 15; 33] in
  let PJ0b := z [11; 12; 21; 22; 14; 24; 15; 25] in
  let PJ1 := if negb (inb ab [33]) then Some (cz 0) else None in
  if inb ab [11; 12; 21; 22; 14; 24; 15; 25] then
    let sign1 := if inb ab [14; 22] then sign0 * -1 else sign0 in
    let PJ0b := Some (Cmult (Cmult (RtoC (IZR sign1 / 2)) Ptot) (RtoC lambd)) in
    let PJ1 := Some (Cmult (cz (- sign1)) Ptot) in
    if inb ab [11; 22; 24; 15] then
      let sign2 := if inb ab [22; 24] then sign1 * -1 else sign1 in
      let PJ0 := Some (Cmult (Cminus PTM PTE)
                             (RtoC (lambd / (IZR sign2 * 8 * PI)))) in
      (PJ0, PJ1, PJ0b)
    else (PJ0, PJ1, PJ0b)
  else if inb ab [13; 23; 31; 32; 34; 35; 16; 26] then
    let sign1 := if inb ab [34; 26] then sign0 * -1 else sign0 in
    (PJ0, Some (Cmult (Cmult (cz sign1) Ptot) (RtoC (lambd * lambd))), PJ0b)
  else if inb ab [33] then
    (Some (Cmult (Cmult (cz sign0) Ptot) (RtoC (lambd * lambd * lambd))), PJ1, PJ0b)
  else (PJ0, PJ1, PJ0b).

(** kernel.py:51-171 [wavenumber] for one frequency, offset and wavenumber. *)
Definition wavenumber (zsrc zrec : R) (lsrc lrec : Z) (depth : list ext)
    (etaH etaV zetaH zetaV : list C) (lambd : R) (ab : Z) (xdirect msrc mrec : bool)
    : res (option C * option C * option C) :=
  '(PTM, PTE) <- greenfct zsrc zrec lsrc lrec depth etaH etaV zetaH zetaV
                          lambd ab xdirect msrc mrec ;;
  Ok (collect ab mrec lambd PTM PTE).

(** ** kernel.py:703-753 [angle_factor] for one angle *)

(** [np.isclose(a, b, rtol, atol)] *)
Definition isclose (a b rtol atol : R) : bool :=
  if Rle_dec (Rabs (a - b)) (atol + rtol * Rabs b) then true else false.

(** kernel.py:703-753 [angle_factor] for one angle. *)
Definition angle_factor (angle : R) (ab : Z) (msrc mrec : bool) : R :=
  if inb ab [33] then 1%R
  else
    let a0 := if mrec && negb msrc then (angle + PI)%R else angle in
    let usecos := inb ab [11; 22; 15; 24; 13; 31; 26; 35] in
    let t1 := if usecos then (PI/2)%R else PI in
    let t2 := if usecos then (3*PI/2)%R else (2*PI)%R in
    let a := if inb ab [11; 22; 15; 24; 12; 21; 14; 25] then (a0*2)%R else a0 in
    if isclose (Rabs a) t1 (/ 10^10) (/ 10^14) then 0%R
    else if isclose (Rabs a) t2 (/ 10^10) (/ 10^14) then 0%R
    else if usecos then cos a else sin a.
