(** Model of the numerical check functions of /repo/empymod/utils.py.

    Numbers are exact reals (python floats that are finite); depths may be
    infinite ([ext]).  nan is not modelled.  Printing (the [verb] argument) is
    left out; where a warning matters it is part of the returned value. *)

From Coq Require Import Reals ZArith List Bool String Lia Lra.
From Coquelicot Require Import Coquelicot.
From Verif Require Import PyBase CBase.
Import ListNotations.
Local Open Scope R_scope.
Local Open Scope res_scope.

(** Comparisons of floats as booleans: [a < b], [a <= b], [a == b]. *)
Definition Rltb (a b : R) : bool := if Rlt_dec a b then true else false.
Definition Rleb (a b : R) : bool := if Rle_dec a b then true else false.
Definition Reqb (a b : R) : bool := if Req_EM_T a b then true else false.

(** Order of python floats with infinities ([a < b], [a == b]). *)
Definition xltb (a b : ext) : bool :=
  match a, b with
  | NInf, NInf => false
  | NInf, _ => true
  | Fin x, Fin y => Rltb x y
  | Fin _, PInf => true
  | _, _ => false
  end.
(** [a == b] on depths, which may be infinite. *)
Definition xeqb (a b : ext) : bool :=
  match a, b with
  | NInf, NInf => true
  | PInf, PInf => true
  | Fin x, Fin y => Reqb x y
  | _, _ => false
  end.
(** [a >= b] *)
Definition xgeb (a b : ext) : bool := negb (xltb a b).

(** ** Minimum values (utils.py:63-68, 2069-2139) *)
Record mins := { min_freq : R; min_time : R; min_off : R; min_res : R; min_angle : R }.

(** Module globals, utils.py:63-68. *)
Definition default_mins : mins :=
  {| min_freq := / 10 ^ 20; min_time := / 10 ^ 20; min_off := / 10 ^ 3;
     min_res := / 10 ^ 20; min_angle := / 10 ^ 10 |}.

(** A keyword call of set_minimum; None where the keyword is not given. *)
Record minkw := { k_freq : option R; k_time : option R; k_off : option R;
                  k_res : option R; k_angle : option R }.

Definition upd (o : option R) (d : R) : R := match o with Some v => v | None => d end.

(** set_minimum, utils.py:2069-2108 *)
Definition set_minimum (k : minkw) (m : mins) : mins :=
  {| min_freq := upd (k_freq k) (min_freq m);
     min_time := upd (k_time k) (min_time m);
     min_off := upd (k_off k) (min_off m);
     min_res := upd (k_res k) (min_res m);
     min_angle := upd (k_angle k) (min_angle m) |}.

(** get_minimum, utils.py:2111-2139: the dictionary as a list of pairs. *)
Definition get_minimum (m : mins) : list (string * R) :=
  [("min_freq", min_freq m); ("min_time", min_time m); ("min_off", min_off m);
   ("min_res", min_res m); ("min_angle", min_angle m)]%string.

(** _check_min, utils.py:2181-2196.  Returns the array and whether the warning
    is printed (for verb > 0).  Scalars are the one-element list. *)
Definition check_min (par : list R) (minval : option R) : list R * bool :=
  match minval with
  | None => (par, false)
  | Some m => (map (fun p => if Rltb p m then m else p) par,
               existsb (fun p => Rltb p m) par)
  end.

(** ** Arrays and _check_var (utils.py:2144-2162) *)
(** Input that numpy converts to a float array: its shape and its flat data
    (the product of the shape is the length of the data), or a value that
    cannot be converted. *)
Inductive ndin := Nd (shape : list nat) (data : list R) | NdBad.

(** np.array(..., ndmin=1): a scalar becomes one-dimensional. *)
Definition atleast1 (sh : list nat) : list nat := match sh with [] => [1%nat] | _ => sh end.

Definition shape_eqb (a b : list nat) : bool := if list_eq_dec Nat.eq_dec a b then true else false.

(** _check_shape, utils.py:2144-2154; an empty or missing shape2 is falsy. *)
Definition check_shape (varshape shape shape2 : list nat) : res unit :=
  if shape_eqb shape varshape then Ok tt
  else match shape2 with
       | [] => Err ValueError
       | _ => if shape_eqb shape2 varshape then Ok tt else Err ValueError
       end.

(** _check_var with dtype float and ndmin=1, utils.py:2157-2162; [shape] = []
    stands for None and for the empty tuple, which are both falsy. *)
Definition check_var (v : ndin) (shape shape2 : list nat) : res (list nat * list R) :=
  match v with
  | NdBad => Err ValueError
  | Nd sh d =>
      let sh := atleast1 sh in
      match shape with
      | [] => Ok (sh, d)
      | _ => _ <- check_shape sh shape shape2 ;; Ok (sh, d)
      end
  end.

(** ** check_model (utils.py:707-903) *)
(** [np.all(depth[1:] - depth[:-1] < 0)] / [np.any(..)].  The difference of two
    floats with infinities is negative exactly if the second one is smaller
    (inf - inf is nan, and nan < 0 is False). *)
Fixpoint all_dec (d : list ext) : bool :=
  match d with
  | a :: ((b :: _) as t) => xltb b a && all_dec t
  | _ => true
  end.
Fixpoint any_dec (d : list ext) : bool :=
  match d with
  | a :: ((b :: _) as t) => xltb b a || any_dec t
  | _ => false
  end.

(** [depth[-1] == np.inf], then [depth[:-1]] *)
Definition drop_pinf (d : list ext) : list ext :=
  if xeqb (last d NInf) PInf then removelast d else d.

(** utils.py:768-793: depth as one-dimensional array (a scalar is the
    one-element list, None the empty list).  Returns swap = -1 as [true]. *)
Definition check_depth (depth : list ext) : res (bool * list ext) :=
  let swap := (1 <? List.length depth)%nat && all_dec depth in
  let depth := if swap then rev depth else depth in
  if any_dec depth then Err ValueError
  else
    match depth with
    | [] => Ok (swap, [NInf])
    | d0 :: _ =>
        let depth := if xeqb d0 NInf then depth else NInf :: depth in
        Ok (swap, drop_pinf depth)
    end.

(** check_inp, utils.py:809-821; [res] is the checked resistivity. *)
Definition check_inp (n : nat) (res_ : list R) (var : option ndin) (is_aniso : bool)
    (minval : option R) : res (list R) :=
  match var with
  | None => Ok (repeat 1 n)
  | Some v =>
      ' (_, p) <- check_var v [n] [] ;;
      let p := if is_aniso then map (fun q => fst q ^ 2 * snd q) (combine p res_) else p in
      let p := fst (check_min p minval) in
      Ok (if is_aniso then map (fun q => sqrt (fst q / snd q)) (combine p res_) else p)
  end.

(** [(x - x[0] == 0).all()]; an empty array raises IndexError. *)
Definition all_same (l : list R) : res bool :=
  match l with
  | [] => Err IndexError
  | a :: _ => Ok (forallb (fun x => Reqb (x - a) 0) l)
  end.

Definition swp {A} (swap : bool) (l : list A) : list A := if swap then rev l else l.

(** Resistivity input: array, or dictionary with the entry 'res', further
    parameters, and (not modelled here, they are only stored) the functions
    'func_eta' and 'func_zeta'. *)
Inductive resin := ResArr (r : ndin) | ResDict (r : ndin) (extra : list (string * option ndin)).

(** What check_model returns, utils.py:903. *)
Record model_out := {
  m_depth : list ext; m_res : list R; m_aniso : list R;
  m_epermH : list R; m_epermV : list R; m_mpermH : list R; m_mpermV : list R;
  m_full : bool; m_extra : list (string * list R) }.

(** check_model, utils.py:707-903. *)
Definition check_model (m : mins) (depth : list ext) (rs : resin)
    (aniso epermH epermV mpermH mpermV : option ndin) : res model_out :=
  ' (swap, depth) <- check_depth depth ;;
  let n := List.length depth in
  let rin := match rs with ResArr r => r | ResDict r _ => r end in
  ' (_, r) <- check_var rin [n] [] ;;
  let r := fst (check_min r (Some (min_res m))) in
  an <- check_inp n r aniso true (Some (min_res m)) ;;
  eH <- check_inp n r epermH false (Some 0) ;;
  eV <- match epermV with
        | None => Ok eH
        | Some _ => check_inp n r epermV false (Some 0)
        end ;;
  mH <- check_inp n r mpermH false (Some 0) ;;
  mV <- match mpermV with
        | None => Ok mH
        | Some _ => check_inp n r mpermV false (Some 0)
        end ;;
  let r' := swp swap r in let an := swp swap an in
  let eH := swp swap eH in let eV := swp swap eV in
  let mH := swp swap mH in let mV := swp swap mV in
  s1 <- all_same r' ;; s2 <- all_same an ;; s3 <- all_same eH ;;
  s4 <- all_same eV ;; s5 <- all_same mH ;; s6 <- all_same mV ;;
  let full := s1 && s2 && (s3 && s4) && (s5 && s6) in
  ' (full, extra) <-
    match rs with
    | ResArr _ => Ok (full, [])
    | ResDict _ ex =>
        (* the local [res] seen by check_inp is by now the swapped one *)
        ex' <- mapM (fun kv => p <- check_inp n r' (snd kv) (String.eqb (fst kv) "aniso") None ;;
                               Ok (fst kv, swp swap p)) ex ;;
        Ok (false, ex')
    end ;;
  Ok {| m_depth := depth; m_res := r'; m_aniso := an; m_epermH := eH; m_epermV := eV;
        m_mpermH := mH; m_mpermV := mV; m_full := full; m_extra := extra |}.

(** ** check_frequency (utils.py:444-530) *)
Definition c_light : R := 299792458.
(** utils.py:521-523, constants. *)
Definition mu_0 : R := 4 / 10 ^ 7 * PI.
Definition epsilon_0 : R := 1 / (mu_0 * c_light * c_light).

(** np.outer *)
Definition outer {A B D} (f : A -> B -> D) (a : list A) (b : list B) : list (list D) :=
  map (fun x => map (f x) b) a.

(** What check_frequency returns, utils.py:530. *)
Record freq_out := { f_freq : list R; f_etaH : list (list C); f_etaV : list (list C);
                     f_zetaH : list (list C); f_zetaV : list (list C) }.

(** In Laplace mode [sval] is real; it is embedded into C here. *)
Definition sval (laplace : bool) (f : R) : C :=
  if laplace then RtoC f else Cmult (0, 2) (RtoC (PI * f)).

(** Element-wise operation of two arrays of equal length. *)
Definition map2 {A B D} (f : A -> B -> D) (a : list A) (b : list B) : list D :=
  map (fun p => f (fst p) (snd p)) (combine a b).

(** utils.py:444-530 [check_frequency]. *)
Definition check_frequency (m : mins) (freq : list R) (r an eH eV mH mV : list R) : freq_out :=
  let laplace := negb (existsb (fun f => Rltb 0 f) freq) in
  let freq := if laplace then map Ropp freq else freq in
  let freq := fst (check_min freq (Some (min_freq m))) in
  let sv := map (sval laplace) freq in
  let eta cond eps :=
    map (fun s => map2 (fun c e => Cplus (RtoC c) (Cmult s (RtoC (e * epsilon_0)))) cond eps) sv in
  let zeta mu := outer (fun s x => Cmult s (RtoC (x * mu_0))) sv mu in
  {| f_freq := freq;
     f_etaH := eta (map (fun x => 1 / x) r) eH;
     f_etaV := eta (map2 (fun x a => 1 / (x * a * a)) r an) eV;
     f_zetaH := zeta mH;
     f_zetaV := zeta mV |}.

(** ** get_layer_nr (utils.py:1668-1711) *)
(** np.where(mask)[1] for a two-dimensional mask: the column indices of the
    true entries, row after row.  The final squeeze only changes the shape. *)
Definition where_row (row : list bool) : list nat :=
  map fst (filter snd (combine (seq 0 (List.length row)) row)).

(** utils.py:1668-1711 [get_layer_nr]. *)
Definition get_layer_nr (depth : list ext) (zinp : list R) : list nat :=
  let pdepth := tl depth ++ [PInf] in
  flat_map (fun z => where_row (map2 (fun d p => xltb d (Fin z) && xgeb p (Fin z)) depth pdepth)) zinp.

(** ** get_off_ang (utils.py:1714-1764) *)
(** numpy's arctan2(y, x) (signed zeros are not distinguished). *)
Definition atan2 (y x : R) : R :=
  if Rltb 0 x then atan (y / x)
  else if Rltb x 0 then (if Rleb 0 y then atan (y / x) + PI else atan (y / x) - PI)
  else if Rltb 0 y then PI / 2
  else if Rltb y 0 then - (PI / 2)
  else 0.

(** Broadcasting of a one-dimensional array of length 1 or n. *)
Definition bcast {A} (n : nat) (l : list A) : list A :=
  match l with [a] => repeat a n | _ => l end.

(** src and rec are [x; y] lists; the arrays off and angle are filled source
    after source.  (The slices have length nrec, and rec[0], rec[1] have that
    length after the checks.) *)
Definition get_off_ang (m : mins) (srcx srcy recx recy : list R) : list R * list R :=
  let per s := map2 (fun rx ry => (rx - fst s, ry - snd s)) recx recy in
  let co := flat_map per (combine srcx srcy) in
  (fst (check_min (map (fun c => sqrt (fst c * fst c + snd c * snd c)) co) (Some (min_off m))),
   map (fun c => atan2 (snd c) (fst c)) co).

(** ** check_dipole (utils.py:379-441) *)
(** Flat data of a checked array; inputs of more than one dimension are not
    rejected by the code for x and y (size is compared, not the shape). *)
Definition check_dipole (inp : list ndin) : res (list R * list R * list R * nat) :=
  match inp with
  | [x; y; z] =>
      ' (_, x) <- check_var x [] [] ;;
      ' (_, y) <- check_var y [] [] ;;
      ' (x, y) <-
        (if Nat.eqb (List.length x) (List.length y) then Ok (x, y)
         else if Nat.eqb (List.length x) 1 then Ok (bcast (List.length y) x, y)
         else if Nat.eqb (List.length y) 1 then Ok (x, bcast (List.length x) y)
         else Err ValueError) ;;
      ' (_, z) <- check_var z [1%nat] [] ;;
      Ok (x, y, z, List.length x)
  | _ => Err ValueError
  end.

(** ** check_bipole (utils.py:220-376) *)
(** np.isclose(a, 0) with the default tolerances. *)
Definition isclose0 (a : R) : bool := Rleb (Rabs a) (/ 10 ^ 8).

(** chck_dipole, utils.py:289-306 *)
Definition chck_dipole (mx : nat) (x y z : ndin) : res (list R * list R * list R) :=
  ' (_, x) <- check_var x [1%nat] [mx] ;;
  ' (_, y) <- check_var y [1%nat] [mx] ;;
  ' (_, z) <- check_var z [1%nat] [mx] ;;
  let x := if Nat.eqb (List.length x) mx then x else bcast mx x in
  let y := if Nat.eqb (List.length y) mx then y else bcast mx y in
  match z with
  | [] => Err IndexError
  | z0 :: _ =>
      let z := if forallb (fun v => isclose0 (v - z0)) z then [z0] else z in
      Ok (x, y, z)
  end.

(** np.atleast_1d(par).size; something that is no number has some size too, it
    fails later in _check_var. *)
Definition nd_size (v : ndin) : nat := match v with Nd _ d => List.length d | NdBad => 1%nat end.
Definition maxl (l : list nat) : nat := fold_right Nat.max 0%nat l.

(** a != b, element-wise with broadcasting of length-one arrays *)
Definition neq_bc (n : nat) (a b : list R) : list bool :=
  map2 (fun x y => negb (Reqb x y)) (bcast n a) (bcast n b).

(** Output of check_bipole: the lists [x, y, z, azm, dip] or
    [x0, x1, y0, y1, z0, z1], ninp, ninpz, isdipole. *)
Record bip := { b_arr : list (list R); b_n : nat; b_nz : nat; b_dip : bool }.

(** utils.py:220-376 [check_bipole]. *)
Definition check_bipole (inp : list ndin) : res bip :=
  let mx := maxl (map nd_size inp) in
  match inp with
  | [x; y; z; a; d] =>
      ' (x, y, z) <- chck_dipole mx x y z ;;
      ' (_, a) <- check_var a [1%nat] [mx] ;;
      ' (_, d) <- check_var d [1%nat] [mx] ;;
      let nz := List.length z in
      let a := if (1 <? nz)%nat && Nat.eqb (List.length a) 1 then bcast nz a else a in
      let d := if (1 <? nz)%nat && Nat.eqb (List.length d) 1 then bcast nz d else d in
      Ok {| b_arr := [x; y; z; a; d]; b_n := List.length x; b_nz := nz; b_dip := true |}
  | [x0; x1; y0; y1; z0; z1] =>
      ' (x0, y0, z0) <- chck_dipole mx x0 y0 z0 ;;
      ' (x1, y1, z1) <- chck_dipole mx x1 y1 z1 ;;
      let ex := (1 <? mx)%nat && ((1 <? List.length z0)%nat || (1 <? List.length z1)%nat) in
      let z0' := if ex && Nat.eqb (List.length z0) 1 then bcast mx z0 else z0 in
      let z1' := if ex && Nat.eqb (List.length z1) 1 then bcast mx z1 else z1 in
      let ne := map2 orb (map2 orb (neq_bc mx x0 x1) (neq_bc mx y0 y1)) (neq_bc mx z0' z1') in
      if negb (forallb (fun b => b) ne) then Err ValueError
      else Ok {| b_arr := [x0; x1; y0; y1; z0'; z1']; b_n := List.length x0;
                 b_nz := List.length z0'; b_dip := false |}
  | _ => Err ValueError
  end.

(** ** get_abs (utils.py:1514-1608) *)
(** python's float floor division and modulo by pi/2 *)
Definition ffloor (x : R) : Z := Int_part x.
Definition mod90 (x : R) : R := x - IZR (ffloor (x / (PI / 2))) * (PI / 2).
Definition quad90 (x : R) : Z := (ffloor (x / (PI / 2)) mod 2)%Z.

(** allclose to 0 of all angles modulo 90 degrees, then the test whether all
    quotients are even (Some 0) or all are odd (Some 1). *)
Definition axis_of (l : list R) : option Z :=
  if forallb (fun x => isclose0 (mod90 x)) l then
    if forallb (fun x => Z.eqb (quad90 x) 0) l then Some 0%Z
    else if forallb (fun x => Z.eqb (quad90 x) 1) l then Some 1%Z
    else None
  else None.

(** Directions (1, 2, 3 for x, y, z) that remain for given azimuths and dips:
    the columns (source) or rows (receiver) of [bab] that are not switched off. *)
Definition keep_dir (azm dip : list R) (k : Z) : bool :=
  (match axis_of azm with
   | Some 0%Z => negb (Z.eqb k 2)
   | Some 1%Z => negb (Z.eqb k 1)
   | _ => true
   end) &&
  (match axis_of dip with
   | Some 0%Z => negb (Z.eqb k 3)
   | Some 1%Z => Z.eqb k 3
   | _ => true
   end).

(** Entry of [ab_calc] in row r (receiver direction) and column s (source
    direction), r, s in 1..3. *)
Definition ab_entry (msrc mrec : bool) (r s : Z) : Z :=
  let ab := (10 * r + s + (if msrc then 3 else 0) + (if mrec then 30 else 0))%Z in
  if mrec then
    if msrc then (ab - 33)%Z
    else (ab mod 10 * 10 + ab / 10)%Z
  else ab.

(** utils.py:1514-1608 [get_abs]. *)
Definition get_abs (msrc mrec : bool) (srcazm srcdip recazm recdip : list R) : list Z :=
  flat_map (fun r => flat_map (fun s =>
    if keep_dir recazm recdip r && keep_dir srcazm srcdip s
    then [ab_entry msrc mrec r s] else []) [1; 2; 3]%Z) [1; 2; 3]%Z.

(** ** get_geo_fact (utils.py:1611-1665) *)
Definition gfact (bp : Z) (azm dip : R) : R :=
  if inb bp [1; 4]%Z then cos azm * cos dip
  else if inb bp [2; 5]%Z then sin azm * cos dip
  else sin dip.

(** One entry of the array [fact]; np.outer(frec, fsrc) is formed from the
    lists of receiver and source angles. *)
Definition geo_fact1 (m : mins) (ab : Z) (srcazm srcdip recazm recdip : R) (msrc mrec : bool) : R :=
  let fis := (ab mod 10)%Z in
  let fir := (ab / 10)%Z in
  let '(fis, fir) := if mrec && negb msrc then (fir, fis) else (fis, fir) in
  let f := gfact fir recazm recdip * gfact fis srcazm srcdip in
  if Rltb (Rabs f) (min_angle m) then 0 else f.

(** Azimuth and dip arrays may have length one and n (numpy broadcasting in
    [np.cos(azm)*np.cos(dip)]). *)
Definition zipbc (a b : list R) : list (R * R) :=
  let n := Nat.max (List.length a) (List.length b) in combine (bcast n a) (bcast n b).

(** utils.py:1611-1665 [get_geo_fact]. *)
Definition get_geo_fact (m : mins) (ab : Z) (srcazm srcdip recazm recdip : list R)
    (msrc mrec : bool) : list (list R) :=
  outer (fun r s => geo_fact1 m ab (fst s) (snd s) (fst r) (snd r) msrc mrec)
        (zipbc recazm recdip) (zipbc srcazm srcdip).

(** ** get_azm_dip (utils.py:1767-1970) *)
(** Round half to even to an integer, then np.round with n decimals. *)
Definition rint (x : R) : Z :=
  let f := ffloor x in
  let d := x - IZR f in
  if Rltb d (/ 2) then f
  else if Rltb (/ 2) d then (f + 1)%Z
  else if Z.even f then f else (f + 1)%Z.
Definition pow10 (n : Z) : R := powerRZ 10 n.
Definition round_dec (n : Z) (x : R) : R := IZR (rint (x * pow10 n)) / pow10 n.
Definition rndco (m : mins) : Z := rint (ln (1 / min_off m) / ln 10).

Definition deg2rad (x : R) : R := x * PI / 180.

(** tout = [x; y; z], azm, dip, g_w, intpts, inp_w *)
Record azmdip := { t_x : list R; t_y : list R; t_z : list R; t_azm : list R; t_dip : list R;
                   t_gw : list R; t_pts : nat; t_w : list R }.

(** Geometry of one finite dipole: length, azimuth, dip *)
Definition bip_len (dx dy dz : R) : R := sqrt (dx * dx + dy * dy + dz * dz).
Definition bip_azm (dx dy : R) : R := atan2 dy dx.
Definition bip_dip (dx dy dz : R) : R := PI / 2 - acos (dz / bip_len dx dy dz).

(** [gl n]: nodes and weights of scipy's roots_legendre(n).  [src] is
    [name == 'src'].  For a finite bipole the arrays z0, z1 may have length one
    while the others have length n (numpy broadcasting). *)
Definition get_azm_dip (m : mins) (gl : Z -> list R * list R) (inp : list (list R)) (iz ninpz : nat)
    (intpts : Z) (isdipole : bool) (strength : R) (src : bool) : res azmdip :=
  let pick l := if Nat.eqb ninpz 1 then Ok l else v <- idx l (Z.of_nat iz) ;; Ok [v] in
  tinp <- mapM pick inp ;;
  if isdipole then
    match tinp with
    | [x; y; z; a; d] =>
        let n := List.length x in
        Ok {| t_x := x; t_y := y; t_z := z; t_azm := map deg2rad a; t_dip := map deg2rad d;
              t_gw := repeat 1 n; t_pts := 1;
              t_w := repeat (if src && Rltb 0 strength then strength else 1) n |}
    | _ => Err IndexError
    end
  else
    match tinp with
    | [x0; x1; y0; y1; z0; z1] =>
        let n := List.length x0 in
        let dx := map2 Rminus x1 x0 in
        let dy := map2 Rminus y1 y0 in
        let dz := map2 Rminus z1 z0 in
        let dxyz := combine (combine (bcast n dx) (bcast n dy)) (bcast n dz) in
        let on f := map (fun p => f (fst (fst p)) (snd (fst p)) (snd p)) dxyz in
        let dl := on bip_len in
        let azm := on (fun a b _ => bip_azm a b) in
        let dip := on bip_dip in
        let rnd := map (round_dec (rndco m)) in
        let w := map (fun l => if Rltb 0 strength then (if src then l * strength else l) else 1) dl in
        if (2 <? intpts)%Z then
          let '(gx, gw) := gl intpts in
          (* point of dipole i and node g: centre + g*dl/2*direction *)
          let pts c0 dc dirf :=
            flat_map (fun q => map (fun g => fst (fst q) + snd (fst q) / 2 + g * (snd q)) gx)
              (combine (combine (bcast n c0) (bcast n dc)) dirf) in
          let la := combine dl (combine azm dip) in
          let ux := map (fun q => fst q / 2 * (cos (snd (snd q)) * cos (fst (snd q)))) la in
          let uy := map (fun q => fst q / 2 * (cos (snd (snd q)) * sin (fst (snd q)))) la in
          let uz := map (fun q => fst q / 2 * sin (snd (snd q))) la in
          let zs := pts z0 dz uz in
          Ok {| t_x := rnd (pts x0 dx ux); t_y := rnd (pts y0 dy uy);
                t_z := rnd (if Nat.eqb ninpz 1 then firstn (List.length gx) zs else zs);
                t_azm := azm; t_dip := dip; t_gw := map (fun v => v / 2) gw;
                t_pts := Z.to_nat intpts; t_w := w |}
        else
          let ctr c0 dc := map2 (fun a b => a + b / 2) c0 dc in
          Ok {| t_x := rnd (ctr x0 dx); t_y := rnd (ctr y0 dy); t_z := rnd (ctr z0 dz);
                t_azm := azm; t_dip := dip; t_gw := [1]; t_pts := 1; t_w := w |}
    | _ => Err IndexError
    end.

(** ** check_loop (utils.py:906-961) *)
(** [loop] argument: "off", "freq" or anything else; [ht] checked name;
    pts_per_dec for the DLF.  Result: (loop_freq, loop_off). *)
Definition check_loop (loop : option string) (ht : string) (pts_per_dec : Z) : bool * bool :=
  let lagged := String.eqb ht "dlf" && negb (Z.eqb pts_per_dec 0) in
  if String.eqb ht "qwe" || String.eqb ht "quad" || lagged then (true, false)
  else (match loop with Some l => String.eqb l "freq" | None => false end,
        match loop with Some l => String.eqb l "off" | None => false end).
