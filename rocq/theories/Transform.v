(** Model of the numerical transforms of empymod/transform.py.

    Real arithmetic replaces floating point.  Arrays are lists, the shape of an
    array is visible in its type:

    - wavenumber-domain signals have the shape (frequencies, offsets, points);
    - SciPy's [InterpolatedUnivariateSpline] and [scipy.integrate.quad] are
      arguments of the model ([spl], [rquad]); nothing is assumed about them
      except where a theorem says so;
    - [np.dot(a, w)] along the last axis is [dot]; the filter arrays have as
      many elements as the base (they are columns of one file). *)

From Coq Require Import ZArith Reals List Bool String.
From Coquelicot Require Import Coquelicot.
From Verif Require Import PyBase CBase Kernel Utils.
Import ListNotations.
Local Open Scope R_scope.
Local Open Scope C_scope.
Local Open Scope res_scope.

(** ** filters.py:51-86 [DigitalFilter]: the attributes used by the transforms *)
Record dfilter := mkF {
  f_base : list R; f_factor : R;
  f_j0 : list R; f_j1 : list R; f_sin : list R; f_cos : list R }.

(** [arr.min()], [arr.max()]: ValueError for an empty array *)
Definition lmin (l : list R) : res R :=
  match l with [] => Err ValueError | x :: t => Ok (fold_left Rmin t x) end.
Definition lmax (l : list R) : res R :=
  match l with [] => Err ValueError | x :: t => Ok (fold_left Rmax t x) end.

(** [np.sum] of complex and of real values. *)
Definition csuml (l : list C) : C := fold_right Cplus (RtoC 0) l.
Definition rsuml (l : list R) : R := fold_right Rplus 0%R l.
(** [np.dot] of complex (real) values with real filter weights *)
Definition dot (w : list R) (v : list C) : C := csuml (map2 (fun x y => Cmult x (RtoC y)) v w).
Definition rdot (w : list R) (v : list R) : R := rsuml (map2 Rmult v w).

(** [a + b] for arrays. *)
Definition vadd (a b : list C) : list C := map2 Cplus a b.
(** [a / r], [a /= r] for a complex and a real vector *)
Definition vdivr (a : list C) (r : list R) : list C := map2 (fun x y => Cdiv x (RtoC y)) a r.
Definition czeros (n : nat) : list C := repeat (RtoC 0) n.

(** [np.ceil] *)
Definition ceilZ (x : R) : Z := (- Int_part (- x))%Z.
(** [np.arange(a, b, s)] for reals *)
Definition arange (a b s : R) : list R :=
  map (fun k => a + INR k * s)%R (seq 0 (Z.to_nat (ceilZ ((b - a) / s)))).

(** ** transform.py:1200-1257 [get_dlf_points]

    The first result is the array of points handed to the kernel (its rows),
    the second the intermediate points: none needed (Standard), output-domain
    points (Lagged) or one row of input-domain points per output (Splined). *)
Inductive ipts := PNone | PLag (l : list R) | PSpl (l : list (list R)).

Definition base_over (base inp : list R) : list (list R) :=
  map (fun r => map (fun b => b / r)%R base) inp.

(** 1213-1223, 1230-1233: number of points of the lagged convolution *)
Definition nout_lag (nbase : nat) (outmin outmax ppd : R) : Z :=
  let nout := (ceilZ (ln (outmax / outmin) * ppd) + 1)%Z in
  if (nout - Z.of_nat nbase <? 3)%Z then (Z.of_nat nbase + 3)%Z else nout.
(** 1225-1229, 1239-1240: number of points of the splined version *)
Definition nout_spl (outmin outmax ppd : R) : Z :=
  let nout := (ceilZ (ln (outmax / outmin) / ln 10 * ppd) + 1)%Z in
  if (nout <? 4)%Z then 4%Z else nout.

(** transform.py:1200-1257 [get_dlf_points]. *)
Definition get_dlf_points (filt : dfilter) (inp : list R) (nr : R) : res (list (list R) * ipts) :=
  if Reqb nr 0 then Ok (base_over (f_base filt) inp, PNone)
  else
    imin <- lmin inp ;;
    imax <- lmax inp ;;
    blast <- idx (f_base filt) (-1) ;;
    bfirst <- idx (f_base filt) 0 ;;
    let outmax := (blast / imin)%R in
    let outmin := (bfirst / imax)%R in
    let nbase := List.length (f_base filt) in
    if Rltb nr 0 then
      let ppd := (1 / ln (f_factor filt))%R in
      let nout := nout_lag nbase outmin outmax ppd in
      let out := map exp (arange (ln outmin) (ln outmin + IZR nout / ppd) (1 / ppd)) in
      let new_inp := map (fun k => imax * exp (- INR k / ppd))%R
                         (seq 0 (Z.to_nat (nout - Z.of_nat nbase + 1))) in
      Ok ([out], PLag new_inp)
    else
      let nout := nout_spl outmin outmax nr in
      let out := map (fun x => exp (x * ln 10))%R
                     (arange (ln outmin / ln 10) (ln outmin / ln 10 + IZR nout / nr) (1 / nr)) in
      Ok ([out], PSpl (base_over (f_base filt) inp)).

(** ** transform.py:847-1046 [dlf] *)

(** A one-dimensional interpolator: values, abscissae, points of evaluation;
    stands for [iuSpline(np.log(points), values)(np.log(int_pts))] (921-926). *)
Definition interp := list R -> list R -> list R -> list R.

(** 921-926 for complex values: real and imaginary part separately *)
Definition cspl (spl : interp) (v : list C) (p q : list R) : list C :=
  map2 (fun a b => (a, b)) (spl (map fst v) p q) (spl (map snd v) p q).

(** 938-943: [concatenate((tile(val, n), zeros(n))).reshape(n, -1)[:, :nbase]] *)
Definition rearrange {A} (zero : A) (val : list A) (n nbase : nat) : list (list A) :=
  let flat := List.concat (repeat val n) ++ repeat zero n in
  let w := (List.length flat / n)%nat in
  map (fun i => firstn nbase (firstn w (skipn (i * w) flat))) (seq 0 n).

(** 876-885: (one_angle, has_angle_factors, ang_fact); [one_angle] is unbound
    if there are no angle factors *)
Definition angle_case (ang : option (list R)) : res (option bool * bool * (R + list R)) :=
  match ang with
  | None => Ok (None, false, inr [])
  | Some l =>
      mn <- lmin l ;;
      mx <- lmax l ;;
      if Reqb mn mx then
        a0 <- idx l 0 ;;
        Ok (Some true, negb (Reqb a0 1), inl a0)
      else Ok (Some false, true, inr l)
  end.

(** [out *= ang_fact] *)
Definition ang_mul (a : R + list R) (v : list C) : list C :=
  match a with
  | inl s => map (fun x => Cmult x (RtoC s)) v
  | inr l => map2 (fun x s => Cmult x (RtoC s)) v l
  end.

Definition isSome {A} (o : option A) : bool := match o with Some _ => true | None => false end.

(** 974-985, 1003-1011: the J1 and J0b kernels of one frequency; rows are the
    offsets, [div] the vector dividing because of J2 *)
Definition dlf_ang (filt : dfilter) (ab : Z) (div : list R) (n : nat)
    (s1 s0b : option (list (list C))) : list C :=
  let o1 := match s1 with
            | Some m => let o := map (dot (f_j1 filt)) m in
                        if inb ab [11; 12; 21; 22; 14; 24; 15; 25]%Z then vdivr o div else o
            | None => czeros n
            end in
  match s0b with
  | Some m => vadd o1 (map (dot (f_j0 filt)) m)
  | None => o1
  end.

(** 971-972: the J0 kernel *)
Definition dlf_noang (filt : dfilter) (n : nat) (s0 : option (list (list C))) : list C :=
  match s0 with Some m => map (dot (f_j0 filt)) m | None => czeros n end.

(** 997-1018: everything combined *)
Definition dlf_comb (filt : dfilter) (ab : Z) (div : list R) (n : nat)
    (has : bool) (a : R + list R) (s0 s1 s0b : option (list (list C))) : list C :=
  let o := dlf_ang filt ab div n s1 s0b in
  let o := if has then ang_mul a o else o in
  match s0 with Some m => vadd o (map (dot (f_j0 filt)) m) | None => o end.

Definition sig := option (list (list (list C))).

(** 891-896: shape of the last signal that is not None; UnboundLocal if all are None *)
Definition inp_signal (s0 s1 s0b : sig) : res (list (list (list C))) :=
  match s0b, s1, s0 with
  | Some v, _, _ => Ok v
  | None, Some v, _ => Ok v
  | None, None, Some v => Ok v
  | None, None, None => Err UnboundLocal
  end.

(** Interpolated signals exist only for one frequency and one row of points;
    any other shape makes [concatenate] / [iuSpline] fail. *)
Definition only_row (s : sig) : res (option (list C)) :=
  match s with
  | None => Ok None
  | Some [[row]] => Ok (Some row)
  | Some _ => Err ValueError
  end.

Definition freq_slice (f : nat) (s : sig) : option (list (list C)) :=
  option_map (fun v => nth f v []) s.

(** 965: reading [one_angle] *)
Definition bound {A} (o : option A) : res A :=
  match o with Some a => Ok a | None => Err UnboundLocal end.

(** Hankel branch of [dlf]; result has the shape (frequencies, offsets) *)
Definition dlf_hankel (spl : interp) (s0 s1 s0b : sig) (points : list R) (out_pts : list R)
    (filt : dfilter) (ppd : R) (ang : option (list R)) (ab : Z) (ip : ipts)
    : res (list (list C)) :=
  '(one, has0, a) <- angle_case ang ;;
  v <- inp_signal s0 s1 s0b ;;
  let has := has0 && (isSome s1 || isSome s0b) in
  let nb := List.length (f_base filt) in
  if Reqb ppd 0 then
    Ok (map (fun f =>
               vdivr (dlf_comb filt ab out_pts (List.length (nth f v [])) has a
                        (freq_slice f s0) (freq_slice f s1) (freq_slice f s0b)) out_pts)
            (seq 0 (List.length v)))
  else if Rltb ppd 0 then
    ip <- match ip with
          | PLag l => Ok l
          | PSpl _ => Err ValueError
          | PNone => '(_, q) <- get_dlf_points filt out_pts ppd ;;
                     match q with PLag l => Ok l | _ => Err ValueError end
          end ;;
    let n := List.length ip in
    r0 <- only_row s0 ;;
    r1 <- only_row s1 ;;
    r0b <- only_row s0b ;;
    let re := option_map (fun r => rearrange (RtoC 0) r n nb) in
    one <- bound one ;;
    let out :=
      if (one : bool) then
        cspl spl (rev (dlf_comb filt ab ip n has a (re r0) (re r1) (re r0b))) (rev ip) out_pts
      else
        let oa := cspl spl (rev (dlf_ang filt ab ip n (re r1) (re r0b))) (rev ip) out_pts in
        let oa := if has then ang_mul a oa else oa in
        match re r0 with
        | Some _ => vadd oa (cspl spl (rev (dlf_noang filt n (re r0))) (rev ip) out_pts)
        | None => oa
        end in
    Ok [vdivr out out_pts]
  else
    let ip := match ip with PSpl l => l | _ => base_over (f_base filt) out_pts end in
    let n := List.length ip in
    r0 <- only_row s0 ;;
    r1 <- only_row s1 ;;
    r0b <- only_row s0b ;;
    let re := option_map (fun r => map (cspl spl r points) ip) in
    one <- bound one ;;
    let out :=
      if (one : bool) then dlf_comb filt ab out_pts n has a (re r0) (re r1) (re r0b)
      else
        let oa := dlf_ang filt ab out_pts n (re r1) (re r0b) in
        let oa := if has then ang_mul a oa else oa in
        vadd oa (dlf_noang filt n (re r0)) in
    Ok [vdivr out out_pts].

(** 900-915, 1020-1021, 1043-1046: Fourier branch of [dlf].  [sine] is
    [kind == 'sin']; [rows] is the signal as an array with one row per time
    (Standard), or with one row (Lagged and Splined). *)
Definition dlf_fourier (spl : interp) (sine : bool) (rows : list (list C)) (points : list R)
    (out_pts : list R) (filt : dfilter) (ppd : R) : res (list R) :=
  let part := fun c : C => if sine then (- snd c)%R else fst c in
  let w := if sine then f_sin filt else f_cos filt in
  let vdiv := fun a => map2 Rdiv a out_pts in
  if Reqb ppd 0 then Ok (vdiv (map (fun r => rdot w (map part r)) rows))
  else
    row <- match rows with [r] => Ok (map part r) | _ => Err ValueError end ;;
    if Rltb ppd 0 then
      '(_, q) <- get_dlf_points filt out_pts ppd ;;
      match q with
      | PLag ip =>
          let n := List.length ip in
          let o := map (rdot w) (rearrange 0%R row n (List.length (f_base filt))) in
          Ok (vdiv (spl (rev o) (rev ip) out_pts))
      | _ => Err ValueError
      end
    else
      Ok (vdiv (map (fun q => rdot w (spl row points q)) (base_over (f_base filt) out_pts))).

(** ** transform.py:52-119 [hankel_dlf]

    [wn f lam] is [kernel.wavenumber] for frequency number [f] and wavenumber
    [lam]: the three kernels with their [None]s.  Which of them are [None]
    depends on [ab] only (kernel.py:107-118), so the [None] pattern is that of
    [used]. *)
Definition triple := (option C * option C * option C)%type.
Definition t0 (t : triple) : option C := fst (fst t).
Definition t1 (t : triple) : option C := snd (fst t).
Definition t0b (t : triple) : option C := snd t.
Definition oval (o : option C) : C := match o with Some c => c | None => RtoC 0 end.

(** transform.py:112-113: the kernel at all frequencies and points. *)
Definition kernel_array (wn : nat -> R -> res triple) (nf : nat) (lam : list (list R))
    : res (list (list (list triple))) :=
  mapM (fun f => mapM (fun row => mapM (wn f) row) lam) (seq 0 nf).

(** One of PJ0, PJ1, PJ0b as an array, [None] if it is not used. *)
Definition get_part (used : bool) (p : triple -> option C) (a : list (list (list triple))) : sig :=
  if used then Some (map (map (map (fun t => oval (p t)))) a) else None.

(** transform.py:52-119 [hankel_dlf]. *)
Definition hankel_dlf (spl : interp) (wn : nat -> R -> res triple) (used : bool * bool * bool)
    (nf : nat) (off : list R) (ang : option (list R)) (ab : Z) (filt : dfilter) (ppd : R)
    : res (list (list C) * Z * bool) :=
  '(lam, ip) <- get_dlf_points filt off ppd ;;
  a <- kernel_array wn nf lam ;;
  let '(u0, u1, u0b) := used in
  fEM <- dlf_hankel spl (get_part u0 t0 a) (get_part u1 t1 a) (get_part u0b t0b a)
           (List.concat lam) off filt ppd ang ab ip ;;
  Ok (fEM, 1%Z, true).

(** ** transform.py:508-541 [fourier_dlf] *)

(** [fEM.reshape(n, -1)] *)
Definition reshape_rows {A} (l : list A) (n : nat) : res (list (list A)) :=
  if (n =? 0)%nat then Err ValueError
  else if negb (List.length l mod n =? 0)%nat then Err ValueError
  else let w := (List.length l / n)%nat in
       Ok (map (fun i => firstn w (skipn (i * w) l)) (seq 0 n)).

(** transform.py:508-541 [fourier_dlf]. *)
Definition fourier_dlf (spl : interp) (sine : bool) (filt : dfilter) (ppd : R)
    (fEM : list C) (time freq : list R) : res (list R * bool) :=
  rows <- (if Reqb ppd 0 then reshape_rows fEM (List.length time) else Ok [fEM]) ;;
  t <- dlf_fourier spl sine rows (map (fun f => 2 * PI * f)%R freq) time filt ppd ;;
  Ok (t, true).

(** ** transform.py:1049-1133 [qwe] *)

(** [np.finfo(np.double).tiny] and [.max] *)
Definition dbl_tiny : R := (/ 2 ^ 1022)%R.
Definition dbl_max : R := ((2 - / 2 ^ 52) * 2 ^ 1023)%R.

(** State of one element: working array S, EM, om, extrapolated values *)
Record qel := mkQ { q_S : list C; q_EM : C; q_om : bool; q_ex : list C }.

(** 1098-1103: one step of the epsilon algorithm, [k] going down *)
Definition eps_step (st : list C * C) (k : nat) : list C * C :=
  let '(Sw, aux2) := st in
  let aux1 := aux2 in
  let aux2' := nth (k - 1) Sw (RtoC 0) in
  let ddff := Cminus (nth k Sw (RtoC 0)) aux2' in
  let new := if Rltb (Cmod ddff) dbl_tiny then RtoC dbl_max
             else Cplus aux1 (Cdiv (RtoC 1) ddff) in
  (replace Sw (k - 1) new, aux2').

Definition eps_loop (Sw : list C) (i : nat) : list C :=
  fst (fold_left eps_step (rev (seq 1 i)) (Sw, RtoC 0)).

(** 1110-1117: is the element still not converged?  A zero extrapolated value
    makes the test a comparison of nan or inf; its outcome is the argument
    [zero_case]. *)
Definition not_conv (rtol atol : R) (zero_case : C -> bool) (e prev : C) : bool :=
  if Ceq_dec e (RtoC 0) then zero_case prev
  else Rleb (rtol + atol / Cmod e)%R (Cmod (Cdiv (Cminus e prev) e)).

(** One pass of the loop (1085-1120) for one element that is still active;
    [EM0], [EMi]: the contributions of the first and of this interval. *)
Definition qwe_elem (rtol atol : R) (zc : C -> bool) (i : nat) (EM0 EMi : C) (q : qel) : qel :=
  let S1 := replace (q_S q) i (Cplus (nth (i - 1) (q_S q) (RtoC 0)) EMi) in
  let S2 := eps_loop S1 i in
  let e := Cplus (nth (i mod 2) S2 (RtoC 0)) EM0 in
  let ex := replace (q_ex q) (i - 1) e in
  if (1 <? i)%nat then
    let om := not_conv rtol atol zc e (nth (i - 2) (q_ex q) (RtoC 0)) in
    mkQ S2 (if om then e else q_EM q) om ex
  else mkQ S2 (q_EM q) true ex.

(** transform.py:1085-1120: one pass for all elements; an element that has converged keeps its state. *)
Definition qwe_pass (rtol atol : R) (zc : C -> bool) (contrib : nat -> nat -> C) (i : nat)
    (st : list qel) : list qel :=
  map2 (fun e q => if q_om q then qwe_elem rtol atol zc i (contrib e 0%nat) (contrib e i) q else q)
       (seq 0 (List.length st)) st.

(** 1080-1124: the loop; the result is the last [i] (None: loop not entered) *)
Fixpoint qwe_loop (rtol atol : R) (zc : C -> bool) (contrib : nat -> nat -> C) (is : list nat)
    (last : option nat) (kcount : Z) (st : list qel) : option nat * Z * list qel :=
  match is with
  | [] => (last, kcount, st)
  | i :: is' =>
      let st' := qwe_pass rtol atol zc contrib i st in
      if forallb (fun q => negb (q_om q)) st' then (Some i, (kcount + 1)%Z, st')
      else qwe_loop rtol atol zc contrib is' (Some i) (kcount + 1)%Z st'
  end.

(** 1133: [EM.real[EM.real == max] = 0] *)
Definition clean (c : C) : C := if Reqb (fst c) dbl_max then (0%R, snd c) else c.

(** [contrib e i]: the quadrature of interval [i] times its weight for element
    [e] (1066-1071, 1085-1090); [n]: number of elements.  The kernel count is
    that of the call-back version. *)
Definition qwe (rtol atol : R) (maxint : nat) (zc : C -> bool) (contrib : nat -> nat -> C) (n : nat)
    : res (list C * Z * bool) :=
  let init := mkQ (repeat (RtoC 0) maxint) (RtoC 0) true (repeat (RtoC 0) maxint) in
  let '(last, kcount, st) :=
    qwe_loop rtol atol zc contrib (seq 1 (maxint - 1)) None 1 (repeat init n) in
  match last with
  | None => Err UnboundLocal
  | Some i =>
      let conv := negb (i + 1 =? maxint)%nat in
      Ok (map (fun q => clean (if q_om q then nth (i - 1) (q_ex q) (RtoC 0) else q_EM q)) st,
          kcount, conv)
  end.

(** ** transform.py:1136-1197 [quad]

    [scipy.integrate.quad] with full_output: value and number of returned
    items (3, or 4 and more if there was a problem).  [g] is the integrand. *)
Section Quad.
Variable rquad : (R -> R) -> R * nat.
Variables j0 j1 : R -> R.

(** Python's [(len(re) or len(im)) > 3] *)
Definition len_or (a b : nat) : nat := if (a =? 0)%nat then b else a.

(** transform.py:1145-1161: the three integrands. *)
Definition quad_PJ0 (s : R -> R) (off l : R) : R := (s (ln l) * j0 (off * l))%R.
Definition quad_PJ1 (s : R -> R) (ab : Z) (off ang l : R) : R :=
  let t := (ang * s (ln l))%R in
  let t := if inb ab [11; 12; 21; 22; 14; 24; 15; 25]%Z then (t / off)%R else t in
  (t * j1 (off * l))%R.
Definition quad_PJ0b (s : R -> R) (off ang l : R) : R := (ang * s (ln l) * j0 (off * l))%R.

(** one of the three blocks 1167-1194 *)
Definition quad_block (k : option ((R -> R) * (R -> R))) (integrand : (R -> R) -> R -> R)
    (acc : C * bool) : C * bool :=
  match k with
  | None => acc
  | Some (sr, si) =>
      let re := rquad (integrand sr) in
      let im := rquad (integrand si) in
      (Cplus (fst acc) (fst re, fst im),
       if (3 <? len_or (snd re) (snd im))%nat then false else snd acc)
  end.

(** transform.py:1136-1197 [quad]. *)
Definition quad (s0 s1 s0b : option ((R -> R) * (R -> R))) (ab : Z) (off ang : R) : C * bool :=
  quad_block s0b (fun s => quad_PJ0b s off ang)
    (quad_block s1 (fun s => quad_PJ1 s ab off ang)
      (quad_block s0 (fun s => quad_PJ0 s off) (RtoC 0, true))).
End Quad.
