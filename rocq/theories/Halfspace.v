(** Model of kernel.py:933-1240 [halfspace] for one source-receiver pair and a list
    of times or Laplace parameters (the function is element-wise in the offsets).

    Coefficients are real; values are complex (real parts only in the time domain,
    where numpy uses float64).  [erfc] is its integral, the scaled Bessel functions
    [scipy.special.ive] and [kve] are arguments.  A zero distance between source
    and receiver or its mirror image, or a zero offset in the airwave of the impulse
    response, where numpy divides by zero, is an error (NanE). *)

From Coq Require Import ZArith Reals List Bool.
From Coquelicot Require Import Coquelicot.
From Verif Require Import PyBase CBase.
Import ListNotations.
Local Open Scope R_scope.
Local Open Scope res_scope.

(** 985 *)
Definition mu0 : R := 4 / 10 ^ 7 * PI.

(** scipy.special.erfc *)
Definition erfc (x : R) : R := 1 - 2 / sqrt PI * RInt (fun t => exp (- (t * t))) 0 x.

(** 955-956: resistivity and anisotropy from the first frequency; eta of the only layer *)
Definition hs_res (etaH : C) : R := fst (Cinv etaH).
Definition hs_aniso (etaV : C) (res : R) : R := 1 / sqrt (fst etaV * res).

(** 969-989 distances and diffusion times *)
Record hgeo := { g_x : R; g_y : R; rh : R; hp : R; hm : R; hsp : R; hsm : R; rp : R; rm : R; rsp : R; rsm : R;
                 tp : R; tm : R; tsp : R; tsm : R }.
Definition hs_geo (off angle zsrc zrec res aniso : R) : hgeo :=
  let x := cos angle * off in let y := sin angle * off in
  let hp := Rabs (zrec + zsrc) in let hm := Rabs (zrec - zsrc) in
  let hsp := hp * aniso in let hsm := hm * aniso in
  let rp := sqrt (x ^ 2 + y ^ 2 + hp ^ 2) in let rm := sqrt (x ^ 2 + y ^ 2 + hm ^ 2) in
  let rsp := sqrt (x ^ 2 + y ^ 2 + hsp ^ 2) in let rsm := sqrt (x ^ 2 + y ^ 2 + hsm ^ 2) in
  {| g_x := x; g_y := y; rh := sqrt (x ^ 2 + y ^ 2); hp := hp; hm := hm; hsp := hsp; hsm := hsm;
     rp := rp; rm := rm; rsp := rsp; rsm := rsm;
     tp := mu0 * rp ^ 2 / (res * 4); tm := mu0 * rm ^ 2 / (res * 4);
     tsp := mu0 * rsp ^ 2 / (res * aniso ^ 2 * 4); tsm := mu0 * rsm ^ 2 / (res * aniso ^ 2 * 4) |}.

(** 992-1012 *)
Definition hs_delta (ab : Z) : R := if inb ab [11; 22; 33]%Z then 1 else 0.
Definition hs_xy (ab : Z) (xco yco : R) : R * R :=
  if (ab =? 11)%Z then (xco, xco)
  else if inb ab [22; 23; 32]%Z then (yco, yco)
  else if (ab =? 21)%Z then (yco, xco) else (xco, yco).
Definition hs_rev (ab : Z) : R := if inb ab [13; 23]%Z then -1 else 1.

(** 1016-1066: the functions f0, f1, f2 of a diffusion time t *)
Inductive hs_at := AtS (s : C) | AtStep (time : R) | AtImp (time : R).

Definition hs_f0 (w : hs_at) (t : R) : C :=
  match w with
  | AtS s => Cexp (Cmult (RtoC (-2)) (Csqrt (Cmult s (RtoC t))))
  | AtStep time => RtoC (erfc (sqrt (t / time)))
  | AtImp time => RtoC (sqrt (t / (PI * time ^ 3)) * exp (- t / time))
  end.
Definition hs_f1 (w : hs_at) (t : R) : C :=
  match w with
  | AtS s => Cmult (Csqrt s) (hs_f0 w t)
  | AtStep time => RtoC (exp (- t / time) / sqrt (PI * time))
  | AtImp time => Cmult (RtoC ((t / time - 1 / 2) / sqrt t)) (hs_f0 w t)
  end.
Definition hs_f2 (w : hs_at) (t : R) : C :=
  match w with
  | AtS s => Cmult s (hs_f0 w t)
  | AtStep time => Cmult (hs_f1 w t) (RtoC (sqrt t / time))
  | AtImp time => Cmult (RtoC ((t / time - 3 / 2) / time)) (hs_f0 w t)
  end.

(** 1068-1079, 1082-1125, 1194-1213: coefficients *)
Record hcoef := { s0m : R; s0p : R; s1m : R; s1p : R; s2m : R; s2p : R;
                  c0p : R; c1m : R; c1p : R; c2m : R; c2p : R }.

Definition hs_coef (ab : Z) (g : hgeo) (zsrc zrec res aniso : R) : hcoef :=
  let delta := hs_delta ab in
  let '(x, y) := hs_xy ab (g_x g) (g_y g) in
  if inb ab [11; 12; 21; 22]%Z then
    let izr := if Req_EM_T (rh g) 0 then true else false in
    let izh := if Req_EM_T (hm g) 0 then true else false in
    let fab := (rh g) ^ 2 * delta - x * y in
    let sq := sqrt (mu0 * res) in
    (* value for rh <> 0; for rh = 0, hm <> 0; for both zero *)
    let pick (v w : R) := if izr then if izh then 0 else w else v in
    let c1m := pick (sq * (x * y - fab) / (4 * PI * (rh g) ^ 4)) 0 in
    {| s0p := res * aniso * (3 * x * y - (rsp g) ^ 2 * delta) / (4 * PI * (rsp g) ^ 5);
       s0m := res * aniso * (3 * x * y - (rsm g) ^ 2 * delta) / (4 * PI * (rsm g) ^ 5);
       s1p := pick (((3 * x * y - (rsp g) ^ 2 * delta) / (rsp g) ^ 4 - (x * y - fab) / (rh g) ^ 4) * sq / (4 * PI))
                   (- sq * delta / (4 * PI * (hsp g) ^ 2));
       s1m := pick (((3 * x * y - (rsm g) ^ 2 * delta) / (rsm g) ^ 4 - (x * y - fab) / (rh g) ^ 4) * sq / (4 * PI))
                   (- sq * delta / (4 * PI * (hsm g) ^ 2));
       s2p := pick ((mu0 * x * y) / (4 * PI * aniso * rsp g) * (1 / (rsp g) ^ 2 - 1 / (rh g) ^ 2))
                   (- mu0 * delta / (8 * PI * aniso * hsp g));
       s2m := pick ((mu0 * x * y) / (4 * PI * aniso * rsm g) * (1 / (rsm g) ^ 2 - 1 / (rh g) ^ 2))
                   (- mu0 * delta / (8 * PI * aniso * hsm g));
       c0p := res * (3 * fab - (rp g) ^ 2 * delta) / (2 * PI * (rp g) ^ 5);
       c1m := c1m;
       c1p := pick (c1m + sq * (3 * fab - (rp g) ^ 2 * delta) / (2 * PI * (rp g) ^ 4))
                   (- sq * delta / (2 * PI * (hp g) ^ 2));
       c2p := pick (mu0 * fab / (4 * PI * rp g) * (2 / (rp g) ^ 2 - 1 / (rh g) ^ 2))
                   (mu0 * delta / (8 * PI * hp g));
       c2m := pick (- mu0 * fab / (4 * PI * (rh g) ^ 2 * rm g)) (mu0 * delta / (8 * PI * hm g)) |}
  else if inb ab [13; 23; 31; 32]%Z then
    let rev := hs_rev ab in let sq := sqrt (mu0 * res) in
    {| s0m := 3 * x * res * aniso ^ 3 * (zrec - zsrc) / (4 * PI * (rsm g) ^ 5);
       s0p := rev * 3 * x * res * aniso ^ 3 * hp g / (4 * PI * (rsp g) ^ 5);
       s1m := sq * 3 * aniso ^ 2 * x * (zrec - zsrc) / (4 * PI * (rsm g) ^ 4);
       s1p := rev * sq * 3 * aniso ^ 2 * x * hp g / (4 * PI * (rsp g) ^ 4);
       s2m := mu0 * x * aniso * (zrec - zsrc) / (4 * PI * (rsm g) ^ 3);
       s2p := rev * mu0 * x * aniso * hp g / (4 * PI * (rsp g) ^ 3);
       c0p := 0; c1m := 0; c1p := 0; c2m := 0; c2p := 0 |}
  else if (ab =? 33)%Z then
    let sq := sqrt (mu0 * res) in
    {| s0m := res * aniso ^ 3 * (3 * (hsm g) ^ 2 - (rsm g) ^ 2) / (4 * PI * (rsm g) ^ 5);
       s0p := - res * aniso ^ 3 * (3 * (hsp g) ^ 2 - (rsp g) ^ 2) / (4 * PI * (rsp g) ^ 5);
       s1m := sq * aniso ^ 2 * (3 * (hsm g) ^ 2 - (rsm g) ^ 2) / (4 * PI * (rsm g) ^ 4);
       s1p := - sq * aniso ^ 2 * (3 * (hsp g) ^ 2 - (rsp g) ^ 2) / (4 * PI * (rsp g) ^ 4);
       s2m := mu0 * aniso * ((hsm g) ^ 2 - (rsm g) ^ 2) / (4 * PI * (rsm g) ^ 3);
       s2p := - mu0 * aniso * ((hsp g) ^ 2 - (rsp g) ^ 2) / (4 * PI * (rsp g) ^ 3);
       c0p := 0; c1m := 0; c1p := 0; c2m := 0; c2p := 0 |}
  else {| s0m := 0; s0p := 0; s1m := 0; s1p := 0; s2m := 0; s2p := 0; c0p := 0; c1m := 0; c1p := 0; c2m := 0; c2p := 0 |}.

(** 1215-1223 *)
Record hpart := { p_dTM : C; p_dTE : C; p_d : C; p_rTM : C; p_rTE : C; p_r : C; p_air : C }.

(** A real number times a complex one. *)
Definition rc (r : R) (c : C) : C := Cmult (RtoC r) c.

(** kernel.py:1215-1223: the parts of the field from the coefficients. *)
Definition hs_fields (c : hcoef) (g : hgeo) (w : hs_at) (air : C) : hpart :=
  let dTM := Cplus (Cplus (rc (s0m c) (hs_f0 w (tsm g))) (rc (s1m c) (hs_f1 w (tsm g)))) (rc (s2m c) (hs_f2 w (tsm g))) in
  let dTE := Cplus (rc (c1m c) (hs_f1 w (tm g))) (rc (c2m c) (hs_f2 w (tm g))) in
  let rTM := Cplus (Cplus (rc (s0p c) (hs_f0 w (tsp g))) (rc (s1p c) (hs_f1 w (tsp g)))) (rc (s2p c) (hs_f2 w (tsp g))) in
  let rTE := Cplus (Cplus (rc (c0p c) (hs_f0 w (tp g))) (rc (c1p c) (hs_f1 w (tp g)))) (rc (c2p c) (hs_f2 w (tp g))) in
  {| p_dTM := dTM; p_dTE := dTE; p_d := Cplus dTM dTE; p_rTM := rTM; p_rTE := rTE; p_r := Cplus rTM rTE; p_air := air |}.

(** 1127-1159: airwave for one Laplace parameter; [ive], [kve]: order and argument.
    [isr]: the parameter is a real array, see BK. *)
Definition hs_airwave (ive kve : Z -> C -> C) (isr : bool) (s : C) (g : hgeo) (res fab delta : R) : C :=
  let zeta := Cmult s (RtoC mu0) in
  let gamH := Csqrt (Cdiv zeta (RtoC res)) in
  let xip := Cdiv (Cmult gamH (RtoC (rp g + hp g))) (RtoC 2) in
  let xim := Cdiv (Cmult gamH (RtoC (rp g - hp g))) (RtoC 2) in
  let BI n := Cmult (RtoC (exp (- fst gamH * hp g))) (ive n xim) in
  let BK n := if isr then kve n xip else Cmult (Cexp (Cmult (Copp Ci) (RtoC (snd xip)))) (kve n xip) in
  let sz := Csqrt zeta in
  let P1 := Cdiv (Cmult (Cmult zeta sz) (RtoC (fab * hp g))) (RtoC (4 * sqrt res)) in
  let P2 := Cminus (Cmult (RtoC 4) (Cmult (BI 1%Z) (BK 0%Z)))
              (Cmult (Cplus (Cminus (Cmult (RtoC 3) (BI 0%Z))
                                    (Cdiv (Cmult (RtoC (4 * sqrt res)) (BI 1%Z)) (Cmult sz (RtoC (rp g + hp g)))))
                            (BI 2%Z)) (BK 1%Z)) in
  let P3 := 3 * fab / (rp g) ^ 2 - delta in
  let sr := Csqrt (Cmult (RtoC res) zeta) in
  let P4 := Cplus (Cplus (Cmult (Cmult zeta (RtoC (hp g * rp g))) (Cminus (Cmult (BI 0%Z) (BK 0%Z)) (Cmult (BI 1%Z) (BK 1%Z))))
                         (Cmult (Cmult sr (Cmult (BI 0%Z) (BK 1%Z))) (RtoC (rp g + hp g))))
                  (Cmult (Cmult sr (Cmult (BI 1%Z) (BK 0%Z))) (RtoC (rp g - hp g))) in
  Cdiv (Cminus (Cmult P1 P2) (rc P3 P4)) (RtoC (4 * PI * (rp g) ^ 3)).

(** 1165-1179 Gaver-Stehfest.  [N] = K/2.  [np.arange((k+1)//2, min([k, K/2])+.5, 1)]
    holds the integers from (k+1)//2 to min(k, K/2) *)
Definition hs_arange (lo hi : nat) : list nat := seq lo (S hi - lo).
Definition dk_term (N k n : nat) : R :=
  (INR n) ^ N * INR (fact (2 * n)) / INR (fact n) / (INR (fact (n - 1)) * INR (fact (k - n)))
    / (INR (fact (2 * n - k)) * INR (fact (N - n))).
Definition rsum (l : list R) : R := fold_right Rplus 0 l.
(** kernel.py:1168-1174 [coeff_dk]. *)
Definition coeff_dk (N k : nat) : R :=
  rsum (map (dk_term N k) (hs_arange ((k + 1) / 2) (Nat.min k N))) * (-1) ^ (k + N).

(** kernel.py:1176-1179: the weighted sum of Laplace responses. *)
Definition stehfest (N : nat) (f : R -> R) (time : R) : R :=
  fold_left (fun acc k => acc + coeff_dk N k * f (INR k * ln 2 / time) / INR k) (seq 1 (2 * N)) 0.

(** 1181-1190 airwave of the impulse response *)
Definition hs_air_imp (ive : Z -> C -> C) (time : R) (g : hgeo) (res delta x y : R) : C :=
  let thp := mu0 * (hp g) ^ 2 / (4 * res) in
  let trh := mu0 * (rh g) ^ 2 / (8 * res) in
  let P1 := mu0 ^ 2 * hp g * exp (- thp / time) / (res * 32 * PI * time ^ 3) in
  let P2 := rc (2 * (delta - x * y / (rh g) ^ 2)) (ive 1%Z (RtoC (trh / time))) in
  let P3 := mu0 / (2 * res * time) * ((rh g) ^ 2 * delta - x * y) - delta in
  let P4 := Cminus (ive 0%Z (RtoC (trh / time))) (ive 1%Z (RtoC (trh / time))) in
  rc P1 (Cminus P2 (rc P3 P4)).

(** kernel.py:1118-1190: the airwave; it exists for horizontal dipoles only. *)
Definition hs_air (ive kve : Z -> C -> C) (isr : bool) (w : hs_at) (ab : Z) (g : hgeo) (res : R) : C :=
  let delta := hs_delta ab in
  let '(x, y) := hs_xy ab (g_x g) (g_y g) in
  if inb ab [11; 12; 21; 22]%Z then
    let fab := (rh g) ^ 2 * delta - x * y in
    match w with
    | AtS s => hs_airwave ive kve isr s g res fab delta
    | AtStep time => RtoC (stehfest 8 (fun s => fst (hs_airwave ive kve true (RtoC s) g res fab delta)) time)
    | AtImp time => hs_air_imp ive time g res delta x y
    end
  else RtoC 0.

(** kernel.py:958-1223 for one frequency or time and one offset. *)
Definition hs_part (ive kve : Z -> C -> C) (isr : bool) (w : hs_at) (ab : Z) (off angle zsrc zrec res aniso : R) : hpart :=
  let g := hs_geo off angle zsrc zrec res aniso in
  hs_fields (hs_coef ab g zsrc zrec res aniso) g w (hs_air ive kve isr w ab g res).

(** 1226-1235: DC value minus switch-on *)
Definition part_sub (a b : hpart) : hpart :=
  {| p_dTM := Cminus (p_dTM a) (p_dTM b); p_dTE := Cminus (p_dTE a) (p_dTE b); p_d := Cminus (p_d a) (p_d b);
     p_rTM := Cminus (p_rTM a) (p_rTM b); p_rTE := Cminus (p_rTE a) (p_rTE b); p_r := Cminus (p_r a) (p_r b);
     p_air := Cminus (p_air a) (p_air b) |}.

(** frequencies (Laplace parameters; [isr] for a real array) or signal and times *)
Inductive hs_in := HFreq (isr : bool) (svals : list C) | HTime (signal : Z) (times : list R).
(** The values of [solution], utils.py:1468-1509, and the possible results, kernel.py:1232-1240. *)
Inductive hs_sol := Dfs | Dhs | Dsplit | Dtetm.
Inductive hs_out := One (a : list C) | Three (d r a : list C) | Five (dTE dTM rTE rTM a : list C).

Definition hs_parts (ive kve : Z -> C -> C) (inp : hs_in) (ab : Z) (off angle zsrc zrec res aniso : R) : list hpart :=
  let P isr w := hs_part ive kve isr w ab off angle zsrc zrec res aniso in
  match inp with
  | HFreq isr l => map (fun s => P isr (AtS s)) l
  | HTime signal l =>
      if (signal =? -1)%Z then                                       (* 963-965, 1226-1235 *)
        let v := map (fun t => P true (AtStep t)) (l ++ [10 ^ 4]) in
        let dc := last v (P true (AtStep (10 ^ 4))) in
        map (fun p => part_sub dc p) (removelast v)
      else if (signal =? 1)%Z then map (fun t => P true (AtStep t)) l
      else map (fun t => P true (AtImp t)) l
  end.

(** 1184: the airwave of the impulse response divides by the squared offset *)
Definition hs_imp0 (inp : hs_in) (ab : Z) : bool :=
  match inp with
  | HTime signal _ => negb (signal =? -1)%Z && negb (signal =? 1)%Z && inb ab [11; 12; 21; 22]%Z
  | HFreq _ _ => false
  end.

(** 1237-1245 *)
Definition halfspace (ive kve : Z -> C -> C) (inp : hs_in) (sol : hs_sol) (ab : Z)
    (off angle zsrc zrec : R) (etaH etaV : C) : res hs_out :=
  let res := hs_res etaH in
  let aniso := hs_aniso etaV res in
  if Req_EM_T (rm (hs_geo off angle zsrc zrec res aniso)) 0 then Err NanE
  else if Req_EM_T (rp (hs_geo off angle zsrc zrec res aniso)) 0 then Err NanE
  else if hs_imp0 inp ab && (if Req_EM_T (rh (hs_geo off angle zsrc zrec res aniso)) 0 then true else false) then Err NanE
  else
  let ps := hs_parts ive kve inp ab off angle zsrc zrec res aniso in
  Ok match sol with
     | Dfs => One (map p_d ps)
     | Dsplit => Three (map p_d ps) (map p_r ps) (map p_air ps)
     | Dtetm => Five (map p_dTE ps) (map p_dTM ps) (map p_rTE ps) (map p_rTM ps) (map p_air ps)
     | Dhs => One (map (fun p => Cplus (Cplus (p_d p) (p_r p)) (p_air p)) ps)
     end.
