(** Transform pairs offered for the filter design (empymod/scripts/fdesign.py:860-1164). *)

From Coq Require Import Reals List Bool Lia Lra.
From Coquelicot Require Import Coquelicot.
From Verif Require Import PyBase CBase.
Import ListNotations.
Local Open Scope R_scope.
Local Open Scope C_scope.
Local Open Scope res_scope.

(** The name stored in a pair, "j0", "j1", "sin" or "cos" (fdesign.py:886 and so on). *)
Inductive gname : Type := GJ0 | GJ1 | GSin | GCos.

(** class Ghosh (fdesign.py:860-872).  Both sides are functions of one real number
    (the code evaluates them on arrays, element by element); a zero divisor gives
    nan or inf in the code and an error value here. *)
Record ghosh : Type := Ghosh { gh_name : gname; gh_lhs : R -> res C; gh_rhs : R -> res C }.

(** x**1.5 for x >= 0 (fdesign.py:909, 1006). *)
Definition pow15 (x : R) : R := (x * sqrt x)%R.

(** division of real numbers, as complex numbers *)
Definition rdiv (a b : R) : res C := cdiv (RtoC a) (RtoC b).

(** j0_1 (fdesign.py:876-886) *)
Definition j0_1 (a : R) : ghosh := Ghosh GJ0
  (fun x => Ok (RtoC (x * exp (- a * x ^ 2))))
  (fun b => q <- cdiv (RtoC (- b ^ 2)) (RtoC (4 * a));; cdiv (Cexp q) (RtoC (2 * a))).
(** j0_2 (fdesign.py:889-899) *)
Definition j0_2 (a : R) : ghosh := Ghosh GJ0
  (fun x => Ok (RtoC (exp (- a * x))))
  (fun b => rdiv 1 (sqrt (b ^ 2 + a ^ 2))).
(** j0_3 (fdesign.py:902-912) *)
Definition j0_3 (a : R) : ghosh := Ghosh GJ0
  (fun x => Ok (RtoC (x * exp (- a * x))))
  (fun b => rdiv a (pow15 (b ^ 2 + a ^ 2))).

(** gam (fdesign.py:929, 957, 1026, 1054); mu0 is scipy's mu_0.  The other
    arguments are Python numbers: rho = 0 raises. *)
Definition fd_gam (mu0 f rho : R) : res C :=
  if Req_EM_T rho 0 then Err ZeroDivE else Ok (Csqrt (Ci * RtoC (2 * PI * mu0 * f) / RtoC rho)).
Definition fd_beta (gam : C) (x : R) : C := Csqrt (RtoC (x ^ 2) + gam * gam).

(** j0_4 (fdesign.py:915-940) *)
Definition j0_4 (mu0 f rho z : R) : res ghosh :=
  gam <- fd_gam mu0 f rho;;
  Ok (Ghosh GJ0
    (fun x => cdiv (RtoC x * Cexp (- fd_beta gam x * RtoC (Rabs z))) (fd_beta gam x))
    (fun b => let Rd := sqrt (b ^ 2 + z ^ 2) in cdiv (Cexp (- gam * RtoC Rd)) (RtoC Rd))).
(** j0_5 (fdesign.py:943-968) *)
Definition j0_5 (mu0 f rho z : R) : res ghosh :=
  gam <- fd_gam mu0 f rho;;
  Ok (Ghosh GJ0
    (fun x => Ok (RtoC x * Cexp (- fd_beta gam x * RtoC (Rabs z))))
    (fun b => let Rd := sqrt (b ^ 2 + z ^ 2) in
       cdiv (RtoC (Rabs z) * (gam * RtoC Rd + RtoC 1) * Cexp (- gam * RtoC Rd)) (RtoC (Rd ^ 3)))).

(** j1_1 (fdesign.py:973-983) *)
Definition j1_1 (a : R) : ghosh := Ghosh GJ1
  (fun x => Ok (RtoC (x ^ 2 * exp (- a * x ^ 2))))
  (fun b => p <- cdiv (RtoC b) (RtoC (4 * a ^ 2));; q <- cdiv (RtoC (- b ^ 2)) (RtoC (4 * a));; Ok (p * Cexp q)).
(** j1_2 (fdesign.py:986-996) *)
Definition j1_2 (a : R) : ghosh := Ghosh GJ1
  (fun x => Ok (RtoC (exp (- a * x))))
  (fun b => rdiv (sqrt (b ^ 2 + a ^ 2) - a) (b * sqrt (b ^ 2 + a ^ 2))).
(** j1_3 (fdesign.py:999-1009) *)
Definition j1_3 (a : R) : ghosh := Ghosh GJ1
  (fun x => Ok (RtoC (x * exp (- a * x))))
  (fun b => rdiv b (pow15 (b ^ 2 + a ^ 2))).
(** j1_4 (fdesign.py:1012-1037) *)
Definition j1_4 (mu0 f rho z : R) : res ghosh :=
  gam <- fd_gam mu0 f rho;;
  Ok (Ghosh GJ1
    (fun x => cdiv (RtoC (x ^ 2) * Cexp (- fd_beta gam x * RtoC (Rabs z))) (fd_beta gam x))
    (fun b => let Rd := sqrt (b ^ 2 + z ^ 2) in
       cdiv (RtoC b * (gam * RtoC Rd + RtoC 1) * Cexp (- gam * RtoC Rd)) (RtoC (Rd ^ 3)))).
(** j1_5 (fdesign.py:1040-1065) *)
Definition j1_5 (mu0 f rho z : R) : res ghosh :=
  gam <- fd_gam mu0 f rho;;
  Ok (Ghosh GJ1
    (fun x => Ok (RtoC (x ^ 2) * Cexp (- fd_beta gam x * RtoC (Rabs z))))
    (fun b => let Rd := sqrt (b ^ 2 + z ^ 2) in
       cdiv (RtoC (Rabs z) * RtoC b * (gam * gam * RtoC (Rd ^ 2) + RtoC 3 * gam * RtoC Rd + RtoC 3) * Cexp (- gam * RtoC Rd)) (RtoC (Rd ^ 5)))).

(** the last lines of the sine and cosine pairs (fdesign.py:1079-1082 and so on) *)
Definition swap_pair (n : gname) (inverse : bool) (lhs rhs : R -> res C) : ghosh :=
  if inverse then Ghosh n rhs lhs else Ghosh n lhs rhs.

(** sin_1 (fdesign.py:1070-1082) *)
Definition sin_1 (a : R) (inverse : bool) : ghosh := swap_pair GSin inverse
  (fun x => Ok (RtoC (x * exp (- a ^ 2 * x ^ 2))))
  (fun b => q <- cdiv (RtoC (- b ^ 2)) (RtoC (4 * a ^ 2));; cdiv (RtoC (sqrt PI * b) * Cexp q) (RtoC (4 * a ^ 3))).
(** sin_2 (fdesign.py:1086-1098) *)
Definition sin_2 (a : R) (inverse : bool) : ghosh := swap_pair GSin inverse
  (fun x => Ok (RtoC (exp (- a * x)))) (fun b => rdiv b (b ^ 2 + a ^ 2)).
(** sin_3 (fdesign.py:1102-1114) *)
Definition sin_3 (a : R) (inverse : bool) : ghosh := swap_pair GSin inverse
  (fun x => rdiv x (a ^ 2 + x ^ 2)) (fun b => Ok (RtoC (PI * exp (- a * b) / 2))).
(** cos_1 (fdesign.py:1120-1132) *)
Definition cos_1 (a : R) (inverse : bool) : ghosh := swap_pair GCos inverse
  (fun x => Ok (RtoC (exp (- a ^ 2 * x ^ 2))))
  (fun b => q <- cdiv (RtoC (- b ^ 2)) (RtoC (4 * a ^ 2));; cdiv (RtoC (sqrt PI) * Cexp q) (RtoC (2 * a))).
(** cos_2 (fdesign.py:1136-1148) *)
Definition cos_2 (a : R) (inverse : bool) : ghosh := swap_pair GCos inverse
  (fun x => Ok (RtoC (exp (- a * x)))) (fun b => rdiv a (b ^ 2 + a ^ 2)).
(** cos_3 (fdesign.py:1152-1164) *)
Definition cos_3 (a : R) (inverse : bool) : ghosh := swap_pair GCos inverse
  (fun x => rdiv 1 (a ^ 2 + x ^ 2)) (fun b => rdiv (PI * exp (- a * b)) (2 * a)).
