(** The Arenstorf orbit problem: /repo/src/pymgrit/arenstorf_orbit/arenstorf_orbit.py 77-115. Real numbers instead of doubles.
    A power with exponent 3/2 is Rpower (exp (3/2 * ln x)), equal to the power for x > 0; at the two masses, where x = 0 and
    numpy divides by zero, the model says nothing useful. The vector class is in Vectors.v. *)
From Coq Require Import Reals List.
Import ListNotations.
Local Open Scope R_scope.

(** y[0..3]: position and velocity *)
Record State : Type := mkS { px : R; py : R; vx : R; vy : R }.

(** arenstorf (79-88) *)
Definition arenstorf (a b : R) (t : R) (y : State) : State :=
  let d1 := Rpower ((px y + a) ^ 2 + py y ^ 2) (3 / 2) in
  let d2 := Rpower ((px y - b) ^ 2 + py y ^ 2) (3 / 2) in
  mkS (vx y) (vy y)
      (px y + 2 * vy y - b * (px y + a) / d1 - a * (px y - b) / d2)
      (py y - 2 * vx y - b * py y / d1 - a * py y / d2).

(** ArenstorfOrbit.__init__ (102-109) *)
Definition par_a : R := 0.012277471.
Definition par_b : R := 1 - par_a.
Definition vector_t_start : State := mkS 0.994 0 0 (- 2.00158510637908).

(** step (111-117). [ivp fun y0 t0 t1] are the columns of the array y returned by scipy's solve_ivp for
    t_eval = [t0, t1]; the last column is taken. None: the array has no column (IndexError). *)
Definition step (ivp : (R -> State -> State) -> State -> R -> R -> list State) (u_start : State) (t_start t_stop : R) : option State :=
  match rev (ivp (arenstorf par_a par_b) u_start t_start t_stop) with [] => None | y :: _ => Some y end.
