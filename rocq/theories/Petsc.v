(** The PETSc applications over the reals.

    Models /repo/src/pymgrit/petsc/heat_2D_petsc.py: get_a (77-122), get_id (124-146), compute_rhs (148-166), rhs (168-178),
    u_exact (180-192), step (60-75) with its cached time step; and /repo/src/pymgrit/petsc/gray_scott_2d_petsc.py:
    compute_matrix (116-173), compute_rhs_imex (200-219), formFunction (221-244), formJacobian (246-313), step (73-114),
    initial_guess (315-330).
    PETSc is assumed to do what it documents: a matrix row is filled entry by entry, a later value for the same column
    replaces the earlier one (INSERT_VALUES), periodic grids identify index -1 with m-1 and m with 0, ksp.solve and
    snes.solve return a solution of the equation they were given. The spatial processes fill disjoint ranges of rows
    with the same formulas: the model has the whole grid. *)
From Coq Require Import Reals List Arith ZArith Bool.
From Verif Require Import LinAlg.
Import ListNotations.
Local Open Scope R_scope.

(** ** Rows of a matrix over grid functions x[i, j, field] *)
Definition col : Type := (nat * nat * nat)%type.
Definition gridfun : Type := nat -> nat -> nat -> R.
Definition col_eqb (c d : col) : bool :=
  let '(i, j, f) := c in let '(i', j', f') := d in ((i =? i') && (j =? j') && (f =? f'))%nat.
(** setValueStencil with INSERT_VALUES *)
Fixpoint set_value (row : list (col * R)) (e : col * R) : list (col * R) :=
  match row with
  | [] => [e]
  | e' :: row' => if col_eqb (fst e) (fst e') then e :: row' else e' :: set_value row' e
  end.
Definition assemble (l : list (col * R)) : list (col * R) := fold_left set_value l [].
Definition apply_row (row : list (col * R)) (x : gridfun) : R :=
  fold_right (fun e s => (let '(i, j, f) := fst e in snd e * x i j f) + s) 0 row.

(** ** HeatPetsc *)
Section Heat.
  Variables mx my : nat.
  Variable a : R.
  Definition h_dx : R := 1 / (INR mx - 1).                                                     (* 43 *)
  Definition h_dy : R := 1 / (INR my - 1).                                                     (* 44 *)
  Definition on_boundary (i j : nat) : bool := ((i =? 0) || (j =? 0) || (i =? mx - 1) || (j =? my - 1))%nat.

  (** row (i, j) of get_a (102-120) *)
  Definition heat_row (i j : nat) : list (col * R) :=
    let fx := a / h_dx ^ 2 in
    let fy := a / h_dy ^ 2 in
    if on_boundary i j then assemble [((i, j, 0%nat), 0)]
    else
      let diag := 2 * (fx + fy) in
      assemble [((i, (j - 1)%nat, 0%nat), - fx);
                (((i - 1)%nat, j, 0%nat), - fy);
                ((i, j, 0%nat), diag);
                (((i + 1)%nat, j, 0%nat), - fy);
                ((i, (j + 1)%nat, 0%nat), - fx)].

  (** rhs (174-177) and u_exact (189-190) at a grid point *)
  Definition heat_rhs (freq : R) (t : R) (i j : nat) : R :=
    - sin (PI * freq * INR i * h_dx) * sin (PI * freq * INR j * h_dy) * (sin t - a * 2 * (PI * freq) ^ 2 * cos t).
  Definition heat_exact (freq : R) (t : R) (i j : nat) : R :=
    sin (PI * freq * INR i * h_dx) * sin (PI * freq * INR j * h_dy) * cos t.

  (** The equation that step solves (70-73): operator with time step [dt], right-hand side of compute_rhs (163-165). *)
  Definition heat_solves (freq dt t_start t_stop : R) (u w : gridfun) : Prop :=
    forall i j, (i < mx)%nat -> (j < my)%nat ->
      dt * apply_row (heat_row i j) w + w i j 0%nat = u i j 0%nat + (t_stop - t_start) * heat_rhs freq t_stop i j.
End Heat.

(** np.isclose(a, b) with its default tolerances, and the time step for which the operator of a call is set up:
    the one of the previous set-up if it is close (70-72; the same in GrayScott.step, 86-88). It is also what the next
    call finds in self.dt. *)
Definition isclose (a b : R) : bool := if Rle_dec (Rabs (a - b)) (1 / 100000000 + 1 / 100000 * Rabs b) then true else false.
Definition used_dt (cached dt : R) : R := if isclose cached dt then cached else dt.
(** self.dt after calls with the time steps [dts] on an object constructed with t[1]-t[0] = [dt0] (57-58) *)
Definition cached_dt (dt0 : R) (dts : list R) : R := fold_left used_dt dts dt0.

(** ** GrayScott *)
Record gs : Type := mkGs { g_mx : nat; g_my : nat; g_L : R; g_du : R; g_dv : R; g_a : R; g_b : R }.
Definition wrap (m : nat) (z : Z) : nat := Z.to_nat (z mod Z.of_nat m).
Section GrayScott.
  Variable p : gs.
  Definition g_dx : R := g_L p / INR (g_mx p).                                                 (* 34 *)
  Definition g_dy : R := g_L p / INR (g_my p).                                                 (* 35 *)
  Definition east (i : nat) : nat := wrap (g_mx p) (Z.of_nat i + 1).
  Definition west (i : nat) : nat := wrap (g_mx p) (Z.of_nat i - 1).
  Definition south (j : nat) : nat := wrap (g_my p) (Z.of_nat j + 1).
  Definition north (j : nat) : nat := wrap (g_my p) (Z.of_nat j - 1).
  Definition diffusion (f : nat) : R := if (f =? 0)%nat then g_du p else g_dv p.

  (** row (i, j, f) of compute_matrix, entries in the order of lines 135-170 *)
  Definition gs_row (i j f : nat) : list (col * R) :=
    assemble [((i, j, f), diffusion f * (-2 / g_dx ^ 2 - 2 / g_dy ^ 2));
              ((i, north j, f), diffusion f / g_dy ^ 2);
              ((i, south j, f), diffusion f / g_dy ^ 2);
              ((west i, j, f), diffusion f / g_dx ^ 2);
              ((east i, j, f), diffusion f / g_dx ^ 2)].

  (** reaction terms (108-111, 216-217) *)
  Definition react (x : gridfun) (i j f : nat) : R :=
    let u := x i j 0%nat in let v := x i j 1%nat in
    if (f =? 0)%nat then - u * v ^ 2 + g_a p * (1 - u) else u * v ^ 2 - g_b p * v.

  (** method 'EXPL' (98-113) *)
  Definition expl_step (dt : R) (x : gridfun) : gridfun := fun i j f =>
    let u := x i j 0%nat in let v := x i j 1%nat in
    if (f =? 0)%nat then u + dt * (apply_row (gs_row i j 0) x - u * v ^ 2 + g_a p * (1 - u))
    else v + dt * (apply_row (gs_row i j 1) x + u * v ^ 2 - g_b p * v).

  (** method 'IMEX' (85-90): operator id - op_dt * space_disc, right-hand side of compute_rhs_imex *)
  Definition imex_solves (op_dt dt : R) (x w : gridfun) : Prop :=
    forall i j f, (i < g_mx p)%nat -> (j < g_my p)%nat -> (f < 2)%nat ->
      w i j f - op_dt * apply_row (gs_row i j f) w = x i j f + dt * react x i j f.

  (** formFunction (229-244) *)
  Definition form_function (dt : R) (x : gridfun) (i j f : nat) : R :=
    let u_xx := fun f => x (east i) j f - 2 * x i j f + x (west i) j f in
    let u_yy := fun f => x i (north j) f - 2 * x i j f + x i (south j) f in
    let u := x i j 0%nat in let v := x i j 1%nat in
    if (f =? 0)%nat then u - dt * (g_du p * (u_xx 0%nat / g_dx ^ 2 + u_yy 0%nat / g_dy ^ 2) - u * v ^ 2 + g_a p * (1 - u))
    else v - dt * (g_dv p * (u_xx 1%nat / g_dx ^ 2 + u_yy 1%nat / g_dy ^ 2) + u * v ^ 2 - g_b p * v).
  (** method 'IMPL' (91-97): snes.solve(b, x) solves F(x) = b *)
  Definition impl_solves (dt : R) (x w : gridfun) : Prop :=
    forall i j f, (i < g_mx p)%nat -> (j < g_my p)%nat -> (f < 2)%nat -> form_function dt w i j f = x i j f.

  (** rows of formJacobian (257-308) *)
  Definition jac_row (dt : R) (x : gridfun) (i j f : nat) : list (col * R) :=
    let u := x i j 0%nat in let v := x i j 1%nat in
    if (f =? 0)%nat then
      assemble [((i, j, 0%nat), 1 - dt * (g_du p * (-2 / g_dx ^ 2 - 2 / g_dy ^ 2) - v ^ 2 - g_a p));
                ((i, j, 1%nat), dt * 2 * u * v);
                ((i, north j, 0%nat), - dt * g_du p / g_dx ^ 2);
                ((i, south j, 0%nat), - dt * g_du p / g_dx ^ 2);
                ((west i, j, 0%nat), - dt * g_du p / g_dx ^ 2);
                ((east i, j, 0%nat), - dt * g_du p / g_dx ^ 2)]
    else
      assemble [((i, j, 1%nat), 1 - dt * (g_dv p * (-2 / g_dx ^ 2 - 2 / g_dy ^ 2) + 2 * u * v - g_b p));
                ((i, j, 0%nat), - dt * v ^ 2);
                ((i, north j, 1%nat), - dt * g_dv p / g_dy ^ 2);
                ((i, south j, 1%nat), - dt * g_dv p / g_dy ^ 2);
                ((west i, j, 1%nat), - dt * g_dv p / g_dy ^ 2);
                ((east i, j, 1%nat), - dt * g_dv p / g_dy ^ 2)].

  (** initial_guess (315-330) *)
  Definition initial_guess : gridfun := fun i j f =>
    let dxx := INR i * g_dx in
    let dyy := INR j * g_dy in
    let v := if Rle_dec 1 dxx then if Rle_dec dxx (3 / 2) then if Rle_dec 1 dyy then if Rle_dec dyy (3 / 2)
             then (sin (4 * PI * dxx)) ^ 2 * (sin (4 * PI * dyy)) ^ 2 / 4 else 0 else 0 else 0 else 0 in
    if (f =? 0)%nat then 1 - 2 * v else v.
End GrayScott.
