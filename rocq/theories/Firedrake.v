(** The diffusion problem of the Firedrake coupling over the reals.

    Models /repo/src/pymgrit/firedrake/diffusion_2d_firedrake.py (constructor 28-77, step 79-98) and
    /repo/src/pymgrit/firedrake/vector_firedrake.py (17-141).
    Firedrake is assumed to do what it documents: a form is evaluated by quadrature, [dx] sums over points of the cells, [dS] over points
    of the interior facets with the two restrictions of a function, [n] of the minus side is minus [n] of the plus side, [avg] is the mean
    of the two restrictions; a function is its coefficients [dat.data].  The mesh enters as the quadrature points with the values and
    gradients of the basis functions.  [solver.solve()] does one Newton step from the present value of [self.soln] with an exact linear
    solver (LinAlg.spsolve); the problem is linear.  kappa is a number, as in the example. *)
From Coq Require Import Reals List Arith.
From Verif Require Import LinAlg Vectors.
Import ListNotations.
Local Open Scope R_scope.

(** a quadrature point of a cell: weight, basis functions and their gradients *)
Record VolPoint := mkVol { vw : R; vb : nat -> R; vgx : nat -> R; vgy : nat -> R }.
(** a quadrature point of an interior facet: weight, normal of the plus side, basis functions and gradients on the two sides *)
Record FacPoint := mkFac { fw : R; fnx : R; fny : R; pb : nat -> R; mb : nat -> R; pgx : nat -> R; pgy : nat -> R; mgx : nat -> R; mgy : nat -> R }.

Definition total {X} (f : X -> R) (l : list X) : R := fold_right (fun x s => f x + s) 0 l.
Definition avg (p m : R) : R := (p + m) / 2.

Section Form.
  Variable n : nat.                                   (* degrees of freedom *)
  Variables (vol : list VolPoint) (fac : list FacPoint).
  Variables kappa mu : R.

  (** value of the function with coefficients c at a point *)
  Definition ev (b c : nat -> R) : R := rsum n (fun i => b i * c i).

  (** inner(gamma, phi) * dx (51, 59) *)
  Definition mass (g p : nat -> R) : R := total (fun q => vw q * (ev (vb q) g * ev (vb q) p)) vol.
  (** 2 * avg(outer(phi, n)): the jump times the normal *)
  Definition jump_x (f : FacPoint) (c : nat -> R) : R := 2 * avg (ev (pb f) c * fnx f) (ev (mb f) c * - fnx f).
  Definition jump_y (f : FacPoint) (c : nat -> R) : R := 2 * avg (ev (pb f) c * fny f) (ev (mb f) c * - fny f).
  (** avg(grad(phi) * kappa) *)
  Definition flux_x (f : FacPoint) (c : nat -> R) : R := avg (ev (pgx f) c * kappa) (ev (mgx f) c * kappa).
  Definition flux_y (f : FacPoint) (c : nat -> R) : R := avg (ev (pgy f) c * kappa) (ev (mgy f) c * kappa).
  (** 2 * avg(outer(gamma, n) * kappa) *)
  Definition kjump_x (f : FacPoint) (c : nat -> R) : R := 2 * avg (ev (pb f) c * fnx f * kappa) (ev (mb f) c * - fnx f * kappa).
  Definition kjump_y (f : FacPoint) (c : nat -> R) : R := 2 * avg (ev (pb f) c * fny f * kappa) (ev (mb f) c * - fny f * kappa).
  (** the terms in the parentheses (53-56) *)
  Definition stiff (g p : nat -> R) : R :=
    total (fun q => vw q * (ev (vgx q) g * (ev (vgx q) p * kappa) + ev (vgy q) g * (ev (vgy q) p * kappa))) vol
    - total (fun f => fw f * (jump_x f p * flux_x f g + jump_y f p * flux_y f g)) fac
    - total (fun f => fw f * (flux_x f p * jump_x f g + flux_y f p * jump_y f g)) fac
    + total (fun f => fw f * (mu * (jump_x f p * kjump_x f g + jump_y f p * kjump_y f g))) fac.
  (** the bilinear form a (51-58) *)
  Definition form (dt : R) (g p : nat -> R) : R := mass g p + dt * stiff g p.

  (** assembled matrix and right-hand side: test function i, trial function j *)
  Definition unit_ (i : nat) : nat -> R := fun k => if (k =? i)%nat then 1 else 0.
  Definition form_matrix (dt : R) : matrix := fun i j => form dt (unit_ i) (unit_ j).
  Definition load (f : list R) : list R := tab n (fun i => mass (unit_ i) (at_ f)).

  (** the attributes of the application object that change: self.dt, self.f, self.soln *)
  Record hidden := mkHidden { h_dt : R; h_f : list R; h_soln : list R }.

  (** self.solver.solve() (96): one Newton step from self.soln *)
  Definition solve (s : hidden) : hidden :=
    let A := form_matrix (h_dt s) in
    mkHidden (h_dt s) (h_f s) (vplus (h_soln s) (spsolve n A (vminus (load (h_f s)) (mulmv n A (h_soln s))))).

  (** step (79-98): the new state of the object and a copy of self.soln *)
  Definition fstep (s : hidden) (u : list R) (t_start t_stop : R) : hidden * list R :=
    let s1 := mkHidden (t_stop - t_start) u (h_soln s) in
    let s2 := solve s1 in (s2, h_soln s2).

  (** calls of step one after another on the same object *)
  Fixpoint fsteps (s : hidden) (calls : list (list R * R * R)) : list (list R) :=
    match calls with
    | [] => []
    | (u, ta, tb) :: rest => let '(s', v) := fstep s u ta tb in v :: fsteps s' rest
    end.

  (** the object after the constructor: dt = 0, f and soln zero (42, 47, 62) *)
  Definition new_object : hidden := mkHidden 0 (repeat 0 n) (repeat 0 n).

  (** VectorFiredrake: norm(values) is the L2 norm; clone_zero multiplies by 0 (52-60); pack and unpack copy dat.data (131-145) *)
  Definition l2 (c : nat -> R) : R := sqrt (mass c c).
  Definition VectorFiredrake : VClass :=
    mkVClass (list R) (list R) vplus vminus vtimes (fun u => l2 (at_ u)) (fun u => u) (fun u => vtimes u 0) (fun u => u) (fun _ d => d).
End Form.
