(** MGRIT for the 1D heat equation with spatial coarsening (examples/example_spatial_coarsening.py). Only definitions. *)
From Coq Require Import Reals List Arith ZArith Bool.
From Verif Require Import LinAlg Mgrit Vectors Apps.
Import ListNotations.
Local Open Scope R_scope.

(** ** A vector class, a step and one transfer object per pair of levels as an application for the solver model
    As [app_of] (Vectors.v), but the transfers are arguments (mgrit.py 35, argument transfer). *)
Definition app_with (C : VClass) (step : nat -> cV C -> R -> R -> cV C) (restriction interpolation : nat -> cV C -> cV C)
  (template init : nat -> cV C) (tm : Z -> R) : App :=
  mkApp (cV C) (cD C) R (c_add C) (c_sub C) (c_mul C) (c_norm C) (c_clone C) (c_zero C) (c_pack C) (c_unpack C)
    (fun l u a b => step l u (tm a) (tm b)) restriction interpolation template init
    (fun l => Some (norm2 l)) (fun x y => if Rlt_dec x y then true else false) 0
    (fun x => if Req_EM_T x 0 then true else false) (fun x => 1 - x).

(** transfer = [GridTransferHeat(), GridTransferHeat(), GridTransferCopy()] (133): [coarsen l] says whether
    transfer[l] is a GridTransferHeat; the other ones are GridTransferCopy. *)
Definition spatial_restriction (coarsen : nat -> bool) (l : nat) : Arr -> Arr :=
  if coarsen l then heat_restriction else copy_restriction VectorArr.
Definition spatial_interpolation (coarsen : nat -> bool) (l : nat) : Arr -> Arr :=
  if coarsen l then heat_interpolation else copy_interpolation VectorArr.

(** Heat1D(x_start, x_end, nx=nx l, a, rhs, init_cond) on level l (120-125; heat_1d.py 131-175): template with the nx-2
    inner points, start vector init_cond(x). [mat l] is the matrix of compute_matrix (heat_1d.py 160), see heat_matrix. *)
Definition spatial_app (x_start x_end : R) (nx : nat -> nat) (mat : nat -> matrix) (rhs : list R -> R -> list R)
  (init_cond : list R -> list R) (coarsen : nat -> bool) (tm : Z -> R) : App :=
  let grid := fun l => heat_x x_start x_end (nx l) in
  app_with VectorArr (fun l => heat1d_step (nx l - 2) (mat l) (grid l) rhs)
    (spatial_restriction coarsen) (spatial_interpolation coarsen)
    (fun l => arr_zeros (nx l - 2)) (fun l => arr_set (arr_zeros (nx l - 2)) (init_cond (grid l))) tm.
