(** Specification vocabulary used in the theorem statements: valid inputs, time stepping, the reference MGRIT
    algorithm on global time indices (no processes, no messages). *)
From Coq Require Import List ZArith Arith Bool Sorted.
Import ListNotations.

(** A time-grid hierarchy: every grid strictly increasing, each coarser grid a subset of the next finer one with the
    same first point and at least two points. *)
Definition valid_hierarchy (grids : list (list Z)) : Prop :=
  grids <> [] /\
  (forall l, l < length grids -> StronglySorted Z.lt (nth l grids []) /\ nth l grids [] <> []) /\
  (forall l, S l < length grids ->
     incl (nth (S l) grids []) (nth l grids []) /\
     hd_error (nth (S l) grids []) = hd_error (nth l grids []) /\
     2 <= length (nth (S l) grids [])).

(** No two points of a coarser grid are neighbours on the next finer grid (coarsening by at least 2 everywhere). *)
Definition no_adjacent_cpoints (grids : list (list Z)) : Prop :=
  forall l i, S l < length grids -> S i < length (nth l grids []) ->
    In (nth i (nth l grids []) 0%Z) (nth (S l) grids []) ->
    ~ In (nth (S i) (nth l grids []) 0%Z) (nth (S l) grids []).

(** ** Order in which a process visits its F-points
    The list of F-points comes out of a Python set; it is cut into runs of consecutive indices, which are visited last
    run first (mgrit.py 773-776). *)
From Verif Require Import PyList Setup.
From Coq Require Import Permutation.

Definition visit_order (fpts : list nat) : list nat := concat (rev (runs fpts)).

(** Every point that has its predecessor in the list comes after it. *)
Definition predecessors_first (l : list nat) : Prop :=
  forall before x after, l = before ++ x :: after -> forall y, In y l -> S y = x -> In y before.

(** On every level and process the set lists exactly the F-points of the process, and they are visited in an order in
    which every F-point comes after the F-point before it. *)
Definition f_order_ok (grids : list (list Z)) (set_order : list nat -> list nat -> list nat) (P : nat) : Prop :=
  forall lvl r, lvl < length grids -> r < P -> forall pts, my_pts grids P r lvl = Some pts ->
    let cs := filter (fun i => memn i (all_cpts grids lvl)) pts in
    let fs := filter (fun i => negb (memn i (all_cpts grids lvl))) pts in
    Permutation (set_order pts cs) fs /\ predecessors_first (visit_order (set_order pts cs)).

(** The order a set of small integers normally has: ascending. *)
Definition ascending_order (all cs : list nat) : list nat := filter (fun i => negb (memn i cs)) all.

(** ** Results of a parallel run
    Values of the time points in time order: the lists of the processes one after another, without the ghost point that
    every process but the first keeps in front (mgrit.py 782-790). *)
Definition gathered {V : Type} (P : nat) (vals : nat -> list V) : list V :=
  concat (map (fun r => if r =? 0 then vals r else tl (vals r)) (seq 0 P)).
