(** simple_setup_problem and split_communicator.
    Models /repo/src/pymgrit/core/simple_setup_problem.py (14-43) and /repo/src/pymgrit/core/split.py (10-32). *)
From Coq Require Import List ZArith Arith Bool.
From Verif Require Import PyList.
Import ListNotations.

(** The time attributes of an Application (application.py 44-68); the rest of the deep copy is untouched. *)
Record Problem : Type := mkProblem { p_t_start : Z; p_t_end : Z; p_t : list Z; p_nt : nat }.

(** [l[::c]] for a positive step: keep one element, skip [c - 1]. *)
Fixpoint stride_from {B : Type} (skip c : nat) (l : list B) : list B :=
  match l with
  | [] => []
  | x :: l' => match skip with 0 => x :: stride_from (c - 1) c l' | S k => stride_from k c l' end
  end.
Definition stride {B : Type} (c : nat) (l : list B) : list B := stride_from 0 c l.

(** One pass of the loop (35-41); [tmp_t[0]] of an empty array is an IndexError. *)
Definition coarsen (c : nat) (q : Problem) : option Problem :=
  let tmp := stride c (p_t q) in
  match tmp with
  | [] => None
  | a :: _ => Some (mkProblem a (last tmp a) tmp (length tmp))
  end.
Fixpoint coarsen_times (n c : nat) (q : Problem) : option (list Problem) :=
  match n with
  | 0 => Some []
  | S n' => match coarsen c q with
            | Some q' => match coarsen_times n' c q' with Some qs => Some (q' :: qs) | None => None end
            | None => None
            end
  end.
(** Lines 27-43 for non-negative arguments: (warning given?, problems). A slice step of 0 is a ValueError. *)
Definition simple_setup (problem : Problem) (level c : nat) : option (bool * list Problem) :=
  if c * level =? 0 then None                                                         (* 29 *)
  else match coarsen_times (level - 1) c problem with
       | Some qs => Some (length (stride (c * level) (p_t problem)) =? 1, problem :: qs)
       | None => None
       end.

(** comm.Split(color, key=rank): the processes of the same color ordered by their old rank; a communicator is the list
    of world ranks of its members. *)
Definition comm_split (N : nat) (color : nat -> nat) (rank : nat) : list nat :=
  filter (fun q => color q =? color rank) (seq 0 N).
(** Lines 22-31: space and time communicator of a process. *)
Definition split_communicator (N splitting rank : nat) : list nat * list nat :=
  (comm_split N (fun q => q / splitting) rank, comm_split N (fun q => q mod splitting) rank).
(** Get_rank() in such a communicator. *)
Fixpoint index_of (x : nat) (l : list nat) : nat :=
  match l with [] => 0 | y :: l' => if x =? y then 0 else S (index_of x l') end.
