(** The output function of examples/example_output_fcn.py (below "F"): every process saves its part of the solution after every
    iteration, afterwards process 0 reads the files back. Only definitions. *)
From Coq Require Import List Arith ZArith Bool.
From Verif Require Import Net PyList Setup Mgrit.
Import ListNotations.

Section Files.
  Context {A : App}.
  Notation V := (Vec A).

  (** Contents of the folder results/brusselator: file brusselator-rank[r] in the folder of an iteration. *)
  Definition store : Type := nat -> nat -> option (list (Z * V)).
  Definition no_files : store := fun _ _ => None.
  (** np.save replaces an existing file; the folders are kept if they exist (F 21) *)
  Definition save (it r : nat) (data : list (Z * V)) (fs : store) : store :=
    fun it' r' => if (it' =? it) && (r' =? r) then Some data else fs it' r'.

  (** [[self.t[0][i], self.u[0][i]] for i in self.index_local[0]] (F 30); an index out of range would raise *)
  Definition local_solution (I : LvlInfo) (u : list V) : option (list (Z * V)) :=
    sequence (map (fun i => match py_nth (i_t I) (Z.of_nat i), py_nth u (Z.of_nat i) with
                            | Some t, Some v => Some (t, v) | _, _ => None end) (i_loc I)).
  (** output_fcn (F 17-30) of process [r] for one call: solve_iter and u[0] at that time *)
  Definition output_call (I : LvlInfo) (r : nat) (call : nat * list V) (fs : store) : option store :=
    match local_solution I (snd call) with Some data => Some (save (fst call) r data fs) | None => None end.
  (** All calls of a run, [(r, call)]: a call of process [r]. [I r]: level 0 of process [r] *)
  Fixpoint write_all (I : nat -> LvlInfo) (calls : list (nat * (nat * list V))) (fs : store) : option store :=
    match calls with
    | [] => Some fs
    | (r, call) :: calls' => match output_call (I r) r call fs with Some fs' => write_all I calls' fs' | None => None end
    end.
  (** [calls] is an interleaving of the calls that the processes 0, ..., P-1 made, in their order ([s_out], C15). *)
  Definition interleaves (P : nat) (res : nat -> St A) (calls : list (nat * (nat * list V))) : Prop :=
    (forall r call, In (r, call) calls -> r < P) /\
    forall r, r < P -> map snd (filter (fun x => fst x =? r) calls) = s_out (res r).

  (** sol.sort(key=lambda tup: tup[0]) (F 58): stable *)
  Fixpoint insert (x : Z * V) (l : list (Z * V)) : list (Z * V) :=
    match l with
    | [] => [x]
    | y :: l' => if (fst x <=? fst y)%Z then x :: l else y :: insert x l'
    end.
  Definition sort_by_time (l : list (Z * V)) : list (Z * V) := fold_right insert [] l.
  (** F 52-60: [listing] is os.listdir of the folder of iteration [it], as ranks *)
  Definition read_folder (fs : store) (it : nat) (listing : list nat) : list (Z * V) :=
    sort_by_time (flat_map (fun r => match fs it r with Some data => data | None => [] end) listing).
  (** os.listdir (F 54): every file of the folder once, in any order *)
  Definition lists_folder (fs : store) (it : nat) (listing : list nat) : Prop :=
    NoDup listing /\ forall r, In r listing <-> fs it r <> None.
End Files.
