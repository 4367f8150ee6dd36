(** Message-passing network: the MPI primitives pymgrit uses, and their semantics.

    Models what /repo/src/pymgrit/core/mgrit.py relies on:
    - [comm_time.isend(data, dest, tag)]      (mgrit.py 709, 711-712)  -> [Send]
    - [comm_time.recv(source, tag)]           (mgrit.py 697)           -> [Recv]
    - [MPI.Request.Waitall(self.requests)]    (mgrit.py 649, 691)      -> [WaitAll]
    - [comm.gather], [comm.bcast], [comm.barrier] (mgrit.py 141, 239, 428, 432, 637)
      are expanded into [Send]/[Recv] by the rank programs (Mgrit.v).
    A Python exception that leaves the solver is [Raise]: the rank is dead.

    Simplifications: an [isend] pickles the object at the time of the call, so the queue holds the message
    itself; messages between one pair of ranks are non-overtaking (MPI 3.5); a pending [isend] is regarded
    as complete only once the message has been received (the most pessimistic buffering MPI permits), so
    [WaitAll] is enabled only when no message of the rank is in flight. *)
From Coq Require Import List ZArith Lia Arith Bool.
Import ListNotations.

(** Python / MPI errors as values. *)
Inductive exn : Type :=
| IndexError | ValueError | TypeError | AttributeError | MpiError | UserException (code : nat).

(** A message tag. MPI matches on the integer [t_num] alone; [t_lvl] and [t_op] are ghost labels (the level and
    the op_id of the [send]/[receive] call that made the tag) which no step looks at: see [take]. *)
Record mtag : Type := Tag { t_num : Z; t_lvl : nat; t_op : nat }.

Inductive prog (Msg A : Type) : Type :=
| Ret (a : A)
| Raise (e : exn)
| Send (dst : nat) (tag : mtag) (m : Msg) (k : prog Msg A)
| Recv (src : nat) (tag : mtag) (k : Msg -> prog Msg A)
| WaitAll (k : prog Msg A).
Arguments Ret {Msg A} a.
Arguments Raise {Msg A} e.
Arguments Send {Msg A} dst tag m k.
Arguments Recv {Msg A} src tag k.
Arguments WaitAll {Msg A} k.

(** Sequencing of Python statements. *)
Fixpoint bind {Msg A B : Type} (p : prog Msg A) (f : A -> prog Msg B) : prog Msg B :=
  match p with
  | Ret a => f a
  | Raise e => Raise e
  | Send d t m k => Send d t m (bind k f)
  | Recv s t k => Recv s t (fun m => bind (k m) f)
  | WaitAll k => WaitAll (bind k f)
  end.

Declare Scope prog_scope.
Delimit Scope prog_scope with prog.
Notation "x <- p ;; q" := (bind p (fun x => q)) (at level 61, p at next level, right associativity) : prog_scope.
Open Scope prog_scope.

(** First message with tag [t] of a queue, and the queue without it (MPI matching order). *)
Fixpoint take {Msg : Type} (t : mtag) (q : list (mtag * Msg)) : option (Msg * list (mtag * Msg)) :=
  match q with
  | [] => None
  | (t', m) :: q' =>
      if Z.eqb (t_num t) (t_num t') then Some (m, q')
      else match take t q' with
           | Some (m', q'') => Some (m', (t', m) :: q'')
           | None => None
           end
  end.

Record config (Msg A : Type) : Type := mkConfig {
  procs : nat -> prog Msg A;                    (* program of each rank *)
  chan : nat -> nat -> list (mtag * Msg)        (* chan src dst: messages in flight, oldest first *)
}.
Arguments mkConfig {Msg A} procs chan.
Arguments procs {Msg A} c r.
Arguments chan {Msg A} c s d.

Section Semantics.
  Context {Msg A : Type}.
  Notation config := (config Msg A).

  (** One step of rank [p] in a world of [P] ranks. *)
  Definition step (P : nat) (p : nat) (c c' : config) : Prop :=
    p < P /\
    match procs c p with
    | Ret _ => False
    | Raise _ => False
    | Send d t m k =>
        (forall r, procs c' r = if r =? p then k else procs c r) /\
        (forall s d', chan c' s d' = if (s =? p) && (d' =? d) then chan c s d' ++ [(t, m)] else chan c s d')
    | Recv s0 t k =>
        exists m rest, take t (chan c s0 p) = Some (m, rest) /\
        (forall r, procs c' r = if r =? p then k m else procs c r) /\
        (forall s d', chan c' s d' = if (s =? s0) && (d' =? p) then rest else chan c s d')
    | WaitAll k =>
        (forall d, chan c p d = []) /\
        (forall r, procs c' r = if r =? p then k else procs c r) /\
        (forall s d', chan c' s d' = chan c s d')
    end.

  (** [steps P n c c']: some schedule of [n] steps leads from [c] to [c']. *)
  Inductive steps (P : nat) : nat -> config -> config -> Prop :=
  | steps_refl c c' : (forall r, procs c r = procs c' r) -> (forall s d, chan c s d = chan c' s d) -> steps P 0 c c'
  | steps_cons p n c c1 c' : step P p c c1 -> steps P n c1 c' -> steps P (S n) c c'.

  (** Nobody can move. *)
  Definition stuck (P : nat) (c : config) : Prop := forall p c', ~ step P p c c'.

  (** Every rank has returned normally and nothing is in flight. *)
  Definition finished (P : nat) (res : nat -> A) (c : config) : Prop :=
    (forall r, r < P -> procs c r = Ret (res r)) /\ (forall s d, chan c s d = []).

  (** Start of a run: all queues empty. *)
  Definition initial (progs : nat -> prog Msg A) : config := mkConfig progs (fun _ _ => []).

  (** Extensional equality of configurations. *)
  Definition ceq (c d : config) : Prop :=
    (forall r, procs c r = procs d r) /\ (forall s d', chan c s d' = chan d s d').
End Semantics.

(** Executable scheduler, used to run the model on concrete inputs: [sched] lists the ranks to try in turn. *)
Section Exec.
  Context {Msg A : Type}.
  Definition upd1 {B : Type} (f : nat -> B) (p : nat) (x : B) : nat -> B := fun r => if r =? p then x else f r.
  Definition upd2 {B : Type} (f : nat -> nat -> B) (s d : nat) (x : B) : nat -> nat -> B :=
    fun s' d' => if (s' =? s) && (d' =? d) then x else f s' d'.

  (** Run rank [p] until it blocks, returns or raises (at most [fuel] steps); [P] is the number of ranks. *)
  Fixpoint run_rank (P fuel : nat) (p : nat) (c : config Msg A) : config Msg A :=
    match fuel with
    | 0 => c
    | S fuel' =>
        match procs c p with
        | Ret _ | Raise _ => c
        | Send d t m k =>
            if negb (d <? P) then c else run_rank P fuel' p (mkConfig (upd1 (procs c) p k) (upd2 (chan c) p d (chan c p d ++ [(t, m)])))
        | Recv s t k =>
            match take t (chan c s p) with
            | Some (m, rest) => run_rank P fuel' p (mkConfig (upd1 (procs c) p (k m)) (upd2 (chan c) s p rest))
            | None => c
            end
        | WaitAll k =>
            if forallb (fun d => match chan c p d with [] => true | _ => false end) (seq 0 P)
            then run_rank P fuel' p (mkConfig (upd1 (procs c) p k) (chan c)) else c
        end
    end.

  (** Round robin over all ranks, [rounds] times. *)
  Fixpoint run_net (P rounds fuel : nat) (c : config Msg A) : config Msg A :=
    match rounds with
    | 0 => c
    | S n => run_net P n fuel (fold_left (fun c p => run_rank P fuel p c) (seq 0 P) c)
    end.

  (** Nobody below [P] can move, decided. *)
  Definition stuckb (P : nat) (c : config Msg A) : bool :=
    forallb (fun p => match procs c p with
                      | Ret _ | Raise _ => true
                      | Send _ _ _ _ => false
                      | Recv s t _ => match take t (chan c s p) with Some _ => false | None => true end
                      | WaitAll _ => existsb (fun d => match chan c p d with [] => false | _ => true end) (seq 0 P)
                      end) (seq 0 P).
End Exec.
