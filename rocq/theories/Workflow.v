(** The optimization workflow of examples/optimize_geometry_im/optimization_workflow.py (below "W"): process 0 of
    MPI.COMM_WORLD runs an optimizer, all others form the communicator of a parallel-in-time solver. Only definitions. *)
From Coq Require Import Reals List Arith ZArith Bool.
From Verif Require Import Net PyList Setup Mgrit.
Import ListNotations.

(** ** A program of a communicator inside MPI.COMM_WORLD
    comm_world.Split(color, key=rank) (W 213-221): process [S r] of the world is process [r] of worker_comm. MPI matches messages
    on communicator and tag; here even numbers are the tags of worker_comm and odd numbers those of the world. *)
Definition on_workers (t : mtag) : mtag := Tag (2 * t_num t)%Z (t_lvl t) (t_op t).
Section Embed.
  Context {M1 M2 : Type}.
  Variable inj : M1 -> M2.
  Variable prj : M2 -> option M1.
  Fixpoint embed {A : Type} (p : prog M1 A) : prog M2 A :=
    match p with
    | Ret a => Ret a
    | Raise e => Raise e
    | Send d t m k => Send (S d) (on_workers t) (inj m) (embed k)
    | Recv s t k => Recv (S s) (on_workers t) (fun m => match prj m with Some m1 => embed (k m1) | None => Raise TypeError end)
    | WaitAll k => WaitAll (embed k)
    end.
End Embed.

(** ** Collective operations *)
Definition TAG_ALLGATHER : mtag := Tag 0 0 0.
Definition TAG_WORLD : mtag := Tag 1 0 0.
Fixpoint send_to_all {M A : Type} (dsts : list nat) (tag : mtag) (m : M) (k : prog M A) : prog M A :=
  match dsts with [] => k | d :: dsts' => Send d tag m (send_to_all dsts' tag m k) end.
(** COMM_WORLD.bcast(m, root) in a world of [P] processes *)
Definition world_bcast {M : Type} (P root r : nat) (m : M) : prog M M :=
  if r =? root then send_to_all (filter (fun d => negb (d =? root)) (seq 0 P)) TAG_WORLD m (Ret m)
  else Recv root TAG_WORLD (fun m => Ret m).
(** comm_time.allgather(x) (W 46): process 0 collects and distributes *)
Fixpoint recv_from_all {M A : Type} (srcs : list nat) (tag : mtag) (got : list M) (k : list M -> prog M A) : prog M A :=
  match srcs with [] => k got | s :: srcs' => Recv s tag (fun m => recv_from_all srcs' tag (got ++ [m]) k) end.
Definition all_gather {D : Type} (W r : nat) (x : D) : prog (list D) (list D) :=
  if r =? 0 then
    recv_from_all (seq 1 (W - 1)) TAG_ALLGATHER [] (fun ls => let all := x :: concat ls in
      send_to_all (seq 1 (W - 1)) TAG_ALLGATHER all (Ret all))
  else Send 0 TAG_ALLGATHER [x] (Recv 0 TAG_ALLGATHER (fun all => Ret all)).

(** ** What AtMgritCustomized.solve makes of the values (W 43-53)
    A value is the pair (tr, jl) of a time point. *)
Local Open Scope R_scope.
Definition val : Type := (R * R)%type.
(** find_nearest (W 38-41): np.abs(array - value).argmin(), the first minimum; index only. Times are integers. *)
Fixpoint argmin_from (l : list Z) (i best : nat) (bestv : Z) : nat :=
  match l with
  | [] => best
  | x :: l' => if (x <? bestv)%Z then argmin_from l' (S i) i x else argmin_from l' (S i) best bestv
  end.
Definition argmin (l : list Z) : option nat := match l with [] => None | x :: l' => Some (argmin_from l' 1 0 x) end.
Definition find_nearest (array : list Z) (value : Z) : option nat := argmin (map (fun x => Z.abs (x - value)) array).
Definition mean (l : list R) : R := fold_right Rplus 0 l / INR (length l).
(** solve (W 47-53) after the allgather: flattening, mean values over the last part of the interval; problem[0].t[-1] of an
    empty array is not modelled (None). *)
Definition region_means (times : list Z) (region : Z) (gathered : list (list val)) : option val :=
  let flat := concat gathered in
  match find_nearest times (last times 0%Z - region) with
  | Some idx => Some (mean (map fst (skipn idx flat)), mean (map snd (skipn idx flat)))
  | None => None
  end.
(** objective_function (W 155-156) *)
Definition objective_function (v : val) : R := - ((fst v * (1487 / 10)) / (fst v * (1487 / 10) + snd v)).

(** ** The workflow *)
(** pybobyqa.solve: any algorithm that asks for values of the objective function at finitely many points, one after the
    other, each depending on the previous values, and then returns. *)
Inductive optimizer (X Res : Type) : Type :=
| Done (s : Res)
| Ask (x : X) (k : R -> optimizer X Res).
Arguments Done {X Res} s. Arguments Ask {X Res} x k.

Section Workflow.
  Context {X Res : Type}.
  Variable X_dec : forall x y : X, {x = y} + {x <> y}.
  (** Messages and program of the solver for the geometry [x] on process [r] of worker_comm, from the construction of the problems
      to the values [[u[0][i].tr, u[0][i].jl] for i in index_local[0]] (W 111-125, 45); problem[0].t; optimization_region. *)
  Variable M : X -> Type.
  Variable solver : forall x : X, nat -> prog (M x) (list val).
  Variable times : list Z.
  Variable region : Z.

  (** WRun: messages of the solver; WGather: of the allgather; WFlag: the flag [finished] (None is 1). The flag 0 carries the geometry:
      the mesh file is written (W 164-166) before the broadcast (W 179), and everybody sees it then (the pause of W 176). *)
  Inductive WMsg : Type :=
  | WRun (x : X) (m : M x)
  | WGather (l : list (list val))
  | WFlag (f : option X)
  | WRes (v : val).
  Definition run_prj (x : X) (m : WMsg) : option (M x) :=
    match m with
    | WRun y m => match X_dec y x with left e => Some (eq_rect y M m x e) | right _ => None end
    | _ => None
    end.
  Definition gather_prj (m : WMsg) : option (list (list val)) := match m with WGather l => Some l | _ => None end.

  (** run_mgrit (W 111-125) on process [r] of [W] workers *)
  Definition run_mgrit (W : nat) (x : X) (r : nat) : prog WMsg val :=
    vals <- embed (WRun x) (run_prj x) (solver x r) ;;
    all <- embed WGather gather_prj (all_gather W r vals) ;;
    match region_means times region all with Some v => Ret v | None => Raise IndexError end.

  (** pybobyqa.solve(objx, ...) with objx (W 159-187), and the final broadcast (W 242-245), on process 0 of [P] *)
  Fixpoint master (P : nat) (opt : optimizer X Res) : prog WMsg Res :=
    match opt with
    | Done s => _ <- world_bcast P 0 0 (WFlag None) ;; Ret s
    | Ask x k =>
        _ <- world_bcast P 0 0 (WFlag (Some x)) ;;
        m <- world_bcast P (P - 1) 0 (WRes (1, 1)) ;;
        match m with
        | WRes v => master P (k (objective_function v))
        | _ => Raise TypeError
        end
    end.
  (** worker (W 190-208) on process [r]; the loop is cut after [fuel] passes *)
  Fixpoint worker (fuel P r counter : nat) : prog WMsg nat :=
    match fuel with
    | 0 => Raise (UserException 0)
    | S fuel' =>
        m <- world_bcast P 0 r (WFlag None) ;;
        match m with
        | WFlag None => Ret counter
        | WFlag (Some x) =>
            v <- run_mgrit (P - 1) x (r - 1) ;;
            _ <- world_bcast P (P - 1) r (WRes v) ;;
            worker fuel' P r (counter + 1)
        | _ => Raise TypeError
        end
    end.
  (** the main program (W 211-248) on process [r] of [P] *)
  Definition workflow (fuel P : nat) (opt : optimizer X Res) (r : nat) : prog WMsg (Res + nat) :=
    if r =? 0 then s <- master P opt ;; Ret (inl s)
    else n <- worker fuel P r 0 ;; Ret (inr n).
End Workflow.

(** ** The solver of the workflow for Mgrit
    [o x]: the options for the geometry [x]; [obs]: the attributes tr and jl of a vector. mgrit_main is the constructor and solve() of
    Mgrit; index_local is that of the constructor. The class of the example overrides convergence_criterion and nested_iteration. *)
Definition values_of {A : App} (o : Opts A) (obs : Vec A -> val) (W r : nat) : prog (Msg A) (list val) :=
  s <- mgrit_main o W r ;;
  infos <- lift (setup_infos o W r) ;;
  vs <- lift (sequence (map (fun i => py_nth (s_u s 0) (Z.of_nat i)) (i_loc (nth 0 infos dummy_info)))) ;;
  Ret (map obs vs).
