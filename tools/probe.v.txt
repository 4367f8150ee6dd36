(* Runs the model on small instances; only needs the model files, so that it works when proofs fail. *)
From Coq Require Import List ZArith Bool Arith.
From Verif Require Import Net PyList Setup Mgrit SimpleSetup.
Import ListNotations.
Definition zapp : App := mkApp Z Z Z Z.add Z.sub Z.mul Z.abs (fun x => x) (fun _ => 0%Z) (fun x => x) (fun _ d => d)
  (fun l x a b => (2 * x + b - a + Z.of_nat l)%Z) (fun _ x => (x * 3)%Z) (fun _ x => (x + 5)%Z) (fun _ => 0%Z) (fun l => (1 + Z.of_nat l)%Z)
  (fun l => match l with [] => None | _ => Some (fold_left (fun a x => 2 * a + x)%Z l 0%Z) end) Z.ltb 0%Z (Z.eqb 0) (fun x => (3 - x)%Z).
Definition grid_of (n s : nat) : list Z := map (fun k => Z.of_nat (k * s)) (seq 0 n).
Definition asc (all cs : list nat) : list nat := filter (fun i => negb (memn i cs)) all.
Definition opts (gs : list (list Z)) (nested cyc : bool) (crit lvl : Z) (cf : nat) (it : nat) (tol : Z) : Opts zapp :=
  mkOpts zapp gs (length gs - 1) (2%Z : Sc zapp) it (tol : Sc zapp) nested (CfInt (Z.of_nat cf)) (Some cyc) lvl true 1 None crit asc.
Definition run (o : Opts zapp) (P : nat) :=
  let cfg := run_net P 200 1000 (initial (mgrit_main o P)) in
  (map (fun r => match procs cfg r with Ret _ => 0 | Raise _ => 1 | Send _ _ _ _ => 2 | Recv _ _ _ => 3 | WaitAll _ => 4 end) (seq 0 P),
   map (fun r => match procs cfg r with Ret s => (s_u s 0, s_conv s, s_iter s, map fst (s_out s), fold_left Z.add (concat (map snd (s_out s))) 0%Z) | _ => ([], [], 0, [], 0%Z) end) (seq 0 P),
   existsb (fun s => existsb (fun d => negb (length (chan cfg s d) =? 0)) (seq 0 P)) (seq 0 P)).
Definition G3 := [grid_of 9 1; grid_of 5 2; grid_of 3 4].
Definition G2 := [[0; 1; 2; 3; 5; 6; 7; 9; 10]%Z; [0; 3; 9]%Z].
Definition summary (o : Opts zapp) := map (fun P => run o P) [1; 2; 3; 5].
Eval vm_compute in summary (opts G3 true true 0 2 1 3 0%Z).
Eval vm_compute in summary (opts G3 false true 1 1 2 2 0%Z).
Eval vm_compute in summary (opts G2 true false 0 2 1 3 100000%Z).
Eval vm_compute in summary (opts G2 false false 2 0 1 3 100000%Z).
Eval vm_compute in summary (opts [grid_of 7 1] false false 0 1 1 2 0%Z).
Eval vm_compute in (map (fun a => check (opts a false false 0 1 1 2 0%Z) 3) [G3; G2; [grid_of 2 1]; [grid_of 4 1; grid_of 4 2]; [grid_of 5 1; [0; 2; 2]%Z]]).
Eval vm_compute in (simple_setup (mkProblem 0 16 (grid_of 17 1) 17) 3 2, map (split_communicator 6 2) (seq 0 6), split_into 17 5).
