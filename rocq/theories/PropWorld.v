(** Examples for C22: six processes, two space processes each, three time processes. *)
From Coq Require Import List ZArith Lia Arith Bool.
From Verif Require Import Net NetExec Mgrit WorldCrit ExampleApp.
Import ListNotations.

Example C22_hypotheses_hold : tnorm zapp (concat (map (fun w => [Z.of_nat w]) (seq 0 4))) <> None /\
  let cfg := run_net 4 20 100 (initial (fun w => world_criterion (A := zapp) 4 1 [Z.of_nat w] 0%Z w)) in
  map (procs cfg) (seq 0 4) = [Ret 3%Z; Ret 3%Z; Ret 3%Z; Ret 3%Z].
Proof. split; [discriminate|]. vm_compute. reflexivity. Qed.
(** World rank 1 raises; the others get the norm over the values of all space processes (5), not of their own time
    communicator (4 for the even ranks). *)
Example C22_split_run :
  let cfg := run_net 6 20 100 (initial (fun w => world_criterion (A := zapp) 6 2 [Z.of_nat w] 0%Z w)) in
  map (procs cfg) (seq 0 6) = [Ret 5%Z; Raise TypeError; Ret 5%Z; Ret 5%Z; Ret 5%Z; Ret 5%Z] /\
  own_time_values (A := zapp) 6 2 (fun w => [Z.of_nat w]) 0 = [0; 2; 4]%Z.
Proof. split; vm_compute; reflexivity. Qed.
Print Assumptions C22_no_space_parallelism.
Print Assumptions C22_space_parallel_raises.
Print Assumptions C22_own_communicator_refuted.
