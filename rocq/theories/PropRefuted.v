(** Properties that fail, with the failing runs: C18, C24, C36.
    Every witness satisfies all hypotheses of [good_setup] except the one the property is about, and the executions are
    maximal executions of the same rank programs the positive theorems talk about. *)
From Coq Require Import List ZArith Lia Arith Bool Sorted.
From Verif Require Import Net NetProofs NetExec PyList ListFacts Setup Spec Mgrit Reference Main ExampleApp OrderProofs.
Import ListNotations.

(** ** C18: a coarse grid must keep the initial time
    The checks of the constructor accept a nested coarse grid that lacks the first time point. *)
Definition zopts_nofirst : Opts zapp :=
  mkOpts zapp [grid_of 5 1; [2%Z; 4%Z]] 1 (1%Z : Sc zapp) 3 (1%Z : Sc zapp) false (CfInt 1) (Some false) 1 true 2 None 0 ascending_order.

(** Already on one process no execution returns: rank 0 waits for a message from itself (get_from of the coarse level is
    its own rank, mgrit.py 824-825, used in 516-517), and before that F-relaxation has overwritten the initial value 1 by
    a step from the last point. *)
Theorem C18_initial_value_refuted :
  ~ (forall (A : App) (wf : nat -> Vec A -> Prop) (o : Opts A) (P n : nat) c,
     app_laws A wf -> o_grids o <> [] ->
     (forall l, l < length (o_grids o) -> StronglySorted Z.lt (nth l (o_grids o) []) /\ 2 <= length (nth l (o_grids o) [])) ->
     (forall l, S l < length (o_grids o) -> incl (nth (S l) (o_grids o) []) (nth l (o_grids o) [])) ->
     no_adjacent_cpoints (o_grids o) -> 0 < P -> check o P = None -> o_conv_crit o = 0%Z ->
     f_order_ok (o_grids o) (o_set_order o) P -> o_rand o = None ->
     steps P n (initial (mgrit_main o P)) c -> stuck P c ->
     exists res, finished P res c /\ hd_error (gathered P (fun r => s_u (res r) 0)) = Some (vclone A (tstart A 0))).
Proof.
  intros H.
  assert (W : exists n c, steps 1 n (initial (mgrit_main zopts_nofirst 1)) c /\ stuck 1 c /\ match procs c 0 with Ret _ => False | _ => True end).
  { destruct (run_net_steps 1 3 500 (mgrit_main zopts_nofirst 1)) as (n & Hn).
    exists n, (run_net 1 3 500 (initial (mgrit_main zopts_nofirst 1))). split; [exact Hn|].
    split; [apply stuckb_ok; vm_compute; reflexivity|vm_compute; exact I]. }
  destruct W as (n & c & Hn & St & X).
  destruct (H zapp (fun _ _ => True) zopts_nofirst 1 n c) as (res & [F _] & _); auto.
  - apply zapp_laws.
  - discriminate.
  - intros l Hl. simpl in Hl. destruct l as [|[|l]]; [| |lia]; (split; [apply sortedb_ok; reflexivity|simpl; lia]).
  - intros l Hl. simpl in Hl. destruct l as [|l]; [|lia]. intros t Ht. simpl in *. intuition.
  - apply no_adjacentb_ok. reflexivity.
  - apply ascending_order_ok.
  - rewrite (F 0 ltac:(lia)) in X. exact X.
Qed.
(** Where it hangs: a receive from itself for operation 4 of level 0. *)
Example C18_hangs_on_itself :
  match procs (run_net 1 3 500 (initial (mgrit_main zopts_nofirst 1))) 0 with
  | Recv s t _ => s = 0 /\ t = Tag 250000 0 4
  | _ => False
  end.
Proof. vm_compute. split; reflexivity. Qed.

(** ** C24: neighbouring C-points across a process boundary
    Coarsening factor 1, six points. The value needed at a block boundary is never communicated. *)
Definition zopts_dense : Opts zapp :=
  mkOpts zapp [grid_of 6 1; grid_of 6 1] 1 (1%Z : Sc zapp) 6 (1%Z : Sc zapp) false (CfInt 1) (Some false) 1 true 2 None 0 ascending_order.

Theorem C24_process_count_independence_refuted :
  ~ (forall (A : App) (wf : nat -> Vec A -> Prop) (o : Opts A) (P P' n n' : nat) c c',
     app_laws A wf -> valid_hierarchy (o_grids o) -> 2 <= length (nth 0 (o_grids o) []) -> 0 < P -> 0 < P' ->
     check o P = None -> check o P' = None -> o_conv_crit o = 0%Z ->
     f_order_ok (o_grids o) (o_set_order o) P -> f_order_ok (o_grids o) (o_set_order o) P' -> o_rand o = None ->
     steps P n (initial (mgrit_main o P)) c -> stuck P c -> steps P' n' (initial (mgrit_main o P')) c' -> stuck P' c' ->
     exists res res', finished P res c /\ finished P' res' c' /\
       gathered P (fun r => s_u (res r) 0) = gathered P' (fun r => s_u (res' r) 0)).
Proof.
  intros H.
  assert (W : exists n c, steps 1 n (initial (mgrit_main zopts_dense 1)) c /\ stuck 1 c /\
            match procs c 0 with Ret s => s_u s 0 = [1; 3; 7; 15; 31; 63]%Z | _ => False end).
  { destruct (run_net_steps 1 5 1000 (mgrit_main zopts_dense 1)) as (n & Hn).
    exists n, (run_net 1 5 1000 (initial (mgrit_main zopts_dense 1))). split; [exact Hn|].
    split; [apply stuckb_ok; vm_compute; reflexivity|vm_compute; reflexivity]. }
  assert (W' : exists n c, steps 2 n (initial (mgrit_main zopts_dense 2)) c /\ stuck 2 c /\
            match procs c 0 with Ret s => s_u s 0 = [1; 3; 7]%Z | _ => False end /\
            match procs c 1 with Ret s => s_u s 0 = [0; 1; 3; 7]%Z | _ => False end).
  { destruct (run_net_steps 2 50 1000 (mgrit_main zopts_dense 2)) as (n & Hn).
    exists n, (run_net 2 50 1000 (initial (mgrit_main zopts_dense 2))). split; [exact Hn|].
    split; [apply stuckb_ok; vm_compute; reflexivity|split; vm_compute; reflexivity]. }
  destruct W as (n & c & Hn & St & X). destruct W' as (n' & c' & Hn' & St' & Y0 & Y1).
  destruct (H zapp (fun _ _ => True) zopts_dense 1 2 n n' c c') as (res & res' & [F _] & [F' _] & E); auto.
  - apply zapp_laws.
  - apply valid_hierarchyb_ok. reflexivity.
  - simpl. lia.
  - apply ascending_order_ok.
  - apply ascending_order_ok.
  - rewrite (F 0 ltac:(lia)) in X. rewrite (F' 0 ltac:(lia)) in Y0. rewrite (F' 1 ltac:(lia)) in Y1.
    unfold gathered in E. simpl in E. rewrite X, Y0, Y1 in E. discriminate.
Qed.
(** The run on two processes even reports convergence: residual 0 after one iteration, for a wrong solution. *)
Example C24_wrong_run_converges :
  match procs (run_net 2 50 1000 (initial (mgrit_main zopts_dense 2))) 1 with
  | Ret s => s_iter s = 1 /\ nth 1 (s_conv s) 9%Z = 0%Z
  | _ => False
  end.
Proof. vm_compute. split; reflexivity. Qed.

(** ** C36: local convergence criteria leave messages behind
    Nine and five points on three processes. With conv_crit 2 and cf_iter 0, and with conv_crit 3 and cf_iter 1, rank 1
    waits in clean_up (649) for the completion of a send whose receive is never posted, rank 0 and 2 wait in the final
    barrier. This needs sends that complete only when received, which MPI permits for isend. *)
Definition zopts_local (crit cf : Z) : Opts zapp :=
  mkOpts zapp [grid_of 9 1; grid_of 5 2] 1 (1%Z : Sc zapp) 10 (1%Z : Sc zapp) false (CfInt cf) (Some false) 1 true 2 None crit ascending_order.
Lemma zopts_local_facts crit cf : (crit = 2 \/ crit = 3)%Z ->
  valid_hierarchy (o_grids (zopts_local crit cf)) /\ no_adjacent_cpoints (o_grids (zopts_local crit cf)) /\
  check (zopts_local crit cf) 3 = None /\ f_order_ok (o_grids (zopts_local crit cf)) (o_set_order (zopts_local crit cf)) 3.
Proof.
  intros Hc. split; [apply valid_hierarchyb_ok; reflexivity|]. split; [apply no_adjacentb_ok; reflexivity|].
  split; [destruct Hc as [-> | ->]; reflexivity|apply ascending_order_ok].
Qed.
Theorem C36_local_criteria_terminate_refuted : forall crit cf, (crit = 2 /\ cf = 0 \/ crit = 3 /\ cf = 1)%Z ->
  ~ (forall (A : App) (wf : nat -> Vec A -> Prop) (o : Opts A) (P n : nat) c,
     app_laws A wf -> valid_hierarchy (o_grids o) -> no_adjacent_cpoints (o_grids o) -> 2 <= length (nth 0 (o_grids o) []) ->
     0 < P -> check o P = None -> o_conv_crit o = crit -> o_cf o = CfInt cf ->
     f_order_ok (o_grids o) (o_set_order o) P -> o_rand o = None ->
     steps P n (initial (mgrit_main o P)) c -> stuck P c -> exists res, finished P res c).
Proof.
  intros crit cf Hcc H. destruct (zopts_local_facts crit cf ltac:(lia)) as (H1 & H2 & H3 & H4).
  assert (W : exists n c, steps 3 n (initial (mgrit_main (zopts_local crit cf) 3)) c /\ stuck 3 c /\
            match procs c 1 with WaitAll _ => True | _ => False end).
  { destruct (run_net_steps 3 50 1000 (mgrit_main (zopts_local crit cf) 3)) as (n & Hn).
    exists n, (run_net 3 50 1000 (initial (mgrit_main (zopts_local crit cf) 3))). split; [exact Hn|].
    destruct Hcc as [[-> ->] | [-> ->]]; (split; [apply stuckb_ok; vm_compute; reflexivity|vm_compute; exact I]). }
  destruct W as (n & c & Hn & St & X).
  destruct (H zapp (fun _ _ => True) (zopts_local crit cf) 3 n c) as (res & [F _]); auto.
  - apply zapp_laws.
  - simpl. lia.
  - rewrite (F 1 ltac:(lia)) in X. exact X.
Qed.

Print Assumptions C18_initial_value_refuted.
Print Assumptions C24_process_count_independence_refuted.
Print Assumptions C36_local_criteria_terminate_refuted.
