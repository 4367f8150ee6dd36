(** Properties of parallel runs with a global convergence criterion: C01, C02, C03, C11, C12, C13, C15, C39.
    Hypotheses [good_setup]: valid nested grids with a common first point, no neighbouring C-points, accepted by the
    constructor, conv_crit 0 or 1, vectors closed under the operations with faithful pack/unpack. *)
From Coq Require Import List ZArith Lia Arith Bool Sorted Permutation.
From Verif Require Import Net NetProofs PyList Setup Spec Mgrit Reference RefProofs Sim Main ParallelProofs ExampleApp OrderProofs.
Import ListNotations.

(** ** C01: result independent of the number of processes
    Two maximal executions (any schedules) on P and P' processes: both end with all processes returned; solution in time
    order, convergence history, iteration count and everything passed to output_fcn agree. *)
Theorem C01_process_count_independence :
  forall (A : App) (wf : nat -> Vec A -> Prop) (o : Opts A) (P P' n n' : nat) c c',
  good_setup wf o P -> good_setup wf o P' -> o_rand o = None ->
  steps P n (initial (mgrit_main o P)) c -> stuck P c ->
  steps P' n' (initial (mgrit_main o P')) c' -> stuck P' c' ->
  exists res res', finished P res c /\ finished P' res' c' /\
    gathered P (fun r => s_u (res r) 0) = gathered P' (fun r => s_u (res' r) 0) /\
    length (gathered P (fun r => s_u (res r) 0)) = length (nth 0 (o_grids o) []) /\
    (forall r r', r < P -> r' < P' ->
       s_conv (res r) = s_conv (res' r') /\ s_iter (res r) = s_iter (res' r') /\
       map fst (s_out (res r)) = map fst (s_out (res' r'))) /\
    (forall k, gathered P (fun r => snd (nth k (s_out (res r)) (0, []))) =
               gathered P' (fun r => snd (nth k (s_out (res' r)) (0, [])))).
Proof. intros A wf o P P' n n' c c'. exact (process_count_independence wf o P P' n c n' c'). Qed.

(** The values a run on P processes ends with are those of the reference algorithm on global time indices. *)
Theorem C01_parallel_equals_reference :
  forall (A : App) (wf : nat -> Vec A -> Prop) (o : Opts A) (P n : nat) c,
  good_setup wf o P -> o_rand o = None ->
  steps P n (initial (mgrit_main o P)) c -> stuck P c ->
  exists res, finished P res c /\
    gathered P (fun r => s_u (res r) 0) = map (gu (g_main o zero_guess) 0) (seq 0 (length (nth 0 (o_grids o) []))) /\
    (forall r, r < P -> s_conv (res r) = gconv (g_main o zero_guess) /\ s_iter (res r) = giter (g_main o zero_guess)).
Proof.
  intros A wf o P n c G Hr H S. destruct (maximal_run wf o P n c G H S) as (res & F & Ag).
  rewrite init_guess_zero in Ag by exact Hr. exists res. split; [exact F|]. split; [apply Ag|].
  intros r Hr'. split; apply Ag; exact Hr'.
Qed.

(** The hypotheses hold for a three-level F-cycle run with 17 points on any number of processes up to 17, maximal
    executions exist, and the run is not trivial (4 iterations on 5 processes, shown by executing the model). *)
Example C01_hypotheses_hold : forall P, 0 < P -> P <= 17 ->
  good_setup (fun _ _ => True) (zopts3 0 20) P /\ o_rand (zopts3 0 20) = None /\
  exists n c, steps P n (initial (mgrit_main (zopts3 0 20) P)) c /\ stuck P c.
Proof.
  intros P H H'. pose proof (zopts3_good 0 20 P (or_introl eq_refl) H H') as G.
  split; [exact G|]. split; [reflexivity|].
  destruct (run_main _ _ _ G) as (n & c & res & H1 & H2 & _). exists n, c. split; [exact H1|].
  exact (finished_stuck P res c H2).
Qed.
Example C01_example_run :
  let cfg := run_net 5 400 1000 (initial (mgrit_main (zopts3 0 20) 5)) in
  map (fun r => match procs cfg r with Ret s => (s_iter s, length (s_u s 0)) | _ => (0, 0) end) (seq 0 5) =
    [(4, 4); (4, 5); (4, 4); (4, 4); (4, 4)].
Proof. vm_compute. reflexivity. Qed.

(** ** C02: no deadlock, no lost message
    Every execution is finite (a bound exists), in every reachable state either everybody has returned and nothing is
    in flight, or some process can move. WaitAll only completes once every message of the process was received. *)
Theorem C02_no_deadlock :
  forall (A : App) (wf : nat -> Vec A -> Prop) (o : Opts A) (P : nat), good_setup wf o P ->
  exists bound, forall n c, steps P n (initial (mgrit_main o P)) c ->
    n <= bound /\ ((exists res, finished P res c) \/ (exists p c', step P p c c')).
Proof. intros A wf o P. exact (no_deadlock wf o P). Qed.
Example C02_hypotheses_hold : good_setup (fun _ _ => True) (zopts3 1 20) 6.
Proof. apply zopts3_good; auto; lia. Qed.
(** In the middle of the run messages are in flight and processes wait for each other. *)
Example C02_example_state :
  let cfg := run_net 6 3 1000 (initial (mgrit_main (zopts3 1 20) 6)) in
  map (fun r => match procs cfg r with Recv s t _ => Some (s, t) | _ => None end) (seq 0 6) =
    [Some (1, TAG_GATHER); Some (0, TAG_BCAST); Some (0, TAG_BCAST); Some (0, TAG_BCAST); Some (0, TAG_BCAST); Some (0, TAG_BCAST)].
Proof. vm_compute. reflexivity. Qed.

(** ** C03: message-passing runs are deterministic *)
Theorem C03_deterministic :
  forall (Msg R : Type) (P n m : nat) (start d e : config Msg R),
  steps P n start d -> stuck P d -> steps P m start e -> stuck P e -> n = m /\ ceq d e.
Proof. intros Msg R P n m c d e H1 H2 H3 H4. exact (stuck_unique P n m c d e H1 H2 H3 H4). Qed.
(** Two ranks that exchange a message each: two different schedules, one final state. *)
Example C03_example :
  let progs := fun r => if r =? 0 then Send 1 (Tag 5 0 0) 10 (Recv 1 (Tag 6 0 0) (fun m => Ret m)) else Send 0 (Tag 6 0 0) 20 (Recv 0 (Tag 5 0 0) (fun m => Ret m)) in
  let a := run_net 2 5 100 (initial progs) in
  let b := run_rank 2 100 1 (run_rank 2 100 0 (run_rank 2 100 1 (initial progs))) in
  map (procs a) [0; 1] = [Ret 20; Ret 10] /\ map (procs b) [0; 1] = [Ret 20; Ret 10].
Proof. split; reflexivity. Qed.
(** Even before they are stuck: two partial executions can be completed to a common state. *)
Theorem C03_confluent :
  forall (Msg R : Type) (P n : nat) (start final : config Msg R), steps P n start final -> stuck P final ->
  forall m d, steps P m start d -> m <= n /\ steps P (n - m) d final.
Proof. intros Msg R P n c c' H1 H2. exact (kahn P n c c' H2 H1). Qed.

(** ** C11: one level is sequential time stepping *)
Theorem C11_one_level :
  forall (A : App) (wf : nat -> Vec A -> Prop) (o : Opts A) (P n : nat) c,
  good_setup wf o P -> o_dist o = None -> length (o_grids o) = 1 -> 0 < o_max_iter o ->
  steps P n (initial (mgrit_main o P)) c -> stuck P c ->
  exists res, finished P res c /\
    gathered P (fun r => s_u (res r) 0) = map (time_stepping o) (seq 0 (length (nth 0 (o_grids o) []))).
Proof.
  intros A wf o P n c G Hd HL Hm H S.
  destruct (run_facts wf o P n c G H S) as (res & k & F & _ & Hk & Hu & _). exists res. split; [exact F|].
  rewrite Hu. apply map_ext. intros i. apply one_level; auto.
Qed.
Example C11_hypotheses_hold : good_setup (fun _ _ => True) (zopts1 3) 4 /\ o_dist (zopts1 3) = None /\ length (o_grids (zopts1 3)) = 1 /\ 0 < o_max_iter (zopts1 3).
Proof. split; [apply zopts1_good; lia|]. split; [reflexivity|]. simpl. lia. Qed.
Example C11_value : time_stepping (zopts1 3) 6 = 127%Z.
Proof. reflexivity. Qed.

(** ** C12: the initial value is never modified
    Neither in the result nor in any of the states passed to output_fcn (construction and every iteration). *)
Theorem C12_initial_value :
  forall (A : App) (wf : nat -> Vec A -> Prop) (o : Opts A) (P n : nat) c,
  good_setup wf o P -> steps P n (initial (mgrit_main o P)) c -> stuck P c ->
  exists res, finished P res c /\
    hd_error (gathered P (fun r => s_u (res r) 0)) = Some (vclone A (tstart A 0)) /\
    forall k, k < length (s_out (res 0)) ->
      hd_error (gathered P (fun r => snd (nth k (s_out (res r)) (0, [])))) = Some (vclone A (tstart A 0)).
Proof.
  intros A wf o P n c G H S.
  destruct (run_facts wf o P n c G H S) as (res & k & F & _ & _ & Hu & _ & _ & _ & _ & _ & Ag & Ho). exists res. split; [exact F|].
  pose proof (gs_two _ _ _ G) as H2.
  assert (E : forall f : nat -> Vec A, f 0 = vclone A (tstart A 0) ->
     hd_error (map f (seq 0 (length (nth 0 (o_grids o) [])))) = Some (vclone A (tstart A 0))).
  { intros f Hf. destruct (length (nth 0 (o_grids o) [])); [lia|]. simpl. congruence. }
  split; [rewrite Hu; apply E, iterate_first|].
  intros j Hj. pose proof (ag_outs _ _ _ _ Ag 0 (gs_procs _ _ _ G)) as X. apply (f_equal (@length nat)) in X. rewrite !map_length in X.
  destruct (nth_error (gout (g_main o (init_guess o P))) j) as [[it f]|] eqn:Ej; [|apply nth_error_None in Ej; lia].
  rewrite (ag_outv _ _ _ _ Ag j it f Ej). apply E. apply nth_error_In in Ej. rewrite Ho in Ej.
  destruct (o_has_output o); [|destruct Ej]. destruct (o_output_lvl o =? 2)%Z.
  - apply in_map_iff in Ej. destruct Ej as (i & Ei & _). injection Ei as _ <-. apply iterate_first.
  - destruct (o_output_lvl o =? 1)%Z; [|destruct Ej]. destruct Ej as [Ei|[]]. injection Ei as _ <-. apply iterate_first.
Qed.
Example C12_hypotheses_hold : good_setup (fun _ _ => True) (zopts3 1 5) 7 /\ o_output_lvl (zopts3 1 5) = 2%Z.
Proof. split; [apply zopts3_good; auto; lia|reflexivity]. Qed.

(** ** C13: iteration control
    All processes perform the same number k of iterations; k is at most max_iter, positive if max_iter is; none of the
    earlier convergence values is below tol, and if k < max_iter the last one is. *)
Theorem C13_iteration_control :
  forall (A : App) (wf : nat -> Vec A -> Prop) (o : Opts A) (P n : nat) c,
  good_setup wf o P -> steps P n (initial (mgrit_main o P)) c -> stuck P c ->
  exists res k, finished P res c /\ (forall r, r < P -> s_iter (res r) = k) /\
    k <= o_max_iter o /\ (0 < o_max_iter o -> 0 < k) /\
    forall r, r < P ->
      (forall j, 0 < j < k -> sc_lt A (nth j (s_conv (res r)) (sc_zero A)) (o_tol o) = false) /\
      (k < o_max_iter o -> sc_lt A (nth k (s_conv (res r)) (sc_zero A)) (o_tol o) = true).
Proof.
  intros A wf o P n c G H S.
  destruct (run_facts wf o P n c G H S) as (res & k & F & H1 & H2 & _ & H3 & H4 & H5 & H6 & _). exists res, k.
  repeat split; auto; try apply F; rewrite (H4 r H0); auto.
Qed.

(** The three-level example stops after 4 of at most 20 iterations because the residual is below the tolerance. *)
Example C13_hypotheses_hold : good_setup (fun _ _ => True) (zopts3 0 20) 3 /\
  let cfg := run_net 3 400 1000 (initial (mgrit_main (zopts3 0 20) 3)) in
  map (fun r => match procs cfg r with Ret s => (s_iter s, (0 <? nth 3 (s_conv s) 0)%Z, (nth 4 (s_conv s) 1 =? 0)%Z) | _ => (0, false, false) end)
    (seq 0 3) = [(4, true, true); (4, true, true); (4, true, true)].
Proof. split; [apply zopts3_good; auto; lia|]. vm_compute. reflexivity. Qed.

(** ** C15: output_fcn protocol
    Iteration numbers seen by the successive calls of output_fcn on every process. *)
Theorem C15_output_calls :
  forall (A : App) (wf : nat -> Vec A -> Prop) (o : Opts A) (P n : nat) c,
  good_setup wf o P -> steps P n (initial (mgrit_main o P)) c -> stuck P c ->
  exists res k, finished P res c /\ (forall r, r < P -> s_iter (res r) = k) /\
    forall r, r < P -> map fst (s_out (res r)) =
      if o_has_output o
      then if (o_output_lvl o =? 2)%Z then seq 0 (S k) else if (o_output_lvl o =? 1)%Z then [k] else []
      else [].
Proof.
  intros A wf o P n c G H S.
  destruct (run_facts wf o P n c G H S) as (res & k & F & _ & _ & _ & H3 & _ & _ & _ & _ & Ag & Ho). exists res, k.
  split; [exact F|]. split; [exact H3|]. intros r Hr. rewrite (ag_outs _ _ _ _ Ag r Hr), Ho.
  destruct (o_has_output o); [|reflexivity]. destruct (o_output_lvl o =? 2)%Z.
  - rewrite map_map. simpl map at 1. cbn [fst]. rewrite map_id. reflexivity.
  - destruct (o_output_lvl o =? 1)%Z; reflexivity.
Qed.
(** With output_lvl 1 the single call sees the final solution; with output_lvl 2 the last call does. *)
Theorem C15_last_output_is_result :
  forall (A : App) (wf : nat -> Vec A -> Prop) (o : Opts A) (P n : nat) c,
  good_setup wf o P -> steps P n (initial (mgrit_main o P)) c -> stuck P c ->
  o_has_output o = true -> o_output_lvl o <> 0%Z ->
  exists res, finished P res c /\
    gathered P (fun r => snd (last (s_out (res r)) (0, []))) = gathered P (fun r => s_u (res r) 0).
Proof.
  intros A wf o P n c G H St Hc Hl.
  destruct (run_facts wf o P n c G H St) as (res & k & F & _ & _ & Hu & _ & _ & _ & _ & _ & Ag & Ho). exists res. split; [exact F|].
  rewrite Hu, Hc in *.
  assert (Hlvl : o_output_lvl o = 1%Z \/ o_output_lvl o = 2%Z).
  { pose proof (gs_accept _ _ _ G) as C. unfold check in C. cbv zeta in C.
    match type of C with (if ?b then _ else _) = _ => destruct b; [discriminate|] end.
    destruct (negb _); [discriminate|]. destruct (existsb _ _); [discriminate|]. destruct (o_cycle o); [|discriminate].
    destruct (negb (memz (o_output_lvl o) _)) eqn:E; [discriminate|]. apply negb_false_iff in E. unfold memz in E.
    cbn [existsb] in E. rewrite !orb_true_iff, !Z.eqb_eq in E. intuition discriminate. }
  set (gs := gout (g_main o (init_guess o P))) in *.
  assert (exists it, nth_error gs (length gs - 1) = Some (it, gu (iterate o (init_guess o P) k) 0)) as (it & E).
  { rewrite Ho. destruct Hlvl as [-> | ->]; simpl Z.eqb; cbv iota.
    - exists k. reflexivity.
    - exists k. rewrite map_length, seq_length. rewrite nth_error_map. replace (S k - 1) with k by lia.
      rewrite ListFacts.nth_error_seq by lia. reflexivity. }
  rewrite <- (ag_outv _ _ _ _ Ag _ _ _ E).
  unfold gathered. f_equal. apply map_ext_in. intros r Hr. apply in_seq in Hr.
  pose proof (ag_outs _ _ _ _ Ag r ltac:(lia)) as X. apply (f_equal (@length nat)) in X. rewrite !map_length in X.
  fold gs in X. rewrite <- X. rewrite <- (SetupProofs.last_nth (o_grids o) P (HP0' wf o P G) (HP' wf o P G)). reflexivity.
Qed.

Example C15_hypotheses_hold : good_setup (fun _ _ => True) (zopts3 0 20) 3 /\ good_setup (fun _ _ => True) (zopts1 3) 3 /\
  o_output_lvl (zopts3 0 20) = 2%Z /\ o_output_lvl (zopts1 3) = 1%Z /\ o_has_output (zopts1 3) = true.
Proof. split; [apply zopts3_good; auto; lia|]. split; [apply zopts1_good; lia|]. repeat split. Qed.

(** ** C39: the convergence value is the time norm of the per-point values in time order
    [iterate o g j] is the j-th iterate of the reference algorithm (no processes); [crit_of] lists, for the C-points
    after the first in time order, the norms of the residuals (or of the jumps for conv_crit 1). *)
Theorem C39_convergence_values :
  forall (A : App) (wf : nat -> Vec A -> Prop) (o : Opts A) (P n : nat) c,
  good_setup wf o P -> o_rand o = None -> steps P n (initial (mgrit_main o P)) c -> stuck P c ->
  exists res k, finished P res c /\ (forall r, r < P -> s_iter (res r) = k) /\
    forall r j, r < P -> 1 <= j <= k ->
      nth_error (s_conv (res r)) j =
      tnorm A (crit_of o (gu (iterate o zero_guess (j - 1)) 0) (gu (iterate o zero_guess j) 0)).
Proof.
  intros A wf o P n c G Hr H S.
  destruct (run_facts wf o P n c G H S) as (res & k & F & _ & _ & _ & H3 & H4 & _ & _ & H6 & _). exists res, k.
  rewrite init_guess_zero in * by exact Hr.
  split; [exact F|]. split; [exact H3|]. intros r j Hr' Hj. rewrite (H4 r Hr'), (H6 j Hj). reflexivity.
Qed.

Example C39_hypotheses_hold : good_setup (fun _ _ => True) (zopts3 1 20) 4 /\ crit_points (zopts3 1 20) = [2; 4; 6; 8; 10; 12; 14; 16].
Proof. split; [apply zopts3_good; auto; lia|]. reflexivity. Qed.

Print Assumptions C01_process_count_independence.
Print Assumptions C01_parallel_equals_reference.
Print Assumptions C02_no_deadlock.
Print Assumptions C03_deterministic.
Print Assumptions C03_confluent.
Print Assumptions C11_one_level.
Print Assumptions C12_initial_value.
Print Assumptions C13_iteration_control.
Print Assumptions C15_output_calls.
Print Assumptions C15_last_output_is_result.
Print Assumptions C39_convergence_values.
