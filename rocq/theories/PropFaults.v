(** C66: exceptions thrown by user code (step, norm, space transfer, output function, vector class). /repo/src/pymgrit/core
    has no try: such an exception leaves the solver and the process is dead, while the others go on until they need it. *)
From Coq Require Import List ZArith Lia Arith Bool.
From Verif Require Import Net NetProofs NetFifo NetPhase NetExec PyList Setup SetupProofs Mgrit Reference Collect Sim Main Faults ExampleApp.
Import ListNotations.

(** Mgrit(...) and the loop of solve() up to the barrier (mgrit.py 590-636) *)
Definition until_barrier {A : App} (o : Opts A) (P r : nat) : prog (Msg A) (St A) :=
  match check o P with
  | Some e => Raise e
  | None =>
      match setup_infos o P r with
      | None => Raise IndexError
      | Some infos =>
          match too_many_points o P with
          | Some e => Raise e
          | None => s <- construct o P r infos (coarse_solve o P r infos) ;; solve_loop o P r infos (coarse_solve o P r infos) (o_max_iter o) 0 s
          end
      end
  end.
(** the rest of solve() (mgrit.py 637-646) *)
Definition from_barrier {A : App} (o : Opts A) (P r : nat) (s : St A) : prog (Msg A) (St A) :=
  _ <- barrier P r ;; Ret (if o_has_output o && (o_output_lvl o =? 1)%Z then emit s else s).

(** Together they are Mgrit(...).solve(). *)
Theorem C66_two_parts : forall (A : App) (o : Opts A) (P r : nat),
  peq (mgrit_main o P r) (bind (until_barrier o P r) (from_barrier o P r)).
Proof.
  intros A o P r. unfold mgrit_main, until_barrier. destruct (check o P); [apply peq_refl|]. destruct (setup_infos o P r); [|apply peq_refl].
  destruct (too_many_points o P); [apply peq_refl|]. apply peq_sym. eapply peq_trans; [apply bind_assoc|]. apply peq_refl.
Qed.

(** Whatever user code raises, wherever and on how many processes: the number of steps stays bounded, a process that returns
    returns what it returns without exceptions, and in a final state without exception everybody has returned. A process
    that neither returned nor raised waits for a message or for the delivery of its own. *)
Theorem C66_exceptions_are_safe :
  forall (A : App) (wf : nat -> Vec A -> Prop) (o : Opts A) (P : nat), good_setup wf o P ->
  exists bound result,
    (forall n c, steps P n (initial (mgrit_main o P)) c -> stuck P c -> finished P result c) /\
    forall q, (forall r, r < P -> may_raise (q r) (mgrit_main o P r)) ->
    forall n c, steps P n (initial q) c ->
      n <= bound /\
      (forall r x, r < P -> procs c r = Ret x -> x = result r) /\
      (stuck P c ->
        ((forall r e, r < P -> procs c r <> Raise e) -> finished P result c) /\
        (forall r, r < P -> match procs c r with Ret x => x = result r | Raise _ => True
                            | Recv s t _ => take t (chan c s r) = None | WaitAll _ => ~ forall d, chan c r d = []
                            | Send _ _ _ _ => False end)).
Proof.
  intros A wf o P G. destruct (run_main wf o P G) as (bound & final & res & H1 & H2 & _). exists bound, res. split.
  { intros n c Hn St. apply (finished_unique P bound _ _ res H2 H1 n c Hn). exact St. }
  intros q Hq n c Hn.
  destruct (frel_steps P n _ c Hn (initial (mgrit_main o P))) as (f & Sf & F); [split; [exact Hq|reflexivity]|].
  destruct (finished_unique P bound _ _ res H2 H1 n f Sf) as (B & S2 & Fin).
  assert (V : forall r x, r < P -> procs c r = Ret x -> x = res r).
  { intros r x Hr E. pose proof (proj1 F r Hr) as M. rewrite E in M. inversion M as [|a E1 E2| | |]. 
    assert (X : procs final r = Ret x) by (eapply ret_stays; [exact S2|congruence]). rewrite (proj1 H2 r Hr) in X. congruence. }
  split; [exact B|]. split; [exact V|]. intros St. split.
  - intros NR. pose proof (proj2 (Fin (frel_stuck P c f F St NR))) as [F1 F2]. split.
    + intros r Hr. pose proof (proj1 F r Hr) as M. rewrite F1 in M by auto. inversion M as [e q' E1 E2|a E1 E2| | |]; [destruct (NR r e Hr); auto|reflexivity].
    + intros s d. rewrite (proj2 F). apply F2.
  - intros r Hr. destruct (procs c r) as [x|e|d t m k|s t k|k] eqn:E.
    + apply V; auto.
    + exact I.
    + apply (St r (mkConfig (fun r' => if r' =? r then k else procs c r') (fun s d' => if (s =? r) && (d' =? d) then chan c s d' ++ [(t, m)] else chan c s d'))).
      split; [exact Hr|]. rewrite E. split; reflexivity.
    + destruct (take t (chan c s r)) as [[m rest]|] eqn:T; [|reflexivity]. exfalso.
      apply (St r (mkConfig (fun r' => if r' =? r then k m else procs c r') (fun s' d' => if (s' =? s) && (d' =? r) then rest else chan c s' d'))).
      split; [exact Hr|]. rewrite E. exists m, rest. split; [exact T|]. split; reflexivity.
    + intros D. apply (St r (mkConfig (fun r' => if r' =? r then k else procs c r') (chan c))).
      split; [exact Hr|]. rewrite E. split; [exact D|]. split; reflexivity.
Qed.

(** One process raises before the barrier at the end of solve(): nobody returns. (No process hands out values of a run that
    failed elsewhere.) *)
Theorem C66_one_raises_nobody_returns :
  forall (A : App) (wf : nat -> Vec A -> Prop) (o : Opts A) (P : nat) q, good_setup wf o P ->
  (forall r, r < P -> may_raise (q r) (until_barrier o P r)) ->
  forall n c, steps P n (initial (fun r => bind (q r) (from_barrier o P r))) c ->
  forall r e, r < P -> procs c r = Raise e ->
  forall r' x, r' < P -> procs c r' <> Ret x.
Proof.
  intros A wf o P q G Hq n c Hn r e Hr He r' x Hr'.
  pose proof (gs_laws _ _ _ G) as HLaw. pose proof (gs_apart _ _ _ G) as HA. pose proof (gs_procs _ _ _ G) as HP0.
  assert (HV := HV' wf o P G). assert (HP := HP' wf o P G). assert (Hgcc := Hgcc' wf o P G).
  pose proof (fun l r Hl Hr => proj1 (f_order_block wf o P G l r Hl Hr)) as Hperm.
  pose proof (fun l r Hl Hr => proj2 (f_order_block wf o P G l r Hl Hr)) as Hresp.
  destruct (construct_sim o P wf HLaw HV HA HP0 HP Hgcc Hperm Hresp (gs_dist _ _ _ G) (gs_rand _ _ _ G)) as (s1 & F1 & R1 & J1).
  destruct (solve_loop_sim o P wf HLaw HV HA HP0 HP Hgcc Hperm Hresp (gs_dist _ _ _ G) (o_max_iter o) 0 s1 _ (gs_two _ _ _ G) R1 ltac:(lia) J1) as (s2 & F2 & _).
  assert (F : phase P (until_barrier o P) s2).
  { pose proof (phase_bind P _ (fun r s => solve_loop o P r _ _ (o_max_iter o) 0 s) s1 s2 F1 F2) as F3.
    refine (phase_eq P _ _ _ _ F3). intros p Hp. unfold until_barrier. rewrite (gs_accept _ _ _ G), (setup_infos_eq o P HV HA HP0 HP Hperm Hresp) by auto.
    replace (too_many_points o P) with (@None exn); [reflexivity|]. unfold too_many_points. destruct (o_dist o) as [k|] eqn:Ed; [|reflexivity].
    destruct (gs_dist _ _ _ G k Ed) as [E _]. rewrite E, andb_false_r. reflexivity. }
  apply (raise_blocks P (fun _ s => if o_has_output o && (o_output_lvl o =? 1)%Z then emit s else s) (until_barrier o P) r s2 q F HP0 Hr Hq) with (n := n) (e := e); auto.
  eexists. apply (phase_bind P _ _ s2); [exact F|]. unfold to_barrier. apply (phase_bind P _ _ (fun _ => tt)); [apply (barrier_phase P HP0)|]. apply phase_ret.
Qed.

(** An exception in the output function called after the barrier (mgrit.py 641-642) can kill one process while the others
    return: without "before the barrier" the statement is false. *)
Definition late_fault (o : Opts zapp) (P r : nat) : prog (Msg zapp) (St zapp) :=
  s <- until_barrier o P r ;; _ <- barrier P r ;; if r =? 1 then Raise (UserException 7) else Ret (if o_has_output o && (o_output_lvl o =? 1)%Z then emit s else s).
Theorem C66_late_exception_refuted : exists P (q : nat -> prog (Msg zapp) (St zapp)),
  good_setup (fun _ _ => True) (zopts3 0 2) P /\ (forall r, r < P -> may_raise (q r) (mgrit_main (zopts3 0 2) P r)) /\
  exists n c r e r' x, steps P n (initial q) c /\ r < P /\ r' < P /\ procs c r = Raise e /\ procs c r' = Ret x.
Proof.
  exists 3, (late_fault (zopts3 0 2) 3). split; [apply zopts3_good; auto; lia|]. split.
  { intros r Hr. eapply may_raise_peq; [|apply peq_sym, C66_two_parts]. unfold late_fault. apply may_raise_bind; [apply may_raise_refl|].
    intros s. unfold from_barrier. apply may_raise_bind; [apply may_raise_refl|]. intros []. destruct (r =? 1); [apply mr_raise|apply may_raise_refl]. }
  destruct (run_net_steps 3 200 1000 (late_fault (zopts3 0 2) 3)) as [n Hn].
  set (c := run_net 3 200 1000 (initial (late_fault (zopts3 0 2) 3))) in Hn.
  assert (E : match procs c 1, procs c 0 with Raise _, Ret _ => true | _, _ => false end = true) by (vm_compute; reflexivity).
  clearbody c. destruct (procs c 1) as [|e| | |] eqn:E1; try discriminate. destruct (procs c 0) as [x| | | |] eqn:E0; try discriminate.
  exists n, c, 1, e, 0, x. split; [exact Hn|]. split; [lia|]. split; [lia|]. auto.
Qed.

(** Three processes; user code raises on process 1 instead of its communication number 40. *)
Definition faulty (r : nat) : prog (Msg zapp) (St zapp) :=
  if r =? 1 then raise_at 40 (UserException 7) (until_barrier (zopts3 0 20) 3 r) else until_barrier (zopts3 0 20) 3 r.
Example C66_hypotheses_hold : good_setup (fun _ _ => True) (zopts3 0 20) 3 /\
  (forall r, r < 3 -> may_raise (faulty r) (until_barrier (zopts3 0 20) 3 r)) /\
  (forall r, r < 3 -> may_raise (bind (faulty r) (from_barrier (zopts3 0 20) 3 r)) (mgrit_main (zopts3 0 20) 3 r)).
Proof.
  assert (M : forall r, may_raise (faulty r) (until_barrier (zopts3 0 20) 3 r)).
  { intros r. unfold faulty. destruct (r =? 1); [apply raise_at_may|apply may_raise_refl]. }
  split; [apply zopts3_good; auto; lia|]. split; [auto|]. intros r Hr.
  eapply may_raise_peq; [|apply peq_sym, C66_two_parts]. apply may_raise_bind; [apply M|]. intros; apply may_raise_refl.
Qed.
Example C66_example_run :
  let c := run_net 3 200 1000 (initial (fun r => bind (faulty r) (from_barrier (zopts3 0 20) 3 r))) in
  map (fun r => match procs c r with Recv s _ _ => Some s | _ => None end) [0; 1; 2] = [Some 1; None; Some 0] /\
  match procs c 1 with Raise (UserException 7) => True | _ => False end.
Proof. vm_compute. split; [reflexivity|exact I]. Qed.

Print Assumptions C66_two_parts.
Print Assumptions C66_exceptions_are_safe.
Print Assumptions C66_one_raises_nobody_returns.
Print Assumptions C66_late_exception_refuted.
Print Assumptions C66_hypotheses_hold.
