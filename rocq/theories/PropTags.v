(** C27: message tags and message order.
    Tags of different levels share the same integers and the ranges of the eight operation ids (50000 apart) are not
    separated either once more than 50000 messages of one kind were sent, so the tags alone do not identify a message.
    What makes the runs correct is that messages between two processes are always wanted in the order they are sent. *)
From Coq Require Import List ZArith Lia Arith Bool.
From Verif Require Import Net NetProofs NetFifo NetExec NetPhase PyList Setup Spec Mgrit Main ExampleApp OrderProofs TagProofs.
Import ListNotations.

(** In every reachable state of every execution: if a process waits for a message from [src] and something from [src]
    is in flight, then the oldest message in flight is the one it asks for: same integer tag, and (ghost labels) sent by
    the [send] call for the same operation id on the same level. Hence it is also the message MPI hands over. *)
Theorem C27_messages_wanted_in_order :
  forall (A : App) (wf : nat -> Vec A -> Prop) (o : Opts A) (P : nat), good_setup wf o P ->
  forall n c, steps P n (initial (mgrit_main o P)) c ->
  forall r src wanted k tag m rest, r < P -> procs c r = Recv src wanted k -> chan c src r = (tag, m) :: rest ->
    t_num tag = t_num wanted /\ t_lvl tag = t_lvl wanted /\ t_op tag = t_op wanted /\
    take wanted (chan c src r) = Some (m, rest).
Proof.
  intros A wf o P G n c H r src w k t m rest Hr Hp Hc.
  destruct (run_fifo wf o P G) as (n0 & c0 & res & H0 & F).
  pose proof (fifo_reachable P n0 _ _ (finished_stuck P res c0 F) H0 n c H) as X.
  pose proof (fifo_head P _ _ _ res F X r src w k t m rest Hr Hp Hc) as ->.
  repeat split; auto. rewrite Hc. simpl. rewrite Z.eqb_refl. reflexivity.
Qed.

(** The situation of the theorem occurs with several messages queued: after rank 1 of two has run alone for a while and
    rank 0 has run as far as it can, rank 1 waits for the first of two queued messages; both belong to different levels. *)
Example C27_hypotheses_hold : good_setup (fun _ _ => True) (zopts3 1 20) 4.
Proof. apply zopts3_good; auto; lia. Qed.
Definition tags_in_flight (P : nat) (c : config (Msg zapp) (St zapp)) : list (nat * nat * list (Z * nat * nat)) :=
  filter (fun x => negb (length (snd x) =? 0))
    (flat_map (fun s => map (fun d => (s, d, map (fun tm => (t_num (fst tm), t_lvl (fst tm), t_op (fst tm))) (chan c s d))) (seq 0 P)) (seq 0 P)).
(** Twelve messages from rank 1 to rank 2 are in flight, rank 2 waits for the first of them. *)
Definition midway : config (Msg zapp) (St zapp) :=
  fold_left (fun c p => run_rank 4 1000 p c) [3; 2; 1; 0; 3; 2; 1; 0] (initial (mgrit_main (zopts3 1 20) 4)).
Lemma midway_reachable : exists n, steps 4 n (initial (mgrit_main (zopts3 1 20) 4)) midway.
Proof.
  apply (fold_steps 4 1000 [3; 2; 1; 0; 3; 2; 1; 0]).
  - intros p Hp. simpl in Hp. lia.
  - intros s d _. reflexivity.
Qed.
Example C27_example_state :
  nth_error (tags_in_flight 4 midway) 0 =
    Some (1, 2, [(50000%Z, 1, 0); (50001%Z, 1, 0); (50002%Z, 1, 0); (50000%Z, 0, 0); (50001%Z, 0, 0); (250000%Z, 0, 4);
                 (50003%Z, 1, 0); (50004%Z, 1, 0); (50005%Z, 1, 0); (50006%Z, 1, 0); (50007%Z, 1, 0); (50002%Z, 0, 0)]) /\
  match procs midway 2 with Recv s t _ => s = 1 /\ t = Tag 50000 1 0 | _ => False end.
Proof. vm_compute. repeat split. Qed.

(** The tags alone do not identify messages: in that same run two messages with the same sender, receiver and integer
    tag are in flight at once although they belong to different levels. Only their order tells them apart. *)
Theorem C27_tags_alone_identify_messages_refuted :
  ~ (forall (A : App) (wf : nat -> Vec A -> Prop) (o : Opts A) (P : nat), good_setup wf o P ->
     forall n c, steps P n (initial (mgrit_main o P)) c ->
     forall s d i j x y, nth_error (chan c s d) i = Some x -> nth_error (chan c s d) j = Some y ->
       t_num (fst x) = t_num (fst y) -> t_lvl (fst x) = t_lvl (fst y) /\ t_op (fst x) = t_op (fst y)).
Proof.
  intros H. destruct midway_reachable as (n & Hn).
  specialize (H zapp (fun _ _ => True) (zopts3 1 20) 4 C27_hypotheses_hold n midway Hn 1 2 0 3).
  assert (E : map (fun tm => fst tm) (firstn 4 (chan midway 1 2)) = [Tag 50000 1 0; Tag 50001 1 0; Tag 50002 1 0; Tag 50000 0 0])
    by (vm_compute; reflexivity).
  destruct (chan midway 1 2) as [|a [|b [|c [|d l]]]]; try discriminate E. simpl in E. injection E as E1 E2 E3 E4.
  specialize (H a d eq_refl eq_refl). rewrite E1, E4 in H. simpl in H. destruct (H eq_refl). discriminate.
Qed.

(** Tags of one operation on one level never repeat: whatever the options and whatever a process receives, the j-th message
    it sends for (level, operation) has tag 50000 * (operation + 1) + j, and the j-th receive for (level, operation) asks
    for that tag ([numbered], TagProofs.v, walks through every path of the program). No hypotheses. *)
Theorem C27_tags_consecutive :
  forall (A : App) (o : Opts A) (P r : nat),
  numbered (fun _ op => 50000 * (Z.of_nat op + 1))%Z (fun _ op => 50000 * (Z.of_nat op + 1))%Z (mgrit_main o P r) (fun _ _ _ => True).
Proof. intros A o P r. exact (main_numbered o P r). Qed.
(** The queue of [C27_example_state] shows it: level 1, operation 0 has tags 50000 ... 50007 in order. A program that sends
    twice with the same tag is rejected by [numbered]. *)
Example C27_numbered_rejects : ~ numbered (Msg:=nat) (B:=nat) (fun _ _ => 5%Z) (fun _ _ => 5%Z)
  (Send 1 (Tag 5 0 2) 7 (Send 1 (Tag 5 0 2) 8 (Ret 0))) (fun _ _ _ => True).
Proof. simpl. intros [_ [H _]]. discriminate. Qed.

Print Assumptions C27_tags_consecutive.
Print Assumptions C27_messages_wanted_in_order.
Print Assumptions C27_tags_alone_identify_messages_refuted.
