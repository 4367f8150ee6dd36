(** C35: the local convergence criteria (conv_crit 2 and 3) finish in rank order. No hypotheses about grids, options or the
    user's operations; partial and failing executions are included. *)
From Coq Require Import List ZArith Lia Arith Bool.
From Verif Require Import Net NetProofs NetExec PyList Setup Mgrit ExampleApp FlagProofs PropRefuted.
Import ListNotations.

Lemma local_gcc {A : App} (o : Opts A) : (o_conv_crit o = 2 \/ o_conv_crit o = 3)%Z -> gcc o = false.
Proof. unfold gcc. intros [-> | ->]; reflexivity. Qed.

(** The message (true, _) a process sends to its right neighbour in convergence_criterion (mgrit.py 453) of iteration i has
    tag 350000 + i - 1. Whenever it is sent, every process of smaller rank has sent such a message before, in the same or
    an earlier iteration. [logged P c l c']: some schedule leads from c to c' and sends the messages l in this order. *)
Theorem C35_finished_flags_in_rank_order :
  forall (A : App) (o : Opts A) (P : nat), (o_conv_crit o = 2 \/ o_conv_crit o = 3)%Z ->
  forall l c, logged P (initial (mgrit_main o P)) l c ->
  forall before after r d tag f, l = before ++ (r, d, tag, MBoolF true f) :: after ->
  t_lvl tag = 0 /\ t_op tag = 6 /\
  forall q, q < r -> exists tag' f', In (q, S q, tag', MBoolF true f') before /\
    t_lvl tag' = 0 /\ t_op tag' = 6 /\ (350000 <= t_num tag' <= t_num tag)%Z.
Proof.
  intros A o P Hc l c H before after r d tag f El.
  pose proof (flags_invariant P (mgrit_main o P) _ (fun r => main_flags o P r (local_gcc o Hc)) l c H) as (_ & O & Lb).
  assert (Hin : In (r, d, tag, MBoolF true f) l) by (rewrite El; apply in_elt).
  destruct (Lb _ _ _ _ _ Hin) as (L1 & L2 & _). split; [exact L1|]. split; [exact L2|]. clear L1 L2 Hin.
  revert before after d tag f El. induction r as [|r IH]; intros before after d tag f El q Hq; [lia|].
  destruct (O before after (S r) d tag f El ltac:(lia)) as (n & Hn & (q0 & t & f0 & E & <- & Hin)). injection E as ->.
  assert (Hin' : In (r, S r, t, MBoolF true f0) l) by (rewrite El; apply in_or_app; auto).
  destruct (Lb _ _ _ _ _ Hin') as (L1 & L2 & L3).
  destruct (Nat.eq_dec q r) as [->|Ne]; [exists t, f0; repeat split; auto|].
  apply in_split in Hin as (b1 & b2 & Eb). rewrite Eb in El. rewrite <- app_assoc in El. cbn [app] in El.
  destruct (IH b1 _ _ t f0 El q ltac:(lia)) as (t' & f' & I1 & I2 & I3 & I4). exists t', f'. repeat split; auto; try lia.
  rewrite Eb. apply in_or_app; auto.
Qed.

(** A process that has returned with finished[0] set, finished[1] being iteration i, did so after every process of smaller
    rank sent its flag in an iteration j <= i; and a process only stops before max_iter iterations if it is finished. *)
Theorem C35_stop_in_rank_order :
  forall (A : App) (o : Opts A) (P : nat), (o_conv_crit o = 2 \/ o_conv_crit o = 3)%Z ->
  forall l c, logged P (initial (mgrit_main o P)) l c ->
  forall r s, procs c r = Ret s ->
  (s_iter s < o_max_iter o -> s_fin s = true /\ s_fin_it s = Some (s_iter s)) /\
  (s_fin s = true -> exists i, s_fin_it s = Some i /\
     forall q, q < r -> exists j f, 1 <= j <= i /\ In (q, S q, Tag (350000 + Z.of_nat j - 1) 0 6, MBoolF true f) l).
Proof.
  intros A o P Hc l c H r s Er.
  pose proof (flags_invariant P (mgrit_main o P) _ (fun r => main_flags o P r (local_gcc o Hc)) l c H) as (I1 & O & Lb).
  destruct (I1 r) as (got & F & G). rewrite Er in F. destruct F as [F1 F2]. split; [exact F2|].
  intros Hf. destruct (F1 Hf) as (i & Ei & Hr). exists i. split; [exact Ei|]. intros q Hq.
  destruct Hr as [->|(n & N1 & N2)]; [lia|].
  destruct (told_all P (mgrit_main o P) _ (fun r => main_flags o P r (local_gcc o Hc)) l c H r n (G n N1) q Hq) as (n' & Hn' & T).
  destruct T as (q0 & t & f & E & <- & Hin). injection E as ->. destruct (Lb _ _ _ _ _ Hin) as (L1 & L2 & L3).
  exists (Z.to_nat (t_num t - 350000) + 1), f. split; [lia|]. destruct t as [n0 l0 p0]. cbn [t_num t_lvl t_op] in *. subst l0 p0.
  replace (350000 + Z.of_nat (Z.to_nat (n0 - 350000) + 1) - 1)%Z with n0 by lia. exact Hin.
Qed.

(** Nine and five points, conv_crit 2, cf_iter 1, three processes: the processes stop after 1, 1 and 2 of at most 10
    iterations, all with finished[0] set. *)
Definition local_run : config (Msg zapp) (St zapp) := run_net 3 50 1000 (initial (mgrit_main (zopts_local 2 1) 3)).
Example C35_hypotheses_hold : exists l c, logged 3 (initial (mgrit_main (zopts_local 2 1) 3)) l c /\ ceq c local_run.
Proof. destruct (run_net_steps 3 50 1000 (mgrit_main (zopts_local 2 1) 3)) as (n & Hn). exact (steps_logged 3 n _ _ Hn). Qed.
Example C35_example_run :
  map (fun r => match procs local_run r with Ret s => Some (s_iter s, s_fin s, s_fin_it s) | _ => None end) (seq 0 3) =
  [Some (1, true, Some 1); Some (1, true, Some 1); Some (2, true, Some 2)].
Proof. vm_compute. reflexivity. Qed.
(** [flags] rejects a program that sends the flag without having received one. *)
Example C35_flags_rejects : ~ flags (A:=zapp) (B:=nat) 1 [] (Send 2 (Tag 350000 0 6) (MBoolF true true) (Ret 0)) (fun _ _ => True).
Proof. simpl. intros [[_ H] _]. destruct (H eq_refl) as [H1|(j & [] & _)]. discriminate. Qed.

Print Assumptions C35_finished_flags_in_rank_order.
Print Assumptions C35_stop_in_rank_order.
