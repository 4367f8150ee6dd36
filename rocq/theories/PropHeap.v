(** C47: objects instead of values. The list entries u, v, g of the solver are references to Vector objects; two entries can
    refer to the same object, and unpack changes an object. The results are those of the model with values, under conditions on
    the user's functions that are also necessary. *)
From Coq Require Import List ZArith Lia Arith Bool Permutation.
From Verif Require Import Net NetProofs NetExec NetSim PyList ListFacts Setup SplitProofs Spec SetupProofs Mgrit Reference Main ParallelProofs Heap HeapProofs ExampleApp OrderProofs PropParallel PropLocalRun PropAtMgrit.
Import ListNotations.

(** Conditions on the user's functions: a step returns an object it created; a restriction or interpolation that returns its
    argument has not changed it (the default GridTransferCopy clones; a transfer that returns its argument is allowed as well). An
    interpolation may even write its result into its argument as long as nested_iteration is off: then it only gets temporary
    objects. *)
Record well_behaved {A : App} (al : Alias) (o : Opts A) : Prop := {
  wb_step : forall l, al_step al l = false;
  wb_restr : forall l, al_restr al l = true -> forall x, restr A l x = x;
  wb_interp : forall l, al_interp al l = true -> o_nested o = false \/ forall x, interp A l x = x
}.

(** The attributes of a solver object hold the same values: u, v, g on every level, the convergence information, the number of
    iterations and everything output_fcn has been shown. *)
Definition same_result {A : App} (h : HSt A) (s : St A) : Prop :=
  (forall l, values h (u_ h l) = s_u s l) /\ (forall l, values h (v_ h l) = s_v s l) /\ (forall l, values h (g_ h l) = s_g s l) /\
  values h (last_ h) = s_last s /\ s_conv (h_st h) = s_conv s /\ s_iter (h_st h) = s_iter s /\ h_out h = s_out s.
(** Both processes have returned with the same result, or both have raised the same exception, or both are still running. *)
Definition same_outcome {A : App} (p : prog (Msg A) (HSt A)) (q : prog (Msg A) (St A)) : Prop :=
  match p, q with
  | Ret h, Ret s => same_result h s
  | Raise e, Raise e' => e = e'
  | Ret _, _ | _, Ret _ | Raise _, _ | _, Raise _ => False
  | _, _ => True
  end.

Section C47.
  Context {A : App}.
  Variable al : Alias.
  Variable o : Opts A.
  Variable P : nat.
  Hypothesis WB : well_behaved al o.
  Hypothesis HV : valid_hierarchy (o_grids o).
  Hypothesis HF : f_order_ok (o_grids o) (o_set_order o) P.
  Notation grids := (o_grids o).
  Notation so := (o_set_order o).

  Lemma infos_closed r infos : r < P -> check o P = None -> setup_infos o P r = Some infos ->
    length infos = length grids /\ forall l, l < length grids -> inf infos l = closed_info grids so P l r.
  Proof.
    intros Hr Hc E. assert (HP0 : 0 < P) by lia. assert (HP : P <= N grids 0) by exact (check_procs o P Hc).
    unfold setup_infos, nlev in E. pose proof (sequence_some_len _ _ E) as EL. rewrite map_length, seq_length in EL. split; [exact EL|]. intros l Hl.
    pose proof (sequence_some_nth _ _ E l) as En. rewrite (map_nth_error _ l (seq 0 (length grids)) (d := l)) in En by (rewrite nth_error_seq; auto).
    unfold inf. destruct (nth_error infos l) as [I|] eqn:EI.
    2:{ apply nth_error_None in EI. lia. }
    rewrite (nth_error_nth infos l dummy_info EI). 
    assert (En' : setup_info o P r l = Some I) by (destruct En as (x & E1 & E2); [rewrite map_length, seq_length; exact Hl|congruence]). clear En.
    unfold setup_info in En'. rewrite (setup_level_eq grids so P HV HP0 HP l r Hl Hr) in En' by (apply (order_block o P HV HP0 HP HF l r Hl Hr)).
    destruct (negb (l =? nlev o - 1) && (length (all_cpts grids l) <? 2)); [discriminate|].
    destruct ((r =? 0) && negb (nonempty (i_pts (closed_info grids so P l r)))); [discriminate|]. congruence.
  Qed.
  Lemma loc_pos l r i : l < length grids -> r < P -> P <= N grids 0 -> r <> 0 -> In i (pts grids P l r) -> 1 <= loc grids P l r i.
  Proof.
    intros Hl Hr HP R0 Hi. assert (HP0 : 0 < P) by lia. unfold loc.
    assert (C : 0 < cnt grids P l r). { unfold pts in Hi. apply in_seq in Hi. lia. }
    assert (O : off grids P l r = 1).
    { unfold off. replace (r =? 0) with false by (symmetry; apply Nat.eqb_neq; auto). replace (cnt grids P l r =? 0) with false by (symmetry; apply Nat.eqb_neq; lia). reflexivity. }
    pose proof (lo_pos grids P HV HP0 HP l r Hl ltac:(lia) Hr C). unfold pts in Hi. apply in_seq in Hi. lia.
  Qed.
  Lemma program_sim r : r < P -> psim (fun h s => HR r h s) (heap_main al o P r) (mgrit_main o P r).
  Proof.
    intros Hr. unfold heap_main, mgrit_main. destruct (check o P) as [e|] eqn:Hc; [constructor|].
    destruct (setup_infos o P r) as [infos|] eqn:E; [|constructor]. destruct (too_many_points o P); [constructor|].
    destruct (infos_closed r infos Hr Hc E) as [EL EI]. assert (HP0 : 0 < P) by lia. assert (HP : P <= N grids 0) by exact (check_procs o P Hc).
    assert (Hdummy : forall l, length grids <= l -> inf infos l = dummy_info) by (intros l Hl; unfold inf; apply nth_overflow; lia).
    apply rank_sim; try apply WB; [| |exact Hr|exact EL].
    - intros -> l. destruct (Nat.lt_ge_cases l (length grids)) as [Hl|Hl]; [|rewrite Hdummy by auto; auto]. rewrite EI by auto.
      unfold closed_info. cbn [i_first_is_f i_first_is_c i_comm_front i_get_from]. rewrite (lo_0 grids P HV HP0 HP l Hl). cbn. rewrite !andb_false_r. auto.
    - intros R0 l i Hi. destruct (Nat.lt_ge_cases l (length grids)) as [Hl|Hl]; [|rewrite Hdummy in Hi by auto; simpl in Hi; tauto]. rewrite EI in Hi by auto.
      unfold closed_info in Hi. cbn [i_loc i_loc_c i_loc_f] in Hi.
      assert (X : exists x, loc grids P l r x = i /\ In x (pts grids P l r)).
      { destruct Hi as [Hi|[Hi|Hi]]; apply in_map_iff in Hi; destruct Hi as (x & Ex & Hx); exists x; split; auto.
        - unfold cps in Hx. apply filter_In in Hx. tauto.
        - apply (fps2_in grids so P HV HP0 HP l r x Hl Hr (proj1 (order_block o P HV HP0 HP HF l r Hl Hr))) in Hx.
          apply (pts_in grids P HV HP0 HP); tauto. }
      destruct X as (x & <- & Hx). apply loc_pos; auto.
  Qed.
  Lemma HR_same r (h : HSt A) s : HR r h s -> same_result h s.
  Proof. intros []. unfold same_result, values, u_, v_, g_, last_. repeat split; auto; intros; apply refers_values; auto. Qed.
  Lemma outcome_of (r : nat) (p : prog (Msg A) (HSt A)) q : psim (fun h s => HR r h s) p q -> same_outcome p q.
  Proof. intros H. destruct H; simpl; auto. eapply HR_same; eauto. Qed.
End C47.

(** Every execution with objects is an execution with values and conversely: same messages at every moment, same results, same
    exceptions, and one is at its end if and only if the other is. *)
Theorem C47_objects_like_values :
  forall (A : App) (al : Alias) (o : Opts A) (P : nat),
  well_behaved al o -> valid_hierarchy (o_grids o) -> f_order_ok (o_grids o) (o_set_order o) P ->
  (forall n c, steps P n (initial (heap_main al o P)) c ->
     exists d, steps P n (initial (mgrit_main o P)) d /\ (forall s t, chan c s t = chan d s t) /\ (stuck P c <-> stuck P d) /\
               (forall r, r < P -> same_outcome (procs c r) (procs d r))) /\
  (forall n d, steps P n (initial (mgrit_main o P)) d ->
     exists c, steps P n (initial (heap_main al o P)) c /\ (forall s t, chan c s t = chan d s t) /\ (stuck P c <-> stuck P d) /\
               (forall r, r < P -> same_outcome (procs c r) (procs d r))).
Proof.
  intros A al o P WB HV HF.
  (* the ranks have different invariants; relate the programs of all ranks by one relation *)
  pose (R := fun (h : HSt A) (s : St A) => exists r, HR r h s).
  assert (S : csim R P (initial (heap_main al o P)) (initial (mgrit_main o P))).
  { apply csim_initial. intros r Hr. eapply psim_imp; [apply program_sim; eauto|]. intros h s X. exists r. exact X. }
  assert (Ho : forall c d, csim R P c d -> forall r, r < P -> same_outcome (procs c r) (procs d r)).
  { intros c d [X _] r Hr. specialize (X r Hr). destruct X as [h s (r' & Y)| | | |]; simpl; auto. eapply HR_same; eauto. }
  split; intros n c Hc.
  - destruct (csim_steps R P n _ _ _ S Hc) as (d & Hd' & Sd). exists d. split; [exact Hd'|]. split; [apply Sd|]. split; [eapply csim_stuck; eauto|auto].
  - destruct (csim_steps_back R P n _ _ _ S Hc) as (d & Hd' & Sd). exists d. split; [exact Hd'|]. split; [apply Sd|]. split; [eapply csim_stuck; eauto|auto].
Qed.

(** The values the objects hold at the end of a parallel run are those of the reference algorithm. *)
Theorem C47_objects_reference :
  forall (A : App) (wf : nat -> Vec A -> Prop) (al : Alias) (o : Opts A) (P n : nat) c,
  well_behaved al o -> good_setup wf o P -> o_rand o = None ->
  steps P n (initial (heap_main al o P)) c -> stuck P c ->
  exists res, finished P res c /\
    gathered P (fun r => values (res r) (u_ (res r) 0)) = map (gu (g_main o zero_guess) 0) (seq 0 (length (nth 0 (o_grids o) []))) /\
    (forall r, r < P -> s_conv (h_st (res r)) = gconv (g_main o zero_guess) /\ s_iter (h_st (res r)) = giter (g_main o zero_guess)).
Proof.
  intros A wf al o P n c WB G Hr Hs St.
  pose (R := fun (h : HSt A) (s : Mgrit.St A) => exists r, HR r h s).
  assert (S : csim R P (initial (heap_main al o P)) (initial (mgrit_main o P))).
  { apply csim_initial. intros r Hr'. eapply psim_imp; [apply program_sim; eauto; apply G|]. intros h s X. exists r. exact X. }
  destruct (csim_steps R P n _ _ _ S Hs) as (d & Hd' & Sd). apply (csim_stuck R P c d Sd) in St.
  destruct (C01_parallel_equals_reference A wf o P n d G Hr Hd' St) as (res & F & E1 & E2).
  destruct (csim_finished R P c d res (gs_procs _ _ _ G) Sd F) as (res' & F' & HR'). exists res'. split; [exact F'|].
  assert (X : forall r, r < P -> same_result (res' r) (res r)).
  { intros r Hr'. destruct (HR' r Hr') as (r' & Y). eapply HR_same; eauto. }
  split.
  - rewrite <- E1. unfold gathered. f_equal. apply map_ext_in. intros r Hr'. apply in_seq in Hr'. destruct (X r ltac:(lia)) as (-> & _). reflexivity.
  - intros r Hr'. destruct (E2 r Hr') as [<- <-]. destruct (X r Hr') as (_ & _ & _ & _ & -> & -> & _). auto.
Qed.

(** Transfers that return their argument (identity on every level) are well-behaved for the three-level F-cycle example. Objects
    are shared then: after nested iteration (max_iter 0) entries of two levels refer to the same object. *)
Definition same_object : Alias := mkAlias (fun _ => false) (fun _ => true) (fun _ => true).
Example C47_hypotheses_hold : forall max_iter P, 0 < P -> P <= 17 ->
  well_behaved same_object (zopts3 0 max_iter) /\ good_setup (fun _ _ => True) (zopts3 0 max_iter) P /\
  o_rand (zopts3 0 max_iter) = None.
Proof.
  intros m P H H'. split; [|split; [apply zopts3_good; auto|reflexivity]]. constructor; intros; [reflexivity|reflexivity|right; reflexivity].
Qed.
(** Class AtMgrit on one process, every distance *)
Example C47_at_hypotheses_hold : forall d max_iter, (1 <= d)%Z ->
  well_behaved same_object (zopts_at d max_iter) /\ good_setup (fun _ _ => True) (zopts_at d max_iter) 1 /\ o_rand (zopts_at d max_iter) = None.
Proof.
  intros d m Hd. split; [|split; [apply zopts_at_good; exact Hd|reflexivity]]. constructor; intros; [reflexivity|reflexivity|right; reflexivity].
Qed.
Example C47_run_shares_objects :
  exists n c h, steps 3 n (initial (heap_main same_object (zopts3 0 0) 3)) c /\ stuck 3 c /\ procs c 1 = Ret h /\
    exists a, In a (u_ h 0) /\ In a (u_ h 1).
Proof.
  destruct (run_net_steps 3 60 3000 (heap_main same_object (zopts3 0 0) 3)) as (n & Hn).
  set (c := run_net 3 60 3000 (initial (heap_main same_object (zopts3 0 0) 3))) in *.
  assert (E : match procs c 1 with Ret h => existsb (fun a => memn a (u_ h 1)) (u_ h 0) | _ => false end = true) by (vm_compute; reflexivity).
  assert (St : stuck 3 c) by (apply stuckb_ok; vm_compute; reflexivity). clearbody c.
  destruct (procs c 1) as [h| | | |] eqn:Ep; try discriminate.
  exists n, c, h. split; [exact Hn|]. split; [exact St|]. split; [exact Ep|].
  apply existsb_exists in E. destruct E as (a & Ha & Hb). exists a. split; [exact Ha|]. apply memn_in. exact Hb.
Qed.

(** The conditions are necessary. [zapp2] is [zapp] with transfers that double or halve the value. *)
Definition zapp2 : App := mkApp Z Z Z Z.add Z.sub Z.mul Z.abs (fun x => x) (fun _ => 0%Z) (fun x => x) (fun _ d => d)
  (fun l x a b => (2 * x + b - a + Z.of_nat l)%Z) (fun _ x => (2 * x)%Z) (fun _ x => (x / 2)%Z) (fun _ => 0%Z) (fun _ => 1%Z)
  (fun l => Some (fold_left Z.max l 0%Z)) Z.ltb 0%Z (Z.eqb 0) (fun x => (1 - x)%Z).
Definition zopts2 (max_iter : nat) : Opts zapp2 :=
  mkOpts zapp2 [grid_of 9 1; grid_of 5 2] 1 (1%Z : Sc zapp2) max_iter (1%Z : Sc zapp2) true (CfInt 1) (Some false) 1 true 2 None 0 ascending_order.
Lemma zopts2_good max_iter P : 0 < P -> P <= 9 -> good_setup (fun _ _ => True) (zopts2 max_iter) P.
Proof.
  intros HP HP'. constructor.
  - constructor; simpl; auto; intros; discriminate.
  - apply valid_hierarchyb_ok. reflexivity.
  - apply no_adjacentb_ok. reflexivity.
  - simpl. lia.
  - exact HP.
  - unfold check. simpl. replace (9 <? P) with false by (symmetry; apply Nat.ltb_ge; lia). reflexivity.
  - left. reflexivity.
  - apply ascending_order_ok.
  - discriminate.
  - discriminate.
Qed.

(** A user function that works in place: [which] is 0 for the step of the finest level, 1 for the step of the coarse level, 2 for
    the restriction, 3 for the interpolation. Everything else creates objects. *)
Definition in_place (which : nat) : Alias :=
  mkAlias (fun l => l =? which) (fun _ => which =? 2) (fun _ => which =? 3).

Lemma in_place_run which : which <= 2 ->
  exists n c, steps 1 n (initial (heap_main (in_place which) (zopts2 2) 1)) c /\ stuck 1 c /\
    match procs c 0 with
    | Ret h => values h (u_ h 0) = nth which [[4095; 4095; 6143; 6143; 11263; 11263; 22015; 22015; 8191];
                                              [1; 3; 7; 15; 31; 63; 111; 223; 543]; [4; 9; 11; 23; 25; 51; 53; 107; 109]]%Z []
    | _ => False
    end.
Proof.
  intros Hw. destruct (run_net_steps 1 60 3000 (heap_main (in_place which) (zopts2 2) 1)) as (n & Hn).
  exists n, (run_net 1 60 3000 (initial (heap_main (in_place which) (zopts2 2) 1))). split; [exact Hn|].
  destruct which as [|[|[|]]]; [..|lia]; (split; [apply stuckb_ok; vm_compute; reflexivity|vm_compute; reflexivity]).
Qed.
Lemma in_place_wrong which : which <= 2 ->
  ~ (forall n c, steps 1 n (initial (heap_main (in_place which) (zopts2 2) 1)) c -> stuck 1 c ->
     exists res, finished 1 res c /\
       gathered 1 (fun r => values (res r) (u_ (res r) 0)) = map (gu (g_main (zopts2 2) zero_guess) 0) (seq 0 (length (nth 0 (o_grids (zopts2 2)) [])))).
Proof.
  intros Hw H. destruct (in_place_run which Hw) as (n & c & H1 & H2 & H3). destruct (H n c H1 H2) as (res & [F _] & E).
  rewrite (F 0 ltac:(lia)) in H3. unfold gathered in E. cbn [seq map Nat.eqb concat] in E. rewrite app_nil_r, H3 in E.
  destruct which as [|[|[|]]]; [vm_compute in E; discriminate..|lia].
Qed.

(** Without the condition on steps the values at the end are not those of the reference algorithm. *)
Theorem C47_in_place_step_refuted :
  ~ (forall (A : App) (wf : nat -> Vec A -> Prop) (al : Alias) (o : Opts A) (P n : nat) c,
     (forall l, al_restr al l = false /\ al_interp al l = false) -> good_setup wf o P -> o_dist o = None -> o_rand o = None ->
     steps P n (initial (heap_main al o P)) c -> stuck P c ->
     exists res, finished P res c /\
       gathered P (fun r => values (res r) (u_ (res r) 0)) = map (gu (g_main o zero_guess) 0) (seq 0 (length (nth 0 (o_grids o) [])))).
Proof.
  intros H. apply (in_place_wrong 0 ltac:(lia)). intros n c. apply (H zapp2 (fun _ _ => True) (in_place 0) (zopts2 2) 1 n c); auto.
  apply zopts2_good; lia.
Qed.
(** The same with a step that works in place on the coarse level only. *)
Theorem C47_in_place_coarse_step_refuted :
  ~ (forall (A : App) (wf : nat -> Vec A -> Prop) (al : Alias) (o : Opts A) (P n : nat) c,
     (forall l, al_restr al l = false /\ al_interp al l = false) -> al_step al 0 = false -> good_setup wf o P -> o_dist o = None -> o_rand o = None ->
     steps P n (initial (heap_main al o P)) c -> stuck P c ->
     exists res, finished P res c /\
       gathered P (fun r => values (res r) (u_ (res r) 0)) = map (gu (g_main o zero_guess) 0) (seq 0 (length (nth 0 (o_grids o) [])))).
Proof.
  intros H. apply (in_place_wrong 1 ltac:(lia)). intros n c. apply (H zapp2 (fun _ _ => True) (in_place 1) (zopts2 2) 1 n c); auto.
  apply zopts2_good; lia.
Qed.
(** AtMgrit with a step that works in place on the coarsest level: the step for one point overwrites the clone the next points
    start with (at_mgrit.py 81-85). *)
Theorem C47_at_in_place_step_refuted :
  ~ (forall (A : App) (wf : nat -> Vec A -> Prop) (al : Alias) (o : Opts A) (P n : nat) c,
     (forall l, al_restr al l = false /\ al_interp al l = false) -> (forall l, S l < length (o_grids o) -> al_step al l = false) ->
     good_setup wf o P -> o_dist o <> None -> o_rand o = None ->
     steps P n (initial (heap_main al o P)) c -> stuck P c ->
     exists res, finished P res c /\
       gathered P (fun r => values (res r) (u_ (res r) 0)) = map (gu (g_main o zero_guess) 0) (seq 0 (length (nth 0 (o_grids o) [])))).
Proof.
  intros H. pose (al := mkAlias (fun l => l =? 2) (fun _ => false) (fun _ => false)).
  destruct (run_net_steps 1 60 3000 (heap_main al (zopts_at 3 1) 1)) as (n & Hn).
  set (c := run_net 1 60 3000 (initial (heap_main al (zopts_at 3 1) 1))) in *.
  assert (X : match procs c 0 with
              | Ret h => existsb (fun p => negb (fst p =? snd p)%Z) (combine (values h (u_ h 0)) (map (gu (g_main (zopts_at 3 1) zero_guess) 0) (seq 0 17)))
              | _ => false end = true) by (vm_compute; reflexivity).
  assert (St : stuck 1 c) by (apply stuckb_ok; vm_compute; reflexivity). clearbody c.
  destruct (H zapp (fun _ _ => True) al (zopts_at 3 1) 1 n c) as (res & [F _] & E); auto.
  - intros l Hl. simpl in Hl. apply Nat.eqb_neq. lia.
  - apply zopts_at_good. lia.
  - discriminate.
  - rewrite (F 0 ltac:(lia)) in X. unfold gathered in E. cbn [seq map Nat.eqb concat] in E. rewrite app_nil_r in E. rewrite E in X. vm_compute in X. discriminate.
Qed.
(** Without the condition on restrictions. *)
Theorem C47_in_place_restriction_refuted :
  ~ (forall (A : App) (wf : nat -> Vec A -> Prop) (al : Alias) (o : Opts A) (P n : nat) c,
     (forall l, al_interp al l = false) -> good_setup wf o P -> (forall l, S l < length (o_grids o) -> al_step al l = false /\ al_step al (S l) = false) ->
     o_dist o = None -> o_rand o = None ->
     steps P n (initial (heap_main al o P)) c -> stuck P c ->
     exists res, finished P res c /\
       gathered P (fun r => values (res r) (u_ (res r) 0)) = map (gu (g_main o zero_guess) 0) (seq 0 (length (nth 0 (o_grids o) [])))).
Proof.
  intros H. apply (in_place_wrong 2 ltac:(lia)). intros n c. apply (H zapp2 (fun _ _ => True) (in_place 2) (zopts2 2) 1 n c); auto.
  - apply zopts2_good; lia.
  - intros l Hl. simpl in Hl. assert (l = 0) by lia. subst l. auto.
Qed.
(** Without the condition on interpolations the values of the coarse level differ (seen with max_iter 0, after nested iteration). *)
Theorem C47_in_place_interpolation_refuted :
  ~ (forall (A : App) (wf : nat -> Vec A -> Prop) (al : Alias) (o : Opts A) (P n : nat) c,
     (forall l, S l < length (o_grids o) -> al_restr al l = false /\ al_step al l = false /\ al_step al (S l) = false) -> good_setup wf o P ->
     o_dist o = None -> o_rand o = None ->
     steps P n (initial (heap_main al o P)) c -> stuck P c ->
     exists d, steps P n (initial (mgrit_main o P)) d /\ forall r, r < P -> same_outcome (procs c r) (procs d r)).
Proof.
  intros H.
  assert (W : exists n c, steps 1 n (initial (heap_main (in_place 3) (zopts2 0) 1)) c /\ stuck 1 c /\
    match procs c 0 with Ret h => values h (u_ h 1) = [1; 2; 6; 14; 30]%Z | _ => False end).
  { destruct (run_net_steps 1 60 3000 (heap_main (in_place 3) (zopts2 0) 1)) as (n & Hn).
    exists n, (run_net 1 60 3000 (initial (heap_main (in_place 3) (zopts2 0) 1))). split; [exact Hn|].
    split; [apply stuckb_ok; vm_compute; reflexivity|vm_compute; reflexivity]. }
  assert (W' : exists n c, steps 1 n (initial (mgrit_main (zopts2 0) 1)) c /\ stuck 1 c /\
    match procs c 0 with Ret s => s_u s 1 = [1; 5; 13; 29; 61]%Z | _ => False end).
  { destruct (run_net_steps 1 60 3000 (mgrit_main (zopts2 0) 1)) as (n & Hn).
    exists n, (run_net 1 60 3000 (initial (mgrit_main (zopts2 0) 1))). split; [exact Hn|].
    split; [apply stuckb_ok; vm_compute; reflexivity|vm_compute; reflexivity]. }
  pose proof (zopts2_good 0 1 ltac:(lia) ltac:(lia)) as G.
  destruct W as (n & c & H1 & H2 & H3). destruct W' as (n' & c' & H1' & H2' & H3').
  destruct (H zapp2 (fun _ _ => True) (in_place 3) (zopts2 0) 1 n c) as (d & Hd & E); auto.
  { intros l Hl. simpl in Hl. assert (l = 0) by lia. subst l. auto. }
  specialize (E 0 ltac:(lia)). destruct (procs c 0) as [h| | | |]; try contradiction.
  destruct (procs d 0) as [s| | | |] eqn:Ed; try contradiction. destruct E as (E & _). specialize (E 1). rewrite H3 in E.
  destruct (maximal_run _ _ _ _ _ G H1' H2') as (res & F & _).
  assert (Sd : stuck 1 d). { intros p x [Hp Hs]. assert (p = 0) by lia. subst p. rewrite Ed in Hs. exact Hs. }
  destruct (finished_unique 1 n' _ _ res F H1' n d Hd) as (_ & _ & Z). destruct (Z Sd) as (_ & [Fd _]).
  rewrite (proj1 F 0 ltac:(lia)) in H3'. rewrite (Fd 0 ltac:(lia)) in Ed. injection Ed as Ed. rewrite Ed in H3'. rewrite H3' in E. discriminate.
Qed.

Print Assumptions C47_objects_like_values.
Print Assumptions C47_objects_reference.
Print Assumptions C47_in_place_step_refuted.
Print Assumptions C47_in_place_coarse_step_refuted.
Print Assumptions C47_at_in_place_step_refuted.
Print Assumptions C47_in_place_restriction_refuted.
Print Assumptions C47_in_place_interpolation_refuted.
