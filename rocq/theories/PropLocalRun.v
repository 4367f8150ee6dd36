(** C36: with a local convergence criterion every execution ends with all messages received, provided every level relaxes,
    the norm keeps values below the tolerance below it, and for conv_crit 3 no process boundary lies between an F-point and
    a C-point. Each of the three conditions is needed: C36_local_criteria_terminate_refuted (PropRefuted.v) violates the
    first and the third, C36_norm_needed_refuted below the second. *)
From Coq Require Import List ZArith Lia Arith Bool Permutation.
From Verif Require Import Net NetProofs NetPhase NetExec PyList ListFacts Setup SplitProofs Spec SetupProofs Mgrit Sim Main LocalRun ExampleApp OrderProofs PropRefuted.
Import ListNotations.

Definition local_crit {A : App} (o : Opts A) : Prop := o_conv_crit o = 2%Z \/ o_conv_crit o = 3%Z.
(** The entries of the list whose norm a process takes (mgrit.py 380-383, 406-412): its C-points except time point 0. *)
Definition norm_points (grids : list (list Z)) (P r : nat) : list nat :=
  match my_pts grids P r 0 with
  | Some pts => filter (fun i => (0 <? i) && memn i (all_cpts grids 0)) pts
  | None => []
  end.
(** The norm of a list of values below the tolerance is below the tolerance (the test of 447 and the test of 628 agree). *)
Definition norm_below {A : App} (o : Opts A) (n : nat) : Prop :=
  forall vals, length vals = n -> exists x, tnorm A vals = Some x /\
    (forallb (fun y => sc_lt A y (o_tol o)) vals = true -> sc_lt A x (o_tol o) = true).
(** No process boundary of the finest level lies between an F-point and a C-point. *)
Definition no_fc_boundary (grids : list (list Z)) (P : nat) : Prop :=
  forall r i pts, 0 < r -> r < P -> my_pts grids P r 0 = Some (i :: pts) ->
    memn i (all_cpts grids 0) = true -> memn (i - 1) (all_cpts grids 0) = true.

Section C36.
  Context {A : App}.
  Variable o : Opts A.
  Variable P : nat.
  Notation grids := (o_grids o).
  Hypothesis HV : valid_hierarchy grids.
  Hypothesis HP0 : 0 < P.
  Hypothesis HP : P <= N grids 0.

  Lemma memn_isC2 l i : i < N grids l -> memn i (all_cpts grids l) = isC grids l i.
  Proof.
    intros Hi. destruct (isC grids l i) eqn:E.
    - apply memn_in. apply (all_cpts_in grids P HP0 HP). auto.
    - apply memn_false. rewrite (all_cpts_in grids P HP0 HP). intros [_ X]. congruence.
  Qed.
  Lemma pts_lt l r i : l < length grids -> r < P -> In i (pts grids P l r) -> i < N grids l.
  Proof. intros Hl Hr Hi. apply (pts_in grids P HV HP0 HP) in Hi; auto. pose proof (lo_le_N grids P HP0 HP l (S r)). lia. Qed.
  Lemma order_block : f_order_ok grids (o_set_order o) P -> forall l r, l < length grids -> r < P ->
    order_perm grids (o_set_order o) P l r /\ predecessors_first (fps2 grids (o_set_order o) P l r).
  Proof.
    intros H l r Hl Hr. destruct (H l r Hl Hr _ (my_pts_eq grids P HV HP0 HP l r Hl Hr)) as [H1 H2].
    fold (pts grids P l r) in H1, H2.
    assert (E : filter (fun i => memn i (all_cpts grids l)) (pts grids P l r) = cps grids P l r).
    { apply filter_ext_in. intros i Hi. apply memn_isC2. eapply pts_lt; eauto. }
    cbv zeta in *. rewrite E in *. split; [|exact H2]. unfold order_perm, fps.
    erewrite filter_ext_in; [exact H1|]. intros i Hi. cbv beta. rewrite memn_isC2; [reflexivity|]. eapply pts_lt; eauto.
  Qed.
  Lemma norm_points_eq r : r < P -> norm_points grids P r = own_crit o P r.
  Proof.
    intros Hr. pose proof (SetupProofs.L_pos grids P HV HP0 HP) as HL. unfold norm_points. rewrite (my_pts_eq grids P HV HP0 HP) by auto. fold (pts grids P 0 r). unfold own_crit, cps.
    assert (G : forall l, (forall i, In i l -> i < N grids 0) -> filter (fun i => (0 <? i) && memn i (all_cpts grids 0)) l = filter (fun i => 0 <? i) (filter (isC grids 0) l)).
    { induction l as [|x l IH]; intros H; [reflexivity|]. cbn [filter]. rewrite memn_isC2 by (apply H; left; auto). rewrite IH by (intros i Hi; apply H; right; auto).
      destruct (isC grids 0 x); cbn [filter]; rewrite ?andb_true_r, ?andb_false_r; destruct (0 <? x); reflexivity. }
    apply G. intros i Hi. eapply (pts_lt 0 r); eauto.
  Qed.
  Lemma no_fc_cnd : no_fc_boundary grids P -> forall r, 0 < r -> r < P -> cnd o 0 7 (lo grids P 0 r) = false.
  Proof.
    intros H r Hr0 Hr. pose proof (SetupProofs.L_pos grids P HV HP0 HP) as HL. pose proof (lo_le_N grids P HP0 HP 0 (S r)).
    assert (X : lo grids P 0 r < lo grids P 0 (S r)).
    { rewrite !(lo_level0 grids P HV HP0 HP) by lia. apply (st_lt grids P HP); auto. }
    pose proof (my_pts_eq grids P HV HP0 HP 0 r HL Hr) as M.
    replace (cnt grids P 0 r) with (S (cnt grids P 0 r - 1)) in M by (pose proof (lo_cnt grids P HV HP0 HP 0 r HL Hr); lia). cbn [seq] in M.
    pose proof (H r _ _ Hr0 Hr M) as Y. rewrite !memn_isC2 in Y by lia. unfold cnd, isF.
    destruct (isC grids 0 (lo grids P 0 r)); [rewrite Y by auto; reflexivity|apply andb_false_r].
  Qed.
  Lemma no_fc_flags : no_fc_boundary grids P -> forall r, r < P -> sflag o P 0 7 r = false /\ rflag o P 0 7 r = false.
  Proof.
    intros H r Hr. pose proof (SetupProofs.L_pos grids P HV HP0 HP) as HL. split.
    - unfold sflag. change (blvl 0 7) with 0. destruct (lt_dec (S r) P) as [X|X]; [rewrite no_fc_cnd by (auto; lia); apply andb_false_r|].
      assert (M : more grids P 0 r = false).
      { unfold more. replace (S r) with P by lia. rewrite (SetupProofs.lo_P grids P). apply Nat.ltb_irrefl. }
      rewrite M. rewrite andb_false_r. reflexivity.
    - unfold rflag. change (blvl 0 7) with 0. destruct (Nat.eq_dec r 0) as [->|Hn].
      + rewrite (lo_0 grids P HV HP0 HP) by auto. rewrite andb_false_r. reflexivity.
      + rewrite no_fc_cnd by (auto; lia). apply andb_false_r.
  Qed.
End C36.

Lemma local_no_dist {A : App} (o : Opts A) P : local_crit o -> check o P = None -> o_dist o = None.
Proof. unfold check. cbv zeta. intros [E|E]; rewrite E; destruct (o_dist o); simpl; try discriminate; reflexivity. Qed.

(** Every execution has at most n steps, every partial execution can be completed, and an execution in which nobody can
    move any more has reached the one final state: all processes have returned from solve(), no message is left. *)
Theorem C36_local_criteria_terminate :
  forall (A : App) (o : Opts A) (P : nat),
  local_crit o -> valid_hierarchy (o_grids o) -> no_adjacent_cpoints (o_grids o) -> 0 < P -> check o P = None ->
  f_order_ok (o_grids o) (o_set_order o) P ->
  (forall l, S l < length (o_grids o) -> 1 <= cf_count o l) ->
  (forall r, r < P -> norm_below o (length (norm_points (o_grids o) P r))) ->
  (o_conv_crit o = 3%Z -> no_fc_boundary (o_grids o) P) ->
  exists n res, forall m d, steps P m (initial (mgrit_main o P)) d ->
    m <= n /\ (exists c, steps P (n - m) d c /\ finished P res c) /\ (stuck P d -> m = n /\ finished P res d).
Proof.
  intros A o P Hc HV HA HP0 Hk Hf Hcf Hn Hj. pose proof (check_procs o P Hk) as HP. fold (N (o_grids o) 0) in HP.
  destruct (local_main o P HV HP0 HP) as [fin Hfin]; auto.
  - unfold gcc. destruct Hc as [-> | ->]; reflexivity.
  - intros l r Hl Hr. apply (order_block o P HV HP0 HP Hf l r Hl Hr).
  - intros l Hl. apply Hcf. lia.
  - eapply local_no_dist; eauto.
  - intros J r Hr. apply (no_fc_flags o P HV HP0 HP); auto. apply Hj. unfold is_jump in J. destruct Hc as [E|E]; [rewrite E in J; discriminate|exact E].
  - intros r vals Hr Hl. apply (Hn r Hr). rewrite (norm_points_eq o P HV HP0 HP) by auto. exact Hl.
  - intros l r Hl Hr. apply (order_block o P HV HP0 HP Hf l r Hl Hr).
  - destruct (phase_finishes P _ _ Hfin) as (n & c & H1 & H2). exists n, fin.
    intros m d Hd. destruct (finished_unique P n _ _ fin H2 H1 m d Hd) as (X & Y & Z). eauto.
Qed.

(** The maximum norm (t_norm 3) is one of its arguments, and np.linalg.norm raises on an empty list: it is enough that every
    process has a C-point. *)
Corollary C36_maximum_norm_terminates :
  forall (A : App) (o : Opts A) (P : nat),
  local_crit o -> valid_hierarchy (o_grids o) -> no_adjacent_cpoints (o_grids o) -> 0 < P -> check o P = None ->
  f_order_ok (o_grids o) (o_set_order o) P ->
  (forall l, S l < length (o_grids o) -> 1 <= cf_count o l) ->
  (forall vals, vals <> [] -> exists x, tnorm A vals = Some x /\ In x vals) ->
  (forall r, r < P -> norm_points (o_grids o) P r <> []) ->
  (o_conv_crit o = 3%Z -> no_fc_boundary (o_grids o) P) ->
  exists n res, forall m d, steps P m (initial (mgrit_main o P)) d ->
    m <= n /\ (exists c, steps P (n - m) d c /\ finished P res c) /\ (stuck P d -> m = n /\ finished P res d).
Proof.
  intros A o P Hc HV HA HP0 Hk Hf Hcf Hn Hp Hj. apply C36_local_criteria_terminate; auto.
  intros r Hr vals Hl. destruct (Hn vals) as (x & E & Hx).
  - intros ->. apply (Hp r Hr). destruct (norm_points _ _ _); [reflexivity|discriminate].
  - exists x. split; [exact E|]. intros Hall. rewrite forallb_forall in Hall. apply Hall. exact Hx.
Qed.
(** Any norm that is the identity on one value: one C-point per process. *)
Corollary C36_one_point_terminates :
  forall (A : App) (o : Opts A) (P : nat),
  local_crit o -> valid_hierarchy (o_grids o) -> no_adjacent_cpoints (o_grids o) -> 0 < P -> check o P = None ->
  f_order_ok (o_grids o) (o_set_order o) P ->
  (forall l, S l < length (o_grids o) -> 1 <= cf_count o l) ->
  (forall x, tnorm A [x] = Some x) ->
  (forall r, r < P -> length (norm_points (o_grids o) P r) = 1) ->
  (o_conv_crit o = 3%Z -> no_fc_boundary (o_grids o) P) ->
  exists n res, forall m d, steps P m (initial (mgrit_main o P)) d ->
    m <= n /\ (exists c, steps P (n - m) d c /\ finished P res c) /\ (stuck P d -> m = n /\ finished P res d).
Proof.
  intros A o P Hc HV HA HP0 Hk Hf Hcf Hn Hp Hj. apply C36_local_criteria_terminate; auto.
  intros r Hr vals Hl. rewrite (Hp r Hr) in Hl. destruct vals as [|x [|y vals]]; try discriminate. exists x. split; [apply Hn|].
  simpl. rewrite andb_true_r. auto.
Qed.

(** ** Instances *)
Lemma fold_max_below l t : forall x, (x < t)%Z -> forallb (fun y => (y <? t)%Z) l = true -> (fold_left Z.max l x <? t)%Z = true.
Proof.
  induction l as [|y l IH]; intros x Hx H; [apply Z.ltb_lt; exact Hx|]. simpl in *. apply andb_prop in H. destruct H as [H1 H2].
  apply IH; [apply Z.ltb_lt in H1; lia|exact H2].
Qed.
(** Nine and five points: conv_crit 2 on three processes, two of which start with a C- and one with an F-point ... *)
Example C36_hypotheses_hold_residual :
  let o := zopts_local 2 1 in
  local_crit o /\ valid_hierarchy (o_grids o) /\ no_adjacent_cpoints (o_grids o) /\ check o 3 = None /\ f_order_ok (o_grids o) (o_set_order o) 3 /\
  (forall l, S l < length (o_grids o) -> 1 <= cf_count o l) /\
  (forall r, r < 3 -> norm_below o (length (norm_points (o_grids o) 3 r))) /\ (o_conv_crit o = 3%Z -> no_fc_boundary (o_grids o) 3).
Proof.
  intros o. destruct (zopts_local_facts 2 1 (or_introl eq_refl)) as (H1 & H2 & H3 & H4).
  split; [left; reflexivity|]. repeat (split; [assumption|]). split; [intros l Hl; unfold cf_count; simpl; lia|]. split; [|discriminate].
  intros r Hr vals Hl. eexists. split; [reflexivity|]. apply fold_max_below. reflexivity.
Qed.
(** ... and conv_crit 3 on two processes: the second one starts with point 5. *)
Example C36_hypotheses_hold_jump :
  let o := zopts_local 3 1 in
  local_crit o /\ valid_hierarchy (o_grids o) /\ no_adjacent_cpoints (o_grids o) /\ check o 2 = None /\ f_order_ok (o_grids o) (o_set_order o) 2 /\
  (forall l, S l < length (o_grids o) -> 1 <= cf_count o l) /\
  (forall r, r < 2 -> norm_below o (length (norm_points (o_grids o) 2 r))) /\ (o_conv_crit o = 3%Z -> no_fc_boundary (o_grids o) 2).
Proof.
  intros o. destruct (zopts_local_facts 3 1 (or_intror eq_refl)) as (H1 & H2 & H3 & H4).
  split; [right; reflexivity|]. split; [assumption|]. split; [assumption|]. split; [reflexivity|]. split; [apply ascending_order_ok|].
  split; [intros l Hl; unfold cf_count; simpl; lia|]. split.
  - intros r Hr vals Hl. eexists. split; [reflexivity|]. apply fold_max_below. reflexivity.
  - intros _ r i pts Hr0 Hr E HC. assert (r = 1) by lia. subst r. vm_compute in E. injection E as <- <-. vm_compute in HC. discriminate.
Qed.
(** The processes of the second instance stop in different iterations. *)
Example C36_jump_run :
  map (fun r => match procs (run_net 2 80 3000 (initial (mgrit_main (zopts_local 3 1) 2))) r with Ret s => Some (s_iter s) | _ => None end) (seq 0 2) =
  [Some 2; Some 3].
Proof. vm_compute. reflexivity. Qed.

(** ** The norm condition is needed
    With the sum of the absolute values (t_norm 1) instead of the maximum: 17 and 9 points, two processes. In the second
    iteration all values of process 0 are below the tolerance 160 but their sum is 192: process 0 tells its neighbour that
    it has finished, and goes on iterating. Its neighbour does not receive from it any more. *)
Definition sapp : App := mkApp Z Z Z Z.add Z.sub Z.mul Z.abs (fun x => x) (fun _ => 0%Z) (fun x => x) (fun _ d => d)
  (fun l x a b => (2 * x + b - a + Z.of_nat l)%Z) (fun _ x => x) (fun _ x => x) (fun _ => 0%Z) (fun _ => 1%Z)
  (fun l => Some (fold_left Z.add l 0%Z)) Z.ltb 0%Z (Z.eqb 0) (fun x => (1 - x)%Z).
Definition sopts : Opts sapp :=
  mkOpts sapp [grid_of 17 1; grid_of 9 2] 1 (1%Z : Sc sapp) 10 (160%Z : Sc sapp) false (CfInt 1) (Some false) 1 true 1 None 2 ascending_order.
Theorem C36_norm_needed_refuted :
  ~ (forall (A : App) (o : Opts A) (P : nat),
     local_crit o -> valid_hierarchy (o_grids o) -> no_adjacent_cpoints (o_grids o) -> 0 < P -> check o P = None ->
     f_order_ok (o_grids o) (o_set_order o) P ->
     (forall l, S l < length (o_grids o) -> 1 <= cf_count o l) ->
     (forall vals, exists x, tnorm A vals = Some x) -> (forall x, tnorm A [x] = Some x) ->
     (o_conv_crit o = 3%Z -> no_fc_boundary (o_grids o) P) ->
     forall n d, steps P n (initial (mgrit_main o P)) d -> stuck P d -> exists res, finished P res d).
Proof.
  intros H.
  destruct (run_net_steps 2 80 3000 (mgrit_main sopts 2)) as (n & Hn).
  destruct (H sapp sopts 2) with (n := n) (d := run_net 2 80 3000 (initial (mgrit_main sopts 2))) as (res & [F _]).
  - left; reflexivity.
  - apply valid_hierarchyb_ok. reflexivity.
  - apply no_adjacentb_ok. reflexivity.
  - lia.
  - reflexivity.
  - apply ascending_order_ok.
  - intros l Hl. unfold cf_count. simpl. lia.
  - intros vals. eexists. reflexivity.
  - intros x. reflexivity.
  - discriminate.
  - exact Hn.
  - apply stuckb_ok. vm_compute. reflexivity.
  - assert (X : match procs (run_net 2 80 3000 (initial (mgrit_main sopts 2))) 0 with WaitAll _ => True | _ => False end) by (vm_compute; exact I).
    rewrite (F 0 ltac:(lia)) in X. exact X.
Qed.

Print Assumptions C36_local_criteria_terminate.
Print Assumptions C36_maximum_norm_terminates.
Print Assumptions C36_one_point_terminates.
Print Assumptions C36_norm_needed_refuted.
