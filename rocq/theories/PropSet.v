(** C23: the visiting order of the F-points with CPython's hash sets. *)
From Coq Require Import List ZArith Lia Arith Bool Sorted Permutation.
From Verif Require Import Net NetProofs NetExec PyList ListFacts Setup Spec OrderProofs SetupProofs Mgrit Reference SimpleSetup SimpleSetupProofs Main ExampleApp PropParallel PropSetup PySet PySetProofs.
Import ListNotations.

(** number of multiples of m in [a, a + n) *)
Lemma div_step m x : 0 < m -> (S x + (m - 1)) / m = (x + (m - 1)) / m + (if x mod m =? 0 then 1 else 0).
Proof.
  intros Hm. pose proof (Nat.div_mod x m ltac:(lia)) as D. pose proof (Nat.mod_upper_bound x m ltac:(lia)) as B. set (q := x / m) in *. set (r := x mod m) in *.
  destruct (Nat.eqb_spec r 0) as [E|E].
  - replace (S x + (m - 1)) with (S q * m) by nia. rewrite Nat.div_mul by lia. replace (x + (m - 1)) with ((m - 1) + q * m) by nia. rewrite Nat.div_add, Nat.div_small by lia. lia.
  - replace (S x + (m - 1)) with (r + S q * m) by nia. rewrite Nat.div_add, Nat.div_small by lia.
    replace (x + (m - 1)) with ((r - 1) + S q * m) by nia. rewrite Nat.div_add, Nat.div_small by lia. lia.
Qed.
Lemma multiples_count m a n : 0 < m -> (a + (m - 1)) / m + length (filter (fun i => i mod m =? 0) (seq a n)) = (a + n + (m - 1)) / m.
Proof.
  intros Hm. induction n as [|n IH]; [cbn; rewrite !Nat.add_0_r; reflexivity|]. rewrite seq_S, filter_app, app_length. cbn [filter].
  replace (a + S n) with (S (a + n)) by lia. rewrite div_step by auto. rewrite <- IH. destruct (_ =? 0); cbn [length]; lia.
Qed.
Lemma multiples_bound m a n : 0 < m -> m * length (filter (fun i => i mod m =? 0) (seq a n)) <= n + (m - 1).
Proof.
  intros Hm. pose proof (multiples_count m a n Hm) as E. set (c := length _) in *. clearbody c.
  pose proof (Nat.div_mod (a + (m - 1)) m ltac:(lia)) as D1. pose proof (Nat.mod_upper_bound (a + (m - 1)) m ltac:(lia)).
  pose proof (Nat.mul_div_le (a + n + (m - 1)) m ltac:(lia)). rewrite <- E in *. nia.
Qed.

(** Number of points and of C-points of process [r] on a level. *)
Definition block_points (grids : list (list Z)) (P r lvl : nat) : nat := match my_pts grids P r lvl with Some pts => length pts | None => 0 end.
Definition block_cpoints (grids : list (list Z)) (P r lvl : nat) : nat :=
  match my_pts grids P r lvl with Some pts => length (filter (fun i => memn i (all_cpts grids lvl)) pts) | None => 0 end.

(** Every process visits its F-points predecessors first if on every level its C-points are at most (about) two fifths of its
    points, or no two F-points of the level are neighbours. *)
Theorem C23_order_ok :
  forall grids P, valid_hierarchy grids -> 0 < P -> P <= length (nth 0 grids []) ->
  (forall lvl r, S lvl < length grids -> r < P ->
     5 * block_cpoints grids P r lvl < 2 * block_points grids P r lvl + 7 \/
     (forall i, S i < length (nth lvl grids []) -> memn i (all_cpts grids lvl) = false -> memn (S i) (all_cpts grids lvl) = false -> False)) ->
  f_order_ok grids cpython_order P.
Proof.
  intros grids P HV HP0 HP H lvl r Hl Hr pts Hp cs fs.
  pose proof (my_pts_eq grids P HV HP0 HP lvl r Hl Hr) as E. rewrite Hp in E. injection E as E.
  assert (Hn : NoDup pts) by (rewrite E; apply seq_NoDup).
  assert (Hw : within (lo grids P lvl r) (cnt grids P lvl r) pts) by (intros k Hk; rewrite E in Hk; apply in_seq in Hk; lia).
  assert (Hlen : length pts = cnt grids P lvl r) by (rewrite E; apply seq_length).
  assert (Hcs : filter (fun k => negb (memn k cs)) pts = fs) by (apply filter_negb_mem).
  assert (Hperm : Permutation (cpython_order pts cs) fs) by (rewrite <- Hcs; eapply cpython_perm; eauto).
  split; [exact Hperm|].
  assert (ISO : (forall i, In i pts -> In (S i) pts -> memn i (all_cpts grids lvl) = false -> memn (S i) (all_cpts grids lvl) = false -> False) ->
                predecessors_first (visit_order (cpython_order pts cs))).
  { intros X. apply isolated_predecessors_first. intros y Hy Hy'. apply (Permutation_in _ Hperm) in Hy, Hy'. apply filter_In in Hy, Hy'.
    destruct Hy as [Y1 Y2], Hy' as [Z1 Z2]. apply (X y Y1 Z1); apply negb_true_iff; assumption. }
  assert (IN : forall i, In i pts -> i < length (nth lvl grids [])).
  { intros i Hi. rewrite E in Hi. apply in_seq in Hi. pose proof (lo_le_N grids P HP0 HP lvl (S r)) as B. pose proof (lo_cnt grids P HV HP0 HP lvl r Hl Hr).
    unfold N, grid in B. lia. }
  destruct (Nat.eq_dec (S lvl) (length grids)) as [T|T].
  - apply ISO. intros i Hi _ X _. revert X. unfold all_cpts, lvl_max. replace (lvl =? length grids - 1) with true by (symmetry; apply Nat.eqb_eq; lia).
    intros X. apply memn_false in X. apply X. unfold py_range. apply in_seq. pose proof (IN i Hi). unfold grid. lia.
  - destruct (H lvl r ltac:(lia) Hr) as [C|C].
    + unfold block_cpoints, block_points in C. rewrite Hp in C. fold cs in C.
      destruct (difference_placed (lo grids P lvl r) (cnt grids P lvl r) pts cs Hn Hw Hlen) as (t & Et & Pt & Lt).
      * intros k Hk. apply filter_In in Hk. apply Hk.
      * apply NoDup_filter. exact Hn.
      * rewrite <- Hlen. exact C.
      * rewrite Et. destruct (Nat.eq_dec (length t) 0) as [Z|Z]; [apply length_zero_iff_nil in Z; subst t; intros [|] ? ? ?; discriminate|].
        eapply (rotated_predecessors_first (length t) (lo grids P lvl r) (cnt grids P lvl r)); [lia|exact Lt| |apply placed_sorted; exact Pt].
        intros k Hk. apply Hw.
        rewrite <- Et in Hk. apply (Permutation_in _ Hperm) in Hk. apply filter_In in Hk. apply Hk.
    + apply ISO. intros i _ Hi. apply C. apply IN. exact Hi.
Qed.

(** Uniform coarsening: every level takes every m-th point of the next finer one. *)
Definition uniform_coarsening (grids : list (list Z)) : Prop :=
  forall lvl, S lvl < length grids -> exists m, 0 < m /\ forall k, nth_error (nth (S lvl) grids []) k = nth_error (nth lvl grids []) (k * m).
Lemma uniform_cpoints grids lvl m i : valid_hierarchy grids -> S lvl < length grids -> 0 < m ->
  (forall k, nth_error (nth (S lvl) grids []) k = nth_error (nth lvl grids []) (k * m)) ->
  i < length (nth lvl grids []) -> memn i (all_cpts grids lvl) = (i mod m =? 0).
Proof.
  intros HV Hl Hm Hs Hi. assert (Nd : NoDup (nth lvl grids [])).
  { destruct HV as (_ & H & _). destruct (H lvl ltac:(lia)) as [S _]. clear -S. induction S as [|a l Hs IH Ha]; constructor; auto. rewrite Forall_forall in Ha. intros X. specialize (Ha _ X). lia. }
  unfold all_cpts, lvl_max. replace (lvl =? length grids - 1) with false by (symmetry; apply Nat.eqb_neq; lia). unfold grid.
  destruct (Nat.eqb_spec (i mod m) 0) as [E|E].
  - apply memn_in. apply (np_where_in _ _ _ 0%Z). split; [exact Hi|]. apply memz_in. apply (nth_error_In _ (i / m)). rewrite Hs.
    pose proof (Nat.div_mod i m ltac:(lia)) as D. replace (i / m * m) with i by lia. apply nth_error_nth'. exact Hi.
  - apply memn_false. intros X. apply (np_where_in _ _ _ 0%Z) in X. destruct X as (_ & Ht). apply memz_in in Ht. apply In_nth_error in Ht. destruct Ht as [k Hk]. rewrite Hs in Hk.
    assert (i = k * m). { apply (proj1 (NoDup_nth_error (nth lvl grids [])) Nd); auto. rewrite Hk. apply nth_error_nth'. exact Hi. }
    subst i. apply E. apply Nat.mod_mul. lia.
Qed.
Theorem C23_uniform_order_ok :
  forall grids P, valid_hierarchy grids -> uniform_coarsening grids -> 0 < P -> P <= length (nth 0 grids []) -> f_order_ok grids cpython_order P.
Proof.
  intros grids P HV HU HP0 HP. apply C23_order_ok; auto. intros lvl r Hl Hr. destruct (HU lvl Hl) as (m & Hm & Hs).
  destruct (le_lt_dec 3 m) as [M|M].
  - left. unfold block_cpoints, block_points. rewrite (my_pts_eq grids P HV HP0 HP lvl r ltac:(lia) Hr). rewrite seq_length.
    rewrite (filter_ext_in _ (fun i => i mod m =? 0)).
    + pose proof (multiples_bound m (lo grids P lvl r) (cnt grids P lvl r) Hm) as B. set (c := length _) in *. destruct (Nat.eq_dec c 0); [lia|]. nia.
    + intros i Hi. apply uniform_cpoints; auto. apply in_seq in Hi. pose proof (lo_le_N grids P HP0 HP lvl (S r)) as B.
      pose proof (lo_cnt grids P HV HP0 HP lvl r ltac:(lia) Hr). unfold N, grid in B. lia.
  - right. intros i Hi H1 H2. rewrite (uniform_cpoints grids lvl m) in H1, H2 by (auto; lia). apply Nat.eqb_neq in H1, H2.
    assert (m = 1 \/ m = 2) as [-> | ->] by lia.
    + apply H1. apply Nat.mod_1_r.
    + pose proof (Nat.div_mod i 2 ltac:(lia)). pose proof (Nat.mod_upper_bound i 2 ltac:(lia)). apply H2. replace (S i) with (S (i / 2) * 2) by lia. apply Nat.mod_mul. lia.
Qed.
(** In particular for the hierarchies made by simple_setup_problem, on any number of processes. *)
Theorem C23_simple_setup_order_ok :
  forall q level c w ps P, simple_setup q level c = Some (w, ps) ->
  StronglySorted Z.lt (p_t q) -> p_t q <> [] -> level = 1 \/ c ^ (level - 1) < length (p_t q) ->
  0 < P -> P <= length (p_t q) -> f_order_ok (map p_t ps) cpython_order P.
Proof.
  intros q level c w ps P H Hs Hne Hl HP0 HP. destruct (C19_valid_and_accepted q level c w ps H Hs Hne Hl) as (HV & _).
  destruct (C19_grids q level c w ps H) as (Hlen & H0 & Hg). destruct (simple_spec q level c w ps H) as (Hc & _).
  assert (NT : forall i p, nth_error ps i = Some p -> nth i (map p_t ps) [] = p_t p).
  { intros i p E. apply nth_error_nth. apply map_nth_error. exact E. }
  apply C23_uniform_order_ok; auto.
  - intros lvl Hlv. rewrite map_length, Hlen in Hlv. exists c. split; [exact Hc|]. intros k.
    destruct (Hg lvl ltac:(lia)) as (p & Ep & Gp & _). destruct (Hg (S lvl) Hlv) as (p' & Ep' & Gp' & _).
    rewrite (NT _ _ Ep), (NT _ _ Ep'), Gp, Gp'. f_equal. rewrite Nat.pow_succ_r'. lia.
  - rewrite (NT 0 q H0). exact HP.
Qed.
(** An instance: 60 points, coarsening by 4, three levels, 7 processes. *)
Example C23_simple_setup_instance :
  f_order_ok (map p_t (match simple_setup (mkProblem 0 59 (grid_of 60 1) 60) 3 4 with Some (_, ps) => ps | None => [] end)) cpython_order 7.
Proof.
  destruct (simple_setup (mkProblem 0 59 (grid_of 60 1) 60) 3 4) as [[w ps]|] eqn:E; [|vm_compute in E; discriminate].
  eapply C23_simple_setup_order_ok; [exact E| | | | |].
  - apply sortedb_ok. vm_compute. reflexivity.
  - discriminate.
  - right. apply Nat.ltb_lt. vm_compute. reflexivity.
  - lia.
  - apply Nat.leb_le. vm_compute. reflexivity.
Qed.

(** ** The usual way to use the solver, end to end
    simple_setup_problem with coarsening at least 2, a constructor call with admissible options and a global criterion, solve,
    CPython's sets: every schedule on any two numbers of processes ends, with the same values. *)
Theorem C23_simple_setup_process_count :
  forall q level c w ps (A : App) (wf : nat -> Vec A -> Prop) (o : Opts A) (P P' n n' : nat) cf cf',
  simple_setup q level c = Some (w, ps) -> StronglySorted Z.lt (p_t q) -> 2 <= length (p_t q) -> c ^ (level - 1) < length (p_t q) -> 2 <= c ->
  app_laws A wf -> o_grids o = map p_t ps -> o_ntransfer o = level - 1 -> o_cycle o <> None -> (0 <= o_output_lvl o <= 2)%Z ->
  (1 <= o_t_norm o <= 3)%Z -> (0 <= o_conv_crit o <= 1)%Z ->
  match o_cf o with CfInt _ => True | CfList l => level <= length l + 1 | CfOther => False end ->
  o_set_order o = cpython_order -> o_rand o = None -> o_dist o = None -> 0 < P <= length (p_t q) -> 0 < P' <= length (p_t q) ->
  steps P n (initial (mgrit_main o P)) cf -> stuck P cf -> steps P' n' (initial (mgrit_main o P')) cf' -> stuck P' cf' ->
  exists res res', finished P res cf /\ finished P' res' cf' /\
    gathered P (fun r => s_u (res r) 0) = gathered P' (fun r => s_u (res' r) 0).
Proof.
  intros q level c w ps A wf o P P' n n' cf cf' H Hs H2 Hl Hc L G Nt Cy Ol Tn Cc Cf So Ra Di HP HP' S1 K1 S2 K2.
  assert (Hne : p_t q <> []) by (intros E; rewrite E in H2; cbn in H2; lia).
  destruct (C19_valid_and_accepted q level c w ps H Hs Hne (or_intror Hl)) as (HV & HA & HC).
  assert (N0 : nth 0 (map p_t ps) [] = p_t q).
  { destruct (C19_grids q level c w ps H) as (_ & H0 & _). apply nth_error_nth. apply map_nth_error. exact H0. }
  assert (GS : forall Q, 0 < Q <= length (p_t q) -> good_setup wf o Q).
  { intros Q HQ. constructor; auto.
    - rewrite G. exact HV.
    - rewrite G. apply HA. exact Hc.
    - rewrite G, N0. exact H2.
    - lia.
    - apply HC; auto; try lia.
    - lia.
    - rewrite G, So. eapply C23_simple_setup_order_ok; eauto; lia.
    - intros rnd X. congruence.
    - intros k X. congruence. }
  destruct (C01_process_count_independence A wf o P P' n n' cf cf' (GS P HP) (GS P' HP') Ra S1 K1 S2 K2) as (res & res' & F & F' & E & _).
  exists res, res'. auto.
Qed.
Definition ssq : Problem := mkProblem 0 16 (grid_of 17 1) 17.
Definition zopts_ss : Opts zapp :=
  mkOpts zapp [grid_of 17 1; grid_of 9 2; grid_of 5 4] 2 (1%Z : Sc zapp) 3 (0%Z : Sc zapp) true (CfInt 1) (Some true) 1 true 2 None 0 cpython_order.
Example C23_simple_setup_process_count_instance :
  exists w ps, simple_setup ssq 3 2 = Some (w, ps) /\ StronglySorted Z.lt (p_t ssq) /\ 2 ^ (3 - 1) < length (p_t ssq) /\
  o_grids zopts_ss = map p_t ps /\ o_ntransfer zopts_ss = 3 - 1 /\ o_cycle zopts_ss <> None /\ (0 <= o_output_lvl zopts_ss <= 2)%Z /\
  (1 <= o_t_norm zopts_ss <= 3)%Z /\ (0 <= o_conv_crit zopts_ss <= 1)%Z /\ o_set_order zopts_ss = cpython_order.
Proof.
  destruct (simple_setup ssq 3 2) as [[w ps]|] eqn:E; [|vm_compute in E; discriminate]. exists w, ps. split; [reflexivity|].
  vm_compute in E. injection E as _ <-. split; [apply sortedb_ok; vm_compute; reflexivity|]. split; [apply Nat.ltb_lt; vm_compute; reflexivity|].
  repeat split; try (vm_compute; congruence); try reflexivity.
Qed.

(** ** The order can be wrong
    36 points; the coarse grid takes every second point up to 32, and then the last one. On one process the set holds 18
    F-points 1, 3, ..., 31, 33, 34 in a table with 32 slots: 33 and 34 collide with 1, 2 and 3 and are moved, 34 is no
    longer the neighbour of 33 in the list and is visited before it. *)
Definition cgrid36 : list Z := grid_of 17 2 ++ [35%Z].
Example C23_wrong_order :
  visit_order (cpython_order (seq 0 36) (all_cpts [grid_of 36 1; cgrid36] 0)) = [31; 29; 27; 25; 23; 21; 19; 17; 15; 13; 11; 9; 7; 5; 34; 3; 33; 1].
Proof. vm_compute. reflexivity. Qed.
Definition zopts_set : Opts zapp :=
  mkOpts zapp [grid_of 36 1; cgrid36] 1 (1%Z : Sc zapp) 1 (1%Z : Sc zapp) false (CfInt 1) (Some false) 1 true 2 None 0 cpython_order.
Theorem C23_order_refuted :
  ~ (forall grids P, valid_hierarchy grids -> no_adjacent_cpoints grids -> 0 < P -> P <= length (nth 0 grids []) -> f_order_ok grids cpython_order P).
Proof.
  intros H. destruct (H [grid_of 36 1; cgrid36] 1) with (lvl := 0) (r := 0) (pts := seq 0 36) as [_ X].
  - apply valid_hierarchyb_ok. reflexivity.
  - apply no_adjacentb_ok. reflexivity.
  - lia.
  - vm_compute. lia.
  - cbn. lia.
  - lia.
  - reflexivity.
  - change (filter _ (seq 0 36)) with (all_cpts [grid_of 36 1; cgrid36] 0) in X.
    assert (Y := X [31; 29; 27; 25; 23; 21; 19; 17; 15; 13; 11; 9; 7; 5] 34 [3; 33; 1] C23_wrong_order 33).
    rewrite C23_wrong_order in Y. assert (Z : In 33 [31; 29; 27; 25; 23; 21; 19; 17; 15; 13; 11; 9; 7; 5]) by (apply Y; [apply memn_in; reflexivity|reflexivity]).
    apply memn_in in Z. discriminate.
Qed.
(** Consequence: with CPython's order the result depends on the number of processes, although the hierarchy is valid, accepted
    and has no neighbouring C-points. One process returns a value at point 34 that was not computed from the value at
    point 33; on two processes every process holds fewer points and the order is right. *)
Theorem C23_process_count_independence_refuted :
  ~ (forall (A : App) (wf : nat -> Vec A -> Prop) (o : Opts A) (P P' n n' : nat) c c',
     app_laws A wf -> valid_hierarchy (o_grids o) -> no_adjacent_cpoints (o_grids o) -> 2 <= length (nth 0 (o_grids o) []) -> 0 < P -> 0 < P' ->
     check o P = None -> check o P' = None -> o_conv_crit o = 0%Z -> o_set_order o = cpython_order -> o_rand o = None -> o_dist o = None ->
     steps P n (initial (mgrit_main o P)) c -> stuck P c -> steps P' n' (initial (mgrit_main o P')) c' -> stuck P' c' ->
     exists res res', finished P res c /\ finished P' res' c' /\
       gathered P (fun r => s_u (res r) 0) = gathered P' (fun r => s_u (res' r) 0)).
Proof.
  intros H.
  assert (W : exists n c, steps 1 n (initial (mgrit_main zopts_set 1)) c /\ stuck 1 c /\
            match procs c 0 with Ret s => nth 34 (s_u s 0) 0%Z = 15%Z | _ => False end).
  { destruct (run_net_steps 1 5 1000 (mgrit_main zopts_set 1)) as (n & Hn).
    exists n, (run_net 1 5 1000 (initial (mgrit_main zopts_set 1))). split; [exact Hn|].
    split; [apply stuckb_ok; vm_compute; reflexivity|vm_compute; reflexivity]. }
  assert (W' : exists n c, steps 2 n (initial (mgrit_main zopts_set 2)) c /\ stuck 2 c /\
            match procs c 0 with Ret s => length (s_u s 0) = 18 | _ => False end /\
            match procs c 1 with Ret s => nth 17 (s_u s 0) 0%Z = 2621407%Z | _ => False end).
  { destruct (run_net_steps 2 50 1000 (mgrit_main zopts_set 2)) as (n & Hn).
    exists n, (run_net 2 50 1000 (initial (mgrit_main zopts_set 2))). split; [exact Hn|].
    split; [apply stuckb_ok; vm_compute; reflexivity|split; vm_compute; reflexivity]. }
  destruct W as (n & c & Hn & St & X). destruct W' as (n' & c' & Hn' & St' & Y0 & Y1).
  destruct (H zapp (fun _ _ => True) zopts_set 1 2 n n' c c') as (res & res' & [F _] & [F' _] & E); auto.
  - apply zapp_laws.
  - apply valid_hierarchyb_ok. reflexivity.
  - apply no_adjacentb_ok. reflexivity.
  - apply Nat.leb_le. reflexivity.
  - rewrite (F 0 ltac:(lia)) in X. rewrite (F' 0 ltac:(lia)) in Y0. rewrite (F' 1 ltac:(lia)) in Y1.
    unfold gathered in E. cbn [seq map concat Nat.eqb] in E. rewrite !app_nil_r in E. rewrite E in X. rewrite app_nth2 in X by lia.
    rewrite Y0 in X. change (34 - 18) with 16 in X. destruct (s_u (res' 1) 0) as [|g l]; [discriminate Y1|]. cbn [tl] in X.
    change (nth 17 (g :: l) 0%Z) with (nth 16 l 0%Z) in Y1. rewrite Y1 in X. discriminate.
Qed.
(** the last thing one process did with the points 32 to 34 was F-relaxation *)
Example C23_not_relaxed :
  match procs (run_net 1 5 1000 (initial (mgrit_main zopts_set 1))) 0 with
  | Ret s => nth 33 (s_u s 0) 0%Z = phi zapp 0 (nth 32 (s_u s 0) 0%Z) 32 33 /\ nth 34 (s_u s 0) 0%Z <> phi zapp 0 (nth 33 (s_u s 0) 0%Z) 33 34
  | _ => False
  end.
Proof. vm_compute. split; [reflexivity|discriminate]. Qed.

Print Assumptions C23_order_ok.
Print Assumptions C23_uniform_order_ok.
Print Assumptions C23_simple_setup_order_ok.
Print Assumptions C23_simple_setup_process_count.
Print Assumptions C23_order_refuted.
Print Assumptions C23_process_count_independence_refuted.
