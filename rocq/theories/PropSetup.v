(** Properties of the problem set-up: point distribution and communication tables (C04, C05), split_into (C06),
    constructor checks (C17), simple_setup_problem (C19, C20), split_communicator (C21). *)
From Coq Require Import List ZArith Lia Arith Bool Sorted.
From Verif Require Import Net PyList Setup Spec Mgrit Main OrderProofs SplitProofs SetupProps SimpleSetup SimpleSetupProofs CheckProofs ExampleApp.
Import ListNotations.

(** ** C04: every time point has exactly one owner *)
Theorem C04_unique_owner :
  forall grids set_order P l i, valid_hierarchy grids -> 0 < P -> P <= length (nth 0 grids []) -> f_order_ok grids set_order P ->
  l < length grids -> i < length (nth l grids []) ->
  exists r J, r < P /\ setup_level grids set_order P r l = Some J /\ In i (i_pts J) /\
    forall r' J', r' < P -> setup_level grids set_order P r' l = Some J' -> In i (i_pts J') -> r' = r.
Proof. intros grids so P l i HV H0 HP HO. exact (unique_owner grids so P HV H0 HP HO l i). Qed.

(** The blocks are intervals, and one after another in rank order they are 0, 1, ..., nt-1: rank order is time order and
    nothing is stored twice. *)
Theorem C04_blocks_tile_in_rank_order :
  forall grids set_order P l, valid_hierarchy grids -> 0 < P -> P <= length (nth 0 grids []) -> f_order_ok grids set_order P ->
  l < length grids ->
  exists J : nat -> LvlInfo,
    (forall r, r < P -> setup_level grids set_order P r l = Some (J r) /\ exists a n, i_pts (J r) = seq a n) /\
    concat (map (fun r => i_pts (J r)) (seq 0 P)) = seq 0 (length (nth l grids [])).
Proof.
  intros grids so P l HV H0 HP HO Hl.
  exists (fun r => match setup_level grids so P r l with Some J => J | None => dummy_info end).
  assert (T : forall r, r < P -> setup_level grids so P r l = Some (match setup_level grids so P r l with Some J => J | None => dummy_info end)).
  { intros r Hr. destruct (setup_total grids so P HV H0 HP HO l r Hl Hr) as (J & E). rewrite E. reflexivity. }
  split; [|exact (blocks_tile grids so P HV H0 HP HO l _ Hl T)].
  intros r Hr. split; [auto|]. exact (block_contiguous grids so P HV H0 HP HO l r _ Hl Hr (T r Hr)).
Qed.

(** On the finest level the sizes differ by at most one and nobody is idle. *)
Theorem C04_finest_level_balanced :
  forall grids set_order P r r' J J', valid_hierarchy grids -> 0 < P -> P <= length (nth 0 grids []) -> f_order_ok grids set_order P ->
  r < P -> r' < P -> setup_level grids set_order P r 0 = Some J -> setup_level grids set_order P r' 0 = Some J' ->
  0 < length (i_pts J) /\ length (i_pts J) <= length (i_pts J') + 1.
Proof.
  intros grids so P r r' J J' HV H0 HP HO Hr Hr' HJ HJ'.
  destruct (level0_sizes grids so P HV H0 HP HO r J Hr HJ) as [E1 E2].
  destruct (level0_sizes grids so P HV H0 HP HO r' J' Hr' HJ') as [E1' _].
  split; [exact E2|]. rewrite E1, E1'. destruct (_ <? _), (_ <? _); lia.
Qed.

(** The local times: the times of the stored points, behind a copy of the previous point on all ranks but the first. *)
Theorem C04_local_times :
  forall grids set_order P l r J, valid_hierarchy grids -> 0 < P -> P <= length (nth 0 grids []) -> f_order_ok grids set_order P ->
  l < length grids -> r < P -> setup_level grids set_order P r l = Some J ->
  i_t J = match i_pts J with
          | [] => []
          | a :: _ => map (fun i => nth i (nth l grids []) 0%Z) (if r =? 0 then i_pts J else (a - 1) :: i_pts J)
          end /\
  (0 < r -> forall a, hd_error (i_pts J) = Some a -> 0 < a).
Proof. intros grids so P l r J HV H0 HP HO. exact (ghost_times grids so P HV H0 HP HO l r J). Qed.

(** 17/9/3 points on 5 processes: on the coarsest level some processes own nothing. *)
Definition ex_grids : list (list Z) := [grid_of 17 1; grid_of 9 2; grid_of 3 8].
Example C04_hypotheses_hold : valid_hierarchy ex_grids /\ f_order_ok ex_grids ascending_order 5.
Proof. split; [apply valid_hierarchyb_ok; reflexivity|apply ascending_order_ok]. Qed.
Example C04_example :
  map (fun l => map (fun r => option_map i_pts (setup_level ex_grids ascending_order 5 r l)) (seq 0 5)) [0; 1; 2] =
  [[Some [0;1;2;3]; Some [4;5;6;7]; Some [8;9;10]; Some [11;12;13]; Some [14;15;16]];
   [Some [0;1]; Some [2;3]; Some [4;5]; Some [6]; Some [7;8]];
   [Some [0]; Some []; Some [1]; Some []; Some [2]]].
Proof. vm_compute. reflexivity. Qed.
Print Assumptions C04_unique_owner.
Print Assumptions C04_blocks_tile_in_rank_order.
Print Assumptions C04_finest_level_balanced.
Print Assumptions C04_local_times.

(** ** C05: communication tables of neighbouring processes agree *)
Theorem C05_partners_agree :
  forall grids set_order P l p q Jp Jq, valid_hierarchy grids -> 0 < P -> P <= length (nth 0 grids []) -> f_order_ok grids set_order P ->
  l < length grids -> p < P -> q < P -> setup_level grids set_order P p l = Some Jp -> setup_level grids set_order P q l = Some Jq ->
  (i_send_to Jp = Z.of_nat q <-> i_get_from Jq = Z.of_nat p) /\
  (i_send_to Jp = Z.of_nat q ->
     p < q /\ (exists a, hd_error (i_pts Jq) = Some (S a) /\ last (i_pts Jp) 0 = a /\ In a (i_pts Jp)) /\
     i_last_is_c Jp = i_first_is_f Jq /\ i_last_is_f Jp = i_first_is_c Jq /\ i_comm_back Jp = i_comm_front Jq).
Proof.
  intros grids so P l p q Jp Jq HV H0 HP HO Hl Hp Hq HJp HJq. split.
  - exact (partners grids so P HV H0 HP HO l p q Jp Jq Hl Hp Hq HJp HJq).
  - exact (boundary grids so P HV H0 HP HO l p q Jp Jq Hl Hp Hq HJp HJq).
Qed.

(** Partners exist, and a process without partner announces nothing. *)
Theorem C05_partners_exist :
  forall grids set_order P l p J, valid_hierarchy grids -> 0 < P -> P <= length (nth 0 grids []) -> f_order_ok grids set_order P ->
  l < length grids -> p < P -> setup_level grids set_order P p l = Some J ->
  ((i_send_to J = (-99)%Z /\ i_last_is_c J = false /\ i_last_is_f J = false /\ i_comm_back J = false) \/
   (exists q, q < P /\ i_send_to J = Z.of_nat q)) /\
  ((i_get_from J = (-99)%Z /\ i_first_is_c J = false /\ i_first_is_f J = false /\ i_comm_front J = false) \/
   (exists q, q < P /\ i_get_from J = Z.of_nat q)).
Proof.
  intros grids so P l p J HV H0 HP HO Hl Hp HJ. split.
  - exact (send_range grids so P HV H0 HP HO l p J Hl Hp HJ).
  - exact (get_range grids so P HV H0 HP HO l p J Hl Hp HJ).
Qed.

(** Which message crosses the boundary behind the last point [a]: the C-value before F-relaxation if [a] is a C-point and
    its successor an F-point; the F-value during F-relaxation if both are F-points; the F-value around C-relaxation if the
    successor is a C-point. *)
Theorem C05_boundary_messages :
  forall grids set_order P l p J q, valid_hierarchy grids -> 0 < P -> P <= length (nth 0 grids []) -> f_order_ok grids set_order P ->
  l < length grids -> p < P -> setup_level grids set_order P p l = Some J -> i_send_to J = Z.of_nat q ->
  let a := last (i_pts J) 0 in
  let c := fun i => memn i (all_cpts grids l) in
  i_last_is_c J = c a && negb (c (S a)) /\ i_last_is_f J = negb (c a) && c (S a) /\ i_comm_back J = negb (c a) && negb (c (S a)).
Proof. intros grids so P l p J q HV H0 HP HO. exact (back_flags grids so P HV H0 HP HO l p J q). Qed.
(** Same set-up: (send_to, get_from) on the three levels. Rank 0 sends over the idle rank 1 on the coarsest level. *)
Example C05_example :
  map (fun l => map (fun r => option_map (fun J => (i_send_to J, i_get_from J)) (setup_level ex_grids ascending_order 5 r l)) (seq 0 5)) [0; 2] =
  [[Some (1, -99); Some (2, 0); Some (3, 1); Some (4, 2); Some (-99, 3)];
   [Some (2, -99); Some (-99, -99); Some (4, 0); Some (-99, -99); Some (-99, 2)]]%Z.
Proof. vm_compute. reflexivity. Qed.
Print Assumptions C05_partners_agree.
Print Assumptions C05_partners_exist.
Print Assumptions C05_boundary_messages.

(** ** C06: split_into is a balanced partition (exact division; see PropSplitFloat.v for the double-precision one) *)
Theorem C06_split_into :
  forall n p, 0 < p ->
  length (split_into n p) = p /\ list_sum (split_into n p) = n /\
  forall i j, i <= j -> j < p -> nth j (split_into n p) 0 <= nth i (split_into n p) 0 <= nth j (split_into n p) 0 + 1.
Proof.
  intros n p H. split; [exact (split_into_length n p H)|]. split; [exact (split_sum n p H)|]. exact (split_nonincreasing n p).
Qed.
Theorem C06_blocks_tile :
  forall n p, 0 < p -> p <= n ->
  concat (map (fun r => let '(size, first) := split_points n p r in seq first size) (seq 0 p)) = seq 0 n.
Proof. exact split_tile. Qed.
Example C06_example : split_into 17 5 = [4; 4; 3; 3; 3] /\ map (split_points 17 5) (seq 0 5) = [(4, 0); (4, 4); (3, 8); (3, 11); (3, 14)].
Proof. split; reflexivity. Qed.
Print Assumptions C06_split_into.
Print Assumptions C06_blocks_tile.

(** ** C17: what the constructor accepts *)
Theorem C17_accepted_iff :
  forall (A : App) (o : Opts A) (P : nat),
  check o P = None <->
  length (o_grids o) = o_ntransfer o + 1 /\
  (forall l, S l < length (o_grids o) ->
     length (nth (S l) (o_grids o) []) <= length (nth l (o_grids o) []) /\
     NoDup (nth (S l) (o_grids o) []) /\ incl (nth (S l) (o_grids o) []) (nth l (o_grids o) [])) /\
  o_cycle o <> None /\ (0 <= o_output_lvl o <= 2)%Z /\ (1 <= o_t_norm o <= 3)%Z /\ (0 <= o_conv_crit o <= 3)%Z /\
  match o_cf o with CfInt _ => True | CfList l => length (o_grids o) <= length l + 1 | CfOther => False end /\
  P <= length (nth 0 (o_grids o) []) /\ (o_dist o <> None -> (o_conv_crit o <= 1)%Z).
Proof. intros A o P. exact (check_iff o P). Qed.
(** A rejected input makes every process raise without sending anything. *)
Theorem C17_rejected_raises :
  forall (A : App) (o : Opts A) (P r : nat) e, check o P = Some e -> mgrit_main o P r = Raise e.
Proof. intros A o P r e H. unfold mgrit_main. rewrite H. reflexivity. Qed.
Example C17_example_accepted : check (zopts3 0 20) 17 = None.
Proof. reflexivity. Qed.
Example C17_example_too_many_processes : check (zopts3 0 20) 18 = Some (UserException 10).
Proof. reflexivity. Qed.
Example C17_example_wrong_criterion : check (zopts3 4 20) 3 = Some (UserException 7).
Proof. reflexivity. Qed.
Print Assumptions C17_accepted_iff.
Print Assumptions C17_rejected_raises.

(** ** C19: simple_setup_problem *)
(** Problem [i] lives on every c^i-th time of the given grid, with matching t_start, t_end and nt. *)
Theorem C19_grids :
  forall q level c w ps, simple_setup q level c = Some (w, ps) ->
  length ps = level /\ nth_error ps 0 = Some q /\
  forall i, i < level -> exists p, nth_error ps i = Some p /\
    (forall k, nth_error (p_t p) k = nth_error (p_t q) (k * c ^ i)) /\
    (0 < i -> p_t p <> [] /\ p_t_start p = hd 0%Z (p_t p) /\ p_t_end p = last (p_t p) 0%Z /\ p_nt p = length (p_t p)).
Proof.
  intros q level c w ps H. destruct (simple_spec q level c w ps H) as (_ & _ & H1 & H2 & _ & H3). auto.
Qed.
Theorem C19_total :
  forall q level c, 0 < c -> 0 < level -> p_t q <> [] -> exists w ps, simple_setup q level c = Some (w, ps).
Proof. exact simple_total. Qed.
(** With at least two points on the coarsest grid the result is a valid hierarchy, without neighbouring C-points if c >= 2,
    and a constructor call on it with admissible options passes all checks. *)
Theorem C19_valid_and_accepted :
  forall q level c w ps, simple_setup q level c = Some (w, ps) ->
  StronglySorted Z.lt (p_t q) -> p_t q <> [] -> level = 1 \/ c ^ (level - 1) < length (p_t q) ->
  valid_hierarchy (map p_t ps) /\
  (2 <= c -> no_adjacent_cpoints (map p_t ps)) /\
  forall (A : App) (o : Opts A) (P : nat), o_grids o = map p_t ps -> o_ntransfer o = level - 1 ->
    o_cycle o <> None -> (0 <= o_output_lvl o <= 2)%Z -> (1 <= o_t_norm o <= 3)%Z -> (0 <= o_conv_crit o <= 3)%Z ->
    match o_cf o with CfInt _ => True | CfList l => level <= length l + 1 | CfOther => False end ->
    P <= length (p_t q) -> (o_dist o <> None -> (o_conv_crit o <= 1)%Z) -> check o P = None.
Proof.
  intros q level c w ps H Hs Hne Hl. destruct (simple_spec q level c w ps H) as (Hc & Hlev & Hlen & Hq & _).
  assert (HV : valid_hierarchy (map p_t ps)) by (apply (simple_valid q level c w ps H Hs Hne); destruct Hl; auto).
  split; [exact HV|]. split; [exact (simple_not_adjacent q level c w ps H Hs)|].
  intros A o P G HT H1 H2 H3 H4 H5 H6 H7. apply check_iff. rewrite G, map_length, Hlen. split; [lia|].
  split; [|split; [auto|split; [auto|split; [auto|split; [auto|split; [auto|]]]]]].
  - intros l Hl'. destruct HV as (_ & V1 & V2). rewrite map_length, Hlen in V1, V2. destruct (V2 l Hl') as (I1 & _ & _).
    assert (ND : NoDup (nth (S l) (map p_t ps) [])).
    { destruct (V1 (S l) ltac:(lia)) as [S1 _]. clear - S1. induction S1 as [|a l' S IH F]; constructor; auto.
      intros Hin. rewrite Forall_forall in F. specialize (F a Hin). lia. }
    split; [|split; auto]. apply NoDup_incl_length; auto.
  - split; [|exact H7]. replace (nth 0 (map p_t ps) []) with (p_t q); [exact H6|]. symmetry. apply nth_error_nth. rewrite nth_error_map, Hq. reflexivity.
Qed.
Definition ex_problem (n : nat) : Problem := mkProblem 0 (Z.of_nat n - 1) (grid_of n 1) n.
Example C19_example :
  option_map (fun x => (fst x, map (fun p => (p_t p, p_t_end p, p_nt p)) (snd x))) (simple_setup (ex_problem 9) 3 3) =
  Some (true, [([0;1;2;3;4;5;6;7;8], 8, 9%nat); ([0;3;6], 6, 3%nat); ([0], 0, 1%nat)])%Z.
Proof. vm_compute. reflexivity. Qed.
Example C19_hypotheses_hold : exists ps, simple_setup (ex_problem 17) 3 2 = Some (false, ps) /\
  StronglySorted Z.lt (p_t (ex_problem 17)) /\ p_t (ex_problem 17) <> [] /\ 2 ^ (3 - 1) < length (p_t (ex_problem 17)).
Proof.
  eexists. split; [vm_compute; reflexivity|]. split; [apply sortedb_ok; reflexivity|]. split; [discriminate|]. simpl. lia.
Qed.
Print Assumptions C19_grids.
Print Assumptions C19_total.
Print Assumptions C19_valid_and_accepted.

(** ** C20: the warning of simple_setup_problem
    When it is given, and when it should be. *)
Theorem C20_warning_condition :
  forall q level c w ps, simple_setup q level c = Some (w, ps) -> p_t q <> [] ->
  (w = true <-> length (p_t q) <= c * level) /\
  (length (last (map p_t ps) []) = 1 <-> length (p_t q) <= c ^ (level - 1)).
Proof.
  intros q level c w ps H Hne. destruct (simple_spec q level c w ps H) as (_ & _ & _ & _ & Hw & _). split.
  - rewrite Hw. tauto.
  - exact (simple_degenerate q level c w ps H Hne).
Qed.
(** The warning is not equivalent to a degenerate coarsest grid; both directions fail. *)
Theorem C20_warning_refuted :
  (exists q level c ps, simple_setup q level c = Some (true, ps) /\ StronglySorted Z.lt (p_t q) /\ length (last (map p_t ps) []) = 2) /\
  (exists q level c ps, simple_setup q level c = Some (false, ps) /\ StronglySorted Z.lt (p_t q) /\ length (last (map p_t ps) []) = 1).
Proof.
  split.
  - exists (ex_problem 3), 2, 2. eexists. split; [vm_compute; reflexivity|]. split; [apply sortedb_ok; reflexivity|reflexivity].
  - exists (ex_problem 33), 4, 4. eexists. split; [vm_compute; reflexivity|]. split; [apply sortedb_ok; reflexivity|reflexivity].
Qed.
Example C20_example : option_map fst (simple_setup (ex_problem 33) 4 4) = Some false.
Proof. reflexivity. Qed.
Print Assumptions C20_warning_condition.
Print Assumptions C20_warning_refuted.

(** ** C21: split_communicator
    With T * s processes every process is in a space communicator of size s and a time communicator of size T, its ranks
    there are rank mod s and rank / s, and they identify it; processes sharing both communicators are equal. *)
Theorem C21_product :
  forall s T rank, 0 < s -> rank < T * s ->
  let '(comm_x, comm_t) := split_communicator (T * s) s rank in
  length comm_x = s /\ length comm_t = T /\ In rank comm_x /\ In rank comm_t /\ NoDup comm_x /\ NoDup comm_t /\
  (forall q, In q comm_x -> In q comm_t -> q = rank) /\
  index_of rank comm_x = rank mod s /\ index_of rank comm_t = rank / s /\
  (forall q, In q comm_x -> fst (split_communicator (T * s) s q) = comm_x) /\
  (forall q, In q comm_t -> snd (split_communicator (T * s) s q) = comm_t).
Proof.
  intros s T rank Hs H. destruct (split_ranks s T rank Hs H) as [R1 R2]. rewrite split_comms in * by auto. cbn [fst snd] in R1, R2.
  pose proof (Nat.div_mod rank s ltac:(lia)) as E. pose proof (Nat.mod_upper_bound rank s ltac:(lia)) as B.
  assert (D : rank / s < T) by (apply Nat.div_lt_upper_bound; lia).
  split; [apply seq_length|]. split; [rewrite map_length; apply seq_length|].
  split; [apply in_seq; nia|]. split; [apply in_map_iff; exists (rank / s); split; [nia|apply in_seq; lia]|].
  split; [apply seq_NoDup|]. split; [apply FinFun.Injective_map_NoDup; [intros x y; nia|apply seq_NoDup]|].
  split.
  { intros q Hq Hq'. apply in_seq in Hq. apply in_map_iff in Hq'. destruct Hq' as (k & <- & Hk).
    destruct (lt_eq_lt_dec k (rank / s)) as [[X|X]|X]; [exfalso; nia|nia|exfalso; nia]. }
  split; [exact R1|]. split; [exact R2|]. split.
  - intros q Hq. apply in_seq in Hq. rewrite split_comms by nia. cbn [fst]. f_equal. f_equal.
    symmetry. apply Nat.div_unique with (r := q - rank / s * s); nia.
  - intros q Hq. apply in_map_iff in Hq. destruct Hq as (k & <- & Hk). apply in_seq in Hk. rewrite split_comms by nia. cbn [snd].
    apply map_ext. intros j. f_equal. rewrite Nat.add_comm, Nat.mod_add by lia. apply Nat.mod_small. lia.
Qed.
Example C21_example : split_communicator 12 3 7 = ([6; 7; 8], [1; 4; 7; 10]).
Proof. reflexivity. Qed.
Print Assumptions C21_product.
