(** Numerical properties over exact vector arithmetic: C08 (fixed point), C09 (finite termination), C10 (zero residual),
    C40 (causality). Steps are arbitrary (non-linear, different on every level); [exact_laws] says that vectors form an
    abelian group on each level, clones are equal and transfers preserve zero. *)
From Coq Require Import List ZArith Lia Arith Bool Sorted Permutation.
From Verif Require Import Net NetProofs PyList ListFacts Setup Spec Mgrit Reference RefProofs Sim Main ParallelProofs ExampleApp OrderProofs Algebra Causality.
Import ListNotations.

Lemma guess_wf {A : App} (wf : nat -> Vec A -> Prop) (o : Opts A) P : good_setup wf o P -> forall i, wf 0 (init_guess o P i).
Proof.
  intros G i. unfold init_guess. destruct (o_rand o) as [rnd|] eqn:E; [eapply (gs_rand _ _ _ G); eauto|].
  apply (wf_zero A wf (gs_laws _ _ _ G)), (wf_templ A wf (gs_laws _ _ _ G)).
Qed.

(** ** C08: the exact solution is a fixed point
    One iteration ([it]-th, V- or F-cycle) of any state whose finest level holds the time-stepping values; the values
    stored on coarser levels are arbitrary. *)
Theorem C08_fixed_point :
  forall (A : App) (wf : nat -> Vec A -> Prop) (zero : nat -> Vec A) (o : Opts A) (G : GS A) (cyc : bool) (it : nat),
  app_laws A wf -> exact_laws A wf zero -> valid_hierarchy (o_grids o) -> weight_mean wf o ->
  (forall l i, l < length (o_grids o) -> i < length (nth l (o_grids o) []) -> wf l (gu G l i) /\ wf l (gv G l i) /\ wf l (gg G l i)) ->
  (forall i, i < length (nth 0 (o_grids o) []) -> gu G 0 i = time_stepping o i) ->
  forall i, i < length (nth 0 (o_grids o) []) -> gu (g_iteration o (length (o_grids o) - 1) 0 cyc it true G) 0 i = time_stepping o i.
Proof.
  intros A wf zero o G cyc it HL HE HV HW W H i Hi. pose proof (L_ge1 o HV) as H1.
  destruct (iteration_kept wf zero o HL HE HV HW (length (o_grids o) - 1) 0 cyc it true G (fun i => i < npts (o_grids o) 0)) as [K _]; auto; try lia.
  - apply full_segment.
  - apply stepping_solved; [apply full_segment|]. exact H.
  - rewrite K by exact Hi. apply H. exact Hi.
Qed.

(** In a parallel run that reports every iterate (output_lvl 2): once the time-stepping solution has been reached, all
    later iterates and the result are the time-stepping solution. *)
Theorem C08_stays_solved :
  forall (A : App) (wf : nat -> Vec A -> Prop) (zero : nat -> Vec A) (o : Opts A) (P n : nat) c,
  good_setup wf o P -> exact_laws A wf zero -> weight_mean wf o -> o_has_output o = true -> o_output_lvl o = 2%Z ->
  steps P n (initial (mgrit_main o P)) c -> stuck P c ->
  exists res, finished P res c /\
    let solution := map (time_stepping o) (seq 0 (length (nth 0 (o_grids o) []))) in
    let output k := gathered P (fun r => snd (nth k (s_out (res r)) (0, []))) in
    forall j, j < length (s_out (res 0)) -> output j = solution ->
      (forall k, j <= k -> k < length (s_out (res 0)) -> output k = solution) /\
      gathered P (fun r => s_u (res r) 0) = solution.
Proof.
  intros A wf zero o P n c G HE HW Hc Hl H S.
  destruct (run_facts wf o P n c G H S) as (res & k & F & _ & _ & Hu & _ & _ & _ & _ & _ & Ag & Ho). exists res. split; [exact F|].
  cbv beta zeta. rewrite Hc, Hl in Ho. simpl Z.eqb in Ho. cbv iota in Ho.
  pose proof (ag_outs _ _ _ _ Ag 0 (gs_procs _ _ _ G)) as X. apply (f_equal (@length nat)) in X. rewrite !map_length, Ho, map_length, seq_length in X.
  assert (E : forall q, q <= k -> gathered P (fun r => snd (nth q (s_out (res r)) (0, []))) =
      map (gu (iterate o (init_guess o P) q) 0) (seq 0 (length (nth 0 (o_grids o) [])))).
  { intros q Hq. apply (ag_outv _ _ _ _ Ag q q). rewrite Ho, nth_error_map, ListFacts.nth_error_seq by lia. reflexivity. }
  intros j Hj Hs. rewrite (E j) in Hs by lia.
  assert (FX : forall q, j <= q -> map (gu (iterate o (init_guess o P) q) 0) (seq 0 (length (nth 0 (o_grids o) []))) =
      map (time_stepping o) (seq 0 (length (nth 0 (o_grids o) [])))).
  { intros q Hq. apply map_ext_in. intros i Hi. apply in_seq in Hi. replace q with (j + (q - j)) by lia.
    apply (iterate_fixed wf zero o (gs_laws _ _ _ G) HE (gs_grids _ _ _ G)); auto; [intros; apply guess_wf; auto| |unfold npts; lia].
    intros i' Hi'. apply (f_equal (fun l => nth_error l i')) in Hs. rewrite !nth_error_map, ListFacts.nth_error_seq in Hs by exact Hi'.
    simpl in Hs. congruence. }
  split.
  - intros q Hq Hq'. rewrite (E q) by lia. apply FX. exact Hq.
  - rewrite Hu. apply FX. lia.
Qed.

(** The integers satisfy the laws; a 17-point three-level F-cycle run reaches the solution in iteration 4 and keeps it in
    the remaining 4 of 8 iterations (tolerance 0). *)
Lemma zapp_exact : exact_laws zapp (fun _ _ => True) (fun _ => 0%Z).
Proof. constructor; simpl; auto; intros; lia. Qed.
Definition zopts8 : Opts zapp :=
  mkOpts zapp [grid_of 17 1; grid_of 9 2; grid_of 3 8] 2 (1%Z : Sc zapp) 8 (0%Z : Sc zapp) false (CfInt 1) (Some true) 2
    true 1 None 0 ascending_order.
Lemma zopts8_good P : 0 < P -> P <= 17 -> good_setup (fun _ _ => True) zopts8 P.
Proof.
  intros HP HP'. constructor.
  - apply zapp_laws.
  - apply valid_hierarchyb_ok. reflexivity.
  - apply no_adjacentb_ok. reflexivity.
  - simpl. lia.
  - exact HP.
  - unfold check. simpl. replace (17 <? P) with false by (symmetry; apply Nat.ltb_ge; lia). reflexivity.
  - left; reflexivity.
  - apply ascending_order_ok.
  - discriminate.
  - discriminate.
Qed.
Lemma zopts_weight o : o_weight o = (1%Z : Sc zapp) -> weight_one (fun _ _ => True) o /\ weight_mean (fun _ _ => True) o.
Proof. intros E. split; intros l y x; rewrite E; simpl; lia. Qed.
Example C08_hypotheses_hold : good_setup (fun _ _ => True) zopts8 3 /\ exact_laws zapp (fun _ _ => True) (fun _ => 0%Z) /\
  weight_mean (fun _ _ => True) zopts8 /\
  let cfg := run_net 3 900 1000 (initial (mgrit_main zopts8 3)) in
  let out k := gathered 3 (fun r => match procs cfg r with Ret s => snd (nth k (s_out s) (0, [])) | _ => [] end) in
  let sol := map (time_stepping zopts8) (seq 0 17) in
  map (fun k => if list_eq_dec Z.eq_dec (out k) sol then true else false) (seq 0 9) =
    [false; false; false; false; true; true; true; true; true].
Proof.
  split; [apply zopts8_good; lia|]. split; [apply zapp_exact|]. split; [apply zopts_weight; reflexivity|]. vm_compute. reflexivity.
Qed.

(** ** C09: finite termination
    Number of coarse times in (t_0, t_i]: the coarse interval point [i] belongs to. *)
Definition coarse_intervals {A : App} (o : Opts A) (i : nat) : nat :=
  let t := nth 0 (o_grids o) [] in
  length (filter (fun s => (nth 0 t 0 <? s)%Z && (s <=? nth i t 0)%Z) (nth 1 (o_grids o) [])).

Lemma nodup_map_in {X Y} (g : X -> Y) l : (forall x y, In x l -> In y l -> g x = g y -> x = y) -> NoDup l -> NoDup (map g l).
Proof.
  intros H. induction 1 as [|a l Ha Hl IH]; constructor.
  - intros E. apply in_map_iff in E. destruct E as (y & Ey & Hy). apply H in Ey; [congruence|right; auto|left; auto].
  - apply IH. intros x y Hx Hy. apply H; right; auto.
Qed.
Lemma ssorted_nodup l : StronglySorted Z.lt l -> NoDup l.
Proof.
  induction 1 as [|a l H IH F]; constructor; auto. intros X. rewrite Forall_forall in F. specialize (F a X). lia.
Qed.
Lemma ssorted_lt l : StronglySorted Z.lt l -> forall i j, i < j -> j < length l -> (nth i l 0 < nth j l 0)%Z.
Proof.
  induction 1 as [|a l H IH F]; intros i j Hij Hj; [simpl in Hj; lia|]. destruct j; [lia|]. simpl in Hj.
  destruct i.
  - simpl. rewrite Forall_forall in F. apply F. apply nth_In. lia.
  - simpl. apply IH; lia.
Qed.
Lemma cc_intervals {A : App} (o : Opts A) i : valid_hierarchy (o_grids o) -> 1 < length (o_grids o) -> i < length (nth 0 (o_grids o) []) ->
  cc o 0 i = coarse_intervals o i.
Proof.
  intros HV HL Hi. destruct HV as (_ & H1 & H2). destruct (H1 0 ltac:(lia)) as [S0 _]. destruct (H1 1 HL) as [S1 _].
  destruct (H2 0 HL) as (Hin & _).
  unfold cc, coarse_intervals. set (t := nth 0 (o_grids o) []) in *. set (t1 := nth 1 (o_grids o) []) in *.
  rewrite <- (map_length (fun j => nth j t 0%Z)). apply Permutation_length. apply NoDup_Permutation.
  - apply nodup_map_in.
    + intros x y Hx Hy E. apply filter_In in Hx, Hy. destruct Hx as [Hx _]. destruct Hy as [Hy _]. apply in_seq in Hx, Hy.
      destruct (Nat.lt_trichotomy x y) as [X|[X|X]]; [|exact X|].
      * pose proof (ssorted_lt t S0 x y X ltac:(lia)). lia.
      * pose proof (ssorted_lt t S0 y x X ltac:(lia)). lia.
    + apply NoDup_filter, seq_NoDup.
  - apply NoDup_filter, ssorted_nodup, S1.
  - intros z. rewrite in_map_iff, filter_In, andb_true_iff, Z.ltb_lt, Z.leb_le. split.
    + intros (j & <- & Hj). apply filter_In in Hj. destruct Hj as [Hj Hc]. apply in_seq in Hj.
      unfold cpoint in Hc. replace (0 =? length (o_grids o) - 1) with false in Hc by (symmetry; apply Nat.eqb_neq; lia).
      apply existsb_exists in Hc. destruct Hc as (y & Hy & E). apply Z.eqb_eq in E. unfold time in E. fold t in E. subst y.
      split; [exact Hy|]. split; [apply (ssorted_lt t S0); lia|].
      destruct (Nat.eq_dec j i) as [->|]; [lia|]. pose proof (ssorted_lt t S0 j i ltac:(lia) ltac:(lia)). lia.
    + intros (Hz & Ha & Hb). destruct (In_nth t z 0%Z (Hin z Hz)) as (j & Hj & E). exists j. split; [exact E|]. apply filter_In. split.
      * apply in_seq. split.
        -- destruct j; [|lia]. lia.
        -- destruct (Nat.lt_ge_cases i j) as [X|X]; [|lia]. pose proof (ssorted_lt t S0 i j X Hj). lia.
      * unfold cpoint. replace (0 =? length (o_grids o) - 1) with false by (symmetry; apply Nat.eqb_neq; lia).
        apply existsb_exists. exists z. split; [exact Hz|]. apply Z.eqb_eq. unfold time. fold t. exact E.
Qed.

(** AtMgrit ([o_dist o <> None]) is included (on one process, see [good_setup]); it needs two levels, and a distance of
    at least 2 where the correction is to gain an interval.
    weight_c = 1: after k iterations all points up to the (k * cf_iter[0])-th coarse interval are exact, whatever the
    coarse propagators and the transfers are. *)
Theorem C09_finite_termination :
  forall (A : App) (wf : nat -> Vec A -> Prop) (zero : nat -> Vec A) (o : Opts A) (P n : nat) c,
  good_setup wf o P -> exact_laws A wf zero -> weight_one wf o -> (o_dist o <> None -> 1 < length (o_grids o)) ->
  steps P n (initial (mgrit_main o P)) c -> stuck P c ->
  exists res k, finished P res c /\ (forall r, r < P -> s_iter (res r) = k) /\
    forall i, 0 < k -> i < length (nth 0 (o_grids o) []) -> coarse_intervals o i <= k * cf_count o 0 ->
      nth_error (gathered P (fun r => s_u (res r) 0)) i = Some (time_stepping o i).
Proof.
  intros A wf zero o P n c G HE HW HD H S.
  destruct (run_facts wf o P n c G H S) as (res & k & F & _ & _ & Hu & Hk & _). exists res, k.
  split; [exact F|]. split; [exact Hk|]. intros i Hk0 Hi Hc. rewrite Hu, nth_error_map, ListFacts.nth_error_seq by lia. simpl. f_equal.
  pose proof (gs_grids _ _ _ G) as HV. pose proof (L_ge1 o HV).
  destruct (Nat.eq_dec (length (o_grids o)) 1) as [E|E]; [apply one_level; auto; destruct (o_dist o); auto; specialize (HD ltac:(discriminate)); lia|].
  apply (solved_stepping o _ (upto o 0 (k * cf_count o 0))).
  - apply upto_segment.
  - apply iterate_first.
  - apply (iterate_gain wf zero o (gs_laws _ _ _ G) HE HV); auto. intros; apply guess_wf; auto.
  - split; [exact Hi|]. rewrite cc_intervals; auto; lia.
Qed.

(** With transfers that lose nothing (e.g. copies) every coarse-grid correction gains one more interval, for any number
    of levels. *)
Theorem C09_finite_termination_lossless :
  forall (A : App) (wf : nat -> Vec A -> Prop) (zero : nat -> Vec A) (o : Opts A) (P n : nat) c,
  good_setup wf o P -> exact_laws A wf zero -> weight_one wf o -> lossless wf ->
  (forall k, o_dist o = Some k -> 1 < length (o_grids o) /\ (2 <= k)%Z) ->
  steps P n (initial (mgrit_main o P)) c -> stuck P c ->
  exists res k, finished P res c /\ (forall r, r < P -> s_iter (res r) = k) /\
    forall i, 0 < k -> i < length (nth 0 (o_grids o) []) -> coarse_intervals o i <= k * (cf_count o 0 + 1) ->
      nth_error (gathered P (fun r => s_u (res r) 0)) i = Some (time_stepping o i).
Proof.
  intros A wf zero o P n c G HE HW HT HD H S.
  destruct (run_facts wf o P n c G H S) as (res & k & F & _ & _ & Hu & Hk & _). exists res, k.
  split; [exact F|]. split; [exact Hk|]. intros i Hk0 Hi Hc. rewrite Hu, nth_error_map, ListFacts.nth_error_seq by lia. simpl. f_equal.
  pose proof (gs_grids _ _ _ G) as HV. pose proof (L_ge1 o HV).
  destruct (Nat.eq_dec (length (o_grids o)) 1) as [E|E]; [apply one_level; auto; destruct (o_dist o) as [d|]; auto; destruct (HD d eq_refl); lia|].
  apply (solved_stepping o _ (upto o 0 (k * (cf_count o 0 + 1)))).
  - apply upto_segment.
  - apply iterate_first.
  - apply (iterate_gain_lossless wf zero o (gs_laws _ _ _ G) HE HV); auto. intros; apply guess_wf; auto.
  - split; [exact Hi|]. rewrite cc_intervals; auto; lia.
Qed.

Lemma filter_length_le {X} (g : X -> bool) l : length (filter g l) <= length l.
Proof. induction l as [|a l IH]; simpl; [lia|]. destruct (g a); simpl; lia. Qed.
Lemma intervals_le {A : App} (o : Opts A) i : valid_hierarchy (o_grids o) -> coarse_intervals o i <= length (nth 1 (o_grids o) []) - 1.
Proof.
  intros HV. unfold coarse_intervals. destruct (Nat.lt_ge_cases 1 (length (o_grids o))) as [HL|HL].
  2:{ rewrite (nth_overflow (o_grids o) (n:=1)) by lia. simpl. lia. }
  destruct HV as (_ & H1 & H2). destruct (H2 0 HL) as (_ & Hh & _). destruct (H1 0 ltac:(lia)) as [_ N0]. destruct (H1 1 HL) as [_ N1].
  destruct (nth 0 (o_grids o) []) as [|a t]; [congruence|]. destruct (nth 1 (o_grids o) []) as [|b t1]; [congruence|].
  simpl in Hh. assert (b = a) as -> by congruence. simpl. rewrite Z.ltb_irrefl. simpl. rewrite Nat.sub_0_r. apply filter_length_le.
Qed.

(** Hence the whole sequential solution is reproduced once k * (cf_iter[0]+1) reaches the number of coarse intervals. *)
Theorem C09_exact_after_enough_iterations :
  forall (A : App) (wf : nat -> Vec A -> Prop) (zero : nat -> Vec A) (o : Opts A) (P n : nat) c,
  good_setup wf o P -> exact_laws A wf zero -> weight_one wf o -> (o_dist o <> None -> 1 < length (o_grids o)) ->
  steps P n (initial (mgrit_main o P)) c -> stuck P c ->
  exists res k, finished P res c /\ (forall r, r < P -> s_iter (res r) = k) /\
    (0 < k -> length (nth 1 (o_grids o) []) <= k * cf_count o 0 + 1 \/
              (lossless wf /\ (forall k, o_dist o = Some k -> (2 <= k)%Z) /\
               length (nth 1 (o_grids o) []) <= k * (cf_count o 0 + 1) + 1) ->
     gathered P (fun r => s_u (res r) 0) = map (time_stepping o) (seq 0 (length (nth 0 (o_grids o) [])))).
Proof.
  intros A wf zero o P n c G HE HW HD H S.
  destruct (C09_finite_termination A wf zero o P n c G HE HW HD H S) as (res & k & F & Hk & X). exists res, k.
  split; [exact F|]. split; [exact Hk|]. intros Hk0 D.
  destruct (run_facts wf o P n c G H S) as (res2 & k2 & F2 & _ & _ & Hu & _).
  assert (Hl : length (gathered P (fun r => s_u (res r) 0)) = length (nth 0 (o_grids o) [])).
  { transitivity (length (gathered P (fun r => s_u (res2 r) 0))).
    - unfold gathered. f_equal. f_equal. apply map_ext_in. intros r Hr. apply in_seq in Hr.
      rewrite (finished_res_unique P c res res2 F F2 r) by lia. reflexivity.
    - rewrite Hu, map_length, seq_length. reflexivity. }
  apply list_ext; [rewrite Hl, map_length, seq_length; reflexivity|]. intros i Hi. rewrite Hl in Hi.
  rewrite nth_error_map, ListFacts.nth_error_seq by lia. simpl.
  pose proof (intervals_le o i (gs_grids _ _ _ G)) as B. destruct D as [D|(HT & HD2 & D)].
  - apply X; auto. lia.
  - assert (HD3 : forall k, o_dist o = Some k -> 1 < length (o_grids o) /\ (2 <= k)%Z).
    { intros d E. split; [apply HD; congruence|apply HD2; auto]. }
    destruct (C09_finite_termination_lossless A wf zero o P n c G HE HW HT HD3 H S) as (res' & k' & F' & Hk' & X').
    pose proof (gs_procs _ _ _ G) as HP.
    assert (k' = k). { rewrite <- (Hk 0 HP), <- (Hk' 0 HP). f_equal. apply (finished_res_unique P c); auto. }
    subst k'. replace (gathered P (fun r => s_u (res r) 0)) with (gathered P (fun r => s_u (res' r) 0)).
    + apply X'; auto. lia.
    + unfold gathered. f_equal. apply map_ext_in. intros r Hr. apply in_seq in Hr. rewrite (finished_res_unique P c res res' F F' r) by lia. reflexivity.
Qed.

(** The example run: 8 coarse intervals, cf_iter = 1, so 4 iterations suffice with copy transfers (see C08_hypotheses_hold:
    iterate 4 is the first exact one), and after 3 iterations exactly the points of the first 6 intervals are exact. *)
Example C09_hypotheses_hold : good_setup (fun _ _ => True) zopts8 3 /\ exact_laws zapp (fun _ _ => True) (fun _ => 0%Z) /\
  weight_one (fun _ _ => True) zopts8 /\ @lossless zapp (fun _ _ => True) /\ cf_count zopts8 0 = 1 /\
  map (coarse_intervals zopts8) (seq 0 17) = [0; 0; 1; 1; 2; 2; 3; 3; 4; 4; 5; 5; 6; 6; 7; 7; 8] /\
  let cfg := run_net 3 900 1000 (initial (mgrit_main zopts8 3)) in
  let out k := gathered 3 (fun r => match procs cfg r with Ret s => snd (nth k (s_out s) (0, [])) | _ => [] end) in
  map (fun i => Z.eqb (nth i (out 3) 0%Z) (time_stepping zopts8 i)) (seq 0 17) =
    [true; true; true; true; true; true; true; true; true; true; true; true; true; true; false; false; false].
Proof.
  split; [apply zopts8_good; lia|]. split; [apply zapp_exact|]. split; [apply zopts_weight; reflexivity|].
  split; [intros l x _; reflexivity|]. split; [reflexivity|]. split; [reflexivity|]. vm_compute. reflexivity.
Qed.

(** ** C10: zero residual means solved
    The stopping value of the residual criterion is zero exactly when the stored solution is the sequential one, although
    it only looks at C-points. Norms are any functions that vanish exactly at zero. *)
Theorem C10_zero_residual_iff_solved :
  forall (A : App) (wf : nat -> Vec A -> Prop) (zero : nat -> Vec A) (o : Opts A) (P n : nat) c,
  good_setup wf o P -> exact_laws A wf zero -> o_conv_crit o = 0%Z ->
  (forall x, wf 0 x -> vnorm A x = sc_zero A <-> x = zero 0) ->
  (forall l, l <> [] -> tnorm A l = Some (sc_zero A) <-> Forall (fun x => x = sc_zero A) l) ->
  steps P n (initial (mgrit_main o P)) c -> stuck P c ->
  exists res k, finished P res c /\ (forall r, r < P -> s_iter (res r) = k) /\
    forall r, r < P -> 0 < k ->
      (nth_error (s_conv (res r)) k = Some (sc_zero A) <->
       gathered P (fun r => s_u (res r) 0) = map (time_stepping o) (seq 0 (length (nth 0 (o_grids o) [])))).
Proof.
  intros A wf zero o P n c G HE Hcr Hvn Htn H S.
  destruct (run_facts wf o P n c G H S) as (res & k & F & _ & _ & Hu & Hk & Hcv & _ & _ & Hh & _). exists res, k.
  split; [exact F|]. split; [exact Hk|]. intros r Hr Hk0. rewrite (Hcv r Hr), <- (Hh k) by lia. rewrite Hu.
  pose proof (gs_grids _ _ _ G) as HV. pose proof (gs_laws _ _ _ G) as HL. pose proof (L_ge1 o HV) as HL1.
  set (it := iterate o (init_guess o P)) in *.
  assert (W : GWF o wf (it k)) by (apply (gwf_iterate wf o HL HV); intros; apply guess_wf; auto).
  assert (Cr : crit_of o (gu (it (k - 1)) 0) (gu (it k) 0) = map (fun i => vnorm A (gres o 0 (it k) i)) (crit_points o)).
  { unfold crit_of, is_jump. rewrite Hcr. reflexivity. }
  rewrite Cr, Htn.
  2:{ intros E. apply map_eq_nil in E. exact (crit_points_ne wf o P G E). }
  assert (Wr : forall i, In i (crit_points o) -> wf 0 (gres o 0 (it k) i)).
  { intros i Hi. unfold crit_points in Hi. apply filter_In in Hi. destruct Hi as [Hi E]. apply in_seq in Hi. apply andb_true_iff in E. destruct E as [_ E]. apply Nat.ltb_lt in E.
    apply (wf_gres o 1 wf HL Nat.lt_0_1 (N0_pos o HV)); auto. apply Hi. }
  rewrite Forall_map, Forall_forall. split.
  - intros Z. apply map_ext_in. intros i Hi. apply in_seq in Hi. unfold it. apply (zero_residual wf zero o HL HE HV); auto.
    + intros; apply guess_wf; auto.
    + intros j Hj. apply Hvn; [apply Wr; auto|]. apply Z; auto.
    + unfold npts. lia.
  - intros E i Hi. apply Hvn; [apply Wr; auto|]. apply (solution_residual wf zero o HL HE HV); auto.
    intros j Hj. apply (f_equal (fun l => nth_error l j)) in E. rewrite !nth_error_map, ListFacts.nth_error_seq in E by exact Hj. simpl in E. congruence.
Qed.

Lemma max_zero l : fold_left Z.max l 0%Z = 0%Z <-> Forall (fun x => (x <= 0)%Z) l.
Proof.
  assert (X : forall l a, (a <= fold_left Z.max l a)%Z).
  { clear l. induction l as [|x l IH]; intros a; simpl; [lia|]. specialize (IH (Z.max a x)). lia. }
  induction l as [|x l IH]; simpl; [split; auto|]. split.
  - intros H. pose proof (X l (Z.max 0 x)). assert (x <= 0)%Z by lia. replace (Z.max 0 x) with 0%Z in H by lia. constructor; [auto|]. apply IH; auto.
  - intros H. inversion H; subst. replace (Z.max 0 x) with 0%Z by lia. apply IH; auto.
Qed.
(** Integer vectors, absolute value, and the sum of absolute values over time. *)
Definition zapp_l1 : App := mkApp Z Z Z Z.add Z.sub Z.mul Z.abs (fun x => x) (fun _ => 0%Z) (fun x => x) (fun _ d => d)
  (fun l x a b => (2 * x + b - a + Z.of_nat l)%Z) (fun _ x => x) (fun _ x => x) (fun _ => 0%Z) (fun _ => 1%Z)
  (fun l => Some (fold_right (fun x s => Z.abs x + s)%Z 0%Z l)) Z.ltb 0%Z (Z.eqb 0) (fun x => (1 - x)%Z).
Definition zopts_l1 : Opts zapp_l1 :=
  mkOpts zapp_l1 [grid_of 17 1; grid_of 9 2; grid_of 3 8] 2 (1%Z : Sc zapp_l1) 20 (1%Z : Sc zapp_l1) true (CfInt 1) (Some true) 2
    true 1 None 0 ascending_order.
Lemma l1_zero l : fold_right (fun x s => Z.abs x + s)%Z 0%Z l = 0%Z <-> Forall (fun x => x = 0%Z) l.
Proof.
  assert (X : forall l, (0 <= fold_right (fun x s => Z.abs x + s) 0 l)%Z) by (clear l; induction l as [|x l IH]; simpl; lia).
  induction l as [|x l IH]; simpl; [split; auto|]. pose proof (X l). split.
  - intros H'. constructor; [lia|]. apply IH. lia.
  - intros H'. inversion H' as [|? ? E1 E2]; subst. apply IH in E2. lia.
Qed.
Example C10_hypotheses_hold :
  good_setup (fun _ _ => True) zopts_l1 4 /\ exact_laws zapp_l1 (fun _ _ => True) (fun _ => 0%Z) /\
  (forall x : Vec zapp_l1, vnorm zapp_l1 x = sc_zero zapp_l1 <-> x = 0%Z) /\
  (forall l, l <> [] -> tnorm zapp_l1 l = Some (sc_zero zapp_l1) <-> Forall (fun x => x = sc_zero zapp_l1) l) /\
  let cfg := run_net 4 900 1000 (initial (mgrit_main zopts_l1 4)) in
  map (fun r => match procs cfg r with Ret s => (s_iter s, nth (s_iter s) (s_conv s) 1%Z) | _ => (0, 1%Z) end) (seq 0 4) =
    [(4, 0%Z); (4, 0%Z); (4, 0%Z); (4, 0%Z)].
Proof.
  split.
  { constructor.
    - constructor; simpl; auto; intros; discriminate.
    - apply valid_hierarchyb_ok. reflexivity.
    - apply no_adjacentb_ok. reflexivity.
    - simpl. lia.
    - lia.
    - reflexivity.
    - left; reflexivity.
    - apply ascending_order_ok.
    - discriminate.
    - discriminate. }
  split; [constructor; simpl; auto; intros; lia|]. split; [intros x; simpl; lia|].
  split; [|vm_compute; reflexivity]. intros l _. simpl. rewrite <- l1_zero. split; [intros E; injection E; auto|intros ->; reflexivity].
Qed.

(** ** C40: causality
    [f] is another family of time steppers that agrees with the original one on steps ending at or before [T]. Runs of
    both problems (on any process counts) produce the same values at all times up to [T], iterate by iterate. *)
Theorem C40_causality :
  forall (A : App) (wf : nat -> Vec A -> Prop) (o : Opts A) (f : nat -> Vec A -> Z -> Z -> Vec A) (T : Z) (P P' n n' : nat) c c',
  let o' := with_phi_opts f o None in
  good_setup wf o P -> good_setup (A := with_phi A f) wf o' P' -> o_rand o = None ->
  (forall l x a b, (b <= T)%Z -> f l x a b = phi A l x a b) ->
  steps P n (initial (mgrit_main o P)) c -> stuck P c ->
  steps P' n' (initial (mgrit_main o' P')) c' -> stuck P' c' ->
  exists res res', finished P res c /\ finished P' res' c' /\
    forall i, i < length (nth 0 (o_grids o) []) -> (nth i (nth 0 (o_grids o) []) 0 <= T)%Z ->
      (s_iter (res 0) = s_iter (res' 0) ->
       nth_error (gathered P (fun r => s_u (res r) 0)) i = nth_error (gathered P' (fun r => s_u (res' r) 0)) i) /\
      (o_has_output o = true -> o_output_lvl o = 2%Z -> forall k, k <= s_iter (res 0) -> k <= s_iter (res' 0) ->
       nth_error (gathered P (fun r => snd (nth k (s_out (res r)) (0, [])))) i =
       nth_error (gathered P' (fun r => snd (nth k (s_out (res' r)) (0, [])))) i).
Proof.
  intros A wf o f T P P' n n' c c' o' G G' Hr Hf H S H' S'.
  destruct (run_facts wf o P n c G H S) as (res & k & F & _ & _ & Hu & Hk & _ & _ & _ & _ & Ag & Ho).
  destruct (run_facts (A := with_phi A f) wf o' P' n' c' G' H' S') as (res' & k' & F' & _ & _ & Hu' & Hk' & _ & _ & _ & _ & Ag' & Ho').
  rewrite (init_guess_zero o) in * by exact Hr. rewrite (init_guess_zero o') in * by reflexivity.
  exists res, res'. split; [exact F|]. split; [exact F'|].
  rewrite (Hk 0 (gs_procs _ _ _ G)), (Hk' 0 (gs_procs _ _ _ G')). intros i Hi HT.
  assert (E : forall q, (gu (iterate o' (@zero_guess (with_phi A f)) q) 0 i : Vec A) = gu (iterate o (@zero_guess A) q) 0 i).
  { intros q. apply (iterate_same o f None (o_dist o) T (or_introl eq_refl) (gs_grids _ _ _ G) Hf (@zero_guess A) (@zero_guess A) q); [reflexivity|]. split; auto. }
  split.
  - intros E'. rewrite Hu, Hu'. change (o_grids o') with (o_grids o). rewrite !nth_error_map, ListFacts.nth_error_seq by lia. simpl. rewrite E, E'. reflexivity.
  - intros Hc Hl q Hq Hq'. change (o_has_output o') with (o_has_output o) in Ho'. change (o_output_lvl o') with (o_output_lvl o) in Ho'.
    rewrite Hc, Hl in Ho, Ho'. simpl Z.eqb in Ho, Ho'. cbv iota in Ho, Ho'.
    rewrite (ag_outv _ _ _ _ Ag q q (gu (iterate o (@zero_guess A) q) 0)).
    2:{ rewrite Ho, nth_error_map, ListFacts.nth_error_seq by lia. reflexivity. }
    rewrite (ag_outv _ _ _ _ Ag' q q (gu (iterate o' (@zero_guess (with_phi A f)) q) 0)).
    2:{ rewrite Ho', nth_error_map, ListFacts.nth_error_seq by lia. reflexivity. }
    change (o_grids o') with (o_grids o). rewrite !nth_error_map, ListFacts.nth_error_seq by lia. simpl. rewrite E. reflexivity.
Qed.

(** One iteration of any two states: values up to [T] only depend on values up to [T]. *)
Theorem C40_iteration_prefix :
  forall (A : App) (o : Opts A) (T : Z) (G G' : GS A) (cyc : bool) (it : nat),
  valid_hierarchy (o_grids o) ->
  (forall i, i < length (nth 0 (o_grids o) []) -> (nth i (nth 0 (o_grids o) []) 0 <= T)%Z ->
     gu G 0 i = gu G' 0 i /\ gg G 0 i = gg G' 0 i) ->
  forall i, i < length (nth 0 (o_grids o) []) -> (nth i (nth 0 (o_grids o) []) 0 <= T)%Z ->
    gu (g_iteration o (length (o_grids o) - 1) 0 cyc it true G) 0 i = gu (g_iteration o (length (o_grids o) - 1) 0 cyc it true G') 0 i.
Proof.
  intros A o T G G' cyc it HV H i Hi HT. pose proof (L_ge1 o HV) as HL1.
  destruct A. destruct o.
  exact (eq_sym (proj1 (iteration_same _ _ _ _ T (or_introl eq_refl) HV (fun l x a b _ => eq_refl) (length o_grids - 1) 0 cyc it true G G' (Nat.add_0_r _) HL1
    (conj (fun i H' => eq_sym (proj1 (H i (proj1 H') (proj2 H')))) (fun i H' _ => eq_sym (proj2 (H i (proj1 H') (proj2 H')))))) i (conj Hi HT))).
Qed.

(** Two problems over the integers whose steps differ after time 9; both satisfy the hypotheses, and the results differ
    after time 9 only. *)
Definition late_phi (l : nat) (x : Vec zapp) (a b : Z) : Vec zapp := if (b <=? 9)%Z then phi zapp l x a b else (7 - x)%Z.
Example C40_hypotheses_hold :
  good_setup (fun _ _ => True) (zopts3 0 20) 3 /\ good_setup (A := with_phi zapp late_phi) (fun _ _ => True) (with_phi_opts late_phi (zopts3 0 20) None) 2 /\
  (forall l x a b, (b <= 9)%Z -> late_phi l x a b = phi zapp l x a b) /\
  let cfg := run_net 3 900 1000 (initial (mgrit_main (zopts3 0 20) 3)) in
  let cfg' := run_net 2 900 1000 (initial (mgrit_main (with_phi_opts late_phi (zopts3 0 20) None) 2)) in
  let out k := gathered 3 (fun r => match procs cfg r with Ret s => snd (nth k (s_out s) (0, [])) | _ => [] end) in
  let out' k := gathered 2 (fun r => match procs cfg' r with Ret s => snd (nth k (s_out s) (0, [])) | _ => [] end) in
  map (fun i => Z.eqb (nth i (out 2) 0%Z) (nth i (out' 2) 0%Z)) (seq 0 17) = repeat true 10 ++ repeat false 7.
Proof.
  split; [apply zopts3_good; auto; lia|]. split.
  { constructor.
    - constructor; simpl; auto; intros; discriminate.
    - apply valid_hierarchyb_ok. reflexivity.
    - apply no_adjacentb_ok. reflexivity.
    - simpl. lia.
    - lia.
    - reflexivity.
    - left; reflexivity.
    - apply ascending_order_ok.
    - discriminate.
    - discriminate. }
  split.
  { intros l x a b Hb. unfold late_phi. apply Z.leb_le in Hb. rewrite Hb. reflexivity. }
  vm_compute. reflexivity.
Qed.

Print Assumptions C08_fixed_point.
Print Assumptions C08_stays_solved.
Print Assumptions C09_finite_termination.
Print Assumptions C09_finite_termination_lossless.
Print Assumptions C09_exact_after_enough_iterations.
Print Assumptions C10_zero_residual_iff_solved.
Print Assumptions C40_causality.
Print Assumptions C40_iteration_prefix.
