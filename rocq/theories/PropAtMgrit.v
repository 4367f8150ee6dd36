(** Properties of class AtMgrit (at_mgrit.py): C25, C26. *)
From Coq Require Import List ZArith Lia Arith Bool Sorted Permutation.
From Verif Require Import Net NetProofs NetPhase PyList ListFacts Setup SplitProofs Spec SetupProofs Mgrit Reference RefProofs Sim Main
  ParallelProofs Algebra Causality NetExec OrderProofs ExampleApp PropHistory PropPhases PropAlgebra.
Import ListNotations.

(** The same arguments given to class Mgrit. *)
Definition as_mgrit {A : App} (o : Opts A) : Opts A :=
  mkOpts A (o_grids o) (o_ntransfer o) (o_weight o) (o_max_iter o) (o_tol o) (o_nested o) (o_cf o) (o_cycle o) (o_output_lvl o)
    (o_has_output o) (o_t_norm o) (o_rand o) (o_conv_crit o) (o_set_order o).

Section Full.
  Context {A : App}.
  Variable o : Opts A.
  Variable d : Z.
  Hypothesis HV : valid_hierarchy (o_grids o).
  Hypothesis Hd : o_dist o = Some d.
  Hypothesis HL : 1 < length (o_grids o).
  Hypothesis Hfull : (Z.of_nat (length (nth (length (o_grids o) - 1) (o_grids o) [])) <= d)%Z.
  Hypothesis Hclone : forall x, vclone A x = x.

  Lemma full_iterate guess k i : i < length (nth 0 (o_grids o) []) ->
    gu (iterate (as_mgrit o) guess k) 0 i = gu (iterate o guess k) 0 i.
  Proof.
    intros Hi. destruct A. destruct o. simpl in Hd, HL, Hfull. subst o_dist.
    refine (proj1 (iterate_same _ _ o_rand None (time o_grids 0 i) _ HV (fun l x a b _ => eq_refl) guess guess k (fun j _ => eq_refl)) i
             (conj Hi (Z.le_refl _))).
    right. split; [reflexivity|]. exists d. auto.
  Qed.
  Lemma full_crit guess j :
    crit_of (as_mgrit o) (gu (iterate (as_mgrit o) guess (j - 1)) 0) (gu (iterate (as_mgrit o) guess j) 0) =
    crit_of o (gu (iterate o guess (j - 1)) 0) (gu (iterate o guess j) 0).
  Proof.
    unfold crit_of. change (is_jump (as_mgrit o)) with (is_jump o). change (crit_points (as_mgrit o)) with (crit_points o).
    change (o_grids (as_mgrit o)) with (o_grids o).
    assert (X : forall i, In i (crit_points o) -> i < length (nth 0 (o_grids o) [])).
    { intros i Hi. apply filter_In in Hi. destruct Hi as [Hi _]. apply in_seq in Hi. unfold npts in Hi. lia. }
    destruct (is_jump o); apply map_ext_in; intros i Hi; specialize (X i Hi); rewrite !full_iterate by lia; reflexivity.
  Qed.
End Full.

(** ** C25: AtMgrit with full distance is Mgrit
    On one process, with a distance of at least the number of coarsest points, AtMgrit gives the result, the convergence
    history, the iteration count and the output calls of Mgrit (on any number of processes). Copies equal originals. *)
Theorem C25_full_distance_is_mgrit :
  forall (A : App) (wf : nat -> Vec A -> Prop) (o : Opts A) (d : Z) (P n n' : nat) c c',
  o_dist o = Some d -> 1 < length (o_grids o) -> (Z.of_nat (length (nth (length (o_grids o) - 1) (o_grids o) [])) <= d)%Z ->
  (forall x, vclone A x = x) -> o_rand o = None ->
  good_setup wf o 1 -> good_setup wf (as_mgrit o) P ->
  steps 1 n (initial (mgrit_main o 1)) c -> stuck 1 c ->
  steps P n' (initial (mgrit_main (as_mgrit o) P)) c' -> stuck P c' ->
  exists res res', finished 1 res c /\ finished P res' c' /\
    s_u (res 0) 0 = gathered P (fun r => s_u (res' r) 0) /\
    (forall r, r < P -> s_conv (res' r) = s_conv (res 0) /\ s_iter (res' r) = s_iter (res 0) /\
                        map fst (s_out (res' r)) = map fst (s_out (res 0))) /\
    (forall j, j < length (s_out (res 0)) ->
       snd (nth j (s_out (res 0)) (0, [])) = gathered P (fun r => snd (nth j (s_out (res' r)) (0, [])))).
Proof.
  intros A wf o d P n n' c c' Hd HL Hf Hc Hr G G' H St H' St'. pose proof (gs_grids _ _ _ G) as HV.
  destruct (run_facts wf o 1 n c G H St) as (res & k & F & K1 & K2 & Hu & Hk & Hcv & S1 & S2 & Hh & Ag & Ho).
  destruct (run_facts wf (as_mgrit o) P n' c' G' H' St') as (res' & k' & F' & K1' & K2' & Hu' & Hk' & Hcv' & S1' & S2' & Hh' & Ag' & Ho').
  rewrite (init_guess_zero o) in * by exact Hr. rewrite (init_guess_zero (as_mgrit o)) in * by exact Hr.
  change (o_max_iter (as_mgrit o)) with (o_max_iter o) in *. change (o_tol (as_mgrit o)) with (o_tol o) in *.
  change (o_has_output (as_mgrit o)) with (o_has_output o) in *. change (o_output_lvl (as_mgrit o)) with (o_output_lvl o) in *.
  change (o_grids (as_mgrit o)) with (o_grids o) in *.
  assert (V : forall m j, j <= m -> j <= k -> j <= k' -> m = k -> 1 <= j ->
     nth_error (gconv (iterate (as_mgrit o) zero_guess k')) j = nth_error (gconv (iterate o zero_guess k)) j).
  { intros m j _ Hj Hj' _ Hj0. rewrite <- Hh, <- Hh' by lia. f_equal. apply (full_crit o d); auto. }
  assert (V' : forall j, 1 <= j -> j <= k -> j <= k' ->
     nth j (gconv (iterate (as_mgrit o) zero_guess k')) (sc_zero A) = nth j (gconv (iterate o zero_guess k)) (sc_zero A)).
  { intros j H1 H2 H3. rewrite !nth_of_error. rewrite (V k j) by lia. reflexivity. }
  assert (E : k' = k).
  { destruct (Nat.lt_trichotomy k k') as [X|[X|X]]; [|auto|]; exfalso.
    - specialize (S2 ltac:(lia)). rewrite <- V' in S2 by lia. rewrite S1' in S2 by lia. discriminate.
    - specialize (S2' ltac:(lia)). rewrite V' in S2' by lia. rewrite S1 in S2' by lia. discriminate. }
  subst k'. exists res, res'. split; [exact F|]. split; [exact F'|].
  assert (Hg : forall (f : nat -> list (Vec A)), gathered 1 f = f 0).
  { intros f. unfold gathered. simpl. apply app_nil_r. }
  assert (Hm : forall q, map (gu (iterate o zero_guess q) 0) (seq 0 (length (nth 0 (o_grids o) []))) =
                         map (gu (iterate (as_mgrit o) zero_guess q) 0) (seq 0 (length (nth 0 (o_grids o) [])))).
  { intros q. apply map_ext_in. intros i Hi. apply in_seq in Hi. symmetry. apply (full_iterate o d); auto. lia. }
  split; [rewrite Hg in Hu; rewrite Hu, Hu'; apply Hm|]. split.
  - intros r Hrr. rewrite (Hcv' r Hrr), (Hk' r Hrr), (Hcv 0), (Hk 0) by lia. split; [|split; [reflexivity|]].
    + apply list_nth_ext. intros j. destruct (Nat.eq_dec j 0) as [->|Hj0].
      * unfold iterate. rewrite (passes_conv_prefix (as_mgrit o) 0 k), (passes_conv_prefix o 0 k) by lia. simpl.
        rewrite !construct_conv. reflexivity.
      * destruct (Nat.le_gt_cases j k) as [X|X]; [apply (V k); lia|]. unfold iterate.
        rewrite (passes_conv_zero (as_mgrit o)), (passes_conv_zero o) by lia. rewrite !construct_conv. reflexivity.
    + rewrite (ag_outs _ _ _ _ Ag' r Hrr), (ag_outs _ _ _ _ Ag 0) by lia. rewrite Ho, Ho'.
      destruct (o_has_output o); [|reflexivity]. destruct (_ =? 2)%Z; [rewrite !map_map; reflexivity|]. destruct (_ =? 1)%Z; reflexivity.
  - intros j Hj. pose proof (ag_outs _ _ _ _ Ag 0 ltac:(lia)) as X. apply (f_equal (@length nat)) in X. rewrite !map_length in X. rewrite X in Hj.
    rewrite <- (Hg (fun r => snd (nth j (s_out (res r)) (0, [])))). rewrite Ho in Hj.
    destruct (o_has_output o) eqn:E1; [|simpl in Hj; lia]. destruct (o_output_lvl o =? 2)%Z eqn:E2.
    + rewrite map_length, seq_length in Hj.
      rewrite (ag_outv _ _ _ _ Ag j j (gu (iterate o zero_guess j) 0)).
      2:{ rewrite Ho, nth_error_map, ListFacts.nth_error_seq by lia. reflexivity. }
      rewrite (ag_outv _ _ _ _ Ag' j j (gu (iterate (as_mgrit o) zero_guess j) 0)).
      2:{ rewrite Ho', nth_error_map, ListFacts.nth_error_seq by lia. reflexivity. }
      apply Hm.
    + destruct (o_output_lvl o =? 1)%Z; [|simpl in Hj; lia]. simpl in Hj. assert (j = 0) as -> by lia.
      rewrite (ag_outv _ _ _ _ Ag 0 k (gu (iterate o zero_guess k) 0)) by (rewrite Ho; reflexivity).
      rewrite (ag_outv _ _ _ _ Ag' 0 k (gu (iterate (as_mgrit o) zero_guess k) 0)) by (rewrite Ho'; reflexivity).
      apply Hm.
Qed.

(** The coarsest solve of AtMgrit: point [j] holds the old value [min (d - 1) j] points before it, propagated to [j]. *)
Theorem C25_coarse_solve :
  forall (A : App) (wf : nat -> Vec A -> Prop) (o : Opts A) (d : Z) (n : nat) (inf : nat -> list LvlInfo) (s : nat -> St A) (G : GS A) c,
  good_setup wf o 1 -> o_dist o = Some d -> setup_infos o 1 0 = Some (inf 0) -> represents wf o 1 s G ->
  1 < length (o_grids o) ->
  let l := length (o_grids o) - 1 in
  steps 1 n (initial (fun r => coarse_solve o 1 r (inf r) l (s r))) c -> stuck 1 c ->
  exists s' x, finished 1 s' c /\ represents wf o 1 s' (with_u G l x) /\
    s_u (s' 0) l = map x (seq 0 (length (nth l (o_grids o) []))) /\
    forall j, let m := Nat.min (Z.to_nat (d - 1)) j in
      exists y, y (j - m) = vclone A (gu G l (j - m)) /\
        (forall i, j - m <= i -> i < j ->
           y (S i) = vadd A (gg G l (S i)) (phi A l (y i) (time (o_grids o) l i) (time (o_grids o) l (S i)))) /\
        x j = y j.
Proof.
  intros A wf o d n inf s G c GSu Hd Hi R HL l H St.
  destruct (coarse_solve_sim o 1 wf (gs_laws _ _ _ GSu) (HV' wf o 1 GSu) (gs_apart _ _ _ GSu) (HP0' wf o 1 GSu) (HP' wf o 1 GSu) (Hgcc' wf o 1 GSu)
      (fun l r Hl Hr => proj1 (f_order_block wf o 1 GSu l r Hl Hr)) (fun l r Hl Hr => proj2 (f_order_block wf o 1 GSu l r Hl Hr)) (gs_dist _ _ _ GSu) s G R)
    as (s' & F & R').
  unfold g_csolve in R'. rewrite Hd in R'. fold l in R', F. assert (Hl0 : (l =? 0) = false) by (apply Nat.eqb_neq; unfold l; lia). rewrite Hl0 in R'.
  exists s', (window o l G (Z.to_nat (d - 1))). split; [|split; [exact R'|split]].
  - refine (phase_runs 1 _ s' _ n c H St). refine (phase_eq 1 _ _ _ _ F). intros r Hr.
    rewrite (infos_unique wf o 1 GSu inf (fun r Hr => ltac:(replace r with 0 by lia; exact Hi)) r Hr). reflexivity.
  - pose proof (represents_values wf o 1 GSu s' _ R' l ltac:(unfold l; lia)) as X. unfold level_values, gathered in X. simpl in X.
    rewrite app_nil_r in X. rewrite X. apply map_ext. intros i. unfold at1. rewrite Nat.eqb_refl. reflexivity.
  - clear -Hl0. intros j. cbv zeta. generalize (Z.to_nat (d - 1)). intros q.
    exists (fun i => window o l G (i - (j - Nat.min q j)) i). split; [|split].
    + rewrite Nat.sub_diag. destruct (j - Nat.min q j); reflexivity.
    + intros i H1 H2. replace (S i - (j - Nat.min q j)) with (S (i - (j - Nat.min q j))) by lia. cbn [window]. unfold gstep. rewrite Hl0.
      rewrite Nat.sub_succ, Nat.sub_0_r. reflexivity.
    + replace (j - (j - Nat.min q j)) with (Nat.min q j) by lia. revert q. induction j as [|j IH]; intros [|q]; try reflexivity.
      cbn [Nat.min window]. rewrite IH. reflexivity.
Qed.

(** ** C26: AtMgrit on several processes *)

(** A program none of whose paths returns, whatever it receives. *)
Inductive noret {M B : Type} : prog M B -> Prop :=
| noret_raise e : noret (Raise e)
| noret_send d t m k : noret k -> noret (Send d t m k)
| noret_recv s t k : (forall m, noret (k m)) -> noret (Recv s t k)
| noret_wait k : noret k -> noret (WaitAll k).
Lemma noret_bind1 {M B C} (p : prog M B) (f : B -> prog M C) : noret p -> noret (bind p f).
Proof. induction 1; simpl; constructor; auto. Qed.
Lemma noret_bind2 {M B C} (p : prog M B) (f : B -> prog M C) : (forall x, noret (f x)) -> noret (bind p f).
Proof. intros H. induction p; simpl; try constructor; auto. Qed.
Lemma noret_bind_assoc {M B C D} (p : prog M B) (f : B -> prog M C) (g : C -> prog M D) :
  noret (bind p (fun x => bind (f x) g)) -> noret (bind (bind p f) g).
Proof. induction p; simpl; intros X; auto; inversion X; subst; constructor; auto. Qed.
Lemma noret_step {M B} P q (c c' : config M B) r : step P q c c' -> noret (procs c r) -> noret (procs c' r).
Proof.
  intros H N. unfold step in H. destruct H as [_ H].
  destruct (Nat.eqb_spec r q) as [->|Hne].
  - destruct (procs c q) eqn:E; try contradiction; inversion N; subst.
    + destruct H as [-> _]. rewrite Nat.eqb_refl. assumption.
    + destruct H as (m & rest & _ & -> & _). rewrite Nat.eqb_refl. auto.
    + destruct H as (_ & -> & _). rewrite Nat.eqb_refl. assumption.
  - apply Nat.eqb_neq in Hne. destruct (procs c q) eqn:E; try contradiction.
    + destruct H as [-> _]. rewrite Hne. assumption.
    + destruct H as (m & rest & _ & -> & _). rewrite Hne. auto.
    + destruct H as (_ & -> & _). rewrite Hne. assumption.
Qed.
Lemma noret_steps {M B} P n (c c' : config M B) r : steps P n c c' -> noret (procs c r) -> noret (procs c' r).
Proof.
  induction 1 as [c c' E _ | q n c c1 c' Hs _ IH]; intros N; [rewrite <- E; exact N|]. apply IH. eapply noret_step; eauto.
Qed.

Lemma filter_id {B} (f : B -> bool) l : (forall x, In x l -> f x = true) -> filter f l = l.
Proof. induction l as [|x l IH]; intros H; [reflexivity|]. simpl. rewrite (H x) by (left; auto). rewrite IH; auto. intros; apply H; right; auto. Qed.
Lemma filter_map_swap {B C} (p : C -> bool) (h : B -> C) l : filter p (map h l) = map h (filter (fun x => p (h x)) l).
Proof. induction l as [|x l IH]; [reflexivity|]. simpl. destruct (p (h x)); simpl; rewrite IH; reflexivity. Qed.
Lemma map_nth_seq (l : list Z) : l = map (fun i => nth i l 0%Z) (seq 0 (length l)).
Proof.
  apply (nth_ext _ _ 0%Z 0%Z); [rewrite map_length, seq_length; reflexivity|]. intros i Hi.
  rewrite (nth_indep (map _ _) 0%Z (nth 0 l 0%Z)) by (rewrite map_length, seq_length; exact Hi).
  rewrite (map_nth (fun i => nth i l 0%Z)), seq_nth by exact Hi. reflexivity.
Qed.
Lemma hd_count (f : nat -> nat) P : 0 < P -> 0 < f 0 -> hd 0 (filter (fun n => 0 <? n) (map f (seq 0 P))) = f 0.
Proof. intros HP H. destruct P; [lia|]. simpl. apply Nat.ltb_lt in H. rewrite H. reflexivity. Qed.
Section Several.
  Context {A : App}.
  Variable o : Opts A.
  Variable P : nat.
  Variable d : Z.
  Hypothesis HV : valid_hierarchy (o_grids o).
  Hypothesis Hd : o_dist o = Some d.
  Hypothesis Hd1 : (1 <= d)%Z.
  Hypothesis HP2 : 2 <= P.
  Hypothesis HP : P <= length (nth 0 (o_grids o) []).
  Hypothesis HL : 1 < length (o_grids o).
  Notation grids := (o_grids o).
  Notation L := (length (o_grids o)).
  Let HP0 : 0 < P. Proof. lia. Qed.

  Lemma setup_cpts l r J : l < L -> r < P -> setup_level grids (o_set_order o) P r l = Some J -> i_cpts J = cps grids P l r.
  Proof.
    intros Hl Hr H. unfold setup_level in H. rewrite (my_pts_eq grids P HV HP0 HP l r Hl Hr), (split_times_eq grids P HP0 HP) in H.
    fold (pts grids P l r) in H. rewrite (cps_eq grids P HV HP0 HP l r Hl Hr) in H. cbv zeta in H.
    destruct (sequence _); [|discriminate]. match type of H with match ?x with _ => _ end = _ => destruct x end; [|discriminate].
    injection H as <-. reflexivity.
  Qed.
  Lemma infos_cpts infos : setup_infos o P 0 = Some infos -> i_cpts (inf infos (L - 1)) = seq 0 (cnt grids P (L - 1) 0).
  Proof.
    intros H. unfold setup_infos, nlev in H.
    assert (X : forall (ls : list nat) js, sequence (map (setup_info o P 0) ls) = Some js ->
              forall i, i < length ls -> exists J, nth_error js i = Some J /\ setup_info o P 0 (nth i ls 0) = Some J).
    { clear H. induction ls as [|x ls IH]; intros js Hj i Hi; [simpl in Hi; lia|]. simpl in Hj.
      destruct (setup_info o P 0 x) as [J|] eqn:E; [|discriminate]. destruct (sequence _) as [js'|] eqn:E2; [|discriminate]. injection Hj as <-.
      destruct i as [|i]; [exists J; auto|]. simpl in Hi. apply (IH js' eq_refl i). lia. }
    destruct (X _ _ H (L - 1)) as (J & HJ & HI); [rewrite seq_length; lia|]. rewrite seq_nth in HI by lia. simpl in HI.
    unfold inf. erewrite nth_error_nth by exact HJ. unfold setup_info in HI.
    match type of HI with (if ?b then _ else _) = _ => destruct b; [discriminate|] end.
    destruct (setup_level _ _ _ _ _) as [J'|] eqn:E; [|discriminate].
    match type of HI with (if ?b then _ else _) = _ => destruct b; [discriminate|] end. assert (J = J') as -> by congruence.
    rewrite (setup_cpts (L - 1) 0 J') by (auto; lia). unfold cps, pts. rewrite (lo_0 grids P HV HP0 HP) by lia.
    apply filter_id. intros i _. unfold SetupProofs.isC. rewrite Nat.eqb_refl. reflexivity.
  Qed.
  Lemma first_count : hd 0 (coarsest_counts o P) = cnt grids P (L - 1) 0 /\ 0 < cnt grids P (L - 1) 0.
  Proof.
    assert (HlL : L - 1 < L) by lia. pose proof (N_pos grids P HV HP0 HP (L - 1) HlL) as HN.
    pose proof (lo_cnt grids P HV HP0 HP (L - 1) 0 HlL HP0) as E1. rewrite (lo_0 grids P HV HP0 HP) in E1 by exact HlL. simpl in E1.
    assert (C : 0 < cnt grids P (L - 1) 0).
    { destruct (owner_spec grids P HV HP0 HP (L - 1) 0 HlL HN) as [O1 O2]. destruct (owner grids P (L - 1) 0) as [|q] eqn:Eo; [lia|].
      pose proof (lo_cnt grids P HV HP0 HP (L - 1) (S q) HlL O1).
      pose proof (lo_pos grids P HV HP0 HP (L - 1) (S q) HlL ltac:(lia) O1 ltac:(lia)). lia. }
    split; [|exact C]. unfold coarsest_counts, coarsest_owner. rewrite (split_times_eq grids P HP0 HP). unfold nlev.
    assert (E : length (filter (Nat.eqb 0) (map (searchsorted (splits grids P)) (nth (L - 1) grids []))) = cnt grids P (L - 1) 0).
    { rewrite (map_nth_seq (nth (L - 1) grids [])), map_map, filter_map_swap, map_length.
      change (length (nth (L - 1) grids [])) with (N grids (L - 1)). pose proof (lo_le_N grids P HP0 HP (L - 1) 1) as U.
      replace (N grids (L - 1)) with (cnt grids P (L - 1) 0 + (N grids (L - 1) - cnt grids P (L - 1) 0)) by lia.
      rewrite seq_app, filter_app, filter_id, (filter_none _ (seq (0 + _) _)), app_nil_r, seq_length; [reflexivity| |].
      - intros i Hi. apply in_seq in Hi. apply Nat.eqb_neq. intros X. destruct (owner_spec grids P HV HP0 HP (L - 1) i HlL ltac:(lia)) as [_ Y].
        assert (Z : owner grids P (L - 1) i = 0) by (symmetry; exact X). rewrite Z in Y. lia.
      - intros i Hi. apply in_seq in Hi. apply Nat.eqb_eq. symmetry. apply (owner_eq grids P HV HP0 HP (L - 1) 0 i HlL HP0).
        rewrite (lo_0 grids P HV HP0 HP) by exact HlL. lia. }
    rewrite <- E. apply (hd_count (fun q => length (filter (Nat.eqb q) (map (searchsorted (splits grids P)) (nth (L - 1) grids []))))); [lia|].
    rewrite E. exact C.
  Qed.

  Lemma at_solve_noret infos s : setup_infos o P 0 = Some infos -> too_many_points o P = None ->
    noret (coarse_solve o P 0 infos (L - 1) s).
  Proof.
    intros Hi _. unfold coarse_solve. rewrite Hd. change (Mgrit.L o) with L. replace (L =? 1) with false by (symmetry; apply Nat.eqb_neq; lia).
    replace (P =? 1) with false by (symmetry; apply Nat.eqb_neq; lia). unfold at_solve_parallel. destruct first_count as [F1 F2].
    rewrite (infos_cpts infos Hi). replace (d <=? 0)%Z with false by (symmetry; apply Z.leb_gt; lia).
    destruct (cnt grids P (L - 1) 0) as [|c] eqn:E; [lia|]. cbn [seq]. cbv zeta.
    assert (Hlast : last (0 :: seq 1 c) 0 = c).
    { change (0 :: seq 1 c) with (seq 0 (S c)). rewrite seq_S, last_last. reflexivity. }
    rewrite Hlast.
    destruct (py_nth (nth (L - 1) grids []) (Z.of_nat c)) as [t|] eqn:Et; [|constructor]. cbn [lift bind].
    destruct (py_nth (s_g s (L - 1)) (-1)) as [gl|]; [|constructor]. cbn [lift bind].
    destruct (py_nth (s_u s (L - 1)) (-1)) as [ul|]; [|constructor]. cbn [lift bind].
    set (k := Z.to_nat d).
    assert (Hg : local_coarse_grid o P 0 infos k = firstn (if c =? 0 then 1 else 2) (nth (L - 1) grids [])).
    { unfold local_coarse_grid. change (Mgrit.L o) with L. rewrite (infos_cpts infos Hi), E, F1. cbn [seq hd].
      replace (0 + 1 - k) with 0 by (unfold k; lia). destruct c as [|c]; reflexivity. }
    assert (Hroot : members P 0 (at_black o P k) = [] \/ exists others, members P 0 (at_black o P k) = 0 :: others).
    { generalize (at_black o P k). clear -HP2. intros color. unfold members. destruct (color 0) as [a|] eqn:Ea; [right|left; apply filter_none; reflexivity].
      destruct P as [|P']; [lia|]. cbn [seq filter]. rewrite Ea, Nat.eqb_refl. eauto. }
    unfold allgather_black. destruct Hroot as [-> | (others & ->)]; [constructor|]. rewrite Nat.eqb_refl.
    (* whatever is received, the own triple comes first *)
    assert (Hraise : forall ls green (p : prog (Msg A) (St A)),
      noret (if existsb (fun x => memz (fst (fst x)) (local_coarse_grid o P 0 infos k)) (((t, vpack A gl, vpack A ul) :: ls) ++ green) then Raise AttributeError
             else if 1 <? length (local_coarse_grid o P 0 infos k) then Raise AttributeError else p)).
    { intros ls green p. rewrite Hg. destruct c as [|c].
      - cbn [Nat.eqb]. replace (existsb _ _) with true; [constructor|]. symmetry. simpl existsb. apply orb_true_iff. left.
        unfold py_nth in Et. simpl in Et. destruct (nth (L - 1) grids []) as [|t0 g]; [discriminate|]. injection Et as <-.
        simpl. rewrite Z.eqb_refl. reflexivity.
      - destruct (existsb _ _); [constructor|]. replace (1 <? _) with true; [constructor|]. symmetry. apply Nat.ltb_lt.
        cbn [Nat.eqb]. unfold py_nth in Et. replace (0 <=? Z.of_nat (S c))%Z with true in Et by (symmetry; apply Z.leb_le; lia).
        rewrite Nat2Z.id in Et. assert (S c < length (nth (L - 1) grids [])) by (apply nth_error_Some; rewrite Et; discriminate).
        rewrite firstn_length. lia. }
    apply noret_bind_assoc. apply noret_bind2. intros ls. apply noret_bind_assoc. apply noret_bind2. intros _. cbn [bind].
    apply noret_bind2. intros green. apply Hraise.
  Qed.

  Lemma iteration_noret infos : setup_infos o P 0 = Some infos -> too_many_points o P = None ->
    forall n l cyc it ff s, n + l = L - 1 -> noret (iteration o P 0 infos (coarse_solve o P 0 infos) n l cyc it ff s).
  Proof.
    intros Hi Ht. induction n as [|n IH]; intros l cyc it ff s Hn; cbn [iteration].
    - replace l with (L - 1) by lia. apply at_solve_noret; auto.
    - cbv zeta. apply noret_bind1. apply noret_bind2. intros s1. apply noret_bind2. intros s2. apply noret_bind2. intros s3.
      apply noret_bind1. apply IH. lia.
  Qed.
  Lemma main_noret : 0 < o_max_iter o \/ o_nested o = true -> noret (mgrit_main o P 0).
  Proof.
    intros Hm. unfold mgrit_main. destruct (check o P); [constructor|]. destruct (setup_infos o P 0) as [infos|] eqn:Hi; [|constructor].
    destruct (too_many_points o P) eqn:Ht; [constructor|]. destruct (o_nested o) eqn:En.
    - apply noret_bind1. unfold construct. apply noret_bind2. intros _. rewrite En. apply noret_bind1. unfold nested_iteration. apply noret_bind1.
      apply at_solve_noret; auto.
    - destruct Hm as [Hm|]; [|discriminate]. apply noret_bind2. intros s. unfold solve. apply noret_bind1.
      destruct (o_max_iter o) as [|m]; [lia|]. cbn [solve_loop]. apply noret_bind1. unfold solve_pass. apply noret_bind1.
      apply iteration_noret; auto.
  Qed.
End Several.

Lemma noret_ret {M B} (b : B) : ~ noret (Ret b : prog M B).
Proof. intros H. inversion H. Qed.

(** Whenever a solver iteration (or nested iteration) is asked for, no execution of AtMgrit on two or more processes ever
    ends with a result on process 0: the first coarsest solve reads the never assigned g_coarsest, or the constructor
    refuses the distribution of the coarsest points. *)
Theorem C26_parallel_never_returns :
  forall (A : App) (o : Opts A) (P n : nat) (d : Z) c,
  valid_hierarchy (o_grids o) -> 1 < length (o_grids o) -> o_dist o = Some d -> (1 <= d)%Z -> 2 <= P ->
  0 < o_max_iter o \/ o_nested o = true ->
  steps P n (initial (mgrit_main o P)) c -> forall s, procs c 0 <> Ret s.
Proof.
  intros A o P n d c HV HL Hd Hd1 HP2 Hm H s E. apply (noret_ret (M := Msg A) s). rewrite <- E.
  apply (noret_steps P n _ _ 0 H). simpl.
  destruct (check o P) eqn:C; [unfold mgrit_main; rewrite C; constructor|].
  apply (main_noret o P d); auto. apply check_procs. exact C.
Qed.

(** The same run on one process does give a result: the claim that the process count does not matter is false. *)
Definition zopts_at (d : Z) (max_iter : nat) : Opts zapp :=
  mkOptsAt zapp [grid_of 17 1; grid_of 9 2; grid_of 5 4] 2 (1%Z : Sc zapp) max_iter (1%Z : Sc zapp) false (CfInt 1) (Some false) 2 true 2 None 0
    ascending_order (Some d).
Lemma zopts_at_good d max_iter : (1 <= d)%Z -> good_setup (fun _ _ => True) (zopts_at d max_iter) 1.
Proof.
  intros Hd. constructor.
  - apply zapp_laws.
  - apply valid_hierarchyb_ok. reflexivity.
  - apply no_adjacentb_ok. reflexivity.
  - simpl. lia.
  - lia.
  - reflexivity.
  - left; reflexivity.
  - apply ascending_order_ok.
  - discriminate.
  - intros k E. injection E as <-. auto.
Qed.
Lemma as_mgrit_good d max_iter P : 0 < P -> P <= 17 -> good_setup (fun _ _ => True) (as_mgrit (zopts_at d max_iter)) P.
Proof.
  intros HP HP'. constructor.
  - apply zapp_laws.
  - apply valid_hierarchyb_ok. reflexivity.
  - apply no_adjacentb_ok. reflexivity.
  - simpl. lia.
  - exact HP.
  - unfold check. simpl. replace (17 <? P) with false by (symmetry; apply Nat.ltb_ge; lia). reflexivity.
  - left; reflexivity.
  - apply ascending_order_ok.
  - discriminate.
  - discriminate.
Qed.

Theorem C26_process_count_independence_refuted :
  ~ (forall (A : App) (wf : nat -> Vec A -> Prop) (o : Opts A) (P P' n n' : nat) c c',
     app_laws A wf -> valid_hierarchy (o_grids o) -> no_adjacent_cpoints (o_grids o) -> check o P = None -> check o P' = None ->
     f_order_ok (o_grids o) (o_set_order o) P -> f_order_ok (o_grids o) (o_set_order o) P' ->
     (forall d, o_dist o = Some d -> (1 <= d)%Z) ->
     steps P n (initial (mgrit_main o P)) c -> stuck P c -> steps P' n' (initial (mgrit_main o P')) c' -> stuck P' c' ->
     (exists res, finished P res c) -> exists res', finished P' res' c').
Proof.
  intros H. pose proof (zopts_at_good 3 2 ltac:(lia)) as G.
  destruct (run_main (fun _ _ => True) (zopts_at 3 2) 1 G) as (n & c & res & S1 & F1 & _).
  assert (St1 : stuck 1 c) by (eapply finished_stuck; eauto).
  set (c' := run_net 4 60 1000 (initial (mgrit_main (zopts_at 3 2) 4))).
  assert (W : exists n', steps 4 n' (initial (mgrit_main (zopts_at 3 2) 4)) c') by (apply run_net_steps).
  assert (St' : stuck 4 c') by (apply stuckb_ok; vm_compute; reflexivity).
  destruct W as (n' & S2). clearbody c'.
  assert (E : exists res', finished 4 res' c').
  { refine (H zapp (fun _ _ => True) (zopts_at 3 2) 1 4 n n' c c' zapp_laws (gs_grids _ _ _ G) (gs_apart _ _ _ G) eq_refl eq_refl
      (ascending_order_ok _ _) (ascending_order_ok _ _) _ S1 St1 S2 St' (ex_intro _ res F1)).
    intros d E. injection E as <-. lia. }
  destruct E as (res' & F' & _). specialize (F' 0 ltac:(lia)).
  apply (C26_parallel_never_returns zapp (zopts_at 3 2) 4 n' 3 c' (gs_grids _ _ _ G) ltac:(simpl; lia) eq_refl ltac:(lia) ltac:(lia)
           (or_introl Nat.lt_0_2) S2 _ F').
Qed.

(** On one level AtMgrit changes nothing: the result is the initial guess, however many iterations are made. *)
Theorem C26_single_level_does_nothing :
  forall (A : App) (wf : nat -> Vec A -> Prop) (o : Opts A) (d : Z) (n : nat) c,
  good_setup wf o 1 -> o_dist o = Some d -> length (o_grids o) = 1 -> o_nested o = false -> o_rand o = None ->
  steps 1 n (initial (mgrit_main o 1)) c -> stuck 1 c ->
  exists res, finished 1 res c /\
    s_u (res 0) 0 = vclone A (tstart A 0) :: repeat (vzero A (templ A 0)) (length (nth 0 (o_grids o) []) - 1).
Proof.
  intros A wf o d n c G Hd HL Hn Hr H St.
  destruct (run_facts wf o 1 n c G H St) as (res & k & F & _ & _ & Hu & _). exists res. split; [exact F|].
  rewrite (init_guess_zero o) in Hu by exact Hr. unfold gathered in Hu. simpl in Hu. rewrite app_nil_r in Hu. rewrite Hu.
  rewrite (at_one_level o zero_guess k d Hd HL).
  pose proof (gs_two _ _ _ G). destruct (length (nth 0 (o_grids o) [])) as [|m]; [lia|].
  replace (S m - 1) with m by lia. cbn [seq map]. f_equal.
  - apply iterate_first.
  - assert (E : forall i, 0 < i -> gu (iterate o zero_guess 0) 0 i = vzero A (templ A 0)).
    { intros i Hi. unfold iterate. simpl. rewrite construct_gu, Hn. unfold g_init. simpl. destruct i; [lia|]. reflexivity. }
    clear -E. assert (X : forall a, 0 < a -> map (gu (iterate o zero_guess 0) 0) (seq a m) = repeat (vzero A (templ A 0)) m).
    { induction m as [|m IH]; intros a Ha; [reflexivity|]. simpl. rewrite E, IH by lia. reflexivity. }
    apply X. lia.
Qed.

(** Hypotheses: three levels with 5 coarsest points. Distance 5 gives the values of Mgrit, distance 2 others; distance 1
    leaves the coarsest level as it is; four processes end in the AttributeError. *)
Definition at_values (o : Opts zapp) : list (list Z) :=
  match procs (run_net 1 900 1000 (initial (mgrit_main o 1))) 0 with Ret s => map snd (s_out s) | _ => [] end.
Example C25_hypotheses_hold : forall P, 0 < P -> P <= 17 ->
  good_setup (fun _ _ => True) (zopts_at 5 2) 1 /\ good_setup (fun _ _ => True) (as_mgrit (zopts_at 5 2)) P /\
  o_dist (zopts_at 5 2) = Some 5%Z /\ 1 < length (o_grids (zopts_at 5 2)) /\ length (nth 2 (o_grids (zopts_at 5 2)) []) = 5 /\
  (forall x, vclone zapp x = x).
Proof. intros P H H'. split; [apply zopts_at_good; lia|]. split; [apply as_mgrit_good; auto|]. repeat split. simpl. lia. Qed.
Example C25_values :
  at_values (zopts_at 5 2) = at_values (as_mgrit (zopts_at 5 2)) /\
  map (fun l => nth 16 l 0%Z) (at_values (zopts_at 2 2)) <> map (fun l => nth 16 l 0%Z) (at_values (zopts_at 5 2)).
Proof. split; [vm_compute; reflexivity|]. vm_compute. discriminate. Qed.
Example C26_four_processes :
  match procs (run_net 4 60 1000 (initial (mgrit_main (zopts_at 3 2) 4))) 0 with Raise AttributeError => True | _ => False end.
Proof. vm_compute. exact I. Qed.

(** C08 and C09 also speak about AtMgrit: with distance 2 the example is exact from the 4th iteration on (8 coarse
    intervals, two of them gained per iteration). *)
Example C09_at_mgrit_hypotheses_hold :
  good_setup (fun _ _ => True) (zopts_at 2 20) 1 /\ exact_laws zapp (fun _ _ => True) (fun _ => 0%Z) /\
  weight_one (fun _ _ => True) (zopts_at 2 20) /\ @lossless zapp (fun _ _ => True) /\
  (forall k, o_dist (zopts_at 2 20) = Some k -> 1 < length (o_grids (zopts_at 2 20)) /\ (2 <= k)%Z) /\
  let exact d := map (fun l => if list_eq_dec Z.eq_dec l (map (time_stepping (zopts_at d 20)) (seq 0 17)) then true else false) (at_values (zopts_at d 20)) in
  exact 2%Z = [false; false; false; false; true].
Proof.
  split; [apply zopts_at_good; lia|]. split; [apply zapp_exact|]. split; [apply zopts_weight; reflexivity|].
  split; [intros l x _; reflexivity|]. split; [intros k E; injection E as <-; simpl; lia|]. vm_compute. reflexivity.
Qed.

Print Assumptions C25_full_distance_is_mgrit.
Print Assumptions C25_coarse_solve.
Print Assumptions C26_parallel_never_returns.
Print Assumptions C26_process_count_independence_refuted.
Print Assumptions C26_single_level_does_nothing.
