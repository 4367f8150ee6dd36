(** Facts about the reference algorithm that need no laws of the vector operations: iteration control, convergence
    history, output calls, the initial value, one-level runs, nested iteration. *)
From Coq Require Import List ZArith Lia Arith Bool Sorted.
From Verif Require Import PyList ListFacts Spec Mgrit Reference.
Import ListNotations.

Lemma nth_of_error {B} (l : list B) i d : nth i l d = match nth_error l i with Some x => x | None => d end.
Proof. revert i. induction l; intros [|i]; simpl; auto. Qed.

Section RefProofs.
  Context {A : App}.
  Variable o : Opts A.
  Notation V := (Vec A).
  Notation GS := (GS A).
  Notation grids := (o_grids o).
  Notation L := (length grids).

  (** ** Operations keep history, counters and the value at the first fine point *)
  Definition same_ctl (G G' : GS) : Prop :=
    gconv G' = gconv G /\ glast G' = glast G /\ giter G' = giter G /\ gout G' = gout G.
  Lemma same_refl G : same_ctl G G. Proof. repeat split. Qed.
  Lemma same_trans G1 G2 G3 : same_ctl G1 G2 -> same_ctl G2 G3 -> same_ctl G1 G3.
  Proof. intros (a&b&c&d) (a'&b'&c'&d'). repeat split; congruence. Qed.

  (** An operation is quiet: keeps the control state and the value at fine point 0. *)
  Definition quiet (f : GS -> GS) : Prop := forall G, same_ctl G (f G) /\ gu (f G) 0 0 = gu G 0 0.
  Lemma quiet_comp f g : quiet f -> quiet g -> quiet (fun G => f (g G)).
  Proof. intros Hf Hg G. destruct (Hg G) as [a b], (Hf (g G)) as [c d]. split; [eapply same_trans; eauto|congruence]. Qed.
  Lemma quiet_id : quiet (fun G => G). Proof. intros G. split; [apply same_refl|reflexivity]. Qed.
  Lemma quiet_if (b : bool) f g : quiet f -> quiet g -> quiet (fun G => if b then f G else g G).
  Proof. intros Hf Hg G. destruct b; auto. Qed.
  Lemma with_u_quiet l (F : GS -> nat -> V) : (forall G, F G 0 = gu G l 0) -> quiet (fun G => with_u G l (F G)).
  Proof.
    intros H G. split; [repeat split|]. unfold with_u, at1. simpl. destruct l; simpl; [apply H|reflexivity].
  Qed.
  Lemma frelax_quiet l : quiet (g_frelax o l).
  Proof. apply (with_u_quiet l (frelax o l)). reflexivity. Qed.
  Lemma crelax_quiet l : quiet (g_crelax o l).
  Proof. apply (with_u_quiet l (crelax o l)). intros G. unfold crelax. rewrite andb_false_r. reflexivity. Qed.
  Lemma fsolve_quiet l : quiet (g_fsolve o l).
  Proof. apply (with_u_quiet l (fsolve o l)). reflexivity. Qed.
  Lemma csolve_quiet l : quiet (g_csolve o l).
  Proof.
    unfold g_csolve. destruct (o_dist o); [|apply fsolve_quiet]. destruct l; [apply quiet_id|].
    intros G. split; [repeat split|]. reflexivity.
  Qed.
  Lemma corr_quiet l : quiet (g_corr o l).
  Proof. apply (with_u_quiet l (corr o l)). intros G. unfold corr. rewrite andb_false_r. reflexivity. Qed.
  Lemma interp_up_quiet l : quiet (g_interp_up o l).
  Proof. apply (with_u_quiet l (interp_up o l)). intros G. unfold interp_up. rewrite andb_false_r. reflexivity. Qed.
  Lemma fas_quiet l : quiet (g_fas o l).
  Proof. intros G. split; [repeat split|]. reflexivity. Qed.
  Lemma iter_quiet n f : quiet f -> quiet (iter n f).
  Proof.
    intros Hf. induction n as [|n IH]; intros G; [apply quiet_id|].
    destruct (Hf G) as [a b], (IH (f G)) as [c d]. simpl. split; [eapply same_trans; eauto|congruence].
  Qed.
  Lemma iteration_quiet n : forall l cyc it ff, quiet (g_iteration o n l cyc it ff).
  Proof.
    induction n as [|n IH]; intros l cyc it ff; [apply csolve_quiet|].
    set (half := fun (cyc first_f : bool) G =>
          g_frelax o l (g_corr o l (g_iteration o n (S l) cyc it true (g_fas o l
            (iter (cf_count o l) (fun G => g_frelax o l (g_crelax o l G))
              (if ((0 <? l) || (it =? 0)) && first_f then g_frelax o l G else G)))))).
    assert (Hh : forall c f, quiet (half c f)).
    { intros c f. unfold half.
      apply (quiet_comp (g_frelax o l)); [apply frelax_quiet|].
      apply (quiet_comp (g_corr o l)); [apply corr_quiet|].
      apply (quiet_comp (g_iteration o n (S l) c it true)); [apply IH|].
      apply (quiet_comp (g_fas o l)); [apply fas_quiet|].
      apply (quiet_comp (iter _ _)).
      - apply iter_quiet. apply (quiet_comp (g_frelax o l)); [apply frelax_quiet|apply crelax_quiet].
      - apply quiet_if; [apply frelax_quiet|apply quiet_id]. }
    change (quiet (fun G => let G := half cyc ff G in if negb (l =? 0) && cyc then half false false G else G)).
    intros G. cbv zeta. destruct (negb (l =? 0) && cyc); [|apply Hh].
    apply (quiet_comp (half false false)); apply Hh.
  Qed.
  Lemma nested_from_quiet l : quiet (g_nested_from o l).
  Proof.
    induction l as [|l IH]; [apply quiet_id|]. intros G. cbn [g_nested_from]. cbv zeta.
    revert G. apply (quiet_comp (g_nested_from o l)); [exact IH|].
    destruct (0 <? l); [|apply interp_up_quiet].
    apply (quiet_comp (g_iteration o _ l false 0 true)); [apply iteration_quiet|apply interp_up_quiet].
  Qed.
  Lemma nested_quiet : quiet (g_nested o).
  Proof. apply (quiet_comp (g_nested_from o _)); [apply nested_from_quiet|apply csolve_quiet]. Qed.

  (** ** The sequence of iterates *)
  Fixpoint g_passes (n : nat) (G : GS) : GS := match n with 0 => G | S m => g_pass o m (g_passes m G) end.

  Lemma crit_gu it G : gu (g_crit o it G) = gu G.
  Proof. unfold g_crit. destruct (tnorm _ _); [|reflexivity]. destruct (is_jump o); reflexivity. Qed.
  Lemma crit_iter it G : giter (g_crit o it G) = giter G.
  Proof. unfold g_crit. destruct (tnorm _ _); [|reflexivity]. destruct (is_jump o); reflexivity. Qed.
  Lemma crit_out it G : gout (g_crit o it G) = gout G.
  Proof. unfold g_crit. destruct (tnorm _ _); [|reflexivity]. destruct (is_jump o); reflexivity. Qed.
  Lemma emit_if_gu b (G : GS) : gu (g_emit_if b G) = gu G. Proof. destruct b; reflexivity. Qed.
  Lemma emit_if_conv b (G : GS) : gconv (g_emit_if b G) = gconv G. Proof. destruct b; reflexivity. Qed.
  Lemma emit_if_iter b (G : GS) : giter (g_emit_if b G) = giter G. Proof. destruct b; reflexivity. Qed.
  Lemma emit_if_last b (G : GS) : glast (g_emit_if b G) = glast G. Proof. destruct b; reflexivity. Qed.

  Definition cyc_state (it : nat) (G : GS) : GS := g_iteration o (L - 1) 0 (cycF o) it true (set_giter G (it + 1)).

  Lemma pass_gu it G : gu (g_pass o it G) = gu (cyc_state it G).
  Proof. unfold g_pass. rewrite emit_if_gu, crit_gu. reflexivity. Qed.
  Lemma cyc_conv it G : gconv (cyc_state it G) = gconv G.
  Proof. destruct (iteration_quiet (L - 1) 0 (cycF o) it true (set_giter G (it + 1))) as [(a & _) _]. exact a. Qed.
  Lemma cyc_last it G : glast (cyc_state it G) = glast G.
  Proof. destruct (iteration_quiet (L - 1) 0 (cycF o) it true (set_giter G (it + 1))) as [(_ & a & _) _]. exact a. Qed.
  Lemma cyc_iter it G : giter (cyc_state it G) = it + 1.
  Proof. destruct (iteration_quiet (L - 1) 0 (cycF o) it true (set_giter G (it + 1))) as [(_ & _ & a & _) _]. exact a. Qed.
  Lemma cyc_out it G : gout (cyc_state it G) = gout G.
  Proof. destruct (iteration_quiet (L - 1) 0 (cycF o) it true (set_giter G (it + 1))) as [(_ & _ & _ & a) _]. exact a. Qed.
  Lemma cyc_first it G : gu (cyc_state it G) 0 0 = gu G 0 0.
  Proof. destruct (iteration_quiet (L - 1) 0 (cycF o) it true (set_giter G (it + 1))) as [_ a]. exact a. Qed.

  Lemma pass_first it G : gu (g_pass o it G) 0 0 = gu G 0 0.
  Proof. rewrite pass_gu. apply cyc_first. Qed.
  Lemma passes_first n G : gu (g_passes n G) 0 0 = gu G 0 0.
  Proof. induction n as [|n IH]; [reflexivity|]. simpl. rewrite pass_first. exact IH. Qed.
  Lemma pass_iter it G : giter (g_pass o it G) = it + 1.
  Proof. unfold g_pass. rewrite emit_if_iter, crit_iter. apply cyc_iter. Qed.
  Lemma passes_iter n G : giter G = 0 -> giter (g_passes n G) = n.
  Proof. destruct n; intros H; [exact H|]. simpl. rewrite pass_iter. lia. Qed.

  Lemma g_crit_conv it G : gconv (g_crit o it G) =
    match tnorm A (crit_values o G) with Some x => upd (gconv G) it x | None => gconv G end.
  Proof. unfold g_crit. destruct (tnorm _ _); reflexivity. Qed.
  Lemma pass_conv it G : gconv (g_pass o it G) =
    match tnorm A (crit_values o (cyc_state it G)) with Some x => upd (gconv G) (it + 1) x | None => gconv G end.
  Proof.
    unfold g_pass. rewrite emit_if_conv, g_crit_conv. fold (cyc_state it G). rewrite cyc_conv. reflexivity.
  Qed.
  Lemma pass_conv_len it G : length (gconv (g_pass o it G)) = length (gconv G).
  Proof. rewrite pass_conv. destruct (tnorm _ _); [apply upd_length|reflexivity]. Qed.
  Lemma pass_conv_other it G j : j <> it + 1 -> nth_error (gconv (g_pass o it G)) j = nth_error (gconv G) j.
  Proof. intros H. rewrite pass_conv. destruct (tnorm _ _); [|reflexivity]. apply upd_nth_other. lia. Qed.
  Lemma passes_conv_len n G : length (gconv (g_passes n G)) = length (gconv G).
  Proof. induction n as [|n IH]; [reflexivity|]. simpl. rewrite pass_conv_len. exact IH. Qed.
  Lemma passes_conv_prefix n m G j : n <= m -> j <= n -> nth_error (gconv (g_passes m G)) j = nth_error (gconv (g_passes n G)) j.
  Proof.
    intros Hnm Hj. induction Hnm as [|m Hnm IH]; [reflexivity|]. simpl. rewrite pass_conv_other by lia. exact IH.
  Qed.
  Lemma passes_conv_zero n G j : n < j -> nth_error (gconv (g_passes n G)) j = nth_error (gconv G) j.
  Proof. intros H. induction n as [|n IH]; [reflexivity|]. simpl. rewrite pass_conv_other by lia. apply IH. lia. Qed.

  (** jump criterion: the saved state is always the previous iterate *)
  Lemma pass_last it G : is_jump o = true -> glast G <> None ->
    tnorm A (crit_values o (cyc_state it G)) <> None ->
    glast (g_pass o it G) = Some (fun i => vclone A (gu (cyc_state it G) 0 i)).
  Proof.
    intros J Hl Ht. unfold g_pass. rewrite emit_if_last. unfold g_crit. fold (cyc_state it G).
    destruct (tnorm _ _); [|congruence]. rewrite J. reflexivity.
  Qed.

  (** values of the criterion for a pair of successive iterates *)
  Definition crit_of (prev cur : nat -> V) : list (Sc A) :=
    if is_jump o then map (fun i => vnorm A (vsub A (cur i) (vclone A (prev i)))) (crit_points o)
    else map (fun i => vnorm A (vsub A (phi A 0 (cur (i - 1)) (time grids 0 (i - 1)) (time grids 0 i)) (cur i))) (crit_points o).

  Lemma crit_values_of (G : GS) prev : (is_jump o = true -> glast G = Some (fun i => vclone A (prev i))) ->
    crit_values o G = crit_of prev (gu G 0).
  Proof.
    intros H. unfold crit_values, crit_of. destruct (is_jump o).
    - rewrite (H eq_refl). reflexivity.
    - reflexivity.
  Qed.

  Hypothesis Htn : forall l, l <> [] -> tnorm A l <> None.
  Hypothesis Hcp : crit_points o <> [].
  Lemma crit_of_some prev cur : exists x, tnorm A (crit_of prev cur) = Some x.
  Proof.
    destruct (tnorm A (crit_of prev cur)) as [x|] eqn:E; [eauto|]. exfalso. revert E. apply Htn. unfold crit_of.
    destruct (is_jump o); destruct (crit_points o); simpl; congruence.
  Qed.

  Definition last_ok (G : GS) : Prop := is_jump o = true -> glast G = Some (fun i => vclone A (gu G 0 i)).

  Lemma pass_last_ok it G : last_ok G -> last_ok (g_pass o it G).
  Proof.
    intros H J. rewrite pass_last; auto.
    - rewrite pass_gu. reflexivity.
    - rewrite (H J). discriminate.
    - rewrite (crit_values_of _ (gu G 0)).
      + destruct (crit_of_some (gu G 0) (gu (cyc_state it G) 0)) as [x ->]. discriminate.
      + intros _. rewrite cyc_last. apply H; auto.
  Qed.
  Lemma passes_last_ok n G : last_ok G -> last_ok (g_passes n G).
  Proof. intros H. induction n; [exact H|]. apply pass_last_ok; auto. Qed.

  Lemma pass_conv_value it G : last_ok G -> it + 1 < length (gconv G) ->
    tnorm A (crit_of (gu G 0) (gu (g_pass o it G) 0)) = nth_error (gconv (g_pass o it G)) (it + 1).
  Proof.
    intros H Hl. rewrite pass_gu, pass_conv. rewrite (crit_values_of _ (gu G 0)) by (intros J; rewrite cyc_last; auto).
    destruct (crit_of_some (gu G 0) (gu (cyc_state it G) 0)) as [x ->]. symmetry. apply upd_nth_same. exact Hl.
  Qed.

  (** Convergence history: entry [j] is the norm of the criterion values of iterates [j-1] and [j]. *)
  Lemma history n G j : last_ok G -> 1 <= j <= n -> n < length (gconv G) ->
    tnorm A (crit_of (gu (g_passes (j - 1) G) 0) (gu (g_passes j G) 0)) = nth_error (gconv (g_passes n G)) j.
  Proof.
    intros H Hj Hn. rewrite (passes_conv_prefix j n) by lia. destruct j as [|j]; [lia|].
    replace (S j - 1) with j by lia. cbn [g_passes]. replace (nth_error (gconv (g_pass o j (g_passes j G))) (S j)) with (nth_error (gconv (g_pass o j (g_passes j G))) (j + 1)) by (f_equal; lia).
    apply pass_conv_value; [apply passes_last_ok; auto|]. rewrite passes_conv_len. lia.
  Qed.

  (** ** The loop *)
  Lemma loop_shift n : forall it G0, it + n = o_max_iter o ->
    exists k, k <= n /\ g_loop o n it (g_passes it G0) = g_passes (it + k) G0 /\ (0 < n -> 0 < k) /\
      (forall j, it < j < it + k -> sc_lt A (nth j (gconv (g_passes j G0)) (sc_zero A)) (o_tol o) = false) /\
      (k < n -> sc_lt A (nth (it + k) (gconv (g_passes (it + k) G0)) (sc_zero A)) (o_tol o) = true).
  Proof.
    induction n as [|n IH]; intros it G0 Hm.
    - exists 0. rewrite Nat.add_0_r. simpl. repeat split; try lia.
    - cbn [g_loop]. cbv zeta. change (g_pass o it (g_passes it G0)) with (g_passes (S it) G0).
      destruct (g_stop o it (g_passes (S it) G0)) eqn:E.
      + exists 1. replace (it + 1) with (S it) by lia. repeat split; try lia.
        intros Hn. unfold g_stop in E. apply orb_true_iff in E. replace (it + 1) with (S it) in E by lia.
        destruct E as [E|E]; [exact E|]. apply Nat.eqb_eq in E. lia.
      + destruct (IH (S it) G0 ltac:(lia)) as (k & Hk & Hl & _ & Hc & Hs). exists (S k). replace (it + S k) with (S it + k) by lia.
        unfold g_stop in E. apply orb_false_iff in E. destruct E as [E1 _].
        replace (it + 1) with (S it) in E1 by lia.
        repeat split; try lia; auto.
        * intros j Hj. destruct (Nat.eq_dec j (S it)) as [->|Hj']; [exact E1|]. apply Hc. lia.
        * intros H. apply Hs. lia.
  Qed.

  (** The number of iterations and the final state of the loop. *)
  Lemma loop_result G0 : exists k, k <= o_max_iter o /\ g_loop o (o_max_iter o) 0 G0 = g_passes k G0 /\
      (0 < o_max_iter o -> 0 < k) /\
      (forall j, 0 < j < k -> sc_lt A (nth j (gconv (g_passes k G0)) (sc_zero A)) (o_tol o) = false) /\
      (k < o_max_iter o -> sc_lt A (nth k (gconv (g_passes k G0)) (sc_zero A)) (o_tol o) = true).
  Proof.
    destruct (loop_shift (o_max_iter o) 0 G0 eq_refl) as (k & H1 & H2 & H3 & H4 & H5). exists k. simpl in *.
    repeat split; auto. intros j Hj. rewrite <- (H4 j Hj). f_equal.
    rewrite !nth_of_error. rewrite (passes_conv_prefix j k) by lia. reflexivity.
  Qed.

  (** ** Output calls *)
  Definition emits : bool := o_has_output o && (o_output_lvl o =? 2)%Z.
  Lemma pass_out it G : gout (g_pass o it G) = gout G ++ (if emits then [(it + 1, gu (g_pass o it G) 0)] else []).
  Proof.
    unfold g_pass, emits. fold (cyc_state it G). unfold g_emit_if. destruct (o_has_output o && (o_output_lvl o =? 2)%Z).
    - unfold g_emit. simpl. rewrite crit_out, cyc_out, crit_iter, cyc_iter. reflexivity.
    - rewrite crit_out, cyc_out, app_nil_r. reflexivity.
  Qed.
  Lemma passes_out n G : gout (g_passes n G) =
    gout G ++ (if emits then map (fun j => (j, gu (g_passes j G) 0)) (seq 1 n) else []).
  Proof.
    induction n as [|n IH].
    - destruct emits; rewrite app_nil_r; reflexivity.
    - cbn [g_passes]. rewrite pass_out, IH. destruct emits; [|rewrite !app_nil_r; reflexivity].
      rewrite <- app_assoc. f_equal. rewrite seq_S, map_app. f_equal. simpl. rewrite Nat.add_1_r. reflexivity.
  Qed.

  (** ** Construction *)
  Section Construct.
    Variable guess : nat -> V.
    Let G1 := if o_nested o then g_nested o (g_init o guess) else g_init o guess.
    Lemma G1_ctl : same_ctl (g_init o guess) G1 /\ gu G1 0 0 = vclone A (tstart A 0).
    Proof.
      unfold G1. destruct (o_nested o).
      - destruct (nested_quiet (g_init o guess)) as [a b]. split; [exact a|]. rewrite b. reflexivity.
      - split; [apply same_refl|reflexivity].
    Qed.
    Lemma construct_eq : g_construct o guess = g_emit_if emits (if is_jump o then save_last G1 else G1).
    Proof. reflexivity. Qed.
    Lemma construct_conv : gconv (g_construct o guess) = repeat (sc_zero A) (o_max_iter o + 1).
    Proof. rewrite construct_eq, emit_if_conv. destruct G1_ctl as [(a & _) _]. destruct (is_jump o); simpl; rewrite a; reflexivity. Qed.
    Lemma construct_iter : giter (g_construct o guess) = 0.
    Proof. rewrite construct_eq, emit_if_iter. destruct G1_ctl as [(_ & _ & a & _) _]. destruct (is_jump o); simpl; rewrite a; reflexivity. Qed.
    Lemma construct_gu : gu (g_construct o guess) = gu G1.
    Proof. rewrite construct_eq, emit_if_gu. destruct (is_jump o); reflexivity. Qed.
    Lemma construct_first : gu (g_construct o guess) 0 0 = vclone A (tstart A 0).
    Proof. rewrite construct_gu. apply G1_ctl. Qed.
    Lemma construct_last : last_ok (g_construct o guess).
    Proof. intros J. rewrite construct_gu, construct_eq, emit_if_last, J. reflexivity. Qed.
    Lemma construct_out : gout (g_construct o guess) = if emits then [(0, gu (g_construct o guess) 0)] else [].
    Proof.
      rewrite construct_gu, construct_eq. destruct G1_ctl as [(_ & _ & a & b) _]. unfold g_emit_if. destruct emits; unfold g_emit; simpl.
      - destruct (is_jump o); simpl; rewrite a, b; reflexivity.
      - destruct (is_jump o); simpl; rewrite b; reflexivity.
    Qed.

    (** [iterate k] is the state after [k] iterations *)
    Definition iterate (k : nat) : GS := g_passes k (g_construct o guess).
    Lemma iterate_first k : gu (iterate k) 0 0 = vclone A (tstart A 0).
    Proof. unfold iterate. rewrite passes_first. apply construct_first. Qed.
    Lemma iterate_out k : gout (iterate k) = if emits then map (fun j => (j, gu (iterate j) 0)) (seq 0 (S k)) else [].
    Proof. unfold iterate. rewrite passes_out, construct_out. destruct emits; reflexivity. Qed.
    Lemma iterate_history k j : 1 <= j <= k -> k <= o_max_iter o ->
      tnorm A (crit_of (gu (iterate (j - 1)) 0) (gu (iterate j) 0)) = nth_error (gconv (iterate k)) j.
    Proof.
      intros Hj Hk. apply history; auto; [apply construct_last|]. rewrite construct_conv, repeat_length. lia.
    Qed.

    (** Everything about a whole run at once. *)
    Lemma main_result : exists k,
      k <= o_max_iter o /\ (0 < o_max_iter o -> 0 < k) /\
      gu (g_main o guess) = gu (iterate k) /\ giter (g_main o guess) = k /\
      gconv (g_main o guess) = gconv (iterate k) /\
      (forall j, 0 < j < k -> sc_lt A (nth j (gconv (iterate k)) (sc_zero A)) (o_tol o) = false) /\
      (k < o_max_iter o -> sc_lt A (nth k (gconv (iterate k)) (sc_zero A)) (o_tol o) = true) /\
      gout (g_main o guess) =
        if o_has_output o
        then if (o_output_lvl o =? 2)%Z then map (fun j => (j, gu (iterate j) 0)) (seq 0 (S k))
             else if (o_output_lvl o =? 1)%Z then [(k, gu (iterate k) 0)] else []
        else [].
    Proof.
      destruct (loop_result (g_construct o guess)) as (k & H1 & H2 & H3 & H4 & H5). exists k.
      unfold g_main, g_solve. rewrite H2, emit_if_gu, emit_if_iter, emit_if_conv. fold (iterate k).
      repeat split; auto.
      - unfold iterate. apply passes_iter, construct_iter.
      - unfold g_emit_if. pose proof (iterate_out k) as E. unfold emits in E. destruct (o_has_output o); simpl.
        + destruct (o_output_lvl o =? 2)%Z eqn:E2.
          * apply Z.eqb_eq in E2. rewrite E2 in *. simpl in *. exact E.
          * simpl in E. destruct (o_output_lvl o =? 1)%Z; [|exact E]. unfold g_emit. simpl. rewrite E. simpl.
            unfold iterate. rewrite passes_iter by apply construct_iter. reflexivity.
        + exact E.
    Qed.
  End Construct.

  (** ** One level *)
  Lemma fsolve_stepping G i : gu G 0 0 = vclone A (tstart A 0) -> fsolve o 0 G i = time_stepping o i.
  Proof.
    intros H. induction i as [|i IH]; [exact H|]. cbn [fsolve time_stepping]. unfold gstep. cbn [Nat.eqb].
    rewrite IH. replace (S i - 1) with i by lia. reflexivity.
  Qed.
  Lemma one_level guess k i : o_dist o = None -> L = 1 -> 0 < k -> gu (iterate guess k) 0 i = time_stepping o i.
  Proof.
    intros HD HL Hk. destruct k as [|k]; [lia|]. unfold iterate. cbn [g_passes]. rewrite pass_gu. unfold cyc_state. rewrite HL.
    cbn [g_iteration Nat.sub]. unfold g_csolve. rewrite HD. unfold g_fsolve, with_u, at1. cbn [gu Nat.eqb].
    apply fsolve_stepping. cbn [set_giter gu]. apply (iterate_first guess k).
  Qed.
  (** AtMgrit on one level never changes the initial guess. *)
  Lemma at_one_level guess n d : o_dist o = Some d -> L = 1 -> gu (iterate guess n) 0 = gu (iterate guess 0) 0.
  Proof.
    intros HD HL. induction n as [|n IH]; [reflexivity|]. rewrite <- IH. unfold iterate. cbn [g_passes]. rewrite pass_gu.
    unfold cyc_state. rewrite HL. cbn [g_iteration Nat.sub]. unfold g_csolve. rewrite HD. reflexivity.
  Qed.
End RefProofs.
