(** Public forms of the results about parallel runs. *)
From Coq Require Import List ZArith Lia Arith Bool Sorted Permutation.
From Verif Require Import Net NetProofs NetPhase PyList ListFacts Setup SplitProofs Spec SetupProofs Mgrit Reference RefProofs Sim Main.
Import ListNotations.

Section Public.
  Context {A : App}.
  Variable wf : nat -> Vec A -> Prop.
  Variable o : Opts A.
  Notation nt := (length (nth 0 (o_grids o) [])).

  Lemma maximal_run P n c : good_setup wf o P -> steps P n (initial (mgrit_main o P)) c -> stuck P c ->
    exists res, finished P res c /\ agrees o P res (g_main o (init_guess o P)).
  Proof.
    intros G H S. destruct (every_run wf o P G) as (m & res & Ha & Hr). exists res. split; [|exact Ha].
    destruct (Hr _ _ H) as (_ & _ & X). apply X. exact S.
  Qed.

  Lemma finished_res_unique {M B} P (c : config M B) res res' : finished P res c -> finished P res' c -> forall r, r < P -> res r = res' r.
  Proof. intros [H _] [H' _] r Hr. specialize (H r Hr). specialize (H' r Hr). congruence. Qed.

  Lemma no_deadlock P : good_setup wf o P ->
    exists bound, forall n c, steps P n (initial (mgrit_main o P)) c ->
      n <= bound /\ ((exists res, finished P res c) \/ (exists p c', step P p c c')).
  Proof.
    intros G. destruct (every_run wf o P G) as (m & res & _ & Hr). exists m. intros n c H.
    destruct (Hr _ _ H) as (H1 & (d & Hd & Fd) & _). split; [exact H1|].
    inversion Hd as [? ? E1 E2 | p k ? c1 ? Hs Hk]; subst.
    - left. exists res. destruct Fd as [F1 F2]. split; intros; [rewrite E1|rewrite E2]; auto.
    - right. eauto.
  Qed.

  Lemma crit_points_ne P : good_setup wf o P -> crit_points o <> [].
  Proof.
    intros G. apply (crit_points_nonempty o P (HV' wf o P G) (gs_apart _ _ _ G) (HP0' wf o P G) (HP' wf o P G)
                (fun l r Hl Hr => proj1 (f_order_block wf o P G l r Hl Hr))
                (fun l r Hl Hr => proj2 (f_order_block wf o P G l r Hl Hr)) (gs_two _ _ _ G)).
  Qed.

  (** Everything observable about a maximal run. *)
  Lemma run_facts P n c : good_setup wf o P -> steps P n (initial (mgrit_main o P)) c -> stuck P c ->
    let it := iterate o (init_guess o P) in
    exists res k, finished P res c /\
      k <= o_max_iter o /\ (0 < o_max_iter o -> 0 < k) /\
      gathered P (fun r => s_u (res r) 0) = map (gu (it k) 0) (seq 0 nt) /\
      (forall r, r < P -> s_iter (res r) = k) /\
      (forall r, r < P -> s_conv (res r) = gconv (it k)) /\
      (forall j, 0 < j < k -> sc_lt A (nth j (gconv (it k)) (sc_zero A)) (o_tol o) = false) /\
      (k < o_max_iter o -> sc_lt A (nth k (gconv (it k)) (sc_zero A)) (o_tol o) = true) /\
      (forall j, 1 <= j <= k -> tnorm A (crit_of o (gu (it (j - 1)) 0) (gu (it j) 0)) = nth_error (gconv (it k)) j) /\
      agrees o P res (g_main o (init_guess o P)) /\
      gout (g_main o (init_guess o P)) =
        (if o_has_output o
        then if (o_output_lvl o =? 2)%Z then map (fun j => (j, gu (it j) 0)) (seq 0 (S k))
             else if (o_output_lvl o =? 1)%Z then [(k, gu (it k) 0)] else []
        else []).
  Proof.
    intros G H S it. destruct (maximal_run P n c G H S) as (res & F & Ag).
    destruct (main_result o (init_guess o P)) as (k & H1 & H2 & H3 & H4 & H5 & H6 & H7 & H8).
    exists res, k. repeat split; auto; try apply F; try apply Ag.
    - rewrite (ag_u _ _ _ _ Ag), H3. reflexivity.
    - intros r Hr. rewrite (ag_iter _ _ _ _ Ag); auto.
    - intros r Hr. rewrite (ag_conv _ _ _ _ Ag); auto.
    - intros j Hj. apply iterate_history; auto.
      + apply (tnorm_some A wf), G.
      + apply (crit_points_ne P G).
  Qed.
End Public.

Section Independence.
  Context {A : App}.
  Variable wf : nat -> Vec A -> Prop.
  Variable o : Opts A.

  Lemma process_count_independence P P' n c n' c' :
    good_setup wf o P -> good_setup wf o P' -> o_rand o = None ->
    steps P n (initial (mgrit_main o P)) c -> stuck P c ->
    steps P' n' (initial (mgrit_main o P')) c' -> stuck P' c' ->
    exists res res', finished P res c /\ finished P' res' c' /\
      gathered P (fun r => s_u (res r) 0) = gathered P' (fun r => s_u (res' r) 0) /\
      length (gathered P (fun r => s_u (res r) 0)) = length (nth 0 (o_grids o) []) /\
      (forall r r', r < P -> r' < P' ->
         s_conv (res r) = s_conv (res' r') /\ s_iter (res r) = s_iter (res' r') /\
         map fst (s_out (res r)) = map fst (s_out (res' r'))) /\
      (forall k, gathered P (fun r => snd (nth k (s_out (res r)) (0, []))) =
                 gathered P' (fun r => snd (nth k (s_out (res' r)) (0, [])))).
  Proof.
    intros G G' Hr H S H' S'.
    destruct (maximal_run wf o P n c G H S) as (res & F & Ag).
    destruct (maximal_run wf o P' n' c' G' H' S') as (res' & F' & Ag').
    rewrite init_guess_zero in Ag, Ag' by auto.
    exists res, res'. split; [exact F|]. split; [exact F'|].
    rewrite (ag_u _ _ _ _ Ag), (ag_u _ _ _ _ Ag'). split; [reflexivity|]. split; [rewrite map_length, seq_length; reflexivity|].
    split.
    - intros r r' Hr1 Hr2. rewrite (ag_conv _ _ _ _ Ag), (ag_iter _ _ _ _ Ag), (ag_outs _ _ _ _ Ag),
        (ag_conv _ _ _ _ Ag'), (ag_iter _ _ _ _ Ag'), (ag_outs _ _ _ _ Ag') by auto. auto.
    - intros k. destruct (nth_error (gout (g_main o zero_guess)) k) as [[it f]|] eqn:E.
      + rewrite (ag_outv _ _ _ _ Ag k it f E), (ag_outv _ _ _ _ Ag' k it f E). reflexivity.
      + assert (X : forall Q rs, agrees o Q rs (g_main o zero_guess) -> gathered Q (fun r => snd (nth k (s_out (rs r)) (0, []))) = []).
        { intros Q rs Ax. unfold gathered. assert (Y : forall r, r < Q -> snd (nth k (s_out (rs r)) (0, [])) = []).
          { intros r Hq. rewrite nth_overflow; [reflexivity|]. pose proof (ag_outs _ _ _ _ Ax r Hq) as Z.
            apply (f_equal (@length nat)) in Z. rewrite !map_length in Z. rewrite Z. apply nth_error_None. exact E. }
          assert (W : forall l, (forall r, In r l -> r < Q) ->
            concat (map (fun r => if r =? 0 then snd (nth k (s_out (rs r)) (0, [])) else tl (snd (nth k (s_out (rs r)) (0, [])))) l) = []).
          { induction l as [|r l IH]; intros Hl; [reflexivity|]. cbn [map concat]. rewrite Y by (apply Hl; left; auto).
            rewrite IH by (intros; apply Hl; right; auto). destruct (r =? 0); reflexivity. }
          apply W. intros r Hi. apply in_seq in Hi. lia. }
        rewrite (X P res Ag), (X P' res' Ag'). reflexivity.
  Qed.
End Independence.
