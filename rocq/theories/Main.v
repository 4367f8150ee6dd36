(** Parallel runs: every execution of the rank programs ends in the result of the reference algorithm. *)
From Coq Require Import List ZArith Lia Arith Bool Sorted Permutation.
From Verif Require Import Net NetProofs NetFifo NetPhase PyList ListFacts Setup SplitProofs Spec SetupProofs Mgrit Reference Sim.
Import ListNotations.

(** Hypotheses under which the solver is correct. Only the constructor arguments and the user's operations occur. *)
Record good_setup {A : App} (wf : nat -> Vec A -> Prop) (o : Opts A) (P : nat) : Prop := {
  gs_laws : app_laws A wf;
  gs_grids : valid_hierarchy (o_grids o);
  gs_apart : no_adjacent_cpoints (o_grids o);
  gs_two : 2 <= length (nth 0 (o_grids o) []);
  gs_procs : 0 < P;
  gs_accept : check o P = None;
  gs_global : o_conv_crit o = 0%Z \/ o_conv_crit o = 1%Z;
  gs_order : f_order_ok (o_grids o) (o_set_order o) P;
  gs_rand : forall rnd, o_rand o = Some rnd -> forall r i, wf 0 (rnd r i);
  gs_dist : forall k, o_dist o = Some k -> P = 1 /\ (1 <= k)%Z     (* AtMgrit: one process, positive distance *)
}.

(** What the processes hold after the run, compared with a state of the reference algorithm. *)
Record agrees {A : App} (o : Opts A) (P : nat) (res : nat -> St A) (G : GS A) : Prop := {
  ag_u : gathered P (fun r => s_u (res r) 0) = map (gu G 0) (seq 0 (length (nth 0 (o_grids o) [])));
  ag_conv : forall r, r < P -> s_conv (res r) = gconv G;
  ag_iter : forall r, r < P -> s_iter (res r) = giter G;
  ag_outs : forall r, r < P -> map fst (s_out (res r)) = map fst (gout G);
  ag_outv : forall k it f, nth_error (gout G) k = Some (it, f) ->
    gathered P (fun r => snd (nth k (s_out (res r)) (0, []))) = map f (seq 0 (length (nth 0 (o_grids o) [])))
}.

Lemma check_procs {A} (o : Opts A) P : check o P = None -> P <= length (nth 0 (o_grids o) []).
Proof.
  unfold check. cbv zeta. intros H.
  repeat match type of H with
         | (if ?b then Some _ else _) = None => destruct b eqn:?; [discriminate|]
         | match ?x with _ => _ end = None => destruct x eqn:?; try discriminate
         end.
  all: repeat match goal with E : (_ <? _) = false |- _ => apply Nat.ltb_ge in E end; lia.
Qed.

Lemma list_ext {V} (l l' : list V) : length l = length l' -> (forall i, i < length l -> nth_error l i = nth_error l' i) -> l = l'.
Proof.
  revert l'. induction l as [|x l IH]; intros [|y l'] H E; try discriminate; [reflexivity|].
  f_equal.
  - specialize (E 0 ltac:(simpl; lia)). simpl in E. congruence.
  - apply IH; [simpl in H; lia|]. intros i Hi. apply (E (S i)). simpl. lia.
Qed.

Lemma ows_gathered_gen {A : App} (o : Opts A) (P : nat) (vals : nat -> list (Vec A)) (f : nat -> Vec A) :
  valid_hierarchy (o_grids o) -> no_adjacent_cpoints (o_grids o) -> 0 < P -> P <= N (o_grids o) 0 ->
  (forall l r, l < length (o_grids o) -> r < P -> order_perm (o_grids o) (o_set_order o) P l r) ->
  (forall l r, l < length (o_grids o) -> r < P -> predecessors_first (fps2 (o_grids o) (o_set_order o) P l r)) ->
    (forall r, r < P -> ows o P 0 r (vals r) f) -> gathered P vals = map f (seq 0 (N (o_grids o) 0)).
  Proof.
    intros HV HA HP0 HP Hperm Hresp H.
    assert (HL0 : 0 < length (o_grids o)) by (apply (SetupProofs.L_pos (o_grids o) P HV HP0 HP)).
    assert (E : forall r, r < P -> (if r =? 0 then vals r else tl (vals r)) = map f (pts (o_grids o) P 0 r)).
    { intros r Hr. destruct (H r Hr) as [H1 H2].
      pose proof (lo_cnt (o_grids o) P HV HP0 HP 0 r HL0 Hr) as E.
      assert (C : 0 < cnt (o_grids o) P 0 r).
      { pose proof (lo_level0 (o_grids o) P HV HP0 HP r ltac:(lia)). pose proof (lo_level0 (o_grids o) P HV HP0 HP (S r) ltac:(lia)).
        pose proof (st_lt (o_grids o) P HP r Hr). lia. }
      unfold pts. destruct (r =? 0) eqn:R.
      - assert (O : off (o_grids o) P 0 r = 0) by (unfold off; rewrite R; reflexivity).
        apply list_ext; rewrite ?map_length, ?seq_length; [lia|]. intros i Hi.
        assert (Hi' : i < cnt (o_grids o) P 0 r) by lia.
        rewrite (map_nth_error f i (seq _ _) (d := lo (o_grids o) P 0 r + i)) by (rewrite nth_error_seq; auto).
        rewrite <- H2 by lia. f_equal. unfold loc. lia.
      - assert (O : off (o_grids o) P 0 r = 1).
        { unfold off. rewrite R. replace (cnt (o_grids o) P 0 r =? 0) with false; [reflexivity|]. symmetry. apply Nat.eqb_neq. lia. }
        apply Nat.eqb_neq in R. pose proof (lo_pos (o_grids o) P HV HP0 HP 0 r HL0 ltac:(lia) Hr C).
        destruct (vals r) as [|x xs] eqn:Ev; simpl in H1; [lia|]. simpl.
        apply list_ext; rewrite ?map_length, ?seq_length; [lia|]. intros i Hi.
        rewrite (map_nth_error f i (seq _ _) (d := lo (o_grids o) P 0 r + i)) by (rewrite nth_error_seq; [auto|lia]).
        rewrite <- H2 by lia. replace (loc (o_grids o) P 0 r (lo (o_grids o) P 0 r + i)) with (S i) by (unfold loc; lia). reflexivity. }
    unfold gathered. transitivity (concat (map (fun r => map f (pts (o_grids o) P 0 r)) (seq 0 P))).
    { f_equal. apply map_ext_in. intros r Hr. apply in_seq in Hr. apply E. lia. }
    rewrite <- (map_map (pts (o_grids o) P 0) (map f)), <- concat_map.
    rewrite (pts_concat o P HV HA HP0 HP Hperm Hresp) by lia. rewrite (SetupProofs.lo_P (o_grids o) P). reflexivity.
  Qed.

Section Main.
  Context {A : App}.
  Variable wf : nat -> Vec A -> Prop.
  Variable o : Opts A.
  Variable P : nat.
  Hypothesis GS : good_setup wf o P.
  Notation grids := (o_grids o).

  Lemma HV' : valid_hierarchy grids. Proof. apply GS. Qed.
  Lemma HP0' : 0 < P. Proof. apply GS. Qed.
  Lemma HP' : P <= N grids 0. Proof. apply check_procs, GS. Qed.
  Lemma Hgcc' : gcc o = true.
  Proof. unfold gcc. destruct (gs_global _ _ _ GS) as [-> | ->]; reflexivity. Qed.

  Lemma pts_my l r : l < length grids -> r < P -> my_pts grids P r l = Some (pts grids P l r).
  Proof. intros Hl Hr. apply (my_pts_eq grids P HV' HP0' HP'); auto. Qed.
  Lemma memn_isC l r i : l < length grids -> r < P -> In i (pts grids P l r) -> memn i (all_cpts grids l) = isC grids l i.
  Proof.
    intros Hl Hr Hi. apply (pts_in grids P HV' HP0' HP') in Hi; auto. pose proof (lo_le_N grids P HP0' HP' l (S r)).
    destruct (isC grids l i) eqn:E.
    - apply memn_in. apply (all_cpts_in grids P HP0' HP'). split; [lia|auto].
    - apply memn_false. rewrite (all_cpts_in grids P HP0' HP'). intros [_ X]. congruence.
  Qed.
  Lemma f_order_block l r : l < length grids -> r < P ->
    order_perm grids (o_set_order o) P l r /\ predecessors_first (fps2 grids (o_set_order o) P l r).
  Proof.
    intros Hl Hr. destruct (gs_order _ _ _ GS l r Hl Hr _ (pts_my l r Hl Hr)) as [H1 H2].
    assert (E : filter (fun i => memn i (all_cpts grids l)) (pts grids P l r) = cps grids P l r).
    { apply filter_ext_in. intros i Hi. eapply memn_isC; eauto. }
    cbv zeta in *. rewrite E in *. split; [|exact H2]. unfold order_perm, fps.
    erewrite filter_ext_in; [exact H1|]. intros i Hi. cbv beta. erewrite memn_isC; eauto.
  Qed.

  Lemma ows_gathered (vals : nat -> list (Vec A)) (f : nat -> Vec A) :
    (forall r, r < P -> ows o P 0 r (vals r) f) -> gathered P vals = map f (seq 0 (N grids 0)).
  Proof.
    apply (ows_gathered_gen o P vals f HV' (gs_apart _ _ _ GS) HP0' HP' (fun l r Hl Hr => proj1 (f_order_block l r Hl Hr))
             (fun l r Hl Hr => proj2 (f_order_block l r Hl Hr))).
  Qed.

  Lemma rel_agrees (s : nat -> St A) (G : Reference.GS A) : Rel o P wf s G -> agrees o P s G.
  Proof.
    intros R.
    destruct R as (_ & K & R).
    assert (HL0 : 0 < length grids) by (apply (SetupProofs.L_pos grids P HV' HP0' HP')).
    constructor.
    - apply ows_gathered. intros r Hr. apply (rd_u _ _ _ _ _ _ (proj1 (R r Hr)) 0 HL0).
    - intros r Hr. apply (rd_conv _ _ _ _ _ _ (proj1 (R r Hr))).
    - intros r Hr. apply (rd_iter _ _ _ _ _ _ (proj1 (R r Hr))).
    - intros r Hr. pose proof (rd_out _ _ _ _ _ _ (proj1 (R r Hr))) as X. induction X as [|x y l l' [X1 _] _ IH]; simpl; congruence.
    - intros k it f Hk. apply ows_gathered. intros r Hr. pose proof (rd_out _ _ _ _ _ _ (proj1 (R r Hr))) as X.
      revert k Hk. induction X as [|x y l l' [_ X2] _ IH]; intros [|k] Hk; try discriminate.
      + injection Hk as ->. exact X2.
      + apply IH. exact Hk.
  Qed.

  (** One execution that takes messages strictly in the order they were sent and in which everybody returns. *)
  Theorem run_fifo : exists n c res, fsteps P n (initial (mgrit_main o P)) c /\ finished P res c.
  Proof.
    destruct (main_sim o P wf (gs_laws _ _ _ GS) HV' (gs_apart _ _ _ GS) HP0' HP' Hgcc'
                (fun l r Hl Hr => proj1 (f_order_block l r Hl Hr))
                (fun l r Hl Hr => proj2 (f_order_block l r Hl Hr)) (gs_dist _ _ _ GS) (gs_rand _ _ _ GS) (gs_accept _ _ _ GS) (gs_two _ _ _ GS))
      as (s & F & _).
    destruct (phase_fifo P _ _ F) as (n & c & H1 & H2). eauto.
  Qed.

  Theorem run_main : exists n c res,
    steps P n (initial (mgrit_main o P)) c /\ finished P res c /\ agrees o P res (g_main o (init_guess o P)).
  Proof.
    destruct (main_sim o P wf (gs_laws _ _ _ GS) HV' (gs_apart _ _ _ GS) HP0' HP' Hgcc'
                (fun l r Hl Hr => proj1 (f_order_block l r Hl Hr))
                (fun l r Hl Hr => proj2 (f_order_block l r Hl Hr)) (gs_dist _ _ _ GS) (gs_rand _ _ _ GS) (gs_accept _ _ _ GS) (gs_two _ _ _ GS))
      as (s & F & R).
    destruct (phase_finishes P _ _ F) as (n & c & H1 & H2).
    exists n, c, s. split; [exact H1|]. split; [exact H2|]. apply rel_agrees. exact R.
  Qed.

  (** Every execution: bounded length, can always be completed, and when nobody can move all have returned. *)
  Theorem every_run : exists n res, agrees o P res (g_main o (init_guess o P)) /\
    forall m d, steps P m (initial (mgrit_main o P)) d ->
      m <= n /\ (exists c, steps P (n - m) d c /\ finished P res c) /\ (stuck P d -> m = n /\ finished P res d).
  Proof.
    destruct run_main as (n & c & res & H1 & H2 & H3). exists n, res. split; [exact H3|].
    intros m d Hd. destruct (finished_unique P n _ _ res H2 H1 m d Hd) as (X & Y & Z). eauto.
  Qed.
End Main.

Lemma init_guess_zero {A} (o : Opts A) P : o_rand o = None -> init_guess o P = zero_guess.
Proof. destruct o. simpl. intros ->. reflexivity. Qed.
