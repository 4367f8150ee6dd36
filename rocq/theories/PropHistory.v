(** C14: the convergence history returned by solve(). *)
From Coq Require Import List ZArith Lia Arith Bool.
From Verif Require Import Net NetProofs NetExec PyList ListFacts Setup Spec Mgrit Reference RefProofs Sim Main ParallelProofs ExampleApp OrderProofs.
Import ListNotations.

Lemma list_nth_ext {B} (l l' : list B) : (forall j, nth_error l j = nth_error l' j) -> l = l'.
Proof.
  revert l'. induction l as [|x l IH]; intros l' H.
  - specialize (H 0). destruct l'; [reflexivity|discriminate].
  - destruct l' as [|y l']; [specialize (H 0); discriminate|]. pose proof (H 0) as H0. simpl in H0. injection H0 as ->.
    f_equal. apply IH. intros j. apply (H (S j)).
Qed.
Lemma nth_error_repeat_ {B} (x : B) n j : nth_error (repeat x n) j = if j <? n then Some x else None.
Proof.
  revert j. induction n as [|n IH]; intros [|j]; try reflexivity. simpl. rewrite IH. reflexivity.
Qed.
Lemma nth_error_firstn_ {B} (l : list B) k : forall j, j < k -> nth_error (firstn k l) j = nth_error l j.
Proof. revert l. induction k as [|k IH]; intros l j H; [lia|]. destruct l as [|x l]; [reflexivity|]. destruct j; [reflexivity|]. simpl. apply IH. lia. Qed.
Lemma filter_none {B} (f : B -> bool) l : (forall x, In x l -> f x = false) -> filter f l = [].
Proof. induction l as [|x l IH]; intros H; [reflexivity|]. simpl. rewrite H by (left; auto). apply IH. intros y Hy. apply H. right; auto. Qed.

(** After a run of k iterations from a fresh object, the array [conv] consists of a leading zero, the k values of the
    iterations in order (the criterion evaluated on iterates j-1 and j of the reference algorithm) and zeros; so
    solve() returns the values of the iterations in order with exact zeros left out. *)
Theorem C14_reported_history :
  forall (A : App) (wf : nat -> Vec A -> Prop) (o : Opts A) (P n : nat) c,
  good_setup wf o P -> o_rand o = None -> sc_is_zero A (sc_zero A) = true ->
  steps P n (initial (mgrit_main o P)) c -> stuck P c ->
  exists res hist, finished P res c /\
    (forall r, r < P -> s_iter (res r) = length hist) /\
    (forall j, 1 <= j <= length hist ->
       nth_error hist (j - 1) = tnorm A (crit_of o (gu (iterate o zero_guess (j - 1)) 0) (gu (iterate o zero_guess j) 0))) /\
    (forall r, r < P -> result_conv (res r) = filter (fun x => negb (sc_is_zero A x)) hist).
Proof.
  intros A wf o P n c G Hr Hz H S.
  destruct (run_facts wf o P n c G H S) as (res & k & F & Hk & _ & _ & H3 & H4 & _ & _ & H6 & _).
  rewrite init_guess_zero in * by exact Hr.
  set (conv := gconv (iterate o zero_guess k)) in *.
  assert (Hlen : length conv = o_max_iter o + 1).
  { unfold conv, iterate. rewrite (passes_conv_len o), (construct_conv o), repeat_length. reflexivity. }
  assert (Hout : forall j, j = 0 \/ k < j -> nth_error conv j = nth_error (repeat (sc_zero A) (o_max_iter o + 1)) j).
  { intros j [-> | Hj].
    - unfold conv, iterate. rewrite (passes_conv_prefix o 0 k) by lia. simpl g_passes. rewrite (construct_conv o). reflexivity.
    - unfold conv, iterate. rewrite (passes_conv_zero o) by lia. rewrite (construct_conv o). reflexivity. }
  set (hist := firstn k (tl conv)).
  assert (Hh : length hist = k).
  { unfold hist. rewrite firstn_length. destruct conv; simpl in *; lia. }
  assert (Hsplit : conv = sc_zero A :: hist ++ repeat (sc_zero A) (o_max_iter o - k)).
  { apply list_nth_ext. intros [|j].
    - rewrite Hout by auto. rewrite nth_error_repeat_. replace (0 <? o_max_iter o + 1) with true by (symmetry; apply Nat.ltb_lt; lia). reflexivity.
    - change (nth_error (sc_zero A :: hist ++ repeat (sc_zero A) (o_max_iter o - k)) (Datatypes.S j))
        with (nth_error (hist ++ repeat (sc_zero A) (o_max_iter o - k)) j). destruct (le_lt_dec k j) as [L|L].
      + rewrite Hout by lia. rewrite nth_error_app2 by lia. rewrite !nth_error_repeat_, Hh.
        replace (Datatypes.S j <? o_max_iter o + 1) with (j - k <? o_max_iter o - k); [reflexivity|].
        apply eq_iff_eq_true. rewrite !Nat.ltb_lt. lia.
      + rewrite nth_error_app1 by lia. unfold hist. destruct conv as [|x conv']; [simpl in Hlen; lia|]. simpl.
        symmetry. apply nth_error_firstn_. lia. }
  clearbody hist. clearbody conv.   exists res, hist. split; [exact F|]. split; [intros r Hr'; rewrite Hh; auto|]. split.
  - intros j Hj. rewrite Hh in Hj. rewrite (H6 j Hj), Hsplit. destruct j as [|j]; [lia|]. simpl.
    rewrite Nat.sub_0_r. symmetry. apply nth_error_app1. lia.
  - intros r Hr'. unfold result_conv. rewrite (H4 r Hr'), Hsplit. simpl. rewrite Hz. simpl.
    rewrite filter_app. rewrite (filter_none _ (repeat _ _)); [apply app_nil_r|].
    intros x Hx. apply repeat_spec in Hx. subst. rewrite Hz. reflexivity.
Qed.

(** Without exact zeros the returned array is the complete history, one value per iteration. *)
Theorem C14_complete_history :
  forall (A : App) (wf : nat -> Vec A -> Prop) (o : Opts A) (P n : nat) c,
  good_setup wf o P -> o_rand o = None -> sc_is_zero A (sc_zero A) = true ->
  steps P n (initial (mgrit_main o P)) c -> stuck P c ->
  exists res, finished P res c /\ forall r, r < P ->
    ((forall j x, 1 <= j <= s_iter (res r) ->
        tnorm A (crit_of o (gu (iterate o zero_guess (j - 1)) 0) (gu (iterate o zero_guess j) 0)) = Some x -> sc_is_zero A x = false) ->
     map Some (result_conv (res r)) =
       map (fun j => tnorm A (crit_of o (gu (iterate o zero_guess (j - 1)) 0) (gu (iterate o zero_guess j) 0))) (seq 1 (s_iter (res r)))).
Proof.
  intros A wf o P n c G Hr Hz H S. destruct (C14_reported_history A wf o P n c G Hr Hz H S) as (res & hist & F & Hk & Hh & Hc).
  exists res. split; [exact F|]. intros r Hr'. rewrite (Hk r Hr'), (Hc r Hr'). intros NZ.
  assert (E : filter (fun x => negb (sc_is_zero A x)) hist = hist).
  { assert (NZ' : forall x, In x hist -> sc_is_zero A x = false).
    { intros x Hx. apply In_nth_error in Hx. destruct Hx as (j & Hj).
      assert (j < length hist) by (apply nth_error_Some; congruence).
      apply (NZ (Datatypes.S j) x); [lia|]. rewrite <- Hh by lia. simpl. rewrite Nat.sub_0_r. exact Hj. }
    clear -NZ'. induction hist as [|x l IH]; [reflexivity|]. simpl. rewrite NZ' by (left; auto). simpl. f_equal.
    apply IH. intros y Hy. apply NZ'. right; auto. }
  rewrite E. apply list_nth_ext. intros j. rewrite !nth_error_map.
  destruct (le_lt_dec (length hist) j) as [L|L].
  - rewrite (proj2 (nth_error_None hist j)) by lia. rewrite (proj2 (nth_error_None (seq 1 _) j)) by (rewrite seq_length; lia). reflexivity.
  - rewrite ListFacts.nth_error_seq by lia. unfold option_map at 2. change (1 + j) with (Datatypes.S j). rewrite <- (Hh (Datatypes.S j)) by lia.
    replace (Datatypes.S j - 1) with j by lia. unfold option_map.
    destruct (nth_error hist j) eqn:E2; [reflexivity|]. apply nth_error_None in E2. lia.
Qed.
Example C14_hypotheses_hold : good_setup (fun _ _ => True) (zopts3 0 20) 4 /\ o_rand (zopts3 0 20) = None /\ sc_is_zero zapp (sc_zero zapp) = true.
Proof. split; [apply zopts3_good; auto; lia|]. split; reflexivity. Qed.

(** The property as stated is false. Two levels, 17 and 9 points, tolerance 1 on integer residuals, one process. *)
Definition zopts2 : Opts zapp :=
  mkOpts zapp [grid_of 17 1; grid_of 9 2] 1 (1%Z : Sc zapp) 20 (1%Z : Sc zapp) false (CfInt 1) (Some false) 1 true 2 None 0 ascending_order.
Lemma zopts2_good P : 0 < P -> P <= 17 -> good_setup (fun _ _ => True) zopts2 P.
Proof.
  intros HP HP'. constructor.
  - apply zapp_laws.
  - apply valid_hierarchyb_ok. reflexivity.
  - apply no_adjacentb_ok. reflexivity.
  - simpl. lia.
  - exact HP.
  - unfold check. simpl. replace (17 <? P) with false by (symmetry; apply Nat.ltb_ge; lia). reflexivity.
  - left; reflexivity.
  - apply ascending_order_ok.
  - discriminate.
  - discriminate.
Qed.
Theorem C14_one_value_per_iteration_refuted :
  ~ (forall (A : App) (wf : nat -> Vec A -> Prop) (o : Opts A) (P n : nat) c,
     good_setup wf o P -> steps P n (initial (mgrit_main o P)) c -> stuck P c ->
     exists res, finished P res c /\ forall r, r < P -> length (result_conv (res r)) = s_iter (res r)).
Proof.
  intros H. destruct (run_net_steps 1 3 2000 (mgrit_main zopts2 1)) as (n & Hn).
  destruct (H zapp (fun _ _ => True) zopts2 1 n _ (zopts2_good 1 ltac:(lia) ltac:(lia)) Hn) as (res & F & Hl).
  - apply stuckb_ok. vm_compute. reflexivity.
  - specialize (Hl 0 ltac:(lia)). destruct F as [F _]. specialize (F 0 ltac:(lia)).
    assert (X : match procs (run_net 1 3 2000 (initial (mgrit_main zopts2 1))) 0 with
                | Ret s => (length (result_conv s), s_iter s) = (3, 4) | _ => False end) by (vm_compute; reflexivity).
    rewrite F in X. congruence.
Qed.

(** Calling solve() again on the same object ([mgrit_main] followed by a second solve()). *)
Definition mgrit_twice {A : App} (o : Opts A) (P r : nat) : prog (Msg A) (St A) :=
  match check o P with
  | Some e => Raise e
  | None =>
      match setup_infos o P r with
      | None => Raise IndexError
      | Some infos =>
          s <- construct o P r infos (forward_solve o P infos) ;;
          s <- solve o P r infos (forward_solve o P infos) s ;;
          solve o P r infos (forward_solve o P infos) s
      end
  end.
(** The second call performs one iteration, with convergence value 0, but reports the two values 17600 and 23040 of
    iterations 2 and 3 of the first call. *)
Theorem C14_second_solve_refuted :
  ~ (forall (A : App) (wf : nat -> Vec A -> Prop) (o : Opts A) (P n : nat) c,
     good_setup wf o P -> steps P n (initial (mgrit_twice o P)) c -> stuck P c ->
     exists res, finished P res c /\ forall r, r < P -> length (result_conv (res r)) <= s_iter (res r)).
Proof.
  intros H. destruct (run_net_steps 1 3 4000 (mgrit_twice zopts2 1)) as (n & Hn).
  destruct (H zapp (fun _ _ => True) zopts2 1 n _ (zopts2_good 1 ltac:(lia) ltac:(lia)) Hn) as (res & F & Hl).
  - apply stuckb_ok. vm_compute. reflexivity.
  - specialize (Hl 0 ltac:(lia)). destruct F as [F _]. specialize (F 0 ltac:(lia)).
    assert (X : match procs (run_net 1 3 4000 (initial (mgrit_twice zopts2 1))) 0 with
                | Ret s => result_conv s = [17600%Z; 23040%Z] /\ s_iter s = 1 | _ => False end) by (vm_compute; split; reflexivity).
    rewrite F in X. destruct X as [X1 X2]. rewrite X1, X2 in Hl. simpl in Hl. lia.
Qed.

Print Assumptions C14_reported_history.
Print Assumptions C14_complete_history.
Print Assumptions C14_one_value_per_iteration_refuted.
Print Assumptions C14_second_solve_refuted.
