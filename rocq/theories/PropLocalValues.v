(** C45: the values a run with a local convergence criterion ends with. Processes stop at different times and clean up while
    their neighbours go on, yet the finished values fit together: the initial value, the solver's step at every F-point, and
    with the local residual criterion a residual below the tolerance at every C-point of a process that has not run into the
    iteration limit - also at the first points of a process, whose predecessor belongs to another process. *)
From Coq Require Import List ZArith Lia Arith Bool Permutation Reals Lra.
From Verif Require Import Net NetProofs NetPhase NetExec PyList ListFacts Setup SplitProofs Spec SetupProofs Mgrit Reference Sim LocalRun Main LocalValues ExampleApp OrderProofs PropRefuted PropLocalRun.
Import ListNotations.
Local Open Scope nat_scope.

(** Time point [i] of the finest level, and the step from the point before it. *)
Definition time0 {A : App} (o : Opts A) (i : nat) : Z := nth i (nth 0 (o_grids o) []) 0%Z.
Definition step_to {A : App} (o : Opts A) (i : nat) (x : Vec A) : Vec A := phi A 0 x (time0 o (i - 1)) (time0 o i).

(** The hypotheses of C36 together with what the values need. *)
Record local_setup {A : App} (good : Vec A -> Prop) (o : Opts A) (P : nat) : Prop := {
  ls_crit : local_crit o;
  ls_laws : flat_laws A good;
  ls_rand : forall rnd, o_rand o = Some rnd -> forall r i, good (rnd r i);
  ls_grids : valid_hierarchy (o_grids o);
  ls_apart : no_adjacent_cpoints (o_grids o);
  ls_levels : 2 <= length (o_grids o);
  ls_procs : 0 < P;
  ls_accept : check o P = None;
  ls_iter : 0 < o_max_iter o;
  ls_order : f_order_ok (o_grids o) (o_set_order o) P;
  ls_cf : forall l, S l < length (o_grids o) -> 1 <= cf_count o l;
  ls_norm : forall r, r < P -> norm_below o (length (norm_points (o_grids o) P r));
  ls_jump : o_conv_crit o = 3%Z -> no_fc_boundary (o_grids o) P
}.

Section C45.
  Context {A : App}.
  Variable good : Vec A -> Prop.
  Variable o : Opts A.
  Variable P : nat.
  Hypothesis LS : local_setup good o P.

  (** In every execution that can go no further everybody has returned, and: *)
  Theorem C45_local_criteria_values : forall n d, steps P n (initial (mgrit_main o P)) d -> stuck P d ->
    exists res, finished P res d /\
      let nt := length (nth 0 (o_grids o) []) in
      let U := gathered P (fun r => s_u (res r) 0) in
      length U = nt /\
      nth_error U 0 = Some (vclone A (tstart A 0)) /\
      (forall i x, 0 < i < nt -> ~ In (time0 o i) (nth 1 (o_grids o) []) -> nth_error U (i - 1) = Some x -> nth_error U i = Some (step_to o i x)) /\
      (o_conv_crit o = 2%Z -> forall r i x y, r < P -> In i (norm_points (o_grids o) P r) -> s_iter (res r) <> o_max_iter o ->
         nth_error U (i - 1) = Some x -> nth_error U i = Some y -> sc_lt A (vnorm A (vsub A (step_to o i x) y)) (o_tol o) = true).
  Proof.
    destruct LS as [Hc HL Hrand HV HA HL2 HP0 Hk Hm Hf Hcf Hn Hj]. assert (HP : P <= N (o_grids o) 0) by exact (check_procs o P Hk).
    destruct (local_values good o P HL HV HP0 HP) as (fin & Hfin & HJ); auto.
    - unfold gcc. destruct Hc as [-> | ->]; reflexivity.
    - intros l r Hl Hr. apply (order_block o P HV HP0 HP Hf l r Hl Hr).
    - intros l r Hl Hr. apply (order_block o P HV HP0 HP Hf l r Hl Hr).
    - eapply local_no_dist; eauto.
    - intros J r Hr. apply (no_fc_flags o P HV HP0 HP); auto. apply Hj. unfold is_jump in J. destruct Hc as [E|E]; [rewrite E in J; discriminate|exact E].
    - intros l Hl. apply Hcf. lia.
    - intros r vals Hr Hl. apply (Hn r Hr). rewrite (norm_points_eq o P HV HP0 HP) by auto. exact Hl.
    - destruct (phase_finishes P _ _ Hfin) as (n & c & H1 & H2). intros m d Hd Hst.
      destruct (finished_unique P n _ _ fin H2 H1 m d Hd) as (_ & _ & Z). destruct (Z Hst) as [_ Fd]. exists fin. split; [exact Fd|]. cbv zeta.
      destruct (JJ_global good o P HV HP0 HP) with (fin := fin) as (U & E & U0 & UF & UC); auto.
      + intros l r Hl Hr. apply (order_block o P HV HP0 HP Hf l r Hl Hr).
      + intros l r Hl Hr. apply (order_block o P HV HP0 HP Hf l r Hl Hr).
      + rewrite E. change (length (nth 0 (o_grids o) [])) with (N (o_grids o) 0). assert (N0 : 0 < N (o_grids o) 0) by lia.
        assert (NU : forall i, i < N (o_grids o) 0 -> nth_error (map U (seq 0 (N (o_grids o) 0))) i = Some (U i)).
        { intros i Hi. apply map_nth_error. rewrite nth_error_seq by auto. reflexivity. }
        split; [rewrite map_length, seq_length; reflexivity|]. split; [rewrite NU by lia; congruence|]. split.
        * intros i x Hi HC Hx. rewrite NU in Hx by lia. injection Hx as <-. rewrite NU by lia. f_equal. unfold step_to, time0. apply UF; [lia|].
          unfold isC. destruct (0 =? length (o_grids o) - 1) eqn:EL; [apply Nat.eqb_eq in EL; lia|]. apply memz_false. exact HC.
        * intros H2' r i x y Hr Hi Hit Hx Hy. rewrite (norm_points_eq o P HV HP0 HP) in Hi by auto.
          assert (Hin : i < N (o_grids o) 0).
          { destruct (lt_dec i (N (o_grids o) 0)) as [|Hge]; [auto|]. exfalso. assert (X : nth_error (map U (seq 0 (N (o_grids o) 0))) i = None).
            { apply nth_error_None. rewrite map_length, seq_length. lia. } congruence. }
          rewrite NU in Hx by lia. rewrite NU in Hy by lia. injection Hx as <-. injection Hy as <-. unfold step_to, time0. apply (UC ltac:(unfold is_jump; rewrite H2'; reflexivity) r i Hr Hi Hit).
  Qed.

  Lemma norm_points_cover i : 0 < i < length (nth 0 (o_grids o) []) -> In (time0 o i) (nth 1 (o_grids o) []) ->
    exists r, r < P /\ In i (norm_points (o_grids o) P r).
  Proof.
    destruct LS as [Hc HL Hrand HV HA HL2 HP0 Hk Hm Hf Hcf Hn Hj]. assert (HP : P <= N (o_grids o) 0) by exact (check_procs o P Hk).
    intros Hi HC. assert (L0 : 0 < length (o_grids o)) by lia.
    assert (HiN : i < N (o_grids o) 0) by (change (N (o_grids o) 0) with (length (nth 0 (o_grids o) [])); lia).
    destruct (owner_spec (o_grids o) P HV HP0 HP 0 i L0 HiN) as [Hr Hio].
    exists (owner (o_grids o) P 0 i). split; [exact Hr|]. rewrite (norm_points_eq o P HV HP0 HP) by auto. apply (own_crit_in o P HV HA HP0 HP); auto; try (intros l r Hl Hr'; apply (order_block o P HV HP0 HP Hf l r Hl Hr')).
    split; [|lia]. split; [exact Hio|]. unfold isC. destruct (0 =? length (o_grids o) - 1); [reflexivity|]. apply memz_in. exact HC.
  Qed.

  (** Nobody has run into the iteration limit and values closer than the tolerance are equal (exact arithmetic with isolated
      values): the result is sequential time stepping. *)
  Corollary C45_exact_when_converged : o_conv_crit o = 2%Z ->
    (forall x y, sc_lt A (vnorm A (vsub A x y)) (o_tol o) = true -> x = y) ->
    forall n d res, steps P n (initial (mgrit_main o P)) d -> finished P res d -> (forall r, r < P -> s_iter (res r) <> o_max_iter o) ->
    gathered P (fun r => s_u (res r) 0) = map (time_stepping o) (seq 0 (length (nth 0 (o_grids o) []))).
  Proof.
    intros H2 Hsep n d res Hd Hfin Hit.
    destruct (C45_local_criteria_values n d Hd (finished_stuck P res d Hfin)) as (res' & Hfin' & EL & E0 & EF & EC). cbv zeta in *.
    assert (ER : forall r, r < P -> res' r = res r).
    { intros r Hr. destruct Hfin as [F1 _], Hfin' as [F2 _]. specialize (F1 r Hr). specialize (F2 r Hr). congruence. }
    assert (EG : gathered P (fun r => s_u (res' r) 0) = gathered P (fun r => s_u (res r) 0)).
    { unfold gathered. f_equal. apply map_ext_in. intros r Hr. apply in_seq in Hr. rewrite ER by lia. reflexivity. }
    rewrite EG in *. set (U := gathered P (fun r => s_u (res r) 0)) in *.
    assert (ALL : forall i, i < length (nth 0 (o_grids o) []) -> nth_error U i = Some (time_stepping o i)).
    { induction i as [|i IH]; intros Hi; [exact E0|]. specialize (IH ltac:(lia)).
      destruct (in_dec Z.eq_dec (time0 o (S i)) (nth 1 (o_grids o) [])) as [HC|HC].
      - destruct (norm_points_cover (S i) ltac:(lia) HC) as (r & Hr & Hp).
        destruct (nth_error U (S i)) as [y|] eqn:Ey; [|apply nth_error_None in Ey; lia]. f_equal. symmetry.
        replace (time_stepping o (S i)) with (step_to o (S i) (time_stepping o (S i - 1))) by (unfold step_to, time0; replace (S i - 1) with i by lia; reflexivity). apply Hsep.
        apply (EC H2 r (S i) (time_stepping o (S i - 1)) y Hr Hp); [rewrite ER by auto; apply Hit; auto|replace (S i - 1) with i by lia; exact IH|exact Ey].
      - rewrite (EF (S i) (time_stepping o i)) by (auto; try lia; replace (S i - 1) with i by lia; exact IH). unfold step_to, time0. replace (S i - 1) with i by lia. reflexivity. }
    apply list_ext; [rewrite map_length, seq_length; exact EL|]. intros i Hi. rewrite ALL by lia. symmetry.
    apply map_nth_error. rewrite nth_error_seq by lia. reflexivity.
  Qed.

  (** Number of C-points among the first [i] points after the initial one. *)
  Definition c_count (i : nat) : nat := length (filter (fun k => memz (time0 o k) (nth 1 (o_grids o) [])) (seq 1 i)).
  (** Steps that do not increase distances: the error at point [i] is at most the tolerance times the number of C-points up
      to it. *)
  Corollary C45_error_bound : o_conv_crit o = 2%Z ->
    forall (dist : Vec A -> Vec A -> R) (eps : R),
    (forall x, dist x x = 0%R) -> (forall x y z, dist x z <= dist x y + dist y z)%R ->
    (forall x y a b, dist (phi A 0 x a b) (phi A 0 y a b) <= dist x y)%R ->
    (forall x y, sc_lt A (vnorm A (vsub A x y)) (o_tol o) = true -> dist x y <= eps)%R ->
    forall n d res, steps P n (initial (mgrit_main o P)) d -> finished P res d -> (forall r, r < P -> s_iter (res r) <> o_max_iter o) ->
    forall i, i < length (nth 0 (o_grids o) []) ->
    exists y, nth_error (gathered P (fun r => s_u (res r) 0)) i = Some y /\ (dist (time_stepping o i) y <= INR (c_count i) * eps)%R.
  Proof.
    intros H2 dist eps Hd0 Htri Hlip Htol n d res Hd Hfin Hit.
    destruct (C45_local_criteria_values n d Hd (finished_stuck P res d Hfin)) as (res' & Hfin' & EL & E0 & EF & EC). cbv zeta in *.
    assert (ER : forall r, r < P -> res' r = res r).
    { intros r Hr. destruct Hfin as [F1 _], Hfin' as [F2 _]. specialize (F1 r Hr). specialize (F2 r Hr). congruence. }
    assert (EG : gathered P (fun r => s_u (res' r) 0) = gathered P (fun r => s_u (res r) 0)).
    { unfold gathered. f_equal. apply map_ext_in. intros r Hr. apply in_seq in Hr. rewrite ER by lia. reflexivity. }
    rewrite EG in *. set (U := gathered P (fun r => s_u (res r) 0)) in *.
    induction i as [|i IH]; intros Hi.
    - exists (vclone A (tstart A 0)). split; [exact E0|]. simpl. rewrite Hd0. lra.
    - destruct (IH ltac:(lia)) as (x & Ex & Hx). clear IH.
      assert (EX : nth_error U (S i - 1) = Some x) by (replace (S i - 1) with i by lia; exact Ex).
      assert (ES : time_stepping o (S i) = step_to o (S i) (time_stepping o i)) by (unfold step_to, time0; replace (S i - 1) with i by lia; reflexivity).
      assert (CS : c_count (S i) = c_count i + if memz (time0 o (S i)) (nth 1 (o_grids o) []) then 1 else 0).
      { unfold c_count. rewrite seq_S, filter_app, app_length. simpl. destruct (memz _ _); reflexivity. }
      rewrite CS, ES. destruct (memz (time0 o (S i)) (nth 1 (o_grids o) [])) eqn:HC.
      + apply memz_in in HC. destruct (norm_points_cover (S i) ltac:(lia) HC) as (r & Hr & Hp).
        destruct (nth_error U (S i)) as [y|] eqn:Ey; [|apply nth_error_None in Ey; lia]. exists y. split; [reflexivity|].
        pose proof (EC H2 r (S i) x y Hr Hp ltac:(rewrite ER by auto; apply Hit; auto) EX Ey) as RS. apply Htol in RS.
        pose proof (Htri (step_to o (S i) (time_stepping o i)) (step_to o (S i) x) y). pose proof (Hlip (time_stepping o i) x (time0 o (S i - 1)) (time0 o (S i))).
        unfold step_to in *. rewrite plus_INR. simpl (INR 1). lra.
      + apply memz_false in HC. exists (step_to o (S i) x). split; [apply EF; auto; lia|]. rewrite Nat.add_0_r. unfold step_to. eapply Rle_trans; [apply Hlip|exact Hx].
  Qed.
End C45.

(** ** Instances *)
Lemma zapp_flat : flat_laws zapp (fun _ => True).
Proof. constructor; simpl; auto. Qed.
Lemma zopts_local_setup : local_setup (fun _ => True) (zopts_local 2 1) 3 /\ local_setup (fun _ => True) (zopts_local 3 1) 2.
Proof.
  split.
  - destruct C36_hypotheses_hold_residual as (H1 & H2 & H3 & H4 & H5 & H6 & H7 & H8). constructor; auto; try (simpl; lia); [apply zapp_flat].
  - destruct C36_hypotheses_hold_jump as (H1 & H2 & H3 & H4 & H5 & H6 & H7 & H8). constructor; auto; try (simpl; lia); [apply zapp_flat].
Qed.
(** Nine points on three processes: the first two stop after one iteration, the third after two, and the result is time stepping. *)
Example C45_run :
  let c := run_net 3 80 3000 (initial (mgrit_main (zopts_local 2 1) 3)) in
  let res r := match procs c r with Ret s => Some s | _ => None end in
  map (fun r => match res r with Some s => s_iter s | None => 0 end) (seq 0 3) = [1; 1; 2] /\
  gathered 3 (fun r => match res r with Some s => s_u s 0 | None => [] end) = map (time_stepping (zopts_local 2 1)) (seq 0 9).
Proof. vm_compute. split; reflexivity. Qed.
Example C45_separation : forall x y : Vec zapp, sc_lt zapp (vnorm zapp (vsub zapp x y)) (o_tol (zopts_local 2 1)) = true -> x = y.
Proof. simpl. intros x y H. apply Z.ltb_lt in H. lia. Qed.

Print Assumptions C45_local_criteria_values.
Print Assumptions C45_exact_when_converged.
Print Assumptions C45_error_bound.
