(** C46: spatial coarsening. Every level has its own kind of vectors ([wf l]); step, restriction and interpolation are only
    meant for vectors of their level. *)
From Coq Require Import List ZArith Lia Arith Bool.
From Verif Require Import Net NetProofs NetPhase NetExec PyList ListFacts Setup SplitProofs Spec SetupProofs Mgrit Reference Sim Main ExampleApp OrderProofs PropRefuted PropLocalRun.
Import ListNotations.

(** With a global convergence criterion every process ends with vectors of the right level, on all levels and including the
    copy of the predecessor's value in front of its points. *)
Theorem C46_levels_kept : forall (A : App) (wf : nat -> Vec A -> Prop) (o : Opts A) (P n : nat) c,
  good_setup wf o P -> steps P n (initial (mgrit_main o P)) c -> stuck P c ->
  exists res, finished P res c /\ forall r l, r < P -> l < length (o_grids o) -> Forall (wf l) (s_u (res r) l).
Proof.
  intros A wf o P n c GS Hc Hst. pose proof (gs_grids _ _ _ GS) as HV. pose proof (gs_procs _ _ _ GS) as HP0. pose proof (HP' wf o P GS) as HP.
  destruct (main_sim o P wf (gs_laws _ _ _ GS) HV (gs_apart _ _ _ GS) HP0 HP (Hgcc' wf o P GS)
              (fun l r Hl Hr => proj1 (f_order_block wf o P GS l r Hl Hr))
              (fun l r Hl Hr => proj2 (f_order_block wf o P GS l r Hl Hr)) (gs_dist _ _ _ GS) (gs_rand _ _ _ GS) (gs_accept _ _ _ GS) (gs_two _ _ _ GS))
    as (s & F & W & K & R).
  destruct (phase_finishes P _ _ F) as (m & d & H1 & H2). destruct (finished_unique P m _ _ s H2 H1 n c Hc) as (_ & _ & Z).
  destruct (Z Hst) as [_ Fc]. exists s. split; [exact Fc|]. intros r l Hr Hl. apply Forall_forall. intros x Hx.
  apply In_nth_error in Hx. destruct Hx as (k & Hk). pose proof (proj1 (R r Hr)) as RDr.
  destruct (rd_u _ _ _ _ _ _ RDr l Hl) as [EL EV]. pose proof (rd_gh _ _ _ _ _ _ RDr l Hl) as GH.
  assert (Hkl : k < cnt (o_grids o) P l r + off (o_grids o) P l r) by (rewrite <- EL; apply nth_error_Some; congruence).
  assert (NL : lo (o_grids o) P l (S r) <= N (o_grids o) l) by (apply (lo_le_N (o_grids o) P HP0 HP)).
  pose proof (off_le (o_grids o) P HV HP0 HP l r Hl Hr) as OL.
  destruct (lt_dec k (off (o_grids o) P l r)) as [Hlt|Hge].
  - assert (Ho : off (o_grids o) P l r = 1) by (unfold off in *; destruct (_ || _); lia). destruct (GH Ho) as (y & Ey & Wy).
    assert (k = 0) by lia. subst k. congruence.
  - set (i := lo (o_grids o) P l r + (k - off (o_grids o) P l r)).
    assert (Hi : lo (o_grids o) P l r <= i < lo (o_grids o) P l (S r)) by (unfold i, cnt in *; lia).
    specialize (EV i Hi). assert (El : loc (o_grids o) P l r i = k) by (unfold loc, i; lia). rewrite El in EV.
    assert (x = gu (g_main o (init_guess o P)) l i) by congruence. subst x. apply W; [auto|lia].
Qed.

(** ** Refuted for the local criteria
    A process that has converged sends, in place of the injected value of level lvl + 1 (mgrit.py 512), its value of level
    lvl (661); the neighbour that is still running takes it as a value of level lvl + 1 (517) and computes with it (534, 545). *)
(** Vectors carry their level; mixing levels gives [None] (in Python wrong values or an exception from numpy). *)
Definition lop (f : Z -> Z -> Z) (x y : option (nat * Z)) : option (nat * Z) :=
  match x, y with Some (l, a), Some (k, b) => if l =? k then Some (l, f a b) else None | _, _ => None end.
Definition on_level (l : nat) (f : Z -> option (nat * Z)) (x : option (nat * Z)) : option (nat * Z) :=
  match x with Some (k, v) => if k =? l then f v else None | None => None end.
Definition lapp : App := mkApp (option (nat * Z)) (option (nat * Z)) Z (lop Z.add) (lop Z.sub)
  (fun x w => option_map (fun p => (fst p, (snd p * w)%Z)) x)
  (fun x => match x with Some (_, a) => Z.abs a | None => 1000%Z end) (fun x => x) (option_map (fun p => (fst p, 0%Z))) (fun x => x) (fun _ d => d)
  (fun l x a b => on_level l (fun v => Some (l, (2 * v + b - a + Z.of_nat l)%Z)) x)
  (fun l => on_level l (fun v => Some (S l, v)))
  (fun l => on_level (S l) (fun v => Some (l, v)))
  (fun l => Some (l, 0%Z)) (fun l => Some (l, 1%Z))
  (fun l => Some (fold_left Z.max l 0%Z)) Z.ltb 0%Z (Z.eqb 0) (fun x => (1 - x)%Z).
Definition lwf (l : nat) (x : Vec lapp) : Prop := exists v : Z, x = Some (l, v).
Lemma lapp_laws : app_laws lapp lwf.
Proof.
  constructor; intros; repeat match goal with H : lwf _ _ |- _ => destruct H as [? ->] end; unfold lwf; simpl; rewrite ?Nat.eqb_refl; eauto.
  discriminate.
Qed.
Definition lopts (crit : Z) : Opts lapp :=
  mkOpts lapp [grid_of 9 1; grid_of 5 2] 1 (1%Z : Sc lapp) 10 (1%Z : Sc lapp) false (CfInt 1) (Some false) 1 true 2 None crit ascending_order.

(** All hypotheses of C36 hold, so everybody returns; but the second of two processes ends with values that are no vectors of level 0. *)
Theorem C46_levels_kept_refuted :
  ~ (forall (A : App) (wf : nat -> Vec A -> Prop) (o : Opts A) (P n : nat) c,
     app_laws A wf -> local_crit o -> valid_hierarchy (o_grids o) -> no_adjacent_cpoints (o_grids o) -> 2 <= length (nth 0 (o_grids o) []) ->
     0 < P -> check o P = None -> (forall l, S l < length (o_grids o) -> 1 <= cf_count o l) ->
     (forall r, r < P -> norm_below o (length (norm_points (o_grids o) P r))) ->
     f_order_ok (o_grids o) (o_set_order o) P -> o_rand o = None ->
     steps P n (initial (mgrit_main o P)) c -> stuck P c ->
     exists res, finished P res c /\ forall r, r < P -> Forall (wf 0) (s_u (res r) 0)).
Proof.
  intros H. assert (W : exists n c, steps 2 n (initial (mgrit_main (lopts 2) 2)) c /\ stuck 2 c /\
            match procs c 1 with Ret s => s_u s 0 = [Some (0, 31%Z); Some (0, 63%Z); None; None; None] | _ => False end).
  { destruct (run_net_steps 2 60 3000 (mgrit_main (lopts 2) 2)) as (n & Hn).
    exists n, (run_net 2 60 3000 (initial (mgrit_main (lopts 2) 2))). split; [exact Hn|].
    split; [apply stuckb_ok; vm_compute; reflexivity|vm_compute; reflexivity]. }
  destruct W as (n & c & Hn & St & X).
  destruct (H lapp lwf (lopts 2) 2 n c) as (res & [F _] & E); auto; try (simpl; lia).
  - apply lapp_laws.
  - left. reflexivity.
  - apply valid_hierarchyb_ok. reflexivity.
  - apply no_adjacentb_ok. reflexivity.
  - intros r Hr vals Hl. eexists. split; [reflexivity|]. apply fold_max_below. reflexivity.
  - apply ascending_order_ok.
  - rewrite (F 1 ltac:(lia)) in X. specialize (E 1 ltac:(lia)). rewrite X in E. inversion_clear E as [|? ? _ E1]. inversion_clear E1 as [|? ? _ E2].
    inversion_clear E2 as [|? ? E3 _]. destruct E3 as [v E3]. discriminate.
Qed.

(** The same problem with the global criterion meets the hypotheses of C46_levels_kept and ends with the right values. *)
Example C46_hypotheses_hold : good_setup lwf (lopts 0) 2.
Proof.
  constructor; try discriminate; try (simpl; lia); auto.
  - apply lapp_laws.
  - apply valid_hierarchyb_ok. reflexivity.
  - apply no_adjacentb_ok. reflexivity.
  - apply ascending_order_ok.
Qed.
Example C46_global_run :
  let c := run_net 2 60 3000 (initial (mgrit_main (lopts 0) 2)) in
  match procs c 1 with Ret s => s_u s 0 = map (fun v => Some (0, v)) [31; 63; 127; 255; 511]%Z /\ s_u s 1 = map (fun v => Some (1, v)) [31; 127; 511]%Z | _ => False end.
Proof. vm_compute. split; reflexivity. Qed.

Print Assumptions C46_levels_kept.
Print Assumptions C46_levels_kept_refuted.
