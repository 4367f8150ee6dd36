(** C68: the optimization workflow (examples/optimize_geometry_im/optimization_workflow.py). *)
From Coq Require Import Reals Lra List ZArith Lia Arith Bool.
From Verif Require Import Net NetProofs NetFifo NetPhase PyList ListFacts Setup SplitProofs Spec SetupProofs Mgrit Reference Sim Main Collect.
From Verif Require Import Workflow WorkflowProofs LocalOps ParallelProofs ExampleApp.
Import ListNotations.

(** Entry [i] is the first of those nearest to [v]. *)
Definition first_nearest (l : list Z) (v : Z) (i : nat) : Prop :=
  i < length l /\
  (forall j, j < length l -> (Z.abs (nth i l 0%Z - v) <= Z.abs (nth j l 0%Z - v))%Z) /\
  (forall j, j < i -> (Z.abs (nth i l 0%Z - v) < Z.abs (nth j l 0%Z - v))%Z).

Lemma argmin_from_spec l : forall pre i best bestv, i = length pre -> best < i -> nth best pre 0%Z = bestv ->
  (forall j, j < i -> (bestv <= nth j pre 0)%Z) -> (forall j, j < best -> (bestv < nth j pre 0)%Z) ->
  let r := argmin_from l i best bestv in let all := pre ++ l in
  r < length all /\ (forall j, j < length all -> (nth r all 0 <= nth j all 0)%Z) /\ (forall j, j < r -> (nth r all 0 < nth j all 0)%Z).
Proof.
  induction l as [|x l IH]; intros pre i best bestv Hi Hb Hn H1 H2; cbn [argmin_from].
  - cbv zeta. rewrite app_nil_r. subst. auto.
  - assert (E : pre ++ x :: l = (pre ++ [x]) ++ l) by (rewrite <- app_assoc; reflexivity). rewrite E.
    assert (Nx : nth i (pre ++ [x]) 0%Z = x) by (rewrite Hi, app_nth2, Nat.sub_diag by lia; reflexivity).
    assert (Np : forall j, j < i -> nth j (pre ++ [x]) 0%Z = nth j pre 0%Z) by (intros j Hj; apply app_nth1; lia).
    destruct (Z.ltb_spec x bestv) as [L|L].
    + apply (IH (pre ++ [x]) (S i) i x); auto.
      * rewrite app_length. simpl. lia.
      * intros j Hj. destruct (Nat.eq_dec j i) as [->|]; [rewrite Nx; lia|]. rewrite Np by lia. specialize (H1 j ltac:(lia)). lia.
      * intros j Hj. rewrite Np by lia. specialize (H1 j ltac:(lia)). lia.
    + apply (IH (pre ++ [x]) (S i) best bestv); auto.
      * rewrite app_length. simpl. lia.
      * rewrite Np by lia. exact Hn.
      * intros j Hj. destruct (Nat.eq_dec j i) as [->|]; [rewrite Nx; lia|]. rewrite Np by lia. apply H1. lia.
      * intros j Hj. rewrite Np by lia. apply H2. lia.
Qed.

(** find_nearest returns the first of the nearest entries, and nothing else does. *)
Theorem C68_find_nearest : forall array value i, find_nearest array value = Some i <-> first_nearest array value i.
Proof.
  intros array value.
  assert (D : forall i, find_nearest array value = Some i -> first_nearest array value i).
  { intros i H. unfold find_nearest, argmin in H. destruct array as [|x l]; [discriminate|]. cbn [map] in H. injection H as H.
    set (g := fun x => Z.abs (x - value)) in *. change (Z.abs (x - value)) with (g x) in H.
    destruct (argmin_from_spec (map g l) [g x] 1 0 (g x)) as (A1 & A2 & A3); auto.
    - intros j Hj. destruct j; [simpl; lia|lia].
    - intros j Hj. lia.
    - rewrite H in A1, A2, A3. change ([g x] ++ map g l) with (map g (x :: l)) in *. rewrite map_length in A1, A2.
      assert (N : forall j, j < length (x :: l) -> nth j (map g (x :: l)) 0%Z = g (nth j (x :: l) 0%Z)).
      { intros j Hj. rewrite (nth_indep _ _ (g 0%Z)) by (rewrite map_length; auto). apply map_nth. }
      split; [exact A1|]. split.
      + intros j Hj. specialize (A2 j Hj). rewrite !N in A2 by auto. exact A2.
      + intros j Hj. specialize (A3 j Hj). rewrite !N in A3 by lia. exact A3. }
  intros i. split; [apply D|]. intros (H1 & H2 & H3). destruct (find_nearest array value) as [k|] eqn:E.
  - destruct (D k eq_refl) as (K1 & K2 & K3). f_equal. destruct (lt_eq_lt_dec k i) as [[L|L]|L]; [|exact L|].
    + specialize (H3 k L). specialize (K2 i H1). lia.
    + specialize (K3 i L). specialize (H2 k K1). lia.
  - unfold find_nearest, argmin in E. destruct array; [simpl in H1; lia|discriminate].
Qed.
Example C68_nearest_example : find_nearest [0; 10; 20; 30]%Z 25 = Some 2 /\ first_nearest [0; 10; 20; 30]%Z 25 2.
Proof. assert (E : find_nearest [0; 10; 20; 30]%Z 25 = Some 2) by reflexivity. split; [exact E|]. apply C68_find_nearest. exact E. Qed.

(** The objective of the example for values at all time points, from index [i] on. *)
Local Open Scope R_scope.
Definition average (l : list R) : R := fold_right Rplus 0 l / INR (length l).
Definition objective (i : nat) (values : list val) : R :=
  let tr := average (map fst (skipn i values)) in
  let jl := average (map snd (skipn i values)) in
  - (tr * 148.7 / (tr * 148.7 + jl)).
Lemma objective_eq i values :
  objective_function (mean (map fst (skipn i values)), mean (map snd (skipn i values))) = objective i values.
Proof. unfold objective_function, objective, mean, average. cbn [fst snd]. replace (1487 / 10) with 148.7 by lra. reflexivity. Qed.
Local Close Scope R_scope.

(** One or more workers and any solver for which one execution on the workers alone, receives taking the oldest message, ends with
    the values [vals x r] on worker [r]: every execution of the workflow ends; the optimizer returns what it returns for the objective
    function computed from the values of all workers, each worker has solved one problem per evaluation; nobody blocks. *)
Theorem C68_every_execution :
  forall (X Res : Type) (X_dec : forall x y : X, {x = y} + {x <> y}) (M : X -> Type) (solver : forall x, nat -> prog (M x) (list val))
         (times : list Z) (region : Z) (W i fuel : nat) (vals : X -> nat -> list val) (opt : optimizer X Res),
  0 < W ->
  (forall x, exists n c, fsteps W n (initial (solver x)) c /\ finished W (vals x) c) ->
  first_nearest times (last times 0%Z - region) i ->
  let f := fun x => objective i (concat (map (vals x) (seq 0 W))) in
  evaluations f opt < fuel ->
  exists N, forall n c, steps (S W) n (initial (workflow X_dec M solver times region fuel (S W) opt)) c ->
    n <= N /\ (exists c', steps (S W) (N - n) c c' /\ stuck (S W) c') /\
    (stuck (S W) c -> exists res, finished (S W) res c /\ res 0 = inl (optimum f opt) /\
       forall r, 1 <= r <= W -> res r = inr (evaluations f opt)).
Proof.
  intros X Res X_dec M solver times region W i fuel vals opt HW Hs Hi f Hf.
  set (means := fun x => let l := concat (map (vals x) (seq 0 W)) in (mean (map fst (skipn i l)), mean (map snd (skipn i l)))).
  assert (Hm : forall x, region_means times region (map (vals x) (seq 0 W)) = Some (means x)).
  { intros x. unfold region_means. apply C68_find_nearest in Hi. rewrite Hi. reflexivity. }
  assert (Ef : forall x, objective_function (means x) = f x) by (intros x; unfold means; apply objective_eq).
  assert (Eo : optimum (fun x => objective_function (means x)) opt = optimum f opt /\
               evaluations (fun x => objective_function (means x)) opt = evaluations f opt).
  { clear Hf. induction opt as [s|x k IH]; simpl; [auto|]. rewrite Ef. destruct (IH (f x)) as [-> ->]. auto. }
  destruct Eo as [Eo Ee].
  pose proof (loop_phase X_dec M solver times region W HW vals Hs means Hm opt fuel 0) as F. rewrite Eo, Ee in F. specialize (F Hf).
  destruct (phase_finishes (S W) _ _ F) as (N & c1 & H1 & H2). exists N. intros n c H.
  destruct (finished_unique (S W) N _ c1 _ H2 H1 n c H) as (L1 & L2 & L3). split; [exact L1|]. split.
  - exists c1. split; [exact L2|apply (finished_stuck _ _ _ H2)].
  - intros St0. destruct (L3 St0) as [_ F3]. eexists. split; [exact F3|]. split; [reflexivity|]. intros [|r] Hr; [lia|reflexivity].
Qed.

(** Without workers (one process) nothing is solved: the last process is process 0 itself and the broadcast gives it its own [1, 1], so the
    optimizer runs on a constant function. *)
Theorem C68_one_process :
  forall (X Res : Type) X_dec (M : X -> Type) solver times region fuel (opt : optimizer X Res),
  workflow X_dec M solver times region fuel 1 opt 0 = Ret (inl (optimum (fun _ => (- (148.7 / (148.7 + 1)))%R) opt)).
Proof.
  intros. unfold workflow. cbn [Nat.eqb].
  assert (E : objective_function (1, 1)%R = (- (148.7 / (148.7 + 1)))%R).
  { unfold objective_function. cbn [fst snd]. replace (1487 / 10)%R with 148.7%R by lra. rewrite Rmult_1_l. reflexivity. }
  assert (Q : master M 1 opt = Ret (optimum (fun _ => (- (148.7 / (148.7 + 1)))%R) opt)).
  { induction opt as [s|x k IH]; [reflexivity|]. cbn [master optimum]. simpl Nat.sub. unfold world_bcast. simpl. rewrite E. apply IH. }
  rewrite Q. reflexivity.
Qed.

(** ** Mgrit as the solver *)
Lemma values_phase {A : App} wf (o : Opts A) obs W : good_setup wf o W ->
  phase W (fun r => values_of o obs W r) (fun r => map obs (map (gu (g_main o (init_guess o W)) 0) (pts (o_grids o) W 0 r))).
Proof.
  intros GS. pose proof (HV' wf o W GS) as HV. pose proof (HP0' wf o W GS) as HP0. pose proof (HP' wf o W GS) as HP.
  pose proof (fun l r Hl Hr => proj1 (f_order_block wf o W GS l r Hl Hr)) as Hperm.
  pose proof (fun l r Hl Hr => proj2 (f_order_block wf o W GS l r Hl Hr)) as Hresp.
  assert (HL0 : 0 < length (o_grids o)) by (apply (SetupProofs.L_pos (o_grids o) W HV HP0 HP)).
  destruct (main_sim o W wf (gs_laws _ _ _ GS) HV (gs_apart _ _ _ GS) HP0 HP (Hgcc' wf o W GS) Hperm Hresp (gs_dist _ _ _ GS) (gs_rand _ _ _ GS)
              (gs_accept _ _ _ GS) (gs_two _ _ _ GS)) as (s & F & _ & K & R).
  unfold values_of. eapply phase_bind; [exact F|]. apply phase_local. intros r Hr. cbv beta.
  rewrite (setup_infos_eq o W HV (gs_apart _ _ _ GS) HP0 HP Hperm Hresp) by auto. cbn [lift bind].
  change (nth 0 (infos o W r) dummy_info) with (inf (infos o W r) 0). rewrite inf_eq by auto. unfold closed_info. cbn [i_loc]. rewrite map_map.
  destruct (rd_u _ _ _ _ _ _ (proj1 (R r Hr)) 0 HL0) as [H1 H2].
  rewrite (sequence_map_some _ (gu (g_main o (init_guess o W)) 0)); [apply lr_ret|].
  intros i Hi. apply (pts_in (o_grids o) W HV HP0 HP) in Hi; auto. rewrite py_nth_nat. apply H2. exact Hi.
Qed.

(** The workers run Mgrit on problems [o x] (any [P1], for example 1, processes serve to define the objective function): the optimizer
    returns what it returns for the objective computed from a run on [P1] processes, whatever the number of workers and the schedule. *)
Theorem C68_mgrit_workers :
  forall (X Res : Type) (X_dec : forall x y : X, {x = y} + {x <> y}) (A : X -> App) (wf : forall x, nat -> Vec (A x) -> Prop)
         (o : forall x, Opts (A x)) (obs : forall x, Vec (A x) -> val) (times : list Z) (region : Z) (W P1 i fuel : nat)
         (f : X -> R) (opt : optimizer X Res),
  (forall x, good_setup (wf x) (o x) W /\ good_setup (wf x) (o x) P1 /\ o_rand (o x) = None) ->
  0 < W ->
  first_nearest times (last times 0%Z - region) i ->
  (forall x, exists n c res, steps P1 n (initial (mgrit_main (o x) P1)) c /\ finished P1 res c /\
     f x = objective i (map (obs x) (gathered P1 (fun r => s_u (res r) 0)))) ->
  evaluations f opt < fuel ->
  exists N, forall n c, steps (S W) n (initial (workflow X_dec (fun x => Msg (A x)) (fun x => values_of (o x) (obs x) W) times region fuel (S W) opt)) c ->
    n <= N /\ (exists c', steps (S W) (N - n) c c' /\ stuck (S W) c') /\
    (stuck (S W) c -> exists res, finished (S W) res c /\ res 0 = inl (optimum f opt) /\
       forall r, 1 <= r <= W -> res r = inr (evaluations f opt)).
Proof.
  intros X Res X_dec A wf o obs times region W P1 i fuel f opt G HW Hi Hf Hfuel.
  set (vals := fun x r => map (obs x) (map (gu (g_main (o x) (init_guess (o x) W)) 0) (pts (o_grids (o x)) W 0 r))).
  assert (Hs : forall x, exists n c, fsteps W n (initial (fun r => values_of (o x) (obs x) W r)) c /\ finished W (vals x) c).
  { intros x. apply phase_fifo. apply (values_phase (wf x)). apply G. }
  assert (Ef : forall x, objective i (concat (map (vals x) (seq 0 W))) = f x).
  { intros x. destruct (G x) as (G1 & G2 & G3). destruct (Hf x) as (n & c & res & H1 & H2 & ->). f_equal.
    destruct (maximal_run (wf x) (o x) P1 n c G2 H1 (finished_stuck _ _ _ H2)) as (res' & F' & Ag).
    replace (gathered P1 (fun r => s_u (res r) 0)) with (gathered P1 (fun r => s_u (res' r) 0)).
    2: { unfold gathered. f_equal. apply map_ext_in. intros r Hr. apply in_seq in Hr.
         rewrite (finished_res_unique P1 c res' res F' H2 r) by lia. reflexivity. }
    rewrite (ag_u _ _ _ _ Ag), !init_guess_zero by auto. unfold vals. rewrite !init_guess_zero by auto.
    rewrite <- (map_map (fun r => map (gu (g_main (o x) zero_guess) 0) (pts (o_grids (o x)) W 0 r)) (map (obs x))), <- concat_map. f_equal.
    rewrite <- (map_map (pts (o_grids (o x)) W 0) (map (gu (g_main (o x) zero_guess) 0))), <- concat_map. f_equal.
    pose proof (pts_concat (o x) W (HV' (wf x) (o x) W G1) (gs_apart _ _ _ G1) (HP0' (wf x) (o x) W G1) (HP' (wf x) (o x) W G1)
      (fun l r Hl Hr => proj1 (f_order_block (wf x) (o x) W G1 l r Hl Hr)) (fun l r Hl Hr => proj2 (f_order_block (wf x) (o x) W G1 l r Hl Hr))) as Pc.
    rewrite Pc by lia. rewrite (SetupProofs.lo_P (o_grids (o x)) W). reflexivity. }
  assert (Eo : optimum (fun x => objective i (concat (map (vals x) (seq 0 W)))) opt = optimum f opt /\
               evaluations (fun x => objective i (concat (map (vals x) (seq 0 W)))) opt = evaluations f opt).
  { clear Hfuel. induction opt as [s|x k IH]; simpl; [auto|]. rewrite Ef. destruct (IH (f x)) as [-> ->]. auto. }
  destruct Eo as [Eo Ee].
  pose proof (C68_every_execution X Res X_dec (fun x => Msg (A x)) (fun x => values_of (o x) (obs x) W) times region W i fuel vals opt HW Hs Hi) as T.
  cbv zeta in T. rewrite Eo, Ee in T. exact (T Hfuel).
Qed.

(** The problem of C01 with at most [x] iterations on three workers; an optimizer that asks for the value at 2 and then, depending on
    it, at 3 or 4. *)
Definition zgeom (x : nat) : Opts zapp := zopts3 0 x.
Definition zobs (v : Z) : val := (IZR v, 1)%R.
Definition two_steps : optimizer nat R :=
  Ask 2 (fun y => if Rlt_dec y 0 then Ask 3 (fun z => Done z) else Ask 4 (fun z => Done (y + z)%R)).
Lemma two_evaluations f : evaluations f two_steps = 2.
Proof. simpl. destruct (Rlt_dec _ 0); reflexivity. Qed.
Example C68_hypotheses_hold :
  (forall x, good_setup (fun _ _ => True) (zgeom x) 3 /\ good_setup (fun _ _ => True) (zgeom x) 1 /\ o_rand (zgeom x) = None) /\
  first_nearest (nth 0 (o_grids (zgeom 0)) []) (last (nth 0 (o_grids (zgeom 0)) []) 0%Z - 3) 13 /\
  exists f, (forall x, exists n c res, steps 1 n (initial (mgrit_main (zgeom x) 1)) c /\ finished 1 res c /\
     f x = objective 13 (map zobs (gathered 1 (fun r => s_u (res r) 0)))) /\ evaluations f two_steps < 10.
Proof.
  assert (G : forall x P, 0 < P -> P <= 17 -> good_setup (fun _ _ => True) (zgeom x) P) by (intros x P; apply zopts3_good; auto).
  split; [intros x; split; [apply G; lia|split; [apply G; lia|reflexivity]]|].
  split; [apply C68_find_nearest; vm_compute; reflexivity|].
  exists (fun x => objective 13 (map zobs (map (gu (g_main (zgeom x) (init_guess (zgeom x) 1)) 0) (seq 0 (length (nth 0 (o_grids (zgeom x)) [])))))).
  split.
  - intros x. destruct (run_main _ _ _ (G x 1 ltac:(lia) ltac:(lia))) as (n & c & res & H1 & H2 & H3). exists n, c, res.
    split; [exact H1|]. split; [exact H2|]. rewrite (ag_u _ _ _ _ H3). reflexivity.
  - rewrite two_evaluations. lia.
Qed.

Print Assumptions C68_find_nearest.
Print Assumptions C68_every_execution.
Print Assumptions C68_one_process.
Print Assumptions C68_mgrit_workers.
Print Assumptions C68_hypotheses_hold.
