(** C50: the solver classes for the induction machine. *)
From Coq Require Import List ZArith Lia Arith Bool.
From Verif Require Import Net NetProofs NetFifo NetPhase NetExec PyList ListFacts Setup SetupProofs Spec Mgrit Reference Sim Collect Main RefProofs ParallelProofs
  OrderProofs ExampleApp PropParallel Machine.
Import ListNotations.

(** ** Executions in which everybody raises *)
Lemma raised_stuck {M B} P e (c : config M B) : (forall r, r < P -> procs c r = Raise e) -> stuck P c.
Proof. intros H p c' [Hp S]. rewrite (H p Hp) in S. exact S. Qed.

(** A phase after which everybody raises [e]: every execution is bounded and can only stop with [e] everywhere. *)
Lemma phase_raises {M A B} P (q : nat -> prog M B) (p : nat -> prog M A) a e :
  phase P p a -> (forall r, r < P -> peq (q r) (bind (p r) (fun _ => Raise e))) ->
  exists n, forall m d, steps P m (initial q) d -> m <= n /\ (stuck P d -> m = n /\ forall r, r < P -> procs d r = Raise e).
Proof.
  intros F Q. destruct (F B (fun _ _ => Raise e) (initial q)) as (n & c & S1 & Hp & Hc); [exact Q|reflexivity|].
  assert (R : forall r, r < P -> procs c r = Raise e) by (intros r Hr; specialize (Hp r Hr); inversion Hp; reflexivity).
  exists n. intros m d Hd. destruct (kahn P n _ _ (raised_stuck P e c R) (fsteps_steps P _ _ _ S1) _ _ Hd) as [Hm Hs]. split; [exact Hm|].
  intros Sd. destruct (stuck_unique P m n _ _ _ Hd Sd (fsteps_steps P _ _ _ S1) (raised_stuck P e c R)) as [E1 [E2 _]].
  split; [exact E1|]. intros r Hr. rewrite E2. apply R, Hr.
Qed.

Section Machine.
  Context {A : App}.
  Variable wf : nat -> Vec A -> Prop.
  Variable o : Opts A.
  Variable P : nat.
  Hypothesis GS : good_setup wf o P.
  Hypothesis ND : o_dist o = None.
  Notation grids := (o_grids o).
  Notation so := (o_set_order o).
  Notation L := (length (o_grids o)).
  Notation infos := (infos o P).
  Notation Rel := (Rel o P wf).

  Let HV := HV' wf o P GS.
  Let HA := gs_apart _ _ _ GS.
  Let HP0 := HP0' wf o P GS.
  Let HP : P <= N grids 0 := HP' wf o P GS.
  Let HL := gs_laws _ _ _ GS.
  Let Hperm := fun l r Hl Hr => proj1 (f_order_block wf o P GS l r Hl Hr).
  Let Hresp := fun l r Hl Hr => proj2 (f_order_block wf o P GS l r Hl Hr).

  Lemma machine_interpolate_run l r s G : S l < L -> r < P -> RD o P wf r s G ->
    exists s', lrun (machine_interpolate (infos r) l s) [] [] s'.
  Proof.
    intros Hl Hr HR. assert (Hl0 : l < L) by lia. unfold machine_interpolate. rewrite !inf_eq by auto.
    replace (length (i_loc (closed_info grids so P (S l) r))) with (cnt grids P (S l) r).
    2:{ unfold closed_info. cbn [i_loc]. rewrite map_length. unfold SetupProofs.pts. rewrite seq_length. reflexivity. }
    pose proof (lo_cnt grids P HV HP0 HP (S l) r Hl Hr) as HC.
    match goal with |- context [for_each _ ?b s] => set (body := b) end.
    destruct (for_range_local body (fun _ s' => s_u s' (S l) = s_u s (S l) /\ length (s_u s' l) = length (s_u s l))
      0 (cnt grids P (S l) r)) with (s := s) as (s1 & R1 & _); [|auto|eauto].
    intros k s' Hk [E1 E2]. simpl plus. unfold body.
    rewrite (locc_nth o P HV HP0 HP l r k Hl Hr Hk). rewrite (loc_nth o P (S l) r k Hk). simpl bind.
    assert (Hj : lo grids P (S l) r <= lo grids P (S l) r + k < lo grids P (S l) (S r)) by lia.
    rewrite !py_nth_nat, E1. rewrite (proj2 (rd_u o P wf r s G HR (S l) Hl) _ Hj). simpl bind.
    pose proof (cpt_own o P HV HP0 HP l r _ Hl Hr Hj) as Hc.
    pose proof (loc_bound o P HV HP0 HP l r _ Hl0 Hr Hc) as Hb. pose proof (proj1 (rd_u o P wf r s G HR l Hl0)) as Hlen.
    eexists. split; [apply put_u_run; lia|]. split; simpl; unfold at1.
    - replace (S l =? l) with false by (symmetry; apply Nat.eqb_neq; lia). exact E1.
    - rewrite Nat.eqb_refl, upd_length. exact E2.
  Qed.

  Notation fsv r := (forward_solve o P (infos r)).

  Lemma fsv_coarse r : coarse_solve o P r (infos r) = fsv r.
  Proof. unfold coarse_solve. rewrite ND. reflexivity. Qed.
  Lemma infos_ok r : r < P -> setup_infos o P r = Some (infos r).
  Proof. apply (setup_infos_eq o P HV HA HP0 HP Hperm Hresp). Qed.
  Let HL0 : 0 < L := Sim.L_pos o P HV HA HP0 HP Hperm Hresp.
  Let HR0 := init_Rel o P wf HL HV HA HP0 HP Hperm Hresp (gs_rand _ _ _ GS).

  (** Without nested iteration, and on one level, the constructor is that of Mgrit. *)
  Lemma machine_construct_eq r : o_nested o = false \/ L = 1 ->
    machine_construct o P r (infos r) = construct o P r (infos r) (fsv r).
  Proof.
    intros [E|E]; unfold machine_construct, construct, machine_nested, nested_iteration.
    - rewrite E. reflexivity.
    - change (Mgrit.L o) with L. rewrite E. reflexivity.
  Qed.
  Lemma machine_construct_sim : o_nested o = false \/ L = 1 ->
    exists s', phase P (fun r => machine_construct o P r (infos r)) s' /\ Rel s' (g_construct o (init_guess o P)) /\
      jump_ok o (g_construct o (init_guess o P)).
  Proof.
    intros E. destruct (construct_sim o P wf HL HV HA HP0 HP (Hgcc' wf o P GS) Hperm Hresp (gs_dist _ _ _ GS) (gs_rand _ _ _ GS)) as (s' & F & R & J).
    exists s'. split; [|auto]. eapply phase_eq; [|exact F]. intros r Hr. rewrite machine_construct_eq by auto. rewrite fsv_coarse. reflexivity.
  Qed.

  (** Nested iteration on two or more levels: everybody gets through the coarsest solve and the interpolation. *)
  Lemma machine_nested_raises : 2 <= L -> exists a, phase P (fun r =>
      _ <- barrier P r ;; s <- fsv r (L - 1) (init_state o r (infos r)) ;; machine_interpolate (infos r) (L - 2) s) a.
  Proof.
    intros H2. destruct (forward_solve_sim' o P wf HL HV HP0 HP (Hgcc' wf o P GS) (L - 1) ltac:(lia) _ _ HR0) as (s1 & F1 & (_ & K & R1) & _).
    destruct (choose_ranks P (fun r s' => lrun (machine_interpolate (infos r) (L - 2) (s1 r)) [] [] s') (s1 0)) as [a Ha].
    { intros r Hr. eapply machine_interpolate_run; [lia|exact Hr|]. apply (R1 r Hr). }
    exists a. apply (phase_bind P _ _ (fun _ => tt)); [apply (barrier_phase P HP0)|].
    apply (phase_bind P _ _ s1); [exact F1|]. apply phase_local. exact Ha.
  Qed.

  Lemma rev_seq_last n : 0 < n -> rev (seq 0 n) = (n - 1) :: rev (seq 0 (n - 1)).
  Proof. intros H. destruct n as [|n]; [lia|]. rewrite seq_S, rev_app_distr. simpl. rewrite Nat.sub_0_r. reflexivity. Qed.

  (** Whatever the object does after its constructor. *)
  Lemma construct_raises (k : nat -> St A -> prog (Msg A) (St A)) (q : nat -> prog (Msg A) (St A)) : 2 <= L -> o_nested o = true ->
    (forall r, r < P -> q r = bind (machine_construct o P r (infos r)) (k r)) ->
    exists n, forall m d, steps P m (initial q) d ->
      m <= n /\ (stuck P d -> m = n /\ forall r, r < P -> procs d r = Raise AttributeError).
  Proof.
    intros H2 HN Hq. destruct (machine_nested_raises H2) as [a F]. apply (phase_raises P q _ a AttributeError F). intros r Hr.
    rewrite (Hq r Hr). unfold machine_construct, machine_nested. rewrite HN, (rev_seq_last (L - 1)) by lia.
    replace (L - 1 - 1) with (L - 2) by lia. cbn [for_each].
    eapply peq_trans; [apply bind_assoc|]. eapply peq_trans; [|apply peq_sym, bind_assoc]. apply bind_peq. intros _.
    generalize (fsv r (L - 1) (init_state o r (infos r))). intros p.
    repeat (eapply peq_trans; [apply bind_assoc|]). eapply peq_trans; [|apply peq_sym, bind_assoc]. apply bind_peq. intros s.
    generalize (machine_interpolate (infos r) (L - 2) s). intros p'.
    repeat (eapply peq_trans; [apply bind_assoc|]). apply bind_peq. intros s'. apply peq_refl.
  Qed.

  (** ** MgritMachineConvJl *)
  Variable jl : list (Vec A) -> Sc A.
  Variable join : list (Sc A) -> Sc A.

  Definition jl_value (G : Reference.GS A) : Sc A := join (map (fun r => jl (map (gu G 0) (cps grids P 0 r))) (seq 0 P)).
  Lemma cj_criteria_sim s G : Rel s G ->
    exists s', phase P (fun r => cj_criteria P r (infos r) jl join 0 (s r)) s' /\ Rel s' (set_gconv G (upd (gconv G) 0 (jl_value G))).
  Proof.
    intros HR. pose proof (Rel_clen o P wf HP0 _ _ HR) as Hc. destruct HR as [W [K HR]].
    set (vals := fun r => map (gu G 0) (cps grids P 0 r)).
    exists (fun r => set_conv (s r) (upd (gconv G) 0 (jl_value G))). split.
    - unfold cj_criteria. apply (phase_bind P _ _ vals).
      { apply phase_local. intros r Hr. rewrite inf_eq by auto. unfold closed_info. cbn [i_loc_c]. rewrite map_map.
        rewrite (sequence_map_some _ (gu G 0)); [constructor|]. intros i Hi. apply (cps_in o P HV HP0 HP) in Hi; auto.
        rewrite py_nth_nat. apply (proj2 (rd_u _ _ _ _ _ _ (proj1 (HR r Hr)) 0 HL0)). tauto. }
      apply (phase_bind P _ _ (fun r => if r =? 0 then Some (map (fun r => [jl (vals r)]) (seq 0 P)) else None)).
      { apply (gather_phase P HP0 (fun r => [jl (vals r)])). }
      apply (phase_bind P _ _ (fun _ => jl_value G)).
      { pose proof (bcast_phase P HP0 (fun r => match (if r =? 0 then Some (map (fun r => [jl (vals r)]) (seq 0 P)) else None) with
                       | Some ls => join (concat ls) | None => sc_zero A end)) as F.
        cbn [Nat.eqb] in F. replace (concat (map (fun r => [jl (vals r)]) (seq 0 P))) with (map (fun r => jl (vals r)) (seq 0 P)) in F.
        2:{ generalize (seq 0 P). induction l as [|x l IH]; [reflexivity|]. simpl. rewrite IH. reflexivity. }
        exact F. }
      apply phase_local. intros r Hr. eapply lrun_eq; [apply put_conv_run| | |]; auto;
        rewrite (rd_conv _ _ _ _ _ _ (proj1 (HR r Hr))); [lia|reflexivity].
    - split; [exact W|]. exists K. intros r Hr. destruct (HR r Hr) as [D T]. split; [|exact T].
      apply RD_setconv; auto. rewrite upd_length. auto.
  Qed.

  Lemma cj_main_eq f_after r : r < P -> machine_cj_main o jl join f_after P r =
    bind (machine_construct o P r (infos r)) (fun s => bind (cj_criteria P r (infos r) jl join 0 s) (cj_solve o P r (infos r) f_after)).
  Proof. intros Hr. unfold machine_cj_main. rewrite (gs_accept _ _ _ GS), infos_ok by auto. reflexivity. Qed.
  Lemma machine_main_eq r : r < P -> machine_main o P r =
    bind (machine_construct o P r (infos r)) (solve o P r (infos r) (fsv r)).
  Proof. intros Hr. unfold machine_main. rewrite (gs_accept _ _ _ GS), infos_ok by auto. reflexivity. Qed.

  (** Without nested iteration the first cycle fails after its F-relaxation. *)
  Lemma cj_cycle_raises f_after : 2 <= L -> o_nested o = false -> 0 < o_max_iter o ->
    exists n, forall m d, steps P m (initial (machine_cj_main o jl join f_after P)) d ->
      m <= n /\ (stuck P d -> m = n /\ forall r, r < P -> procs d r = Raise AttributeError).
  Proof.
    intros H2 HN Hm. destruct (machine_construct_sim (or_introl HN)) as (s1 & F1 & R1 & _).
    destruct (cj_criteria_sim _ _ R1) as (s2 & F2 & R2). pose proof (Rel_iter o P wf _ _ (0 + 1) R2) as R3.
    destruct (f_relax_sim o P wf HL HV HP0 HP (Hgcc' wf o P GS) Hperm Hresp 0 HL0 _ _ R3) as (s4 & F4 & _).
    apply (phase_raises P _ (fun r => s <- machine_construct o P r (infos r) ;; s <- cj_criteria P r (infos r) jl join 0 s ;;
                                      f_relax o P (infos r) 0 (set_iter s (0 + 1))) s4 AttributeError).
    { apply (phase_bind P _ _ s1 _ F1). apply (phase_bind P _ _ s2 _ F2). exact F4. }
    intros r Hr. rewrite cj_main_eq by auto. eapply peq_trans; [|apply peq_sym, bind_assoc]. apply bind_peq. intros s.
    eapply peq_trans; [|apply peq_sym, bind_assoc]. apply bind_peq. intros s'.
    unfold cj_solve. destruct (o_max_iter o) as [|mi] eqn:Em; [lia|]. cbn [cj_loop]. unfold cj_pass, cj_iteration.
    destruct (L - 1) as [|l1] eqn:El; [lia|].
    generalize (f_relax o P (infos r) 0 (set_iter s' (0 + 1))). intros p.
    repeat (eapply peq_trans; [apply bind_assoc|]). apply bind_peq. intros s''. apply peq_refl.
  Qed.

  (** One level: every pass is time stepping. *)
  Lemma cj_pass_sim it s G : L = 1 -> Rel s G -> it < o_max_iter o -> jump_ok o G -> gu G 0 0 = vclone A (tstart A 0) ->
    exists b s' G', phase P (fun r => cj_pass o P r (infos r) it (s r)) (fun r => if b : bool then inr (s' r) else inl (s' r)) /\
      Rel s' G' /\ jump_ok o G' /\ (forall i, gu G' 0 i = time_stepping o i).
  Proof.
    intros E HR Hit HJ H0. pose proof (Rel_iter o P wf s G (it + 1) HR) as R1.
    destruct (forward_solve_sim' o P wf HL HV HP0 HP (Hgcc' wf o P GS) 0 HL0 _ _ R1) as (s2 & F2 & R2 & Gh2).
    set (G2 := g_fsolve o 0 (set_giter G (it + 1))) in *.
    assert (J2 : is_jump o = true -> glast G2 <> None) by exact HJ.
    destruct (criterion_sim o P wf HL HV HA HP0 HP (Hgcc' wf o P GS) Hperm Hresp (it + 1) s2 G2 (gs_two _ _ _ GS) R2 ltac:(lia) J2 ltac:(auto)) as (s3 & F3 & R3).
    set (G3 := g_crit o (it + 1) G2) in *.
    set (cur := nth (it + 1) (gconv G3) (sc_zero A)).
    exists (sc_lt A cur (o_tol o) || (it =? o_max_iter o - 1)), s3, G3. split; [|split; [exact R3|split]].
    - unfold cj_pass, cj_iteration. rewrite E. cbn [Nat.sub]. apply (phase_bind P _ _ s2 _ F2). apply (phase_bind P _ _ s3 _ F3).
      apply (phase_bind P _ _ (fun _ => cur)).
      + apply phase_local. intros r Hr. destruct R3 as [_ [K R3]]. destruct (R3 r Hr) as [D _]. rewrite (rd_conv _ _ _ _ _ _ D), py_nth_nat.
        rewrite (nth_error_nth' _ (sc_zero A)) by (rewrite (rd_clen _ _ _ _ _ _ D); lia). constructor.
      + destruct (sc_lt A cur (o_tol o) || (it =? o_max_iter o - 1)); [|apply phase_ret].
        rewrite (Hgcc' wf o P GS). simpl orb. unfold clean_up. rewrite (Hgcc' wf o P GS).
        apply (phase_bind P _ _ s3); [|apply phase_ret]. apply phase_wait. apply phase_ret.
    - intros J. unfold G3, g_crit. rewrite J. destruct (tnorm A _); [discriminate|]. exact (J2 J).
    - intros i. assert (X : gu G3 = gu G2). { unfold G3, g_crit. destruct (tnorm A _), (is_jump o); reflexivity. }
      rewrite X. unfold G2, g_fsolve, with_u, at1. cbn [gu Nat.eqb]. apply fsolve_stepping. exact H0.
  Qed.
  Lemma cj_loop_sim n : forall it s G, L = 1 -> Rel s G -> it + n <= o_max_iter o -> jump_ok o G -> gu G 0 0 = vclone A (tstart A 0) ->
    exists s' G', phase P (fun r => cj_loop o P r (infos r) n it (s r)) s' /\ Rel s' G' /\
      (0 < n -> forall i, gu G' 0 i = time_stepping o i).
  Proof.
    induction n as [|n IH]; intros it s G E HR Hit HJ H0; [exists s, G; split; [apply phase_ret|split; [exact HR|lia]]|].
    destruct (cj_pass_sim it s G E HR ltac:(lia) HJ H0) as (b & s1 & G1 & F1 & R1 & J1 & V1). cbn [cj_loop]. destruct b.
    - exists s1, G1. split; [|auto]. eapply phase_bind; [exact F1|]. apply phase_ret.
    - destruct (IH (S it) s1 G1 E R1 ltac:(lia) J1 (V1 0)) as (s2 & G2 & F2 & R2 & V2).
      destruct n as [|n'].
      + exists s1, G1. split; [|auto]. eapply phase_bind; [exact F1|]. apply phase_ret.
      + exists s2, G2. split; [|split; [exact R2|intros _; apply V2; lia]]. eapply phase_bind; [exact F1|]. exact F2.
  Qed.

  Lemma construct_first : gu (g_construct o (init_guess o P)) 0 0 = vclone A (tstart A 0).
  Proof. exact (iterate_first o (init_guess o P) 0). Qed.

  Lemma cj_one_level f_after : L = 1 -> 0 < o_max_iter o ->
    exists s', phase P (machine_cj_main o jl join f_after P) s' /\
      gathered P (fun r => s_u (s' r) 0) = map (time_stepping o) (seq 0 (N grids 0)).
  Proof.
    intros E Hm. destruct (machine_construct_sim (or_intror E)) as (s1 & F1 & R1 & J1).
    destruct (cj_criteria_sim _ _ R1) as (s2 & F2 & R2).
    destruct (cj_loop_sim (o_max_iter o) 0 s2 _ E R2 ltac:(lia) J1 construct_first) as (s3 & G3 & F3 & R3 & V3).
    assert (exists s4 G4, phase P (fun r => if f_after then f_relax o P (infos r) 0 (s3 r) else Ret (s3 r)) s4 /\ Rel s4 G4 /\
                  forall i, gu G4 0 i = time_stepping o i) as (s4 & G4 & F4 & R4 & V4).
    { destruct f_after.
      - destruct (f_relax_sim o P wf HL HV HP0 HP (Hgcc' wf o P GS) Hperm Hresp 0 HL0 _ _ R3) as (s4 & F4 & R4).
        exists s4, (g_frelax o 0 G3). split; [exact F4|]. split; [exact R4|]. intros i. unfold g_frelax, with_u, at1. cbn [gu Nat.eqb].
        rewrite frelax_C; [apply V3; exact Hm|]. unfold isC. rewrite E. reflexivity.
      - exists s3, G3. split; [apply phase_ret|]. split; [exact R3|]. intros i. apply V3. exact Hm. }
    pose proof (Rel_emit o P wf HV HA HP0 HP Hperm Hresp s4 G4 (o_has_output o) R4) as R5.
    eexists. split.
    - eapply phase_eq; [intros r Hr; apply (cj_main_eq f_after r Hr)|].
      apply (phase_bind P _ _ s1 _ F1). apply (phase_bind P _ _ s2 _ F2). unfold cj_solve. apply (phase_bind P _ _ s3 _ F3).
      apply (phase_bind P _ _ (fun _ => tt)); [apply (barrier_phase P HP0)|]. apply (phase_bind P _ _ s4 _ F4). apply phase_ret.
    - destruct R5 as (_ & K & R5). transitivity (map (gu (g_emit_if (o_has_output o) G4) 0) (seq 0 (N grids 0))).
      + apply (ows_gathered wf o P GS). intros r Hr. apply (rd_u _ _ _ _ _ _ (proj1 (R5 r Hr)) 0 HL0).
      + apply map_ext. intros i. unfold g_emit_if. destruct (o_has_output o); apply V4.
  Qed.
End Machine.

(** ** Statements *)
(** MgritMachine with nested iteration (its reason to exist) on two or more levels: no process returns. Every execution is
    bounded, and when nobody can move every process has stopped with the AttributeError. *)
Theorem C50_machine_nested_raises :
  forall (A : App) (wf : nat -> Vec A -> Prop) (o : Opts A) (P : nat),
  good_setup wf o P -> o_dist o = None -> 2 <= length (o_grids o) -> o_nested o = true ->
  exists n, forall m d, steps P m (initial (machine_main o P)) d ->
    m <= n /\ (stuck P d -> m = n /\ forall r, r < P -> procs d r = Raise AttributeError).
Proof.
  intros A wf o P GS ND H2 HN. apply (construct_raises wf o P GS (fun r => solve o P r (infos o P r) (forward_solve o P (infos o P r)))); auto.
  intros r Hr. apply (machine_main_eq wf o P GS); auto.
Qed.

(** Without it, or on one level, MgritMachine computes what Mgrit computes. *)
Theorem C50_machine_otherwise_mgrit :
  forall (A : App) (wf : nat -> Vec A -> Prop) (o : Opts A) (P n : nat) c,
  good_setup wf o P -> o_dist o = None -> o_nested o = false \/ length (o_grids o) = 1 ->
  steps P n (initial (machine_main o P)) c -> stuck P c ->
  exists res, finished P res c /\ agrees o P res (g_main o (init_guess o P)).
Proof.
  intros A wf o P n c GS ND HN H St.
  destruct (main_sim o P wf (gs_laws _ _ _ GS) (HV' wf o P GS) (gs_apart _ _ _ GS) (HP0' wf o P GS) (HP' wf o P GS) (Hgcc' wf o P GS)
              (fun l r Hl Hr => proj1 (f_order_block wf o P GS l r Hl Hr)) (fun l r Hl Hr => proj2 (f_order_block wf o P GS l r Hl Hr))
              (gs_dist _ _ _ GS) (gs_rand _ _ _ GS) (gs_accept _ _ _ GS) (gs_two _ _ _ GS)) as (res & F & R).
  exists res. split; [|exact (rel_agrees wf o P GS _ _ R)].
  assert (F' : phase P (machine_main o P) res).
  { eapply phase_eq; [|exact F]. intros r Hr. rewrite (machine_main_eq wf o P GS r Hr), (machine_construct_eq o P r HN).
    unfold mgrit_main. rewrite (gs_accept _ _ _ GS), (infos_ok wf o P GS r Hr). unfold too_many_points. rewrite ND.
    rewrite (fsv_coarse o P ND). reflexivity. }
  destruct (phase_finishes P _ _ F') as (m & d & S1 & F1). destruct (finished_unique P m _ _ _ F1 S1 _ _ H) as (_ & _ & X). apply X, St.
Qed.

(** MgritMachineConvJl on two or more levels: as soon as there is something to iterate, nobody returns. *)
Theorem C50_conv_jl_raises :
  forall (A : App) (wf : nat -> Vec A -> Prop) (o : Opts A) (jl : list (Vec A) -> Sc A) (join : list (Sc A) -> Sc A) (f_after : bool) (P : nat),
  good_setup wf o P -> o_dist o = None -> 2 <= length (o_grids o) -> o_nested o = true \/ 0 < o_max_iter o ->
  exists n, forall m d, steps P m (initial (machine_cj_main o jl join f_after P)) d ->
    m <= n /\ (stuck P d -> m = n /\ forall r, r < P -> procs d r = Raise AttributeError).
Proof.
  intros A wf o jl join f_after P GS ND H2 Hm. destruct (o_nested o) eqn:HN.
  - apply (construct_raises wf o P GS (fun r s => bind (cj_criteria P r (infos o P r) jl join 0 s) (cj_solve o P r (infos o P r) f_after))); auto.
    intros r Hr. apply (cj_main_eq wf o P GS); auto.
  - destruct Hm as [|Hm]; [discriminate|]. apply (cj_cycle_raises wf); auto.
Qed.

(** On one level it is time stepping. *)
Theorem C50_conv_jl_one_level :
  forall (A : App) (wf : nat -> Vec A -> Prop) (o : Opts A) (jl : list (Vec A) -> Sc A) (join : list (Sc A) -> Sc A) (f_after : bool) (P n : nat) c,
  good_setup wf o P -> o_dist o = None -> length (o_grids o) = 1 -> 0 < o_max_iter o ->
  steps P n (initial (machine_cj_main o jl join f_after P)) c -> stuck P c ->
  exists res, finished P res c /\
    gathered P (fun r => s_u (res r) 0) = map (time_stepping o) (seq 0 (length (nth 0 (o_grids o) []))).
Proof.
  intros A wf o jl join f_after P n c GS ND E Hm H St. destruct (cj_one_level wf o P GS ND jl join f_after E Hm) as (res & F & V).
  exists res. split; [|exact V].
  destruct (phase_finishes P _ _ F) as (m & d & S1 & F1). destruct (finished_unique P m _ _ _ F1 S1 _ _ H) as (_ & _ & X). apply X, St.
Qed.

(** ** Examples: three levels on four processes, with and without nested iteration; one level *)
Definition zopts3_flat (max_iter : nat) : Opts zapp :=
  mkOpts zapp [grid_of 17 1; grid_of 9 2; grid_of 3 8] 2 (1%Z : Sc zapp) max_iter (1%Z : Sc zapp) false (CfInt 1) (Some true) 2
    true 1 None 0 ascending_order.
Lemma zopts3_flat_good max_iter P : 0 < P -> P <= 17 -> good_setup (fun _ _ => True) (zopts3_flat max_iter) P.
Proof.
  intros HP HP'. constructor.
  - apply zapp_laws.
  - apply valid_hierarchyb_ok. reflexivity.
  - apply no_adjacentb_ok. reflexivity.
  - simpl. lia.
  - exact HP.
  - unfold check. simpl. replace (17 <? P) with false by (symmetry; apply Nat.ltb_ge; lia). reflexivity.
  - left; reflexivity.
  - apply ascending_order_ok.
  - discriminate.
  - discriminate.
Qed.
Definition zjl (l : list Z) : Z := fold_left Z.max l 0%Z.
Example C50_hypotheses_hold : forall P, 0 < P -> P <= 7 ->
  (good_setup (fun _ _ => True) (zopts3 1 20) P /\ o_dist (zopts3 1 20) = None /\ 2 <= length (o_grids (zopts3 1 20)) /\ o_nested (zopts3 1 20) = true) /\
  (good_setup (fun _ _ => True) (zopts3_flat 20) P /\ o_dist (zopts3_flat 20) = None /\ 2 <= length (o_grids (zopts3_flat 20)) /\
     o_nested (zopts3_flat 20) = false /\ 0 < o_max_iter (zopts3_flat 20)) /\
  (good_setup (fun _ _ => True) (zopts1 3) P /\ o_dist (zopts1 3) = None /\ length (o_grids (zopts1 3)) = 1 /\ 0 < o_max_iter (zopts1 3)).
Proof.
  intros P H1 H2. split; [|split].
  - split; [apply zopts3_good; auto; lia|]. split; [reflexivity|]. split; [simpl; lia|reflexivity].
  - split; [apply zopts3_flat_good; lia|]. split; [reflexivity|]. split; [simpl; lia|]. split; [reflexivity|simpl; lia].
  - split; [apply zopts1_good; lia|]. split; [reflexivity|]. split; [reflexivity|simpl; lia].
Qed.
Definition outcomes (P rounds : nat) (prg : nat -> prog (Msg zapp) (St zapp)) : list (option (list Z) + exn) :=
  let c := run_net P rounds 1000 (initial prg) in
  map (fun r => match procs c r with Ret s => inl (Some (s_u s 0)) | Raise e => inr e | _ => inl None end) (seq 0 P).
(** Four processes all end in the AttributeError; without nested iteration MgritMachine gives the values of Mgrit, and
    MgritMachineConvJl fails in its first cycle. *)
Example C50_runs :
  outcomes 4 60 (machine_main (zopts3 1 20) 4) = repeat (inr AttributeError) 4 /\
  outcomes 4 60 (machine_main (zopts3_flat 2) 4) = outcomes 4 60 (mgrit_main (zopts3_flat 2) 4) /\
  match outcomes 4 60 (mgrit_main (zopts3_flat 2) 4) with inl (Some _) :: _ => True | _ => False end /\
  outcomes 4 60 (machine_cj_main (zopts3_flat 2) zjl zjl true 4) = repeat (inr AttributeError) 4 /\
  outcomes 2 60 (machine_cj_main (zopts1 3) zjl zjl true 2) = [inl (Some [1; 3; 7; 15]%Z); inl (Some [15; 31; 63; 127]%Z)].
Proof. vm_compute. repeat split. Qed.

Print Assumptions C50_machine_nested_raises.
Print Assumptions C50_machine_otherwise_mgrit.
Print Assumptions C50_conv_jl_raises.
Print Assumptions C50_conv_jl_one_level.
