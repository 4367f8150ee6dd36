(** Proofs about Custom.v: every execution ends in the result of a reference algorithm whose iterates are those of Mgrit. *)
From Coq Require Import List ZArith Lia Arith Bool.
From Verif Require Import Net NetProofs NetFifo NetPhase PyList ListFacts Setup SplitProofs Spec SetupProofs Mgrit Reference Collect Sim Main RefProofs Custom.
Import ListNotations.

(** ** Iterations do not depend on history and counters *)
Section Indep.
  Context {A : App}.
  Variable o : Opts A.
  Definition eqv (G G' : GS A) : Prop :=
    (forall l i, gu G' l i = gu G l i) /\ (forall l i, gv G' l i = gv G l i) /\ (forall l i, gg G' l i = gg G l i).
  Lemma eqv_refl G : eqv G G. Proof. repeat split. Qed.
  Lemma eqv_trans G1 G2 G3 : eqv G1 G2 -> eqv G2 G3 -> eqv G1 G3.
  Proof. intros (a & b & c) (a' & b' & c'). split; [|split]; intros; etransitivity; eauto. Qed.
  Definition indep (f : GS A -> GS A) : Prop := forall G G', eqv G G' -> eqv (f G) (f G').

  Lemma at1_eqv {B} (f g : nat -> nat -> B) l x y : (forall l i, g l i = f l i) -> (forall i, y i = x i) -> forall l' i, at1 g l y l' i = at1 f l x l' i.
  Proof. intros H1 H2 l' i. unfold at1. destruct (l' =? l); auto. Qed.
  Lemma with_u_indep l (F : GS A -> nat -> Vec A) : (forall G G', eqv G G' -> forall i, F G' i = F G i) -> indep (fun G => with_u G l (F G)).
  Proof. intros H G G' E. split; [|split]; try apply E. cbn [with_u gu]. apply at1_eqv; [apply E|apply H, E]. Qed.
  Lemma gstep_eqv l G G' x i : eqv G G' -> gstep o l G' x i = gstep o l G x i.
  Proof. intros (a & b & c). unfold gstep. rewrite c. reflexivity. Qed.
  Lemma frelax_indep l : indep (g_frelax o l).
  Proof.
    apply (with_u_indep l (frelax o l)). intros G G' E i. induction i as [|i IH]; cbn [frelax]; [apply E|].
    rewrite (gstep_eqv l G G') by exact E. rewrite IH. rewrite (proj1 E). reflexivity.
  Qed.
  Lemma crelax_indep l : indep (g_crelax o l).
  Proof.
    apply (with_u_indep l (crelax o l)). intros G G' E i. unfold crelax. rewrite (gstep_eqv l G G') by exact E.
    rewrite !(proj1 E). reflexivity.
  Qed.
  Lemma csolve_indep l : indep (g_csolve o l).
  Proof.
    unfold g_csolve. destruct (o_dist o) as [k|].
    - destruct (l =? 0); [intros G G' E; exact E|]. apply (with_u_indep l (fun G => window o l G (Z.to_nat (k - 1)))).
      intros G G' E. generalize (Z.to_nat (k - 1)). induction n as [|n IH]; intros [|i]; cbn [window]; rewrite ?(proj1 E); auto.
      rewrite (gstep_eqv l G G') by exact E. rewrite IH. reflexivity.
    - apply (with_u_indep l (fsolve o l)). intros G G' E i. induction i as [|i IH]; cbn [fsolve]; [apply E|].
      rewrite (gstep_eqv l G G') by exact E. rewrite IH. reflexivity.
  Qed.
  Lemma corr_indep l : indep (g_corr o l).
  Proof.
    apply (with_u_indep l (corr o l)). intros G G' (a & b & c) i. unfold corr. rewrite !a, b. reflexivity.
  Qed.
  Lemma fas_u_eqv l G G' j : eqv G G' -> fas_u o l G' j = fas_u o l G j.
  Proof. intros E. unfold fas_u. rewrite (proj1 E). reflexivity. Qed.
  Lemma fas_indep l : indep (g_fas o l).
  Proof.
    intros G G' E. pose proof E as (a & b & c). split; [|split]; cbn [g_fas gu gv gg]; apply at1_eqv; auto; intros j.
    - apply fas_u_eqv, E.
    - rewrite (fas_u_eqv l G G' j E). reflexivity.
    - unfold fas_g, gres. rewrite !(fas_u_eqv l G G' _ E), !a, !c. reflexivity.
  Qed.
  Lemma iter_indep n f : indep f -> indep (iter n f).
  Proof. intros H. induction n as [|n IH]; intros G G' E; [exact E|]. simpl. apply IH, H, E. Qed.
  Lemma iteration_indep n : forall l cyc it ff, indep (g_iteration o n l cyc it ff).
  Proof.
    induction n as [|n IH]; intros l cyc it ff; [apply csolve_indep|].
    set (half := fun (cyc first_f : bool) G =>
          g_frelax o l (g_corr o l (g_iteration o n (S l) cyc it true (g_fas o l
            (iter (cf_count o l) (fun G => g_frelax o l (g_crelax o l G))
              (if ((0 <? l) || (it =? 0)) && first_f then g_frelax o l G else G)))))).
    assert (Hh : forall c f, indep (half c f)).
    { intros c f G G' E. unfold half. apply frelax_indep, corr_indep, IH, fas_indep, iter_indep.
      - intros X Y E'. apply frelax_indep, crelax_indep, E'.
      - destruct (_ && f); [apply frelax_indep|]; exact E. }
    intros G G' E. change (eqv (let G := half cyc ff G in if negb (l =? 0) && cyc then half false false G else G)
                               (let G := half cyc ff G' in if negb (l =? 0) && cyc then half false false G else G)).
    cbv zeta. destruct (negb (l =? 0) && cyc); [apply Hh|]; apply Hh, E.
  Qed.
End Indep.

(** all C-points of the finest level in time order (the first point is one of them) *)
Definition cpoints {A : App} (o : Opts A) : list nat := filter (cpoint (o_grids o) 0) (seq 0 (npts (o_grids o) 0)).
(** values of the C-points as rows *)
Definition rows {A : App} (cr : UserCrit A) (o : Opts A) (u : nat -> Vec A) : list (uRow cr) := map (fun i => u_row cr (u i)) (cpoints o).
(** What is assumed of the user's functions: vectors of the finest level have rows of one length, and the number computed from the
    numbers of the processes does not depend on how the rows are distributed. *)
Record crit_laws {A : App} (wf : nat -> Vec A -> Prop) (cr : UserCrit A) : Prop := {
  cl_zero : forall x y, wf 0 x -> wf 0 y -> u_zero cr x = u_zero cr y;
  cl_split : forall parts : list (list (uRow cr) * list (uRow cr)),
    (forall p, In p parts -> length (fst p) = length (snd p)) -> concat (map snd parts) <> [] ->
    u_global cr (map (fun p => match snd p with [] => u_none cr | _ => u_local cr (fst p) (snd p) end) parts) =
    u_global cr [u_local cr (concat (map fst parts)) (concat (map snd parts))]
}.

Section CustomSim.
  Context {A : App}.
  Variable wf : nat -> Vec A -> Prop.
  Variable cr : UserCrit A.
  Variable o : Opts A.
  Variable P : nat.
  Hypothesis GS : good_setup wf o P.
  Hypothesis CL : crit_laws wf cr.
  Notation grids := (o_grids o).
  Notation L := (length (o_grids o)).
  Notation Rel := (Rel o P wf).
  Notation RD := (RD o P wf).
  Notation infos := (infos o P).
  Notation State := (St A * list (uRow cr))%type.
  Let HV : valid_hierarchy grids := HV' wf o P GS.
  Let HP0 : 0 < P := HP0' wf o P GS.
  Let HP : P <= N grids 0 := HP' wf o P GS.
  Let Hgcc : gcc o = true := Hgcc' wf o P GS.
  Let HLaw : app_laws A wf := gs_laws _ _ _ GS.
  Let HA : no_adjacent_cpoints grids := gs_apart _ _ _ GS.
  Let Hperm := fun l r Hl Hr => proj1 (f_order_block wf o P GS l r Hl Hr).
  Let Hresp := fun l r Hl Hr => proj2 (f_order_block wf o P GS l r Hl Hr).
  Let HL0 : 0 < L := SetupProofs.L_pos grids P HV HP0 HP.

  Lemma allgather_phase (x : nat -> Sc A) : phase P (fun r => allgather P r (x r)) (fun _ => map x (seq 0 P)).
  Proof.
    unfold allgather. eapply phase_bind; [apply (gather_phase P HP0 (fun r => [x r]))|].
    apply (fan_up P HP0 TAG_BCAST (fun _ => MList (map x (seq 0 P)))). intros r Hr. unfold fan_in, fan_out.
    assert (E : forall l, concat (map (fun r => [x r]) l) = map x l) by (induction l as [|y l IH]; [reflexivity|simpl; rewrite IH; reflexivity]).
    destruct (r =? 0); [|constructor; constructor]. rewrite E. eapply lrun_eq.
    - eapply lrun_bind; [apply send_all_run|apply lr_ret].
    - reflexivity.
    - rewrite app_nil_r. reflexivity.
    - reflexivity.
  Qed.

  (** the rows of a process *)
  Definition my_rows (u : nat -> Vec A) (r : nat) : list (uRow cr) := map (fun i => u_row cr (u i)) (cps grids P 0 r).
  Lemma cps_concat : concat (map (cps grids P 0) (seq 0 P)) = cpoints o.
  Proof.
    unfold cpoints, npts. change (length (nth 0 grids [])) with (N grids 0). rewrite <- (lo_P o P), <- (pts_concat o P HV HA HP0 HP Hperm Hresp) by lia.
    rewrite <- concat_filter_map, map_map. f_equal.
  Qed.
  Lemma rows_concat u : concat (map (my_rows u) (seq 0 P)) = rows cr o u.
  Proof. unfold rows. rewrite <- cps_concat, concat_map, map_map. reflexivity. Qed.
  Lemma cpoints_nonempty : cpoints o <> [].
  Proof.
    intros E. pose proof (crit_points_nonempty o P HV HA HP0 HP Hperm Hresp (gs_two _ _ _ GS)) as X. apply X. unfold crit_points.
    unfold cpoints in E. revert E. generalize (seq 0 (npts grids 0)). induction l as [|i l IH]; [reflexivity|]. simpl.
    destruct (cpoint grids 0 i); [discriminate|]. exact IH.
  Qed.
  Lemma my_rows_len u r : length (my_rows u r) = length (cps grids P 0 r).
  Proof. apply map_length. Qed.

  (** last_it of a process: empty before the first call *)
  Definition my_last (prior : option (nat -> Vec A)) (r : nat) : list (uRow cr) := match prior with Some u => my_rows u r | None => [] end.
  Definition all_last (prior : option (nat -> Vec A)) : list (uRow cr) :=
    match prior with Some u => rows cr o u | None => repeat (u_zero cr (tstart A 0)) (length (cpoints o)) end.
  Definition change (prior : option (nat -> Vec A)) (u : nat -> Vec A) : Sc A := u_global cr [u_local cr (all_last prior) (rows cr o u)].

  Definition old_rows (prior : option (nat -> Vec A)) (r : nat) : list (uRow cr) :=
    match prior with Some u => my_rows u r | None => repeat (u_zero cr (tstart A 0)) (length (cps grids P 0 r)) end.
  Lemma old_rows_concat prior : concat (map (old_rows prior) (seq 0 P)) = all_last prior.
  Proof.
    destruct prior as [u|]; cbn [old_rows all_last]; [apply rows_concat|]. rewrite <- cps_concat.
    generalize (seq 0 P). induction l as [|x l IH]; [reflexivity|]. simpl. rewrite IH, app_length, repeat_app. reflexivity.
  Qed.
  Lemma old_rows_len prior r : length (old_rows prior r) = length (cps grids P 0 r).
  Proof. destruct prior; [apply my_rows_len|apply repeat_length]. Qed.
  Lemma change_split prior u : u_global cr (map (fun r => match cps grids P 0 r with [] => u_none cr | _ => u_local cr (old_rows prior r) (my_rows u r) end) (seq 0 P)) =
    change prior u.
  Proof.
    pose proof (cl_split _ _ CL (map (fun r => (old_rows prior r, my_rows u r)) (seq 0 P))) as X.
    assert (E1 : concat (map fst (map (fun r => (old_rows prior r, my_rows u r)) (seq 0 P))) = all_last prior).
    { rewrite map_map. apply old_rows_concat. }
    assert (E2 : concat (map snd (map (fun r => (old_rows prior r, my_rows u r)) (seq 0 P))) = rows cr o u).
    { rewrite map_map. apply rows_concat. }
    rewrite E1, E2 in X. unfold change. rewrite <- X; clear X.
    - rewrite map_map. cbn [fst snd]. f_equal. apply map_ext. intros r. unfold my_rows. destruct (cps grids P 0 r); reflexivity.
    - intros p Hp. apply in_map_iff in Hp. destruct Hp as (r & <- & _). cbn [fst snd]. rewrite old_rows_len, my_rows_len. reflexivity.
    - unfold rows. intros E. apply map_eq_nil in E. apply cpoints_nonempty, E.
  Qed.

  Lemma first_vec r s G : r < P -> GWF o wf G -> RD r s G -> exists x, nth_error (s_u s 0) 0 = Some x /\ wf 0 x.
  Proof.
    intros Hr W D. destruct (Nat.eq_dec (off grids P 0 r) 1) as [E|E].
    - apply (rd_gh _ _ _ _ _ _ D 0 HL0 E).
    - assert (C : 0 < cnt grids P 0 r).
      { pose proof (lo_level0 grids P HV HP0 HP r ltac:(lia)). pose proof (lo_level0 grids P HV HP0 HP (S r) ltac:(lia)).
        pose proof (st_lt grids P HP r Hr). pose proof (lo_cnt grids P HV HP0 HP 0 r HL0 Hr). lia. }
      pose proof (lo_cnt grids P HV HP0 HP 0 r HL0 Hr) as E2. pose proof (lo_le_N grids P HP0 HP 0 (S r)) as E3.
      exists (gu G 0 (lo grids P 0 r)). split; [|apply W; [exact HL0|lia]].
      pose proof (proj2 (rd_u _ _ _ _ _ _ D 0 HL0) (lo grids P 0 r) ltac:(lia)) as X.
      replace (loc grids P 0 r (lo grids P 0 r)) with 0 in X; [exact X|].
      assert (O : off grids P 0 r = 0) by (unfold off in *; destruct ((r =? 0) || (cnt grids P 0 r =? 0)); auto; congruence).
      unfold loc. lia.
  Qed.

  Lemma custom_criterion_sim it s G prior : Rel s G -> it <= o_max_iter o ->
    exists s', phase P (fun r => custom_criterion cr P r (infos r) it (s r, my_last prior r)) (fun r => (s' r, my_rows (gu G 0) r)) /\
      Rel s' (set_gconv G (upd (gconv G) it (change prior (gu G 0)))).
  Proof.
    intros HR Hit. pose proof (Rel_clen o P wf HP0 _ _ HR) as Hc. destruct HR as [W [K HR]].
    exists (fun r => set_conv (s r) (upd (gconv G) it (change prior (gu G 0)))). split.
    - unfold custom_criterion. cbn [fst snd]. apply (phase_bind P _ _ (old_rows prior)).
      { apply phase_local. intros r Hr. rewrite inf_eq by auto. unfold closed_info. cbn [i_loc_c]. rewrite map_length.
        destruct prior as [u|]; cbn [my_last old_rows].
        - rewrite my_rows_len, Nat.eqb_refl. constructor.
        - destruct (cps grids P 0 r) as [|c cs]; cbn [length Nat.eqb negb]; [constructor|].
          destruct (first_vec r (s r) G Hr W (proj1 (HR r Hr))) as (x & Hx & Wx).
          change (py_nth (s_u (s r) 0) 0) with (py_nth (s_u (s r) 0) (Z.of_nat 0)). rewrite py_nth_nat, Hx. cbn [lift bind].
          rewrite (cl_zero _ _ CL x (tstart A 0) Wx (wf_tstart _ _ HLaw 0)). constructor. }
      apply (phase_bind P _ _ (my_rows (gu G 0))).
      { apply phase_local. intros r Hr. rewrite inf_eq by auto. unfold closed_info. cbn [i_loc_c]. rewrite map_map.
        rewrite (sequence_map_some _ (fun i => u_row cr (gu G 0 i))); [constructor|]. intros i Hi. apply (cps_in o P HV HP0 HP) in Hi; auto.
        rewrite py_nth_nat. rewrite (proj2 (rd_u _ _ _ _ _ _ (proj1 (HR r Hr)) 0 HL0)) by tauto. reflexivity. }
      set (val := fun r => match cps grids P 0 r with [] => u_none cr | _ => u_local cr (old_rows prior r) (my_rows (gu G 0) r) end).
      apply (phase_bind P _ _ (fun _ => map val (seq 0 P))).
      { apply (phase_eq P _ (fun r => allgather P r (val r))); [|apply allgather_phase]. intros r Hr. unfold val. rewrite inf_eq by auto.
        unfold closed_info. cbn [i_loc_c]. destruct (cps grids P 0 r); reflexivity. }
      apply phase_local. intros r Hr. unfold val. rewrite change_split. eapply lrun_eq.
      + eapply lrun_bind; [apply put_conv_run|constructor]. rewrite (rd_conv _ _ _ _ _ _ (proj1 (HR r Hr))). lia.
      + reflexivity.
      + reflexivity.
      + rewrite (rd_conv _ _ _ _ _ _ (proj1 (HR r Hr))). reflexivity.
    - split; [exact W|]. exists K. intros r Hr. destruct (HR r Hr) as [D T]. split; [|exact T].
      apply RD_setconv; auto. rewrite upd_length. auto.
  Qed.

  (** ** Reference algorithm *)
  Definition c_pass (it : nat) (G : Reference.GS A) : Reference.GS A :=
    let G1 := cyc_state o it G in
    g_emit_if (o_has_output o && (o_output_lvl o =? 2)%Z) (set_gconv G1 (upd (gconv G1) (it + 1) (change (Some (gu G 0)) (gu G1 0)))).
  Fixpoint c_loop (n it : nat) (G : Reference.GS A) : Reference.GS A :=
    match n with
    | 0 => G
    | S n' => let G := c_pass it G in if g_stop o it G then G else c_loop n' (S it) G
    end.
  Definition c_construct (guess : nat -> Vec A) : Reference.GS A :=
    let G := g_construct o guess in set_gconv G (upd (gconv G) 0 (change None (gu G 0))).
  Definition c_main (guess : nat -> Vec A) : Reference.GS A :=
    g_emit_if (o_has_output o && (o_output_lvl o =? 1)%Z) (c_loop (o_max_iter o) 0 (c_construct guess)).

  Notation fsv := (fun r => coarse_solve o P r (infos r)).
  Definition with_rows (G : Reference.GS A) (s : nat -> St A) : nat -> State := fun r => (s r, my_rows (gu G 0) r).

  Lemma pass_rows it G : gu (c_pass it G) = gu (cyc_state o it G).
  Proof. unfold c_pass. rewrite emit_if_gu. reflexivity. Qed.

  Lemma custom_pass_sim it s G : Rel s G -> it < o_max_iter o ->
    exists s', phase P (fun r => custom_pass cr o P r (infos r) it (with_rows G s r))
                 (fun r => if g_stop o it (c_pass it G) then inr (with_rows (c_pass it G) s' r) else inl (with_rows (c_pass it G) s' r)) /\
      Rel s' (c_pass it G).
  Proof.
    intros HR Hit.
    pose proof (Rel_iter o P wf s G (it + 1) HR) as R0.
    destruct (iteration_sim o P wf HLaw HV HA HP0 HP Hgcc Hperm Hresp (gs_dist _ _ _ GS) (L - 1) 0 (cycF o) it true eq_refl _ _ R0) as (s2 & F2 & R2).
    fold (cyc_state o it G) in R2.
    destruct (custom_criterion_sim (it + 1) s2 _ (Some (gu G 0)) R2 ltac:(lia)) as (s3 & F3 & R3).
    set (G3 := set_gconv _ _) in R3.
    pose proof (Rel_emit o P wf HV HA HP0 HP Hperm Hresp s3 G3 (o_has_output o && (o_output_lvl o =? 2)%Z) R3) as R4.
    set (s4 := fun r => if o_has_output o && (o_output_lvl o =? 2)%Z then emit (s3 r) else s3 r) in *.
    exists s4. split; [|exact R4]. unfold custom_pass.
    apply (phase_bind P _ _ s2); [exact F2|].
    apply (phase_bind P _ _ (fun r => (s3 r, my_rows (gu (cyc_state o it G) 0) r))); [exact F3|]. cbn [fst snd].
    change (g_emit_if (o_has_output o && (o_output_lvl o =? 2)%Z) G3) with (c_pass it G) in R4.
    apply (phase_bind P _ _ (fun _ => nth (it + 1) (gconv (c_pass it G)) (sc_zero A))).
    - apply phase_local. intros r Hr. change (if o_has_output o && (o_output_lvl o =? 2)%Z then emit (s3 r) else s3 r) with (s4 r).
      destruct R4 as [_ [K R4]]. destruct (R4 r Hr) as [D _]. rewrite (rd_conv _ _ _ _ _ _ D). rewrite py_nth_nat.
      rewrite (nth_error_nth' _ (sc_zero A)) by (rewrite (rd_clen _ _ _ _ _ _ D); lia). constructor.
    - unfold g_stop, with_rows. rewrite pass_rows. destruct (sc_lt A _ _ || (it =? o_max_iter o - 1)); [|apply phase_ret].
      rewrite Hgcc. simpl orb. unfold clean_up. rewrite Hgcc.
      apply (phase_bind P _ _ s4); [|apply phase_ret]. apply phase_wait. apply phase_ret.
  Qed.
  Lemma custom_loop_sim n : forall it s G, Rel s G -> it + n <= o_max_iter o ->
    exists s', phase P (fun r => custom_loop cr o P r (infos r) n it (with_rows G s r)) (with_rows (c_loop n it G) s') /\ Rel s' (c_loop n it G).
  Proof.
    induction n as [|n IH]; intros it s G HR Hit; [exists s; split; [apply phase_ret|exact HR]|].
    destruct (custom_pass_sim it s G HR ltac:(lia)) as (s1 & F1 & R1). simpl. destruct (g_stop o it (c_pass it G)).
    - exists s1. split; [|exact R1]. eapply phase_bind; [exact F1|]. apply phase_ret.
    - destruct (IH (S it) s1 (c_pass it G) R1 ltac:(lia)) as (s2 & F2 & R2).
      exists s2. split; [|exact R2]. eapply phase_bind; [exact F1|]. exact F2.
  Qed.
  Theorem custom_main_sim : exists x, phase P (fun r => custom_main cr o P r) x /\ Rel (fun r => fst (x r)) (c_main (init_guess o P)).
  Proof.
    destruct (construct_sim o P wf HLaw HV HA HP0 HP Hgcc Hperm Hresp (gs_dist _ _ _ GS) (gs_rand _ _ _ GS)) as (s1 & F1 & R1 & _).
    destruct (custom_criterion_sim 0 s1 _ None R1 ltac:(lia)) as (s2 & F2 & R2).
    change (set_gconv _ _) with (c_construct (init_guess o P)) in R2.
    destruct (custom_loop_sim (o_max_iter o) 0 s2 _ R2 ltac:(lia)) as (s3 & F3 & R3).
    pose proof (Rel_emit o P wf HV HA HP0 HP Hperm Hresp s3 _ (o_has_output o && (o_output_lvl o =? 1)%Z) R3) as R4.
    eexists. split.
    - apply (phase_eq P _ (fun r => bind (custom_construct cr o P r (infos r)) (fun x => custom_solve cr o P r (infos r) x))).
      { intros r Hr. unfold custom_main. rewrite (gs_accept _ _ _ GS), (setup_infos_eq o P HV HA HP0 HP Hperm Hresp) by auto.
        replace (too_many_points o P) with (@None exn); [reflexivity|]. unfold too_many_points. destruct (o_dist o) as [k|] eqn:Ed; [|reflexivity].
        destruct (gs_dist _ _ _ GS k Ed) as [E _]. rewrite E, andb_false_r. reflexivity. }
      apply (phase_bind P _ _ (with_rows (c_construct (init_guess o P)) s2)).
      { unfold custom_construct. apply (phase_bind P _ _ s1); [exact F1|exact F2]. }
      unfold custom_solve. apply (phase_bind P _ _ (with_rows (c_loop (o_max_iter o) 0 (c_construct (init_guess o P))) s3)); [exact F3|].
      apply (phase_bind P _ _ (fun _ => tt)); [apply (barrier_phase P HP0)|]. apply phase_ret.
    - cbn [fst with_rows]. exact R4.
  Qed.
End CustomSim.

(** ** The reference algorithm in terms of the iterates of Mgrit *)
Section CustomRef.
  Context {A : App}.
  Variable cr : UserCrit A.
  Variable o : Opts A.
  Variable guess : nat -> Vec A.
  Notation c_pass := (c_pass cr o).
  Notation c_loop := (c_loop cr o).
  Notation change := (change cr o).

  Fixpoint c_passes (k : nat) : GS A := match k with 0 => c_construct cr o guess | S j => c_pass j (c_passes j) end.
  (** the convergence value of iteration [j] *)
  Definition c_value (j : nat) : Sc A :=
    match j with
    | 0 => change None (gu (iterate o guess 0) 0)
    | S i => change (Some (gu (iterate o guess i) 0)) (gu (iterate o guess j) 0)
    end.

  Lemma pass_eqv it G G' : eqv G G' -> eqv (g_pass o it G) (c_pass it G').
  Proof.
    intros E. assert (E1 : eqv (cyc_state o it G) (cyc_state o it G')) by (apply (iteration_indep o _ _ _ _ _); exact E).
    assert (Ec : eqv (g_crit o (it + 1) (cyc_state o it G)) (set_gconv (cyc_state o it G') (upd (gconv (cyc_state o it G')) (it + 1) (change (Some (gu G' 0)) (gu (cyc_state o it G') 0))))).
    { unfold g_crit. destruct (tnorm _ _); [|exact E1]. destruct (is_jump o); exact E1. }
    unfold g_pass, CustomProofs.c_pass. cbv zeta. fold (cyc_state o it G). unfold g_emit_if. destruct (_ && _); exact Ec.
  Qed.
  Lemma passes_eqv k : eqv (iterate o guess k) (c_passes k).
  Proof. induction k as [|k IH]; [split; [|split]; reflexivity|]. apply (pass_eqv k), IH. Qed.
  Lemma rows_ext u u' : (forall i, u' i = u i) -> rows cr o u' = rows cr o u.
  Proof. intros H. apply map_ext. intros i. rewrite H. reflexivity. Qed.
  Lemma pass_c_conv it G : gconv (c_pass it G) = upd (gconv G) (it + 1) (change (Some (gu G 0)) (gu (c_pass it G) 0)).
  Proof. rewrite pass_rows. unfold CustomProofs.c_pass. rewrite emit_if_conv. cbn [set_gconv gconv]. rewrite cyc_conv. reflexivity. Qed.
  Lemma passes_c_conv k : k <= o_max_iter o ->
    gconv (c_passes k) = map (fun j => if j <=? k then c_value j else sc_zero A) (seq 0 (o_max_iter o + 1)).
  Proof.
    induction k as [|k IH]; intros Hk.
    - cbn [c_passes]. unfold c_construct. cbn [set_gconv gconv]. rewrite construct_conv, Nat.add_1_r. cbn [repeat upd seq map Nat.leb c_value]. f_equal.
      assert (F : forall n b, 0 < b -> repeat (sc_zero A) n = map (fun j => if j <=? 0 then c_value j else sc_zero A) (seq b n)).
      { induction n as [|n IH]; intros b Hb; [reflexivity|]. cbn [repeat seq map]. destruct b; [lia|]. cbn [Nat.leb]. f_equal. apply IH. lia. }
      apply F. lia.
    - cbn [c_passes]. rewrite pass_c_conv, IH by lia.
      assert (Ev : change (Some (gu (c_passes k) 0)) (gu (c_pass k (c_passes k)) 0) = c_value (S k)).
      { cbn [c_value]. unfold CustomProofs.change. cbn [all_last]. change (c_pass k (c_passes k)) with (c_passes (S k)).
        rewrite (rows_ext (gu (iterate o guess k) 0) (gu (c_passes k) 0)) by (apply (proj1 (passes_eqv k))).
        rewrite (rows_ext (gu (iterate o guess (S k)) 0) (gu (c_passes (S k)) 0)) by (apply (proj1 (passes_eqv (S k)))). reflexivity. }
      rewrite Ev. apply Main.list_ext; [rewrite upd_length, !map_length; reflexivity|].
      intros i Hi. rewrite upd_length, map_length, seq_length in Hi.
      assert (Hs : nth_error (seq 0 (o_max_iter o + 1)) i = Some i) by (rewrite nth_error_seq; auto).
      rewrite (map_nth_error _ _ _ Hs). destruct (Nat.eq_dec i (k + 1)) as [->|Hne].
      + rewrite upd_nth_same by (rewrite map_length, seq_length; lia). rewrite Nat.add_1_r. rewrite (proj2 (Nat.leb_le (S k) (S k))) by lia. reflexivity.
      + rewrite upd_nth_other by lia. rewrite (map_nth_error _ _ _ Hs). f_equal.
        destruct (i <=? k) eqn:E1, (i <=? S k) eqn:E2; auto; rewrite ?Nat.leb_le, ?Nat.leb_gt in *; lia.
  Qed.
  Lemma passes_c_iter k : giter (c_passes k) = k.
  Proof.
    destruct k as [|k]; [apply (construct_iter o guess)|]. cbn [c_passes]. unfold CustomProofs.c_pass. rewrite emit_if_iter.
    cbn [set_gconv giter]. rewrite cyc_iter. lia.
  Qed.
  Lemma passes_c_out k : gout (c_passes k) = if emits o then map (fun j => (j, gu (c_passes j) 0)) (seq 0 (S k)) else [].
  Proof.
    induction k as [|k IH].
    - cbn [c_passes]. unfold c_construct. cbn [set_gconv gout]. rewrite construct_out. destruct (emits o); reflexivity.
    - rewrite seq_S, map_app. cbn [plus map].
      assert (Eu : gu (c_passes (S k)) 0 = gu (cyc_state o k (c_passes k)) 0) by (cbn [c_passes]; rewrite pass_rows; reflexivity).
      rewrite Eu. change (c_passes (S k)) with (c_pass k (c_passes k)). unfold CustomProofs.c_pass. cbv zeta. unfold g_emit_if. fold (emits o). destruct (emits o).
      + unfold g_emit. cbn [set_gconv gout giter gu]. rewrite cyc_out, IH, cyc_iter, Nat.add_1_r. reflexivity.
      + cbn [set_gconv gout]. rewrite cyc_out, IH. reflexivity.
  Qed.

  Lemma c_loop_shift n : forall it, it + n = o_max_iter o ->
    exists k, k <= n /\ c_loop n it (c_passes it) = c_passes (it + k) /\ (0 < n -> 0 < k) /\
      (forall j, it < j < it + k -> sc_lt A (c_value j) (o_tol o) = false) /\
      (k < n -> sc_lt A (c_value (it + k)) (o_tol o) = true).
  Proof.
    assert (Hc : forall j, j <= o_max_iter o -> nth j (gconv (c_passes j)) (sc_zero A) = c_value j).
    { intros j Hj. rewrite passes_c_conv by auto. rewrite nth_of_error.
      rewrite (map_nth_error _ j _ (d := j)) by (rewrite nth_error_seq; [reflexivity|lia]). rewrite Nat.leb_refl. reflexivity. }
    induction n as [|n IH]; intros it Hm.
    - exists 0. rewrite Nat.add_0_r. simpl. repeat split; try lia.
    - cbn [CustomProofs.c_loop]. cbv zeta. change (c_pass it (c_passes it)) with (c_passes (S it)).
      destruct (g_stop o it (c_passes (S it))) eqn:E.
      + exists 1. replace (it + 1) with (S it) by lia. repeat split; try lia.
        intros Hn. unfold g_stop in E. apply orb_true_iff in E. replace (it + 1) with (S it) in E by lia. rewrite Hc in E by lia.
        destruct E as [E|E]; [exact E|]. apply Nat.eqb_eq in E. lia.
      + destruct (IH (S it) ltac:(lia)) as (k & Hk & Hl & _ & Hf & Hs). exists (S k). replace (it + S k) with (S it + k) by lia.
        unfold g_stop in E. apply orb_false_iff in E. destruct E as [E1 _].
        replace (it + 1) with (S it) in E1 by lia. rewrite Hc in E1 by lia.
        repeat split; try lia; auto.
        * intros j Hj. destruct (Nat.eq_dec j (S it)) as [->|Hj']; [exact E1|]. apply Hf. lia.
        * intros H. apply Hs. lia.
  Qed.

  (** Everything about a whole run at once. *)
  Lemma c_main_result : exists k,
    k <= o_max_iter o /\ (0 < o_max_iter o -> 0 < k) /\
    (forall i, gu (c_main cr o guess) 0 i = gu (iterate o guess k) 0 i) /\ giter (c_main cr o guess) = k /\
    gconv (c_main cr o guess) = map (fun j => if j <=? k then c_value j else sc_zero A) (seq 0 (o_max_iter o + 1)) /\
    (forall j, 0 < j < k -> sc_lt A (c_value j) (o_tol o) = false) /\
    (k < o_max_iter o -> sc_lt A (c_value k) (o_tol o) = true) /\
    Forall2 (fun x y => fst x = y /\ forall i, snd x i = gu (iterate o guess y) 0 i) (gout (c_main cr o guess))
      (if o_has_output o then if (o_output_lvl o =? 2)%Z then seq 0 (S k) else if (o_output_lvl o =? 1)%Z then [k] else [] else []).
  Proof.
    destruct (c_loop_shift (o_max_iter o) 0 eq_refl) as (k & H1 & H2 & H3 & H4 & H5). cbn [c_passes plus] in *. exists k.
    unfold c_main. rewrite H2. rewrite !emit_if_gu, emit_if_iter, emit_if_conv.
    split; [exact H1|]. split; [exact H3|]. split; [intros i; apply (proj1 (passes_eqv k))|]. split; [apply passes_c_iter|].
    split; [apply passes_c_conv, H1|]. split; [exact H4|]. split; [exact H5|].
    assert (F : forall l, Forall2 (fun x y => fst x = y /\ forall i, snd x i = gu (iterate o guess y) 0 i) (map (fun j => (j, gu (c_passes j) 0)) l) l).
    { induction l as [|j l IH]; constructor; [|exact IH]. split; [reflexivity|]. intros i. cbn [snd]. apply (proj1 (passes_eqv j)). }
    pose proof (passes_c_out k) as E. unfold emits in E. unfold g_emit_if. destruct (o_has_output o); cbn [andb] in *; [|rewrite E; constructor].
    destruct (o_output_lvl o =? 2)%Z eqn:E2.
    - apply Z.eqb_eq in E2. rewrite E2 in *. cbn [Z.eqb Pos.eqb] in *. rewrite E. apply F.
    - destruct (o_output_lvl o =? 1)%Z; [|rewrite E; constructor]. unfold g_emit. cbn [gout]. rewrite E, passes_c_iter. apply (F [k]).
  Qed.
End CustomRef.
