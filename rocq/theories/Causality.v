(** Causality of the reference algorithm: two problems whose steps and initial guesses agree up to a time give the same
    iterates up to that time. *)
From Coq Require Import List ZArith Lia Arith Bool Sorted.
From Verif Require Import Net PyList ListFacts Setup Spec SetupProofs Mgrit Reference RefProofs Sim Algebra.
Import ListNotations.

(** The same vectors and transfers with other time steppers / with other options' weights kept. *)
Definition with_phi (A : App) (f : nat -> Vec A -> Z -> Z -> Vec A) : App :=
  mkApp (Vec A) (Data A) (Sc A) (vadd A) (vsub A) (vscale A) (vnorm A) (vclone A) (vzero A) (vpack A) (vunpack A)
    f (restr A) (interp A) (templ A) (tstart A) (tnorm A) (sc_lt A) (sc_zero A) (sc_is_zero A) (one_minus A).
Definition with_phi_opts_at {A : App} (f : nat -> Vec A -> Z -> Z -> Vec A) (o : Opts A) (rnd : option (nat -> nat -> Vec A)) (d : option Z) :
  Opts (with_phi A f) :=
  mkOptsAt (with_phi A f) (o_grids o) (o_ntransfer o) (o_weight o : Sc (with_phi A f)) (o_max_iter o) (o_tol o : Sc (with_phi A f)) (o_nested o)
    (o_cf o) (o_cycle o) (o_output_lvl o) (o_has_output o) (o_t_norm o) (rnd : option (nat -> nat -> Vec (with_phi A f)))
    (o_conv_crit o) (o_set_order o) d.
Definition with_phi_opts {A : App} (f : nat -> Vec A -> Z -> Z -> Vec A) (o : Opts A) (rnd : option (nat -> nat -> Vec A)) : Opts (with_phi A f) :=
  with_phi_opts_at f o rnd (o_dist o).

Section Causality.
  Context {A : App}.
  Variable o : Opts A.
  Variable f : nat -> Vec A -> Z -> Z -> Vec A.
  Variable rnd : option (nat -> nat -> Vec A).
  Variable d : option Z.
  Variable T : Z.
  (** The same class, or AtMgrit with full distance against Mgrit. *)
  Definition same_solver : Prop := d = o_dist o \/
    (d = None /\ exists k, o_dist o = Some k /\ 1 < length (o_grids o) /\ (Z.of_nat (npts (o_grids o) (length (o_grids o) - 1)) <= k)%Z /\
     forall x, vclone A x = x).
  Hypothesis Hd : same_solver.
  Hypothesis HV : valid_hierarchy (o_grids o).
  Hypothesis Hf : forall l x a b, (b <= T)%Z -> f l x a b = phi A l x a b.
  Notation B := (with_phi A f).
  Notation o' := (with_phi_opts_at f o rnd d).
  Notation grids := (o_grids o).
  Notation L := (length (o_grids o)).
  Notation N := (npts (o_grids o)).
  Notation isC := (cpoint (o_grids o)).
  Notation fi := (fine_index (o_grids o)).
  Notation ci := (coarse_index (o_grids o)).
  Notation tm := (time (o_grids o)).

  (** Point [i] of level [l] lies before or at [T]. *)
  Definition early (l i : nat) : Prop := i < N l /\ (tm l i <= T)%Z.
  Lemma tm_mono l i : l < L -> S i < N l -> (tm l i < tm l (S i))%Z.
  Proof.
    intros Hl Hi. destruct HV as (_ & H1 & _). destruct (H1 l Hl) as [Hs _]. unfold time. unfold npts in Hi.
    revert Hi. generalize (nth l grids []) Hs. clear. intros g. revert i. induction g as [|a g IH]; intros i Hs Hi; [simpl in Hi; lia|].
    apply StronglySorted_inv in Hs. destruct Hs as [H1 H2]. destruct i as [|i].
    - destruct g as [|b g]; [simpl in Hi; lia|]. simpl. rewrite Forall_forall in H2. apply H2. left. reflexivity.
    - simpl nth at 1. change (nth (S (S i)) (a :: g) 0%Z) with (nth (S i) g 0%Z). apply IH; auto. simpl in Hi. lia.
  Qed.
  Lemma early_pred l i : l < L -> early l (S i) -> early l i.
  Proof. intros Hl [H1 H2]. split; [lia|]. pose proof (tm_mono l i Hl H1). lia. Qed.
  Lemma early_pred' l i : l < L -> early l i -> early l (i - 1).
  Proof. intros Hl H. destruct i; [exact H|]. replace (S i - 1) with i by lia. apply early_pred; auto. Qed.
  Lemma tm_fi l j : S l < L -> j < N (S l) -> tm l (fi l j) = tm (S l) j.
  Proof.
    intros Hl Hj. assert (HP : 1 <= SetupProofs.N grids 0) by (apply (N0_pos o HV)).
    rewrite (fine_cpt o 1 HV Nat.lt_0_1 HP) by auto. rewrite !time_tm.
    apply (cpt_time grids 1 HV Nat.lt_0_1 HP); auto.
  Qed.
  Lemma early_fi l j : S l < L -> early (S l) j -> early l (fi l j).
  Proof. intros Hl [H1 H2]. split; [apply (fi_in o HV); auto|]. rewrite tm_fi; auto. Qed.
  Lemma early_ci l i : S l < L -> isC l i = true -> early l i -> early (S l) (ci l i).
  Proof.
    intros Hl Hc [H1 H2]. destruct (fi_ci o HV l i Hl H1 Hc) as [H3 H4]. split; [auto|]. rewrite <- tm_fi by auto. rewrite H4. exact H2.
  Qed.

  (** Agreement of a level up to time [T]. *)
  Definition same (l : nat) (G : GS A) (G' : GS B) : Prop :=
    (forall i, early l i -> (gu G' l i : Vec A) = gu G l i) /\
    (forall i, early l i -> 0 < i -> (gg G' l i : Vec A) = gg G l i).

  Lemma step_same l G G' x i : same l G G' -> early l i -> 0 < i -> (gstep o' l G' x i : Vec A) = gstep o l G x i.
  Proof.
    intros [_ Hg] He Hi. unfold gstep. change (o_grids o') with grids.
    change (phi (with_phi A f)) with f. rewrite Hf by apply He. destruct (l =? 0); [reflexivity|]. rewrite (Hg i He Hi). reflexivity.
  Qed.
  Lemma frelax_same l G G' : l < L -> same l G G' -> same l (g_frelax o l G) (g_frelax o' l G').
  Proof.
    intros Hl H. split; [|intros i He Hi; apply H; auto]. intros i. cbn [g_frelax with_u gu]. rewrite !at1_same.
    induction i as [|i IH]; intros He; [apply H; auto|]. cbn [frelax]. change (o_grids o') with grids.
    destruct (isC l (S i)); [apply H; auto|]. rewrite (IH (early_pred l i Hl He)). apply step_same; auto. lia.
  Qed.
  Lemma fsolve_same l G G' : l < L -> same l G G' -> same l (g_fsolve o l G) (g_fsolve o' l G').
  Proof.
    intros Hl H. split; [|intros i He Hi; apply H; auto]. intros i. cbn [g_fsolve with_u gu]. rewrite !at1_same.
    induction i as [|i IH]; intros He; [apply H; auto|]. cbn [fsolve].
    rewrite (IH (early_pred l i Hl He)). apply step_same; auto. lia.
  Qed.
  Lemma window_same l G G' : l < L -> same l G G' -> forall n i, early l i -> (window o' l G' n i : Vec A) = window o l G n i.
  Proof.
    intros Hl H. change (vclone B) with (vclone A).
    assert (C : forall i, early l i -> vclone A (gu G' l i) = vclone A (gu G l i)) by (intros i He; f_equal; apply H; auto).
    induction n as [|n IH]; intros [|i] He; cbn [window]; auto; try (apply C; auto).
    rewrite (IH i (early_pred l i Hl He)). apply step_same; auto. lia.
  Qed.
  Lemma window_full l G : (forall x, vclone A x = x) -> forall n i, i <= n -> window o l G n i = fsolve o l G i.
  Proof.
    intros C. induction n as [|n IH]; intros [|i] Hi; cbn [window fsolve]; auto; [lia|]. rewrite IH by lia. reflexivity.
  Qed.
  Lemma csolve_same l G G' : l = L - 1 -> l < L -> same l G G' -> same l (g_csolve o l G) (g_csolve o' l G').
  Proof.
    intros El Hl H. unfold g_csolve. change (o_dist o') with d. destruct Hd as [E | (E & k & E' & HL2 & Hk & C)]; rewrite E.
    - destruct (o_dist o); [|apply fsolve_same; auto].
      destruct (l =? 0); [exact H|]. split; [|intros i He Hi; apply H; auto]. intros i He. cbn [with_u gu]. rewrite !at1_same.
      apply window_same; auto.
    - rewrite E'. replace (l =? 0) with false by (symmetry; apply Nat.eqb_neq; lia). destruct (fsolve_same l G G' Hl H) as [F1 F2].
      split; [|exact F2]. intros i He. transitivity (gu (g_fsolve o l G) l i); [exact (F1 i He)|]. cbn [with_u g_fsolve gu]. rewrite !at1_same. symmetry. apply window_full; auto.
      destruct He as [He _]. subst l. lia.
  Qed.
  Lemma crelax_same l G G' : l < L -> same l G G' -> same l (g_crelax o l G) (g_crelax o' l G').
  Proof.
    intros Hl H. split; [|intros i He Hi; apply H; auto]. intros i He. cbn [g_crelax with_u gu]. rewrite !at1_same. unfold crelax.
    change (o_grids o') with grids. destruct (isC l i && (0 <? i)) eqn:E; [|apply H; auto].
    apply andb_true_iff in E. destruct E as [_ E]. apply Nat.ltb_lt in E.
    change (vadd B) with (vadd A). change (vscale B) with (vscale A). change (o_weight o') with (o_weight o). change (one_minus B) with (one_minus A).
    rewrite (step_same l G G' _ i H He E). rewrite (proj1 H i He), (proj1 H (i - 1)) by (apply early_pred'; auto). reflexivity.
  Qed.
  Lemma iter_same l n g g' : (forall G G', same l G G' -> same l (g G) (g' G')) -> forall G G', same l G G' -> same l (iter n g G) (iter n g' G').
  Proof. intros H. induction n as [|n IH]; intros G G' S; [exact S|]. simpl. apply IH, H, S. Qed.
  Lemma relaxed_same l it ff G G' : l < L -> same l G G' -> same l (relaxed o l it ff G) (relaxed o' l it ff G').
  Proof.
    intros Hl H. unfold relaxed. change (cf_count o' l) with (cf_count o l). apply iter_same.
    - intros. apply frelax_same, crelax_same; auto.
    - destruct (_ && _); [apply frelax_same; auto|exact H].
  Qed.
  Lemma fas_u_same l G G' j : S l < L -> same l G G' -> early (S l) j -> (fas_u o' l G' j : Vec A) = fas_u o l G j.
  Proof. intros Hl H He. unfold fas_u. change (o_grids o') with grids. change (restr B) with (restr A). rewrite (proj1 H) by (apply early_fi; auto). reflexivity. Qed.
  Lemma gres_same l G G' i : l < L -> same l G G' -> early l i -> 0 < i -> (gres o' l G' i : Vec A) = gres o l G i.
  Proof.
    intros Hl H He Hi. unfold gres. change (o_grids o') with grids. change (phi B) with f. rewrite Hf by apply He.
    rewrite (proj1 H i He), (proj1 H (i - 1)) by (apply early_pred'; auto). rewrite (proj2 H i He Hi). reflexivity.
  Qed.
  Lemma fas_same l G G' : S l < L -> same l G G' -> same (S l) (g_fas o l G) (g_fas o' l G').
  Proof.
    intros Hl H. split; intros j He; cbn [g_fas gu gg]; rewrite !at1_same; [apply fas_u_same; auto|].
    intros Hj. unfold fas_g. apply Nat.ltb_lt in Hj as E. rewrite E. change (o_grids o') with grids. change (phi B) with f. rewrite Hf by apply He.
    rewrite (fas_u_same l G G' j), (fas_u_same l G G' (j - 1)); auto; [|apply early_pred'; auto].
    rewrite (gres_same l G G'); auto; [lia|apply early_fi; auto|]. apply (fi_pos o HV); auto. apply He.
  Qed.
  Lemma corr_same l G G' : S l < L -> same l G G' -> same (S l) G G' ->
    (forall j, early (S l) j -> (gv G' (S l) j : Vec A) = gv G (S l) j) -> same l (g_corr o l G) (g_corr o' l G').
  Proof.
    intros Hl H H' Hv. split; [|intros i He Hi; apply H; auto]. intros i He. cbn [g_corr with_u gu]. rewrite !at1_same. unfold corr.
    change (o_grids o') with grids. destruct (isC l i && (0 <? i)) eqn:E; [|apply H; auto].
    apply andb_true_iff in E. destruct E as [E _].
    rewrite (proj1 H i He), (proj1 H' (ci l i)), Hv by (apply early_ci; auto). reflexivity.
  Qed.
  Lemma same_frame l k G G' H H' : k < l -> frame l G H -> frame l G' H' -> same k G G' -> same k H H'.
  Proof.
    intros Hk [a b] [a' b'] [s1 s2]. split; intros i He.
    - rewrite a, a' by auto. apply s1; auto.
    - intros Hi. destruct (b k i ltac:(lia)) as [_ ->]. destruct (b' k i ltac:(lia)) as [_ ->]. apply s2; auto.
  Qed.

  Lemma iteration_same : forall n l cyc it ff G G', n + l = L - 1 -> l < L -> same l G G' ->
    same l (g_iteration o n l cyc it ff G) (g_iteration o' n l cyc it ff G').
  Proof.
    induction n as [|n IH]; intros l cyc it ff G G' Hn Hl H; [apply csolve_same; auto; lia|].
    assert (Hh : forall c ff G G', same l G G' -> same l (half o n l it c ff G) (half o' n l it c ff G')).
    { clear G G' H. intros c ff' G G' H. unfold half. apply frelax_same; auto.
      assert (HlS : S l < L) by lia.
      pose proof (relaxed_same l it ff' G G' Hl H) as H2. set (G2 := relaxed o l it ff' G) in *. set (G2' := relaxed o' l it ff' G') in *.
      pose proof (fas_same l G2 G2' HlS H2) as H3.
      pose proof (IH (S l) c it true _ _ ltac:(lia) HlS H3) as H4.
      pose proof (frame_iteration o n (S l) c it true (g_fas o l G2)) as F.
      pose proof (frame_iteration o' n (S l) c it true (g_fas o' l G2')) as F'.
      apply corr_same; auto.
      - apply (same_frame (S l) l _ _ _ _ ltac:(lia) F F'). split; intros i He; cbn [g_fas gu gg]; rewrite !at1_other by lia; apply H2; auto.
      - intros j He. destruct F as [_ F]. destruct F' as [_ F']. destruct (F (S l) j ltac:(lia)) as [-> _]. destruct (F' (S l) j ltac:(lia)) as [-> _].
        cbn [g_fas gv]. rewrite !at1_same. change (vclone B) with (vclone A). rewrite (fas_u_same l G2 G2'); auto. }
    rewrite !iteration_S. cbv zeta. destruct (negb (l =? 0) && cyc); auto.
  Qed.

  (** ** Construction *)
  Lemma interp_same l G G' : S l < L -> same l G G' -> same (S l) G G' -> same l (g_interp_up o l G) (g_interp_up o' l G').
  Proof.
    intros Hl H H'. split; [|intros i He Hi; apply H; auto]. intros i He. cbn [g_interp_up with_u gu]. rewrite !at1_same. unfold interp_up.
    change (o_grids o') with grids. destruct (isC l i && (0 <? i)) eqn:E; [|apply H; auto].
    apply andb_true_iff in E. destruct E as [E _]. rewrite (proj1 H' (ci l i)) by (apply early_ci; auto). reflexivity.
  Qed.
  Lemma nested_from_same l : forall G G', l < L -> (forall k, k <= l -> same k G G') ->
    same 0 (g_nested_from o l G) (g_nested_from o' l G').
  Proof.
    induction l as [|l IH]; intros G G' Hl H; [apply H; lia|]. cbn [g_nested_from]. cbv zeta.
    assert (Hi : forall k, k <= l -> same k (g_interp_up o l G) (g_interp_up o' l G')).
    { intros k Hk. destruct (Nat.eq_dec k l) as [->|Hne]; [apply interp_same; auto|].
      apply (same_frame l k G G'); [lia|apply frame_with_u|apply frame_with_u|apply H; lia]. }
    apply IH; [lia|]. intros k Hk. destruct (0 <? l); [|apply Hi; auto].
    change (o_grids o') with grids. destruct (Nat.eq_dec k l) as [->|Hne]; [apply iteration_same; [lia|lia|]; apply Hi; auto|].
    eapply (same_frame l k); [lia|apply frame_iteration|apply frame_iteration|]. apply Hi. auto.
  Qed.
  Lemma init_same (guess guess' : nat -> Vec A) l : (forall i, early 0 i -> guess' i = guess i) ->
    same l (g_init o guess) (g_init o' guess').
  Proof.
    intros H. split; intros i He; [|reflexivity]. cbn [g_init gu]. destruct (i =? 0); [reflexivity|]. destruct l; [|reflexivity].
    apply H, He.
  Qed.
  Lemma same_gu l G G' H H' : gu H = gu G -> gu H' = gu G' -> gg H = gg G -> gg H' = gg G' -> same l G G' -> same l H H'.
  Proof. intros E1 E2 E3 E4 [a b]. split; intros; [rewrite E1, E2|rewrite E3, E4]; auto. Qed.
  Lemma construct_same (guess guess' : nat -> Vec A) : (forall i, early 0 i -> guess' i = guess i) ->
    same 0 (g_construct o guess) (g_construct o' guess').
  Proof.
    intros H. pose proof (L_ge1 o HV) as HL1. unfold g_construct. change (o_nested o') with (o_nested o). change (is_jump o') with (is_jump o).
    change (o_has_output o') with (o_has_output o). change (o_output_lvl o') with (o_output_lvl o). cbv zeta.
    assert (S0 : same 0 (if o_nested o then g_nested o (g_init o guess) else g_init o guess)
                        (if o_nested o then g_nested o' (g_init o' guess') else g_init o' guess')).
    { destruct (o_nested o); [|apply init_same; auto]. unfold g_nested. change (o_grids o') with grids. apply nested_from_same; [lia|].
      intros k Hk. destruct (Nat.eq_dec k (L - 1)) as [->|Hne]; [apply csolve_same; [lia|lia|apply init_same; auto]|].
      apply (same_frame (L - 1) k (g_init o guess) (g_init o' guess')); [lia|apply frame_csolve|apply frame_csolve|apply init_same; auto]. }
    set (X := if o_nested o then g_nested o _ else _) in *. set (X' := if o_nested o then g_nested o' _ else _) in *. clearbody X X'.
    destruct (is_jump o), (o_has_output o && (o_output_lvl o =? 2)%Z); eapply same_gu; try exact S0; reflexivity.
  Qed.
  Lemma pass_gg {A0 : App} (o0 : Opts A0) it (G : GS A0) : gg (g_pass o0 it G) = gg (cyc_state o0 it G).
  Proof. unfold g_pass, g_crit. fold (cyc_state o0 it G). destruct (_ && _); cbn [g_emit_if g_emit gg]; destruct (tnorm _ _); auto; destruct (is_jump o0); reflexivity. Qed.
  Theorem iterate_same (guess guess' : nat -> Vec A) k : (forall i, early 0 i -> guess' i = guess i) ->
    same 0 (iterate o guess k) (iterate o' guess' k).
  Proof.
    intros H. pose proof (L_ge1 o HV) as HL1. induction k as [|k IH]; [apply construct_same; auto|].
    change (iterate o guess (S k)) with (g_pass o k (iterate o guess k)). change (iterate o' guess' (S k)) with (g_pass o' k (iterate o' guess' k)).
    eapply same_gu; [apply pass_gu|apply pass_gu|apply pass_gg|apply pass_gg|]. unfold cyc_state. change (o_grids o') with grids. change (cycF o') with (cycF o).
    apply iteration_same; [lia|lia|]. eapply same_gu; [| | | |exact IH]; reflexivity.
  Qed.
End Causality.
