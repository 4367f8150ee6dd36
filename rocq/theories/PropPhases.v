(** Properties of single solver phases on any number of processes: C07 (F-relaxation), C16 (nested iteration).
    [represents]: the process states [s] hold, distributed over the processes, the values of the global state [G]. *)
From Coq Require Import List ZArith Lia Arith Bool Sorted Permutation.
From Verif Require Import Net NetProofs NetPhase PyList ListFacts Setup SplitProofs Spec SetupProofs Mgrit Reference RefProofs Sim Main
  ParallelProofs ExampleApp OrderProofs.
Import ListNotations.

Section Phases.
  Context {A : App}.
  Variable wf : nat -> Vec A -> Prop.
  Variable o : Opts A.
  Variable P : nat.
  Hypothesis GSu : good_setup wf o P.
  Notation grids := (o_grids o).

  (** every process knows its communication tables; the data, tags and counters of the processes fit together *)
  Definition represents (s : nat -> St A) (G : GS A) : Prop := Rel o P wf s G.

  Lemma infos_unique inf : (forall r, r < P -> setup_infos o P r = Some (inf r)) -> forall r, r < P -> inf r = infos o P r.
  Proof.
    intros H r Hr. specialize (H r Hr).
    rewrite (setup_infos_eq o P (HV' wf o P GSu) (gs_apart _ _ _ GSu) (HP0' wf o P GSu) (HP' wf o P GSu)
      (fun l r Hl Hr => proj1 (f_order_block wf o P GSu l r Hl Hr))
      (fun l r Hl Hr => proj2 (f_order_block wf o P GSu l r Hl Hr))) in H by exact Hr. congruence.
  Qed.

  (** solution vectors of level [l] in time order *)
  Definition level_values (s : nat -> St A) (l : nat) : list (Vec A) := gathered P (fun r => s_u (s r) l).

  Lemma pts_concat_lvl l p : l < length grids -> p <= P -> concat (map (pts grids P l) (seq 0 p)) = seq 0 (lo grids P l p).
  Proof.
    pose proof (HV' wf o P GSu) as HV. pose proof (HP0' wf o P GSu) as HP0. pose proof (HP' wf o P GSu) as HP.
    intros Hl. induction p as [|p IH]; intros Hp.
    - rewrite (lo_0 grids P HV HP0 HP) by auto. reflexivity.
    - rewrite seq_S, map_app, concat_app, IH by lia. simpl. rewrite app_nil_r. unfold pts.
      pose proof (lo_cnt grids P HV HP0 HP l p Hl ltac:(lia)) as E. rewrite <- E, seq_app. reflexivity.
  Qed.
  Lemma ows_gathered_lvl l (vals : nat -> list (Vec A)) (f : nat -> Vec A) : l < length grids ->
    (forall r, r < P -> ows o P l r (vals r) f) -> gathered P vals = map f (seq 0 (length (nth l grids []))).
  Proof.
    intros Hl H. pose proof (HV' wf o P GSu) as HV. pose proof (HP0' wf o P GSu) as HP0. pose proof (HP' wf o P GSu) as HP.
    assert (E : forall r, r < P -> (if r =? 0 then vals r else tl (vals r)) = map f (pts grids P l r)).
    { intros r Hr. destruct (H r Hr) as [H1 H2].
      pose proof (lo_cnt grids P HV HP0 HP l r Hl Hr) as E.
      destruct (Nat.eq_dec (cnt grids P l r) 0) as [C|C].
      { assert (O : off grids P l r = 0) by (unfold off; rewrite C, orb_true_r; reflexivity).
        unfold pts. rewrite C. destruct (vals r); [|simpl in H1; lia]. destruct (r =? 0); reflexivity. }
      unfold pts. destruct (r =? 0) eqn:R.
      - assert (O : off grids P l r = 0) by (unfold off; rewrite R; reflexivity).
        apply list_ext; rewrite ?map_length, ?seq_length; [lia|]. intros i Hi.
        assert (Hi' : i < cnt grids P l r) by lia.
        rewrite (map_nth_error f i (seq _ _) (d := lo grids P l r + i)) by (rewrite nth_error_seq; auto).
        rewrite <- H2 by lia. f_equal. unfold loc. lia.
      - assert (O : off grids P l r = 1).
        { unfold off. rewrite R. replace (cnt grids P l r =? 0) with false; [reflexivity|]. symmetry. apply Nat.eqb_neq. lia. }
        apply Nat.eqb_neq in R. pose proof (lo_pos grids P HV HP0 HP l r Hl ltac:(lia) Hr ltac:(lia)).
        destruct (vals r) as [|x xs] eqn:Ev; simpl in H1; [lia|]. simpl.
        apply list_ext; rewrite ?map_length, ?seq_length; [lia|]. intros i Hi.
        rewrite (map_nth_error f i (seq _ _) (d := lo grids P l r + i)) by (rewrite nth_error_seq; [auto|lia]).
        rewrite <- H2 by lia. replace (loc grids P l r (lo grids P l r + i)) with (S i) by (unfold loc; lia). reflexivity. }
    unfold gathered. transitivity (concat (map (fun r => map f (pts grids P l r)) (seq 0 P))).
    { f_equal. apply map_ext_in. intros r Hr. apply in_seq in Hr. apply E. lia. }
    rewrite <- (map_map (pts grids P l) (map f)), <- concat_map, pts_concat_lvl by lia.
    rewrite (SetupProofs.lo_P grids P). reflexivity.
  Qed.

  Lemma represents_values s G : represents s G -> forall l, l < length grids ->
    level_values s l = map (gu G l) (seq 0 (length (nth l grids []))).
  Proof.
    intros (_ & K & R) l Hl. apply ows_gathered_lvl; auto. intros r Hr. apply (rd_u _ _ _ _ _ _ (proj1 (R r Hr)) l Hl).
  Qed.

  (** From a simulated phase to all executions. *)
  Lemma phase_runs (p : nat -> prog (Msg A) (St A)) s' : phase P p s' ->
    forall n c, steps P n (initial p) c -> stuck P c -> finished P s' c.
  Proof.
    intros F n c H S. destruct (phase_finishes P p s' F) as (m & d & H1 & H2).
    destruct (finished_unique P m _ _ s' H2 H1 n c H) as (_ & _ & X). apply X, S.
  Qed.

  (** *** Closed form of F-relaxation *)
  Lemma frelax_closed l (G : GS A) i c : cpoint grids l c = true \/ c = 0 -> c <= i -> (forall j, c < j <= i -> cpoint grids l j = false) ->
    frelax o l G i = fold_left (gstep o l G) (seq (S c) (i - c)) (gu G l c).
  Proof.
    intros Hc Hi Hj. induction i as [|i IH].
    - assert (c = 0) by lia. subst. reflexivity.
    - destruct (Nat.eq_dec c (S i)) as [->|].
      + rewrite Nat.sub_diag. simpl. destruct Hc as [-> | ?]; [reflexivity|lia].
      + simpl frelax. rewrite Hj by lia. rewrite IH by (intros; try apply Hj; lia).
        replace (S i - c) with (S (i - c)) by lia. rewrite seq_S, fold_left_app. simpl. f_equal. lia.
  Qed.
End Phases.

(** ** C07: F-relaxation is exact propagation from C-points
    All processes hold a state of the solver ([represents]) and run f_relax on level [l]. Every maximal execution ends
    with all processes returned; afterwards each C-point has its old value, each F-point the value obtained by stepping
    from the nearest C-point before it through all points in between, wherever process boundaries are; nothing else
    (right-hand sides, other levels, histories) has changed. *)
Theorem C07_f_relax :
  forall (A : App) (wf : nat -> Vec A -> Prop) (o : Opts A) (P n l : nat) (inf : nat -> list LvlInfo) (s : nat -> St A) (G : GS A) c,
  good_setup wf o P -> (forall r, r < P -> setup_infos o P r = Some (inf r)) -> represents wf o P s G -> l < length (o_grids o) ->
  steps P n (initial (fun r => f_relax o P (inf r) l (s r))) c -> stuck P c ->
  exists s' x, finished P s' c /\ represents wf o P s' (with_u G l x) /\
    level_values P s' l = map x (seq 0 (length (nth l (o_grids o) []))) /\
    (forall i, cpoint (o_grids o) l i = true -> x i = gu G l i) /\
    (forall i j, j < i -> cpoint (o_grids o) l j = true -> (forall k, j < k <= i -> cpoint (o_grids o) l k = false) ->
       x i = fold_left (fun v k => let w := phi A l v (time (o_grids o) l (k - 1)) (time (o_grids o) l k) in
                                   if l =? 0 then w else vadd A (gg G l k) w) (seq (S j) (i - j)) (gu G l j)).
Proof.
  intros A wf o P n l inf s G c GSu Hi R Hl H St.
  destruct (f_relax_sim o P wf (gs_laws _ _ _ GSu) (HV' wf o P GSu) (HP0' wf o P GSu) (HP' wf o P GSu) (Hgcc' wf o P GSu)
              (fun l r Hl Hr => proj1 (f_order_block wf o P GSu l r Hl Hr))
              (fun l r Hl Hr => proj2 (f_order_block wf o P GSu l r Hl Hr)) l Hl s G R) as (s' & F & R').
  exists s', (frelax o l G). split; [|split; [exact R'|split; [|split]]].
  - refine (phase_runs P _ s' _ n c H St). refine (phase_eq P _ _ _ _ F). intros r Hr. rewrite (infos_unique wf o P GSu inf Hi r Hr). reflexivity.
  - rewrite (represents_values wf o P GSu s' _ R' l Hl). apply map_ext. intros i. simpl. unfold at1. rewrite Nat.eqb_refl. reflexivity.
  - intros [|i] C; [reflexivity|]. simpl. rewrite C. reflexivity.
  - intros i j Hj C K. rewrite (frelax_closed o l G i j (or_introl C) ltac:(lia) K). reflexivity.
Qed.
(** ** C41: the other phases
    The same for C-relaxation, FAS restriction, coarse-grid correction and the solve on the coarsest level. *)
Theorem C41_c_relax :
  forall (A : App) (wf : nat -> Vec A -> Prop) (o : Opts A) (P n l : nat) (inf : nat -> list LvlInfo) (s : nat -> St A) (G : GS A) c,
  good_setup wf o P -> (forall r, r < P -> setup_infos o P r = Some (inf r)) -> represents wf o P s G -> S l < length (o_grids o) ->
  steps P n (initial (fun r => c_relax o P r (inf r) l (s r))) c -> stuck P c ->
  exists s' x, finished P s' c /\ represents wf o P s' (with_u G l x) /\
    level_values P s' l = map x (seq 0 (length (nth l (o_grids o) []))) /\
    (forall i, cpoint (o_grids o) l i = false \/ i = 0 -> x i = gu G l i) /\
    (forall i, cpoint (o_grids o) l i = true -> 0 < i ->
       let w := phi A l (gu G l (i - 1)) (time (o_grids o) l (i - 1)) (time (o_grids o) l i) in
       x i = vadd A (vscale A (if l =? 0 then w else vadd A (gg G l i) w) (o_weight o))
                    (vscale A (gu G l i) (one_minus A (o_weight o)))).
Proof.
  intros A wf o P n l inf s G c GSu Hi R Hl H St.
  destruct (c_relax_sim o P wf (gs_laws _ _ _ GSu) (HV' wf o P GSu) (gs_apart _ _ _ GSu) (HP0' wf o P GSu) (HP' wf o P GSu) (Hgcc' wf o P GSu) l Hl s G R) as (s' & F & R').
  exists s', (crelax o l G). split; [|split; [exact R'|split; [|split]]].
  - refine (phase_runs P _ s' _ n c H St). refine (phase_eq P _ _ _ _ F). intros r Hr. rewrite (infos_unique wf o P GSu inf Hi r Hr). reflexivity.
  - rewrite (represents_values wf o P GSu s' _ R' l ltac:(lia)). apply map_ext. intros i. simpl. unfold at1. rewrite Nat.eqb_refl. reflexivity.
  - intros i [C | ->]; unfold crelax; [rewrite C; reflexivity|]. rewrite andb_false_r. reflexivity.
  - intros i C Hi0. unfold crelax. rewrite C. replace (0 <? i) with true by (symmetry; apply Nat.ltb_lt; lia). reflexivity.
Qed.

Theorem C41_fas_residual :
  forall (A : App) (wf : nat -> Vec A -> Prop) (o : Opts A) (P n l : nat) (inf : nat -> list LvlInfo) (s : nat -> St A) (G : GS A) c,
  good_setup wf o P -> (forall r, r < P -> setup_infos o P r = Some (inf r)) -> represents wf o P s G -> S l < length (o_grids o) ->
  steps P n (initial (fun r => fas_residual o P r (inf r) l (s r))) c -> stuck P c ->
  exists s' G', finished P s' c /\ represents wf o P s' G' /\
    (forall k i, k <> S l -> gu G' k i = gu G k i /\ gv G' k i = gv G k i /\ gg G' k i = gg G k i) /\
    (forall j, let f := fine_index (o_grids o) l j in let f' := fine_index (o_grids o) l (j - 1) in
       gu G' (S l) j = restr A l (gu G l f) /\ gv G' (S l) j = vclone A (restr A l (gu G l f)) /\
       (0 < j ->
        let w := phi A l (gu G l (f - 1)) (time (o_grids o) l (f - 1)) (time (o_grids o) l f) in
        let residual := if l =? 0 then vsub A w (gu G l f) else vadd A (vsub A (gg G l f) (gu G l f)) w in
        gg G' (S l) j = vsub A (vadd A (restr A l residual) (vclone A (restr A l (gu G l f))))
                               (phi A (S l) (vclone A (restr A l (gu G l f'))) (time (o_grids o) (S l) (j - 1)) (time (o_grids o) (S l) j)))).
Proof.
  intros A wf o P n l inf s G c GSu Hi R Hl H St.
  destruct (fas_sim o P wf (gs_laws _ _ _ GSu) (HV' wf o P GSu) (gs_apart _ _ _ GSu) (HP0' wf o P GSu) (HP' wf o P GSu) (Hgcc' wf o P GSu) l Hl s G R) as (s' & F & R').
  exists s', (g_fas o l G). split; [|split; [exact R'|split]].
  - refine (phase_runs P _ s' _ n c H St). refine (phase_eq P _ _ _ _ F). intros r Hr. rewrite (infos_unique wf o P GSu inf Hi r Hr). reflexivity.
  - intros k i Hk. simpl. unfold at1. destruct (Nat.eqb_spec k (S l)); [congruence|]. auto.
  - intros j. cbv zeta. unfold g_fas. cbn [gu gv gg]. unfold at1. rewrite Nat.eqb_refl. split; [reflexivity|]. split; [reflexivity|].
    intros Hj. unfold fas_g. replace (0 <? j) with true by (symmetry; apply Nat.ltb_lt; lia). reflexivity.
Qed.

Theorem C41_error_correction :
  forall (A : App) (wf : nat -> Vec A -> Prop) (o : Opts A) (P n l : nat) (inf : nat -> list LvlInfo) (s : nat -> St A) (G : GS A) c,
  good_setup wf o P -> (forall r, r < P -> setup_infos o P r = Some (inf r)) -> represents wf o P s G -> S l < length (o_grids o) ->
  steps P n (initial (fun r => error_correction r (inf r) l (s r))) c -> stuck P c ->
  exists s' x, finished P s' c /\ represents wf o P s' (with_u G l x) /\
    level_values P s' l = map x (seq 0 (length (nth l (o_grids o) []))) /\
    (forall i, cpoint (o_grids o) l i = false \/ i = 0 -> x i = gu G l i) /\
    (forall i, cpoint (o_grids o) l i = true -> 0 < i ->
       let j := coarse_index (o_grids o) l i in
       x i = vadd A (gu G l i) (interp A l (vsub A (gu G (S l) j) (gv G (S l) j)))).
Proof.
  intros A wf o P n l inf s G c GSu Hi R Hl H St.
  destruct (error_correction_sim o P wf (gs_laws _ _ _ GSu) (HV' wf o P GSu) (HP0' wf o P GSu) (HP' wf o P GSu) l Hl s G R) as (s' & F & R').
  exists s', (corr o l G). split; [|split; [exact R'|split; [|split]]].
  - refine (phase_runs P _ s' _ n c H St). refine (phase_eq P _ _ _ _ F). intros r Hr. rewrite (infos_unique wf o P GSu inf Hi r Hr). reflexivity.
  - rewrite (represents_values wf o P GSu s' _ R' l ltac:(lia)). apply map_ext. intros i. simpl. unfold at1. rewrite Nat.eqb_refl. reflexivity.
  - intros i [C | ->]; unfold corr; [rewrite C; reflexivity|]. rewrite andb_false_r. reflexivity.
  - intros i C Hi0. unfold corr. rewrite C. replace (0 <? i) with true by (symmetry; apply Nat.ltb_lt; lia). reflexivity.
Qed.

Theorem C41_forward_solve :
  forall (A : App) (wf : nat -> Vec A -> Prop) (o : Opts A) (P n l : nat) (inf : nat -> list LvlInfo) (s : nat -> St A) (G : GS A) c,
  good_setup wf o P -> (forall r, r < P -> setup_infos o P r = Some (inf r)) -> represents wf o P s G -> l < length (o_grids o) ->
  steps P n (initial (fun r => forward_solve o P (inf r) l (s r))) c -> stuck P c ->
  exists s' x, finished P s' c /\ represents wf o P s' (with_u G l x) /\
    level_values P s' l = map x (seq 0 (length (nth l (o_grids o) []))) /\
    x 0 = gu G l 0 /\
    (forall i, let w := phi A l (x i) (time (o_grids o) l i) (time (o_grids o) l (S i)) in
       x (S i) = if l =? 0 then w else vadd A (gg G l (S i)) w).
Proof.
  intros A wf o P n l inf s G c GSu Hi R Hl H St.
  destruct (forward_solve_sim o P wf (gs_laws _ _ _ GSu) (HV' wf o P GSu) (HP0' wf o P GSu) (HP' wf o P GSu) (Hgcc' wf o P GSu) l Hl s G R) as (s' & F & R').
  exists s', (fsolve o l G). split; [|split; [exact R'|split; [|split]]].
  - refine (phase_runs P _ s' _ n c H St). refine (phase_eq P _ _ _ _ F). intros r Hr. rewrite (infos_unique wf o P GSu inf Hi r Hr). reflexivity.
  - rewrite (represents_values wf o P GSu s' _ R' l ltac:(lia)). apply map_ext. intros i. simpl. unfold at1. rewrite Nat.eqb_refl. reflexivity.
  - reflexivity.
  - intros i. cbn [fsolve]. unfold gstep. rewrite Nat.sub_succ, Nat.sub_0_r. reflexivity.
Qed.

(** ** C16: nested iteration on two levels
    After construction the C-points of the finest level (other than the first) hold the interpolated coarse-grid
    time-stepping solution, the first point the initial value, the F-points the initial guess. *)
Theorem C16_nested_iteration :
  forall (A : App) (wf : nat -> Vec A -> Prop) (o : Opts A) (P n : nat) (inf : nat -> list LvlInfo) c,
  good_setup wf o P -> (forall r, r < P -> setup_infos o P r = Some (inf r)) ->
  length (o_grids o) = 2 -> o_dist o = None -> o_nested o = true -> o_rand o = None ->
  (forall x, wf 1 x -> vadd A (vzero A (vzero A (templ A 1))) x = x) ->
  steps P n (initial (fun r => construct o P r (inf r) (coarse_solve o P r (inf r)))) c -> stuck P c ->
  exists s' (x y : nat -> Vec A), finished P s' c /\
    level_values P s' 0 = map x (seq 0 (length (nth 0 (o_grids o) []))) /\
    x 0 = vclone A (tstart A 0) /\
    y 0 = vclone A (tstart A 1) /\
    (forall j, y (S j) = phi A 1 (y j) (time (o_grids o) 1 j) (time (o_grids o) 1 (S j))) /\
    (forall i, 0 < i -> cpoint (o_grids o) 0 i = true -> x i = interp A 0 (y (coarse_index (o_grids o) 0 i))) /\
    (forall i, 0 < i -> cpoint (o_grids o) 0 i = false -> x i = vzero A (templ A 0)).
Proof.
  intros A wf o P n inf c GSu Hi HL Hd Hn Hr0 Hz H St. pose proof (gs_laws _ _ _ GSu) as AL.
  destruct (construct_sim o P wf (gs_laws _ _ _ GSu) (HV' wf o P GSu) (gs_apart _ _ _ GSu) (HP0' wf o P GSu) (HP' wf o P GSu) (Hgcc' wf o P GSu)
              (fun l r Hl Hr => proj1 (f_order_block wf o P GSu l r Hl Hr))
              (fun l r Hl Hr => proj2 (f_order_block wf o P GSu l r Hl Hr)) (gs_dist _ _ _ GSu) (gs_rand _ _ _ GSu)) as (s' & F & R' & _).
  rewrite (init_guess_zero o P Hr0) in R'.
  pose (y := fix y j := match j with 0 => vclone A (tstart A 1) | S j' => phi A 1 (y j') (time (o_grids o) 1 j') (time (o_grids o) 1 j) end).
  assert (Ey : forall j, fsolve o 1 (g_init o zero_guess) j = y j).
  { induction j as [|j IH]; [reflexivity|]. cbn [fsolve y]. unfold gstep. simpl Nat.eqb. cbv iota. rewrite IH, Nat.sub_succ, Nat.sub_0_r.
    cbn [gg g_init]. apply Hz. apply (wf_phi A wf AL). rewrite <- IH. clear IH.
    induction j as [|j IHj]; simpl; [apply (wf_clone A wf AL), (wf_tstart A wf AL)|]. apply (wf_add A wf AL).
    - apply (wf_zero A wf AL), (wf_zero A wf AL), (wf_templ A wf AL).
    - apply (wf_phi A wf AL). exact IHj. }
  exists s', (gu (g_construct o zero_guess) 0), y. split; [|split; [|split]].
  - refine (phase_runs P _ s' _ n c H St). refine (phase_eq P _ _ _ _ F). intros r Hr. rewrite (infos_unique wf o P GSu inf Hi r Hr). reflexivity.
  - rewrite (represents_values wf o P GSu s' _ R' 0 ltac:(lia)). reflexivity.
  - unfold g_construct. rewrite Hn. unfold g_emit_if. destruct (_ && _), (is_jump o); unfold g_nested, g_csolve; rewrite HL, Hd; simpl;
      unfold at1, interp_up; simpl; rewrite andb_false_r; reflexivity.
  - split; [reflexivity|]. split; [reflexivity|].
    assert (E : forall i, 0 < i -> gu (g_construct o zero_guess) 0 i =
       if cpoint (o_grids o) 0 i then interp A 0 (fsolve o 1 (g_init o zero_guess) (coarse_index (o_grids o) 0 i)) else zero_guess i).
    { intros i Hi0. unfold g_construct. rewrite Hn. unfold g_emit_if.
      destruct i as [|i]; [lia|].
      destruct (_ && _), (is_jump o); unfold g_nested, g_csolve; rewrite HL, Hd; cbn -[cpoint coarse_index]; unfold at1, interp_up; cbn -[cpoint coarse_index];
        rewrite andb_true_r;
        destruct (cpoint _ _ _); reflexivity. }
    split; intros i Hi0 C; rewrite E, C by auto; [rewrite Ey|]; reflexivity.
Qed.

(** Hypotheses: the freshly initialised three-level example on any number of processes is a represented state, and one
    F-relaxation of a two-level run on 4 processes (9 points, C-points 0, 4, 8) gives the propagated values. *)
Example C07_hypotheses_hold : forall P, 0 < P -> P <= 17 ->
  good_setup (fun _ _ => True) (zopts3 0 20) P /\ (forall r, r < P -> setup_infos (zopts3 0 20) P r = Some (infos (zopts3 0 20) P r)) /\
  represents (fun _ _ => True) (zopts3 0 20) P (fun r => init_state (zopts3 0 20) r (infos (zopts3 0 20) P r))
    (g_init (zopts3 0 20) (init_guess (zopts3 0 20) P)).
Proof.
  intros P H H'. pose proof (zopts3_good 0 20 P (or_introl eq_refl) H H') as GSu. split; [exact GSu|].
  split.
  - intros r Hr. apply (setup_infos_eq (zopts3 0 20) P (HV' _ _ P GSu) (gs_apart _ _ _ GSu) (HP0' _ _ P GSu) (HP' _ _ P GSu)
      (fun l r Hl Hr => proj1 (f_order_block _ _ P GSu l r Hl Hr)) (fun l r Hl Hr => proj2 (f_order_block _ _ P GSu l r Hl Hr))); exact Hr.
  - apply (init_Rel (zopts3 0 20) P (fun _ _ => True) (gs_laws _ _ _ GSu) (HV' _ _ P GSu) (gs_apart _ _ _ GSu) (HP0' _ _ P GSu) (HP' _ _ P GSu)
      (fun l r Hl Hr => proj1 (f_order_block _ _ P GSu l r Hl Hr)) (fun l r Hl Hr => proj2 (f_order_block _ _ P GSu l r Hl Hr))
      (gs_rand _ _ _ GSu)).
Qed.

(** Two levels, 9 and 3 points, nested iteration. *)
Definition zopts2n : Opts zapp :=
  mkOpts zapp [grid_of 9 1; grid_of 3 4] 1 (1%Z : Sc zapp) 3 (1%Z : Sc zapp) true (CfInt 1) (Some false) 0 false 2 None 0 ascending_order.
Lemma zopts2n_good P : 0 < P -> P <= 9 -> good_setup (fun _ _ => True) zopts2n P.
Proof.
  intros HP HP'. constructor.
  - apply zapp_laws.
  - apply valid_hierarchyb_ok. reflexivity.
  - apply no_adjacentb_ok. reflexivity.
  - simpl. lia.
  - exact HP.
  - unfold check. simpl. replace (9 <? P) with false by (symmetry; apply Nat.ltb_ge; lia). reflexivity.
  - left; reflexivity.
  - apply ascending_order_ok.
  - discriminate.
  - discriminate.
Qed.
Example C16_hypotheses_hold : forall P, 0 < P -> P <= 9 ->
  good_setup (fun _ _ => True) zopts2n P /\ length (o_grids zopts2n) = 2 /\ o_dist zopts2n = None /\ o_nested zopts2n = true /\ o_rand zopts2n = None /\
  (forall x, vadd zapp (vzero zapp (vzero zapp (templ zapp 1))) x = x).
Proof. intros P H H'. split; [apply zopts2n_good; auto|]. repeat split. Qed.

(** What the processes hold after a program, in time order. *)
Definition values_after (P l : nat) (p : nat -> prog (Msg zapp) (St zapp)) : list Z :=
  let cfg := run_net P 100 1000 (initial p) in
  gathered P (fun r => match procs cfg r with Ret s => s_u s l | _ => [] end).
Definition with_infos (P : nat) (f : nat -> list LvlInfo -> prog (Msg zapp) (St zapp)) (r : nat) : prog (Msg zapp) (St zapp) :=
  match setup_infos zopts2n P r with Some i => f r i | None => Raise IndexError end.

(** Construction on 4 processes: coarse stepping 1, 2*1+4+1 = 7, 2*7+4+1 = 19 at the C-points 0, 4, 8. *)
Example C16_values : values_after 4 0 (with_infos 4 (fun r i => construct zopts2n 4 r i (coarse_solve zopts2n 4 r i))) =
  [1; 0; 0; 0; 7; 0; 0; 0; 19]%Z.
Proof. vm_compute. reflexivity. Qed.
(** F-relaxation after it, on 4 processes: the F-interval 1-3 crosses process boundaries. *)
Example C07_values : values_after 4 0 (with_infos 4 (fun r i =>
    s <- construct zopts2n 4 r i (coarse_solve zopts2n 4 r i) ;; f_relax zopts2n 4 i 0 s)) =
  [1; 3; 7; 15; 7; 15; 31; 63; 19]%Z.
Proof. vm_compute. reflexivity. Qed.
(** C-relaxation after that; FAS restriction, coarse solve and correction. *)
Example C41_values : values_after 4 0 (with_infos 4 (fun r i =>
    s <- construct zopts2n 4 r i (coarse_solve zopts2n 4 r i) ;; s <- f_relax zopts2n 4 i 0 s ;; c_relax zopts2n 4 r i 0 s)) =
  [1; 3; 7; 15; 31; 15; 31; 63; 127]%Z /\
  values_after 4 0 (with_infos 4 (fun r i =>
    s <- construct zopts2n 4 r i (coarse_solve zopts2n 4 r i) ;; s <- f_relax zopts2n 4 i 0 s ;; s <- fas_residual zopts2n 4 r i 0 s ;;
    s <- forward_solve zopts2n 4 i 1 s ;; error_correction r i 0 s)) =
  [1; 3; 7; 15; 31; 15; 31; 63; 175]%Z.
Proof. split; vm_compute; reflexivity. Qed.

Print Assumptions C07_f_relax.
Print Assumptions C41_c_relax.
Print Assumptions C41_fas_residual.
Print Assumptions C41_error_correction.
Print Assumptions C41_forward_solve.
Print Assumptions C16_nested_iteration.
