(** C73: quantities balanced by the time steps are balanced after every iteration. *)
From Coq Require Import Reals Lra List ZArith Lia Arith Bool Sorted.
From Verif Require Import Net NetProofs NetExec PyList ListFacts Setup Spec SetupProofs Mgrit Reference RefProofs Sim Main ParallelProofs ExampleApp OrderProofs
  Algebra PropAlgebra LinAlg Vectors Apps AppProofs PropVectors PropParareal PropSpatial PropAccuracy PropApps Firedrake PropFiredrake PropAdvectionError.
Import ListNotations.
Local Open Scope nat_scope.

(** [J l]: a number for every vector of level l, additive, conserved by the transfers between levels; a time step from s to t adds [src t - src s]
    (nothing if [src] is constant: a conserved quantity). *)
Record balance {A : App} (wf : nat -> Vec A -> Prop) (o : Opts A) (J : nat -> Vec A -> R) (src : Z -> R) : Prop := {
  cs_add : forall l x y, wf l x -> wf l y -> J l (vadd A x y) = (J l x + J l y)%R;
  cs_sub : forall l x y, wf l x -> wf l y -> J l (vsub A x y) = (J l x - J l y)%R;
  cs_clone : forall l x, wf l x -> J l (vclone A x) = J l x;
  cs_phi : forall l x i, l < length (o_grids o) -> S i < length (nth l (o_grids o) []) -> wf l x ->
    J l (phi A l x (nth i (nth l (o_grids o) []) 0%Z) (nth (S i) (nth l (o_grids o) []) 0%Z)) =
    (J l x + (src (nth (S i) (nth l (o_grids o) []) 0%Z) - src (nth i (nth l (o_grids o) []) 0%Z)))%R;
  cs_restr : forall l x, wf l x -> J (S l) (restr A l x) = J l x;
  cs_interp : forall l x, wf (S l) x -> J l (interp A l x) = J (S l) x
}.

Section Balance.
  Context {A : App}.
  Variable wf : nat -> Vec A -> Prop.
  Variable o : Opts A.
  Variable J : nat -> Vec A -> R.
  Variable src : Z -> R.
  Hypothesis HL : app_laws A wf.
  Hypothesis HV : valid_hierarchy (o_grids o).
  Hypothesis HC : balance wf o J src.
  Hypothesis HD : o_dist o = None.
  Notation GS := (GS A).
  Notation L := (length (o_grids o)).
  Notation N := (npts (o_grids o)).
  Notation isC := (cpoint (o_grids o)).
  Notation fi := (fine_index (o_grids o)).
  Notation ci := (coarse_index (o_grids o)).
  Notation tm := (time (o_grids o)).
  Notation GWF := (GWF o wf).

  (** what the right-hand sides and sources of a level add up to *)
  Definition gsum (l : nat) (G : GS) (i : nat) : R := (rsum i (fun k => if l =? 0 then 0%R else J l (gg G l (S k))) + (src (tm l i) - src (tm l 0)))%R.
  Definition balanced (l : nat) (G : GS) : Prop := forall i, i < N l -> J l (gu G l i) = (J l (gu G l 0) + gsum l G i)%R.
  Definition f_solved (l : nat) (G : GS) : Prop := forall i, 0 < i -> i < N l -> isC l i = false -> gu G l i = gstep o l G (gu G l (i - 1)) i.

  Lemma gw G l i : GWF G -> l < L -> i < N l -> wf l (gu G l i) /\ wf l (gv G l i) /\ wf l (gg G l i).
  Proof. clear. intros W. exact (W l i). Qed.
  Lemma J_phi l x i : l < L -> 0 < i -> i < N l -> wf l x -> J l (phi A l x (tm l (i - 1)) (tm l i)) = (J l x + (src (tm l i) - src (tm l (i - 1))))%R.
  Proof. intros Hl Hi HN W. destruct i as [|i]; [lia|]. replace (S i - 1) with i by lia. apply (cs_phi _ _ _ _ HC); assumption. Qed.
  Lemma J_step l G x i : l < L -> GWF G -> 0 < i -> i < N l -> wf l x -> J l (gstep o l G x i) = (J l x + (gsum l G i - gsum l G (i - 1)))%R.
  Proof.
    intros Hl WG Hi HN W. pose proof (J_phi l x i Hl Hi HN W) as P. destruct (gw _ l i WG Hl HN) as (_ & _ & Wg).
    destruct i as [|i]; [lia|]. replace (S i - 1) with i in * by lia. unfold gsum. cbn [rsum]. unfold gstep. replace (S i - 1) with i by lia. destruct (l =? 0).
    - rewrite P. lra.
    - rewrite (cs_add _ _ _ _ HC) by (auto; apply (wf_phi _ _ HL); exact W). rewrite P. lra.
  Qed.
  Lemma gsum_ext l G G' i : (forall k, gg G' l k = gg G l k) -> gsum l G' i = gsum l G i.
  Proof. intros E. unfold gsum. f_equal. apply rsum_ext. intros k _. rewrite E. reflexivity. Qed.
  Lemma segment_sum l G a b : l < L -> GWF G -> f_solved l G -> a <= b -> b < N l -> (forall k, a < k <= b -> isC l k = false) ->
    J l (gu G l b) = (J l (gu G l a) + (gsum l G b - gsum l G a))%R.
  Proof.
    intros Hl WG HF Hab. induction Hab as [|b Hab IH]; intros Hb Hk; [lra|].
    destruct (gw _ l b WG Hl ltac:(lia)) as (Wb & _ & _). rewrite (HF (S b)) by (try apply Hk; lia). replace (S b - 1) with b by lia. rewrite J_step by (assumption || lia). replace (S b - 1) with b by lia.
    rewrite IH; [lra|lia|]. intros k Hk'. apply Hk. lia.
  Qed.
  Lemma between l j k : S l < L -> S j < N (S l) -> fi l j < k -> k < fi l (S j) -> isC l k = false.
  Proof.
    intros Hl Hj H1 H2. destruct (isC l k) eqn:E; [|reflexivity]. exfalso.
    destruct (fi_in o HV l (S j) Hl Hj) as [H3 _]. destruct (fi_ci o HV l k Hl ltac:(lia) E) as [H4 H5]. rewrite <- H5 in H1, H2.
    apply (proj1 (fi_lt o HV l j (ci l k) Hl ltac:(lia) H4)) in H1. apply (proj1 (fi_lt o HV l (ci l k) (S j) Hl H4 Hj)) in H2. lia.
  Qed.
  Lemma gres_J l G i : l < L -> GWF G -> 0 < i -> i < N l ->
    wf l (gres o l G i) /\ J l (gres o l G i) = (J l (gu G l (i - 1)) - J l (gu G l i) + (gsum l G i - gsum l G (i - 1)))%R.
  Proof.
    intros Hl WG Hi HN. destruct (gw _ l i WG Hl HN) as (Wu & _ & Wg). destruct (gw _ l (i - 1) WG Hl ltac:(lia)) as (Wp & _ & _).
    pose proof (J_phi l _ i Hl Hi HN Wp) as P. pose proof (wf_phi _ _ HL l _ (tm l (i - 1)) (tm l i) Wp) as WP.
    unfold gres. destruct i as [|i]; [lia|]. replace (S i - 1) with i in * by lia. unfold gsum. cbn [rsum]. destruct (l =? 0).
    - split; [apply (wf_sub _ _ HL); assumption|]. rewrite (cs_sub _ _ _ _ HC), P by assumption. lra.
    - split; [apply (wf_add _ _ HL); auto; apply (wf_sub _ _ HL); assumption|].
      rewrite (cs_add _ _ _ _ HC), (cs_sub _ _ _ _ HC), P by (try apply (wf_sub _ _ HL); assumption). lra.
  Qed.
  Lemma fas_u_J l G j : S l < L -> GWF G -> j < N (S l) -> wf (S l) (fas_u o l G j) /\ J (S l) (fas_u o l G j) = J l (gu G l (fi l j)).
  Proof.
    intros Hl WG Hj. destruct (fi_in o HV l j Hl Hj) as [H1 _]. destruct (gw _ l (fi l j) WG ltac:(lia) H1) as (Wu & _ & _).
    unfold fas_u. split; [apply (wf_restr _ _ HL); exact Wu|]. apply (cs_restr _ _ _ _ HC). exact Wu.
  Qed.
  (** the right-hand sides of the coarse level add up to those of the fine level *)
  Lemma fas_sum l G j : S l < L -> GWF G -> f_solved l G -> j < N (S l) -> gsum (S l) (g_fas o l G) j = gsum l G (fi l j).
  Proof.
    intros Hl WG HF. induction j as [|j IH]; intros Hj; [rewrite (fi_0 o HV l Hl); unfold gsum; cbn [rsum]; lra|].
    specialize (IH ltac:(lia)). unfold gsum in IH at 1. unfold gsum at 1. cbn [rsum]. match goal with |- (?x + _ + _)%R = _ => set (r := x) in * end. clearbody r.
    change (S l =? 0) with false. cbv iota. cbn [g_fas gg]. rewrite at1_same. unfold fas_g. replace (0 <? S j) with true by reflexivity.
    replace (S j - 1) with j by lia.
    destruct (fi_in o HV l (S j) Hl Hj) as [H1 _]. pose proof (fi_pos o HV l (S j) Hl Hj ltac:(lia)) as H0.
    assert (H2 : fi l j < fi l (S j)) by (apply (proj2 (fi_lt o HV l j (S j) Hl ltac:(lia) Hj)); lia).
    destruct (gres_J l G (fi l (S j)) ltac:(lia) WG H0 H1) as [W1 J1].
    destruct (fas_u_J l G (S j) Hl WG Hj) as [W2 J2]. destruct (fas_u_J l G j Hl WG ltac:(lia)) as [W3 J3].
    pose proof (wf_clone _ _ HL _ _ W2) as W2'. pose proof (wf_clone _ _ HL _ _ W3) as W3'. pose proof (wf_restr _ _ HL _ _ W1) as W1'.
    rewrite (cs_sub _ _ _ _ HC) by (try apply (wf_add _ _ HL); try apply (wf_phi _ _ HL); assumption).
    rewrite (cs_add _ _ _ _ HC), (cs_restr _ _ _ _ HC), !(cs_clone _ _ _ _ HC) by assumption.
    pose proof (J_phi (S l) (vclone A (fas_u o l G j)) (S j) Hl ltac:(lia) Hj W3') as P. replace (S j - 1) with j in P by lia. rewrite P.
    rewrite (cs_clone _ _ _ _ HC), J1, J2, J3 by assumption.
    rewrite (segment_sum l G (fi l j) (fi l (S j) - 1)) by (auto; try lia; intros k Hk; apply (between l j); auto; lia). lra.
  Qed.

  Lemma frelax_f_solved l G : f_solved l (g_frelax o l G).
  Proof. intros i Hi _ E. apply f_step; assumption. Qed.
  Lemma frelax_0 l G : gu (g_frelax o l G) l 0 = gu G l 0.
  Proof. cbn [g_frelax with_u gu]. rewrite at1_same. reflexivity. Qed.
  Lemma crelax_0 l G : gu (g_crelax o l G) l 0 = gu G l 0.
  Proof. cbn [g_crelax with_u gu]. rewrite at1_same. unfold crelax. rewrite andb_comm. reflexivity. Qed.
  Lemma relaxed_f_solved l it ff G : ((0 <? l) || (it =? 0)) && ff = true \/ f_solved l G -> f_solved l (relaxed o l it ff G).
  Proof.
    intros H. unfold relaxed. set (G0 := if _ && ff then _ else G).
    assert (F0 : f_solved l G0). { unfold G0. destruct (_ && ff); [apply frelax_f_solved|]. destruct H as [H|H]; [discriminate|exact H]. }
    clearbody G0. revert G0 F0. induction (cf_count o l) as [|n IH]; intros G0 F0; [exact F0|]. cbn [iter]. apply IH, frelax_f_solved.
  Qed.
  Lemma relaxed_0 l it ff G : gu (relaxed o l it ff G) l 0 = gu G l 0.
  Proof.
    unfold relaxed. transitivity (gu (if ((0 <? l) || (it =? 0)) && ff then g_frelax o l G else G) l 0); [|destruct (_ && ff); [apply frelax_0|reflexivity]].
    generalize (if ((0 <? l) || (it =? 0)) && ff then g_frelax o l G else G). induction (cf_count o l) as [|n IH]; intros G0; [reflexivity|].
    cbn [iter]. rewrite IH, frelax_0, crelax_0. reflexivity.
  Qed.

  Lemma iteration_balanced : forall n l cyc it ff G, n + l = L - 1 -> l < L -> GWF G -> ((0 <? l) || (it =? 0)) && ff = true \/ f_solved l G ->
    let G' := g_iteration o n l cyc it ff G in balanced l G' /\ gu G' l 0 = gu G l 0 /\ f_solved l G'.
  Proof.
    induction n as [|n IH]; intros l cyc it ff G Hn Hl WG Hf.
    - cbv zeta. cbn [g_iteration]. unfold g_csolve. rewrite HD. pose proof (gwf_fsolve wf o HL HV l G Hl WG) as W'.
      assert (E0 : gu (g_fsolve o l G) l 0 = gu G l 0) by (cbn [g_fsolve with_u gu]; rewrite at1_same; reflexivity).
      split; [|split; [exact E0|]].
      + intros i. induction i as [|i IHi]; intros Hi; [unfold gsum; cbn [rsum]; lra|].
        assert (E : gu (g_fsolve o l G) l (S i) = gstep o l (g_fsolve o l G) (gu (g_fsolve o l G) l i) (S i)).
        { cbn [g_fsolve with_u gu]. rewrite at1_same. cbn [fsolve]. symmetry. apply gstep_ext. reflexivity. }
        destruct (gw _ l i W' Hl ltac:(lia)) as (Wi & _ & _). rewrite E, J_step by (assumption || lia). replace (S i - 1) with i by lia. rewrite IHi by lia. lra.
      + intros i _ _ E. unfold cpoint in E. replace (l =? L - 1) with true in E by (symmetry; apply Nat.eqb_eq; lia). discriminate.
    - assert (Hh : forall c f G, GWF G -> ((0 <? l) || (it =? 0)) && f = true \/ f_solved l G ->
        balanced l (half o n l it c f G) /\ gu (half o n l it c f G) l 0 = gu G l 0 /\ f_solved l (half o n l it c f G)).
      { clear G WG Hf. intros c f G WG Hf. unfold half.
        pose proof (relaxed_f_solved l it f G Hf) as F1. pose proof (relaxed_0 l it f G) as E1. pose proof (gwf_relaxed wf o HL HV l it f G Hl WG) as W1.
        set (G1 := relaxed o l it f G) in *. clearbody G1.
        pose proof (gwf_fas wf o HL HV l G1 ltac:(lia) W1) as W2.
        destruct (IH (S l) c it true (g_fas o l G1) ltac:(lia) ltac:(lia) W2 (or_introl eq_refl)) as (B3 & Z3 & _).
        pose proof (gwf_iteration wf o HL HV n (S l) c it true (g_fas o l G1) ltac:(lia) ltac:(lia) W2) as W3.
        pose proof (frame_iteration o n (S l) c it true (g_fas o l G1)) as F3.
        set (G3 := g_iteration o n (S l) c it true (g_fas o l G1)) in *. clearbody G3. destruct F3 as [Fu Fg].
        assert (Gs : forall k, gg G3 l k = gg G1 l k).
        { intros k. rewrite (proj2 (Fg l k ltac:(lia))). cbn [g_fas gg]. rewrite at1_other by lia. reflexivity. }
        assert (Us : forall k, gu G3 l k = gu G1 l k).
        { intros k. rewrite Fu by lia. cbn [g_fas gu]. rewrite at1_other by lia. reflexivity. }
        assert (Z0 : J (S l) (gu G3 (S l) 0) = J l (gu G1 l 0)).
        { rewrite Z3. cbn [g_fas gu]. rewrite at1_same. destruct (fas_u_J l G1 0 ltac:(lia) W1 (npos o HV (S l) ltac:(lia))) as [_ ->].
          rewrite (fi_0 o HV l) by lia. reflexivity. }
        assert (C3 : forall j, j < N (S l) -> J (S l) (gu G3 (S l) j) = (J l (gu G1 l 0) + gsum l G1 (fi l j))%R).
        { intros j Hj. rewrite (B3 j Hj), Z0. f_equal. rewrite <- (fas_sum l G1 j ltac:(lia) W1 F1 Hj). apply gsum_ext. intros k. apply Fg. lia. }
        pose proof (gwf_corr wf o HL HV l G3 ltac:(lia) W3) as W4.
        assert (C4 : forall i, i < N l -> isC l i = true -> J l (gu (g_corr o l G3) l i) = (J l (gu G1 l 0) + gsum l G1 i)%R).
        { intros i Hi Hc. cbn [g_corr with_u gu]. rewrite at1_same. unfold corr. rewrite Hc. destruct i as [|i].
          - cbn [Nat.ltb Nat.leb andb]. rewrite Us. unfold gsum. cbn [rsum]. lra.
          - replace (0 <? S i) with true by reflexivity. cbn [andb]. destruct (fi_ci o HV l (S i) ltac:(lia) Hi Hc) as [H1 H2].
            destruct (gw _ (S l) (ci l (S i)) W3 ltac:(lia) H1) as (Wc & _ & _).
            destruct (fas_u_J l G1 (ci l (S i)) ltac:(lia) W1 H1) as [Wf Jf]. rewrite H2 in Jf.
            assert (Ev : gv G3 (S l) (ci l (S i)) = vclone A (fas_u o l G1 (ci l (S i)))).
            { rewrite (proj1 (Fg (S l) _ ltac:(lia))). cbn [g_fas gv]. rewrite at1_same. reflexivity. }
            rewrite Ev, Us. pose proof (wf_clone _ _ HL _ _ Wf) as Wf'. pose proof (wf_sub _ _ HL _ _ _ Wc Wf') as Ws.
            destruct (gw _ l (S i) W1 Hl Hi) as (Wu & _ & _).
            rewrite (cs_add _ _ _ _ HC) by (auto; apply (wf_interp _ _ HL); exact Ws).
            rewrite (cs_interp _ _ _ _ HC), (cs_sub _ _ _ _ HC), (cs_clone _ _ _ _ HC), Jf, (C3 _ H1), H2 by assumption. lra. }
        assert (G4 : forall k, gg (g_frelax o l (g_corr o l G3)) l k = gg G1 l k) by (intros k; exact (Gs k)).
        assert (Z4 : gu (g_frelax o l (g_corr o l G3)) l 0 = gu G l 0).
        { rewrite frelax_0. cbn [g_corr with_u gu]. rewrite at1_same. unfold corr. rewrite andb_comm. cbn [Nat.ltb Nat.leb andb]. rewrite Us. exact E1. }
        pose proof (gwf_frelax wf o HL HV l _ Hl W4) as W5.
        split; [|split; [exact Z4|apply frelax_f_solved]].
        intros i. rewrite Z4, <- E1. rewrite (gsum_ext l G1 _ i G4). induction i as [|i IHi]; intros Hi.
        - rewrite Z4, <- E1. unfold gsum. cbn [rsum]. lra.
        - destruct (isC l (S i)) eqn:E.
          + rewrite f_keep by exact E. apply C4; assumption.
          + destruct (gw _ l i W5 Hl ltac:(lia)) as (Wi & _ & _). rewrite f_step by (assumption || lia). replace (S i - 1) with i by lia. rewrite J_step by (assumption || lia). replace (S i - 1) with i by lia.
            rewrite IHi by lia. rewrite !(gsum_ext l G1 _ _ G4). lra. }
      cbv zeta. rewrite iteration_S. cbv zeta. pose proof (Hh cyc ff G WG Hf) as H1. destruct (negb (l =? 0) && cyc); [|exact H1].
      destruct H1 as (_ & Z1 & F1).
      assert (W1 : GWF (half o n l it cyc ff G)).
      { unfold half. apply (gwf_frelax wf o HL HV); auto. apply (gwf_corr wf o HL HV); [lia|]. apply (gwf_iteration wf o HL HV); try lia.
        apply (gwf_fas wf o HL HV); [lia|]. apply (gwf_relaxed wf o HL HV); auto. }
      destruct (Hh false false _ W1 (or_intror F1)) as (B2 & Z2 & F2). rewrite Z1 in Z2. auto.
  Qed.

  (** after every iteration *)
  Lemma iterate_balanced guess k : (forall i, i < N 0 -> wf 0 (guess i)) -> 0 < k ->
    (forall i, i < N 0 -> J 0 (gu (iterate o guess k) 0 i) = (J 0 (tstart A 0) + (src (tm 0 i) - src (tm 0 0)))%R) /\ f_solved 0 (iterate o guess k).
  Proof.
    intros Hg. induction k as [|k IH]; [lia|]. intros _. pose proof (L_ge1 o HV) as L1.
    assert (Wk : GWF (set_giter (iterate o guess k) (k + 1))) by (eapply gwf_same; [| | |apply (gwf_iterate wf o HL HV guess k Hg)]; reflexivity).
    destruct (iteration_balanced (L - 1) 0 (cycF o) k true (set_giter (iterate o guess k) (k + 1)) ltac:(lia) L1 Wk) as (B & Z & F).
    { destruct k as [|k]; [left; reflexivity|right]. exact (proj2 (IH ltac:(lia))). }
    assert (E : gu (iterate o guess (S k)) = gu (g_iteration o (L - 1) 0 (cycF o) k true (set_giter (iterate o guess k) (k + 1)))) by apply pass_gu.
    split.
    - intros i Hi. rewrite E, (B i Hi), Z. unfold gsum. cbn [Nat.eqb]. rewrite rsum_zero by reflexivity.
      change (gu (set_giter (iterate o guess k) (k + 1)) 0 0) with (gu (iterate o guess k) 0 0). rewrite iterate_first, (cs_clone _ _ _ _ HC) by apply (wf_tstart _ _ HL). lra.
    - intros i Hi HN Hc. rewrite E. rewrite (F i Hi HN Hc) at 1. apply gstep_ext. congruence.
  Qed.
End Balance.

(** Any run of the class Mgrit with at least one iteration, on any number of processes, whether it has converged or not: every returned value, and every
    value handed to the output function after an iteration, has the quantity of the initial value plus what the source has added up to its time. *)
Theorem C73_conserved_quantities : forall (A : App) wf (o : Opts A) J src P n c,
  good_setup wf o P -> balance wf o J src -> o_dist o = None -> 0 < o_max_iter o ->
  steps P n (initial (mgrit_main o P)) c -> stuck P c ->
  let t := fun i => nth i (nth 0 (o_grids o) []) 0%Z in
  let balanced_values := fun vals : list (Vec A) => length vals = length (nth 0 (o_grids o) []) /\
    forall i v, nth_error vals i = Some v -> J 0 v = (J 0%nat (tstart A 0) + (src (t i) - src (t 0%nat)))%R in
  exists res, finished P res c /\ balanced_values (gathered P (fun r => s_u (res r) 0)) /\
    (forall r m it vals, r < P -> nth_error (s_out (res r)) m = Some (it, vals) -> 0 < it ->
       balanced_values (gathered P (fun q => snd (nth m (s_out (res q)) (0, []))))).
Proof.
  intros A wf o J src P n c G HC HD Hmax H St t bal. pose proof (gs_laws _ _ _ G) as HL. pose proof (gs_grids _ _ _ G) as HV.
  destruct (run_facts wf o P n c G H St) as (res & k & F & _ & K0 & Hu & Hit & _ & _ & _ & _ & Ag & Ho). exists res. split; [exact F|].
  assert (HG : forall i, i < npts (o_grids o) 0 -> wf 0 (init_guess o P i)) by (intros i _; apply (guess_wf wf o P G)).
  assert (B : forall j, 0 < j -> bal (map (gu (iterate o (init_guess o P) j) 0) (seq 0 (length (nth 0 (o_grids o) []))))).
  { intros j Hj. split; [rewrite map_length, seq_length; reflexivity|]. intros i v Hv.
    assert (Hi : i < length (nth 0 (o_grids o) [])).
    { assert (Hn : nth_error (map (gu (iterate o (init_guess o P) j) 0) (seq 0 (length (nth 0 (o_grids o) [])))) i <> None) by congruence.
      apply nth_error_Some in Hn. rewrite map_length, seq_length in Hn. exact Hn. }
    rewrite nth_error_map, (nth_error_nth' _ 0), seq_nth in Hv by (try rewrite seq_length; exact Hi). injection Hv as <-.
    apply (proj1 (iterate_balanced wf o J src HL HV HC HD (init_guess o P) j HG Hj)). exact Hi. }
  rewrite Hu. split; [apply B; auto|].
  intros r m it vals Hr Hm Hpos.
  assert (E : nth_error (map fst (gout (g_main o (init_guess o P)))) m = Some it).
  { rewrite <- (ag_outs _ _ _ _ Ag r Hr). rewrite nth_error_map, Hm. reflexivity. }
  rewrite nth_error_map in E. destruct (nth_error (gout _) m) as [[it' f]|] eqn:En; [|discriminate]. injection E as ->.
  rewrite (ag_outv _ _ _ _ Ag m it f En).
  assert (Ef : f = gu (iterate o (init_guess o P) it) 0).
  { apply nth_error_In in En. rewrite Ho in En. destruct (o_has_output o); [|destruct En]. destruct (o_output_lvl o =? 2)%Z.
    - apply in_map_iff in En. destruct En as (j & Ej & _). congruence.
    - destruct (o_output_lvl o =? 1)%Z; [|destruct En]. destruct En as [En|[]]. congruence. }
  rewrite Ef. apply B. exact Hpos.
Qed.

(** Advection (C34, C70): every iteration conserves the sum of the values. *)
Local Open Scope R_scope.
Lemma advection_conserved c x_start x_end nx L tm (o : Opts (advection_app x_start x_end nx L tm)) :
  (3 <= nx)%nat -> 0 <= c -> x_start < x_end -> advection_matrix c (heat_dx (advection_x x_start x_end nx)) (nx - 1) = Some L ->
  (forall s t, (s <= t)%Z -> tm s <= tm t) -> valid_hierarchy (o_grids o) ->
  @balance (advection_app x_start x_end nx L tm) (fun _ => arr_wf (nx - 1)) o (fun _ u => rsum (nx - 1) (at_ (a_vals u))) (fun _ => 0).
Proof.
  intros Hnx Hc Hx EL Hm HV. set (n := (nx - 1)%nat).
  assert (Cl : forall x, arr_wf n x -> rsum n (at_ (a_vals (c_clone VectorArr x))) = rsum n (at_ (a_vals x))) by (intros; reflexivity).
  constructor; cbn [advection_app app_of Vec vadd vsub vclone phi restr interp].
  - intros _ x y [_ Lx] [_ Ly]. cbn [VectorArr c_add arr_set a_vals]. rewrite <- rsum_plus. apply rsum_ext. intros i Hi. unfold vplus. rewrite at_zipw by lia. reflexivity.
  - intros _ x y [_ Lx] [_ Ly]. cbn [VectorArr c_sub arr_set a_vals]. rewrite <- rsum_minus. apply rsum_ext. intros i Hi. unfold vminus. rewrite at_zipw by lia. reflexivity.
  - intros _. exact Cl.
  - intros l x i Hl Hi [_ Lx]. rewrite Rminus_0_r, Rplus_0_r. apply (C34_mass c x_start x_end nx Hnx Hc Hx L EL); [|exact Lx]. apply Hm.
    destruct HV as (_ & HV1 & _). destruct (HV1 l Hl) as [HS _]. apply Z.lt_le_incl. apply (ssorted_incr _ HS); lia.
  - intros _. exact Cl.
  - intros _. exact Cl.
Qed.
Theorem C73_advection_mass : forall c x_start x_end nx L tm,
  (3 <= nx)%nat -> 0 <= c -> x_start < x_end -> advection_matrix c (heat_dx (advection_x x_start x_end nx)) (nx - 1) = Some L ->
  (forall s t, (s <= t)%Z -> tm s <= tm t) ->
  let A := advection_app x_start x_end nx L tm in
  forall (o : Opts A) (P n : nat) cfg,
  @good_setup A (fun _ => arr_wf (nx - 1)) o P -> o_dist o = None -> (0 < o_max_iter o)%nat ->
  steps P n (initial (mgrit_main o P)) cfg -> stuck P cfg ->
  exists res, finished P res cfg /\
    let u : list Arr := gathered P (fun r => s_u (res r) 0) in
    length u = length (nth 0 (o_grids o) []) /\
    forall v, In v u -> rsum (nx - 1) (at_ (a_vals v)) = rsum (nx - 1) (fun i => exp (- ((x_start + INR i * spacing x_start x_end nx) ^ 2))).
Proof.
  intros c x_start x_end nx L tm Hnx Hc Hx EL Hm A o P n cfg G HD Hk H St.
  destruct (C73_conserved_quantities A (fun _ => arr_wf (nx - 1)) o (fun _ u => rsum (nx - 1) (at_ (a_vals u))) (fun _ => 0) P n cfg G
    (advection_conserved c x_start x_end nx L tm o Hnx Hc Hx EL Hm (gs_grids _ _ _ G)) HD Hk H St) as (res & F & [Lu B] & _).
  exists res. split; [exact F|]. split; [exact Lu|]. intros v Hv. apply In_nth_error in Hv. destruct Hv as [j Hv]. rewrite (B j v Hv), Rminus_0_r, Rplus_0_r. apply rsum_ext. intros i Hi.
  change (a_vals (tstart A 0)) with (map (fun x => exp (- (x ^ 2))) (advection_x x_start x_end nx)).
  rewrite at_map by (rewrite adv_x_length by exact Hnx; exact Hi). unfold advection_x. rewrite at_firstn, at_linspace by lia. reflexivity.
Qed.

Lemma diffusion_conserved n vol fac kappa mu start tm (o : Opts (diffusion_app n vol fac kappa mu start tm)) :
  dg_mesh n vol fac mu -> 0 <= kappa -> (forall s t, (s <= t)%Z -> tm s <= tm t) -> valid_hierarchy (o_grids o) ->
  @balance (diffusion_app n vol fac kappa mu start tm) (fun _ u => length u = n) o (fun _ u => integral n vol (at_ u)) (fun _ => 0).
Proof.
  intros Hm Hk Ht HV. constructor; cbn [diffusion_app app_of Vec vadd vsub vclone restr interp]; try reflexivity.
  - intros _ x y Lx Ly. cbn [VectorFiredrake c_add]. unfold integral. rewrite <- total_plus. apply total_ext. intros q _. 
    rewrite <- Rmult_plus_distr_l. f_equal. unfold ev. rewrite <- rsum_plus. apply rsum_ext. intros i Hi. unfold vplus. rewrite at_zipw by lia. ring.
  - intros _ x y Lx Ly. cbn [VectorFiredrake c_sub]. unfold integral. apply Rplus_eq_reg_r with (total (fun q => vw q * ev n (vb q) (at_ y)) vol). rewrite <- total_plus.
    transitivity (total (fun q => vw q * ev n (vb q) (at_ x)) vol); [|ring]. apply total_ext. intros q _.
    rewrite <- Rmult_plus_distr_l. f_equal. unfold ev. rewrite <- rsum_plus. apply rsum_ext. intros i Hi. unfold vminus. rewrite at_zipw by lia. ring.
  - intros l x i Hl Hi Lx. rewrite Rminus_0_r, Rplus_0_r. pose proof (fd_step n vol fac kappa mu start tm Hm Hk x (nth i (nth l (o_grids o) []) 0%Z) (nth (S i) (nth l (o_grids o) []) 0%Z) Lx) as W.
    apply (weak_integral n vol fac kappa mu Hm (tm (nth (S i) (nth l (o_grids o) []) 0%Z) - tm (nth i (nth l (o_grids o) []) 0%Z))). apply W. apply Ht.
    destruct HV as (_ & HV1 & _). destruct (HV1 l Hl) as [HS _]. apply Z.lt_le_incl. apply (ssorted_incr _ HS); lia.
Qed.
(** Firedrake diffusion (C72): every iteration conserves the integral. *)
Theorem C73_diffusion_integral : forall n vol fac kappa mu start tm,
  dg_mesh n vol fac mu -> 0 <= kappa -> length start = n -> (forall s t, (s <= t)%Z -> tm s <= tm t) ->
  let A := diffusion_app n vol fac kappa mu start tm in
  forall (o : Opts A) (P N : nat) cfg,
  @good_setup A (fun _ u => length u = n) o P -> o_dist o = None -> (0 < o_max_iter o)%nat ->
  steps P N (initial (mgrit_main o P)) cfg -> stuck P cfg ->
  exists res, finished P res cfg /\
    let u : list (list R) := gathered P (fun r => s_u (res r) 0) in
    length u = length (nth 0 (o_grids o) []) /\ forall v, In v u -> integral n vol (at_ v) = integral n vol (at_ start).
Proof.
  intros n vol fac kappa mu start tm Hm Hk Ls Ht A o P N cfg G HD Hmax H St.
  destruct (C73_conserved_quantities A (fun _ u => length u = n) o (fun _ u => integral n vol (at_ u)) (fun _ => 0) P N cfg G
    (diffusion_conserved n vol fac kappa mu start tm o Hm Hk Ht (gs_grids _ _ _ G)) HD Hmax H St) as (res & F & [Lu B] & _).
  exists res. split; [exact F|]. split; [exact Lu|]. intros v Hv. apply In_nth_error in Hv. destruct Hv as [j Hv]. rewrite (B j v Hv). rewrite Rminus_0_r, Rplus_0_r. reflexivity.
Qed.

(** Pairs of integers: a step moves part of the second number (step size and level decide how much) to the first one and adds its step size; the sum grows
    like the time.  One iteration
    with weight 3, F-cycle and three levels; the second options are those of AtMgrit with distance 1. *)
Local Open Scope nat_scope.
Definition pair_app : App := mkApp (Z * Z) (Z * Z) Z (fun x y => (fst x + fst y, snd x + snd y)%Z) (fun x y => (fst x - fst y, snd x - snd y)%Z)
  (fun x c => (fst x * c, snd x * c)%Z) (fun x => (Z.abs (fst x) + Z.abs (snd x))%Z) (fun x => x) (fun _ => (0, 0)%Z) (fun x => x) (fun _ d => d)
  (fun l x a b => (fst x + (b - a + Z.of_nat l) * snd x + (b - a), snd x - (b - a + Z.of_nat l) * snd x)%Z) (fun _ x => x) (fun _ x => x) (fun _ => (0, 0)%Z) (fun _ => (5, 2)%Z)
  (fun l => Some (fold_left Z.max l 0%Z)) Z.ltb 0%Z (Z.eqb 0) (fun x => (1 - x)%Z).
Definition pair_opts (d : option Z) : Opts pair_app :=
  mkOptsAt pair_app [grid_of 17 2; grid_of 9 4; grid_of 5 8] 2 (1%Z : Sc pair_app) 1 (3%Z : Sc pair_app) false (CfInt 1) (Some true) 2 true 2 None 0 ascending_order d.
Definition pair_sum (l : nat) (x : Vec pair_app) : R := IZR (fst x + snd x)%Z.
Lemma pair_good d P : (d = None \/ P = 1 /\ d = Some 1%Z) -> 0 < P -> P <= 17 -> good_setup (fun _ _ => True) (pair_opts d) P.
Proof.
  intros Hd HP HP'. constructor.
  - constructor; simpl; auto; intros; discriminate.
  - apply valid_hierarchyb_ok. reflexivity.
  - apply no_adjacentb_ok. reflexivity.
  - simpl. lia.
  - exact HP.
  - unfold check. destruct Hd as [-> | [-> ->]]; [|reflexivity]. simpl. replace (17 <? P) with false by (symmetry; apply Nat.ltb_ge; lia). reflexivity.
  - left; reflexivity.
  - apply ascending_order_ok.
  - discriminate.
  - destruct Hd as [-> | [-> ->]]; [discriminate|]. intros k E. injection E as <-. split; [reflexivity|lia].
Qed.
Lemma pair_conserved d : balance (fun _ _ => True) (pair_opts d) pair_sum IZR.
Proof.
  constructor; unfold pair_sum; cbn [pair_app vadd vsub vclone phi restr interp fst snd]; intros; try reflexivity; rewrite <- ?minus_IZR, <- ?plus_IZR, <- ?minus_IZR; f_equal; lia.
Qed.
Definition pair_values (d : option Z) (P : nat) : list (Z * Z) :=
  gathered P (fun r => match procs (run_net P 60 4000 (initial (mgrit_main (pair_opts d) P))) r with Ret s => s_u s 0 | _ => [] end).

Example C73_hypotheses_hold : forall P, 0 < P -> P <= 17 ->
  good_setup (fun _ _ => True) (pair_opts None) P /\ balance (fun _ _ => True) (pair_opts None) pair_sum IZR /\ o_dist (pair_opts None) = None /\
  0 < o_max_iter (pair_opts None) /\ pair_sum 0 (tstart pair_app 0) = 7%R.
Proof. intros P HP HP'. split; [apply pair_good; auto|]. split; [apply pair_conserved|]. repeat split. simpl. lia. Qed.
(** after this iteration the values are still far from those of time stepping *)
Example C73_values :
  firstn 10 (pair_values None 3) = [(5, 2); (11, -2); (9, 2); (15, -2); (13, 2); (19, -2); (27, -8); (13, 8); (-9, 32); (57, -32)]%Z /\
  map (fun x => (fst x + snd x)%Z) (pair_values None 3) = map (fun i => (7 + 2 * Z.of_nat i)%Z) (seq 0 17) /\
  map (time_stepping (pair_opts None)) (seq 0 10) = [(5, 2); (11, -2); (9, 2); (15, -2); (13, 2); (19, -2); (17, 2); (23, -2); (21, 2); (27, -2)]%Z.
Proof. vm_compute. auto. Qed.
Example C73_applications_hold : forall P, 0 < P -> P <= 129 ->
  (exists L, let A := advection_app (-1) 1 3 L example_time in let o := example_opts A 1%R (1 / 10000000)%R in
    advection_matrix 1 (heat_dx (advection_x (-1) 1 3)) 2 = Some L /\ @good_setup A (fun _ => arr_wf 2) o P /\ o_dist o = None /\ 0 < o_max_iter o) /\
  (let A := diffusion_app 6 two_triangles three_facets (1 / 10) 5 [1; 0; 0; 0; 0; 0]%R example_time in let o := example_opts A 1%R (1 / 10000000)%R in
    dg_mesh 6 two_triangles three_facets 5 /\ @good_setup A (fun _ u => length u = 6) o P /\ o_dist o = None /\ 0 < o_max_iter o).
Proof.
  intros P HP HP'. split.
  - destruct (C70_hypotheses_hold P HP HP') as (L & E & G & D & _). exists L. cbv zeta. split; [exact E|]. split; [exact G|]. split; [exact D|]. simpl. lia.
  - destruct (C72_hypotheses_hold P HP HP') as (E & _ & _ & G & D & _). cbv zeta. split; [exact E|]. split; [exact G|]. split; [exact D|]. simpl. lia.
Qed.

(** The coarse solve of AtMgrit starts its windows from restricted values, which need not have the quantity of the initial value. *)
Theorem C73_at_mgrit_refuted : ~ (forall (A : App) wf (o : Opts A) J src P n c,
  good_setup wf o P -> balance wf o J src -> 0 < o_max_iter o ->
  steps P n (initial (mgrit_main o P)) c -> stuck P c ->
  exists res, finished P res c /\ forall i v, nth_error (gathered P (fun r => s_u (res r) 0)) i = Some v ->
    J 0 v = (J 0%nat (tstart A 0) + (src (nth i (nth 0 (o_grids o) []) 0%Z) - src (nth 0 (nth 0 (o_grids o) []) 0%Z)))%R).
Proof.
  intros H. set (c := run_net 1 60 4000 (initial (mgrit_main (pair_opts (Some 1%Z)) 1))).
  assert (W : exists n, steps 1 n (initial (mgrit_main (pair_opts (Some 1%Z)) 1)) c) by apply run_net_steps.
  assert (St : stuck 1 c) by (apply stuckb_ok; vm_compute; reflexivity).
  assert (V : match procs c 0 with Ret s => match nth_error (s_u s 0) 12 with Some v => (fst v + snd v <> 31)%Z | None => False end | _ => False end) by (vm_compute; discriminate).
  clearbody c. destruct W as (n & Hs).
  destruct (H pair_app (fun _ _ => True) (pair_opts (Some 1%Z)) pair_sum IZR 1 n c (pair_good _ 1 (or_intror (conj eq_refl eq_refl)) ltac:(lia) ltac:(lia))
    (pair_conserved _) ltac:(simpl; lia) Hs St) as (res & F & B).
  destruct F as [F _]. rewrite (F 0 ltac:(lia)) in V. destruct (nth_error (s_u (res 0) 0) 12) as [v|] eqn:E; [|exact V].
  assert (X : pair_sum 0 v = (pair_sum 0 (5, 2)%Z + (24 - 0))%R) by (apply (B 12 v); unfold gathered; cbn [seq map Nat.eqb concat]; rewrite app_nil_r; exact E).
  unfold pair_sum in X. cbn [fst snd] in X. rewrite <- minus_IZR, <- plus_IZR in X. apply eq_IZR in X. apply V. rewrite X. reflexivity.
Qed.

Print Assumptions C73_conserved_quantities.
Print Assumptions C73_advection_mass.
Print Assumptions C73_diffusion_integral.
Print Assumptions C73_hypotheses_hold.
Print Assumptions C73_values.
Print Assumptions C73_applications_hold.
Print Assumptions C73_at_mgrit_refuted.
