(** Two-level MGRIT with transfers that copy is the parareal iteration, and a bound of its error.
    [parareal] is written on the C-points only: F j is the fine propagation over the j-th coarse interval, Psi j the coarse
    step over it, nu the number of FCF sweeps. *)
From Coq Require Import List ZArith Lia Arith Bool Reals Lra.
From Verif Require Import Net PyList ListFacts Setup Spec SetupProofs Mgrit Reference RefProofs Sim Algebra.
Import ListNotations.
Local Open Scope nat_scope.

(** ** The parareal iteration with overlap *)
Section Iteration.
  Context {V : Type}.
  Variables (add sub : V -> V -> V).
  Variables (F Psi : nat -> V -> V).

  (** [n] sweeps: propagate [n] coarse intervals with the fine steps (the first value is never changed). *)
  Fixpoint sweep (n : nat) (u : nat -> V) (j : nat) : V :=
    match n, j with
    | S n', S j' => F j' (sweep n' u j')
    | _, _ => u j
    end.
  (** coarse solve with correction: U_(j+1) = Psi_j(U_j) + (F_j(w_j) - Psi_j(w_j)) *)
  Fixpoint correct (w : nat -> V) (j : nat) : V :=
    match j with
    | 0 => w 0
    | S j' => add (Psi j' (correct w j')) (sub (F j' (w j')) (Psi j' (w j')))
    end.
  (** [k] iterations from the values [u] *)
  Fixpoint parareal (nu : nat) (u : nat -> V) (k : nat) : nat -> V :=
    match k with
    | 0 => u
    | S k' => correct (sweep nu (parareal nu u k'))
    end.

  Lemma sweep_ext n u v : forall j, (forall i, i <= j -> u i = v i) -> sweep n u j = sweep n v j.
  Proof.
    induction n as [|n IH]; intros [|j] H; cbn [sweep]; [apply H; lia|apply H; lia|apply H; lia|].
    f_equal. apply IH. intros i Hi. apply H. lia.
  Qed.
  Lemma correct_ext u v : forall j, (forall i, i <= j -> u i = v i) -> correct u j = correct v j.
  Proof.
    induction j as [|j IH]; intros H; cbn [correct]; [apply H; lia|]. rewrite IH, (H j) by (intros; try apply H; lia). reflexivity.
  Qed.
End Iteration.

(** Transfers that copy (GridTransferCopy). *)
Definition copying {A : App} (wf : nat -> Vec A -> Prop) : Prop :=
  forall x, (wf 0 x -> restr A 0 x = x) /\ (wf 1 x -> interp A 0 x = x).

Section Two.
  Context {A : App}.
  Variable wf : nat -> Vec A -> Prop.
  Variable zero : nat -> Vec A.
  Variable o : Opts A.
  Hypothesis HL : app_laws A wf.
  Hypothesis HE : exact_laws A wf zero.
  Hypothesis HV : valid_hierarchy (o_grids o).
  Hypothesis HW : weight_one wf o.
  Hypothesis H2 : length (o_grids o) = 2.
  Hypothesis HD : o_dist o = None.
  Hypothesis HC : copying wf.
  Notation V := (Vec A).
  Notation GS := (GS A).
  Notation grids := (o_grids o).
  Notation N := (npts (o_grids o)).
  Notation isC := (cpoint (o_grids o) 0).
  Notation c := (fine_index (o_grids o) 0).
  Notation tm := (time (o_grids o)).
  Notation GWF := (GWF o wf).

  (** [n] fine steps starting at point [i] *)
  Fixpoint fine_steps (i n : nat) (x : V) : V :=
    match n with
    | 0 => x
    | S n' => phi A 0 (fine_steps i n' x) (tm 0 (i + n')) (tm 0 (i + n))
    end.
  (** fine propagation from C-point [j] to the next one, and the coarse step *)
  Definition fine_prop (j : nat) (x : V) : V := fine_steps (c j) (c (S j) - c j) x.
  Definition coarse_prop (j : nat) (x : V) : V := phi A 1 x (tm 1 j) (tm 1 (S j)).

  Lemma wf10 x : wf 1 x -> wf 0 x.
  Proof. intros H. rewrite <- (proj2 (HC x) H). apply (wf_interp A wf HL). exact H. Qed.
  Lemma wf01 x : wf 0 x -> wf 1 x.
  Proof. intros H. rewrite <- (proj1 (HC x) H). apply (wf_restr A wf HL). exact H. Qed.

  (** index facts *)
  Lemma c_lt j k : k < N 1 -> j < k -> c j < c k.
  Proof. intros Hk Hj. apply (fi_lt o HV 0); auto; try lia. Qed.
  Lemma c_in j : j < N 1 -> c j < N 0 /\ isC (c j) = true.
  Proof. intros H. apply (fi_in o HV); auto. rewrite H2. lia. Qed.
  Lemma c_0 : c 0 = 0.
  Proof. apply (fi_0 o HV). rewrite H2. lia. Qed.
  Lemma between j i : j < N 1 -> c j < i -> i < N 0 -> (S j < N 1 -> i < c (S j)) -> isC i = false.
  Proof.
    intros Hj Hi Hn Hs. destruct (isC i) eqn:E; [|reflexivity]. exfalso.
    destruct (fi_ci o HV 0 i ltac:(rewrite H2; lia) Hn E) as [Hk Hf]. set (k := coarse_index grids 0 i) in *.
    assert (j < k). { apply (fi_lt o HV 0); auto; [rewrite H2; lia|]. rewrite Hf. exact Hi. }
    destruct (Nat.eq_dec k (S j)) as [X|X].
    - rewrite X in *. specialize (Hs Hk). lia.
    - assert (c (S j) < c k) by (apply c_lt; lia). specialize (Hs ltac:(lia)). lia.
  Qed.

  (** The finest level holds the values [U] at the C-points and fine propagation in between. *)
  Definition holds (U : nat -> V) (G : GS) : Prop :=
    (forall j, j < N 1 -> gu G 0 (c j) = U j) /\
    (forall i, 0 < i -> isC i = false -> gu G 0 i = phi A 0 (gu G 0 (i - 1)) (tm 0 (i - 1)) (tm 0 i)).
  Lemma holds_at U G : holds U G -> forall j n, j < N 1 -> c j + n < N 0 -> (S j < N 1 -> c j + n < c (S j)) ->
    gu G 0 (c j + n) = fine_steps (c j) n (U j).
  Proof.
    intros [Hc Hf] j. induction n as [|n IH]; intros Hj Hn Hs.
    - rewrite Nat.add_0_r. apply Hc; auto.
    - cbn [fine_steps]. rewrite <- IH by (auto; lia). rewrite Hf.
      + replace (c j + S n - 1) with (c j + n) by lia. reflexivity.
      + lia.
      + apply (between j); auto; lia.
  Qed.
  Lemma holds_next U G j : holds U G -> S j < N 1 ->
    phi A 0 (gu G 0 (c (S j) - 1)) (tm 0 (c (S j) - 1)) (tm 0 (c (S j))) = fine_prop j (U j).
  Proof.
    intros H Hj. pose proof (c_lt j (S j) Hj ltac:(lia)) as Hlt. destruct (c_in (S j) Hj) as [Hin _]. unfold fine_prop.
    replace (c (S j) - c j) with (S (c (S j) - c j - 1)) by lia. cbn [fine_steps].
    replace (c (S j) - 1) with (c j + (c (S j) - c j - 1)) by lia. rewrite (holds_at U G H) by lia.
    f_equal. f_equal. lia.
  Qed.

  Lemma frelax_holds U G : (forall j, j < N 1 -> gu G 0 (c j) = U j) -> holds U (g_frelax o 0 G).
  Proof.
    intros H. split.
    - intros j Hj. rewrite (f_keep o 0 G) by (apply c_in; auto). apply H; auto.
    - intros i Hi E. rewrite (f_step o 0 G i Hi E) at 1. reflexivity.
  Qed.
  Lemma crelax_values U G : GWF G -> holds U G -> forall j, j < N 1 ->
    gu (g_crelax o 0 G) 0 (c j) = sweep fine_prop 1 U j.
  Proof.
    intros W H j Hj. cbn [g_crelax with_u gu]. rewrite at1_same. unfold crelax. destruct (c_in j Hj) as [Hin Hcj]. rewrite Hcj.
    destruct j as [|j].
    - pose proof (proj1 H 0 Hj) as X. rewrite c_0 in X |- *. exact X.
    - pose proof (c_lt j (S j) Hj ltac:(lia)). replace (0 <? c (S j)) with true by (symmetry; apply Nat.ltb_lt; lia). cbn [andb].
      rewrite HW with (l := 0).
      + unfold gstep. cbn [Nat.eqb sweep]. apply holds_next; auto.
      + unfold gstep. cbn [Nat.eqb]. apply (wf_phi A wf HL). apply W; [rewrite H2; lia|]. unfold SetupProofs.N, grid. unfold npts in Hin. lia.
      + apply W; [rewrite H2; lia|exact Hin].
  Qed.
  Lemma sweep_S n (U : nat -> V) : forall j, sweep fine_prop n (sweep fine_prop 1 U) j = sweep fine_prop (S n) U j.
  Proof. induction n as [|n IH]; intros [|j]; try reflexivity. cbn [sweep]. f_equal. apply IH. Qed.
  Lemma holds_ext U U' G : (forall j, j < N 1 -> U j = U' j) -> holds U G -> holds U' G.
  Proof. intros E [H H']. split; [|exact H']. intros j Hj. rewrite <- E by auto. apply H; auto. Qed.
  Lemma sweeps_hold n : forall U G, GWF G -> holds U G ->
    GWF (iter n (fun G => g_frelax o 0 (g_crelax o 0 G)) G) /\
    holds (sweep fine_prop n U) (iter n (fun G => g_frelax o 0 (g_crelax o 0 G)) G).
  Proof.
    assert (L0 : 0 < length grids) by (rewrite H2; lia).
    induction n as [|n IH]; intros U G W H; [split; [exact W|]|].
    { eapply holds_ext; [|exact H]. intros [|j] _; reflexivity. }
    cbn [iter]. destruct (IH (sweep fine_prop 1 U) (g_frelax o 0 (g_crelax o 0 G))) as [W' H'].
    - apply (gwf_frelax wf o HL HV); auto. apply (gwf_crelax wf o HL HV); auto.
    - apply frelax_holds. apply crelax_values; auto.
    - split; [exact W'|]. eapply holds_ext; [|exact H']. intros j _. apply sweep_S.
  Qed.

  (** Coarse solve and correction. *)
  Notation pcorrect := (correct (vadd A) (vsub A) fine_prop coarse_prop).
  Lemma wf_fine_steps i n x : wf 0 x -> wf 0 (fine_steps i n x).
  Proof. intros H. induction n as [|n IH]; [exact H|]. apply (wf_phi A wf HL). exact IH. Qed.
  Lemma wf_correct w : (forall j, j < N 1 -> wf 0 (w j)) -> forall j, j < N 1 -> wf 0 (pcorrect w j).
  Proof.
    intros H. induction j as [|j IH]; intros Hj; cbn [correct]; [apply H; auto|].
    assert (P : forall x, wf 0 x -> wf 0 (coarse_prop j x)) by (intros x Hx; apply wf10, (wf_phi A wf HL), wf01; auto).
    apply (wf_add A wf HL); [apply P, IH; lia|]. apply (wf_sub A wf HL); [apply wf_fine_steps, H; lia|apply P, H; lia].
  Qed.
  Lemma el_regroup l a b p q : wf l a -> wf l b -> wf l p -> wf l q ->
    vadd A (vsub A (vadd A (vsub A a b) b) p) q = vadd A q (vsub A a p).
  Proof.
    intros Ha Hb Hp Hq. rewrite (el_sub A wf zero HE l a b) by auto.
    apply (el_comm A wf zero HE l); auto. apply (wf_sub A wf HL); auto.
  Qed.
  Lemma coarse_values U G : GWF G -> holds U G -> forall j, j < N 1 ->
    fsolve o 1 (g_fas o 0 G) j = pcorrect U j.
  Proof.
    intros W H.
    assert (WU : forall j, j < N 1 -> wf 0 (U j)).
    { intros j Hj. rewrite <- (proj1 H j Hj). apply W; [rewrite H2; lia|]. apply c_in; auto. }
    assert (FU : forall j, j < N 1 -> fas_u o 0 G j = U j).
    { intros j Hj. unfold fas_u. rewrite (proj1 H j Hj). apply HC. apply WU; auto. }
    induction j as [|j IH]; intros Hj.
    { cbn [fsolve correct g_fas gu]. rewrite at1_same. apply FU; auto. }
    cbn [fsolve correct]. rewrite IH by lia. unfold gstep. cbn [Nat.eqb g_fas gg]. rewrite at1_same. unfold fas_g.
    change (0 <? S j) with true. cbv iota. rewrite Nat.sub_succ, Nat.sub_0_r. rewrite !FU by lia.
    rewrite !(el_clone A wf zero HE 0) by (apply WU; lia).
    assert (R : restr A 0 (gres o 0 G (c (S j))) = vsub A (fine_prop j (U j)) (U (S j))).
    { unfold gres. cbn [Nat.eqb]. rewrite (holds_next U G j H Hj). rewrite (proj1 H _ Hj). apply HC.
      apply (wf_sub A wf HL); [apply wf_fine_steps, WU; lia|apply WU; auto]. }
    rewrite R. apply (el_regroup 1); try apply wf01; try (apply WU; lia).
    - apply wf_fine_steps, WU. lia.
    - apply wf10, (wf_phi A wf HL), wf01, WU. lia.
    - apply wf10, (wf_phi A wf HL), wf01, wf_correct; auto; lia.
  Qed.
  Lemma coarse_part U G cyc it : GWF G -> holds U G ->
    holds (pcorrect U) (g_frelax o 0 (g_corr o 0 (g_iteration o 0 1 cyc it true (g_fas o 0 G)))).
  Proof.
    intros W H. apply frelax_holds. intros j Hj. cbn [g_iteration]. unfold g_csolve. rewrite HD.
    change (gu (g_corr o 0 (g_fsolve o 1 (g_fas o 0 G))) 0 (c j)) with (corr o 0 (g_fsolve o 1 (g_fas o 0 G)) (c j)). unfold corr.
    destruct (c_in j Hj) as [Hin Hcj]. rewrite Hcj.
    change (gu (g_fsolve o 1 (g_fas o 0 G)) 0 (c j)) with (gu G 0 (c j)).
    assert (WU : forall j, j < N 1 -> wf 0 (U j)).
    { intros k Hk. rewrite <- (proj1 H k Hk). apply W; [rewrite H2; lia|]. apply c_in; auto. }
    destruct j as [|j].
    - pose proof (proj1 H 0 Hj) as X. rewrite c_0 in X |- *. exact X.
    - pose proof (c_lt j (S j) Hj ltac:(lia)). replace (0 <? c (S j)) with true by (symmetry; apply Nat.ltb_lt; lia). cbn [andb].
      rewrite (ci_fi o HV) by (auto; rewrite H2; lia).
      change (gu (g_fsolve o 1 (g_fas o 0 G)) 1 (S j)) with (fsolve o 1 (g_fas o 0 G) (S j)).
      change (gv (g_fsolve o 1 (g_fas o 0 G)) 1 (S j)) with (vclone A (fas_u o 0 G (S j))).
      rewrite (coarse_values U G W H (S j) Hj).
      unfold fas_u. rewrite (proj1 H _ Hj). rewrite (proj1 (HC (U (S j)))) by (apply WU; auto).
      rewrite (el_clone A wf zero HE 0) by (apply WU; auto).
      assert (WC : wf 0 (pcorrect U (S j))) by (apply wf_correct; auto).
      rewrite (proj2 (HC _)) by (apply wf01, (wf_sub A wf HL); auto).
      rewrite (el_comm A wf zero HE 0); auto; [apply (el_sub A wf zero HE 0); auto|apply (wf_sub A wf HL); auto].
  Qed.

  (** One cycle: in the first one the F-points may hold anything. *)
  Lemma cycle_holds it cyc U G : GWF G -> (forall j, j < N 1 -> gu G 0 (c j) = U j) -> (0 < it -> holds U G) ->
    holds (pcorrect (sweep fine_prop (cf_count o 0) U)) (g_iteration o (length grids - 1) 0 cyc it true G).
  Proof.
    intros W HU Hit. rewrite (top_eq o it cyc G) by (rewrite H2; lia). rewrite H2. change (2 - 2) with 0. unfold half, relaxed.
    assert (K : GWF (if ((0 <? 0) || (it =? 0)) && true then g_frelax o 0 G else G) /\
                holds U (if ((0 <? 0) || (it =? 0)) && true then g_frelax o 0 G else G)).
    { destruct it as [|it]; cbn [Nat.ltb Nat.leb Nat.eqb orb andb].
      - split; [apply (gwf_frelax wf o HL HV); auto; rewrite H2; lia|apply frelax_holds; exact HU].
      - split; [exact W|apply Hit; lia]. }
    destruct K as [W1 H1]. destruct (sweeps_hold (cf_count o 0) _ _ W1 H1) as [W2 H3]. apply coarse_part; auto.
  Qed.

  (** Values of the C-points before the first iteration. *)
  Fixpoint coarse_stepping (j : nat) : V :=
    match j with 0 => vclone A (tstart A 1) | S j' => coarse_prop j' (coarse_stepping j') end.
  Definition start_values (guess : nat -> V) (j : nat) : V :=
    if j =? 0 then vclone A (tstart A 0) else if o_nested o then coarse_stepping j else guess (c j).
  Hypothesis Hzero : forall x, wf 1 x -> vadd A (vzero A (vzero A (templ A 1))) x = x.

  Lemma wf_coarse_stepping j : wf 1 (coarse_stepping j).
  Proof. induction j as [|j IH]; [apply (wf_clone A wf HL), (wf_tstart A wf HL)|]. apply (wf_phi A wf HL). exact IH. Qed.
  Lemma nested_coarse guess j : fsolve o 1 (g_init o guess) j = coarse_stepping j.
  Proof.
    induction j as [|j IH]; [reflexivity|]. cbn [fsolve coarse_stepping]. rewrite IH. unfold gstep. cbn [Nat.eqb g_init gg].
    rewrite Hzero by (apply (wf_phi A wf HL), wf_coarse_stepping). rewrite Nat.sub_succ, Nat.sub_0_r. reflexivity.
  Qed.
  Lemma construct_values guess j : j < N 1 -> gu (g_construct o guess) 0 (c j) = start_values guess j.
  Proof.
    intros Hj. unfold g_construct, start_values.
    assert (E : gu (if o_nested o then g_nested o (g_init o guess) else g_init o guess) 0 (c j) =
      if j =? 0 then vclone A (tstart A 0) else if o_nested o then coarse_stepping j else guess (c j)).
    { destruct (c_in j Hj) as [Hin Hcj]. destruct j as [|j].
      - rewrite c_0 in *. destruct (o_nested o); [|reflexivity]. unfold g_nested. rewrite H2. change (2 - 1) with 1. cbn [g_nested_from].
        unfold g_csolve. rewrite HD. change (0 <? 0) with false. cbv iota.
        change (interp_up o 0 (g_fsolve o 1 (g_init o guess)) 0 = vclone A (tstart A 0)). unfold interp_up.
        change (0 <? 0) with false. rewrite andb_false_r. reflexivity.
      - pose proof (c_lt j (S j) Hj ltac:(lia)) as Hlt. change (S j =? 0) with false. cbv iota. destruct (o_nested o).
        + unfold g_nested. rewrite H2. change (2 - 1) with 1. cbn [g_nested_from].
          unfold g_csolve. rewrite HD. change (0 <? 0) with false. cbv iota.
          change (interp_up o 0 (g_fsolve o 1 (g_init o guess)) (c (S j)) = coarse_stepping (S j)). unfold interp_up.
          rewrite Hcj. replace (0 <? c (S j)) with true by (symmetry; apply Nat.ltb_lt; lia). cbn [andb].
          rewrite (ci_fi o HV) by (auto; rewrite H2; lia).
          change (gu (g_fsolve o 1 (g_init o guess)) 1 (S j)) with (fsolve o 1 (g_init o guess) (S j)). rewrite nested_coarse.
          apply HC. apply wf_coarse_stepping.
        + cbn [g_init gu]. replace (c (S j) =? 0) with false by (symmetry; apply Nat.eqb_neq; lia). reflexivity. }
    cbv zeta. rewrite <- E. destruct (is_jump o), (o_has_output o && (o_output_lvl o =? 2)%Z); reflexivity.
  Qed.

  Notation para guess := (parareal (vadd A) (vsub A) fine_prop coarse_prop (cf_count o 0) (start_values guess)).
  (** After every iteration. *)
  Theorem iterate_parareal guess : (forall i, i < N 0 -> wf 0 (guess i)) -> forall k,
    (forall j, j < N 1 -> gu (iterate o guess k) 0 (c j) = para guess k j) /\ (0 < k -> holds (para guess k) (iterate o guess k)).
  Proof.
    intros Hg. induction k as [|k [IH1 IH2]].
    - split; [intros j Hj; apply construct_values; auto|lia].
    - assert (K : holds (para guess (S k)) (iterate o guess (S k))).
      { change (iterate o guess (S k)) with (g_pass o k (iterate o guess k)). cbn [parareal].
        set (S0 := set_giter (iterate o guess k) (k + 1)).
        destruct (cycle_holds k (cycF o) (para guess k) S0) as [K1 K2].
        - eapply (gwf_same wf o); [| | |apply (gwf_iterate wf o HL HV guess k Hg)]; reflexivity.
        - exact IH1.
        - exact IH2.
        - split; [intros j Hj|intros i Hi E]; rewrite pass_gu; [apply (K1 j Hj)|apply (K2 i Hi E)]. }
      split; [apply K|intros _; exact K].
  Qed.
End Two.

(** ** Error of the parareal iteration *)
Fixpoint binom (n k : nat) : nat :=
  match n, k with _, 0 => 1 | 0, S _ => 0 | S n', S k' => binom n' k' + binom n' k end.
Lemma binom_lt n : forall k, n < k -> binom n k = 0.
Proof. induction n as [|n IH]; intros [|k] H; try lia; [reflexivity|]. cbn [binom]. rewrite !IH by lia. reflexivity. Qed.
Lemma binom_0 n : binom n 0 = 1. Proof. destruct n; reflexivity. Qed.

Section Error.
  Context {V : Type}.
  Variable ok : V -> Prop.
  Variables (add sub : V -> V -> V) (F Psi : nat -> V -> V) (dist : V -> V -> R) (m nu : nat).
  Variables (alpha beta : nat -> R) (gamma : R) (u e : nat -> V).
  Local Open Scope R_scope.
  Hypothesis ok_F : forall j x, ok x -> ok (F j x).
  Hypothesis ok_Psi : forall j x, ok x -> ok (Psi j x).
  Hypothesis ok_add : forall x y, ok x -> ok y -> ok (add x y).
  Hypothesis ok_sub : forall x y, ok x -> ok y -> ok (sub x y).
  Hypothesis add_sub : forall x y, ok x -> ok y -> add x (sub y x) = y.
  Hypothesis d_pos : forall x y, 0 <= dist x y.
  Hypothesis d_self : forall x, dist x x = 0.
  Hypothesis d_add : forall a b x y, ok a -> ok b -> ok x -> ok y -> dist (add a x) (add b y) <= dist a b + dist x y.
  Hypothesis d_Psi : forall j x y, (j < m)%nat -> ok x -> ok y -> dist (Psi j x) (Psi j y) <= beta j * dist x y.
  Hypothesis d_diff : forall j x y, (j < m)%nat -> ok x -> ok y ->
    dist (sub (F j x) (Psi j x)) (sub (F j y) (Psi j y)) <= alpha j * dist x y.
  Hypothesis d_F : forall j x y, (j < m)%nat -> ok x -> ok y -> dist (F j x) (F j y) <= gamma * dist x y.
  Hypothesis Ha : forall j, (j < m)%nat -> 0 <= alpha j.
  Hypothesis Hb : forall j, (j < m)%nat -> 0 <= beta j.
  Hypothesis Hg : 0 <= gamma.
  Hypothesis ok_u : forall j, (j <= m)%nat -> ok (u j).
  Hypothesis e_0 : e 0%nat = u 0%nat.
  Hypothesis e_S : forall j, (j < m)%nat -> e (S j) = F j (e j).
  Notation U := (parareal add sub F Psi nu u).
  Notation err k j := (dist (U k j) (e j)).

  Lemma ok_e j : (j <= m)%nat -> ok (e j).
  Proof.
    induction j as [|j IH]; intros Hj; [rewrite e_0; apply ok_u; auto|]. rewrite e_S by lia. apply ok_F, IH. lia.
  Qed.
  Lemma ok_sweep n v : (forall j, (j <= m)%nat -> ok (v j)) -> forall j, (j <= m)%nat -> ok (sweep F n v j).
  Proof.
    intros H. induction n as [|n IH]; intros [|j] Hj; cbn [sweep]; try (apply H; lia). apply ok_F, IH. lia.
  Qed.
  Lemma ok_correct w : (forall j, (j <= m)%nat -> ok (w j)) -> forall j, (j <= m)%nat -> ok (correct add sub F Psi w j).
  Proof.
    intros H. induction j as [|j IH]; intros Hj; cbn [correct]; [apply H; lia|].
    apply ok_add; [apply ok_Psi, IH; lia|apply ok_sub; [apply ok_F, H; lia|apply ok_Psi, H; lia]].
  Qed.
  Lemma ok_U k : forall j, (j <= m)%nat -> ok (U k j).
  Proof. induction k as [|k IH]; [exact ok_u|]. apply ok_correct, ok_sweep, IH. Qed.
  Lemma sweep_0 n (v : nat -> V) : sweep F n v 0 = v 0%nat. Proof. destruct n; reflexivity. Qed.
  Lemma U_0 k : U k 0 = e 0%nat.
  Proof. induction k as [|k IH]; [auto|]. cbn [parareal correct]. rewrite sweep_0. exact IH. Qed.

  (** a sweep multiplies the error by gamma, or removes it *)
  Lemma sweep_err v : v 0%nat = e 0%nat -> (forall j, (j <= m)%nat -> ok (v j)) -> forall n j, (j <= m)%nat ->
    dist (sweep F n v j) (e j) <= if (j <? n)%nat then 0 else gamma ^ n * dist (v (j - n)%nat) (e (j - n)%nat).
  Proof.
    intros H0 Hv. induction n as [|n IH]; intros j Hj.
    - replace (j <? 0)%nat with false by (symmetry; apply Nat.ltb_ge; lia). rewrite Nat.sub_0_r. destruct j; simpl; lra.
    - destruct j as [|j].
      + cbn [sweep]. rewrite H0, d_self. simpl. lra.
      + cbn [sweep]. rewrite e_S by lia. specialize (IH j ltac:(lia)).
        eapply Rle_trans; [apply d_F; [lia|apply ok_sweep; auto; lia|apply ok_e; lia]|].
        change (S j <? S n)%nat with (j <? n)%nat. rewrite Nat.sub_succ. destruct (j <? n)%nat.
        * pose proof (d_pos (sweep F n v j) (e j)). assert (dist (sweep F n v j) (e j) = 0) by lra. rewrite H1. lra.
        * simpl. rewrite Rmult_assoc. apply Rmult_le_compat_l; auto.
  Qed.
  (** one iteration *)
  Lemma err_S k j : (j < m)%nat ->
    err (S k) (S j) <= beta j * err (S k) j + if (j <? nu)%nat then 0 else alpha j * gamma ^ nu * err k (j - nu).
  Proof.
    intros Hj. cbn [parareal]. set (w := sweep F nu (U k)).
    assert (Ow : forall j, (j <= m)%nat -> ok (w j)) by (intros i Hi; apply ok_sweep; auto; intros; apply ok_U; auto).
    assert (Oc : forall j, (j <= m)%nat -> ok (correct add sub F Psi w j)) by (intros; apply ok_correct; auto).
    cbn [correct]. rewrite e_S by lia.
    rewrite <- (add_sub (Psi j (e j)) (F j (e j))) by (try apply ok_Psi; try apply ok_F; apply ok_e; lia).
    assert (Oe : ok (e j)) by (apply ok_e; lia). assert (Owj : ok (w j)) by (apply Ow; lia). assert (Ocj := Oc j ltac:(lia)).
    eapply Rle_trans; [apply d_add; auto|]. pose proof (d_Psi j _ _ Hj Ocj Oe) as X. pose proof (d_diff j _ _ Hj Owj Oe) as Y.
    pose proof (sweep_err (U k) (U_0 k) (fun i Hi => ok_U k i Hi) nu j ltac:(lia)) as Z. fold w in Z.
    apply Rplus_le_compat; [exact X|]. eapply Rle_trans; [exact Y|]. destruct (j <? nu)%nat.
    - assert (dist (w j) (e j) = 0) by (pose proof (d_pos (w j) (e j)); lra). rewrite H. lra.
    - rewrite Rmult_assoc. apply Rmult_le_compat_l; auto.
  Qed.

  (** Superlinear bound, for coarse steps that may expand: [a] bounds the differences of the propagators, [b] the coarse steps. *)
  Theorem parareal_bound a b M : (forall j, (j < m)%nat -> alpha j <= a) -> (forall j, (j < m)%nat -> beta j <= b) -> 0 <= a -> 1 <= b ->
    (forall j, (j <= m)%nat -> dist (u j) (e j) <= M) -> forall k j, (j <= m)%nat ->
    err k j <= M * (a * gamma ^ nu) ^ k * b ^ (j - k * (nu + 1)) * INR (binom (j - k * nu) k).
  Proof.
    intros Haa Hbb Ha0 H1 HM. assert (M0 : 0 <= M). { eapply Rle_trans; [apply (d_pos (u 0%nat) (e 0%nat))|]. apply HM. lia. }
    assert (G0 : 0 <= gamma ^ nu) by (apply pow_le; auto).
    set (q := a * gamma ^ nu). assert (A0 : 0 <= q) by (apply Rmult_le_pos; auto).
    assert (Hb0 : 0 <= b) by lra.
    induction k as [|k IHk]; intros j Hj.
    { cbn [parareal pow]. rewrite binom_0. replace (j - 0 * (nu + 1))%nat with j by lia. specialize (HM j Hj).
      pose proof (pow_R1_Rle b j H1). simpl INR. nra. }
    induction j as [|j IHj].
    { rewrite U_0, d_self. repeat apply Rmult_le_pos; auto; try apply pow_le; auto; try apply pos_INR. }
    specialize (IHj ltac:(lia)). eapply Rle_trans; [apply err_S; lia|].
    assert (P1 : beta j * err (S k) j <= b * err (S k) j) by (apply Rmult_le_compat_r; [apply d_pos|apply Hbb; lia]).
    assert (P2 : (if (j <? nu)%nat then 0 else alpha j * gamma ^ nu * err k (j - nu)) <= if (j <? nu)%nat then 0 else q * err k (j - nu)).
    { destruct (j <? nu)%nat; [lra|]. apply Rmult_le_compat_r; [apply d_pos|]. apply Rmult_le_compat_r; auto. }
    eapply Rle_trans; [apply Rplus_le_compat; [exact P1|exact P2]|]. clear P1 P2.
    assert (Q0 : 0 <= M * q ^ k) by (apply Rmult_le_pos; auto; apply pow_le; auto).
    assert (QS : M * q ^ S k = q * (M * q ^ k)) by (simpl; ring).
    destruct (Nat.ltb_spec j nu) as [Hlt|Hge].
    { replace (j - S k * nu)%nat with 0%nat in IHj by nia. cbn [binom INR] in IHj. rewrite Rmult_0_r in IHj.
      replace (S j - S k * nu)%nat with 0%nat by nia. cbn [binom INR]. rewrite Rmult_0_r.
      assert (Y := Rmult_le_compat_l b _ _ Hb0 IHj). lra. }
    specialize (IHk (j - nu)%nat ltac:(lia)). rewrite QS in IHj |- *.
    set (p := (j - S k * nu)%nat) in *.
    replace (j - nu - k * nu)%nat with p in IHk by (unfold p; nia).
    replace (j - nu - k * (nu + 1))%nat with (p - k)%nat in IHk by (unfold p; nia).
    replace (j - S k * (nu + 1))%nat with (p - S k)%nat in IHj by (unfold p; nia).
    set (Q := M * q ^ k) in *.
    assert (AQ : 0 <= q * Q) by (apply Rmult_le_pos; auto).
    assert (X : q * err k (j - nu) <= q * (Q * b ^ (p - k) * INR (binom p k))) by (apply Rmult_le_compat_l; auto).
    assert (Y : b * err (S k) j <= b * (q * Q * b ^ (p - S k) * INR (binom p (S k)))) by (apply Rmult_le_compat_l; auto).
    destruct (Nat.lt_ge_cases j (S k * nu)) as [Hs|Hs].
    { replace p with 0%nat in X, Y by (unfold p; lia). assert (0 < k)%nat by nia. destruct k as [|k]; [lia|].
      cbn [binom INR] in X, Y. rewrite Rmult_0_r in X, Y.
      replace (S j - S (S k) * nu)%nat with 0%nat by (symmetry; apply Nat.sub_0_le; exact Hs). cbn [binom INR]. lra. }
    replace (S j - S k * (nu + 1))%nat with (p - k)%nat by (unfold p; nia).
    replace (S j - S k * nu)%nat with (S p) by (unfold p; lia). cbn [binom]. rewrite plus_INR.
    assert (Z : b * (q * Q * b ^ (p - S k) * INR (binom p (S k))) = q * Q * b ^ (p - k) * INR (binom p (S k))).
    { destruct (Nat.lt_ge_cases p (S k)) as [Hp|Hp]; [rewrite (binom_lt p (S k)) by lia; simpl; ring|].
      replace (p - k)%nat with (S (p - S k)) by lia. simpl. ring. }
    rewrite Z in Y. replace (q * Q * b ^ (p - k) * (INR (binom p k) + INR (binom p (S k)))) with
      (q * Q * b ^ (p - k) * INR (binom p (S k)) + q * (Q * b ^ (p - k) * INR (binom p k))) by ring. lra.
  Qed.

  (** Linear convergence with a factor that does not depend on the number of points, for contracting coarse steps. *)
  Theorem parareal_linear rho M : 0 <= rho -> (forall j, (j < m)%nat -> alpha j * gamma ^ nu <= rho * (1 - beta j)) ->
    (forall j, (j <= m)%nat -> dist (u j) (e j) <= M) -> forall k j, (j <= m)%nat -> err k j <= M * rho ^ k.
  Proof.
    intros R0 H1 HM. assert (M0 : 0 <= M). { eapply Rle_trans; [apply (d_pos (u 0%nat) (e 0%nat))|]. apply HM. lia. }
    induction k as [|k IHk]; intros j Hj; [cbn [parareal pow]; specialize (HM j Hj); lra|].
    assert (Q0 : 0 <= M * rho ^ k) by (apply Rmult_le_pos; auto; apply pow_le; auto).
    replace (M * rho ^ S k) with (rho * (M * rho ^ k)) by (simpl; ring). set (Q := M * rho ^ k) in *.
    assert (RQ : 0 <= rho * Q) by (apply Rmult_le_pos; auto).
    induction j as [|j IHj]; [rewrite U_0, d_self; exact RQ|]. specialize (IHj ltac:(lia)).
    assert (AG : 0 <= alpha j * gamma ^ nu) by (apply Rmult_le_pos; [apply Ha; lia|apply pow_le; auto]).
    eapply Rle_trans; [apply err_S; lia|]. assert (Y := Rmult_le_compat_l (beta j) _ _ (Hb j Hj) IHj).
    assert (X : (if (j <? nu)%nat then 0 else alpha j * gamma ^ nu * err k (j - nu)) <= alpha j * gamma ^ nu * Q).
    { destruct (j <? nu)%nat; [apply Rmult_le_pos; auto|]. apply Rmult_le_compat_l; auto. apply IHk. lia. }
    assert (W : alpha j * gamma ^ nu * Q <= rho * (1 - beta j) * Q) by (apply Rmult_le_compat_r; [exact Q0|apply H1; lia]).
    assert (rho * (1 - beta j) * Q = rho * Q - beta j * (rho * Q)) by ring. lra.
  Qed.
End Error.
