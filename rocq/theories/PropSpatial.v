(** C63: MGRIT with spatial coarsening for the 1D heat equation (examples/example_spatial_coarsening.py): the hypotheses of
    the solver theorems hold, the run computes the backward Euler solution on the finest space-time grid, and the coarse
    spatial matrices are the Galerkin products of the fine ones. *)
From Coq Require Import Reals Lra Lia List Arith ZArith Bool.
From Verif Require Import LinAlg Net Setup Spec Mgrit Reference Main Algebra Vectors Apps AppProofs PropVectors PropApps PropAlgebra ExampleApp OrderProofs Spatial.
Import ListNotations.
Local Open Scope R_scope.

(** Number of grid points per level: at least two inner points everywhere (heat_1d.py 157 reads x[1]), and a
    GridTransferHeat connects levels whose grids are nested (2n-1 and n points). *)
Definition nested_grids (nx : nat -> nat) (coarsen : nat -> bool) : Prop :=
  forall l, (4 <= nx l)%nat /\ nx l = if coarsen l then (2 * nx (S l) - 1)%nat else nx (S l).
(** matrices as set up by the constructors *)
Definition matrices (x_start x_end a : R) (nx : nat -> nat) (mat : nat -> matrix) : Prop :=
  forall l, heat_matrix a (heat_dx (heat_x x_start x_end (nx l))) (nx l - 2) = Some (mat l).
Definition inner (nx : nat -> nat) (l : nat) (u : Arr) : Prop := arr_wf (nx l - 2) u.

Lemma heat_step_wf n L x rhs u a b : arr_wf n (heat1d_step n L x rhs u a b).
Proof. unfold heat1d_step, arr_wf, arr_set, arr_zeros. cbn [a_size a_vals]. rewrite spsolve_length. auto. Qed.
Lemma arr_zero_wf n : arr_wf n (arr_zeros n).
Proof. unfold arr_wf, arr_zeros. cbn [a_size a_vals]. rewrite repeat_length. auto. Qed.
Lemma arr_eq n u v : arr_wf n u -> arr_wf n v -> (forall i, (i < n)%nat -> at_ (a_vals u) i = at_ (a_vals v) i) -> u = v.
Proof.
  destruct u as [s l], v as [s' l']. intros [E1 E2] [E3 E4] H. cbn [a_size a_vals] in *. subst s s'. f_equal.
  apply (LinAlg.list_ext _ _ n); auto.
Qed.
Lemma restriction_zero m : heat_restriction (arr_zeros (2 * m + 1)) = arr_zeros m.
Proof.
  destruct (C30_heat_transfer_shapes m (arr_zeros (2 * m + 1)) (arr_zero_wf _)) as [H _].
  apply (arr_eq m); auto using arr_zero_wf. intros i Hi. rewrite (C30_heat_restriction_values m) by (auto using arr_zero_wf).
  unfold arr_zeros. cbn [a_vals]. rewrite !at_zeros. lra.
Qed.
Lemma interpolation_zero m : heat_interpolation (arr_zeros m) = arr_zeros (2 * m + 1).
Proof.
  destruct (C30_heat_transfer_shapes m (arr_zeros (2 * m + 1)) (arr_zero_wf _)) as [_ H].
  apply (arr_eq (2 * m + 1)); auto using arr_zero_wf. intros i Hi.
  destruct (C30_heat_interpolation_values m (arr_zeros m) i (arr_zero_wf _)) as [O E].
  assert (Z : at_ (a_vals (arr_zeros (2 * m + 1))) i = 0) by (unfold arr_zeros; cbn [a_vals]; apply at_zeros). rewrite Z.
  assert (Z2 : forall k, at_ (a_vals (arr_zeros m)) k = 0) by (intros; unfold arr_zeros; cbn [a_vals]; apply at_zeros).
  destruct (Nat.Even_or_Odd i) as [[j Hj]|[j Hj]].
  - rewrite (E j) by lia. destruct j; simpl left_of; rewrite ?Z2; lra.
  - rewrite (O j) by lia. apply Z2.
Qed.
Lemma restr_wf nx coarsen l u : nested_grids nx coarsen -> inner nx l u -> inner nx (S l) (spatial_restriction coarsen l u).
Proof.
  intros H W. destruct (H l) as [H1 H2]. destruct (H (S l)) as [H3 _]. unfold inner, spatial_restriction in *. destruct (coarsen l).
  - replace (nx l - 2)%nat with (2 * (nx (S l) - 2) + 1)%nat in W by lia. apply (C30_heat_transfer_shapes _ u W).
  - rewrite <- H2. unfold copy_restriction. rewrite (sl_clone _ _ _ (proj1 (C29_array_laws (nx l - 2)))); auto.
Qed.
Lemma interp_wf nx coarsen l u : nested_grids nx coarsen -> inner nx (S l) u -> inner nx l (spatial_interpolation coarsen l u).
Proof.
  intros H W. destruct (H l) as [H1 H2]. destruct (H (S l)) as [H3 _]. unfold inner, spatial_interpolation in *. destruct (coarsen l).
  - replace (nx l - 2)%nat with (2 * (nx (S l) - 2) + 1)%nat by lia. apply (C30_heat_transfer_shapes _ (arr_zeros _) (arr_zero_wf _)); auto.
  - rewrite H2. unfold copy_interpolation. rewrite (sl_clone _ _ _ (proj1 (C29_array_laws (nx (S l) - 2)))); auto.
Qed.

(** The hypotheses of the solver theorems (C01, C08, C09, C10, ...) hold, with one vector size per level. *)
Theorem C63_solver_hypotheses : forall x_start x_end nx mat rhs init_cond coarsen tm,
  nested_grids nx coarsen -> (forall x, length (init_cond x) = length x) ->
  let A := spatial_app x_start x_end nx mat rhs init_cond coarsen tm in
  app_laws A (inner nx) /\ exact_laws A (inner nx) (fun l => arr_zeros (nx l - 2)) /\
  forall o : Opts A, @weight_mean A (inner nx) o /\ (o_weight o = 1 -> @weight_one A (inner nx) o).
Proof.
  intros xs xe nx mat rhs init co tm HN HI A. pose proof (fun n => proj1 (C29_array_laws n)) as L.
  split; [|split].
  - constructor; simpl; unfold inner; intros.
    + apply heat_step_wf.
    + apply (sl_add _ _ _ (L _)); auto.
    + apply (sl_sub _ _ _ (L _)); auto.
    + apply (sl_mul _ _ _ (L _)); auto.
    + pose proof (sl_clone _ _ _ (L (nx l - 2)%nat) x H) as E. simpl in E. rewrite E. exact H.
    + pose proof (sl_czero _ _ _ (L (nx l - 2)%nat) x H) as E. simpl in E. rewrite E. apply arr_zero_wf.
    + apply restr_wf; auto.
    + apply (interp_wf nx co); auto.
    + apply arr_zero_wf.
    + unfold arr_wf, arr_set, arr_zeros. cbn [a_size a_vals]. rewrite HI, heat_x_length. auto.
    + apply (sl_pack _ _ _ (L (nx l - 2)%nat)); auto.
    + discriminate.
  - constructor; simpl; unfold inner; intros.
    + apply arr_zero_wf.
    + apply (sl_comm _ _ _ (L (nx l - 2)%nat)); auto.
    + apply (sl_assoc _ _ _ (L (nx l - 2)%nat)); auto.
    + apply (sl_zero _ _ _ (L (nx l - 2)%nat)); auto.
    + apply (sl_minus _ _ _ (L (nx l - 2)%nat)); auto.
    + apply (sl_clone _ _ _ (L (nx l - 2)%nat)); auto.
    + destruct (HN l) as [H1 H2], (HN (S l)) as [H3 _]. unfold spatial_restriction. destruct (co l).
      * replace (nx l - 2)%nat with (2 * (nx (S l) - 2) + 1)%nat by lia. apply restriction_zero.
      * rewrite H2. unfold copy_restriction. apply (sl_clone _ _ _ (L (nx (S l) - 2)%nat)), arr_zero_wf.
    + destruct (HN l) as [H1 H2], (HN (S l)) as [H3 _]. unfold spatial_interpolation. destruct (co l).
      * replace (nx l - 2)%nat with (2 * (nx (S l) - 2) + 1)%nat by lia. apply interpolation_zero.
      * rewrite H2. unfold copy_interpolation. apply (sl_clone _ _ _ (L (nx (S l) - 2)%nat)), arr_zero_wf.
  - intros o. split.
    + intros l y Hy. change (c_add VectorArr (c_mul VectorArr y (o_weight o)) (c_mul VectorArr y (1 - o_weight o)) = y).
      rewrite <- (sl_mulp _ _ _ (L (nx l - 2)%nat)) by auto.
      replace (o_weight o + (1 - o_weight o)) with 1 by (simpl; ring). apply (sl_mul1 _ _ _ (L (nx l - 2)%nat)); auto.
    + intros E l y x Hy Hx. change (c_add VectorArr (c_mul VectorArr y (o_weight o)) (c_mul VectorArr x (1 - o_weight o)) = y). rewrite E.
      replace (1 - 1) with 0 by ring.
      rewrite (sl_mul1 _ _ _ (L (nx l - 2)%nat)), (sl_mul0 _ _ _ (L (nx l - 2)%nat)) by auto. apply (sl_zero _ _ _ (L (nx l - 2)%nat)); auto.
Qed.

(** End to end. In every execution on any number of processes the run ends, all processes did the same number k of
    iterations, and if k is large enough (one coarse interval per iteration and CF-sweep) the values of the time points are
    the one and only solution of the backward Euler equations on the finest space-time grid - although the coarse levels
    use coarser spatial grids. *)
Theorem C63_backward_euler : forall x_start x_end a nx mat rhs init_cond coarsen tm,
  nested_grids nx coarsen -> matrices x_start x_end a nx mat -> 0 <= a -> x_start <> x_end ->
  (forall x, length (init_cond x) = length x) -> (forall x t, length (rhs x t) = length x) ->
  (forall s t, (s <= t)%Z -> tm s <= tm t) ->
  let A := spatial_app x_start x_end nx mat rhs init_cond coarsen tm in
  forall (o : Opts A) (P n : nat) c,
  @good_setup A (inner nx) o P -> o_weight o = 1 -> (o_dist o <> None -> (1 < length (o_grids o))%nat) ->
  steps P n (initial (mgrit_main o P)) c -> stuck P c ->
  exists res k, finished P res c /\ (forall r, (r < P)%nat -> s_iter (res r) = k) /\
    ((0 < k)%nat -> (length (nth 1 (o_grids o) []) <= k * cf_count o 0 + 1)%nat ->
     let points := nth 0 (o_grids o) [] in
     let t := fun i => tm (nth i points 0%Z) in
     let x := heat_x x_start x_end (nx 0%nat) in
     let solution := fun w : nat -> list R => w 0%nat = init_cond x /\
       forall i, (S i < length points)%nat ->
         backward_euler_1d a (spacing x_start x_end (nx 0%nat)) (t (S i) - t i) (nx 0%nat - 2) (w i) (rhs x (t (S i))) (w (S i)) in
     let u : list Arr := gathered P (fun r => s_u (res r) 0) in
     length u = length points /\ solution (fun i => a_vals (nth i u (arr_zeros 0))) /\
     forall w, solution w -> forall i, (i < length points)%nat -> w i = a_vals (nth i u (arr_zeros 0))).
Proof.
  intros xs xe a nx mat rhs init co tm HN HM Ha Hx HI HR Hm A o P n c G Hw HD H St0.
  destruct (C63_solver_hypotheses xs xe nx mat rhs init co tm HN HI) as (HL & HE & HW). destruct (HW o) as [_ W1].
  destruct (C09_exact_after_enough_iterations A (inner nx) _ o P n c G HE (W1 Hw) HD H St0) as (res & k & F & Hk & X).
  exists res, k. split; [exact F|]. split; [exact Hk|]. intros Hk0 Hc. specialize (X Hk0 (or_introl Hc)).
  intros points t x solution u.
  assert (Eu : u = map (time_stepping o) (seq 0 (length points))) by exact X.
  assert (En : forall i, (i < length points)%nat -> nth i u (arr_zeros 0) = time_stepping o i).
  { intros i Hi. rewrite Eu. rewrite (nth_indep _ _ (time_stepping o 0)) by (rewrite map_length, seq_length; auto).
    rewrite (map_nth (time_stepping o)), seq_nth by auto. reflexivity. }
  assert (Wf : forall i, inner nx 0 (time_stepping o i)).
  { induction i as [|i IH]; cbn [time_stepping].
    - apply (wf_clone _ _ HL), (wf_tstart _ _ HL).
    - apply (wf_phi _ _ HL), IH. }
  assert (Ht : forall i, (S i < length points)%nat -> t i <= t (Datatypes.S i)).
  { intros i Hi. apply Hm. pose proof (gs_grids _ _ _ G) as HV. destruct HV as (HV0 & HV1 & _).
    destruct (HV1 0%nat) as [HS _]; [destruct (o_grids o); [congruence|simpl; lia]|]. fold points in HS.
    assert (K : forall (l : list Z) i, Sorted.StronglySorted Z.lt l -> (Datatypes.S i < length l)%nat -> (nth i l 0 <= nth (Datatypes.S i) l 0)%Z).
    { clear. induction l as [|z l IH]; intros i HS Hi; [simpl in Hi; lia|]. inversion HS as [|? ? HS1 HS2]; subst. destruct i.
      - rewrite Forall_forall in HS2. specialize (HS2 (nth 0 l 0%Z)). cbn [nth]. cbn [nth] in HS2. simpl in Hi.
        assert (In (nth 0 l 0%Z) l) by (apply nth_In; lia). destruct l; [simpl in Hi; lia|]. cbn [nth] in *. specialize (HS2 H). lia.
      - apply IH; auto. simpl in Hi. lia. }
    apply K; auto. }
  assert (St : forall i v, (S i < length points)%nat ->
    (backward_euler_1d a (spacing xs xe (nx 0%nat)) (t (Datatypes.S i) - t i) (nx 0%nat - 2) (a_vals (time_stepping o i)) (rhs x (t (Datatypes.S i))) v <->
     time_stepping o (Datatypes.S i) = mkArr (nx 0%nat - 2) v)).
  { intros i v Hi. apply (C32_heat1d_step xs xe (nx 0%nat) a (mat 0%nat) rhs (time_stepping o i) (t i) (t (Datatypes.S i)) v); auto.
    - apply HN.
    - apply (Wf i). }
  split; [rewrite Eu, map_length, seq_length; reflexivity|].
  assert (E0 : a_vals (time_stepping o 0) = init x) by reflexivity.
  assert (P0 : (0 < length points)%nat) by (pose proof (gs_two _ _ _ G); fold points in H0; lia).
  split.
  - split; [rewrite En by auto; exact E0|]. intros i Hi. rewrite !En by lia. apply St; auto.
    destruct (Wf (Datatypes.S i)) as [Q _]. destruct (time_stepping o (Datatypes.S i)) as [s1 v1]. cbn [a_size a_vals] in *. congruence.
  - intros w [H0 H1]. induction i as [|i IH]; intros Hi.
    + rewrite En, H0 by auto. symmetry. exact E0.
    + rewrite En by auto. specialize (H1 i Hi). rewrite IH, En in H1 by lia. apply St in H1; auto. rewrite H1. reflexivity.
Qed.

(** On every level the time step is backward Euler on the spatial grid of that level, with the right-hand side of the end of the
    step, and the start vector is the initial condition on that grid. *)
Theorem C63_level_equations : forall x_start x_end a nx mat rhs init_cond coarsen tm,
  nested_grids nx coarsen -> matrices x_start x_end a nx mat -> 0 <= a -> x_start <> x_end ->
  (forall x, length (init_cond x) = length x) -> (forall x t, length (rhs x t) = length x) ->
  let A := spatial_app x_start x_end nx mat rhs init_cond coarsen tm in
  forall l, let x := heat_x x_start x_end (nx l) in
  tstart A l = mkArr (nx l - 2) (init_cond x) /\
  forall (u : Vec A) t0 t1 v, inner nx l u -> tm t0 <= tm t1 ->
  (backward_euler_1d a (spacing x_start x_end (nx l)) (tm t1 - tm t0) (nx l - 2) (a_vals u) (rhs x (tm t1)) v <->
   phi A l u t0 t1 = mkArr (nx l - 2) v).
Proof.
  intros xs xe a nx mat rhs init co tm HN HM Ha Hx HI HR A l x. split; [reflexivity|]. intros u t0 t1 v Hu Ht.
  apply (C32_heat1d_step xs xe (nx l) a (mat l) rhs u (tm t0) (tm t1) v); auto; [apply HN|apply Hu].
Qed.

(** ** The spatial matrices of nested grids: coarse = restriction * fine * interpolation *)
Theorem C63_galerkin : forall x_start x_end a n fine coarse v i, (4 <= n)%nat -> x_start <> x_end ->
  heat_matrix a (heat_dx (heat_x x_start x_end (2 * n - 1))) (2 * n - 3) = Some fine ->
  heat_matrix a (heat_dx (heat_x x_start x_end n)) (n - 2) = Some coarse ->
  arr_wf (n - 2) v -> (i < n - 2)%nat ->
  let product := tab (2 * n - 3) (mv (2 * n - 3) fine (at_ (a_vals (heat_interpolation v)))) in
  at_ (a_vals (heat_restriction (mkArr (2 * n - 3) product))) i = mv (n - 2) coarse (at_ (a_vals v)) i.
Proof.
  intros xs xe a n Lf Lc v i Hn Hx Ef Ec Hv Hi product.
  destruct (C32_heat1d_matrix xs xe n a Hn) as (Lc' & Ec' & Rc). rewrite Ec in Ec'. injection Ec' as <-.
  destruct (C32_heat1d_matrix xs xe (2 * n - 1) a ltac:(lia)) as (Lf' & Ef' & Rf).
  replace (2 * n - 1 - 2)%nat with (2 * n - 3)%nat in * by lia. rewrite Ef in Ef'. injection Ef' as <-.
  rewrite Rc by (auto; apply Hv).
  assert (Wp : arr_wf (2 * (n - 2) + 1) (mkArr (2 * n - 3) product)).
  { split; cbn [a_size a_vals]; [lia|]. unfold product. rewrite tab_length. lia. }
  rewrite (C30_heat_restriction_values (n - 2)) by auto. cbn [a_vals]. unfold product. rewrite !at_tab by lia.
  destruct (C30_heat_transfer_shapes (n - 2) (mkArr (2 * n - 3) product) Wp) as [_ Wi]. specialize (Wi v Hv). destruct Wi as [_ Li].
  rewrite !Rf by lia.
  set (g := on_grid (a_vals (heat_interpolation v))).
  assert (Godd : forall j, (j <= n - 2)%nat -> g (2 * j + 1)%nat = (on_grid (a_vals v) j + on_grid (a_vals v) (j + 1)) / 2).
  { intros j Hj. unfold g. replace (2 * j + 1)%nat with (Datatypes.S (2 * j)) by lia. cbn [on_grid].
    destruct (C30_heat_interpolation_values (n - 2) v (2 * j) Hv) as [_ E]. rewrite (E j) by lia.
    replace (j + 1)%nat with (Datatypes.S j) by lia. destruct j; reflexivity. }
  assert (Gev : forall j, (j <= n - 1)%nat -> g (2 * j)%nat = on_grid (a_vals v) j).
  { intros j Hj. unfold g. destruct j as [|j]; [reflexivity|]. replace (2 * Datatypes.S j)%nat with (Datatypes.S (2 * j + 1)) by lia. cbn [on_grid].
    destruct (Nat.eq_dec j (n - 2)) as [->|Nj].
    - rewrite !at_out; auto. { destruct Hv. lia. } rewrite Li. lia.
    - destruct (C30_heat_interpolation_values (n - 2) v (2 * j + 1) Hv) as [O _]. apply O; lia. }
  unfold second_difference.
  replace (2 * i + 1)%nat with (2 * i + 1)%nat by lia.
  rewrite (Godd i) by lia.
  replace (2 * i + 1 - 1)%nat with (2 * i)%nat by lia. rewrite (Gev i) by lia.
  replace (2 * i + 1 + 1)%nat with (2 * (i + 1))%nat by lia. rewrite (Gev (i + 1)%nat) by lia.
  replace (2 * (i + 1) - 1)%nat with (2 * i + 1)%nat by lia. rewrite (Godd i) by lia.
  rewrite (Godd (i + 1)%nat) by lia.
  replace (2 * i + 2 + 1)%nat with (2 * (i + 1) + 1)%nat by lia. rewrite (Godd (i + 1)%nat) by lia.
  replace (2 * (i + 1) + 1 - 1)%nat with (2 * (i + 1))%nat by lia. rewrite (Gev (i + 1)%nat) by lia.
  replace (2 * (i + 1) + 1 + 1)%nat with (2 * (i + 2))%nat by lia. rewrite (Gev (i + 2)%nat) by lia.
  replace (i + 1 - 1)%nat with i by lia. replace (i + 1 + 1)%nat with (i + 2)%nat by lia.
  unfold spacing. replace (2 * n - 1 - 1)%nat with (2 * (n - 1))%nat by lia. rewrite mult_INR.
  assert (Q : INR (n - 1) <> 0) by (apply not_0_INR; lia). change (INR 2) with (1 + 1).
  field. repeat split; try exact Q; lra.
Qed.
(** restricting an interpolated vector smooths it: this pair of transfers is not lossless, C09's faster bound does not apply *)
Theorem C63_restrict_interpolate : forall m v i, arr_wf m v -> (i < m)%nat ->
  at_ (a_vals (heat_restriction (heat_interpolation v))) i =
  (on_grid (a_vals v) i + 6 * on_grid (a_vals v) (i + 1) + on_grid (a_vals v) (i + 2)) / 8.
Proof.
  intros m v i Hv Hi.
  destruct (C30_heat_transfer_shapes m (arr_zeros (2 * m + 1)) (arr_zero_wf _)) as [_ Wi]. specialize (Wi v Hv).
  rewrite (C30_heat_restriction_values m) by auto.
  destruct (C30_heat_interpolation_values m v (2 * i) Hv) as [_ E1]. destruct (C30_heat_interpolation_values m v (2 * i + 1) Hv) as [O _].
  destruct (C30_heat_interpolation_values m v (2 * i + 2) Hv) as [_ E2].
  rewrite (E1 i), (O i), (E2 (i + 1)%nat) by lia. replace (i + 1)%nat with (Datatypes.S i) by lia. replace (i + 2)%nat with (Datatypes.S (Datatypes.S i)) by lia.
  cbn [left_of on_grid]. destruct i; cbn [left_of on_grid]; lra.
Qed.
Theorem C63_lossless_refuted : exists nx coarsen, nested_grids nx coarsen /\
  forall x_start x_end mat rhs init_cond tm, ~ @lossless (spatial_app x_start x_end nx mat rhs init_cond coarsen tm) (inner nx).
Proof.
  exists (fun l => if (l =? 0)%nat then 7%nat else 4%nat), (fun l => (l =? 0)%nat). split.
  - intros [|l]; simpl; lia.
  - intros xs xe mat rhs init tm H. specialize (H 0%nat (mkArr 5 [8; 0; 0; 0; 0])). simpl in H.
    assert (Q : inner (fun l => if (l =? 0)%nat then 7%nat else 4%nat) 0 (mkArr 5 [8; 0; 0; 0; 0])) by (split; reflexivity).
    specialize (H Q). apply (f_equal a_vals) in H. unfold spatial_interpolation, spatial_restriction in H. cbn in H. injection H. intros. lra.
Qed.

(** ** The example itself: 129 time points on 4 levels, 17, 9, 5 and 5 grid points in space, default options *)
Definition example_nx (l : nat) : nat := nth l [17; 9; 5]%nat 5%nat.
Definition example_coarsen (l : nat) : bool := (l <? 2)%nat.
Lemma example_nested : nested_grids example_nx example_coarsen.
Proof. intros [|[|[|[|l]]]]; cbn; lia. Qed.
Definition example_time (z : Z) : R := IZR z / 64.
Definition example_grids : list (list Z) := [grid_of 129 1; grid_of 65 2; grid_of 33 4; grid_of 17 8].
Definition example_opts (A : App) (w tol : Sc A) : Opts A :=
  mkOpts A example_grids 3 w 100 tol true (CfInt 1) (Some false) 1 false 2 None 0 ascending_order.
Example C63_hypotheses_hold : forall P, (0 < P)%nat -> (P <= 129)%nat -> exists mat, matrices 0 2 1 example_nx mat /\
  let rhs := fun (x : list R) t => map (fun x => - sin (PI * x) * (sin t - 1 * PI ^ 2 * cos t)) x in
  let init_cond := map (fun x => sin (PI * x)) in
  let A := spatial_app 0 2 example_nx mat rhs init_cond example_coarsen example_time in
  (forall x, length (init_cond x) = length x) /\ (forall x t, length (rhs x t) = length x) /\
  (forall s t, (s <= t)%Z -> example_time s <= example_time t) /\
  let o := example_opts A 1 (1 / 10000000) in
  @good_setup A (inner example_nx) o P /\ length (nth 1 (o_grids o) []) = 65%nat /\ cf_count o 0 = 1%nat /\ o_max_iter o = 100%nat.
Proof.
  intros P HP HP'.
  assert (M : exists mat, matrices 0 2 1 example_nx mat).
  { destruct (C32_heat1d_matrix 0 2 17 1 ltac:(lia)) as [m0 [E0 _]]. destruct (C32_heat1d_matrix 0 2 9 1 ltac:(lia)) as [m1 [E1 _]].
    destruct (C32_heat1d_matrix 0 2 5 1 ltac:(lia)) as [m2 [E2 _]].
    exists (fun l => nth l [m0; m1; m2] m2). intros [|[|[|[|l]]]]; assumption. }
  destruct M as [mat M]. exists mat. split; [exact M|]. intros rhs init A.
  split; [intros; apply map_length|]. split; [intros; apply map_length|].
  split. { intros s t Hst. unfold example_time. apply IZR_le in Hst. lra. }
  intros o. split; [|repeat split; reflexivity]. constructor.
  - apply (C63_solver_hypotheses 0 2 example_nx mat rhs init example_coarsen example_time example_nested). intros; apply map_length.
  - apply valid_hierarchyb_ok. vm_compute. reflexivity.
  - apply no_adjacentb_ok. vm_compute. reflexivity.
  - simpl. lia.
  - exact HP.
  - transitivity (if (129 <? P)%nat then Some (UserException 10) else None); [lazy; reflexivity|]. replace (129 <? P)%nat with false by (symmetry; apply Nat.ltb_ge; lia). reflexivity.
  - left; reflexivity.
  - apply ascending_order_ok.
  - discriminate.
  - discriminate.
Qed.
(** Galerkin product on 5 and 9 points of [0, 8]: h = 2 and 1 *)
Example C63_galerkin_example : exists coarse, heat_matrix 1 (heat_dx (heat_x 0 8 5)) 3 = Some coarse /\ mv 3 coarse (at_ [4; 8; 0]) 1 = 3.
Proof.
  destruct (C32_heat1d_matrix 0 8 5 1 ltac:(lia)) as [L [E H]]. exists L. split; [exact E|].
  change 3%nat with (5 - 2)%nat. rewrite H by (cbn; lia). unfold second_difference, spacing. cbn. lra.
Qed.

Print Assumptions C63_solver_hypotheses.
Print Assumptions C63_backward_euler.
Print Assumptions C63_level_equations.
Print Assumptions C63_galerkin.
Print Assumptions C63_restrict_interpolate.
Print Assumptions C63_lossless_refuted.
Print Assumptions C63_hypotheses_hold.
