(** C71: how far the result of a run for the heat equation in two dimensions is from the solution of the differential equation. *)
From Coq Require Import Reals Lra List ZArith Lia Arith Bool Sorted.
From Verif Require Import Net NetProofs NetExec PyList ListFacts Setup Spec SetupProofs Mgrit Reference RefProofs Sim Main ParallelProofs ExampleApp OrderProofs
  Algebra PropAlgebra LinAlg Vectors Apps AppProofs PropVectors PropParareal Spatial PropSpatial PropAccuracy PropApps.
Import ListNotations.
Local Open Scope R_scope.

(** The application: Heat2D on all levels with GridTransferCopy; the methods of the levels ([theta]: BE 1, CN 1/2, FE 0) may differ.
    [init]: initial condition and [f]: right-hand side at the grid points. *)
Definition heat2d_app (nx ny : nat) (L : matrix) (bcl bcr bcb bct : nat -> R) (f : nat -> nat -> R -> R) (init : nat -> nat -> R)
  (theta : nat -> R) (tm : Z -> R) : App :=
  app_of VectorArr2 (fun l => heat2d_step nx ny L bcl bcr bcb bct f (theta l)) (fun _ => arr2_zeros nx ny)
    (fun _ => heat2d_start nx ny bcl bcr bcb bct init) tm.

(** largest difference of two states *)
Definition max_diff2 (n : nat) (u v : Arr2) : R := fold_right Rmax 0 (map (fun k => Rabs (at_ (b_vals u) k - at_ (b_vals v) k)) (seq 0 n)).
Lemma max_diff2_ge n u v i : (i < n)%nat -> Rabs (at_ (b_vals u) i - at_ (b_vals v) i) <= max_diff2 n u v.
Proof.
  intros H. unfold max_diff2. assert (I : In i (seq 0 n)) by (apply in_seq; lia). clear H. induction (seq 0 n) as [|k l IH]; [destruct I|].
  cbn [map fold_right]. destruct I as [->|I]; [apply Rmax_l|]. eapply Rle_trans; [apply IH; exact I|apply Rmax_r].
Qed.
Lemma max_diff2_nonneg n u v : 0 <= max_diff2 n u v.
Proof. unfold max_diff2. induction (seq 0 n) as [|k l IH]; [apply Rle_refl|]. cbn [map fold_right]. eapply Rle_trans; [exact IH|apply Rmax_r]. Qed.
Lemma max_diff2_le n u v M : 0 <= M -> (forall i, (i < n)%nat -> Rabs (at_ (b_vals u) i - at_ (b_vals v) i) <= M) -> max_diff2 n u v <= M.
Proof.
  intros HM H. unfold max_diff2. assert (I : forall i, In i (seq 0 n) -> (i < n)%nat) by (intros i Hi; apply in_seq in Hi; lia).
  induction (seq 0 n) as [|k l IH]; [exact HM|]. cbn [map fold_right]. apply Rmax_lub; [apply H, I; left; reflexivity|]. apply IH. intros i Hi. apply I. right; exact Hi.
Qed.

Section Heat2DRuns.
  Variables (xs xe ys ye a : R) (nx ny : nat).
  Hypothesis Hnx : (2 <= nx)%nat.
  Hypothesis Hny : (2 <= ny)%nat.
  Variable L : matrix.
  Hypothesis EL : heat2d_matrix a (heat_dx (linspace xs xe nx)) (heat_dx (linspace ys ye ny)) nx ny = Some L.
  Hypothesis Ha : 0 <= a.
  Hypothesis Hx : xs <> xe.
  Hypothesis Hy : ys <> ye.
  Variables bcl bcr bcb bct : nat -> R.
  Variable f : nat -> nat -> R -> R.
  Variable init : nat -> nat -> R.
  Variable theta : nat -> R.
  Variable tm : Z -> R.
  Notation n := (nx * ny)%nat.
  Notation A := (heat2d_app nx ny L bcl bcr bcb bct f init theta tm).
  Notation lap := (five_point xs xe ys ye a nx ny).
  Notation val := (grid2 ny).

  Lemma in_int i j : inner nx ny i j <-> interior nx ny i j = true.
  Proof. apply inner_interior; assumption. Qed.
  Lemma be_bound dt v w M : 0 <= dt -> 0 <= M ->
    (forall i j, (i < nx)%nat -> (j < ny)%nat ->
      (~ inner nx ny i j -> val v i j = val w i j) /\
      (inner nx ny i j -> Rabs ((val v i j + dt * lap (val v) i j) - (val w i j + dt * lap (val w) i j)) <= M)) ->
    forall k, (k < n)%nat -> Rabs (at_ v k - at_ w k) <= M.
  Proof.
    intros Hd HM H k Hk.
    pose proof (implicit_zmatrix n L dt (L_lmatrix xs xe ys ye a nx ny Hnx Hny L EL Ha Hx Hy) Hd) as Z.
    set (B := madd (mscal dt L) mident) in *.
    assert (R : forall q, (q < n)%nat -> Rabs (mv n B (at_ v) q - mv n B (at_ w) q) <= M).
    { intros q Hq. destruct (idx_split nx ny q Hq) as (i & j & Hi & Hj & ->). unfold B. rewrite !mv_madd, !mv_mscal, !mv_mident by exact Hq.
      destruct (L_row xs xe ys ye a nx ny Hnx Hny L EL v i j Hi Hj) as [R1 R2]. destruct (L_row xs xe ys ye a nx ny Hnx Hny L EL w i j Hi Hj) as [R3 R4].
      destruct (H i j Hi Hj) as [H1 H2]. rewrite in_int in *. destruct (interior nx ny i j) eqn:I.
      - rewrite R1, R3 by auto. specialize (H2 eq_refl). unfold grid2 at 1 3 in H2. eapply Rle_trans; [|exact H2]. apply Req_le. f_equal. ring.
      - rewrite R2, R4 by congruence. specialize (H1 ltac:(congruence)). unfold grid2 in H1. rewrite H1.
        replace (dt * 0 + at_ w (i * ny + j) - (dt * 0 + at_ w (i * ny + j))) with 0 by ring. rewrite Rabs_R0. exact HM. }
    apply Rabs_le. split.
    - enough (at_ w k - at_ v k <= M) by lra. apply (zmatrix_max n B 1 (fun q => at_ w q - at_ v q) M Z HM); auto.
      intros q Hq. rewrite mv_minus. specialize (R q Hq). pose proof (Rle_abs (- (mv n B (at_ v) q - mv n B (at_ w) q))) as Q. rewrite Rabs_Ropp in Q. lra.
    - apply (zmatrix_max n B 1 (fun q => at_ v q - at_ w q) M Z HM); auto.
      intros q Hq. rewrite mv_minus. specialize (R q Hq). pose proof (Rle_abs (mv n B (at_ v) q - mv n B (at_ w) q)) as Q. lra.
  Qed.

  Lemma h2_step_wf th u ta tb : length (b_vals u) = n -> arr2_wf nx ny (heat2d_step nx ny L bcl bcr bcb bct f th u ta tb).
  Proof.
    intros Hu. unfold heat2d_step, arr2_wf, arr2_set, arr2_zeros. cbn [b_nx b_ny b_vals]. split; [reflexivity|]. split; [reflexivity|].
    destruct (Req_EM_T th 0); [unfold add_interior; apply tab_length|apply spsolve_length].
  Qed.
  Lemma h2_laws :
    app_laws A (fun _ => arr2_wf nx ny) /\ exact_laws A (fun _ => arr2_wf nx ny) (fun _ => arr2_zeros nx ny) /\ @lossless A (fun _ => arr2_wf nx ny) /\
    forall o : Opts A, @weight_mean A (fun _ => arr2_wf nx ny) o /\ (o_weight o = 1 -> @weight_one A (fun _ => arr2_wf nx ny) o).
  Proof.
    apply C29_solver_hypotheses.
    - apply C29_array2_laws.
    - intros l u ta tb (_ & _ & Hu). apply h2_step_wf. exact Hu.
    - intros _. unfold arr2_wf, arr2_zeros. cbn [b_nx b_ny b_vals]. rewrite repeat_length. auto.
    - intros _. unfold arr2_wf, heat2d_start, arr2_set, arr2_zeros. cbn [b_nx b_ny b_vals]. split; [reflexivity|]. split; [reflexivity|]. apply set_bcs_length.
  Qed.

  Variable o : Opts A.
  Lemma h2_stepping_wf i : arr2_wf nx ny (time_stepping o i).
  Proof.
    destruct h2_laws as (W & _). induction i as [|i IH]; cbn [time_stepping]; [apply (wf_clone _ _ W 0%nat), (wf_tstart _ _ W 0%nat)|apply (wf_phi _ _ W 0%nat), IH].
  Qed.
  (** the equations of a step *)
  Lemma h2_step_scheme (u : Vec A) s s' : theta 0%nat = 1 \/ theta 0%nat = 1 / 2 -> arr2_wf nx ny u -> tm s <= tm s' ->
    theta_scheme xs xe ys ye a nx ny bcl bcr bcb bct f (theta 0%nat) (tm s) (tm s') (b_vals u) (b_vals (phi A 0 u s s')).
  Proof.
    intros Ht (_ & _ & Hu) Hs.
    apply (C32_heat2d_step xs xe ys ye a nx ny Hnx Hny L EL Ha Hx Hy bcl bcr bcb bct f (theta 0%nat) u (tm s) (tm s') _ Ht Hs Hu).
    change (phi A 0 u s s') with (heat2d_step nx ny L bcl bcr bcb bct f (theta 0%nat) u (tm s) (tm s')). reflexivity.
  Qed.
  (** a backward Euler step does not enlarge the largest difference *)
  Lemma h2_step_contracts (u v : Vec A) s s' : theta 0%nat = 1 -> arr2_wf nx ny u -> arr2_wf nx ny v -> tm s <= tm s' ->
    max_diff2 n (phi A 0 u s s') (phi A 0 v s s') <= max_diff2 n u v.
  Proof.
    intros Ht Hu Hv Hs. pose proof (max_diff2_nonneg n u v) as N. apply max_diff2_le; [exact N|].
    apply (be_bound (tm s' - tm s)); [lra|exact N|]. intros i j Hi Hj.
    destruct (h2_step_scheme u s s' (or_introl Ht) Hu Hs) as [_ E1]. destruct (h2_step_scheme v s s' (or_introl Ht) Hv Hs) as [_ E2].
    destruct (E1 i j Hi Hj) as [B1 I1]. destruct (E2 i j Hi Hj) as [B2 I2]. split.
    - intros Nn. rewrite B1, B2 by exact Nn. reflexivity.
    - intros In. specialize (I1 In). specialize (I2 In). rewrite Ht in I1, I2.
      eapply Rle_trans; [|apply (max_diff2_ge n u v (i * ny + j)); apply idx_bound; assumption]. apply Req_le. f_equal. unfold grid2 in *. lra.
  Qed.

  (** [U]: values of a solution of the differential equation at the grid points *)
  Variable U : nat -> nat -> R -> R.
  Variable tau : R.
  Hypothesis HV : valid_hierarchy (o_grids o).
  Hypothesis Hm : forall s t, (s <= t)%Z -> tm s <= tm t.
  Notation points := (nth 0 (o_grids o) []).
  Notation t := (fun i => tm (nth i points 0%Z)).
  Hypothesis Hth : theta 0%nat = 1.
  Hypothesis Hbound : forall k i j, (k < length points)%nat -> (i < nx)%nat -> (j < ny)%nat -> ~ inner nx ny i j ->
    U i j (t k) = boundary_value nx ny bcl bcr bcb bct i j.
  Hypothesis Hinit : forall i j, inner nx ny i j -> U i j (t 0%nat) = init i j.
  Hypothesis Htau : 0 <= tau.
  Hypothesis Htrunc : forall k i j, (S k < length points)%nat -> inner nx ny i j ->
    Rabs (U i j (t (S k)) - U i j (t k) + (t (S k) - t k) * (lap (fun i j => U i j (t (S k))) i j - f i j (t (S k)))) <= (t (S k) - t k) * tau.

  Lemma h2_t_mono i : (S i < length points)%nat -> t i <= t (S i).
  Proof using HV Hm.
    clear Hbound Hinit Htrunc Hth Htau Hnx Hny. intros Hi. apply Hm. destruct HV as (HV0 & HV1 & _). destruct (HV1 0%nat) as [HS _]; [destruct (o_grids o); [congruence|simpl; lia]|].
    apply Z.lt_le_incl. apply (ssorted_incr _ HS); lia.
  Qed.
  Definition on_list (s : R) : list R := tab n (fun k => U (k / ny) (k mod ny) s)%nat.
  Lemma on_list_at s i j : (i < nx)%nat -> (j < ny)%nat -> val (on_list s) i j = U i j s.
  Proof. intros Hi Hj. unfold grid2, on_list. rewrite at_tab by (apply idx_bound; assumption). destruct (divmod_idx ny i j Hj) as [-> ->]. reflexivity. Qed.
  Lemma on_list_lap s i j : inner nx ny i j -> lap (val (on_list s)) i j = lap (fun i j => U i j s) i j.
  Proof. intros (H1 & H2 & H3 & H4). unfold five_point, second_difference. rewrite !on_list_at by lia. reflexivity. Qed.

  Lemma h2_stepping_error k : (k < length points)%nat ->
    0 <= t k - t 0%nat /\
    forall q, (q < n)%nat -> Rabs (at_ (b_vals (time_stepping o k)) q - at_ (on_list (t k)) q) <= tau * (t k - t 0%nat).
  Proof.
    induction k as [|k IH]; intros Hk.
    - split; [lra|]. intros q Hq. destruct (idx_split nx ny q Hq) as (i & j & Hi & Hj & ->).
      pose proof (C33_start_values nx ny Hnx Hny bcl bcr bcb bct init i j Hi Hj) as S0.
      change (b_vals (time_stepping o 0)) with (b_vals (heat2d_start nx ny bcl bcr bcb bct init)).
      change (Rabs (val (b_vals (heat2d_start nx ny bcl bcr bcb bct init)) i j - val (on_list (t 0%nat)) i j) <= tau * (t 0%nat - t 0%nat)).
      rewrite S0, on_list_at by assumption.
      assert (E : (if interior nx ny i j then init i j else boundary_value nx ny bcl bcr bcb bct i j) = U i j (t 0%nat)).
      { destruct (interior nx ny i j) eqn:I.
        - symmetry. apply Hinit. apply in_int. exact I.
        - symmetry. apply Hbound; auto. rewrite in_int. congruence. }
      rewrite E, Rminus_diag_eq by reflexivity. rewrite Rabs_R0. lra.
    - destruct (IH ltac:(lia)) as [T0 E]. pose proof (h2_t_mono k Hk) as Tm. cbv beta in T0, E, Tm. split; [lra|].
      apply (be_bound (t (S k) - t k)); [lra|apply Rmult_le_pos; lra|]. intros i j Hi Hj.
      destruct (h2_step_scheme (time_stepping o k) (nth k points 0%Z) (nth (S k) points 0%Z) (or_introl Hth) (h2_stepping_wf k) Tm) as [_ Q].
      destruct (Q i j Hi Hj) as [Q1 Q2]. change (phi A 0 (time_stepping o k) (nth k points 0%Z) (nth (S k) points 0%Z)) with (time_stepping o (S k)) in Q1, Q2.
      rewrite on_list_at by assumption. split.
      + intros Nn. rewrite Q1 by exact Nn. symmetry. apply Hbound; auto.
      + intros In. specialize (Q2 In). rewrite Hth in Q2. rewrite on_list_lap by exact In. pose proof (Htrunc k i j Hk In) as T.
        specialize (E (i * ny + j)%nat (idx_bound nx ny i j Hi Hj)). fold (val (b_vals (time_stepping o k)) i j) in E. fold (val (on_list (t k)) i j) in E.
        rewrite on_list_at in E by assumption. cbv beta in *.
        set (e := val (b_vals (time_stepping o k)) i j - U i j (tm (nth k points 0%Z))) in *.
        set (r := U i j (tm (nth (S k) points 0%Z)) - U i j (tm (nth k points 0%Z)) +
          (tm (nth (S k) points 0%Z) - tm (nth k points 0%Z)) * (lap (fun i j => U i j (tm (nth (S k) points 0%Z))) i j - f i j (tm (nth (S k) points 0%Z)))) in *.
        replace (val (b_vals (time_stepping o (S k))) i j + (tm (nth (S k) points 0%Z) - tm (nth k points 0%Z)) * lap (val (b_vals (time_stepping o (S k)))) i j -
          (U i j (tm (nth (S k) points 0%Z)) + (tm (nth (S k) points 0%Z) - tm (nth k points 0%Z)) * lap (fun i j => U i j (tm (nth (S k) points 0%Z))) i j))
          with (e + - r) by (unfold e, r; lra).
        eapply Rle_trans; [apply Rabs_triang|]. rewrite Rabs_Ropp. lra.
  Qed.
End Heat2DRuns.

Theorem C71_heat2d_error : forall x_start x_end y_start y_end a nx ny L bcl bcr bcb bct f init theta tm (U : nat -> nat -> R -> R) tau,
  (2 <= nx)%nat -> (2 <= ny)%nat -> 0 <= a -> x_start <> x_end -> y_start <> y_end ->
  heat2d_matrix a (heat_dx (linspace x_start x_end nx)) (heat_dx (linspace y_start y_end ny)) nx ny = Some L ->
  (forall s t, (s <= t)%Z -> tm s <= tm t) -> theta 0%nat = 1 -> 0 <= tau ->
  let A := heat2d_app nx ny L bcl bcr bcb bct f init theta tm in
  forall (o : Opts A) (P n : nat) cfg,
  @good_setup A (fun _ => arr2_wf nx ny) o P -> (o_dist o <> None -> (1 < length (o_grids o))%nat) ->
  let points := nth 0 (o_grids o) [] in
  let t := fun i => tm (nth i points 0%Z) in
  (forall k i j, (k < length points)%nat -> (i < nx)%nat -> (j < ny)%nat -> ~ inner nx ny i j -> U i j (t k) = boundary_value nx ny bcl bcr bcb bct i j) ->
  (forall i j, inner nx ny i j -> U i j (t 0%nat) = init i j) ->
  (forall k i j, (S k < length points)%nat -> inner nx ny i j ->
    Rabs (U i j (t (S k)) - U i j (t k) +
      (t (S k) - t k) * (five_point x_start x_end y_start y_end a nx ny (fun i j => U i j (t (S k))) i j - f i j (t (S k)))) <= (t (S k) - t k) * tau) ->
  steps P n (initial (mgrit_main o P)) cfg -> stuck P cfg ->
  exists res k, finished P res cfg /\ (forall r, (r < P)%nat -> s_iter (res r) = k) /\
    let u : list Arr2 := gathered P (fun r => s_u (res r) 0) in
    length u = length points /\
    let error := fun q i j => Rabs (grid2 ny (b_vals (nth q u (arr2_zeros 0 0))) i j - U i j (t q)) in
    (o_weight o = 1 -> (0 < k)%nat -> (length (nth 1 (o_grids o) []) <= k * cf_count o 0 + 1)%nat ->
     forall q i j, (q < length points)%nat -> (i < nx)%nat -> (j < ny)%nat -> error q i j <= tau * (t q - t 0%nat)) /\
    (o_conv_crit o = 0%Z -> (k < o_max_iter o)%nat ->
     forall q i j, (q < length points)%nat -> (i < nx)%nat -> (j < ny)%nat -> error q i j <= tau * (t q - t 0%nat) + INR (cpoints_upto o q) * o_tol o).
Proof.
  intros xs xe ys ye a nx ny L bcl bcr bcb bct f init theta tm U tau Hnx Hny Ha Hx Hy EL Hm Hth Htau A o P n cfg G HD points t Hbd Hin Htr H St0.
  destruct (h2_laws nx ny L bcl bcr bcb bct f init theta tm) as (AL & E & _ & W). destruct (W o) as [_ W1].
  set (m := (nx * ny)%nat) in *.
  pose proof (gs_grids _ _ _ G) as HV.
  assert (SA : forall q i j, (q < length points)%nat -> (i < nx)%nat -> (j < ny)%nat ->
    Rabs (grid2 ny (b_vals (time_stepping o q)) i j - U i j (t q)) <= tau * (t q - t 0%nat)).
  { intros q i j Hq Hi Hj.
    destruct (h2_stepping_error xs xe ys ye a nx ny Hnx Hny L EL Ha Hx Hy bcl bcr bcb bct f init theta tm o U tau HV Hm Hth Hbd Hin Htau Htr q Hq) as [_ B].
    specialize (B (i * ny + j)%nat (idx_bound nx ny i j Hi Hj)).
    pose proof (on_list_at nx ny U (t q) i j Hi Hj) as E1. rewrite <- E1. exact B. }
  assert (Mono : forall i, (S i < length points)%nat -> t i <= t (S i)).
  { intros i Hi. exact (h2_t_mono nx ny L bcl bcr bcb bct f init theta tm o HV Hm i Hi). }
  destruct (@run_facts A (fun _ => arr2_wf nx ny) o P n cfg G H St0) as (res & k & F & _ & K2 & Hu & Hk & _ & _ & Hst & Hh & _). exists res, k.
  split; [exact F|]. split; [exact Hk|]. intros u.
  assert (Lu : length u = length points) by (unfold u; rewrite Hu, map_length, seq_length; reflexivity). split; [exact Lu|]. intros error.
  assert (HP : (0 < P)%nat) by apply (gs_procs _ _ _ G).
  split.
  - intros Hw Hk0 Hcc q i j Hq Hi Hj.
    destruct (C09_exact_after_enough_iterations A (fun _ => arr2_wf nx ny) _ o P n cfg G E (W1 Hw) HD H St0) as (res' & k' & F' & Hk' & X).
    assert (Er : forall r, (r < P)%nat -> res' r = res r) by (intros r Hr; apply (finished_res_unique P cfg res' res F' F r Hr)).
    assert (k' = k) by (rewrite <- (Hk 0%nat HP), <- (Hk' 0%nat HP), Er by exact HP; reflexivity). subst k'.
    specialize (X Hk0 (or_introl Hcc)).
    assert (Eu : u = map (time_stepping o) (seq 0 (length points))).
    { etransitivity; [|exact X]. unfold u, gathered. f_equal. apply map_ext_in. intros r Hr. apply in_seq in Hr. rewrite Er by lia. reflexivity. }
    assert (En : nth q u (arr2_zeros 0 0) = time_stepping o q).
    { rewrite Eu. rewrite (nth_indep _ _ (time_stepping o 0)) by (rewrite map_length, seq_length; auto).
      rewrite (map_nth (time_stepping o)), seq_nth by auto. reflexivity. }
    unfold error. rewrite En. apply SA; assumption.
  - intros Hcc Hkm q i j Hq Hi Hj.
    destruct (C53_residual_bounds_error A (fun _ => arr2_wf nx ny) o P n cfg (max_diff2 m) 1 (Rmax 0 (o_tol o))) as (res' & k' & F' & Hk' & X); auto.
    + intros y. apply Rle_antisym; [|apply max_diff2_nonneg]. apply max_diff2_le; [lra|]. intros p _.
      replace (at_ (b_vals y) p - at_ (b_vals y) p) with 0 by ring. rewrite Rabs_R0. lra.
    + intros y z w. pose proof (max_diff2_nonneg m y z). pose proof (max_diff2_nonneg m z w). apply max_diff2_le; [lra|]. intros p Hp.
      pose proof (max_diff2_ge m y z p Hp). pose proof (max_diff2_ge m z w p Hp).
      replace (at_ (b_vals y) p - at_ (b_vals w) p) with ((at_ (b_vals y) p - at_ (b_vals z) p) + (at_ (b_vals z) p - at_ (b_vals w) p)) by ring.
      eapply Rle_trans; [apply Rabs_triang|]. lra.
    + apply Rle_refl.
    + intros y z p Hp Wy Wz. cbv zeta. rewrite Rmult_1_l.
      apply (h2_step_contracts xs xe ys ye a nx ny Hnx Hny L EL Ha Hx Hy bcl bcr bcb bct f init theta tm y z _ _ Hth Wy Wz). apply Mono. exact Hp.
    + intros y z Wy Wz Hyz. cbn [A heat2d_app app_of app_with sc_lt vnorm vsub VectorArr2 c_norm c_sub] in Hyz.
      destruct (Rlt_dec _ _) as [Y|]; [|discriminate]. pose proof (Rmax_r 0 (o_tol o)) as M1. apply max_diff2_le; [apply Rmax_l|]. intros p Hp.
      eapply Rle_trans; [|exact M1]. eapply Rle_trans; [|left; exact Y]. cbn [b_vals arr2_set].
      destruct Wy as (_ & _ & Ly), Wz as (_ & _ & Lz).
      rewrite <- (at_vminus (b_vals y) (b_vals z) m p Ly Lz Hp). apply norm2_entry. apply nth_In. rewrite (vminus_length _ _ m Ly Lz). exact Hp.
    + apply Rmax_l.
    + intros l y Wy Hlt z Wz. cbn [A heat2d_app app_of app_with sc_lt tnorm] in *. injection Wy as <-. destruct (Rlt_dec (norm2 l) _) as [Y|]; [|discriminate].
      destruct (Rlt_dec z _) as [|N]; [reflexivity|]. exfalso. apply N. pose proof (norm2_entry l z Wz). pose proof (Rle_abs z).
      eapply Rle_lt_trans; [|exact Y]. lra.
    + assert (Er : forall r, (r < P)%nat -> res' r = res r) by (intros r Hr; apply (finished_res_unique P cfg res' res F' F r Hr)).
      assert (k' = k) by (rewrite <- (Hk 0%nat HP), <- (Hk' 0%nat HP), Er by exact HP; reflexivity). subst k'.
      destruct (X Hkm q Hq) as (y & Ey & By).
      assert (Eu : gathered P (fun r => s_u (res' r) 0) = u).
      { unfold u, gathered. f_equal. apply map_ext_in. intros r Hr. apply in_seq in Hr. rewrite Er by lia. reflexivity. }
      rewrite Eu in Ey. apply (nth_error_nth _ _ (arr2_zeros 0 0)) in Ey. pose proof (SA q i j Hq Hi Hj) as S1.
      assert (T0 : 0 <= o_tol o).
      { specialize (Hst Hkm). specialize (Hh k (conj (K2 (Nat.le_lt_trans 0 k (o_max_iter o) (Nat.le_0_l k) Hkm)) (Nat.le_refl k))).
        symmetry in Hh. apply (nth_error_nth _ _ (sc_zero A)) in Hh. rewrite Hh in Hst.
        cbn [A heat2d_app app_of app_with sc_lt] in Hst.
        destruct (Rlt_dec _ _) as [Y|]; [|discriminate]. eapply Rle_trans; [|left; exact Y]. apply norm2_nonneg. }
      rewrite pow1, Rmult_1_l, Rmax_right in By by exact T0. unfold error. rewrite Ey.
      pose proof (max_diff2_ge m (time_stepping o q) y (i * ny + j) (idx_bound nx ny i j Hi Hj)) as D. unfold grid2 in S1 |- *.
      replace (at_ (b_vals y) (i * ny + j) - U i j (t q)) with
        ((at_ (b_vals (time_stepping o q)) (i * ny + j) - U i j (t q)) + - (at_ (b_vals (time_stepping o q)) (i * ny + j) - at_ (b_vals y) (i * ny + j))) by ring.
      eapply Rle_trans; [apply Rabs_triang|]. rewrite Rabs_Ropp. apply Rplus_le_compat; [exact S1|]. eapply Rle_trans; [exact D|exact By].
Qed.

(** /repo/examples/example_heat_2d.py 39-65: the right-hand side and the exact solution of the example (x_start = y_start = 0). *)
Definition example_rhs (xe ye a x y t : R) : R := 5 * x * (xe - x) * y * (ye - y) + 10 * a * t * (y * (ye - y) + x * (xe - x)).
Definition example_exact (xe ye x y t : R) : R := 5 * t * x * (xe - x) * y * (ye - y).

(** the values of the exact solution on the grid, [exact_sol(x=heat0.x_2d, y=heat0.y_2d, t)] (line 84) *)
Definition example_state (xe ye : R) (nx ny : nat) (t : R) : Arr2 :=
  mkArr2 nx ny (tab (nx * ny) (fun k => example_exact xe ye (INR (k / ny) * spacing 0 xe nx) (INR (k mod ny) * spacing 0 ye ny) t)).

Definition example2d_app (xe ye a : R) (nx ny : nat) (L : matrix) (theta : nat -> R) (tm : Z -> R) : App :=
  heat2d_app nx ny L (fun _ => 0) (fun _ => 0) (fun _ => 0) (fun _ => 0)
    (fun i j t => example_rhs xe ye a (INR i * spacing 0 xe nx) (INR j * spacing 0 ye ny) t) (fun _ _ => 0) theta tm.

Section Example2D.
  Variables (xe ye a : R) (nx ny : nat).
  Hypothesis Hnx : (2 <= nx)%nat.
  Hypothesis Hny : (2 <= ny)%nat.
  Hypothesis Hx : 0 <> xe.
  Hypothesis Hy : 0 <> ye.
  Notation U := (fun (i j : nat) (t : R) => example_exact xe ye (INR i * spacing 0 xe nx) (INR j * spacing 0 ye ny) t).
  Notation f := (fun (i j : nat) (t : R) => example_rhs xe ye a (INR i * spacing 0 xe nx) (INR j * spacing 0 ye ny) t).

  Lemma sp_last e n : (2 <= n)%nat -> INR (n - 1) * spacing 0 e n = e.
  Proof. intros Hn. unfold spacing. field. apply not_0_INR. lia. Qed.
  Lemma sp_nz e n : (2 <= n)%nat -> 0 <> e -> spacing 0 e n <> 0.
  Proof. intros Hn He E. apply He. rewrite <- (sp_last e n Hn), E. ring. Qed.
  Lemma ex_boundary i j t : (i < nx)%nat -> (j < ny)%nat -> ~ inner nx ny i j -> U i j t = 0.
  Proof.
    intros Hi Hj N. unfold example_exact.
    assert (C : i = 0%nat \/ i = (nx - 1)%nat \/ j = 0%nat \/ j = (ny - 1)%nat) by (unfold inner in N; lia).
    destruct C as [-> | [-> | [-> | ->]]]; rewrite ?sp_last by assumption; simpl INR; ring.
  Qed.
  Lemma sd_quadratic h e i : h <> 0 -> (0 < i)%nat -> second_difference h (fun k => (INR k * h) * (e - INR k * h)) i = 2.
  Proof. intros Hh Hi. unfold second_difference. rewrite minus_INR, plus_INR by lia. simpl INR. field. exact Hh. Qed.
  Lemma sd_scal h c g k : second_difference h (fun k => c * g k) k = c * second_difference h g k.
  Proof. unfold second_difference. unfold Rdiv. ring. Qed.
  Lemma sd_ext h g g' k : (forall q, g q = g' q) -> second_difference h g k = second_difference h g' k.
  Proof. intros E. unfold second_difference. rewrite !E. reflexivity. Qed.
  (** the five-point stencil is exact for the solution of the example *)
  Lemma ex_stencil i j t : inner nx ny i j ->
    five_point 0 xe 0 ye a nx ny (fun i j => U i j t) i j = f i j t - 5 * (INR i * spacing 0 xe nx) * (xe - INR i * spacing 0 xe nx) * (INR j * spacing 0 ye ny) * (ye - INR j * spacing 0 ye ny).
  Proof.
    intros (H1 & H2 & H3 & H4). unfold five_point.
    rewrite (sd_ext _ (fun k => U k j t) (fun k => (5 * t * (INR j * spacing 0 ye ny) * (ye - INR j * spacing 0 ye ny)) * ((INR k * spacing 0 xe nx) * (xe - INR k * spacing 0 xe nx))))
      by (intros q; unfold example_exact; ring).
    rewrite (sd_ext _ (fun j => U i j t) (fun k => (5 * t * (INR i * spacing 0 xe nx) * (xe - INR i * spacing 0 xe nx)) * ((INR k * spacing 0 ye ny) * (ye - INR k * spacing 0 ye ny))))
      by (intros q; unfold example_exact; ring).
    rewrite !sd_scal, !sd_quadratic by (auto using sp_nz). unfold example_rhs. ring.
  Qed.
  Lemma ex_scheme theta ta tb : theta_scheme 0 xe 0 ye a nx ny (fun _ => 0) (fun _ => 0) (fun _ => 0) (fun _ => 0) f theta ta tb
    (b_vals (example_state xe ye nx ny ta)) (b_vals (example_state xe ye nx ny tb)).
  Proof.
    assert (OL : forall s, b_vals (example_state xe ye nx ny s) = on_list nx ny U s) by reflexivity. rewrite !OL.
    split; [apply tab_length|]. intros i j Hi Hj. rewrite !on_list_at by assumption. split.
    - intros N. rewrite ex_boundary by assumption. unfold boundary_value. destruct (i =? 0)%nat, (i =? nx - 1)%nat, (j =? ny - 1)%nat; reflexivity.
    - intros I. rewrite !on_list_lap by assumption. rewrite !ex_stencil by exact I. unfold example_exact, example_rhs. ring.
  Qed.

  Variable L : matrix.
  Hypothesis EL : heat2d_matrix a (heat_dx (linspace 0 xe nx)) (heat_dx (linspace 0 ye ny)) nx ny = Some L.
  Hypothesis Ha : 0 <= a.
  Variable theta : nat -> R.
  Variable tm : Z -> R.
  Notation A := (example2d_app xe ye a nx ny L theta tm).
  Variable o : Opts A.
  Hypothesis HV : valid_hierarchy (o_grids o).
  Hypothesis Hm : forall s t, (s <= t)%Z -> tm s <= tm t.
  Hypothesis H0 : tm (nth 0 (nth 0 (o_grids o) []) 0%Z) = 0.
  Hypothesis Hth : theta 0%nat = 1 \/ theta 0%nat = 1 / 2.
  Lemma ex_stepping k : (k < length (nth 0 (o_grids o) []))%nat -> time_stepping o k = example_state xe ye nx ny (tm (nth k (nth 0 (o_grids o) []) 0%Z)).
  Proof.
    induction k as [|k IH]; intros Hk.
    - rewrite H0. change (time_stepping o 0) with (c_clone VectorArr2 (heat2d_start nx ny (fun _ => 0) (fun _ => 0) (fun _ => 0) (fun _ => 0) (fun _ _ => 0))).
      cbn [VectorArr2 c_clone heat2d_start arr2_set arr2_zeros b_nx b_ny b_vals]. unfold example_state, arr2_set. cbn [b_nx b_ny]. f_equal.
      set (sv := set_bcs _ _ _ _ _ _ _). assert (Ls : length sv = (nx * ny)%nat) by apply set_bcs_length.
      apply (nth_ext _ _ 0 0); [rewrite tab_length; exact Ls|]. rewrite Ls. intros q Hq. destruct (idx_split nx ny q Hq) as (i & j & Hi & Hj & ->).
      pose proof (C33_start_values nx ny Hnx Hny (fun _ => 0) (fun _ => 0) (fun _ => 0) (fun _ => 0) (fun _ _ => 0) i j Hi Hj) as S0.
      pose proof (on_list_at nx ny U 0 i j Hi Hj) as S1. unfold grid2, at_ in S0, S1. etransitivity; [exact S0|]. etransitivity; [|symmetry; exact S1].
      unfold example_exact, boundary_value. destruct (interior nx ny i j), (i =? 0)%nat, (i =? nx - 1)%nat, (j =? ny - 1)%nat; ring.
    - cbn [time_stepping]. rewrite IH by lia.
      apply (C32_heat2d_step 0 xe 0 ye a nx ny Hnx Hny L EL Ha Hx Hy (fun _ => 0) (fun _ => 0) (fun _ => 0) (fun _ => 0) f (theta 0%nat) _ _ _ _ Hth).
      + exact (h2_t_mono nx ny L _ _ _ _ _ _ theta tm o HV Hm k Hk).
      + apply tab_length.
      + apply ex_scheme.
  Qed.
End Example2D.

(** For the problem of the example, with Crank-Nicolson or backward Euler on level 0: the difference the script prints (lines 82-86) is 0. *)
Theorem C71_example_exact : forall xe ye a nx ny L theta tm,
  (2 <= nx)%nat -> (2 <= ny)%nat -> 0 <= a -> 0 <> xe -> 0 <> ye ->
  heat2d_matrix a (heat_dx (linspace 0 xe nx)) (heat_dx (linspace 0 ye ny)) nx ny = Some L ->
  (forall s t, (s <= t)%Z -> tm s <= tm t) -> theta 0%nat = 1 \/ theta 0%nat = 1 / 2 ->
  let A := example2d_app xe ye a nx ny L theta tm in
  forall (o : Opts A) (P n : nat) cfg,
  @good_setup A (fun _ => arr2_wf nx ny) o P -> (o_dist o <> None -> (1 < length (o_grids o))%nat) ->
  let points := nth 0 (o_grids o) [] in
  let t := fun i => tm (nth i points 0%Z) in
  t 0%nat = 0 ->
  steps P n (initial (mgrit_main o P)) cfg -> stuck P cfg ->
  exists res k, finished P res cfg /\ (forall r, (r < P)%nat -> s_iter (res r) = k) /\
    let u : list Arr2 := gathered P (fun r => s_u (res r) 0) in
    length u = length points /\
    let printed := rsum (length points) (fun i => max_diff2 (nx * ny) (nth i u (arr2_zeros 0 0)) (example_state xe ye nx ny (t i))) in
    (o_weight o = 1 -> (0 < k)%nat -> (length (nth 1 (o_grids o) []) <= k * cf_count o 0 + 1)%nat ->
     u = map (fun i => example_state xe ye nx ny (t i)) (seq 0 (length points)) /\ printed = 0) /\
    (theta 0%nat = 1 -> o_conv_crit o = 0%Z -> (k < o_max_iter o)%nat ->
     printed <= rsum (length points) (fun i => INR (cpoints_upto o i) * o_tol o)).
Proof.
  intros xe ye a nx ny L theta tm Hnx Hny Ha Hx Hy EL Hm Hth A o P n cfg G HD points t H0 H St0.
  pose proof (gs_grids _ _ _ G) as HV.
  pose proof (ex_stepping xe ye a nx ny Hnx Hny Hx Hy L EL Ha theta tm o HV Hm H0 Hth) as SA.
  destruct (h2_laws nx ny L (fun _ => 0) (fun _ => 0) (fun _ => 0) (fun _ => 0)
    (fun i j t => example_rhs xe ye a (INR i * spacing 0 xe nx) (INR j * spacing 0 ye ny) t) (fun _ _ => 0) theta tm) as (AL & E & _ & W). destruct (W o) as [_ W1].
  destruct (@run_facts A (fun _ => arr2_wf nx ny) o P n cfg G H St0) as (res & k & F & _ & K2 & Hu & Hk & _ & _ & Hst & Hh & _). exists res, k.
  split; [exact F|]. split; [exact Hk|]. intros u.
  assert (Lu : length u = length points) by (unfold u; rewrite Hu, map_length, seq_length; reflexivity). split; [exact Lu|]. intros printed.
  assert (HP : (0 < P)%nat) by apply (gs_procs _ _ _ G).
  split.
  - intros Hw Hk0 Hcc.
    destruct (C09_exact_after_enough_iterations A (fun _ => arr2_wf nx ny) _ o P n cfg G E (W1 Hw) HD H St0) as (res' & k' & F' & Hk' & X).
    assert (Er : forall r, (r < P)%nat -> res' r = res r) by (intros r Hr; apply (finished_res_unique P cfg res' res F' F r Hr)).
    assert (k' = k) by (rewrite <- (Hk 0%nat HP), <- (Hk' 0%nat HP), Er by exact HP; reflexivity). subst k'.
    specialize (X Hk0 (or_introl Hcc)).
    assert (Eu : u = map (fun i => example_state xe ye nx ny (t i)) (seq 0 (length points))).
    { transitivity (map (time_stepping o) (seq 0 (length points))).
      - etransitivity; [|exact X]. unfold u, gathered. f_equal. apply map_ext_in. intros r Hr. apply in_seq in Hr. rewrite Er by lia. reflexivity.
      - apply map_ext_in. intros i Hi. apply in_seq in Hi. apply SA. apply Hi. }
    split; [exact Eu|]. unfold printed. rewrite Eu. clear printed Eu. transitivity (rsum (length points) (fun _ => 0)).
    + apply rsum_ext. intros i Hi. rewrite (nth_indep _ _ (example_state xe ye nx ny (t 0%nat))) by (rewrite map_length, seq_length; exact Hi).
      rewrite (map_nth (fun i => example_state xe ye nx ny (t i))), seq_nth by exact Hi. apply Rle_antisym; [|apply max_diff2_nonneg].
      apply max_diff2_le; [lra|]. intros q _. rewrite Rminus_diag_eq by reflexivity. rewrite Rabs_R0. lra.
    + apply rsum_zero. reflexivity.
  - intros Ht1 Hcc Hkm.
    destruct (C71_heat2d_error 0 xe 0 ye a nx ny L (fun _ => 0) (fun _ => 0) (fun _ => 0) (fun _ => 0)
      (fun i j t => example_rhs xe ye a (INR i * spacing 0 xe nx) (INR j * spacing 0 ye ny) t) (fun _ _ => 0) theta tm
      (fun i j t => example_exact xe ye (INR i * spacing 0 xe nx) (INR j * spacing 0 ye ny) t) 0
      Hnx Hny Ha Hx Hy EL Hm Ht1 (Rle_refl 0) o P n cfg G HD) as (res' & k' & F' & Hk' & _ & X); auto.
    + intros q i j _ Hi Hj N. rewrite (ex_boundary xe ye nx ny Hnx Hny i j _ Hi Hj N). unfold boundary_value.
      destruct (i =? 0)%nat, (i =? nx - 1)%nat, (j =? ny - 1)%nat; reflexivity.
    + intros i j _. change (tm (nth 0 (nth 0 (o_grids o) []) 0%Z)) with (t 0%nat). rewrite H0. unfold example_exact. ring.
    + intros q i j Hq I. rewrite (ex_stencil xe ye a nx ny Hnx Hny Hx Hy i j _ I). rewrite Rmult_0_r. apply Req_le. rewrite <- Rabs_R0. f_equal. unfold example_exact. ring.
    + assert (Er : forall r, (r < P)%nat -> res' r = res r) by (intros r Hr; apply (finished_res_unique P cfg res' res F' F r Hr)).
      assert (k' = k) by (rewrite <- (Hk 0%nat HP), <- (Hk' 0%nat HP), Er by exact HP; reflexivity). subst k'.
      assert (Eu : gathered P (fun r => s_u (res' r) 0) = u).
      { unfold u, gathered. f_equal. apply map_ext_in. intros r Hr. apply in_seq in Hr. rewrite Er by lia. reflexivity. }
      rewrite Eu in X. destruct X as [_ X]. specialize (X Hcc Hkm). unfold printed. apply rsum_le. intros i Hi.
      assert (Z0 : forall y z, 0 * y + z = z) by (intros; ring).
      assert (T : 0 <= INR (cpoints_upto o i) * o_tol o).
      { specialize (X i 0%nat 0%nat Hi ltac:(lia) ltac:(lia)). cbv beta in X. rewrite Z0 in X. eapply Rle_trans; [|exact X]. apply Rabs_pos. }
      apply max_diff2_le; [exact T|]. intros q Hq. destruct (idx_split nx ny q Hq) as (i' & j' & Hi' & Hj' & ->).
      specialize (X i i' j' Hi Hi' Hj'). cbv beta in X. rewrite Z0 in X. 
      pose proof (on_list_at nx ny (fun i j t => example_exact xe ye (INR i * spacing 0 xe nx) (INR j * spacing 0 ye ny) t) (t i) i' j' Hi' Hj') as S1. unfold grid2 in S1, X.
      change (at_ (b_vals (example_state xe ye nx ny (t i))) (i' * ny + j')) with
        (at_ (on_list nx ny (fun i j t => example_exact xe ye (INR i * spacing 0 xe nx) (INR j * spacing 0 ye ny) t) (t i)) (i' * ny + j')).
      rewrite S1. exact X.
Qed.

(** The script itself: [0, 3/4] x [0, 3/2] with 55 x 125 points, a = 7/2, 33 and 17 time points in [0, 1], backward Euler, the defaults of Mgrit
    (two-level V-cycle, residual criterion, tol 1e-7, 100 iterations).  The hypotheses of both theorems hold for every number of processes up to 33;
    [C71_heat2d_error] with tau = 0. *)
Definition script_opts (A : App) (w tol : Sc A) : Opts A :=
  mkOpts A [grid_of 33 1; grid_of 17 2] 1 w 100 tol true (CfInt 1) (Some false) 1 true 2 None 0 ascending_order.
Example C71_hypotheses_hold : forall P, (0 < P)%nat -> (P <= 33)%nat -> exists L,
  let tm := fun z => IZR z / 32 in
  let A := example2d_app (3 / 4) (3 / 2) (7 / 2) 55 125 L (fun _ => 1) tm in
  let o := script_opts A 1 (1 / 10000000) in
  let points := nth 0 (o_grids o) [] in
  let t := fun i => tm (nth i points 0%Z) in
  let U := fun i j t => example_exact (3 / 4) (3 / 2) (INR i * spacing 0 (3 / 4) 55) (INR j * spacing 0 (3 / 2) 125) t in
  heat2d_matrix (7 / 2) (heat_dx (linspace 0 (3 / 4) 55)) (heat_dx (linspace 0 (3 / 2) 125)) 55 125 = Some L /\
  (forall s t, (s <= t)%Z -> tm s <= tm t) /\ @good_setup A (fun _ => arr2_wf 55 125) o P /\ o_dist o = None /\ t 0%nat = 0 /\ t 32%nat = 1 /\
  (forall k i j, (k < length points)%nat -> (i < 55)%nat -> (j < 125)%nat -> ~ inner 55 125 i j ->
    U i j (t k) = boundary_value 55 125 (fun _ => 0) (fun _ => 0) (fun _ => 0) (fun _ => 0) i j) /\
  (forall i j, inner 55 125 i j -> U i j (t 0%nat) = 0) /\
  (forall k i j, (S k < length points)%nat -> inner 55 125 i j ->
    Rabs (U i j (t (S k)) - U i j (t k) +
      (t (S k) - t k) * (five_point 0 (3 / 4) 0 (3 / 2) (7 / 2) 55 125 (fun i j => U i j (t (S k))) i j -
        example_rhs (3 / 4) (3 / 2) (7 / 2) (INR i * spacing 0 (3 / 4) 55) (INR j * spacing 0 (3 / 2) 125) (t (S k)))) <= (t (S k) - t k) * 0) /\
  0 < U 27%nat 62%nat 1.
Proof.
  intros P HP HP'.
  destruct (C32_heat2d_matrix 0 (3 / 4) 0 (3 / 2) (7 / 2) 55 125 ltac:(lia) ltac:(lia)) as [L [E _]]. exists L. intros tm A o points t U. split; [exact E|].
  assert (T0 : t 0%nat = 0) by (unfold t, tm; change (nth 0 points 0%Z) with 0%Z; lra).
  assert (Sx : forall q, (q < 55)%nat -> INR q * spacing 0 (3 / 4) 55 = INR q / 72).
  { intros q _. unfold spacing. replace (INR (55 - 1)) with 54 by (rewrite INR_IZR_INZ; reflexivity). field. }
  assert (Sy : forall q, (q < 125)%nat -> INR q * spacing 0 (3 / 2) 125 = INR q * 3 / 248).
  { intros q _. unfold spacing. replace (INR (125 - 1)) with 124 by (rewrite INR_IZR_INZ; reflexivity). field. }
  split; [intros s r Hs; unfold tm; apply IZR_le in Hs; lra|]. split.
  { constructor.
    - apply (h2_laws 55 125).
    - apply valid_hierarchyb_ok. vm_compute. reflexivity.
    - apply no_adjacentb_ok. vm_compute. reflexivity.
    - simpl. lia.
    - exact HP.
    - transitivity (if (33 <? P)%nat then Some (UserException 10) else None); [lazy; reflexivity|]. replace (33 <? P)%nat with false by (symmetry; apply Nat.ltb_ge; lia). reflexivity.
    - left; reflexivity.
    - apply ascending_order_ok.
    - discriminate.
    - discriminate. }
  split; [reflexivity|]. split; [exact T0|]. split; [unfold t, tm; change (nth 32 points 0%Z) with 32%Z; lra|].
  split.
  { intros k i j _ Hi Hj N. unfold U. rewrite (ex_boundary (3 / 4) (3 / 2) 55 125 ltac:(lia) ltac:(lia) i j _ Hi Hj N). unfold boundary_value.
    destruct (i =? 0)%nat, (i =? 55 - 1)%nat, (j =? 125 - 1)%nat; reflexivity. }
  split; [intros i j _; rewrite T0; unfold U, example_exact; ring|]. split.
  { intros k i j _ I. unfold U at 3. rewrite (ex_stencil (3 / 4) (3 / 2) (7 / 2) 55 125 ltac:(lia) ltac:(lia) ltac:(lra) ltac:(lra) i j _ I).
    rewrite Rmult_0_r. match goal with |- Rabs ?e <= _ => replace e with 0 by (unfold U, example_exact; ring) end. rewrite Rabs_R0. apply Rle_refl. }
  unfold U. rewrite Sx, Sy by lia. unfold example_exact. replace (INR 27) with 27 by (rewrite INR_IZR_INZ; reflexivity).
  replace (INR 62) with 62 by (rewrite INR_IZR_INZ; reflexivity). lra.
Qed.

Print Assumptions C71_heat2d_error.
Print Assumptions C71_example_exact.
Print Assumptions C71_hypotheses_hold.
