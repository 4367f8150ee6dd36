(** C70: how far the result of a run for the advection equation is from the solution of the differential equation. *)
From Coq Require Import Reals Lra List ZArith Lia Arith Bool Sorted.
From Verif Require Import Net NetProofs NetExec PyList ListFacts Setup Spec SetupProofs Mgrit Reference RefProofs Sim Main ParallelProofs ExampleApp OrderProofs
  Algebra PropAlgebra LinAlg Vectors Apps AppProofs PropApps PropVectors PropParareal Spatial PropSpatial PropAccuracy PropHeatError.
Import ListNotations.
Local Open Scope R_scope.

(** The application: Advection1D(c, x_start, x_end, nx) on all levels with GridTransferCopy (advection_1d.py 68-143). [L]: the matrix
    space_disc; [tm]: the times of the solver as real numbers. *)
Definition advection_app (x_start x_end : R) (nx : nat) (L : matrix) (tm : Z -> R) : App :=
  app_of VectorArr (fun _ => advection_step (nx - 1) L) (fun _ => arr_zeros (nx - 1))
    (fun _ => arr_set (arr_zeros (nx - 1)) (map (fun x => exp (- (x ^ 2))) (advection_x x_start x_end nx))) tm.

(** ** Maximum principle of the implicit upwind scheme *)
Definition left_of (n : nat) (g : nat -> R) (i : nat) : R := if (i =? 0)%nat then g (n - 1)%nat else g (i - 1)%nat.
Lemma upwind_above n c h dt (g f : nat -> R) M : (0 < n)%nat -> 0 <= c -> 0 <= dt -> 0 < h ->
  (forall i, (i < n)%nat -> g i + dt * (c * ((g i - left_of n g i) / h)) = f i) ->
  (forall i, (i < n)%nat -> f i <= M) -> forall i, (i < n)%nat -> g i <= M.
Proof.
  intros Hn Hc Hd Hh E B i Hi. destruct (argmax g (n - 1)) as (k & Hk & Hmax). eapply Rle_trans; [apply Hmax; lia|].
  specialize (E k ltac:(lia)). specialize (B k ltac:(lia)).
  assert (0 <= g k - left_of n g k).
  { unfold left_of. destruct (k =? 0)%nat; [pose proof (Hmax (n - 1)%nat ltac:(lia))|pose proof (Hmax (k - 1)%nat ltac:(lia))]; lra. }
  assert (0 <= dt * (c * ((g k - left_of n g k) / h))).
  { apply Rmult_le_pos; [exact Hd|]. apply Rmult_le_pos; [exact Hc|]. apply Rmult_le_pos; [assumption|]. apply Rlt_le, Rinv_0_lt_compat, Hh. }
  lra.
Qed.
Lemma upwind_bound n c h dt (g f : nat -> R) M : (0 < n)%nat -> 0 <= c -> 0 <= dt -> 0 < h ->
  (forall i, (i < n)%nat -> g i + dt * (c * ((g i - left_of n g i) / h)) = f i) ->
  (forall i, (i < n)%nat -> Rabs (f i) <= M) -> forall i, (i < n)%nat -> Rabs (g i) <= M.
Proof.
  intros Hn Hc Hd Hh E B i Hi. apply Rabs_le. split.
  - enough (- g i <= M) by lra. apply (upwind_above n c h dt (fun i => - g i) (fun i => - f i) M); auto.
    + intros j Hj. rewrite <- (E j Hj). unfold left_of, Rdiv. destruct (j =? 0)%nat; ring.
    + intros j Hj. specialize (B j Hj). pose proof (Rle_abs (- f j)) as A. rewrite Rabs_Ropp in A. lra.
  - apply (upwind_above n c h dt g f M); auto. intros j Hj. specialize (B j Hj). pose proof (Rle_abs (f j)). lra.
Qed.

(** ** Taylor's formula for a function whose derivative is Lipschitz continuous *)
Lemma taylor_right (g g' : R -> R) M a b : (forall x, derivable_pt_lim g x (g' x)) -> (forall x y, Rabs (g' x - g' y) <= M * Rabs (x - y)) ->
  a <= b -> g b - g a - (b - a) * g' a <= M * (b - a) ^ 2 / 2.
Proof.
  intros Hd HL Hab. destruct (Req_dec a b) as [->|Hne]; [replace (b - b) with 0 by ring; simpl; lra|].
  assert (D : forall x, derivable_pt_lim (fun x => g x - (g' a * x + M / 2 * (x - a) ^ 2)) x (g' x - (g' a + M * (x - a)))).
  { intros x. apply (derivable_pt_lim_minus g (fun x => g' a * x + M / 2 * (x - a) ^ 2)); [apply Hd|].
    apply (derivable_pt_lim_plus (fun x => g' a * x) (fun x => M / 2 * (x - a) ^ 2)).
    - pose proof (derivable_pt_lim_scal id (g' a) x 1 (derivable_pt_lim_id x)) as H. rewrite Rmult_1_r in H. exact H.
    - replace (M * (x - a)) with (M / 2 * (INR 2 * (x - a) ^ pred 2 * (1 - 0))) by (simpl; field).
      apply (derivable_pt_lim_scal (fun x => (x - a) ^ 2) (M / 2) x).
      apply (derivable_pt_lim_comp (fun x => x - a) (fun x => x ^ 2)); [|apply derivable_pt_lim_pow].
      apply (derivable_pt_lim_minus id (fun _ => a)); [apply derivable_pt_lim_id|apply derivable_pt_lim_const]. }
  destruct (MVT_cor2 _ _ a b ltac:(lra) (fun x _ => D x)) as (x & E & Hx). cbv beta in E.
  assert (S : g' x - (g' a + M * (x - a)) <= 0).
  { pose proof (HL x a) as Q. rewrite (Rabs_right (x - a)) in Q by lra. pose proof (Rle_abs (g' x - g' a)). lra. }
  assert ((g' x - (g' a + M * (x - a))) * (b - a) <= 0) by (rewrite <- (Rmult_0_l (b - a)); apply Rmult_le_compat_r; lra).
  replace (a - a) with 0 in E by ring. replace (0 ^ 2) with 0 in E by ring. lra.
Qed.
Lemma taylor (g g' : R -> R) M a b : (forall x, derivable_pt_lim g x (g' x)) -> (forall x y, Rabs (g' x - g' y) <= M * Rabs (x - y)) ->
  Rabs (g b - g a - (b - a) * g' a) <= M * (b - a) ^ 2 / 2.
Proof.
  assert (U : forall (g g' : R -> R) a b, (forall x, derivable_pt_lim g x (g' x)) -> (forall x y, Rabs (g' x - g' y) <= M * Rabs (x - y)) ->
    g b - g a - (b - a) * g' a <= M * (b - a) ^ 2 / 2).
  { clear. intros g g' a b Hd HL. destruct (Rle_dec a b) as [H|H]; [apply taylor_right; assumption|].
    assert (D : forall x, derivable_pt_lim (fun x => g (- x)) x (- g' (- x))).
    { intros x. replace (- g' (- x)) with (g' (- x) * - 1) by ring. apply (derivable_pt_lim_comp (fun x => - x) g); [|apply Hd].
      apply (derivable_pt_lim_opp id x 1), derivable_pt_lim_id. }
    pose proof (taylor_right (fun x => g (- x)) (fun x => - g' (- x)) M (- a) (- b) D) as T. cbv beta in T. rewrite !Ropp_involutive in T.
    replace ((b - a) ^ 2) with ((- b - - a) ^ 2) by ring. replace ((b - a) * g' a) with ((- b - - a) * - g' a) by ring. apply T; [|lra].
    intros x y. replace (- g' (- x) - - g' (- y)) with (- (g' (- x) - g' (- y))) by ring. rewrite Rabs_Ropp.
    eapply Rle_trans; [apply HL|]. replace (- x - - y) with (- (x - y)) by ring. rewrite Rabs_Ropp. apply Rle_refl. }
  intros Hd HL. apply Rabs_le. split; [|apply U; assumption].
  pose proof (U (fun x => - g x) (fun x => - g' x) a b) as T. cbv beta in T.
  enough (- g b - - g a - (b - a) * - g' a <= M * (b - a) ^ 2 / 2) by lra. apply T.
  - intros x. apply (derivable_pt_lim_opp g x (g' x)), Hd.
  - intros x y. replace (- g' x - - g' y) with (- (g' x - g' y)) by ring. rewrite Rabs_Ropp. apply HL.
Qed.

Section AdvectionRuns.
  Variables (c xs xe : R) (nx : nat) (L : matrix) (tm : Z -> R) (g g' : R -> R) (M ht : R).
  Hypothesis Hnx : (3 <= nx)%nat.
  Hypothesis Hc : 0 <= c.
  Hypothesis Hx : xs < xe.
  Hypothesis EL : advection_matrix c (heat_dx (advection_x xs xe nx)) (nx - 1) = Some L.
  Hypothesis Hm : forall s t, (s <= t)%Z -> tm s <= tm t.
  Notation n := (nx - 1)%nat.
  Notation h := (spacing xs xe nx).
  Notation x := (fun j => xs + INR j * h).
  Notation A := (advection_app xs xe nx L tm).
  Variable o : Opts A.
  Hypothesis HV : valid_hierarchy (o_grids o).
  Notation points := (nth 0 (o_grids o) []).
  Notation t := (fun i => tm (nth i points 0%Z)).
  Hypothesis Hg : forall y, derivable_pt_lim g y (g' y).
  Hypothesis HL : forall y z, Rabs (g' y - g' z) <= M * Rabs (y - z).
  Hypothesis Hper : forall y, g (y + (xe - xs)) = g y.
  Hypothesis Hinit : forall j, (j < n)%nat -> g (x j) = exp (- (x j ^ 2)).
  Hypothesis Ht : forall i, (S i < length points)%nat -> t (S i) - t i <= ht.

  Lemma h_pos : 0 < h.
  Proof. unfold spacing. apply Rdiv_lt_0_compat; [lra|]. apply lt_0_INR. lia. Qed.
  Lemma M_nonneg : 0 <= M.
  Proof. pose proof (HL 1 0) as Q. pose proof (Rabs_pos (g' 1 - g' 0)). replace (1 - 0) with 1 in Q by ring. rewrite Rabs_R1 in Q. lra. Qed.
  Lemma adv_t_mono i : (S i < length points)%nat -> t i <= t (S i).
  Proof.
    intros Hi. apply Hm. destruct HV as (HV0 & HV1 & _). destruct (HV1 0%nat) as [HS _]; [destruct (o_grids o); [congruence|simpl; lia]|].
    apply Z.lt_le_incl. apply (ssorted_incr _ HS); lia.
  Qed.
  Lemma adv_step_wf u a b : arr_wf n (advection_step n L u a b).
  Proof. unfold advection_step, arr_wf, arr_set, arr_zeros. cbn [a_size a_vals]. rewrite !spsolve_length. auto. Qed.
  Lemma adv_x_length : length (advection_x xs xe nx) = n.
  Proof. unfold advection_x, linspace, tab. rewrite firstn_length, map_length, seq_length. lia. Qed.
  Lemma adv_laws :
    app_laws A (fun _ => arr_wf n) /\ exact_laws A (fun _ => arr_wf n) (fun _ => arr_zeros n) /\ @lossless A (fun _ => arr_wf n) /\
    forall o : Opts A, @weight_mean A (fun _ => arr_wf n) o /\ (o_weight o = 1 -> @weight_one A (fun _ => arr_wf n) o).
  Proof.
    apply C29_solver_hypotheses.
    - apply C29_array_laws.
    - intros. apply adv_step_wf.
    - intros _. apply arr_zero_wf.
    - intros _. unfold arr_wf, arr_set, arr_zeros. cbn [a_size a_vals]. rewrite map_length, adv_x_length. auto.
  Qed.
  Lemma adv_stepping_wf i : arr_wf n (time_stepping o i).
  Proof.
    destruct adv_laws as (W & _). induction i as [|i IH]; cbn [time_stepping]; [apply (wf_clone _ _ W 0%nat), (wf_tstart _ _ W 0%nat)|apply (wf_phi _ _ W 0%nat), IH].
  Qed.
  (** the equations of a step *)
  Lemma adv_step_equation (u : Vec A) s s' i : arr_wf n u -> tm s <= tm s' -> (i < n)%nat ->
    let v := at_ (a_vals (phi A 0 u s s')) in
    v i + (tm s' - tm s) * (c * ((v i - left_of n v i) / h)) = at_ (a_vals u) i.
  Proof.
    intros [_ Hu] Hs Hi v.
    destruct (proj2 (C34_step c xs xe nx Hnx Hc Hx L EL u (tm s) (tm s') (a_vals (phi A 0 u s s')) Hs Hu)) as [_ E].
    - pose proof (adv_step_wf u (tm s) (tm s')) as [W _]. change (phi A 0 u s s') with (advection_step n L u (tm s) (tm s')).
      destruct (advection_step n L u (tm s) (tm s')) as [q w]. cbn [a_size a_vals] in *. congruence.
    - exact (E i Hi).
  Qed.

  (** the solution of the differential equation *)
  Notation U := (fun y s => g (y - c * (s - t 0%nat))).
  Lemma truncation i j : (S i < length points)%nat -> (j < n)%nat ->
    let w := fun j => U (x j) (t (S i)) in
    Rabs (w j - U (x j) (t i) + (t (S i) - t i) * (c * ((w j - left_of n w j) / h))) <= (t (S i) - t i) * (M * c * (h + c * ht) / 2).
  Proof.
    intros Hi Hj w. pose proof (adv_t_mono i Hi) as Tm. pose proof (Ht i Hi) as Th. pose proof h_pos as Hh. pose proof M_nonneg as HM. cbv beta in *.
    set (s := t (S i) - t i) in *. set (y := x j - c * (t (S i) - t 0%nat)).
    assert (E1 : U (x j) (t i) = g (y + c * s)) by (unfold y, s; f_equal; ring).
    assert (E2 : left_of n w j = g (y - h)).
    { unfold left_of, w, y. destruct (j =? 0)%nat eqn:E.
      - apply Nat.eqb_eq in E. subst j. rewrite <- (Hper (xs + INR 0 * h - c * (t (S i) - t 0%nat) - h)). f_equal.
        assert (EX : xe - xs = (INR (n - 1) + 1) * h).
        { unfold spacing. rewrite <- S_INR. replace (S (n - 1)) with n by lia. field. apply not_0_INR. lia. }
        rewrite EX. simpl INR. ring.
      - apply Nat.eqb_neq in E. f_equal. rewrite minus_INR by lia. simpl INR. ring. }
    replace (w j) with (g y) by reflexivity. rewrite E1, E2.
    pose proof (taylor g g' M y (y + c * s) Hg HL) as T1. pose proof (taylor g g' M y (y - h) Hg HL) as T2.
    replace (y + c * s - y) with (c * s) in T1 by ring. replace (y - h - y) with (- h) in T2 by ring.
    replace (g y - g (y + c * s) + s * (c * ((g y - g (y - h)) / h))) with
      (- (g (y + c * s) - g y - c * s * g' y) + - (s * c / h * (g (y - h) - g y - - h * g' y))) by (field; lra).
    eapply Rle_trans; [apply Rabs_triang|]. rewrite !Rabs_Ropp, Rabs_mult.
    assert (S0 : 0 <= s) by (unfold s; lra). assert (Q0 : 0 <= s * c / h).
    { apply Rmult_le_pos; [apply Rmult_le_pos; assumption|]. apply Rlt_le, Rinv_0_lt_compat, Hh. }
    rewrite (Rabs_right (s * c / h)) by lra.
    assert (T3 : s * c / h * Rabs (g (y - h) - g y - - h * g' y) <= s * (M * c * h / 2)).
    { eapply Rle_trans; [apply Rmult_le_compat_l; [exact Q0|exact T2]|]. apply Req_le. field. lra. }
    assert (T4 : M * (c * s) ^ 2 / 2 <= s * (M * c * (c * ht) / 2)).
    { replace (M * (c * s) ^ 2 / 2) with (s * (M * c * (c * s) / 2)) by field. apply Rmult_le_compat_l; [exact S0|].
      apply Rmult_le_compat_r; [lra|]. apply Rmult_le_compat_l; [apply Rmult_le_pos; assumption|]. apply Rmult_le_compat_l; assumption. }
    lra.
  Qed.

  Lemma adv_stepping_error i : (i < length points)%nat ->
    0 <= t i - t 0%nat /\
    forall j, (j < n)%nat -> Rabs (at_ (a_vals (time_stepping o i)) j - U (x j) (t i)) <= M * c * (h + c * ht) / 2 * (t i - t 0%nat).
  Proof.
    induction i as [|i IH]; intros Hi.
    - split; [lra|]. intros j Hj. change (a_vals (time_stepping o 0)) with (map (fun x => exp (- (x ^ 2))) (advection_x xs xe nx)).
      rewrite at_map by (rewrite adv_x_length; exact Hj). unfold advection_x. rewrite at_firstn, at_linspace by lia.
      change ((xe - xs) / INR (nx - 1)) with h. rewrite <- Hinit by exact Hj. cbv beta.
      replace (xs + INR j * h - c * (t 0%nat - t 0%nat)) with (xs + INR j * h) by ring. rewrite Rminus_diag_eq by reflexivity. rewrite Rabs_R0. lra.
    - destruct (IH ltac:(lia)) as [T0 E]. pose proof (adv_t_mono i Hi) as Tm. split; [lra|].
      set (v := at_ (a_vals (time_stepping o (S i)))).
      assert (Q : forall j, (j < n)%nat -> v j + (t (S i) - t i) * (c * ((v j - left_of n v j) / h)) = at_ (a_vals (time_stepping o i)) j).
      { intros j Hj. exact (adv_step_equation (time_stepping o i) (nth i points 0%Z) (nth (S i) points 0%Z) j (adv_stepping_wf i) Tm Hj). }
      intros j Hj.
      apply (upwind_bound n c h (t (S i) - t i) (fun j => v j - U (x j) (t (S i)))
        (fun j => (at_ (a_vals (time_stepping o i)) j - U (x j) (t i)) -
           (U (x j) (t (S i)) - U (x j) (t i) + (t (S i) - t i) * (c * ((U (x j) (t (S i)) - left_of n (fun j => U (x j) (t (S i))) j) / h))))); auto.
      + lia.
      + lra.
      + apply h_pos.
      + intros k Hk. rewrite <- (Q k Hk). unfold left_of. destruct (k =? 0)%nat; unfold Rdiv; ring.
      + intros k Hk. unfold Rminus at 1. eapply Rle_trans; [apply Rabs_triang|]. rewrite Rabs_Ropp.
        pose proof (E k Hk). pose proof (truncation i k Hi Hk). cbv beta zeta in *. lra.
  Qed.
  (** a step does not enlarge the largest difference *)
  Lemma adv_step_contracts (u v : Vec A) s s' : arr_wf n u -> arr_wf n v -> tm s <= tm s' ->
    max_diff n (phi A 0 u s s') (phi A 0 v s s') <= max_diff n u v.
  Proof.
    intros Hu Hv Hs. pose proof (max_diff_nonneg n u v) as N. apply max_diff_le; [exact N|].
    apply (upwind_bound n c h (tm s' - tm s) (fun i => at_ (a_vals (phi A 0 u s s')) i - at_ (a_vals (phi A 0 v s s')) i)
      (fun i => at_ (a_vals u) i - at_ (a_vals v) i)); auto.
    - lia.
    - lra.
    - apply h_pos.
    - intros i Hi. rewrite <- (adv_step_equation u s s' i Hu Hs Hi), <- (adv_step_equation v s s' i Hv Hs Hi). cbv zeta.
      unfold left_of. destruct (i =? 0)%nat; unfold Rdiv; ring.
    - intros i Hi. apply max_diff_ge. exact Hi.
  Qed.
End AdvectionRuns.

(** In every execution on any number of processes, any hierarchy, relaxation and cycle: let [g] be a periodic function with the initial
    values at the grid points whose derivative is Lipschitz continuous with constant M, so that g(x - c (t - t_0)) solves the advection
    equation. After enough iterations all values are within M c (h + c ht) / 2 (t_i - t_0) of the solution and the mass is that of the
    initial value at all time points; with the residual criterion a run that stops before the last allowed iteration is that accurate up
    to tol for every C-point. *)
Theorem C70_advection_error : forall c x_start x_end nx L tm (g g' : R -> R) M ht,
  (3 <= nx)%nat -> 0 <= c -> x_start < x_end -> advection_matrix c (heat_dx (advection_x x_start x_end nx)) (nx - 1) = Some L ->
  (forall s t, (s <= t)%Z -> tm s <= tm t) ->
  let A := advection_app x_start x_end nx L tm in
  let h := spacing x_start x_end nx in
  let x := fun j => x_start + INR j * h in
  (forall y, derivable_pt_lim g y (g' y)) -> (forall y z, Rabs (g' y - g' z) <= M * Rabs (y - z)) ->
  (forall y, g (y + (x_end - x_start)) = g y) -> (forall j, (j < nx - 1)%nat -> g (x j) = exp (- (x j ^ 2))) ->
  forall (o : Opts A) (P n : nat) cfg,
  @good_setup A (fun _ => arr_wf (nx - 1)) o P -> (o_dist o <> None -> (1 < length (o_grids o))%nat) ->
  let points := nth 0 (o_grids o) [] in
  let t := fun i => tm (nth i points 0%Z) in
  (forall i, (S i < length points)%nat -> t (S i) - t i <= ht) ->
  steps P n (initial (mgrit_main o P)) cfg -> stuck P cfg ->
  exists res k, finished P res cfg /\ (forall r, (r < P)%nat -> s_iter (res r) = k) /\
    let u : list Arr := gathered P (fun r => s_u (res r) 0) in
    length u = length points /\
    let error := fun i j => Rabs (at_ (a_vals (nth i u (arr_zeros 0))) j - g (x j - c * (t i - t 0%nat))) in
    let accuracy := M * c * (h + c * ht) / 2 in
    (o_weight o = 1 -> (0 < k)%nat -> (length (nth 1 (o_grids o) []) <= k * cf_count o 0 + 1)%nat ->
     forall i, (i < length points)%nat ->
       (forall j, (j < nx - 1)%nat -> error i j <= accuracy * (t i - t 0%nat)) /\
       rsum (nx - 1) (at_ (a_vals (nth i u (arr_zeros 0)))) = rsum (nx - 1) (fun j => exp (- (x j ^ 2)))) /\
    (o_conv_crit o = 0%Z -> (k < o_max_iter o)%nat ->
     forall i j, (i < length points)%nat -> (j < nx - 1)%nat -> error i j <= accuracy * (t i - t 0%nat) + INR (cpoints_upto o i) * o_tol o).
Proof.
  intros c xs xe nx L tm g g' M ht Hnx Hc Hx EL Hm A h x Hg HLip Hper Hinit o P n cfg G HD points t Ht H St0.
  destruct (adv_laws xs xe nx L tm Hnx) as (AL & E & _ & W). destruct (W o) as [_ W1].
  set (m := (nx - 1)%nat) in *.
  pose proof (gs_grids _ _ _ G) as HV.
  pose proof (adv_stepping_error c xs xe nx L tm g g' M ht Hnx Hc Hx EL Hm o HV Hg HLip Hper Hinit Ht) as SA.
  pose proof (adv_t_mono xs xe nx L tm ht Hnx Hm o HV Ht) as Mono.
  pose proof (adv_stepping_wf xs xe nx L tm Hnx o) as Wf.
  destruct (@run_facts A (fun _ => arr_wf m) o P n cfg G H St0) as (res & k & F & _ & K2 & Hu & Hk & _ & _ & Hst & Hh & _). exists res, k.
  split; [exact F|]. split; [exact Hk|]. intros u.
  assert (Lu : length u = length points) by (unfold u; rewrite Hu, map_length, seq_length; reflexivity). split; [exact Lu|]. intros error accuracy.
  assert (HP : (0 < P)%nat) by apply (gs_procs _ _ _ G).
  split.
  - intros Hw Hk0 Hcc i Hi.
    destruct (C09_exact_after_enough_iterations A (fun _ => arr_wf m) _ o P n cfg G E (W1 Hw) HD H St0) as (res' & k' & F' & Hk' & X).
    assert (Er : forall r, (r < P)%nat -> res' r = res r) by (intros r Hr; apply (finished_res_unique P cfg res' res F' F r Hr)).
    assert (k' = k) by (rewrite <- (Hk 0%nat HP), <- (Hk' 0%nat HP), Er by exact HP; reflexivity). subst k'.
    specialize (X Hk0 (or_introl Hcc)).
    assert (Eu : u = map (time_stepping o) (seq 0 (length points))).
    { etransitivity; [|exact X]. unfold u, gathered. f_equal. apply map_ext_in. intros r Hr. apply in_seq in Hr. rewrite Er by lia. reflexivity. }
    assert (En : nth i u (arr_zeros 0) = time_stepping o i).
    { rewrite Eu. rewrite (nth_indep _ _ (time_stepping o 0)) by (rewrite map_length, seq_length; auto).
      rewrite (map_nth (time_stepping o)), seq_nth by auto. reflexivity. }
    split; [intros j Hj; unfold error; rewrite En; apply SA; assumption|]. rewrite En. clear En error.
    induction i as [|i IH].
    + change (a_vals (time_stepping o 0)) with (map (fun x => exp (- (x ^ 2))) (advection_x xs xe nx)). apply rsum_ext. intros j Hj.
      rewrite at_map by (rewrite adv_x_length by exact Hnx; exact Hj). unfold advection_x. rewrite at_firstn, at_linspace by lia. reflexivity.
    + rewrite <- (IH ltac:(lia)).
      exact (C34_mass c xs xe nx Hnx Hc Hx L EL (time_stepping o i) _ _ (Mono i Hi) (proj2 (Wf i))).
  - intros Hcc Hkm i j Hi Hj.
    destruct (C53_residual_bounds_error A (fun _ => arr_wf m) o P n cfg (max_diff m) 1 (Rmax 0 (o_tol o))) as (res' & k' & F' & Hk' & X); auto.
    + intros y. apply Rle_antisym; [|apply max_diff_nonneg]. apply max_diff_le; [lra|]. intros q _.
      replace (at_ (a_vals y) q - at_ (a_vals y) q) with 0 by ring. rewrite Rabs_R0. lra.
    + intros y z w. pose proof (max_diff_nonneg m y z). pose proof (max_diff_nonneg m z w). apply max_diff_le; [lra|]. intros q Hq.
      pose proof (max_diff_ge m y z q Hq). pose proof (max_diff_ge m z w q Hq).
      replace (at_ (a_vals y) q - at_ (a_vals w) q) with ((at_ (a_vals y) q - at_ (a_vals z) q) + (at_ (a_vals z) q - at_ (a_vals w) q)) by ring.
      eapply Rle_trans; [apply Rabs_triang|]. lra.
    + apply Rle_refl.
    + intros y z q Hq Hy Hz. cbv zeta. rewrite Rmult_1_l.
      apply (adv_step_contracts c xs xe nx L tm Hnx Hc Hx EL y z _ _ Hy Hz). apply Mono. exact Hq.
    + intros y z Hy Hz Hyz. cbn [A advection_app app_of app_with sc_lt vnorm vsub VectorArr c_norm c_sub] in Hyz.
      destruct (Rlt_dec _ _) as [Y|]; [|discriminate]. pose proof (Rmax_r 0 (o_tol o)) as M1. apply max_diff_le; [apply Rmax_l|]. intros q Hq.
      eapply Rle_trans; [|exact M1]. eapply Rle_trans; [|left; exact Y]. cbn [a_vals arr_set].
      destruct Hy as [_ Ly], Hz as [_ Lz].
      rewrite <- (at_vminus (a_vals y) (a_vals z) m q Ly Lz Hq). apply norm2_entry. apply nth_In. rewrite (vminus_length _ _ m Ly Lz). exact Hq.
    + apply Rmax_l.
    + intros l y Hy Hlt z Hz. cbn [A advection_app app_of app_with sc_lt tnorm] in *. injection Hy as <-. destruct (Rlt_dec (norm2 l) _) as [Y|]; [|discriminate].
      destruct (Rlt_dec z _) as [|N]; [reflexivity|]. exfalso. apply N. pose proof (norm2_entry l z Hz). pose proof (Rle_abs z).
      eapply Rle_lt_trans; [|exact Y]. lra.
    + assert (Er : forall r, (r < P)%nat -> res' r = res r) by (intros r Hr; apply (finished_res_unique P cfg res' res F' F r Hr)).
      assert (k' = k) by (rewrite <- (Hk 0%nat HP), <- (Hk' 0%nat HP), Er by exact HP; reflexivity). subst k'.
      destruct (X Hkm i Hi) as (y & Ey & By).
      assert (Eu : gathered P (fun r => s_u (res' r) 0) = u).
      { unfold u, gathered. f_equal. apply map_ext_in. intros r Hr. apply in_seq in Hr. rewrite Er by lia. reflexivity. }
      rewrite Eu in Ey. apply (nth_error_nth _ _ (arr_zeros 0)) in Ey. destruct (SA i Hi) as [_ S1]. specialize (S1 j Hj).
      assert (T0 : 0 <= o_tol o).
      { specialize (Hst Hkm). specialize (Hh k (conj (K2 (Nat.le_lt_trans 0 k (o_max_iter o) (Nat.le_0_l k) Hkm)) (Nat.le_refl k))).
        symmetry in Hh. apply (nth_error_nth _ _ (sc_zero A)) in Hh. rewrite Hh in Hst.
        cbn [A advection_app app_of app_with sc_lt] in Hst.
        destruct (Rlt_dec _ _) as [Y|]; [|discriminate]. eapply Rle_trans; [|left; exact Y]. apply norm2_nonneg. }
      rewrite pow1, Rmult_1_l, Rmax_right in By by exact T0. unfold error. rewrite Ey.
      pose proof (max_diff_ge m (time_stepping o i) y j Hj) as D.
      replace (at_ (a_vals y) j - g (x j - c * (t i - t 0%nat))) with
        ((at_ (a_vals (time_stepping o i)) j - g (x j - c * (t i - t 0%nat))) + - (at_ (a_vals (time_stepping o i)) j - at_ (a_vals y) j)) by ring.
      eapply Rle_trans; [apply Rabs_triang|]. rewrite Rabs_Ropp. apply Rplus_le_compat; [exact S1|]. eapply Rle_trans; [exact D|exact By].
Qed.

(** Two grid points -1 and 0 of [-1, 1], 129 time points: g(x) = a + b cos(pi x) has the initial values exp(-1) and 1. *)
Example C70_hypotheses_hold : forall P, (0 < P)%nat -> (P <= 129)%nat -> exists L,
  let A := advection_app (-1) 1 3 L example_time in
  let o := example_opts A 1 (1 / 10000000) in
  let b := (1 - exp (- (1))) / 2 in
  let g := fun y => (1 + exp (- (1))) / 2 + b * cos (PI * y) in
  let g' := fun y => b * (- sin (PI * y) * (PI * 1)) in
  advection_matrix 1 (heat_dx (advection_x (-1) 1 3)) 2 = Some L /\ @good_setup A (fun _ => arr_wf 2) o P /\ o_dist o = None /\
  (forall y, derivable_pt_lim g y (g' y)) /\ (forall y z, Rabs (g' y - g' z) <= Rabs b * PI ^ 2 * Rabs (y - z)) /\ (forall y, g (y + (1 - -1)) = g y) /\
  (forall j, (j < 2)%nat -> g (-1 + INR j * spacing (-1) 1 3) = exp (- ((-1 + INR j * spacing (-1) 1 3) ^ 2))) /\ spacing (-1) 1 3 = 1 /\
  (forall i, (S i < 129)%nat -> example_time (nth (S i) (nth 0 (o_grids o) []) 0%Z) - example_time (nth i (nth 0 (o_grids o) []) 0%Z) <= 1 / 64).
Proof.
  intros P HP HP'. destruct (C34_matrix_exists 1 (-1) 1 3 ltac:(lia)) as [L E]. exists L. intros A o b g g'. split; [exact E|].
  split.
  { constructor.
    - apply (adv_laws (-1) 1 3 L example_time ltac:(lia)).
    - apply valid_hierarchyb_ok. vm_compute. reflexivity.
    - apply no_adjacentb_ok. vm_compute. reflexivity.
    - simpl. lia.
    - exact HP.
    - transitivity (if (129 <? P)%nat then Some (UserException 10) else None); [lazy; reflexivity|]. replace (129 <? P)%nat with false by (symmetry; apply Nat.ltb_ge; lia). reflexivity.
    - left; reflexivity.
    - apply ascending_order_ok.
    - discriminate.
    - discriminate. }
  split; [reflexivity|]. split.
  { intros y. unfold g, g'. replace (b * (- sin (PI * y) * (PI * 1))) with (0 + b * (- sin (PI * y) * (PI * 1))) by ring.
    apply (derivable_pt_lim_plus (fun _ => (1 + exp (- (1))) / 2) (fun y => b * cos (PI * y))); [apply derivable_pt_lim_const|].
    apply (derivable_pt_lim_scal (fun y => cos (PI * y)) b y). apply (derivable_pt_lim_comp (fun y => PI * y) cos); [|apply derivable_pt_lim_cos].
    apply (derivable_pt_lim_scal id PI y 1), derivable_pt_lim_id. }
  split.
  { assert (SL : forall p q, Rabs (sin p - sin q) <= Rabs (p - q)).
    { assert (SL1 : forall p q, q < p -> Rabs (sin p - sin q) <= Rabs (p - q)).
      { intros p q Hpq. destruct (MVT_cor2 sin cos q p Hpq (fun z _ => derivable_pt_lim_sin z)) as (z & -> & _). rewrite Rabs_mult.
        rewrite <- (Rmult_1_l (Rabs (p - q))) at 2. apply Rmult_le_compat_r; [apply Rabs_pos|]. apply Rabs_le. pose proof (COS_bound z). lra. }
      intros p q. destruct (Rtotal_order p q) as [D|[->|D]]; [|rewrite !Rminus_diag_eq by reflexivity; apply Rle_refl|apply SL1; exact D].
      rewrite Rabs_minus_sym, (Rabs_minus_sym p q). apply SL1. exact D. }
    intros y z. unfold g'. replace (b * (- sin (PI * y) * (PI * 1)) - b * (- sin (PI * z) * (PI * 1))) with (b * PI * (sin (PI * z) - sin (PI * y))) by ring.
    rewrite !Rabs_mult, (Rabs_right PI) by (pose proof PI_RGT_0; lra). specialize (SL (PI * z) (PI * y)).
    replace (PI * z - PI * y) with (PI * - (y - z)) in SL by ring. rewrite Rabs_mult, Rabs_Ropp, (Rabs_right PI) in SL by (pose proof PI_RGT_0; lra).
    replace (Rabs b * PI ^ 2 * Rabs (y - z)) with (Rabs b * PI * (PI * Rabs (y - z))) by ring. apply Rmult_le_compat_l; [|exact SL].
    apply Rmult_le_pos; [apply Rabs_pos|]. pose proof PI_RGT_0; lra. }
  split. { intros y. unfold g. replace (PI * (y + (1 - -1))) with (PI * y + 2 * PI) by ring. rewrite cos_plus, cos_2PI, sin_2PI. f_equal. ring. }
  split.
  { intros [|[|j]] Hj; [| |lia]; unfold g, b, spacing; simpl INR.
    - replace (-1 + 0 * ((1 - -1) / (1 + 1))) with (- (1)) by lra. replace (PI * - (1)) with (- PI) by ring. rewrite cos_neg, cos_PI. replace ((- (1)) ^ 2) with 1 by ring. lra.
    - replace (-1 + 1 * ((1 - -1) / (1 + 1))) with 0 by lra. rewrite Rmult_0_r, cos_0. replace (- 0 ^ 2) with 0 by ring. rewrite exp_0. lra. }
  split; [unfold spacing; simpl; lra|]. intros i Hi.
  assert (N : forall i, (i < 129)%nat -> nth i (nth 0 (o_grids o) []) 0%Z = Z.of_nat i).
  { intros q Hq. change (nth 0 (o_grids o) []) with (grid_of 129 1). unfold grid_of. rewrite (nth_indep _ _ (Z.of_nat (0 * 1))) by (rewrite map_length, seq_length; exact Hq).
    rewrite (map_nth (fun k => Z.of_nat (k * 1))), seq_nth by exact Hq. f_equal. lia. }
  rewrite !N by lia. unfold example_time. rewrite Nat2Z.inj_succ, succ_IZR. lra.
Qed.

Print Assumptions C70_advection_error.
Print Assumptions C70_hypotheses_hold.
