(** C67: how far the result of a run for the heat equation in one dimension is from the solution of the differential equation. *)
From Coq Require Import Reals Lra List ZArith Lia Arith Bool Sorted.
From Verif Require Import Net NetProofs NetExec PyList ListFacts Setup Spec SetupProofs Mgrit Reference RefProofs Sim Main ParallelProofs ExampleApp OrderProofs
  Algebra PropAlgebra LinAlg Vectors Apps AppProofs PropApps PropVectors PropParareal Spatial PropSpatial PropAccuracy.
Import ListNotations.
Local Open Scope R_scope.

(** ** Discrete maximum principle with sources *)
Lemma argmax (g : nat -> R) n : exists k, (k <= n)%nat /\ forall i, (i <= n)%nat -> g i <= g k.
Proof.
  induction n as [|n (k & Hk & H)].
  - exists 0%nat. split; [lia|]. intros i Hi. replace i with 0%nat by lia. lra.
  - destruct (Rle_dec (g k) (g (S n))) as [L|L].
    + exists (S n). split; [lia|]. intros i Hi. destruct (Nat.eq_dec i (S n)) as [->|N]; [lra|]. specialize (H i ltac:(lia)). lra.
    + exists k. split; [lia|]. intros i Hi. destruct (Nat.eq_dec i (S n)) as [->|N]; [lra|]. apply H. lia.
Qed.
Lemma max_principle_above n a h dt (g f : nat -> R) M : 0 <= a -> 0 <= dt -> h <> 0 -> 0 <= M ->
  g 0%nat = 0 -> g (n + 1)%nat = 0 ->
  (forall i, (i < n)%nat -> g (i + 1)%nat + dt * (a * second_difference h g (i + 1)) = f i) ->
  (forall i, (i < n)%nat -> f i <= M) -> forall i, (i <= n + 1)%nat -> g i <= M.
Proof.
  intros Ha Hd Hh HM G0 G1 E B i Hi. destruct (argmax g (n + 1)) as (k & Hk & Hmax). eapply Rle_trans; [apply Hmax; exact Hi|].
  destruct (Nat.eq_dec k 0) as [->|N0]; [lra|]. destruct (Nat.eq_dec k (n + 1)) as [->|N1]; [lra|].
  specialize (E (k - 1)%nat ltac:(lia)). specialize (B (k - 1)%nat ltac:(lia)). replace (k - 1 + 1)%nat with k in E by lia.
  assert (0 <= second_difference h g k).
  { unfold second_difference. apply Rmult_le_pos; [pose proof (Hmax (k - 1)%nat ltac:(lia)); pose proof (Hmax (k + 1)%nat ltac:(lia)); lra|].
    apply Rlt_le, Rinv_0_lt_compat. rewrite <- Rsqr_pow2. apply Rsqr_pos_lt. exact Hh. }
  assert (0 <= dt * (a * second_difference h g k)) by (apply Rmult_le_pos; [lra|]; apply Rmult_le_pos; lra). lra.
Qed.
Lemma max_principle n a h dt (g f : nat -> R) M : 0 <= a -> 0 <= dt -> h <> 0 -> 0 <= M ->
  g 0%nat = 0 -> g (n + 1)%nat = 0 ->
  (forall i, (i < n)%nat -> g (i + 1)%nat + dt * (a * second_difference h g (i + 1)) = f i) ->
  (forall i, (i < n)%nat -> Rabs (f i) <= M) -> forall i, (i <= n + 1)%nat -> Rabs (g i) <= M.
Proof.
  intros Ha Hd Hh HM G0 G1 E B i Hi. apply Rabs_le. split.
  - enough (- g i <= M) by lra. apply (max_principle_above n a h dt (fun i => - g i) (fun i => - f i) M); auto; try lra.
    + intros j Hj. rewrite <- (E j Hj). unfold second_difference, Rdiv. ring.
    + intros j Hj. specialize (B j Hj). pose proof (Rle_abs (- f j)) as A. rewrite Rabs_Ropp in A. lra.
  - apply (max_principle_above n a h dt g f M); auto. intros j Hj. specialize (B j Hj). pose proof (Rle_abs (f j)). lra.
Qed.

(** ** Elementary bounds of sine and cosine *)
Lemma derivable_trig a b p q r s w x :
  derivable_pt_lim (fun x => a * cos x + b * sin x + (p + q * x + r * x ^ 2 + s * x ^ 3 + w * x ^ 4)) x
    (- a * sin x + b * cos x + (q + 2 * r * x + 3 * s * x ^ 2 + 4 * w * x ^ 3)).
Proof.
  assert (L : forall c, derivable_pt_lim (fun x => c * x) x c).
  { intros c. pose proof (derivable_pt_lim_scal id c x 1 (derivable_pt_lim_id x)) as H. rewrite Rmult_1_r in H. exact H. }
  assert (C : forall c, derivable_pt_lim (fun _ => c) x 0) by (intros c; apply derivable_pt_lim_const).
  assert (W : forall c n, derivable_pt_lim (fun x => c * x ^ n) x (c * (INR n * x ^ pred n))).
  { intros c n. apply (derivable_pt_lim_scal (fun x => x ^ n) c x). apply derivable_pt_lim_pow. }
  replace (- a * sin x + b * cos x + (q + 2 * r * x + 3 * s * x ^ 2 + 4 * w * x ^ 3)) with
    ((a * - sin x + b * cos x) + (0 + q + r * (INR 2 * x ^ 1) + s * (INR 3 * x ^ 2) + w * (INR 4 * x ^ 3))) by (simpl; ring).
  apply (derivable_pt_lim_plus (fun x => a * cos x + b * sin x) (fun x => p + q * x + r * x ^ 2 + s * x ^ 3 + w * x ^ 4)).
  - apply (derivable_pt_lim_plus (fun x => a * cos x) (fun x => b * sin x)).
    + apply (derivable_pt_lim_scal cos a x), derivable_pt_lim_cos.
    + apply (derivable_pt_lim_scal sin b x), derivable_pt_lim_sin.
  - apply (derivable_pt_lim_plus (fun x => p + q * x + r * x ^ 2 + s * x ^ 3) (fun x => w * x ^ 4)); [|exact (W w 4%nat)].
    apply (derivable_pt_lim_plus (fun x => p + q * x + r * x ^ 2) (fun x => s * x ^ 3)); [|exact (W s 3%nat)].
    apply (derivable_pt_lim_plus (fun x => p + q * x) (fun x => r * x ^ 2)); [|exact (W r 2%nat)].
    apply (derivable_pt_lim_plus (fun _ => p) (fun x => q * x)); auto.
Qed.
Lemma trig_nonneg a b p q r s w : a + p = 0 ->
  (forall x, 0 <= x -> 0 <= - a * sin x + b * cos x + (q + 2 * r * x + 3 * s * x ^ 2 + 4 * w * x ^ 3)) ->
  forall x, 0 <= x -> 0 <= a * cos x + b * sin x + (p + q * x + r * x ^ 2 + s * x ^ 3 + w * x ^ 4).
Proof.
  intros H0 H x Hx. destruct (Req_dec x 0) as [->|Hne].
  - rewrite cos_0, sin_0. simpl. lra.
  - destruct (MVT_cor2 (fun x => a * cos x + b * sin x + (p + q * x + r * x ^ 2 + s * x ^ 3 + w * x ^ 4))
      (fun x => - a * sin x + b * cos x + (q + 2 * r * x + 3 * s * x ^ 2 + 4 * w * x ^ 3)) 0 x ltac:(lra) (fun c _ => derivable_trig a b p q r s w c)) as (c & E & Hc).
    cbv beta in E. rewrite cos_0, sin_0 in E. specialize (H c ltac:(lra)).
    assert (0 <= (- a * sin c + b * cos c + (q + 2 * r * c + 3 * s * c ^ 2 + 4 * w * c ^ 3)) * (x - 0)) by (apply Rmult_le_pos; lra). simpl pow in *. lra.
Qed.
Lemma sin_le_x x : 0 <= x -> sin x <= x.
Proof.
  intros H. pose proof (trig_nonneg 0 (-1) 0 1 0 0 0 ltac:(lra)) as T.
  specialize (T ltac:(intros y Hy; pose proof (COS_bound y); simpl; lra) x H). simpl in T. lra.
Qed.
Lemma cos_ge x : 0 <= x -> 1 - x ^ 2 / 2 <= cos x.
Proof.
  intros H. pose proof (trig_nonneg 1 0 (-1) 0 (/ 2) 0 0 ltac:(lra)) as T.
  specialize (T ltac:(intros y Hy; pose proof (sin_le_x y Hy); simpl; lra) x H). lra.
Qed.
Lemma sin_ge x : 0 <= x -> x - x ^ 3 / 6 <= sin x.
Proof.
  intros H. pose proof (trig_nonneg 0 1 0 (-1) 0 (/ 6) 0 ltac:(lra)) as T.
  specialize (T ltac:(intros y Hy; pose proof (cos_ge y Hy); simpl in *; lra) x H). lra.
Qed.
Lemma cos_le x : 0 <= x -> cos x <= 1 - x ^ 2 / 2 + x ^ 4 / 24.
Proof.
  intros H. pose proof (trig_nonneg (-1) 0 1 0 (- / 2) 0 (/ 24) ltac:(lra)) as T.
  specialize (T ltac:(intros y Hy; pose proof (sin_ge y Hy); simpl in *; lra) x H). lra.
Qed.
Lemma cos_bounds x : 1 - x ^ 2 / 2 <= cos x <= 1 - x ^ 2 / 2 + x ^ 4 / 24.
Proof.
  destruct (Rle_dec 0 x) as [H|H]; [split; [apply cos_ge|apply cos_le]; exact H|].
  rewrite <- (Ropp_involutive x), cos_neg. set (y := - x). assert (Hy : 0 <= y) by (unfold y; lra).
  replace ((- y) ^ 2) with (y ^ 2) by ring. replace ((- y) ^ 4) with (y ^ 4) by ring. split; [apply cos_ge|apply cos_le]; exact Hy.
Qed.
(** one backward Euler step for cos *)
Lemma cos_step t s : 0 <= s -> Rabs (cos t - cos (t - s) + s * sin t) <= s ^ 2 / 2.
Proof.
  intros H. rewrite cos_minus. apply Rabs_le. split.
  - pose proof (trig_nonneg (- cos t) (- sin t) (cos t) (sin t) (/ 2) 0 0 ltac:(lra)) as T.
    enough (0 <= - cos t * cos s + - sin t * sin s + (cos t + sin t * s + / 2 * s ^ 2 + 0 * s ^ 3 + 0 * s ^ 4)) by lra. apply T; [|exact H].
    clear s H T. intros s H. pose proof (trig_nonneg (- sin t) (cos t) (sin t) 1 0 0 0 ltac:(lra)) as T.
    enough (0 <= - sin t * cos s + cos t * sin s + (sin t + 1 * s + 0 * s ^ 2 + 0 * s ^ 3 + 0 * s ^ 4)) by lra. apply T; [|exact H].
    clear s H T. intros s H. pose proof (COS_bound (t - s)) as B. rewrite cos_minus in B. lra.
  - pose proof (trig_nonneg (cos t) (sin t) (- cos t) (- sin t) (/ 2) 0 0 ltac:(lra)) as T.
    enough (0 <= cos t * cos s + sin t * sin s + (- cos t + - sin t * s + / 2 * s ^ 2 + 0 * s ^ 3 + 0 * s ^ 4)) by lra. apply T; [|exact H].
    clear s H T. intros s H. pose proof (trig_nonneg (sin t) (- cos t) (- sin t) 1 0 0 0 ltac:(lra)) as T.
    enough (0 <= sin t * cos s + - cos t * sin s + (- sin t + 1 * s + 0 * s ^ 2 + 0 * s ^ 3 + 0 * s ^ 4)) by lra. apply T; [|exact H].
    clear s H T. intros s H. pose proof (COS_bound (t - s)) as B. rewrite cos_minus in B. lra.
Qed.
(** the second difference of sin(pi x) *)
Lemma sin_difference x h : 2 * sin (PI * x) - sin (PI * (x - h)) - sin (PI * (x + h)) = (2 - 2 * cos (PI * h)) * sin (PI * x).
Proof. rewrite Rmult_minus_distr_l, Rmult_plus_distr_l, sin_minus, sin_plus. ring. Qed.
Lemma second_difference_factor h : h <> 0 -> Rabs ((2 - 2 * cos (PI * h)) / h ^ 2 - PI ^ 2) <= PI ^ 4 * h ^ 2 / 12.
Proof.
  intros Hh. pose proof (cos_bounds (PI * h)) as [L U]. rewrite !Rpow_mult_distr in *.
  assert (P : 0 < h ^ 2) by (rewrite <- Rsqr_pow2; apply Rsqr_pos_lt; exact Hh).
  replace ((2 - 2 * cos (PI * h)) / h ^ 2 - PI ^ 2) with ((2 - 2 * cos (PI * h) - PI ^ 2 * h ^ 2) / h ^ 2) by (field; exact Hh).
  unfold Rdiv at 1. rewrite Rabs_mult, (Rabs_right (/ h ^ 2)) by (apply Rle_ge, Rlt_le, Rinv_0_lt_compat; exact P).
  replace (PI ^ 4 * h ^ 2 / 12) with (PI ^ 4 * h ^ 4 / 12 * / h ^ 2) by (field; exact Hh).
  apply Rmult_le_compat_r; [apply Rlt_le, Rinv_0_lt_compat; exact P|]. apply Rabs_le. split; lra.
Qed.

(** ** Runs
    [x k]: grid point k (0 and nx - 1 are the ends of the interval) *)
Definition grid_point (x_start x_end : R) (nx k : nat) : R := x_start + INR k * spacing x_start x_end nx.
Lemma at_heat_x xs xe nx i : (i < nx - 2)%nat -> at_ (heat_x xs xe nx) i = grid_point xs xe nx (i + 1).
Proof.
  intros H. unfold heat_x. rewrite at_firstn, at_skipn, at_linspace by lia. unfold grid_point, spacing. replace (1 + i)%nat with (i + 1)%nat by lia. reflexivity.
Qed.
Lemma grid_ends xs xe nx : (2 <= nx)%nat -> grid_point xs xe nx 0 = xs /\ grid_point xs xe nx (nx - 1) = xe.
Proof. intros H. unfold grid_point, spacing. split; [simpl; ring|]. field. apply not_0_INR. lia. Qed.
Lemma at_map f (x : list R) i : (i < length x)%nat -> at_ (map f x) i = f (at_ x i).
Proof. intros H. unfold at_. rewrite (nth_indep _ 0 (f 0)) by (rewrite map_length; exact H). apply map_nth. Qed.

(** largest difference of two vectors *)
Definition max_diff (n : nat) (u v : Arr) : R := fold_right Rmax 0 (map (fun i => Rabs (at_ (a_vals u) i - at_ (a_vals v) i)) (seq 0 n)).
Lemma max_diff_ge n u v i : (i < n)%nat -> Rabs (at_ (a_vals u) i - at_ (a_vals v) i) <= max_diff n u v.
Proof.
  intros H. unfold max_diff. assert (I : In i (seq 0 n)) by (apply in_seq; lia). clear H. induction (seq 0 n) as [|k l IH]; [destruct I|].
  cbn [map fold_right]. destruct I as [->|I]; [apply Rmax_l|]. eapply Rle_trans; [apply IH; exact I|apply Rmax_r].
Qed.
Lemma max_diff_nonneg n u v : 0 <= max_diff n u v.
Proof. unfold max_diff. induction (seq 0 n) as [|k l IH]; [apply Rle_refl|]. cbn [map fold_right]. eapply Rle_trans; [exact IH|apply Rmax_r]. Qed.
Lemma max_diff_le n u v M : 0 <= M -> (forall i, (i < n)%nat -> Rabs (at_ (a_vals u) i - at_ (a_vals v) i) <= M) -> max_diff n u v <= M.
Proof.
  intros HM H. unfold max_diff. assert (I : forall i, In i (seq 0 n) -> (i < n)%nat) by (intros i Hi; apply in_seq in Hi; lia).
  induction (seq 0 n) as [|k l IH]; [exact HM|]. cbn [map fold_right]. apply Rmax_lub; [apply H, I; left; reflexivity|]. apply IH. intros i Hi. apply I. right; exact Hi.
Qed.

Section HeatRuns.
  Variables (xs xe a : R) (nx : nat -> nat) (mat : nat -> matrix) (coarsen : nat -> bool) (tm : Z -> R) (U b : R -> R -> R) (u0 : R -> R) (tau : R).
  Hypothesis HN : nested_grids nx coarsen.
  Hypothesis HM : matrices xs xe a nx mat.
  Hypothesis Ha : 0 <= a.
  Hypothesis Hx : xs <> xe.
  Hypothesis Hm : forall s t, (s <= t)%Z -> tm s <= tm t.
  Notation rhs := (fun (x : list R) t => map (fun y => b y t) x).
  Notation A := (spatial_app xs xe nx mat rhs (map u0) coarsen tm).
  Notation h := (spacing xs xe (nx 0%nat)).
  Notation n := (nx 0%nat - 2)%nat.
  Notation x := (grid_point xs xe (nx 0%nat)).
  Variable o : Opts A.
  Hypothesis HV : valid_hierarchy (o_grids o).
  Notation points := (nth 0 (o_grids o) []).
  Notation t := (fun i => tm (nth i points 0%Z)).
  Hypothesis Hends : forall i, (i < length points)%nat -> U xs (t i) = 0 /\ U xe (t i) = 0.
  Hypothesis Hinit : forall k, u0 (x k) = U (x k) (t 0%nat).
  Hypothesis Htau : 0 <= tau.
  Hypothesis Htrunc : forall i k, (S i < length points)%nat -> (0 < k <= n)%nat ->
    Rabs (U (x k) (t (S i)) - U (x k) (t i) +
          (t (S i) - t i) * (a * second_difference h (fun k => U (x k) (t (S i))) k - b (x k) (t (S i)))) <= (t (S i) - t i) * tau.

  Lemma t_mono i : (S i < length points)%nat -> t i <= t (S i).
  Proof.
    intros Hi. apply Hm. destruct HV as (HV0 & HV1 & _).
    destruct (HV1 0%nat) as [HS _]; [destruct (o_grids o); [congruence|simpl; lia]|].
    assert (K : forall (l : list Z) i, Sorted.StronglySorted Z.lt l -> (S i < length l)%nat -> (nth i l 0 <= nth (S i) l 0)%Z).
    { clear. induction l as [|z l IH]; intros i HS Hi; [simpl in Hi; lia|]. inversion HS as [|? ? HS1 HS2]; subst. destruct i.
      - rewrite Forall_forall in HS2. specialize (HS2 (nth 0 l 0%Z)). cbn [nth]. cbn [nth] in HS2. simpl in Hi.
        assert (In (nth 0 l 0%Z) l) by (apply nth_In; lia). destruct l; [simpl in Hi; lia|]. cbn [nth] in *. specialize (HS2 H). lia.
      - apply IH; auto. simpl in Hi. lia. }
    apply K; auto.
  Qed.
  Lemma h_nonzero : h <> 0.
  Proof. apply spacing_nonzero; [destruct (HN 0%nat); lia|exact Hx]. Qed.
  Lemma stepping_wf i : inner nx 0 (time_stepping o i).
  Proof.
    destruct (C63_solver_hypotheses xs xe nx mat rhs (map u0) coarsen tm HN ltac:(intros; apply map_length)) as (HL & _ & _).
    induction i as [|i IH]; cbn [time_stepping]; [apply (wf_clone _ _ HL), (wf_tstart _ _ HL)|apply (wf_phi _ _ HL), IH].
  Qed.
  (** the equations of a step *)
  Lemma step_equation (u : Vec A) s s' i : inner nx 0 u -> tm s <= tm s' -> (i < n)%nat ->
    let v := phi A 0 u s s' in
    length (a_vals v) = n /\
    at_ (a_vals v) i + (tm s' - tm s) * (a * second_difference h (on_grid (a_vals v)) (i + 1)) =
    at_ (a_vals u) i + (tm s' - tm s) * b (x (i + 1)%nat) (tm s').
  Proof.
    intros Hu Hs Hi v.
    destruct (C63_level_equations xs xe a nx mat rhs (map u0) coarsen tm HN HM Ha Hx ltac:(intros; apply map_length) ltac:(intros; apply map_length) 0) as [_ E].
    specialize (E u s s' (a_vals v) Hu Hs). assert (W : v = mkArr n (a_vals v)).
    { destruct (C63_solver_hypotheses xs xe nx mat rhs (map u0) coarsen tm HN ltac:(intros; apply map_length)) as (HL & _ & _).
      destruct (wf_phi _ _ HL 0%nat u s s' Hu) as [Q _]. fold v in Q. destruct v as [s1 v1]. cbn [a_size a_vals] in *. congruence. }
    apply E in W. destruct W as [W1 W2]. split; [exact W1|]. rewrite (W2 i Hi). cbv beta. rewrite at_map by (rewrite heat_x_length; exact Hi).
    rewrite at_heat_x by exact Hi. reflexivity.
  Qed.
  Lemma on_grid_end v : length v = n -> on_grid v (n + 1) = 0.
  Proof. intros E. destruct (HN 0%nat) as [H _]. destruct (on_grid_boundary v (nx 0%nat) H E) as [_ B]. replace (n + 1)%nat with (nx 0%nat - 1)%nat by lia. exact B. Qed.

  Lemma stepping_error i : (i < length points)%nat ->
    0 <= t i - t 0%nat /\
    forall j, (j < n)%nat -> Rabs (at_ (a_vals (time_stepping o i)) j - U (x (j + 1)%nat) (t i)) <= tau * (t i - t 0%nat).
  Proof.
    induction i as [|i IH]; intros Hi.
    - split; [lra|]. intros j Hj. change (a_vals (time_stepping o 0)) with (map u0 (heat_x xs xe (nx 0%nat))).
      rewrite at_map by (rewrite heat_x_length; exact Hj). rewrite at_heat_x by exact Hj. rewrite Hinit.
      replace (U (x (j + 1)%nat) (t 0%nat) - U (x (j + 1)%nat) (t 0%nat)) with 0 by ring. rewrite Rabs_R0. lra.
    - destruct (IH ltac:(lia)) as [T0 E]. pose proof (t_mono i Hi) as Tm. split; [lra|].
      set (v := a_vals (time_stepping o (S i))).
      assert (Q : forall j, (j < n)%nat -> length v = n /\ at_ v j + (t (S i) - t i) * (a * second_difference h (on_grid v) (j + 1)) =
        at_ (a_vals (time_stepping o i)) j + (t (S i) - t i) * b (x (j + 1)%nat) (t (S i))).
      { intros j Hj. exact (step_equation (time_stepping o i) (nth i points 0%Z) (nth (S i) points 0%Z) j (stepping_wf i) Tm Hj). }
      destruct (HN 0%nat) as [H4 _]. destruct (Hends (S i) Hi) as [B1 B2]. destruct (grid_ends xs xe (nx 0%nat) ltac:(lia)) as [X0 X1].
      intros j Hj.
      pose proof (max_principle n a h (t (S i) - t i) (fun k => on_grid v k - U (x k) (t (S i)))
        (fun j => (at_ (a_vals (time_stepping o i)) j - U (x (j + 1)%nat) (t i)) -
           (U (x (j + 1)%nat) (t (S i)) - U (x (j + 1)%nat) (t i) +
            (t (S i) - t i) * (a * second_difference h (fun k => U (x k) (t (S i))) (j + 1) - b (x (j + 1)%nat) (t (S i)))))
        (tau * (t (S i) - t 0%nat)) Ha ltac:(lra) h_nonzero) as MP.
      assert (G : Rabs (on_grid v (j + 1) - U (x (j + 1)%nat) (t (S i))) <= tau * (t (S i) - t 0%nat)).
      { apply MP.
        - apply Rmult_le_pos; lra.
        - rewrite X0, B1. simpl. lra.
        - replace (n + 1)%nat with (nx 0%nat - 1)%nat at 2 by lia. rewrite X1, B2. rewrite on_grid_end by apply (Q j Hj). lra.
        - intros k Hk. destruct (Q k Hk) as [_ Qk]. replace (on_grid v (k + 1)) with (at_ v k) by (replace (k + 1)%nat with (S k) by lia; reflexivity).
          replace (at_ v k) with (at_ (a_vals (time_stepping o i)) k + (t (S i) - t i) * b (x (k + 1)%nat) (t (S i))
            - (t (S i) - t i) * (a * second_difference h (on_grid v) (k + 1))) by lra.
          unfold second_difference, Rdiv. ring.
        - intros k Hk. eapply Rle_trans; [apply Rabs_triang|]. rewrite Rabs_Ropp.
          pose proof (E k Hk). pose proof (Htrunc i (k + 1)%nat Hi ltac:(lia)). cbv beta in *. lra.
        - lia. }
      replace (j + 1)%nat with (S j) in G at 1 by lia. exact G.
  Qed.

  (** a step does not enlarge the largest difference *)
  Lemma step_contracts (u v : Vec A) s s' : inner nx 0 u -> inner nx 0 v -> tm s <= tm s' ->
    max_diff n (phi A 0 u s s') (phi A 0 v s s') <= max_diff n u v.
  Proof.
    intros Hu Hv Hs. pose proof (max_diff_nonneg n u v) as N. apply max_diff_le; [exact N|]. intros i Hi.
    destruct (step_equation u s s' i Hu Hs Hi) as [L1 _]. destruct (step_equation v s s' i Hv Hs Hi) as [L2 _].
    pose proof (max_principle n a h (tm s' - tm s) (fun k => on_grid (a_vals (phi A 0 u s s')) k - on_grid (a_vals (phi A 0 v s s')) k)
      (fun j => at_ (a_vals u) j - at_ (a_vals v) j) (max_diff n u v) Ha ltac:(lra) h_nonzero N) as MP.
    specialize (MP ltac:(simpl; lra)). cbv beta in MP. rewrite !on_grid_end in MP by assumption. specialize (MP ltac:(lra)).
    assert (G : Rabs (on_grid (a_vals (phi A 0 u s s')) (i + 1) - on_grid (a_vals (phi A 0 v s s')) (i + 1)) <= max_diff n u v).
    { apply MP; [|intros; apply max_diff_ge; assumption|lia]. intros j Hj.
      destruct (step_equation u s s' j Hu Hs Hj) as [_ E1]. destruct (step_equation v s s' j Hv Hs Hj) as [_ E2].
      cbv zeta in E1, E2. revert E1 E2. unfold second_difference, Rdiv. replace (j + 1)%nat with (S j) by lia. cbn [on_grid]. intros E1 E2. lra. }
    replace (i + 1)%nat with (S i) in G by lia. exact G.
  Qed.
End HeatRuns.

(** In every execution on any number of processes and for any solution [U] of the differential equation whose truncation error at the
    grid points is at most [tau] (the residual of the scheme per unit of time): after enough iterations all values are within
    tau (t_i - t_0) of the solution. With the residual criterion a run that stops before the last allowed iteration is that accurate up to
    tol for every C-point, whatever the number of iterations, the weight and the coarse grids. *)
Theorem C67_heat_error : forall x_start x_end a nx mat coarsen tm (U b : R -> R -> R) (u0 : R -> R) tau,
  nested_grids nx coarsen -> matrices x_start x_end a nx mat -> 0 <= a -> x_start <> x_end ->
  (forall s t, (s <= t)%Z -> tm s <= tm t) ->
  let A := spatial_app x_start x_end nx mat (fun x t => map (fun y => b y t) x) (map u0) coarsen tm in
  let x := grid_point x_start x_end (nx 0%nat) in
  let m := (nx 0%nat - 2)%nat in
  forall (o : Opts A) (P n : nat) c,
  @good_setup A (inner nx) o P -> (o_dist o <> None -> (1 < length (o_grids o))%nat) ->
  let points := nth 0 (o_grids o) [] in
  let t := fun i => tm (nth i points 0%Z) in
  (forall i, (i < length points)%nat -> U x_start (t i) = 0 /\ U x_end (t i) = 0) -> (forall k, u0 (x k) = U (x k) (t 0%nat)) -> 0 <= tau ->
  (forall i k, (S i < length points)%nat -> (0 < k <= m)%nat ->
    Rabs (U (x k) (t (S i)) - U (x k) (t i) +
          (t (S i) - t i) * (a * second_difference (spacing x_start x_end (nx 0%nat)) (fun k => U (x k) (t (S i))) k - b (x k) (t (S i)))) <= (t (S i) - t i) * tau) ->
  steps P n (initial (mgrit_main o P)) c -> stuck P c ->
  exists res k, finished P res c /\ (forall r, (r < P)%nat -> s_iter (res r) = k) /\
    let u : list Arr := gathered P (fun r => s_u (res r) 0) in
    length u = length points /\
    let error := fun i j => Rabs (at_ (a_vals (nth i u (arr_zeros 0))) j - U (x (j + 1)%nat) (t i)) in
    (o_weight o = 1 -> (0 < k)%nat -> (length (nth 1 (o_grids o) []) <= k * cf_count o 0 + 1)%nat ->
     forall i j, (i < length points)%nat -> (j < m)%nat -> error i j <= tau * (t i - t 0%nat)) /\
    (o_conv_crit o = 0%Z -> (k < o_max_iter o)%nat ->
     forall i j, (i < length points)%nat -> (j < m)%nat -> error i j <= tau * (t i - t 0%nat) + INR (cpoints_upto o i) * o_tol o).
Proof.
  intros xs xe a nx mat co tm U b u0 tau HN HM Ha Hx Hm A x m o P n c G HD points t Hends Hinit Htau Htr H St0.
  destruct (C63_solver_hypotheses xs xe nx mat (fun x t => map (fun y => b y t) x) (map u0) co tm HN ltac:(intros; apply map_length)) as (L & E & W).
  destruct (W o) as [_ W1].
  pose proof (gs_grids _ _ _ G) as HV.
  pose proof (stepping_error xs xe a nx mat co tm U b u0 tau HN HM Ha Hx Hm o HV Hends Hinit Htau Htr) as SA.
  destruct (@run_facts A (inner nx) o P n c G H St0) as (res & k & F & _ & K2 & Hu & Hk & _ & _ & Hst & Hh & _). exists res, k.
  split; [exact F|]. split; [exact Hk|]. intros u.
  assert (Lu : length u = length points) by (unfold u; rewrite Hu, map_length, seq_length; reflexivity). split; [exact Lu|]. intros error.
  assert (HP : (0 < P)%nat) by apply (gs_procs _ _ _ G).
  split.
  - intros Hw Hk0 Hc i j Hi Hj.
    destruct (C09_exact_after_enough_iterations A (inner nx) _ o P n c G E (W1 Hw) HD H St0) as (res' & k' & F' & Hk' & X).
    assert (Er : forall r, (r < P)%nat -> res' r = res r) by (intros r Hr; apply (finished_res_unique P c res' res F' F r Hr)).
    assert (k' = k) by (rewrite <- (Hk 0%nat HP), <- (Hk' 0%nat HP), Er by exact HP; reflexivity). subst k'.
    specialize (X Hk0 (or_introl Hc)).
    assert (Eu : u = map (time_stepping o) (seq 0 (length points))).
    { etransitivity; [|exact X]. unfold u, gathered. f_equal. apply map_ext_in. intros r Hr. apply in_seq in Hr. rewrite Er by lia. reflexivity. }
    unfold error. replace (nth i u (arr_zeros 0)) with (time_stepping o i).
    + apply SA; assumption.
    + rewrite Eu. rewrite (nth_indep _ _ (time_stepping o 0)) by (rewrite map_length, seq_length; auto).
      rewrite (map_nth (time_stepping o)), seq_nth by auto. reflexivity.
  - intros Hcc Hkm i j Hi Hj.
    destruct (C53_residual_bounds_error A (inner nx) o P n c (max_diff m) 1 (Rmax 0 (o_tol o))) as (res' & k' & F' & Hk' & X); auto.
    + intros y. apply Rle_antisym; [|apply max_diff_nonneg]. apply max_diff_le; [lra|]. intros q _.
      replace (at_ (a_vals y) q - at_ (a_vals y) q) with 0 by ring. rewrite Rabs_R0. lra.
    + intros y z w. pose proof (max_diff_nonneg m y z). pose proof (max_diff_nonneg m z w). apply max_diff_le; [lra|]. intros q Hq.
      pose proof (max_diff_ge m y z q Hq). pose proof (max_diff_ge m z w q Hq).
      replace (at_ (a_vals y) q - at_ (a_vals w) q) with ((at_ (a_vals y) q - at_ (a_vals z) q) + (at_ (a_vals z) q - at_ (a_vals w) q)) by ring.
      eapply Rle_trans; [apply Rabs_triang|]. lra.
    + apply Rle_refl.
    + intros y z q Hq Hy Hz. cbv zeta. rewrite Rmult_1_l.
      apply (step_contracts xs xe a nx mat co tm b u0 HN HM Ha Hx y z _ _ Hy Hz). apply (t_mono xs xe a nx mat co tm U b u0 tau Hm o HV Hends Hinit Htr q Hq).
    + intros y z Hy Hz Hyz. cbn [A spatial_app app_with sc_lt vnorm vsub VectorArr c_norm c_sub] in Hyz.
      destruct (Rlt_dec _ _) as [Y|]; [|discriminate]. pose proof (Rmax_r 0 (o_tol o)) as M1. apply max_diff_le; [apply Rmax_l|]. intros q Hq.
      eapply Rle_trans; [|exact M1]. eapply Rle_trans; [|left; exact Y]. cbn [a_vals arr_set].
      destruct Hy as [_ Ly], Hz as [_ Lz].
      rewrite <- (at_vminus (a_vals y) (a_vals z) m q Ly Lz Hq). apply norm2_entry. apply nth_In. rewrite (vminus_length _ _ m Ly Lz). exact Hq.
    + apply Rmax_l.
    + intros l y Hy Hlt z Hz. cbn [A spatial_app app_with sc_lt tnorm] in *. injection Hy as <-. destruct (Rlt_dec (norm2 l) _) as [Y|]; [|discriminate].
      destruct (Rlt_dec z _) as [|N]; [reflexivity|]. exfalso. apply N. pose proof (norm2_entry l z Hz). pose proof (Rle_abs z).
      eapply Rle_lt_trans; [|exact Y]. lra.
    + assert (Er : forall r, (r < P)%nat -> res' r = res r) by (intros r Hr; apply (finished_res_unique P c res' res F' F r Hr)).
      assert (k' = k) by (rewrite <- (Hk 0%nat HP), <- (Hk' 0%nat HP), Er by exact HP; reflexivity). subst k'.
      destruct (X Hkm i Hi) as (y & Ey & By).
      assert (Eu : gathered P (fun r => s_u (res' r) 0) = u).
      { unfold u, gathered. f_equal. apply map_ext_in. intros r Hr. apply in_seq in Hr. rewrite Er by lia. reflexivity. }
      rewrite Eu in Ey. apply (nth_error_nth _ _ (arr_zeros 0)) in Ey. destruct (SA i Hi) as [_ S1]. specialize (S1 j Hj).
      assert (T0 : 0 <= o_tol o).
      { specialize (Hst Hkm). specialize (Hh k (conj (K2 (Nat.le_lt_trans 0 k (o_max_iter o) (Nat.le_0_l k) Hkm)) (Nat.le_refl k))).
        symmetry in Hh. apply (nth_error_nth _ _ (sc_zero A)) in Hh. rewrite Hh in Hst.
        cbn [A spatial_app app_with sc_lt] in Hst.
        destruct (Rlt_dec _ _) as [Y|]; [|discriminate]. eapply Rle_trans; [|left; exact Y]. apply norm2_nonneg. }
      rewrite pow1, Rmult_1_l, Rmax_right in By by exact T0. unfold error. rewrite Ey.
      pose proof (max_diff_ge m (time_stepping o i) y j Hj) as D.
      replace (at_ (a_vals y) j - U (x (j + 1)%nat) (t i)) with
        ((at_ (a_vals (time_stepping o i)) j - U (x (j + 1)%nat) (t i)) + - (at_ (a_vals (time_stepping o i)) j - at_ (a_vals y) j)) by ring.
      eapply Rle_trans; [apply Rabs_triang|]. rewrite Rabs_Ropp. apply Rplus_le_compat; [exact S1|]. eapply Rle_trans; [exact D|exact By].
Qed.

(** ** The problem of the examples (example_heat_1d.py, example_spatial_coarsening.py, at_mgrit/runme_error_heat1d.py):
    u_t - a u_xx = -sin(pi x) (sin t - a pi^2 cos t) with solution sin(pi x) cos t *)
Theorem C67_examples_accuracy : forall x_start x_end a nx mat coarsen tm ht,
  nested_grids nx coarsen -> matrices x_start x_end a nx mat -> 0 <= a -> x_start <> x_end ->
  sin (PI * x_start) = 0 -> sin (PI * x_end) = 0 -> (forall s t, (s <= t)%Z -> tm s <= tm t) ->
  let A := spatial_app x_start x_end nx mat (fun x t => map (fun y => - sin (PI * y) * (sin t - a * PI ^ 2 * cos t)) x) (map (fun y => sin (PI * y))) coarsen tm in
  let h := spacing x_start x_end (nx 0%nat) in
  forall (o : Opts A) (P n : nat) c,
  @good_setup A (inner nx) o P -> (o_dist o <> None -> (1 < length (o_grids o))%nat) ->
  let points := nth 0 (o_grids o) [] in
  let t := fun i => tm (nth i points 0%Z) in
  t 0%nat = 0 -> (forall i, (S i < length points)%nat -> t (S i) - t i <= ht) ->
  steps P n (initial (mgrit_main o P)) c -> stuck P c ->
  exists res k, finished P res c /\ (forall r, (r < P)%nat -> s_iter (res r) = k) /\
    let u : list Arr := gathered P (fun r => s_u (res r) 0) in
    length u = length points /\
    let error := fun i j => Rabs (at_ (a_vals (nth i u (arr_zeros 0))) j - sin (PI * (x_start + INR (j + 1) * h)) * cos (t i)) in
    let accuracy := ht / 2 + a * PI ^ 4 * h ^ 2 / 12 in
    (o_weight o = 1 -> (0 < k)%nat -> (length (nth 1 (o_grids o) []) <= k * cf_count o 0 + 1)%nat ->
     forall i j, (i < length points)%nat -> (j < nx 0%nat - 2)%nat -> error i j <= accuracy * t i) /\
    (o_conv_crit o = 0%Z -> (k < o_max_iter o)%nat ->
     forall i j, (i < length points)%nat -> (j < nx 0%nat - 2)%nat -> error i j <= accuracy * t i + INR (cpoints_upto o i) * o_tol o).
Proof.
  intros xs xe a nx mat co tm ht HN HM Ha Hx S0 S1 Hm A h o P n c G HD points t T0 Ht H St0.
  pose (U := fun x t : R => sin (PI * x) * cos t). pose (b := fun y t : R => - sin (PI * y) * (sin t - a * PI ^ 2 * cos t)).
  assert (Nh : h <> 0) by (apply spacing_nonzero; [destruct (HN 0%nat); lia|exact Hx]).
  assert (Two : (2 <= length points)%nat) by exact (gs_two _ _ _ G).
  assert (M : forall i, (S i < length points)%nat -> t i <= t (S i)).
  { intros i Hi. apply Hm. destruct (gs_grids _ _ _ G) as (HV0 & HV1 & _).
    destruct (HV1 0%nat) as [HS _]; [destruct (o_grids o); [congruence|simpl; lia]|]. fold points in HS. clearbody points. clear - HS Hi.
    revert i Hi. induction HS as [|z l HS IH HF]; intros i Hi; [simpl in Hi; lia|]. destruct i.
    - destruct l; [simpl in Hi; lia|]. inversion HF; subst. cbn [nth]. lia.
    - apply (IH i). simpl in Hi. lia. }
  assert (P4 : 0 <= PI ^ 4) by (apply pow_le, Rlt_le, PI_RGT_0).
  assert (H2 : 0 <= h ^ 2) by (rewrite <- Rsqr_pow2; apply Rle_0_sqr).
  assert (C2 : 0 <= a * PI ^ 4 * h ^ 2 / 12).
  { apply Rmult_le_pos; [|lra]. apply Rmult_le_pos; [|exact H2]. apply Rmult_le_pos; assumption. }
  assert (Hht : 0 <= ht) by (specialize (M 0%nat ltac:(lia)); specialize (Ht 0%nat ltac:(lia)); lra).
  destruct (C67_heat_error xs xe a nx mat co tm U b (fun y => sin (PI * y)) (ht / 2 + a * PI ^ 4 * h ^ 2 / 12) HN HM Ha Hx Hm o P n c G HD)
    as (res & k & F & Hk & Lu & X1 & X2); auto.
  - intros i Hi. unfold U. rewrite S0, S1. lra.
  - intros j. match goal with |- ?l = _ => change (l = l * cos (t 0%nat)) end. rewrite T0, cos_0. lra.
  - lra.
  - intros i j Hi Hj. set (dt := t (S i) - t i). specialize (M i Hi). specialize (Ht i Hi). fold dt in Ht.
    assert (D0 : 0 <= dt) by (unfold dt; lra).
    set (x := grid_point xs xe (nx 0%nat)).
    assert (E : second_difference h (fun k => U (x k) (t (S i))) j = (2 - 2 * cos (PI * h)) / h ^ 2 * U (x j) (t (S i))).
    { unfold second_difference, U. replace (x (j - 1)%nat) with (x j - h) by (unfold x, grid_point; fold h; rewrite minus_INR by lia; simpl; ring).
      replace (x (j + 1)%nat) with (x j + h) by (unfold x, grid_point; fold h; rewrite plus_INR; simpl; ring).
      pose proof (sin_difference (x j) h) as SD. replace (2 * (sin (PI * x j) * cos (t (S i))) - sin (PI * (x j - h)) * cos (t (S i)) - sin (PI * (x j + h)) * cos (t (S i)))
        with ((2 * sin (PI * x j) - sin (PI * (x j - h)) - sin (PI * (x j + h))) * cos (t (S i))) by ring. rewrite SD. field. exact Nh. }
    change (Rabs (U (x j) (t (S i)) - U (x j) (t i) + dt * (a * second_difference h (fun k => U (x k) (t (S i))) j - b (x j) (t (S i)))) <=
      dt * (ht / 2 + a * PI ^ 4 * h ^ 2 / 12)).
    rewrite E. unfold U, b.
    pose proof (second_difference_factor h Nh) as SF. set (q := (2 - 2 * cos (PI * h)) / h ^ 2) in *.
    pose proof (cos_step (t (S i)) dt D0) as CS. replace (t (S i) - dt) with (t i) in CS by (unfold dt; ring).
    replace (sin (PI * x j) * cos (t (S i)) - sin (PI * x j) * cos (t i) +
      dt * (a * (q * (sin (PI * x j) * cos (t (S i)))) - - sin (PI * x j) * (sin (t (S i)) - a * PI ^ 2 * cos (t (S i)))))
      with (sin (PI * x j) * ((cos (t (S i)) - cos (t i) + dt * sin (t (S i))) + dt * a * cos (t (S i)) * (q - PI ^ 2))) by ring.
    rewrite Rabs_mult. assert (B1 : Rabs (sin (PI * x j)) <= 1) by (apply Rabs_le; pose proof (SIN_bound (PI * x j)); lra).
    assert (B2 : Rabs (cos (t (S i))) <= 1) by (apply Rabs_le; pose proof (COS_bound (t (S i))); lra).
    assert (B3 : Rabs (dt * a * cos (t (S i)) * (q - PI ^ 2)) <= dt * (a * PI ^ 4 * h ^ 2 / 12)).
    { rewrite !Rabs_mult, (Rabs_right dt), (Rabs_right a) by lra. pose proof (Rabs_pos (q - PI ^ 2)) as Q0.
      replace (dt * (a * PI ^ 4 * h ^ 2 / 12)) with (dt * a * 1 * (PI ^ 4 * h ^ 2 / 12)) by field.
      apply Rmult_le_compat; [|exact Q0| |exact SF].
      - apply Rmult_le_pos; [apply Rmult_le_pos; lra|apply Rabs_pos].
      - apply Rmult_le_compat_l; [apply Rmult_le_pos; lra|exact B2]. }
    assert (B4 : dt ^ 2 / 2 <= dt * (ht / 2)) by (assert (dt * dt <= dt * ht) by (apply Rmult_le_compat_l; assumption); simpl; lra).
    eapply Rle_trans; [apply Rmult_le_compat_r; [apply Rabs_pos|exact B1]|]. rewrite Rmult_1_l.
    eapply Rle_trans; [apply Rabs_triang|]. lra.
  - exists res, k. split; [exact F|]. split; [exact Hk|]. split; [exact Lu|]. intros error accuracy. split.
    + intros Hw Hk0 Hc i j Hi Hj. assert (Y : error i j <= accuracy * (t i - t 0%nat)) by exact (X1 Hw Hk0 Hc i j Hi Hj). rewrite T0, Rminus_0_r in Y. exact Y.
    + intros Hc Hkm i j Hi Hj. assert (Y : error i j <= accuracy * (t i - t 0%nat) + INR (cpoints_upto o i) * o_tol o) by exact (X2 Hc Hkm i j Hi Hj). rewrite T0, Rminus_0_r in Y. exact Y.
Qed.

(** The example with spatial coarsening meets the hypotheses on any number of processes up to 129: 17 grid points on [0,2], 129 time
    points. *)
Example C67_hypotheses_hold : forall P, (0 < P)%nat -> (P <= 129)%nat -> exists mat,
  nested_grids example_nx example_coarsen /\ matrices 0 2 1 example_nx mat /\ sin (PI * 0) = 0 /\ sin (PI * 2) = 0 /\
  let A := spatial_app 0 2 example_nx mat (fun x t => map (fun y => - sin (PI * y) * (sin t - 1 * PI ^ 2 * cos t)) x) (map (fun y => sin (PI * y))) example_coarsen example_time in
  let o := example_opts A 1 (1 / 10000000) in
  @good_setup A (inner example_nx) o P /\ o_dist o = None /\ o_weight o = 1 /\ example_time (nth 0 (nth 0 (o_grids o) []) 0%Z) = 0 /\ spacing 0 2 (example_nx 0) = 1 / 8.
Proof.
  intros P HP HP'. destruct (C63_hypotheses_hold P HP HP') as (mat & M & X). exists mat. split; [exact example_nested|]. split; [exact M|].
  split; [rewrite Rmult_0_r; apply sin_0|]. split; [rewrite Rmult_comm; apply sin_2PI|]. intros A o. destruct X as (_ & _ & _ & G & _).
  split; [exact G|]. split; [reflexivity|]. split; [reflexivity|]. split; [|unfold spacing, example_nx; simpl; lra].
  unfold example_time. simpl. lra.
Qed.

Print Assumptions C67_heat_error.
Print Assumptions C67_examples_accuracy.
Print Assumptions C67_hypotheses_hold.
