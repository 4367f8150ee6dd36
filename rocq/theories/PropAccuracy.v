(** C65: how far the result of a run for Dahlquist's equation is from the solution of the differential equation. *)
From Coq Require Import Reals Lra List ZArith Lia Arith Bool Sorted.
From Verif Require Import Net NetProofs NetExec PyList ListFacts Setup Spec SetupProofs Mgrit Reference RefProofs Sim Main ParallelProofs ExampleApp OrderProofs
  Algebra PropAlgebra LinAlg Vectors Apps PropVectors PropParareal.
Import ListNotations.
Local Open Scope R_scope.

(** ** The factor of one step and exp *)
Lemma derivable_mix a b p q r s x :
  derivable_pt_lim (fun x => exp (- x) * (a + b * x) + (p + q * x + r * x ^ 2 + s * x ^ 3)) x
    (exp (- x) * (b - a - b * x) + (q + 2 * r * x + 3 * s * x ^ 2)).
Proof.
  assert (L : forall c, derivable_pt_lim (fun x => c * x) x c).
  { intros c. pose proof (derivable_pt_lim_scal id c x 1 (derivable_pt_lim_id x)) as H. rewrite Rmult_1_r in H. exact H. }
  assert (C : forall c, derivable_pt_lim (fun _ => c) x 0) by (intros c; apply derivable_pt_lim_const).
  assert (W : forall c n, derivable_pt_lim (fun x => c * x ^ n) x (c * (INR n * x ^ pred n))).
  { intros c n. apply (derivable_pt_lim_scal (fun x => x ^ n) c x). apply derivable_pt_lim_pow. }
  assert (E : derivable_pt_lim (fun x => exp (- x)) x (- exp (- x))).
  { pose proof (derivable_pt_lim_comp Ropp exp x (-1) (exp (- x))) as H. replace (- exp (- x)) with (exp (- x) * -1) by ring. apply H.
    - replace (-1) with (- (1)) by ring. apply (derivable_pt_lim_opp id x 1), derivable_pt_lim_id.
    - apply derivable_pt_lim_exp. }
  replace (exp (- x) * (b - a - b * x) + (q + 2 * r * x + 3 * s * x ^ 2)) with
    ((- exp (- x) * (a + b * x) + exp (- x) * (0 + b)) + (0 + q + r * (INR 2 * x ^ 1) + s * (INR 3 * x ^ 2))) by (simpl; ring).
  apply (derivable_pt_lim_plus (fun x => exp (- x) * (a + b * x)) (fun x => p + q * x + r * x ^ 2 + s * x ^ 3)).
  - apply (derivable_pt_lim_mult (fun x => exp (- x)) (fun x => a + b * x)); [exact E|]. apply (derivable_pt_lim_plus (fun _ => a) (fun x => b * x)); auto.
  - apply (derivable_pt_lim_plus (fun x => p + q * x + r * x ^ 2) (fun x => s * x ^ 3)); [|exact (W s 3%nat)].
    apply (derivable_pt_lim_plus (fun x => p + q * x) (fun x => r * x ^ 2)); [|exact (W r 2%nat)].
    apply (derivable_pt_lim_plus (fun _ => p) (fun x => q * x)); auto.
Qed.
Lemma mix_nonneg a b p q r s : a + p = 0 ->
  (forall x, 0 <= x -> 0 <= exp (- x) * (b - a - b * x) + (q + 2 * r * x + 3 * s * x ^ 2)) ->
  forall x, 0 <= x -> 0 <= exp (- x) * (a + b * x) + (p + q * x + r * x ^ 2 + s * x ^ 3).
Proof.
  intros H0 H x Hx. destruct (Req_dec x 0) as [->|Hne].
  - replace (- 0) with 0 by ring. rewrite exp_0. simpl. lra.
  - destruct (MVT_cor2 (fun x => exp (- x) * (a + b * x) + (p + q * x + r * x ^ 2 + s * x ^ 3))
      (fun x => exp (- x) * (b - a - b * x) + (q + 2 * r * x + 3 * s * x ^ 2)) 0 x ltac:(lra) (fun c _ => derivable_mix a b p q r s c)) as (c & E & Hc).
    cbv beta in E. replace (- 0) with 0 in E by ring. rewrite exp_0 in E. specialize (H c ltac:(lra)).
    assert (0 <= (exp (- c) * (b - a - b * c) + (q + 2 * r * c + 3 * s * c ^ 2)) * (x - 0)) by (apply Rmult_le_pos; lra). simpl pow in *. lra.
Qed.
Lemma exp_neg_bounds x : 0 <= x -> 1 - x <= exp (- x) <= / (1 + x) /\ 0 < exp (- x) <= 1.
Proof.
  intros H. pose proof (exp_ineq1_le x) as A. pose proof (exp_ineq1_le (- x)) as B. pose proof (exp_pos (- x)) as C. rewrite exp_Ropp in *.
  assert (/ exp x <= / (1 + x)) by (apply Rinv_le_contravar; lra).
  assert (/ exp x <= / 1) by (apply Rinv_le_contravar; lra). rewrite Rinv_1 in *. lra.
Qed.
Lemma trapezoidal_bounds x : 0 <= x -> 0 <= exp (- x) * (1 + x / 2) - (1 - x / 2) <= x ^ 3 / 12.
Proof.
  intros H. split.
  - pose proof (mix_nonneg 1 (/ 2) (- 1) (/ 2) 0 0 ltac:(lra)) as M.
    assert (0 <= exp (- x) * (1 + / 2 * x) + (-1 + / 2 * x + 0 * x ^ 2 + 0 * x ^ 3)); [|lra]. apply M; [|exact H].
    clear x H M. intros x H. destruct (exp_neg_bounds x H) as [[_ A] _].
    assert (exp (- x) * (1 + x) <= 1). { apply Rmult_le_compat_r with (r := 1 + x) in A; [|lra]. rewrite Rinv_l in A; lra. }
    lra.
  - pose proof (mix_nonneg (- 1) (- / 2) 1 (- / 2) 0 (/ 12) ltac:(lra)) as M.
    assert (0 <= exp (- x) * (-1 + - / 2 * x) + (1 + - / 2 * x + 0 * x ^ 2 + / 12 * x ^ 3)); [|lra]. apply M; [|exact H].
    clear x H M. intros x H.
    assert (0 <= exp (- x) * (1 + 1 * x) + (-1 + 0 * x + / 2 * x ^ 2 + 0 * x ^ 3)); [|lra].
    apply mix_nonneg; [lra| |exact H]. clear x H. intros x H. destruct (exp_neg_bounds x H) as [_ [_ A]].
    replace (exp (- x) * (1 - 1 - 1 * x) + (0 + 2 * / 2 * x + 3 * 0 * x ^ 2)) with (x * (1 - exp (- x))) by field. apply Rmult_le_pos; lra.
Qed.

(** Distance per time unit from the solution, for steps of length at most [h]. *)
Definition accuracy (m : dmethod) (lambda h : R) : R := match m with BE | FE => lambda ^ 2 * h | TR | MR => - lambda ^ 3 * h ^ 2 / 12 end.
(** Forward Euler needs a small step, and the mid-point rule is wrong for lambda /= -1 (C31). *)
Definition usable (m : dmethod) (lambda h : R) : Prop := match m with BE | TR => True | FE => -2 <= h * lambda | MR => lambda = -1 end.

(** One step: the factor has absolute value at most 1 and differs from exp by at most [accuracy * h]. *)
Lemma step_factor m lambda a b h : lambda <= 0 -> a <= b -> b - a <= h -> usable m lambda h ->
  exists g, (forall u, dahlquist_step lambda m u a b = g * u) /\ Rabs g <= 1 /\ Rabs (g - exp (lambda * (b - a))) <= accuracy m lambda h * (b - a).
Proof.
  intros Hl Hab Hh Hm. set (d := b - a) in *. assert (Hd : 0 <= d) by (unfold d; lra).
  set (x := - (lambda * d)). assert (Hx : 0 <= x) by (unfold x; nra). assert (Ex : lambda * d = - x) by (unfold x; ring).
  assert (Hz : (b - a) * lambda = - x) by (unfold x, d; ring).
  destruct (exp_neg_bounds x Hx) as [[B1 B2] [B3 B4]]. pose proof (trapezoidal_bounds x Hx) as [T1 T2].
  assert (I1 : 0 < / (1 + x)) by (apply Rinv_0_lt_compat; lra). assert (I2 : (1 + x) * / (1 + x) = 1) by (field; lra).
  assert (I3 : 0 < / (1 + x / 2)) by (apply Rinv_0_lt_compat; lra). assert (I4 : (1 + x / 2) * / (1 + x / 2) = 1) by (field; lra).
  assert (I5 : / (1 + x) <= 1) by nra. assert (I6 : / (1 + x / 2) <= 1) by nra.
  assert (Q2 : x ^ 2 <= lambda ^ 2 * h * d).
  { replace (x ^ 2) with (lambda ^ 2 * (d * d)) by (unfold x; ring). rewrite Rmult_assoc. apply Rmult_le_compat_l; [apply pow2_ge_0|].
    apply Rmult_le_compat_r; lra. }
  assert (Q3 : x ^ 3 / 12 <= - lambda ^ 3 * h ^ 2 / 12 * d).
  { replace (x ^ 3 / 12) with ((- lambda) ^ 3 / 12 * (d * d * d)) by (unfold x; field).
    replace (- lambda ^ 3 * h ^ 2 / 12 * d) with ((- lambda) ^ 3 / 12 * (h * h * d)) by field.
    apply Rmult_le_compat_l. { assert (0 <= (- lambda) ^ 3) by (apply pow_le; lra). lra. }
    apply Rmult_le_compat_r; [exact Hd|]. apply Rmult_le_compat; lra. }
  assert (TRf : Rabs ((1 - x / 2) * / (1 + x / 2)) <= 1 /\ Rabs ((1 - x / 2) * / (1 + x / 2) - exp (- x)) <= - lambda ^ 3 * h ^ 2 / 12 * d).
  { split.
    - apply Rabs_le. split; nra.
    - replace ((1 - x / 2) * / (1 + x / 2) - exp (- x)) with (- ((exp (- x) * (1 + x / 2) - (1 - x / 2)) * / (1 + x / 2))) by (field; lra).
      set (f := exp (- x) * (1 + x / 2) - (1 - x / 2)) in *. rewrite Rabs_Ropp, Rabs_pos_eq by (apply Rmult_le_pos; lra).
      assert (f * / (1 + x / 2) <= f * 1) by (apply Rmult_le_compat_l; lra). lra. }
  unfold dahlquist_step. rewrite Hz, Ex. destruct m; cbn [accuracy usable] in *.
  - exists (/ (1 + x)). split; [intros u; replace (1 - - x) with (1 + x) by ring; unfold Rdiv; ring|]. rewrite !Rabs_pos_eq by lra. split; [exact I5|].
    assert (/ (1 + x) - (1 - x) <= x ^ 2); [|lra].
    replace (/ (1 + x) - (1 - x)) with (x ^ 2 * / (1 + x)) by (field; lra). rewrite <- (Rmult_1_r (x ^ 2)) at 2. apply Rmult_le_compat_l; [apply pow2_ge_0|exact I5].
  - exists (1 - x). split; [intros u; ring|]. assert (x <= 2). { assert (h * lambda <= d * lambda) by nra. unfold x. lra. }
    split; [apply Rabs_le; lra|]. rewrite Rabs_minus_sym, Rabs_pos_eq by lra.
    assert (/ (1 + x) - (1 - x) <= x ^ 2); [|lra].
    replace (/ (1 + x) - (1 - x)) with (x ^ 2 * / (1 + x)) by (field; lra). rewrite <- (Rmult_1_r (x ^ 2)) at 2. apply Rmult_le_compat_l; [apply pow2_ge_0|exact I5].
  - exists ((1 - x / 2) * / (1 + x / 2)). split; [|exact TRf]. intros u. replace (1 - - x / 2) with (1 + x / 2) by field. unfold Rdiv at 1. replace (1 + - x / 2) with (1 - x / 2) by field. ring.
  - exists ((1 - x / 2) * / (1 + x / 2)). split; [|exact TRf]. intros u. fold d. replace d with x by (unfold x; rewrite Hm; ring). field. lra.
Qed.

(** Dahlquist with one method per level *)
Definition dahlquist_app (lambda : R) (meth : nat -> dmethod) (tm : Z -> R) : App :=
  app_of VectorDahlquist (fun l => dahlquist_step lambda (meth l)) (fun _ => 0) (fun _ => 1) tm.
Lemma dahlquist_laws lambda meth tm : let A := dahlquist_app lambda meth tm in
  app_laws A (fun _ _ => True) /\ exact_laws A (fun _ _ => True) (fun _ => 0) /\ @lossless A (fun _ _ => True) /\
  forall o : Opts A, o_weight o = 1 -> @weight_one A (fun _ _ => True) o.
Proof.
  intros A. destruct (C29_solver_hypotheses VectorDahlquist (fun _ => True) 0 (fun l => dahlquist_step lambda (meth l)) (fun _ => 0) (fun _ => 1) tm) as (X & Y & Z & W); auto.
  { apply C29_dahlquist_laws. }
  split; [exact X|]. split; [exact Y|]. split; [exact Z|]. intros o. apply W.
Qed.
Lemma norm2_entry l y : In y l -> Rabs y <= norm2 l.
Proof.
  intros H. unfold norm2. rewrite <- (sqrt_Rsqr_abs y). apply sqrt_le_1_alt. unfold Rsqr.
  assert (N : forall l : list R, 0 <= fold_right (fun x s => x * x + s) 0 l).
  { clear. induction l as [|x l IH]; simpl; [lra|]. pose proof (Rle_0_sqr x). unfold Rsqr in *. lra. }
  induction l as [|x l IH]; [destruct H|]. cbn [fold_right]. specialize (N l). pose proof (Rle_0_sqr x) as Q. unfold Rsqr in Q. destruct H as [->|H]; [lra|]. specialize (IH H). lra.
Qed.

Section Accuracy.
  Variables (lambda : R) (meth : nat -> dmethod) (tm : Z -> R) (h : R).
  Notation A := (dahlquist_app lambda meth tm).
  Variable o : Opts A.
  Notation points := (nth 0 (@o_grids A o) []).
  Notation t := (fun i => tm (nth i points 0%Z)).
  Hypothesis Hl : lambda <= 0.
  Hypothesis Hm : usable (meth 0%nat) lambda h.
  Hypothesis Ht : forall i, (S i < length points)%nat -> t i <= t (S i) <= t i + h.
  (** serial time stepping *)
  Lemma stepping_accuracy i : (i < length points)%nat ->
    Rabs (time_stepping o i - exp (lambda * (t i - t 0%nat))) <= accuracy (meth 0%nat) lambda h * (t i - t 0%nat) /\ t 0%nat <= t i.
  Proof.
    induction i as [|i IH]; intros Hi.
    - cbn [time_stepping vclone tstart dahlquist_app app_of c_clone VectorDahlquist]. replace (t 0%nat - t 0%nat) with 0 by ring.
      rewrite !Rmult_0_r, exp_0. replace (1 - 1) with 0 by ring. rewrite Rabs_R0. split; apply Rle_refl.
    - destruct (IH ltac:(lia)) as [IH1 IH2]. pose proof (Ht i Hi) as [T1 T2]. split; [|lra].
      destruct (step_factor (meth 0%nat) lambda (t i) (t (S i)) h Hl T1 ltac:(lra) Hm) as (g & E & G1 & G2).
      assert (Es : time_stepping o (S i) = g * time_stepping o i) by exact (E _). rewrite Es. clear E Es.
      set (u := time_stepping o i) in *. set (a := exp (lambda * (t i - t 0%nat))) in *. set (b := exp (lambda * (t (S i) - t i))) in *.
      replace (exp (lambda * (t (S i) - t 0%nat))) with (a * b) by (unfold a, b; rewrite <- exp_plus; f_equal; ring).
      assert (Ha : 0 <= a <= 1).
      { unfold a. split; [apply Rlt_le, exp_pos|]. rewrite <- exp_0. assert (X : lambda * (t i - t 0%nat) <= 0) by nra.
        destruct X as [X|X]; [left; apply exp_increasing; exact X|right; rewrite X; reflexivity]. }
      replace (g * u - a * b) with (g * (u - a) + a * (g - b)) by ring. eapply Rle_trans; [apply Rabs_triang|]. rewrite !Rabs_mult, (Rabs_pos_eq a) by lra.
      replace (accuracy (meth 0%nat) lambda h * (t (S i) - t 0%nat)) with
        (accuracy (meth 0%nat) lambda h * (t i - t 0%nat) + accuracy (meth 0%nat) lambda h * (t (S i) - t i)) by ring.
      pose proof (Rabs_pos (u - a)). pose proof (Rabs_pos (g - b)). pose proof (Rabs_pos g).
      assert (Rabs g * Rabs (u - a) <= 1 * Rabs (u - a)) by (apply Rmult_le_compat_r; lra).
      assert (a * Rabs (g - b) <= 1 * Rabs (g - b)) by (apply Rmult_le_compat_r; lra). lra.
  Qed.
End Accuracy.

(** End to end. In every execution on any number of processes, with any grids, cycle, relaxation and any methods on the coarse
    levels: after enough iterations, the values are as accurate as those of the time stepping method: first order for the Euler
    methods, second order for the trapezoidal rule. With the residual criterion a run that stops before the last allowed iteration is
    that accurate up to tol for every C-point, whatever the number of iterations and the weight. *)
Theorem C65_dahlquist_accuracy : forall lambda meth tm h,
  let A := dahlquist_app lambda meth tm in
  forall (o : Opts A) (P n : nat) c,
  @good_setup A (fun _ _ => True) o P -> (o_dist o <> None -> (1 < length (o_grids o))%nat) ->
  let points := nth 0 (o_grids o) [] in
  let t := fun i => tm (nth i points 0%Z) in
  lambda <= 0 -> usable (meth 0%nat) lambda h -> (forall i, (S i < length points)%nat -> t i <= t (S i) <= t i + h) ->
  steps P n (initial (mgrit_main o P)) c -> stuck P c ->
  exists res k, finished P res c /\ (forall r, (r < P)%nat -> s_iter (res r) = k) /\
    let u : list R := gathered P (fun r => s_u (res r) 0) in
    length u = length points /\
    let exact := fun i => exp (lambda * (t i - t 0%nat)) in
    (o_weight o = 1 -> (0 < k)%nat -> (length (nth 1 (o_grids o) []) <= k * cf_count o 0 + 1)%nat ->
     forall i, (i < length points)%nat -> Rabs (nth i u 0 - exact i) <= accuracy (meth 0%nat) lambda h * (t i - t 0%nat)) /\
    (o_conv_crit o = 0%Z -> (k < o_max_iter o)%nat ->
     forall i, (i < length points)%nat -> Rabs (nth i u 0 - exact i) <= accuracy (meth 0%nat) lambda h * (t i - t 0%nat) + INR (cpoints_upto o i) * o_tol o).
Proof.
  intros lambda meth tm h A o P n c G HD points t Hl Hm Ht H St0.
  destruct (dahlquist_laws lambda meth tm) as (L & E & _ & W).
  pose proof (stepping_accuracy lambda meth tm h o Hl Hm Ht) as SA. fold A in SA.
  destruct (run_facts (fun _ _ => True) o P n c G H St0) as (res & k & F & _ & K2 & Hu & Hk & _ & _ & Hst & Hh & _). exists res, k.
  split; [exact F|]. split; [exact Hk|]. intros u.
  assert (Lu : length u = length points) by (unfold u; rewrite Hu, map_length, seq_length; reflexivity). split; [exact Lu|]. intros exact.
  assert (HP : (0 < P)%nat) by apply (gs_procs _ _ _ G).
  split.
  - intros Hw Hk0 Hc i Hi.
    destruct (C09_exact_after_enough_iterations A (fun _ _ => True) _ o P n c G E (W o Hw) HD H St0) as (res' & k' & F' & Hk' & X).
    assert (Er : forall r, (r < P)%nat -> res' r = res r) by (intros r Hr; apply (finished_res_unique P c res' res F' F r Hr)).
    assert (k' = k) by (rewrite <- (Hk 0%nat HP), <- (Hk' 0%nat HP), Er by exact HP; reflexivity). subst k'.
    specialize (X Hk0 (or_introl Hc)).
    assert (Eu : u = map (time_stepping o) (seq 0 (length points))).
    { etransitivity; [|exact X]. unfold u, gathered. f_equal. apply map_ext_in. intros r Hr. apply in_seq in Hr. rewrite Er by lia. reflexivity. }
    replace (nth i u 0) with (time_stepping o i).
    + apply SA. exact Hi.
    + rewrite Eu. rewrite (nth_indep _ _ (time_stepping o 0)) by (rewrite map_length, seq_length; auto).
      rewrite (map_nth (time_stepping o)), seq_nth by auto. reflexivity.
  - intros Hcc Hkm i Hi.
    destruct (C53_residual_bounds_error A (fun _ _ => True) o P n c (fun x y : R => Rabs (x - y)) 1 (Rmax 0 (o_tol o))) as (res' & k' & F' & Hk' & X); auto.
    + intros x. replace (x - x) with 0 by ring. apply Rabs_R0.
    + intros x y z. replace (x - z) with ((x - y) + (y - z)) by ring. apply Rabs_triang.
    + apply Rle_refl.
    + intros x y j Hj _ _. cbv zeta. destruct (Ht j Hj) as [T1 T2].
      destruct (step_factor (meth 0%nat) lambda (t j) (t (S j)) h Hl T1 ltac:(lra) Hm) as (g & Eg & G1 & _).
      change (Rabs (dahlquist_step lambda (meth 0%nat) x (t j) (t (S j)) - dahlquist_step lambda (meth 0%nat) y (t j) (t (S j))) <= 1 * Rabs (x - y)).
      rewrite !Eg. replace (g * x - g * y) with (g * (x - y)) by ring. rewrite Rabs_mult. apply Rmult_le_compat_r; [apply Rabs_pos|exact G1].
    + intros x y _ _ Hxy. cbn [A dahlquist_app app_of sc_lt vnorm vsub VectorDahlquist c_norm c_sub] in Hxy.
      destruct (Rlt_dec _ _) as [Y|]; [|discriminate]. eapply Rle_trans; [left; exact Y|apply Rmax_r].
    + apply Rmax_l.
    + intros l x Hx Hlt y Hy. cbn [A dahlquist_app app_of sc_lt tnorm] in *. injection Hx as <-. destruct (Rlt_dec (norm2 l) _) as [Y|]; [|discriminate].
      destruct (Rlt_dec y _) as [|N]; [reflexivity|]. exfalso. apply N. pose proof (norm2_entry l y Hy). pose proof (Rle_abs y).
      eapply Rle_lt_trans; [|exact Y]. lra.
    + assert (Er : forall r, (r < P)%nat -> res' r = res r) by (intros r Hr; apply (finished_res_unique P c res' res F' F r Hr)).
      assert (k' = k) by (rewrite <- (Hk 0%nat HP), <- (Hk' 0%nat HP), Er by exact HP; reflexivity). subst k'.
      destruct (X Hkm i Hi) as (y & Ey & By).
      assert (Eu : gathered P (fun r => s_u (res' r) 0) = u).
      { unfold u, gathered. f_equal. apply map_ext_in. intros r Hr. apply in_seq in Hr. rewrite Er by lia. reflexivity. }
      rewrite Eu in Ey. apply (nth_error_nth _ _ 0) in Ey. destruct (SA i Hi) as [S1 _].
      assert (T0 : 0 <= o_tol o).
      { specialize (Hst Hkm). specialize (Hh k (conj (K2 (Nat.le_lt_trans 0 k (o_max_iter o) (Nat.le_0_l k) Hkm)) (Nat.le_refl k))).
        symmetry in Hh. apply (nth_error_nth _ _ (sc_zero A)) in Hh. rewrite Hh in Hst.
        cbn [A dahlquist_app app_of sc_lt] in Hst.
        destruct (Rlt_dec _ _) as [Y|]; [|discriminate]. eapply Rle_trans; [|left; exact Y]. apply norm2_nonneg. }
      rewrite pow1, Rmult_1_l, Rmax_right in By by exact T0. subst y.
      replace (nth i u 0 - exact i) with ((time_stepping o i - exact i) + - (time_stepping o i - nth i u 0)) by ring.
      eapply Rle_trans; [apply Rabs_triang|]. rewrite Rabs_Ropp. apply Rplus_le_compat; [exact S1|exact By].
Qed.

(** The mid-point rule of the code (k1 = -1 / (1 - z / 2) u instead of lambda / (1 - z / 2) u, C31): for lambda = -2 the exact value
    at time 1 is exp(-2), but the result is at least exp(-1), for every number of time points. *)
Theorem C65_midpoint_refuted : forall N, (0 < N)%nat ->
  let tm := fun z => IZR z / INR N in
  let A := dahlquist_app (-2) (fun _ => MR) tm in
  forall (o : Opts A) (P n : nat) c,
  @good_setup A (fun _ _ => True) o P -> (o_dist o <> None -> (1 < length (o_grids o))%nat) -> o_weight o = 1 ->
  nth 0 (o_grids o) [] = map Z.of_nat (seq 0 (S N)) ->
  steps P n (initial (mgrit_main o P)) c -> stuck P c ->
  exists res k, finished P res c /\ (forall r, (r < P)%nat -> s_iter (res r) = k) /\
    let u : list R := gathered P (fun r => s_u (res r) 0) in
    ((0 < k)%nat -> (length (nth 1 (o_grids o) []) <= k * cf_count o 0 + 1)%nat ->
     tm (Z.of_nat N) - tm 0%Z = 1 /\ exp (-2 * 1) < exp (-1) <= nth N u 0).
Proof.
  intros N HN tm A o P n c G HD Hw Hg H St0. destruct (dahlquist_laws (-2) (fun _ => MR) tm) as (L & E & _ & W).
  destruct (C09_exact_after_enough_iterations A (fun _ _ => True) _ o P n c G E (W o Hw) HD H St0) as (res & k & F & Hk & X). exists res, k.
  split; [exact F|]. split; [exact Hk|]. intros u Hk0 Hc. specialize (X Hk0 (or_introl Hc)).
  assert (N0 : 0 < INR N) by (apply lt_0_INR; exact HN).
  split. { unfold tm. rewrite <- INR_IZR_INZ. field. lra. }
  split. { apply exp_increasing. lra. }
  assert (Eu : u = map (time_stepping o) (seq 0 (S N))).
  { etransitivity; [exact X|]. f_equal. f_equal. etransitivity; [exact (f_equal (@length Z) Hg)|]. rewrite map_length, seq_length. reflexivity. }
  replace (nth N u 0) with (time_stepping o N).
  2: { rewrite Eu, (nth_indep _ _ (time_stepping o 0)) by (rewrite map_length, seq_length; lia). rewrite (map_nth (time_stepping o)), seq_nth by lia. reflexivity. }
  assert (K : forall i, (i <= N)%nat -> exp (- (INR i / INR N)) <= time_stepping o i).
  { induction i as [|i IH]; intros Hi.
    - cbn [time_stepping vclone tstart A dahlquist_app app_of c_clone VectorDahlquist]. simpl INR. replace (- (0 / INR N)) with 0 by (field; lra). rewrite exp_0. lra.
    - specialize (IH ltac:(lia)). set (h := / INR N). assert (Hh : 0 < h) by (apply Rinv_0_lt_compat; exact N0).
      assert (T : forall j, (j <= N)%nat -> tm (nth j (nth 0 (o_grids o) []) 0%Z) = INR j / INR N).
      { intros j Hj. unfold tm. replace (nth j (nth 0 (o_grids o) []) 0%Z) with (Z.of_nat j); [rewrite <- INR_IZR_INZ; reflexivity|]. symmetry.
        etransitivity; [exact (f_equal (fun l => nth j l 0%Z) Hg)|].
        rewrite (nth_indep _ _ (Z.of_nat 0)) by (rewrite map_length, seq_length; lia). rewrite (map_nth Z.of_nat), seq_nth by lia. reflexivity. }
      assert (Es : time_stepping o (S i) = dahlquist_step (-2) MR (time_stepping o i) (tm (nth i (nth 0 (o_grids o) []) 0%Z)) (tm (nth (S i) (nth 0 (o_grids o) []) 0%Z))) by reflexivity.
      rewrite !T in Es by lia. rewrite Es. unfold dahlquist_step. replace (INR (S i) / INR N - INR i / INR N) with h by (unfold h; rewrite S_INR; field; lra).
      set (v := time_stepping o i) in *. replace (v + h * (-1 / (1 - h * -2 / 2) * v)) with (/ (1 + h) * v) by (field; lra).
      replace (- (INR (S i) / INR N)) with (- h + - (INR i / INR N)) by (unfold h; rewrite S_INR; field; lra). rewrite exp_plus.
      destruct (exp_neg_bounds h ltac:(lra)) as [[_ B] [B0 _]]. apply Rmult_le_compat; [lra|left; apply exp_pos|exact B|exact IH]. }
  specialize (K N (Nat.le_refl N)). replace (INR N / INR N) with 1 in K by (field; lra). exact K.
Qed.

(** ** The hypotheses hold
    9 points, coarsening by 2, one method on the fine and another one on the coarse level, steps of length 1/10 resp. the
    mid-point rule with lambda = -2; serial time stepping has the values (10/11)^i for backward Euler and lambda = -1. *)
Definition mixed (fine coarse : dmethod) (l : nat) : dmethod := if (l =? 0)%nat then fine else coarse.
Definition acc_opts (A : App) (w tol : Sc A) : Opts A :=
  mkOpts A [grid_of 9 1; grid_of 5 2] 1 w 10 tol false (CfInt 1) (Some false) 0 false 2 None 0 ascending_order.
Lemma acc_good lambda meth tm w tol P : (0 < P)%nat -> (P <= 9)%nat ->
  @good_setup (dahlquist_app lambda meth tm) (fun _ _ => True) (acc_opts (dahlquist_app lambda meth tm) w tol) P.
Proof.
  intros HP HP'. constructor.
  - apply dahlquist_laws.
  - apply valid_hierarchyb_ok. vm_compute. reflexivity.
  - apply no_adjacentb_ok. vm_compute. reflexivity.
  - simpl. lia.
  - exact HP.
  - transitivity (if (9 <? P)%nat then Some (UserException 10) else None); [lazy; reflexivity|]. replace (9 <? P)%nat with false by (symmetry; apply Nat.ltb_ge; lia). reflexivity.
  - left; reflexivity.
  - apply ascending_order_ok.
  - discriminate.
  - discriminate.
Qed.
Example C65_hypotheses_hold : forall P, (0 < P)%nat -> (P <= 9)%nat ->
  let tm := fun z => IZR z / 10 in
  forall fine coarse, fine <> MR ->
  let A := dahlquist_app (-3) (mixed fine coarse) tm in
  let o := acc_opts A (1 : Sc A) (1 / 1000 : Sc A) in
  @good_setup A (fun _ _ => True) o P /\ usable (mixed fine coarse 0) (-3) (1 / 10) /\
  (forall i, (S i < length (nth 0 (o_grids o) []))%nat -> let t := fun i => tm (nth i (nth 0 (o_grids o) []) 0%Z) in t i <= t (S i) <= t i + 1 / 10) /\
  (length (nth 1 (o_grids o) []) <= 10 * cf_count o 0 + 1)%nat /\ map (cpoints_upto o) (seq 0 9) = [0; 0; 1; 1; 2; 2; 3; 3; 4]%nat /\
  accuracy BE (-3) (1 / 10) = 9 / 10 /\ accuracy TR (-3) (1 / 10) = 9 / 400.
Proof.
  intros P HP HP' tm fine coarse Hf A o. split; [apply acc_good; auto|]. split; [destruct fine; cbn; try exact I; try lra; congruence|].
  split. { intros i Hi t. change (Datatypes.S i < 9)%nat in Hi. unfold t, tm, o. do 8 (destruct i as [|i]; [cbn; lra|]). lia. }
  split; [cbn; lia|]. split; [reflexivity|]. unfold accuracy. split; field.
Qed.
Example C65_midpoint_hypotheses : forall P, (0 < P)%nat -> (P <= 9)%nat ->
  let A := dahlquist_app (-2) (fun _ => MR) (fun z => IZR z / INR 8) in
  let o := acc_opts A (1 : Sc A) (1 / 1000 : Sc A) in
  @good_setup A (fun _ _ => True) o P /\ nth 0 (o_grids o) [] = map Z.of_nat (seq 0 9) /\ o_dist o = None.
Proof. intros P HP HP' A o. split; [apply acc_good; auto|]. split; reflexivity. Qed.

Print Assumptions C65_dahlquist_accuracy.
Print Assumptions C65_midpoint_refuted.
Print Assumptions C65_hypotheses_hold.
