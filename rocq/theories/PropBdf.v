(** C38: the two-point BDF applications reproduce polynomials in time. Written for a solution q(t) whose components are
    polynomials in t and the source term q' - a q_xx (discrete), for every grid and all step sizes. *)
From Coq Require Import Reals Lra Lia List Arith ZArith Bool.
From Verif Require Import LinAlg Vectors Apps AppProofs PropApps.
Import ListNotations.
Local Open Scope R_scope.

Section Bdf.
  Variables (x_start x_end a dtau : R) (nx : nat) (L : matrix) (rhs : list R -> R -> list R).
  Hypothesis Hnx : (4 <= nx)%nat.
  Hypothesis Ha : 0 <= a.
  Hypothesis Hx : x_start <> x_end.
  Hypothesis Hd : 0 < dtau.
  Hypothesis EL : heat_matrix a (heat_dx (heat_x x_start x_end nx)) (nx - 2) = Some L.
  Local Notation n := (nx - 2)%nat.
  Local Notation h := (spacing x_start x_end nx).
  Local Notation x := (heat_x x_start x_end nx).
  (** q_i(t) = c0_i + c1_i t + c2_i t^2 *)
  Variables c0 c1 c2 : nat -> R.
  Definition q (t : R) : list R := tab n (fun i => c0 i + c1 i * t + c2 i * t ^ 2).
  Definition q' (t : R) (i : nat) : R := c1 i + 2 * c2 i * t.
  (** q solves the semi-discrete problem q' + L q = rhs *)
  Hypothesis Hrhs : forall t, length (rhs x t) = n /\
    forall i, (i < n)%nat -> at_ (rhs x t) i = q' t i + a * second_difference h (on_grid (q t)) (i + 1).
  Definition pair_at (t : R) : Pair := mkPair n dtau (q t) (q (t + dtau)).

  Lemma q_len t : length (q t) = n.
  Proof. apply tab_length. Qed.
  Lemma at_q t i : (i < n)%nat -> at_ (q t) i = c0 i + c1 i * t + c2 i * t ^ 2.
  Proof. intros. unfold q. apply at_tab. auto. Qed.
  Lemma L_q t i : (i < n)%nat -> mv n L (at_ (q t)) i = at_ (rhs x t) i - q' t i.
  Proof.
    intros Hi. destruct (heat1d_setup x_start x_end nx a L Hnx EL Ha Hx) as [_ H]. rewrite H by (auto using q_len).
    destruct (Hrhs t) as [_ R]. rewrite R by auto. lra.
  Qed.
  Lemma L_l : lmatrix n L.
  Proof. apply (heat1d_setup x_start x_end nx a L Hnx EL Ha Hx). Qed.

  (** BDF2 *)
  Lemma bdf2_coeff_pos ti tm : 0 < ti -> 0 < tm -> 0 < snd (bdf2_coeffs ti tm).
  Proof.
    intros Hi Hm. unfold bdf2_coeffs. cbn [snd]. assert (0 < ti / tm) by (apply Rdiv_lt_0_compat; auto).
    apply Rdiv_lt_0_compat; [lra|]. apply Rmult_lt_0_compat; lra.
  Qed.
  (** one update from exact values at t - ti - tm and t - ti gives the exact value at t *)
  Lemma bdf2_update_exact ti tm t : 0 < ti -> 0 < tm -> bdf2_update n L x rhs ti tm t (q (t - ti - tm)) (q (t - ti)) = q t.
  Proof.
    intros Hi Hm. unfold bdf2_update. pose proof (bdf2_coeff_pos ti tm Hi Hm) as Hc.
    destruct (bdf2_coeffs ti tm) as [[cm2 cm1] c] eqn:E. cbn [snd] in Hc.
    pose proof (zmatrix_injective _ _ _ (bdf_zmatrix n L c L_l Hc)) as Inj. destruct (Hrhs t) as [Hl _].
    symmetry. apply spsolve_unique; auto using q_len. intros i Hk.
    rewrite mv_madd, mv_mscal, mv_mident, L_q by auto.
    rewrite (at_vplus _ _ n) by (rewrite ?vtimes_length; auto using q_len; apply vminus_length; rewrite ?vtimes_length; auto using q_len).
    rewrite (at_vminus _ _ n) by (rewrite ?vtimes_length; auto using q_len). rewrite !at_vtimes, !at_q by auto.
    unfold bdf2_coeffs in E. injection E as <- <- <-. unfold q'. field. repeat split; lra.
  Qed.
  Theorem C38_bdf2_exact : forall t_start t_stop, dtau < t_stop - t_start ->
    bdf2_step n L x rhs (pair_at t_start) t_start t_stop = pair_at t_stop.
  Proof.
    intros ta tb Ht. unfold bdf2_step, pair_at. cbn [p_first p_second p_dtau p_size]. cbv zeta. unfold pair_set, pair_zeros. cbn [p_size].
    assert (E1 : bdf2_update n L x rhs (tb - ta - dtau) dtau tb (q ta) (q (ta + dtau)) = q tb).
    { pose proof (bdf2_update_exact (tb - ta - dtau) dtau tb ltac:(lra) Hd) as H.
      replace (tb - (tb - ta - dtau) - dtau) with ta in H by ring. replace (tb - (tb - ta - dtau)) with (ta + dtau) in H by ring. exact H. }
    rewrite E1. f_equal.
    pose proof (bdf2_update_exact dtau (tb - ta - dtau) (tb + dtau) Hd ltac:(lra)) as H.
    replace (tb + dtau - dtau - (tb - ta - dtau)) with (ta + dtau) in H by ring. replace (tb + dtau - dtau) with tb in H by ring. exact H.
  Qed.
  (** the pair set up in the constructor (trapezoidal rule) *)
  Theorem C38_bdf2_start : forall t0, bdf2_init n L x rhs (q t0) dtau t0 = pair_at t0.
  Proof.
    intros t0. unfold bdf2_init, pair_at, pair_set, pair_zeros. cbn [p_size]. f_equal.
    pose proof (zmatrix_injective _ _ _ (implicit_zmatrix n L (dtau / 2) L_l ltac:(lra))) as Inj.
    destruct (Hrhs t0) as [Hl0 _]. destruct (Hrhs (t0 + dtau)) as [Hl1 _].
    symmetry. apply spsolve_unique; auto using q_len. intros i Hi. rewrite mv_madd, mv_mscal, mv_mident, L_q by auto.
    rewrite (at_vplus _ _ n) by (rewrite ?mulmv_length, ?vtimes_length; auto; apply vplus_length; auto).
    rewrite at_mulmv, mv_madd, mv_mscal, mv_mident, L_q by auto. rewrite at_vtimes, (at_vplus _ _ n) by auto.
    rewrite !at_q by auto. unfold q'. field.
  Qed.
  (** a run over any time grid with spacing larger than dtau *)
  Fixpoint bdf2_run (t : nat -> R) (k : nat) : Pair :=
    match k with O => bdf2_init n L x rhs (q (t 0%nat)) dtau (t 0%nat) | S j => bdf2_step n L x rhs (bdf2_run t j) (t j) (t k) end.
  Theorem C38_bdf2_run_exact : forall t k, (forall j, dtau < t (S j) - t j) -> bdf2_run t k = pair_at (t k).
  Proof. intros t k Ht. induction k; [apply C38_bdf2_start|]. cbn [bdf2_run]. rewrite IHk. apply C38_bdf2_exact. apply Ht. Qed.

  (** BDF1: linear in time *)
  Hypothesis Hlin : forall i, c2 i = 0.
  Lemma bdf1_update_exact d t : 0 <= d -> spsolve n (madd (mscal d L) mident) (vplus (q (t - d)) (vtimes (rhs x t) d)) = q t.
  Proof.
    intros H. pose proof (zmatrix_injective _ _ _ (implicit_zmatrix n L d L_l H)) as Inj. destruct (Hrhs t) as [Hl _].
    symmetry. apply spsolve_unique; auto using q_len. intros i Hi. rewrite mv_madd, mv_mscal, mv_mident, L_q by auto.
    rewrite (at_vplus _ _ n) by (rewrite ?vtimes_length; auto using q_len). rewrite at_vtimes, !at_q by auto. unfold q'. rewrite Hlin. ring.
  Qed.
  Theorem C38_bdf1_exact : forall t_start t_stop, dtau <= t_stop - t_start ->
    bdf1_init n L x rhs (q t_start) dtau t_start = pair_at t_start /\ bdf1_step n L x rhs (pair_at t_start) t_start t_stop = pair_at t_stop.
  Proof.
    intros ta tb Ht. unfold bdf1_init, bdf1_step, pair_at, pair_set, pair_zeros. cbn [p_first p_second p_dtau p_size]. cbv zeta. split.
    - f_equal. pose proof (bdf1_update_exact dtau (ta + dtau) ltac:(lra)) as H. replace (ta + dtau - dtau) with ta in H by ring. exact H.
    - pose proof (bdf1_update_exact (tb - ta - dtau) tb ltac:(lra)) as H1. replace (tb - (tb - ta - dtau)) with (ta + dtau) in H1 by ring. rewrite H1.
      f_equal. pose proof (bdf1_update_exact dtau (tb + dtau) ltac:(lra)) as H2. replace (tb + dtau - dtau) with tb in H2 by ring. exact H2.
  Qed.
End Bdf.

(** The hypotheses can be met: a source term that belongs to any given quadratic solution exists. *)
Example C38_source_exists : forall x_start x_end a nx (c0 c1 c2 : nat -> R), exists rhs : list R -> R -> list R,
  forall t, length (rhs (heat_x x_start x_end nx) t) = (nx - 2)%nat /\
    forall i, (i < nx - 2)%nat -> at_ (rhs (heat_x x_start x_end nx) t) i =
      q' c1 c2 t i + a * second_difference (spacing x_start x_end nx) (on_grid (q nx c0 c1 c2 t)) (i + 1).
Proof.
  intros. exists (fun _ t => tab (nx - 2) (fun i => q' c1 c2 t i + a * second_difference (spacing x_start x_end nx) (on_grid (q nx c0 c1 c2 t)) (i + 1))).
  intros t. split; [apply tab_length|]. intros i Hi. apply at_tab. exact Hi.
Qed.
(** the coefficients for equal steps tau are the well-known (1/2, 2, 3/2) / tau *)
Example C38_equal_steps : bdf2_coeffs 1 1 = (1 / 2, 2, 3 / 2).
Proof. unfold bdf2_coeffs. repeat f_equal; field. Qed.
(** BDF1 is not exact for quadratics: the order of the formula is one (the zero matrix belongs to a = 0) *)
Theorem C38_bdf1_quadratic_refuted : exists L rhs, heat_matrix 0 (heat_dx (heat_x 0 3 4)) 2 = Some L /\
  (forall x t, rhs x t = [2 * t; 2 * t]) /\ bdf1_step 2 L (heat_x 0 3 4) rhs (mkPair 2 1 [0; 0] [1; 1]) 0 2 <> mkPair 2 1 [4; 4] [9; 9].
Proof.
  destruct (heat_matrix_some 0 (heat_dx (heat_x 0 3 4)) 2 ltac:(lia)) as [L E]. exists L, (fun _ t => [2 * t; 2 * t]). split; [exact E|]. split; [reflexivity|].
  unfold bdf1_step. cbn [p_first p_second p_dtau p_size pair_set pair_zeros]. intros F. apply (f_equal p_first) in F. cbn [p_first] in F.
  pose proof (heat_lmatrix _ _ _ _ E ltac:(lra) ltac:(rewrite heat_x_dx by lia; cbn; lra)) as HL.
  pose proof (zmatrix_injective _ _ _ (implicit_zmatrix 2 L (2 - 0 - 1) HL ltac:(lra))) as Inj.
  pose proof (spsolve_ok 2 _ (vplus [1; 1] (vtimes [2 * 2; 2 * 2] (2 - 0 - 1))) Inj 0 ltac:(lia)) as O.
  cbv zeta in F. cbn [pair_set p_first] in F. rewrite F, mv_madd, mv_mscal, mv_mident, (heat_matrix_row _ _ _ _ _ 0 E) in O by lia.
  cbn in O. lra.
Qed.

Print Assumptions C38_bdf2_run_exact.
Print Assumptions C38_bdf1_exact.
