(** C37: the Newton iteration of AllenCahn.step; C43: Brusselator; C44: AllenCahn's discrete Laplacian. *)
From Coq Require Import Reals Lra Lia List Arith ZArith Bool.
From Verif Require Import LinAlg Vectors Apps AppProofs.
Import ListNotations.
Local Open Scope R_scope.

(** ** sums over a product grid *)
Lemma rsum_app n m f : rsum (n + m) f = rsum n f + rsum m (fun k => f (n + k)%nat).
Proof. induction m; cbn [rsum]; [rewrite Nat.add_0_r; lra|]. rewrite Nat.add_succ_r. cbn [rsum]. rewrite IHm. lra. Qed.
Lemma rsum_prod n m f : rsum (n * m) f = rsum n (fun i => rsum m (fun j => f (i * m + j)%nat)).
Proof.
  induction n; [reflexivity|]. cbn [rsum]. replace (S n * m)%nat with (n * m + m)%nat by lia. rewrite rsum_app, IHn. reflexivity.
Qed.
Lemma mv_kron_left m A x i j : (j < m)%nat -> mv (m * m) (kron m A mident) x (i * m + j) = mv m A (fun k => x (k * m + j)%nat) i.
Proof.
  intros Hj. unfold mv. rewrite rsum_prod. apply rsum_ext. intros p Hp. unfold kron. destruct (divmod_idx m i j Hj) as [-> ->].
  rewrite (rsum_one m j); auto.
  - destruct (divmod_idx m p j Hj) as [-> ->]. unfold mident. rewrite Nat.eqb_refl. lra.
  - intros k Hk N. destruct (divmod_idx m p k Hk) as [-> ->]. unfold mident. destruct (Nat.eqb_spec k j); [congruence|]. lra.
Qed.
Lemma mv_kron_right m A x i j : (i < m)%nat -> (j < m)%nat -> mv (m * m) (kron m mident A) x (i * m + j) = mv m A (fun k => x (i * m + k)%nat) j.
Proof.
  intros Hi Hj. unfold mv. rewrite rsum_prod. rewrite (rsum_one m i); auto.
  - apply rsum_ext. intros k Hk. unfold kron. destruct (divmod_idx m i j Hj) as [-> ->]. destruct (divmod_idx m i k Hk) as [-> ->].
    unfold mident. rewrite Nat.eqb_refl. lra.
  - intros p Hp N. apply rsum_zero. intros k Hk. unfold kron. destruct (divmod_idx m i j Hj) as [-> ->]. destruct (divmod_idx m p k Hk) as [-> ->].
    unfold mident. destruct (Nat.eqb_spec p i); [congruence|]. lra.
Qed.

(** ** the periodic second difference in one dimension *)
Definition prev (m i : nat) : nat := if (i =? 0)%nat then (m - 1)%nat else (i - 1)%nat.
Definition next (m i : nat) : nat := if (i =? m - 1)%nat then 0%nat else (i + 1)%nat.
Definition periodic1 (m : nat) : option matrix :=
  diags m [((Z.of_nat m - 1)%Z, [1]); (0%Z, [-2]); (1%Z, [1]); ((Z.of_nat m - 1 - Z.of_nat m)%Z, [1]); ((1 - Z.of_nat m)%Z, [1])].
Lemma at_repeat c m k : (k < m)%nat -> at_ (repeat c m) k = c.
Proof. intros H. unfold at_. apply (repeat_spec m c). apply nth_In. rewrite repeat_length. exact H. Qed.
Lemma diag_vals_scalar n k c : (Z.abs k < Z.of_nat n)%Z -> exists d, diag_vals n k [c] = Some d /\ forall i, (i < diag_len n k)%nat -> at_ d i = c.
Proof.
  intros H. unfold diag_vals. replace (Z.of_nat n <? Z.abs k)%Z with false by (symmetry; apply Z.ltb_ge; lia).
  destruct (Nat.leb_spec (diag_len n k) (length [c])) as [H0|H0].
  - exists [c]. split; [reflexivity|]. cbn [length] in H0. intros [|i] Hi; [reflexivity|lia].
  - exists (repeat c (diag_len n k)). split; [reflexivity|]. intros i Hi. apply at_repeat. exact Hi.
Qed.
Lemma mv_diag_const n k d c x i : (forall j, (j < diag_len n k)%nat -> at_ d j = c) -> (i < n)%nat -> (Z.abs k < Z.of_nat n)%Z ->
  mv n (diag_entry k d) x i = if ((0 <=? Z.of_nat i + k) && (Z.of_nat i + k <? Z.of_nat n))%Z then c * x (Z.to_nat (Z.of_nat i + k)) else 0.
Proof.
  intros Hd Hi Hk. rewrite mv_diag. destruct (0 <=? Z.of_nat i + k)%Z eqn:E1; [|reflexivity]. destruct (Z.of_nat i + k <? Z.of_nat n)%Z eqn:E2; [|reflexivity].
  cbn [andb]. apply Z.leb_le in E1. apply Z.ltb_lt in E2. rewrite Hd; [reflexivity|]. unfold diag_len. destruct (Z.leb_spec 0 k); lia.
Qed.
Lemma periodic1_row m : (3 <= m)%nat -> exists D, periodic1 m = Some D /\
  forall x i, (i < m)%nat -> mv m D x i = x (prev m i) - 2 * x i + x (next m i).
Proof.
  intros Hm. unfold periodic1, diags.
  replace (nodupz _) with true.
  2:{ cbn [map fst nodupz existsb]. symmetry.
      repeat match goal with |- context[(?a =? ?b)%Z] => destruct (Z.eqb_spec a b) as [?|_]; [lia|] end. reflexivity. }
  cbn [diags_sum].
  destruct (diag_vals_scalar m (Z.of_nat m - 1) 1 ltac:(lia)) as [d1 [-> H1]].
  destruct (diag_vals_scalar m 0 (-2) ltac:(lia)) as [d2 [-> H2]].
  destruct (diag_vals_scalar m 1 1 ltac:(lia)) as [d3 [-> H3]].
  destruct (diag_vals_scalar m (Z.of_nat m - 1 - Z.of_nat m) 1 ltac:(lia)) as [d4 [-> H4]].
  destruct (diag_vals_scalar m (1 - Z.of_nat m) 1 ltac:(lia)) as [d5 [-> H5]].
  eexists. split; [reflexivity|]. intros x i Hi. rewrite !mv_addfun, mv_zero.
  rewrite (mv_diag_const m _ d1 1), (mv_diag_const m _ d2 (-2)), (mv_diag_const m _ d3 1), (mv_diag_const m _ d4 1), (mv_diag_const m _ d5 1) by (auto; lia).
  unfold prev, next.
  repeat match goal with |- context[(?a <=? ?b)%Z] => destruct (Z.leb_spec a b) end;
  repeat match goal with |- context[(?a <? ?b)%Z] => destruct (Z.ltb_spec a b) end; cbn [andb]; try lia;
  repeat match goal with |- context[(?a =? ?b)%nat] => destruct (Nat.eqb_spec a b) end; try lia;
  repeat match goal with |- context[Z.to_nat ?z] =>
    first [ replace (Z.to_nat z) with i by lia | replace (Z.to_nat z) with (m - 1)%nat by lia | replace (Z.to_nat z) with 0%nat by lia
          | replace (Z.to_nat z) with (i + 1)%nat by lia | replace (Z.to_nat z) with (i - 1)%nat by lia ] end; try lra.
Qed.

(** ** C44: AllenCahn.compute_matrix is the periodic 5-point Laplacian *)
Definition laplace_periodic (m : nat) (g : nat -> nat -> R) (i j : nat) : R :=
  (g (prev m i) j + g (next m i) j + g i (prev m j) + g i (next m j) - 4 * g i j) / (1 / INR m) ^ 2.
Theorem C44_laplacian : forall nx, (3 <= nx)%nat -> exists L, allen_cahn_matrix nx = Some L /\
  forall v i j, (i < nx)%nat -> (j < nx)%nat ->
    mv (nx * nx) L v (i * nx + j) = laplace_periodic nx (fun p q => v (p * nx + q)%nat) i j.
Proof.
  intros nx Hn. destruct (periodic1_row nx Hn) as [D [E H]]. unfold allen_cahn_matrix. cbv zeta. unfold periodic1 in E. rewrite E.
  eexists. split; [reflexivity|]. intros v i j Hi Hj. rewrite mv_mscal, mv_madd, mv_kron_left, mv_kron_right, !H by auto. unfold laplace_periodic, Rdiv. ring.
Qed.
(** smaller grids are rejected by scipy (repeated offsets) *)
Theorem C44_small_grids_rejected : allen_cahn_matrix 1 = None /\ allen_cahn_matrix 2 = None.
Proof. split; reflexivity. Qed.
Lemma prev_lt m i : (0 < m)%nat -> (i < m)%nat -> (prev m i < m)%nat.
Proof. unfold prev. intros. destruct (Nat.eqb_spec i 0); lia. Qed.
Lemma next_lt m i : (0 < m)%nat -> (i < m)%nat -> (next m i < m)%nat.
Proof. unfold next. intros. destruct (Nat.eqb_spec i (m - 1)); lia. Qed.
Lemma rsum_prev m f : (0 < m)%nat -> rsum m (fun i => f (prev m i)) = rsum m f.
Proof.
  intros H. rewrite <- (rsum_pred_mod m f) by lia. apply rsum_ext. intros i _. destruct i; [reflexivity|]. unfold prev. cbn [Nat.eqb pred_mod]. f_equal. lia.
Qed.
Lemma rsum_next m f : (0 < m)%nat -> rsum m (fun i => f (next m i)) = rsum m f.
Proof.
  intros H. transitivity (rsum m (fun i => f (next m (prev m i)))).
  - symmetry. apply (rsum_prev m (fun i => f (next m i)) H).
  - apply rsum_ext. intros i Hi. f_equal. unfold prev, next. destruct (Nat.eqb_spec i 0); [subst; rewrite Nat.eqb_refl; reflexivity|].
    destruct (Nat.eqb_spec (i - 1) (m - 1)); lia.
Qed.
Definition total2 (m : nat) (g : nat -> nat -> R) : R := rsum m (fun i => rsum m (g i)).
Lemma total2_laplace m g : (0 < m)%nat -> total2 m (laplace_periodic m g) = 0.
Proof.
  intros Hm. unfold total2, laplace_periodic, Rdiv. set (w := / (1 * / INR m) ^ 2).
  transitivity (rsum m (fun i => (rsum m (g (prev m i)) + rsum m (g (next m i)) - 2 * rsum m (g i)) * w)).
  - apply rsum_ext. intros i Hi. rewrite rsum_scal_r. f_equal. rewrite rsum_minus, !rsum_plus, rsum_scal, (rsum_prev m (g i)), (rsum_next m (g i)) by auto.
    change (rsum m (fun k => g (prev m i) k)) with (rsum m (g (prev m i))). change (rsum m (fun k => g (next m i) k)) with (rsum m (g (next m i))).
    change (rsum m (fun k => g i k)) with (rsum m (g i)). lra.
  - rewrite rsum_scal_r, rsum_minus, rsum_plus, rsum_scal.
    rewrite (rsum_prev m (fun i => rsum m (g i)) Hm), (rsum_next m (fun i => rsum m (g i)) Hm). lra.
Qed.

(** an IMEX step without reaction (nu = 0) conserves the mean value; with reaction the change is the integral of the
    explicit reaction term *)
Section Imex.
  Variables (nx nu : nat) (eps : R) (L : matrix).
  Hypothesis Hn : (3 <= nx)%nat.
  Hypothesis EL : allen_cahn_matrix nx = Some L.
  Lemma ac_row v i j : (i < nx)%nat -> (j < nx)%nat -> mv (nx * nx) L v (i * nx + j) = laplace_periodic nx (fun p q => v (p * nx + q)%nat) i j.
  Proof. destruct (C44_laplacian nx Hn) as [L' [E H]]. rewrite EL in E. injection E as <-. apply H. Qed.
  Lemma ac_w : 0 < / (1 / INR nx) ^ 2.
  Proof. apply Rinv_0_lt_compat, pow_lt. apply Rdiv_lt_0_compat; [lra|]. apply lt_0_INR. lia. Qed.
  Lemma ac_rowsum k : (k < nx * nx)%nat -> rsum (nx * nx) (L k) = 0.
  Proof.
    intros Hk. rewrite <- mv_one. destruct (idx_split nx nx k Hk) as (i & j & Hi & Hj & ->). rewrite ac_row by auto. unfold laplace_periodic. unfold Rdiv. ring.
  Qed.
  Lemma ac_off k l : (k < nx * nx)%nat -> (l < nx * nx)%nat -> k <> l -> 0 <= L k l.
  Proof.
    intros Hk Hl Hne. rewrite (unit_entry _ L k l Hl). destruct (idx_split nx nx k Hk) as (i & j & Hi & Hj & ->). rewrite ac_row by auto.
    unfold laplace_periodic. pose proof ac_w as W. destruct (Nat.eqb_spec (i * nx + j) l); [congruence|].
    apply Rmult_le_pos; [|lra]. repeat match goal with |- context[if ?b then _ else _] => destruct b end; lra.
  Qed.
  Lemma imex_z dt : 0 <= dt -> zmatrix (nx * nx) (madd mident (mscal (- dt) L)) 1.
  Proof.
    intros H. constructor; [|intros i Hi|lra].
    - intros i k Hi Hk Hne. unfold madd, mident, mscal. destruct (Nat.eqb_spec k i); [congruence|]. pose proof (ac_off i k Hi Hk Hne). nra.
    - rewrite <- mv_one, mv_madd, mv_mscal, mv_mident, mv_one, ac_rowsum by auto. lra.
  Qed.
  (** the IMEX step returns the one and only solution of its scheme *)
  Theorem C44_imex_step : forall u t_start t_stop v, t_start <= t_stop -> length u = (nx * nx)%nat ->
    (length v = (nx * nx)%nat /\ (forall i j, (i < nx)%nat -> (j < nx)%nat ->
      at_ v (i * nx + j) - (t_stop - t_start) * laplace_periodic nx (fun p q => at_ v (p * nx + q)) i j =
      at_ u (i * nx + j) + (t_stop - t_start) * (1 / eps ^ 2 * at_ u (i * nx + j) * (1 - at_ u (i * nx + j) ^ nu)))
     <-> allen_cahn_imex (nx * nx) L nu eps u t_start t_stop = v).
  Proof.
    intros u ta tb v Ht Hu. pose proof (zmatrix_injective _ _ _ (imex_z (tb - ta) ltac:(lra))) as Inj. unfold allen_cahn_imex.
    set (b := vplus u _).
    assert (Eb : forall k, (k < nx * nx)%nat -> at_ b k = at_ u k + (tb - ta) * (1 / eps ^ 2 * at_ u k * (1 - at_ u k ^ nu))).
    { intros k Hk. unfold b. rewrite (at_vplus _ _ (nx * nx)) by (rewrite ?vtimes_length; unfold reaction; rewrite ?map_length; auto).
      rewrite at_vtimes. unfold reaction. rewrite at_map by lia. ring. }
    split.
    - intros [Hl Hv]. symmetry. apply spsolve_unique; auto. intros k Hk. destruct (idx_split nx nx k Hk) as (i & j & Hi & Hj & ->).
      rewrite mv_madd, mv_mscal, mv_mident, ac_row, Eb by auto. specialize (Hv i j Hi Hj). lra.
    - intros <-. split; [apply spsolve_length|]. intros i j Hi Hj. pose proof (idx_bound nx nx i j Hi Hj) as Hk.
      pose proof (spsolve_ok (nx * nx) _ b Inj (i * nx + j)%nat Hk) as O. rewrite mv_madd, mv_mscal, mv_mident, ac_row, Eb in O by auto. lra.
  Qed.
  (** balance of the mean value: only the reaction changes the sum over all points *)
  Theorem C44_imex_balance : forall u t_start t_stop, t_start <= t_stop -> length u = (nx * nx)%nat ->
    rsum (nx * nx) (at_ (allen_cahn_imex (nx * nx) L nu eps u t_start t_stop)) =
    rsum (nx * nx) (fun k => at_ u k + (t_stop - t_start) * (1 / eps ^ 2 * at_ u k * (1 - at_ u k ^ nu))).
  Proof.
    intros u ta tb Ht Hu. destruct (proj2 (C44_imex_step u ta tb _ Ht Hu) eq_refl) as [Hl H]. set (v := allen_cahn_imex _ _ _ _ _ _ _) in *.
    rewrite !rsum_prod.
    transitivity (rsum nx (fun i => rsum nx (fun j => at_ v (i * nx + j) - (tb - ta) * laplace_periodic nx (fun p q => at_ v (p * nx + q)) i j))).
    - transitivity (total2 nx (fun i j => at_ v (i * nx + j)) - (tb - ta) * total2 nx (laplace_periodic nx (fun p q => at_ v (p * nx + q)))).
      + rewrite total2_laplace by lia. unfold total2. lra.
      + unfold total2. rewrite <- rsum_scal, <- rsum_minus. apply rsum_ext. intros i Hi. rewrite rsum_minus, rsum_scal. reflexivity.
    - apply rsum_ext. intros i Hi. apply rsum_ext. intros j Hj. apply H; auto.
  Qed.
End Imex.

(** ** C37: the Newton loop *)
Lemma norm_inf_nonneg u : 0 <= norm_inf u.
Proof. induction u as [|x u IH]; cbn; [lra|]. apply Rle_trans with (norm_inf u); auto. apply Rmax_r. Qed.
Lemma norm_inf_at u i : (i < length u)%nat -> Rabs (at_ u i) <= norm_inf u.
Proof.
  revert i. induction u as [|x u IH]; intros i Hi; [cbn in Hi; lia|]. destruct i; cbn; [apply Rmax_l|].
  apply Rle_trans with (norm_inf u); [apply IH; cbn in Hi; lia|apply Rmax_r].
Qed.
Lemma norm_inf_le u M : 0 <= M -> (forall i, (i < length u)%nat -> Rabs (at_ u i) <= M) -> norm_inf u <= M.
Proof.
  intros HM. induction u as [|x u IH]; intros H; cbn; [exact HM|]. apply Rmax_lub; [apply (H 0%nat); cbn; lia|].
  apply IH. intros i Hi. apply (H (S i)). cbn. lia.
Qed.
Section Newton.
  Variables (n nu : nat) (L : matrix) (eps tol : R).
  (** residual of the nonlinear system of the implicit step at point i *)
  Definition residual (fac : R) (rhs v : list R) (i : nat) : R :=
    at_ v i - fac * (mv n L (at_ v) i + 1 / eps ^ 2 * at_ v i * (1 - at_ v i ^ nu)) - at_ rhs i.
  Lemma newton_g_length fac rhs v : length v = n -> length rhs = n -> length (newton_g n L nu eps fac rhs v) = n.
  Proof.
    intros Hv Hr. unfold newton_g. repeat apply vminus_length; auto. rewrite vtimes_length. apply vplus_length; [apply mulmv_length|]. unfold reaction. rewrite map_length. exact Hv.
  Qed.
  Lemma at_newton_g fac rhs v i : length v = n -> length rhs = n -> (i < n)%nat -> at_ (newton_g n L nu eps fac rhs v) i = residual fac rhs v i.
  Proof.
    intros Hv Hr Hi. unfold newton_g.
    assert (Hq : length (reaction nu eps v) = n) by (unfold reaction; rewrite map_length; exact Hv).
    assert (Hp : length (vtimes (vplus (mulmv n L v) (reaction nu eps v)) fac) = n) by (rewrite vtimes_length; apply vplus_length; auto using mulmv_length).
    rewrite (at_vminus _ _ n) by (auto; apply vminus_length; auto). rewrite (at_vminus _ _ n), at_vtimes, (at_vplus _ _ n), at_mulmv by (auto using mulmv_length).
    unfold reaction. rewrite at_map by lia. unfold residual. ring.
  Qed.
  (** a state returned by the loop solves the nonlinear equations up to the tolerance *)
  Theorem C37_residual : forall maxiter fuel fac rhs new it v k, (0 < maxiter)%Z -> length new = n -> length rhs = n ->
    newton_loop n L nu eps tol maxiter fuel fac rhs new it = Some (v, k) ->
    length v = n /\ forall i, (i < n)%nat -> Rabs (residual fac rhs v i) < tol.
  Proof.
    intros maxiter fuel fac rhs new it v k Hm. revert new it. induction fuel as [|fuel IH]; intros new it Hn Hr H; [discriminate|].
    cbn [newton_loop] in H. replace (0 <? maxiter)%Z with true in H by (symmetry; apply Z.ltb_lt; lia). cbn [negb] in H. cbv zeta in H.
    destruct (Rlt_dec _ tol) as [C|C].
    - injection H as <- <-. split; [exact Hn|]. intros i Hi. rewrite <- (at_newton_g fac rhs new i) by auto.
      eapply Rle_lt_trans; [|exact C]. apply norm_inf_at. rewrite newton_g_length; auto.
    - apply IH in H; auto. apply vminus_length; auto. apply spsolve_length.
  Qed.
  (** the value of newton_maxiter is never used, except for its sign *)
  Theorem C37_maxiter_unused : forall m1 m2 fuel fac rhs new it, (0 < m1)%Z -> (0 < m2)%Z ->
    newton_loop n L nu eps tol m1 fuel fac rhs new it = newton_loop n L nu eps tol m2 fuel fac rhs new it.
  Proof.
    intros m1 m2 fuel fac rhs new it H1 H2. revert new it. induction fuel as [|fuel IH]; intros new it; [reflexivity|]. cbn [newton_loop].
    rewrite (proj2 (Z.ltb_lt 0 m1) H1), (proj2 (Z.ltb_lt 0 m2) H2). cbn [negb]. cbv zeta. rewrite IH. reflexivity.
  Qed.
  Theorem C37_no_iteration : forall maxiter fuel fac rhs new, (maxiter <= 0)%Z ->
    newton_loop n L nu eps tol maxiter (S fuel) fac rhs new 0 = Some (new, 0%nat).
  Proof. intros maxiter fuel fac rhs new H. cbn [newton_loop]. rewrite (proj2 (Z.ltb_ge 0 maxiter) H). reflexivity. Qed.
  (** with a tolerance of 0 (e.g. "iterate until maxiter") the step never returns, whatever newton_maxiter *)
  Theorem C37_never_returns : forall maxiter fuel fac rhs new it, (0 < maxiter)%Z -> tol <= 0 ->
    newton_loop n L nu eps tol maxiter fuel fac rhs new it = None.
  Proof.
    intros maxiter fuel fac rhs new it Hm Ht. revert new it. induction fuel as [|fuel IH]; intros new it; [reflexivity|]. cbn [newton_loop].
    rewrite (proj2 (Z.ltb_lt 0 maxiter) Hm). cbn [negb]. cbv zeta. destruct (Rlt_dec _ tol) as [C|C]; [|apply IH].
    pose proof (norm_inf_nonneg (newton_g n L nu eps fac rhs new)). lra.
  Qed.
  Lemma mv_newton_dg fac v x i : (i < n)%nat ->
    mv n (newton_dg L nu eps fac v) x i = x i - fac * (mv n L x i + 1 / eps ^ 2 * (1 - INR (nu + 1) * at_ v i ^ nu) * x i).
  Proof.
    intros Hi. unfold newton_dg. unfold mv.
    transitivity (rsum n (fun k => mident i k * x k - fac * (L i k * x k) - (if (k =? i)%nat then fac * (1 / eps ^ 2 * (1 - INR (nu + 1) * at_ v i ^ nu)) * x k else 0))).
    - apply rsum_ext. intros k Hk. destruct (Nat.eqb_spec k i) as [->|]; ring.
    - rewrite !rsum_minus, rsum_delta, rsum_scal. apply Nat.ltb_lt in Hi. rewrite Hi. apply Nat.ltb_lt in Hi.
      change (rsum n (fun k => mident i k * x k)) with (mv n mident x i). rewrite mv_mident by auto. ring.
  Qed.
End Newton.

(** the two implicit schemes (206-227): the state returned by the step solves the backward Euler resp. the Crank-Nicolson
    equations of the periodic 5-point discretisation up to the tolerance, at every grid point (instance: newton_two below) *)
Definition ac_rhs (nx nu : nat) (eps : R) (u : list R) (i j : nat) : R :=
  laplace_periodic nx (fun p q => at_ u (p * nx + q)) i j + 1 / eps ^ 2 * at_ u (i * nx + j) * (1 - at_ u (i * nx + j) ^ nu).
Theorem C37_implicit_schemes : forall nx nu eps tol maxiter fuel cn L u t_start t_stop v k, (3 <= nx)%nat -> allen_cahn_matrix nx = Some L -> (0 < maxiter)%Z ->
  length u = (nx * nx)%nat -> allen_cahn_impl (nx * nx) L nu eps tol maxiter fuel cn u t_start t_stop = Some (v, k) ->
  length v = (nx * nx)%nat /\ forall i j, (i < nx)%nat -> (j < nx)%nat ->
    Rabs (at_ v (i * nx + j) - at_ u (i * nx + j) -
          (t_stop - t_start) * (if cn then (ac_rhs nx nu eps u i j + ac_rhs nx nu eps v i j) / 2 else ac_rhs nx nu eps v i j)) < tol.
Proof.
  intros nx nu eps tol maxiter fuel cn L u ta tb v k Hn EL Hm Hu H. unfold allen_cahn_impl in H.
  assert (Hq : length (reaction nu eps u) = (nx * nx)%nat) by (unfold reaction; rewrite map_length; exact Hu).
  assert (Hp : length (vtimes (vplus (mulmv (nx * nx) L u) (reaction nu eps u)) ((tb - ta) / 2)) = (nx * nx)%nat)
    by (rewrite vtimes_length; apply vplus_length; auto using mulmv_length).
  assert (Hr : length (newton_rhs (nx * nx) L nu eps cn u ta tb) = (nx * nx)%nat) by (unfold newton_rhs; destruct cn; auto; apply vplus_length; auto).
  apply C37_residual in H; auto. destruct H as [Hv H]. split; [exact Hv|]. intros i j Hi Hj. pose proof (idx_bound nx nx i j Hi Hj) as Hk.
  specialize (H _ Hk). unfold residual in H. rewrite (ac_row nx L Hn EL) in H by auto. unfold ac_rhs. unfold newton_fac, newton_rhs in H. destruct cn.
  - rewrite (at_vplus _ _ (nx * nx)), at_vtimes, (at_vplus _ _ (nx * nx)), at_mulmv, (ac_row nx L Hn EL) in H by (auto using mulmv_length).
    unfold reaction in H. rewrite at_map in H by lia.
    match type of H with Rabs ?a < _ => match goal with |- Rabs ?b < _ => replace b with a by (unfold Rdiv; ring) end end. exact H.
  - match type of H with Rabs ?a < _ => match goal with |- Rabs ?b < _ => replace b with a by ring end end. exact H.
Qed.

(** The bound is not respected: nx = 3, nu = 2, eps = 1, step size 1, constant state 2, newton_maxiter = 1, newton_tol = 1/2:
    the loop performs two iterations. *)
Section NewtonExample.
  Variable L : matrix.
  Hypothesis EL : allen_cahn_matrix 3 = Some L.
  Local Notation const c := (repeat c 9).
  Lemma const_row c i : (i < 9)%nat -> mv 9 L (at_ (const c)) i = 0.
  Proof.
    intros Hi. transitivity (mv 9 L (fun _ => c * 1) i).
    - apply mv_ext; auto. intros k Hk. rewrite at_repeat by auto. ring.
    - unfold mv. rewrite (rsum_ext 9 _ (fun k => c * (L i k))) by (intros; ring). rewrite rsum_scal, (ac_rowsum 3 L ltac:(lia) EL) by lia. ring.
  Qed.
  Lemma g_const c : newton_g 9 L 2 1 1 (const 2) (const c) = const (c ^ 3 - 2).
  Proof.
    apply (list_ext _ _ 9); [apply newton_g_length; reflexivity|reflexivity|]. intros i Hi.
    rewrite at_newton_g by auto. unfold residual. rewrite const_row, !at_repeat by auto. field.
  Qed.
  Lemma norm_const c : norm_inf (const c) = Rabs c.
  Proof.
    apply Rle_antisym.
    - apply norm_inf_le; [apply Rabs_pos|]. intros i Hi. rewrite at_repeat by exact Hi. lra.
    - pose proof (norm_inf_at (const c) 0) as H. rewrite at_repeat in H by lia. apply H. cbn. lia.
  Qed.
  Lemma solve_const c d : c <> 0 -> spsolve 9 (newton_dg L 2 1 1 (const c)) (const d) = const (d / (3 * c ^ 2)).
  Proof.
    intros Hc. assert (Hc2 : 0 < 3 * c ^ 2) by nra.
    assert (Z : zmatrix 9 (newton_dg L 2 1 1 (const c)) (3 * c ^ 2)).
    { constructor; [|intros i Hi|exact Hc2].
      - intros i k Hi Hk Hne. unfold newton_dg, mident. destruct (Nat.eqb_spec k i); [congruence|].
        pose proof (ac_off 3 L ltac:(lia) EL i k Hi Hk Hne). lra.
      - rewrite <- mv_one, mv_newton_dg, mv_one, (ac_rowsum 3 L ltac:(lia) EL), at_repeat by (auto; lia). cbn [INR Nat.add]. right. field. }
    symmetry. apply spsolve_unique; [exact (zmatrix_injective _ _ _ Z)|reflexivity|]. intros i Hi.
    rewrite mv_newton_dg, const_row, !at_repeat by auto. cbn [INR Nat.add]. field. exact Hc.
  Qed.
  Lemma minus_const c d : vminus (const c) (const d) = const (c - d).
  Proof. reflexivity. Qed.
  Lemma newton_two : allen_cahn_impl 9 L 2 1 (1 / 2) 1 3 false (const 2) 0 1 = Some (const (35 / 27), 2%nat).
  Proof.
    unfold allen_cahn_impl, newton_fac, newton_rhs. replace (1 - 0) with 1 by ring. unfold newton_loop. change (negb (0 <? 1)%Z) with false. cbv iota zeta.
    rewrite g_const, norm_const. destruct (Rlt_dec _ _) as [C|_]; [exfalso; rewrite Rabs_right in C; lra|].
    rewrite solve_const, minus_const by lra. replace (2 - (2 ^ 3 - 2) / (3 * 2 ^ 2)) with (3 / 2) by field.
    rewrite g_const, norm_const. destruct (Rlt_dec _ _) as [C|_]; [exfalso; rewrite Rabs_right in C; lra|].
    rewrite solve_const, minus_const by lra. replace (3 / 2 - ((3 / 2) ^ 3 - 2) / (3 * (3 / 2) ^ 2)) with (35 / 27) by field.
    rewrite g_const, norm_const. destruct (Rlt_dec _ _) as [_|C]; [reflexivity|]. exfalso. apply C. rewrite Rabs_right; lra.
  Qed.
End NewtonExample.
Theorem C37_newton_bounded_refuted : exists L, allen_cahn_matrix 3 = Some L /\
  exists u fuel v k, length u = 9%nat /\ allen_cahn_impl 9 L 2 1 (1 / 2) 1 fuel false u 0 1 = Some (v, k) /\ (k > 1)%nat.
Proof.
  destruct (C44_laplacian 3 ltac:(lia)) as [L [E _]]. exists L. split; [exact E|]. exists (repeat 2 9), 3%nat, (repeat (35 / 27) 9), 2%nat.
  split; [reflexivity|]. split; [apply newton_two; exact E|lia].
Qed.

(** ** C43: Brusselator *)
(** the only equilibrium is (1, 3), and a step of any size stays there *)
Theorem C43_equilibrium : (forall u, brus u = (0, 0) <-> u = (1, 3)) /\ forall t_start t_stop, brusselator_step (1, 3) t_start t_stop = (1, 3).
Proof.
  assert (E : brus (1, 3) = (0, 0)) by (unfold brus; cbn; f_equal; lra). split.
  - intros [x y]. split; [|intros ->; exact E]. unfold brus. cbn [fst snd]. intros H. injection H as H1 H2.
    assert (x = 1) by lra. subst. f_equal. lra.
  - intros ta tb. unfold brusselator_step. cbv zeta. rewrite E.
    assert (A : forall c, axpy (1, 3) c (0, 0) = (1, 3)) by (intros; unfold axpy; cbn; f_equal; ring).
    repeat (rewrite A || rewrite E). cbn [fst snd]. f_equal; ring.
Qed.
(** the initial value (0, 1) of the application does move *)
Example C43_first_step : brusselator_step (0, 1) 0 (1 / 10) <> (0, 1).
Proof. unfold brusselator_step, axpy, brus. cbn [fst snd]. intros H. injection H as H _. lra. Qed.

(** explicit Runge-Kutta method with tableau (A, b), A strictly lower triangular given by rows *)
Definition lin2 (u : R * R) (dt : R) (row : list R) (ks : list (R * R)) : R * R :=
  fold_left (fun w p => (fst w + dt * (fst p * fst (snd p)), snd w + dt * (fst p * snd (snd p)))) (combine row ks) u.
Fixpoint rk_stages (f : R * R -> R * R) (A : list (list R)) (u : R * R) (dt : R) (ks : list (R * R)) : list (R * R) :=
  match A with [] => ks | row :: A' => rk_stages f A' u dt (ks ++ [f (lin2 u dt row ks)]) end.
Definition rk_step (f : R * R -> R * R) (A : list (list R)) (b : list R) (u : R * R) (dt : R) : R * R := lin2 u dt b (rk_stages f A u dt []).
Definition rk4_A : list (list R) := [[]; [1 / 2]; [0; 1 / 2]; [0; 0; 1]].
Definition rk4_b : list R := [1 / 6; 1 / 3; 1 / 3; 1 / 6].
Lemma rk4_arguments u dt k1 k2 k3 : lin2 u dt [] [] = u /\ lin2 u dt [1 / 2] [k1] = axpy u (dt / 2) k1 /\
  lin2 u dt [0; 1 / 2] [k1; k2] = axpy u (dt / 2) k2 /\ lin2 u dt [0; 0; 1] [k1; k2; k3] = axpy u dt k3.
Proof. destruct u, k1, k2, k3. unfold lin2, axpy. cbn [combine fold_left fst snd]. repeat split; f_equal; field. Qed.
Lemma rk4_combine u dt k1 k2 k3 k4 : lin2 u dt rk4_b [k1; k2; k3; k4] =
  (fst u + dt / 6 * (fst k1 + 2 * fst k2 + 2 * fst k3 + fst k4), snd u + dt / 6 * (snd k1 + 2 * snd k2 + 2 * snd k3 + snd k4)).
Proof. destruct u, k1, k2, k3, k4. unfold lin2, rk4_b. cbn [combine fold_left fst snd]. f_equal; field. Qed.
Theorem C43_runge_kutta : forall u t_start t_stop, brusselator_step u t_start t_stop = rk_step brus rk4_A rk4_b u (t_stop - t_start).
Proof.
  intros u ta tb. unfold brusselator_step, rk_step. cbv zeta. generalize brus as f. intros f. set (dt := tb - ta). clearbody dt.
  unfold rk4_A. cbn [rk_stages app]. destruct (rk4_arguments u dt (f u) (f u) (f u)) as (-> & _).
  destruct (rk4_arguments u dt (f u) (f u) (f u)) as (_ & -> & _).
  generalize (f u) as k1. intros k1. destruct (rk4_arguments u dt k1 (f (axpy u (dt / 2) k1)) k1) as (_ & _ & -> & _).
  generalize (f (axpy u (dt / 2) k1)) as k2. intros k2. destruct (rk4_arguments u dt k1 k2 (f (axpy u (dt / 2) k2))) as (_ & _ & _ & ->).
  generalize (f (axpy u (dt / 2) k2)) as k3. intros k3. generalize (f (axpy u dt k3)) as k4. intros k4. symmetry. apply rk4_combine.
Qed.
(** the eight order conditions up to order four *)
Definition wsum (w x : list R) : R := fold_right Rplus 0 (map (fun p => fst p * snd p) (combine w x)).
Definition rk_c (A : list (list R)) : list R := map (fun row => fold_right Rplus 0 row) A.
Definition rk_apply (A : list (list R)) (x : list R) : list R := map (fun row => wsum row x) A.
Definition lmul (x y : list R) : list R := zipw Rmult x y.
Theorem C43_order_four : let A := rk4_A in let b := rk4_b in let c := rk_c A in
  fold_right Rplus 0 b = 1 /\ wsum b c = 1 / 2 /\ wsum b (lmul c c) = 1 / 3 /\ wsum b (rk_apply A c) = 1 / 6 /\
  wsum b (lmul c (lmul c c)) = 1 / 4 /\ wsum b (lmul c (rk_apply A c)) = 1 / 8 /\
  wsum b (rk_apply A (lmul c c)) = 1 / 12 /\ wsum b (rk_apply A (rk_apply A c)) = 1 / 24.
Proof. cbv zeta. unfold wsum, rk_c, rk_apply, lmul, zipw, rk4_A, rk4_b. cbn. repeat split; field. Qed.

Print Assumptions C37_newton_bounded_refuted.
Print Assumptions C37_residual.
Print Assumptions C37_implicit_schemes.
Print Assumptions C44_imex_balance.
Print Assumptions C43_equilibrium.
Print Assumptions C43_runge_kutta.
