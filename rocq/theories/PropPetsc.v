(** C56: the PETSc heat equation; C57: the PETSc Gray-Scott equations. *)
From Coq Require Import Reals Lra Lia List Arith ZArith Bool.
From Verif Require Import LinAlg AppProofs PropAllenCahn Petsc.
Import ListNotations.
Local Open Scope R_scope.

(** ** Rows *)
Lemma col_eqb_eq c d : col_eqb c d = true <-> c = d.
Proof.
  destruct c as [[i j] f], d as [[i' j'] f']. unfold col_eqb. rewrite !andb_true_iff, !Nat.eqb_eq. split.
  - intros [[-> ->] ->]. reflexivity.
  - intros E. injection E. auto.
Qed.
Lemma set_value_new row e : ~ In (fst e) (map fst row) -> set_value row e = row ++ [e].
Proof.
  induction row as [|e' row IH]; intros H; [reflexivity|]. simpl in *. destruct (col_eqb (fst e) (fst e')) eqn:E.
  - apply col_eqb_eq in E. exfalso. apply H. left. auto.
  - rewrite IH; [reflexivity|]. intros X. apply H. right. exact X.
Qed.
Lemma assemble_nodup l : NoDup (map fst l) -> assemble l = l.
Proof.
  unfold assemble. intros H.
  assert (K : forall l acc, NoDup (map fst (acc ++ l)) -> fold_left set_value l acc = acc ++ l).
  { clear. induction l as [|e l IH]; intros acc H; [rewrite app_nil_r; reflexivity|]. simpl. rewrite set_value_new.
    - rewrite IH; [rewrite <- app_assoc; reflexivity|]. rewrite <- app_assoc. exact H.
    - rewrite map_app in H. simpl in H. apply NoDup_remove_2 in H. intros X. apply H. apply in_or_app. left. exact X. }
  apply (K l []). exact H.
Qed.
Ltac nodup_cols := simpl; repeat constructor; simpl; intros X; repeat (destruct X as [X|X]; [injection X; lia|]); exact X.

(** A square system given by rows has a solution if the homogeneous one has only the trivial one. *)
Section Solvable.
  Variables mx my nf : nat.
  Variable rows : nat -> nat -> nat -> list (col * R).
  Variable c : R.
  Definition in_grid (i j f : nat) : Prop := (i < mx /\ j < my /\ f < nf)%nat.
  Hypothesis rows_in_grid : forall i j f e, in_grid i j f -> In e (rows i j f) -> let '(i', j', f') := fst e in in_grid i' j' f'.
  Hypothesis trivial_kernel : forall w : gridfun, (forall i j f, in_grid i j f -> w i j f + c * apply_row (rows i j f) w = 0) ->
    forall i j f, in_grid i j f -> w i j f = 0.
  Definition flat (i j f : nat) : nat := ((i * my + j) * nf + f)%nat.
  Definition flat_col (x : col) : nat := let '(i, j, f) := x in flat i j f.
  Lemma flat_lt i j f : in_grid i j f -> (flat i j f < mx * my * nf)%nat.
  Proof. unfold in_grid, flat. intros (Hi & Hj & Hf). assert (i * my + j < mx * my)%nat by nia. nia. Qed.
  Lemma unflat k : (k < mx * my * nf)%nat -> in_grid (k / nf / my) ((k / nf) mod my) (k mod nf) /\ flat (k / nf / my) ((k / nf) mod my) (k mod nf) = k.
  Proof.
    intros H. assert (nf <> 0)%nat by (intros ->; lia). assert (my <> 0)%nat by (intros ->; lia). unfold in_grid, flat.
    pose proof (Nat.div_mod k nf ltac:(auto)). pose proof (Nat.div_mod (k / nf) my ltac:(auto)).
    pose proof (Nat.mod_upper_bound k nf ltac:(auto)). pose proof (Nat.mod_upper_bound (k / nf) my ltac:(auto)).
    assert (k / nf < mx * my)%nat by (apply Nat.div_lt_upper_bound; lia).
    split; [split; [apply Nat.div_lt_upper_bound; lia|auto]|]. lia.
  Qed.
  Lemma flat_unflat i j f : in_grid i j f -> (flat i j f / nf / my = i /\ (flat i j f / nf) mod my = j /\ flat i j f mod nf = f)%nat.
  Proof.
    intros (Hi & Hj & Hf). unfold flat. destruct (divmod_idx nf (i * my + j) f Hf) as [-> ->]. destruct (divmod_idx my i j Hj) as [-> ->]. auto.
  Qed.
  Definition row_at (r : list (col * R)) (l : nat) : R := fold_right (fun e s => (if (l =? flat_col (fst e))%nat then snd e else 0) + s) 0 r.
  Lemma row_at_sum r x : (forall e, In e r -> let '(i', j', f') := fst e in in_grid i' j' f') ->
    rsum (mx * my * nf) (fun l => row_at r l * x l) = apply_row r (fun i j f => x (flat i j f)).
  Proof.
    induction r as [|[[[i j] f] v] r IH]; intros H.
    - apply rsum_zero. intros k _. simpl. lra.
    - unfold row_at, apply_row in *. cbn [fold_right fst snd flat_col] in *.
      rewrite <- IH by (intros e He; apply H; right; exact He).
      pose proof (flat_lt i j f (H ((i, j, f), v) ltac:(left; reflexivity))) as L. apply Nat.ltb_lt in L.
      pose proof (rsum_delta (mx * my * nf) (flat i j f) (fun l => v * x l)) as D. rewrite L in D. rewrite <- D, <- rsum_plus.
      apply rsum_ext. intros k _. destruct (k =? flat i j f)%nat; ring.
  Qed.
  Definition dense : matrix := fun k l => (if (l =? k)%nat then 1 else 0) + c * row_at (rows (k / nf / my) ((k / nf) mod my) (k mod nf)) l.
  Lemma dense_mv x i j f : in_grid i j f ->
    mv (mx * my * nf) dense x (flat i j f) = x (flat i j f) + c * apply_row (rows i j f) (fun i j f => x (flat i j f)).
  Proof.
    intros H. unfold mv, dense. destruct (flat_unflat i j f H) as (-> & -> & ->). rewrite <- row_at_sum, <- rsum_scal by (intros e; apply (rows_in_grid _ _ _ _ H)).
    pose proof (flat_lt i j f H) as L. apply Nat.ltb_lt in L.
    pose proof (rsum_delta (mx * my * nf) (flat i j f) x) as D. rewrite L in D. rewrite <- D, <- rsum_plus.
    apply rsum_ext. intros k _. destruct (k =? flat i j f)%nat; ring.
  Qed.
  Lemma rows_solvable (b : gridfun) : exists w : gridfun, forall i j f, in_grid i j f -> w i j f + c * apply_row (rows i j f) w = b i j f.
  Proof.
    assert (Inj : injective (mx * my * nf) dense).
    { intros x Hx k Hk. destruct (unflat k Hk) as [G E]. rewrite <- E.
      apply (trivial_kernel (fun i j f => x (flat i j f))); [|exact G]. intros i j f H. rewrite <- dense_mv by exact H. apply Hx, flat_lt, H. }
    set (b' := fun k => b (k / nf / my)%nat ((k / nf) mod my)%nat (k mod nf)%nat).
    exists (fun i j f => solve_fn (mx * my * nf) dense b' (flat i j f)). intros i j f H.
    rewrite <- dense_mv, solve_fn_ok by (auto; apply flat_lt; exact H). unfold b'. destruct (flat_unflat i j f H) as (-> & -> & ->). reflexivity.
  Qed.
End Solvable.

(** ** C56: the heat equation *)
Section Heat.
  Variables mx my : nat.
  Variable a : R.
  Notation dx := (h_dx mx).
  Notation dy := (h_dy my).
  Definition inner_point (i j : nat) : Prop := (0 < i < mx - 1 /\ 0 < j < my - 1)%nat.

  Lemma boundary_iff i j : (i < mx)%nat -> (j < my)%nat -> on_boundary mx my i j = false <-> inner_point i j.
  Proof. intros Hi Hj. unfold on_boundary, inner_point. rewrite !orb_false_iff, !Nat.eqb_neq. lia. Qed.
  Lemma heat_row_inner i j w : inner_point i j -> apply_row (heat_row mx my a i j) w =
    a / dx ^ 2 * (2 * w i j 0%nat - w i (j - 1)%nat 0%nat - w i (j + 1)%nat 0%nat) +
    a / dy ^ 2 * (2 * w i j 0%nat - w (i - 1)%nat j 0%nat - w (i + 1)%nat j 0%nat).
  Proof.
    intros H. unfold heat_row. replace (on_boundary mx my i j) with false by (symmetry; apply boundary_iff; auto; unfold inner_point in H; lia).
    cbv zeta. rewrite assemble_nodup; [unfold apply_row; cbn [fold_right fst snd]; lra|].
    unfold inner_point in H. nodup_cols.
  Qed.
  Lemma heat_row_boundary i j w : on_boundary mx my i j = true -> apply_row (heat_row mx my a i j) w = 0.
  Proof. intros H. unfold heat_row. rewrite H. unfold assemble, apply_row. cbn [fold_left set_value fold_right fst snd]. lra. Qed.
End Heat.

(** minus the five-point Laplacian times the diffusion coefficient, x belonging to the first index *)
Definition minus_laplace (a hx hy : R) (w : nat -> nat -> R) (i j : nat) : R :=
  a * ((2 * w i j - w (i - 1)%nat j - w (i + 1)%nat j) / hx ^ 2 + (2 * w i j - w i (j - 1)%nat - w i (j + 1)%nat) / hy ^ 2).
(** values of the only field *)
Definition field0 (w : gridfun) : nat -> nat -> R := fun i j => w i j 0%nat.

(** On a square grid the matrix is the five-point discretization of -a * (u_xx + u_yy) at the inner points, and zero in
    the rows of the boundary. *)
Theorem C56_operator :
  forall (m : nat) (a : R) i j w, (i < m)%nat -> (j < m)%nat ->
  (inner_point m m i j -> apply_row (heat_row m m a i j) w = minus_laplace a (h_dx m) (h_dy m) (field0 w) i j) /\
  (~ inner_point m m i j -> apply_row (heat_row m m a i j) w = 0).
Proof.
  intros m a i j w Hi Hj. split; intros H.
  - rewrite heat_row_inner by auto. unfold minus_laplace, field0. change (h_dy m) with (h_dx m). unfold Rdiv. lra.
  - apply heat_row_boundary. destruct (on_boundary m m i j) eqn:E; [reflexivity|]. apply boundary_iff in E; [contradiction|auto..].
Qed.

Lemma h_dx_pos m : (2 <= m)%nat -> 0 < h_dx m.
Proof. intros H. unfold h_dx. apply Rdiv_lt_0_compat; [lra|]. apply le_INR in H. simpl in H. lra. Qed.
Lemma h_dx_inj m n : (2 <= m)%nat -> (2 <= n)%nat -> h_dx m = h_dx n -> m = n.
Proof.
  intros Hm Hn E. unfold h_dx in E. apply le_INR in Hm, Hn. simpl in Hm, Hn. apply INR_eq.
  assert (X : INR m - 1 = INR n - 1); [|lra]. unfold Rdiv in E. rewrite !Rmult_1_l in E.
  rewrite <- (Rinv_inv (INR m - 1)), E. apply Rinv_inv.
Qed.
(** On any other grid it is not, at no inner point (the factors of the two directions are interchanged, 112-116): applied
    to x^2, whose Laplacian is 2, it gives -2 a dx^2/dy^2. *)
Theorem C56_operator_refuted :
  forall (mx my : nat) (a : R), mx <> my -> a <> 0 ->
  let w : gridfun := fun i j f => (INR i * h_dx mx) ^ 2 in
  forall i j, inner_point mx my i j ->
    minus_laplace a (h_dx mx) (h_dy my) (field0 w) i j = - 2 * a /\
    apply_row (heat_row mx my a i j) w = - 2 * a * (h_dx mx ^ 2 / h_dy my ^ 2) /\
    apply_row (heat_row mx my a i j) w <> minus_laplace a (h_dx mx) (h_dy my) (field0 w) i j.
Proof.
  intros mx my a Hne Ha w i j H. pose proof H as [Hi Hj].
  pose proof (h_dx_pos mx ltac:(lia)) as Px. pose proof (h_dx_pos my ltac:(lia)) as Py. change (h_dx my) with (h_dy my) in Py.
  assert (E1 : minus_laplace a (h_dx mx) (h_dy my) (field0 w) i j = - 2 * a).
  { unfold minus_laplace, field0, w. rewrite (minus_INR i 1), (plus_INR i 1) by lia. simpl (INR 1). field. lra. }
  assert (E2 : apply_row (heat_row mx my a i j) w = - 2 * a * (h_dx mx ^ 2 / h_dy my ^ 2)).
  { rewrite heat_row_inner by auto. unfold w. rewrite (minus_INR i 1), (plus_INR i 1) by lia. simpl (INR 1). field. lra. }
  split; [exact E1|]. split; [exact E2|]. rewrite E1, E2. intros X.
  apply Hne. apply h_dx_inj; try lia. change (h_dx my) with (h_dy my).
  assert (Y : h_dx mx ^ 2 / h_dy my ^ 2 = 1) by nra.
  assert (Z1 : h_dx mx ^ 2 = h_dy my ^ 2). { apply (Rmult_eq_reg_r (/ h_dy my ^ 2)); [|apply Rinv_neq_0_compat; nra]. rewrite Rinv_r by nra. exact Y. }
  nra.
Qed.

(** One time step: every solution of the equation is a backward Euler step of the discretized heat equation on a square
    grid (operator set up with the time step of the call); *)
Theorem C56_step_is_backward_euler :
  forall (m : nat) (a freq t_start t_stop : R) u w, heat_solves m m a freq (t_stop - t_start) t_start t_stop u w ->
  forall i j, inner_point m m i j ->
    w i j 0%nat - u i j 0%nat = (t_stop - t_start) * (heat_rhs m m a freq t_stop i j - minus_laplace a (h_dx m) (h_dy m) (field0 w) i j).
Proof.
  intros m a freq ts te u w H i j Hp. pose proof Hp as [Hi Hj]. specialize (H i j ltac:(lia) ltac:(lia)).
  rewrite (proj1 (C56_operator m a i j w ltac:(lia) ltac:(lia)) Hp) in H. lra.
Qed.
(** for an integer frequency the boundary values stay what they were; *)
Theorem C56_boundary_values :
  forall (mx my : nat) (a dt t_start t_stop : R) (freq : Z) u w, (2 <= mx)%nat -> (2 <= my)%nat ->
  heat_solves mx my a (IZR freq) dt t_start t_stop u w ->
  forall i j, (i < mx)%nat -> (j < my)%nat -> ~ inner_point mx my i j -> w i j 0%nat = u i j 0%nat.
Proof.
  intros mx my a dt ts te freq u w Hx Hy H i j Hi Hj Hb.
  assert (B : on_boundary mx my i j = true). { destruct (on_boundary mx my i j) eqn:E; [reflexivity|]. apply boundary_iff in E; [contradiction|auto..]. }
  specialize (H i j Hi Hj). rewrite heat_row_boundary in H by auto.
  assert (S0 : forall k m, (2 <= m)%nat -> k = 0%nat \/ k = (m - 1)%nat -> sin (PI * IZR freq * INR k * h_dx m) = 0).
  { intros k m Hm [->| ->]; apply sin_eq_0_1.
    - exists 0%Z. simpl INR. lra.
    - exists freq. rewrite minus_INR by lia. simpl (INR 1). unfold h_dx. apply le_INR in Hm. simpl in Hm. field. lra. }
  assert (R0 : heat_rhs mx my a (IZR freq) te i j = 0).
  { unfold heat_rhs. unfold on_boundary in B. rewrite !orb_true_iff, !Nat.eqb_eq in B.
    assert (C : (i = 0%nat \/ i = (mx - 1)%nat) \/ (j = 0%nat \/ j = (my - 1)%nat)) by tauto. destruct C as [C|C].
    - rewrite (S0 i mx) by auto. lra.
    - change (h_dy my) with (h_dx my). rewrite (S0 j my) by auto. lra. }
  rewrite R0 in H. lra.
Qed.

Lemma max_index n (g : nat -> R) : (0 < n)%nat -> exists k, (k < n)%nat /\ forall l, (l < n)%nat -> g l <= g k.
Proof.
  induction n as [|n IH]; intros H; [lia|]. destruct (Nat.eq_dec n 0) as [->|Hn].
  - exists 0%nat. split; [lia|]. intros l Hl. replace l with 0%nat by lia. lra.
  - destruct (IH ltac:(lia)) as (k & Hk & Hm). destruct (Rle_dec (g k) (g n)) as [C|C].
    + exists n. split; [lia|]. intros l Hl. destruct (Nat.eq_dec l n) as [->|]; [lra|]. specialize (Hm l ltac:(lia)). lra.
    + exists k. split; [lia|]. intros l Hl. destruct (Nat.eq_dec l n) as [->|]; [lra|]. apply Hm. lia.
Qed.
Lemma max_point mx my (g : nat -> nat -> R) : (0 < mx)%nat -> (0 < my)%nat ->
  exists i j, (i < mx)%nat /\ (j < my)%nat /\ forall k l, (k < mx)%nat -> (l < my)%nat -> g k l <= g i j.
Proof.
  intros Hx Hy. destruct (max_index (mx * my) (fun k => g (k / my)%nat (k mod my)%nat)) as (k & Hk & Hm); [nia|].
  exists (k / my)%nat, (k mod my)%nat. split; [apply Nat.div_lt_upper_bound; lia|]. split; [apply Nat.mod_upper_bound; lia|].
  intros i j Hi Hj. specialize (Hm (i * my + j)%nat ltac:(nia)). cbn beta in Hm.
  destruct (divmod_idx my i j Hj) as [-> ->] in Hm. exact Hm.
Qed.
(** the implicit operator obeys a maximum principle, whatever the time step and the grid, so that a step is determined
    by its equation and does not amplify differences. *)
Lemma heat_max mx my a dt b w : (0 < mx)%nat -> (0 < my)%nat -> 0 <= a -> 0 <= dt ->
  (forall i j, (i < mx)%nat -> (j < my)%nat -> dt * apply_row (heat_row mx my a i j) w + w i j 0%nat = b i j) ->
  forall M, (forall i j, (i < mx)%nat -> (j < my)%nat -> b i j <= M) -> forall i j, (i < mx)%nat -> (j < my)%nat -> w i j 0%nat <= M.
Proof.
  intros Hx Hy Ha Hd H M HM i j Hi Hj.
  destruct (max_point mx my (fun i j => w i j 0%nat) Hx Hy) as (p & q & Hp & Hq & Hm).
  apply Rle_trans with (w p q 0%nat); [apply (Hm i j Hi Hj)|]. specialize (H p q Hp Hq). specialize (HM p q Hp Hq).
  destruct (on_boundary mx my p q) eqn:E.
  - rewrite heat_row_boundary in H by auto. lra.
  - apply boundary_iff in E; auto. pose proof E as [E1 E2]. rewrite heat_row_inner in H by auto.
    pose proof (Hm p (q - 1)%nat ltac:(lia) ltac:(lia)). pose proof (Hm p (q + 1)%nat ltac:(lia) ltac:(lia)).
    pose proof (Hm (p - 1)%nat q ltac:(lia) ltac:(lia)). pose proof (Hm (p + 1)%nat q ltac:(lia) ltac:(lia)). cbn beta in *.
    assert (F1 : 0 <= a / h_dx mx ^ 2) by (apply fac_nonneg; [exact Ha|apply Rgt_not_eq, h_dx_pos; lia]).
    assert (F2 : 0 <= a / h_dy my ^ 2) by (apply fac_nonneg; [exact Ha|apply Rgt_not_eq; change (h_dy my) with (h_dx my); apply h_dx_pos; lia]).
    set (f1 := a / h_dx mx ^ 2) in *. set (f2 := a / h_dy my ^ 2) in *. clearbody f1 f2.
    assert (0 <= dt * (f1 * (2 * w p q 0%nat - w p (q - 1)%nat 0%nat - w p (q + 1)%nat 0%nat) +
                       f2 * (2 * w p q 0%nat - w (p - 1)%nat q 0%nat - w (p + 1)%nat q 0%nat))).
    { apply Rmult_le_pos; [exact Hd|]. apply Rplus_le_le_0_compat; apply Rmult_le_pos; lra. }
    lra.
Qed.
Lemma apply_row_sub r w w' : apply_row r (fun i j f => w i j f - w' i j f) = apply_row r w - apply_row r w'.
Proof. induction r as [|[[[i j] f] v] r IH]; simpl; [lra|]. unfold apply_row in *. cbn [fold_right fst snd] in *. rewrite IH. lra. Qed.
Theorem C56_step_contracts :
  forall (mx my : nat) (a freq dt t_start t_stop M : R) u u' w w', (0 < mx)%nat -> (0 < my)%nat -> 0 <= a -> 0 <= dt ->
  heat_solves mx my a freq dt t_start t_stop u w -> heat_solves mx my a freq dt t_start t_stop u' w' ->
  (forall i j, (i < mx)%nat -> (j < my)%nat -> Rabs (u i j 0%nat - u' i j 0%nat) <= M) ->
  forall i j, (i < mx)%nat -> (j < my)%nat -> Rabs (w i j 0%nat - w' i j 0%nat) <= M.
Proof.
  intros mx my a freq dt ts te M u u' w w' Hx Hy Ha Hd H H' HM i j Hi Hj. apply Rabs_le. split.
  - assert (X : w' i j 0%nat - w i j 0%nat <= M); [|lra].
    refine (heat_max mx my a dt (fun i j => u' i j 0%nat - u i j 0%nat) (fun i j f => w' i j f - w i j f) Hx Hy Ha Hd _ M _ i j Hi Hj).
    + intros k l Hk Hl. rewrite apply_row_sub. specialize (H k l Hk Hl). specialize (H' k l Hk Hl). lra.
    + intros k l Hk Hl. specialize (HM k l Hk Hl). pose proof (Rle_abs (- (u k l 0%nat - u' k l 0%nat))) as Q. rewrite Rabs_Ropp in Q. lra.
  - refine (heat_max mx my a dt (fun i j => u i j 0%nat - u' i j 0%nat) (fun i j f => w i j f - w' i j f) Hx Hy Ha Hd _ M _ i j Hi Hj).
    + intros k l Hk Hl. rewrite apply_row_sub. specialize (H k l Hk Hl). specialize (H' k l Hk Hl). lra.
    + intros k l Hk Hl. specialize (HM k l Hk Hl). pose proof (Rle_abs (u k l 0%nat - u' k l 0%nat)). lra.
Qed.

(** In particular every step has exactly one result. *)
Theorem C56_step_defined :
  forall (mx my : nat) (a freq dt t_start t_stop : R) u, (0 < mx)%nat -> (0 < my)%nat -> 0 <= a -> 0 <= dt ->
  (exists w, heat_solves mx my a freq dt t_start t_stop u w) /\
  forall w w', heat_solves mx my a freq dt t_start t_stop u w -> heat_solves mx my a freq dt t_start t_stop u w' ->
    forall i j, (i < mx)%nat -> (j < my)%nat -> w i j 0%nat = w' i j 0%nat.
Proof.
  intros mx my a freq dt ts te u Hx Hy Ha Hd. split.
  - destruct (rows_solvable mx my 1 (fun i j _ => heat_row mx my a i j) dt) with (b := fun i j (_ : nat) => u i j 0%nat + (te - ts) * heat_rhs mx my a freq te i j) as [w Hw].
    + intros i j f e (Hi & Hj & Hf) He. unfold heat_row in He. destruct (on_boundary mx my i j) eqn:E.
      * unfold assemble in He. cbn [fold_left set_value In] in He. destruct He as [<-|[]]. cbn [fst]. split; auto.
      * apply boundary_iff in E; auto. pose proof E as [E1 E2]. cbv zeta in He. rewrite assemble_nodup in He by nodup_cols.
        cbn [In] in He. unfold in_grid. repeat (destruct He as [<-|He]; [cbn [fst]; lia|]). destruct He.
    + intros w Hw i j f (Hi & Hj & Hf). replace f with 0%nat by lia.
      assert (Z : forall i j, (i < mx)%nat -> (j < my)%nat -> dt * apply_row (heat_row mx my a i j) w + w i j 0%nat = 0).
      { intros k l Hk Hl. specialize (Hw k l 0%nat ltac:(split; auto)). lra. }
      assert (U : w i j 0%nat <= 0) by (apply (heat_max mx my a dt (fun _ _ => 0) w Hx Hy Ha Hd Z); auto; intros; lra).
      assert (V : 0 - w i j 0%nat <= 0).
      { refine (heat_max mx my a dt (fun _ _ => 0) (fun i j f => 0 - w i j f) Hx Hy Ha Hd _ 0 _ i j Hi Hj); [|intros; lra].
        intros k l Hk Hl. rewrite (apply_row_sub _ (fun _ _ _ => 0) w). specialize (Z k l Hk Hl).
        assert (Q : forall r, apply_row r (fun _ _ _ => 0) = 0).
        { clear. induction r as [|[[[i j] f] v] r IH]; [reflexivity|]. unfold apply_row in *. cbn [fold_right fst snd] in *. rewrite IH. lra. }
        rewrite Q. lra. }
      lra.
    + exists w. intros i j Hi Hj. specialize (Hw i j 0%nat ltac:(split; auto)). cbn beta in Hw. lra.
  - intros w w' H H' i j Hi Hj.
    pose proof (C56_step_contracts mx my a freq dt ts te 0 u u w w' Hx Hy Ha Hd H H') as C.
    assert (X : Rabs (w i j 0%nat - w' i j 0%nat) <= 0); [apply C; auto; intros; rewrite Rminus_diag_eq, Rabs_R0 by auto; lra|].
    pose proof (Rabs_pos (w i j 0%nat - w' i j 0%nat)) as Y. assert (Z : Rabs (w i j 0%nat - w' i j 0%nat) = 0) by lra.
    destruct (Req_dec (w i j 0%nat - w' i j 0%nat) 0) as [N|N]; [lra|]. apply Rabs_no_R0 in N. contradiction.
Qed.

(** The right-hand side belongs to the exact solution: u_t - a (u_xx + u_yy) = rhs for u = sin(pi f x) sin(pi f y) cos t. *)
Definition exact_solution (freq x y t : R) : R := sin (PI * freq * x) * sin (PI * freq * y) * cos t.
Lemma d_sin_scaled k x : derivable_pt_lim (fun x => sin (k * x)) x (k * cos (k * x)).
Proof.
  replace (k * cos (k * x)) with (cos (k * x) * k) by lra.
  apply (derivable_pt_lim_comp (fun x => k * x) sin x k (cos (k * x))); [|apply derivable_pt_lim_sin].
  assert (H : derivable_pt_lim (fun x => k * x) x (k * 1)) by (apply (derivable_pt_lim_scal id k x 1); apply derivable_pt_lim_id).
  rewrite Rmult_1_r in H. exact H.
Qed.
Lemma d_cos_scaled k x : derivable_pt_lim (fun x => cos (k * x)) x (- k * sin (k * x)).
Proof.
  replace (- k * sin (k * x)) with (- sin (k * x) * k) by lra.
  apply (derivable_pt_lim_comp (fun x => k * x) cos x k (- sin (k * x))); [|apply derivable_pt_lim_cos].
  assert (H : derivable_pt_lim (fun x => k * x) x (k * 1)) by (apply (derivable_pt_lim_scal id k x 1); apply derivable_pt_lim_id).
  rewrite Rmult_1_r in H. exact H.
Qed.
Lemma d_const_l c f x l : derivable_pt_lim f x l -> derivable_pt_lim (fun x => c * f x) x (c * l).
Proof. apply (derivable_pt_lim_scal f c x l). Qed.
Lemma d_ext f g x l : (forall y, f y = g y) -> derivable_pt_lim f x l -> derivable_pt_lim g x l.
Proof. intros E H eps He. destruct (H eps He) as [d Hd]. exists d. intros h Hh Hl. rewrite <- !E. apply Hd; auto. Qed.
Theorem C56_exact_solution :
  forall (mx my : nat) (a freq t : R) (i j : nat),
  heat_exact mx my freq t i j = exact_solution freq (INR i * h_dx mx) (INR j * h_dy my) t /\
  exists (ut uxx uyy : R) (ux uy : R -> R),
    let x := INR i * h_dx mx in let y := INR j * h_dy my in
    derivable_pt_lim (fun s => exact_solution freq x y s) t ut /\
    (forall s, derivable_pt_lim (fun s => exact_solution freq s y t) s (ux s)) /\ derivable_pt_lim ux x uxx /\
    (forall s, derivable_pt_lim (fun s => exact_solution freq x s t) s (uy s)) /\ derivable_pt_lim uy y uyy /\
    heat_rhs mx my a freq t i j = ut - a * (uxx + uyy).
Proof.
  intros mx my a freq t i j. split.
  { unfold heat_exact, exact_solution. rewrite !Rmult_assoc. reflexivity. }
  set (x := INR i * h_dx mx). set (y := INR j * h_dy my). set (k := PI * freq).
  exists (sin (k * x) * sin (k * y) * - sin t), (sin (k * y) * cos t * k * (- k * sin (k * x))), (sin (k * x) * cos t * k * (- k * sin (k * y))).
  exists (fun s => sin (k * y) * cos t * (k * cos (k * s))), (fun s => sin (k * x) * cos t * (k * cos (k * s))).
  cbv zeta. split; [|split; [|split; [|split; [|split]]]].
  - unfold exact_solution. fold k. apply (d_const_l (sin (k * x) * sin (k * y)) cos t (- sin t)). apply derivable_pt_lim_cos.
  - intros s. apply (d_ext (fun s => sin (k * y) * cos t * sin (k * s))); [intros z; unfold exact_solution; fold k; ring|]. apply d_const_l, d_sin_scaled.
  - apply (d_ext (fun s => sin (k * y) * cos t * k * cos (k * s))); [intros z; ring|]. apply d_const_l, d_cos_scaled.
  - intros s. apply (d_ext (fun s => sin (k * x) * cos t * sin (k * s))); [intros z; unfold exact_solution; fold k; ring|]. apply d_const_l, d_sin_scaled.
  - apply (d_ext (fun s => sin (k * x) * cos t * k * cos (k * s))); [intros z; ring|]. apply d_const_l, d_cos_scaled.
  - unfold heat_rhs. fold k. replace (k * INR i * h_dx mx) with (k * x) by (unfold x; ring). replace (k * INR j * h_dy my) with (k * y) by (unfold y; ring). ring.
Qed.

(** ** The cached operator (HeatPetsc and GrayScott with IMEX) *)
(** Whatever was called before, the operator belongs to a time step within the tolerance of np.isclose; *)
Theorem C56_cached_operator :
  forall dt0 dts dt, Rabs (used_dt (cached_dt dt0 dts) dt - dt) <= 1 / 100000000 + 1 / 100000 * Rabs dt.
Proof.
  intros dt0 dts dt. unfold used_dt, isclose. destruct (Rle_dec (Rabs (cached_dt dt0 dts - dt)) (1 / 100000000 + 1 / 100000 * Rabs dt)); [exact r|].
  replace (dt - dt) with 0 by lra. rewrite Rabs_R0. pose proof (Rabs_pos dt). lra.
Qed.
(** it is the right one if no two different time steps in use are that close; *)
Theorem C56_cached_operator_exact :
  forall D dt0 dts dt, (forall x y, In x D -> In y D -> Rabs (x - y) <= 1 / 100000000 + 1 / 100000 * Rabs y -> x = y) ->
  In dt0 D -> incl dts D -> In dt D -> used_dt (cached_dt dt0 dts) dt = dt.
Proof.
  intros D dt0 dts dt HD H0 Hs Hd.
  assert (K : In (cached_dt dt0 dts) D).
  { unfold cached_dt. revert dt0 H0. induction dts as [|x dts IH]; intros dt0 H0; [exact H0|]. simpl. apply IH; [intros y Hy; apply Hs; right; exact Hy|].
    unfold used_dt. destruct (isclose dt0 x); [exact H0|apply Hs; left; reflexivity]. }
  unfold used_dt, isclose. destruct (Rle_dec _ _) as [C|C]; [|reflexivity]. apply HD; auto.
Qed.
(** otherwise the result of a call depends on the calls before: the same step from the same value, after different
    earlier calls, has different results (4x4 points, time steps 1 and 1 + 1e-6 and 2). *)
Theorem C56_step_depends_on_history_refuted :
  exists (dt0 dt : R) (dts1 dts2 : list R) (u : gridfun), 0 < dt0 /\ 0 < dt /\ Forall (fun x => 0 < x) (dts1 ++ dts2) /\
  forall w1 w2, heat_solves 4 4 1 1 (used_dt (cached_dt dt0 dts1) dt) 0 dt u w1 -> heat_solves 4 4 1 1 (used_dt (cached_dt dt0 dts2) dt) 0 dt u w2 ->
  exists i j, (i < 4)%nat /\ (j < 4)%nat /\ w1 i j 0%nat <> w2 i j 0%nat.
Proof.
  exists 1, (1 + 1 / 1000000), [], [2]. 
  (* the right-hand side of the equation is 1 at the inner points and 0 on the boundary *)
  exists (fun i j _ => (if on_boundary 4 4 i j then 0 else 1) - (1 + 1 / 1000000) * heat_rhs 4 4 1 1 (1 + 1 / 1000000) i j).
  split; [lra|]. split; [lra|]. split; [repeat constructor; lra|].
  assert (U1 : used_dt (cached_dt 1 []) (1 + 1 / 1000000) = 1).
  { simpl. unfold used_dt, isclose. destruct (Rle_dec _ _) as [C|C]; [reflexivity|]. exfalso. apply C.
    replace (1 - (1 + 1 / 1000000)) with (- (1 / 1000000)) by lra. rewrite Rabs_Ropp, !Rabs_right by lra. lra. }
  assert (U2 : used_dt (cached_dt 1 [2]) (1 + 1 / 1000000) = 1 + 1 / 1000000).
  { simpl. assert (E : used_dt 1 2 = 2).
    { unfold used_dt, isclose. destruct (Rle_dec _ _) as [C|C]; [|reflexivity]. exfalso.
      replace (1 - 2) with (- (1)) in C by lra. rewrite Rabs_Ropp, !Rabs_right in C by lra. lra. }
    rewrite E. unfold used_dt, isclose. destruct (Rle_dec _ _) as [C|C]; [|reflexivity]. exfalso. rewrite !Rabs_right in C by lra. lra. }
  rewrite U1, U2. clear U1 U2. intros w1 w2 H1 H2.
  destruct (Req_dec (w1 1%nat 1%nat 0%nat) (w2 1%nat 1%nat 0%nat)) as [E|E]; [|exists 1%nat, 1%nat; repeat split; auto; lia].
  exfalso.
  assert (HB : forall d w, heat_solves 4 4 1 1 d 0 (1 + 1 / 1000000)
     (fun i j _ => (if on_boundary 4 4 i j then 0 else 1) - (1 + 1 / 1000000) * heat_rhs 4 4 1 1 (1 + 1 / 1000000) i j) w -> 0 < d ->
     w 1%nat 1%nat 0%nat * (1 + 18 * d) = 1).
  { clear. intros d w H Hd. unfold heat_solves in H.
    assert (Q : forall i j, (i < 4)%nat -> (j < 4)%nat -> d * apply_row (heat_row 4 4 1 i j) w + w i j 0%nat = if on_boundary 4 4 i j then 0 else 1).
    { intros i j Hi Hj. specialize (H i j Hi Hj). lra. } clear H.
    assert (B : forall i j, (i < 4)%nat -> (j < 4)%nat -> on_boundary 4 4 i j = true -> w i j 0%nat = 0).
    { intros i j Hi Hj Hb. specialize (Q i j Hi Hj). rewrite Hb, heat_row_boundary in Q by auto. lra. }
    assert (I : forall i j, inner_point 4 4 i j -> d * (9 * (2 * w i j 0%nat - w i (j - 1)%nat 0%nat - w i (j + 1)%nat 0%nat) +
      9 * (2 * w i j 0%nat - w (i - 1)%nat j 0%nat - w (i + 1)%nat j 0%nat)) + w i j 0%nat = 1).
    { intros i j Hp. pose proof Hp as [Hi Hj]. specialize (Q i j ltac:(lia) ltac:(lia)). rewrite heat_row_inner in Q by auto.
      replace (on_boundary 4 4 i j) with false in Q by (symmetry; apply boundary_iff; [lia|lia|auto]).
      replace (1 / h_dx 4 ^ 2) with 9 in Q by (unfold h_dx; simpl INR; field).
      replace (1 / h_dy 4 ^ 2) with 9 in Q by (unfold h_dy; simpl INR; field). exact Q. }
    pose proof (I 1%nat 1%nat ltac:(split; lia)) as I11. pose proof (I 1%nat 2%nat ltac:(split; lia)) as I12.
    pose proof (I 2%nat 1%nat ltac:(split; lia)) as I21. pose proof (I 2%nat 2%nat ltac:(split; lia)) as I22.
    cbn [Nat.sub Nat.add] in *.
    rewrite ?(B 0%nat 1%nat), ?(B 1%nat 0%nat), ?(B 0%nat 2%nat), ?(B 2%nat 0%nat), ?(B 3%nat 1%nat), ?(B 1%nat 3%nat), ?(B 3%nat 2%nat), ?(B 2%nat 3%nat) in * by (lia || reflexivity).
    set (p := w 1%nat 1%nat 0%nat) in *. set (q := w 1%nat 2%nat 0%nat) in *. set (r := w 2%nat 1%nat 0%nat) in *. set (s := w 2%nat 2%nat 0%nat) in *.
    clearbody p q r s. clear Q B I.
    assert (X1 : (p - s) * (1 + 36 * d) = 0) by lra. apply Rmult_integral in X1. destruct X1 as [X1|X1]; [|lra].
    assert (X2 : (q - r) * (1 + 36 * d) = 0) by lra. apply Rmult_integral in X2. destruct X2 as [X2|X2]; [|lra].
    assert (X3 : (p - q) * (1 + 54 * d) = 0). { replace s with p in * by lra. replace r with q in * by lra. lra. }
    apply Rmult_integral in X3. destruct X3 as [X3|X3]; [|lra]. replace r with p in * by lra. replace q with p in * by lra. lra. }
  apply HB in H1; [|lra]. apply HB in H2; [|lra]. rewrite E in H1. lra.
Qed.

(** Examples for C56 *)
Example C56_inner_point : inner_point 4 4 1 2.
Proof. split; lia. Qed.
Example C56_row_on_a_square_grid : forall w : gridfun,
  apply_row (heat_row 4 4 1 1 1) w = 9 * (4 * w 1%nat 1%nat 0%nat - w 0%nat 1%nat 0%nat - w 2%nat 1%nat 0%nat - w 1%nat 0%nat 0%nat - w 1%nat 2%nat 0%nat).
Proof.
  intros w. rewrite (proj1 (C56_operator 4 1 1 1 w ltac:(lia) ltac:(lia)) ltac:(split; lia)). unfold minus_laplace, field0, h_dx, h_dy. cbn [Nat.sub Nat.add].
  simpl INR. field.
Qed.
(** a 4 x 7 grid: the operator is wrong by a factor of 4 *)
Example C56_row_on_a_rectangle : let w : gridfun := fun i j f => (INR i * h_dx 4) ^ 2 in apply_row (heat_row 4 7 1 1 3) w = - 8.
Proof.
  intros w. destruct (C56_operator_refuted 4 7 1 ltac:(lia) ltac:(lra) 1%nat 3%nat ltac:(split; lia)) as (_ & E & _). fold w in E.
  rewrite E. unfold h_dx, h_dy. simpl INR. field.
Qed.
Example C56_a_step : exists w, heat_solves 4 4 1 1 (1 / 10) 0 (1 / 10) (fun i j f => heat_exact 4 4 1 0 i j) w.
Proof. apply (proj1 (C56_step_defined 4 4 1 1 (1 / 10) 0 (1 / 10) _ ltac:(lia) ltac:(lia) ltac:(lra) ltac:(lra))). Qed.
(** time steps of a hierarchy that doubles the step size are never confused *)
Example C56_doubling : let D := [1; 2; 4] in forall x y, In x D -> In y D -> Rabs (x - y) <= 1 / 100000000 + 1 / 100000 * Rabs y -> x = y.
Proof.
  intros D x y Hx Hy H. unfold D in *. simpl in Hx, Hy.
  destruct Hx as [<-|[<-|[<-|[]]]]; destruct Hy as [<-|[<-|[<-|[]]]]; try reflexivity; exfalso; revert H; unfold Rabs; repeat destruct Rcase_abs; lra.
Qed.

(** ** C57: the Gray-Scott equations *)
Lemma wrap_next m i : (i < m)%nat -> wrap m (Z.of_nat i + 1) = next m i.
Proof.
  intros H. unfold wrap, next. destruct (Nat.eqb_spec i (m - 1)) as [->|N].
  - replace (Z.of_nat (m - 1) + 1)%Z with (Z.of_nat m) by lia. rewrite Z_mod_same_full. reflexivity.
  - rewrite Z.mod_small by lia. lia.
Qed.
Lemma wrap_prev m i : (i < m)%nat -> wrap m (Z.of_nat i - 1) = prev m i.
Proof.
  intros H. unfold wrap, prev. destruct (Nat.eqb_spec i 0) as [->|N].
  - replace (Z.of_nat 0 - 1)%Z with (-1)%Z by lia. rewrite <- (Z_mod_plus_full (-1) 1), Z.mod_small by lia. lia.
  - rewrite Z.mod_small by lia. lia.
Qed.
Lemma ring3 m i : (3 <= m)%nat -> (i < m)%nat -> prev m i <> i /\ next m i <> i /\ prev m i <> next m i.
Proof. intros H3 Hi. unfold prev, next. destruct (Nat.eqb_spec i 0); destruct (Nat.eqb_spec i (m - 1)); lia. Qed.

(** The periodic five-point Laplacian *)
Definition laplace2 (mx my : nat) (hx hy : R) (g : nat -> nat -> R) (i j : nat) : R :=
  (g (prev mx i) j - 2 * g i j + g (next mx i) j) / hx ^ 2 + (g i (prev my j) - 2 * g i j + g i (next my j)) / hy ^ 2.
Definition diffuse (p : gs) (x : gridfun) (i j f : nat) : R :=
  (if (f =? 0)%nat then g_du p else g_dv p) * laplace2 (g_mx p) (g_my p) (g_L p / INR (g_mx p)) (g_L p / INR (g_my p)) (fun i j => x i j f) i j.
(** the reaction terms of the equations: -u v^2 + a (1 - u) and u v^2 - b v *)
Definition reaction (p : gs) (x : gridfun) (i j f : nat) : R :=
  let u := x i j 0%nat in let v := x i j 1%nat in if (f =? 0)%nat then - u * v ^ 2 + g_a p * (1 - u) else u * v ^ 2 - g_b p * v.

Section GrayScott.
  Variable p : gs.
  Notation mx := (g_mx p).
  Notation my := (g_my p).
  Hypothesis Hmx : (3 <= mx)%nat.
  Hypothesis Hmy : (3 <= my)%nat.
  Lemma neighbours i j : (i < mx)%nat -> (j < my)%nat -> east p i = next mx i /\ west p i = prev mx i /\ south p j = next my j /\ north p j = prev my j.
  Proof. intros Hi Hj. unfold east, west, south, north. rewrite !wrap_next, !wrap_prev by auto. auto. Qed.
  Lemma gs_row_entries i j f : (i < mx)%nat -> (j < my)%nat -> gs_row p i j f =
    [((i, j, f), diffusion p f * (-2 / g_dx p ^ 2 - 2 / g_dy p ^ 2)); ((i, prev my j, f), diffusion p f / g_dy p ^ 2);
     ((i, next my j, f), diffusion p f / g_dy p ^ 2); ((prev mx i, j, f), diffusion p f / g_dx p ^ 2); ((next mx i, j, f), diffusion p f / g_dx p ^ 2)].
  Proof.
    intros Hi Hj. unfold gs_row. destruct (neighbours i j Hi Hj) as (-> & -> & -> & ->). apply assemble_nodup.
    pose proof (ring3 mx i Hmx Hi) as (? & ? & ?). pose proof (ring3 my j Hmy Hj) as (? & ? & ?).
    nodup_cols.
  Qed.
  Lemma gs_operator x i j f : (i < mx)%nat -> (j < my)%nat -> apply_row (gs_row p i j f) x = diffuse p x i j f.
  Proof.
    intros Hi Hj. rewrite gs_row_entries by auto. unfold apply_row, diffuse, laplace2, diffusion, g_dx, g_dy. cbn [fold_right fst snd].
    unfold Rdiv. ring.
  Qed.
End GrayScott.

(** The assembled matrix is the diffusion operator on every periodic grid with at least three points per direction. *)
Theorem C57_operator :
  forall (p : gs) (x : gridfun) i j f, (3 <= g_mx p)%nat -> (3 <= g_my p)%nat -> (i < g_mx p)%nat -> (j < g_my p)%nat ->
  apply_row (gs_row p i j f) x = diffuse p x i j f.
Proof. intros. apply gs_operator; auto. Qed.

(** With two points in a direction both neighbours are the same point, its entry is inserted twice and counted once: the rows
    do not sum up to zero. *)
Theorem C57_two_points_refuted :
  forall (p : gs) i j f, g_mx p = 2%nat -> (3 <= g_my p)%nat -> (i < g_mx p)%nat -> (j < g_my p)%nat -> g_L p <> 0 ->
  apply_row (gs_row p i j f) (fun _ _ _ => 1) = - diffusion p f / (g_L p / 2) ^ 2.
Proof.
  intros p i j f H2 Hy Hi Hj HL. unfold gs_row. destruct (neighbours p i j Hi Hj) as (-> & -> & -> & ->).
  pose proof (ring3 (g_my p) j Hy Hj) as (? & ? & ?).
  assert (X : prev (g_mx p) i = next (g_mx p) i /\ next (g_mx p) i <> i).
  { rewrite H2 in *. unfold prev, next. destruct i as [|[|i]]; [| |lia]; cbn; lia. }
  destruct X as [-> NX]. set (e := ((next (g_mx p) i, j, f), diffusion p f / g_dx p ^ 2)).
  set (l := [((i, j, f), diffusion p f * (-2 / g_dx p ^ 2 - 2 / g_dy p ^ 2)); ((i, prev (g_my p) j, f), diffusion p f / g_dy p ^ 2); ((i, next (g_my p) j, f), diffusion p f / g_dy p ^ 2)]).
  change (assemble _) with (fold_left set_value [e] (assemble (l ++ [e]))). rewrite assemble_nodup by (unfold l, e; nodup_cols).
  assert (SV : forall r, ~ In (fst e) (map fst r) -> set_value (r ++ [e]) e = r ++ [e]).
  { clearbody e. clear. induction r as [|e' r IH]; intros H; cbn [app set_value map In] in *.
    - rewrite (proj2 (col_eqb_eq _ _) eq_refl). reflexivity.
    - match goal with |- context [if ?b then _ else _] => destruct b eqn:Q end; [apply col_eqb_eq in Q; exfalso; apply H; left; auto|]. rewrite IH; [reflexivity|]. intros Z. apply H. right. exact Z. }
  cbn [fold_left]. rewrite SV.
  - unfold l, e, apply_row, g_dx, g_dy. cbn [app fold_right fst snd]. rewrite H2. simpl (INR 2).
    assert (INR (g_my p) <> 0) by (apply not_0_INR; lia). field. auto.
  - unfold l, e. simpl. intros Q. repeat (destruct Q as [Q|Q]; [injection Q; lia|]). exact Q.
Qed.

(** The three methods are forward Euler, backward Euler, and the scheme with implicit diffusion and explicit reaction. *)
Theorem C57_schemes :
  forall (p : gs) (dt : R) (x w : gridfun), (3 <= g_mx p)%nat -> (3 <= g_my p)%nat ->
  (forall i j f, (i < g_mx p)%nat -> (j < g_my p)%nat -> (f < 2)%nat ->
     expl_step p dt x i j f = x i j f + dt * (diffuse p x i j f + reaction p x i j f)) /\
  (imex_solves p dt dt x w <-> forall i j f, (i < g_mx p)%nat -> (j < g_my p)%nat -> (f < 2)%nat ->
     w i j f = x i j f + dt * (diffuse p w i j f + reaction p x i j f)) /\
  (impl_solves p dt x w <-> forall i j f, (i < g_mx p)%nat -> (j < g_my p)%nat -> (f < 2)%nat ->
     w i j f = x i j f + dt * (diffuse p w i j f + reaction p w i j f)).
Proof.
  intros p dt x w H1 H2. split; [|split].
  - intros i j f Hi Hj Hf. unfold expl_step, reaction. destruct f as [|[|f]]; [| |lia]; cbn [Nat.eqb]; rewrite gs_operator by auto; ring.
  - unfold imex_solves, react, reaction. split; intros H i j f Hi Hj Hf; specialize (H i j f Hi Hj Hf); rewrite gs_operator in * by auto; lra.
  - assert (E : forall i j f, (i < g_mx p)%nat -> (j < g_my p)%nat -> (f < 2)%nat -> form_function p dt w i j f = w i j f - dt * (diffuse p w i j f + reaction p w i j f)).
    { intros i j f Hi Hj Hf. unfold form_function, reaction, diffuse, laplace2. destruct (neighbours p i j Hi Hj) as (-> & -> & -> & ->).
      unfold g_dx, g_dy, Rdiv. destruct f as [|[|f]]; [| |lia]; cbn [Nat.eqb]; ring. }
    unfold impl_solves. split; intros H i j f Hi Hj Hf; specialize (H i j f Hi Hj Hf); rewrite E in * by auto; lra.
Qed.

(** Maximum principle of the implicit diffusion *)
Lemma diffuse_max p d b w f : (3 <= g_mx p)%nat -> (3 <= g_my p)%nat -> g_L p <> 0 -> 0 <= g_du p -> 0 <= g_dv p -> 0 <= d ->
  (forall i j, (i < g_mx p)%nat -> (j < g_my p)%nat -> w i j f - d * diffuse p w i j f = b i j) ->
  forall M, (forall i j, (i < g_mx p)%nat -> (j < g_my p)%nat -> b i j <= M) -> forall i j, (i < g_mx p)%nat -> (j < g_my p)%nat -> w i j f <= M.
Proof.
  intros Hx Hy HL Hu Hv Hd H M HM i j Hi Hj.
  destruct (max_point (g_mx p) (g_my p) (fun i j => w i j f) ltac:(lia) ltac:(lia)) as (k & l & Hk & Hl & Hm).
  apply Rle_trans with (w k l f); [apply (Hm i j Hi Hj)|]. specialize (H k l Hk Hl). specialize (HM k l Hk Hl).
  unfold diffuse, laplace2 in H.
  pose proof (Hm (prev (g_mx p) k) l (prev_lt (g_mx p) k ltac:(lia) Hk) Hl). pose proof (Hm (next (g_mx p) k) l (next_lt (g_mx p) k ltac:(lia) Hk) Hl).
  pose proof (Hm k (prev (g_my p) l) Hk (prev_lt (g_my p) l ltac:(lia) Hl)). pose proof (Hm k (next (g_my p) l) Hk (next_lt (g_my p) l ltac:(lia) Hl)). cbn beta in *.
  assert (D : 0 <= (if (f =? 0)%nat then g_du p else g_dv p)) by (destruct (f =? 0)%nat; auto).
  set (D' := if (f =? 0)%nat then g_du p else g_dv p) in *. clearbody D'.
  assert (Fx : 0 <= 1 / (g_L p / INR (g_mx p)) ^ 2).
  { apply fac_nonneg; [lra|]. apply Rmult_integral_contrapositive_currified; [exact HL|]. apply Rinv_neq_0_compat, not_0_INR. lia. }
  assert (Fy : 0 <= 1 / (g_L p / INR (g_my p)) ^ 2).
  { apply fac_nonneg; [lra|]. apply Rmult_integral_contrapositive_currified; [exact HL|]. apply Rinv_neq_0_compat, not_0_INR. lia. }
  unfold Rdiv at 1 in Fx. unfold Rdiv at 1 in Fy. rewrite Rmult_1_l in Fx, Fy. unfold Rdiv at 1 in H. unfold Rdiv at 2 in H.
  set (fx := / (g_L p / INR (g_mx p)) ^ 2) in *. set (fy := / (g_L p / INR (g_my p)) ^ 2) in *. clearbody fx fy.
  set (A := (w (prev (g_mx p) k) l f - 2 * w k l f + w (next (g_mx p) k) l f)) in *.
  set (B := (w k (prev (g_my p) l) f - 2 * w k l f + w k (next (g_my p) l) f)) in *.
  assert (A <= 0) by (unfold A; lra). assert (B <= 0) by (unfold B; lra). clearbody A B.
  assert (0 <= d * (D' * (- A * fx + - B * fy))).
  { apply Rmult_le_pos; [exact Hd|]. apply Rmult_le_pos; [exact D|]. apply Rplus_le_le_0_compat; apply Rmult_le_pos; lra. }
  lra.
Qed.
Lemma diffuse_sub p w w' i j f : diffuse p (fun i j f => w i j f - w' i j f) i j f = diffuse p w i j f - diffuse p w' i j f.
Proof. unfold diffuse, laplace2, Rdiv. ring. Qed.
Lemma diffuse_const p c i j f : diffuse p (fun _ _ f => c f) i j f = 0.
Proof. unfold diffuse, laplace2, Rdiv. ring. Qed.

(** A step with implicit diffusion always has exactly one result, whatever time step the operator was set up for. *)
Theorem C57_imex_defined :
  forall (p : gs) (op_dt dt : R) (x : gridfun), (3 <= g_mx p)%nat -> (3 <= g_my p)%nat -> g_L p <> 0 -> 0 <= g_du p -> 0 <= g_dv p -> 0 <= op_dt ->
  (exists w, imex_solves p op_dt dt x w) /\
  forall w w', imex_solves p op_dt dt x w -> imex_solves p op_dt dt x w' ->
    forall i j f, (i < g_mx p)%nat -> (j < g_my p)%nat -> (f < 2)%nat -> w i j f = w' i j f.
Proof.
  intros p od dt x Hx Hy HL Hu Hv Hd.
  assert (K : forall (w : gridfun) f, (forall i j, (i < g_mx p)%nat -> (j < g_my p)%nat -> w i j f - od * diffuse p w i j f = 0) ->
     forall i j, (i < g_mx p)%nat -> (j < g_my p)%nat -> w i j f = 0).
  { intros w f H i j Hi Hj. assert (U : w i j f <= 0) by (apply (diffuse_max p od (fun _ _ => 0) w f); auto; intros; lra).
    assert (V : 0 - w i j f <= 0); [|lra].
    refine (diffuse_max p od (fun _ _ => 0) (fun i j f => 0 - w i j f) f Hx Hy HL Hu Hv Hd _ 0 _ i j Hi Hj); [|intros; lra].
    intros k l Hk Hl. rewrite (diffuse_sub p (fun _ _ _ => 0) w). rewrite (diffuse_const p (fun _ => 0)). specialize (H k l Hk Hl). lra. }
  split.
  - destruct (rows_solvable (g_mx p) (g_my p) 2 (gs_row p) (- od)) with (b := fun i j f => x i j f + dt * react p x i j f) as [w Hw].
    + intros i j f e (Hi & Hj & Hf) He. rewrite gs_row_entries in He by auto. cbn [In] in He. unfold in_grid.
      pose proof (prev_lt (g_mx p) i ltac:(lia) Hi). pose proof (next_lt (g_mx p) i ltac:(lia) Hi).
      pose proof (prev_lt (g_my p) j ltac:(lia) Hj). pose proof (next_lt (g_my p) j ltac:(lia) Hj).
      repeat (destruct He as [<-|He]; [cbn [fst]; auto|]). destruct He.
    + intros w Hw i j f (Hi & Hj & Hf). apply (K w f); auto. intros k l Hk Hl. specialize (Hw k l f ltac:(repeat split; auto)).
      rewrite gs_operator in Hw by auto. lra.
    + exists w. intros i j f Hi Hj Hf. specialize (Hw i j f ltac:(repeat split; auto)). cbn beta in Hw. lra.
  - intros w w' H H' i j f Hi Hj Hf.
    assert (X : w i j f - w' i j f = 0); [|lra].
    apply (K (fun i j f => w i j f - w' i j f) f); auto. intros k l Hk Hl. rewrite diffuse_sub.
    specialize (H k l f Hk Hl Hf). specialize (H' k l f Hk Hl Hf). rewrite gs_operator in * by auto. lra.
Qed.
(** Concentrations stay non-negative, and that of the first species at most 1, if the time step is small against the reaction
    rates; the diffusion and the grid do not matter. *)
Theorem C57_imex_bounds :
  forall (p : gs) (op_dt dt V : R) (x w : gridfun), (3 <= g_mx p)%nat -> (3 <= g_my p)%nat -> g_L p <> 0 -> 0 <= g_du p -> 0 <= g_dv p -> 0 <= op_dt ->
  0 <= dt -> 0 <= g_a p -> dt * (V ^ 2 + g_a p) <= 1 -> dt * g_b p <= 1 ->
  (forall i j, (i < g_mx p)%nat -> (j < g_my p)%nat -> 0 <= x i j 0%nat <= 1 /\ 0 <= x i j 1%nat <= V) ->
  imex_solves p op_dt dt x w ->
  forall i j, (i < g_mx p)%nat -> (j < g_my p)%nat -> 0 <= w i j 0%nat <= 1 /\ 0 <= w i j 1%nat.
Proof.
  intros p od dt V x w Hx Hy HL Hu Hv Hod Hd Ha HV Hb B H.
  assert (H' : forall f, (f < 2)%nat -> forall i j, (i < g_mx p)%nat -> (j < g_my p)%nat -> w i j f - od * diffuse p w i j f = x i j f + dt * react p x i j f).
  { intros f Hf i j Hi Hj. rewrite <- gs_operator by auto. apply H; auto. }
  assert (N : forall f, (f < 2)%nat -> forall i j, (i < g_mx p)%nat -> (j < g_my p)%nat -> 0 - w i j f - od * diffuse p (fun i j f => 0 - w i j f) i j f = - (x i j f + dt * react p x i j f)).
  { intros f Hf i j Hi Hj. rewrite (diffuse_sub p (fun _ _ _ => 0) w), (diffuse_const p (fun _ => 0)), <- H' by auto. ring. }
  assert (Q : forall i j, (i < g_mx p)%nat -> (j < g_my p)%nat -> 0 <= x i j 0%nat + dt * react p x i j 0 <= 1 /\ 0 <= x i j 1%nat + dt * react p x i j 1).
  { intros i j Hi Hj. destruct (B i j Hi Hj) as [[U0 U1] [V0 V1]]. unfold react. cbn [Nat.eqb]. set (u := x i j 0%nat) in *. set (v := x i j 1%nat) in *.
    assert (S0 : 0 <= v ^ 2) by nra. assert (S : v ^ 2 <= V ^ 2) by nra. assert (SD : dt * v ^ 2 <= dt * V ^ 2) by (apply Rmult_le_compat_l; auto).
    assert (0 <= dt * g_a p) by (apply Rmult_le_pos; auto). assert (0 <= dt * v ^ 2) by (apply Rmult_le_pos; auto).
    split; [split|].
    - replace (u + dt * (- u * v ^ 2 + g_a p * (1 - u))) with (u * (1 - (dt * v ^ 2 + dt * g_a p)) + dt * g_a p) by ring.
      assert (0 <= u * (1 - (dt * v ^ 2 + dt * g_a p))) by (apply Rmult_le_pos; lra). lra.
    - replace (u + dt * (- u * v ^ 2 + g_a p * (1 - u))) with (1 - (1 - u) * (1 - dt * g_a p) - u * (dt * v ^ 2)) by ring.
      assert (0 <= (1 - u) * (1 - dt * g_a p)) by (apply Rmult_le_pos; lra). assert (0 <= u * (dt * v ^ 2)) by (apply Rmult_le_pos; lra). lra.
    - replace (v + dt * (u * v ^ 2 - g_b p * v)) with (v * (1 - dt * g_b p) + u * (dt * v ^ 2)) by ring.
      assert (0 <= v * (1 - dt * g_b p)) by (apply Rmult_le_pos; lra). assert (0 <= u * (dt * v ^ 2)) by (apply Rmult_le_pos; lra). lra. }
  assert (L : forall f, (f < 2)%nat -> (forall i j, (i < g_mx p)%nat -> (j < g_my p)%nat -> 0 <= x i j f + dt * react p x i j f) ->
     forall i j, (i < g_mx p)%nat -> (j < g_my p)%nat -> 0 <= w i j f).
  { intros f Hf P i j Hi Hj. assert (0 - w i j f <= 0); [|lra].
    refine (diffuse_max p od (fun i j => - (x i j f + dt * react p x i j f)) (fun i j f => 0 - w i j f) f Hx Hy HL Hu Hv Hod (N f Hf) 0 _ i j Hi Hj).
    intros k l Hk Hl. specialize (P k l Hk Hl). lra. }
  intros i j Hi Hj. split; [split|].
  - apply (L 0%nat); auto. intros k l Hk Hl. apply (Q k l Hk Hl).
  - refine (diffuse_max p od _ w 0%nat Hx Hy HL Hu Hv Hod (H' 0%nat ltac:(lia)) 1 _ i j Hi Hj). intros k l Hk Hl. apply (Q k l Hk Hl).
  - apply (L 1%nat); auto. intros k l Hk Hl. apply (Q k l Hk Hl).
Qed.

(** Mass balance: diffusion only redistributes. *)
Definition grid_total (p : gs) (g : nat -> nat -> R) : R := rsum (g_mx p) (fun i => rsum (g_my p) (fun j => g i j)).
Lemma grid_total_ext p g h : (forall i j, (i < g_mx p)%nat -> (j < g_my p)%nat -> g i j = h i j) -> grid_total p g = grid_total p h.
Proof. intros H. unfold grid_total. apply rsum_ext. intros i Hi. apply rsum_ext. intros j Hj. auto. Qed.
Lemma grid_total_plus p g h : grid_total p (fun i j => g i j + h i j) = grid_total p g + grid_total p h.
Proof. unfold grid_total. rewrite <- rsum_plus. apply rsum_ext. intros i _. apply rsum_plus. Qed.
Lemma grid_total_scal p c g : grid_total p (fun i j => c * g i j) = c * grid_total p g.
Proof. unfold grid_total. rewrite <- rsum_scal. apply rsum_ext. intros i _. apply rsum_scal. Qed.
Lemma grid_total_diffuse p x f : (3 <= g_mx p)%nat -> (3 <= g_my p)%nat -> grid_total p (fun i j => diffuse p x i j f) = 0.
Proof.
  intros Hx Hy. unfold diffuse. rewrite grid_total_scal. unfold laplace2, Rdiv.
  set (a := / (g_L p * / INR (g_mx p)) ^ 2). set (b := / (g_L p * / INR (g_my p)) ^ 2).
  rewrite (grid_total_ext p _ (fun i j => a * (x (prev (g_mx p) i) j f + (-2) * x i j f + x (next (g_mx p) i) j f) + b * (x i (prev (g_my p) j) f + (-2) * x i j f + x i (next (g_my p) j) f)))
    by (intros; unfold a, b; ring).
  rewrite grid_total_plus, !grid_total_scal, !grid_total_plus, !grid_total_scal.
  assert (E1 : grid_total p (fun i j => x (prev (g_mx p) i) j f) = grid_total p (fun i j => x i j f)) by (unfold grid_total; apply (rsum_prev (g_mx p) (fun i => rsum (g_my p) (fun j => x i j f))); lia).
  assert (E2 : grid_total p (fun i j => x (next (g_mx p) i) j f) = grid_total p (fun i j => x i j f)) by (unfold grid_total; apply (rsum_next (g_mx p) (fun i => rsum (g_my p) (fun j => x i j f))); lia).
  assert (E3 : grid_total p (fun i j => x i (prev (g_my p) j) f) = grid_total p (fun i j => x i j f)) by (unfold grid_total; apply rsum_ext; intros i _; apply (rsum_prev (g_my p) (fun j => x i j f)); lia).
  assert (E4 : grid_total p (fun i j => x i (next (g_my p) j) f) = grid_total p (fun i j => x i j f)) by (unfold grid_total; apply rsum_ext; intros i _; apply (rsum_next (g_my p) (fun j => x i j f)); lia).
  rewrite E1, E2, E3, E4. ring.
Qed.
Definition mass (p : gs) (x : gridfun) : R := grid_total p (fun i j => x i j 0%nat + x i j 1%nat).
(** feed a (1 - u) and removal b v *)
Definition supply (p : gs) (x : gridfun) : R := grid_total p (fun i j => g_a p * (1 - x i j 0%nat) - g_b p * x i j 1%nat).
Theorem C57_mass_balance :
  forall (p : gs) (dt : R) (x w : gridfun), (3 <= g_mx p)%nat -> (3 <= g_my p)%nat ->
  mass p (expl_step p dt x) = mass p x + dt * supply p x /\
  (forall op_dt, imex_solves p op_dt dt x w -> mass p w = mass p x + dt * supply p x) /\
  (impl_solves p dt x w -> mass p w = mass p x + dt * supply p w).
Proof.
  intros p dt x w Hx Hy.
  assert (S : forall z, supply p z = grid_total p (fun i j => reaction p z i j 0 + reaction p z i j 1)).
  { intros z. apply grid_total_ext. intros i j _ _. unfold reaction. cbn [Nat.eqb]. ring. }
  assert (K : forall (y z r : gridfun) c, (forall i j f, (i < g_mx p)%nat -> (j < g_my p)%nat -> (f < 2)%nat -> y i j f = x i j f + (c * diffuse p z i j f + dt * reaction p r i j f)) ->
     mass p y = mass p x + dt * supply p r).
  { intros y z r c H. rewrite S. unfold mass. rewrite (grid_total_ext p (fun i j => y i j 0%nat + y i j 1%nat)
      (fun i j => (x i j 0%nat + x i j 1%nat) + (c * diffuse p z i j 0%nat + (c * diffuse p z i j 1%nat + dt * (reaction p r i j 0 + reaction p r i j 1)))))
      by (intros i j Hi Hj; rewrite !H by auto; ring).
    rewrite !grid_total_plus, !grid_total_scal, !grid_total_diffuse, !grid_total_plus by auto. ring. }
  split; [|split].
  - apply (K _ x x dt). intros i j f Hi Hj Hf. rewrite (proj1 (C57_schemes p dt x w Hx Hy)) by auto. ring.
  - intros od H. apply (K w w x od). intros i j f Hi Hj Hf. specialize (H i j f Hi Hj Hf). rewrite gs_operator in H by auto.
    change (reaction p x i j f) with (react p x i j f). lra.
  - intros H. apply (K w w w dt). intros i j f Hi Hj Hf. rewrite (proj1 (proj2 (proj2 (C57_schemes p dt x w Hx Hy))) H i j f Hi Hj Hf) at 1. ring.
Qed.

(** The state u = 1, v = 0 is a fixed point of all three methods. *)
Definition trivial_state : gridfun := fun i j f => if (f =? 0)%nat then 1 else 0.
Theorem C57_trivial_state :
  forall (p : gs) (op_dt dt : R) (x : gridfun), (3 <= g_mx p)%nat -> (3 <= g_my p)%nat ->
  (forall i j f, (i < g_mx p)%nat -> (j < g_my p)%nat -> (f < 2)%nat -> x i j f = trivial_state i j f) ->
  (forall i j f, (i < g_mx p)%nat -> (j < g_my p)%nat -> (f < 2)%nat -> expl_step p dt x i j f = x i j f) /\
  (g_L p <> 0 -> 0 <= g_du p -> 0 <= g_dv p -> 0 <= op_dt -> forall w, imex_solves p op_dt dt x w ->
     forall i j f, (i < g_mx p)%nat -> (j < g_my p)%nat -> (f < 2)%nat -> w i j f = x i j f) /\
  impl_solves p dt x x.
Proof.
  intros p od dt x Hx Hy E.
  assert (D : forall i j f, (i < g_mx p)%nat -> (j < g_my p)%nat -> (f < 2)%nat -> diffuse p x i j f = 0).
  { intros i j f Hi Hj Hf. rewrite <- (diffuse_const p (fun f => if (f =? 0)%nat then 1 else 0) i j f).
    pose proof (prev_lt (g_mx p) i ltac:(lia) Hi). pose proof (next_lt (g_mx p) i ltac:(lia) Hi).
    pose proof (prev_lt (g_my p) j ltac:(lia) Hj). pose proof (next_lt (g_my p) j ltac:(lia) Hj).
    unfold diffuse, laplace2. rewrite !E by auto. reflexivity. }
  assert (Q : forall i j f, (i < g_mx p)%nat -> (j < g_my p)%nat -> (f < 2)%nat -> reaction p x i j f = 0).
  { intros i j f Hi Hj Hf. unfold reaction. rewrite !E by auto. unfold trivial_state. destruct f as [|[|f]]; [| |lia]; cbn [Nat.eqb]; ring. }
  split; [|split].
  - intros i j f Hi Hj Hf. rewrite (proj1 (C57_schemes p dt x x Hx Hy)), D, Q by auto. ring.
  - intros HL Hu Hv Hod w H. apply (proj2 (C57_imex_defined p od dt x Hx Hy HL Hu Hv Hod)); [exact H|].
    intros i j f Hi Hj Hf. rewrite gs_operator by auto. change (react p x i j f) with (reaction p x i j f). rewrite D, Q by auto. ring.
  - apply (proj2 (proj2 (C57_schemes p dt x x Hx Hy))). intros i j f Hi Hj Hf. rewrite D, Q by auto. ring.
Qed.

(** The initial value: concentrations between 0 and 1; *)
Theorem C57_initial_value :
  forall p i j, 0 <= initial_guess p i j 1%nat <= 1 / 4 /\ 1 / 2 <= initial_guess p i j 0%nat <= 1 /\ initial_guess p i j 0%nat = 1 - 2 * initial_guess p i j 1%nat.
Proof.
  intros p i j. unfold initial_guess. cbn [Nat.eqb].
  assert (B : forall s t : R, 0 <= (sin s) ^ 2 * (sin t) ^ 2 / 4 <= 1 / 4).
  { intros s t. pose proof (SIN_bound s). pose proof (SIN_bound t). assert (0 <= sin s ^ 2 <= 1) by (split; nra). assert (0 <= sin t ^ 2 <= 1) by (split; nra).
    split; [|]. { apply Rmult_le_pos; [|lra]. apply Rmult_le_pos; lra. }
    assert (sin s ^ 2 * sin t ^ 2 <= 1 * 1) by (apply Rmult_le_compat; lra). lra. }
  specialize (B (4 * PI * (INR i * g_dx p)) (4 * PI * (INR j * g_dy p))).
  repeat destruct Rle_dec; lra.
Qed.
(** but on a domain of length at most 1, such as the default one, it is the trivial state, so that no step changes
    anything: the perturbation lies at coordinates between 1 and 1.5. *)
Theorem C57_default_initial_value_refuted :
  forall (p : gs), g_L p <= 1 ->
  forall i j f, (i < g_mx p)%nat -> (j < g_my p)%nat -> (f < 2)%nat -> initial_guess p i j f = trivial_state i j f.
Proof.
  intros p HL i j f Hi Hj Hf. unfold initial_guess, trivial_state.
  assert (B : INR i * g_dx p < 1).
  { unfold g_dx. assert (P : 0 < INR (g_mx p)) by (apply lt_0_INR; lia). apply lt_INR in Hi. pose proof (pos_INR i) as Pi.
    replace (INR i * (g_L p / INR (g_mx p))) with (g_L p * (INR i / INR (g_mx p))) by (field; lra).
    assert (Q : 0 <= INR i / INR (g_mx p)) by (apply Rmult_le_pos; [auto|left; apply Rinv_0_lt_compat; auto]).
    assert (Q1 : INR i / INR (g_mx p) < 1) by (apply (Rmult_lt_reg_r (INR (g_mx p))); [auto|]; unfold Rdiv; rewrite Rmult_assoc, Rinv_l by lra; lra).
    nra. }
  destruct (Rle_dec 1 (INR i * g_dx p)) as [C|C]; [lra|]. destruct f as [|[|f]]; [| |lia]; cbn [Nat.eqb]; lra.
Qed.

(** The Jacobian *)
Lemma d_cubic A B C D : derivable_pt_lim (fun e => A + e * B + e ^ 2 * C + e ^ 3 * D) 0 B.
Proof.
  intros eps He.
  assert (K : 0 < Rabs C + Rabs D + 1) by (pose proof (Rabs_pos C); pose proof (Rabs_pos D); lra).
  assert (Hd : 0 < Rmin 1 (eps / (Rabs C + Rabs D + 1))) by (apply Rmin_pos; [lra|apply Rdiv_lt_0_compat; lra]).
  exists (mkposreal _ Hd). intros h Hh Hl. cbn [pos] in Hl.
  replace ((A + (0 + h) * B + (0 + h) ^ 2 * C + (0 + h) ^ 3 * D - (A + 0 * B + 0 ^ 2 * C + 0 ^ 3 * D)) / h - B) with (h * (C + h * D)) by (field; exact Hh).
  assert (H1 : Rabs h < 1) by (eapply Rlt_le_trans; [exact Hl|apply Rmin_l]).
  assert (H2 : Rabs h < eps / (Rabs C + Rabs D + 1)) by (eapply Rlt_le_trans; [exact Hl|apply Rmin_r]).
  rewrite Rabs_mult. assert (Q : Rabs (C + h * D) <= Rabs C + Rabs D).
  { eapply Rle_trans; [apply Rabs_triang|]. rewrite Rabs_mult. pose proof (Rabs_pos D). pose proof (Rabs_pos h). nra. }
  apply Rle_lt_trans with (Rabs h * (Rabs C + Rabs D + 1)).
  - apply Rmult_le_compat_l; [apply Rabs_pos|lra].
  - apply Rlt_le_trans with (eps / (Rabs C + Rabs D + 1) * (Rabs C + Rabs D + 1)); [apply Rmult_lt_compat_r; lra|].
    unfold Rdiv. rewrite Rmult_assoc, Rinv_l by lra. lra.
Qed.
Lemma jac_entries p dt x h i j f : (3 <= g_mx p)%nat -> (3 <= g_my p)%nat -> (i < g_mx p)%nat -> (j < g_my p)%nat -> (f < 2)%nat ->
  let u := x i j 0%nat in let v := x i j 1%nat in
  let W := h (prev (g_mx p) i) j f in let E := h (next (g_mx p) i) j f in let N := h i (prev (g_my p) j) f in let S := h i (next (g_my p) j) f in
  apply_row (jac_row p dt x i j f) h =
  if (f =? 0)%nat then h i j 0%nat - dt * (g_du p * (-2 / g_dx p ^ 2 - 2 / g_dy p ^ 2) - v ^ 2 - g_a p) * h i j 0%nat + dt * 2 * u * v * h i j 1%nat
     - dt * g_du p / g_dx p ^ 2 * (N + S + W + E)
  else h i j 1%nat - dt * (g_dv p * (-2 / g_dx p ^ 2 - 2 / g_dy p ^ 2) + 2 * u * v - g_b p) * h i j 1%nat - dt * v ^ 2 * h i j 0%nat
     - dt * g_dv p / g_dy p ^ 2 * (N + S + W + E).
Proof.
  intros Hx Hy Hi Hj Hf u v W E N S. unfold jac_row. destruct (neighbours p i j Hi Hj) as (-> & -> & -> & ->). cbv zeta.
  pose proof (ring3 (g_mx p) i Hx Hi) as (? & ? & ?). pose proof (ring3 (g_my p) j Hy Hj) as (? & ? & ?).
  destruct f as [|[|f]]; [| |lia]; cbn [Nat.eqb]; rewrite assemble_nodup by nodup_cols; unfold apply_row; cbn [fold_right fst snd];
  unfold W, E, N, S, u, v, Rdiv; ring.
Qed.
Lemma form_function_along p dt x h i j f : (3 <= g_mx p)%nat -> (3 <= g_my p)%nat -> (i < g_mx p)%nat -> (j < g_my p)%nat -> (f < 2)%nat ->
  derivable_pt_lim (fun e => form_function p dt (fun i j f => x i j f + e * h i j f) i j f) 0
    (h i j f - dt * (diffuse p h i j f +
       if (f =? 0)%nat then - (h i j 0%nat * x i j 1%nat ^ 2 + 2 * x i j 0%nat * x i j 1%nat * h i j 1%nat) - g_a p * h i j 0%nat
       else h i j 0%nat * x i j 1%nat ^ 2 + 2 * x i j 0%nat * x i j 1%nat * h i j 1%nat - g_b p * h i j 1%nat)).
Proof.
  intros Hx Hy Hi Hj Hf. set (u := x i j 0%nat). set (v := x i j 1%nat). set (k := h i j 0%nat). set (l := h i j 1%nat).
  set (s := if (f =? 0)%nat then 1 else - 1).
  eapply d_ext; [|apply (d_cubic (form_function p dt x i j f) _ (s * dt * (u * l ^ 2 + 2 * k * v * l)) (s * dt * k * l ^ 2))].
  intros e. unfold form_function, diffuse, laplace2. destruct (neighbours p i j Hi Hj) as (-> & -> & -> & ->).
  change (g_L p / INR (g_mx p)) with (g_dx p). change (g_L p / INR (g_my p)) with (g_dy p). cbv zeta. unfold s, u, v, k, l, Rdiv.
  destruct f as [|[|f]]; [| |lia]; cbn [Nat.eqb]; ring.
Qed.
(** On a square grid formJacobian is the derivative of formFunction; *)
Theorem C57_jacobian :
  forall (p : gs) (dt : R) (x h : gridfun) i j f, g_mx p = g_my p -> (3 <= g_mx p)%nat -> (i < g_mx p)%nat -> (j < g_my p)%nat -> (f < 2)%nat ->
  derivable_pt_lim (fun e => form_function p dt (fun i j f => x i j f + e * h i j f) i j f) 0 (apply_row (jac_row p dt x i j f) h).
Proof.
  intros p dt x h i j f Hq Hx Hi Hj Hf. pose proof (form_function_along p dt x h i j f Hx ltac:(lia) Hi Hj Hf) as D.
  rewrite jac_entries by (auto; lia). eapply eq_rect; [exact D|]. unfold diffuse, laplace2, g_dx, g_dy. rewrite <- Hq.
  destruct f as [|[|f]]; [| |lia]; cbn [Nat.eqb]; unfold Rdiv; ring.
Qed.
(** on no other grid it is: the couplings of the first field in the second direction are divided by dx^2 (265-300). *)
Theorem C57_jacobian_refuted :
  forall (p : gs) (dt : R) (x : gridfun) i j, (3 <= g_mx p)%nat -> (3 <= g_my p)%nat -> g_mx p <> g_my p -> g_L p <> 0 -> dt <> 0 -> g_du p <> 0 ->
  (i < g_mx p)%nat -> (j < g_my p)%nat ->
  exists h, ~ derivable_pt_lim (fun e => form_function p dt (fun i j f => x i j f + e * h i j f) i j 0) 0 (apply_row (jac_row p dt x i j 0) h).
Proof.
  intros p dt x i j Hx Hy Hne HL Hdt Hdu Hi Hj. pose proof (ring3 (g_my p) j Hy Hj) as (N1 & N2 & N3).
  pose proof (ring3 (g_mx p) i Hx Hi) as (M1 & M2 & M3).
  set (h := (fun k l f => if (k =? i)%nat then if (l =? prev (g_my p) j)%nat then if (f =? 0)%nat then 1 else 0 else 0 else 0) : gridfun).
  exists h. intros D. pose proof (form_function_along p dt x h i j 0 Hx Hy Hi Hj ltac:(lia)) as D'.
  pose proof (uniqueness_limite _ _ _ _ D D') as E. rewrite jac_entries in E by (auto; lia). cbv zeta in E. unfold diffuse, laplace2 in E. cbn [Nat.eqb] in E.
  assert (E0 : forall f, h i j f = 0) by (intros f; unfold h; rewrite Nat.eqb_refl; destruct (Nat.eqb_spec j (prev (g_my p) j)); [congruence|reflexivity]).
  assert (EW : forall f, h (prev (g_mx p) i) j f = 0) by (intros f; unfold h; destruct (Nat.eqb_spec (prev (g_mx p) i) i); [congruence|reflexivity]).
  assert (EE : forall f, h (next (g_mx p) i) j f = 0) by (intros f; unfold h; destruct (Nat.eqb_spec (next (g_mx p) i) i); [congruence|reflexivity]).
  assert (ES : h i (next (g_my p) j) 0%nat = 0) by (unfold h; rewrite Nat.eqb_refl; destruct (Nat.eqb_spec (next (g_my p) j) (prev (g_my p) j)); [congruence|reflexivity]).
  assert (EN : h i (prev (g_my p) j) 0%nat = 1) by (unfold h; rewrite !Nat.eqb_refl; reflexivity).
  rewrite !E0, !EW, !EE, !ES, !EN in E. clear D D'. unfold g_dx in E.
  assert (Px : INR (g_mx p) <> 0) by (apply not_0_INR; lia). assert (Py : INR (g_my p) <> 0) by (apply not_0_INR; lia).
  assert (F : dt * g_du p * (INR (g_mx p) ^ 2 - INR (g_my p) ^ 2) = 0).
  { apply (Rmult_eq_reg_r (/ g_L p ^ 2)); [|apply Rinv_neq_0_compat, pow_nonzero; exact HL]. rewrite Rmult_0_l.
    assert (G : dt * g_du p * INR (g_mx p) ^ 2 * / g_L p ^ 2 = dt * g_du p * INR (g_my p) ^ 2 * / g_L p ^ 2); [|lra].
    transitivity (dt * g_du p / (g_L p / INR (g_mx p)) ^ 2); [field; auto|]. transitivity (dt * (g_du p * / (g_L p / INR (g_my p)) ^ 2)); [|field; auto].
    unfold Rdiv in *. ring_simplify in E. ring_simplify. lra. }
  apply Rmult_integral in F. destruct F as [F|F]; [apply Rmult_integral in F; tauto|].
  apply Hne, INR_eq. pose proof (pos_INR (g_mx p)). pose proof (pos_INR (g_my p)). nra.
Qed.

(** Examples for C57: a domain of length 5/2 with 20 x 20 points *)
Definition gs_ex : gs := mkGs 20 20 (5 / 2) 1 (1 / 100) (9 / 100) (86 / 1000).
Example C57_perturbation : initial_guess gs_ex 9%nat 9%nat 1%nat = 1 / 4 /\ initial_guess gs_ex 9%nat 9%nat 0%nat = 1 / 2 /\ initial_guess gs_ex 0%nat 0%nat 1%nat = 0.
Proof.
  assert (E : INR 9 * g_dx gs_ex = 9 / 8) by (unfold g_dx, gs_ex; cbn [g_L g_mx]; rewrite !INR_IZR_INZ; simpl IZR; field).
  assert (E' : INR 9 * g_dy gs_ex = 9 / 8) by exact E.
  assert (S : sin (4 * PI * (9 / 8)) = 1).
  { replace (4 * PI * (9 / 8)) with (PI / 2 + 2 * INR 2 * PI) by (simpl INR; lra). rewrite sin_period. apply sin_PI2. }
  unfold initial_guess. rewrite E, E', S. cbn [Nat.eqb]. simpl (INR 0). rewrite !Rmult_0_l.
  repeat destruct Rle_dec; lra.
Qed.
Example C57_a_step_exists : exists w, imex_solves gs_ex 1 1 (initial_guess gs_ex) w.
Proof. apply (C57_imex_defined gs_ex 1 1 (initial_guess gs_ex)); unfold gs_ex; cbn [g_mx g_my g_L g_du g_dv]; (lia || lra). Qed.
Example C57_bounds_apply : forall w, imex_solves gs_ex 1 1 (initial_guess gs_ex) w ->
  forall i j, (i < 20)%nat -> (j < 20)%nat -> 0 <= w i j 0%nat <= 1 /\ 0 <= w i j 1%nat.
Proof.
  intros w H. refine (C57_imex_bounds gs_ex 1 1 (1 / 4) (initial_guess gs_ex) w _ _ _ _ _ _ _ _ _ _ _ H);
  unfold gs_ex; cbn [g_mx g_my g_L g_du g_dv g_a g_b]; try lia; try lra.
  intros i j _ _. fold gs_ex. destruct (C57_initial_value gs_ex i j) as (? & ? & _). lra.
Qed.
Example C57_two_points : apply_row (gs_row (mkGs 2 3 1 1 (1 / 100) (9 / 100) (86 / 1000)) 0 0 0) (fun _ _ _ => 1) = - 4.
Proof. rewrite C57_two_points_refuted; cbn [g_mx g_my g_L]; try lia; try lra. unfold diffusion. cbn [Nat.eqb g_du]. lra. Qed.
(** the application of examples/petsc4py/example_gray_scott_2d_petsc.py: 129 x 129 points, everything else default *)
Definition gs_default : gs := mkGs 129 129 1 1 (1 / 100) (9 / 100) (86 / 1000).
Example C57_shipped_example : impl_solves gs_default (1 / 320) (initial_guess gs_default) (initial_guess gs_default).
Proof.
  destruct (C57_trivial_state gs_default 0 (1 / 320) (initial_guess gs_default)) as (_ & _ & H); [unfold gs_default; cbn [g_mx]; lia|unfold gs_default; cbn [g_my]; lia| |exact H].
  apply C57_default_initial_value_refuted. unfold gs_default. cbn [g_L]. lra.
Qed.
Example C57_jacobian_on_a_rectangle : let p := mkGs 3 4 1 1 (1 / 100) (9 / 100) (86 / 1000) in
  exists h, ~ derivable_pt_lim (fun e => form_function p 1 (fun i j f => trivial_state i j f + e * h i j f) 0 0 0) 0 (apply_row (jac_row p 1 trivial_state 0 0 0) h).
Proof. intros p. apply C57_jacobian_refuted; unfold p; cbn [g_mx g_my g_L g_du]; (lia || lra). Qed.
Example C57_mass_of_the_trivial_state : let p := mkGs 3 4 1 1 (1 / 100) (9 / 100) (86 / 1000) in mass p trivial_state = 12 /\ supply p trivial_state = 0.
Proof. intros p. unfold mass, supply, grid_total, p, trivial_state. cbn [g_mx g_my g_a g_b rsum Nat.eqb]. split; lra. Qed.

Print Assumptions C56_operator.
Print Assumptions C56_operator_refuted.
Print Assumptions C56_step_is_backward_euler.
Print Assumptions C56_boundary_values.
Print Assumptions C56_step_contracts.
Print Assumptions C56_step_defined.
Print Assumptions C56_exact_solution.
Print Assumptions C56_cached_operator.
Print Assumptions C56_cached_operator_exact.
Print Assumptions C56_step_depends_on_history_refuted.
Print Assumptions C57_operator.
Print Assumptions C57_two_points_refuted.
Print Assumptions C57_schemes.
Print Assumptions C57_imex_defined.
Print Assumptions C57_imex_bounds.
Print Assumptions C57_mass_balance.
Print Assumptions C57_trivial_state.
Print Assumptions C57_initial_value.
Print Assumptions C57_default_initial_value_refuted.
Print Assumptions C57_jacobian.
Print Assumptions C57_jacobian_refuted.
