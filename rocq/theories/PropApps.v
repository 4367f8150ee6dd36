(** Properties of the example applications (exact real arithmetic): C31 Dahlquist, C32/C33 heat equation, C34 advection,
    C38 BDF formulas. The reference schemes are written out here independently of the model's matrices. *)
From Coq Require Import Reals Lra Lia List Arith ZArith Bool.
From Verif Require Import LinAlg Vectors Apps AppProofs.
Import ListNotations.
Local Open Scope R_scope.

(** ** C31: Dahlquist.step; [v] is the value after a step of size h from u for u' = lambda u *)
Definition one_step_scheme (m : dmethod) (lambda h u v : R) : Prop :=
  match m with
  | BE => v = u + h * (lambda * v)
  | FE => v = u + h * (lambda * u)
  | TR => v = u + h / 2 * (lambda * u + lambda * v)
  | MR => v = u + h * (lambda * ((u + v) / 2))
  end.
(** the denominator used by the method *)
Definition regular (m : dmethod) (z : R) : Prop :=
  match m with BE => 1 - z <> 0 | FE => True | TR | MR => 1 - z / 2 <> 0 end.

Theorem C31_dahlquist : forall m lambda u t_start t_stop v, m <> MR -> regular m ((t_stop - t_start) * lambda) ->
  one_step_scheme m lambda (t_stop - t_start) u v <-> v = dahlquist_step lambda m u t_start t_stop.
Proof.
  intros m lambda u a b v Hm Hr. unfold dahlquist_step. set (h := b - a) in *. set (z := h * lambda) in *.
  destruct m; cbn [one_step_scheme regular] in *; try congruence.
  - split; intros H.
    + replace u with (v * (1 - z)) by (unfold z; lra). field. exact Hr.
    + rewrite H. unfold z in *. field. exact Hr.
  - unfold z. split; intros ->; ring.
  - split; intros H.
    + assert (E : v * (1 - z / 2) = (1 + z / 2) * u) by (unfold z; lra).
      unfold Rdiv at 1. replace ((1 + z / 2) * / (1 - z / 2) * u) with ((1 + z / 2) * u * / (1 - z / 2)) by ring.
      rewrite <- E. field. lra.
    + rewrite H. unfold z in *. field. lra.
Qed.
Example C31_dahlquist_example :
  regular BE ((2 - 0) * -1) /\ dahlquist_step (-1) BE 3 0 2 = 1 /\ regular TR ((1 - 0) * -1) /\ dahlquist_step (-1) TR 3 0 1 = 1.
Proof. unfold dahlquist_step. cbn [regular]. repeat split; lra. Qed.

(** the implicit mid-point rule is only right for lambda = -1 (besides trivial steps and the zero state) *)
Theorem C31_midpoint_iff : forall lambda u t_start t_stop, regular MR ((t_stop - t_start) * lambda) ->
  one_step_scheme MR lambda (t_stop - t_start) u (dahlquist_step lambda MR u t_start t_stop)
  <-> lambda = -1 \/ t_stop = t_start \/ u = 0.
Proof.
  intros lambda u a b Hr. unfold dahlquist_step. set (h := b - a) in *. cbn [one_step_scheme regular] in *. set (z := h * lambda) in *.
  assert (E : u + h * (- 1 / (1 - z / 2) * u) - (u + h * (lambda * ((u + (u + h * (- 1 / (1 - z / 2) * u))) / 2))) = - (h * u * (lambda + 1))).
  { unfold z in *. field. lra. }
  split; intros H.
  - assert (F : h * u * (lambda + 1) = 0) by lra. apply Rmult_integral in F. destruct F as [F|F]; [|left; lra].
    apply Rmult_integral in F. destruct F as [F|F]; [right; left; unfold h in F; lra|right; right; exact F].
  - assert (F : h * u * (lambda + 1) = 0); [|lra].
    destruct H as [H|[H|H]]; [rewrite H|unfold h; rewrite H|rewrite H]; ring.
Qed.
Example C31_midpoint_example : regular MR ((1 - 0) * -1) /\ dahlquist_step (-1) MR 3 0 1 = 1.
Proof. unfold dahlquist_step. cbn [regular]. split; lra. Qed.
Theorem C31_midpoint_refuted : exists lambda u t_start t_stop, regular MR ((t_stop - t_start) * lambda) /\
  ~ one_step_scheme MR lambda (t_stop - t_start) u (dahlquist_step lambda MR u t_start t_stop).
Proof.
  exists (-2), 1, 0, 1. split; [cbn; lra|]. rewrite C31_midpoint_iff by (cbn; lra). lra.
Qed.

(** stability (C42): the two implicit methods never enlarge a decaying solution, forward Euler does so exactly for h lambda < -2 *)
Theorem C42_implicit_stable : forall m lambda u t_start t_stop, (m = BE \/ m = TR) -> lambda <= 0 -> t_start <= t_stop ->
  Rabs (dahlquist_step lambda m u t_start t_stop) <= Rabs u.
Proof.
  intros m lambda u a b Hm Hl Hab. assert (Hz : (b - a) * lambda <= 0) by nra. unfold dahlquist_step.
  set (z := (b - a) * lambda) in *. clearbody z.
  assert (K : forall q, -1 <= q <= 1 -> Rabs (q * u) <= Rabs u).
  { intros q Hq. rewrite Rabs_mult. rewrite <- (Rmult_1_l (Rabs u)) at 2. apply Rmult_le_compat_r; [apply Rabs_pos|]. apply Rabs_le. exact Hq. }
  destruct Hm as [-> | ->]; apply K.
  - split.
    + apply Rle_trans with 0; [lra|]. apply Rlt_le, Rdiv_lt_0_compat; lra.
    + apply Rmult_le_reg_r with (1 - z); [lra|]. unfold Rdiv. rewrite Rmult_assoc, Rinv_l by lra. lra.
  - split; apply Rmult_le_reg_r with (1 - z / 2); try lra; unfold Rdiv at 2; rewrite ?Rmult_assoc, ?Rinv_l by lra; try lra.
    unfold Rdiv. rewrite Rmult_assoc, Rinv_l by lra. lra.
Qed.
Theorem C42_forward_euler_iff : forall lambda u t_start t_stop, u <> 0 -> lambda <= 0 -> t_start <= t_stop ->
  (Rabs (dahlquist_step lambda FE u t_start t_stop) <= Rabs u <-> -2 <= (t_stop - t_start) * lambda).
Proof.
  intros lambda u a b Hu Hl Hab. assert (Hz : (b - a) * lambda <= 0) by nra. unfold dahlquist_step.
  set (z := (b - a) * lambda) in *. clearbody z. rewrite Rabs_mult. pose proof (Rabs_pos_lt u Hu). split; intros H0.
  - assert (Rabs (1 + z) <= 1) by nra. unfold Rabs in H1. destruct (Rcase_abs (1 + z)); lra.
  - assert (Rabs (1 + z) <= 1) by (apply Rabs_le; lra). nra.
Qed.
Example C42_example : Rabs (dahlquist_step (-3) FE 1 0 1) = 2 /\ Rabs (dahlquist_step (-3) BE 1 0 1) = 1 / 4.
Proof. unfold dahlquist_step. split; [rewrite Rabs_left|rewrite Rabs_right]; lra. Qed.

(** ** C32: Heat1D
    A state [v] holds the values at the nx-2 inner points; [on_grid v] is the grid function on all nx points, which is 0
    at the two boundary points. *)
Definition on_grid (v : list R) (k : nat) : R := match k with O => 0 | S i => at_ v i end.
Definition spacing (x_start x_end : R) (nx : nat) : R := (x_end - x_start) / INR (nx - 1).
(** minus the second central difference at inner point k *)
Definition second_difference (h : R) (g : nat -> R) (k : nat) : R := (2 * g k - g (k - 1)%nat - g (k + 1)%nat) / h ^ 2.

Lemma on_grid_nb v n i : length v = n -> (i < n)%nat ->
  nb n (at_ v) (Z.of_nat i - 1) = on_grid v i /\ nb n (at_ v) (Z.of_nat i + 1) = on_grid v (i + 2).
Proof.
  intros Hl Hi. unfold nb, on_grid. split.
  - destruct i; [reflexivity|]. replace (0 <=? Z.of_nat (S i) - 1)%Z with true by (symmetry; apply Z.leb_le; lia).
    replace (Z.of_nat (S i) - 1 <? Z.of_nat n)%Z with true by (symmetry; apply Z.ltb_lt; lia). cbn [andb]. f_equal. lia.
  - replace (i + 2)%nat with (S (i + 1)) by lia. replace (0 <=? Z.of_nat i + 1)%Z with true by (symmetry; apply Z.leb_le; lia). cbn [andb].
    destruct (Z.ltb_spec (Z.of_nat i + 1) (Z.of_nat n)); [f_equal; lia|]. symmetry. apply at_out. lia.
Qed.
(** the matrix exists and is the 3-point stencil with the boundary values eliminated *)
Theorem C32_heat1d_matrix : forall x_start x_end nx a, (4 <= nx)%nat ->
  exists L, heat_matrix a (heat_dx (heat_x x_start x_end nx)) (nx - 2) = Some L /\
  forall v i, length v = (nx - 2)%nat -> (i < nx - 2)%nat ->
    mv (nx - 2) L (at_ v) i = a * second_difference (spacing x_start x_end nx) (on_grid v) (i + 1).
Proof.
  intros xs xe nx a Hn. destruct (heat_matrix_some a (heat_dx (heat_x xs xe nx)) (nx - 2) ltac:(lia)) as [L E].
  exists L. split; [exact E|]. intros v i Hl Hi. rewrite (heat_matrix_row _ _ _ L _ i E Hi), heat_x_dx by auto.
  destruct (on_grid_nb v (nx - 2) i Hl Hi) as [-> ->]. unfold second_difference, spacing.
  replace (i + 1 - 1)%nat with i by lia. replace (i + 1 + 1)%nat with (i + 2)%nat by lia.
  replace (i + 1)%nat with (S i) by lia. cbn [on_grid]. unfold Rdiv. ring.
Qed.
(** on_grid really is 0 at both ends *)
Lemma on_grid_boundary v nx : (4 <= nx)%nat -> length v = (nx - 2)%nat -> on_grid v 0 = 0 /\ on_grid v (nx - 1) = 0.
Proof. intros H E. split; [reflexivity|]. destruct nx; [lia|]. replace (S nx - 1)%nat with (S (nx - 1)) by lia. cbn. apply at_out. lia. Qed.
Example C32_heat1d_example : exists L, heat_matrix 1 (heat_dx (heat_x 0 4 5)) 3 = Some L /\ mv 3 L (at_ [1; 2; 5]) 0 = 0 /\ mv 3 L (at_ [1; 2; 5]) 2 = 8.
Proof.
  destruct (C32_heat1d_matrix 0 4 5 1 ltac:(lia)) as [L [E H]]. exists L. split; [exact E|].
  change 3%nat with (5 - 2)%nat. rewrite !H by (cbn; lia). unfold second_difference, spacing. cbn. lra.
Qed.

(** one step: the returned vector is the one and only solution of the backward Euler equations *)
Definition backward_euler_1d (a h dt : R) (n : nat) (u b v : list R) : Prop :=
  length v = n /\ forall i, (i < n)%nat ->
    at_ v i + dt * (a * second_difference h (on_grid v) (i + 1)) = at_ u i + dt * at_ b i.
Lemma heat1d_setup xs xe nx a L : (4 <= nx)%nat -> heat_matrix a (heat_dx (heat_x xs xe nx)) (nx - 2) = Some L ->
  0 <= a -> xs <> xe -> lmatrix (nx - 2) L /\
  forall v i, length v = (nx - 2)%nat -> (i < nx - 2)%nat ->
    mv (nx - 2) L (at_ v) i = a * second_difference (spacing xs xe nx) (on_grid v) (i + 1).
Proof.
  intros Hn E Ha Hx. destruct (C32_heat1d_matrix xs xe nx a Hn) as [L' [E' H]]. rewrite E in E'. injection E' as <-.
  split; [|exact H]. apply (heat_lmatrix _ _ _ _ E Ha). rewrite heat_x_dx by auto. apply spacing_nonzero; auto. lia.
Qed.
Theorem C32_heat1d_step : forall x_start x_end nx a L rhs u t_start t_stop v, (4 <= nx)%nat -> 0 <= a -> x_start <> x_end ->
  t_start <= t_stop -> heat_matrix a (heat_dx (heat_x x_start x_end nx)) (nx - 2) = Some L ->
  (forall x t, length (rhs x t) = length x) -> length (a_vals u) = (nx - 2)%nat ->
  let x := heat_x x_start x_end nx in
  (backward_euler_1d a (spacing x_start x_end nx) (t_stop - t_start) (nx - 2) (a_vals u) (rhs x t_stop) v
   <-> heat1d_step (nx - 2) L x rhs u t_start t_stop = mkArr (nx - 2) v).
Proof.
  intros xs xe nx a L rhs u ta tb v Hn Ha Hx Ht E Hr Hu x. destruct (heat1d_setup xs xe nx a L Hn E Ha Hx) as [HL H].
  pose proof (zmatrix_injective _ _ _ (implicit_zmatrix (nx - 2) L (tb - ta) HL ltac:(lra))) as Inj.
  assert (Hb : length (rhs x tb) = (nx - 2)%nat) by (rewrite Hr; apply heat_x_length).
  unfold heat1d_step. cbv zeta. rewrite spsolve_length. unfold arr_set, arr_zeros. cbn [a_size].
  set (b := vplus (a_vals u) (vtimes (rhs x tb) (tb - ta))).
  assert (Eb : forall i, (i < nx - 2)%nat -> at_ b i = at_ (a_vals u) i + (tb - ta) * at_ (rhs x tb) i).
  { intros i Hi. unfold b. rewrite (at_vplus _ _ (nx - 2)) by (rewrite ?vtimes_length; auto). rewrite at_vtimes. ring. }
  split.
  - intros [Hl Hv]. f_equal. symmetry. apply spsolve_unique; auto. intros i Hi.
    rewrite mv_madd, mv_mscal, mv_mident, H, Eb by auto. specialize (Hv i Hi). lra.
  - intros F. injection F as F. assert (Hl : length v = (nx - 2)%nat) by (rewrite <- F; apply spsolve_length).
    split; [exact Hl|]. intros i Hi. pose proof (spsolve_ok (nx - 2) _ b Inj i Hi) as O. rewrite F, mv_madd, mv_mscal, mv_mident, H, Eb in O by auto. lra.
Qed.
(** discrete maximum principle: without sources a step stays between the bounds of the state (and the boundary value 0) *)
Theorem C32_heat1d_maximum : forall x_start x_end nx a L rhs u t_start t_stop m M, (4 <= nx)%nat -> 0 <= a -> x_start <> x_end ->
  t_start <= t_stop -> heat_matrix a (heat_dx (heat_x x_start x_end nx)) (nx - 2) = Some L ->
  length (a_vals u) = (nx - 2)%nat -> (forall x t, rhs x t = repeat 0 (length x)) ->
  m <= 0 <= M -> (forall i, (i < nx - 2)%nat -> m <= at_ (a_vals u) i <= M) ->
  forall i, (i < nx - 2)%nat -> m <= at_ (a_vals (heat1d_step (nx - 2) L (heat_x x_start x_end nx) rhs u t_start t_stop)) i <= M.
Proof.
  intros xs xe nx a L rhs u ta tb m M Hn Ha Hx Ht E Hu Hr HmM Hb i Hi. destruct (heat1d_setup xs xe nx a L Hn E Ha Hx) as [HL _].
  pose proof (implicit_zmatrix (nx - 2) L (tb - ta) HL ltac:(lra)) as Z. pose proof (zmatrix_injective _ _ _ Z) as Inj.
  unfold heat1d_step. cbv zeta. cbn [a_vals arr_set]. set (b := vplus _ _). set (A := madd _ _) in *.
  assert (Eb : forall k, (k < nx - 2)%nat -> at_ b k = at_ (a_vals u) k).
  { intros k Hk. unfold b. rewrite (at_vplus _ _ (nx - 2)) by (rewrite ?vtimes_length, ?Hr, ?repeat_length, ?heat_x_length; auto).
    rewrite at_vtimes, Hr, at_repeat0. lra. }
  split.
  - assert (- at_ (spsolve (nx - 2) A b) i <= - m); [|lra].
    apply (zmatrix_max (nx - 2) A 1 (fun k => - at_ (spsolve (nx - 2) A b) k) (- m) Z); auto; [lra|].
    intros k Hk. rewrite mv_opp, spsolve_ok, Eb by auto. specialize (Hb k Hk). lra.
  - apply (zmatrix_max (nx - 2) A 1 (at_ (spsolve (nx - 2) A b)) M Z); auto; [lra|].
    intros k Hk. rewrite spsolve_ok, Eb by auto. specialize (Hb k Hk). lra.
Qed.
(** a concrete step: n = 2 inner points, h = 1, a = 1, dt = 1, state (3, 0) is mapped to (9/8, 3/8) *)
Example C32_heat1d_step_example : exists L, heat_matrix 1 (heat_dx (heat_x 0 3 4)) 2 = Some L /\
  heat1d_step 2 L (heat_x 0 3 4) (fun x t => repeat 0 (length x)) (mkArr 2 [3; 0]) 0 1 = mkArr 2 [9 / 8; 3 / 8].
Proof.
  destruct (C32_heat1d_matrix 0 3 4 1 ltac:(lia)) as [L [E _]]. exists L. split; [exact E|].
  apply (C32_heat1d_step 0 3 4 1 L); auto; try lra; try lia.
  - intros. apply repeat_length.
  - split; [reflexivity|]. intros i Hi. unfold second_difference, spacing. destruct i as [|[|i]]; [| |lia]; cbn; lra.
Qed.

(** ** C32, C33: Heat2D
    A state [v] holds the values at all nx*ny points row by row. *)
Section Heat2DProperties.
  Variables (x_start x_end y_start y_end a : R) (nx ny : nat).
  Hypothesis Hnx : (2 <= nx)%nat.
  Hypothesis Hny : (2 <= ny)%nat.
  Local Notation n := (nx * ny)%nat.
  Local Notation dx := (heat_dx (linspace x_start x_end nx)).
  Local Notation dy := (heat_dx (linspace y_start y_end ny)).
  Definition grid2 (v : list R) (i j : nat) : R := at_ v (i * ny + j).
  Definition five_point (g : nat -> nat -> R) (i j : nat) : R :=
    a * (second_difference (spacing x_start x_end nx) (fun k => g k j) i + second_difference (spacing y_start y_end ny) (g i) j).
  Definition inner (i j : nat) : Prop := (0 < i /\ i + 1 < nx /\ 0 < j /\ j + 1 < ny)%nat.

  Lemma inner_interior i j : inner i j <-> interior nx ny i j = true.
  Proof. unfold inner. rewrite interior_iff. lia. Qed.
  Lemma linspace_dx (s e : R) m : (2 <= m)%nat -> heat_dx (linspace s e m) = spacing s e m.
  Proof. intros H. unfold heat_dx, spacing. rewrite !at_linspace by lia. cbn [INR]. lra. Qed.

  Theorem C32_heat2d_matrix : exists L, heat2d_matrix a dx dy nx ny = Some L /\
    forall v i j, (i < nx)%nat -> (j < ny)%nat ->
      (inner i j -> mv n L (at_ v) (i * ny + j) = five_point (grid2 v) i j) /\
      (~ inner i j -> mv n L (at_ v) (i * ny + j) = 0).
  Proof.
    destruct (heat2d_matrix_some nx ny Hnx Hny a dx dy) as [L E]. exists L. split; [exact E|]. intros v i j Hi Hj.
    rewrite (heat2d_matrix_row nx ny Hnx Hny a dx dy L _ i j E Hi Hj), inner_interior. destruct (interior nx ny i j) eqn:I.
    - split; [|congruence]. intros _. unfold five_point, second_difference, grid2. rewrite !linspace_dx by auto. unfold Rdiv. ring.
    - split; [congruence|reflexivity].
  Qed.

  Variable L : matrix.
  Hypothesis EL : heat2d_matrix a dx dy nx ny = Some L.
  Hypothesis Ha : 0 <= a.
  Hypothesis Hx : x_start <> x_end.
  Hypothesis Hy : y_start <> y_end.
  Variables bcl bcr bcb bct : nat -> R.
  Variable f : nat -> nat -> R -> R.
  (** prescribed value at a boundary point; in the corners the rows i = 0 and i = nx-1 win *)
  Definition boundary_value (i j : nat) : R :=
    if (i =? 0)%nat then bct j else if (i =? nx - 1)%nat then bcb j else if (j =? ny - 1)%nat then bcr i else bcl i.
  (** theta = 1 is BE, theta = 1/2 is CN *)
  Definition theta_scheme (theta ta tb : R) (u v : list R) : Prop :=
    length v = n /\ forall i j, (i < nx)%nat -> (j < ny)%nat ->
      (~ inner i j -> grid2 v i j = boundary_value i j) /\
      (inner i j -> grid2 v i j + theta * (tb - ta) * five_point (grid2 v) i j =
                    grid2 u i j - (1 - theta) * (tb - ta) * five_point (grid2 u) i j
                    + theta * (tb - ta) * f i j tb + (1 - theta) * (tb - ta) * f i j ta).

  Lemma L_row v i j : (i < nx)%nat -> (j < ny)%nat -> (inner i j -> mv n L (at_ v) (i * ny + j) = five_point (grid2 v) i j) /\
    (~ inner i j -> mv n L (at_ v) (i * ny + j) = 0).
  Proof. destruct C32_heat2d_matrix as [L' [E H]]. rewrite EL in E. injection E as <-. apply H. Qed.
  Lemma L_lmatrix : lmatrix n L.
  Proof. apply (heat2d_lmatrix a dx dy nx ny L); auto; rewrite linspace_dx by auto; apply spacing_nonzero; auto. Qed.
  Lemma implicit_z theta ta tb : 0 <= theta -> ta <= tb -> zmatrix n (madd (mscal ((tb - ta) * theta) L) mident) 1.
  Proof. intros. apply implicit_zmatrix; [exact L_lmatrix|nra]. Qed.
  Lemma bcs_at l i j : (i < nx)%nat -> (j < ny)%nat ->
    grid2 (set_bcs nx ny bcl bcr bcb bct l) i j = if interior nx ny i j then grid2 l i j else boundary_value i j.
  Proof.
    intros Hi Hj. unfold grid2. rewrite at_set_bcs by auto. unfold boundary_value. destruct (interior nx ny i j) eqn:I.
    - apply interior_iff in I. repeat match goal with |- context[(?p =? ?q)%nat] => destruct (Nat.eqb_spec p q); [lia|] end. reflexivity.
    - apply interior_false in I. repeat match goal with |- context[(?p =? ?q)%nat] => destruct (Nat.eqb_spec p q); [try reflexivity; lia|] end. lia.
  Qed.
  Lemma rhs_at theta ta tb u i j : (theta = 1 \/ theta = 1 / 2) -> length u = n -> (i < nx)%nat -> (j < ny)%nat ->
    grid2 (heat2d_rhs nx ny L bcl bcr bcb bct f theta u ta tb) i j =
    if interior nx ny i j then grid2 u i j - (1 - theta) * (tb - ta) * five_point (grid2 u) i j
                    + theta * (tb - ta) * f i j tb + (1 - theta) * (tb - ta) * f i j ta else boundary_value i j.
  Proof.
    intros Ht Hu Hi Hj. unfold heat2d_rhs. cbv zeta. rewrite bcs_at by auto. destruct (interior nx ny i j) eqn:I; [|reflexivity].
    unfold grid2. destruct (Req_EM_T theta 1) as [->|N].
    - rewrite at_set_where, I by auto. lra.
    - destruct Ht as [|Ht]; [congruence|]. rewrite at_add_interior, I by auto.
      rewrite (at_vplus _ _ n) by (rewrite ?repeat_length, ?mulmv_length; auto using idx_bound).
      rewrite at_repeat0, at_mulmv, mv_madd, mv_mscal, mv_mident by (apply idx_bound; auto).
      rewrite (proj1 (L_row u i j Hi Hj)) by (apply inner_interior; exact I). unfold grid2. rewrite Ht. lra.
  Qed.
  Lemma step_vals theta ta tb u : theta <> 0 ->
    b_vals (heat2d_step nx ny L bcl bcr bcb bct f theta u ta tb) =
    spsolve n (madd (mscal ((tb - ta) * theta) L) mident) (heat2d_rhs nx ny L bcl bcr bcb bct f theta (b_vals u) ta tb).
  Proof. intros H. unfold heat2d_step. cbv zeta. destruct (Req_EM_T theta 0); [congruence|reflexivity]. Qed.

  (** a BE or CN step returns the one and only solution of the scheme *)
  Theorem C32_heat2d_step : forall theta u t_start t_stop v, (theta = 1 \/ theta = 1 / 2) -> t_start <= t_stop -> length (b_vals u) = n ->
    (theta_scheme theta t_start t_stop (b_vals u) v <->
     heat2d_step nx ny L bcl bcr bcb bct f theta u t_start t_stop = mkArr2 nx ny v).
  Proof.
    intros theta u ta tb v Ht Hab Hu. pose proof (zmatrix_injective _ _ _ (implicit_z theta ta tb ltac:(lra) Hab)) as Inj.
    assert (E0 : heat2d_step nx ny L bcl bcr bcb bct f theta u ta tb = mkArr2 nx ny (b_vals (heat2d_step nx ny L bcl bcr bcb bct f theta u ta tb))) by reflexivity.
    rewrite E0, step_vals by lra. clear E0.
    set (b := heat2d_rhs _ _ _ _ _ _ _ _ _ _ _ _).
    assert (Eb : forall i j, (i < nx)%nat -> (j < ny)%nat -> at_ b (i * ny + j) =
      if interior nx ny i j then grid2 (b_vals u) i j - (1 - theta) * (tb - ta) * five_point (grid2 (b_vals u)) i j
        + theta * (tb - ta) * f i j tb + (1 - theta) * (tb - ta) * f i j ta else boundary_value i j).
    { intros i j Hi Hj. apply rhs_at; auto. }
    split.
    - intros [Hl Hv]. f_equal. symmetry. apply spsolve_unique; auto. intros k Hk.
      destruct (idx_split nx ny k Hk) as (i & j & Hi & Hj & ->). rewrite mv_madd, mv_mscal, mv_mident, Eb by auto.
      destruct (L_row v i j Hi Hj) as [R1 R2]. destruct (Hv i j Hi Hj) as [V1 V2]. rewrite inner_interior in *.
      destruct (interior nx ny i j); [rewrite R1 by auto|rewrite R2, <- V1 by congruence].
      + specialize (V2 eq_refl). unfold grid2 at 1 in V2. lra.
      + unfold grid2. lra.
    - intros F. injection F as F. assert (Hl : length v = n) by (rewrite <- F; apply spsolve_length). split; [exact Hl|].
      intros i j Hi Hj. pose proof (spsolve_ok n _ b Inj (i * ny + j)%nat (idx_bound nx ny i j Hi Hj)) as O.
      rewrite F, mv_madd, mv_mscal, mv_mident, Eb in O by (auto using idx_bound). destruct (L_row v i j Hi Hj) as [R1 R2]. rewrite inner_interior in *.
      destruct (interior nx ny i j).
      + split; [congruence|]. intros _. rewrite R1 in O by auto. unfold grid2 at 1. lra.
      + split; [|congruence]. intros _. rewrite R2 in O by congruence. unfold grid2. lra.
  Qed.
  (** C33 for BE and CN *)
  Theorem C33_boundary_values : forall theta u t_start t_stop i j, (theta = 1 \/ theta = 1 / 2) -> t_start <= t_stop -> length (b_vals u) = n ->
    (i < nx)%nat -> (j < ny)%nat -> ~ inner i j ->
    grid2 (b_vals (heat2d_step nx ny L bcl bcr bcb bct f theta u t_start t_stop)) i j = boundary_value i j.
  Proof.
    intros theta u ta tb i j Ht Hab Hu Hi Hj Hb.
    destruct (proj2 (C32_heat2d_step theta u ta tb (b_vals (heat2d_step nx ny L bcl bcr bcb bct f theta u ta tb)) Ht Hab Hu) eq_refl) as [_ H].
    apply (H i j Hi Hj). exact Hb.
  Qed.
  (** the initial state has the prescribed boundary values *)
  Theorem C33_start_values : forall init i j, (i < nx)%nat -> (j < ny)%nat ->
    grid2 (b_vals (heat2d_start nx ny bcl bcr bcb bct init)) i j = if interior nx ny i j then init i j else boundary_value i j.
  Proof.
    intros init i j Hi Hj. unfold heat2d_start. cbn [b_vals arr2_set]. rewrite bcs_at by auto. unfold grid2.
    rewrite at_tab by (apply idx_bound; auto). destruct (divmod_idx ny i j Hj) as [-> ->]. reflexivity.
  Qed.
  (** forward Euler adds the prescribed boundary values to the old ones *)
  Theorem C33_forward_euler : forall u t_start t_stop i j, length (b_vals u) = n -> (i < nx)%nat -> (j < ny)%nat ->
    let v := heat2d_step nx ny L bcl bcr bcb bct f 0 u t_start t_stop in
    (~ inner i j -> grid2 (b_vals v) i j = grid2 (b_vals u) i j + boundary_value i j) /\
    (inner i j -> grid2 (b_vals v) i j = grid2 (b_vals u) i j + (t_stop - t_start) * (f i j t_start - five_point (grid2 (b_vals u)) i j)).
  Proof.
    intros u ta tb i j Hu Hi Hj v. unfold v, heat2d_step. cbv zeta. destruct (Req_EM_T 0 0) as [_|]; [|congruence].
    cbn [b_vals arr2_set]. unfold grid2 at 1 3. rewrite at_add_interior by auto.
    rewrite (at_vplus _ _ n) by (rewrite ?set_bcs_length, ?mulmv_length; auto using idx_bound).
    fold (grid2 (set_bcs nx ny bcl bcr bcb bct (repeat 0 n)) i j). rewrite bcs_at by auto.
    rewrite at_mulmv, mv_madd, mv_mscal, mv_mident by (apply idx_bound; auto).
    destruct (L_row (b_vals u) i j Hi Hj) as [R1 R2]. rewrite inner_interior in *.
    assert (Z0 : grid2 (repeat 0 n) i j = 0) by apply at_repeat0.
    change (at_ (b_vals u) (i * ny + j)) with (grid2 (b_vals u) i j).
    destruct (interior nx ny i j).
    - split; [congruence|]. intros _. rewrite R1 by auto. lra.
    - split; [|congruence]. intros _. rewrite R2 by congruence. lra.
  Qed.
  (** k forward Euler steps from the initial state multiply the boundary values by k+1 *)
  Fixpoint fe_run (init : nat -> nat -> R) (t : nat -> R) (k : nat) : Arr2 :=
    match k with
    | O => heat2d_start nx ny bcl bcr bcb bct init
    | S k' => heat2d_step nx ny L bcl bcr bcb bct f 0 (fe_run init t k') (t k') (t k)
    end.
  Theorem C33_forward_euler_accumulates : forall init t k i j, (i < nx)%nat -> (j < ny)%nat -> ~ inner i j ->
    grid2 (b_vals (fe_run init t k)) i j = INR (k + 1) * boundary_value i j.
  Proof.
    intros init t k i j Hi Hj Hb.
    assert (Hlen : forall k, length (b_vals (fe_run init t k)) = n).
    { intros [|q]; cbn [fe_run]; [unfold heat2d_start; cbn [b_vals arr2_set]; apply set_bcs_length|].
      unfold heat2d_step. cbv zeta. destruct (Req_EM_T 0 0); [|congruence]. cbn [b_vals arr2_set]. apply tab_length. }
    induction k.
    - cbn [fe_run]. rewrite C33_start_values by auto. rewrite inner_interior in Hb. destruct (interior nx ny i j); [congruence|]. cbn. lra.
    - cbn [fe_run]. destruct (C33_forward_euler (fe_run init t k) (t k) (t (S k)) i j (Hlen k) Hi Hj) as [H _]. rewrite H, IHk by auto.
      replace (S k + 1)%nat with (S (k + 1)) by lia. rewrite (S_INR (k + 1)). ring.
  Qed.
  (** maximum principle for backward Euler *)
  Theorem C32_heat2d_maximum : forall u t_start t_stop m M, t_start <= t_stop -> length (b_vals u) = n ->
    (forall i j t, f i j t = 0) ->
    (forall i j, (i < nx)%nat -> (j < ny)%nat -> inner i j -> m <= grid2 (b_vals u) i j <= M) ->
    (forall i j, (i < nx)%nat -> (j < ny)%nat -> ~ inner i j -> m <= boundary_value i j <= M) ->
    forall i j, (i < nx)%nat -> (j < ny)%nat -> m <= grid2 (b_vals (heat2d_step nx ny L bcl bcr bcb bct f 1 u t_start t_stop)) i j <= M.
  Proof.
    intros u ta tb m M Hab Hu Hf Hin Hbd i j Hi Hj. pose proof (implicit_z 1 ta tb ltac:(lra) Hab) as Z.
    pose proof (zmatrix_injective _ _ _ Z) as Inj. rewrite step_vals by lra.
    set (b := heat2d_rhs _ _ _ _ _ _ _ _ _ _ _ _). set (A := madd _ _) in *.
    assert (Eb : forall k, (k < n)%nat -> m <= at_ b k <= M).
    { intros k Hk. destruct (idx_split nx ny k Hk) as (p & q & Hp & Hq & ->).
      fold (grid2 b p q). unfold b. rewrite rhs_at by auto. specialize (Hin p q Hp Hq). specialize (Hbd p q Hp Hq). rewrite inner_interior in *.
      destruct (interior nx ny p q); [specialize (Hin eq_refl); rewrite !Hf; lra|apply Hbd; congruence]. }
    assert (Hr : forall k, (k < n)%nat -> rsum n (A k) = 1).
    { intros k Hk. rewrite <- mv_one. unfold A. rewrite mv_madd, mv_mscal, mv_mident, mv_one by auto.
      rewrite (heat2d_row_sum a dx dy nx ny L) by auto. lra. }
    pose proof (idx_bound nx ny i j Hi Hj) as Hk. unfold grid2. split.
    - assert (- at_ (spsolve n A b) (i * ny + j) <= - m); [|lra].
      apply (zmatrix_max_exact n A 1 (fun k => - at_ (spsolve n A b) k) (- m) Z Hr); auto.
      intros k Hk'. rewrite mv_opp, spsolve_ok by auto. specialize (Eb k Hk'). lra.
    - apply (zmatrix_max_exact n A 1 (at_ (spsolve n A b)) M Z Hr); auto.
      intros k Hk'. rewrite spsolve_ok by auto. specialize (Eb k Hk'). lra.
  Qed.
End Heat2DProperties.

(** 4 x 3 grid, h = 1: a CN step *)
Example C32_heat2d_example : exists L, heat2d_matrix 1 (heat_dx (linspace 0 3 4)) (heat_dx (linspace 0 2 3)) 4 3 = Some L /\
  inner 4 3 1 1 /\ mv 12 L (at_ [0; 1; 2;  3; 4; 5;  6; 7; 8;  9; 10; 12]) 7 = 0 /\
  mv 12 L (at_ [0; 1; 2;  3; 4; 5;  6; 7; 9;  9; 10; 11]) 7 = -1.
Proof.
  destruct (C32_heat2d_matrix 0 3 0 2 1 4 3 ltac:(lia) ltac:(lia)) as [L [E H]]. exists L. split; [exact E|].
  assert (I : inner 4 3 2 1) by (unfold inner; lia). split; [unfold inner; lia|].
  change 12%nat with (4 * 3)%nat. change 7%nat with (2 * 3 + 1)%nat.
  rewrite !(proj1 (H _ 2%nat 1%nat ltac:(lia) ltac:(lia)) I). unfold five_point, second_difference, spacing, grid2. cbn. lra.
Qed.
Example C33_example : exists L, heat2d_matrix 1 (heat_dx (linspace 0 2 3)) (heat_dx (linspace 0 2 3)) 3 3 = Some L /\
  heat2d_step 3 3 L (fun _ => 1) (fun _ => 2) (fun _ => 3) (fun _ => 4) (fun _ _ _ => 0) 1 (mkArr2 3 3 [4; 4; 4; 1; 5; 2; 3; 3; 3]) 0 1
  = mkArr2 3 3 [4; 4; 4; 1; 3; 2; 3; 3; 3].
Proof.
  destruct (C32_heat2d_matrix 0 2 0 2 1 3 3 ltac:(lia) ltac:(lia)) as [L [E _]]. exists L. split; [exact E|].
  apply (C32_heat2d_step 0 2 0 2 1 3 3); auto; try lra; try lia. split; [reflexivity|]. intros i j Hi Hj. unfold inner, five_point, second_difference, spacing, grid2.
  destruct i as [|[|[|i]]]; [| | |lia]; (destruct j as [|[|[|j]]]; [| | |lia]); (split; intros; try lia; cbn; lra).
Qed.
Theorem C33_forward_euler_refuted : exists L u, heat2d_matrix 1 (heat_dx (linspace 0 2 3)) (heat_dx (linspace 0 2 3)) 3 3 = Some L /\
  u = heat2d_start 3 3 (fun _ => 1) (fun _ => 1) (fun _ => 1) (fun _ => 1) (fun _ _ => 0) /\
  grid2 3 (b_vals u) 0 0 = 1 /\
  grid2 3 (b_vals (heat2d_step 3 3 L (fun _ => 1) (fun _ => 1) (fun _ => 1) (fun _ => 1) (fun _ _ _ => 0) 0 u 0 (1 / 10))) 0 0 = 2.
Proof.
  destruct (C32_heat2d_matrix 0 2 0 2 1 3 3 ltac:(lia) ltac:(lia)) as [L [E _]]. exists L. eexists. split; [exact E|]. split; [reflexivity|].
  pose proof (C33_start_values 3 3 ltac:(lia) ltac:(lia) (fun _ => 1) (fun _ => 1) (fun _ => 1) (fun _ => 1) (fun _ _ => 0) 0 0 ltac:(lia) ltac:(lia)) as S0.
  split; [rewrite S0; reflexivity|].
  destruct (C33_forward_euler 0 2 0 2 1 3 3 ltac:(lia) ltac:(lia) L E (fun _ => 1) (fun _ => 1) (fun _ => 1) (fun _ => 1) (fun _ _ _ => 0)
    (heat2d_start 3 3 (fun _ => 1) (fun _ => 1) (fun _ => 1) (fun _ => 1) (fun _ _ => 0)) 0 (1 / 10) 0 0) as [H _]; try lia.
  - unfold heat2d_start. cbn [b_vals arr2_set]. apply set_bcs_length.
  - rewrite H, S0 by (unfold inner; lia). cbn. lra.
Qed.

(** ** C34: Advection1D *)
(** value at the left neighbour on the periodic grid of n points *)
Definition left_value (n : nat) (v : list R) (i : nat) : R := if (i =? 0)%nat then at_ v (n - 1) else at_ v (i - 1).
Definition upwind_euler (c h dt : R) (n : nat) (u v : list R) : Prop :=
  length v = n /\ forall i, (i < n)%nat -> at_ v i + dt * (c * ((at_ v i - left_value n v i) / h)) = at_ u i.
Section AdvectionProperties.
  Variables (c x_start x_end : R) (nx : nat).
  Hypothesis Hnx : (3 <= nx)%nat.
  Hypothesis Hc : 0 <= c.
  Hypothesis Hx : x_start < x_end.
  Local Notation n := (nx - 1)%nat.
  Variable L : matrix.
  Hypothesis EL : advection_matrix c (heat_dx (advection_x x_start x_end nx)) (nx - 1) = Some L.
  Lemma two : (2 <= n)%nat.
  Proof. lia. Qed.
  Lemma adv_row v i : (i < n)%nat -> mv n L (at_ v) i = c * ((at_ v i - left_value n v i) / spacing x_start x_end nx).
  Proof.
    intros Hi. rewrite (advection_matrix_row _ _ _ _ _ _ two EL Hi), advection_dx by auto. unfold spacing, Rdiv, left_value.
    destruct i; cbn [pred_mod Nat.eqb]; [ring|]. replace (S i - 1)%nat with i by lia. ring.
  Qed.
  Lemma adv_fac : 0 <= c / heat_dx (advection_x x_start x_end nx).
  Proof.
    rewrite advection_dx by auto. assert (0 < INR (nx - 1)) by (apply lt_0_INR; lia).
    apply Rmult_le_pos; auto. apply Rlt_le, Rinv_0_lt_compat. apply Rdiv_lt_0_compat; lra.
  Qed.
  Lemma adv_z dt : 0 <= dt -> zmatrix n (madd (mscal dt L) mident) 1.
  Proof. intros H. apply implicit_zmatrix; auto. apply (advection_lmatrix _ _ _ _ two EL adv_fac). Qed.
  Lemma adv_vals u ta tb : a_vals (advection_step n L u ta tb) = spsolve n (madd (mscal (tb - ta) L) mident) (a_vals u).
  Proof. reflexivity. Qed.
  (** the step returns the one and only solution of the implicit upwind scheme *)
  Theorem C34_step : forall u t_start t_stop v, t_start <= t_stop -> length (a_vals u) = n ->
    (upwind_euler c (spacing x_start x_end nx) (t_stop - t_start) n (a_vals u) v <-> advection_step n L u t_start t_stop = mkArr n v).
  Proof.
    intros u ta tb v Ht Hu. pose proof (zmatrix_injective _ _ _ (adv_z (tb - ta) ltac:(lra))) as Inj.
    unfold advection_step. cbv zeta. rewrite spsolve_length. unfold arr_set, arr_zeros. cbn [a_size]. split.
    - intros [Hl Hv]. f_equal. symmetry. apply spsolve_unique; auto. intros i Hi. rewrite mv_madd, mv_mscal, mv_mident, adv_row by auto.
      specialize (Hv i Hi). lra.
    - intros F. injection F as F. split; [rewrite <- F; apply spsolve_length|]. intros i Hi.
      pose proof (spsolve_ok n _ (a_vals u) Inj i Hi) as O. rewrite F, mv_madd, mv_mscal, mv_mident, adv_row in O by auto. lra.
  Qed.
  Theorem C34_mass : forall u t_start t_stop, t_start <= t_stop -> length (a_vals u) = n ->
    rsum n (at_ (a_vals (advection_step n L u t_start t_stop))) = rsum n (at_ (a_vals u)).
  Proof.
    intros u ta tb Ht Hu. pose proof (zmatrix_injective _ _ _ (adv_z (tb - ta) ltac:(lra))) as Inj. rewrite adv_vals. set (v := spsolve _ _ _).
    transitivity (rsum n (fun i => at_ v i + (tb - ta) * (c / heat_dx (advection_x x_start x_end nx) * (at_ v i - at_ v (pred_mod n i))))).
    - rewrite rsum_plus, !rsum_scal, rsum_minus, (rsum_pred_mod n (at_ v)) by lia.
      change (rsum n (fun k => at_ v k)) with (rsum n (at_ v)). lra.
    - apply rsum_ext. intros i Hi. rewrite <- (spsolve_ok n _ (a_vals u) Inj i Hi). fold v.
      rewrite mv_madd, mv_mscal, mv_mident, (advection_matrix_row _ _ _ _ _ _ two EL) by auto. lra.
  Qed.
  (** no new extrema *)
  Theorem C34_bounds : forall u t_start t_stop m M, t_start <= t_stop -> length (a_vals u) = n ->
    (forall i, (i < n)%nat -> m <= at_ (a_vals u) i <= M) ->
    forall i, (i < n)%nat -> m <= at_ (a_vals (advection_step n L u t_start t_stop)) i <= M.
  Proof.
    intros u ta tb m M Ht Hu Hb i Hi. pose proof (adv_z (tb - ta) ltac:(lra)) as Z. pose proof (zmatrix_injective _ _ _ Z) as Inj.
    rewrite adv_vals. set (A := madd _ _) in *.
    assert (Hr : forall k, (k < n)%nat -> rsum n (A k) = 1).
    { intros k Hk. rewrite <- mv_one. unfold A. rewrite mv_madd, mv_mscal, mv_mident, (advection_matrix_row _ _ _ _ _ _ two EL) by auto. lra. }
    split.
    - assert (- at_ (spsolve n A (a_vals u)) i <= - m); [|lra].
      apply (zmatrix_max_exact n A 1 (fun k => - at_ (spsolve n A (a_vals u)) k) (- m) Z Hr); auto.
      intros k Hk. rewrite mv_opp, spsolve_ok by auto. specialize (Hb k Hk). lra.
    - apply (zmatrix_max_exact n A 1 (at_ (spsolve n A (a_vals u))) M Z Hr); auto.
      intros k Hk. rewrite spsolve_ok by auto. specialize (Hb k Hk). lra.
  Qed.
End AdvectionProperties.
Theorem C34_matrix_exists : forall c x_start x_end nx, (3 <= nx)%nat ->
  exists L, advection_matrix c (heat_dx (advection_x x_start x_end nx)) (nx - 1) = Some L.
Proof. intros. apply advection_matrix_some. lia. Qed.
(** two points, h = 1, c = 1, dt = 1: (3, 0) is mapped to (2, 1) *)
Example C34_example : exists L, advection_matrix 1 (heat_dx (advection_x 0 2 3)) 2 = Some L /\ advection_step 2 L (mkArr 2 [3; 0]) 0 1 = mkArr 2 [2; 1].
Proof.
  destruct (C34_matrix_exists 1 0 2 3 ltac:(lia)) as [L E]. exists L. split; [exact E|].
  apply (C34_step 1 0 2 3); auto; try lra; try lia. split; [reflexivity|]. intros [|[|i]] Hi; [| |lia]; unfold left_value, spacing; cbn; lra.
Qed.
(** the restriction to c >= 0 is needed: with c = -1, h = 1, dt = 1/2 and an even number of points the matrix is singular *)
Theorem C34_negative_velocity_refuted : exists L, advection_matrix (-1) (heat_dx (advection_x 0 2 3)) 2 = Some L /\
  ~ injective 2 (madd (mscal (1 / 2) L) mident).
Proof.
  destruct (C34_matrix_exists (-1) 0 2 3 ltac:(lia)) as [L E]. exists L. split; [exact E|]. intros H.
  assert (F : (fun k : nat => if (k =? 0)%nat then 1 else -1) 0%nat = 0).
  { apply (H (fun k => if (k =? 0)%nat then 1 else -1)); [|lia]. intros i Hi.
    rewrite mv_madd, mv_mscal, mv_mident, (advection_matrix_row _ _ 2 _ _ _ (le_n 2) E), advection_dx by auto. cbn [INR Nat.sub].
    destruct i as [|[|i]]; [| |lia]; cbn [pred_mod Nat.eqb Nat.sub]; lra. }
  cbn in F. lra.
Qed.

Print Assumptions C31_dahlquist.
Print Assumptions C42_implicit_stable.
Print Assumptions C32_heat1d_step.
Print Assumptions C32_heat1d_maximum.
Print Assumptions C32_heat2d_step.
Print Assumptions C33_boundary_values.
Print Assumptions C33_forward_euler_accumulates.
Print Assumptions C34_mass.
