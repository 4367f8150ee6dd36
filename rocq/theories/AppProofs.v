(** Proofs about the example applications (Apps.v): entries and row sums of the matrices built with diags, solvability. *)
From Coq Require Import Reals Lra Lia List Arith ZArith Bool.
From Verif Require Import LinAlg Vectors Apps.
Import ListNotations.
Local Open Scope R_scope.

(** ** products with a diagonal *)
Lemma rsum_one n i f : (i < n)%nat -> (forall k, (k < n)%nat -> k <> i -> f k = 0) -> rsum n f = f i.
Proof.
  intros Hi H. rewrite (rsum_ext n f (fun k => if (k =? i)%nat then f k else 0)).
  - rewrite rsum_delta. apply Nat.ltb_lt in Hi. rewrite Hi. reflexivity.
  - intros k Hk. destruct (Nat.eqb_spec k i); auto.
Qed.
Lemma mv_diag n k d x i :
  mv n (diag_entry k d) x i =
  if ((0 <=? Z.of_nat i + k) && (Z.of_nat i + k <? Z.of_nat n))%Z
  then at_ d (if (0 <=? k)%Z then i else Z.to_nat (Z.of_nat i + k)) * x (Z.to_nat (Z.of_nat i + k)) else 0.
Proof.
  unfold mv, diag_entry. destruct (0 <=? Z.of_nat i + k)%Z eqn:E1; cbn [andb].
  - destruct (Z.of_nat i + k <? Z.of_nat n)%Z eqn:E2.
    + rewrite (rsum_one n (Z.to_nat (Z.of_nat i + k))); [|lia|].
      * rewrite (proj2 (Z.eqb_eq _ _)) by lia. reflexivity.
      * intros j _ Hj. destruct (Z.eqb_spec (Z.of_nat j - Z.of_nat i) k); [lia|lra].
    + apply rsum_zero. intros j Hj. destruct (Z.eqb_spec (Z.of_nat j - Z.of_nat i) k); [lia|lra].
  - apply rsum_zero. intros j Hj. destruct (Z.eqb_spec (Z.of_nat j - Z.of_nat i) k); [lia|lra].
Qed.
Lemma mv_addfun n A B x i : mv n (fun i j => A i j + B i j) x i = mv n A x i + mv n B x i.
Proof. exact (mv_madd n A B x i). Qed.
Lemma mv_zero n x i : mv n (fun _ _ => 0) x i = 0.
Proof. unfold mv. apply rsum_zero. intros. lra. Qed.

Lemma ones_length n : length (ones n) = n.
Proof. apply repeat_length. Qed.
Lemma at_ones n k : (k < n)%nat -> at_ (ones n) k = 1.
Proof. intros H. unfold at_, ones. apply (repeat_spec n 1). apply nth_In. rewrite repeat_length. exact H. Qed.
Lemma diag_vals_long n k d : (Z.abs k <= Z.of_nat n)%Z -> (diag_len n k <= length d)%nat -> diag_vals n k d = Some d.
Proof.
  intros H1 H2. unfold diag_vals. replace (Z.of_nat n <? Z.abs k)%Z with false by lia.
  apply Nat.leb_le in H2. rewrite H2. reflexivity.
Qed.

(** ** rows of I + c L for a matrix with row sums >= 0 and off-diagonal entries <= 0 *)
Lemma rsum_mident n i : (i < n)%nat -> rsum n (mident i) = 1.
Proof.
  intros H. rewrite (rsum_one n i); [|exact H|].
  - unfold mident. rewrite Nat.eqb_refl. reflexivity.
  - intros k _ Hk. unfold mident. destruct (Nat.eqb_spec k i); congruence.
Qed.
Lemma mv_one n A i : mv n A (fun _ => 1) i = rsum n (A i).
Proof. unfold mv. apply rsum_ext. intros. lra. Qed.
Record lmatrix (n : nat) (L : matrix) : Prop := {
  lm_off : forall i k, (i < n)%nat -> (k < n)%nat -> i <> k -> L i k <= 0;
  lm_row : forall i, (i < n)%nat -> 0 <= rsum n (L i)
}.
Lemma shifted_zmatrix n L c d : lmatrix n L -> 0 <= c -> 0 < d -> zmatrix n (madd (mscal c L) (mscal d mident)) d.
Proof.
  intros HL Hc Hd. constructor; auto.
  - intros i k Hi Hk E. unfold madd, mscal, mident. destruct (Nat.eqb_spec k i); [congruence|].
    pose proof (lm_off _ _ HL i k Hi Hk E). nra.
  - intros i Hi. rewrite <- mv_one, mv_madd, !mv_mscal, !mv_one, rsum_mident by auto. pose proof (lm_row _ _ HL i Hi). nra.
Qed.
Lemma zmatrix_ext n A B c : (forall i k, (i < n)%nat -> (k < n)%nat -> A i k = B i k) -> zmatrix n A c -> zmatrix n B c.
Proof.
  intros E [H1 H2 H3]. constructor; auto.
  - intros i k Hi Hk Hne. rewrite <- E by auto. auto.
  - intros i Hi. rewrite <- (rsum_ext n (A i) (B i)) by (intros; apply E; auto). auto.
Qed.
Lemma implicit_zmatrix n L c : lmatrix n L -> 0 <= c -> zmatrix n (madd (mscal c L) mident) 1.
Proof.
  intros HL Hc. apply (zmatrix_ext n (madd (mscal c L) (mscal 1 mident))).
  - intros. unfold madd, mscal. lra.
  - apply shifted_zmatrix; auto; lra.
Qed.
Lemma bdf_zmatrix n L d : lmatrix n L -> 0 < d -> zmatrix n (madd L (mscal d mident)) d.
Proof.
  intros HL Hc. apply (zmatrix_ext n (madd (mscal 1 L) (mscal d mident))).
  - intros. unfold madd, mscal. lra.
  - apply shifted_zmatrix; auto; lra.
Qed.

(** ** Heat1D *)
Definition nb (n : nat) (x : nat -> R) (i : Z) : R := if ((0 <=? i) && (i <? Z.of_nat n))%Z then x (Z.to_nat i) else 0.
Lemma heat_matrix_some a dx n : (1 <= n)%nat -> exists L, heat_matrix a dx n = Some L.
Proof.
  intros H. unfold heat_matrix, diags. cbn -[diag_vals Z.of_nat].
  rewrite !diag_vals_long; [eauto| | | | | |]; unfold diag_len; rewrite ?vtimes_length, ?ones_length; lia.
Qed.
Lemma heat_matrix_row a dx n L x i : heat_matrix a dx n = Some L -> (i < n)%nat ->
  mv n L x i = a / dx ^ 2 * (2 * x i - nb n x (Z.of_nat i - 1) - nb n x (Z.of_nat i + 1)).
Proof.
  intros E Hi. unfold heat_matrix, diags in E. cbv zeta in E. set (c := a / dx ^ 2) in *. clearbody c.
  cbn -[diag_vals Z.of_nat] in E.
  rewrite !diag_vals_long in E by (unfold diag_len; rewrite ?vtimes_length, ?ones_length; lia).
  injection E as <-. rewrite !mv_addfun, mv_zero, !mv_diag. cbn [Z.leb Z.compare].
  rewrite Z.add_0_r, Nat2Z.id, !at_vtimes, at_ones by lia. unfold nb.
  replace (0 <=? Z.of_nat i)%Z with true by lia. replace (Z.of_nat i <? Z.of_nat n)%Z with true by lia. cbn [andb].
  change (Z.of_nat i + -1)%Z with (Z.of_nat i - 1)%Z.
  destruct ((0 <=? Z.of_nat i - 1)%Z && (Z.of_nat i - 1 <? Z.of_nat n)%Z) eqn:E1;
  destruct ((0 <=? Z.of_nat i + 1)%Z && (Z.of_nat i + 1 <? Z.of_nat n)%Z) eqn:E2;
  rewrite ?at_vtimes; repeat rewrite at_ones by lia; ring.
Qed.
Lemma unit_entry n A i k : (k < n)%nat -> A i k = mv n A (fun j => if (j =? k)%nat then 1 else 0) i.
Proof.
  intros H. unfold mv. rewrite (rsum_one n k); auto.
  - rewrite Nat.eqb_refl. lra.
  - intros j _ Hj. destruct (Nat.eqb_spec j k); [congruence|lra].
Qed.
Lemma heat_lmatrix a dx n L : heat_matrix a dx n = Some L -> 0 <= a -> dx <> 0 -> lmatrix n L.
Proof.
  intros E Ha Hdx.
  assert (F : 0 <= a / dx ^ 2) by (apply Rmult_le_pos; auto; apply Rlt_le, Rinv_0_lt_compat; nra).
  constructor.
  - intros i k Hi Hk Hne. rewrite (unit_entry n L i k Hk), (heat_matrix_row a dx n L) by auto. unfold nb.
    destruct (Nat.eqb_spec i k); [congruence|].
    repeat match goal with |- context[if ?b then _ else _] => destruct b end; nra.
  - intros i Hi. rewrite <- mv_one, (heat_matrix_row a dx n L) by auto. unfold nb.
    repeat match goal with |- context[if ?b then _ else _] => destruct b end; nra.
Qed.

(** ** grids *)
Lemma at_firstn m l i : (i < m)%nat -> at_ (firstn m l) i = at_ l i.
Proof.
  unfold at_. revert l i. induction m; intros l i H; [lia|]. destruct l; [destruct i; reflexivity|].
  destruct i; cbn [firstn nth]; auto. apply IHm. lia.
Qed.
Lemma at_skipn k l i : at_ (skipn k l) i = at_ l (k + i).
Proof.
  unfold at_. revert l. induction k; intros l; [reflexivity|]. destruct l; [destruct i; reflexivity|]. apply IHk.
Qed.
Lemma at_linspace a b n i : (i < n)%nat -> at_ (linspace a b n) i = a + INR i * ((b - a) / INR (n - 1)).
Proof. intros H. unfold linspace. rewrite at_tab by auto. reflexivity. Qed.
Lemma heat_x_dx xs xe nx : (4 <= nx)%nat -> heat_dx (heat_x xs xe nx) = (xe - xs) / INR (nx - 1).
Proof.
  intros H. unfold heat_dx, heat_x. rewrite !at_firstn, !at_skipn, !at_linspace by lia. cbn [Nat.add INR]. lra.
Qed.
Lemma heat_x_length xs xe nx : length (heat_x xs xe nx) = (nx - 2)%nat.
Proof. unfold heat_x, linspace. rewrite firstn_length, skipn_length, tab_length. lia. Qed.
Lemma spacing_nonzero xs xe nx : (2 <= nx)%nat -> xs <> xe -> (xe - xs) / INR (nx - 1) <> 0.
Proof.
  intros H E. assert (INR (nx - 1) <> 0) by (apply not_0_INR; lia).
  intros F. apply (f_equal (fun z => z * INR (nx - 1))) in F. unfold Rdiv in F. rewrite Rmult_assoc, Rinv_l in F by auto. lra.
Qed.

(** ** Heat2D *)
Lemma zero_where_length P l : length (zero_where P l) = length l.
Proof. apply tab_length. Qed.
Lemma at_zero_where P l k : (k < length l)%nat -> at_ (zero_where P l) k = if P k then 0 else at_ l k.
Proof. intros H. unfold zero_where. rewrite at_tab by auto. reflexivity. Qed.
Lemma divmod_idx ny i j : (j < ny)%nat -> ((i * ny + j) / ny = i /\ (i * ny + j) mod ny = j)%nat.
Proof.
  intros H. split.
  - rewrite Nat.div_add_l by lia. rewrite Nat.div_small by auto. lia.
  - rewrite Nat.add_comm, Nat.mod_add by lia. apply Nat.mod_small. auto.
Qed.
Lemma sl_step_idx ny i j q r : (j < ny)%nat -> (r < ny)%nat ->
  sl_step (q * ny + r) ny (i * ny + j) = ((q * ny + r <=? i * ny + j) && (j =? r))%nat.
Proof.
  intros Hj Hr. unfold sl_step. destruct (Nat.leb_spec (q * ny + r) (i * ny + j)) as [H|H]; [|reflexivity]. cbn [andb].
  assert (Hq : (q <= i)%nat) by (destruct (le_lt_dec q i); auto; nia).
  destruct (Nat.le_exists_sub q i Hq) as [d [-> _]].
  destruct (Nat.eqb_spec j r) as [->|N].
  - replace ((d + q) * ny + r - (q * ny + r))%nat with (d * ny)%nat by (rewrite Nat.mul_add_distr_r; lia).
    rewrite Nat.mod_mul by lia. reflexivity.
  - apply Nat.eqb_neq. destruct (le_lt_dec r j).
    + replace ((d + q) * ny + j - (q * ny + r))%nat with (d * ny + (j - r))%nat by (rewrite Nat.mul_add_distr_r; lia).
      destruct (divmod_idx ny d (j - r)) as [_ ->]; lia.
    + destruct d as [|d]; [lia|].
      replace ((S d + q) * ny + j - (q * ny + r))%nat with (d * ny + (ny + j - r))%nat by (rewrite Nat.mul_add_distr_r; cbn [Nat.mul]; lia).
      destruct (divmod_idx ny d (ny + j - r)) as [_ ->]; lia.
Qed.
Lemma interior_iff nx ny i j : interior nx ny i j = true <-> (1 <= i < nx - 1 /\ 1 <= j < ny - 1)%nat.
Proof. unfold interior. rewrite !andb_true_iff, !Nat.leb_le, !Nat.ltb_lt. lia. Qed.
Lemma interior_false nx ny i j : interior nx ny i j = false <-> ~ (1 <= i < nx - 1 /\ 1 <= j < ny - 1)%nat.
Proof. rewrite <- interior_iff. destruct (interior nx ny i j); split; congruence. Qed.
Section Heat2DMatrix.
  Variables nx ny : nat.
  Hypothesis Hnx : (2 <= nx)%nat.
  Hypothesis Hny : (2 <= ny)%nat.
  Local Notation n := (nx * ny)%nat.
  (** coefficient lists of compute_matrix with the constant c *)
  Definition h_main (c : R) := zero_where (sl_step ny ny) (zero_where (sl_step (2 * ny - 1) ny)
    (zero_where (sl_to ny) (zero_where (sl_last ny n) (vtimes (ones n) c)))).
  Definition h_upper (c : R) := zero_where (sl_step ny ny) (zero_where (sl_step (2 * ny - 1) ny)
    (zero_where (sl_to ny) (zero_where (sl_last ny (n - 1)) (vtimes (ones (n - 1)) c)))).
  Definition h_lower (c : R) := zero_where (sl_step (ny - 1) ny) (zero_where (sl_step (2 * ny - 2) ny)
    (zero_where (sl_to (ny - 1)) (zero_where (sl_last ny (n - 1)) (vtimes (ones (n - 1)) c)))).
  Definition h_upper2 (c : R) := zero_where (sl_step ny ny) (zero_where (sl_step (2 * ny - 1) ny)
    (zero_where (sl_to ny) (vtimes (ones (n - ny)) c))).
  Definition h_lower2 (c : R) := zero_where (sl_step 0 ny) (zero_where (sl_step (ny - 1) ny)
    (zero_where (sl_last ny (n - ny)) (vtimes (ones (n - ny)) c))).
  Local Ltac lens := rewrite ?zero_where_length, ?vtimes_length, ?ones_length.
  Local Ltac coef :=
    repeat (rewrite at_zero_where by (lens; nia)); rewrite at_vtimes, at_ones by nia.
  (** decide a boolean by arithmetic on the indices *)
  Local Ltac arith :=
    unfold interior, sl_to, sl_last;
    repeat match goal with
    | |- context[(?a <=? ?b)%nat] => destruct (Nat.leb_spec a b)
    | |- context[(?a <? ?b)%nat] => destruct (Nat.ltb_spec a b)
    | |- context[(?a =? ?b)%nat] => destruct (Nat.eqb_spec a b)
    end; cbn [andb orb]; try lra; exfalso; try nia.
  Lemma step_ny i j : (j < ny)%nat -> sl_step ny ny (i * ny + j) = ((1 <=? i) && (j =? 0))%nat.
  Proof.
    intros Hj. replace ny with (1 * ny + 0)%nat at 1 by lia. rewrite sl_step_idx by lia.
    destruct (Nat.eqb_spec j 0); [subst|rewrite !andb_false_r; reflexivity]. rewrite !andb_true_r.
    destruct (Nat.leb_spec (1 * ny + 0) (i * ny + 0)), (Nat.leb_spec 1 i); auto; nia.
  Qed.
  Lemma step_2ny1 i j : (j < ny)%nat -> sl_step (2 * ny - 1) ny (i * ny + j) = ((1 <=? i) && (j =? ny - 1))%nat.
  Proof.
    intros Hj. replace (2 * ny - 1)%nat with (1 * ny + (ny - 1))%nat by lia. rewrite sl_step_idx by lia.
    destruct (Nat.eqb_spec j (ny - 1)); [subst|rewrite !andb_false_r; reflexivity]. rewrite !andb_true_r.
    destruct (Nat.leb_spec (1 * ny + (ny - 1)) (i * ny + (ny - 1))), (Nat.leb_spec 1 i); auto; nia.
  Qed.
  Lemma main_idx c i j : (i < nx)%nat -> (j < ny)%nat -> at_ (h_main c) (i * ny + j) = if interior nx ny i j then c else 0.
  Proof.
    intros Hi Hj. assert (i * ny + j < n)%nat by nia. unfold h_main. coef. rewrite step_ny, step_2ny1 by auto. arith.
  Qed.
  Lemma upper_idx c i j : (i < nx)%nat -> (j < ny)%nat -> (i * ny + j < n - 1)%nat ->
    at_ (h_upper c) (i * ny + j) = if interior nx ny i j then c else 0.
  Proof.
    intros Hi Hj H. unfold h_upper. coef. rewrite step_ny, step_2ny1 by auto. arith.
  Qed.
  Lemma upper2_idx c i j : (i < nx - 1)%nat -> (j < ny)%nat ->
    at_ (h_upper2 c) (i * ny + j) = if interior nx ny i j then c else 0.
  Proof.
    intros Hi Hj. assert (i * ny + j < n - ny)%nat by nia. unfold h_upper2. coef. rewrite step_ny, step_2ny1 by auto. arith.
  Qed.
  Lemma lower2_idx c i j : (1 <= i < nx)%nat -> (j < ny)%nat ->
    at_ (h_lower2 c) ((i - 1) * ny + j) = if interior nx ny i j then c else 0.
  Proof.
    intros Hi Hj. assert ((i - 1) * ny + j < n - ny)%nat by nia. unfold h_lower2. coef.
    replace (sl_step 0 ny ((i - 1) * ny + j)) with (j =? 0)%nat.
    2:{ change (sl_step 0 ny ((i - 1) * ny + j)) with (sl_step (0 * ny + 0) ny ((i - 1) * ny + j)). rewrite sl_step_idx by lia. reflexivity. }
    replace (sl_step (ny - 1) ny ((i - 1) * ny + j)) with (j =? ny - 1)%nat.
    2:{ change (ny - 1)%nat with (0 * ny + (ny - 1))%nat at 2. rewrite sl_step_idx by lia.
        destruct (Nat.eqb_spec j (ny - 1)); [subst|rewrite andb_false_r; reflexivity]. rewrite (proj2 (Nat.leb_le _ _)) by nia. reflexivity. }
    arith.
  Qed.
  Lemma lower_idx c i j : (i < nx)%nat -> (j < ny)%nat -> (1 <= i * ny + j)%nat ->
    at_ (h_lower c) (i * ny + j - 1) = if interior nx ny i j then c else 0.
  Proof.
    intros Hi Hj H. assert (i * ny + j < n)%nat by nia. unfold h_lower. coef.
    assert (E : sl_step (ny - 1) ny (i * ny + j - 1) = ((1 <=? i) && (j =? 0))%nat).
    { change (ny - 1)%nat with (0 * ny + (ny - 1))%nat at 1. destruct j.
      - replace (i * ny + 0 - 1)%nat with ((i - 1) * ny + (ny - 1))%nat by (destruct i; [lia|]; replace (S i - 1)%nat with i by lia; cbn [Nat.mul]; lia). rewrite sl_step_idx by lia.
        rewrite !Nat.eqb_refl, !andb_true_r. destruct (Nat.leb_spec 1 i), (Nat.leb_spec (0 * ny + (ny - 1)) ((i - 1) * ny + (ny - 1))); auto; nia.
      - replace (i * ny + S j - 1)%nat with (i * ny + j)%nat by lia. rewrite sl_step_idx by lia.
        rewrite andb_false_r. destruct (Nat.eqb_spec j (ny - 1)); [lia|]. apply andb_false_r. }
    assert (F : sl_step (2 * ny - 2) ny (i * ny + j - 1) = ((1 <=? i) && (j =? ny - 1))%nat).
    { replace (2 * ny - 2)%nat with (1 * ny + (ny - 2))%nat by lia. destruct j.
      - replace (i * ny + 0 - 1)%nat with ((i - 1) * ny + (ny - 1))%nat by (destruct i; [lia|]; replace (S i - 1)%nat with i by lia; cbn [Nat.mul]; lia). rewrite sl_step_idx by lia.
        destruct (Nat.eqb_spec (ny - 1) (ny - 2)); [lia|]. destruct (Nat.eqb_spec 0 (ny - 1)); [lia|]. rewrite !andb_false_r. reflexivity.
      - replace (i * ny + S j - 1)%nat with (i * ny + j)%nat by lia. rewrite sl_step_idx by lia.
        destruct (Nat.eqb_spec j (ny - 2)), (Nat.eqb_spec (S j) (ny - 1)); try lia; rewrite ?andb_false_r; auto. rewrite !andb_true_r.
        destruct (Nat.leb_spec (1 * ny + (ny - 2)) (i * ny + j)), (Nat.leb_spec 1 i); auto; nia. }
    rewrite E, F. arith.
  Qed.
  Lemma heat2d_matrix_eq a dx dy : heat2d_matrix a dx dy nx ny =
    diags n [(0%Z, h_main (2 * (a / dx ^ 2 + a / dy ^ 2))); ((-1)%Z, h_lower (- (a / dy ^ 2))); (1%Z, h_upper (- (a / dy ^ 2)));
             ((- Z.of_nat ny)%Z, h_lower2 (- (a / dx ^ 2))); (Z.of_nat ny, h_upper2 (- (a / dx ^ 2)))].
  Proof. reflexivity. Qed.
  Lemma heat2d_diags (cm cl cu cl2 cu2 : R) :
    diags n [(0%Z, h_main cm); ((-1)%Z, h_lower cl); (1%Z, h_upper cu); ((- Z.of_nat ny)%Z, h_lower2 cl2); (Z.of_nat ny, h_upper2 cu2)] =
    Some (fun r c => diag_entry 0 (h_main cm) r c + (diag_entry (-1) (h_lower cl) r c + (diag_entry 1 (h_upper cu) r c +
      (diag_entry (- Z.of_nat ny) (h_lower2 cl2) r c + (diag_entry (Z.of_nat ny) (h_upper2 cu2) r c + 0))))).
  Proof.
    assert (2 * ny <= n)%nat by nia.
    unfold diags. replace (nodupz _) with true.
    2:{ cbn [map fst nodupz existsb]. symmetry.
        repeat match goal with |- context[(?a =? ?b)%Z] => destruct (Z.eqb_spec a b) as [?|_]; [lia|] end. reflexivity. }
    cbn [diags_sum].
    rewrite !diag_vals_long; [reflexivity|..]; unfold diag_len, h_main, h_lower, h_upper, h_lower2, h_upper2; lens; lia.
  Qed.
  Lemma heat2d_matrix_some a dx dy : exists L, heat2d_matrix a dx dy nx ny = Some L.
  Proof. rewrite heat2d_matrix_eq, heat2d_diags. eauto. Qed.
  Lemma heat2d_matrix_row a dx dy L x i j : heat2d_matrix a dx dy nx ny = Some L -> (i < nx)%nat -> (j < ny)%nat ->
    mv n L x (i * ny + j) =
    if interior nx ny i j
    then a / dx ^ 2 * (2 * x (i * ny + j)%nat - x ((i - 1) * ny + j)%nat - x ((i + 1) * ny + j)%nat)
       + a / dy ^ 2 * (2 * x (i * ny + j)%nat - x (i * ny + (j - 1))%nat - x (i * ny + (j + 1))%nat)
    else 0.
  Proof.
    intros E Hi Hj. rewrite heat2d_matrix_eq, heat2d_diags in E.
    set (fx := a / dx ^ 2) in *. set (fy := a / dy ^ 2) in *. clearbody fx fy. injection E as <-.
    assert (Hk : (i * ny + j < n)%nat) by nia.
    rewrite !mv_addfun, mv_zero, !mv_diag. remember (i * ny + j)%nat as k eqn:Ek.
    remember n as N eqn:EN.
    replace ((0 <=? Z.of_nat k + 0)%Z && (Z.of_nat k + 0 <? Z.of_nat N)%Z) with true by lia.
    rewrite Z.add_0_r, Nat2Z.id. change (0 <=? 0)%Z with true. change (0 <=? 1)%Z with true. change (0 <=? -1)%Z with false. cbv iota.
    replace (0 <=? Z.of_nat ny)%Z with true by lia. replace (0 <=? - Z.of_nat ny)%Z with false by lia.
    replace (at_ (h_main (2 * (fx + fy))) k) with (if interior nx ny i j then 2 * (fx + fy) else 0) by (rewrite Ek, main_idx by auto; reflexivity).
    assert (E1 : (if (0 <=? Z.of_nat k + -1)%Z && (Z.of_nat k + -1 <? Z.of_nat N)%Z
        then at_ (h_lower (- fy)) (Z.to_nat (Z.of_nat k + -1)) * x (Z.to_nat (Z.of_nat k + -1)) else 0) =
        if interior nx ny i j then - fy * x (i * ny + (j - 1))%nat else 0).
    { destruct ((0 <=? Z.of_nat k + -1)%Z && (Z.of_nat k + -1 <? Z.of_nat N)%Z) eqn:B.
      - replace (Z.to_nat (Z.of_nat k + -1)) with (k - 1)%nat by lia. rewrite Ek. rewrite lower_idx by (auto; lia).
        destruct (interior nx ny i j) eqn:I; [|lra]. apply interior_iff in I. replace (i * ny + j - 1)%nat with (i * ny + (j - 1))%nat by lia. reflexivity.
      - destruct (interior nx ny i j) eqn:I; [|lra]. apply interior_iff in I. exfalso. lia. }
    assert (E2 : (if (0 <=? Z.of_nat k + 1)%Z && (Z.of_nat k + 1 <? Z.of_nat N)%Z
        then at_ (h_upper (- fy)) k * x (Z.to_nat (Z.of_nat k + 1)) else 0) =
        if interior nx ny i j then - fy * x (i * ny + (j + 1))%nat else 0).
    { destruct ((0 <=? Z.of_nat k + 1)%Z && (Z.of_nat k + 1 <? Z.of_nat N)%Z) eqn:B.
      - replace (Z.to_nat (Z.of_nat k + 1)) with (k + 1)%nat by lia. rewrite Ek. rewrite upper_idx by (auto; lia).
        destruct (interior nx ny i j) eqn:I; [|lra]. rewrite Nat.add_assoc. reflexivity.
      - destruct (interior nx ny i j) eqn:I; [|lra]. apply interior_iff in I. exfalso. assert (i + 2 <= nx)%nat by lia. assert (k + ny < N)%nat by (rewrite Ek, EN; nia). lia. }
    assert (E3 : (if (0 <=? Z.of_nat k + - Z.of_nat ny)%Z && (Z.of_nat k + - Z.of_nat ny <? Z.of_nat N)%Z
        then at_ (h_lower2 (- fx)) (Z.to_nat (Z.of_nat k + - Z.of_nat ny)) * x (Z.to_nat (Z.of_nat k + - Z.of_nat ny)) else 0) =
        if interior nx ny i j then - fx * x ((i - 1) * ny + j)%nat else 0).
    { destruct i as [|i'].
      - replace (0 <=? Z.of_nat k + - Z.of_nat ny)%Z with false by (symmetry; apply Z.leb_gt; rewrite Ek; lia). cbn [andb].
        rewrite (proj2 (interior_false nx ny 0 j)) by lia. reflexivity.
      - replace (Z.to_nat (Z.of_nat k + - Z.of_nat ny)) with ((S i' - 1) * ny + j)%nat
          by (replace (S i' - 1)%nat with i' by lia; rewrite Ek; cbn [Nat.mul]; lia).
        rewrite lower2_idx by (auto; lia).
        replace ((0 <=? Z.of_nat k + - Z.of_nat ny)%Z && (Z.of_nat k + - Z.of_nat ny <? Z.of_nat N)%Z) with true
          by (symmetry; apply andb_true_intro; split; [apply Z.leb_le|apply Z.ltb_lt]; cbn [Nat.mul] in *; lia).
        destruct (interior nx ny (S i') j); lra. }
    assert (E4 : (if (0 <=? Z.of_nat k + Z.of_nat ny)%Z && (Z.of_nat k + Z.of_nat ny <? Z.of_nat N)%Z
        then at_ (h_upper2 (- fx)) k * x (Z.to_nat (Z.of_nat k + Z.of_nat ny)) else 0) =
        if interior nx ny i j then - fx * x ((i + 1) * ny + j)%nat else 0).
    { destruct (Nat.eq_dec i (nx - 1)) as [Ei|Ni].
      - replace (Z.of_nat k + Z.of_nat ny <? Z.of_nat N)%Z with false
          by (symmetry; apply Z.ltb_ge; assert (N = (i * ny + ny)%nat) by (rewrite EN, Ei; nia); lia).
        rewrite andb_false_r. replace (interior nx ny i j) with false; [reflexivity|]. symmetry. apply interior_false. lia.
      - replace (Z.to_nat (Z.of_nat k + Z.of_nat ny)) with ((i + 1) * ny + j)%nat by (rewrite Ek; lia).
        rewrite Ek at 3. rewrite upper2_idx by (auto; lia).
        replace ((0 <=? Z.of_nat k + Z.of_nat ny)%Z && (Z.of_nat k + Z.of_nat ny <? Z.of_nat N)%Z) with true.
        + destruct (interior nx ny i j); lra.
        + symmetry. apply andb_true_intro. assert (k + ny < N)%nat by (rewrite Ek, EN; nia). split; [apply Z.leb_le|apply Z.ltb_lt]; lia. }
    rewrite E1, E2, E3, E4. destruct (interior nx ny i j); ring.
  Qed.
End Heat2DMatrix.
Lemma idx_split nx ny k : (k < nx * ny)%nat -> exists i j, (i < nx)%nat /\ (j < ny)%nat /\ k = (i * ny + j)%nat.
Proof.
  intros H. assert (ny <> 0)%nat by nia. exists (k / ny)%nat, (k mod ny)%nat. split; [|split].
  - apply Nat.div_lt_upper_bound; auto. lia.
  - apply Nat.mod_upper_bound. auto.
  - rewrite (Nat.div_mod k ny) at 1 by auto. lia.
Qed.
Lemma idx_bound nx ny i j : (i < nx)%nat -> (j < ny)%nat -> (i * ny + j < nx * ny)%nat.
Proof. nia. Qed.
Lemma idx_inj ny i j i' j' : (j < ny)%nat -> (j' < ny)%nat -> (i * ny + j = i' * ny + j')%nat -> i = i' /\ j = j'.
Proof.
  intros H H' E. pose proof (divmod_idx ny i j H) as [A B]. pose proof (divmod_idx ny i' j' H') as [A' B'].
  rewrite E in A, B. split; congruence.
Qed.
Lemma fac_nonneg a d : 0 <= a -> d <> 0 -> 0 <= a / d ^ 2.
Proof. intros Ha Hd. apply Rmult_le_pos; auto. apply Rlt_le, Rinv_0_lt_compat. nra. Qed.
Lemma heat2d_lmatrix a dx dy nx ny L : (2 <= nx)%nat -> (2 <= ny)%nat -> heat2d_matrix a dx dy nx ny = Some L ->
  0 <= a -> dx <> 0 -> dy <> 0 -> lmatrix (nx * ny) L.
Proof.
  intros Hx Hy E Ha Hdx Hdy. pose proof (fac_nonneg a dx Ha Hdx) as Fx. pose proof (fac_nonneg a dy Ha Hdy) as Fy.
  constructor.
  - intros k l Hk Hl Hne. rewrite (unit_entry _ L k l Hl). destruct (idx_split nx ny k Hk) as [i [j [Hi [Hj ->]]]].
    rewrite (heat2d_matrix_row nx ny Hx Hy a dx dy L _ i j E Hi Hj). destruct (interior nx ny i j); [|lra].
    destruct (Nat.eqb_spec (i * ny + j) l); [congruence|].
    set (fx := a / dx ^ 2) in *. set (fy := a / dy ^ 2) in *. clearbody fx fy.
    repeat match goal with |- context[if ?b then _ else _] => destruct b end; lra.
  - intros k Hk. rewrite <- mv_one. destruct (idx_split nx ny k Hk) as [i [j [Hi [Hj ->]]]].
    rewrite (heat2d_matrix_row nx ny Hx Hy a dx dy L _ i j E Hi Hj). destruct (interior nx ny i j); lra.
Qed.
Lemma heat2d_row_sum a dx dy nx ny L : (2 <= nx)%nat -> (2 <= ny)%nat -> heat2d_matrix a dx dy nx ny = Some L ->
  forall k, (k < nx * ny)%nat -> rsum (nx * ny) (L k) = 0.
Proof.
  intros Hx Hy E k Hk. rewrite <- mv_one. destruct (idx_split nx ny k Hk) as [i [j [Hi [Hj ->]]]].
  rewrite (heat2d_matrix_row nx ny Hx Hy a dx dy L _ i j E Hi Hj). destruct (interior nx ny i j); lra.
Qed.
Lemma at_set_where nx ny P v l i j : (i < nx)%nat -> (j < ny)%nat ->
  at_ (set_where nx ny P v l) (i * ny + j) = if P i j then v i j else at_ l (i * ny + j).
Proof.
  intros Hi Hj. unfold set_where. rewrite at_tab by (apply idx_bound; auto).
  cbv zeta. destruct (divmod_idx ny i j Hj) as [-> ->]. reflexivity.
Qed.
Lemma at_add_interior nx ny v l i j : (i < nx)%nat -> (j < ny)%nat ->
  at_ (add_interior nx ny v l) (i * ny + j) = if interior nx ny i j then at_ l (i * ny + j) + v i j else at_ l (i * ny + j).
Proof.
  intros Hi Hj. unfold add_interior. rewrite at_tab by (apply idx_bound; auto).
  cbv zeta. destruct (divmod_idx ny i j Hj) as [-> ->]. reflexivity.
Qed.
Lemma at_set_bcs nx ny bcl bcr bcb bct l i j : (i < nx)%nat -> (j < ny)%nat ->
  at_ (set_bcs nx ny bcl bcr bcb bct l) (i * ny + j) =
  if (i =? 0)%nat then bct j else if (i =? nx - 1)%nat then bcb j
  else if (j =? ny - 1)%nat then bcr i else if (j =? 0)%nat then bcl i else at_ l (i * ny + j).
Proof. intros Hi Hj. unfold set_bcs. rewrite !at_set_where by auto. reflexivity. Qed.
Lemma set_bcs_length nx ny bcl bcr bcb bct l : length (set_bcs nx ny bcl bcr bcb bct l) = (nx * ny)%nat.
Proof. apply tab_length. Qed.
Lemma at_repeat0 n k : at_ (repeat 0 n) k = 0.
Proof. unfold at_. revert k. induction n; intros [|k]; cbn; auto. Qed.
Lemma at_mulmv n A u i : (i < n)%nat -> at_ (mulmv n A u) i = mv n A (at_ u) i.
Proof. intros. unfold mulmv. rewrite at_tab; auto. Qed.
Lemma mulmv_length n A u : length (mulmv n A u) = n.
Proof. apply tab_length. Qed.
Lemma at_vplus u v n k : length u = n -> length v = n -> (k < n)%nat -> at_ (vplus u v) k = at_ u k + at_ v k.
Proof. intros. unfold vplus. apply at_zipw; lia. Qed.
Lemma at_vminus u v n k : length u = n -> length v = n -> (k < n)%nat -> at_ (vminus u v) k = at_ u k - at_ v k.
Proof. intros. unfold vminus. apply at_zipw; lia. Qed.
Lemma vplus_length u v n : length u = n -> length v = n -> length (vplus u v) = n.
Proof. intros. unfold vplus. rewrite zipw_length. lia. Qed.
Lemma vminus_length u v n : length u = n -> length v = n -> length (vminus u v) = n.
Proof. intros. unfold vminus. rewrite zipw_length. lia. Qed.

(** ** Advection1D *)
Lemma advection_dx xs xe nx : (3 <= nx)%nat -> heat_dx (advection_x xs xe nx) = (xe - xs) / INR (nx - 1).
Proof. intros H. unfold heat_dx, advection_x. rewrite !at_firstn, !at_linspace by lia. cbn [INR]. lra. Qed.
Lemma mv_set_entry n A r c v x i : (r < n)%nat -> (c < n)%nat ->
  mv n (set_entry A r c v) x i = mv n A x i + (if (i =? r)%nat then (v - A r c) * x c else 0).
Proof.
  intros Hr Hc. unfold mv, set_entry. destruct (Nat.eqb_spec i r) as [->|].
  - rewrite (rsum_ext n _ (fun k => A r k * x k + (if (k =? c)%nat then (v - A r k) * x k else 0))).
    + rewrite rsum_plus, rsum_delta. apply Nat.ltb_lt in Hc. rewrite Hc. reflexivity.
    + intros k _. cbn [andb]. destruct (Nat.eqb_spec k c); [subst|]; lra.
  - cbn [andb]. lra.
Qed.
Lemma advection_matrix_some c dx n : (1 <= n)%nat -> exists L, advection_matrix c dx n = Some L.
Proof.
  intros H. unfold advection_matrix, diags. cbn -[diag_vals Z.of_nat].
  rewrite !diag_vals_long; [eauto|..]; unfold diag_len; rewrite ?vtimes_length, ?ones_length; lia.
Qed.
Definition pred_mod (n i : nat) : nat := match i with O => (n - 1)%nat | S j => j end.
Lemma advection_matrix_row c dx n L x i : (2 <= n)%nat -> advection_matrix c dx n = Some L -> (i < n)%nat ->
  mv n L x i = c / dx * (x i - x (pred_mod n i)).
Proof.
  intros Hn E Hi. unfold advection_matrix, diags in E. cbv zeta in E. set (f := c / dx) in *. clearbody f.
  cbn -[diag_vals Z.of_nat] in E.
  rewrite !diag_vals_long in E by (unfold diag_len; rewrite ?vtimes_length, ?ones_length; lia).
  injection E as <-. rewrite mv_set_entry by lia. unfold diag_entry at 3 4.
  replace (Z.of_nat (n - 1) - Z.of_nat 0 =? 0)%Z with false by (symmetry; apply Z.eqb_neq; lia).
  replace (Z.of_nat (n - 1) - Z.of_nat 0 =? -1)%Z with false by (symmetry; apply Z.eqb_neq; lia).
  rewrite !mv_addfun, mv_zero, !mv_diag. cbn [Z.leb Z.compare].
  rewrite Z.add_0_r, Nat2Z.id, !at_vtimes, at_ones by lia.
  replace (0 <=? Z.of_nat i)%Z with true by lia. replace (Z.of_nat i <? Z.of_nat n)%Z with true by lia. cbn [andb].
  destruct i as [|i]; cbn [pred_mod Nat.eqb].
  - change (Z.of_nat 0 + -1)%Z with (-1)%Z. cbn [Z.leb Z.compare andb]. ring.
  - replace (Z.to_nat (Z.of_nat (S i) + -1)) with i by lia. rewrite at_ones by lia.
    replace (0 <=? Z.of_nat (S i) + -1)%Z with true by (symmetry; apply Z.leb_le; lia).
    replace (Z.of_nat (S i) + -1 <? Z.of_nat n)%Z with true by (symmetry; apply Z.ltb_lt; lia).
    cbn [andb]. ring.
Qed.
Lemma rsum_pred_mod n x : (1 <= n)%nat -> rsum n (fun i => x (pred_mod n i)) = rsum n x.
Proof.
  intros H. destruct n; [lia|]. rewrite rsum_S_first. cbn [rsum]. unfold pred_mod. replace (S n - 1)%nat with n by lia. apply Rplus_comm.
Qed.
Lemma advection_lmatrix c dx n L : (2 <= n)%nat -> advection_matrix c dx n = Some L -> 0 <= c / dx -> lmatrix n L.
Proof.
  intros Hn E F. constructor.
  - intros i k Hi Hk Hne. rewrite (unit_entry n L i k Hk), (advection_matrix_row c dx n L) by auto.
    destruct (Nat.eqb_spec i k); [congruence|]. destruct (pred_mod n i =? k)%nat; lra.
  - intros i Hi. rewrite <- mv_one, (advection_matrix_row c dx n L) by auto. lra.
Qed.
Lemma at_map f u k : (k < length u)%nat -> at_ (map f u) k = f (at_ u k).
Proof. intros H. unfold at_. rewrite (nth_indep _ 0 (f 0)) by (rewrite map_length; auto). apply map_nth. Qed.
