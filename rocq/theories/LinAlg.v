(** Exact linear algebra over the reals: what numpy arrays, scipy.sparse.diags and scipy.sparse.linalg.spsolve compute
    without rounding. The libraries themselves are not part of /repo; this file is the specification the models of the
    example applications (Heat.v, Advection.v, AllenCahn.v) use for them. *)
From Coq Require Import Reals Lra Lia List Arith ZArith Bool.
Import ListNotations.
Local Open Scope R_scope.

(** ** Finite sums *)
Fixpoint rsum (n : nat) (f : nat -> R) : R := match n with O => 0 | S m => rsum m f + f m end.

Lemma rsum_ext n f g : (forall k, (k < n)%nat -> f k = g k) -> rsum n f = rsum n g.
Proof. induction n; intros H; simpl; auto. rewrite IHn by (intros; apply H; lia). rewrite H by lia. reflexivity. Qed.
Lemma rsum_plus n f g : rsum n (fun k => f k + g k) = rsum n f + rsum n g.
Proof. induction n; simpl; [lra|]. rewrite IHn. ring. Qed.
Lemma rsum_minus n f g : rsum n (fun k => f k - g k) = rsum n f - rsum n g.
Proof. induction n; simpl; [lra|]. rewrite IHn. ring. Qed.
Lemma rsum_opp n f : rsum n (fun k => - f k) = - rsum n f.
Proof. induction n; simpl; [lra|]. rewrite IHn. ring. Qed.
Lemma rsum_scal n c f : rsum n (fun k => c * f k) = c * rsum n f.
Proof. induction n; simpl; [lra|]. rewrite IHn. ring. Qed.
Lemma rsum_scal_r n c f : rsum n (fun k => f k * c) = rsum n f * c.
Proof. induction n; simpl; [lra|]. rewrite IHn. ring. Qed.
Lemma rsum_zero n f : (forall k, (k < n)%nat -> f k = 0) -> rsum n f = 0.
Proof. induction n; intros H; simpl; auto. rewrite IHn by (intros; apply H; lia). rewrite H by lia. lra. Qed.
Lemma rsum_le n f g : (forall k, (k < n)%nat -> f k <= g k) -> rsum n f <= rsum n g.
Proof.
  induction n; intros H; simpl; [lra|]. assert (rsum n f <= rsum n g) by (apply IHn; intros; apply H; lia).
  specialize (H n ltac:(lia)). lra.
Qed.
Lemma rsum_delta n i f : rsum n (fun k => if (k =? i)%nat then f k else 0) = if (i <? n)%nat then f i else 0.
Proof.
  induction n; simpl; auto. rewrite IHn. destruct (Nat.ltb_spec i n), (Nat.ltb_spec i (S n)), (Nat.eqb_spec n i); subst; try lia; lra.
Qed.
Lemma rsum_swap n m (f : nat -> nat -> R) : rsum n (fun i => rsum m (f i)) = rsum m (fun j => rsum n (fun i => f i j)).
Proof.
  induction n; simpl.
  - symmetry. apply rsum_zero. auto.
  - rewrite IHn, <- rsum_plus. reflexivity.
Qed.
Lemma rsum_S_first n f : rsum (S n) f = f O + rsum n (fun k => f (S k)).
Proof. induction n; [simpl; lra|]. change (rsum (S (S n)) f) with (rsum (S n) f + f (S n)). rewrite IHn. simpl. ring. Qed.

Definition skip (j k : nat) : nat := if (k <? j)%nat then k else S k.
Definition unskip (j k : nat) : nat := if (k <? j)%nat then k else pred k.
Lemma unskip_skip j k : unskip j (skip j k) = k.
Proof. unfold skip, unskip. destruct (Nat.ltb_spec k j). { apply Nat.ltb_lt in H. rewrite H. reflexivity. }
  destruct (Nat.ltb_spec (S k) j); [lia|reflexivity]. Qed.
Lemma skip_unskip j k : k <> j -> skip j (unskip j k) = k.
Proof. intros H. unfold skip, unskip. destruct (Nat.ltb_spec k j). { apply Nat.ltb_lt in H0. rewrite H0. reflexivity. }
  destruct (Nat.ltb_spec (pred k) j); lia. Qed.
Lemma skip_neq j k : skip j k <> j.
Proof. unfold skip. destruct (Nat.ltb_spec k j); lia. Qed.
Lemma rsum_skip n j f : (j < S n)%nat -> rsum (S n) f = f j + rsum n (fun k => f (skip j k)).
Proof.
  revert j. induction n; intros j Hj.
  - assert (j = O) by lia. subst. simpl. lra.
  - destruct (Nat.eq_dec j (S n)) as [->|E].
    + change (rsum (S (S n)) f) with (rsum (S n) f + f (S n)). rewrite Rplus_comm. f_equal.
      apply rsum_ext. intros k Hk. unfold skip. apply Nat.ltb_lt in Hk. rewrite Hk. reflexivity.
    + change (rsum (S (S n)) f) with (rsum (S n) f + f (S n)). rewrite (IHn j) by lia.
      change (rsum (S n) (fun k => f (skip j k))) with (rsum n (fun k => f (skip j k)) + f (skip j n)).
      assert (H : skip j n = S n) by (unfold skip; destruct (Nat.ltb_spec n j); lia). rewrite H. ring.
Qed.

(** ** Matrices, products, solving *)
Definition matrix : Type := nat -> nat -> R.
(** (A x)_i for an n x n matrix *)
Definition mv (n : nat) (A : matrix) (x : nat -> R) (i : nat) : R := rsum n (fun k => A i k * x k).

Fixpoint find_nz (n : nat) (a : nat -> R) : option nat :=
  match n with O => None | S m => if Req_EM_T (a m) 0 then find_nz m a else Some m end.
Lemma find_nz_some n a j : find_nz n a = Some j -> (j < n)%nat /\ a j <> 0.
Proof.
  induction n; simpl; [discriminate|]. destruct (Req_EM_T (a n) 0) as [E|E]; intros H.
  - destruct (IHn H). split; auto; lia.
  - inversion H; subst. split; auto; lia.
Qed.
Lemma find_nz_none n a : find_nz n a = None -> forall k, (k < n)%nat -> a k = 0.
Proof.
  induction n; simpl; [intros; lia|]. destruct (Req_EM_T (a n) 0) as [E|E]; [|discriminate]. intros H k Hk.
  destruct (Nat.eq_dec k n) as [->|]; auto. apply IHn; auto; lia.
Qed.

(** A non-trivial solution of m homogeneous equations in n > m unknowns, by Gaussian elimination. *)
Fixpoint kernel (m n : nat) (A : matrix) : nat -> R :=
  match m with
  | O => fun k => if (k =? 0)%nat then 1 else 0
  | S m' => match find_nz n (A m') with
            | None => kernel m' n A
            | Some j => let y := kernel m' (pred n) (fun i k => A i (skip j k) - A i j * (A m' (skip j k) / A m' j)) in
                        fun k => if (k =? j)%nat then - rsum (pred n) (fun k => A m' (skip j k) / A m' j * y k)
                                 else y (unskip j k)
            end
  end.
Lemma kernel_ok m : forall n A, (m < n)%nat ->
  (exists k, (k < n)%nat /\ kernel m n A k <> 0) /\ forall i, (i < m)%nat -> mv n A (kernel m n A) i = 0.
Proof.
  induction m; intros n A Hm.
  - split; [|intros; lia]. exists O. split; auto. simpl. lra.
  - cbn [kernel]. destruct (find_nz n (A m)) as [j|] eqn:Ej.
    + apply find_nz_some in Ej. destruct Ej as [Hj Hz]. destruct n as [|n]; [lia|]. cbn [pred].
      set (A' := fun i k => A i (skip j k) - A i j * (A m (skip j k) / A m j)).
      destruct (IHm n A' ltac:(lia)) as [[k0 [Hk0 Hk1]] Hy]. set (y := kernel m n A') in *.
      set (x := fun k => if (k =? j)%nat then - rsum n (fun k => A m (skip j k) / A m j * y k) else y (unskip j k)).
      assert (Xj : x j = - rsum n (fun k => A m (skip j k) / A m j * y k)) by (unfold x; rewrite Nat.eqb_refl; reflexivity).
      assert (Xs : forall k, x (skip j k) = y k).
      { intros k. unfold x. destruct (Nat.eqb_spec (skip j k) j); [exfalso; eapply skip_neq; eauto|]. rewrite unskip_skip. reflexivity. }
      split.
      * exists (skip j k0). split; [unfold skip; destruct (Nat.ltb_spec k0 j); lia|]. intros X. apply Hk1. rewrite <- Xs. exact X.
      * assert (E : forall i, mv (S n) A x i = A i j * x j + rsum n (fun k => A i (skip j k) * y k)).
        { intros i. unfold mv. rewrite (rsum_skip n j) by lia. f_equal. apply rsum_ext. intros k _. cbn beta. rewrite Xs. reflexivity. }
        intros i Hi. change (mv (S n) A x i = 0). rewrite E, Xj. destruct (Nat.eq_dec i m) as [->|Ei].
        -- rewrite <- rsum_opp, <- rsum_scal, <- rsum_plus. apply rsum_zero. intros k _. field. exact Hz.
        -- rewrite <- (Hy i ltac:(lia)). unfold mv, A'. rewrite <- rsum_opp, <- rsum_scal, <- rsum_plus. apply rsum_ext.
           intros k _. field. exact Hz.
    + destruct (IHm n A ltac:(lia)) as [H1 H2]. split; auto. intros i Hi.
      destruct (Nat.eq_dec i m) as [->|]; [|apply H2; lia].
      unfold mv. apply rsum_zero. intros k Hk. rewrite (find_nz_none _ _ Ej k Hk). lra.
Qed.

(** A x = 0 only for x = 0 *)
Definition injective (n : nat) (A : matrix) : Prop :=
  forall x, (forall i, (i < n)%nat -> mv n A x i = 0) -> forall k, (k < n)%nat -> x k = 0.

(** scipy.sparse.linalg.spsolve(A, b) in exact arithmetic. For a singular matrix scipy warns and returns nan; here the
    value is then unspecified, and every theorem using [spsolve] shows that the matrix is regular. *)
Definition solve_fn (n : nat) (A : matrix) (b : nat -> R) : nat -> R :=
  let y := kernel n (S n) (fun i k => if (k <? n)%nat then A i k else - b i) in fun k => y k / y n.
Lemma solve_fn_ok n A b : injective n A -> forall i, (i < n)%nat -> mv n A (solve_fn n A b) i = b i.
Proof.
  intros HI i Hi. unfold solve_fn. set (B := fun i k => if (k <? n)%nat then A i k else - b i).
  destruct (kernel_ok n (S n) B ltac:(lia)) as [[k [Hk Hk0]] Hy]. set (y := kernel n (S n) B) in *.
  assert (E : forall i, mv (S n) B y i = mv n A y i - b i * y n).
  { intros i'. unfold mv. cbn [rsum]. unfold B at 2. rewrite Nat.ltb_irrefl.
    rewrite (rsum_ext n (fun k => B i' k * y k) (fun k => A i' k * y k)); [lra|].
    intros k' Hk'. unfold B. apply Nat.ltb_lt in Hk'. rewrite Hk'. reflexivity. }
  assert (Hn : y n <> 0).
  { intros Hn. assert (Z : forall k, (k < n)%nat -> y k = 0).
    { apply HI. intros i' Hi'. specialize (Hy i' Hi'). rewrite E, Hn in Hy. lra. }
    apply Hk0. destruct (Nat.eq_dec k n) as [->|]; auto. apply Z. lia. }
  specialize (Hy i Hi). rewrite E in Hy.
  unfold mv. rewrite (rsum_ext n _ (fun k => A i k * y k * / y n)) by (intros; unfold Rdiv; ring).
  rewrite rsum_scal_r. fold (mv n A y i). replace (mv n A y i) with (b i * y n) by lra. field. exact Hn.
Qed.
Lemma mv_minus n A x y i : mv n A (fun k => x k - y k) i = mv n A x i - mv n A y i.
Proof. unfold mv. rewrite <- rsum_minus. apply rsum_ext. intros. ring. Qed.
Lemma solve_fn_unique n A b x : injective n A -> (forall i, (i < n)%nat -> mv n A x i = b i) ->
  forall k, (k < n)%nat -> x k = solve_fn n A b k.
Proof.
  intros HI Hx k Hk. pose proof (HI (fun k => x k - solve_fn n A b k)) as H.
  assert (E : x k - solve_fn n A b k = 0); [|lra]. apply H; auto. intros i Hi. rewrite mv_minus, Hx by auto.
  rewrite solve_fn_ok by auto. lra.
Qed.

(** ** numpy 1-D arrays as lists *)
Definition at_ (u : list R) (k : nat) : R := nth k u 0.
Definition tab (n : nat) (f : nat -> R) : list R := map f (seq 0 n).
Lemma tab_length n f : length (tab n f) = n.
Proof. unfold tab. rewrite map_length, seq_length. reflexivity. Qed.
Lemma at_tab n f k : (k < n)%nat -> at_ (tab n f) k = f k.
Proof.
  intros H. unfold at_, tab. rewrite (nth_indep _ 0 (f O)) by (rewrite map_length, seq_length; auto).
  rewrite map_nth, seq_nth by auto. reflexivity.
Qed.
Lemma at_out u k : (length u <= k)%nat -> at_ u k = 0.
Proof. apply nth_overflow. Qed.
Lemma list_ext (u v : list R) n : length u = n -> length v = n -> (forall k, (k < n)%nat -> at_ u k = at_ v k) -> u = v.
Proof. intros Hu Hv H. apply (nth_ext u v 0 0); [congruence|]. intros k Hk. apply H. lia. Qed.
Lemma tab_at n u : length u = n -> tab n (at_ u) = u.
Proof. intros H. apply (list_ext _ _ n); auto using tab_length. intros. apply at_tab. auto. Qed.
Lemma tab_ext n f g : (forall k, (k < n)%nat -> f k = g k) -> tab n f = tab n g.
Proof. intros H. apply map_ext_in. intros a Ha. apply in_seq in Ha. apply H. lia. Qed.

(** element-wise numpy operations on arrays of equal length *)
Definition zipw (f : R -> R -> R) (u v : list R) : list R := map (fun p => f (fst p) (snd p)) (combine u v).
Lemma zipw_length f u v : length (zipw f u v) = min (length u) (length v).
Proof. unfold zipw. rewrite map_length, combine_length. reflexivity. Qed.
Lemma at_zipw f u v k : (k < length u)%nat -> (k < length v)%nat -> at_ (zipw f u v) k = f (at_ u k) (at_ v k).
Proof.
  revert v k. induction u as [|a u IH]; intros [|b v] k Hu Hv; simpl in *; try lia.
  destruct k; auto. unfold zipw in *. cbn. apply (IH v k); lia.
Qed.
Definition vplus := zipw Rplus.
Definition vminus := zipw Rminus.
Definition vtimes (u : list R) (c : R) : list R := map (fun x => x * c) u.
Lemma vtimes_length u c : length (vtimes u c) = length u.
Proof. apply map_length. Qed.
Lemma at_vtimes u c k : at_ (vtimes u c) k = at_ u k * c.
Proof.
  unfold at_, vtimes. destruct (Nat.lt_ge_cases k (length u)).
  - rewrite (nth_indep _ 0 (0 * c)) by (rewrite map_length; auto). rewrite (map_nth (fun x => x * c)). reflexivity.
  - rewrite !nth_overflow; [lra|auto|rewrite map_length; auto].
Qed.
(** np.linalg.norm of a 1-D array *)
Definition norm2 (u : list R) : R := sqrt (fold_right (fun x s => x * x + s) 0 u).

Definition mulmv (n : nat) (A : matrix) (u : list R) : list R := tab n (mv n A (at_ u)).
Definition spsolve (n : nat) (A : matrix) (b : list R) : list R := tab n (solve_fn n A (at_ b)).
Lemma spsolve_length n A b : length (spsolve n A b) = n.
Proof. apply tab_length. Qed.
Lemma mv_ext n A B x y i : (forall k, (k < n)%nat -> A i k = B i k) -> (forall k, (k < n)%nat -> x k = y k) -> mv n A x i = mv n B y i.
Proof. intros H H'. apply rsum_ext. intros k Hk. rewrite H, H' by auto. reflexivity. Qed.
Lemma spsolve_ok n A b : injective n A -> forall i, (i < n)%nat -> mv n A (at_ (spsolve n A b)) i = at_ b i.
Proof.
  intros HI i Hi. rewrite <- (solve_fn_ok n A (at_ b) HI i Hi). apply mv_ext; auto. intros k Hk. apply at_tab. auto.
Qed.
Lemma spsolve_unique n A b u : injective n A -> length u = n -> (forall i, (i < n)%nat -> mv n A (at_ u) i = at_ b i) ->
  u = spsolve n A b.
Proof.
  intros HI Hu H. apply (list_ext _ _ n); auto using spsolve_length. intros k Hk. unfold spsolve. rewrite at_tab by auto.
  apply solve_fn_unique; auto.
Qed.

(** ** Regularity and maximum principle for matrices with non-positive off-diagonal entries *)
Lemma argmax n (x : nat -> R) : (0 < n)%nat -> exists i, (i < n)%nat /\ forall k, (k < n)%nat -> x k <= x i.
Proof.
  induction n; [lia|]. intros _. destruct n.
  - exists O. split; [lia|]. intros k Hk. assert (k = O) by lia. subst. lra.
  - destruct (IHn ltac:(lia)) as [i [Hi H]]. destruct (Rle_dec (x (S n)) (x i)).
    + exists i. split; [lia|]. intros k Hk. destruct (Nat.eq_dec k (S n)) as [->|]; auto. apply H. lia.
    + exists (S n). split; [lia|]. intros k Hk. destruct (Nat.eq_dec k (S n)) as [->|]; [lra|].
      specialize (H k ltac:(lia)). lra.
Qed.
Record zmatrix (n : nat) (A : matrix) (c : R) : Prop := {
  zm_off : forall i k, (i < n)%nat -> (k < n)%nat -> i <> k -> A i k <= 0;
  zm_row : forall i, (i < n)%nat -> c <= rsum n (A i);
  zm_pos : 0 < c
}.
Lemma zmatrix_row_bound n A c x i : zmatrix n A c -> (i < n)%nat -> (forall k, (k < n)%nat -> x k <= x i) ->
  rsum n (A i) * x i <= mv n A x i.
Proof.
  intros Z Hi H. unfold mv. rewrite <- rsum_scal_r. apply rsum_le. intros k Hk.
  destruct (Nat.eq_dec i k) as [->|E]; [lra|]. pose proof (zm_off _ _ _ Z i k Hi Hk E). specialize (H k Hk). nra.
Qed.
Lemma zmatrix_max n A c x M : zmatrix n A c -> 0 <= M -> (forall i, (i < n)%nat -> mv n A x i <= c * M) ->
  forall k, (k < n)%nat -> x k <= M.
Proof.
  intros Z HM H k Hk. destruct (argmax n x ltac:(lia)) as [i [Hi Hmax]].
  apply Rle_trans with (x i); auto. destruct (Rle_dec (x i) M) as [|N]; auto. exfalso.
  pose proof (zmatrix_row_bound n A c x i Z Hi Hmax). specialize (H i Hi).
  pose proof (zm_row _ _ _ Z i Hi). pose proof (zm_pos _ _ _ Z). nra.
Qed.
Lemma mv_opp n A x i : mv n A (fun k => - x k) i = - mv n A x i.
Proof. unfold mv. rewrite <- rsum_opp. apply rsum_ext. intros. ring. Qed.
Lemma zmatrix_injective n A c : zmatrix n A c -> injective n A.
Proof.
  intros Z x H k Hk.
  assert (x k <= 0) by (apply (zmatrix_max n A c x 0 Z); auto; [lra|]; intros i Hi; rewrite H by auto; lra).
  assert (- x k <= 0); [|lra].
  apply (zmatrix_max n A c (fun k => - x k) 0 Z); auto; [lra|]. intros i Hi. rewrite mv_opp, H by auto. lra.
Qed.
(** row sums exactly c: bounds of any sign *)
Lemma zmatrix_max_exact n A c x M : zmatrix n A c -> (forall i, (i < n)%nat -> rsum n (A i) = c) ->
  (forall i, (i < n)%nat -> mv n A x i <= c * M) -> forall k, (k < n)%nat -> x k <= M.
Proof.
  intros Z Hr H k Hk. destruct (argmax n x ltac:(lia)) as [i [Hi Hmax]].
  apply Rle_trans with (x i); auto. pose proof (zmatrix_row_bound n A c x i Z Hi Hmax). specialize (H i Hi).
  rewrite Hr in H0 by auto. pose proof (zm_pos _ _ _ Z). nra.
Qed.

(** ** scipy.sparse.diags(diagonals, offsets, shape=(n, n))
    Entry (i, i+k) of offset k >= 0 is d[i], entry (j-k, j) of offset k < 0 is d[j]. A diagonal longer than needed is cut
    off, one of length 1 is repeated; a shorter one and repeated offsets raise ValueError ([None]). *)
Definition diag_len (n : nat) (k : Z) : nat := Z.to_nat (Z.of_nat n - Z.abs k).
Definition diag_vals (n : nat) (k : Z) (d : list R) : option (list R) :=
  if (Z.of_nat n <? Z.abs k)%Z then None
  else if (diag_len n k <=? length d)%nat then Some d
  else match d with [x] => Some (repeat x (diag_len n k)) | _ => None end.
Definition diag_entry (k : Z) (d : list R) : matrix :=
  fun i j => if (Z.of_nat j - Z.of_nat i =? k)%Z then at_ d (if (0 <=? k)%Z then i else j) else 0.
Fixpoint nodupz (l : list Z) : bool := match l with [] => true | a :: m => negb (existsb (Z.eqb a) m) && nodupz m end.
Fixpoint diags_sum (n : nat) (ds : list (Z * list R)) : option matrix :=
  match ds with
  | [] => Some (fun _ _ => 0)
  | (k, d) :: r => match diag_vals n k d, diags_sum n r with
                   | Some d', Some m => Some (fun i j => diag_entry k d' i j + m i j)
                   | _, _ => None
                   end
  end.
Definition diags (n : nat) (ds : list (Z * list R)) : option matrix :=
  if nodupz (map fst ds) then diags_sum n ds else None.

(** sparse matrix arithmetic *)
Definition mident : matrix := fun i j => if (j =? i)%nat then 1 else 0.
Definition madd (A B : matrix) : matrix := fun i j => A i j + B i j.
Definition mscal (c : R) (A : matrix) : matrix := fun i j => c * A i j.
Lemma mv_madd n A B x i : mv n (madd A B) x i = mv n A x i + mv n B x i.
Proof. unfold mv. rewrite <- rsum_plus. apply rsum_ext. intros. unfold madd. ring. Qed.
Lemma mv_mscal n c A x i : mv n (mscal c A) x i = c * mv n A x i.
Proof. unfold mv. rewrite <- rsum_scal. apply rsum_ext. intros. unfold mscal. ring. Qed.
Lemma mv_mident n x i : (i < n)%nat -> mv n mident x i = x i.
Proof.
  intros H. unfold mv. rewrite (rsum_ext n _ (fun k => if (k =? i)%nat then x k else 0)).
  - rewrite rsum_delta. apply Nat.ltb_lt in H. rewrite H. reflexivity.
  - intros k _. unfold mident. destruct (Nat.eqb_spec k i); lra.
Qed.

(** np.linspace(a, b, n), n >= 2 *)
Definition linspace (a b : R) (n : nat) : list R := tab n (fun i => a + INR i * ((b - a) / INR (n - 1))).
