(** C28 (pack/unpack), C29 (vector laws), C30 (grid transfers) for the vector classes shipped with pymgrit. *)
From Coq Require Import Reals Lra Lia List Arith ZArith Bool.
From Verif Require Import LinAlg Mgrit Reference Algebra Vectors.
Import ListNotations.
Local Open Scope R_scope.

(** ** Lists of reals of a fixed length *)
Ltac lens := unfold vplus, vminus; repeat first [rewrite zipw_length | rewrite vtimes_length | rewrite repeat_length | rewrite app_length]; lia.
Ltac vec n := apply (list_ext _ _ n); [lens|lens|intros; repeat first [rewrite at_zipw by lens | rewrite at_vtimes]].
Lemma at_zeros n k : at_ (repeat 0 n) k = 0.
Proof. unfold at_. revert k. induction n; intros [|k]; simpl; auto. Qed.
Section Lists.
  Variable n : nat.
  Variables u v w : list R.
  Hypothesis Hu : length u = n.
  Hypothesis Hv : length v = n.
  Hypothesis Hw : length w = n.
  Lemma lp_comm : vplus u v = vplus v u.
  Proof using Hu Hv. clear Hw. unfold vplus. vec n. ring. Qed.
  Lemma lp_assoc : vplus (vplus u v) w = vplus u (vplus v w).
  Proof using Hu Hv Hw. unfold vplus. vec n. ring. Qed.
  Lemma lp_zero : vplus u (repeat 0 n) = u.
  Proof using Hu. clear Hv Hw. unfold vplus. vec n. rewrite at_zeros. ring. Qed.
  Lemma lp_sub : vplus (vminus u v) v = u.
  Proof using Hu Hv. clear Hw. unfold vplus, vminus. vec n. ring. Qed.
  Lemma lp_mul1 : vtimes u 1 = u.
  Proof using Hu. clear Hv Hw. vec n. ring. Qed.
  Lemma lp_mul0 : vtimes u 0 = repeat 0 n.
  Proof using Hu. clear Hv Hw. vec n. rewrite at_zeros. ring. Qed.
  Lemma lp_mulp a b : vtimes u (a + b) = vplus (vtimes u a) (vtimes u b).
  Proof using Hu. clear Hv Hw. unfold vplus. vec n. ring. Qed.
  Lemma lp_mula a b : vtimes (vtimes u a) b = vtimes u (a * b).
  Proof using Hu. clear Hv Hw. vec n. ring. Qed.
  Lemma lp_muls a : vtimes (vplus u v) a = vplus (vtimes u a) (vtimes v a).
  Proof using Hu Hv. clear Hw. unfold vplus. vec n. ring. Qed.
End Lists.
Lemma sumsq_nonneg u : 0 <= fold_right (fun x s => x * x + s) 0 u.
Proof. induction u; simpl; [lra|]. nra. Qed.
Lemma sumsq_zero u : fold_right (fun x s => x * x + s) 0 u = 0 <-> u = repeat 0 (length u).
Proof.
  split.
  - induction u as [|a u IH]; simpl; auto. intros H. pose proof (sumsq_nonneg u). pose proof (Rle_0_sqr a) as Q. unfold Rsqr in Q.
    assert (a * a = 0) by lra. assert (a = 0) by (apply Rsqr_0_uniq; exact H1). subst a. f_equal. apply IH. lra.
  - intros ->. induction (length u); simpl; [reflexivity|]. rewrite IHn. lra.
Qed.
Lemma norm2_zero u : norm2 u = 0 <-> u = repeat 0 (length u).
Proof.
  unfold norm2. split.
  - intros H. apply sumsq_zero. apply sqrt_eq_0 in H; auto. apply sumsq_nonneg.
  - intros H. apply sumsq_zero in H. rewrite H. apply sqrt_0.
Qed.
Lemma norm2_nonneg u : 0 <= norm2 u.
Proof. apply sqrt_pos. Qed.
Lemma norm2_mul u c : norm2 (vtimes u c) = Rabs c * norm2 u.
Proof.
  unfold norm2. rewrite <- (sqrt_Rsqr_abs c), <- sqrt_mult; [|apply Rle_0_sqr|apply sumsq_nonneg]. f_equal.
  induction u; simpl; [unfold Rsqr; lra|]. unfold Rsqr in *. unfold vtimes in *. rewrite IHu. ring.
Qed.
Lemma norm2_triangle_sq u v : length u = length v ->
  norm2 (vplus u v) <= norm2 u + norm2 v.
Proof.
  intros L. unfold norm2.
  set (q := fold_right (fun x s => x * x + s) 0). pose (d := fold_right Rplus 0 (zipw Rmult u v)).
  assert (E : q (vplus u v) = q u + 2 * d + q v).
  { subst d. revert v L. induction u as [|a u IH]; intros [|b v] L; simpl in *; try discriminate; [lra|].
    unfold q in *. simpl. unfold vplus, zipw in *. simpl. rewrite IH by lia. ring. }
  assert (CS : d * d <= q u * q v).
  { subst d. clear E. revert v L. induction u as [|a u IH]; intros [|b v] L; simpl in *; try discriminate; [lra|].
    unfold zipw in *. simpl. specialize (IH v ltac:(lia)). unfold q in *. simpl.
    set (d := fold_right Rplus 0 _) in *. set (s := fold_right _ 0 u) in *. set (t := fold_right _ 0 v) in *.
    assert (0 <= s) by apply sumsq_nonneg. assert (0 <= t) by apply sumsq_nonneg.
    assert (K : 2 * (a * b) * d <= a * a * t + s * (b * b)).
    { assert (Q : (2 * (a * b) * d) * (2 * (a * b) * d) <= (a * a * t + s * (b * b)) * (a * a * t + s * (b * b))).
      { assert (4 * (a * b) * (a * b) * (d * d) <= 4 * (a * b) * (a * b) * (s * t)).
        { apply Rmult_le_compat_l; [pose proof (Rle_0_sqr (a * b)) as X; unfold Rsqr in X; lra|exact IH]. }
        pose proof (Rle_0_sqr (a * a * t - s * (b * b))) as X. unfold Rsqr in X. nra. }
      apply Rsqr_incr_0_var; [exact Q|]. pose proof (Rle_0_sqr a). pose proof (Rle_0_sqr b). unfold Rsqr in *. nra. }
    nra. }
  assert (0 <= q u) by apply sumsq_nonneg. assert (0 <= q v) by apply sumsq_nonneg. assert (0 <= q (vplus u v)) by apply sumsq_nonneg.
  apply Rsqr_incr_0_var; [|pose proof (sqrt_pos (q u)); pose proof (sqrt_pos (q v)); lra].
  rewrite Rsqr_sqrt by auto. rewrite Rsqr_plus, !Rsqr_sqrt by auto. rewrite E.
  assert (d <= sqrt (q u) * sqrt (q v)); [|lra].
  rewrite <- sqrt_mult by auto. destruct (Rle_dec d 0) as [Hd|Hd]; [pose proof (sqrt_pos (q u * q v)); lra|].
  apply Rsqr_incr_0_var; [|apply sqrt_pos]. rewrite Rsqr_sqrt by (apply Rmult_le_pos; auto). unfold Rsqr. exact CS.
Qed.

(** ** The laws: vectors that satisfy [wf] form a real vector space with zero [z]; clones are equal, clone_zero is zero;
    pack/unpack into any vector of the same shape reproduces a vector. *)
Record space_laws (C : VClass) (wf : cV C -> Prop) (z : cV C) : Prop := {
  sl_add : forall x y, wf x -> wf y -> wf (c_add C x y);
  sl_sub : forall x y, wf x -> wf y -> wf (c_sub C x y);
  sl_mul : forall x a, wf x -> wf (c_mul C x a);
  sl_wf0 : wf z;
  sl_comm : forall x y, wf x -> wf y -> c_add C x y = c_add C y x;
  sl_assoc : forall x y t, wf x -> wf y -> wf t -> c_add C (c_add C x y) t = c_add C x (c_add C y t);
  sl_zero : forall x, wf x -> c_add C x z = x;
  sl_minus : forall x y, wf x -> wf y -> c_add C (c_sub C x y) y = x;
  sl_mul1 : forall x, wf x -> c_mul C x 1 = x;
  sl_mul0 : forall x, wf x -> c_mul C x 0 = z;
  sl_mulp : forall x a b, wf x -> c_mul C x (a + b) = c_add C (c_mul C x a) (c_mul C x b);
  sl_mula : forall x a b, wf x -> c_mul C (c_mul C x a) b = c_mul C x (a * b);
  sl_muls : forall x y a, wf x -> wf y -> c_mul C (c_add C x y) a = c_add C (c_mul C x a) (c_mul C y a);
  sl_clone : forall x, wf x -> c_clone C x = x;
  sl_czero : forall x, wf x -> c_zero C x = z;
  sl_pack : forall x y, wf x -> wf y -> c_unpack C x (c_pack C y) = y
}.
Record norm_laws (C : VClass) (wf : cV C -> Prop) (z : cV C) : Prop := {
  nl_pos : forall x, wf x -> 0 <= c_norm C x;
  nl_zero : forall x, wf x -> c_norm C x = 0 <-> x = z;
  nl_scale : forall x a, wf x -> c_norm C (c_mul C x a) = Rabs a * c_norm C x;
  nl_tri : forall x y, wf x -> wf y -> c_norm C (c_add C x y) <= c_norm C x + c_norm C y
}.

(** Shapes *)
Definition arr_wf (n : nat) (u : Arr) : Prop := a_size u = n /\ length (a_vals u) = n.
Definition arr2_wf (nx ny : nat) (u : Arr2) : Prop := b_nx u = nx /\ b_ny u = ny /\ length (b_vals u) = (nx * ny)%nat.
Definition pair_wf (n : nat) (d : R) (u : Pair) : Prop := p_size u = n /\ p_dtau u = d /\ length (p_first u) = n /\ length (p_second u) = n.
Definition mach_wf (f m b : nat) (u : Mach) : Prop := m_fs u = f /\ m_ms u = m /\ m_bs u = b /\
  length (m_front u) = f /\ length (m_middle u) = m /\ length (m_back u) = b.

Ltac lists n := first [solve [lens] | apply (lp_comm n) | apply (lp_assoc n) | apply (lp_zero n) | apply (lp_sub n) | apply (lp_mul1 n)
  | apply (lp_mul0 n) | apply (lp_mulp n) | apply (lp_mula n) | apply (lp_muls n)]; try assumption; lens.
Ltac sizes := repeat match goal with H : _ /\ _ |- _ => destruct H end;
  repeat match goal with H : ?s = ?n |- _ => is_var s; subst s end.
Ltac fields := match goal with |- @eq ?T ?x ?y => let T' := eval hnf in T in change (@eq T' x y) end; f_equal.
Ltac shape := repeat split; try reflexivity; lens.

Theorem C29_dahlquist_laws : space_laws VectorDahlquist (fun _ => True) 0 /\ norm_laws VectorDahlquist (fun _ => True) 0.
Proof.
  split; constructor; simpl; auto; intros; try ring.
  - apply Rabs_pos.
  - split; intros H'; [|subst; apply Rabs_R0]. destruct (Req_dec x 0); auto. apply Rabs_no_R0 in H0. contradiction.
  - rewrite Rabs_mult. ring.
  - apply Rabs_triang.
Qed.
Theorem C29_array_laws n : space_laws VectorArr (arr_wf n) (arr_zeros n) /\ norm_laws VectorArr (arr_wf n) (arr_zeros n).
Proof.
  split; constructor; unfold arr_wf; simpl; intros;
    repeat match goal with u : Arr |- _ => destruct u as [?s ?l] end; cbn [a_size a_vals arr_set arr_zeros] in *; sizes;
    unfold arr_set, arr_zeros; cbn [a_size a_vals].
  all: try solve [shape].
  all: try (fields; solve [lists n]).
  - apply norm2_nonneg.
  - rewrite norm2_zero. split; [intros E; f_equal; congruence|intros X; injection X; intros; congruence].
  - apply norm2_mul.
  - apply norm2_triangle_sq. lia.
Qed.
Theorem C29_array2_laws nx ny : space_laws VectorArr2 (arr2_wf nx ny) (arr2_zeros nx ny) /\ norm_laws VectorArr2 (arr2_wf nx ny) (arr2_zeros nx ny).
Proof.
  split; constructor; unfold arr2_wf; simpl; intros;
    repeat match goal with u : Arr2 |- _ => destruct u as [?s ?t ?l] end; cbn [b_nx b_ny b_vals arr2_set arr2_zeros] in *; sizes;
    unfold arr2_set, arr2_zeros; cbn [b_nx b_ny b_vals].
  all: try solve [shape].
  all: try (fields; solve [lists (nx * ny)%nat]).
  - apply norm2_nonneg.
  - rewrite norm2_zero. split; [intros E; f_equal; congruence|intros X; injection X; intros; congruence].
  - apply norm2_mul.
  - apply norm2_triangle_sq. lia.
Qed.
Lemma vplus_app a b c d : length a = length c -> vplus (a ++ b) (c ++ d) = vplus a c ++ vplus b d.
Proof. revert c. induction a; intros [|x c] H; simpl in *; try discriminate; auto. unfold vplus, zipw in *. simpl. f_equal. apply IHa. lia. Qed.
Lemma vtimes_app a b c : vtimes (a ++ b) c = vtimes a c ++ vtimes b c.
Proof. apply map_app. Qed.
Lemma app_zeros a b : a ++ b = repeat 0 (length a + length b) <-> a = repeat 0 (length a) /\ b = repeat 0 (length b).
Proof.
  induction a as [|x a IH]; simpl; [tauto|]. split.
  - intros H. injection H as -> H. apply IH in H. destruct H as [H1 H2]. split; [f_equal|]; auto.
  - intros [H1 H2]. injection H1 as -> H1. f_equal. apply IH. auto.
Qed.
Theorem C29_pair_laws n d : space_laws VectorPair (pair_wf n d) (pair_zeros n d) /\ norm_laws VectorPair (pair_wf n d) (pair_zeros n d).
Proof.
  split; constructor; unfold pair_wf; simpl; intros;
    repeat match goal with u : Pair |- _ => destruct u as [?s ?t ?l ?l] end; cbn [p_size p_dtau p_first p_second pair_set pair_zeros fst snd] in *; sizes;
    unfold pair_set, pair_zeros; cbn [p_size p_dtau p_first p_second].
  all: try solve [shape].
  all: try (fields; solve [lists n]).
  - apply norm2_nonneg.
  - rewrite norm2_zero, app_length, app_zeros. split.
    + intros [E1 E2]. f_equal; congruence.
    + intros X. injection X. intros; split; congruence.
  - rewrite <- vtimes_app. apply norm2_mul.
  - rewrite <- vplus_app by lia. apply norm2_triangle_sq. rewrite !app_length. lia.
Qed.
Theorem C29_machine_laws f m b : space_laws VectorMachine (mach_wf f m b) (mach_zeros f m b).
Proof.
  constructor; unfold mach_wf; simpl; intros;
    repeat match goal with u : Mach |- _ => destruct u as [?s ?t ?q ?l ?l ?l [?c ?c ?c ?c ?c ?c ?c ?c]] end;
    cbn [m_fs m_ms m_bs m_front m_middle m_back m_sc mach_unpack mach_pack mach_like mach_zeros fst snd] in *; sizes;
    unfold mach_like, mach_zeros, mach_pack, mach_unpack, sc_map, sc_map2, sc0; cbn [m_fs m_ms m_bs m_front m_middle m_back m_sc jl ia ib ic ua ub uc tr].
  all: try solve [shape].
  all: try (fields; solve [lists f|lists m|lists b|f_equal; ring]).
  rewrite H2, H3, H4. reflexivity.
Qed.

(** The norm of VectorMachine ignores the scalars (joule losses, currents, ...), so it is only a seminorm. *)
Theorem C29_machine_norm_refuted : forall f m b, exists u, mach_wf f m b u /\ c_norm VectorMachine u = 0 /\ u <> mach_zeros f m b.
Proof.
  intros f m b. exists (mkMach f m b (repeat 0 f) (repeat 0 m) (repeat 0 b) (mkScal 1 0 0 0 0 0 0 0)). split; [|split].
  - unfold mach_wf. simpl. rewrite !repeat_length. repeat split.
  - simpl. unfold mach_get. simpl. rewrite <- !repeat_app. apply norm2_zero. rewrite repeat_length. reflexivity.
  - intros X. apply (f_equal m_sc) in X. simpl in X. apply (f_equal jl) in X. simpl in X. lra.
Qed.
Theorem C29_orbit_laws : space_laws VectorOrbit (fun _ => True) orbit_zero /\ norm_laws VectorOrbit (fun _ => True) orbit_zero.
Proof.
  split; constructor; simpl; auto; intros; repeat match goal with u : Orbit |- _ => destruct u as [?c ?c ?c ?c] end;
    unfold orbit_set, orbit_zero, orbit_get, vplus, vminus, zipw; simpl.
  all: try solve [unfold at_; simpl; fields; ring].
  all: try reflexivity.
  - apply norm2_nonneg.
  - rewrite norm2_zero. unfold orbit_get. simpl. split; intros X; injection X; intros; subst; reflexivity.
  - apply (norm2_mul (orbit_get {| y0 := c; y1 := c0; y2 := c1; y3 := c2 |})).
  - apply (norm2_triangle_sq (orbit_get {| y0 := c3; y1 := c4; y2 := c5; y3 := c6 |}) (orbit_get {| y0 := c; y1 := c0; y2 := c1; y3 := c2 |})). reflexivity.
Qed.
Example C29_shapes_inhabited : arr_wf 2 (mkArr 2 [1; 2]) /\ arr2_wf 2 1 (mkArr2 2 1 [1; 2]) /\ pair_wf 1 (1/2) (mkPair 1 (1/2) [1] [2]) /\
  mach_wf 1 2 1 (mkMach 1 2 1 [1] [2; 3] [4] sc0) /\ c_add VectorArr (mkArr 2 [1; 2]) (mkArr 2 [3; 4]) = mkArr 2 [1 + 3; 2 + 4] /\
  norm2 [3; 4] = 5.
Proof.
  unfold arr_wf, arr2_wf, pair_wf, mach_wf. simpl. repeat split; auto. unfold norm2. simpl.
  replace (3 * 3 + (4 * 4 + 0)) with (5 * 5) by lra. apply sqrt_square. lra.
Qed.

(** A solver application built from a shipped vector class with copy transfers meets the hypotheses of the theorems on
    the solver (C04, C07-C11, ...): shapes are kept, arithmetic is exact, pack/unpack lose nothing, transfers are lossless. *)
Theorem C29_solver_hypotheses : forall (C : VClass) (wf : cV C -> Prop) (z : cV C) step template init tm,
  space_laws C wf z -> (forall l u a b, wf u -> wf (step l u a b)) -> (forall l, wf (template l)) -> (forall l, wf (init l)) ->
  let A := app_of C step template init tm in
  app_laws A (fun _ => wf) /\ exact_laws A (fun _ => wf) (fun _ => z) /\ @lossless A (fun _ => wf) /\
  forall o : Opts A, @weight_mean A (fun _ => wf) o /\ (o_weight o = 1 -> @weight_one A (fun _ => wf) o).
Proof.
  intros C wf z step template init tm L Hs Ht Hi A. split; [|split; [|split]].
  - constructor; simpl; intros; unfold copy_restriction, copy_interpolation; try (rewrite (sl_clone C wf z L) by auto); auto.
    + apply (sl_add C wf z L); auto.
    + apply (sl_sub C wf z L); auto.
    + apply (sl_mul C wf z L); auto.
    + rewrite (sl_czero C wf z L) by auto. apply (sl_wf0 C wf z L).
    + apply (sl_pack C wf z L); auto.
    + discriminate.
  - constructor; simpl; intros; unfold copy_restriction, copy_interpolation.
    + apply (sl_wf0 C wf z L).
    + apply (sl_comm C wf z L); auto.
    + apply (sl_assoc C wf z L); auto.
    + apply (sl_zero C wf z L); auto.
    + apply (sl_minus C wf z L); auto.
    + apply (sl_clone C wf z L); auto.
    + apply (sl_clone C wf z L), (sl_wf0 C wf z L).
    + apply (sl_clone C wf z L), (sl_wf0 C wf z L).
  - intros l x Hx. simpl. unfold copy_restriction, copy_interpolation. rewrite !(sl_clone C wf z L) by (rewrite ?(sl_clone C wf z L); auto). reflexivity.
  - intros o. split.
    + intros l y Hy. simpl. rewrite <- (sl_mulp C wf z L) by auto. replace (o_weight o + (1 - o_weight o)) with 1 by (simpl; ring).
      apply (sl_mul1 C wf z L); auto.
    + intros E l y x Hy Hx. simpl. rewrite E. rewrite (sl_mul1 C wf z L) by auto. replace (1 - 1) with 0 by ring.
      rewrite (sl_mul0 C wf z L) by auto. apply (sl_zero C wf z L); auto.
Qed.

(** ** C28: pack/unpack *)
(** Sending a vector and unpacking it into any vector of the same size reproduces every attribute. *)
Theorem C28_roundtrip :
  (forall u v : R, c_unpack VectorDahlquist v (c_pack VectorDahlquist u) = u) /\
  (forall u v : Arr, a_size v = a_size u -> c_unpack VectorArr v (c_pack VectorArr u) = u) /\
  (forall u v : Arr2, b_nx v = b_nx u -> b_ny v = b_ny u -> c_unpack VectorArr2 v (c_pack VectorArr2 u) = u) /\
  (forall u v : Orbit, c_unpack VectorOrbit v (c_pack VectorOrbit u) = u) /\
  (forall u v : Mach, m_fs v = m_fs u -> m_ms v = m_ms u -> m_bs v = m_bs u -> c_unpack VectorMachine v (c_pack VectorMachine u) = u).
Proof.
  repeat split; auto.
  - intros [s l] [t k] H. simpl in *. subst. reflexivity.
  - intros [s t l] [s' t' k] H H'. simpl in *. subst. reflexivity.
  - intros [] []. reflexivity.
  - intros [] [] H H' H''. simpl in *. subst. reflexivity.
Qed.
(** VectorHeat1D2Pts does not send dtau (which the BDF steps read): the round trip works exactly if both agree on it. *)
Theorem C28_pair_roundtrip_iff : forall u v : Pair, p_size v = p_size u ->
  (c_unpack VectorPair v (c_pack VectorPair u) = u <-> p_dtau v = p_dtau u).
Proof.
  intros [s d f g] [s' d' f' g'] H. simpl in *. subst. split; [intros X; injection X; auto|intros ->; reflexivity].
Qed.
Theorem C28_pair_roundtrip_refuted : exists u v : Pair, p_size v = p_size u /\ length (p_first v) = length (p_first u) /\
  length (p_second v) = length (p_second u) /\ c_unpack VectorPair v (c_pack VectorPair u) <> u.
Proof.
  exists (mkPair 1 1 [0] [0]), (mkPair 1 2 [0] [0]). repeat split. rewrite C28_pair_roundtrip_iff by reflexivity. simpl. lra.
Qed.
(** VectorMachine.set_values(get_values()): InductionMachine.step relies on it. *)
Lemma py_bound_pos n a : (0 <= a)%Z -> py_bound n a = min n (Z.to_nat a).
Proof. intros H. unfold py_bound. destruct (Z.ltb_spec a 0); lia. Qed.
Lemma py_bound_neg n b : (0 < b)%nat -> py_bound n (- Z.of_nat b) = (n - b)%nat.
Proof. intros H. unfold py_bound. destruct (Z.ltb_spec (- Z.of_nat b) 0); lia. Qed.
Theorem C28_machine_values_roundtrip : forall f m b u v, (0 < b)%nat -> mach_wf f m b u -> m_fs v = f -> m_ms v = m -> m_bs v = b ->
  mach_set v (mach_get u) (m_sc u) = u.
Proof.
  intros f m b [s1 s2 s3 l1 l2 l3 sc] [t1 t2 t3 k1 k2 k3 kc] Hb (H1 & H2 & H3 & H4 & H5 & H6) E1 E2 E3. simpl in *. subst s1 s2 s3 t1 t2 t3.
  unfold mach_set, mach_get, py_slice. cbn [m_fs m_ms m_bs m_front m_middle m_back m_sc].
  rewrite !py_bound_neg, !py_bound_pos by lia. rewrite !app_length, !Nat2Z.id.
  assert (F : skipn (min (length l1 + length l2 + length l3) (Z.to_nat 0)) (firstn (min (length l1 + length l2 + length l3) f) ((l1 ++ l2) ++ l3)) = l1).
  { replace (min (length l1 + length l2 + length l3) (Z.to_nat 0)) with 0%nat by lia. cbn [skipn].
    replace (min (length l1 + length l2 + length l3) f) with (length l1 + 0)%nat by lia. rewrite <- app_assoc, firstn_app_2. apply app_nil_r. }
  assert (M : skipn (min (length l1 + length l2 + length l3) f) (firstn (length l1 + length l2 + length l3 - b) ((l1 ++ l2) ++ l3)) = l2).
  { replace (length l1 + length l2 + length l3 - b)%nat with (length (l1 ++ l2) + 0)%nat by (rewrite app_length; lia).
    rewrite firstn_app_2, app_nil_r. replace (min (length l1 + length l2 + length l3) f) with (length l1) by lia.
    rewrite skipn_app, skipn_all, Nat.sub_diag. reflexivity. }
  assert (B : skipn (length l1 + length l2 + length l3 - b) (firstn (min (length l1 + length l2 + length l3) (length l1 + length l2 + length l3)) ((l1 ++ l2) ++ l3)) = l3).
  { rewrite firstn_all2 by (rewrite !app_length; lia). replace (length l1 + length l2 + length l3 - b)%nat with (length (l1 ++ l2)) by (rewrite app_length; lia).
    rewrite skipn_app, skipn_all, Nat.sub_diag. reflexivity. }
  rewrite F, M, B. reflexivity.
Qed.
(** With an empty back part u[:-0] is empty and u[-0:] everything. *)
Theorem C28_machine_values_roundtrip_refuted : exists u, mach_wf 1 2 0 u /\ mach_set u (mach_get u) (m_sc u) <> u.
Proof.
  exists (mkMach 1 2 0 [1] [2; 3] [] sc0). split; [unfold mach_wf; simpl; auto 6|]. unfold mach_set, mach_get. simpl. intros X.
  apply (f_equal (fun u => length (m_middle u))) in X. simpl in X. discriminate.
Qed.

(** ** C30: transfers *)
Theorem C30_copy_identity : forall (C : VClass) wf z, space_laws C wf z -> forall u, wf u ->
  copy_restriction C u = u /\ copy_interpolation C u = u.
Proof. intros C wf z L u H. split; apply (sl_clone C wf z L); auto. Qed.

Lemma upd_at_length l n x : length (upd_at l n x) = length l.
Proof. revert n. induction l; intros [|n]; simpl; auto. Qed.
Lemma set_at_length l idx v l' : set_at l idx v = Some l' -> length l' = length l.
Proof.
  revert l v. induction idx as [|i idx IH]; intros l [|x v] H; simpl in H; try discriminate; [congruence|].
  destruct (i <? length l)%nat; [|discriminate]. apply IH in H. rewrite upd_at_length in H. exact H.
Qed.
(** Whenever the interpolation to the fine mesh succeeds, restricting its result gives the coarse vector back, and the result
    has the fine size. *)
Theorem C30_machine_restrict_interpolate : forall d f b u v, mach_wf f (sizeStart d) b u -> (sizeStart d <= sizeStop d)%nat ->
  mach_interpolation d u = Some v -> mach_restriction d v = u /\ mach_wf f (sizeStop d) b v.
Proof.
  intros d f b [s1 s2 s3 l1 l2 l3 sc] v (H1 & H2 & H3 & H4 & H5 & H6) Hs H. simpl in *. subst s1 s2 s3. unfold mach_interpolation in H. simpl in H.
  destruct (negb _); [discriminate|]. destruct (negb _); [discriminate|]. rewrite repeat_length in H.
  destruct (Nat.ltb_spec (sizeStop d - sizeStart d) (length l2)) as [|Hl]; [discriminate|].
  destruct (set_at (_ ++ _) (mapInnerNew d) _) as [new1|] eqn:E1; [|discriminate]. destruct (set_at new1 _ _) as [new2|] eqn:E2; [|discriminate].
  injection H as <-. apply set_at_length in E1, E2. rewrite app_length, skipn_length, repeat_length in E1. unfold mach_restriction, mach_wf. simpl. split.
  - rewrite <- H5, firstn_app, Nat.sub_diag, firstn_all. simpl. rewrite app_nil_r. reflexivity.
  - rewrite app_length. repeat split; auto; lia.
Qed.
(** It fails (numpy cannot broadcast line 78) unless the fine mesh has at least twice as many unknowns. *)
Theorem C30_machine_interpolation_total_refuted : forall d u, length (m_middle u) = sizeStart d -> (sizeStop d < 2 * sizeStart d)%nat ->
  mach_interpolation d u = None.
Proof.
  intros d u H1 H2. unfold mach_interpolation. destruct (negb _); auto. destruct (negb _); auto. rewrite repeat_length.
  destruct (Nat.ltb_spec (sizeStop d - sizeStart d) (length (m_middle u))); auto. lia.
Qed.
Example C30_machine_example :
  mach_interpolation (mkMesh 1 3 [0%nat] [] [[0%nat; 1%nat]] [] [[1/2; 1/2]] [] 1 0 [1%nat] []) (mkMach 1 1 1 [5] [7] [9] sc0) =
    Some (mkMach 1 3 1 [5] [7; 7; 7 * (1/2) + (0 * (1/2) + 0)] [9] sc0) /\
  mach_interpolation (mkMesh 2 3 [0%nat] [] [] [] [] [] 0 0 [] []) (mkMach 1 2 1 [5] [7; 8] [9] sc0) = None.
Proof. split; reflexivity. Qed.

(** Full weighting and linear interpolation for n = 2m+1 interior points. *)
Lemma at_upd_at l n x k : (n < length l)%nat -> at_ (upd_at l n x) k = if (k =? n)%nat then x else at_ l k.
Proof.
  revert n k. induction l as [|a l IH]; intros n k H; [simpl in H; lia|]. destruct n, k; simpl in *; auto. unfold at_ in *. simpl. apply IH. lia.
Qed.
Lemma at_add_at l n x k : (n < length l)%nat -> at_ (add_at l n x) k = at_ l k + (if (k =? n)%nat then x else 0).
Proof. intros H. unfold add_at. rewrite at_upd_at by auto. destruct (Nat.eqb_spec k n); [subst; reflexivity|lra]. Qed.
Lemma add_at_length l n x : length (add_at l n x) = length l.
Proof. apply upd_at_length. Qed.
Lemma interp_loop sol m ret k : (2 * m < length ret)%nat ->
  let r := fold_left (fun ret i => add_at (add_at (add_at ret (i * 2) (1 / 2 * at_ sol i)) (i * 2 + 1) (at_ sol i)) (i * 2 + 2) (1 / 2 * at_ sol i)) (seq 0 m) ret in
  length r = length ret /\
  at_ r k = at_ ret k + rsum m (fun i => (if (k =? i * 2)%nat then 1 / 2 * at_ sol i else 0) + (if (k =? i * 2 + 1)%nat then at_ sol i else 0)
                                       + (if (k =? i * 2 + 2)%nat then 1 / 2 * at_ sol i else 0)).
Proof.
  induction m; intros H r.
  - subst r. simpl. split; auto. lra.
  - subst r. rewrite seq_S, fold_left_app. cbn [fold_left rsum]. destruct IHm as [L E]; [lia|].
    set (r := fold_left _ (seq 0 m) ret) in *. rewrite !add_at_length. split; auto.
    rewrite !at_add_at by (rewrite ?add_at_length, ?L; lia). rewrite E. simpl Nat.add. ring.
Qed.
Theorem C30_heat_transfer_shapes : forall m u, arr_wf (2 * m + 1) u -> arr_wf m (heat_restriction u) /\
  (forall v, arr_wf m v -> arr_wf (2 * m + 1) (heat_interpolation v)).
Proof.
  intros m u [H1 H2]. split.
  - unfold heat_restriction, arr_wf. cbn [a_size a_vals]. rewrite tab_length, H2. replace (2 * m + 1 - 1)%nat with (m * 2)%nat by lia. rewrite Nat.div_mul by lia. auto.
  - intros v [H3 H4]. unfold heat_interpolation, arr_wf. cbn [a_size a_vals]. rewrite H4. split; [lia|].
    destruct (interp_loop (a_vals v) m (repeat 0 (m * 2 + 1)) 0) as [L _]; [rewrite repeat_length; lia|]. rewrite L, repeat_length. lia.
Qed.
(** With an even number of interior points the shapes do not match. *)
Theorem C30_heat_transfer_shapes_even_refuted : forall m u, arr_wf (2 * m) u -> a_size (heat_interpolation (heat_restriction u)) <> (2 * m)%nat.
Proof. intros m u [H1 H2]. unfold heat_interpolation, heat_restriction. cbn [a_size a_vals]. rewrite tab_length, H2. lia. Qed.
(** linear interpolation between neighbours, zero outside *)
Definition left_of (v : list R) (i : nat) : R := match i with O => 0 | S j => at_ v j end.
Theorem C30_heat_interpolation_values : forall m v i, arr_wf m v ->
  (forall j, (j < m)%nat -> i = (2 * j + 1)%nat -> at_ (a_vals (heat_interpolation v)) i = at_ (a_vals v) j) /\
  (forall j, (j <= m)%nat -> i = (2 * j)%nat -> at_ (a_vals (heat_interpolation v)) i = (left_of (a_vals v) j + at_ (a_vals v) j) / 2).
Proof.
  intros m v i [H1 H2]. unfold heat_interpolation. cbn [a_vals]. rewrite H2.
  destruct (interp_loop (a_vals v) m (repeat 0 (m * 2 + 1)) i) as [_ E]; [rewrite repeat_length; lia|]. rewrite E, at_zeros. clear E. set (s := a_vals v) in *.
  split; intros j Hj ->.
  - rewrite (rsum_ext m _ (fun i => if (i =? j)%nat then at_ s i else 0)), rsum_delta.
    + destruct (Nat.ltb_spec j m); [lra|lia].
    + intros k Hk. destruct (Nat.eqb_spec k j), (Nat.eqb_spec (2 * j + 1) (k * 2)), (Nat.eqb_spec (2 * j + 1) (k * 2 + 1)), (Nat.eqb_spec (2 * j + 1) (k * 2 + 2)); try lia; lra.
  - rewrite (rsum_ext m _ (fun i => (if (i =? j)%nat then 1 / 2 * at_ s i else 0) + (if (S i =? j)%nat then 1 / 2 * at_ s i else 0))).
    + rewrite rsum_plus, rsum_delta. destruct j as [|j]; simpl left_of.
      * rewrite (rsum_zero m) by (intros; reflexivity). destruct (Nat.ltb_spec 0 m); [lra|]. rewrite (at_out s 0) by lia. lra.
      * rewrite (rsum_ext m _ (fun i => if (i =? j)%nat then 1 / 2 * at_ s i else 0)) by (intros; reflexivity).
        rewrite rsum_delta. destruct (Nat.ltb_spec j m); [|lia]. destruct (Nat.ltb_spec (S j) m); [lra|]. rewrite (at_out s (S j)) by lia. lra.
    + intros k Hk. destruct (Nat.eqb_spec k j), (Nat.eqb_spec (S k) j), (Nat.eqb_spec (2 * j) (k * 2)), (Nat.eqb_spec (2 * j) (k * 2 + 1)), (Nat.eqb_spec (2 * j) (k * 2 + 2)); try lia; lra.
Qed.
Theorem C30_heat_restriction_values : forall m u i, arr_wf (2 * m + 1) u -> (i < m)%nat ->
  at_ (a_vals (heat_restriction u)) i = (at_ (a_vals u) (2 * i) + 2 * at_ (a_vals u) (2 * i + 1) + at_ (a_vals u) (2 * i + 2)) / 4.
Proof.
  intros m u i [H1 H2] Hi. unfold heat_restriction. cbn [a_vals]. rewrite H2. replace (2 * m + 1 - 1)%nat with (m * 2)%nat by lia. rewrite Nat.div_mul by lia.
  rewrite at_tab by auto. field.
Qed.
(** Full weighting is half the transpose of linear interpolation. *)
Definition dot (n : nat) (u v : list R) : R := rsum n (fun i => at_ u i * at_ v i).
Theorem C30_heat_transfer_adjoint : forall m u v, arr_wf (2 * m + 1) u -> arr_wf m v ->
  dot m (a_vals (heat_restriction u)) (a_vals v) = / 2 * dot (2 * m + 1) (a_vals u) (a_vals (heat_interpolation v)).
Proof.
  intros m u v Hu Hv. unfold dot. set (s := a_vals v). set (w := a_vals u).
  assert (Hs : length s = m) by apply Hv.
  rewrite (rsum_ext m _ (fun i => (at_ w (2 * i) + 2 * at_ w (2 * i + 1) + at_ w (2 * i + 2)) / 4 * at_ s i)) by (intros; unfold s, w; rewrite (C30_heat_restriction_values m) by auto; reflexivity).
  rewrite (rsum_ext (2 * m + 1) _ (fun k => at_ w k * rsum m (fun i => (if (k =? i * 2)%nat then 1 / 2 * at_ s i else 0) + (if (k =? i * 2 + 1)%nat then at_ s i else 0)
                                       + (if (k =? i * 2 + 2)%nat then 1 / 2 * at_ s i else 0)))).
  2:{ intros k Hk. f_equal. unfold heat_interpolation. cbn [a_vals]. fold s. rewrite Hs.
      destruct (interp_loop s m (repeat 0 (m * 2 + 1)) k) as [_ E]; [rewrite repeat_length; lia|]. rewrite E, at_zeros. lra. }
  rewrite (rsum_ext (2 * m + 1) _ (fun k => rsum m (fun i => (if (k =? i * 2)%nat then at_ w k * (1 / 2 * at_ s i) else 0) + (if (k =? i * 2 + 1)%nat then at_ w k * at_ s i else 0)
                                       + (if (k =? i * 2 + 2)%nat then at_ w k * (1 / 2 * at_ s i) else 0)))).
  2:{ intros k Hk. rewrite <- rsum_scal. apply rsum_ext. intros i Hi. destruct (k =? i * 2)%nat, (k =? i * 2 + 1)%nat, (k =? i * 2 + 2)%nat; ring. }
  rewrite rsum_swap, <- rsum_scal. apply rsum_ext. intros i Hi. rewrite !rsum_plus, !rsum_delta.
  destruct (Nat.ltb_spec (i * 2) (2 * m + 1)), (Nat.ltb_spec (i * 2 + 1) (2 * m + 1)), (Nat.ltb_spec (i * 2 + 2) (2 * m + 1)); try lia.
  replace (2 * i)%nat with (i * 2)%nat by lia. field.
Qed.
Example C30_heat_example : a_vals (heat_interpolation (mkArr 1 [4])) = [0 + 1 / 2 * 4; 0 + 4; 0 + 1 / 2 * 4] /\
  a_vals (heat_restriction (mkArr 3 [2; 4; 2])) = [2 * 1 / 4 + 4 * 1 / 2 + 2 * 1 / 4].
Proof. split; reflexivity. Qed.

Print Assumptions C29_array_laws.
Print Assumptions C29_solver_hypotheses.
Print Assumptions C28_roundtrip.
Print Assumptions C28_machine_values_roundtrip.
Print Assumptions C30_heat_transfer_adjoint.
Print Assumptions C30_machine_restrict_interpolate.
