(** Auxiliary facts about lists. *)
From Coq Require Import List ZArith Lia Arith Bool Sorted Permutation.
From Verif Require Import PyList.
Import ListNotations.

Lemma ssorted_ext (l1 l2 : list nat) :
  StronglySorted lt l1 -> StronglySorted lt l2 -> (forall x, In x l1 <-> In x l2) -> l1 = l2.
Proof.
  revert l2. induction l1 as [|a l1 IH]; intros [|b l2] H1 H2 E.
  - reflexivity.
  - exfalso. apply (proj2 (E b)). left; reflexivity.
  - exfalso. apply (proj1 (E a)). left; reflexivity.
  - inversion H1 as [|? ? S1 F1]; subst. inversion H2 as [|? ? S2 F2]; subst.
    rewrite Forall_forall in F1, F2.
    assert (a = b).
    { destruct (proj1 (E a) (or_introl eq_refl)) as [X|X]; [auto|].
      destruct (proj2 (E b) (or_introl eq_refl)) as [Y|Y]; [auto|].
      apply F2 in X. apply F1 in Y. lia. }
    subst b. f_equal. apply IH; auto. intros x. specialize (E x). simpl in E. split; intros Hx.
    + destruct (proj1 E (or_intror Hx)) as [->|]; [|auto]. apply F1 in Hx. lia.
    + destruct (proj2 E (or_intror Hx)) as [->|]; [|auto]. apply F2 in Hx. lia.
Qed.

Lemma where_from_in {A} (f : A -> bool) l n i d :
  In i (where_from n f l) <-> n <= i < n + length l /\ f (nth (i - n) l d) = true.
Proof.
  revert n. induction l as [|x l IH]; intros n; simpl.
  - split; [tauto|]. intros [? _]. lia.
  - destruct (f x) eqn:F; simpl; rewrite IH.
    + split.
      * intros [->|[H1 H2]].
        -- rewrite Nat.sub_diag. split; [lia|auto].
        -- split; [lia|]. replace (i - n) with (S (i - S n)) by lia. exact H2.
      * intros [H1 H2]. destruct (Nat.eq_dec n i) as [->|N]; [auto|]. right. split; [lia|].
        replace (i - n) with (S (i - S n)) in H2 by lia. exact H2.
    + split.
      * intros [H1 H2]. split; [lia|]. replace (i - n) with (S (i - S n)) by lia. exact H2.
      * intros [H1 H2]. destruct (Nat.eq_dec n i) as [->|N].
        -- rewrite Nat.sub_diag in H2. congruence.
        -- split; [lia|]. replace (i - n) with (S (i - S n)) in H2 by lia. exact H2.
Qed.

Lemma where_from_sorted {A} (f : A -> bool) l n : StronglySorted lt (where_from n f l).
Proof.
  revert n. induction l as [|x l IH]; intros n; simpl; [constructor|].
  destruct (f x); [|apply IH]. constructor; [apply IH|]. apply Forall_forall. intros y Hy.
  apply (where_from_in f l (S n) y x) in Hy. lia.
Qed.

Lemma np_where_in {A} (f : A -> bool) l i d : In i (np_where f l) <-> i < length l /\ f (nth i l d) = true.
Proof.
  unfold np_where. rewrite (where_from_in f l 0 i d). rewrite Nat.sub_0_r. split; intros [? ?]; split; auto; lia.
Qed.

Lemma np_where_sorted {A} (f : A -> bool) l : StronglySorted lt (np_where f l).
Proof. apply where_from_sorted. Qed.

Lemma seq_sorted a n : StronglySorted lt (seq a n).
Proof.
  revert a. induction n as [|n IH]; intros a; simpl; constructor; auto.
  apply Forall_forall. intros x Hx. apply in_seq in Hx. lia.
Qed.

Lemma filter_sorted {A} (R : A -> A -> Prop) f l : StronglySorted R l -> StronglySorted R (filter f l).
Proof.
  induction 1 as [|a l H IH F]; simpl; [constructor|]. destruct (f a); auto. constructor; auto.
  rewrite Forall_forall in *. intros x Hx. apply filter_In in Hx. apply F; tauto.
Qed.

Lemma ssorted_nodup l : StronglySorted lt l -> NoDup l.
Proof.
  induction 1 as [|a l H IH F]; constructor; auto. rewrite Forall_forall in F. intros X. apply F in X. lia.
Qed.

Lemma memn_in x l : memn x l = true <-> In x l.
Proof.
  unfold memn. rewrite existsb_exists. split.
  - intros (y & H & E). apply Nat.eqb_eq in E. subst. exact H.
  - intros H. exists x. split; [exact H|apply Nat.eqb_refl].
Qed.
Lemma memn_false x l : memn x l = false <-> ~ In x l.
Proof. rewrite <- memn_in. destruct (memn x l); split; congruence. Qed.
Lemma memz_in x l : memz x l = true <-> In x l.
Proof.
  unfold memz. rewrite existsb_exists. split.
  - intros (y & H & E). apply Z.eqb_eq in E. subst. exact H.
  - intros H. exists x. split; [exact H|apply Z.eqb_refl].
Qed.
Lemma memz_false x l : memz x l = false <-> ~ In x l.
Proof. rewrite <- memz_in. destruct (memz x l); split; congruence. Qed.

(** Strictly increasing lists of times, by index. *)
Definition incr (l : list Z) : Prop := forall i j, i < j -> j < length l -> (nth i l 0 < nth j l 0)%Z.

Lemma ssorted_incr l : StronglySorted Z.lt l -> incr l.
Proof.
  induction 1 as [|a l H IH F]; intros i j Hij Hj; simpl in *; [lia|].
  destruct j as [|j]; [lia|]. destruct i as [|i].
  - rewrite Forall_forall in F. apply F. apply nth_In. lia.
  - apply IH; lia.
Qed.

Lemma incr_le l i j : incr l -> i <= j -> j < length l -> (nth i l 0 <= nth j l 0)%Z.
Proof. intros H Hij Hj. destruct (Nat.eq_dec i j) as [->|N]; [lia|]. specialize (H i j). lia. Qed.

Lemma incr_inj l i j : incr l -> i < length l -> j < length l -> nth i l 0%Z = nth j l 0%Z -> i = j.
Proof.
  intros H Hi Hj E. destruct (lt_eq_lt_dec i j) as [[C|C]|C]; auto.
  - specialize (H i j C Hj). lia.
  - specialize (H j i C Hi). lia.
Qed.

Lemma incr_lt_iff l i j : incr l -> i < length l -> j < length l -> ((nth i l 0 < nth j l 0)%Z <-> i < j).
Proof.
  intros H Hi Hj. split; [|intros; apply H; auto].
  intros E. destruct (le_lt_dec j i) as [C|C]; [|auto]. pose proof (incr_le l j i H C Hi). lia.
Qed.

Lemma incr_le_iff l i j : incr l -> i < length l -> j < length l -> ((nth i l 0 <= nth j l 0)%Z <-> i <= j).
Proof.
  intros H Hi Hj. split; [|intros; apply incr_le; auto].
  intros E. destruct (le_lt_dec i j) as [C|C]; [auto|]. pose proof (H j i C Hi). lia.
Qed.

Lemma searchsorted_le l x : searchsorted l x <= length l.
Proof. induction l; simpl; [lia|]. destruct (a <? x)%Z; lia. Qed.

Lemma incr_tail a l : incr (a :: l) -> incr l.
Proof. intros H i j Hij Hj. apply (H (S i) (S j)); simpl; lia. Qed.

Lemma searchsorted_spec l x i : incr l -> i < length l -> ((nth i l 0 < x)%Z <-> i < searchsorted l x).
Proof.
  revert i. induction l as [|a l IH]; intros i H Hi; simpl in *; [lia|].
  destruct (a <? x)%Z eqn:C.
  - apply Z.ltb_lt in C. destruct i as [|i]; [split; lia|].
    rewrite IH; [split; lia|eapply incr_tail; eauto|lia].
  - apply Z.ltb_ge in C. split; [|lia]. intros E. exfalso.
    pose proof (incr_le (a :: l) 0 i H ltac:(lia) ltac:(simpl; lia)) as K. simpl in K. lia.
Qed.

Lemma searchsorted_unique l x k : incr l -> k <= length l ->
  (forall i, i < k -> (nth i l 0 < x)%Z) -> (forall i, k <= i -> i < length l -> (x <= nth i l 0)%Z) ->
  searchsorted l x = k.
Proof.
  intros H Hk A B. pose proof (searchsorted_le l x) as U.
  destruct (lt_eq_lt_dec (searchsorted l x) k) as [[C|C]|C]; auto.
  - specialize (A _ C). apply searchsorted_spec in A; [lia|auto|lia].
  - specialize (B k (le_n _) ltac:(lia)). pose proof (proj2 (searchsorted_spec l x k H ltac:(lia)) C). lia.
Qed.

Lemma sequence_map_some {A B} (f : A -> option B) (g : A -> B) l :
  (forall x, In x l -> f x = Some (g x)) -> sequence (map f l) = Some (map g l).
Proof.
  induction l as [|x l IH]; intros H; simpl; [reflexivity|].
  rewrite (H x (or_introl eq_refl)), IH; [reflexivity|]. intros y Hy. apply H. right; auto.
Qed.

Lemma sequence_some_len {A} (l : list (option A)) r : sequence l = Some r -> length r = length l.
Proof.
  revert r. induction l as [|[x|] l IH]; simpl; intros r H; [inversion H; reflexivity| |discriminate].
  destruct (sequence l) as [r'|]; [|discriminate]. inversion H; subst. simpl. f_equal. apply IH. reflexivity.
Qed.

Lemma sequence_some_nth {A} (l : list (option A)) r : sequence l = Some r ->
  forall i, i < length l -> exists x, nth_error l i = Some (Some x) /\ nth_error r i = Some x.
Proof.
  revert r. induction l as [|[x|] l IH]; simpl; intros r H i Hi; [lia| |discriminate].
  destruct (sequence l) as [r'|]; [|discriminate]. inversion H; subst.
  destruct i as [|i]; simpl.
  - exists x. auto.
  - apply IH; [reflexivity|lia].
Qed.

Lemma upd_length {A} (l : list A) n x : length (upd l n x) = length l.
Proof. revert n. induction l as [|y l IH]; intros [|n]; simpl; auto. Qed.

Lemma upd_nth_same {A} (l : list A) n x : n < length l -> nth_error (upd l n x) n = Some x.
Proof. revert n. induction l as [|y l IH]; intros [|n] H; simpl in *; try lia; auto. apply IH. lia. Qed.

Lemma upd_nth_other {A} (l : list A) n m x : n <> m -> nth_error (upd l n x) m = nth_error l m.
Proof.
  revert n m. induction l as [|y l IH]; intros [|n] [|m] H; simpl; auto; try lia.
Qed.

Lemma upd_nth {A} (l : list A) n m x : n < length l ->
  nth_error (upd l n x) m = if m =? n then Some x else nth_error l m.
Proof.
  intros H. destruct (m =? n) eqn:E.
  - apply Nat.eqb_eq in E. subst. apply upd_nth_same; auto.
  - apply Nat.eqb_neq in E. apply upd_nth_other; auto.
Qed.

Lemma py_nth_nat {A} (l : list A) (i : nat) : py_nth l (Z.of_nat i) = nth_error l i.
Proof.
  unfold py_nth. replace (0 <=? Z.of_nat i)%Z with true by (symmetry; apply Z.leb_le; lia).
  rewrite Nat2Z.id. reflexivity.
Qed.

Lemma py_nth_pred {A} (l : list A) (i : nat) : 0 < i -> py_nth l (Z.of_nat i - 1) = nth_error l (i - 1).
Proof. intros H. replace (Z.of_nat i - 1)%Z with (Z.of_nat (i - 1)) by lia. apply py_nth_nat. Qed.

Lemma py_nth_last {A} (l : list A) : l <> [] -> py_nth l (-1) = nth_error l (length l - 1).
Proof.
  intros H. destruct l as [|a l]; [congruence|]. unfold py_nth. simpl (0 <=? -1)%Z. cbv iota.
  replace (0 <=? Z.of_nat (length (a :: l)) + -1)%Z with true by (symmetry; apply Z.leb_le; cbn [length]; lia).
  apply (f_equal (nth_error (a :: l))). cbn [length]. lia.
Qed.

Lemma py_upd_nat {A} (l : list A) (i : nat) x : i < length l -> py_upd l (Z.of_nat i) x = Some (upd l i x).
Proof.
  intros H. unfold py_upd. replace (0 <=? Z.of_nat i)%Z with true by (symmetry; apply Z.leb_le; lia).
  replace (Z.of_nat i <? Z.of_nat (length l))%Z with true by (symmetry; apply Z.ltb_lt; lia).
  rewrite Nat2Z.id. reflexivity.
Qed.

Lemma skipn_seq k n a : skipn k (seq a n) = seq (a + k) (n - k).
Proof.
  revert k a. induction n as [|n IH]; intros [|k] a; simpl; auto.
  - rewrite Nat.add_0_r. reflexivity.
  - rewrite IH. f_equal. lia.
Qed.
Lemma firstn_seq k n a : firstn k (seq a n) = seq a (min k n).
Proof. revert k a. induction n as [|n IH]; intros [|k] a; simpl; auto. rewrite IH. reflexivity. Qed.

Lemma nth_error_seq n a i : i < n -> nth_error (seq a n) i = Some (a + i).
Proof.
  revert a i. induction n as [|n IH]; intros a i H; [lia|]. destruct i as [|i]; simpl.
  - f_equal; lia.
  - rewrite IH by lia. f_equal; lia.
Qed.

Lemma last_seq a n : 0 < n -> last (seq a n) 0 = a + n - 1.
Proof.
  intros H. destruct n as [|n]; [lia|]. rewrite seq_S, last_last. lia.
Qed.

(** runs / fpts2 *)
Lemma runs_concat l : concat (runs l) = l.
Proof.
  induction l as [|x l IH]; simpl; [reflexivity|].
  destruct (runs l) as [|[|y ys] rest] eqn:E; simpl in *.
  - rewrite <- IH; reflexivity.
  - rewrite <- IH. reflexivity.
  - destruct (y =? S x); simpl; rewrite <- IH; reflexivity.
Qed.

Lemma concat_rev_perm {A} (ll : list (list A)) : Permutation (concat (rev ll)) (concat ll).
Proof.
  induction ll as [|l ll IH]; simpl; [constructor|].
  rewrite concat_app. simpl. rewrite app_nil_r.
  eapply Permutation_trans; [apply Permutation_app_comm|]. apply Permutation_app_head. exact IH.
Qed.

Lemma fpts2_perm l : Permutation (concat (rev (runs l))) l.
Proof. eapply Permutation_trans; [apply concat_rev_perm|]. rewrite runs_concat. apply Permutation_refl. Qed.

Lemma np_max_ge l x : In x l -> x <= np_max l.
Proof.
  unfold np_max. assert (G : forall l a, a <= fold_left Nat.max l a /\ (In x l -> x <= fold_left Nat.max l a)).
  { clear. induction l as [|b l IH]; simpl; intros a; [split; [lia|tauto]|].
    destruct (IH (Nat.max a b)) as [I1 I2]. split; [lia|]. intros [->|H]; [lia|auto]. }
  apply G.
Qed.
Lemma np_max_in l : l <> [] -> In (np_max l) l.
Proof.
  unfold np_max. assert (G : forall l a, fold_left Nat.max l a = a \/ In (fold_left Nat.max l a) l).
  { clear. induction l as [|b l IH]; simpl; intros a; [auto|].
    destruct (IH (Nat.max a b)) as [I1|I1]; [|auto]. rewrite I1.
    destruct (Nat.max_spec a b) as [[? ->]|[? ->]]; auto. }
  intros H. destruct (G l 0) as [E|]; [|auto]. destruct l as [|a l]; [congruence|].
  destruct (Nat.eq_dec a 0) as [->|N]; [rewrite E; left; auto|].
  exfalso. pose proof (np_max_ge (a :: l) a (or_introl eq_refl)) as X. unfold np_max in X. rewrite E in X. lia.
Qed.
Lemma np_min_spec l : l <> [] -> In (np_min l) l /\ forall x, In x l -> np_min l <= x.
Proof.
  destruct l as [|a l]; [congruence|]. intros _. unfold np_min.
  revert a. induction l as [|b l IH]; intros a; simpl; [split; [auto|intros x [->|[]]; lia]|].
  destruct (IH (Nat.min a b)) as [I1 I2]. split.
  - destruct I1 as [E|E]; [|right; right; exact E]. rewrite <- E. destruct (Nat.min_spec a b) as [[? M]|[? M]]; rewrite M.
    + left; reflexivity.
    + right; left; reflexivity.
  - intros x [->|[->|H]].
    + pose proof (I2 _ (or_introl eq_refl)). lia.
    + pose proof (I2 _ (or_introl eq_refl)). lia.
    + apply I2. right; exact H.
Qed.
