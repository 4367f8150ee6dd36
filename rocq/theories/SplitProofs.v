(** split_into and split_points tile the index range. *)
From Coq Require Import List ZArith Lia Arith Bool Sorted Permutation.
From Verif Require Import PyList ListFacts Setup.
Import ListNotations.

Definition starts (n p r : nat) : nat := list_sum (firstn r (split_into n p)).

Lemma split_into_length n p : 0 < p -> length (split_into n p) = p.
Proof.
  intros H. unfold split_into. rewrite app_length, !repeat_length. pose proof (Nat.mod_upper_bound n p). lia.
Qed.

Lemma nth_repeat_lt {A} (x d : A) n i : i < n -> nth i (repeat x n) d = x.
Proof. revert i. induction n as [|n IH]; intros [|i] H; simpl; try lia; auto. apply IH. lia. Qed.

Lemma split_into_nth n p r : r < p ->
  nth r (split_into n p) 0 = n / p + (if r <? n mod p then 1 else 0).
Proof.
  intros H. unfold split_into. destruct (r <? n mod p) eqn:E.
  - apply Nat.ltb_lt in E. rewrite app_nth1 by (rewrite repeat_length; lia). apply nth_repeat_lt; auto.
  - apply Nat.ltb_ge in E. rewrite app_nth2 by (rewrite repeat_length; lia). rewrite repeat_length.
    rewrite nth_repeat_lt; [lia|]. lia.
Qed.

Lemma firstn_S_sum (l : list nat) r : list_sum (firstn (S r) l) = list_sum (firstn r l) + nth r l 0.
Proof.
  revert r. induction l as [|a l IH]; intros [|r]; simpl in *; try lia.
  rewrite IH. lia.
Qed.

Lemma starts_S n p r : r < p -> starts n p (S r) = starts n p r + (n / p + (if r <? n mod p then 1 else 0)).
Proof. intros H. unfold starts. rewrite firstn_S_sum, split_into_nth; auto. Qed.

Lemma starts_eq n p r : r <= p -> starts n p r = r * (n / p) + Nat.min r (n mod p).
Proof.
  induction r as [|r IH]; intros H; [reflexivity|]. rewrite starts_S by lia. rewrite IH by lia.
  destruct (r <? n mod p) eqn:E; [apply Nat.ltb_lt in E|apply Nat.ltb_ge in E]; lia.
Qed.

Lemma starts_0 n p : starts n p 0 = 0.
Proof. reflexivity. Qed.

Lemma starts_last n p : 0 < p -> starts n p p = n.
Proof.
  intros H. rewrite starts_eq by lia. pose proof (Nat.mod_upper_bound n p).
  pose proof (Nat.div_mod n p). lia.
Qed.

Lemma starts_lt n p r : r < p -> p <= n -> starts n p r < starts n p (S r).
Proof.
  intros H Hn. rewrite starts_S by auto. assert (1 <= n / p); [|lia].
  apply Nat.div_le_lower_bound; lia.
Qed.

Lemma starts_mono n p r r' : r <= r' -> r' <= p -> starts n p r <= starts n p r'.
Proof.
  intros H. induction H as [|r' H IH]; intros Hp; [lia|]. rewrite starts_S by lia. specialize (IH ltac:(lia)). lia.
Qed.

Lemma starts_le n p r : 0 < p -> r <= p -> starts n p r <= n.
Proof. intros H Hr. rewrite <- (starts_last n p H) at 2. apply starts_mono; lia. Qed.

Lemma starts_lt_n n p r : r < p -> p <= n -> starts n p r < n.
Proof.
  intros H Hn. pose proof (starts_lt n p r H Hn). pose proof (starts_le n p (S r)). lia.
Qed.

Lemma starts_pos n p r : 0 < r -> r <= p -> p <= n -> 0 < starts n p r.
Proof.
  intros H Hr Hn. pose proof (starts_lt n p 0 ltac:(lia) Hn). pose proof (starts_mono n p 1 r). rewrite starts_0 in *. lia.
Qed.

Lemma split_points_eq n p r : r < p -> p <= n ->
  split_points n p r = (starts n p (S r) - starts n p r, starts n p r).
Proof.
  intros H Hn. unfold split_points.
  pose proof (starts_lt n p r H Hn) as K. unfold starts in *. rewrite firstn_S_sum in *.
  replace (0 <? nth r (split_into n p) 0) with true by (symmetry; apply Nat.ltb_lt; lia).
  f_equal. lia.
Qed.

Lemma cumsum_nth a l i : i < length l -> nth i (cumsum_from a l) 0 = a + list_sum (firstn (S i) l).
Proof.
  revert a i. induction l as [|x l IH]; intros a i H; simpl in *; [lia|].
  destruct i as [|i]; [simpl; lia|]. rewrite IH by lia. simpl. lia.
Qed.
Lemma cumsum_length a l : length (cumsum_from a l) = length l.
Proof. revert a. induction l; simpl; auto. Qed.

(** The rank whose block contains fine index [i]. *)
Lemma block_owner n p i : p <= n -> 0 < p -> i < n -> exists r, r < p /\ starts n p r <= i < starts n p (S r).
Proof.
  intros Hp H0 Hi. assert (G : forall k, k <= p -> i < starts n p k -> exists r, r < k /\ starts n p r <= i < starts n p (S r)).
  { induction k as [|k IH]; intros Hk Hl; [rewrite starts_0 in Hl; lia|].
    destruct (le_lt_dec (starts n p k) i) as [C|C].
    - exists k. lia.
    - destruct (IH ltac:(lia) C) as (r & ? & ?). exists r. lia. }
  apply G; [lia|]. rewrite starts_last; auto.
Qed.
