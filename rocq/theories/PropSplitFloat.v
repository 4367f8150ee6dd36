(** C06 for the code as written, i.e. with [n / p] and [+ 1] evaluated in double precision. *)
From Coq Require Import List ZArith Lia Arith Bool.
From Verif Require Import PyList Setup SplitProofs SplitFloat.
Import ListNotations.

(** For fewer than 2^52 points the floating-point evaluation gives exactly the integer block sizes of [split_into], so
    [C06_split_into] and [C06_blocks_tile] hold for the code. *)
Lemma map_repeat_ {A B} (f : A -> B) x n : map f (repeat x n) = repeat (f x) n.
Proof. induction n as [|n IH]; simpl; congruence. Qed.

Theorem C06_float_split_into :
  forall n p, 0 < p -> p <= n -> (Z.of_nat n < 2 ^ 52)%Z -> split_into_float n p = map Z.of_nat (split_into n p).
Proof.
  intros n p Hp Hn H. unfold split_into_float, split_into. rewrite map_app, !map_repeat_.
  rewrite trunc_fadd1, trunc_fdiv by lia. rewrite <- Nat2Z.inj_div. f_equal. f_equal. lia.
Qed.
Example C06_float_example : split_into_float 17 5 = [4; 4; 3; 3; 3]%Z.
Proof. reflexivity. Qed.

(** The small block size is right up to 2^53 ... *)
Theorem C06_float_quotient :
  forall n p, (0 < p <= n)%Z -> (n < 2 ^ 53)%Z -> ftrunc (fdiv n p) = (n / p)%Z.
Proof. intros n p H H'. apply trunc_fdiv; lia. Qed.
Example C06_float_quotient_example : ftrunc (fdiv (2 ^ 53 - 1) 3) = ((2 ^ 53 - 1) / 3)%Z /\ fdiv (2 ^ 53 - 1) (2 ^ 52) = (2 ^ 53 - 1, -52)%Z.
Proof. split; reflexivity. Qed.

(** ... but the large one is not: for 2^53 - 1 points on 2^52 processes, n / p + 1 rounds up to 3 and the block sizes do
    not sum to n. So the bound 2^53 of the property as first stated is refuted. *)
Theorem C06_float_sum_below_2_53_refuted :
  ~ (forall n p, 0 < p -> p <= n -> (Z.of_nat n < 2 ^ 53)%Z -> fold_right Z.add 0%Z (split_into_float n p) = Z.of_nat n).
Proof.
  assert (S : forall x k, fold_right Z.add 0%Z (repeat x k) = (Z.of_nat k * x)%Z).
  { intros x. induction k as [|k IH]; [reflexivity|]. cbn [repeat fold_right]. rewrite IH. lia. }
  assert (F : forall l l', fold_right Z.add 0%Z (l ++ l') = (fold_right Z.add 0 l + fold_right Z.add 0 l')%Z).
  { induction l as [|x l IH]; intros l'; [reflexivity|]. cbn [app fold_right]. rewrite IH. lia. }
  intros H. destruct (Z_of_nat_complete (2 ^ 53 - 1) ltac:(discriminate)) as [n Zn].
  destruct (Z_of_nat_complete (2 ^ 52) ltac:(discriminate)) as [p Zp]. symmetry in Zn, Zp.
  specialize (H n p ltac:(lia) ltac:(lia) ltac:(lia)). unfold split_into_float in H. rewrite F, !S in H.
  rewrite Nat2Z.inj_sub in H by (apply Nat.lt_le_incl, Nat.mod_upper_bound; lia). rewrite Nat2Z.inj_mod, Zn, Zp in H.
  vm_compute in H. discriminate.
Qed.
Print Assumptions C06_float_split_into.
Print Assumptions C06_float_quotient.
Print Assumptions C06_float_sum_below_2_53_refuted.
