(** split_into with the double-precision division of the code.
    Models /repo/src/pymgrit/core/mgrit.py 829-838: [int(n / p + 1)] and [int(n / p)] evaluated in IEEE double precision.
    Python's int / int is the correctly rounded quotient; [+ 1] is a double addition; [int] truncates. Only positive
    values in the normal range occur, so subnormals, infinities and signed zeros are not modelled. *)
From Coq Require Import List ZArith Lia Arith Bool.
From Verif Require Import Setup SplitProofs.
Import ListNotations.
Local Open Scope Z_scope.

(** a / b (b > 0) rounded to the nearest integer, ties to even *)
Definition rne (a b : Z) : Z :=
  let q := a / b in
  let r := a mod b in
  if 2 * r <? b then q else if b <? 2 * r then q + 1 else if Z.even q then q else q + 1.

(** A positive double: mantissa (below or equal 2^53) and exponent; its value is m * 2^e. *)
Definition dbl : Type := (Z * Z)%type.

(** floor(log2(a / b)) for positive a, b *)
Definition flog2 (a b : Z) : Z :=
  if b <=? a then Z.log2 (a / b) else - Z.log2_up ((b + a - 1) / a).

(** The double nearest to a / b: 53-bit mantissa, round to nearest even. *)
Definition round_ratio (a b : Z) : dbl :=
  let e := flog2 a b - 52 in
  (rne (a * 2 ^ (Z.max 0 (- e))) (b * 2 ^ (Z.max 0 e)), e).

(** n / p *)
Definition fdiv (n p : Z) : dbl := round_ratio n p.
(** x + 1 *)
Definition fadd1 (x : dbl) : dbl :=
  let '(m, e) := x in
  round_ratio (m * 2 ^ (Z.max 0 e) + 2 ^ (Z.max 0 (- e))) (2 ^ (Z.max 0 (- e))).
(** int(x) *)
Definition ftrunc (x : dbl) : Z := let '(m, e) := x in (m * 2 ^ (Z.max 0 e)) / 2 ^ (Z.max 0 (- e)).

(** mgrit.py 837-838 *)
Definition split_into_float (n p : nat) : list Z :=
  repeat (ftrunc (fadd1 (fdiv (Z.of_nat n) (Z.of_nat p)))) (n mod p)%nat ++
  repeat (ftrunc (fdiv (Z.of_nat n) (Z.of_nat p))) (p - n mod p)%nat.

(** *** Rounding *)
Lemma rne_bounds a b : 0 < b -> 2 * a - b <= 2 * (b * rne a b) <= 2 * a + b.
Proof.
  intros Hb. unfold rne. pose proof (Z.div_mod a b ltac:(lia)) as E. pose proof (Z.mod_pos_bound a b Hb).
  destruct (Z.ltb_spec (2 * (a mod b)) b); [nia|]. destruct (Z.ltb_spec b (2 * (a mod b))); [nia|].
  destruct (Z.even (a / b)); nia.
Qed.
Lemma rne_exact a b : 0 < b -> rne (b * a) b = a.
Proof.
  intros Hb. pose proof (rne_bounds (b * a) b Hb) as [H1 H2].
  assert (- 1 < 2 * (rne (b * a) b - a) < 2) by nia.
  assert (b * (2 * (rne (b * a) b - a)) <= b) by nia. unfold rne in *. nia.
Qed.
Lemma rne_upper a b c : 0 < b -> 2 * a < b * (2 * c + 1) -> rne a b <= c.
Proof. intros Hb H. pose proof (rne_bounds a b Hb). nia. Qed.
Lemma rne_lower a b c : 0 < b -> b * c <= a -> c <= rne a b.
Proof. intros Hb H. pose proof (rne_bounds a b Hb). nia. Qed.

Lemma flog2_spec a b : 0 < b -> b <= a -> 0 <= flog2 a b /\ 2 ^ flog2 a b * b <= a < 2 ^ (flog2 a b + 1) * b.
Proof.
  intros Hb Ha. unfold flog2. destruct (Z.leb_spec b a); [|lia].
  assert (Q : 0 < a / b) by (apply Z.div_str_pos; lia). pose proof (Z.log2_spec _ Q) as [L1 L2].
  pose proof (Z.div_mod a b ltac:(lia)) as E. pose proof (Z.mod_pos_bound a b Hb).
  split; [apply Z.log2_nonneg|]. rewrite Z.add_1_r. nia.
Qed.
Lemma flog2_unique a b k : 0 < b -> b <= a -> 0 <= k -> 2 ^ k * b <= a < 2 ^ (k + 1) * b -> flog2 a b = k.
Proof.
  intros Hb Ha Hk [K1 K2]. destruct (flog2_spec a b Hb Ha) as (F0 & F1 & F2).
  assert (2 ^ k < 2 ^ (flog2 a b + 1)) by nia. assert (2 ^ flog2 a b < 2 ^ (k + 1)) by nia.
  apply Z.pow_lt_mono_r_iff in H; try lia. apply Z.pow_lt_mono_r_iff in H0; lia.
Qed.
Lemma pow2_split k : 0 <= k <= 52 -> 2 ^ 52 = 2 ^ k * 2 ^ (52 - k).
Proof. intros H. rewrite <- Z.pow_add_r by lia. f_equal. lia. Qed.

(** The quotient: exponent and mantissa. *)
Lemma fdiv_eq n p : 0 < p -> p <= n -> n < 2 ^ 53 -> exists k m, 0 <= k <= 52 /\ 2 ^ k * p <= n < 2 ^ (k + 1) * p /\
  fdiv n p = (m, k - 52) /\ m = rne (n * 2 ^ (52 - k)) p.
Proof.
  intros Hp Hn H53. destruct (flog2_spec n p Hp Hn) as (F0 & F1 & F2). set (k := flog2 n p) in *.
  assert (K : k <= 52).
  { assert (2 ^ k < 2 ^ 53) by nia. apply Z.pow_lt_mono_r_iff in H; lia. }
  exists k, (rne (n * 2 ^ (52 - k)) p). split; [lia|]. split; [lia|]. split; [|reflexivity].
  unfold fdiv, round_ratio. fold k. rewrite !Z.max_r, Z.max_l by lia. f_equal. f_equal; [f_equal; f_equal; lia|]. simpl. lia.
Qed.

Lemma ftrunc_neg m k : 0 <= k <= 52 -> ftrunc (m, k - 52) = m / 2 ^ (52 - k).
Proof.
  intros Hk. unfold ftrunc. rewrite Z.max_l, Z.max_r by lia. f_equal; [simpl; lia|]. f_equal. lia.
Qed.
Lemma div_unique_range a b q : 0 < b -> b * q <= a < b * (q + 1) -> a / b = q.
Proof. intros Hb H. symmetry. apply (Z.div_unique a b q (a - b * q)); [left; lia|ring]. Qed.

(** int(n / p) is the integer quotient for all n below 2^53. *)
Lemma trunc_fdiv n p : 0 < p -> p <= n -> n < 2 ^ 53 -> ftrunc (fdiv n p) = n / p.
Proof.
  intros Hp Hn H53. destruct (fdiv_eq n p Hp Hn H53) as (k & m & Hk & [K1 K2] & -> & ->). rewrite ftrunc_neg by lia.
  pose proof (pow2_split k Hk) as E. pose proof (Z.pow_pos_nonneg 2 (52 - k) ltac:(lia) ltac:(lia)) as P1.
  pose proof (Z.pow_pos_nonneg 2 k ltac:(lia) ltac:(lia)) as P2.
  pose proof (Z.div_mod n p ltac:(lia)) as D. pose proof (Z.mod_pos_bound n p Hp) as M. set (q := n / p) in *. set (u := n mod p) in *.
  set (w := 2 ^ (52 - k)) in *. apply div_unique_range; [lia|]. split.
  - apply rne_lower; nia.
  - assert (rne (n * w) p <= w * (q + 1) - 1); [|lia].
    apply rne_upper; [lia|]. assert (p < 2 * w) by (change (2 ^ 53) with (2 * 2 ^ 52) in H53; nia). nia.
Qed.

(** int(n / p + 1) is the integer quotient plus one for all n below 2^52. *)
Lemma trunc_fadd1 n p : 0 < p -> p <= n -> n < 2 ^ 52 -> ftrunc (fadd1 (fdiv n p)) = n / p + 1.
Proof.
  intros Hp Hn H52. destruct (fdiv_eq n p Hp Hn ltac:(lia)) as (k & m & Hk & [K1 K2] & -> & Em).
  pose proof (pow2_split k Hk) as E. pose proof (Z.pow_pos_nonneg 2 (52 - k) ltac:(lia) ltac:(lia)) as P1.
  pose proof (Z.pow_pos_nonneg 2 k ltac:(lia) ltac:(lia)) as P2.
  pose proof (Z.div_mod n p ltac:(lia)) as D. pose proof (Z.mod_pos_bound n p Hp) as M. set (q := n / p) in *. set (u := n mod p) in *.
  set (w := 2 ^ (52 - k)) in *.
  assert (M1 : w * q <= m) by (subst m; apply rne_lower; nia).
  assert (M2 : m <= w * (q + 1) - 1).
  { subst m. apply rne_upper; [lia|]. assert (p < w) by nia. nia. }
  rewrite Z.pow_add_r in K2 by lia.
  assert (Q1 : 2 ^ k <= q) by nia. assert (Q2 : q + 1 <= 2 * 2 ^ k) by nia.
  unfold fadd1. replace (Z.max 0 (- (k - 52))) with (52 - k) by lia. replace (Z.max 0 (k - 52)) with 0 by lia. fold w.
  change (2 ^ 0) with 1. rewrite Z.mul_1_r.
  destruct (Z_lt_le_dec (m + w) (2 ^ (k + 1) * w)) as [S1|S1].
  - (* same binade: exact *)
    assert (F : flog2 (m + w) w = k).
    { apply flog2_unique; [lia|nia|lia|]. split; [nia|lia]. }
    unfold round_ratio. rewrite F. replace (Z.max 0 (- (k - 52))) with (52 - k) by lia. replace (Z.max 0 (k - 52)) with 0 by lia. fold w.
    change (2 ^ 0) with 1. rewrite Z.mul_1_r. rewrite (Z.mul_comm (m + w) w), rne_exact by lia.
    rewrite ftrunc_neg by lia. fold w. apply div_unique_range; [lia|]. nia.
  - (* the sum crosses a power of two *)
    rewrite Z.pow_add_r in S1 by lia. change (2 ^ 1) with 2 in *.
    assert (Eq : q + 1 = 2 * 2 ^ k) by nia.
    assert (K51 : k <= 51).
    { destruct (Z_le_gt_dec k 51); [auto|]. assert (k = 52) by lia. subst k. nia. }
    assert (W : exists v, w = 2 * v /\ v = 2 ^ (51 - k)).
    { exists (2 ^ (51 - k)). split; [|reflexivity]. unfold w. replace (52 - k) with (1 + (51 - k)) by lia. rewrite Z.pow_add_r by lia. reflexivity. }
    destruct W as (v & W1 & W2). pose proof (Z.pow_pos_nonneg 2 (51 - k) ltac:(lia) ltac:(lia)) as P3. rewrite <- W2 in P3.
    assert (M3 : m <= w * (q + 1) - 2).
    { subst m. apply rne_upper; [lia|]. nia. }
    assert (F : flog2 (m + w) w = k + 1).
    { apply flog2_unique; [lia|nia|lia|]. rewrite !Z.pow_add_r by lia. change (2 ^ 1) with 2. nia. }
    unfold round_ratio. rewrite F. replace (Z.max 0 (- (k + 1 - 52))) with (51 - k) by lia. replace (Z.max 0 (k + 1 - 52)) with 0 by lia. rewrite <- W2.
    change (2 ^ 0) with 1. rewrite Z.mul_1_r. replace (k + 1 - 52) with ((k + 1) - 52) by lia.
    rewrite ftrunc_neg by lia. replace (52 - (k + 1)) with (51 - k) by lia. rewrite <- W2.
    apply div_unique_range; [lia|]. split.
    + apply rne_lower; nia.
    + assert (rne ((m + w) * v) w <= v * (q + 1 + 1) - 1); [|lia]. apply rne_upper; [lia|]. nia.
Qed.
