(** Time grids in double precision: np.linspace as called by /repo/src/pymgrit/core/application.py 62, and the constructor of
    class Application (application.py 19-73).
    Doubles are rationals; [rnd] is the rounding of one operation (53 bits, to nearest, ties to even). Exponents are
    unbounded: overflow and subnormal numbers are not modelled. *)
From Coq Require Import List ZArith Lia Arith Bool QArith Qpower Qabs Lqa.
From Verif Require Import SplitFloat.
Import ListNotations.
Local Open Scope Q_scope.

Definition rneQ (q : Q) : Z := rne (Qnum q) (Zpos (Qden q)).
Definition rnd (x : Q) : Q :=
  if Z.eqb (Qnum x) 0 then 0
  else let k := flog2 (Z.abs (Qnum x)) (Zpos (Qden x)) in
       Qred (inject_Z (rneQ (x * 2 ^ (52 - k))) * 2 ^ (k - 52)).
(** A number that is not changed by rounding *)
Definition is_double (x : Q) : Prop := rnd x == x.

(** np.linspace(start, stop, num), num >= 0 (numpy/core/function_base.py):
      div = num - 1; delta = stop - start; y = arange(0, num)
      if div > 0: step = delta / div; y = y / div * delta if step == 0 else y * step
      else:       y = y * delta
      y += start; if num > 1: y[-1] = stop *)
Definition linspace_value (start stop : Q) (num i : nat) : Q :=
  let div := inject_Z (Z.of_nat (num - 1)) in
  let delta := rnd (stop - start) in
  let n := inject_Z (Z.of_nat i) in
  let y := if (0 <? num - 1)%nat
           then let step := rnd (delta / div) in
                if Qeq_bool step 0 then rnd (rnd (n / div) * delta) else rnd (n * step)
           else rnd (n * delta) in
  rnd (y + start).
Definition linspace (start stop : Q) (num : nat) : list Q :=
  map (fun i => if (1 <? num)%nat && (i =? num - 1)%nat then stop else linspace_value start stop num i) (seq 0 num).

(** ** Rounding *)
Lemma pow_pos k : 0 < 2 ^ k.
Proof. apply Qpower_0_lt. reflexivity. Qed.
Lemma pow_add a b : 2 ^ (a + b) == 2 ^ a * 2 ^ b.
Proof. apply Qpower_plus. discriminate. Qed.
Lemma pow_Z k : (0 <= k)%Z -> 2 ^ k == inject_Z (2 ^ k).
Proof. intros H. symmetry. apply (Zpower_Qpower 2 k H). Qed.
Lemma pow_mono a b : (a <= b)%Z -> 2 ^ a <= 2 ^ b.
Proof. intros H. apply Qpower_le_compat_l; [exact H|discriminate]. Qed.
Lemma pow_lt_inv a b : 2 ^ a < 2 ^ b -> (a < b)%Z.
Proof. intros H. apply Qpower_lt_compat_l_inv in H; [exact H|reflexivity]. Qed.

Lemma flog2_range a b : (0 < a)%Z -> (0 < b)%Z -> let k := flog2 a b in 2 ^ k * inject_Z b <= inject_Z a < 2 ^ (k + 1) * inject_Z b.
Proof.
  intros Ha Hb k. destruct (Z_le_gt_dec b a) as [H|H].
  - destruct (flog2_spec a b Hb H) as (K0 & K1 & K2). fold k in K0, K1, K2. rewrite !pow_Z by lia. rewrite <- !inject_Z_mult, <- Zle_Qle, <- Zlt_Qlt. lia.
  - unfold k, flog2. destruct (Z.leb_spec b a); [lia|]. set (u := ((b + a - 1) / a)%Z).
    pose proof (Z.div_mod (b + a - 1) a ltac:(lia)) as E. pose proof (Z.mod_pos_bound (b + a - 1) a Ha) as M. fold u in E.
    assert (U : (1 < u)%Z) by nia. destruct (Z.log2_up_spec u U) as [L1 L2]. pose proof (Z.log2_up_pos u U) as L0. set (c := Z.log2_up u) in *.
    assert (B1 : (b <= a * 2 ^ c)%Z) by nia. assert (B2 : (2 ^ (Z.pred c) * a < b)%Z) by nia.
    split.
    + rewrite Qpower_opp, pow_Z by lia. rewrite Zle_Qle, inject_Z_mult in B1.
      assert (P : 0 < inject_Z (2 ^ c)) by (rewrite <- pow_Z by lia; apply pow_pos). set (p := inject_Z (2 ^ c)) in *.
      setoid_replace (inject_Z a) with (/ p * (inject_Z a * p)) by (field; lra). apply Qmult_le_l; [apply Qinv_lt_0_compat; exact P|exact B1].
    + replace (- c + 1)%Z with (- Z.pred c)%Z by lia. rewrite Qpower_opp, pow_Z by lia. rewrite Zlt_Qlt, inject_Z_mult in B2.
      assert (P : 0 < inject_Z (2 ^ Z.pred c)) by (rewrite <- pow_Z by lia; apply pow_pos). set (p := inject_Z (2 ^ Z.pred c)) in *.
      setoid_replace (inject_Z a) with (/ p * (p * inject_Z a)) by (field; lra). apply Qmult_lt_l; [apply Qinv_lt_0_compat; exact P|exact B2].
Qed.

Lemma rne_scale a b c : (0 < b)%Z -> (0 < c)%Z -> rne (a * c) (b * c) = rne a b.
Proof.
  intros Hb Hc. unfold rne. rewrite Z.div_mul_cancel_r, Z.mul_mod_distr_r by lia.
  rewrite Z.mul_assoc. 
  replace (2 * (a mod b) * c <? b * c)%Z with (2 * (a mod b) <? b)%Z by (destruct (Z.ltb_spec (2 * (a mod b)) b); symmetry; [apply Z.ltb_lt|apply Z.ltb_ge]; nia).
  replace (b * c <? 2 * (a mod b) * c)%Z with (b <? 2 * (a mod b))%Z by (destruct (Z.ltb_spec b (2 * (a mod b))); symmetry; [apply Z.ltb_lt|apply Z.ltb_ge]; nia).
  reflexivity.
Qed.
Lemma rne_opp a b : (0 < b)%Z -> rne (- a) b = (- rne a b)%Z.
Proof.
  intros Hb. unfold rne. pose proof (Z.mod_pos_bound a b Hb) as M. destruct (Z.eq_dec (a mod b) 0) as [E|E].
  - rewrite Z.div_opp_l_z, Z.mod_opp_l_z, E by lia. destruct (Z.ltb_spec (2 * 0) b); [reflexivity|lia].
  - rewrite Z.div_opp_l_nz, Z.mod_opp_l_nz by lia. set (q := (a / b)%Z). set (r := (a mod b)%Z) in *.
    destruct (Z.ltb_spec (2 * (b - r)) b); destruct (Z.ltb_spec b (2 * (b - r))); destruct (Z.ltb_spec (2 * r) b); destruct (Z.ltb_spec b (2 * r)); try lia.
    replace (- q - 1)%Z with (- (q + 1))%Z by lia. rewrite Z.even_opp, Z.even_add. destruct (Z.even q); simpl; lia.
Qed.
Lemma rne_mono a a' b : (0 < b)%Z -> (a <= a')%Z -> (rne a b <= rne a' b)%Z.
Proof.
  intros Hb H. pose proof (rne_bounds a b Hb) as [B1 B2]. pose proof (rne_bounds a' b Hb) as [B3 B4].
  destruct (Z_le_gt_dec (rne a b) (rne a' b)) as [L|G]; [exact L|]. assert (a = a') by nia. subst a'. lia.
Qed.

Lemma rneQ_mono p q : p <= q -> (rneQ p <= rneQ q)%Z.
Proof.
  intros H. unfold rneQ. destruct p as [a b], q as [a' b']. unfold Qle in H. simpl in *.
  rewrite <- (rne_scale a (Zpos b) (Zpos b')), <- (rne_scale a' (Zpos b') (Zpos b)), (Z.mul_comm (Zpos b')) by lia. apply rne_mono; lia.
Qed.
Lemma rneQ_comp p q : p == q -> rneQ p = rneQ q.
Proof. intros H. apply Z.le_antisymm; apply rneQ_mono; rewrite H; apply Qle_refl. Qed.
Global Instance rneQ_proper : Proper (Qeq ==> eq) rneQ.
Proof. intros p q. apply rneQ_comp. Qed.
Lemma rneQ_opp q : rneQ (- q) = (- rneQ q)%Z.
Proof. unfold rneQ. destruct q as [a b]. simpl. apply rne_opp. lia. Qed.
Lemma rneQ_int z : rneQ (inject_Z z) = z.
Proof. unfold rneQ. simpl. rewrite <- (Z.mul_1_l z) at 1. apply rne_exact. lia. Qed.
Lemma rneQ_near q : q - (1 # 2) <= inject_Z (rneQ q) <= q + (1 # 2).
Proof.
  unfold rneQ. destruct q as [a b]. simpl. pose proof (rne_bounds a (Zpos b) ltac:(lia)) as [B1 B2].
  unfold Qle, inject_Z. simpl. rewrite ?Pos2Z.inj_mul. split; nia.
Qed.

(** the exponent of a positive number *)
Lemma log_unique x k k' : 2 ^ k <= x < 2 ^ (k + 1) -> 2 ^ k' <= x < 2 ^ (k' + 1) -> k = k'.
Proof.
  intros [A1 A2] [B1 B2]. assert (H1 : 2 ^ k < 2 ^ (k' + 1)) by lra. assert (H2 : 2 ^ k' < 2 ^ (k + 1)) by lra.
  apply pow_lt_inv in H1, H2. lia.
Qed.
Lemma log_exists x : 0 < x -> let k := flog2 (Z.abs (Qnum x)) (Zpos (Qden x)) in 2 ^ k <= x < 2 ^ (k + 1).
Proof.
  intros Hx k. assert (N : (0 < Qnum x)%Z) by (unfold Qlt in Hx; simpl in Hx; lia).
  subst k. rewrite Z.abs_eq by lia. destruct (flog2_range (Qnum x) (Zpos (Qden x)) N ltac:(lia)) as [L1 L2]. set (e := flog2 (Qnum x) (Zpos (Qden x))) in *.
  assert (D : 0 < inject_Z (Zpos (Qden x))) by reflexivity. set (d := inject_Z (Zpos (Qden x))) in *.
  assert (X : x == inject_Z (Qnum x) / d) by (unfold d; rewrite <- Qmake_Qdiv; destruct x; reflexivity).
  assert (Y1 : 2 ^ e <= inject_Z (Qnum x) / d) by (apply Qle_shift_div_l; assumption).
  assert (Y2 : inject_Z (Qnum x) / d < 2 ^ (e + 1)) by (apply Qlt_shift_div_r; assumption). clearbody e d. lra.
Qed.
Lemma rnd_zero x : x == 0 -> rnd x == 0.
Proof. intros H. unfold rnd. replace (Qnum x) with 0%Z; [reflexivity|]. unfold Qeq in H. simpl in H. lia. Qed.
Lemma rnd_pos x k : 2 ^ k <= x < 2 ^ (k + 1) -> rnd x == inject_Z (rneQ (x * 2 ^ (52 - k))) * 2 ^ (k - 52).
Proof.
  intros H. assert (Hx : 0 < x) by (pose proof (pow_pos k); lra). unfold rnd.
  assert (N : (0 < Qnum x)%Z) by (unfold Qlt in Hx; simpl in Hx; lia).
  destruct (Z.eqb_spec (Qnum x) 0); [lia|]. rewrite (log_unique x _ k (log_exists x Hx) H). apply Qred_correct.
Qed.
Lemma rnd_opp x : rnd (- x) == - rnd x.
Proof.
  unfold rnd. simpl Qnum. simpl Qden. rewrite Z.abs_opp. destruct (Z.eqb_spec (Qnum x) 0) as [E|E]; destruct (Z.eqb_spec (- Qnum x) 0) as [F|F]; try lia; [reflexivity|].
  rewrite !Qred_correct. set (k := flog2 _ _).
  rewrite (rneQ_comp (- x * 2 ^ (52 - k)) (- (x * 2 ^ (52 - k)))) by ring. rewrite rneQ_opp, inject_Z_opp. ring.
Qed.
Lemma sign_cases x : x < 0 \/ x == 0 \/ 0 < x.
Proof. destruct (Q_dec x 0) as [[H|H]|H]; auto. Qed.

Lemma pos_range x k : 2 ^ k <= x < 2 ^ (k + 1) -> 2 ^ k <= rnd x <= 2 ^ (k + 1).
Proof.
  intros H. rewrite (rnd_pos x k H). pose proof (pow_pos (k - 52)) as P. 
  assert (E : 2 ^ k == inject_Z (2 ^ 52) * 2 ^ (k - 52)) by (rewrite <- pow_Z, <- pow_add by lia; replace (52 + (k - 52))%Z with k by lia; reflexivity).
  assert (E' : 2 ^ (k + 1) == inject_Z (2 ^ 53) * 2 ^ (k - 52)) by (rewrite <- pow_Z, <- pow_add by lia; replace (53 + (k - 52))%Z with (k + 1)%Z by lia; reflexivity).
  assert (I : 2 ^ (k - 52) * 2 ^ (52 - k) == 1) by (rewrite <- pow_add; replace (k - 52 + (52 - k))%Z with 0%Z by lia; reflexivity).
  pose proof (pow_pos (52 - k)) as P'.
  rewrite E, E' in *. split; apply Qmult_le_compat_r; try (apply Qlt_le_weak; exact P); rewrite <- Zle_Qle.
  - rewrite <- (rneQ_int (2 ^ 52)) at 1. apply rneQ_mono. setoid_replace (inject_Z (2 ^ 52)) with ((inject_Z (2 ^ 52) * 2 ^ (k - 52)) * 2 ^ (52 - k)) by (rewrite <- Qmult_assoc, I; ring).
    apply Qmult_le_compat_r; [apply H|apply Qlt_le_weak; exact P'].
  - rewrite <- (rneQ_int (2 ^ 53)). apply rneQ_mono. setoid_replace (inject_Z (2 ^ 53)) with ((inject_Z (2 ^ 53) * 2 ^ (k - 52)) * 2 ^ (52 - k)) by (rewrite <- Qmult_assoc, I; ring).
    apply Qmult_le_compat_r; [apply Qlt_le_weak, H|apply Qlt_le_weak; exact P'].
Qed.
Lemma rnd_mono_pos x y : 0 < x -> x <= y -> rnd x <= rnd y.
Proof.
  intros Hx Hy. pose proof (log_exists x Hx) as Kx. pose proof (log_exists y ltac:(lra)) as Ky. cbv zeta in Kx, Ky.
  set (k := flog2 _ _) in Kx. set (k' := flog2 _ _) in Ky.
  assert (L : (k <= k')%Z) by (assert (H : 2 ^ k < 2 ^ (k' + 1)) by lra; apply pow_lt_inv in H; lia).
  destruct (Z.eq_dec k k') as [E|E].
  - rewrite <- E in Ky. rewrite (rnd_pos x k Kx), (rnd_pos y k Ky). apply Qmult_le_compat_r; [|apply Qlt_le_weak, pow_pos].
    rewrite <- Zle_Qle. apply rneQ_mono. apply Qmult_le_compat_r; [exact Hy|apply Qlt_le_weak, pow_pos].
  - pose proof (pos_range x k Kx). pose proof (pos_range y k' Ky). pose proof (pow_mono (k + 1) k' ltac:(lia)). lra.
Qed.
Lemma rnd_sign x : 0 < x -> 0 < rnd x.
Proof. intros Hx. pose proof (log_exists x Hx) as K. cbv zeta in K. pose proof (pos_range x _ K). pose proof (pow_pos (flog2 (Z.abs (Qnum x)) (Zpos (Qden x)))). lra. Qed.
Lemma rnd_mono x y : x <= y -> rnd x <= rnd y.
Proof.
  intros H. destruct (sign_cases x) as [Hx|[Hx|Hx]]; [| |apply rnd_mono_pos; auto].
  - pose proof (rnd_sign (- x) ltac:(lra)) as S. rewrite rnd_opp in S.
    destruct (sign_cases y) as [Hy|[Hy|Hy]]; [|rewrite (rnd_zero y Hy); lra|pose proof (rnd_sign y Hy); lra].
    pose proof (rnd_mono_pos (- y) (- x) ltac:(lra) ltac:(lra)) as M. rewrite !rnd_opp in M. lra.
  - rewrite (rnd_zero x Hx). destruct (sign_cases y) as [Hy|[Hy|Hy]]; [lra|rewrite (rnd_zero y Hy); lra|pose proof (rnd_sign y Hy); lra].
Qed.
Global Instance rnd_comp : Proper (Qeq ==> Qeq) rnd.
Proof. intros x y H. apply Qle_antisym; apply rnd_mono; rewrite H; apply Qle_refl. Qed.

(** Scaling by a power of two *)
Lemma rnd_scale_pos x k : 0 < x -> rnd (2 ^ k * x) == 2 ^ k * rnd x.
Proof.
  intros Hx. pose proof (log_exists x Hx) as K. cbv zeta in K. set (e := flog2 _ _) in K. pose proof (pow_pos k) as P.
  assert (K' : 2 ^ (k + e) <= 2 ^ k * x < 2 ^ (k + e + 1)).
  { replace (k + e + 1)%Z with (k + (e + 1))%Z by lia. rewrite !pow_add. rewrite (pow_add e 1) in K. destruct K. split; [apply Qmult_le_l|apply Qmult_lt_l]; auto. }
  rewrite (rnd_pos _ _ K'), (rnd_pos x e K). 
  assert (E : 2 ^ k * x * 2 ^ (52 - (k + e)) == x * 2 ^ (52 - e)).
  { replace (52 - e)%Z with (k + (52 - (k + e)))%Z by lia. rewrite pow_add. ring. }
  rewrite (rneQ_comp _ _ E). replace (k + e - 52)%Z with (k + (e - 52))%Z by lia. rewrite pow_add. ring.
Qed.
Lemma rnd_scale x k : rnd (2 ^ k * x) == 2 ^ k * rnd x.
Proof.
  destruct (sign_cases x) as [Hx|[Hx|Hx]]; [| |apply rnd_scale_pos; auto].
  - pose proof (rnd_scale_pos (- x) k ltac:(lra)) as S. rewrite rnd_opp in S. setoid_replace (2 ^ k * - x) with (- (2 ^ k * x)) in S by ring.
    rewrite rnd_opp in S. lra.
  - rewrite (rnd_zero x Hx), (rnd_zero (2 ^ k * x)) by (rewrite Hx; ring). ring.
Qed.
(** Multiples of a power of two with at most 53 bits are exact. *)
Lemma rnd_exact m e : (Z.abs m <= 2 ^ 53)%Z -> rnd (inject_Z m * 2 ^ e) == inject_Z m * 2 ^ e.
Proof.
  intros H. rewrite (Qmult_comm (inject_Z m)), rnd_scale. apply Qmult_comp; [reflexivity|].
  assert (P : forall n, (0 < n <= 2 ^ 53)%Z -> rnd (inject_Z n) == inject_Z n).
  { intros n Hn. assert (N0 : 0 < inject_Z n) by (change 0 with (inject_Z 0); rewrite <- Zlt_Qlt; lia).
    destruct (Z.eq_dec n (2 ^ 53)) as [->|Hne]; [reflexivity|].
    pose proof (log_exists _ N0) as K. cbv zeta in K. set (k := flog2 _ _) in K.
    assert (K52 : (k <= 52)%Z).
    { assert (L : 2 ^ k < 2 ^ 53). { eapply Qle_lt_trans; [apply K|]. rewrite (pow_Z 53) by lia. rewrite <- Zlt_Qlt. lia. } apply pow_lt_inv in L. lia. }
    rewrite (rnd_pos _ k K). rewrite (pow_Z (52 - k)) by lia. rewrite <- inject_Z_mult, rneQ_int, inject_Z_mult, <- pow_Z, <- Qmult_assoc, <- pow_add by lia.
    replace (52 - k + (k - 52))%Z with 0%Z by lia. simpl. ring. }
  destruct (Z_lt_le_dec m 0) as [L|L].
  - setoid_replace (inject_Z m) with (- inject_Z (- m)) by (rewrite inject_Z_opp; ring). rewrite rnd_opp, P by lia. reflexivity.
  - destruct (Z.eq_dec m 0) as [->|N]; [reflexivity|]. apply P. lia.
Qed.
(** Rounded numbers are doubles. *)
Lemma rnd_form x : exists m e, (Z.abs m <= 2 ^ 53)%Z /\ rnd x == inject_Z m * 2 ^ e.
Proof.
  assert (P : forall y, 0 < y -> exists m e, (Z.abs m <= 2 ^ 53)%Z /\ rnd y == inject_Z m * 2 ^ e).
  { intros y Hy. pose proof (log_exists y Hy) as K. cbv zeta in K. set (k := flog2 _ _) in K. exists (rneQ (y * 2 ^ (52 - k))), (k - 52)%Z.
    split; [|apply rnd_pos; exact K]. 
    assert (B1 : (0 <= rneQ (y * 2 ^ (52 - k)))%Z). { change 0%Z with (rneQ 0). apply rneQ_mono. apply Qmult_le_0_compat; [lra|apply Qlt_le_weak, pow_pos]. }
    assert (B2 : (rneQ (y * 2 ^ (52 - k)) <= 2 ^ 53)%Z).
    { rewrite <- (rneQ_int (2 ^ 53)). apply rneQ_mono. rewrite <- pow_Z by lia.
      assert (E : 2 ^ 53 == 2 ^ (k + 1) * 2 ^ (52 - k)) by (rewrite <- pow_add; replace (k + 1 + (52 - k))%Z with 53%Z by lia; reflexivity). rewrite E.
      apply Qmult_le_compat_r; [apply Qlt_le_weak, K|apply Qlt_le_weak, pow_pos]. }
    lia. }
  destruct (sign_cases x) as [Hx|[Hx|Hx]]; [| |apply P; auto].
  - destruct (P (- x) ltac:(lra)) as (m & e & Hm & E). exists (- m)%Z, e. split; [lia|]. rewrite rnd_opp in E. rewrite inject_Z_opp. 
    setoid_replace (rnd x) with (- - rnd x) by ring. rewrite E. ring.
  - exists 0%Z, 0%Z. split; [simpl; lia|]. rewrite (rnd_zero x Hx). reflexivity.
Qed.
Lemma rnd_double x : is_double (rnd x).
Proof. unfold is_double. destruct (rnd_form x) as (m & e & Hm & E). rewrite E. apply rnd_exact. exact Hm. Qed.

(** The relative error of one operation. *)
Definition ulp : Q := 1 # (2 ^ 53).
Lemma rnd_error_pos x : 0 < x -> (1 - ulp) * x <= rnd x <= (1 + ulp) * x.
Proof.
  intros Hx. pose proof (log_exists x Hx) as K. cbv zeta in K. set (k := flog2 _ _) in K. rewrite (rnd_pos x k K).
  pose proof (pow_pos (k - 52)) as P. destruct (rneQ_near (x * 2 ^ (52 - k))) as [N1 N2]. set (r := inject_Z (rneQ _)) in *.
  assert (I : 2 ^ (52 - k) * 2 ^ (k - 52) == 1) by (rewrite <- pow_add; replace (52 - k + (k - 52))%Z with 0%Z by lia; reflexivity).
  assert (U : (1 # 2) * 2 ^ (k - 52) <= ulp * x).
  { assert (C : 2 ^ (- (52)) == 2 * ulp) by reflexivity. replace (k - 52)%Z with (k + (- (52)))%Z by lia. rewrite pow_add, C. destruct K as [K _]. set (p := 2 ^ k) in *.
    setoid_replace ((1 # 2) * (p * (2 * ulp))) with (ulp * p) by ring.
    apply Qmult_le_l; [reflexivity|exact K]. }
  apply (Qmult_le_compat_r _ _ (2 ^ (k - 52))) in N1; [|apply Qlt_le_weak; exact P].
  apply (Qmult_le_compat_r _ _ (2 ^ (k - 52))) in N2; [|apply Qlt_le_weak; exact P].
  assert (X : x * 2 ^ (52 - k) * 2 ^ (k - 52) == x) by (rewrite <- Qmult_assoc, I; ring).
  set (p := 2 ^ (k - 52)) in *. set (w := 2 ^ (52 - k)) in *. clearbody p w r. lra.
Qed.
Lemma rnd_error x : Qabs (rnd x - x) <= ulp * Qabs x.
Proof.
  destruct (sign_cases x) as [Hx|[Hx|Hx]].
  - pose proof (rnd_error_pos (- x) ltac:(lra)) as E. rewrite rnd_opp in E. rewrite (Qabs_neg x) by lra. apply Qabs_Qle_condition. lra.
  - rewrite (rnd_zero x Hx), Hx. discriminate.
  - pose proof (rnd_error_pos x Hx) as E. rewrite (Qabs_pos x) by lra. apply Qabs_Qle_condition. lra.
Qed.

(** ** np.linspace *)
Definition nat_Q (i : nat) : Q := inject_Z (Z.of_nat i).
Definition grid_step (a b : Q) (n : nat) : Q := rnd (rnd (b - a) / nat_Q n).
Lemma rnd_nonzero x : rnd x == 0 -> x == 0.
Proof.
  intros H. destruct (sign_cases x) as [Hx|[Hx|Hx]]; [|exact Hx|pose proof (rnd_sign x Hx); lra].
  pose proof (rnd_sign (- x) ltac:(lra)) as S. rewrite rnd_opp in S. lra.
Qed.
Lemma nat_Q_pos n : (0 < n)%nat -> 0 < nat_Q n.
Proof. intros H. unfold nat_Q. change 0 with (inject_Z 0). rewrite <- Zlt_Qlt. lia. Qed.
Lemma nat_Q_le n m : (n <= m)%nat -> nat_Q n <= nat_Q m.
Proof. intros H. unfold nat_Q. rewrite <- Zle_Qle. lia. Qed.
Lemma nat_Q_S n : nat_Q (S n) == nat_Q n + 1.
Proof. unfold nat_Q. rewrite Nat2Z.inj_succ. unfold Z.succ. rewrite inject_Z_plus. reflexivity. Qed.
Lemma value_eq a b n i : (0 < n)%nat -> linspace_value a b (S n) i == rnd (rnd (nat_Q i * grid_step a b n) + a).
Proof.
  intros Hn. unfold linspace_value. rewrite Nat.sub_succ, Nat.sub_0_r. destruct (Nat.ltb_spec 0 n); [|lia]. cbv zeta.
  fold (nat_Q n) (nat_Q i). fold (grid_step a b n). pose proof (nat_Q_pos n Hn) as P.
  destruct (Qeq_bool (grid_step a b n) 0) eqn:E; [|reflexivity]. apply Qeq_bool_eq in E.
  assert (D : rnd (b - a) == 0).
  { unfold grid_step in E. apply rnd_nonzero in E. setoid_replace (rnd (b - a)) with (rnd (b - a) / nat_Q n * nat_Q n) by (field; lra). rewrite E. ring. }
  rewrite D, E. setoid_replace (rnd (nat_Q i / nat_Q n) * 0) with 0 by ring. setoid_replace (nat_Q i * 0) with 0 by ring. reflexivity.
Qed.
Lemma linspace_length a b n : length (linspace a b n) = n.
Proof. unfold linspace. rewrite map_length, seq_length. reflexivity. Qed.
Lemma linspace_nth a b n i : (0 < n)%nat -> (i <= n)%nat ->
  nth i (linspace a b (S n)) 0 == if (i =? n)%nat then b else rnd (rnd (nat_Q i * grid_step a b n) + a).
Proof.
  intros Hn Hi. unfold linspace. set (f := fun i => if (1 <? S n)%nat && _ then b else _).
  rewrite (nth_indep _ 0 (f 0%nat)) by (rewrite map_length, seq_length; lia).
  rewrite map_nth, seq_nth by lia. unfold f. rewrite Nat.add_0_l, Nat.sub_succ, Nat.sub_0_r. replace (1 <? S n)%nat with true by (symmetry; apply Nat.ltb_lt; lia).
  cbn [andb]. destruct (i =? n)%nat; [reflexivity|]. apply value_eq. exact Hn.
Qed.

(** Coarsening by powers of two *)
Lemma step_scale a b n k : (0 < n)%nat -> grid_step a b (n * 2 ^ k) == 2 ^ (- Z.of_nat k) * grid_step a b n.
Proof.
  intros Hn. unfold grid_step. rewrite <- rnd_scale. apply rnd_comp. pose proof (nat_Q_pos n Hn) as P.
  assert (E : nat_Q (n * 2 ^ k) == nat_Q n * 2 ^ Z.of_nat k).
  { unfold nat_Q. rewrite Nat2Z.inj_mul, inject_Z_mult, Nat2Z.inj_pow, pow_Z by lia. reflexivity. }
  rewrite E, Qpower_opp. pose proof (pow_pos (Z.of_nat k)). field. lra.
Qed.
Lemma linspace_nested a b n k j : (0 < n)%nat -> (j <= n)%nat ->
  nth (j * 2 ^ k) (linspace a b (S (n * 2 ^ k))) 0 == nth j (linspace a b (S n)) 0.
Proof.
  intros Hn Hj. pose proof (Nat.pow_nonzero 2 k ltac:(lia)) as P2. rewrite !linspace_nth by nia.
  replace (j * 2 ^ k =? n * 2 ^ k)%nat with (j =? n)%nat by (destruct (Nat.eqb_spec j n); symmetry; [apply Nat.eqb_eq|apply Nat.eqb_neq]; nia).
  destruct (j =? n)%nat; [reflexivity|]. rewrite step_scale by exact Hn.
  assert (E : nat_Q (j * 2 ^ k) * (2 ^ (- Z.of_nat k) * grid_step a b n) == nat_Q j * grid_step a b n).
  { assert (E : nat_Q (j * 2 ^ k) == nat_Q j * 2 ^ Z.of_nat k) by (unfold nat_Q; rewrite Nat2Z.inj_mul, inject_Z_mult, Nat2Z.inj_pow, pow_Z by lia; reflexivity).
    rewrite E, Qpower_opp. pose proof (pow_pos (Z.of_nat k)). field. lra. }
  rewrite E. reflexivity.
Qed.

(** Bounds *)
Lemma ulp_small : 0 < ulp /\ ulp <= 1 # 1000.
Proof. split; [reflexivity|discriminate]. Qed.
Lemma rnd_nonneg x : 0 <= x -> 0 <= rnd x /\ (1 - ulp) * x <= rnd x <= (1 + ulp) * x.
Proof.
  intros Hx. destruct (sign_cases x) as [H|[H|H]]; [lra| |].
  - rewrite (rnd_zero x H), H. split; [apply Qle_refl|]. split; ring_simplify; apply Qle_refl.
  - pose proof (rnd_sign x H). pose proof (rnd_error_pos x H). split; [lra|auto].
Qed.
Lemma step_bounds a b n : (0 < n)%nat -> a <= b ->
  0 <= grid_step a b n /\ (1 - 2 * ulp) * (b - a) <= nat_Q n * grid_step a b n <= (1 + 3 * ulp) * (b - a).
Proof.
  intros Hn Hab. pose proof (nat_Q_pos n Hn) as P. destruct ulp_small as [U0 U1]. unfold grid_step.
  destruct (rnd_nonneg (b - a) ltac:(lra)) as (D0 & D1 & D2). set (d := rnd (b - a)) in *.
  assert (Q0 : 0 <= d / nat_Q n) by (apply Qle_shift_div_l; lra).
  destruct (rnd_nonneg _ Q0) as (S0 & S1 & S2). set (s := rnd (d / nat_Q n)) in *. split; [exact S0|].
  assert (E : nat_Q n * (d / nat_Q n) == d) by (field; lra). set (q := d / nat_Q n) in *.
  apply (Qmult_le_l _ _ _ P) in S1. apply (Qmult_le_l _ _ _ P) in S2.
  assert (S1' : (1 - ulp) * d <= nat_Q n * s) by (rewrite <- E; lra).
  assert (S2' : nat_Q n * s <= (1 + ulp) * d) by (rewrite <- E; lra).
  clearbody s q. split; nra.
Qed.
Lemma rnd_near_abs x M : - M <= x <= M -> x - ulp * M <= rnd x <= x + ulp * M.
Proof.
  intros H. pose proof (rnd_error x) as E. apply Qabs_Qle_condition in E. destruct ulp_small as [U0 U1].
  assert (A : Qabs x <= M) by (apply Qabs_Qle_condition; lra). assert (ulp * Qabs x <= ulp * M) by (apply Qmult_le_l; assumption). lra.
Qed.
Lemma below_stop a b n i : (0 < n)%nat -> (Z.of_nat n <= 2 ^ 50)%Z -> a <= b -> is_double b -> (i < n)%nat ->
  rnd (rnd (nat_Q i * grid_step a b n) + a) <= b.
Proof.
  intros Hn Hn50 Hab Hb Hi. apply (Qle_trans _ (rnd b)); [|unfold is_double in Hb; lra]. apply rnd_mono. destruct (step_bounds a b n Hn Hab) as (S0 & S1 & S2). set (s := grid_step a b n) in *.
  destruct ulp_small as [U0 U1]. pose proof (nat_Q_pos n Hn) as P.
  assert (I : nat_Q i + 1 <= nat_Q n) by (rewrite <- nat_Q_S; apply nat_Q_le; lia).
  assert (I0 : 0 <= nat_Q i) by (change 0 with (nat_Q 0); apply nat_Q_le; lia).
  destruct (rnd_nonneg (nat_Q i * s) ltac:(apply Qmult_le_0_compat; assumption)) as (_ & _ & R).
  assert (N : nat_Q n * (8 * ulp) <= 1).
  { unfold nat_Q. assert (inject_Z (Z.of_nat n) <= inject_Z (2 ^ 50)) by (rewrite <- Zle_Qle; exact Hn50).
    eapply Qle_trans; [apply Qmult_le_compat_r; [eassumption|discriminate]|]. discriminate. }
  assert (Q : nat_Q i * s <= nat_Q n * s - s) by nra.
  assert (T : 8 * ulp * (nat_Q n * s) <= s) by nra.
  clearbody s. nra.
Qed.
Lemma value_near a b n M i : (0 < n)%nat -> a <= b -> - M <= a -> b <= M -> (i < n)%nat ->
  let y := rnd (rnd (nat_Q i * grid_step a b n) + a) in
  nat_Q i * grid_step a b n + a - 4 * ulp * M <= y <= nat_Q i * grid_step a b n + a + 4 * ulp * M.
Proof.
  intros Hn Hab Ha Hb Hi y. destruct (step_bounds a b n Hn Hab) as (S0 & S1 & S2). set (s := grid_step a b n) in *.
  destruct ulp_small as [U0 U1]. pose proof (nat_Q_pos n Hn) as P.
  assert (I : nat_Q i + 1 <= nat_Q n) by (rewrite <- nat_Q_S; apply nat_Q_le; lia).
  assert (I0 : 0 <= nat_Q i) by (change 0 with (nat_Q 0); apply nat_Q_le; lia).
  destruct (rnd_nonneg (nat_Q i * s) ltac:(apply Qmult_le_0_compat; assumption)) as (R0 & R1 & R2). subst y. set (r := rnd (nat_Q i * s)) in *.
  assert (Q0 : 0 <= nat_Q i * s) by (apply Qmult_le_0_compat; assumption).
  assert (Q1 : nat_Q i * s <= (1 + 3 * ulp) * (b - a)) by nra. set (q := nat_Q i * s) in *. clearbody q r s.
  assert (Q2 : q <= (21 # 10) * M) by nra.
  assert (RM : r + a <= (101 # 100) * M) by nra.
  destruct (rnd_near_abs (r + a) ((101 # 100) * M) ltac:(split; lra)) as [N1 N2]. assert (0 <= M) by lra. split; nra.
Qed.
(** ** Class Application *)
(** The argument t_interval: None, something that is not an array, an array *)
Inductive interval_arg : Type := INone | IOther | IArray (t : list Q).
Record AppTime : Type := mkAppTime { at_start : Q; at_end : Q; at_nt : Z; at_t : list Q }.
(** Raised by the constructor: no interval (57), linspace with negative num, wrong type (65), empty array (67),
    a required attribute is missing (30: its position in required_attributes) *)
Inductive app_exn : Type := ENoInterval | ENegative | EWrongType | EEmpty | EAttribute (n : nat).
(** __init__ (47-70) *)
Definition application_init (t_start t_stop : option Q) (nt : option Z) (t_interval : interval_arg) : AppTime + app_exn :=
  match t_interval with
  | INone =>
      match t_start, t_stop, nt with
      | Some a, Some b, Some n => if (n <? 0)%Z then inr ENegative else inl (mkAppTime a b n (linspace a b (Z.to_nat n)))
      | _, _, _ => inr ENoInterval
      end
  | IOther => inr EWrongType
  | IArray t =>
      match t with
      | [] => inr EEmpty
      | x :: _ => inl (mkAppTime x (last t x) (Z.of_nat (length t)) t)
      end
  end.
(** MetaApplication.__call__ (26-31): the constructor of the user's class has called __init__ and then may have set
    vector_template and vector_t_start; the check comes after it. *)
Definition application_new (has_template has_t_start : bool) t_start t_stop nt t_interval : AppTime + app_exn :=
  match application_init t_start t_stop nt t_interval with
  | inl x => if negb has_template then inr (EAttribute 0) else if negb has_t_start then inr (EAttribute 1) else inl x
  | inr e => inr e
  end.
