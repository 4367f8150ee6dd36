(** C54: time grids in double precision. What np.linspace returns in class Application, and when hand-made hierarchies of such
    grids are accepted by the solver. *)
From Coq Require Import List ZArith Lia Arith Bool Sorted QArith Qpower Qabs Lqa.
From Verif Require Import Net PyList ListFacts Setup Spec Mgrit CheckProofs SplitFloat Linspace ExampleApp.
Import ListNotations.
Local Open Scope Q_scope.

(** ** The constructor *)
(** It succeeds exactly if the attributes are set and an interval is given in one of the two ways. *)
Theorem C54_accepted_iff : forall has_template has_t_start t_start t_stop nt t_interval,
  (exists x, application_new has_template has_t_start t_start t_stop nt t_interval = inl x) <->
  has_template = true /\ has_t_start = true /\
  match t_interval with
  | INone => t_start <> None /\ t_stop <> None /\ exists n, nt = Some n /\ (0 <= n)%Z
  | IOther => False
  | IArray t => t <> []
  end.
Proof.
  intros hT hS ts te nt ti. unfold application_new.
  assert (M : (exists x, application_init ts te nt ti = inl x) <->
    match ti with
    | INone => ts <> None /\ te <> None /\ exists n, nt = Some n /\ (0 <= n)%Z
    | IOther => False
    | IArray t => t <> []
    end).
  { unfold application_init. destruct ti as [| |[|x t]].
    - destruct ts as [a|]; [|split; [intros [x E]; discriminate|intros (X & _); congruence]].
      destruct te as [b|]; [|split; [intros [x E]; discriminate|intros (_ & X & _); congruence]].
      destruct nt as [n|]; [|split; [intros [x E]; discriminate|intros (_ & _ & n & E & _); discriminate]].
      destruct (Z.ltb_spec n 0) as [L|L].
      + split; [intros [x E]; discriminate|]. intros (_ & _ & n' & E & H). injection E as <-. lia.
      + split; [|intros _; eauto]. intros _. split; [discriminate|]. split; [discriminate|]. eauto.
    - split; [intros [x E]; discriminate|contradiction].
    - split; [intros [x E]; discriminate|congruence].
    - split; [discriminate|eauto]. }
  rewrite <- M. destruct (application_init ts te nt ti) as [x|e].
  - destruct hT, hS; simpl; split; intros H; try (destruct H as [y E]; discriminate E); try (destruct H as (E1 & E2 & _); discriminate); eauto 6.
  - split; [intros [x E]; discriminate|]. intros (_ & _ & x & E). discriminate.
Qed.
(** Number of points, first and last time agree with the stored numbers, except for linspace with fewer than two points. *)
Lemma last_nth_Q (l : list Q) d : last l d = nth (length l - 1) l d.
Proof. destruct l as [|x l] using rev_ind; [reflexivity|]. rewrite last_last, app_length. simpl. rewrite app_nth2 by lia. replace (_ - _)%nat with 0%nat by lia. reflexivity. Qed.
Lemma hd_nth_Q (l : list Q) d : hd d l = nth 0 l d.
Proof. destruct l; reflexivity. Qed.
Lemma linspace_first a b n : (0 < n)%nat -> is_double a -> nth 0 (linspace a b (S n)) 0 == a.
Proof.
  intros Hn Ha. rewrite linspace_nth by lia. destruct (Nat.eqb_spec 0 n); [lia|]. setoid_replace (nat_Q 0 * grid_step a b n) with 0 by (unfold nat_Q; simpl; ring).
  rewrite (rnd_zero 0) by reflexivity. setoid_replace (0 + a) with a by ring. exact Ha.
Qed.
Lemma linspace_last a b n : (0 < n)%nat -> nth n (linspace a b (S n)) 0 == b.
Proof. intros Hn. rewrite linspace_nth, Nat.eqb_refl by lia. reflexivity. Qed.
Theorem C54_time_information : forall has_template has_t_start t_start t_stop nt t_interval x,
  application_new has_template has_t_start t_start t_stop nt t_interval = inl x ->
  (t_interval = INone -> (exists n, nt = Some n /\ (2 <= n)%Z) /\ forall a, t_start = Some a -> is_double a) ->
  Z.of_nat (length (at_t x)) = at_nt x /\ hd 0 (at_t x) == at_start x /\ last (at_t x) 0 == at_end x.
Proof.
  intros hT hS ts te nt ti x H H2. unfold application_new in H. destruct (application_init ts te nt ti) as [y|e] eqn:E; [|discriminate].
  assert (y = x) by (destruct hT, hS; simpl in H; congruence). subst y. clear H. unfold application_init in E. destruct ti as [| |[|u t]]; try discriminate.
  - destruct H2 as ((n' & En & Hn') & Ha); [reflexivity|]. subst nt. destruct ts as [a|]; [|discriminate]. destruct te as [b|]; [|discriminate].
    destruct (Z.ltb_spec n' 0); [lia|]. injection E as <-. cbn [at_t at_nt at_start at_end]. rewrite linspace_length, hd_nth_Q, last_nth_Q, linspace_length. split; [lia|].
    replace (Z.to_nat n') with (S (Z.to_nat (n' - 1))) by lia. rewrite Nat.sub_succ, Nat.sub_0_r.
    split; [apply linspace_first; [lia|auto]|apply linspace_last; lia].
  - assert (Ex : x = mkAppTime u (last (u :: t) u) (Z.of_nat (length (u :: t))) (u :: t)) by congruence. subst x.
    cbn [at_t at_nt at_start at_end]. split; [reflexivity|]. split; [reflexivity|].
    rewrite !last_nth_Q. rewrite (nth_indep _ 0 u) by (cbn [length]; lia). reflexivity.
Qed.
(** One point: the only time is t_start, but t_end says t_stop. *)
Theorem C54_one_point_refuted : ~ (forall a b n x, is_double a -> (1 <= n)%Z ->
  application_new true true (Some a) (Some b) (Some n) INone = inl x -> last (at_t x) 0 == at_end x).
Proof. intros H. specialize (H 0 1 1%Z _ ltac:(reflexivity) ltac:(lia) eq_refl). vm_compute in H. discriminate. Qed.

(** ** Order of the times *)
Theorem C54_linspace_sorted : forall a b n, is_double a -> is_double b -> a <= b -> (0 < n)%nat -> (Z.of_nat n <= 2 ^ 50)%Z ->
  forall i j, (i <= j <= n)%nat -> nth i (linspace a b (S n)) 0 <= nth j (linspace a b (S n)) 0.
Proof.
  intros a b n Ha Hb Hab Hn Hn50 i j Hij. rewrite !linspace_nth by lia. destruct (Nat.eqb_spec j n) as [->|Hj].
  - destruct (Nat.eqb_spec i n); [apply Qle_refl|]. apply below_stop; auto. lia.
  - destruct (Nat.eqb_spec i n); [lia|]. apply rnd_mono, Qplus_le_compat; [|apply Qle_refl]. apply rnd_mono.
    apply Qmult_le_compat_r; [apply nat_Q_le; lia|]. apply step_bounds; assumption.
Qed.
(** Strictly increasing if the time step is at least 2^-49 times the largest time. *)
Lemma linspace_next a b n M : a < b -> - M <= a -> b <= M -> (0 < n)%nat -> (1 # 2 ^ 49) * M <= (b - a) / nat_Q n ->
  forall i, (i < n)%nat -> nth i (linspace a b (S n)) 0 < nth (S i) (linspace a b (S n)) 0.
Proof.
  intros Hab Ha Hb Hn HM i Hi. rewrite !linspace_nth by lia. destruct (Nat.eqb_spec i n); [lia|].
  pose proof (nat_Q_pos n Hn) as P. destruct ulp_small as [U0 U1].
  assert (HM' : 16 * ulp * M * nat_Q n <= b - a).
  { setoid_replace (16 * ulp) with (1 # 2 ^ 49) by reflexivity. setoid_replace (b - a) with ((b - a) / nat_Q n * nat_Q n) by (field; lra).
    apply Qmult_le_compat_r; lra. }
  destruct (step_bounds a b n Hn ltac:(lra)) as (S0 & S1 & S2).
  pose proof (value_near a b n M i Hn ltac:(lra) Ha Hb ltac:(lia)) as V. cbv zeta in V. set (s := grid_step a b n) in *.
  destruct (Nat.eqb_spec (S i) n) as [E|E].
  - assert (I : nat_Q n == nat_Q i + 1) by (rewrite <- E; apply nat_Q_S). assert (0 < M) by lra.
    assert (I0 : 0 <= nat_Q i) by (change 0 with (nat_Q 0); apply nat_Q_le; lia).
    set (y := rnd _) in *. clearbody y s. assert (S3 : (1 - 2 * ulp) * (16 * ulp * M) <= s) by nra. nra.
  - pose proof (value_near a b n M (S i) Hn ltac:(lra) Ha Hb ltac:(lia)) as V'. cbv zeta in V'. fold s in V'. assert (I : nat_Q (S i) == nat_Q i + 1) by apply nat_Q_S.
    set (y := rnd (rnd (nat_Q i * s) + a)) in *. set (y' := rnd (rnd (nat_Q (S i) * s) + a)) in *. clearbody y y' s. assert (0 < M) by lra.
    assert (S3 : (1 - 2 * ulp) * (16 * ulp * M) <= s) by nra. nra.
Qed.
Theorem C54_linspace_strict : forall a b n M, a < b -> Qabs a <= M -> Qabs b <= M -> (0 < n)%nat -> (1 # 2 ^ 49) * M <= (b - a) / nat_Q n ->
  forall i j, (i < j <= n)%nat -> nth i (linspace a b (S n)) 0 < nth j (linspace a b (S n)) 0.
Proof.
  intros a b n M Hab Ha Hb Hn HM i j [Hij Hj]. apply Qabs_Qle_condition in Ha, Hb.
  pose proof (linspace_next a b n M Hab ltac:(lra) ltac:(lra) Hn HM) as N. clear HM.
  induction j as [|j IH]; [lia|]. destruct (Nat.eq_dec i j) as [->|Ne]; [apply N; lia|].
  apply (Qlt_trans _ (nth j (linspace a b (S n)) 0)); [apply IH; lia|apply N; lia].
Qed.

(** ** Hierarchies of linspace grids
    The solver model counts times in units of 1/D, D large enough to make all of them integers. *)
Definition units (D : positive) (x : Q) : Z := (Qnum x * Zpos D / Zpos (Qden x))%Z.
Definition on_scale (D : positive) (x : Q) : Prop := exists z, x * inject_Z (Zpos D) == inject_Z z.
Lemma units_spec D x : on_scale D x -> inject_Z (units D x) == x * inject_Z (Zpos D).
Proof.
  intros [z E]. rewrite E. unfold units. destruct x as [p q]. cbn [Qnum Qden]. unfold Qeq, Qmult, inject_Z in E. simpl in E.
  assert (E' : (p * Zpos D = z * Zpos q)%Z) by lia. rewrite E', Z.div_mul by lia. reflexivity.
Qed.
Lemma units_lt D x y : on_scale D x -> on_scale D y -> x < y <-> (units D x < units D y)%Z.
Proof.
  intros Hx Hy. rewrite Zlt_Qlt, (units_spec D x Hx), (units_spec D y Hy). symmetry. apply Qmult_lt_r. reflexivity.
Qed.
Lemma units_eq D x y : on_scale D x -> on_scale D y -> x == y <-> units D x = units D y.
Proof.
  intros Hx Hy. split; intros H.
  - apply inject_Z_injective. rewrite (units_spec D x Hx), (units_spec D y Hy), H. reflexivity.
  - assert (E : x * inject_Z (Zpos D) == y * inject_Z (Zpos D)) by (rewrite <- (units_spec D x Hx), <- (units_spec D y Hy), H; reflexivity).
    apply Qmult_inj_r in E; [exact E|discriminate].
Qed.
Lemma sorted_nth (l : list Z) : (forall i, (S i < length l)%nat -> (nth i l 0 < nth (S i) l 0)%Z) -> StronglySorted Z.lt l.
Proof.
  intros H. apply Sorted_StronglySorted; [intros x y z; apply Z.lt_trans|]. induction l as [|x l IH]; [constructor|]. constructor.
  - apply IH. intros i Hi. apply (H (S i)). simpl. lia.
  - destruct l as [|y l]; constructor. apply (H 0%nat). simpl. lia.
Qed.
Section Hierarchy.
  Variables (a b : Q) (n : nat) (D : positive).
  Hypothesis Hn : (0 < n)%nat.
  Definition pgrid (k : nat) : list Q := linspace a b (S (n * 2 ^ k)).
  Definition ugrid (k : nat) : list Z := map (units D) (pgrid k).
  Definition increasing (k : nat) : Prop := forall i j, (i < j <= n * 2 ^ k)%nat -> nth i (pgrid k) 0 < nth j (pgrid k) 0.
  Definition scaled (k : nat) : Prop := Forall (on_scale D) (pgrid k).

  Lemma ugrid_length k : length (ugrid k) = S (n * 2 ^ k).
  Proof. unfold ugrid, pgrid. rewrite map_length, linspace_length. reflexivity. Qed.
  Lemma ugrid_nth k i : nth i (ugrid k) 0%Z = units D (nth i (pgrid k) 0).
  Proof. unfold ugrid. rewrite <- (map_nth (units D)). reflexivity. Qed.
  Lemma scaled_nth k i : scaled k -> (i <= n * 2 ^ k)%nat -> on_scale D (nth i (pgrid k) 0).
  Proof. intros H Hi. unfold scaled in H. rewrite Forall_forall in H. apply H, nth_In. unfold pgrid. rewrite linspace_length. lia. Qed.
  Lemma ugrid_sorted k : scaled k -> increasing k -> StronglySorted Z.lt (ugrid k).
  Proof.
    intros Hs Hi. apply sorted_nth. intros i Hl. rewrite ugrid_length in Hl. rewrite !ugrid_nth. apply units_lt; try (apply scaled_nth; auto; lia). apply Hi. lia.
  Qed.
  Lemma ugrid_nested k d j : scaled k -> scaled (k + d) -> (j <= n * 2 ^ k)%nat -> nth (j * 2 ^ d) (ugrid (k + d)) 0%Z = nth j (ugrid k) 0%Z.
  Proof.
    intros H1 H2 Hj. rewrite !ugrid_nth. assert (E : (n * 2 ^ (k + d) = n * 2 ^ k * 2 ^ d)%nat) by (rewrite Nat.pow_add_r; lia).
    apply units_eq; [apply scaled_nth; auto; rewrite E; apply Nat.mul_le_mono_r; exact Hj|apply scaled_nth; auto|].
    unfold pgrid. rewrite E. apply linspace_nested; [|exact Hj]. pose proof (Nat.pow_nonzero 2 k). nia.
  Qed.
  Lemma hierarchy ks : ks <> [] -> StronglySorted (fun x y => (y < x)%nat) ks -> Forall scaled ks -> Forall increasing ks ->
    valid_hierarchy (map ugrid ks) /\ no_adjacent_cpoints (map ugrid ks).
  Proof.
    intros Hne HS Hsc Hin. rewrite Forall_forall in Hsc, Hin.
    assert (N : forall l, (l < length ks)%nat -> nth l (map ugrid ks) [] = ugrid (nth l ks 0%nat)).
    { intros l Hl. rewrite (nth_indep _ [] (ugrid 0)) by (rewrite map_length; exact Hl). apply map_nth. }
    assert (K : forall l, (S l < length ks)%nat -> exists d, nth l ks 0%nat = (nth (S l) ks 0 + S d)%nat).
    { intros l Hl. assert (L : (nth (S l) ks 0 < nth l ks 0)%nat).
      { clear Hne Hsc Hin N. revert l Hl. induction HS as [|x ks HS IH HF]; intros l Hl; [simpl in Hl; lia|]. destruct l as [|l].
        - simpl. rewrite Forall_forall in HF. apply HF, nth_In. simpl in Hl. lia.
        - apply (IH l). simpl in Hl. lia. }
      exists (nth l ks 0 - nth (S l) ks 0 - 1)%nat. lia. }
    assert (P2 : forall k, (1 <= n * 2 ^ k)%nat) by (intros k; pose proof (Nat.pow_nonzero 2 k); nia).
    split; [split; [intros E; apply map_eq_nil in E; auto|split]|].
    - intros l Hl. rewrite map_length in Hl. rewrite N by exact Hl. split; [apply ugrid_sorted; [apply Hsc|apply Hin]; apply nth_In; exact Hl|].
      intros E. apply (f_equal (@length Z)) in E. rewrite ugrid_length in E. discriminate.
    - intros l Hl. rewrite map_length in Hl. rewrite !N by lia. destruct (K l Hl) as (d & E). set (k := nth (S l) ks 0%nat) in *.
      assert (Sk : scaled k) by (apply Hsc, nth_In; exact Hl). assert (Sd : scaled (k + S d)) by (rewrite <- E; apply Hsc, nth_In; lia). rewrite E.
      split; [|split].
      + intros t Ht. apply (In_nth _ _ 0%Z) in Ht as (j & Hj & <-). rewrite ugrid_length in Hj. rewrite <- (ugrid_nested k (S d) j Sk Sd) by lia.
        apply nth_In. rewrite ugrid_length. rewrite Nat.pow_add_r. apply Nat.lt_succ_r. rewrite Nat.mul_assoc. apply Nat.mul_le_mono_r. lia.
      + pose proof (ugrid_nested k (S d) 0 Sk Sd ltac:(lia)) as F. rewrite Nat.mul_0_l in F.
        pose proof (ugrid_length k). pose proof (ugrid_length (k + S d)). destruct (ugrid k); [discriminate|]. destruct (ugrid (k + S d)); [discriminate|]. simpl in *. congruence.
      + rewrite ugrid_length. specialize (P2 k). lia.
    - intros l i Hl Hi. rewrite map_length in Hl. rewrite !N in * by lia. destruct (K l Hl) as (d & E). set (k := nth (S l) ks 0%nat) in *.
      assert (Sk : scaled k) by (apply Hsc, nth_In; exact Hl). assert (Sd : scaled (k + S d)) by (rewrite <- E; apply Hsc, nth_In; lia).
      assert (Id : increasing (k + S d)) by (rewrite <- E; apply Hin, nth_In; lia). rewrite E in *. pose proof (ugrid_sorted _ Sd Id) as SS.
      assert (inj : forall x y, (x <= n * 2 ^ (k + S d))%nat -> (y <= n * 2 ^ (k + S d))%nat -> nth x (ugrid (k + S d)) 0%Z = nth y (ugrid (k + S d)) 0%Z -> x = y).
      { intros x y Hx Hy Exy. rewrite !ugrid_nth in Exy. apply units_eq in Exy; try (apply scaled_nth; auto).
        destruct (Nat.lt_trichotomy x y) as [L|[L|L]]; [|exact L|].
        - specialize (Id x y ltac:(lia)). lra.
        - specialize (Id y x ltac:(lia)). lra. }
      intros I1 I2. rewrite ugrid_length in Hi. apply (In_nth _ _ 0%Z) in I1 as (j1 & J1 & I1). apply (In_nth _ _ 0%Z) in I2 as (j2 & J2 & I2).
      rewrite ugrid_length in J1, J2. rewrite <- (ugrid_nested k (S d)) in I1 by (auto; lia). rewrite <- (ugrid_nested k (S d)) in I2 by (auto; lia).
      assert (B : forall j, (j < S (n * 2 ^ k))%nat -> (j * 2 ^ S d <= n * 2 ^ (k + S d))%nat) by (intros j Hj; rewrite Nat.pow_add_r, Nat.mul_assoc; apply Nat.mul_le_mono_r; lia).
      apply inj in I1; [|apply B; exact J1|lia]. apply inj in I2; [|apply B; exact J2|lia].
      assert (X : (j2 * 2 ^ S d = S (j1 * 2 ^ S d))%nat) by lia. rewrite Nat.pow_succ_r' in X. nia.
  Qed.
End Hierarchy.
(** Grids with n*2^k + 1 points on the same interval, k decreasing from level to level: each is contained in the finer one,
    bit by bit, and the solver accepts them, if neighbouring times of the finest grid are not too close for doubles. *)
Theorem C54_power_of_two_hierarchy : forall a b n M D (ks : list nat), is_double a -> is_double b -> a < b -> Qabs a <= M -> Qabs b <= M ->
  (0 < n)%nat -> ks <> [] -> StronglySorted (fun x y => (y < x)%nat) ks ->
  (1 # 2 ^ 49) * M <= (b - a) / nat_Q (n * 2 ^ hd 0%nat ks) ->
  let grid k := linspace a b (n * 2 ^ k + 1) in
  (forall k, In k ks -> Forall (on_scale D) (grid k)) ->
  valid_hierarchy (map (fun k => map (units D) (grid k)) ks) /\ no_adjacent_cpoints (map (fun k => map (units D) (grid k)) ks).
Proof.
  intros a b n M D ks Ha Hb Hab HMa HMb Hn Hne HS HM grid Hsc.
  assert (E : forall k, grid k = pgrid a b n k) by (intros k; unfold grid, pgrid; rewrite Nat.add_1_r; reflexivity).
  rewrite (map_ext (fun k => map (units D) (grid k)) (ugrid a b n D)) by (intros k; unfold ugrid; rewrite E; reflexivity).
  apply hierarchy; auto.
  - apply Forall_forall. intros k Hk. unfold scaled. rewrite <- E. apply Hsc, Hk.
  - apply Forall_forall. intros k Hk i j Hij. pose proof (Nat.pow_nonzero 2 k ltac:(lia)) as P. apply (C54_linspace_strict a b (n * 2 ^ k) M); auto; [nia|].
    eapply Qle_trans; [exact HM|]. assert (L : (k <= hd 0 ks)%nat).
    { destruct ks as [|x ks]; [destruct Hk|]. simpl. destruct Hk as [->|Hk]; [lia|]. inversion HS as [|? ? _ F]; subst. rewrite Forall_forall in F. specialize (F k Hk). lia. }
    assert (L' : nat_Q (n * 2 ^ k) <= nat_Q (n * 2 ^ hd 0%nat ks)) by (apply nat_Q_le, Nat.mul_le_mono_l, Nat.pow_le_mono_r; lia).
    pose proof (nat_Q_pos (n * 2 ^ k) ltac:(nia)) as P1. set (p := nat_Q (n * 2 ^ k)) in *. set (q := nat_Q (n * 2 ^ hd 0%nat ks)) in *.
    apply Qle_shift_div_l; [exact P1|]. assert (Y : (b - a) / q * q == b - a) by (field; lra).
    assert (Y0 : 0 <= (b - a) / q) by (apply Qle_shift_div_l; lra). set (z := (b - a) / q) in *. clearbody z p q. nra.
Qed.
(** Any coarsening works if the step is exact: start, stop and step are multiples of 2^e below 2^(53 + e). *)
Theorem C54_exact_grid : forall (A B h e : Z) (n : nat), (Z.abs A <= 2 ^ 53)%Z -> (Z.abs B <= 2 ^ 53)%Z -> (Z.abs (B - A) <= 2 ^ 53)%Z ->
  (0 < n)%nat -> (B - A = Z.of_nat n * h)%Z ->
  forall i, (i <= n)%nat -> nth i (linspace (inject_Z A * 2 ^ e) (inject_Z B * 2 ^ e) (S n)) 0 == inject_Z (A + Z.of_nat i * h) * 2 ^ e.
Proof.
  intros A B h e n HA HB HD Hn E i Hi. rewrite linspace_nth by lia. pose proof (nat_Q_pos n Hn) as P. destruct (Nat.eqb_spec i n) as [->|Hin].
  - replace (A + Z.of_nat n * h)%Z with B by lia. reflexivity.
  - assert (G : grid_step (inject_Z A * 2 ^ e) (inject_Z B * 2 ^ e) n == inject_Z h * 2 ^ e).
    { unfold grid_step. setoid_replace (inject_Z B * 2 ^ e - inject_Z A * 2 ^ e) with (inject_Z (B - A) * 2 ^ e) by (unfold Zminus; rewrite inject_Z_plus, inject_Z_opp; ring).
      rewrite rnd_exact by exact HD. setoid_replace (inject_Z (B - A) * 2 ^ e / nat_Q n) with (inject_Z h * 2 ^ e); [apply rnd_exact; nia|].
      rewrite E, inject_Z_mult. fold (nat_Q n). field. lra. }
    rewrite G. setoid_replace (nat_Q i * (inject_Z h * 2 ^ e)) with (inject_Z (Z.of_nat i * h) * 2 ^ e) by (unfold nat_Q; rewrite inject_Z_mult; ring).
    rewrite rnd_exact by nia. setoid_replace (inject_Z (Z.of_nat i * h) * 2 ^ e + inject_Z A * 2 ^ e) with (inject_Z (A + Z.of_nat i * h) * 2 ^ e) by (rewrite inject_Z_plus; ring).
    apply rnd_exact. assert (0 <= Z.of_nat i <= Z.of_nat n)%Z by lia. destruct (Z_lt_le_dec h 0); nia.
Qed.
(** Other coarsening factors: 16 points and 4 points on [0, 5] (factor 5). The second coarse time is no time of the fine
    grid, and the solver's constructor raises. *)
Theorem C54_any_factor_refuted : ~ (forall a b n m, is_double a -> is_double b -> a < b -> (0 < n)%nat -> (0 < m)%nat ->
  forall j, (j <= n)%nat -> exists i, (i <= n * m)%nat /\ nth i (linspace a b (n * m + 1)) 0 == nth j (linspace a b (n + 1)) 0).
Proof.
  intros H. specialize (H 0 5 3%nat 5%nat ltac:(reflexivity) ltac:(reflexivity) ltac:(reflexivity) ltac:(lia) ltac:(lia)).
  assert (X : forallb (fun j => existsb (fun i => Qeq_bool (nth i (linspace 0 5 16) 0) (nth j (linspace 0 5 4) 0)) (seq 0 16)) (seq 0 4) = true).
  { apply forallb_forall. intros j Hj. apply in_seq in Hj. destruct (H j ltac:(lia)) as (i & Hi & E). apply existsb_exists. exists i.
    split; [apply in_seq; lia|]. apply Qeq_eq_bool. exact E. }
  vm_compute in X. discriminate.
Qed.
Definition hand_made (D : positive) (a b : Q) (nts : list nat) : Opts zapp :=
  mkOpts zapp (map (fun nt => map (units D) (linspace a b nt)) nts) (length nts - 1) (1%Z : Sc zapp) 3 (1%Z : Sc zapp) true (CfInt 1) (Some false) 0
    false 1 None 0 ascending_order.
Example C54_rejected :
  check (hand_made (2 ^ 60) 0 5 [16; 4]%nat) 2 = Some (UserException 5) /\
  check (hand_made (2 ^ 60) 0 1 [16; 6]%nat) 2 = Some (UserException 5) /\
  check (hand_made (2 ^ 60) 0 5 [17; 5]%nat) 2 = None /\
  check (hand_made (2 ^ 60) 0 15 [16; 4]%nat) 2 = None.
Proof. vm_compute. auto. Qed.

(** *** The hypotheses hold *)
Lemma on_scale_b D x : (Qnum x * Zpos D mod Zpos (Qden x) =? 0)%Z = true -> on_scale D x.
Proof.
  intros H. apply Z.eqb_eq in H. exists (Qnum x * Zpos D / Zpos (Qden x))%Z. pose proof (Z.div_mod (Qnum x * Zpos D) (Zpos (Qden x)) ltac:(lia)) as E.
  rewrite H in E. unfold Qeq, Qmult, inject_Z. simpl. rewrite ?Pos.mul_1_r. lia.
Qed.
(** [0, 1] and [1/10, 7] (rounded) with 3*2^k + 1 points *)
Definition tenth : Q := rnd (1 # 10).
Example C54_hypotheses_hold : is_double tenth /\ is_double 7 /\ tenth < 7 /\ Qabs tenth <= 7 /\ Qabs 7 <= 7 /\
  StronglySorted (fun x y => (y < x)%nat) [4; 2; 1]%nat /\ (1 # 2 ^ 49) * 7 <= (7 - tenth) / nat_Q (3 * 2 ^ 4) /\
  (forall k, In k [4; 2; 1]%nat -> Forall (on_scale (2 ^ 60)) (linspace tenth 7 (3 * 2 ^ k + 1))) /\
  (Z.of_nat (3 * 2 ^ 4) <= 2 ^ 50)%Z.
Proof.
  split; [apply rnd_double|]. split; [reflexivity|]. split; [reflexivity|]. split; [discriminate|]. split; [discriminate|].
  split; [repeat (constructor; auto)|]. split; [vm_compute; discriminate|]. split; [|vm_compute; discriminate].
  intros k Hk. apply Forall_forall. intros x Hx. apply on_scale_b.
  assert (A : forallb (fun x => (Qnum x * Zpos (2 ^ 60) mod Zpos (Qden x) =? 0)%Z) (linspace tenth 7 (3 * 2 ^ k + 1)) = true)
    by (destruct Hk as [<-|[<-|[<-|[]]]]; vm_compute; reflexivity).
  rewrite forallb_forall in A. apply A, Hx.
Qed.
(** 0.1 is not exact, and neither are the times in between; 0, 1/4, 1/2, 3/4, 1 are. *)
Example C54_values : tenth = 3602879701896397 # 36028797018963968 /\
  linspace 0 1 4 = [0; 6004799503160661 # 18014398509481984; 6004799503160661 # 9007199254740992; 1] /\
  linspace 0 1 5 = [0; 1 # 4; 1 # 2; 3 # 4; 1] /\ linspace 3 5 1 = [3] /\ linspace 3 5 0 = [] /\
  linspace 2 2 3 = [2; 2; 2] /\ linspace 1 0 3 = [1; 1 # 2; 0].
Proof. vm_compute. repeat split; reflexivity. Qed.
Example C54_exact_example : (Z.abs 0 <= 2 ^ 53)%Z /\ (60 - 0 = Z.of_nat 60 * 1)%Z /\
  forall i, (i <= 60)%nat -> nth i (linspace 0 60 61) 0 == inject_Z (Z.of_nat i).
Proof.
  split; [discriminate|]. split; [reflexivity|]. intros i Hi.
  pose proof (C54_exact_grid 0 60 1 0 60 ltac:(discriminate) ltac:(discriminate) ltac:(discriminate) ltac:(lia) eq_refl i Hi) as E.
  change (inject_Z 0 * 2 ^ 0) with 0 in E. change (inject_Z 60 * 2 ^ 0) with 60 in E. rewrite E. rewrite Z.mul_1_r. simpl. ring.
Qed.
Example C54_constructor_example :
  application_new true true (Some 0) (Some 1) (Some 5%Z) INone = inl (mkAppTime 0 1 5 [0; 1 # 4; 1 # 2; 3 # 4; 1]) /\
  application_new true false (Some 0) (Some 1) (Some 5%Z) INone = inr (EAttribute 1) /\
  application_new true true (Some 0) (Some 1) None INone = inr ENoInterval /\
  application_new true true None None None IOther = inr EWrongType /\
  application_new true true None None None (IArray [0; 1 # 3; 1]) = inl (mkAppTime 0 1 3 [0; 1 # 3; 1]).
Proof. vm_compute. repeat split; reflexivity. Qed.

Print Assumptions C54_accepted_iff.
Print Assumptions C54_time_information.
Print Assumptions C54_one_point_refuted.
Print Assumptions C54_linspace_sorted.
Print Assumptions C54_linspace_strict.
Print Assumptions C54_power_of_two_hierarchy.
Print Assumptions C54_exact_grid.
Print Assumptions C54_any_factor_refuted.
