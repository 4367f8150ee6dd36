From Coq Require Import List ZArith Lia Arith Bool Sorted.
From Verif Require Import PyList Setup Spec Mgrit ListFacts SimpleSetup.
Import ListNotations.

(** ** Strides *)
Lemma stride_from_nth {B : Type} c : 0 < c -> forall (l : list B) s k, nth_error (stride_from s c l) k = nth_error l (s + k * c).
Proof.
  intros Hc. induction l as [|x l IH]; intros s k; cbn [stride_from].
  - destruct k, (s + _); reflexivity.
  - destruct s as [|s].
    + destruct k as [|k]; [reflexivity|]. cbn [nth_error]. rewrite IH. replace (0 + S k * c) with (S (c - 1 + k * c)) by nia. reflexivity.
    + rewrite IH. reflexivity.
Qed.
Lemma stride_nth {B : Type} c (l : list B) k : 0 < c -> nth_error (stride c l) k = nth_error l (k * c).
Proof. intros. unfold stride. rewrite stride_from_nth by auto. reflexivity. Qed.
Lemma stride_nonempty {B : Type} c (l : list B) : l <> [] -> stride c l <> [].
Proof. destruct l; [congruence|]. discriminate. Qed.

Lemma stride_length_le {B : Type} c (l : list B) m : 0 < c -> length (stride c l) <= m <-> length l <= m * c.
Proof.
  intros Hc. rewrite <- nth_error_None, stride_nth by auto. apply nth_error_None.
Qed.

Lemma last_indep {B : Type} (l : list B) a b : l <> [] -> last l a = last l b.
Proof. induction l as [|x [|y l] IH]; intros H; [congruence|reflexivity|]. apply IH. discriminate. Qed.

(** ** The hierarchy *)
Lemma coarsen_times_spec c : 0 < c -> forall n q qs, coarsen_times n c q = Some qs ->
  length qs = n /\ forall i, i < n -> exists p, nth_error qs i = Some p /\
    (forall k, nth_error (p_t p) k = nth_error (p_t q) (k * c ^ S i)) /\
    p_t p <> [] /\ p_t_start p = hd 0%Z (p_t p) /\ p_t_end p = last (p_t p) 0%Z /\ p_nt p = length (p_t p).
Proof.
  intros Hc. induction n as [|n IH]; intros q qs H.
  - injection H as <-. split; [reflexivity|lia].
  - cbn [coarsen_times] in H. unfold coarsen in H. destruct (stride c (p_t q)) as [|a tmp] eqn:E; [discriminate|].
    set (q' := mkProblem a (last (a :: tmp) a) (a :: tmp) (length (a :: tmp))) in *.
    destruct (coarsen_times n c q') as [qs'|] eqn:E'; [|discriminate]. injection H as <-. destruct (IH _ _ E') as [I1 I2].
    split; [simpl; lia|]. intros [|i] Hi.
    + exists q'. split; [reflexivity|]. split; [|split; [discriminate|split; [reflexivity|split; [|reflexivity]]]].
      * intros k. unfold q'. cbn [p_t]. rewrite <- E, stride_nth by auto. rewrite Nat.pow_1_r. reflexivity.
      * unfold q'. cbn [p_t p_t_end]. apply last_indep. discriminate.
    + destruct (I2 i ltac:(lia)) as (p & P1 & P2 & P3). exists p. split; [exact P1|]. split; [|exact P3].
      intros k. rewrite P2. unfold q'. cbn [p_t]. rewrite <- E, stride_nth by auto. f_equal. simpl. nia.
Qed.
Lemma coarsen_times_total c : forall n q, p_t q <> [] -> exists qs, coarsen_times n c q = Some qs.
Proof.
  induction n as [|n IH]; intros q H; [simpl; eauto|]. cbn [coarsen_times]. unfold coarsen.
  destruct (stride c (p_t q)) as [|a tmp] eqn:E; [exfalso; revert E; apply stride_nonempty; auto|].
  set (q' := mkProblem _ _ _ _). destruct (IH q') as (qs & ->); [discriminate|eauto].
Qed.

Lemma simple_spec q level c w ps : simple_setup q level c = Some (w, ps) ->
  0 < c /\ 0 < level /\ length ps = level /\ nth_error ps 0 = Some q /\
  (w = true <-> length (p_t q) <= c * level /\ p_t q <> []) /\
  forall i, i < level -> exists p, nth_error ps i = Some p /\
    (forall k, nth_error (p_t p) k = nth_error (p_t q) (k * c ^ i)) /\
    (0 < i -> p_t p <> [] /\ p_t_start p = hd 0%Z (p_t p) /\ p_t_end p = last (p_t p) 0%Z /\ p_nt p = length (p_t p)).
Proof.
  unfold simple_setup. destruct (c * level =? 0) eqn:Z; [discriminate|]. apply Nat.eqb_neq in Z.
  assert (Hc : 0 < c) by nia. assert (Hl : 0 < level) by nia.
  destruct (coarsen_times (level - 1) c q) as [qs|] eqn:E; [|discriminate]. intros H. injection H as <- <-.
  destruct (coarsen_times_spec c Hc _ _ _ E) as [E1 E2].
  split; [auto|split; [auto|split; [simpl; lia|split; [reflexivity|split]]]].
  - rewrite Nat.eqb_eq. assert (X := stride_length_le (c * level) (p_t q) 1 ltac:(lia)).
    assert (Y := stride_length_le (c * level) (p_t q) 0 ltac:(lia)).
    rewrite <- length_zero_iff_nil. lia.
  - intros [|i] Hi.
    + exists q. split; [reflexivity|]. split; [|lia]. intros k. f_equal. simpl. lia.
    + destruct (E2 i ltac:(lia)) as (p & P1 & P2 & P3). exists p. split; [exact P1|]. split; [exact P2|]. auto.
Qed.
Lemma simple_total q level c : 0 < c -> 0 < level -> p_t q <> [] -> exists w ps, simple_setup q level c = Some (w, ps).
Proof.
  intros Hc Hl Hq. unfold simple_setup. replace (c * level =? 0) with false by (symmetry; apply Nat.eqb_neq; nia).
  destruct (coarsen_times_total c (level - 1) q Hq) as (qs & ->). eauto.
Qed.

Lemma incr_ssorted l : incr l -> StronglySorted Z.lt l.
Proof.
  induction l as [|a l IH]; intros H; constructor.
  - apply IH. eapply incr_tail; eauto.
  - apply Forall_forall. intros x Hx. apply (In_nth _ _ 0%Z) in Hx. destruct Hx as (n & Hn & <-).
    exact (H 0 (S n) ltac:(lia) ltac:(simpl; lia)).
Qed.

Section Valid.
  Variables (q : Problem) (level c : nat) (w : bool) (ps : list Problem).
  Hypothesis HS : simple_setup q level c = Some (w, ps).
  Hypothesis Hsort : StronglySorted Z.lt (p_t q).
  Hypothesis Hne : p_t q <> [].
  Let gs := map p_t ps.
  Let Hc : 0 < c. Proof. apply (simple_spec _ _ _ _ _ HS). Qed.
  Lemma gs_length : length gs = level.
  Proof. unfold gs. rewrite map_length. apply (simple_spec _ _ _ _ _ HS). Qed.
  Lemma gs_nth i k : i < level -> nth_error (nth i gs []) k = nth_error (p_t q) (k * c ^ i).
  Proof.
    intros Hi. destruct (simple_spec _ _ _ _ _ HS) as (_ & _ & _ & _ & _ & H). destruct (H i Hi) as (p & P1 & P2 & _).
    unfold gs. assert (E : nth i (map p_t ps) [] = p_t p). { apply nth_error_nth. rewrite nth_error_map, P1. reflexivity. }
    rewrite E. apply P2.
  Qed.
  Lemma gs_lt i k : i < level -> k < length (nth i gs []) <-> k * c ^ i < length (p_t q).
  Proof. intros Hi. rewrite <- !nth_error_Some, gs_nth by auto. reflexivity. Qed.
  Lemma gs_val i k : i < level -> nth k (nth i gs []) 0%Z = nth (k * c ^ i) (p_t q) 0%Z.
  Proof. 
    intros Hi. assert (E : forall (l : list Z) n, nth n l 0%Z = match nth_error l n with Some x => x | None => 0%Z end).
    { induction l as [|x l IH]; intros [|n]; simpl; auto. }
    rewrite (E _ k), (E _ (k * c ^ i)), gs_nth by auto. reflexivity.
  Qed.
  Lemma pow_pos i : 0 < c ^ i.
  Proof. pose proof Hc. assert (c ^ i <> 0) by (apply Nat.pow_nonzero; lia). lia. Qed.

  Lemma gs_sorted i : i < level -> StronglySorted Z.lt (nth i gs []).
  Proof.
    intros Hi. apply incr_ssorted. intros a b Hab Hb. rewrite !gs_val by auto. pose proof (pow_pos i).
    apply (ssorted_incr _ Hsort); [nia|]. apply gs_lt; auto.
  Qed.
  Lemma gs_ne i : i < level -> nth i gs [] <> [].
  Proof.
    intros Hi E. assert (0 < length (nth i gs [])). { apply gs_lt; auto. simpl. destruct (p_t q); [congruence|simpl; lia]. }
    rewrite E in *. simpl in *. lia.
  Qed.
  Lemma gs_incl i : S i < level -> incl (nth (S i) gs []) (nth i gs []).
  Proof.
    intros Hi x Hx. apply In_nth_error in Hx. destruct Hx as (k & Hk). rewrite gs_nth in Hk by auto.
    apply nth_error_In with (n := k * c). rewrite gs_nth by lia. rewrite <- Hk. f_equal. simpl. lia.
  Qed.
  Lemma gs_hd i : S i < level -> hd_error (nth (S i) gs []) = hd_error (nth i gs []).
  Proof.
    intros Hi. assert (E : forall l : list Z, hd_error l = nth_error l 0) by (intros [|]; reflexivity).
    rewrite !E, !gs_nth by lia. reflexivity.
  Qed.
  Lemma simple_valid : 1 = level \/ c ^ (level - 1) < length (p_t q) -> valid_hierarchy gs.
  Proof.
    intros Hlen. destruct (simple_spec _ _ _ _ _ HS) as (_ & Hlev & _). split; [|split].
    - intros E. pose proof gs_length as X. rewrite E in X. simpl in X. lia.
    - rewrite gs_length. intros l Hl. split; [apply gs_sorted|apply gs_ne]; auto.
    - rewrite gs_length. intros l Hl. split; [apply gs_incl; auto|]. split; [apply gs_hd; auto|].
      change (1 < length (nth (S l) gs [])). apply gs_lt; auto. destruct Hlen as [X|X]; [lia|].
      assert (c ^ S l <= c ^ (level - 1)). { pose proof Hc. apply Nat.pow_le_mono_r; lia. } lia.
  Qed.
  Lemma simple_not_adjacent : 2 <= c -> no_adjacent_cpoints gs.
  Proof.
    intros H2 l i. rewrite gs_length. intros Hl Hi H1 H3.
    assert (K : forall j, j < length (nth l gs []) -> In (nth j (nth l gs []) 0%Z) (nth (S l) gs []) -> exists k, j = k * c).
    { intros j Hj H. apply (In_nth _ _ 0%Z) in H. destruct H as (k & Hk & E). exists k. rewrite !gs_val in E by lia.
      apply gs_lt in Hk; [|auto]. apply gs_lt in Hj; [|lia].
      apply (incr_inj _ _ _ (ssorted_incr _ Hsort) Hk Hj) in E. pose proof (pow_pos l).
      replace (k * c ^ S l) with (k * c * c ^ l) in E by (cbn [Nat.pow]; ring). apply Nat.mul_cancel_r in E; lia. }
    destruct (K i ltac:(lia) H1) as (k & Hk). destruct (K (S i) Hi H3) as (k' & Hk'). destruct (le_lt_dec k' k); nia.
  Qed.
  Lemma simple_degenerate : length (last gs []) = 1 <-> length (p_t q) <= c ^ (level - 1).
  Proof.
    clear Hsort. destruct (simple_spec _ _ _ _ _ HS) as (_ & Hlev & _).
    assert (E : last gs [] = nth (level - 1) gs []).
    { rewrite <- gs_length. generalize gs. intros l. induction l as [|a [|b l] IH]; [reflexivity|reflexivity|].
      change (last (a :: b :: l) []) with (last (b :: l) (@nil Z)). rewrite IH. simpl. rewrite !Nat.sub_0_r. reflexivity. }
    rewrite E. pose proof (gs_lt (level - 1) 1 ltac:(lia)) as X. pose proof (gs_lt (level - 1) 0 ltac:(lia)) as Y.
    assert (0 < length (p_t q)) by (destruct (p_t q); [congruence|simpl; lia]). simpl in Y. rewrite Nat.mul_1_l in X. lia.
  Qed.
End Valid.

(** ** split_communicator *)
Lemma filter_div_length N s a : 0 < s -> (a + 1) * s <= N -> filter (fun q => q / s =? a) (seq 0 N) = seq (a * s) s.
Proof.
  intros Hs H. replace N with (a * s + (s + (N - (a + 1) * s))) by nia. rewrite !seq_app, !filter_app.
  assert (F : forall l f, (forall x, In x l -> f x = false) -> filter f l = @nil nat).
  { induction l as [|x l IH]; intros f Hf; [reflexivity|]. simpl. rewrite (Hf x (or_introl eq_refl)). apply IH. intros; apply Hf; right; auto. }
  assert (T : forall l f, (forall x, In x l -> f x = true) -> filter f l = (l : list nat)).
  { induction l as [|x l IH]; intros f Hf; [reflexivity|]. simpl. rewrite (Hf x (or_introl eq_refl)). f_equal. apply IH. intros; apply Hf; right; auto. }
  rewrite (F (seq 0 (a * s))), (T (seq (0 + a * s) s)), F; [simpl; rewrite app_nil_r; reflexivity| | |].
  - intros x Hx. apply in_seq in Hx. apply Nat.eqb_neq. intros E. pose proof (Nat.mul_succ_div_gt x s ltac:(lia)). nia.
  - intros x Hx. apply in_seq in Hx. apply Nat.eqb_eq. symmetry. apply Nat.div_unique with (r := x - a * s); [lia|nia].
  - intros x Hx. apply in_seq in Hx. apply Nat.eqb_neq. intros E. pose proof (Nat.mul_div_le x s ltac:(lia)). nia.
Qed.
Lemma filter_mod_eq s b : b < s -> forall m, filter (fun q => q mod s =? b) (seq 0 (m * s)) = map (fun k => k * s + b) (seq 0 m).
Proof.
  intros Hb. induction m as [|m IH]; [reflexivity|]. rewrite seq_S, map_app, <- IH.
  replace (S m * s) with (m * s + s) by lia. rewrite seq_app, filter_app. f_equal. simpl.
  replace s with (b + (1 + (s - b - 1))) at 2 by lia. rewrite !seq_app, !filter_app.
  assert (F : forall l f, (forall x, In x l -> f x = false) -> filter f l = @nil nat).
  { induction l as [|x l IHl]; intros f Hf; [reflexivity|]. simpl. rewrite (Hf x (or_introl eq_refl)). apply IHl. intros; apply Hf; right; auto. }
  assert (M : forall x, x < s -> (m * s + x) mod s = x).
  { intros x Hx. rewrite Nat.add_comm, Nat.mod_add by lia. apply Nat.mod_small; auto. }
  rewrite F; [|intros x Hx; apply in_seq in Hx; replace x with (m * s + (x - m * s)) by lia; rewrite M by lia; apply Nat.eqb_neq; lia].
  rewrite (F (seq _ (s - b - 1))); [|intros x Hx; apply in_seq in Hx; replace x with (m * s + (x - m * s)) by lia; rewrite M by lia; apply Nat.eqb_neq; lia].
  cbn [seq filter]. rewrite M by lia. rewrite Nat.eqb_refl. reflexivity.
Qed.
Lemma index_of_seq a n x : a <= x < a + n -> index_of x (seq a n) = x - a.
Proof.
  revert a. induction n as [|n IH]; intros a H; [lia|]. simpl. destruct (x =? a) eqn:E.
  - apply Nat.eqb_eq in E. lia.
  - apply Nat.eqb_neq in E. rewrite IH by lia. lia.
Qed.
Lemma index_of_map (f : nat -> nat) : (forall x y, f x = f y -> x = y) -> forall l x, index_of (f x) (map f l) = index_of x l.
Proof.
  intros Hf. induction l as [|y l IH]; intros x; [reflexivity|]. simpl. rewrite IH.
  destruct (x =? y) eqn:E; [apply Nat.eqb_eq in E; subst; rewrite Nat.eqb_refl; reflexivity|].
  apply Nat.eqb_neq in E. destruct (f x =? f y) eqn:E'; [apply Nat.eqb_eq in E'; apply Hf in E'; congruence|reflexivity].
Qed.

Lemma split_comms s T rank : 0 < s -> rank < T * s ->
  split_communicator (T * s) s rank = (seq (rank / s * s) s, map (fun k => k * s + rank mod s) (seq 0 T)).
Proof.
  intros Hs H. unfold split_communicator, comm_split. f_equal.
  - apply filter_div_length; [auto|]. assert (rank / s < T) by (apply Nat.div_lt_upper_bound; lia). nia.
  - apply filter_mod_eq. apply Nat.mod_upper_bound. lia.
Qed.
Lemma split_ranks s T rank : 0 < s -> rank < T * s ->
  index_of rank (fst (split_communicator (T * s) s rank)) = rank mod s /\
  index_of rank (snd (split_communicator (T * s) s rank)) = rank / s.
Proof.
  intros Hs H. rewrite split_comms by auto. cbn [fst snd]. pose proof (Nat.div_mod rank s ltac:(lia)) as E.
  pose proof (Nat.mod_upper_bound rank s ltac:(lia)). split.
  - rewrite index_of_seq; nia.
  - assert (rank / s < T) by (apply Nat.div_lt_upper_bound; lia).
    transitivity (index_of ((fun k => k * s + rank mod s) (rank / s)) (map (fun k => k * s + rank mod s) (seq 0 T))).
    { f_equal. nia. }
    rewrite (index_of_map (fun k => k * s + rank mod s)) by (intros; nia). rewrite index_of_seq; lia.
Qed.
