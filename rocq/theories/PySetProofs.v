(** Facts about CPython's hash set: insertion always finds a slot, no key is lost, and a set of integers from an interval not
    longer than the table is traversed in ascending order up to one rotation. *)
From Coq Require Import List ZArith Lia Arith Bool Sorted Permutation.
From Verif Require Import PyList ListFacts Setup Spec OrderProofs PySet.
Import ListNotations.

(** ** The probe sequence i -> 5i + 1 (mod 2^k) visits every slot *)
Fixpoint xs (j : nat) : nat := match j with 0 => 0 | S j' => 5 * xs j' + 1 end.
Lemma xs_pow j : 4 * xs j + 1 = 5 ^ j.
Proof. induction j; [reflexivity|]. cbn [xs]. rewrite Nat.pow_succ_r', <- IHj. lia. Qed.
Lemma xs_double i : xs (2 * i) = 2 * (xs i * (2 * xs i + 1)).
Proof.
  pose proof (xs_pow (2 * i)) as H. replace (5 ^ (2 * i)) with (5 ^ i * 5 ^ i) in H by (rewrite <- Nat.pow_add_r; f_equal; lia). rewrite <- xs_pow in H. nia.
Qed.
Lemma xs_even j : Nat.even (xs j) = Nat.even j.
Proof.
  induction j; [reflexivity|]. cbn [xs]. rewrite Nat.add_1_r, !Nat.even_succ, <- !Nat.negb_even. f_equal. rewrite Nat.even_mul, IHj. reflexivity.
Qed.
Lemma even_half a : Nat.even a = true -> exists b, a = 2 * b.
Proof. intros H. apply Nat.even_spec in H. destruct H as [b ->]. eauto. Qed.
Lemma odd_divide k : forall a b, Nat.even b = false -> Nat.divide (2 ^ k) (a * b) -> Nat.divide (2 ^ k) a.
Proof.
  induction k as [|k IH]; intros a b Hb [q Hq]; [exists a; simpl; lia|]. rewrite Nat.pow_succ_r' in *.
  assert (E : Nat.even a = true).
  { assert (X : Nat.even (a * b) = true) by (rewrite Hq, !Nat.even_mul; simpl; apply orb_true_r). rewrite Nat.even_mul, Hb, orb_false_r in X. exact X. }
  destruct (even_half a E) as [a' ->]. destruct (IH a' b Hb) as [q' Hq']; [exists q; nia|]. exists q'. lia.
Qed.
Lemma xs_divide k : forall j, Nat.divide (2 ^ k) (xs j) -> Nat.divide (2 ^ k) j.
Proof.
  induction k as [|k IH]; intros j H; [exists j; simpl; lia|].
  assert (E : Nat.even j = true).
  { rewrite <- xs_even. destruct H as [q ->]. rewrite Nat.even_mul, Nat.even_pow by lia. simpl. apply orb_true_r. }
  destruct (even_half j E) as [i ->]. rewrite xs_double in H. rewrite Nat.pow_succ_r' in *.
  assert (D : Nat.divide (2 ^ k) (xs i)).
  { apply (odd_divide k (xs i) (2 * xs i + 1)); [rewrite Nat.add_1_r, Nat.even_succ, <- Nat.negb_even, Nat.even_mul; reflexivity|].
    destruct H as [q Hq]. exists q. nia. }
  destruct (IH i D) as [q ->]. exists q. lia.
Qed.
Fixpoint orbit (T i j : nat) : nat := match j with 0 => i | S j' => orbit T ((i * 5 + 1) mod T) j' end.
Lemma orbit_mod T : 0 < T -> forall j i, orbit T (i mod T) j = (5 ^ j * i + xs j) mod T.
Proof.
  intros HT. induction j as [|j IH]; intros i; [cbn [orbit xs Nat.pow]; f_equal; lia|]. cbn [orbit].
  replace ((i mod T * 5 + 1) mod T) with ((i * 5 + 1) mod T).
  - rewrite IH. f_equal. cbn [xs]. rewrite Nat.pow_succ_r'. pose proof (xs_pow j). nia.
  - rewrite <- (Nat.add_mod_idemp_l (i mod T * 5)), Nat.mul_mod_idemp_l, Nat.add_mod_idemp_l by lia. reflexivity.
Qed.
Lemma mod_eq_divide a b T : 0 < T -> a <= b -> a mod T = b mod T -> Nat.divide T (b - a).
Proof.
  intros HT Hab E. exists (b / T - a / T). pose proof (Nat.div_mod a T ltac:(lia)). pose proof (Nat.div_mod b T ltac:(lia)).
  rewrite Nat.mul_sub_distr_r. rewrite E in H. nia.
Qed.
Lemma orbit_distinct k i a b : a < b -> b < a + 2 ^ k -> orbit (2 ^ k) (i mod 2 ^ k) a <> orbit (2 ^ k) (i mod 2 ^ k) b.
Proof.
  intros Hab Hb E. assert (HT : 0 < 2 ^ k) by (apply Nat.neq_0_lt_0, Nat.pow_nonzero; lia). rewrite !orbit_mod in E by auto.
  set (d := b - a). replace b with (a + d) in E by lia.
  assert (X : 5 ^ (a + d) * i + xs (a + d) = 5 ^ a * i + xs a + 5 ^ a * (xs d * (4 * i + 1))).
  { rewrite Nat.pow_add_r. pose proof (xs_pow (a + d)) as E1. rewrite Nat.pow_add_r in E1. pose proof (xs_pow a) as E2. pose proof (xs_pow d) as E3.
    rewrite <- E3, <- E2 in *. nia. }
  rewrite X in E. apply mod_eq_divide in E; [|auto|lia].
  replace (5 ^ a * i + xs a + 5 ^ a * (xs d * (4 * i + 1)) - (5 ^ a * i + xs a)) with (xs d * (5 ^ a * (4 * i + 1))) in E by lia.
  apply odd_divide in E.
  - apply xs_divide in E. apply Nat.divide_pos_le in E; lia.
  - rewrite Nat.even_mul. rewrite <- xs_pow. rewrite !Nat.add_1_r, !Nat.even_succ, <- !Nat.negb_even, !Nat.even_mul. reflexivity.
Qed.
Lemma orbit_lt T i j : 0 < T -> i < T -> orbit T i j < T.
Proof. intros HT. revert i. induction j; intros i Hi; cbn [orbit]; auto. apply IHj, Nat.mod_upper_bound. lia. Qed.
Lemma nodup_map_inj {A B} (f : A -> B) l : NoDup l -> (forall x y, In x l -> In y l -> f x = f y -> x = y) -> NoDup (map f l).
Proof.
  induction l as [|x l IH]; intros Hn H; [constructor|]. inversion Hn; subst. cbn [map]. constructor.
  - intros X. apply in_map_iff in X. destruct X as (y & E & Hy). apply H in E; [congruence|right; auto|left; auto].
  - apply IH; auto. intros a b Ha Hb. apply H; right; auto.
Qed.
Lemma orbit_covers k i e : i < 2 ^ k -> e < 2 ^ k -> exists j, j < 2 ^ k /\ orbit (2 ^ k) i j = e.
Proof.
  intros Hi He. set (T := 2 ^ k) in *. set (l := map (orbit T i) (seq 0 T)).
  assert (Hn : NoDup l).
  { apply nodup_map_inj; [apply seq_NoDup|]. intros x y Hx Hy E. apply in_seq in Hx, Hy. rewrite <- (Nat.mod_small i T Hi) in E.
    destruct (lt_eq_lt_dec x y) as [[L|L]|L]; auto; exfalso; revert E.
    - apply orbit_distinct; unfold T in *; lia.
    - intros E. symmetry in E. revert E. apply orbit_distinct; unfold T in *; lia. }
  assert (Hin : In e l).
  { apply (NoDup_length_incl Hn (l' := seq 0 T)).
    - unfold l. rewrite map_length. auto.
    - intros x Hx. unfold l in Hx. apply in_map_iff in Hx. destruct Hx as (j & <- & _). apply in_seq. pose proof (orbit_lt T i j ltac:(lia) Hi). lia.
    - apply in_seq. lia. }
  unfold l in Hin. apply in_map_iff in Hin. destruct Hin as (j & E & Hj). apply in_seq in Hj. exists j. split; [lia|exact E].
Qed.

(** ** Probing *)
Lemma find_first_none t i n : 0 < n -> find (free t) (seq i n) = None -> free t i = false.
Proof. intros Hn H. destruct n; [lia|]. cbn [seq find] in H. destruct (free t i); [discriminate|reflexivity]. Qed.
Lemma nprobes_pos (b : bool) : 0 < (if b then 10 else 1).
Proof. destruct b; lia. Qed.
Lemma probe0_none t : forall fuel i, probe fuel t i 0 = None -> forall j, j < fuel -> free t (orbit (length t) i j) = false.
Proof.
  induction fuel as [|fuel IH]; intros i H j Hj; [lia|]. cbn [probe] in H. destruct (find _ _) eqn:F; [discriminate|].
  apply find_first_none in F; [|apply nprobes_pos]. destruct j; [exact F|]. cbn [orbit]. change (0 / 32) with 0 in H. cbv zeta in H. rewrite Nat.add_0_r in H.
  apply IH; [exact H|lia].
Qed.
Lemma probe_finds t k e : length t = 2 ^ k -> free t e = true -> forall q fuel p i, p <= q -> q + length t <= fuel -> i < length t -> probe fuel t i p <> None.
Proof.
  intros Ht He. assert (Hl : 0 < length t) by (rewrite Ht; apply Nat.neq_0_lt_0, Nat.pow_nonzero; lia).
  assert (He' : e < length t) by (unfold free in He; apply andb_prop in He; destruct He as [He _]; apply Nat.ltb_lt; exact He).
  induction q as [|q IH]; intros fuel p i Hp Hf Hi H.
  - assert (p = 0) by lia. subst p. rewrite Ht in Hi, He'. destruct (orbit_covers k i e Hi He') as (j & Hj & E).
    pose proof (probe0_none t fuel i H j ltac:(lia)) as X. rewrite Ht, E in X. congruence.
  - destruct fuel as [|fuel]; [lia|]. cbn [probe] in H. destruct (find _ _); [discriminate|]. cbv zeta in H. revert H. apply IH.
    + destruct (Nat.eq_dec p 0) as [->|]; [simpl; lia|]. pose proof (Nat.div_lt p 32 ltac:(lia) ltac:(lia)). lia.
    + lia.
    + apply Nat.mod_upper_bound. lia.
Qed.
Lemma probe_free t : forall fuel i p j, probe fuel t i p = Some j -> free t j = true.
Proof.
  induction fuel as [|fuel IH]; intros i p j H; [discriminate|]. cbn [probe] in H. destruct (find _ _) eqn:F; [|eapply IH; exact H].
  injection H as <-. eapply find_some; eauto.
Qed.
Lemma probe_at_once t fuel i p : free t i = true -> probe (S fuel) t i p = Some i.
Proof. intros H. cbn [probe]. destruct (i + 9 <=? _); cbn [seq find]; rewrite H; reflexivity. Qed.

(** ** Slots and keys *)
Lemma free_split t j : free t j = true -> exists a b, t = a ++ Empty :: b /\ length a = j.
Proof.
  unfold free. intros H. apply andb_prop in H. destruct H as [H1 H2]. apply Nat.ltb_lt in H1. destruct (nth_split t Empty H1) as (a & b & E & L).
  destruct (nth j t Empty); try discriminate. eauto.
Qed.
Lemma upd_app {B} (a b : list B) x y : upd (a ++ x :: b) (length a) y = a ++ y :: b.
Proof. induction a; cbn; [reflexivity|]. f_equal. exact IHa. Qed.
Lemma keys_app a b : keys (a ++ b) = keys a ++ keys b.
Proof. apply flat_map_app. Qed.
Lemma keys_used t : length (keys t) = used t.
Proof. unfold keys, used. induction t as [|[| |k] t IH]; cbn; auto. Qed.
Lemma fill_used t : ~ In Dummy t -> fill t = used t.
Proof. unfold fill, used. induction t as [|[| |k] t IH]; cbn; intros H; [reflexivity|apply IH; tauto|exfalso; apply H; left; auto|f_equal; apply IH; tauto]. Qed.
Lemma keys_repeat n : keys (repeat Empty n) = [].
Proof. induction n; cbn; auto. Qed.
Lemma nodummy_repeat n : ~ In Dummy (repeat Empty n).
Proof. intros H. apply repeat_spec in H. discriminate. Qed.
Lemma used_lt_free t : ~ In Dummy t -> used t < length t -> exists e, free t e = true.
Proof.
  intros Hd H. assert (X : exists a b, t = a ++ Empty :: b).
  { induction t as [|s t IH]; [cbn in H; lia|]. destruct s.
    - exists [], t. reflexivity.
    - exfalso. apply Hd. left; auto.
    - destruct IH as (a & b & ->); [intros X; apply Hd; right; auto|unfold used in *; cbn in *; lia|]. exists (Key k :: a), b. reflexivity. }
  destruct X as (a & b & ->). exists (length a). unfold free. rewrite app_length. cbn [length]. rewrite app_nth2, Nat.sub_diag by lia.
  rewrite (proj2 (Nat.ltb_lt _ _)) by lia. reflexivity.
Qed.

Definition sized (t : table) : Prop := 8 <= length t /\ exists k, length t = 2 ^ k.
Lemma insert_spec t k : sized t -> ~ In Dummy t -> used t < length t ->
  exists a b, t = a ++ Empty :: b /\ insert t k = a ++ Key k :: b /\ (free t (k mod length t) = true -> length a = k mod length t).
Proof.
  intros (H8 & e & He) Hd Hu. destruct (used_lt_free t Hd Hu) as (f & Hf). unfold insert.
  destruct (probe _ t _ k) as [j|] eqn:E.
  - pose proof (probe_free _ _ _ _ _ E) as F. destruct (free_split t j F) as (a & b & Et & L). exists a, b. split; [exact Et|]. split.
    + rewrite Et, <- L, upd_app. reflexivity.
    + intros X. rewrite Nat.add_1_r in E. rewrite probe_at_once in E by exact X. injection E as <-. exact L.
  - exfalso. revert E. apply (probe_finds t e f He Hf k); [lia|lia|]. apply Nat.mod_upper_bound. lia.
Qed.

(** ** Tables whose keys sit where they hash to *)
Definition placed (t : table) : Prop := forall a k b, t = a ++ Key k :: b -> length a = k mod length t.
Definition within (lo n : nat) (l : list nat) : Prop := forall k, In k l -> lo <= k < lo + n.
Lemma mod_inj T lo n x y : n <= T -> 0 < T -> lo <= x < lo + n -> lo <= y < lo + n -> x mod T = y mod T -> x = y.
Proof.
  intros Hn HT Hx Hy E. destruct (le_ge_dec x y) as [L|L].
  - apply mod_eq_divide in E; auto. destruct E as [q E]. destruct q; [lia|]. nia.
  - symmetry in E. apply mod_eq_divide in E; auto. destruct E as [q E]. destruct q; [lia|]. nia.
Qed.
Lemma in_keys t k : In k (keys t) <-> In (Key k) t.
Proof.
  unfold keys. rewrite in_flat_map. split.
  - intros (s & Hs & Hk). destruct s; cbn in Hk; try tauto. destruct Hk as [->|[]]. exact Hs.
  - intros H. exists (Key k). split; [exact H|left; reflexivity].
Qed.
Lemma app_eq_app_cons {B} (a b a' b' : list B) x y : a ++ x :: b = a' ++ y :: b' ->
  (a = a' /\ x = y /\ b = b') \/ (exists c, a' = a ++ x :: c /\ b = c ++ y :: b') \/ (exists c, a = a' ++ y :: c /\ b' = c ++ x :: b).
Proof.
  revert a'. induction a as [|z a IH]; intros [|z' a'] E; cbn in *; injection E as E1 E2; subst.
  - left. auto.
  - right. left. exists a'. auto.
  - right. right. exists a. auto.
  - destruct (IH _ E2) as [(-> & -> & ->)|[(c & -> & ->)|(c & -> & ->)]]; [left; auto|right; left; eauto|right; right; eauto].
Qed.

Record inv (lo n : nat) (t : table) : Prop := {
  v_sized : sized t;
  v_nodummy : ~ In Dummy t;
  v_nodup : NoDup (keys t);
  v_within : within lo n (keys t);
  v_placed : n <= length t -> placed t
}.
Lemma insert_inv lo n t k : inv lo n t -> used t < length t -> lo <= k < lo + n -> ~ In k (keys t) ->
  inv lo n (insert t k) /\ Permutation (keys (insert t k)) (k :: keys t) /\ length (insert t k) = length t.
Proof.
  intros [Hs Hd Hn Hw Hp] Hu Hk Hnk. destruct (insert_spec t k Hs Hd Hu) as (a & b & Et & Ei & Hf).
  assert (PK : Permutation (keys (insert t k)) (k :: keys t)).
  { rewrite Ei, Et, !keys_app. cbn. symmetry. apply Permutation_middle. }
  assert (LK : length (insert t k) = length t) by (rewrite Ei, Et, !app_length; reflexivity).
  split; [|auto]. constructor.
  - unfold sized. rewrite LK. exact Hs.
  - rewrite Ei. intros X. apply Hd. rewrite Et. apply in_app_or in X. apply in_or_app. destruct X as [X|[X|X]]; [left; auto|discriminate|right; right; auto].
  - eapply Permutation_NoDup; [symmetry; exact PK|]. constructor; auto.
  - intros x Hx. apply (Permutation_in _ PK) in Hx. destruct Hx as [<-|Hx]; auto.
  - rewrite LK. intros L. specialize (Hp L). destruct Hs as [H8 _].
    assert (F : free t (k mod length t) = true).
    { unfold free. pose proof (Nat.mod_upper_bound k (length t) ltac:(lia)) as B. rewrite (proj2 (Nat.ltb_lt _ _) B). cbn.
      destruct (nth_split t Empty B) as (a' & b' & E & La). destruct (nth (k mod length t) t Empty) as [| |k'] eqn:X; [reflexivity| |].
      - exfalso. apply Hd. rewrite E. apply in_or_app. right; left; auto.
      - exfalso. apply Hnk. assert (k = k'); [|subst k'; apply in_keys; rewrite E; apply in_or_app; right; left; auto].
        apply (mod_inj (length t) lo n); auto; [lia| |rewrite <- La; apply (Hp _ _ _ E)].
        apply Hw, in_keys. rewrite E. apply in_or_app. right; left; auto. }
    specialize (Hf F). intros a' k' b' E. rewrite LK. rewrite Ei in E. destruct (app_eq_app_cons _ _ _ _ _ _ E) as [(<- & [= <-] & <-)|[(c & -> & ->)|(c & -> & ->)]].
    + exact Hf.
    + rewrite <- (Hp (a ++ Empty :: c) k' b'); [rewrite !app_length; reflexivity|]. rewrite Et, <- app_assoc. reflexivity.
    + apply (Hp a' k' (c ++ Empty :: b)). rewrite Et, <- app_assoc. reflexivity.
Qed.
Lemma fold_insert_inv lo n l : forall t, inv lo n t -> used t + length l <= length t -> within lo n l -> NoDup (l ++ keys t) ->
  inv lo n (fold_left insert l t) /\ Permutation (keys (fold_left insert l t)) (l ++ keys t) /\ length (fold_left insert l t) = length t.
Proof.
  induction l as [|k l IH]; intros t Hv Hu Hw Hn; [cbn; auto|]. cbn [fold_left app length] in *. inversion Hn as [|? ? Hk Hn']; subst.
  destruct (insert_inv lo n t k Hv) as (Hv' & PK & LK); [lia|apply Hw; left; auto|intros X; apply Hk, in_or_app; auto|].
  assert (U : used (insert t k) = S (used t)) by (rewrite <- !keys_used, (Permutation_length PK); reflexivity).
  destruct (IH (insert t k)) as (H1 & H2 & H3); auto.
  - rewrite U, LK. lia.
  - intros x Hx. apply Hw. right; auto.
  - eapply Permutation_NoDup; [|exact Hn]. etransitivity; [|apply Permutation_app_head; symmetry; exact PK]. apply Permutation_middle.
  - split; [exact H1|]. split; [|congruence]. rewrite H2. rewrite PK. symmetry. apply Permutation_middle.
Qed.

(** ** Sizes *)
Lemma newsize_spec m : forall fuel sz, m < sz * 2 ^ fuel -> m < newsize fuel sz m /\ exists j, newsize fuel sz m = sz * 2 ^ j.
Proof.
  induction fuel as [|fuel IH]; intros sz H; cbn [newsize].
  - split; [cbn in H; lia|exists 0; cbn; lia].
  - destruct (Nat.leb_spec sz m).
    + destruct (IH (2 * sz)) as (H1 & j & Ej); [rewrite Nat.pow_succ_r' in H; lia|]. split; [exact H1|]. exists (S j). rewrite Ej, Nat.pow_succ_r'. lia.
    + split; [lia|]. exists 0. cbn. lia.
Qed.
Lemma empty_length m : m < length (empty_table m) /\ sized (empty_table m).
Proof.
  unfold sized, empty_table. rewrite repeat_length. destruct (newsize_spec m m 8) as (H1 & j & Ej).
  - pose proof (Nat.pow_gt_lin_r 2 m ltac:(lia)). lia.
  - split; [exact H1|]. rewrite Ej. split; [pose proof (Nat.pow_nonzero 2 j ltac:(lia)); lia|]. exists (3 + j). rewrite Nat.pow_add_r. reflexivity.
Qed.
Lemma empty_inv lo n m : inv lo n (empty_table m).
Proof.
  constructor.
  - apply empty_length.
  - apply nodummy_repeat.
  - unfold empty_table. rewrite keys_repeat. constructor.
  - unfold empty_table. rewrite keys_repeat. intros k [].
  - intros _ a k b E. exfalso. assert (X : In (Key k) (empty_table m)) by (rewrite E; apply in_or_app; right; left; auto). apply repeat_spec in X. discriminate.
Qed.
Lemma fill_from lo n l m : NoDup l -> within lo n l -> length l <= length (empty_table m) ->
  inv lo n (fold_left insert l (empty_table m)) /\ Permutation (keys (fold_left insert l (empty_table m))) l /\ length (fold_left insert l (empty_table m)) = length (empty_table m).
Proof.
  intros Hn Hw Hl. destruct (fold_insert_inv lo n l (empty_table m)) as (H1 & H2 & H3); auto using empty_inv.
  - rewrite <- keys_used. unfold empty_table at 1. rewrite keys_repeat. cbn. exact Hl.
  - unfold empty_table at 1. rewrite keys_repeat, app_nil_r. exact Hn.
  - split; [exact H1|]. split; [|exact H3]. unfold empty_table in H2 at 2. rewrite keys_repeat, app_nil_r in H2. exact H2.
Qed.
Lemma growth_ge n : 2 * n <= growth n.
Proof. unfold growth. destruct (_ <? _)%Z; lia. Qed.
Lemma resize_inv lo n t m : NoDup (keys t) -> within lo n (keys t) -> used t <= m ->
  inv lo n (resize t m) /\ Permutation (keys (resize t m)) (keys t) /\ m < length (resize t m).
Proof.
  intros Hn Hw Hm. destruct (empty_length m) as [L _]. unfold resize.
  destruct (fill_from lo n (keys t) m Hn Hw) as (H1 & H2 & H3); [rewrite keys_used; lia|]. rewrite H3. auto.
Qed.

(** ** add *)
Definition loose (t : table) : Prop := used t * 5 < (length t - 1) * 3.
Lemma add_inv lo n t k : inv lo n t -> loose t -> lo <= k < lo + n -> ~ In k (keys t) ->
  inv lo n (add t k) /\ loose (add t k) /\ Permutation (keys (add t k)) (k :: keys t).
Proof.
  intros Hv Hl Hk Hn. pose proof (v_sized _ _ _ Hv) as [H8 _]. destruct (insert_inv lo n t k Hv) as (Hv' & PK & LK); [unfold loose in Hl; lia|auto|auto|].
  assert (U : used (insert t k) = S (used t)) by (rewrite <- !keys_used, (Permutation_length PK); reflexivity).
  unfold add. cbv zeta. rewrite (fill_used _ (v_nodummy _ _ _ Hv')). destruct (Nat.ltb_spec (used (insert t k) * 5) ((length (insert t k) - 1) * 3)) as [C|C].
  - split; [exact Hv'|]. split; [exact C|exact PK].
  - pose proof (growth_ge (used (insert t k))) as G.
    destruct (resize_inv lo n (insert t k) (growth (used (insert t k)))) as (R1 & R2 & R3); [apply Hv'|apply Hv'|lia|].
    split; [exact R1|]. split; [|rewrite R2; exact PK]. unfold loose. rewrite <- keys_used, (Permutation_length R2), keys_used. lia.
Qed.
Lemma fold_add_inv lo n l : forall t, inv lo n t -> loose t -> within lo n l -> NoDup (l ++ keys t) ->
  inv lo n (fold_left add l t) /\ loose (fold_left add l t) /\ Permutation (keys (fold_left add l t)) (l ++ keys t).
Proof.
  induction l as [|k l IH]; intros t Hv Hl Hw Hn; [cbn; auto|]. cbn [fold_left app] in *. inversion Hn as [|? ? Hk Hn']; subst.
  destruct (add_inv lo n t k Hv Hl) as (Hv' & Hl' & PK); [apply Hw; left; auto|intros X; apply Hk, in_or_app; auto|].
  destruct (IH (add t k)) as (H1 & H2 & H3); auto.
  - intros x Hx. apply Hw. right; auto.
  - eapply Permutation_NoDup; [|exact Hn]. etransitivity; [|apply Permutation_app_head; symmetry; exact PK]. apply Permutation_middle.
  - split; [exact H1|]. split; [exact H2|]. rewrite H3, PK. symmetry. apply Permutation_middle.
Qed.
Lemma mk_set_inv lo n l : NoDup l -> within lo n l ->
  inv lo n (fold_left add l (empty_table 0)) /\ loose (fold_left add l (empty_table 0)) /\ Permutation (keys (fold_left add l (empty_table 0))) l.
Proof.
  intros Hn Hw. destruct (fold_add_inv lo n l (empty_table 0)) as (H1 & H2 & H3); auto using empty_inv.
  - unfold loose, used. cbn. lia.
  - change (keys (empty_table 0)) with (@nil nat). rewrite app_nil_r. exact Hn.
  - split; [exact H1|]. split; [exact H2|]. change (keys (empty_table 0)) with (@nil nat) in H3. rewrite app_nil_r in H3. exact H3.
Qed.

(** ** difference *)
Lemma discard_keys cs t : keys (map (discard cs) t) = filter (fun k => negb (memn k cs)) (keys t).
Proof. unfold keys. induction t as [|[| |k] t IH]; cbn; auto. destruct (memn k cs); cbn; [exact IH|f_equal; exact IH]. Qed.
Lemma discard_fill cs t : fill (map (discard cs) t) = fill t.
Proof. unfold fill. induction t as [|[| |k] t IH]; cbn; auto. destruct (memn k cs); cbn; auto. Qed.
Lemma discard_placed cs t : placed t -> placed (map (discard cs) t).
Proof.
  intros H a k b E. rewrite map_length. assert (X : exists a' b', t = a' ++ Key k :: b' /\ length a' = length a).
  { clear H. revert t E. induction a as [|s a IH]; intros [|s' t] E; cbn in E; try discriminate.
    - injection E as E1 E2. destruct s'; cbn in E1; try discriminate. destruct (memn k0 cs); [discriminate|]. injection E1 as ->. exists [], t. auto.
    - injection E as E1 E2. destruct (IH t E2) as (a' & b' & -> & L). exists (s' :: a'), b'. cbn. auto. }
  destruct X as (a' & b' & E' & <-). apply (H _ _ _ E').
Qed.
Lemma filter_split_length {B} (f : B -> bool) l : length (filter f l) + length (filter (fun x => negb (f x)) l) = length l.
Proof. induction l as [|x l IH]; cbn; [reflexivity|]. destruct (f x); cbn; lia. Qed.
Lemma perm_filter {B} (f : B -> bool) l l' : Permutation l l' -> Permutation (filter f l) (filter f l').
Proof.
  induction 1; cbn; [constructor|destruct (f x); [constructor|]; assumption|destruct (f x), (f y); try apply Permutation_refl; constructor|etransitivity; eassumption].
Qed.
Lemma filter_mem_length (cs l : list nat) : NoDup l -> length l <= length (filter (fun k => negb (memn k cs)) l) + length cs.
Proof.
  intros Hn. assert (X : length (filter (fun k => memn k cs) l) <= length cs).
  { apply NoDup_incl_length; [apply NoDup_filter; exact Hn|]. intros k Hk. apply filter_In in Hk. destruct Hk as [_ Hk]. apply memn_in. exact Hk. }
  pose proof (filter_split_length (fun k => memn k cs) l). lia.
Qed.

Section Difference.
  Variables lo n : nat.
  Variables all cs : list nat.
  Hypothesis Hn : NoDup all.
  Hypothesis Hw : within lo n all.
  Notation fs := (filter (fun k => negb (memn k cs)) all).
  Lemma copy_inv t : inv lo n t -> loose t -> Permutation (keys t) all ->
    inv lo n (copy t) /\ Permutation (keys (copy t)) all /\ (n <= length t -> length all = n -> n <= length (copy t)).
  Proof.
    intros Hv Hl Hp. pose proof (v_sized _ _ _ Hv) as [H8 _]. unfold copy. cbv zeta. match goal with |- context[if ?b then t else _] => destruct b end.
    - split; [exact Hv|]. split; [exact Hp|]. auto.
    - assert (U : used t = length all) by (rewrite <- keys_used; apply Permutation_length; exact Hp).
      assert (X : forall m, used t <= length (empty_table m) -> (length all = n -> n <= length (empty_table m)) ->
        inv lo n (fold_left insert (keys t) (empty_table m)) /\ Permutation (keys (fold_left insert (keys t) (empty_table m))) all /\ (n <= length t -> length all = n -> n <= length (fold_left insert (keys t) (empty_table m)))).
      { intros m Hm Hm'. destruct (fill_from lo n (keys t) m) as (H1 & H2 & H3); [apply Hv|apply Hv|rewrite keys_used; exact Hm|].
        split; [exact H1|]. split; [rewrite H2; exact Hp|]. intros _ El. rewrite H3. auto. }
      destruct (Nat.leb_spec ((8 - 1) * 3) (used t * 5)) as [C|C].
      + destruct (empty_length (used t * 2)) as [L _]. apply X; lia.
      + apply X; change (length (empty_table 0)) with 8; lia.
  Qed.
  (** No F-point is lost or invented. *)
  Lemma cpython_perm : Permutation (cpython_order all cs) fs.
  Proof.
    unfold cpython_order, mk_set. destruct (mk_set_inv lo n all Hn Hw) as (Hv & Hl & Hp). set (t := fold_left add all (empty_table 0)) in *. clearbody t.
    unfold difference. destruct (Nat.ltb_spec (length cs) (used t / 4)) as [C|C].
    - destruct (copy_inv t Hv Hl Hp) as (Hc & Pc & _). set (c := map (discard cs) (copy t)). cbv zeta.
      assert (E : Permutation (keys c) fs) by (unfold c; rewrite discard_keys; apply perm_filter; exact Pc).
      destruct (fill c - used c <=? _); [exact E|].
      assert (Nc : NoDup (keys c)) by (eapply Permutation_NoDup; [symmetry; exact E|apply NoDup_filter; exact Hn]).
      assert (Wc : within lo n (keys c)) by (intros k Hk; apply Hw; apply (Permutation_in _ E) in Hk; apply filter_In in Hk; apply Hk).
      destruct (resize_inv lo n c (growth (used c)) Nc Wc) as (_ & R & _); [pose proof (growth_ge (used c)); lia|]. rewrite R. exact E.
    - destruct (mk_set_inv lo n (filter (fun k => negb (memn k cs)) (keys t))) as (_ & _ & R).
      + apply NoDup_filter. apply Hv.
      + intros k Hk. apply filter_In in Hk. apply (v_within _ _ _ Hv). apply Hk.
      + rewrite R. apply perm_filter. exact Hp.
  Qed.
  (** Where all points of an interval are in the set: if at most about two fifths of them are removed the result sits in a
      table at least as long as the interval, every key at its hash. *)
  Lemma difference_placed : length all = n -> (forall k, In k cs -> In k all) -> NoDup cs -> 5 * length cs < 2 * n + 7 ->
    exists t, cpython_order all cs = keys t /\ placed t /\ n <= length t.
  Proof.
    intros En Hcs Ncs H5. unfold cpython_order, mk_set. destruct (mk_set_inv lo n all Hn Hw) as (Hv & Hl & Hp). set (t := fold_left add all (empty_table 0)) in *. clearbody t.
    assert (U : used t = n) by (rewrite <- keys_used, (Permutation_length Hp); exact En).
    pose proof (v_sized _ _ _ Hv) as [H8 _].
    assert (Lt : n <= length t) by (unfold loose in Hl; lia).
    assert (LF : forall l, Permutation l all -> n <= length (filter (fun k => negb (memn k cs)) l) + length cs).
    { intros l Pl. rewrite <- En, <- (Permutation_length Pl). apply filter_mem_length. eapply Permutation_NoDup; [symmetry; exact Pl|exact Hn]. }
    unfold difference. destruct (Nat.ltb_spec (length cs) (used t / 4)) as [C|C].
    - destruct (copy_inv t Hv Hl Hp) as (Hc & Pc & Lc). specialize (Lc Lt En). set (c := map (discard cs) (copy t)). cbv zeta.
      pose proof (v_placed _ _ _ Hc Lc) as Plc. apply (discard_placed cs) in Plc. fold c in Plc.
      assert (E : Permutation (keys c) fs) by (unfold c; rewrite discard_keys; apply perm_filter; exact Pc).
      destruct (fill c - used c <=? _).
      + exists c. split; [reflexivity|]. split; [exact Plc|]. unfold c. rewrite map_length. exact Lc.
      + assert (Nc : NoDup (keys c)) by (eapply Permutation_NoDup; [symmetry; exact E|apply NoDup_filter; exact Hn]).
        assert (Wc : within lo n (keys c)) by (intros k Hk; apply Hw; apply (Permutation_in _ E) in Hk; apply filter_In in Hk; apply Hk).
        pose proof (growth_ge (used c)) as G.
        destruct (resize_inv lo n c (growth (used c)) Nc Wc) as (R1 & _ & R3); [lia|].
        assert (Uc : n <= used c + length cs) by (rewrite <- keys_used, (Permutation_length E); apply LF; apply Permutation_refl).
        assert (4 * (used t / 4) <= used t) by (apply Nat.mul_div_le; lia).
        assert (Q : n <= length (resize c (growth (used c)))) by lia.
        exists (resize c (growth (used c))). split; [reflexivity|]. split; [apply (v_placed _ _ _ R1 Q)|exact Q].
    - destruct (mk_set_inv lo n (filter (fun k => negb (memn k cs)) (keys t))) as (R1 & R2 & R3).
      + apply NoDup_filter. apply Hv.
      + intros k Hk. apply filter_In in Hk. apply (v_within _ _ _ Hv). apply Hk.
      + set (d := fold_left add _ _) in *. clearbody d. exists d. split; [reflexivity|].
        assert (Ud : n <= used d + length cs) by (rewrite <- keys_used, (Permutation_length R3); apply LF; exact Hp).
        unfold loose in R2. pose proof (v_sized _ _ _ R1) as [R8 _].
        assert (Q : n <= length d) by lia. split; [apply (v_placed _ _ _ R1 Q)|exact Q].
  Qed.
End Difference.

(** ** Traversal of a table with all keys at their hashes *)
Lemma placed_sorted t : placed t -> StronglySorted (fun x y => x mod length t < y mod length t) (keys t).
Proof.
  intros H. assert (G : forall b a, t = a ++ b -> StronglySorted (fun x y => x mod length t < y mod length t) (keys b) /\ Forall (fun k => length a <= k mod length t) (keys b)).
  { induction b as [|s b IH]; intros a E; [split; constructor|]. destruct (IH (a ++ [s])) as [S1 S2]; [rewrite <- app_assoc; exact E|].
    rewrite app_length in S2. cbn [length] in S2.
    destruct s as [| |k]; try (split; [exact S1|eapply Forall_impl; [|exact S2]; cbv beta; intros; lia]).
    cbn [keys flat_map key_of app]. fold (keys b). pose proof (H _ _ _ E) as Hk. split.
    - constructor; [exact S1|]. eapply Forall_impl; [|exact S2]. cbv beta. intros. lia.
    - constructor; [lia|]. eapply Forall_impl; [|exact S2]. cbv beta. intros. lia. }
  apply (G t []). reflexivity.
Qed.

Lemma mod_sorted_adjacent T l y : StronglySorted (fun a b => a mod T < b mod T) l -> In y l -> In (S y) l -> S y mod T = S (y mod T) ->
  exists p q, l = p ++ y :: S y :: q.
Proof.
  intros Hs Hy Hx E. induction l as [|a l IH]; [destruct Hy|]. inversion Hs as [|? ? Hl Ha]; subst. rewrite Forall_forall in Ha.
  destruct Hy as [->|Hy].
  - destruct Hx as [Hx|Hx]; [lia|]. destruct l as [|b l]; [destruct Hx|]. pose proof (Ha b (or_introl eq_refl)).
    inversion Hl as [|? ? Hl' Hb]; subst. rewrite Forall_forall in Hb. destruct Hx as [->|Hx]; [exists [], l; reflexivity|]. specialize (Hb _ Hx). lia.
  - destruct Hx as [->|Hx]; [specialize (Ha _ Hy); lia|]. destruct (IH Hl Hy Hx) as (p & q & ->). exists (a :: p), q. reflexivity.
Qed.
Lemma run_above x l ys rest : runs (x :: l) = (x :: ys) :: rest -> forall y, In y ys -> x < y.
Proof.
  revert x ys rest. induction l as [|z l IH]; intros x ys rest E y Hy; [cbn in E; injection E as <- <-; destruct Hy|].
  destruct (runs_head z l) as (zs & rest' & Ez). assert (E' := E). cbn [runs] in E'. cbn [runs] in Ez. rewrite Ez in E'. destruct (Nat.eqb_spec z (S x)) as [->|].
  - injection E' as <- <-. destruct Hy as [<-|Hy]; [lia|]. pose proof (IH (S x) zs rest' Ez y Hy). lia.
  - injection E' as <- <-. destruct Hy.
Qed.
Lemma rotated_predecessors_first T lo n l : 0 < T -> n <= T -> within lo n l -> StronglySorted (fun a b => a mod T < b mod T) l ->
  predecessors_first (visit_order l).
Proof.
  intros HT HnT Hw Hs.
  assert (Hn : NoDup l).
  { clear Hw. induction Hs as [|a l Hl IH Ha]; constructor; auto. rewrite Forall_forall in Ha. intros X. specialize (Ha _ X). lia. }
  assert (Hn' : NoDup (visit_order l)) by (eapply Permutation_NoDup; [apply Permutation_sym, visit_perm|auto]).
  intros before x after E y Hy <-.
  assert (Hx : In (S y) l). { apply (Permutation_in _ (visit_perm l)). rewrite E. apply in_or_app. right; left; auto. }
  apply (Permutation_in _ (visit_perm l)) in Hy.
  destruct (Nat.eq_dec (S y mod T) (S (y mod T))) as [M|M].
  - destruct (mod_sorted_adjacent T l y Hs Hy Hx M) as (p & q & ->). destruct (visit_adjacent p y q) as (p' & q' & E').
    assert (before = p' ++ [y]).
    { eapply nodup_split_unique with (x := S y) (l2 := after) (l2' := q').
      - rewrite <- E. exact Hn'.
      - rewrite <- E, E', <- app_assoc. reflexivity. }
    subst. apply in_or_app. right; left; auto.
  - assert (M0 : S y mod T = 0).
    { pose proof (Nat.div_mod y T ltac:(lia)) as D. pose proof (Nat.mod_upper_bound y T ltac:(lia)) as B. set (q := y / T) in *. set (m := y mod T) in *.
      destruct (lt_dec (S m) T) as [L|L].
      - exfalso. apply M. rewrite D. replace (S (T * q + m)) with (S m + q * T) by lia. rewrite Nat.mod_add, Nat.mod_small by lia. reflexivity.
      - rewrite D. replace (S (T * q + m)) with ((S q) * T) by nia. apply Nat.mod_mul. lia. }
    destruct l as [|h l]; [destruct Hx|]. assert (h = S y).
    { destruct Hx as [Hx|Hx]; auto. inversion Hs as [|? ? Hl Ha]; subst. rewrite Forall_forall in Ha. specialize (Ha _ Hx). lia. }
    subst h. destruct (runs_head (S y) l) as (ys & rest & Er). unfold visit_order in *. rewrite Er in *. cbn [rev] in *. rewrite concat_app in *. cbn [concat] in *. rewrite app_nil_r in *.
    assert (before = concat (rev rest)).
    { eapply nodup_split_unique with (x := S y) (l2 := after) (l2' := ys); [rewrite <- E; exact Hn'|]. rewrite <- E. reflexivity. }
    subst before. pose proof (visit_perm (S y :: l)) as Pv. unfold visit_order in Pv. rewrite Er in Pv. cbn [rev] in Pv. rewrite concat_app in Pv. cbn [concat] in Pv. rewrite app_nil_r in Pv.
    apply (Permutation_in _ (Permutation_sym Pv)) in Hy. apply in_app_or in Hy. destruct Hy as [Hy|Hy]; [exact Hy|].
    exfalso. destruct Hy as [Hy|Hy]; [lia|]. pose proof (run_above _ _ _ _ Er y Hy). lia.
Qed.
(** no two consecutive points in the set: any order will do *)
Lemma isolated_predecessors_first l : (forall y, In y l -> ~ In (S y) l) -> predecessors_first (visit_order l).
Proof.
  intros H before x after E y Hy <-. exfalso. apply (H y); apply (Permutation_in _ (visit_perm l)); [exact Hy|]. rewrite E. apply in_or_app. right; left; auto.
Qed.
