(** The tables computed by setup_points_and_comm_info, in closed form. *)
From Coq Require Import List ZArith Lia Arith Bool Sorted Permutation.
From Verif Require Import PyList ListFacts Setup SplitProofs Spec.
Import ListNotations.

Section SetupFacts.
  Variable grids : list (list Z).
  Variable set_order : list nat -> list nat -> list nat.
  Variable P : nat.
  Hypothesis HV : valid_hierarchy grids.
  Hypothesis HP0 : 0 < P.
  Notation grid := (grid grids).
  Notation L := (length grids).
  Definition N (l : nat) : nat := length (grid l).
  Definition tm (l i : nat) : Z := nth i (grid l) 0%Z.
  Hypothesis HP : P <= N 0.

  Lemma L_pos : 0 < L.
  Proof. destruct HV as [H _]. destruct grids; [congruence|simpl; lia]. Qed.

  Lemma grid_incr l : l < L -> incr (grid l).
  Proof. intros H. apply ssorted_incr. apply HV. exact H. Qed.

  Lemma N_pos l : l < L -> 0 < N l.
  Proof. intros H. destruct HV as (_ & H1 & _). destruct (H1 l H) as [_ Hn]. unfold N, Setup.grid. destruct (nth l grids []); [congruence|simpl; lia]. Qed.

  Lemma grid_hd l : l < L -> tm l 0 = tm 0 0.
  Proof.
    induction l as [|l IH]; intros H; [reflexivity|]. rewrite <- IH by lia.
    destruct HV as (_ & _ & H2). destruct (H2 l H) as (_ & E & _). unfold tm, Setup.grid.
    destruct (nth (S l) grids []), (nth l grids []); simpl in *; congruence.
  Qed.

  Lemma grid_incl0 l t : l < L -> In t (grid l) -> In t (grid 0).
  Proof.
    induction l as [|l IH]; intros H Ht; [auto|]. apply IH; [lia|].
    destruct HV as (_ & _ & H2). destruct (H2 l H) as (E & _ & _). apply E. exact Ht.
  Qed.

  Lemma tm_in l i : i < N l -> In (tm l i) (grid l).
  Proof. intros. apply nth_In. auto. Qed.

  Lemma tm_lt l i j : l < L -> i < N l -> j < N l -> ((tm l i < tm l j)%Z <-> i < j).
  Proof. intros. apply incr_lt_iff; auto. apply grid_incr; auto. Qed.
  Lemma tm_le l i j : l < L -> i < N l -> j < N l -> ((tm l i <= tm l j)%Z <-> i <= j).
  Proof. intros. apply incr_le_iff; auto. apply grid_incr; auto. Qed.
  Lemma tm_inj l i j : l < L -> i < N l -> j < N l -> tm l i = tm l j -> i = j.
  Proof. intros. eapply incr_inj; eauto. apply grid_incr; auto. Qed.

  (** Fine position of a point of level [l]. *)
  Lemma fine_pos l i : l < L -> i < N l -> exists k, k < N 0 /\ tm l i = tm 0 k.
  Proof.
    intros Hl Hi. pose proof (grid_incl0 l _ Hl (tm_in l i Hi)) as H.
    apply (In_nth _ _ 0%Z) in H. destruct H as (k & Hk & E). exists k. split; [exact Hk|symmetry; exact E].
  Qed.

  Definition st (r : nat) : nat := starts (N 0) P r.
  (** First index of rank [r] on level [l]. *)
  Definition lo (l r : nat) : nat := if r <? P then searchsorted (grid l) (tm 0 (st r)) else N l.

  Lemma st_lt_n r : r < P -> st r < N 0.
  Proof. intros. apply starts_lt_n; auto. Qed.
  Lemma st_lt r : r < P -> st r < st (S r).
  Proof. intros. apply starts_lt; auto. Qed.
  Lemma st_le r : r <= P -> st r <= N 0.
  Proof. intros. apply starts_le; auto. Qed.
  Lemma st_mono r q : r <= q -> q <= P -> st r <= st q.
  Proof. intros. apply starts_mono; auto. Qed.
  Lemma st_P : st P = N 0.
  Proof. apply starts_last; auto. Qed.

  Lemma lo_le_iff l r i k : l < L -> r <= P -> i < N l -> k < N 0 -> tm l i = tm 0 k -> (lo l r <= i <-> st r <= k).
  Proof.
    intros Hl Hr Hi Hk E. unfold lo. destruct (r <? P) eqn:C.
    - apply Nat.ltb_lt in C. pose proof (searchsorted_spec (grid l) (tm 0 (st r)) i (grid_incr l Hl) Hi) as S1.
      fold (tm l i) in S1. rewrite E in S1. rewrite tm_lt in S1; [lia|apply L_pos|auto|apply st_lt_n; auto].
    - apply Nat.ltb_ge in C. assert (r = P) by lia. subst. rewrite st_P. lia.
  Qed.

  Lemma lo_0 l : l < L -> lo l 0 = 0.
  Proof.
    intros Hl. pose proof (N_pos l Hl). destruct (fine_pos l 0 Hl H) as (k & Hk & E).
    apply (lo_le_iff l 0 0 k) in E; auto; [|lia]. unfold st in E. rewrite starts_0 in E. lia.
  Qed.
  Lemma lo_P l : lo l P = N l.
  Proof. unfold lo. rewrite Nat.ltb_irrefl. reflexivity. Qed.
  Lemma lo_le_N l r : lo l r <= N l.
  Proof. unfold lo. destruct (r <? P); [apply searchsorted_le|lia]. Qed.

  Lemma lo_mono1 l r : l < L -> r < P -> lo l r <= lo l (S r).
  Proof.
    intros Hl Hr. destruct (le_lt_dec (lo l r) (lo l (S r))) as [C|C]; [auto|exfalso].
    pose proof (lo_le_N l r) as U.
    destruct (fine_pos l (lo l (S r)) Hl ltac:(lia)) as (k & Hk & E).
    pose proof (lo_le_iff l r (lo l (S r)) k Hl ltac:(lia) ltac:(lia) Hk E).
    pose proof (lo_le_iff l (S r) (lo l (S r)) k Hl ltac:(lia) ltac:(lia) Hk E).
    pose proof (st_lt r Hr). lia.
  Qed.
  Lemma lo_mono l r q : l < L -> r <= q -> q <= P -> lo l r <= lo l q.
  Proof.
    intros Hl H. induction H as [|q H IH]; intros Hq; [lia|]. pose proof (lo_mono1 l q Hl ltac:(lia)). specialize (IH ltac:(lia)). lia.
  Qed.

  Lemma lo_level0 r : r <= P -> lo 0 r = st r.
  Proof.
    intros Hr. destruct (Nat.eq_dec r P) as [->|C]; [rewrite lo_P, st_P; reflexivity|].
    pose proof (st_lt_n r ltac:(lia)) as K.
    pose proof (lo_le_iff 0 r (st r) (st r) L_pos Hr K K eq_refl).
    destruct (Nat.eq_dec (lo 0 r) (st r)) as [|D]; [auto|exfalso].
    pose proof (lo_le_N 0 r).
    destruct (le_lt_dec (N 0) (lo 0 r)) as [F|F]; [lia|].
    pose proof (lo_le_iff 0 r (lo 0 r) (lo 0 r) L_pos Hr F F eq_refl). lia.
  Qed.

  (** Number of points of rank [r] on level [l]. *)
  Definition cnt (l r : nat) : nat := lo l (S r) - lo l r.

  Lemma my_pts_eq l r : l < L -> r < P -> my_pts grids P r l = Some (seq (lo l r) (cnt l r)).
  Proof.
    intros Hl Hr. unfold my_pts. fold (N 0). rewrite split_points_eq by auto. fold (st r) (st (S r)).
    unfold py_range. rewrite skipn_seq, firstn_seq.
    pose proof (st_lt r Hr) as K1. pose proof (st_le (S r) Hr) as K2.
    rewrite Nat.min_l by lia. simpl (0 + _).
    destruct (l =? 0) eqn:C.
    - apply Nat.eqb_eq in C. subst. unfold cnt. rewrite !lo_level0 by lia. reflexivity.
    - apply Nat.eqb_neq in C.
      assert (E1 : exists tl, seq (st r) (st (S r) - st r) = st r :: tl).
      { destruct (st (S r) - st r) eqn:D; [lia|]. simpl. eexists; reflexivity. }
      destruct E1 as [tl E1].
      assert (E2 : exists tl', rev (seq (st r) (st (S r) - st r)) = (st (S r) - 1) :: tl').
      { destruct (st (S r) - st r) eqn:D; [lia|]. rewrite seq_S, rev_app_distr. simpl. eexists. f_equal. lia. }
      destruct E2 as [tl' E2]. rewrite E1 in E2 |- *. rewrite E2.
      rewrite !(nth_error_nth' (grid 0) 0%Z) by (fold (N 0); lia). fold (tm 0 (st r)) (tm 0 (st (S r) - 1)).
      f_equal. apply ssorted_ext; [apply np_where_sorted|apply seq_sorted|].
      intros i. rewrite (np_where_in _ _ _ 0%Z), in_seq. fold (N l) (tm l i).
      pose proof (lo_mono1 l r Hl Hr) as M. pose proof (lo_le_N l (S r)) as U.
      unfold cnt. replace (lo l r + (lo l (S r) - lo l r)) with (lo l (S r)) by lia.
      assert (G : i < N l -> ((tm 0 (st r) <=? tm l i)%Z && (tm l i <=? tm 0 (st (S r) - 1))%Z = true <-> lo l r <= i < lo l (S r))).
      { intros Hi. destruct (fine_pos l i Hl Hi) as (k & Hk & E).
        pose proof (lo_le_iff l r i k Hl ltac:(lia) Hi Hk E) as X1.
        pose proof (lo_le_iff l (S r) i k Hl ltac:(lia) Hi Hk E) as X2.
        rewrite andb_true_iff, !Z.leb_le, E.
        rewrite (tm_le 0 (st r) k L_pos) by lia. rewrite (tm_le 0 k (st (S r) - 1) L_pos) by lia. lia. }
      split.
      + intros [Hi Hb]. apply G in Hb; auto.
      + intros Hi. split; [lia|]. apply G; lia.
  Qed.

  Definition splits : list Z := map (fun q => tm 0 (st (S q) - 1)) (seq 0 P).

  Lemma split_times_eq : split_times grids P = Some splits.
  Proof.
    unfold split_times. fold (N 0). unfold splits.
    replace (map (fun c => py_nth (grid 0) (Z.of_nat c - 1)) (cumsum (split_into (N 0) P)))
      with (map (fun q => py_nth (grid 0) (Z.of_nat (st (S q)) - 1)) (seq 0 P)).
    - apply sequence_map_some. intros q Hq. apply in_seq in Hq.
      pose proof (st_lt q ltac:(lia)). pose proof (st_le (S q) ltac:(lia)).
      rewrite py_nth_pred by lia. rewrite (nth_error_nth' _ 0%Z) by (fold (N 0); lia). reflexivity.
    - rewrite <- (map_map (fun q => st (S q)) (fun c => py_nth (grid 0) (Z.of_nat c - 1))). f_equal.
      apply (nth_ext _ _ 0 0).
      + rewrite map_length, seq_length. unfold cumsum. rewrite cumsum_length, split_into_length; auto.
      + rewrite map_length, seq_length. intros q Hq.
        rewrite (nth_indep _ 0 (st (S 0))) by (rewrite map_length, seq_length; auto).
        rewrite (map_nth (fun q => st (S q))), seq_nth by auto.
        unfold cumsum. rewrite cumsum_nth by (rewrite split_into_length; auto). reflexivity.
  Qed.

  (** owner of index [i] on level [l], as the code computes it *)
  Definition owner (l i : nat) : nat := searchsorted splits (tm l i).

  Lemma splits_incr : incr splits.
  Proof.
    intros i j Hij Hj. unfold splits in *. rewrite map_length, seq_length in Hj.
    rewrite (nth_indep _ 0%Z (tm 0 (st 1 - 1))) by (rewrite map_length, seq_length; lia).
    rewrite (nth_indep (map _ _) 0%Z (tm 0 (st 1 - 1))) by (rewrite map_length, seq_length; lia).
    rewrite !(map_nth (fun q => tm 0 (st (S q) - 1)) (seq 0 P) 0), !seq_nth by lia. simpl (0 + _).
    pose proof (st_mono (S i) j ltac:(lia) ltac:(lia)). pose proof (st_lt j Hj). pose proof (st_lt i ltac:(lia)).
    pose proof (st_le (S j) ltac:(lia)).
    apply tm_lt; [apply L_pos|lia|lia|lia].
  Qed.

  Lemma owner_eq l r i : l < L -> r < P -> lo l r <= i < lo l (S r) -> owner l i = r.
  Proof.
    intros Hl Hr Hi. pose proof (lo_le_N l (S r)) as U.
    destruct (fine_pos l i Hl ltac:(lia)) as (k & Hk & E).
    pose proof (lo_le_iff l r i k Hl ltac:(lia) ltac:(lia) Hk E) as X1.
    pose proof (lo_le_iff l (S r) i k Hl ltac:(lia) ltac:(lia) Hk E) as X2.
    unfold owner.
    assert (NT : forall q, q < P -> nth q splits 0%Z = tm 0 (st (S q) - 1)).
    { intros q Hq. unfold splits. rewrite (nth_indep _ 0%Z (tm 0 (st 1 - 1))) by (rewrite map_length, seq_length; lia).
      rewrite (map_nth (fun q => tm 0 (st (S q) - 1)) (seq 0 P) 0), seq_nth by lia. reflexivity. }
    assert (LS : length splits = P) by (unfold splits; rewrite map_length, seq_length; auto).
    apply searchsorted_unique; [apply splits_incr|lia| |].
    - intros q Hq. rewrite NT by lia. rewrite E.
      pose proof (st_mono (S q) r ltac:(lia) ltac:(lia)). pose proof (st_lt q ltac:(lia)).
      apply tm_lt; [apply L_pos|lia|lia|lia].
    - intros q Hq1 Hq2. rewrite NT by lia. rewrite E.
      pose proof (st_mono (S r) (S q) ltac:(lia) ltac:(lia)). pose proof (st_le (S q) ltac:(lia)).
      apply tm_le; [apply L_pos|lia|lia|lia].
  Qed.

  Lemma owner_exists l i : l < L -> i < N l -> exists r, r < P /\ lo l r <= i < lo l (S r).
  Proof.
    intros Hl Hi. destruct (fine_pos l i Hl Hi) as (k & Hk & E).
    destruct (block_owner (N 0) P k HP HP0 Hk) as (r & Hr & Hb). fold (st r) (st (S r)) in Hb.
    exists r. split; [auto|].
    pose proof (lo_le_iff l r i k Hl ltac:(lia) Hi Hk E). pose proof (lo_le_iff l (S r) i k Hl ltac:(lia) Hi Hk E). lia.
  Qed.

  Lemma owner_spec l i : l < L -> i < N l -> owner l i < P /\ lo l (owner l i) <= i < lo l (S (owner l i)).
  Proof.
    intros Hl Hi. destruct (owner_exists l i Hl Hi) as (r & Hr & Hb).
    rewrite (owner_eq l r i Hl Hr Hb). auto.
  Qed.

  (** C-points *)
  Definition isC (l i : nat) : bool := if l =? L - 1 then true else memz (tm l i) (grid (S l)).

  Lemma all_cpts_in l i : In i (all_cpts grids l) <-> i < N l /\ isC l i = true.
  Proof.
    unfold all_cpts, isC, lvl_max. destruct (l =? L - 1).
    - unfold py_range. rewrite in_seq. fold (N l). intuition lia.
    - rewrite (np_where_in _ _ _ 0%Z). reflexivity.
  Qed.
  Lemma all_fpts_in l i : In i (all_fpts grids l) <-> i < N l /\ isC l i = false.
  Proof.
    unfold all_fpts. rewrite filter_In, negb_true_iff, memn_false, all_cpts_in. unfold py_range. rewrite in_seq. fold (N l).
    destruct (isC l i); split.
    - intros [? H]. exfalso. apply H. split; [lia|reflexivity].
    - intros [? ?]. congruence.
    - intros [? H]. split; [lia|reflexivity].
    - intros [? ?]. split; [lia|]. intros [? ?]. congruence.
  Qed.
  Lemma all_cpts_sorted l : StronglySorted lt (all_cpts grids l).
  Proof. unfold all_cpts. destruct (l =? _); [apply seq_sorted|apply np_where_sorted]. Qed.

  Lemma isC_0 l : l < L -> isC l 0 = true.
  Proof.
    intros Hl. unfold isC. destruct (l =? L - 1) eqn:C; [reflexivity|]. apply Nat.eqb_neq in C.
    apply memz_in. rewrite (grid_hd l Hl). rewrite <- (grid_hd (S l) ltac:(lia)). apply tm_in. apply N_pos. lia.
  Qed.

  (** The fine index of coarse index [j]. *)
  Definition cpt (l j : nat) : nat := nth j (all_cpts grids l) 0.

  Lemma grid_sub l t : S l < L -> In t (grid (S l)) -> In t (grid l).
  Proof. intros H. destruct HV as (_ & _ & H2). apply (H2 l H). Qed.

  Lemma all_cpts_times l : S l < L -> map (tm l) (all_cpts grids l) = grid (S l).
  Proof.
    intros Hl.
    assert (G : forall l1 l2, StronglySorted Z.lt l1 -> StronglySorted Z.lt l2 -> (forall x, In x l1 <-> In x l2) -> l1 = l2).
    { clear. induction l1 as [|a l1 IH]; intros [|b l2] H1 H2 E.
      - reflexivity.
      - exfalso. apply (proj2 (E b)). left; reflexivity.
      - exfalso. apply (proj1 (E a)). left; reflexivity.
      - inversion H1 as [|? ? S1 F1]; subst. inversion H2 as [|? ? S2 F2]; subst.
        rewrite Forall_forall in F1, F2.
        assert (a = b).
        { destruct (proj1 (E a) (or_introl eq_refl)) as [X|X]; [auto|].
          destruct (proj2 (E b) (or_introl eq_refl)) as [Y|Y]; [auto|].
          apply F2 in X. apply F1 in Y. lia. }
        subst b. f_equal. apply IH; auto. intros x. specialize (E x). simpl in E. split; intros Hx.
        + destruct (proj1 E (or_intror Hx)) as [->|]; [|auto]. apply F1 in Hx. lia.
        + destruct (proj2 E (or_intror Hx)) as [->|]; [|auto]. apply F2 in Hx. lia. }
    apply G.
    - pose proof (all_cpts_sorted l) as S1. assert (S2 : forall i, In i (all_cpts grids l) -> i < N l).
      { intros i Hi. apply all_cpts_in in Hi. tauto. }
      clear G. induction S1 as [|a c S1 IH F]; simpl; constructor.
      + apply IH. intros i Hi. apply S2. right; auto.
      + rewrite Forall_forall in *. intros t Ht. apply in_map_iff in Ht. destruct Ht as (i & <- & Hi).
        apply tm_lt; [lia|apply S2; left; auto|apply S2; right; auto|apply F; auto].
    - destruct HV as (_ & H1 & _). apply H1. exact Hl.
    - intros t. rewrite in_map_iff. split.
      + intros (i & <- & Hi). apply all_cpts_in in Hi. destruct Hi as [Hi Hc]. unfold isC in Hc.
        replace (l =? L - 1) with false in Hc by (symmetry; apply Nat.eqb_neq; lia). apply memz_in in Hc. exact Hc.
      + intros Ht. pose proof (grid_sub l t Hl Ht) as Hf. apply (In_nth _ _ 0%Z) in Hf. destruct Hf as (i & Hi & E).
        exists i. split; [exact E|]. apply all_cpts_in. split; [exact Hi|]. unfold isC.
        replace (l =? L - 1) with false by (symmetry; apply Nat.eqb_neq; lia). apply memz_in. unfold tm. rewrite E. exact Ht.
  Qed.

  Lemma all_cpts_length l : S l < L -> length (all_cpts grids l) = N (S l).
  Proof. intros Hl. unfold N. rewrite <- (all_cpts_times l Hl), map_length. reflexivity. Qed.

  Lemma cpt_time l j : S l < L -> j < N (S l) -> tm l (cpt l j) = tm (S l) j.
  Proof.
    intros Hl Hj. unfold cpt. rewrite <- (map_nth (tm l) (all_cpts grids l) 0 j).
    rewrite (nth_indep _ (tm l 0) 0%Z) by (rewrite map_length, all_cpts_length; auto).
    rewrite all_cpts_times by auto. reflexivity.
  Qed.
  Lemma cpt_in l j : S l < L -> j < N (S l) -> cpt l j < N l /\ isC l (cpt l j) = true.
  Proof. intros Hl Hj. apply all_cpts_in. apply nth_In. rewrite all_cpts_length; auto. Qed.
  Lemma cpt_lt l i j : S l < L -> i < N (S l) -> j < N (S l) -> (cpt l i < cpt l j <-> i < j).
  Proof.
    intros Hl Hi Hj. rewrite <- (tm_lt l) by (try lia; apply cpt_in; auto). rewrite !cpt_time by auto.
    apply tm_lt; auto.
  Qed.
  Lemma cpt_inj l i j : S l < L -> i < N (S l) -> j < N (S l) -> cpt l i = cpt l j -> i = j.
  Proof. intros Hl Hi Hj E. pose proof (cpt_lt l i j Hl Hi Hj). pose proof (cpt_lt l j i Hl Hj Hi). lia. Qed.
  Lemma cpt_surj l i : S l < L -> i < N l -> isC l i = true -> exists j, j < N (S l) /\ cpt l j = i.
  Proof.
    intros Hl Hi Hc. assert (H : In i (all_cpts grids l)) by (apply all_cpts_in; auto).
    apply (In_nth _ _ 0) in H. destruct H as (j & Hj & E). exists j. rewrite all_cpts_length in Hj by auto. auto.
  Qed.
  Lemma cpt_0 l : S l < L -> cpt l 0 = 0.
  Proof.
    intros Hl. pose proof (N_pos (S l) Hl) as H. apply (tm_inj l); [lia|apply cpt_in; auto|apply N_pos; lia|].
    rewrite cpt_time by auto. rewrite (grid_hd (S l) Hl), (grid_hd l ltac:(lia)). reflexivity.
  Qed.

  (** The same rank owns a coarse point on both levels. *)
  Lemma cpt_block l r j : S l < L -> r <= P -> j < N (S l) -> (lo l r <= cpt l j <-> lo (S l) r <= j).
  Proof.
    intros Hl Hr Hj. destruct (cpt_in l j Hl Hj) as [Hc _].
    destruct (fine_pos (S l) j Hl Hj) as (k & Hk & E).
    rewrite (lo_le_iff l r (cpt l j) k) by (try lia; auto; rewrite cpt_time; auto).
    rewrite (lo_le_iff (S l) r j k) by (try lia; auto). tauto.
  Qed.

  Lemma cpts_block l r : S l < L -> r < P ->
    filter (isC l) (seq (lo l r) (cnt l r)) = map (cpt l) (seq (lo (S l) r) (cnt (S l) r)).
  Proof.
    intros Hl Hr. pose proof (lo_mono1 l r ltac:(lia) Hr) as M1. pose proof (lo_mono1 (S l) r Hl Hr) as M2.
    pose proof (lo_le_N l (S r)) as U1. pose proof (lo_le_N (S l) (S r)) as U2.
    apply ssorted_ext.
    - apply filter_sorted, seq_sorted.
    - unfold cnt. remember (lo (S l) (S r) - lo (S l) r) as n eqn:En.
      assert (G : lo (S l) r + n <= N (S l)) by lia. clear En.
      revert G. generalize (lo (S l) r) as a. induction n as [|n IH]; intros a G; simpl; constructor.
      + apply IH. lia.
      + apply Forall_forall. intros x Hx. apply in_map_iff in Hx. destruct Hx as (j & <- & Hj). apply in_seq in Hj.
        apply cpt_lt; lia.
    - intros i. rewrite filter_In, in_map_iff, in_seq. unfold cnt. split.
      + intros [Hi Hc]. destruct (cpt_surj l i Hl ltac:(lia) Hc) as (j & Hj & <-). exists j. split; [reflexivity|].
        apply in_seq. pose proof (cpt_block l r j Hl ltac:(lia) Hj). pose proof (cpt_block l (S r) j Hl ltac:(lia) Hj). lia.
      + intros (j & <- & Hj). apply in_seq in Hj. assert (Hj' : j < N (S l)) by lia. split; [|apply cpt_in; auto].
        pose proof (cpt_block l r j Hl ltac:(lia) Hj'). pose proof (cpt_block l (S r) j Hl ltac:(lia) Hj'). lia.
  Qed.

  (** ** The tables *)
  (** 1 if rank [r] has a ghost point on level [l] *)
  Definition off (l r : nat) : nat := if (r =? 0) || (cnt l r =? 0) then 0 else 1.

  Lemma lo_pos l r : l < L -> 0 < r -> r < P -> 0 < cnt l r -> 0 < lo l r.
  Proof.
    intros Hl Hr HrP Hc. destruct (Nat.eq_dec (lo l r) 0) as [E|]; [exfalso|lia].
    pose proof (owner_eq l r 0 Hl HrP) as X. pose proof (owner_eq l 0 0 Hl ltac:(lia)) as Y.
    pose proof (lo_mono l 1 r Hl ltac:(lia) ltac:(lia)).
    unfold cnt in Hc. rewrite lo_0 in Y by auto. specialize (X ltac:(lia)).
    destruct (Nat.eq_dec (lo l 1) 0); [|specialize (Y ltac:(lia)); lia].
    pose proof (N_pos l Hl) as NP. destruct (fine_pos l 0 Hl NP) as (k & Hk & Ek).
    assert (k = 0). { apply (tm_inj 0); auto; [apply L_pos|lia|]. rewrite <- Ek. apply grid_hd; auto. }
    subst k. pose proof (lo_le_iff l 1 0 0 Hl ltac:(lia) NP Hk Ek) as Z. 
    pose proof (st_lt 0 ltac:(lia)) as S0. unfold st at 1 in S0. rewrite starts_0 in S0. lia.
  Qed.

  Lemma off_le l r : l < L -> r < P -> off l r <= lo l r.
  Proof.
    intros Hl Hr. unfold off. destruct (r =? 0) eqn:E1; simpl; [lia|]. destruct (cnt l r =? 0) eqn:E2; [lia|].
    apply Nat.eqb_neq in E1, E2. pose proof (lo_pos l r Hl ltac:(lia) Hr ltac:(lia)). lia.
  Qed.

  Lemma with_ghost_eq l r : l < L -> r < P ->
    with_ghost r (seq (lo l r) (cnt l r)) = map Z.of_nat (seq (lo l r - off l r) (cnt l r + off l r)).
  Proof.
    intros Hl Hr. pose proof (off_le l r Hl Hr) as O. unfold off in *. unfold with_ghost.
    destruct (cnt l r) as [|n] eqn:C; simpl (_ =? 0) in *.
    - rewrite orb_true_r. simpl. reflexivity.
    - rewrite orb_false_r in *. destruct (r =? 0) eqn:E.
      + rewrite Nat.sub_0_r, Nat.add_0_r. reflexivity.
      + rewrite Nat.add_1_r. remember (lo l r) as a. cbn [seq map]. f_equal; [lia|].
        replace (S (a - 1)) with a by lia. reflexivity.
  Qed.

  Definition loc (l r i : nat) : nat := i - (lo l r - off l r).
  Definition tms (l r : nat) : list Z := map (tm l) (seq (lo l r - off l r) (cnt l r + off l r)).

  Lemma lo_cnt l r : l < L -> r < P -> lo l r + cnt l r = lo l (S r).
  Proof. intros Hl Hr. pose proof (lo_mono1 l r Hl Hr). unfold cnt. lia. Qed.

  Lemma tms_eq l r : l < L -> r < P ->
    sequence (map (py_nth (grid l)) (with_ghost r (seq (lo l r) (cnt l r)))) = Some (tms l r).
  Proof.
    intros Hl Hr. rewrite with_ghost_eq by auto. rewrite map_map. unfold tms. apply sequence_map_some.
    intros i Hi. apply in_seq in Hi. pose proof (off_le l r Hl Hr). pose proof (lo_cnt l r Hl Hr).
    pose proof (lo_le_N l (S r)). rewrite py_nth_nat. rewrite (nth_error_nth' _ 0%Z) by (fold (N l); lia). reflexivity.
  Qed.

  Lemma where_single a n x : a <= x < a + n -> np_where (Z.eqb (Z.of_nat x)) (map Z.of_nat (seq a n)) = [x - a].
  Proof.
    intros H. apply ssorted_ext; [apply np_where_sorted|constructor; constructor|].
    intros i. rewrite (np_where_in _ _ _ (Z.of_nat 0)). rewrite map_length, seq_length, map_nth. split.
    - intros [Hi E]. rewrite seq_nth in E by auto. apply Z.eqb_eq in E. left. lia.
    - intros [<-|[]]. split; [lia|]. rewrite seq_nth by lia. apply Z.eqb_eq. lia.
  Qed.

  Lemma positions_eq a n l : (forall x, In x l -> a <= x < a + n) ->
    positions (map Z.of_nat l) (map Z.of_nat (seq a n)) = map (fun x => x - a) l.
  Proof.
    intros H. unfold positions. induction l as [|x l IH]; simpl; [reflexivity|].
    rewrite where_single by (apply H; left; auto). simpl. f_equal. apply IH. intros y Hy. apply H. right; auto.
  Qed.

  Lemma positions_pts l r xs : l < L -> r < P -> (forall x, In x xs -> lo l r <= x < lo l (S r)) ->
    positions (map Z.of_nat xs) (with_ghost r (seq (lo l r) (cnt l r))) = map (loc l r) xs.
  Proof.
    intros Hl Hr H. rewrite with_ghost_eq by auto. apply positions_eq. intros x Hx. apply H in Hx.
    pose proof (off_le l r Hl Hr). pose proof (lo_cnt l r Hl Hr). lia.
  Qed.

  Definition pts (l r : nat) : list nat := seq (lo l r) (cnt l r).
  Definition cps (l r : nat) : list nat := filter (isC l) (pts l r).
  Definition fps (l r : nat) : list nat := set_order (pts l r) (cps l r).
  Definition fps2 (l r : nat) : list nat := concat (rev (runs (fps l r))).

  (** What is needed of the set iteration order: it lists the F-points of the process. *)
  Definition order_perm (l r : nat) : Prop := Permutation (fps l r) (filter (fun i => negb (isC l i)) (pts l r)).

  Lemma pts_in l r i : l < L -> r < P -> In i (pts l r) <-> lo l r <= i < lo l (S r).
  Proof. intros Hl Hr. unfold pts. rewrite in_seq. pose proof (lo_cnt l r Hl Hr). lia. Qed.

  Lemma cps_eq l r : l < L -> r < P ->
    filter (fun i => negb (memn i (all_fpts grids l))) (pts l r) = cps l r.
  Proof.
    intros Hl Hr. unfold cps. apply filter_ext_in. intros i Hi. apply pts_in in Hi; auto.
    pose proof (lo_le_N l (S r)).
    destruct (memn i (all_fpts grids l)) eqn:E.
    - apply memn_in, all_fpts_in in E. destruct E as [_ ->]. reflexivity.
    - apply memn_false in E. rewrite all_fpts_in in E. destruct (isC l i); [reflexivity|]. exfalso. apply E. split; [lia|auto].
  Qed.

  Lemma fps_in l r i : l < L -> r < P -> order_perm l r -> In i (fps l r) <-> lo l r <= i < lo l (S r) /\ isC l i = false.
  Proof.
    intros Hl Hr Ho. rewrite <- pts_in by auto. split.
    - intros H. apply (Permutation_in _ Ho) in H. apply filter_In in H. rewrite negb_true_iff in H. exact H.
    - intros H. apply (Permutation_in _ (Permutation_sym Ho)). apply filter_In. rewrite negb_true_iff. exact H.
  Qed.
  Lemma fps2_in l r i : l < L -> r < P -> order_perm l r -> In i (fps2 l r) <-> lo l r <= i < lo l (S r) /\ isC l i = false.
  Proof.
    intros Hl Hr Ho. rewrite <- fps_in by auto. split; intros H.
    - apply (Permutation_in _ (fpts2_perm _)) in H. exact H.
    - apply (Permutation_in _ (Permutation_sym (fpts2_perm _))). exact H.
  Qed.

  Definition has (l r : nat) : bool := 0 <? cnt l r.
  Definition isF (l i : nat) : bool := negb (isC l i).
  (** the next index after the block of [r] exists *)
  Definition more (l r : nat) : bool := lo l (S r) <? N l.

  Definition closed_info (l r : nat) : LvlInfo :=
    mkInfo (pts l r) (tms l r) (cps l r)
      (map (loc l r) (pts l r)) (map (loc l r) (cps l r)) (map (loc l r) (fps2 l r))
      (has l r && (0 <? lo l r) && isF l (lo l r) && isF l (lo l r - 1))
      (has l r && more l r && isF l (lo l (S r) - 1) && isF l (lo l (S r)))
      (has l r && (0 <? lo l r) && isC l (lo l r) && isF l (lo l r - 1))
      (has l r && (0 <? lo l r) && isF l (lo l r) && isC l (lo l r - 1))
      (has l r && more l r && isC l (lo l (S r) - 1) && isF l (lo l (S r)))
      (has l r && more l r && isF l (lo l (S r) - 1) && isC l (lo l (S r)))
      (if has l r && more l r then Z.of_nat (owner l (lo l (S r))) else (-99)%Z)
      (if has l r && (0 <? lo l r) then Z.of_nat (owner l (lo l r - 1)) else (-99)%Z).

  Lemma nonempty_pts l r : nonempty (pts l r) = has l r.
  Proof. unfold pts, has. destruct (cnt l r); reflexivity. Qed.
  Lemma first_pts l r : has l r = true -> first_pt (pts l r) = lo l r.
  Proof. unfold pts, has, first_pt. destruct (cnt l r); [discriminate|reflexivity]. Qed.
  Lemma last_pts l r : l < L -> r < P -> has l r = true -> last_pt (pts l r) = lo l (S r) - 1.
  Proof.
    intros Hl Hr H. apply Nat.ltb_lt in H. unfold pts, last_pt. rewrite last_seq by auto. rewrite lo_cnt; auto.
  Qed.
  Lemma has_lt l r : l < L -> r < P -> has l r = true -> lo l r < lo l (S r).
  Proof. intros Hl Hr H. apply Nat.ltb_lt in H. pose proof (lo_cnt l r Hl Hr). lia. Qed.

  Ltac prop_bool :=
    match goal with |- ?a = ?b => apply Bool.eq_iff_eq_true end;
    rewrite ?andb_true_iff, ?Nat.ltb_lt, ?memn_in.

  Lemma comm_front_eq l r : l < L -> r < P -> order_perm l r ->
    nonempty (fps l r) && (0 <? np_min (fps l r)) && memn (np_min (fps l r) - 1) (all_fpts grids l)
    = has l r && (0 <? lo l r) && isF l (lo l r) && isF l (lo l r - 1).
  Proof.
    intros Hl Hr Ho. prop_bool. unfold isF. rewrite !negb_true_iff. pose proof (lo_le_N l (S r)) as U. rewrite all_fpts_in.
    split.
    - intros [[Hn Hm] [Hk HF]]. assert (NE : fps l r <> []) by (destruct (fps l r); [discriminate|congruence]).
      destruct (np_min_spec _ NE) as [M1 M2]. set (x := np_min (fps l r)) in *.
      apply fps_in in M1; auto. destruct M1 as [B FX].
      assert (x = lo l r).
      { destruct (Nat.eq_dec x (lo l r)) as [|D]; [auto|exfalso].
        assert (In (x - 1) (fps l r)) as Y by (apply fps_in; auto; split; [lia|auto]).
        apply M2 in Y. lia. }
      rewrite H in *. split; [split; [split|]|]; auto; try lia. apply Nat.ltb_lt. unfold cnt. lia.
    - intros [[[Hh Hp] HF] HF']. apply has_lt in Hh; auto.
      assert (I : In (lo l r) (fps l r)) by (apply fps_in; auto).
      assert (NE : fps l r <> []) by (intros X; rewrite X in I; destruct I).
      destruct (np_min_spec _ NE) as [M1 M2]. apply M2 in I as I'. apply fps_in in M1; auto.
      assert (np_min (fps l r) = lo l r) by lia. rewrite H. split; [split|split]; auto; try lia.
      destruct (fps l r); [congruence|reflexivity].
  Qed.

  Lemma comm_back_eq l r : l < L -> r < P -> order_perm l r ->
    nonempty (fps l r) && memn (np_max (fps l r) + 1) (all_fpts grids l)
    = has l r && more l r && isF l (lo l (S r) - 1) && isF l (lo l (S r)).
  Proof.
    intros Hl Hr Ho. prop_bool. unfold isF, more. rewrite !negb_true_iff. pose proof (lo_le_N l (S r)) as U.
    rewrite all_fpts_in, Nat.ltb_lt. split.
    - intros [Hn [Hk HF]]. assert (NE : fps l r <> []) by (destruct (fps l r); [discriminate|congruence]).
      pose proof (np_max_in _ NE) as M1. set (x := np_max (fps l r)) in *.
      apply fps_in in M1; auto. destruct M1 as [B FX].
      assert (x + 1 = lo l (S r)).
      { destruct (Nat.eq_dec (x + 1) (lo l (S r))) as [|D]; [auto|exfalso].
        assert (In (x + 1) (fps l r)) as Y by (apply fps_in; auto; split; [lia|auto]).
        apply np_max_ge in Y. lia. }
      rewrite <- H. replace (x + 1 - 1) with x by lia. split; [split; [split|]|]; auto; try lia. apply Nat.ltb_lt. unfold cnt. lia.
    - intros [[[Hh Hp] HF] HF']. apply has_lt in Hh; auto.
      assert (I : In (lo l (S r) - 1) (fps l r)) by (apply fps_in; auto; split; [lia|auto]).
      assert (NE : fps l r <> []) by (intros X; rewrite X in I; destruct I).
      pose proof (np_max_in _ NE) as M1. apply np_max_ge in I as I'. apply fps_in in M1; auto.
      assert (np_max (fps l r) + 1 = lo l (S r)) by lia. rewrite H. split; [|split]; auto; try lia.
      destruct (fps l r); [congruence|reflexivity].
  Qed.

  Lemma rev_hd_last {A} (l : list A) d : l <> [] -> exists tl, rev l = last l d :: tl.
  Proof.
    intros H. destruct (exists_last H) as (l' & a & ->). rewrite rev_app_distr, last_last. simpl. eexists; reflexivity.
  Qed.

  Lemma last_nth {A} (l : list A) d : last l d = nth (length l - 1) l d.
  Proof.
    destruct l as [|a l]; [reflexivity|]. destruct (@exists_last _ (a :: l)) as (l' & x & E); [congruence|]. rewrite E.
    rewrite last_last, app_length. simpl. rewrite app_nth2 by lia. replace (length l' + 1 - 1 - length l') with 0 by lia. reflexivity.
  Qed.

  Lemma where_tm l i : l < L -> i < N l -> np_where (Z.eqb (tm l i)) (grid l) = [i].
  Proof.
    intros Hl Hi. apply ssorted_ext; [apply np_where_sorted|constructor; constructor|].
    intros k. rewrite (np_where_in _ _ _ 0%Z). fold (N l) (tm l k). rewrite Z.eqb_eq. split.
    - intros [Hk E]. left. apply (tm_inj l); auto.
    - intros [<-|[]]. auto.
  Qed.

  Lemma setup_level_eq l r : l < L -> r < P -> order_perm l r ->
    setup_level grids set_order P r l = Some (closed_info l r).
  Proof.
    intros Hl Hr Ho. unfold setup_level. rewrite my_pts_eq by auto. rewrite split_times_eq. fold (pts l r).
    rewrite cps_eq by auto. fold (fps l r). fold (fps2 l r).
    unfold pts at 2. rewrite tms_eq by auto. fold (N l).
    assert (PIN : forall x, In x (pts l r) -> lo l r <= x < lo l (S r)) by (intros; apply pts_in; auto).
    assert (HS : match rev (tms l r), rev (grid l) with
              | tlast :: _, glast :: _ =>
                  if Z.eqb tlast glast then Some (-99)%Z
                  else match np_where (Z.eqb tlast) (grid l) with
                       | k :: _ => match nth_error (grid l) (k + 1) with
                                   | Some nxt => Some (Z.of_nat (searchsorted splits nxt))
                                   | None => None
                                   end
                       | [] => None
                       end
              | _, _ => Some (-99)%Z
              end = Some (if has l r && more l r then Z.of_nat (owner l (lo l (S r))) else (-99)%Z)).
    { unfold has, more. destruct (cnt l r) as [|n] eqn:C.
      - assert (tms l r = []) as ->. { unfold tms, off. rewrite C, orb_true_r. reflexivity. } reflexivity.
      - assert (0 <? S n = true) as -> by (apply Nat.ltb_lt; lia). simpl (true && _).
        assert (NE : tms l r <> []). { unfold tms. rewrite C. simpl. discriminate. }
        pose proof (off_le l r Hl Hr) as O. pose proof (lo_cnt l r Hl Hr) as LC. pose proof (lo_le_N l (S r)) as U.
        assert (LT : last (tms l r) 0%Z = tm l (lo l (S r) - 1)).
        { rewrite last_nth. unfold tms. rewrite map_length, seq_length.
          rewrite (nth_indep _ 0%Z (tm l 0)) by (rewrite map_length, seq_length; lia).
          rewrite map_nth, seq_nth by lia. f_equal. lia. }
        assert (NG : grid l <> []). { intros X. pose proof (N_pos l Hl) as Y. unfold N in Y. rewrite X in Y. simpl in Y. lia. }
        assert (LG : last (grid l) 0%Z = tm l (N l - 1)) by apply last_nth.
        destruct (rev_hd_last (tms l r) 0%Z NE) as (t1 & ->). destruct (rev_hd_last (grid l) 0%Z NG) as (t2 & ->).
        rewrite LT, LG. destruct (lo l (S r) <? N l) eqn:M.
        + apply Nat.ltb_lt in M. replace (tm l (lo l (S r) - 1) =? tm l (N l - 1))%Z with false.
          2:{ symmetry. apply Z.eqb_neq. intros X. apply (tm_inj l) in X; auto; lia. }
          rewrite where_tm by (auto; lia). replace (lo l (S r) - 1 + 1) with (lo l (S r)) by lia.
          rewrite (nth_error_nth' _ 0%Z) by (fold (N l); lia). reflexivity.
        + apply Nat.ltb_ge in M. replace (lo l (S r)) with (N l) by lia. rewrite Z.eqb_refl. reflexivity. }
    rewrite HS. clear HS. unfold closed_info. f_equal. f_equal.
    - unfold pts at 2. rewrite positions_pts; auto.
    - unfold pts. rewrite positions_pts; auto. intros x Hx. apply PIN. apply filter_In in Hx. tauto.
    - unfold pts. rewrite positions_pts; auto. intros x Hx. apply fps2_in in Hx; tauto.
    - apply comm_front_eq; auto.
    - apply comm_back_eq; auto.
    - rewrite nonempty_pts. destruct (has l r) eqn:Hh; [|reflexivity]. rewrite first_pts by auto.
      pose proof (has_lt l r Hl Hr Hh) as HL. pose proof (lo_le_N l (S r)) as U. prop_bool.
      unfold isF. rewrite !negb_true_iff, Nat.eqb_neq, all_fpts_in. unfold cps. rewrite filter_In, pts_in by auto. intuition lia.
    - rewrite nonempty_pts. destruct (has l r) eqn:Hh; [|reflexivity]. rewrite first_pts by auto.
      pose proof (has_lt l r Hl Hr Hh) as HL. pose proof (lo_le_N l (S r)) as U. prop_bool.
      unfold isF. rewrite !negb_true_iff, all_cpts_in. rewrite fps2_in by auto. intuition lia.
    - rewrite nonempty_pts. destruct (has l r) eqn:Hh; [|reflexivity]. rewrite last_pts by auto.
      pose proof (has_lt l r Hl Hr Hh) as HL. pose proof (lo_le_N l (S r)) as U. prop_bool.
      unfold isF, more. rewrite !negb_true_iff, Nat.eqb_neq, all_fpts_in. unfold cps. rewrite filter_In, pts_in by auto.
      rewrite Nat.ltb_lt. replace (lo l (S r) - 1 + 1) with (lo l (S r)) by lia. intuition lia.
    - rewrite nonempty_pts. destruct (has l r) eqn:Hh; [|reflexivity]. rewrite last_pts by auto.
      pose proof (has_lt l r Hl Hr Hh) as HL. pose proof (lo_le_N l (S r)) as U. prop_bool.
      unfold isF, more. rewrite !negb_true_iff, Nat.eqb_neq, all_cpts_in. rewrite fps2_in by auto.
      rewrite Nat.ltb_lt. replace (lo l (S r) - 1 + 1) with (lo l (S r)) by lia. intuition lia.
    - unfold tms, has. pose proof (off_le l r Hl Hr) as O. pose proof (lo_cnt l r Hl Hr) as LC.
      destruct (cnt l r) as [|n] eqn:C.
      + unfold off. rewrite C, orb_true_r. reflexivity.
      + assert (0 <? S n = true) as -> by (apply Nat.ltb_lt; lia). simpl (true && _). cbn [Nat.add seq map].
        unfold off. rewrite C. rewrite orb_false_r. destruct (r =? 0) eqn:E.
        * apply Nat.eqb_eq in E. subst r. rewrite lo_0 by auto. simpl (0 - 0). rewrite (grid_hd l Hl).
          replace (hd 0%Z (Setup.grid grids 0)) with (tm 0 0).
          2:{ unfold tm. destruct (Setup.grid grids 0); reflexivity. }
          rewrite Z.eqb_refl. reflexivity.
        * apply Nat.eqb_neq in E. pose proof (lo_pos l r Hl ltac:(lia) Hr ltac:(lia)) as LP.
          assert (0 <? lo l r = true) as -> by (apply Nat.ltb_lt; lia). reflexivity.
  Qed.
End SetupFacts.

(* closed forms are only unfolded on request *)
#[global] Arguments N : simpl never.
#[global] Arguments tm : simpl never.
#[global] Arguments st : simpl never.
#[global] Arguments lo : simpl never.
#[global] Arguments cnt : simpl never.
#[global] Arguments splits : simpl never.
#[global] Arguments owner : simpl never.
#[global] Arguments isC : simpl never.
#[global] Arguments isF : simpl never.
#[global] Arguments cpt : simpl never.
#[global] Arguments off : simpl never.
#[global] Arguments loc : simpl never.
#[global] Arguments tms : simpl never.
#[global] Arguments pts : simpl never.
#[global] Arguments cps : simpl never.
#[global] Arguments fps : simpl never.
#[global] Arguments fps2 : simpl never.
#[global] Arguments has : simpl never.
#[global] Arguments more : simpl never.
#[global] Arguments closed_info : simpl never.
