(** Public facts about the distribution of points and the communication tables. *)
From Coq Require Import List ZArith Lia Arith Bool Sorted Permutation.
From Verif Require Import PyList ListFacts Setup SplitProofs Spec SetupProofs OrderProofs.
Import ListNotations.

Section Tables.
  Variable grids : list (list Z).
  Variable so : list nat -> list nat -> list nat.
  Variable P : nat.
  Hypothesis HV : valid_hierarchy grids.
  Hypothesis HP0 : 0 < P.
  Hypothesis HP : P <= length (nth 0 grids []).
  Hypothesis HO : f_order_ok grids so P.
  Notation L := (length grids).
  Let HPN : P <= N grids 0 := HP.

  Lemma memn_isC' l r i : l < L -> r < P -> In i (pts grids P l r) -> memn i (all_cpts grids l) = isC grids l i.
  Proof.
    intros Hl Hr Hi. apply (pts_in grids P HV HP0 HPN) in Hi; auto. pose proof (lo_le_N grids P HP0 HPN l (S r)).
    destruct (isC grids l i) eqn:E.
    - apply memn_in. apply (all_cpts_in grids P HP0 HPN). split; [lia|auto].
    - apply memn_false. rewrite (all_cpts_in grids P HP0 HPN). intros [_ X]. congruence.
  Qed.
  Lemma order_of_ok l r : l < L -> r < P -> order_perm grids so P l r.
  Proof.
    intros Hl Hr. destruct (HO l r Hl Hr _ (my_pts_eq grids P HV HP0 HPN l r Hl Hr)) as [H1 _]. fold (pts grids P l r) in H1.
    assert (E : filter (fun i => memn i (all_cpts grids l)) (pts grids P l r) = cps grids P l r).
    { apply filter_ext_in. intros i Hi. eapply memn_isC'; eauto. }
    cbv zeta in *. rewrite E in H1. unfold order_perm, fps.
    erewrite filter_ext_in; [exact H1|]. intros i Hi. cbv beta. erewrite memn_isC'; eauto.
  Qed.
  Lemma tables l r : l < L -> r < P -> setup_level grids so P r l = Some (closed_info grids so P l r).
  Proof. intros Hl Hr. apply (setup_level_eq grids so P HV HP0 HPN); auto. apply order_of_ok; auto. Qed.

  Lemma setup_total l r : l < L -> r < P -> exists J, setup_level grids so P r l = Some J.
  Proof. intros Hl Hr. rewrite tables by auto. eauto. Qed.

  Lemma pts_tile l : l < L -> forall p, p <= P -> concat (map (pts grids P l) (seq 0 p)) = seq 0 (lo grids P l p).
  Proof.
    intros Hl. induction p as [|p IH]; intros Hp.
    - rewrite (lo_0 grids P HV HP0 HPN) by auto. reflexivity.
    - rewrite seq_S, map_app, concat_app, IH by lia. simpl. rewrite app_nil_r. unfold SetupProofs.pts.
      pose proof (lo_cnt grids P HV HP0 HPN l p Hl ltac:(lia)) as E. rewrite <- E, seq_app. reflexivity.
  Qed.

  Lemma blocks_tile l (J : nat -> LvlInfo) : l < L -> (forall r, r < P -> setup_level grids so P r l = Some (J r)) ->
    concat (map (fun r => i_pts (J r)) (seq 0 P)) = seq 0 (length (nth l grids [])).
  Proof.
    intros Hl HJ. transitivity (concat (map (pts grids P l) (seq 0 P))).
    - f_equal. apply map_ext_in. intros r Hr. apply in_seq in Hr. specialize (HJ r ltac:(lia)). rewrite tables in HJ by (auto; lia).
      injection HJ as <-. reflexivity.
    - rewrite pts_tile by auto. rewrite (SetupProofs.lo_P grids P). reflexivity.
  Qed.
  Lemma block_contiguous l r J : l < L -> r < P -> setup_level grids so P r l = Some J -> exists a n, i_pts J = seq a n.
  Proof. intros Hl Hr H. rewrite tables in H by auto. injection H as <-. simpl. unfold pts. eauto. Qed.

  Lemma unique_owner l i : l < L -> i < length (nth l grids []) ->
    exists r J, r < P /\ setup_level grids so P r l = Some J /\ In i (i_pts J) /\
      forall r' J', r' < P -> setup_level grids so P r' l = Some J' -> In i (i_pts J') -> r' = r.
  Proof.
    intros Hl Hi. destruct (owner_exists grids P HV HP0 HPN l i Hl Hi) as (r & Hr & B).
    exists r, (closed_info grids so P l r). split; [exact Hr|]. split; [apply tables; auto|]. split.
    - simpl. apply (pts_in grids P HV HP0 HPN); auto.
    - intros r' J' Hr' H' Hin. rewrite tables in H' by auto. injection H' as <-. simpl in Hin.
      apply (pts_in grids P HV HP0 HPN) in Hin; auto.
      rewrite <- (owner_eq grids P HV HP0 HPN l r' i Hl Hr' Hin). apply (owner_eq grids P HV HP0 HPN); auto.
  Qed.

  Lemma ghost_times l r J : l < L -> r < P -> setup_level grids so P r l = Some J ->
    i_t J = match i_pts J with
            | [] => []
            | a :: _ => map (fun i => nth i (nth l grids []) 0%Z) (if r =? 0 then i_pts J else (a - 1) :: i_pts J)
            end /\
    (0 < r -> forall a, hd_error (i_pts J) = Some a -> 0 < a).
  Proof.
    intros Hl Hr H. rewrite tables in H by auto. injection H as <-. simpl. unfold tms, pts, off. split.
    - destruct (cnt grids P l r) as [|n] eqn:C; [rewrite orb_true_r; reflexivity|]. cbn [seq].
      destruct (r =? 0) eqn:R; simpl orb; cbv iota.
      + rewrite Nat.add_0_r, Nat.sub_0_r. reflexivity.
      + replace (S n + 1) with (S (S n)) by lia. apply Nat.eqb_neq in R.
        pose proof (lo_pos grids P HV HP0 HPN l r Hl ltac:(lia) Hr ltac:(lia)).
        cbn [seq map]. replace (S (lo grids P l r - 1)) with (lo grids P l r) by lia. reflexivity.
    - intros R a Ha. destruct (cnt grids P l r) as [|n] eqn:C; [discriminate|]. simpl in Ha. injection Ha as <-.
      apply (lo_pos grids P HV HP0 HPN l r Hl ltac:(lia) Hr ltac:(lia)).
  Qed.

  Lemma level0_sizes r J : r < P -> setup_level grids so P r 0 = Some J ->
    length (i_pts J) = length (nth 0 grids []) / P + (if r <? length (nth 0 grids []) mod P then 1 else 0) /\ 0 < length (i_pts J).
  Proof.
    pose proof (SetupProofs.L_pos grids P HV HP0 HPN) as HL.
    intros Hr H. rewrite tables in H by auto. injection H as <-. simpl. unfold pts. rewrite seq_length. unfold cnt.
    rewrite !(lo_level0 grids P HV HP0 HPN) by lia. unfold st. rewrite starts_S by auto. fold (N grids 0).
    assert (1 <= N grids 0 / P). { apply Nat.div_le_lower_bound; lia. }
    unfold N, grid in *. lia.
  Qed.

  (** ** Partners *)
  Lemma own_inj l r r' i : l < L -> r < P -> r' < P -> lo grids P l r <= i < lo grids P l (S r) ->
     lo grids P l r' <= i < lo grids P l (S r') -> r = r'.
  Proof.
    intros Hl Hr Hr' H H'. rewrite <- (owner_eq grids P HV HP0 HPN l r i Hl Hr H). apply (owner_eq grids P HV HP0 HPN); auto.
  Qed.
  Lemma has_iff' l r : l < L -> r < P -> has grids P l r = true <-> lo grids P l r < lo grids P l (S r).
  Proof. intros Hl Hr. unfold SetupProofs.has, SetupProofs.cnt. rewrite Nat.ltb_lt. lia. Qed.
  Lemma bnd l s d : l < L -> s < P -> d < P ->
    (has grids P l s = true /\ more grids P l s = true /\ owner grids P l (lo grids P l (S s)) = d) <->
    (has grids P l d = true /\ 0 < lo grids P l d /\ owner grids P l (lo grids P l d - 1) = s).
  Proof.
    intros Hl Hs Hd. rewrite !has_iff' by auto. unfold SetupProofs.more. rewrite Nat.ltb_lt. split.
    - intros (H1 & H2 & H3). destruct (owner_spec grids P HV HP0 HPN l (lo grids P l (S s)) Hl H2) as [O1 O2]. rewrite H3 in *.
      assert (s < d). { destruct (le_lt_dec d s) as [X|X]; [|auto]. pose proof (lo_mono grids P HV HP0 HPN l (S d) (S s) Hl ltac:(lia) ltac:(lia)). lia. }
      pose proof (lo_mono grids P HV HP0 HPN l (S s) d Hl ltac:(lia) ltac:(lia)).
      assert (lo grids P l d = lo grids P l (S s)) as E by lia.
      split; [lia|]. split; [lia|]. rewrite E. apply (owner_eq grids P HV HP0 HPN); auto. lia.
    - intros (H1 & H2 & H3). pose proof (lo_le_N grids P HP0 HPN l (S d)).
      destruct (owner_spec grids P HV HP0 HPN l (lo grids P l d - 1) Hl ltac:(lia)) as [O1 O2]. rewrite H3 in *.
      assert (s < d). { destruct (le_lt_dec d s) as [X|X]; [|auto]. pose proof (lo_mono grids P HV HP0 HPN l d s Hl ltac:(lia) ltac:(lia)). lia. }
      pose proof (lo_mono grids P HV HP0 HPN l (S s) d Hl ltac:(lia) ltac:(lia)).
      assert (lo grids P l d = lo grids P l (S s)) as E by lia.
      split; [lia|]. split; [lia|]. rewrite <- E. apply (owner_eq grids P HV HP0 HPN); auto; lia.
  Qed.

  Section Pair.
    Variables (l p q : nat) (Jp Jq : LvlInfo).
    Hypothesis Hl : l < L.
    Hypothesis Hp : p < P.
    Hypothesis Hq : q < P.
    Hypothesis HJp : setup_level grids so P p l = Some Jp.
    Hypothesis HJq : setup_level grids so P q l = Some Jq.
    Lemma EJp : Jp = closed_info grids so P l p.
    Proof. pose proof (tables l p Hl Hp) as T. congruence. Qed.
    Lemma EJq : Jq = closed_info grids so P l q.
    Proof. pose proof (tables l q Hl Hq) as T. congruence. Qed.

    Lemma send_iff : i_send_to Jp = Z.of_nat q <->
      has grids P l p = true /\ more grids P l p = true /\ owner grids P l (lo grids P l (S p)) = q.
    Proof.
      rewrite EJp. unfold closed_info; cbn [i_send_to]. destruct (has grids P l p), (more grids P l p); cbn [andb]; (split; [intros H; first [exfalso; lia|repeat split; lia]|intros (H1 & H2 & H3); first [discriminate|rewrite H3; reflexivity]]).
    Qed.
    Lemma get_iff : i_get_from Jq = Z.of_nat p <->
      has grids P l q = true /\ 0 < lo grids P l q /\ owner grids P l (lo grids P l q - 1) = p.
    Proof.
      rewrite EJq. unfold closed_info; cbn [i_get_from]. rewrite <- (Nat.ltb_lt 0). destruct (has grids P l q), (0 <? lo grids P l q); cbn [andb]; (split; [intros H; first [exfalso; lia|repeat split; lia]|intros (H1 & H2 & H3); first [discriminate|rewrite H3; reflexivity]]).
    Qed.
    Lemma partners : i_send_to Jp = Z.of_nat q <-> i_get_from Jq = Z.of_nat p.
    Proof. rewrite send_iff, get_iff. apply bnd; auto. Qed.

    Lemma boundary : i_send_to Jp = Z.of_nat q ->
      p < q /\ (exists a, hd_error (i_pts Jq) = Some (S a) /\ last (i_pts Jp) 0 = a /\ In a (i_pts Jp)) /\
      i_last_is_c Jp = i_first_is_f Jq /\ i_last_is_f Jp = i_first_is_c Jq /\ i_comm_back Jp = i_comm_front Jq.
    Proof.
      intros H. pose proof (proj1 send_iff H) as (S1 & S2 & S3). apply partners in H. apply get_iff in H. destruct H as (G1 & G2 & G3).
      assert (Lp : lo grids P l p < lo grids P l (S p)) by (apply has_iff'; auto).
      assert (Lq : lo grids P l q < lo grids P l (S q)) by (apply has_iff'; auto).
      pose proof (lo_le_N grids P HP0 HPN l (S q)) as NQ.
      assert (O1 : lo grids P l p <= lo grids P l q - 1 < lo grids P l (S p)).
      { rewrite <- G3. apply (owner_spec grids P HV HP0 HPN); [auto|lia]. }
      assert (O2 : lo grids P l q <= lo grids P l (S p) < lo grids P l (S q)).
      { rewrite <- S3. apply (owner_spec grids P HV HP0 HPN); [auto|]. unfold more in S2. apply Nat.ltb_lt in S2. exact S2. }
      assert (PQ : p < q).
      { destruct (le_lt_dec q p) as [X|X]; [|auto]. pose proof (lo_mono grids P HV HP0 HPN l q p Hl ltac:(lia) ltac:(lia)). lia. }
      pose proof (lo_mono grids P HV HP0 HPN l (S p) q Hl ltac:(lia) ltac:(lia)).
      assert (E : lo grids P l q = lo grids P l (S p)) by lia.
      split; [exact PQ|].
      pose proof (lo_cnt grids P HV HP0 HPN l p Hl Hp). pose proof (lo_cnt grids P HV HP0 HPN l q Hl Hq).
      rewrite EJp, EJq. unfold closed_info; cbn [i_pts i_last_is_c i_last_is_f i_comm_back i_first_is_f i_first_is_c i_comm_front].
      rewrite S1, S2, G1, E. replace (0 <? lo grids P l (S p)) with true by (symmetry; apply Nat.ltb_lt; lia). cbn [andb].
      split; [|repeat split; apply andb_comm].
      exists (lo grids P l (S p) - 1). unfold pts. split; [|split].
      - destruct (cnt grids P l q) as [|k]; [lia|]. simpl. f_equal. lia.
      - rewrite last_seq by lia. lia.
      - apply in_seq. lia.
    Qed.
  End Pair.

  Lemma send_range l p J : l < L -> p < P -> setup_level grids so P p l = Some J ->
    (i_send_to J = (-99)%Z /\ i_last_is_c J = false /\ i_last_is_f J = false /\ i_comm_back J = false) \/
    (exists q, q < P /\ i_send_to J = Z.of_nat q).
  Proof.
    intros Hl Hp H. rewrite tables in H by auto. injection H as <-. unfold closed_info; cbn [i_send_to i_last_is_c i_last_is_f i_comm_back].
    destruct (has grids P l p && more grids P l p) eqn:E.
    - right. eexists. split; [|reflexivity]. apply andb_true_iff in E. destruct E as [_ E]. unfold more in E. apply Nat.ltb_lt in E.
      apply (owner_spec grids P HV HP0 HPN); auto.
    - left. repeat split; reflexivity.
  Qed.
  Lemma get_range l p J : l < L -> p < P -> setup_level grids so P p l = Some J ->
    (i_get_from J = (-99)%Z /\ i_first_is_c J = false /\ i_first_is_f J = false /\ i_comm_front J = false) \/
    (exists q, q < P /\ i_get_from J = Z.of_nat q).
  Proof.
    intros Hl Hp H. rewrite tables in H by auto. injection H as <-. unfold closed_info; cbn [i_get_from i_first_is_c i_first_is_f i_comm_front].
    destruct (has grids P l p && (0 <? lo grids P l p)) eqn:E.
    - right. eexists. split; [|reflexivity]. apply andb_true_iff in E. destruct E as [E1 E]. apply Nat.ltb_lt in E.
      apply has_iff' in E1; auto. pose proof (lo_le_N grids P HP0 HPN l (S p)). apply (owner_spec grids P HV HP0 HPN); auto. lia.
    - left. repeat split; reflexivity.
  Qed.

  (** What the three flags of a process with a successor say: kinds of its last point and of the next point. *)
  Lemma back_flags l p J q : l < L -> p < P -> setup_level grids so P p l = Some J -> i_send_to J = Z.of_nat q ->
    let a := last (i_pts J) 0 in
    let c := fun i => memn i (all_cpts grids l) in
    i_last_is_c J = c a && negb (c (S a)) /\ i_last_is_f J = negb (c a) && c (S a) /\ i_comm_back J = negb (c a) && negb (c (S a)).
  Proof.
    intros Hl Hp H Hs a c. rewrite tables in H by auto. injection H as <-. unfold a, c. clear a c.
    cbn [i_send_to] in Hs. unfold closed_info in Hs. cbn [i_send_to] in Hs.
    destruct (has grids P l p && more grids P l p) eqn:E; [|lia]. apply andb_true_iff in E. destruct E as [E1 E2].
    pose proof E1 as E1'. apply has_iff' in E1'; auto. pose proof E2 as E2'. unfold more in E2'. apply Nat.ltb_lt in E2'.
    unfold closed_info; cbn [i_pts i_last_is_c i_last_is_f i_comm_back]. rewrite E1, E2. cbn [andb].
    pose proof (lo_cnt grids P HV HP0 HPN l p Hl Hp). unfold pts. rewrite last_seq by lia.
    assert (M : forall i, i < N grids l -> memn i (all_cpts grids l) = isC grids l i).
    { intros i Hi. destruct (isC grids l i) eqn:X.
      - apply memn_in. apply (all_cpts_in grids P HP0 HPN). split; auto.
      - apply memn_false. rewrite (all_cpts_in grids P HP0 HPN). intros [_ Y]. congruence. }
    rewrite !M by lia. replace (lo grids P l p + cnt grids P l p - 1) with (lo grids P l (S p) - 1) by lia.
    replace (S (lo grids P l (S p) - 1)) with (lo grids P l (S p)) by lia. unfold isF. auto.
  Qed.
End Tables.

(** ** split_into *)
Lemma split_sum n p : 0 < p -> list_sum (split_into n p) = n.
Proof.
  intros H. rewrite <- (starts_last n p H) at 2. unfold starts. rewrite firstn_all2; [reflexivity|]. rewrite split_into_length by auto. lia.
Qed.
Lemma split_nonincreasing n p i j : i <= j -> j < p -> nth j (split_into n p) 0 <= nth i (split_into n p) 0 <= nth j (split_into n p) 0 + 1.
Proof.
  intros H1 H2. rewrite !split_into_nth by lia. destruct (j <? n mod p) eqn:A, (i <? n mod p) eqn:B; try lia.
  apply Nat.ltb_lt in A. apply Nat.ltb_ge in B. lia.
Qed.
Lemma split_tile n p : 0 < p -> p <= n ->
  concat (map (fun r => let '(size, first) := split_points n p r in seq first size) (seq 0 p)) = seq 0 n.
Proof.
  intros H0 H. assert (G : forall k, k <= p -> concat (map (fun r => let '(size, first) := split_points n p r in seq first size) (seq 0 k)) = seq 0 (starts n p k)).
  { induction k as [|k IH]; intros Hk; [rewrite starts_0; reflexivity|].
    rewrite seq_S, map_app, concat_app, IH by lia. cbn [map concat Nat.add]. rewrite split_points_eq by lia. rewrite app_nil_r.
    rewrite starts_S by lia. rewrite <- seq_app. f_equal. lia. }
  rewrite G by lia. rewrite starts_last by auto. reflexivity.
Qed.
