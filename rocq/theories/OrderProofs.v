(** Visiting order of the F-points: facts about runs of consecutive indices. *)
From Coq Require Import List ZArith Lia Arith Bool Sorted Permutation.
From Verif Require Import PyList ListFacts Setup Spec.
Import ListNotations.

Lemma runs_head x l : exists ys rest, runs (x :: l) = (x :: ys) :: rest.
Proof.
  simpl. destruct (runs l) as [|[|y ys] rest]; eauto. destruct (y =? S x); eauto.
Qed.

(** Two consecutive integers next to each other in the list are next to each other in one run. *)
Lemma runs_adjacent p y q : exists R1 r1 r2 R2, runs (p ++ y :: S y :: q) = R1 ++ (r1 ++ y :: S y :: r2) :: R2.
Proof.
  induction p as [|x p IH]; simpl app.
  - destruct (runs_head (S y) q) as (ys & rest & E). cbn [runs] in *. rewrite E.
    rewrite Nat.eqb_refl. exists [], [], ys, rest. reflexivity.
  - destruct IH as (R1 & r1 & r2 & R2 & E). cbn [runs]. rewrite E. destruct R1 as [|[|z zs] R1].
    + simpl. destruct r1 as [|z r1]; simpl.
      * destruct (y =? S x); [exists [], [x], r2, R2|exists [[x]], [], r2, R2]; reflexivity.
      * destruct (z =? S x); [exists [], (x :: z :: r1), r2, R2|exists [[x]], (z :: r1), r2, R2]; reflexivity.
    + simpl. exists ([x] :: [] :: R1), r1, r2, R2. reflexivity.
    + simpl. destruct (z =? S x); [exists ((x :: z :: zs) :: R1), r1, r2, R2|exists ([x] :: (z :: zs) :: R1), r1, r2, R2]; reflexivity.
Qed.

Lemma visit_adjacent p y q : exists p' q', visit_order (p ++ y :: S y :: q) = p' ++ y :: S y :: q'.
Proof.
  destruct (runs_adjacent p y q) as (R1 & r1 & r2 & R2 & E). unfold visit_order. rewrite E.
  rewrite rev_app_distr. simpl. rewrite !concat_app. simpl. rewrite app_nil_r.
  exists (concat (rev R2) ++ r1), (r2 ++ concat (rev R1)). rewrite <- !app_assoc. reflexivity.
Qed.

Lemma visit_perm l : Permutation (visit_order l) l.
Proof. apply fpts2_perm. Qed.

Lemma nodup_split_unique {B} (l1 l1' l2 l2' : list B) x : NoDup (l1 ++ x :: l2) -> l1 ++ x :: l2 = l1' ++ x :: l2' -> l1 = l1'.
Proof.
  revert l1'. induction l1 as [|a l1 IH]; intros [|b l1'] Hn E; simpl in *.
  - reflexivity.
  - injection E as <- E. inversion Hn as [|? ? Hx _]. exfalso. apply Hx. rewrite E. apply in_or_app. right; left; auto.
  - injection E as -> E. inversion Hn as [|? ? Hx _]; subst. exfalso. apply Hx. apply in_or_app. right; left; auto.
  - injection E as <- E. inversion Hn; subst. f_equal. eapply IH; eauto.
Qed.

Lemma predecessors_first_adjacent l : NoDup l ->
  (forall y, In y l -> In (S y) l -> exists p q, l = p ++ y :: S y :: q) -> predecessors_first (visit_order l).
Proof.
  intros Hn H before x after E y Hy <-.
  assert (Hx : In (S y) l). { apply (Permutation_in _ (visit_perm l)). rewrite E. apply in_or_app. right; left; auto. }
  apply (Permutation_in _ (visit_perm l)) in Hy.
  destruct (H y Hy Hx) as (p & q & ->). destruct (visit_adjacent p y q) as (p' & q' & E').
  assert (Hn' : NoDup (visit_order (p ++ y :: S y :: q))) by (eapply Permutation_NoDup; [apply Permutation_sym, visit_perm|auto]).
  assert (before = p' ++ [y]).
  { eapply nodup_split_unique with (x := S y) (l2 := after) (l2' := q').
    - rewrite <- E. exact Hn'.
    - rewrite <- E, E', <- app_assoc. reflexivity. }
  subst. apply in_or_app. right; left; auto.
Qed.

Lemma sorted_adjacent l y : StronglySorted lt l -> In y l -> In (S y) l -> exists p q, l = p ++ y :: S y :: q.
Proof.
  induction l as [|a l IH]; intros Hs Hy Hx; [destruct Hy|]. inversion Hs as [|? ? Hl Ha]; subst.
  rewrite Forall_forall in Ha. destruct Hy as [->|Hy].
  - destruct Hx as [Hx|Hx]; [lia|]. destruct l as [|b l]; [destruct Hx|].
    pose proof (Ha b (or_introl eq_refl)). inversion Hl as [|? ? Hl' Hb]; subst. rewrite Forall_forall in Hb.
    destruct Hx as [->|Hx]; [exists [], l; reflexivity|]. specialize (Hb _ Hx). lia.
  - destruct Hx as [->|Hx]; [specialize (Ha _ Hy); lia|]. destruct (IH Hl Hy Hx) as (p & q & ->). exists (a :: p), q. reflexivity.
Qed.

Lemma sorted_predecessors_first l : StronglySorted lt l -> predecessors_first (visit_order l).
Proof.
  intros H. apply predecessors_first_adjacent; [apply ssorted_nodup; auto|]. intros y H1 H2. apply sorted_adjacent; auto.
Qed.

Lemma my_pts_sorted grids P r lvl pts : my_pts grids P r lvl = Some pts -> StronglySorted lt pts.
Proof.
  unfold my_pts. destruct (split_points _ _ _) as [block first].
  set (p0 := firstn block (skipn first (py_range _))).
  assert (H0 : StronglySorted lt p0). { unfold p0, py_range. rewrite skipn_seq, firstn_seq. apply seq_sorted. }
  destruct (lvl =? 0); [intros [= <-]; exact H0|].
  destruct p0 as [|a p0']; [discriminate|]. destruct (rev (a :: p0')); [discriminate|].
  destruct (nth_error _ a); [|discriminate]. destruct (nth_error _ n); [|discriminate]. intros [= <-]. apply np_where_sorted.
Qed.

Lemma filter_negb_mem (f : nat -> bool) l : filter (fun i => negb (memn i (filter f l))) l = filter (fun i => negb (f i)) l.
Proof.
  apply filter_ext_in. intros i Hi. f_equal. destruct (f i) eqn:E.
  - apply memn_in, filter_In. auto.
  - apply memn_false. intros X. apply filter_In in X. destruct X. congruence.
Qed.

Lemma ascending_order_ok grids P : f_order_ok grids ascending_order P.
Proof.
  intros lvl r _ _ pts Hp cs fs. unfold ascending_order, cs. rewrite filter_negb_mem. split; [apply Permutation_refl|].
  apply sorted_predecessors_first. apply filter_sorted. eapply my_pts_sorted; eauto.
Qed.
