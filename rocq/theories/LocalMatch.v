(** The messages of two processes under the local convergence criteria fit together. *)
From Coq Require Import List ZArith Lia Arith Bool Permutation.
From Verif Require Import Net NetProofs NetPhase PyList ListFacts Setup SplitProofs Spec SetupProofs Mgrit Collect Sim Pipeline LocalOps.
Import ListNotations.

(** ** First occurrences *)
Definition slot_eqb (x y : slot) : bool := (fst x =? fst y) && (snd x =? snd y).
Lemma slot_eqb_eq x y : slot_eqb x y = true <-> x = y.
Proof.
  destruct x as [a b], y as [c d]. unfold slot_eqb. simpl. rewrite andb_true_iff, !Nat.eqb_eq. split; [intros [-> ->]|intros [= -> ->]]; auto.
Qed.
Lemma slot_eqb_refl x : slot_eqb x x = true.
Proof. apply slot_eqb_eq. reflexivity. Qed.
Lemma slot_eqb_neq x y : slot_eqb x y = false <-> x <> y.
Proof. rewrite <- slot_eqb_eq. destruct (slot_eqb x y); intuition congruence. Qed.
Lemma slot_same l a b : slot_eqb (l, a) (l, b) = (a =? b).
Proof. unfold slot_eqb. simpl. rewrite Nat.eqb_refl. reflexivity. Qed.
Fixpoint firsts (h : list slot) : list slot :=
  match h with [] => [] | x :: h' => x :: filter (fun y => negb (slot_eqb y x)) (firsts h') end.
Definition mem (x : slot) (h : list slot) : bool := existsb (slot_eqb x) h.
Lemma mem_in x h : mem x h = true <-> In x h.
Proof.
  unfold mem. rewrite existsb_exists. split.
  - intros (y & H & E). apply slot_eqb_eq in E. subst. exact H.
  - intros H. exists x. split; [exact H|apply slot_eqb_refl].
Qed.
Lemma filter_filter {B} (f g : B -> bool) l : filter f (filter g l) = filter (fun x => g x && f x) l.
Proof. induction l as [|x l IH]; [reflexivity|]. simpl. destruct (g x); simpl; rewrite IH; [destruct (f x)|]; reflexivity. Qed.
Lemma filter_id {B} (f : B -> bool) l : (forall x, In x l -> f x = true) -> filter f l = l.
Proof. intros H. induction l as [|x l IH]; [reflexivity|]. simpl. rewrite (H x (or_introl eq_refl)). f_equal. apply IH. intros y Hy. apply H. right; auto. Qed.
Lemma filter_none {B} (f : B -> bool) l : (forall x, In x l -> f x = false) -> filter f l = [].
Proof. intros H. induction l as [|x l IH]; [reflexivity|]. simpl. rewrite (H x (or_introl eq_refl)). apply IH. intros y Hy. apply H. right; auto. Qed.
Lemma nodup_app {B} (l1 l2 : list B) : NoDup l1 -> NoDup l2 -> (forall x, In x l1 -> In x l2 -> False) -> NoDup (l1 ++ l2).
Proof.
  induction l1 as [|x l1 IH]; intros H1 H2 H; [exact H2|]. inversion H1 as [|? ? H3 H4]; subst. simpl. constructor.
  - rewrite in_app_iff. intros [G|G]; [auto|]. apply (H x); [left; auto|auto].
  - apply IH; auto. intros y Hy. apply H. right; auto.
Qed.
Lemma firsts_in x h : In x (firsts h) <-> In x h.
Proof.
  induction h as [|y h IH]; [reflexivity|]. simpl. rewrite filter_In, IH, negb_true_iff, slot_eqb_neq.
  destruct (slot_eqb x y) eqn:E; [apply slot_eqb_eq in E; subst; intuition|apply slot_eqb_neq in E; intuition].
Qed.
Lemma firsts_app h1 h2 : firsts (h1 ++ h2) = firsts h1 ++ filter (fun x => negb (mem x h1)) (firsts h2).
Proof.
  induction h1 as [|x h1 IH]; simpl.
  - symmetry. apply filter_id. reflexivity.
  - rewrite IH, filter_app, filter_filter. f_equal. f_equal. apply filter_ext. intros y. rewrite negb_orb. apply andb_comm.
Qed.
Lemma firsts_sub h1 h2 : incl h2 h1 -> firsts (h1 ++ h2) = firsts h1.
Proof.
  intros H. rewrite firsts_app. rewrite (filter_none (fun x => negb (mem x h1)) (firsts h2)); [apply app_nil_r|].
  intros x Hx. apply negb_false_iff. apply mem_in. apply H. apply firsts_in. exact Hx.
Qed.
Lemma firsts_disj h1 h2 : (forall x, In x h1 -> In x h2 -> False) -> firsts (h1 ++ h2) = firsts h1 ++ firsts h2.
Proof.
  intros H. rewrite firsts_app. f_equal. apply filter_id. intros x Hx. apply negb_true_iff.
  destruct (mem x h1) eqn:E; [|reflexivity]. apply mem_in in E. exfalso. apply (H x); auto. apply firsts_in. exact Hx.
Qed.
Lemma firsts_nodup h : NoDup h -> firsts h = h.
Proof.
  induction h as [|x h IH]; intros H; [reflexivity|]. inversion H as [|? ? H1 H2]; subst. simpl. rewrite IH by auto. f_equal.
  apply filter_id. intros y Hy. apply negb_true_iff, slot_eqb_neq. intros ->. auto.
Qed.
Lemma firsts_repeat h n : firsts (concat (repeat h (S n))) = firsts h.
Proof.
  simpl. apply firsts_sub. intros x Hx. apply in_concat in Hx. destruct Hx as (y & H1 & H2). apply repeat_spec in H1. subst. exact H2.
Qed.

Section Match.
  Context {A : App}.
  Variable o : Opts A.
  Variable P : nat.
  Notation grids := (o_grids o).
  Notation so := (o_set_order o).
  Notation L := (length (o_grids o)).
  Notation N := (N grids).
  Notation sflag := (sflag o P).
  Notation rflag := (rflag o P).
  Notation src := (src o P).
  Notation dst := (dst o P).
  Notation pair_on := (pair_on o P).
  Hypothesis HV : valid_hierarchy grids.
  Hypothesis HP0 : 0 < P.
  Hypothesis HP : P <= N 0.

  Definition okslots (h : list slot) : Prop := forall x, In x h -> blvl (fst x) (snd x) < L.
  Lemma okslots_cons x h : okslots (x :: h) -> blvl (fst x) (snd x) < L /\ okslots h.
  Proof. intros H. split; [apply H; left; auto|intros y Hy; apply H; right; auto]. Qed.

  Lemma proj_cons_if (b : bool) d q t fl l : proj d ((if b then [(q, t, fl)] else []) ++ l) = (if b && (q =? d) then [(t, fl)] else []) ++ proj d l.
  Proof. rewrite proj_app. f_equal. destruct b; [|reflexivity]. unfold proj. simpl. destruct (q =? d); reflexivity. Qed.

  Fixpoint occ (fl : bool) (g : slot -> bool) K (h : list slot) : list (mtag * bool) :=
    match h with [] => [] | x :: h' => (if g x then [(tagof K x, fl)] else []) ++ occ fl g (bump K x) h' end.
  Lemma proj_outs fl s d h : forall K, proj d (outs o P fl s K h) = occ fl (pair_on s d) K h.
  Proof.
    induction h as [|x h IH]; intros K; [reflexivity|]. cbn [outs occ]. unfold out1. rewrite proj_cons_if, IH. reflexivity.
  Qed.
  Lemma occ_nodup fl g h : NoDup h -> forall K K0, (forall x, In x h -> K (fst x) (snd x) = K0 (fst x) (snd x)) ->
    occ fl g K h = map (fun x => (tagof K0 x, fl)) (filter g h).
  Proof.
    induction h as [|x h IH]; intros Hn K K0 HK; [reflexivity|]. inversion Hn as [|? ? H1 H2]; subst. cbn [occ filter].
    rewrite (IH H2 (bump K x) K0).
    - assert (E : tagof K x = tagof K0 x) by (unfold tagof; rewrite HK by (left; auto); reflexivity). rewrite E. destruct (g x); reflexivity.
    - intros y Hy. rewrite bump_other; [apply HK; right; auto|].
      apply (slot_eqb_neq y x). intros ->. auto.
  Qed.

  Section Recv.
    Variables (cl : nat -> bool) (s d : nat).
    Hypothesis Hs : s < P.
    Hypothesis Hd : d < P.
    Notation ins := (ins o P cl).
    Notation see := (see o P cl).
    Notation g := (pair_on s d).
    Lemma g_src x : blvl (fst x) (snd x) < L -> g x = true -> src x d = s.
    Proof. intros Hx Hg. rewrite <- (pair_match o P HV HP0 HP x s d Hx Hs Hd) in Hg. apply andb_prop in Hg. destruct Hg as [_ Hg]. apply Nat.eqb_eq in Hg. exact Hg. Qed.
    Lemma see_x E x : see d E x (fst x) (snd x) = E (fst x) (snd x) || cl (src x d).
    Proof. unfold LocalOps.see, at2. rewrite !Nat.eqb_refl. reflexivity. Qed.
    Lemma see_y E x y : y <> x -> see d E x (fst y) (snd y) = E (fst y) (snd y).
    Proof. intros H. apply slot_eqb_neq in H. unfold LocalOps.see, at2. unfold slot_eqb in H. rewrite H. reflexivity. Qed.
    Lemma proj_ins_cons K E x h : blvl (fst x) (snd x) < L ->
      proj s (ins d K E (x :: h)) = (if g x && negb (E (fst x) (snd x)) then [(tagof K x, cl s)] else []) ++ proj s (ins d (bump K x) (see d E x) h).
    Proof.
      intros Hx. cbn [LocalOps.ins]. unfold in1. rewrite proj_cons_if. f_equal. rewrite <- (pair_match o P HV HP0 HP x s d Hx Hs Hd).
      destruct (rflag (fst x) (snd x) d); [|reflexivity]. cbn [andb]. destruct (src x d =? s) eqn:E1; [|rewrite andb_false_r; reflexivity].
      apply Nat.eqb_eq in E1. rewrite E1, andb_true_r. reflexivity.
    Qed.
    (** the sender has left: nothing is expected *)
    Lemma ins_gone h : okslots h -> forall K E, (forall x, In x h -> g x = true -> E (fst x) (snd x) = true) -> proj s (ins d K E h) = [].
    Proof.
      induction h as [|x h IH]; intros Hok K E HE; [reflexivity|]. apply okslots_cons in Hok. destruct Hok as [Hx Hok].
      rewrite proj_ins_cons by auto. rewrite (IH Hok).
      - rewrite app_nil_r. destruct (g x) eqn:G; [|reflexivity]. rewrite (HE x (or_introl eq_refl) G). reflexivity.
      - intros y Hy Gy. destruct (slot_eqb y x) eqn:Y.
        + apply slot_eqb_eq in Y. subst y. rewrite see_x, (HE x (or_introl eq_refl) Gy). reflexivity.
        + apply slot_eqb_neq in Y. rewrite see_y by auto. apply HE; [right; auto|auto].
    Qed.
    (** the sender goes on: everything is expected *)
    Lemma ins_running h : okslots h -> cl s = false -> forall K E, (forall x, In x h -> g x = true -> E (fst x) (snd x) = false) ->
      proj s (ins d K E h) = occ false g K h.
    Proof.
      intros Hok Hc. induction h as [|x h IH]; intros K E HE; [reflexivity|]. apply okslots_cons in Hok. destruct Hok as [Hx Hok].
      rewrite proj_ins_cons by auto. rewrite (IH Hok).
      - cbn [occ]. f_equal. destruct (g x) eqn:G; [|reflexivity]. rewrite (HE x (or_introl eq_refl) G), Hc. reflexivity.
      - intros y Hy Gy. destruct (slot_eqb y x) eqn:Y.
        + apply slot_eqb_eq in Y. subst y. rewrite see_x, (HE x (or_introl eq_refl) Gy), (g_src x Hx Gy), Hc. reflexivity.
        + apply slot_eqb_neq in Y. rewrite see_y by auto. apply HE; [right; auto|auto].
    Qed.
    (** the sender has finished: the first message of every kind *)
    Lemma ins_clean h : okslots h -> cl s = true -> forall K E,
      proj s (ins d K E h) = map (fun x => (tagof K x, true)) (filter (fun x => g x && negb (E (fst x) (snd x))) (firsts h)).
    Proof.
      intros Hok Hc. induction h as [|x h IH]; intros K E; [reflexivity|]. apply okslots_cons in Hok. destruct Hok as [Hx Hok].
      rewrite proj_ins_cons by auto. rewrite (IH Hok). cbn [firsts filter]. rewrite filter_filter.
      assert (X : map (fun y => (tagof (bump K x) y, true)) (filter (fun y => g y && negb (see d E x (fst y) (snd y))) (firsts h)) =
                  map (fun y => (tagof K y, true)) (filter (fun y => negb (slot_eqb y x) && (g y && negb (E (fst y) (snd y)))) (firsts h))).
      { erewrite filter_ext_in.
        - apply map_ext_in. intros y Hy. apply filter_In in Hy. destruct Hy as [_ Hy]. apply andb_prop in Hy. destruct Hy as [Hy _].
          apply negb_true_iff in Hy. unfold tagof. rewrite bump_other; [reflexivity|]. exact Hy.
        - intros y Hy. cbv beta. destruct (slot_eqb y x) eqn:Y; cbn [negb andb].
          + apply slot_eqb_eq in Y. subst y. rewrite see_x. destruct (g x) eqn:G; [|reflexivity]. rewrite (g_src x Hx G), Hc, orb_true_r. reflexivity.
          + apply slot_eqb_neq in Y. rewrite see_y by auto. reflexivity. }
      rewrite X. rewrite Hc. destruct (g x && negb (E (fst x) (snd x))); reflexivity.
    Qed.
  End Recv.

  (** ** What a pass and clean_up exchange *)
  Definition lvl_slots (l : nat) : list slot := [(l, 0); (l, 1); (l, 2); (l, 3); (l, 4)].
  Definition down_slots (n l : nat) : list slot := flat_map lvl_slots (seq l n) ++ [(l + n, 5)].
  Definition clean_slots : list slot := down_slots (L - 1) 0 ++ [(0, 7)].
  Definition pass_slots (it : nat) : list slot := it_slots o (L - 1) 0 (cycF o) it true ++ [(0, 7)].

  Lemma down_slots_S n l : down_slots (S n) l = lvl_slots l ++ down_slots n (S l).
  Proof. unfold down_slots. cbn [seq flat_map]. rewrite <- app_assoc. replace (l + S n) with (S l + n) by lia. reflexivity. Qed.
  Lemma down_slots_in n : forall l x, In x (down_slots n l) <-> (l <= fst x < l + n /\ snd x < 5) \/ x = (l + n, 5).
  Proof.
    intros l x. unfold down_slots. rewrite in_app_iff, in_flat_map. split.
    - intros [(k & H1 & H2)|[<-|[]]]; [|right; reflexivity]. left. apply in_seq in H1. unfold lvl_slots in H2. simpl in H2.
      repeat destruct H2 as [<-|H2]; simpl; lia.
    - intros [[H1 H2]| ->]; [left|right; left; reflexivity]. exists (fst x). split; [apply in_seq; lia|]. destruct x as [a b]. simpl in *.
      do 5 (destruct b as [|b]; [tauto|]). lia.
  Qed.
  Lemma down_slots_nodup n : forall l, NoDup (down_slots n l).
  Proof.
    induction n as [|n IH]; intros l.
    - unfold down_slots. simpl. repeat constructor; auto.
    - rewrite down_slots_S. apply nodup_app.
      + unfold lvl_slots. repeat constructor; simpl; intuition congruence.
      + apply IH.
      + intros x H1 H2. apply down_slots_in in H2. unfold lvl_slots in H1. simpl in H1.
        assert (fst x = l) by (clear - H1; intuition (subst; reflexivity)). destruct H2 as [H2| ->]; simpl in *; lia.
  Qed.
  Lemma clean_nodup : NoDup clean_slots.
  Proof.
    unfold clean_slots. apply nodup_app; [apply down_slots_nodup|repeat constructor; auto|].
    intros x H1 [<-|[]]. apply down_slots_in in H1. simpl in H1. destruct H1 as [H1|[=]]; lia.
  Qed.
  Lemma it_slots_in n : forall l cyc it ff x, In x (it_slots o n l cyc it ff) -> In x (down_slots n l).
  Proof.
    induction n as [|n IH]; intros l cyc it ff x H.
    - unfold down_slots. simpl in *. rewrite Nat.add_0_r. exact H.
    - rewrite down_slots_S. apply in_or_app. cbn [it_slots] in H. cbv zeta in H.
      assert (Half : forall c f, In x ((if ((0 <? l) || (it =? 0)) && f then [(l, 0); (l, 1)] else []) ++
          concat (repeat [(l, 2); (l, 0); (l, 1)] (cf_count o l)) ++ [(l, 3); (l, 4)] ++ it_slots o n (S l) c it true ++ [(l, 0); (l, 1)]) ->
          In x (lvl_slots l) \/ In x (down_slots n (S l))).
      { intros c f G. apply in_app_or in G. destruct G as [G|G].
        - destruct (_ && f); [left|destruct G]. unfold lvl_slots. simpl in *. tauto.
        - apply in_app_or in G. destruct G as [G|G].
          + apply in_concat in G. destruct G as (y & G1 & G2). apply repeat_spec in G1. subst y. left. unfold lvl_slots. simpl in *. tauto.
          + apply in_app_or in G. destruct G as [G|G]; [left; unfold lvl_slots; simpl in *; tauto|].
            apply in_app_or in G. destruct G as [G|G]; [right; eapply IH; eauto|left; unfold lvl_slots; simpl in *; tauto]. }
      apply in_app_or in H. destruct H as [H|H]; [eapply Half; eauto|]. destruct (_ && cyc); [eapply Half; eauto|destruct H].
  Qed.

  Lemma it_slots_all n : (forall l, l < L - 1 -> 1 <= cf_count o l) -> forall l cyc it ff x, l + n = L - 1 ->
    In x (down_slots n l) -> In x (it_slots o n l cyc it ff).
  Proof.
    intros Hcf. induction n as [|n IH]; intros l cyc it ff x Hl H.
    - unfold down_slots in H. simpl in *. rewrite Nat.add_0_r in H. exact H.
    - rewrite down_slots_S in H. cbn [it_slots]. cbv zeta. apply in_or_app. left. apply in_or_app. right.
      pose proof (Hcf l ltac:(lia)) as Hc. destruct (cf_count o l) as [|m]; [lia|]. simpl concat. apply in_app_or in H. destruct H as [H|H].
      + unfold lvl_slots in H. simpl in *. rewrite ?in_app_iff. simpl. tauto.
      + simpl. rewrite ?in_app_iff. simpl. do 3 right. right. do 2 right. rewrite in_app_iff. left. apply IH; auto. lia.
  Qed.

  (** Some order of the kinds of one level; the boundary between two processes is of one type. *)
  Definition exclusive (g : slot -> bool) : Prop :=
    forall l, (g (l, 2) = true -> g (l, 0) = false /\ g (l, 1) = false).
  Lemma pair_exclusive s d : exclusive (pair_on s d).
  Proof.
    intros l. unfold LocalOps.pair_on, Sim.sflag. cbn [fst snd]. change (blvl l 0) with l. change (blvl l 1) with l. change (blvl l 2) with l.
    unfold cnd, isF. destruct (isC grids l (lo grids P l (S s))); cbn [negb]; rewrite ?andb_false_r, ?andb_false_l; [auto|discriminate].
  Qed.
  Lemma filter_firsts g n : exclusive g -> (forall l, l < L - 1 -> 1 <= cf_count o l) -> forall l cyc it ff, l + n = L - 1 -> ff = true ->
    filter g (firsts (it_slots o n l cyc it ff)) = filter g (down_slots n l).
  Proof.
    intros Hg Hcf. induction n as [|n IH]; intros l cyc it ff Hl ->.
    - unfold down_slots. simpl. rewrite Nat.add_0_r. reflexivity.
    - rewrite down_slots_S, filter_app, <- (IH (S l) cyc it true) by (auto; lia). cbn [it_slots]. cbv zeta.
      set (pre := if ((0 <? l) || (it =? 0)) && true then [(l, 0); (l, 1)] else []).
      set (B := [(l, 2); (l, 0); (l, 1)]). set (Y := it_slots o n (S l) cyc it true).
      pose proof (Hcf l ltac:(lia)) as Hc. destruct (cf_count o l) as [|m] eqn:Ecf; [lia|]. clear Hc.
      set (half := pre ++ concat (repeat B (S m)) ++ [(l, 3); (l, 4)] ++ Y ++ [(l, 0); (l, 1)]).
      assert (InB : incl [(l, 0); (l, 1)] half).
      { intros x Hx. unfold half. apply in_or_app. right. apply in_or_app. left. simpl. simpl in Hx. tauto. }
      assert (Sec : firsts (half ++ (if negb (l =? 0) && cyc then (if ((0 <? l) || (it =? 0)) && false then [(l, 0); (l, 1)] else []) ++
                 concat (repeat B (S m)) ++ [(l, 3); (l, 4)] ++ it_slots o n (S l) false it true ++ [(l, 0); (l, 1)] else [])) = firsts half).
      { apply firsts_sub. destruct (negb (l =? 0) && cyc) eqn:Ec; [|intros x []]. rewrite andb_false_r, app_nil_l. intros x Hx. unfold half.
        apply in_or_app. right. apply in_app_or in Hx. destruct Hx as [Hx|Hx]; [apply in_or_app; auto|]. apply in_or_app. right.
        apply in_app_or in Hx. destruct Hx as [Hx|Hx]; [apply in_or_app; auto|]. apply in_or_app. right.
        apply in_app_or in Hx. destruct Hx as [Hx|Hx]; [|apply in_or_app; auto]. apply in_or_app. left.
        (* the second descent uses the same kinds *)
        unfold Y. apply it_slots_all; auto; [lia|]. apply it_slots_in in Hx. exact Hx. }
      rewrite Sec. unfold half.
      replace (pre ++ concat (repeat B (S m)) ++ [(l, 3); (l, 4)] ++ Y ++ [(l, 0); (l, 1)])
        with (((pre ++ concat (repeat B (S m)) ++ [(l, 3); (l, 4)]) ++ Y) ++ [(l, 0); (l, 1)]) by (rewrite <- !app_assoc; reflexivity).
      rewrite firsts_sub.
      2:{ intros x Hx. apply in_or_app. left. apply in_or_app. right. apply in_or_app. left. simpl. simpl in Hx. tauto. }
      rewrite firsts_disj, filter_app.
      2:{ intros x H1 H2. apply it_slots_in in H2. apply down_slots_in in H2.
          assert (fst x = l).
          { clear - H1. apply in_app_or in H1. destruct H1 as [H1|H1].
            - unfold pre in H1. destruct (_ && true); simpl in H1; intuition (subst; reflexivity).
            - apply in_app_or in H1. destruct H1 as [H1|H1].
              + apply in_concat in H1. destruct H1 as (y & G1 & G2). apply repeat_spec in G1. subst y. simpl in G2. intuition (subst; reflexivity).
              + simpl in H1; intuition (subst; reflexivity). }
          destruct H2 as [H2| ->]; simpl in *; lia. }
      f_equal. rewrite app_assoc, firsts_disj.
      2:{ intros x H1 H2. apply in_app_or in H1. assert (snd x = 3 \/ snd x = 4) by (simpl in H2; intuition (subst; simpl; auto)).
          destruct H1 as [H1|H1].
          - unfold pre in H1. destruct (_ && true); simpl in H1; intuition (subst; simpl in *; lia).
          - apply in_concat in H1. destruct H1 as (y & G1 & G2). apply repeat_spec in G1. subst y. simpl in G2. intuition (subst; simpl in *; lia). }
      assert (Fp : filter g (firsts (pre ++ concat (repeat B (S m)))) = filter g [(l, 0); (l, 1); (l, 2)]).
      { rewrite firsts_app, firsts_repeat. unfold pre, B. destruct (((0 <? l) || (it =? 0)) && true).
        - cbn [firsts filter]. rewrite !slot_same. cbn [Nat.eqb negb filter]. rewrite ?slot_same. cbn [Nat.eqb negb filter mem existsb app]. rewrite ?slot_same. cbn [Nat.eqb orb negb filter mem existsb app]. reflexivity.
        - cbn [firsts filter]. rewrite !slot_same. cbn [Nat.eqb negb filter]. rewrite ?slot_same. cbn [Nat.eqb negb filter mem existsb app]. rewrite ?slot_same. cbn [Nat.eqb orb negb filter mem existsb app].
          destruct (g (l, 2)) eqn:G2; [destruct (Hg l G2) as [-> ->]; reflexivity|]. destruct (g (l, 0)), (g (l, 1)); reflexivity. }
      rewrite filter_app, Fp. unfold lvl_slots. change [(l, 0); (l, 1); (l, 2); (l, 3); (l, 4)] with ([(l, 0); (l, 1); (l, 2)] ++ [(l, 3); (l, 4)]).
      rewrite filter_app. f_equal. rewrite firsts_nodup; [reflexivity|]. repeat constructor; simpl; intuition congruence.
  Qed.
End Match.
