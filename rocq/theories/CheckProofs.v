(** What the input checks of the constructor guarantee. *)
From Coq Require Import List ZArith Lia Arith Bool.
From Verif Require Import Net PyList Setup Mgrit ListFacts.
Import ListNotations.

Lemma inter_size_iff a b : inter_size a b = length b <-> NoDup b /\ incl b a.
Proof.
  unfold inter_size. pose proof (NoDup_nodup Z.eq_dec b) as ND. split.
  - intros H.
    assert (L1 : length (filter (fun t => memz t a) (nodup Z.eq_dec b)) <= length (nodup Z.eq_dec b)).
    { clear. induction (nodup Z.eq_dec b) as [|x l IH]; simpl; [lia|]. destruct (memz x a); simpl; lia. }
    assert (L2 : length (nodup Z.eq_dec b) <= length b).
    { apply NoDup_incl_length; auto. intros x Hx. apply nodup_In in Hx. auto. }
    split.
    + apply (NoDup_incl_NoDup ND); [lia|]. intros x Hx. apply nodup_In in Hx. auto.
    + assert (F : length (filter (fun t => memz t a) (nodup Z.eq_dec b)) = length (nodup Z.eq_dec b)) by lia.
      intros x Hx. apply (nodup_In Z.eq_dec) in Hx. apply memz_in.
      clear - F Hx. induction (nodup Z.eq_dec b) as [|y l IH]; [contradiction|]. simpl in F.
      destruct (memz y a) eqn:E.
      * simpl in F. destruct Hx as [<-|Hx]; [auto|]. apply IH; auto.
      * exfalso. assert (length (filter (fun t => memz t a) l) <= length l).
        { clear. induction l as [|x l IH]; simpl; [lia|]. destruct (memz x a); simpl; lia. }
        simpl in F. lia.
  - intros [H1 H2]. rewrite (nodup_fixed_point Z.eq_dec H1). f_equal.
    clear - H2. induction b as [|x b IH]; [reflexivity|]. simpl.
    assert (M : memz x a = true) by (apply memz_in; apply H2; left; auto). rewrite M. f_equal. apply IH. intros y Hy. apply H2. right. auto.
Qed.

Lemma check_iff {A : App} (o : Opts A) P : check o P = None <->
  length (o_grids o) = o_ntransfer o + 1 /\
  (forall l, S l < length (o_grids o) ->
     length (nth (S l) (o_grids o) []) <= length (nth l (o_grids o) []) /\
     NoDup (nth (S l) (o_grids o) []) /\ incl (nth (S l) (o_grids o) []) (nth l (o_grids o) [])) /\
  o_cycle o <> None /\ (0 <= o_output_lvl o <= 2)%Z /\ (1 <= o_t_norm o <= 3)%Z /\ (0 <= o_conv_crit o <= 3)%Z /\
  match o_cf o with CfInt _ => True | CfList l => length (o_grids o) <= length l + 1 | CfOther => False end /\
  P <= length (nth 0 (o_grids o) []) /\ (o_dist o <> None -> (o_conv_crit o <= 1)%Z).
Proof.
  unfold check. set (gs := o_grids o). split.
  - destruct (match o_dist o with Some _ => _ | None => _ end) eqn:E0; [discriminate|].
    assert (E0' : o_dist o <> None -> (o_conv_crit o <= 1)%Z).
    { destruct (o_dist o); [|congruence]. intros _. apply negb_false_iff, memz_in in E0. simpl in E0. lia. } clear E0.
    destruct (length gs =? o_ntransfer o + 1) eqn:E1; [|discriminate]. cbn [negb]. apply Nat.eqb_eq in E1.
    destruct (existsb _ (seq 0 (length gs - 1))) eqn:E2; [discriminate|].
    destruct (o_cycle o) eqn:E3; [|discriminate].
    destruct (memz (o_output_lvl o) _) eqn:E4; [|discriminate]. cbn [negb].
    destruct (existsb _ (seq 1 (length gs - 1))) eqn:E5; [discriminate|].
    destruct (memz (o_t_norm o) _) eqn:E6; [|discriminate]. cbn [negb].
    destruct (memz (o_conv_crit o) _) eqn:E7; [|discriminate]. cbn [negb]. intros H.
    split; [auto|]. split.
    { intros l Hl.
      assert (X2 : forall i, In i (seq 0 (length gs - 1)) -> (length (nth i gs []) <? length (nth (i + 1) gs [])) = false).
      { intros i Hi. destruct (length (nth i gs []) <? length (nth (i + 1) gs [])) eqn:X; [|reflexivity].
        assert (existsb (fun i => length (nth i gs []) <? length (nth (i + 1) gs [])) (seq 0 (length gs - 1)) = true) by (apply existsb_exists; eauto).
        congruence. }
      assert (X5 : forall i, In i (seq 1 (length gs - 1)) -> negb (inter_size (nth (i - 1) gs []) (nth i gs []) =? length (nth i gs [])) = false).
      { intros i Hi. destruct (negb (inter_size (nth (i - 1) gs []) (nth i gs []) =? length (nth i gs []))) eqn:X; [|reflexivity].
        assert (existsb (fun l => negb (inter_size (nth (l - 1) gs []) (nth l gs []) =? length (nth l gs []))) (seq 1 (length gs - 1)) = true)
          by (apply existsb_exists; eauto). congruence. }
      specialize (X2 l ltac:(apply in_seq; lia)). specialize (X5 (S l) ltac:(apply in_seq; lia)).
      apply Nat.ltb_ge in X2. rewrite Nat.add_1_r in X2. split; [exact X2|].
      rewrite negb_false_iff in X5. apply Nat.eqb_eq in X5. apply inter_size_iff in X5. replace (S l - 1) with l in X5 by lia. exact X5. }
    split; [discriminate|]. apply memz_in in E4, E6, E7. simpl in E4, E6, E7.
    split; [lia|]. split; [lia|]. split; [lia|].
    destruct (o_cf o) as [z|l|]; [| |discriminate].
    + split; [exact I|]. destruct (_ <? P) eqn:X in H; [discriminate|]. apply Nat.ltb_ge in X. split; [exact X|exact E0'].
    + destruct (length l <? length gs - 1) eqn:X in H; [discriminate|]. apply Nat.ltb_ge in X. split; [lia|].
      destruct (_ <? P) eqn:Y in H; [discriminate|]. apply Nat.ltb_ge in Y. split; [exact Y|exact E0'].
  - intros (H1 & H2 & H3 & H4 & H5 & H6 & H7 & H8 & H9).
    replace (match o_dist o with Some _ => _ | None => _ end) with false.
    2:{ destruct (o_dist o); [|reflexivity]. symmetry. apply negb_false_iff, memz_in. specialize (H9 ltac:(discriminate)). simpl. lia. }
    replace (length gs =? o_ntransfer o + 1) with true by (symmetry; apply Nat.eqb_eq; auto).
    cbn [negb]. destruct (existsb _ (seq 0 (length gs - 1))) eqn:E2.
    { apply existsb_exists in E2. destruct E2 as (i & Hi & X). apply in_seq in Hi. apply Nat.ltb_lt in X.
      destruct (H2 i ltac:(lia)) as [Y _]. rewrite Nat.add_1_r in X. lia. }
    destruct (o_cycle o); [|congruence].
    assert (M : forall x l, In x l -> memz x l = true) by (intros; apply memz_in; auto).
    rewrite (M (o_output_lvl o)) by (simpl; lia). cbn [negb].
    destruct (existsb _ (seq 1 (length gs - 1))) eqn:E5.
    { apply existsb_exists in E5. destruct E5 as (i & Hi & X). apply in_seq in Hi. rewrite negb_true_iff in X. apply Nat.eqb_neq in X.
      destruct (H2 (i - 1) ltac:(lia)) as [_ Y]. replace (S (i - 1)) with i in Y by lia. apply inter_size_iff in Y. contradiction. }
    rewrite (M (o_t_norm o)) by (simpl; lia). rewrite (M (o_conv_crit o)) by (simpl; lia). cbn [negb].
    replace (length (nth 0 gs []) <? P) with false by (symmetry; apply Nat.ltb_ge; auto).
    destruct (o_cf o) as [z|l|]; [reflexivity| |contradiction].
    replace (length l <? length gs - 1) with false by (symmetry; apply Nat.ltb_ge; lia). reflexivity.
Qed.
