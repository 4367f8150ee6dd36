(** A small concrete application over the integers, used in the Examples: u' = 2u + forcing with exact arithmetic. *)
From Coq Require Import List ZArith Lia Arith Bool Sorted.
From Verif Require Import Net PyList Setup Spec Mgrit Reference Main OrderProofs.
Import ListNotations.

(** Vectors, data and scalars are integers; step doubles the value, adds the step size and the level. *)
Definition zapp : App := mkApp Z Z Z Z.add Z.sub Z.mul Z.abs (fun x => x) (fun _ => 0%Z) (fun x => x) (fun _ d => d)
  (fun l x a b => (2 * x + b - a + Z.of_nat l)%Z) (fun _ x => x) (fun _ x => x) (fun _ => 0%Z) (fun _ => 1%Z)
  (fun l => Some (fold_left Z.max l 0%Z)) Z.ltb 0%Z (Z.eqb 0) (fun x => (1 - x)%Z).

Lemma zapp_laws : app_laws zapp (fun _ _ => True).
Proof. constructor; simpl; auto; intros; discriminate. Qed.

(** 0, s, 2s, ... (n times) *)
Definition grid_of (n s : nat) : list Z := map (fun k => Z.of_nat (k * s)) (seq 0 n).

(** Three levels (17, 9 and 3 points: coarsening 2 and 4), F-cycle, nested iteration, output after every iteration. *)
Definition zopts3 (crit : Z) (max_iter : nat) : Opts zapp :=
  mkOpts zapp [grid_of 17 1; grid_of 9 2; grid_of 3 8] 2 (1%Z : Sc zapp) max_iter (1%Z : Sc zapp) true (CfInt 1) (Some true) 2
    true 1 None crit ascending_order.

(** Boolean form of the hypotheses on grids. *)
Fixpoint sortedb (l : list Z) : bool :=
  match l with a :: ((b :: _) as l') => (a <? b)%Z && sortedb l' | _ => true end.
Lemma sortedb_ok l : sortedb l = true -> StronglySorted Z.lt l.
Proof.
  intros H. apply Sorted_StronglySorted; [intros x y z; lia|]. induction l as [|a l IH]; [constructor|].
  destruct l as [|b l]; [repeat constructor|]. simpl in H. apply andb_true_iff in H. destruct H as [H1 H2].
  constructor; [apply IH; exact H2|]. constructor. apply Z.ltb_lt. exact H1.
Qed.
Definition valid_hierarchyb (gs : list (list Z)) : bool :=
  negb (length gs =? 0) &&
  forallb (fun l => sortedb (nth l gs []) && negb (length (nth l gs []) =? 0)) (seq 0 (length gs)) &&
  forallb (fun l => forallb (fun t => memz t (nth l gs [])) (nth (S l) gs []) &&
                    Z.eqb (hd 0%Z (nth (S l) gs [])) (hd 0%Z (nth l gs [])) && (2 <=? length (nth (S l) gs [])))
          (seq 0 (length gs - 1)).
Definition no_adjacentb (gs : list (list Z)) : bool :=
  forallb (fun l => forallb (fun i => negb (memz (nth i (nth l gs []) 0%Z) (nth (S l) gs []) &&
                                            memz (nth (S i) (nth l gs []) 0%Z) (nth (S l) gs [])))
                            (seq 0 (length (nth l gs []) - 1))) (seq 0 (length gs - 1)).
Lemma valid_hierarchyb_ok gs : valid_hierarchyb gs = true -> valid_hierarchy gs.
Proof.
  intros H. unfold valid_hierarchyb in H. apply andb_true_iff in H. destruct H as [H H3].
  apply andb_true_iff in H. destruct H as [H1 H2]. rewrite forallb_forall in H2, H3. split; [|split].
  - intros ->. discriminate.
  - intros l Hl. specialize (H2 l ltac:(apply in_seq; lia)). apply andb_true_iff in H2. destruct H2 as [A B].
    split; [apply sortedb_ok; auto|]. intros E. rewrite E in B. discriminate.
  - intros l Hl. pose proof (H2 l ltac:(apply in_seq; lia)) as X. pose proof (H2 (S l) ltac:(apply in_seq; lia)) as Y.
    specialize (H3 l ltac:(apply in_seq; lia)). rewrite !andb_true_iff in *. destruct H3 as [[A B] C].
    split; [|split].
    + intros t Ht. rewrite forallb_forall in A. specialize (A t Ht). apply existsb_exists in A. destruct A as (u & Hu & E).
      apply Z.eqb_eq in E. subst. exact Hu.
    + destruct (nth (S l) gs []); [destruct Y; discriminate|]. destruct (nth l gs []); [destruct X; discriminate|].
      simpl in *. apply Z.eqb_eq in B. congruence.
    + apply Nat.leb_le in C. exact C.
Qed.
Lemma no_adjacentb_ok gs : no_adjacentb gs = true -> no_adjacent_cpoints gs.
Proof.
  intros H l i Hl Hi A B. unfold no_adjacentb in H. rewrite forallb_forall in H. specialize (H l ltac:(apply in_seq; lia)).
  rewrite forallb_forall in H. specialize (H i ltac:(apply in_seq; lia)).
  assert (M : forall t l, In t l -> memz t l = true).
  { intros t l0 X. apply existsb_exists. exists t. split; [auto|apply Z.eqb_refl]. }
  rewrite (M _ _ A), (M _ _ B) in H. discriminate.
Qed.

Lemma zopts3_good crit max_iter P : (crit = 0 \/ crit = 1)%Z -> 0 < P -> P <= 17 -> good_setup (fun _ _ => True) (zopts3 crit max_iter) P.
Proof.
  intros Hc HP HP'. constructor.
  - apply zapp_laws.
  - apply valid_hierarchyb_ok. reflexivity.
  - apply no_adjacentb_ok. reflexivity.
  - simpl. lia.
  - exact HP.
  - unfold check. simpl. replace (17 <? P) with false by (symmetry; apply Nat.ltb_ge; lia).
    destruct Hc as [-> | ->]; reflexivity.
  - exact Hc.
  - apply ascending_order_ok.
  - discriminate.
  - discriminate.
Qed.

(** One level. *)
Definition zopts1 (max_iter : nat) : Opts zapp :=
  mkOpts zapp [grid_of 7 1] 0 (1%Z : Sc zapp) max_iter (1%Z : Sc zapp) false (CfInt 1) (Some false) 1 true 2 None 0 ascending_order.
Lemma zopts1_good max_iter P : 0 < P -> P <= 7 -> good_setup (fun _ _ => True) (zopts1 max_iter) P.
Proof.
  intros HP HP'. constructor.
  - apply zapp_laws.
  - apply valid_hierarchyb_ok. reflexivity.
  - apply no_adjacentb_ok. reflexivity.
  - simpl. lia.
  - exact HP.
  - unfold check. simpl. replace (7 <? P) with false by (symmetry; apply Nat.ltb_ge; lia). reflexivity.
  - left; reflexivity.
  - apply ascending_order_ok.
  - discriminate.
  - discriminate.
Qed.
