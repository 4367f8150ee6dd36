(** Executing a whole phase of the network: every rank runs a finite piece of its program whose messages match. *)
From Coq Require Import List ZArith Lia Arith Bool.
From Verif Require Import Net NetProofs NetFifo PyList ListFacts.
Import ListNotations.

Section Local.
  Context {Msg : Type}.

  (** [lrun p ins outs a]: run alone, [p] returns [a], consuming the messages [ins] and emitting [outs]. *)
  Inductive lrun {A : Type} : prog Msg A -> list (nat * mtag * Msg) -> list (nat * mtag * Msg) -> A -> Prop :=
  | lr_ret a : lrun (Ret a) [] [] a
  | lr_send d t m k ins outs a : lrun k ins outs a -> lrun (Send d t m k) ins ((d, t, m) :: outs) a
  | lr_recv s t m k ins outs a : lrun (k m) ins outs a -> lrun (Recv s t k) ((s, t, m) :: ins) outs a.

  Lemma lrun_bind {A B} (p : prog Msg A) (f : A -> prog Msg B) i1 o1 a i2 o2 b :
    lrun p i1 o1 a -> lrun (f a) i2 o2 b -> lrun (bind p f) (i1 ++ i2) (o1 ++ o2) b.
  Proof. intros H1 H2. induction H1; simpl; auto; constructor; auto. Qed.

  (** Programs equal up to extensionality of continuations. *)
  Inductive peq {A : Type} : prog Msg A -> prog Msg A -> Prop :=
  | pe_ret a : peq (Ret a) (Ret a)
  | pe_raise e : peq (Raise e) (Raise e)
  | pe_send d t m k k' : peq k k' -> peq (Send d t m k) (Send d t m k')
  | pe_recv s t k k' : (forall m, peq (k m) (k' m)) -> peq (Recv s t k) (Recv s t k')
  | pe_wait k k' : peq k k' -> peq (WaitAll k) (WaitAll k').

  Lemma peq_refl {A} (p : prog Msg A) : peq p p.
  Proof. induction p; constructor; auto. Qed.
  Lemma peq_trans {A} (p q r : prog Msg A) : peq p q -> peq q r -> peq p r.
  Proof.
    intros H. revert r. induction H; intros r' H'; inversion H'; subst; constructor; auto.
  Qed.
  Lemma peq_sym {A} (p q : prog Msg A) : peq p q -> peq q p.
  Proof. intros H. induction H; constructor; auto. Qed.
  Lemma bind_assoc {A B C} (p : prog Msg A) (f : A -> prog Msg B) (g : B -> prog Msg C) :
    peq (bind (bind p f) g) (bind p (fun a => bind (f a) g)).
  Proof. induction p; simpl; try constructor; auto. apply peq_refl. Qed.
  Lemma bind_ret {A} (p : prog Msg A) : peq (bind p Ret) p.
  Proof. induction p; simpl; constructor; auto. Qed.
  Lemma bind_peq {A B} (p : prog Msg A) (f g : A -> prog Msg B) :
    (forall a, peq (f a) (g a)) -> peq (bind p f) (bind p g).
  Proof. intros H. induction p; simpl; try constructor; auto. Qed.
  Lemma bind_peq_l {A B} (p q : prog Msg A) (f : A -> prog Msg B) : peq p q -> peq (bind p f) (bind q f).
  Proof. intros H. induction H; simpl; try constructor; auto. apply peq_refl. Qed.

  (** messages of a trace for one partner *)
  Definition msgs_of (q : nat) (l : list (nat * mtag * Msg)) : list (mtag * Msg) :=
    map (fun x => (snd (fst x), snd x)) (filter (fun x => fst (fst x) =? q) l).

  Lemma msgs_of_cons q s t m l :
    msgs_of q ((s, t, m) :: l) = if s =? q then (t, m) :: msgs_of q l else msgs_of q l.
  Proof. unfold msgs_of. simpl. destruct (s =? q); reflexivity. Qed.
  Lemma msgs_of_app q l1 l2 : msgs_of q (l1 ++ l2) = msgs_of q l1 ++ msgs_of q l2.
  Proof. unfold msgs_of. rewrite filter_app, map_app. reflexivity. Qed.
  Lemma msgs_of_none q l : (forall x, In x l -> fst (fst x) <> q) -> msgs_of q l = [].
  Proof.
    intros H. induction l as [|x l IH]; [reflexivity|]. destruct x as [[s t] m]. rewrite msgs_of_cons.
    destruct (s =? q) eqn:E.
    - apply Nat.eqb_eq in E. exfalso. apply (H (s, t, m)); [left; auto|auto].
    - apply IH. intros y Hy. apply H. right; auto.
  Qed.
End Local.

Section Phase.
  Context {Msg B : Type}.
  Variable P : nat.
  Notation config := (config Msg B).

  (** One rank runs its piece, all its inputs being in the queues. *)
  Lemma exec_rank {A} (p : prog Msg A) ins outs a (k : A -> prog Msg B) r :
    lrun p ins outs a -> r < P ->
    (forall x, In x ins -> fst (fst x) <> r) -> (forall x, In x outs -> fst (fst x) <> r) ->
    forall (c : config) rest, peq (procs c r) (bind p k) ->
    (forall s, chan c s r = msgs_of s ins ++ rest s) ->
    exists n c', fsteps P n c c' /\ peq (procs c' r) (k a) /\ (forall q, q <> r -> procs c' q = procs c q) /\
      (forall s d, chan c' s d = if d =? r then rest s else if s =? r then chan c s d ++ msgs_of d outs else chan c s d).
  Proof.
    intros H Hr. induction H as [a|d t m p ins outs a H IH|s t m p ins outs a H IH]; intros Hi Ho c rest Hp Hc.
    - simpl in Hp. exists 0, c. split; [apply fsteps_id|]. split; [exact Hp|]. split; [auto|].
      intros s d. destruct (d =? r) eqn:E.
      + apply Nat.eqb_eq in E. subst. rewrite Hc. reflexivity.
      + destruct (s =? r); [|reflexivity]. unfold msgs_of. simpl. rewrite app_nil_r. reflexivity.
    - simpl in Hp. inversion Hp as [| |? ? ? k0 ? Hk E1| |]; subst.
      assert (Hd : d <> r) by (apply (Ho (d, t, m)); left; auto).
      set (c1 := mkConfig (upd1 (procs c) r k0) (upd2 (chan c) r d (chan c r d ++ [(t, m)])) : config).
      assert (S1 : step P r c c1).
      { split; [auto|]. rewrite <- E1. split; [intros q; reflexivity|]. intros s d'. unfold c1, upd2; simpl.
        destruct ((s =? r) && (d' =? d)) eqn:E; [|reflexivity].
        apply andb_prop in E. destruct E as [E2 E3]. apply Nat.eqb_eq in E2, E3. subst. reflexivity. }
      destruct (IH Hi (fun x Hx => Ho x (or_intror Hx)) c1 rest) as (n & c' & S2 & Hp' & Hq & Hch).
      + unfold c1, upd1; simpl. rewrite Nat.eqb_refl. exact Hk.
      + intros s. unfold c1, upd2; simpl. replace (r =? d) with false by (symmetry; apply Nat.eqb_neq; auto).
        rewrite andb_false_r. apply Hc.
      + exists (S n), c'. split; [apply (fs_step P r n c c1 c' S1); [unfold headed; rewrite <- E1; exact I|exact S2]|]. split; [exact Hp'|]. split.
        * intros q Hqr. rewrite Hq by auto. unfold c1, upd1; simpl.
          replace (q =? r) with false by (symmetry; apply Nat.eqb_neq; auto). reflexivity.
        * intros s d'. rewrite Hch. destruct (d' =? r) eqn:E2; [reflexivity|].
          unfold c1, upd2; simpl. rewrite msgs_of_cons. destruct (s =? r) eqn:E3; simpl; [|reflexivity].
          apply Nat.eqb_eq in E3. subst s. rewrite (Nat.eqb_sym d d'). destruct (d' =? d) eqn:E4; [|reflexivity].
          apply Nat.eqb_eq in E4. subst d'. rewrite <- app_assoc. reflexivity.
    - simpl in Hp. inversion Hp as [| | |? ? k0 ? Hk E1|]; subst.
      assert (Hs : s <> r) by (apply (Hi (s, t, m)); left; auto).
      set (c1 := mkConfig (upd1 (procs c) r (k0 m)) (upd2 (chan c) s r (msgs_of s ins ++ rest s)) : config).
      assert (S1 : step P r c c1).
      { split; [auto|]. rewrite <- E1. exists m, (msgs_of s ins ++ rest s). split.
        - rewrite Hc, msgs_of_cons, Nat.eqb_refl. simpl. rewrite Z.eqb_refl. reflexivity.
        - split; intros; reflexivity. }
      destruct (IH (fun x Hx => Hi x (or_intror Hx)) Ho c1 rest) as (n & c' & S2 & Hp' & Hq & Hch).
      + unfold c1, upd1; simpl. rewrite Nat.eqb_refl. apply Hk.
      + intros s'. unfold c1, upd2; simpl. rewrite Nat.eqb_refl, andb_true_r. destruct (s' =? s) eqn:E2.
        * apply Nat.eqb_eq in E2. subst. reflexivity.
        * rewrite Hc, msgs_of_cons. rewrite Nat.eqb_sym, E2. reflexivity.
      + exists (S n), c'. split; [apply (fs_step P r n c c1 c' S1); [unfold headed; rewrite <- E1; exists m, (msgs_of s ins ++ rest s); rewrite Hc, msgs_of_cons, Nat.eqb_refl; reflexivity|exact S2]|]. split; [exact Hp'|]. split.
        * intros q Hqr. rewrite Hq by auto. unfold c1, upd1; simpl.
          replace (q =? r) with false by (symmetry; apply Nat.eqb_neq; auto). reflexivity.
        * intros s' d'. rewrite Hch. destruct (d' =? r) eqn:E2; [reflexivity|].
          unfold c1, upd2; simpl. rewrite E2, andb_false_r. reflexivity.
  Qed.

  (** Ranks in the order [ord]: every input of a rank comes from a rank earlier in the order. *)
  Lemma exec_order {A} (p : nat -> prog Msg A) (ins outs : nat -> list (nat * mtag * Msg)) (a : nat -> A)
    (k : nat -> A -> prog Msg B) (ord : list nat) :
    (forall r, In r ord <-> r < P) -> NoDup ord ->
    (forall r, r < P -> lrun (p r) (ins r) (outs r) (a r)) ->
    (forall s d, s < P -> d < P -> msgs_of d (outs s) = msgs_of s (ins d)) ->
    (forall r x, r < P -> In x (outs r) -> fst (fst x) < P) ->
    (forall l1 r l2, ord = l1 ++ r :: l2 -> forall x, In x (ins r) -> In (fst (fst x)) l1) ->
    forall todo fin (c : config), ord = fin ++ todo ->
    (forall r, In r todo -> peq (procs c r) (bind (p r) (k r))) ->
    (forall r, In r fin -> peq (procs c r) (k r (a r))) ->
    (forall s d, chan c s d = if existsb (Nat.eqb s) fin && existsb (Nat.eqb d) todo then msgs_of d (outs s) else []) ->
    exists n c', fsteps P n c c' /\ (forall r, r < P -> peq (procs c' r) (k r (a r))) /\ (forall s d, chan c' s d = []).
  Proof.
    intros Hord Hnd Hrun Hmatch Hdst Hcaus.
    assert (EX : forall x l, existsb (Nat.eqb x) l = true <-> In x l).
    { intros x l. rewrite existsb_exists. split.
      - intros (y & Hy & E). apply Nat.eqb_eq in E. subst. auto.
      - intros H. exists x. split; [auto|apply Nat.eqb_refl]. }
    assert (NEX : forall x l, existsb (Nat.eqb x) l = false <-> ~ In x l).
    { intros x l. rewrite <- EX. destruct (existsb _ _); split; congruence. }
    assert (SELF : forall r x, r < P -> In x (ins r) -> fst (fst x) <> r).
    { intros r x Hr Hx E. assert (In r ord) as HI by (apply Hord; auto). apply in_split in HI. destruct HI as (l1 & l2 & E2).
      pose proof (Hcaus l1 r l2 E2 x Hx) as C. rewrite E in C. rewrite E2 in Hnd. apply NoDup_remove_2 in Hnd. apply Hnd.
      apply in_or_app. left; auto. }
    induction todo as [|r todo IH]; intros fin c Eo Htodo Hfin Hch.
    - exists 0, c. split; [apply fsteps_id|]. split.
      + intros r Hr. apply Hfin. apply Hord in Hr. rewrite Eo, app_nil_r in Hr. exact Hr.
      + intros s d. rewrite Hch. rewrite andb_false_r. reflexivity.
    - assert (Hr : r < P) by (apply Hord; rewrite Eo; apply in_or_app; right; left; auto).
      assert (Hfr : ~ In r fin /\ ~ In r todo).
      { rewrite Eo in Hnd. apply NoDup_remove_2 in Hnd. split; intros X; apply Hnd; apply in_or_app; auto. }
      destruct (exec_rank (p r) (ins r) (outs r) (a r) (k r) r (Hrun r Hr) Hr) with (c := c) (rest := fun _ : nat => @nil (mtag * Msg))
        as (n & c1 & S1 & Hp1 & Hq1 & Hc1).
      + intros x Hx. apply SELF; auto.
      + intros x Hx E. assert (X : msgs_of r (outs r) <> []).
        { intros Z. unfold msgs_of in Z. assert (In x (filter (fun x => fst (fst x) =? r) (outs r))) as Q.
          { apply filter_In. split; [auto|]. apply Nat.eqb_eq. auto. }
          destruct (filter _ _); [destruct Q|discriminate]. }
        apply X. rewrite Hmatch by auto. apply msgs_of_none. intros y Hy. apply SELF; auto.
      + apply Htodo. left; auto.
      + intros s. rewrite Hch, app_nil_r. simpl existsb. rewrite Nat.eqb_refl. simpl. rewrite andb_true_r.
        destruct (existsb (Nat.eqb s) fin) eqn:E.
        * apply EX in E. apply Hmatch; auto. apply Hord. rewrite Eo. apply in_or_app. auto.
        * symmetry. apply msgs_of_none. intros x Hx E2. apply NEX in E. apply E. rewrite <- E2.
          apply (Hcaus fin r todo Eo x Hx).
      + destruct (IH (fin ++ [r]) c1) as (m & c2 & S2 & Hp2 & Hc2).
        * rewrite <- app_assoc. exact Eo.
        * intros q Hq. rewrite Hq1 by (intros ->; tauto). apply Htodo. right; auto.
        * intros q Hq. apply in_app_or in Hq. destruct Hq as [Hq|[<-|[]]]; [|exact Hp1].
          rewrite Hq1 by (intros ->; tauto). apply Hfin; auto.
        * intros s d. rewrite Hc1. rewrite existsb_app. simpl existsb. rewrite orb_false_r.
          destruct (d =? r) eqn:Ed.
          -- apply Nat.eqb_eq in Ed. subst d. destruct (existsb (Nat.eqb r) todo) eqn:E; [apply EX in E; tauto|].
             rewrite andb_false_r. reflexivity.
          -- rewrite Hch. simpl existsb. rewrite Ed. simpl. destruct (s =? r) eqn:Es.
             ++ apply Nat.eqb_eq in Es. subst s. destruct (existsb (Nat.eqb r) fin) eqn:E; [apply EX in E; tauto|]. simpl.
                destruct (existsb (Nat.eqb d) todo) eqn:E2; [reflexivity|].
                destruct (le_lt_dec P d) as [G|G].
                ** apply msgs_of_none. intros x Hx E3. pose proof (Hdst r x Hr Hx). lia.
                ** rewrite Hmatch by auto. apply msgs_of_none. intros x Hx E3. apply Nat.eqb_neq in Ed.
                   assert (Hdf : In d fin).
                   { apply Hord in G. rewrite Eo in G. apply in_app_or in G. destruct G as [G|[G|G]]; [auto|congruence|].
                     apply NEX in E2. tauto. }
                   apply in_split in Hdf. destruct Hdf as (l1 & l2 & E4).
                   assert (In r l1). { rewrite <- E3. apply (Hcaus l1 d (l2 ++ r :: todo)); auto. rewrite Eo, E4, <- app_assoc. reflexivity. }
                   apply (proj1 Hfr). rewrite E4. apply in_or_app. left; auto.
             ++ rewrite orb_false_r. reflexivity.
        * exists (n + m), c2. split; [eapply fsteps_trans; eauto|]. split; auto.
  Qed.
End Phase.

(** A phase: from empty queues, the ranks run [p r] and arrive at [a r], the queues being empty again. *)
Definition phase {Msg A : Type} (P : nat) (p : nat -> prog Msg A) (a : nat -> A) : Prop :=
  forall (B : Type) (k : nat -> A -> prog Msg B) (c : config Msg B),
    (forall r, r < P -> peq (procs c r) (bind (p r) (k r))) -> (forall s d, chan c s d = []) ->
    exists n c', fsteps P n c c' /\ (forall r, r < P -> peq (procs c' r) (k r (a r))) /\ (forall s d, chan c' s d = []).

Section PhaseRules.
  Context {Msg : Type}.
  Variable P : nat.

  Lemma phase_ret {A} (a : nat -> A) : phase (Msg:=Msg) P (fun r => Ret (a r)) a.
  Proof.
    intros B k c Hp Hc. exists 0, c. split; [apply fsteps_id|]. split; auto.
  Qed.

  Lemma phase_bind {A B} (p : nat -> prog Msg A) (f : nat -> A -> prog Msg B) a b :
    phase P p a -> phase P (fun r => f r (a r)) b -> phase P (fun r => bind (p r) (f r)) b.
  Proof.
    intros H1 H2 C k c Hp Hc.
    destruct (H1 C (fun r x => bind (f r x) (k r)) c) as (n & c1 & S1 & Hp1 & Hc1); auto.
    { intros r Hr. eapply peq_trans; [apply Hp; auto|]. apply bind_assoc. }
    destruct (H2 C k c1) as (m & c2 & S2 & Hp2 & Hc2); auto.
    exists (n + m), c2. split; [eapply fsteps_trans; eauto|]. auto.
  Qed.

  Lemma phase_peq {A} (p q : nat -> prog Msg A) a : (forall r, r < P -> peq (p r) (q r)) -> phase P q a -> phase P p a.
  Proof.
    intros E H B k c Hp Hc. apply H; auto. intros r Hr. eapply peq_trans; [apply Hp; auto|]. apply bind_peq_l. auto.
  Qed.
  Lemma phase_eq {A} (p q : nat -> prog Msg A) a : (forall r, r < P -> p r = q r) -> phase P q a -> phase P p a.
  Proof. intros E. apply phase_peq. intros r Hr. rewrite E by auto. apply peq_refl. Qed.

  Lemma phase_order {A} (p : nat -> prog Msg A) (ins outs : nat -> list (nat * mtag * Msg)) (a : nat -> A) (ord : list nat) :
    (forall r, In r ord <-> r < P) -> NoDup ord ->
    (forall r, r < P -> lrun (p r) (ins r) (outs r) (a r)) ->
    (forall s d, s < P -> d < P -> msgs_of d (outs s) = msgs_of s (ins d)) ->
    (forall r x, r < P -> In x (outs r) -> fst (fst x) < P) ->
    (forall l1 r l2, ord = l1 ++ r :: l2 -> forall x, In x (ins r) -> In (fst (fst x)) l1) ->
    phase P p a.
  Proof.
    intros H1 H2 H3 H4 H5 H6 B k c Hp Hc.
    apply (exec_order P p ins outs a k ord H1 H2 H3 H4 H5 H6 ord [] c); auto.
    - intros r Hr. apply Hp. apply H1; auto.
    - intros r [].
  Qed.

  (** Information flows from lower to higher ranks. *)
  Lemma phase_up {A} (p : nat -> prog Msg A) (ins outs : nat -> list (nat * mtag * Msg)) (a : nat -> A) :
    (forall r, r < P -> lrun (p r) (ins r) (outs r) (a r)) ->
    (forall s d, s < P -> d < P -> msgs_of d (outs s) = msgs_of s (ins d)) ->
    (forall r x, r < P -> In x (outs r) -> fst (fst x) < P) ->
    (forall r x, r < P -> In x (ins r) -> fst (fst x) < r) ->
    phase P p a.
  Proof.
    intros H1 H2 H3 H4. apply (phase_order p ins outs a (seq 0 P)); auto.
    - intros r. rewrite in_seq. lia.
    - apply seq_NoDup.
    - intros l1 r l2 E x Hx.
      assert (Hl : length l1 < P). { apply (f_equal (@length nat)) in E. rewrite seq_length, app_length in E. simpl in E. lia. }
      assert (r = length l1).
      { pose proof (f_equal (fun l => nth (length l1) l 0) E) as G. cbv beta in G.
        rewrite seq_nth in G by auto. rewrite app_nth2 in G by lia. rewrite Nat.sub_diag in G. simpl in G. lia. }
      assert (l1 = seq 0 (length l1)).
      { pose proof (f_equal (firstn (length l1)) E) as G. rewrite firstn_app, Nat.sub_diag, firstn_all in G. simpl in G.
        rewrite app_nil_r in G. rewrite firstn_seq, Nat.min_l in G by lia. symmetry. exact G. }
      rewrite H0. apply in_seq. assert (r < P) by lia. pose proof (H4 r x H5 Hx). lia.
  Qed.

  (** Information flows from higher to lower ranks. *)
  Lemma phase_down {A} (p : nat -> prog Msg A) (ins outs : nat -> list (nat * mtag * Msg)) (a : nat -> A) :
    (forall r, r < P -> lrun (p r) (ins r) (outs r) (a r)) ->
    (forall s d, s < P -> d < P -> msgs_of d (outs s) = msgs_of s (ins d)) ->
    (forall r x, r < P -> In x (outs r) -> fst (fst x) < P) ->
    (forall r x, r < P -> In x (ins r) -> r < fst (fst x) < P) ->
    phase P p a.
  Proof.
    intros H1 H2 H3 H4. apply (phase_order p ins outs a (rev (seq 0 P))); auto.
    - intros r. rewrite <- in_rev, in_seq. lia.
    - apply NoDup_rev, seq_NoDup.
    - intros l1 r l2 E x Hx.
      assert (Hr : r < P). { assert (In r (rev (seq 0 P))) as G by (rewrite E; apply in_or_app; right; left; auto). apply in_rev in G. apply in_seq in G. lia. }
      pose proof (H4 r x Hr Hx) as G. 
      assert (In (fst (fst x)) (rev (seq 0 P))) as I by (rewrite <- in_rev; apply in_seq; lia).
      rewrite E in I. apply in_app_or in I. destruct I as [I|[I|I]]; [auto|lia|exfalso].
      (* descending list: everything after r is smaller *)
      assert (D : forall n l1 r l2, rev (seq 0 n) = l1 ++ r :: l2 -> forall y, In y l2 -> y < r).
      { clear. induction n as [|n IH]; intros l1 r l2 E y Hy.
        - destruct l1; discriminate.
        - rewrite seq_S, rev_app_distr in E. simpl in E. destruct l1 as [|z l1]; simpl in E; injection E as E1 E2.
          + subst. rewrite <- in_rev in Hy. apply in_seq in Hy. lia.
          + apply (IH l1 r l2 E2 y Hy). }
      pose proof (D P l1 r l2 E _ I). lia.
  Qed.

  (** No communication at all. *)
  Lemma phase_local {A} (p : nat -> prog Msg A) (a : nat -> A) :
    (forall r, r < P -> lrun (p r) [] [] (a r)) -> phase P p a.
  Proof.
    intros H. apply (phase_up p (fun _ => []) (fun _ => []) a); auto; intros r x Hr [].
  Qed.

  Lemma phase_wait {A} (p : nat -> prog Msg A) a : phase P p a -> phase P (fun r => WaitAll (p r)) a.
  Proof.
    intros H B k c Hp Hc. simpl in Hp.
    assert (G : forall n, n <= P -> exists m (c' : config Msg B), fsteps P m c c' /\
              (forall r, r < P -> peq (procs c' r) (if r <? n then bind (p r) (k r) else WaitAll (bind (p r) (k r)))) /\
              (forall s d, chan c' s d = [])).
    { induction n as [|n IH]; intros Hn.
      - exists 0, c. split; [apply fsteps_id|]. split; auto.
      - destruct (IH ltac:(lia)) as (m & c1 & S1 & Hp1 & Hc1).
        pose proof (Hp1 n ltac:(lia)) as Hw. rewrite Nat.ltb_irrefl in Hw. inversion Hw as [| | | |k0 ? Hk E]; subst.
        set (c2 := mkConfig (upd1 (procs c1) n k0) (chan c1)).
        exists (m + 1), c2. split.
        + eapply fsteps_trans; [exact S1|]. apply (fsteps_1 P n).
          * split; [lia|]. rewrite <- E. split; [auto|]. split; intros; reflexivity.
          * unfold headed. rewrite <- E. exact I.
        + split; [|exact Hc1]. intros r Hr. unfold c2, upd1; simpl. destruct (r =? n) eqn:E2.
          * apply Nat.eqb_eq in E2. subst r. replace (n <? S n) with true by (symmetry; apply Nat.ltb_lt; lia). exact Hk.
          * apply Nat.eqb_neq in E2. specialize (Hp1 r Hr).
            replace (r <? S n) with (r <? n); [exact Hp1|]. apply Bool.eq_iff_eq_true. rewrite !Nat.ltb_lt. lia. }
    destruct (G P (le_n P)) as (m & c1 & S1 & Hp1 & Hc1).
    destruct (H B k c1) as (m2 & c2 & S2 & Hp2 & Hc2); auto.
    { intros r Hr. specialize (Hp1 r Hr). replace (r <? P) with true in Hp1 by (symmetry; apply Nat.ltb_lt; auto). exact Hp1. }
    exists (m + m2), c2. split; [eapply fsteps_trans; eauto|]. auto.
  Qed.

  (** A phase covering whole programs finishes the network. *)
  Lemma phase_fifo {A} (p : nat -> prog Msg A) a : phase P p a ->
    exists n c', fsteps P n (initial p) c' /\ finished P a c'.
  Proof.
    intros H. destruct (H A (fun _ x => Ret x) (initial p)) as (n & c' & S1 & Hp & Hc).
    - intros r Hr. apply peq_sym, bind_ret.
    - reflexivity.
    - exists n, c'. split; [exact S1|]. split; [|exact Hc]. intros r Hr. specialize (Hp r Hr). inversion Hp; reflexivity.
  Qed.
  Lemma phase_finishes {A} (p : nat -> prog Msg A) a : phase P p a ->
    exists n c', steps P n (initial p) c' /\ finished P a c'.
  Proof. intros H. destruct (phase_fifo p a H) as (n & c' & H1 & H2). exists n, c'. split; [apply fsteps_steps|]; auto. Qed.
End PhaseRules.

(** Finite choice. *)
Lemma choose_ranks {A} (P : nat) (Q : nat -> A -> Prop) (d : A) :
  (forall r, r < P -> exists x, Q r x) -> exists f, forall r, r < P -> Q r (f r).
Proof.
  induction P as [|P IH]; intros H.
  - exists (fun _ => d). intros r Hr. lia.
  - destruct IH as [f Hf]; [intros; apply H; lia|]. destruct (H P ltac:(lia)) as [x Hx].
    exists (fun r => if r =? P then x else f r). intros r Hr. destruct (r =? P) eqn:E.
    + apply Nat.eqb_eq in E. subst. auto.
    + apply Nat.eqb_neq in E. apply Hf. lia.
Qed.
