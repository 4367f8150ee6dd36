(** Phases in which the values of the messages are left open: only partners, tags and finished flags are fixed. *)
From Coq Require Import List ZArith Lia Arith Bool.
From Verif Require Import Net NetProofs NetPhase PyList ListFacts Mgrit Collect.
Import ListNotations.

Section Shapes.
  Context {A : App}.
  (** Partner, tag and finished flag of a packed vector on its way. *)
  Definition shape : Type := (nat * mtag * bool)%type.
  Definition ev (x : shape) (d : Data A) : nat * mtag * Msg A := (fst (fst x), snd (fst x), MDataF d (snd x)).
  Fixpoint evs (l : list shape) (ds : list (Data A)) : list (nat * mtag * Msg A) :=
    match l, ds with x :: l', d :: ds' => ev x d :: evs l' ds' | _, _ => [] end.

  Lemma evs_app l1 d1 l2 d2 : length d1 = length l1 -> evs (l1 ++ l2) (d1 ++ d2) = evs l1 d1 ++ evs l2 d2.
  Proof.
    revert d1. induction l1 as [|x l1 IH]; intros [|d d1] H; try discriminate; [reflexivity|]. simpl. f_equal. apply IH. simpl in H. lia.
  Qed.
  Lemma evs_in l : forall ds x, In x (evs l ds) -> exists y, In y l /\ fst (fst x) = fst (fst y).
  Proof.
    induction l as [|y l IH]; intros [|d ds] x H; try destruct H.
    - exists y. split; [left; auto|]. subst x. reflexivity.
    - destruct (IH ds x H) as (z & H1 & H2). exists z. split; [right; auto|auto].
  Qed.

  (** Whatever values arrive, [p] runs through with the messages [I] and [O] and ends in [Q]. *)
  Definition srun {B} (p : prog (Msg A) B) (I O : list shape) (Q : B -> Prop) : Prop :=
    forall ds, length ds = length I -> exists es a, length es = length O /\ lrun p (evs I ds) (evs O es) a /\ Q a.

  Lemma srun_ret {B} (a : B) (Q : B -> Prop) : Q a -> srun (Ret a) [] [] Q.
  Proof. intros H ds Hd. exists [], a. split; [reflexivity|]. split; [|exact H]. destruct ds; [constructor|discriminate]. Qed.
  Lemma srun_bind {B C} (p : prog (Msg A) B) (f : B -> prog (Msg A) C) I1 O1 I2 O2 Q1 Q2 :
    srun p I1 O1 Q1 -> (forall a, Q1 a -> srun (f a) I2 O2 Q2) -> srun (bind p f) (I1 ++ I2) (O1 ++ O2) Q2.
  Proof.
    intros H1 H2 ds Hd. rewrite app_length in Hd.
    assert (D1 : length (firstn (length I1) ds) = length I1) by (rewrite firstn_length; lia).
    destruct (H1 _ D1) as (e1 & a & L1 & R1 & Qa).
    destruct (H2 a Qa (skipn (length I1) ds)) as (e2 & b & L2 & R2 & Qb); [rewrite skipn_length; lia|].
    exists (e1 ++ e2), b. split; [rewrite !app_length; lia|]. split; [|exact Qb].
    rewrite <- (firstn_skipn (length I1) ds). rewrite !evs_app by auto. eapply lrun_bind; eauto.
  Qed.
  Lemma srun_weak {B} (p : prog (Msg A) B) I O I' O' (Q Q' : B -> Prop) :
    srun p I O Q -> I = I' -> O = O' -> (forall a, Q a -> Q' a) -> srun p I' O' Q'.
  Proof.
    intros H <- <- HQ ds Hd. destruct (H ds Hd) as (es & a & H1 & H2 & H3). exists es, a. auto.
  Qed.
  (** a piece without messages first *)
  Lemma srun_seq {B C} (p : prog (Msg A) B) (f : B -> prog (Msg A) C) I O Q1 Q2 :
    srun p [] [] Q1 -> (forall a, Q1 a -> srun (f a) I O Q2) -> srun (bind p f) I O Q2.
  Proof. intros H1 H2. apply (srun_bind p f [] [] I O Q1 Q2); auto. Qed.
  Lemma srun_local {B} (p : prog (Msg A) B) a (Q : B -> Prop) : lrun p [] [] a -> Q a -> srun p [] [] Q.
  Proof. intros H HQ ds Hd. exists [], a. split; [reflexivity|]. split; [|exact HQ]. destruct ds; [exact H|discriminate]. Qed.
  Lemma srun_send {B} d t x b (k : prog (Msg A) B) I O Q : srun k I O Q -> srun (Send d t (MDataF x b) k) I ((d, t, b) :: O) Q.
  Proof.
    intros H ds Hd. destruct (H ds Hd) as (es & a & H1 & H2 & H3). exists (x :: es), a. split; [simpl; lia|]. split; [|exact H3].
    simpl. constructor. exact H2.
  Qed.
  Lemma srun_recv {B} s t b (k : Msg A -> prog (Msg A) B) I O Q : (forall d, srun (k (MDataF d b)) I O Q) -> srun (Recv s t k) ((s, t, b) :: I) O Q.
  Proof.
    intros H [|d ds] Hd; [discriminate|]. destruct (H d ds) as (es & a & H1 & H2 & H3); [simpl in Hd; lia|].
    exists es, a. split; [auto|]. split; [|exact H3]. simpl. constructor. exact H2.
  Qed.

  (** loops *)
  Lemma for_each_srun {B C} (h : C -> B) (f : B -> St A -> prog (Msg A) (St A)) (fi fo : C -> list shape)
    (Inv : list C -> St A -> Prop) (l : list C) :
    (forall l1 x l2 s, l = l1 ++ x :: l2 -> Inv l1 s -> srun (f (h x) s) (fi x) (fo x) (Inv (l1 ++ [x]))) ->
    forall s, Inv [] s -> srun (for_each (map h l) f s) (flat_map fi l) (flat_map fo l) (Inv l).
  Proof.
    intros H.
    assert (G : forall l2 l1 s, l = l1 ++ l2 -> Inv l1 s -> srun (for_each (map h l2) f s) (flat_map fi l2) (flat_map fo l2) (Inv l)).
    { induction l2 as [|x l2 IH]; intros l1 s E Hi.
      - rewrite app_nil_r in E. subst. apply srun_ret. exact Hi.
      - simpl. apply (srun_bind _ _ _ _ _ _ (Inv (l1 ++ [x]))); [apply (H l1 x l2 s E Hi)|].
        intros s1 I1. apply (IH (l1 ++ [x])); [rewrite <- app_assoc; auto|auto]. }
    intros s Hs. apply (G l [] s eq_refl Hs).
  Qed.
  (** loop whose passes only keep an invariant *)
  Lemma for_each_keep {B} (f : B -> St A -> prog (Msg A) (St A)) (Inv : St A -> Prop) (l : list B) :
    (forall x s, In x l -> Inv s -> srun (f x s) [] [] Inv) -> forall s, Inv s -> srun (for_each l f s) [] [] Inv.
  Proof.
    induction l as [|x l IH]; intros H s Hs; [apply srun_ret; exact Hs|]. simpl. apply (srun_seq _ _ _ _ Inv).
    - apply H; [left; auto|auto].
    - intros s' Hs'. apply IH; [|exact Hs']. intros y s0 Hy. apply H. right; auto.
  Qed.

  (** ** Matching *)
  Definition proj (q : nat) (l : list shape) : list (mtag * bool) :=
    map (fun x => (snd (fst x), snd x)) (filter (fun x => fst (fst x) =? q) l).
  Definition real (l : list (mtag * bool)) (m : list (mtag * Msg A)) : Prop :=
    Forall2 (fun x y => fst y = fst x /\ exists d, snd y = MDataF d (snd x)) l m.

  Lemma evs_real q l : forall ds, length ds = length l -> real (proj q l) (msgs_of q (evs l ds)).
  Proof.
    induction l as [|[[s t] b] l IH]; intros [|d ds] H; try discriminate; [constructor|].
    simpl evs. unfold ev; simpl. rewrite msgs_of_cons. unfold proj. simpl. destruct (s =? q).
    - simpl. constructor; [|apply IH; simpl in H; lia]. simpl. eauto.
    - apply IH. simpl in H; lia.
  Qed.
  Lemma fill n l : forall (M : nat -> list (mtag * Msg A)), (forall x, In x l -> fst (fst x) < n) ->
    (forall s, s < n -> real (proj s l) (M s)) ->
    exists ds, length ds = length l /\ forall s, s < n -> msgs_of s (evs l ds) = M s.
  Proof.
    induction l as [|[[q t] b] l IH]; intros M Hl HM.
    - exists []. split; [reflexivity|]. intros s Hs. specialize (HM s Hs). inversion HM. reflexivity.
    - assert (Hq : q < n) by (apply (Hl (q, t, b)); left; auto).
      pose proof (HM q Hq) as Mq. unfold proj in Mq. simpl in Mq. rewrite Nat.eqb_refl in Mq. simpl in Mq.
      inversion Mq as [|x [t' m] lx rest [E1 [d E2]] F Ex Em]; subst. simpl in *. subst.
      destruct (IH (fun s => if s =? q then rest else M s)) as (ds & Ld & Hd).
      + intros x Hx. apply Hl. right; auto.
      + intros s Hs. specialize (HM s Hs). unfold proj in HM. simpl in HM. rewrite Nat.eqb_sym in HM.
        destruct (s =? q) eqn:E.
        * apply Nat.eqb_eq in E. subst s. exact F.
        * exact HM.
      + exists (d :: ds). split; [simpl; lia|]. intros s Hs. simpl. unfold ev; simpl. rewrite msgs_of_cons.
        specialize (Hd s Hs). rewrite (Nat.eqb_sym q s). destruct (s =? q) eqn:E.
        * apply Nat.eqb_eq in E. subst s. rewrite Hd. congruence.
        * exact Hd.
  Qed.

  Lemma proj_none q l : (forall x, In x l -> fst (fst x) <> q) -> proj q l = [].
  Proof.
    intros H. unfold proj. induction l as [|[[s t] b] l IH]; [reflexivity|]. simpl. destruct (s =? q) eqn:E.
    - apply Nat.eqb_eq in E. exfalso. apply (H (s, t, b)); [left; auto|exact E].
    - apply IH. intros x Hx. apply H. right; auto.
  Qed.
  Lemma proj_app q l1 l2 : proj q (l1 ++ l2) = proj q l1 ++ proj q l2.
  Proof. unfold proj. rewrite filter_app, map_app. reflexivity. Qed.

  (** Local runs of all ranks with matching messages. *)
  Record runs {B} (P : nat) (p : nat -> prog (Msg A) B) (I O : nat -> list shape) (i o : nat -> list (nat * mtag * Msg A)) (a : nat -> B) : Prop := {
    rn_run : forall r, r < P -> lrun (p r) (i r) (o r) (a r);
    rn_in : forall r, r < P -> exists ds, length ds = length (I r) /\ i r = evs (I r) ds;
    rn_out : forall r, r < P -> exists es, length es = length (O r) /\ o r = evs (O r) es;
    rn_match : forall s d, s < d -> d < P -> msgs_of s (i d) = msgs_of d (o s)
  }.
  (** Every rank only waits for lower ranks: the open values exist. *)
  Lemma pipeline {B} (P : nat) (p : nat -> prog (Msg A) B) (I O : nat -> list shape) (Q : nat -> B -> Prop) (dflt : B) :
    (forall r, r < P -> srun (p r) (I r) (O r) (Q r)) ->
    (forall s d, s < d -> d < P -> proj d (O s) = proj s (I d)) ->
    (forall r x, r < P -> In x (O r) -> r < fst (fst x) < P) ->
    (forall r x, r < P -> In x (I r) -> fst (fst x) < r) ->
    exists a, phase P p a /\ (forall r, r < P -> Q r (a r)) /\ exists i o, runs P p I O i o a.
  Proof.
    intros Hrun Hm Ho Hi.
    assert (G : forall n, n <= P -> exists (ds es : nat -> list (Data A)) (a : nat -> B), forall r, r < n ->
              length (ds r) = length (I r) /\ length (es r) = length (O r) /\
              lrun (p r) (evs (I r) (ds r)) (evs (O r) (es r)) (a r) /\ Q r (a r) /\
              forall s, s < r -> msgs_of s (evs (I r) (ds r)) = msgs_of r (evs (O s) (es s))).
    { induction n as [|n IH]; intros Hn.
      - exists (fun _ => []), (fun _ => []), (fun _ => dflt). intros r Hr. lia.
      - destruct (IH ltac:(lia)) as (ds & es & a & H).
        destruct (fill n (I n) (fun s => msgs_of n (evs (O s) (es s)))) as (dn & Ln & Hdn).
        + intros x Hx. apply (Hi n x); auto.
        + intros s Hs. rewrite <- (Hm s n Hs Hn). apply evs_real. apply H; auto.
        + destruct (Hrun n Hn dn Ln) as (en & an & L1 & R1 & Q1).
          exists (fun r => if r =? n then dn else ds r), (fun r => if r =? n then en else es r), (fun r => if r =? n then an else a r).
          intros r Hr. destruct (r =? n) eqn:E.
          * apply Nat.eqb_eq in E. subst r. split; [auto|]. split; [auto|]. split; [auto|]. split; [auto|].
            intros s Hs. replace (s =? n) with false by (symmetry; apply Nat.eqb_neq; lia). apply Hdn; auto.
          * apply Nat.eqb_neq in E. destruct (H r ltac:(lia)) as (X1 & X2 & X3 & X4 & X5). repeat (split; [assumption|]).
            intros s Hs. replace (s =? n) with false by (symmetry; apply Nat.eqb_neq; lia). auto. }
    destruct (G P (le_n P)) as (ds & es & a & H). exists a. split; [|split; [intros r Hr; apply H; auto|]].
    2:{ exists (fun r => evs (I r) (ds r)), (fun r => evs (O r) (es r)). split.
        - intros r Hr. apply H; auto.
        - intros r Hr. exists (ds r). split; [apply H; auto|reflexivity].
        - intros r Hr. exists (es r). split; [apply H; auto|reflexivity].
        - intros s d Hs Hd. apply H; auto. }
    apply (phase_up P p (fun r => evs (I r) (ds r)) (fun r => evs (O r) (es r)) a).
    - intros r Hr. apply H; auto.
    - intros s d Hs Hd. destruct (le_lt_dec d s) as [G2|G2].
      + rewrite !msgs_of_none; [reflexivity| |].
        * intros x Hx. apply evs_in in Hx. destruct Hx as (y & Hy & ->). pose proof (Hi d y Hd Hy). lia.
        * intros x Hx. apply evs_in in Hx. destruct Hx as (y & Hy & ->). pose proof (Ho s y Hs Hy). lia.
      + symmetry. apply H; auto.
    - intros r x Hr Hx. apply evs_in in Hx. destruct Hx as (y & Hy & ->). apply (Ho r y Hr Hy).
    - intros r x Hr Hx. apply evs_in in Hx. destruct Hx as (y & Hy & ->). apply (Hi r y Hr Hy).
  Qed.
End Shapes.

(** Some ranks wait for their sends first. *)
Lemma phase_wait_some {Msg B : Type} (P : nat) (w : nat -> bool) (p : nat -> prog Msg B) a :
  phase P p a -> phase P (fun r => if w r then WaitAll (p r) else p r) a.
Proof.
  intros H C k c Hp Hc.
  assert (G : forall n, n <= P -> exists m (c' : config Msg C), NetFifo.fsteps P m c c' /\
            (forall r, r < P -> peq (procs c' r) (if (r <? n) || negb (w r) then bind (p r) (k r) else WaitAll (bind (p r) (k r)))) /\
            (forall s d, chan c' s d = [])).
  { induction n as [|n IH]; intros Hn.
    - exists 0, c. split; [apply NetFifo.fsteps_id|]. split; [|auto]. intros r Hr. specialize (Hp r Hr). destruct (w r); exact Hp.
    - destruct (IH ltac:(lia)) as (m & c1 & S1 & Hp1 & Hc1).
      destruct (w n) eqn:Ew.
      2:{ exists m, c1. split; [exact S1|]. split; [|exact Hc1]. intros r Hr. specialize (Hp1 r Hr).
          destruct (Nat.eq_dec r n) as [->|E].
          - rewrite Ew in *. rewrite orb_true_r in *. exact Hp1.
          - replace (r <? S n) with (r <? n); [exact Hp1|]. apply Bool.eq_iff_eq_true. rewrite !Nat.ltb_lt. lia. }
      pose proof (Hp1 n ltac:(lia)) as Hw. rewrite Nat.ltb_irrefl, Ew in Hw. simpl in Hw. inversion Hw as [| | | |k0 ? Hk E]; subst.
      set (c2 := mkConfig (upd1 (procs c1) n k0) (chan c1)).
      exists (m + 1), c2. split.
      + eapply NetFifo.fsteps_trans; [exact S1|]. apply (NetFifo.fsteps_1 P n).
        * split; [lia|]. rewrite <- E. split; [auto|]. split; intros; reflexivity.
        * unfold NetFifo.headed. rewrite <- E. exact I.
      + split; [|exact Hc1]. intros r Hr. unfold c2, upd1; simpl. destruct (r =? n) eqn:E2.
        * apply Nat.eqb_eq in E2. subst r. replace (n <? S n) with true by (symmetry; apply Nat.ltb_lt; lia). exact Hk.
        * apply Nat.eqb_neq in E2. specialize (Hp1 r Hr).
          replace (r <? S n) with (r <? n); [exact Hp1|]. apply Bool.eq_iff_eq_true. rewrite !Nat.ltb_lt. lia. }
  destruct (G P (le_n P)) as (m & c1 & S1 & Hp1 & Hc1).
  destruct (H C k c1) as (m2 & c2 & S2 & Hp2 & Hc2); auto.
  { intros r Hr. specialize (Hp1 r Hr). replace (r <? P) with true in Hp1 by (symmetry; apply Nat.ltb_lt; auto). exact Hp1. }
  exists (m + m2), c2. split; [eapply NetFifo.fsteps_trans; eauto|]. auto.
Qed.
