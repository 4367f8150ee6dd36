(** Executions in which every receive takes the oldest message of its queue. *)
From Coq Require Import List ZArith Lia Arith Bool.
From Verif Require Import Net NetProofs.
Import ListNotations.

Section Fifo.
  Context {Msg A : Type}.
  Notation config := (config Msg A).
  Variable P : nat.

  (** If rank [p] is about to receive, the oldest message from its partner carries exactly the tag it asks for,
      ghost labels included. *)
  Definition headed (p : nat) (c : config) : Prop :=
    match procs c p with
    | Recv s t _ => exists m rest, chan c s p = (t, m) :: rest
    | _ => True
    end.

  Inductive fsteps : nat -> config -> config -> Prop :=
  | fs_refl c c' : ceq c c' -> fsteps 0 c c'
  | fs_step p n c c1 c' : step P p c c1 -> headed p c -> fsteps n c1 c' -> fsteps (S n) c c'.

  Lemma fsteps_steps n c c' : fsteps n c c' -> steps P n c c'.
  Proof. induction 1 as [c c' [H1 H2]|]; [constructor; auto|econstructor; eauto]. Qed.

  Lemma headed_ceq p c d : ceq c d -> headed p c -> headed p d.
  Proof.
    intros [H1 H2]. unfold headed. rewrite H1. destruct (procs d p); auto. rewrite H2. auto.
  Qed.
  Lemma fsteps_ceq_l n c d c' : ceq c d -> fsteps n c c' -> fsteps n d c'.
  Proof.
    intros E H. destruct H as [c c' H|p n c c1 c' Hs Hh H].
    - constructor. eapply ceq_trans; [apply ceq_sym; exact E|exact H].
    - econstructor; [|eapply headed_ceq; eauto|exact H]. eapply step_ceq; [exact E|apply ceq_refl|exact Hs].
  Qed.
  Lemma fsteps_trans n m c c' c'' : fsteps n c c' -> fsteps m c' c'' -> fsteps (n + m) c c''.
  Proof.
    intros H; induction H as [c c' H1|p n c c1 c' Hs Hh H IH]; intros H'; simpl.
    - eapply fsteps_ceq_l; [apply ceq_sym; exact H1|exact H'].
    - econstructor; eauto.
  Qed.
  Lemma fsteps_id c : fsteps 0 c c.
  Proof. constructor. apply ceq_refl. Qed.
  Lemma fsteps_1 p c c' : step P p c c' -> headed p c -> fsteps 1 c c'.
  Proof. intros; econstructor; eauto. apply fsteps_id. Qed.

  (** A step of another rank neither creates nor spoils the property. *)
  Lemma headed_after p q c c' : p <> q -> step P p c c' -> headed q c -> headed q c'.
  Proof.
    intros N [Hp H] Hq. unfold headed in *.
    assert (E : procs c' q = procs c q).
    { destruct (procs c p); try contradiction; [destruct H as [Ha _]|destruct H as (m' & r' & _ & Ha & _)|destruct H as (_ & Ha & _)];
        rewrite Ha; replace (q =? p) with false by (symmetry; apply Nat.eqb_neq; auto); reflexivity. }
    rewrite E. destruct (procs c q) eqn:Eq; auto. destruct Hq as (m & rest & Hc).
    destruct (procs c p); try contradiction.
    - destruct H as [_ Hb]. rewrite Hb. destruct ((src =? p) && (q =? dst)); rewrite Hc; [exists m, (rest ++ [(tag0, m0)])|exists m, rest]; reflexivity.
    - destruct H as (m' & r' & _ & _ & Hb). rewrite Hb. replace (q =? p) with false by (symmetry; apply Nat.eqb_neq; auto).
      rewrite andb_false_r. eauto.
    - destruct H as (_ & _ & Hb). rewrite Hb. eauto.
  Qed.
  Lemma headed_before p q c c' : p <> q -> step P p c c' -> enabled P q c -> headed q c' -> headed q c.
  Proof.
    intros N [Hp H] [_ En] Hq. unfold headed in *.
    assert (E : procs c' q = procs c q).
    { destruct (procs c p); try contradiction; [destruct H as [Ha _]|destruct H as (m' & r' & _ & Ha & _)|destruct H as (_ & Ha & _)];
        rewrite Ha; replace (q =? p) with false by (symmetry; apply Nat.eqb_neq; auto); reflexivity. }
    rewrite E in Hq. destruct (procs c q) eqn:Eq; auto. destruct Hq as (m & rest & Hc).
    assert (NE : chan c src q <> []). { intros Z. rewrite Z in En. apply En. reflexivity. }
    destruct (procs c p); try contradiction.
    - destruct H as [_ Hb]. rewrite Hb in Hc. destruct ((src =? p) && (q =? dst)); [|eauto].
      destruct (chan c src q) as [|x l]; [congruence|]. injection Hc as -> _. eauto.
    - destruct H as (m' & r' & _ & _ & Hb). rewrite Hb in Hc. replace (q =? p) with false in Hc by (symmetry; apply Nat.eqb_neq; auto).
      rewrite andb_false_r in Hc. eauto.
    - destruct H as (_ & _ & Hb). rewrite Hb in Hc. eauto.
  Qed.

  Lemma fstrip n : forall c c' c2 q, stuck P c' -> fsteps n c c' -> step P q c c2 ->
    headed q c /\ exists n', n = S n' /\ fsteps n' c2 c'.
  Proof.
    induction n as [|n IH]; intros c c' c2 q St H Hq.
    - exfalso. inversion H as [? ? E|]; subst. eapply (stuck_ceq P _ _ (ceq_sym _ _ E) St); eauto.
    - inversion H as [|p ? ? c1 ? Hs Hh H1]; subst.
      destruct (Nat.eq_dec p q) as [->|N].
      + split; [exact Hh|]. exists n. split; [reflexivity|]. eapply fsteps_ceq_l; [|exact H1]. eapply step_det; eauto.
      + destruct (diamond P _ _ _ _ _ N Hs Hq) as (c3 & Hc3 & Hc3').
        destruct (IH _ _ _ _ St H1 Hc3) as (Hd & n' & -> & H3).
        split.
        * eapply (headed_before p q c c1); eauto. eapply step_enabled; eauto.
        * exists (S n'). split; [reflexivity|]. econstructor; eauto. eapply (headed_after q p); eauto.
  Qed.

  (** If one such execution ends with every rank returned, then in every reachable configuration a rank that waits
      for a message either finds its queue empty, or finds the message it wants at the head of the queue. *)
  Lemma fifo_reachable n c c' : stuck P c' -> fsteps n c c' -> forall m d, steps P m c d -> fsteps (n - m) d c'.
  Proof.
    intros St H m d Hd. revert n H. induction Hd as [c d H1 H2|p m c c1 d Hs Hd IH]; intros n H.
    - rewrite Nat.sub_0_r. eapply fsteps_ceq_l; [split; eauto|exact H].
    - destruct (fstrip _ _ _ _ _ St H Hs) as (_ & n' & -> & H'). simpl. apply IH. exact H'.
  Qed.

  Lemma fifo_head n d c' res : finished P res c' -> fsteps n d c' ->
    forall p s t k t' m rest, p < P -> procs d p = Recv s t k -> chan d s p = (t', m) :: rest -> t' = t.
  Proof.
    intros F H. induction H as [d c' [E1 E2]|q n d d1 c' Hs Hh H IH]; intros p s t k t' m rest Hp Hr Hc.
    - exfalso. destruct F as [F _]. specialize (F p Hp). rewrite <- E1, Hr in F. discriminate.
    - destruct (Nat.eq_dec q p) as [->|N].
      + unfold headed in Hh. rewrite Hr in Hh. destruct Hh as (m1 & r1 & Hh). congruence.
      + destruct Hs as [Hq Hs].
        assert (E : procs d1 p = Recv s t k).
        { destruct (procs d q); try contradiction; [destruct Hs as [Ha _]|destruct Hs as (m' & r' & _ & Ha & _)|destruct Hs as (_ & Ha & _)];
            rewrite Ha; replace (p =? q) with false by (symmetry; apply Nat.eqb_neq; auto); auto. }
        assert (C : exists rest', chan d1 s p = (t', m) :: rest').
        { destruct (procs d q); try contradiction.
          - destruct Hs as [_ Hb]. rewrite Hb. destruct ((s =? q) && (p =? dst)); rewrite Hc; simpl; eauto.
          - destruct Hs as (m' & r' & _ & _ & Hb). rewrite Hb. replace (p =? q) with false by (symmetry; apply Nat.eqb_neq; auto).
            rewrite andb_false_r. eauto.
          - destruct Hs as (_ & _ & Hb). rewrite Hb. eauto. }
        destruct C as (rest' & C). eapply (IH F); eauto.
  Qed.
End Fifo.
