(** Programs that exchange the same messages and return related results, and networks of such programs. *)
From Coq Require Import List ZArith Lia Arith Bool.
From Verif Require Import Net.
Import ListNotations.

Section PSim.
  Context {M B C : Type}.
  Inductive psim (R : B -> C -> Prop) : prog M B -> prog M C -> Prop :=
  | ps_ret x y : R x y -> psim R (Ret x) (Ret y)
  | ps_raise e : psim R (Raise e) (Raise e)
  | ps_send d t m k k' : psim R k k' -> psim R (Send d t m k) (Send d t m k')
  | ps_recv s t k k' : (forall m, psim R (k m) (k' m)) -> psim R (Recv s t k) (Recv s t k')
  | ps_wait k k' : psim R k k' -> psim R (WaitAll k) (WaitAll k').
  Lemma psim_imp (R R' : B -> C -> Prop) p q : psim R p q -> (forall x y, R x y -> R' x y) -> psim R' p q.
  Proof. intros H HI. induction H; constructor; auto. Qed.
End PSim.

Lemma psim_bind {M B C B' C' : Type} (R : B -> C -> Prop) (R' : B' -> C' -> Prop) (p : prog M B) (q : prog M C) f g :
  psim R p q -> (forall x y, R x y -> psim R' (f x) (g y)) -> psim R' (bind p f) (bind q g).
Proof. intros H HF. induction H; simpl; [auto|constructor..]; auto. Qed.
Lemma psim_refl {M B : Type} (p : prog M B) : psim eq p p.
Proof. induction p; constructor; auto. Qed.

Section CSim.
  Context {M B C : Type}.
  Variable R : B -> C -> Prop.
  Variable P : nat.
  Record csim (c : config M B) (d : config M C) : Prop := {
    cs_procs : forall r, r < P -> psim R (procs c r) (procs d r);
    cs_chan : forall s t, chan c s t = chan d s t
  }.

  Lemma csim_step p c c' d : csim c d -> step P p c c' -> exists d', step P p d d' /\ csim c' d'.
  Proof.
    intros [HP HC] [Hp Hs]. pose proof (HP p Hp) as Sp. unfold step. destruct (procs c p) as [a|e|ds t m k|s0 t k|k] eqn:Ec; [contradiction|contradiction|..];
      inversion Sp as [ | | ? ? ? ? k' Hk E1 E2 | ? ? ? k' Hk E1 E2 | ? k' Hk E1 E2]; subst.
    - destruct Hs as [H1 H2]. exists (mkConfig (upd1 (procs d) p k') (upd2 (chan d) p ds (chan d p ds ++ [(t, m)]))). split.
      + split; [exact Hp|]. simpl. split; [intros r; reflexivity|]. intros s d'. unfold upd2. destruct ((s =? p) && (d' =? ds)) eqn:E; [|reflexivity].
        apply andb_prop in E. destruct E as [Ea Eb]. apply Nat.eqb_eq in Ea, Eb. subst. reflexivity.
      + constructor; simpl.
        * intros r Hr. rewrite H1. unfold upd1. destruct (r =? p); auto.
        * intros s d'. rewrite H2. unfold upd2. destruct ((s =? p) && (d' =? ds)) eqn:E; [|auto].
          apply andb_prop in E. destruct E as [Ea Eb]. apply Nat.eqb_eq in Ea, Eb. subst. rewrite HC. reflexivity.
    - destruct Hs as (m & rest & HT & H1 & H2). exists (mkConfig (upd1 (procs d) p (k' m)) (upd2 (chan d) s0 p rest)). split.
      + split; [exact Hp|]. exists m, rest. rewrite <- HC. repeat split; auto.
      + constructor; simpl.
        * intros r Hr. rewrite H1. unfold upd1. destruct (r =? p); auto.
        * intros s d'. rewrite H2. unfold upd2. destruct ((s =? s0) && (d' =? p)); auto.
    - destruct Hs as (H0 & H1 & H2). exists (mkConfig (upd1 (procs d) p k') (chan d)). split.
      + split; [exact Hp|]. simpl. repeat split; auto. intros x. rewrite <- HC. auto.
      + constructor; simpl.
        * intros r Hr. rewrite H1. unfold upd1. destruct (r =? p); auto.
        * intros s d'. rewrite H2. auto.
  Qed.
  Lemma csim_step_back p c d d' : csim c d -> step P p d d' -> exists c', step P p c c' /\ csim c' d'.
  Proof.
    intros [HP HC] [Hp Hs]. pose proof (HP p Hp) as Sp. unfold step. destruct (procs d p) as [a|e|ds t m k'|s0 t k'|k'] eqn:Ec; [contradiction|contradiction|..];
      inversion Sp as [ | | ? ? ? k ? Hk E1 E2 | ? ? k ? Hk E1 E2 | k ? Hk E1 E2]; subst.
    - destruct Hs as [H1 H2]. exists (mkConfig (upd1 (procs c) p k) (upd2 (chan c) p ds (chan c p ds ++ [(t, m)]))). split.
      + split; [exact Hp|]. simpl. split; [intros r; reflexivity|]. intros s d''. unfold upd2. destruct ((s =? p) && (d'' =? ds)) eqn:E; [|reflexivity].
        apply andb_prop in E. destruct E as [Ea Eb]. apply Nat.eqb_eq in Ea, Eb. subst. reflexivity.
      + constructor; simpl.
        * intros r Hr. rewrite H1. unfold upd1. destruct (r =? p); auto.
        * intros s d''. rewrite H2. unfold upd2. destruct ((s =? p) && (d'' =? ds)) eqn:E; [|auto].
          apply andb_prop in E. destruct E as [Ea Eb]. apply Nat.eqb_eq in Ea, Eb. subst. rewrite HC. reflexivity.
    - destruct Hs as (m & rest & HT & H1 & H2). exists (mkConfig (upd1 (procs c) p (k m)) (upd2 (chan c) s0 p rest)). split.
      + split; [exact Hp|]. exists m, rest. rewrite HC. repeat split; auto.
      + constructor; simpl.
        * intros r Hr. rewrite H1. unfold upd1. destruct (r =? p); auto.
        * intros s d''. rewrite H2. unfold upd2. destruct ((s =? s0) && (d'' =? p)); auto.
    - destruct Hs as (H0 & H1 & H2). exists (mkConfig (upd1 (procs c) p k) (chan c)). split.
      + split; [exact Hp|]. simpl. repeat split; auto. intros x. rewrite HC. auto.
      + constructor; simpl.
        * intros r Hr. rewrite H1. unfold upd1. destruct (r =? p); auto.
        * intros s d''. rewrite H2. auto.
  Qed.

  Lemma csim_ceq c c' d : csim c d -> (forall r, procs c r = procs c' r) -> (forall s t, chan c s t = chan c' s t) -> csim c' d.
  Proof. intros [HP HC] E1 E2. constructor; intros; rewrite <- ?E1, <- ?E2; auto. Qed.
  Lemma csim_ceq_r c d d' : csim c d -> (forall r, procs d r = procs d' r) -> (forall s t, chan d s t = chan d' s t) -> csim c d'.
  Proof. intros [HP HC] E1 E2. constructor; intros; rewrite <- ?E1, <- ?E2; auto. Qed.
  Lemma csim_steps n : forall c c' d, csim c d -> steps P n c c' -> exists d', steps P n d d' /\ csim c' d'.
  Proof.
    induction n as [|n IH]; intros c c' d S H; inversion H; subst.
    - exists d. split; [constructor; auto|]. eapply csim_ceq; eauto.
    - destruct (csim_step _ _ _ _ S H1) as (d1 & H3 & H4). destruct (IH _ _ _ H4 H2) as (d' & H5 & H6). exists d'. split; [econstructor; eauto|exact H6].
  Qed.
  Lemma csim_steps_back n : forall c d d', csim c d -> steps P n d d' -> exists c', steps P n c c' /\ csim c' d'.
  Proof.
    induction n as [|n IH]; intros c d d' S H; inversion H; subst.
    - exists c. split; [constructor; auto|]. eapply csim_ceq_r; eauto.
    - destruct (csim_step_back _ _ _ _ S H1) as (x1 & H3 & H4). destruct (IH _ _ _ H4 H2) as (c' & H5 & H6). exists c'. split; [econstructor; eauto|exact H6].
  Qed.
  Lemma csim_stuck c d : csim c d -> (stuck P c <-> stuck P d).
  Proof.
    intros S. split; intros H p x Hx.
    - destruct (csim_step_back _ _ _ _ S Hx) as (y & Hy & _). exact (H _ _ Hy).
    - destruct (csim_step _ _ _ _ S Hx) as (y & Hy & _). exact (H _ _ Hy).
  Qed.
  Lemma csim_finished c d res : 0 < P -> csim c d -> finished P res d -> exists res', finished P res' c /\ forall r, r < P -> R (res' r) (res r).
  Proof.
    intros H0 [HP HC] [F1 F2].
    assert (X : forall r, r < P -> exists b, procs c r = Ret b /\ R b (res r)).
    { intros r Hr. specialize (HP r Hr). rewrite (F1 r Hr) in HP. inversion HP; subst. eauto. }
    destruct (X 0 H0) as (b0 & _). exists (fun r => match procs c r with Ret b => b | _ => b0 end). split.
    - split; [|intros; rewrite HC; auto]. intros r Hr. destruct (X r Hr) as (b & E & _). rewrite E. reflexivity.
    - intros r Hr. destruct (X r Hr) as (b & E & Rb). rewrite E. exact Rb.
  Qed.
  Lemma csim_initial (f : nat -> prog M B) (g : nat -> prog M C) : (forall r, r < P -> psim R (f r) (g r)) -> csim (initial f) (initial g).
  Proof. intros H. constructor; simpl; auto. Qed.
End CSim.
