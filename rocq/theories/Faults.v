(** Networks in which programs may raise exceptions (user code), compared with the network without exceptions. *)
From Coq Require Import List ZArith Lia Arith Bool.
From Verif Require Import Net NetProofs NetFifo NetPhase Mgrit.
Import ListNotations.

(** [may_raise p q]: [p] is the program [q], except that an exception may leave it anywhere between two communications, depending
    on everything received so far. *)
Inductive may_raise {Msg A : Type} : prog Msg A -> prog Msg A -> Prop :=
| mr_raise e q : may_raise (Raise e) q
| mr_ret a : may_raise (Ret a) (Ret a)
| mr_send d t m k k' : may_raise k k' -> may_raise (Send d t m k) (Send d t m k')
| mr_recv s t k k' : (forall m, may_raise (k m) (k' m)) -> may_raise (Recv s t k) (Recv s t k')
| mr_wait k k' : may_raise k k' -> may_raise (WaitAll k) (WaitAll k').

(** An exception instead of communication number [n] (from 0) or of the return *)
Fixpoint raise_at {Msg A : Type} (n : nat) (e : exn) (p : prog Msg A) : prog Msg A :=
  match n with
  | 0 => Raise e
  | S n' =>
      match p with
      | Ret a => Ret a
      | Raise e' => Raise e'
      | Send d t m k => Send d t m (raise_at n' e k)
      | Recv s t k => Recv s t (fun m => raise_at n' e (k m))
      | WaitAll k => WaitAll (raise_at n' e k)
      end
  end.
Lemma raise_at_may {Msg A} n e (p : prog Msg A) : may_raise (raise_at n e p) p.
Proof. revert p. induction n as [|n IH]; intros p; [apply mr_raise|]. destruct p; constructor; auto. Qed.
Lemma may_raise_refl {Msg A} (p : prog Msg A) : may_raise p p.
Proof. induction p; constructor; auto. Qed.
Lemma may_raise_peq {Msg A} (p q q' : prog Msg A) : may_raise p q -> peq q q' -> may_raise p q'.
Proof. intros H. revert q'. induction H; intros q' E; inversion E; subst; constructor; auto. Qed.
Lemma may_raise_bind {Msg A B} (p q : prog Msg A) (f g : A -> prog Msg B) :
  may_raise p q -> (forall a, may_raise (f a) (g a)) -> may_raise (bind p f) (bind q g).
Proof. intros H E. induction H; simpl; try constructor; auto. Qed.

Section Faults.
  Context {Msg A : Type}.
  Variable P : nat.
  Notation config := (config Msg A).
  Notation prog := (prog Msg A).

  Definition frel (c f : config) : Prop :=
    (forall r, r < P -> may_raise (procs c r) (procs f r)) /\ (forall s d, chan c s d = chan f s d).

  (** the step of [p] in a second network with the same queues *)
  Lemma copy_step p (c c' f : config) : step P p c c' -> (forall s d, chan c s d = chan f s d) ->
    may_raise (procs c p) (procs f p) ->
    exists f', step P p f f' /\ (forall s d, chan c' s d = chan f' s d) /\ may_raise (procs c' p) (procs f' p) /\
      (forall r, r <> p -> procs c' r = procs c r /\ procs f' r = procs f r).
  Proof.
    intros [Hp Hs] Hc HR. inversion HR as [e q E1 E2|a E1 E2|d t m k k' Hk E1 E2|s t k k' Hk E1 E2|k k' Hk E1 E2]; rewrite <- E1 in Hs.
    - destruct Hs.
    - destruct Hs.
    - destruct Hs as [H1 H2]. exists (mkConfig (fun r => if r =? p then k' else procs f r) (chan c')). split.
      { split; [exact Hp|]. rewrite <- E2. cbn [procs chan]. split; [reflexivity|]. intros s' d'. rewrite H2, Hc. reflexivity. }
      split; [reflexivity|]. cbn [procs]. rewrite Nat.eqb_refl, H1, Nat.eqb_refl. split; [exact Hk|]. intros r Hr. rewrite H1.
      apply Nat.eqb_neq in Hr. rewrite Hr. auto.
    - destruct Hs as (m & rest & Ht & H1 & H2). exists (mkConfig (fun r => if r =? p then k' m else procs f r) (chan c')). split.
      { split; [exact Hp|]. rewrite <- E2. exists m, rest. rewrite <- Hc. split; [exact Ht|]. cbn [procs chan]. split; [reflexivity|]. intros s' d'. rewrite H2, Hc. reflexivity. }
      split; [reflexivity|]. cbn [procs]. rewrite Nat.eqb_refl, H1, Nat.eqb_refl. split; [apply Hk|]. intros r Hr. rewrite H1.
      apply Nat.eqb_neq in Hr. rewrite Hr. auto.
    - destruct Hs as (H0 & H1 & H2). exists (mkConfig (fun r => if r =? p then k' else procs f r) (chan c')). split.
      { split; [exact Hp|]. rewrite <- E2. cbn [procs chan]. split; [intros d; rewrite <- Hc; apply H0|]. split; [reflexivity|]. intros s' d'. rewrite H2, Hc. reflexivity. }
      split; [reflexivity|]. cbn [procs]. rewrite Nat.eqb_refl, H1, Nat.eqb_refl. split; [exact Hk|]. intros r Hr. rewrite H1.
      apply Nat.eqb_neq in Hr. rewrite Hr. auto.
  Qed.
  Lemma frel_step p c c' f : frel c f -> step P p c c' -> exists f', step P p f f' /\ frel c' f'.
  Proof.
    intros [H1 H2] Hs. assert (Hp : p < P) by apply Hs. destruct (copy_step p c c' f Hs H2 (H1 p Hp)) as (f' & S & C & M & O). exists f'. split; [exact S|].
    split; [|exact C]. intros r Hr. destruct (Nat.eq_dec r p) as [->|N]; [exact M|]. destruct (O r N) as [-> ->]. auto.
  Qed.
  Lemma frel_steps n (c c' : config) : steps P n c c' -> forall f, frel c f -> exists f', steps P n f f' /\ frel c' f'.
  Proof.
    induction 1 as [c c' E1 E2|p n c c1 c' Hs H IH]; intros f HF.
    - exists f. split; [apply steps_id|]. destruct HF as [F1 F2]. split; intros; [rewrite <- E1|rewrite <- E2]; auto.
    - destruct (frel_step p c c1 f HF Hs) as (f1 & S1 & F1). destruct (IH f1 F1) as (f2 & S2 & F2). exists f2. split; [econstructor; eauto|exact F2].
  Qed.
  Lemma step_others p (c c' : config) r : step P p c c' -> r <> p -> procs c' r = procs c r.
  Proof.
    intros [_ Hs] N. apply Nat.eqb_neq in N. destruct (procs c p) as [a|e|d t m k|s t k|k]; try destruct Hs.
    - rewrite H, N. reflexivity.
    - destruct H as (rest & _ & H & _). rewrite H, N. reflexivity.
    - destruct H0 as [H0 _]. rewrite H0, N. reflexivity.
  Qed.
  Lemma ret_stays n (c c' : config) r x : steps P n c c' -> procs c r = Ret x -> procs c' r = Ret x.
  Proof.
    induction 1 as [c c' E1 E2|p n c c1 c' Hs H IH]; intros E; [rewrite <- E1; exact E|]. apply IH.
    rewrite (step_others p c c1 r Hs); [exact E|]. intros ->. destruct Hs as [_ Hs]. rewrite E in Hs. destruct Hs.
  Qed.
  Lemma raise_stays n (c c' : config) r e : steps P n c c' -> procs c r = Raise e -> procs c' r = Raise e.
  Proof.
    induction 1 as [c c' E1 E2|p n c c1 c' Hs H IH]; intros E; [rewrite <- E1; exact E|]. apply IH.
    rewrite (step_others p c c1 r Hs); [exact E|]. intros ->. destruct Hs as [_ Hs]. rewrite E in Hs. destruct Hs.
  Qed.
  (** A network with exceptions in which nobody can move and nobody raised: the network without exceptions cannot move either. *)
  Lemma frel_stuck c f : frel c f -> stuck P c -> (forall r e, r < P -> procs c r <> Raise e) -> stuck P f.
  Proof.
    intros [H1 H2] S N p f' [Hp Hs]. specialize (H1 p Hp). specialize (N p).
    inversion H1 as [e q E1 E2|a E1 E2|d t m k k' Hk E1 E2|s t k k' Hk E1 E2|k k' Hk E1 E2]; rewrite <- E2 in Hs.
    - apply (N e Hp). auto.
    - destruct Hs.
    - apply (S p (mkConfig (fun r => if r =? p then k else procs c r) (fun s d' => if (s =? p) && (d' =? d) then chan c s d' ++ [(t, m)] else chan c s d'))).
      split; [exact Hp|]. rewrite <- E1. split; reflexivity.
    - destruct Hs as (m & rest & Ht & _). rewrite <- H2 in Ht.
      apply (S p (mkConfig (fun r => if r =? p then k m else procs c r) (fun s' d' => if (s' =? s) && (d' =? p) then rest else chan c s' d'))).
      split; [exact Hp|]. rewrite <- E1. exists m, rest. split; [exact Ht|]. split; reflexivity.
    - destruct Hs as [H0 _]. apply (S p (mkConfig (fun r => if r =? p then k else procs c r) (chan c))). split; [exact Hp|]. rewrite <- E1.
      split; [intros d; rewrite H2; apply H0|]. split; reflexivity.
  Qed.

  (** Two executions can be continued to a common configuration. *)
  Lemma strip_join n : forall (c d c1 : config) p, steps P n c d -> step P p c c1 ->
    exists e k l, steps P k d e /\ steps P l c1 e.
  Proof.
    induction n as [|n IH]; intros c d c1 p H Hp.
    - exists c1, 1, 0. split; [|apply steps_id]. eapply (steps_ceq_l P 1 c d); [apply (steps_0 P); exact H|]. eapply steps_1; exact Hp.
    - inversion H as [|q ? ? c2 ? Hq H2]; subst. destruct (Nat.eq_dec q p) as [->|N].
      + exists d, 0, n. split; [apply steps_id|]. eapply steps_ceq_l; [|exact H2]. eapply step_det; eauto.
      + destruct (diamond P _ _ _ _ _ N Hq Hp) as (c3 & A1 & A2). destruct (IH _ _ _ _ H2 A1) as (e & k & l & B1 & B2).
        exists e, k, (S l). split; [exact B1|]. econstructor; eauto.
  Qed.
  Lemma join m (c d2 : config) : steps P m c d2 -> forall n d1, steps P n c d1 -> exists e k l, steps P k d1 e /\ steps P l d2 e.
  Proof.
    induction 1 as [c d2 E1 E2|p m c c1 d2 Hs H IH]; intros n d1 H1.
    - exists d1, 0, n. split; [apply steps_id|]. eapply steps_ceq_l; [split; eauto|exact H1].
    - destruct (strip_join n c d1 c1 p H1 Hs) as (e1 & k1 & l1 & A1 & A2). destruct (IH l1 e1 A2) as (e2 & k2 & l2 & B1 & B2).
      exists e2, (k1 + k2), l2. split; [eapply steps_trans; eauto|exact B2].
  Qed.
End Faults.

(** Programs [q0 r] that end in the barrier of Mgrit.solve. *)
Section BeforeBarrier.
  Context {A : App} {X : Type}.
  Variable P : nat.
  Notation prog := (prog (Msg A) X).
  Notation config := (config (Msg A) X).
  Variable fin : nat -> X -> X.
  Variable w : nat -> prog.
  Definition to_barrier (r : nat) (x : X) : prog := bind (barrier P r) (fun _ => Ret (fin r x)).
  Variable r0 : nat.
  Definition no_barrier (r : nat) (x : X) : prog := if r =? r0 then Raise ValueError else to_barrier r x.

  (** [f]: nobody raises; [g]: process [r0] raises in front of the barrier, nobody else raises *)
  Definition at_work (c f g : config) : Prop :=
    (forall s d, chan c s d = chan g s d) /\ (forall r, r < P -> r <> r0 -> may_raise (procs c r) (procs g r)) /\
    exists z z', may_raise z z' /\ procs c r0 = bind z (to_barrier r0) /\ procs f r0 = bind z' (to_barrier r0) /\ procs g r0 = bind z' (no_barrier r0).
  Definition three (c f g : config) : Prop := frel P c f /\ (procs c r0 = procs f r0 \/ at_work c f g).

  Lemma ceq_step p (c c1 c2 : config) : step P p c c1 -> ceq c1 c2 -> step P p c c2.
  Proof. intros H E. eapply step_ceq; [apply ceq_refl|exact E|exact H]. Qed.

  Lemma three_step p c c' f g : step P p c c' -> three c f g ->
    exists f' g' k, step P p f f' /\ steps P k g g' /\ three c' f' g'.
  Proof.
    intros Hs [HF HJ]. assert (Hp : p < P) by apply Hs.
    destruct (copy_step P p c c' f Hs (proj2 HF) (proj1 HF p Hp)) as (f' & Sf & C & M & O).
    assert (HF' : frel P c' f').
    { split; [|exact C]. intros r Hr. destruct (Nat.eq_dec r p) as [->|N]; [exact M|]. destruct (O r N) as [-> ->]. apply HF; auto. }
    destruct HJ as [E|(G1 & G2 & z & z' & Mz & Ec & Ef & Eg)].
    - exists f', g, 0. split; [exact Sf|]. split; [apply steps_id|]. split; [exact HF'|]. left.
      destruct (Nat.eq_dec r0 p) as [<-|N]; [|destruct (O r0 N) as [-> ->]; exact E].
      destruct Hs as [_ Hs], Sf as [_ Sf]. rewrite <- E in Sf. destruct (procs c r0) as [a|e|d t m k|s t k|k]; try contradiction.
      + destruct Hs as [H1 _], Sf as [H2 _]. rewrite H1, H2, Nat.eqb_refl. reflexivity.
      + destruct Hs as (m & rest & T & H1 & _), Sf as (m' & rest' & T' & H2 & _). rewrite <- (proj2 HF), T in T'. injection T' as -> ->.
        rewrite H1, H2, Nat.eqb_refl. reflexivity.
      + destruct Hs as (_ & H1 & _), Sf as (_ & H2 & _). rewrite H1, H2, Nat.eqb_refl. reflexivity.
    - destruct (Nat.eq_dec p r0) as [->|N].
      + inversion Mz as [e q E1 E2|a E1 E2|d t m k k' Hk E1 E2|s t k k' Hk E1 E2|k k' Hk E1 E2]; subst z z'; cbn [bind] in Ec, Ef, Eg.
        * destruct Hs as [_ Hs]. rewrite Ec in Hs. destruct Hs.
        * exists f', g, 0. split; [exact Sf|]. split; [apply steps_id|]. split; [exact HF'|]. left.
          assert (E : procs c r0 = procs f r0) by congruence.
          destruct Hs as [_ Hs], Sf as [_ Sf]. rewrite <- E in Sf. clear Ec Ef Eg E. destruct (procs c r0) as [b|e|d t m k|s t k|k]; try contradiction.
          -- destruct Hs as [H1 _], Sf as [H2 _]. rewrite H1, H2, Nat.eqb_refl. reflexivity.
          -- destruct Hs as (m & rest & T & H1 & _), Sf as (m' & rest' & T' & H2 & _). rewrite <- (proj2 HF), T in T'. injection T' as -> ->.
             rewrite H1, H2, Nat.eqb_refl. reflexivity.
          -- destruct Hs as (_ & H1 & _), Sf as (_ & H2 & _). rewrite H1, H2, Nat.eqb_refl. reflexivity.
        * assert (Hs' := Hs). assert (Sf' := Sf). destruct Hs as [_ Hs], Sf as [_ Sf]. rewrite Ec in Hs. rewrite Ef in Sf. destruct Hs as [H1 H2], Sf as [H3 _].
          exists f', (mkConfig (fun r => if r =? r0 then bind k' (no_barrier r0) else procs g r) (chan c')), 1.
          split; [exact Sf'|]. split.
          { eapply steps_1. split; [exact Hp|]. rewrite Eg. cbn [procs chan]. split; [reflexivity|]. intros s' d'. rewrite H2, G1. reflexivity. }
          split; [exact HF'|]. right. split; [reflexivity|]. cbn [procs]. split.
          { intros r Hr Nr. rewrite (step_others P _ _ _ r Hs' Nr). apply Nat.eqb_neq in Nr as Nr'. rewrite Nr'. auto. }
          exists k, k'. rewrite H1, H3, Nat.eqb_refl. auto.
        * assert (Hs' := Hs). assert (Sf' := Sf). destruct Hs as [_ Hs], Sf as [_ Sf]. rewrite Ec in Hs. rewrite Ef in Sf.
          destruct Hs as (m & rest & T & H1 & H2), Sf as (m' & rest' & T' & H3 & _). rewrite <- (proj2 HF), T in T'. injection T' as <- <-.
          exists f', (mkConfig (fun r => if r =? r0 then bind (k' m) (no_barrier r0) else procs g r) (chan c')), 1.
          split; [exact Sf'|]. split.
          { eapply steps_1. split; [exact Hp|]. rewrite Eg. cbn [procs chan]. exists m, rest. split; [rewrite <- G1; exact T|]. split; [reflexivity|]. intros s' d'. rewrite H2, G1. reflexivity. }
          split; [exact HF'|]. right. split; [reflexivity|]. cbn [procs]. split.
          { intros r Hr Nr. rewrite (step_others P _ _ _ r Hs' Nr). apply Nat.eqb_neq in Nr as Nr'. rewrite Nr'. auto. }
          exists (k m), (k' m). rewrite H1, H3, Nat.eqb_refl. auto.
        * assert (Hs' := Hs). assert (Sf' := Sf). destruct Hs as [_ Hs], Sf as [_ Sf]. rewrite Ec in Hs. rewrite Ef in Sf. destruct Hs as (H0 & H1 & H2), Sf as (_ & H3 & _).
          exists f', (mkConfig (fun r => if r =? r0 then bind k' (no_barrier r0) else procs g r) (chan c')), 1.
          split; [exact Sf'|]. split.
          { eapply steps_1. split; [exact Hp|]. rewrite Eg. cbn [procs chan]. split; [intros d; rewrite <- G1; apply H0|]. split; [reflexivity|]. intros s' d'. rewrite H2, G1. reflexivity. }
          split; [exact HF'|]. right. split; [reflexivity|]. cbn [procs]. split.
          { intros r Hr Nr. rewrite (step_others P _ _ _ r Hs' Nr). apply Nat.eqb_neq in Nr as Nr'. rewrite Nr'. auto. }
          exists k, k'. rewrite H1, H3, Nat.eqb_refl. auto.
      + destruct (copy_step P p c c' g Hs G1 (G2 p Hp N)) as (g' & Sg & C' & M' & O').
        exists f', g', 1. split; [exact Sf|]. split; [eapply steps_1; exact Sg|]. split; [exact HF'|]. right. split; [exact C'|]. split.
        { intros r Hr Nr. destruct (Nat.eq_dec r p) as [->|Np]; [exact M'|]. destruct (O' r Np) as [-> ->]. auto. }
        assert (N' : r0 <> p) by auto. destruct (O r0 N') as [O1 O2]. destruct (O' r0 N') as [O3 O4].
        exists z, z'. rewrite O1, O2, O4. auto.
  Qed.
  Lemma three_steps n c c' : steps P n c c' -> forall f g, three c f g ->
    exists f' g' k, steps P n f f' /\ steps P k g g' /\ three c' f' g'.
  Proof.
    induction 1 as [c c' E1 E2|p n c c1 c' Hs H IH]; intros f g HT.
    - exists f, g, 0. split; [apply steps_id|]. split; [apply steps_id|]. destruct HT as [[F1 F2] HJ]. split.
      + split; intros; [rewrite <- E1|rewrite <- E2]; auto.
      + destruct HJ as [E|(G1 & G2 & z & z' & Mz & Ec & Ef & Eg)]; [left; congruence|]. right. split; [intros; rewrite <- E2; auto|].
        split; [intros; rewrite <- E1; auto|]. exists z, z'. rewrite <- E1. auto.
    - destruct (three_step p c c1 f g Hs HT) as (f1 & g1 & k1 & A1 & A2 & A3). destruct (IH f1 g1 A3) as (f2 & g2 & k2 & B1 & B2 & B3).
      exists f2, g2, (k1 + k2). split; [econstructor; eauto|]. split; [eapply steps_trans; eauto|exact B3].
  Qed.

  (** Nobody leaves the barrier without [r0]. *)
  Definition waiting (c : config) : Prop :=
    (forall s, chan c 0 s = []) /\ chan c r0 0 = [] /\
    (forall s, s < P -> s <> 0 -> (exists e, procs c s = Raise e) \/
       s <> r0 /\ exists k, procs c s = Recv 0 TAG_BARRIER k \/ procs c s = Send 0 TAG_BARRIER MUnit (Recv 0 TAG_BARRIER k)) /\
    ((exists e, procs c 0 = Raise e) \/ exists l f, In r0 l /\ peq (procs c 0) (bind (recv_units l TAG_BARRIER) f)).
  Lemma waiting_step p c c' : waiting c -> step P p c c' -> waiting c'.
  Proof.
    intros (W1 & W2 & W3 & W4) Hs. assert (Hp : p < P) by apply Hs. assert (Hs' := Hs). destruct Hs as [_ Hs].
    destruct (Nat.eq_dec p 0) as [->|N].
    - destruct W4 as [[e E]|(l & f & Hl & E)]; [rewrite E in Hs; destruct Hs|].
      destruct l as [|q l]; [destruct Hl|]. cbn [recv_units bind] in E. inversion E as [| | |s0 t0 k0 k1 Hk E1 E2|]; subst. rewrite <- E1 in Hs.
      destruct Hs as (m & rest & T & H1 & H2).
      assert (Nq0 : q <> 0) by (intros ->; rewrite W1 in T; discriminate).
      assert (Nqr : q <> r0) by (intros ->; rewrite W2 in T; discriminate).
      split; [intros s; rewrite H2; destruct (Nat.eqb_spec 0 q); [lia|apply W1]|].
      split; [rewrite H2; destruct (Nat.eqb_spec r0 q); [lia|exact W2]|].
      split; [intros s Hs Ns; rewrite (step_others P _ _ _ s Hs' Ns); apply W3; auto|].
      rewrite H1. cbn [Nat.eqb]. destruct Hl as [->|Hl]; [lia|].
      specialize (Hk m). destruct m; cbn [bind] in Hk; try (left; inversion Hk; eexists; reflexivity). right. exists l, f. auto.
    - destruct (W3 p Hp N) as [[e E]|(Nr & k & [E|E])]; rewrite E in Hs.
      + destruct Hs.
      + destruct Hs as (m & rest & T & _). rewrite W1 in T. discriminate.
      + destruct Hs as [H1 H2].
        split; [intros s; rewrite H2; destruct (Nat.eqb_spec 0 p); [lia|apply W1]|].
        split; [rewrite H2; destruct (Nat.eqb_spec r0 p); [lia|exact W2]|].
        split; [|rewrite (step_others P _ _ _ 0 Hs'); auto].
        intros s Hs Ns. destruct (Nat.eq_dec s p) as [->|Nsp]; [|rewrite (step_others P _ _ _ s Hs' Nsp); apply W3; auto].
        right. split; [exact Nr|]. exists k. left. rewrite H1, Nat.eqb_refl. reflexivity.
  Qed.
  Lemma waiting_steps n c c' : steps P n c c' -> waiting c -> waiting c'.
  Proof.
    induction 1 as [c c' E1 E2|p n c c1 c' Hs H IH]; intros W; [|apply IH; eapply waiting_step; eauto].
    destruct W as (W1 & W2 & W3 & W4). split; [intros; rewrite <- E2; auto|]. split; [rewrite <- E2; auto|]. rewrite <- E1.
    split; [|exact W4]. intros s. rewrite <- E1. apply W3.
  Qed.

  (** If [w] finishes, nobody returns once [r0] raised in front of the barrier. *)
  Lemma raise_blocks (a : nat -> X) (q0 : nat -> prog) : phase P w a -> 0 < P -> r0 < P ->
    (forall r, r < P -> may_raise (q0 r) (w r)) ->
    (exists res, phase P (fun r => bind (w r) (to_barrier r)) res) ->
    forall n d, steps P n (initial (fun r => bind (q0 r) (to_barrier r))) d ->
    forall e, procs d r0 = Raise e -> forall s x, s < P -> procs d s <> Ret x.
  Proof.
    intros Hw HP Hr0 Hq (res & Hres) n d Hd e He s x Hs Hx.
    destruct (three_steps n _ d Hd (initial (fun r => bind (w r) (to_barrier r))) (initial (fun r => bind (w r) (no_barrier r)))) as (f & g & k & Sf & Sg & [Fd HJ]).
    { split; [split; [|reflexivity]; intros r Hr; cbn [procs initial]; apply may_raise_bind; [auto|intros; apply may_raise_refl]|]. right. split; [reflexivity|]. cbn [procs initial]. split.
      - intros r Hr Nr. unfold no_barrier. apply Nat.eqb_neq in Nr. rewrite Nr. apply may_raise_bind; [auto|]. intros; apply may_raise_refl.
      - exists (q0 r0), (w r0). auto. }
    destruct HJ as [E|(G1 & G2 & _)].
    - destruct (phase_finishes P _ _ Hres) as (m & c' & H1 & H2). destruct (finished_unique P _ _ _ _ H2 H1 _ _ Sf) as (_ & H3 & _).
      assert (E' : procs c' r0 = Raise e) by (eapply raise_stays; [exact H3|congruence]). rewrite (proj1 H2 r0 Hr0) in E'. discriminate.
    - destruct (Nat.eq_dec s r0) as [->|Ns]; [congruence|].
      assert (Eg : procs g s = Ret x). { specialize (G2 s Hs Ns). rewrite Hx in G2. inversion G2. reflexivity. }
      destruct (Hw X no_barrier (initial (fun r => bind (w r) (no_barrier r)))) as (m & c1 & S1 & E1 & C1); [intros; apply peq_refl|reflexivity|].
      destruct (join P _ _ _ (fsteps_steps P _ _ _ S1) _ _ Sg) as (c2 & k1 & k2 & J1 & J2).
      assert (E2 : procs c2 s = Ret x) by exact (ret_stays P _ _ _ _ _ J1 Eg).
      assert (W1 : waiting c1).
      { split; [intros; apply C1|]. split; [apply C1|]. split.
        - intros p Hp Np. specialize (E1 p Hp). unfold no_barrier in E1. destruct (Nat.eqb_spec p r0) as [_|Nr]; [left; inversion E1; eexists; reflexivity|].
          right. split; [exact Nr|]. unfold to_barrier, barrier in E1. apply Nat.eqb_neq in Np. rewrite Np in E1. cbn [bind recv_units] in E1.
          inversion E1 as [| |? ? ? k0 ? Hk E3 E4| |]; subst. inversion Hk; subst. eexists. right. reflexivity.
        - specialize (E1 0 HP). unfold no_barrier in E1. destruct (Nat.eqb_spec 0 r0) as [<-|Nr]; [left; inversion E1; eexists; reflexivity|]. right.
          unfold to_barrier, barrier in E1. cbn [Nat.eqb] in E1. eexists (seq 1 (P - 1)), _. split; [apply in_seq; lia|].
          eapply peq_trans; [exact E1|]. apply bind_assoc. }
      assert (W2 := waiting_steps _ _ _ J2 W1). destruct W2 as (_ & _ & W3 & W4).
      destruct (Nat.eq_dec s 0) as [->|N0].
      + destruct W4 as [[e' E]|(l & ff & Hl & E)]; rewrite E2 in E; [discriminate|]. destruct l; [destruct Hl|inversion E].
      + destruct (W3 s Hs N0) as [[e' E]|(_ & k' & [E|E])]; rewrite E2 in E; discriminate.
  Qed.
End BeforeBarrier.
