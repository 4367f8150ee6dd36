(** The executable scheduler only performs steps of the network semantics. *)
From Coq Require Import List ZArith Lia Arith Bool.
From Verif Require Import Net NetProofs.
Import ListNotations.

Section Exec.
  Context {Msg A : Type}.
  Notation config := (config Msg A).
  Variable P : nat.

  (** No messages to ranks outside the world. *)
  Definition inside (c : config) : Prop := forall s d, P <= d -> chan c s d = [].

  Lemma steps_trans n m (c d e : config) : steps P n c d -> steps P m d e -> steps P (n + m) c e.
  Proof.
    intros H. revert m e. induction H as [c d H1 H2|p n c c1 d Hs Hd IH]; intros m e He.
    - eapply steps_ceq_l; [|exact He]. split; intros; symmetry; auto.
    - simpl. econstructor; eauto.
  Qed.
  Lemma steps_refl' (c : config) : steps P 0 c c.
  Proof. constructor; reflexivity. Qed.

  Lemma run_rank_steps fuel p : p < P -> forall c, inside c ->
    (exists n, steps P n c (run_rank P fuel p c)) /\ inside (run_rank P fuel p c).
  Proof.
    intros Hp. induction fuel as [|fuel IH]; intros c Hc; [split; [exists 0; apply steps_refl'|exact Hc]|].
    cbn [run_rank]. destruct (procs c p) as [a|e|d t m k|s t k|k] eqn:E.
    - split; [exists 0; apply steps_refl'|exact Hc].
    - split; [exists 0; apply steps_refl'|exact Hc].
    - destruct (d <? P) eqn:Ed; cbn [negb]; [|split; [exists 0; apply steps_refl'|exact Hc]].
      apply Nat.ltb_lt in Ed.
      set (c1 := mkConfig _ _). assert (H1 : inside c1).
      { intros s d' Hd'. unfold c1, upd2. cbn [chan]. destruct ((s =? p) && (d' =? d)) eqn:X; [|apply Hc; auto].
        apply andb_true_iff in X. destruct X as [_ X]. apply Nat.eqb_eq in X. lia. }
      destruct (IH c1 H1) as [(n & Hn) H2]. split; [|exact H2]. exists (S n). econstructor; [|exact Hn].
      split; [exact Hp|]. rewrite E. unfold c1, upd1, upd2. cbn [procs chan]. split; [reflexivity|].
      intros s d'. destruct ((s =? p) && (d' =? d)) eqn:X; [|reflexivity].
      apply andb_true_iff in X. destruct X as [X Y]. apply Nat.eqb_eq in X, Y. subst. reflexivity.
    - destruct (take t (chan c s p)) as [[m rest]|] eqn:T; [|split; [exists 0; apply steps_refl'|exact Hc]].
      set (c1 := mkConfig _ _). assert (H1 : inside c1).
      { intros s' d' Hd'. unfold c1, upd2. cbn [chan]. destruct ((s' =? s) && (d' =? p)) eqn:X; [|apply Hc; auto].
        apply andb_true_iff in X. destruct X as [_ X]. apply Nat.eqb_eq in X. lia. }
      destruct (IH c1 H1) as [(n & Hn) H2]. split; [|exact H2]. exists (S n). econstructor; [|exact Hn].
      split; [exact Hp|]. rewrite E. exists m, rest. split; [exact T|]. unfold c1, upd1, upd2. cbn [procs chan]. split; reflexivity.
    - destruct (forallb _ _) eqn:F; [|split; [exists 0; apply steps_refl'|exact Hc]].
      set (c1 := mkConfig _ _). assert (H1 : inside c1) by exact Hc.
      destruct (IH c1 H1) as [(n & Hn) H2]. split; [|exact H2]. exists (S n). econstructor; [|exact Hn].
      split; [exact Hp|]. rewrite E. split.
      + intros d. destruct (le_lt_dec P d) as [Hd|Hd]; [apply Hc; auto|]. rewrite forallb_forall in F.
        specialize (F d ltac:(apply in_seq; lia)). destruct (chan c p d); [reflexivity|discriminate].
      + unfold c1, upd1. cbn [procs chan]. split; reflexivity.
  Qed.

  Lemma fold_steps fuel l : (forall p, In p l -> p < P) -> forall c, inside c ->
    (exists n, steps P n c (fold_left (fun c p => run_rank P fuel p c) l c)) /\ inside (fold_left (fun c p => run_rank P fuel p c) l c).
  Proof.
    induction l as [|p l IH]; intros Hl c Hc; [split; [exists 0; apply steps_refl'|exact Hc]|]. cbn [fold_left].
    destruct (run_rank_steps fuel p (Hl p (or_introl eq_refl)) c Hc) as [(n & Hn) H1].
    destruct (IH (fun q Hq => Hl q (or_intror Hq)) _ H1) as [(m & Hm) H2]. split; [|exact H2]. exists (n + m). eapply steps_trans; eauto.
  Qed.
  Lemma run_net_steps' rounds fuel : forall c, inside c ->
    (exists n, steps P n c (run_net P rounds fuel c)) /\ inside (run_net P rounds fuel c).
  Proof.
    induction rounds as [|k IH]; intros c Hc; [split; [exists 0; apply steps_refl'|exact Hc]|]. cbn [run_net].
    destruct (fold_steps fuel (seq 0 P) ltac:(intros p Hp; apply in_seq in Hp; lia) c Hc) as [(n & Hn) H1].
    destruct (IH _ H1) as [(m & Hm) H2]. split; [|exact H2]. exists (n + m). eapply steps_trans; eauto.
  Qed.
  Lemma run_net_steps rounds fuel (progs : nat -> prog Msg A) : exists n, steps P n (initial progs) (run_net P rounds fuel (initial progs)).
  Proof. apply run_net_steps'. intros s d _. reflexivity. Qed.

  Lemma stuckb_ok (c : config) : stuckb P c = true -> stuck P c.
  Proof.
    intros H p c' [Hp Hs]. unfold stuckb in H. rewrite forallb_forall in H. specialize (H p ltac:(apply in_seq; lia)).
    destruct (procs c p) as [a|e|d t m k|s t k|k]; [exact Hs|exact Hs|discriminate| |].
    - destruct Hs as (m & rest & T & _). rewrite T in H. discriminate.
    - destruct Hs as [Hd _]. apply existsb_exists in H. destruct H as (d & _ & X). rewrite (Hd d) in X. discriminate.
  Qed.
End Exec.
