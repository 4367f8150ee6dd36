(** Confluence of the network semantics (Kahn determinism). *)
From Coq Require Import List ZArith Lia Arith Bool.
From Verif Require Import Net.
Import ListNotations.

Lemma take_app {Msg} t (q q' : list (mtag * Msg)) m r :
  take t q = Some (m, r) -> take t (q ++ q') = Some (m, r ++ q').
Proof.
  revert m r; induction q as [|[t' m'] q IH]; simpl; intros m r H; [discriminate|].
  destruct (Z.eqb (t_num t) (t_num t')).
  - inversion H; subst; reflexivity.
  - destruct (take t q) as [[m1 q1]|] eqn:E; [|discriminate].
    inversion H; subst. rewrite (IH _ _ eq_refl). reflexivity.
Qed.

Section Kahn.
  Context {Msg A : Type}.
  Notation config := (config Msg A).
  Variable P : nat.

  Lemma ceq_refl (c : config) : ceq c c.
  Proof. split; reflexivity. Qed.
  Lemma ceq_sym (c d : config) : ceq c d -> ceq d c.
  Proof. intros [H1 H2]; split; intros; symmetry; auto. Qed.
  Lemma ceq_trans (c d e : config) : ceq c d -> ceq d e -> ceq c e.
  Proof. intros [H1 H2] [H3 H4]; split; intros; etransitivity; eauto. Qed.

  Lemma step_ceq p (c c' d d' : config) : ceq c d -> ceq c' d' -> step P p c c' -> step P p d d'.
  Proof.
    intros [H1 H2] [H3 H4] [Hp H]. split; [exact Hp|]. rewrite <- H1.
    destruct (procs c p); try contradiction.
    - destruct H as [Ha Hb]; split; intros.
      + rewrite <- H3, Ha, <- H1; reflexivity.
      + rewrite <- H4, Hb, <- H2; reflexivity.
    - destruct H as (m & rest & Ht & Ha & Hb). exists m, rest. rewrite <- H2. split; [exact Ht|]. split; intros.
      + rewrite <- H3, Ha, <- H1; reflexivity.
      + rewrite <- H4, Hb, <- H2; reflexivity.
    - destruct H as (He & Ha & Hb). split; [|split]; intros.
      + rewrite <- H2; auto.
      + rewrite <- H3, Ha, <- H1; reflexivity.
      + rewrite <- H4, Hb, <- H2; reflexivity.
  Qed.

  Lemma step_det p (c c1 c2 : config) : step P p c c1 -> step P p c c2 -> ceq c1 c2.
  Proof.
    intros [_ H] [_ H']. destruct (procs c p); try contradiction.
    - destruct H as [Ha Hb], H' as [Ha' Hb']. split; intros; [rewrite Ha, Ha'|rewrite Hb, Hb']; reflexivity.
    - destruct H as (m & rest & Ht & Ha & Hb), H' as (m' & rest' & Ht' & Ha' & Hb').
      rewrite Ht in Ht'. inversion Ht'; subst. split; intros; [rewrite Ha, Ha'|rewrite Hb, Hb']; reflexivity.
    - destruct H as (He & Ha & Hb), H' as (He' & Ha' & Hb'). split; intros; [rewrite Ha, Ha'|rewrite Hb, Hb']; reflexivity.
  Qed.

  (** A step is determined by its effect; build the successor explicitly. *)
  Definition succ_of (p : nat) (c : config) : config :=
    match procs c p with
    | Send d t m k => mkConfig (upd1 (procs c) p k) (upd2 (chan c) p d (chan c p d ++ [(t, m)]))
    | Recv s t k => match take t (chan c s p) with
                    | Some (m, rest) => mkConfig (upd1 (procs c) p (k m)) (upd2 (chan c) s p rest)
                    | None => c
                    end
    | WaitAll k => mkConfig (upd1 (procs c) p k) (chan c)
    | _ => c
    end.

  Definition enabled (p : nat) (c : config) : Prop :=
    p < P /\
    match procs c p with
    | Ret _ | Raise _ => False
    | Send _ _ _ _ => True
    | Recv s t _ => take t (chan c s p) <> None
    | WaitAll _ => forall d, chan c p d = []
    end.

  Lemma enabled_step p c : enabled p c -> step P p c (succ_of p c).
  Proof.
    intros [Hp H]. split; [exact Hp|]. unfold succ_of.
    destruct (procs c p) eqn:E; try contradiction; simpl.
    - split; intros; unfold upd1, upd2; [reflexivity|].
      destruct ((s =? p) && (d' =? dst)) eqn:B; [|reflexivity].
      apply andb_true_iff in B as [B1 B2]. apply Nat.eqb_eq in B1, B2. subst. reflexivity.
    - destruct (take tag (chan c src p)) as [[m rest]|] eqn:T; [|contradiction].
      exists m, rest. split; [reflexivity|]. split; intros; reflexivity.
    - split; [exact H|]. split; reflexivity.
  Qed.

  Lemma step_enabled p c c' : step P p c c' -> enabled p c /\ ceq c' (succ_of p c).
  Proof.
    intros H. assert (E : enabled p c).
    { destruct H as [Hp H]. split; [exact Hp|]. destruct (procs c p); try contradiction.
      - exact I.
      - destruct H as (m & rest & Ht & _). rewrite Ht. discriminate.
      - destruct H as (He & _). exact He. }
    split; [exact E|]. eapply step_det; [exact H|]. apply enabled_step; exact E.
  Qed.

  (** A step of [p] neither disables nor changes a step of another rank. *)
  Lemma enabled_stable p q c c' : p <> q -> step P p c c' -> enabled q c -> enabled q c'.
  Proof.
    intros Hpq H [Hq Eq]. split; [exact Hq|].
    destruct H as [Hp H]. destruct (procs c p) eqn:Ep; try contradiction.
    - destruct H as [Ha Hb]. rewrite Ha. replace (q =? p) with false by (symmetry; apply Nat.eqb_neq; auto).
      destruct (procs c q); auto.
      + rewrite Hb. destruct ((src =? p) && (q =? dst)); [|exact Eq].
        destruct (take tag0 (chan c src q)) as [[m' r']|] eqn:T; [|contradiction].
        rewrite (take_app _ _ _ _ _ T). discriminate.
      + intros d. rewrite Hb. replace (q =? p) with false by (symmetry; apply Nat.eqb_neq; auto). simpl. apply Eq.
    - destruct H as (m & rest & Ht & Ha & Hb). rewrite Ha.
      replace (q =? p) with false by (symmetry; apply Nat.eqb_neq; auto).
      destruct (procs c q); auto.
      + rewrite Hb. replace (q =? p) with false by (symmetry; apply Nat.eqb_neq; auto). rewrite andb_false_r. exact Eq.
      + intros d. rewrite Hb. destruct ((q =? src) && (d =? p)) eqn:B; [|apply Eq].
        apply andb_true_iff in B as [B1 B2]. apply Nat.eqb_eq in B1, B2. subst.
        rewrite Eq in Ht. discriminate.
    - destruct H as (He & Ha & Hb). rewrite Ha.
      replace (q =? p) with false by (symmetry; apply Nat.eqb_neq; auto).
      destruct (procs c q); auto.
      + rewrite Hb. exact Eq.
      + intros d. rewrite Hb. apply Eq.
  Qed.

  Ltac bnat := repeat match goal with
    | H : _ && _ = true |- _ => apply andb_true_iff in H as [? ?]
    | H : (_ =? _) = true |- _ => apply Nat.eqb_eq in H
    | H : (_ =? _) = false |- _ => apply Nat.eqb_neq in H
    end.

  Lemma commute p q c : p <> q -> enabled p c -> enabled q c ->
    ceq (succ_of q (succ_of p c)) (succ_of p (succ_of q c)).
  Proof.
    intros Hpq [_ Ep] [_ Eq].
    assert (Hn : (q =? p) = false) by (apply Nat.eqb_neq; auto).
    assert (Hn' : (p =? q) = false) by (apply Nat.eqb_neq; auto).
    assert (R : forall a b (fp fq : prog Msg A),
      (if a =? q then fq else if a =? p then fp else b) = (if a =? p then fp else if a =? q then fq else b)).
    { intros a b fp fq. destruct (a =? q) eqn:X, (a =? p) eqn:Y; auto. bnat. lia. }
    unfold succ_of.
    destruct (procs c p) eqn:Fp; try contradiction; destruct (procs c q) eqn:Fq; try contradiction; simpl;
      unfold upd1, upd2.
    - (* send / send *)
      rewrite Hn, Hn', Fp, Fq. split; simpl; intros; [apply R|].
      rewrite ?Hn, ?Hn'. simpl.
      destruct ((s =? q) && (d' =? dst0)) eqn:X, ((s =? p) && (d' =? dst)) eqn:Y; auto. bnat. lia.
    - (* send / recv *)
      rewrite Hn. rewrite Fq. simpl.
      destruct (take tag0 (chan c src q)) as [[m' r']|] eqn:T; [|contradiction]. simpl.
      rewrite Hn', Fp. simpl.
      destruct ((src =? p) && (q =? dst)) eqn:B; bnat.
      + subst. rewrite (take_app _ _ _ _ _ T). split; simpl; intros; [apply R|].
        rewrite !Nat.eqb_refl. simpl.
        destruct ((s =? p) && (d' =? dst)) eqn:X; auto.
      + rewrite T. split; simpl; intros; [apply R|].
        destruct ((s =? src) && (d' =? q)) eqn:X, ((s =? p) && (d' =? dst)) eqn:Y; auto.
        * bnat. subst. rewrite !Nat.eqb_refl in B. discriminate.
        * bnat. subst.
          destruct ((p =? src) && (dst =? q)) eqn:Z; [|reflexivity]. exfalso. bnat. subst. rewrite ?Nat.eqb_refl in *. discriminate.
    - (* send / wait *)
      rewrite Hn, Hn', Fp, Fq. split; simpl; intros; [apply R|reflexivity].
    - (* recv / send *)
      destruct (take tag (chan c src p)) as [[m' r']|] eqn:T; [|contradiction]. simpl.
      rewrite Hn, Fq. simpl. rewrite Hn', Fp. simpl.
      destruct ((src =? q) && (p =? dst)) eqn:B; bnat.
      + subst. rewrite (take_app _ _ _ _ _ T). split; simpl; intros; [apply R|].
        rewrite !Nat.eqb_refl. simpl.
        destruct ((s =? q) && (d' =? dst)) eqn:X; auto.
      + rewrite T. split; simpl; intros; [apply R|].
        destruct ((s =? src) && (d' =? p)) eqn:X, ((s =? q) && (d' =? dst)) eqn:Y; auto.
        * bnat. subst. rewrite !Nat.eqb_refl in B. discriminate.
        * bnat. subst.
          destruct ((q =? src) && (dst =? p)) eqn:Z; [|reflexivity]. exfalso. bnat. subst. rewrite ?Nat.eqb_refl in *. discriminate.
    - (* recv / recv *)
      destruct (take tag (chan c src p)) as [[m1 r1]|] eqn:T1; [|contradiction].
      destruct (take tag0 (chan c src0 q)) as [[m2 r2]|] eqn:T2; [|contradiction]. simpl.
      rewrite Hn, Fq, Hn', Fp. rewrite ?Hn, ?Hn', ?andb_false_r. simpl. rewrite T1, T2.
      split; simpl; intros; [apply R|].
      destruct ((s =? src0) && (d' =? q)) eqn:X, ((s =? src) && (d' =? p)) eqn:Y; auto. bnat. lia.
    - (* recv / wait *)
      destruct (take tag (chan c src p)) as [[m1 r1]|] eqn:T1; [|contradiction]. simpl.
      rewrite Hn, Fq, Hn', Fp. simpl. rewrite T1. split; simpl; intros; [apply R|reflexivity].
    - (* wait / send *)
      rewrite Hn, Hn', Fp, Fq. split; simpl; intros; [apply R|reflexivity].
    - (* wait / recv *)
      rewrite Hn, Fq.
      destruct (take tag (chan c src q)) as [[m1 r1]|] eqn:T1; [|contradiction]. simpl.
      rewrite Hn', Fp. split; simpl; intros; [apply R|reflexivity].
    - (* wait / wait *)
      rewrite Hn, Hn', Fp, Fq. split; simpl; intros; [apply R|reflexivity].
  Qed.

  Lemma succ_ceq p (c d : config) : ceq c d -> ceq (succ_of p c) (succ_of p d).
  Proof.
    intros [H1 H2]. unfold succ_of. rewrite <- H1. destruct (procs c p); try (split; auto; fail).
    - split; simpl; intros; unfold upd1, upd2; rewrite ?H1, ?H2; reflexivity.
    - rewrite <- H2. destruct (take tag (chan c src p)) as [[m r]|]; [|split; auto].
      split; simpl; intros; unfold upd1, upd2; rewrite ?H1, ?H2; reflexivity.
    - split; simpl; intros; unfold upd1, upd2; rewrite ?H1, ?H2; reflexivity.
  Qed.

  Lemma diamond p q (c c1 c2 : config) : p <> q -> step P p c c1 -> step P q c c2 ->
    exists c3, step P q c1 c3 /\ step P p c2 c3.
  Proof.
    intros Hpq H1 H2.
    destruct (step_enabled _ _ _ H1) as [E1 S1]. destruct (step_enabled _ _ _ H2) as [E2 S2].
    assert (E1' : enabled q c1) by (eapply enabled_stable; eauto).
    assert (E2' : enabled p c2) by (eapply enabled_stable with (p := q); eauto).
    exists (succ_of q c1). split; [apply enabled_step; exact E1'|].
    eapply step_ceq; [apply ceq_refl| |apply enabled_step; exact E2'].
    eapply ceq_trans; [apply succ_ceq; exact S2|].
    eapply ceq_trans; [apply ceq_sym, commute; eauto|].
    apply succ_ceq, ceq_sym; exact S1.
  Qed.

  Lemma steps_ceq_l n (c d c' : config) : ceq c d -> steps P n c c' -> steps P n d c'.
  Proof.
    intros E H. destruct H as [c c' H1 H2|p n c c1 c' Hs H].
    - destruct E as [E1 E2]. constructor; intros; [rewrite <- E1|rewrite <- E2]; auto.
    - econstructor; [|exact H]. eapply step_ceq; [exact E|apply ceq_refl|exact Hs].
  Qed.
  Lemma steps_ceq_r n (c c' d' : config) : ceq c' d' -> steps P n c c' -> steps P n c d'.
  Proof.
    intros E H. revert d' E. induction H as [c c' H1 H2|p n c c1 c' Hs H IH]; intros d' [E1 E2].
    - constructor; intros; [rewrite H1, E1|rewrite H2, E2]; auto.
    - econstructor; [exact Hs|]. apply IH. split; auto.
  Qed.
  Lemma steps_trans n m (c c' c'' : config) : steps P n c c' -> steps P m c' c'' -> steps P (n + m) c c''.
  Proof.
    intros H; induction H as [c c' H1 H2|p n c c1 c' Hs H IH]; intros H'; simpl.
    - eapply steps_ceq_l; [|exact H']. split; intros; symmetry; auto.
    - econstructor; eauto.
  Qed.
  Lemma steps_0 (c c' : config) : steps P 0 c c' -> ceq c c'.
  Proof. inversion 1; subst; split; auto. Qed.
  Lemma steps_id (c : config) : steps P 0 c c.
  Proof. constructor; auto. Qed.
  Lemma steps_1 p (c c' : config) : step P p c c' -> steps P 1 c c'.
  Proof. intros; econstructor; [eauto|apply steps_id]. Qed.

  Lemma stuck_ceq (c d : config) : ceq c d -> stuck P c -> stuck P d.
  Proof. intros E S p c' H. apply (S p c'). eapply step_ceq; [apply ceq_sym; exact E|apply ceq_refl|exact H]. Qed.

  Lemma strip n : forall (c c' c2 : config) q, stuck P c' -> steps P n c c' -> step P q c c2 ->
    exists n', n = S n' /\ steps P n' c2 c'.
  Proof.
    induction n as [|n IH]; intros c c' c2 q St H Hq.
    - exfalso. apply steps_0 in H. eapply (stuck_ceq _ _ (ceq_sym _ _ H) St); eauto.
    - inversion H as [|p ? ? c1 ? Hs H1]; subst.
      destruct (Nat.eq_dec p q) as [->|N].
      + exists n. split; [reflexivity|]. eapply steps_ceq_l; [|exact H1]. eapply step_det; eauto.
      + destruct (diamond _ _ _ _ _ N Hs Hq) as (c3 & Hc3 & Hc3').
        destruct (IH _ _ _ _ St H1 Hc3) as (n' & -> & H3).
        exists (S n'). split; [reflexivity|]. econstructor; eauto.
  Qed.

  (** If one execution gets stuck after [n] steps, every execution has at most [n] steps and can be completed to
      the same stuck configuration. *)
  Lemma kahn n (c c' : config) : stuck P c' -> steps P n c c' ->
    forall m d, steps P m c d -> m <= n /\ steps P (n - m) d c'.
  Proof.
    intros St H m d Hd. revert n H. induction Hd as [c d H1 H2|p m c c1 d Hs Hd IH]; intros n H.
    - split; [lia|]. rewrite Nat.sub_0_r. eapply steps_ceq_l; [split; eauto|exact H].
    - destruct (strip _ _ _ _ _ St H Hs) as (n' & -> & H').
      destruct (IH _ H') as [L R]. split; [lia|]. simpl. exact R.
  Qed.

  Lemma finished_stuck res (c : config) : finished P res c -> stuck P c.
  Proof.
    intros [H _] p c' [Hp Hs]. rewrite (H p Hp) in Hs. exact Hs.
  Qed.

  (** One finishing execution determines all. *)
  Lemma finished_unique n (c c' : config) res :
    finished P res c' -> steps P n c c' ->
    forall m d, steps P m c d ->
      m <= n /\ steps P (n - m) d c' /\ (stuck P d -> m = n /\ finished P res d).
  Proof.
    intros F H m d Hd. destruct (kahn _ _ _ (finished_stuck _ _ F) H _ _ Hd) as [L R].
    split; [exact L|]. split; [exact R|]. intros Sd.
    remember (n - m) as k. destruct R as [d c' E1 E2|p k d d1 c' Hs R].
    - split; [lia|]. destruct F as [F1 F2]. split; intros; [rewrite E1|rewrite E2]; auto.
    - exfalso. eapply Sd; eauto.
  Qed.

  (** Two maximal executions agree. *)
  Lemma stuck_unique n m (c d e : config) :
    steps P n c d -> stuck P d -> steps P m c e -> stuck P e -> n = m /\ ceq d e.
  Proof.
    intros H Sd H' Se. destruct (kahn _ _ _ Sd H _ _ H') as [L R].
    remember (n - m) as k. destruct R as [e d E1 E2|p k e e1 d Hs R].
    - split; [lia|]. split; intros; symmetry; auto.
    - exfalso. eapply Se; eauto.
  Qed.
End Kahn.
