(** Phases of the collectives gather, bcast and barrier. *)
From Coq Require Import List ZArith Lia Arith Bool.
From Verif Require Import Net NetProofs NetPhase PyList Mgrit.
Import ListNotations.

Lemma lrun_eq {M B} (p : prog M B) i o a i' o' a' : lrun p i o a -> i = i' -> o = o' -> a = a' -> lrun p i' o' a'.
Proof. intros H -> -> ->. auto. Qed.

Section Collect.
  Context {A : App}.
  Variable P : nat.
  Hypothesis HP0 : 0 < P.

  Lemma msgs_of_seq (q a n : nat) (t : mtag) (f : nat -> Msg A) :
    msgs_of q (map (fun x => (x, t, f x)) (seq a n)) = if (a <=? q) && (q <? a + n) then [(t, f q)] else [].
  Proof.
    revert a. induction n as [|n IH]; intros a.
    - simpl. destruct (a <=? q) eqn:E; [|reflexivity]. apply Nat.leb_le in E. replace (q <? a + 0) with false; [reflexivity|].
      symmetry. apply Nat.ltb_ge. lia.
    - simpl seq. simpl map. rewrite msgs_of_cons, IH. destruct (a =? q) eqn:E.
      + apply Nat.eqb_eq in E. subst a. replace (S q <=? q) with false by (symmetry; apply Nat.leb_gt; lia).
        rewrite Nat.leb_refl. replace (q <? q + S n) with true by (symmetry; apply Nat.ltb_lt; lia). reflexivity.
      + apply Nat.eqb_neq in E. destruct ((a <=? q) && (q <? a + S n)) eqn:X.
        * apply andb_prop in X. destruct X as [X1 X2]. apply Nat.leb_le in X1. apply Nat.ltb_lt in X2.
          replace (S a <=? q) with true by (symmetry; apply Nat.leb_le; lia).
          replace (q <? S a + n) with true by (symmetry; apply Nat.ltb_lt; lia). reflexivity.
        * destruct ((S a <=? q) && (q <? S a + n)) eqn:Y; [|reflexivity]. apply andb_prop in Y. destruct Y as [Y1 Y2].
          apply Nat.leb_le in Y1. apply Nat.ltb_lt in Y2. apply andb_false_iff in X. destruct X as [X|X];
            [apply Nat.leb_gt in X|apply Nat.ltb_ge in X]; lia.
  Qed.
  Definition star_in (t : mtag) (f : nat -> Msg A) (r : nat) : list (nat * mtag * Msg A) :=
    if r =? 0 then map (fun x => (x, t, f x)) (seq 1 (P - 1)) else [].
  Definition star_out (t : mtag) (f : nat -> Msg A) (r : nat) : list (nat * mtag * Msg A) :=
    if r =? 0 then [] else [(0, t, f r)].
  Lemma star_match t f s d : s < P -> d < P -> msgs_of d (star_out t f s) = msgs_of s (star_in t f d).
  Proof.
    intros Hs Hd. unfold star_out, star_in. destruct (d =? 0) eqn:E.
    - apply Nat.eqb_eq in E. subst d. rewrite msgs_of_seq. destruct s as [|s]; [reflexivity|]. simpl.
      replace (s <? P - 1) with true by (symmetry; apply Nat.ltb_lt; lia). 
      replace (S s <? S (P - 1)) with true by (symmetry; apply Nat.ltb_lt; lia). reflexivity.
    - destruct s as [|s]; [reflexivity|]. simpl. unfold msgs_of. simpl. destruct d; [discriminate|reflexivity].
  Qed.
  Lemma star_down {B} t f (p : nat -> prog (Msg A) B) a :
    (forall r, r < P -> lrun (p r) (star_in t f r) (star_out t f r) (a r)) -> phase P p a.
  Proof.
    intros H. eapply phase_down; [exact H| | |].
    - intros s d Hs Hd. apply star_match; auto.
    - intros r x Hr. unfold star_out. destruct (r =? 0); [intros []|]. intros [<-|[]]. simpl. lia.
    - intros r x Hr. unfold star_in. destruct (r =? 0) eqn:E; [|intros []]. apply Nat.eqb_eq in E. subst r. intros Hx.
      apply in_map_iff in Hx. destruct Hx as (y & <- & Hy). apply in_seq in Hy. simpl. lia.
  Qed.
  Definition fan_out (t : mtag) (f : nat -> Msg A) (r : nat) : list (nat * mtag * Msg A) :=
    if r =? 0 then map (fun x => (x, t, f x)) (seq 1 (P - 1)) else [].
  Definition fan_in (t : mtag) (f : nat -> Msg A) (r : nat) : list (nat * mtag * Msg A) :=
    if r =? 0 then [] else [(0, t, f r)].
  Lemma fan_up {B} t f (p : nat -> prog (Msg A) B) a :
    (forall r, r < P -> lrun (p r) (fan_in t f r) (fan_out t f r) (a r)) -> phase P p a.
  Proof.
    intros H. eapply phase_up; [exact H| | |].
    - intros s d Hs Hd. symmetry. apply (star_match t f d s); auto.
    - intros r x Hr. unfold fan_out. destruct (r =? 0); [|intros []]. intros Hx.
      apply in_map_iff in Hx. destruct Hx as (y & <- & Hy). apply in_seq in Hy. simpl. lia.
    - intros r x Hr. unfold fan_in. destruct (r =? 0) eqn:E; [intros []|]. apply Nat.eqb_neq in E. intros [<-|[]]. simpl. lia.
  Qed.

  Lemma gather_from_run (vals : nat -> list (Sc A)) srcs : forall k ins outs a,
    lrun (k (map vals srcs)) ins outs a ->
    lrun (gather_from srcs k) (map (fun x => (x, TAG_GATHER, MList (vals x))) srcs ++ ins) outs a.
  Proof.
    induction srcs as [|q srcs IH]; intros k ins outs a H; [exact H|]. simpl. constructor. apply IH. exact H.
  Qed.
  Lemma gather_phase (vals : nat -> list (Sc A)) :
    phase P (fun r => gather P r (vals r)) (fun r => if r =? 0 then Some (map vals (seq 0 P)) else None).
  Proof.
    apply (star_down TAG_GATHER (fun r => MList (vals r))). intros r Hr. unfold gather, star_in, star_out. destruct (r =? 0) eqn:E.
    - apply Nat.eqb_eq in E. subst r. eapply lrun_eq.
      + eapply lrun_bind; [apply (gather_from_run vals (seq 1 (P - 1)) (fun ls => Ret ls)); apply lr_ret|apply lr_ret].
      + rewrite !app_nil_r. reflexivity.
      + reflexivity.
      + destruct P as [|p]; [lia|]. simpl. rewrite Nat.sub_0_r. reflexivity.
    - constructor. constructor.
  Qed.
  Lemma send_all_run ds t (m : Msg A) : lrun (send_all ds t m) [] (map (fun x => (x, t, m)) ds) (tt : unit).
  Proof. induction ds as [|d ds IH]; simpl; constructor. exact IH. Qed.
  Lemma recv_units_run ss t : lrun (recv_units (A:=A) ss t) (map (fun x => (x, t, MUnit)) ss) [] (tt : unit).
  Proof. induction ss as [|d ss IH]; simpl; constructor. exact IH. Qed.
  Lemma bcast_phase (cur : nat -> Sc A) : phase P (fun r => bcast P r (cur r)) (fun _ => cur 0).
  Proof.
    apply (fan_up TAG_BCAST (fun _ => MSc (cur 0))). intros r Hr. unfold bcast, fan_in, fan_out. destruct (r =? 0) eqn:E.
    - apply Nat.eqb_eq in E. subst r. eapply lrun_eq.
      + eapply lrun_bind; [apply send_all_run|apply lr_ret].
      + reflexivity.
      + rewrite app_nil_r. reflexivity.
      + reflexivity.
    - constructor. constructor.
  Qed.
  Lemma barrier_phase : phase P (fun r => barrier (A:=A) P r) (fun _ => tt).
  Proof.
    apply (phase_eq P _ (fun r => bind (if r =? 0 then recv_units (A:=A) (seq 1 (P - 1)) TAG_BARRIER else Send 0 TAG_BARRIER MUnit (Ret tt))
             (fun _ => if r =? 0 then send_all (seq 1 (P - 1)) TAG_BARRIER MUnit else recv_units [0] TAG_BARRIER))).
    { intros r Hr. unfold barrier. destruct (r =? 0); reflexivity. }
    apply (phase_bind P _ _ (fun _ => tt)).
    - apply (star_down TAG_BARRIER (fun _ => MUnit)). intros r Hr. unfold star_in, star_out. destruct (r =? 0).
      + apply recv_units_run.
      + constructor. constructor.
    - apply (fan_up TAG_BARRIER (fun _ => MUnit)). intros r Hr. unfold fan_in, fan_out. destruct (r =? 0).
      + apply send_all_run.
      + apply (recv_units_run [0]).
  Qed.

End Collect.
