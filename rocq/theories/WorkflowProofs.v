(** Proofs about the optimization workflow: a solver inside the world, collective operations, the two loops. *)
From Coq Require Import Reals List ZArith Lia Arith Bool Eqdep_dec.
From Verif Require Import Net NetProofs NetFifo NetPhase PyList Setup Mgrit Collect Workflow.
Import ListNotations.

(** ** A run of the workers alone is a phase of the world *)
Section EmbedProofs.
  Context {M1 M2 A : Type}.
  Variable inj : M1 -> M2.
  Variable prj : M2 -> option M1.
  Hypothesis prj_inj : forall m, prj (inj m) = Some m.
  Variable W : nat.
  Notation emb := (embed inj prj).
  Definition emb_msg (x : mtag * M1) : mtag * M2 := (on_workers (fst x), inj (snd x)).

  Section Rel.
    Context {B : Type}.
    Variable k : nat -> A -> prog M2 B.
    Record erel (c : config M1 A) (C : config M2 B) : Prop := {
      er_procs : forall r, r < W -> peq (procs C (S r)) (bind (emb (procs c r)) (k (S r)));
      er_chan : forall s d, chan C (S s) (S d) = map emb_msg (chan c s d);
      er_out0 : forall d, chan C 0 d = [];
      er_in0 : forall s, chan C s 0 = [] }.

    Lemma erel_ceq c c' C : ceq c c' -> erel c C -> erel c' C.
    Proof.
      intros [E1 E2] [H1 H2 H3 H4]. constructor; auto.
      - intros r Hr. rewrite <- E1. auto.
      - intros s d. rewrite <- E2. auto.
    Qed.

    Lemma embed_step p c c' C : step W p c c' -> headed p c -> erel c C ->
      exists C', step (S W) (S p) C C' /\ headed (S p) C /\ erel c' C' /\ procs C' 0 = procs C 0.
    Proof.
      intros [Hp Hs] Hh [H1 H2 H3 H4]. pose proof (H1 p Hp) as E. unfold headed in Hh |- *.
      destruct (procs c p) as [a|e|d t m q|s t q|q] eqn:Ep; try contradiction.
      - destruct Hs as [S1 S2]. simpl in E. inversion E as [| |? ? ? k0 ? Hk E1| |]; subst.
        exists (mkConfig (upd1 (procs C) (S p) k0) (upd2 (chan C) (S p) (S d) (chan C (S p) (S d) ++ [(on_workers t, inj m)]))).
        split; [|split; [exact I|split]].
        + split; [lia|]. rewrite <- E1. split; [intros r; reflexivity|]. intros s d'. unfold upd2; simpl chan.
          destruct ((s =? S p) && (d' =? S d)) eqn:E2; [|reflexivity]. apply andb_prop in E2. destruct E2 as [E2 E3].
          apply Nat.eqb_eq in E2, E3. subst. reflexivity.
        + constructor; simpl procs; simpl chan; unfold upd1, upd2.
          * intros r Hr. rewrite S1. simpl Nat.eqb. destruct (r =? p) eqn:R; [apply Nat.eqb_eq in R; subst; exact Hk|auto].
          * intros s d'. rewrite S2. simpl Nat.eqb. destruct ((s =? p) && (d' =? d)) eqn:R; [|apply H2].
            apply andb_prop in R. destruct R as [R1 R2]. apply Nat.eqb_eq in R1, R2. subst. rewrite H2, map_app. reflexivity.
          * intros d'. simpl. apply H3.
          * intros s. rewrite andb_false_r. apply H4.
        + reflexivity.
      - destruct Hs as (m & rest & Ht & S1 & S2). destruct Hh as (m' & rest' & Hq). rewrite Hq in Ht. simpl in Ht.
        rewrite Z.eqb_refl in Ht. injection Ht as -> ->. simpl in E. inversion E as [| | |? ? k0 ? Hk E1|]; subst.
        assert (Hc : chan C (S s) (S p) = (on_workers t, inj m) :: map emb_msg rest) by (rewrite H2, Hq; reflexivity).
        exists (mkConfig (upd1 (procs C) (S p) (k0 (inj m))) (upd2 (chan C) (S s) (S p) (map emb_msg rest))).
        split; [|split; [eauto|split]].
        + split; [lia|]. rewrite <- E1. exists (inj m), (map emb_msg rest). split; [|split; intros; reflexivity].
          rewrite Hc. simpl. rewrite Z.eqb_refl. reflexivity.
        + constructor; simpl procs; simpl chan; unfold upd1, upd2.
          * intros r Hr. rewrite S1. simpl Nat.eqb. destruct (r =? p) eqn:R; [|auto]. apply Nat.eqb_eq in R. subst.
            specialize (Hk (inj m)). rewrite prj_inj in Hk. exact Hk.
          * intros s' d'. rewrite S2. simpl Nat.eqb. destruct ((s' =? s) && (d' =? p)); [reflexivity|apply H2].
          * intros d'. simpl. apply H3.
          * intros s'. rewrite andb_false_r. apply H4.
        + reflexivity.
      - destruct Hs as (Hw & S1 & S2). simpl in E. inversion E as [| | | |k0 ? Hk E1]; subst.
        exists (mkConfig (upd1 (procs C) (S p) k0) (chan C)). split; [|split; [exact I|split]].
        + split; [lia|]. rewrite <- E1. split; [|split; intros; reflexivity]. intros [|d]; [apply H4|]. rewrite H2, Hw. reflexivity.
        + constructor; simpl procs; simpl chan; unfold upd1; auto.
          * intros r Hr. rewrite S1. simpl Nat.eqb. destruct (r =? p) eqn:R; [apply Nat.eqb_eq in R; subst; exact Hk|auto].
          * intros s d. rewrite S2. apply H2.
        + reflexivity.
    Qed.

    Lemma embed_steps n c c' : fsteps W n c c' -> forall C, erel c C ->
      exists C', fsteps (S W) n C C' /\ erel c' C' /\ procs C' 0 = procs C 0.
    Proof.
      induction 1 as [c c' E|p n c c1 c' Hs Hh H IH]; intros C R.
      - exists C. split; [apply fsteps_id|]. split; [eapply erel_ceq; eauto|reflexivity].
      - destruct (embed_step p c c1 C Hs Hh R) as (C1 & S1 & S2 & R1 & E1). destruct (IH C1 R1) as (C' & S3 & R' & E').
        exists C'. split; [econstructor; eauto|]. split; [auto|congruence].
    Qed.
  End Rel.

  Lemma embed_phase (p : nat -> prog M1 A) a a0 n c : fsteps W n (initial p) c -> finished W a c ->
    phase (S W) (fun r => match r with 0 => Ret a0 | S r' => emb (p r') end) (fun r => match r with 0 => a0 | S r' => a r' end).
  Proof.
    intros H [F1 F2] B k C HC Hch. destruct (embed_steps k n (initial p) c H C) as (C' & S1 & [R1 R2 R3 R4] & E0).
    - constructor; auto. intros r Hr. apply (HC (S r)). lia.
    - exists n, C'. split; [exact S1|]. split.
      + intros [|r] Hr.
        * rewrite E0. apply (HC 0). lia.
        * specialize (R1 r ltac:(lia)). rewrite F1 in R1 by lia. exact R1.
      + intros [|s] d; [auto|]. destruct d as [|d]; [auto|]. rewrite R2, F2. reflexivity.
  Qed.
End EmbedProofs.

(** ** Collective operations *)
Lemma send_to_all_run {M A} ds t (m : M) (k : prog M A) ins outs a :
  lrun k ins outs a -> lrun (send_to_all ds t m k) ins (map (fun d => (d, t, m)) ds ++ outs) a.
Proof. intros H. induction ds as [|d ds IH]; simpl; [exact H|]. constructor. exact IH. Qed.
Lemma recv_from_all_run {M A} t (f : nat -> M) (k : list M -> prog M A) ins outs a srcs : forall got,
  lrun (k (got ++ map f srcs)) ins outs a ->
  lrun (recv_from_all srcs t got k) (map (fun s => (s, t, f s)) srcs ++ ins) outs a.
Proof.
  induction srcs as [|s srcs IH]; intros got H; simpl in *; [rewrite app_nil_r in H; exact H|].
  constructor. apply IH. rewrite <- app_assoc. exact H.
Qed.
Lemma msgs_of_const {M} (q : nat) (t : mtag) (m : M) ds :
  msgs_of q (map (fun d => (d, t, m)) ds) = map (fun _ => (t, m)) (filter (fun d => d =? q) ds).
Proof.
  induction ds as [|d ds IH]; [reflexivity|]. simpl map at 1. rewrite msgs_of_cons, IH. simpl. destruct (d =? q); reflexivity.
Qed.
Lemma filter_one (q : nat) l : NoDup l -> filter (fun d => d =? q) l = if existsb (Nat.eqb q) l then [q] else [].
Proof.
  induction l as [|d l IH]; intros H; [reflexivity|]. inversion H as [|? ? Hn Hd]; subst. simpl. rewrite IH by auto.
  rewrite (Nat.eqb_sym q d). destruct (d =? q) eqn:E; [|reflexivity]. apply Nat.eqb_eq in E. subst.
  destruct (existsb (Nat.eqb q) l) eqn:X; [|reflexivity]. apply existsb_exists in X. destruct X as (y & Hy & Ey). apply Nat.eqb_eq in Ey.
  subst. contradiction.
Qed.

Lemma bcast_world_phase {M} P root (m : nat -> M) : root < P ->
  phase P (fun r => world_bcast P root r (m r)) (fun _ => m root).
Proof.
  intros HR. set (others := filter (fun d => negb (d =? root)) (seq 0 P)).
  assert (HO : forall d, In d others <-> d < P /\ d <> root).
  { intros d. unfold others. rewrite filter_In, in_seq, Bool.negb_true_iff, Nat.eqb_neq. lia. }
  assert (HN : NoDup others) by (apply NoDup_filter, seq_NoDup).
  apply (phase_order P _ (fun r => if r =? root then [] else [(root, TAG_WORLD, m root)])
           (fun r => if r =? root then map (fun d => (d, TAG_WORLD, m root)) others else []) _ (root :: others)).
  - intros r. simpl. rewrite HO. destruct (Nat.eq_dec r root); subst; intuition lia.
  - constructor; [|exact HN]. rewrite HO. tauto.
  - intros r Hr. unfold world_bcast. destruct (r =? root) eqn:E.
    + apply Nat.eqb_eq in E. subst r. eapply lrun_eq; [apply send_to_all_run; apply lr_ret| | |]; auto. rewrite app_nil_r. reflexivity.
    + constructor. constructor.
  - intros s d Hs Hd. destruct (s =? root) eqn:E.
    + apply Nat.eqb_eq in E. subst s. rewrite msgs_of_const, filter_one by auto. destruct (d =? root) eqn:E2.
      * apply Nat.eqb_eq in E2. subst d. replace (existsb (Nat.eqb root) others) with false; [reflexivity|]. symmetry.
        apply Bool.not_true_iff_false. intros X. apply existsb_exists in X. destruct X as (y & Hy & Ey). apply Nat.eqb_eq in Ey. subst. apply HO in Hy. tauto.
      * rewrite msgs_of_cons, Nat.eqb_refl. apply Nat.eqb_neq in E2. replace (existsb (Nat.eqb d) others) with true; [reflexivity|].
        symmetry. apply existsb_exists. exists d. rewrite HO, Nat.eqb_refl. auto.
    + destruct (d =? root); [reflexivity|]. rewrite msgs_of_cons. rewrite Nat.eqb_sym, E. reflexivity.
  - intros r x Hr Hx. destruct (r =? root); [|destruct Hx]. apply in_map_iff in Hx. destruct Hx as (d & <- & Hd). apply HO in Hd. simpl. lia.
  - intros l1 r l2 E x Hx. destruct (r =? root) eqn:R; [destruct Hx|]. destruct Hx as [<-|[]]. simpl. apply Nat.eqb_neq in R.
    destruct l1 as [|y l1]; simpl in E; injection E as E1 E2; [congruence|]. left. auto.
Qed.

Section Gather.
  Context {D : Type}.
  Variable W : nat.
  Hypothesis HW : 0 < W.
  Lemma msgs_of_fun {M} (q a n : nat) (t : mtag) (f : nat -> M) :
    msgs_of q (map (fun x => (x, t, f x)) (seq a n)) = if (a <=? q) && (q <? a + n) then [(t, f q)] else [].
  Proof.
    revert a. induction n as [|n IH]; intros a; simpl.
    - replace ((a <=? q) && (q <? a + 0)) with false; [reflexivity|]. symmetry. apply andb_false_iff.
      destruct (Nat.leb_spec a q); [right; apply Nat.ltb_ge; lia|auto].
    - rewrite msgs_of_cons, IH. destruct (Nat.eqb_spec a q) as [->|N].
      + replace (S q <=? q) with false by (symmetry; apply Nat.leb_gt; lia). rewrite Nat.leb_refl.
        replace (q <? q + S n) with true by (symmetry; apply Nat.ltb_lt; lia). reflexivity.
      + replace (a <=? q) with (S a <=? q) by (apply Bool.eq_iff_eq_true; rewrite !Nat.leb_le; lia).
        replace (a + S n) with (S (a + n)) by lia. reflexivity.
  Qed.
  Lemma recv_bind {M A B} srcs t (f : list M -> A) (g : A -> prog M B) : forall got,
    peq (recv_from_all srcs t got (fun ls => g (f ls))) (bind (recv_from_all srcs t got (fun ls => Ret (f ls))) g).
  Proof. induction srcs as [|s srcs IH]; intros got; simpl; [apply peq_refl|]. constructor. intros m. apply IH. Qed.
  Lemma concat_ones (l : list nat) (x : nat -> D) : concat (map (fun s => [x s]) l) = map x l.
  Proof. induction l; simpl; congruence. Qed.
  Lemma all_gather_phase (x : nat -> D) : phase W (fun r => all_gather W r (x r)) (fun _ => map x (seq 0 W)).
  Proof.
    set (all := map x (seq 0 W)).
    apply (phase_peq W _ (fun r => bind
      (if r =? 0 then recv_from_all (seq 1 (W - 1)) TAG_ALLGATHER [] (fun ls => Ret (x r :: concat ls)) else Send 0 TAG_ALLGATHER [x r] (Ret []))
      (fun l => if r =? 0 then send_to_all (seq 1 (W - 1)) TAG_ALLGATHER l (Ret l) else Recv 0 TAG_ALLGATHER (fun l => Ret l)))).
    { intros r Hr. unfold all_gather. destruct (r =? 0); [|apply peq_refl].
      apply (recv_bind (seq 1 (W - 1)) TAG_ALLGATHER (fun ls => x r :: concat ls) (fun l => send_to_all (seq 1 (W - 1)) TAG_ALLGATHER l (Ret l))). }
    assert (Eall : x 0 :: map x (seq 1 (W - 1)) = all).
    { unfold all. destruct W as [|w]; [lia|]. simpl. rewrite Nat.sub_0_r. reflexivity. }
    apply (phase_bind W _ _ (fun r => if r =? 0 then all else [])).
    - apply (phase_down W _ (fun r => if r =? 0 then map (fun s => (s, TAG_ALLGATHER, [x s])) (seq 1 (W - 1)) else [])
               (fun r => if r =? 0 then [] else [(0, TAG_ALLGATHER, [x r])])).
      + intros r Hr. destruct (r =? 0) eqn:E; [|constructor; constructor]. apply Nat.eqb_eq in E. subst r.
        eapply lrun_eq; [apply (recv_from_all_run TAG_ALLGATHER (fun s => [x s])); apply lr_ret| | |]; auto.
        * rewrite app_nil_r. reflexivity.
        * simpl. rewrite concat_ones. exact Eall.
      + intros s d Hs Hd. destruct d as [|d].
        * simpl Nat.eqb at 2. cbv iota. rewrite msgs_of_fun. destruct s as [|s]; [reflexivity|]. simpl Nat.eqb. cbv iota. rewrite msgs_of_cons. simpl.
          replace (S s <? S (W - 1)) with true by (symmetry; apply Nat.ltb_lt; lia). reflexivity.
        * destruct s; reflexivity.
      + intros r y Hr Hy. destruct (r =? 0); [destruct Hy|]. destruct Hy as [<-|[]]. simpl. lia.
      + intros r y Hr Hy. destruct (r =? 0) eqn:E; [|destruct Hy]. apply Nat.eqb_eq in E. apply in_map_iff in Hy. destruct Hy as (q & <- & Hq).
        apply in_seq in Hq. simpl. lia.
    - apply (phase_up W _ (fun r => if r =? 0 then [] else [(0, TAG_ALLGATHER, all)])
               (fun r => if r =? 0 then map (fun d => (d, TAG_ALLGATHER, all)) (seq 1 (W - 1)) else [])).
      + intros r Hr. destruct (r =? 0) eqn:E; [|constructor; constructor].
        eapply lrun_eq; [apply send_to_all_run; apply lr_ret| | |]; auto. rewrite app_nil_r. reflexivity.
      + intros s d Hs Hd. destruct s as [|s].
        * simpl Nat.eqb at 1. cbv iota. rewrite (msgs_of_fun d 1 (W - 1) TAG_ALLGATHER (fun _ => all)). destruct d as [|d]; [reflexivity|].
          simpl Nat.eqb. cbv iota. rewrite msgs_of_cons. simpl. replace (S d <? S (W - 1)) with true by (symmetry; apply Nat.ltb_lt; lia). reflexivity.
        * destruct d; reflexivity.
      + intros r y Hr Hy. destruct (r =? 0); [|destruct Hy]. apply in_map_iff in Hy. destruct Hy as (q & <- & Hq).
        apply in_seq in Hq. simpl. lia.
      + intros r y Hr Hy. destruct (r =? 0) eqn:E; [destruct Hy|]. apply Nat.eqb_neq in E. destruct Hy as [<-|[]]. simpl. lia.
  Qed.
End Gather.

(** ** The loops of the master and the workers *)
(** the optimizer applied to a function, and the number of evaluations *)
Fixpoint optimum {X Res} (f : X -> R) (opt : optimizer X Res) : Res :=
  match opt with Done s => s | Ask x k => optimum f (k (f x)) end.
Fixpoint evaluations {X Res} (f : X -> R) (opt : optimizer X Res) : nat :=
  match opt with Done _ => 0 | Ask x k => S (evaluations f (k (f x))) end.

Section Loops.
  Context {X Res : Type}.
  Variable X_dec : forall x y : X, {x = y} + {x <> y}.
  Variable M : X -> Type.
  Variable solver : forall x : X, nat -> prog (M x) (list val).
  Variable times : list Z.
  Variable region : Z.
  Variable W : nat.
  Hypothesis HW : 0 < W.
  Variable vals : X -> nat -> list val.
  Hypothesis solves : forall x, exists n c, fsteps W n (initial (solver x)) c /\ finished W (vals x) c.
  Variable means : X -> val.
  Hypothesis means_eq : forall x, region_means times region (map (vals x) (seq 0 W)) = Some (means x).
  Notation P := (S W).
  Notation Msg := (WMsg M).
  Notation f := (fun x => objective_function (means x)).

  Lemma run_prj_inj x (m : M x) : run_prj X_dec M x (WRun M x m) = Some m.
  Proof. simpl. destruct (X_dec x x) as [e|n]; [|congruence]. rewrite (UIP_dec X_dec e eq_refl). reflexivity. Qed.

  Lemma run_phase x : phase P (fun r => match r with 0 => Ret (means x) | S r' => run_mgrit X_dec M solver times region W x r' end) (fun _ => means x).
  Proof.
    destruct (solves x) as (n & c & H1 & H2).
    apply (phase_eq P _ (fun r => bind (match r with 0 => Ret [] | S r' => embed (WRun M x) (run_prj X_dec M x) (solver x r') end)
      (fun v => bind (match r with 0 => Ret [] | S r' => embed (WGather M) (gather_prj M) (all_gather W r' v) end)
        (fun all => match r with 0 => Ret (means x) | S _ => match region_means times region all with Some v => Ret v | None => Raise IndexError end end)))).
    { intros [|r] Hr; reflexivity. }
    eapply phase_bind; [apply (embed_phase (WRun M x) (run_prj X_dec M x) (run_prj_inj x) W (solver x) (vals x) [] n c H1 H2)|].
    destruct (phase_fifo W _ _ (all_gather_phase W HW (vals x))) as (n2 & c2 & H3 & H4).
    eapply phase_bind.
    - eapply phase_eq; [|apply (embed_phase (WGather M) (gather_prj M) (fun _ => eq_refl) W (fun r => all_gather W r (vals x r)) _ [] n2 c2 H3 H4)].
      intros [|r] Hr; reflexivity.
    - apply (phase_eq P _ (fun r => Ret (means x))); [|apply phase_ret]. intros [|r] Hr; [reflexivity|]. cbv beta iota. rewrite means_eq. reflexivity.
  Qed.

  Notation work := (worker X_dec M solver times region).
  Notation run := (run_mgrit X_dec M solver times region W).
  Definition pass (fuel r counter : nat) (m : Msg) : prog Msg nat :=
    match m with
    | WFlag _ None => Ret counter
    | WFlag _ (Some x) =>
        v <- run x (r - 1) ;;
        _ <- world_bcast P W r (WRes M v) ;;
        work fuel P r (counter + 1)
    | _ => Raise TypeError
    end.
  Lemma worker_eq fuel r counter : work (S fuel) P r counter = bind (world_bcast P 0 r (WFlag M None)) (pass fuel r counter).
  Proof. unfold pass. cbn [worker]. replace (P - 1) with W by lia. reflexivity. Qed.
  Definition answer (k : R -> optimizer X Res) (m : Msg) : prog Msg Res :=
    match m with WRes _ v => master M P (k (objective_function v)) | _ => Raise TypeError end.
  Lemma master_eq x k : master M P (Ask x k) =
    bind (world_bcast P 0 0 (WFlag M (Some x))) (fun _ => bind (world_bcast P W 0 (WRes M (1, 1)%R)) (answer k)).
  Proof. cbn [master]. replace (P - 1) with W by lia. reflexivity. Qed.

  Lemma loop_phase (opt : optimizer X Res) : forall fuel counter, evaluations f opt < fuel ->
    phase P (fun r => if r =? 0 then bind (master M P opt) (fun s => Ret (inl s)) else bind (work fuel P r counter) (fun n => Ret (inr n)))
      (fun r => if r =? 0 then inl (optimum f opt) else inr (counter + evaluations f opt)).
  Proof.
    induction opt as [s|x k IH]; intros fuel counter Hf; (destruct fuel as [|fuel]; [simpl in Hf; lia|]).
    - apply (phase_peq P _ (fun r => bind (world_bcast P 0 r (WFlag M None)) (fun m =>
               if r =? 0 then Ret (inl s) else bind (pass fuel r counter m) (fun n => Ret (inr n))))).
      { intros r Hr. destruct (r =? 0) eqn:R.
        - apply Nat.eqb_eq in R. subst r. apply bind_assoc.
        - rewrite worker_eq. apply bind_assoc. }
      eapply phase_bind; [apply (bcast_world_phase P 0 (fun _ => WFlag M None)); lia|].
      simpl. rewrite Nat.add_0_r. apply (phase_eq P _ (fun r => Ret (if r =? 0 then inl s else inr counter))); [|apply phase_ret].
      intros r Hr. destruct (r =? 0); reflexivity.
    - apply (phase_peq P _ (fun r => bind (world_bcast P 0 r (if r =? 0 then WFlag M (Some x) else WFlag M None)) (fun m =>
        if r =? 0 then bind (bind (world_bcast P W 0 (WRes M (1, 1)%R)) (answer k)) (fun s => Ret (inl s))
        else bind (pass fuel r counter m) (fun n => Ret (inr n))))).
      { intros r Hr. destruct r as [|r].
        - rewrite master_eq. cbn [Nat.eqb]. apply bind_assoc.
        - cbn [Nat.eqb]. rewrite worker_eq. apply bind_assoc. }
      eapply phase_bind; [apply (bcast_world_phase P 0 (fun r => if r =? 0 then WFlag M (Some x) else WFlag M None)); lia|].
      cbv beta. cbn [Nat.eqb].
      apply (phase_peq P _ (fun r => bind (match r with 0 => Ret (means x) | S r' => run x r' end) (fun v =>
          bind (world_bcast P W r (WRes M (if r =? 0 then (1, 1)%R else v))) (fun a =>
            if r =? 0 then bind (answer k a) (fun s => Ret (inl s)) else bind (work fuel P r (counter + 1)) (fun n => Ret (inr n)))))).
      { intros r Hr. destruct r as [|r]; cbn [Nat.eqb].
        - exact (bind_assoc (world_bcast P W 0 (WRes M (1, 1)%R)) (answer k) (fun s => Ret (inl s))).
        - unfold pass. replace (S r - 1) with r by lia. eapply peq_trans; [apply bind_assoc|]. apply bind_peq. intros v. apply bind_assoc. }
      eapply phase_bind; [apply run_phase|]. cbv beta.
      eapply phase_bind; [apply (bcast_world_phase P W (fun r => WRes M (if r =? 0 then (1, 1)%R else means x))); lia|]. cbv beta.
      destruct (Nat.eqb_spec W 0) as [E|_]; [lia|]. unfold answer.
      eapply phase_eq; [intros r Hr; reflexivity|].
      simpl optimum. simpl evaluations in *. replace (counter + S (evaluations f (k (f x)))) with (counter + 1 + evaluations f (k (f x))) by lia.
      apply (IH (f x) fuel (counter + 1)). lia.
  Qed.
End Loops.
