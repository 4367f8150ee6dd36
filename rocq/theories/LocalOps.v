(** The solver operations under the local convergence criteria: which messages they exchange, whatever the values. *)
From Coq Require Import List ZArith Lia Arith Bool Permutation.
From Verif Require Import Net NetProofs NetPhase PyList ListFacts Setup SplitProofs Spec SetupProofs Mgrit Collect Sim Pipeline.
Import ListNotations.

(** A kind of message: level and operation (the two indices of tags_send). *)
Definition slot : Type := (nat * nat)%type.
Definition bump (K : nat -> nat -> Z) (x : slot) : nat -> nat -> Z := at2 K (fst x) (snd x) (K (fst x) (snd x) + 1)%Z.
Definition bumps (K : nat -> nat -> Z) (h : list slot) : nat -> nat -> Z := fold_left bump h K.

Lemma ex_nth {B} (l : list B) i : i < length l -> exists x, nth_error l i = Some x.
Proof. intros H. destruct (nth_error l i) eqn:E; [eauto|]. apply nth_error_None in E. lia. Qed.

Section LocalOps.
  Context {A : App}.
  Variable o : Opts A.
  Variable P : nat.
  Notation grids := (o_grids o).
  Notation so := (o_set_order o).
  Notation L := (length (o_grids o)).
  Notation N := (N grids).
  Notation lo := (lo grids P).
  Notation cnt := (cnt grids P).
  Notation off := (off grids P).
  Notation loc := (loc grids P).
  Notation isC := (isC grids).
  Notation isF := (isF grids).
  Notation owner := (owner grids P).
  Notation has := (has grids P).
  Notation more := (more grids P).
  Notation cps := (cps grids P).
  Notation fps2 := (fps2 grids so P).
  Notation cpt := (cpt grids).
  Notation infos := (infos o P).
  Notation cnd := (cnd o).
  Notation sflag := (sflag o P).
  Notation rflag := (rflag o P).
  Notation info l r := (closed_info grids so P l r).
  Hypothesis HV : valid_hierarchy grids.
  Hypothesis HP0 : 0 < P.
  Hypothesis HP : P <= N 0.
  Hypothesis Hloc : gcc o = false.
  Hypothesis Hperm : forall l r, l < L -> r < P -> order_perm grids so P l r.
  (** ranks that have left the loop and send their last messages *)
  Variable cl : nat -> bool.

  Definition dst (x : slot) (r : nat) : nat := owner (blvl (fst x) (snd x)) (lo (blvl (fst x) (snd x)) (S r)).
  Definition src (x : slot) (r : nat) : nat := owner (blvl (fst x) (snd x)) (lo (blvl (fst x) (snd x)) r - 1).
  Definition tagof (K : nat -> nat -> Z) (x : slot) : mtag := Tag (base (snd x) + K (fst x) (snd x))%Z (fst x) (snd x).

  (** ** Tables *)
  Lemma has_lo l r : l < L -> r < P -> has l r = true -> lo l r < lo l (S r).
  Proof. intros Hl Hr H. apply (has_iff o P HP0 HP) in H; auto. Qed.
  Lemma last_is_c_eq l r : i_last_is_c (info l r) = sflag l 0 r.
  Proof. unfold closed_info, Sim.sflag, Sim.cnd. cbn [i_last_is_c]. change (blvl l 0) with l. rewrite <- !andb_assoc. reflexivity. Qed.
  Lemma first_is_f_eq l r : i_first_is_f (info l r) = rflag l 0 r.
  Proof. unfold closed_info, Sim.rflag, Sim.cnd. cbn [i_first_is_f]. change (blvl l 0) with l. rewrite <- !andb_assoc. do 2 f_equal. apply andb_comm. Qed.
  Lemma comm_back_eq l r : i_comm_back (info l r) = sflag l 1 r.
  Proof. unfold closed_info, Sim.sflag, Sim.cnd. cbn [i_comm_back]. change (blvl l 1) with l. rewrite <- !andb_assoc. reflexivity. Qed.
  Lemma comm_front_eq l r : i_comm_front (info l r) = rflag l 1 r.
  Proof. unfold closed_info, Sim.rflag, Sim.cnd. cbn [i_comm_front]. change (blvl l 1) with l. rewrite <- !andb_assoc. do 2 f_equal. apply andb_comm. Qed.
  Lemma last_is_f_eq l op r : exch_op op -> i_last_is_f (info l r) = sflag l op r.
  Proof.
    intros E. unfold closed_info, Sim.sflag. cbn [i_last_is_f]. rewrite (exch_lvl l op E), (exch_cnd o l op _ E). rewrite <- !andb_assoc. reflexivity.
  Qed.
  Lemma first_is_c_eq l op r : exch_op op -> i_first_is_c (info l r) = rflag l op r.
  Proof.
    intros E. unfold closed_info, Sim.rflag. cbn [i_first_is_c]. rewrite (exch_lvl l op E), (exch_cnd o l op _ E). rewrite <- !andb_assoc. do 2 f_equal. apply andb_comm.
  Qed.
  Lemma send_to_4 l r : (0 <=? i_send_to (info (S l) r))%Z = sflag l 4 r.
  Proof.
    unfold closed_info, Sim.sflag, Sim.cnd. cbn [i_send_to]. change (blvl l 4) with (S l). destruct (has (S l) r && more (S l) r); [|reflexivity].
    simpl. apply Z.leb_le. lia.
  Qed.
  Lemma get_from_4 l r : (0 <=? i_get_from (info (S l) r))%Z = rflag l 4 r.
  Proof.
    unfold closed_info, Sim.rflag, Sim.cnd. cbn [i_get_from]. change (blvl l 4) with (S l). destruct (has (S l) r && (0 <? lo (S l) r)); [|reflexivity].
    simpl. apply Z.leb_le. lia.
  Qed.
  Lemma send_to_5 l r : negb (i_send_to (info l r) =? -99)%Z = sflag l 5 r.
  Proof.
    unfold closed_info, Sim.sflag, Sim.cnd. cbn [i_send_to]. change (blvl l 5) with l. destruct (has l r && more l r); [|reflexivity].
    simpl. apply negb_true_iff, Z.eqb_neq. lia.
  Qed.
  Lemma get_from_5 l r : negb (i_get_from (info l r) =? -99)%Z = rflag l 5 r.
  Proof.
    unfold closed_info, Sim.rflag, Sim.cnd. cbn [i_get_from]. change (blvl l 5) with l. destruct (has l r && (0 <? lo l r)); [|reflexivity].
    simpl. apply negb_true_iff, Z.eqb_neq. lia.
  Qed.
  Lemma sflag_parts x r : sflag (fst x) (snd x) r = true -> has (blvl (fst x) (snd x)) r = true /\ more (blvl (fst x) (snd x)) r = true.
  Proof. unfold Sim.sflag. intros H. apply andb_prop in H. destruct H as [H _]. apply andb_prop in H. exact H. Qed.
  Lemma rflag_parts x r : rflag (fst x) (snd x) r = true -> has (blvl (fst x) (snd x)) r = true /\ 0 < lo (blvl (fst x) (snd x)) r.
  Proof.
    unfold Sim.rflag. intros H. apply andb_prop in H. destruct H as [H _]. apply andb_prop in H. destruct H as [H1 H2].
    apply Nat.ltb_lt in H2. auto.
  Qed.
  Lemma send_to_dst x r : sflag (fst x) (snd x) r = true -> i_send_to (info (blvl (fst x) (snd x)) r) = Z.of_nat (dst x r).
  Proof. intros H. destruct (sflag_parts x r H) as [H1 H2]. unfold closed_info. cbn [i_send_to]. rewrite H1, H2. reflexivity. Qed.
  Lemma get_from_src x r : rflag (fst x) (snd x) r = true -> i_get_from (info (blvl (fst x) (snd x)) r) = Z.of_nat (src x r).
  Proof.
    intros H. destruct (rflag_parts x r H) as [H1 H2]. unfold closed_info. cbn [i_get_from]. rewrite H1.
    replace (0 <? lo (blvl (fst x) (snd x)) r) with true by (symmetry; apply Nat.ltb_lt; auto). reflexivity.
  Qed.
  Lemma dst_range x r : blvl (fst x) (snd x) < L -> r < P -> sflag (fst x) (snd x) r = true -> r < dst x r < P.
  Proof.
    intros Hx Hr H. destruct (sflag_parts x r H) as [H1 H2]. pose proof H2 as H3. unfold SetupProofs.more in H3. apply Nat.ltb_lt in H3.
    assert (D : dst x r < P) by (apply (owner_spec grids P HV HP0 HP); auto). split; [|exact D].
    apply (bnd_lo o P HV HP0 HP (blvl (fst x) (snd x)) r (dst x r)); auto.
  Qed.
  Lemma src_range x r : blvl (fst x) (snd x) < L -> r < P -> rflag (fst x) (snd x) r = true -> src x r < r.
  Proof.
    intros Hx Hr H. destruct (rflag_parts x r H) as [H1 H2]. pose proof (lo_le_N grids P HP0 HP (blvl (fst x) (snd x)) r).
    assert (D : src x r < P) by (apply (owner_spec grids P HV HP0 HP); auto; lia).
    destruct (proj2 (bnd_iff o P HV HP0 HP (blvl (fst x) (snd x)) (src x r) r Hx D Hr)) as (X1 & X2 & X3); auto.
    apply (bnd_lo o P HV HP0 HP (blvl (fst x) (snd x)) (src x r) r); auto.
  Qed.
  (** The two ends of a boundary agree on what crosses it. *)
  Definition pair_on (s d : nat) (x : slot) : bool := sflag (fst x) (snd x) s && (dst x s =? d).
  Lemma pair_match x s d : blvl (fst x) (snd x) < L -> s < P -> d < P ->
    rflag (fst x) (snd x) d && (src x d =? s) = pair_on s d x.
  Proof.
    intros Hx Hs Hd. unfold pair_on. apply Bool.eq_iff_eq_true. rewrite !andb_true_iff, !Nat.eqb_eq.
    pose proof (bnd_iff o P HV HP0 HP (blvl (fst x) (snd x)) s d Hx Hs Hd) as B. unfold Sim.rflag, Sim.sflag, dst, src. split.
    - intros [H1 H2]. apply andb_prop in H1. destruct H1 as [H1 H3]. apply andb_prop in H1. destruct H1 as [H1 H4]. apply Nat.ltb_lt in H4.
      destruct (proj2 B (conj H1 (conj H4 H2))) as (X1 & X2 & X3).
      destruct (bnd_lo o P HV HP0 HP (blvl (fst x) (snd x)) s d Hx Hs Hd X1 X2 X3) as [E _]. rewrite <- E. rewrite X1, X2, H3.
      split; [reflexivity|]. rewrite E. exact X3.
    - intros [H1 H2]. apply andb_prop in H1. destruct H1 as [H1 H3]. apply andb_prop in H1. destruct H1 as [H1 H4].
      destruct (proj1 B (conj H1 (conj H4 H2))) as (X1 & X2 & X3).
      destruct (bnd_lo o P HV HP0 HP (blvl (fst x) (snd x)) s d Hx Hs Hd H1 H4 H2) as [E _]. rewrite X1, E, H3.
      replace (0 <? lo (blvl (fst x) (snd x)) (S s)) with true by (symmetry; apply Nat.ltb_lt; lia). rewrite <- E. auto.
  Qed.

  (** ** The state *)
  Record W (r : nat) (s : St A) : Prop := {
    w_u : forall l, l < L -> length (s_u s l) = cnt l r + off l r;
    w_v : forall l, l < L -> length (s_v s l) = cnt l r + off l r;
    w_g : forall l, l < L -> length (s_g s l) = cnt l r + off l r
  }.
  (** what the data exchange leaves alone *)
  Record kp (s0 s : St A) : Prop := {
    k_conv : s_conv s = s_conv s0;
    k_iter : s_iter s = s_iter s0;
    k_fin : s_fin s = s_fin s0;
    k_fin_it : s_fin_it s = s_fin_it s0;
    k_pre : s_pre s = s_pre s0;
    k_pre_it : s_pre_it s = s_pre_it s0;
    k_s6 : s_stag s 0 6 = s_stag s0 0 6;
    k_r6 : s_rtag s 0 6 = s_rtag s0 0 6;
    k_f6 : s_sfin s 0 6 = s_sfin s0 0 6;
    k_last : s_last s = s_last s0
  }.
  (** tags and flags: the next message of kind (l, op) has number [K l op]; [E] tells which senders are known to have finished *)
  Record TF (r : nat) (KS KR : nat -> nat -> Z) (E : nat -> nat -> bool) (s : St A) : Prop := {
    t_s : forall l op, op <> 6 -> sflag l op r = true -> s_stag s l op = (base op + KS l op)%Z;
    t_r : forall l op, op <> 6 -> rflag l op r = true -> E l op = false -> s_rtag s l op = (base op + KR l op)%Z;
    t_f : forall l op, op <> 6 -> rflag l op r = true -> s_sfin s l op = E l op
  }.
  Definition SS (r : nat) KS KR E (s0 s : St A) : Prop := W r s /\ TF r KS KR E s /\ kp s0 s.
  Definition see (r : nat) (E : nat -> nat -> bool) (x : slot) : nat -> nat -> bool :=
    at2 E (fst x) (snd x) (E (fst x) (snd x) || cl (src x r)).
  Definition sees (r : nat) E (h : list slot) := fold_left (see r) h E.

  Definition out1 (fl : bool) (r : nat) (K : nat -> nat -> Z) (x : slot) : list shape :=
    if sflag (fst x) (snd x) r then [(dst x r, tagof K x, fl)] else [].
  Definition in1 (r : nat) (K : nat -> nat -> Z) (E : nat -> nat -> bool) (x : slot) : list shape :=
    if rflag (fst x) (snd x) r && negb (E (fst x) (snd x)) then [(src x r, tagof K x, cl (src x r))] else [].
  Fixpoint outs (fl : bool) (r : nat) K (h : list slot) : list shape :=
    match h with [] => [] | x :: h' => out1 fl r K x ++ outs fl r (bump K x) h' end.
  Fixpoint ins (r : nat) K E (h : list slot) : list shape :=
    match h with [] => [] | x :: h' => in1 r K E x ++ ins r (bump K x) (see r E x) h' end.
  Lemma outs_app fl r h1 h2 : forall K, outs fl r K (h1 ++ h2) = outs fl r K h1 ++ outs fl r (bumps K h1) h2.
  Proof. induction h1 as [|x h1 IH]; intros K; [reflexivity|]. simpl. rewrite IH, app_assoc. reflexivity. Qed.
  Lemma ins_app r h1 h2 : forall K E, ins r K E (h1 ++ h2) = ins r K E h1 ++ ins r (bumps K h1) (sees r E h1) h2.
  Proof. induction h1 as [|x h1 IH]; intros K E; [reflexivity|]. simpl. rewrite IH, app_assoc. reflexivity. Qed.

  (** An operation that exchanges the messages of the kinds [h] in this order. *)
  Definition Op (r : nat) (p : St A -> prog (Msg A) (St A)) (h : list slot) : Prop :=
    forall K E s0 s, SS r K K E s0 s ->
      srun (p s) (ins r K E h) (outs (s_fin s0) r K h) (SS r (bumps K h) (bumps K h) (sees r E h) s0).

  Lemma op_ret r : Op r (fun s => Ret s) [].
  Proof. intros K E s0 s H. apply srun_ret. exact H. Qed.
  Lemma op_bind r p q h1 h2 : Op r p h1 -> Op r q h2 -> Op r (fun s => bind (p s) q) (h1 ++ h2).
  Proof.
    intros H1 H2 K E s0 s H. rewrite ins_app, outs_app. unfold bumps, sees. rewrite !fold_left_app.
    eapply srun_bind; [apply H1; exact H|]. intros s1 H3. apply H2. exact H3.
  Qed.
  Lemma op_times r p h n : Op r p h -> Op r (fun s => times n p s) (concat (repeat h n)).
  Proof. intros H. induction n as [|n IH]; [apply op_ret|]. simpl. apply (op_bind r p (fun s => times n p s)); auto. Qed.
  Lemma op_ext r p q h : (forall s, p s = q s) -> Op r q h -> Op r p h.
  Proof. intros E H K E0 s0 s HS. rewrite E. apply H; auto. Qed.
  Lemma op_local r p : (forall s, W r s -> srun (p s) [] [] (fun s' => W r s' /\ kp s s' /\ s_stag s' = s_stag s /\ s_rtag s' = s_rtag s /\ s_sfin s' = s_sfin s)) ->
    Op r p [].
  Proof.
    intros H K E s0 s (HW & HT & HK). eapply srun_weak; [apply (H s HW)|reflexivity|reflexivity|].
    intros s' (H1 & H2 & H3 & H4 & H5). split; [auto|]. split.
    - destruct HT. split; intros l op; rewrite ?H3, ?H4, ?H5; auto.
    - destruct HK, H2. split; congruence.
  Qed.

  (** ** Single statements *)
  Lemma bump_same K x : bump K x (fst x) (snd x) = (K (fst x) (snd x) + 1)%Z.
  Proof. unfold bump, at2. rewrite !Nat.eqb_refl. reflexivity. Qed.
  Lemma bump_other K x l op : (l =? fst x) && (op =? snd x) = false -> bump K x l op = K l op.
  Proof. intros H. unfold bump, at2. rewrite H. reflexivity. Qed.
  Lemma slot_dec l op (x : slot) : {l = fst x /\ op = snd x} + {(l =? fst x) && (op =? snd x) = false}.
  Proof. destruct ((l =? fst x) && (op =? snd x)) eqn:E; [left|right; auto]. apply andb_prop in E. destruct E as [E1 E2]. apply Nat.eqb_eq in E1, E2. auto. Qed.

  Lemma SS_nosend r KS KR E s0 s x : sflag (fst x) (snd x) r = false -> SS r KS KR E s0 s -> SS r (bump KS x) KR E s0 s.
  Proof.
    intros F (HW & [] & HK). split; [auto|]. split; [|auto]. constructor; auto. intros l op H6 H. destruct (slot_dec l op x) as [[-> ->]|N0]; [congruence|].
    rewrite bump_other; auto.
  Qed.
  Lemma SS_norecv r KS KR E s0 s x : rflag (fst x) (snd x) r = false -> SS r KS KR E s0 s -> SS r KS (bump KR x) (see r E x) s0 s.
  Proof.
    intros F (HW & [] & HK). split; [auto|]. split; [|auto]. constructor; auto.
    - intros l op H6 H HE. destruct (slot_dec l op x) as [[-> ->]|N0]; [congruence|]. rewrite bump_other by auto. apply t_r0; auto.
      unfold see, at2 in HE. rewrite N0 in HE. exact HE.
    - intros l op H6 H. destruct (slot_dec l op x) as [[-> ->]|N0]; [congruence|]. unfold see, at2. rewrite N0. auto.
  Qed.

  Lemma send_point_srun s l i x dst' lt op : py_nth (s_u s l) i = Some x -> dst' < P ->
    srun (send_point o P l i (Z.of_nat dst') lt op s) [] [(dst', Tag (s_stag s lt op) lt op, s_fin s)] (fun s' => s' = inc_stag s lt op).
  Proof.
    intros Hx Hd. unfold send_point. rewrite Hx. simpl. unfold send. rewrite Hloc.
    replace (Z.of_nat dst' <? 0)%Z with false by (symmetry; apply Z.ltb_ge; lia).
    replace (Z.of_nat P <=? Z.of_nat dst')%Z with false by (symmetry; apply Z.leb_gt; lia). simpl.
    rewrite Nat2Z.id. apply srun_send. apply srun_ret. reflexivity.
  Qed.
  Lemma SS_inc_stag r KS KR E s0 s x : snd x <> 6 -> sflag (fst x) (snd x) r = true -> SS r KS KR E s0 s -> SS r (bump KS x) KR E s0 (inc_stag s (fst x) (snd x)).
  Proof.
    intros N6 F (HW & [] & HK). split; [destruct HW; constructor; auto|]. split; [|destruct HK; constructor; simpl; auto; unfold at2; replace (6 =? snd x) with false by (symmetry; apply Nat.eqb_neq; auto); rewrite andb_false_r; auto]. constructor; simpl; auto.
    intros l op H6 H. unfold at2. destruct (slot_dec l op x) as [[-> ->]|N0].
    - rewrite !Nat.eqb_refl. simpl. rewrite t_s0 by auto. rewrite bump_same. lia.
    - rewrite N0, bump_other by auto. auto.
  Qed.
  (** an optional boundary send *)
  Lemma bsend_srun r KS KR E s0 s x l i d (b : bool) : snd x <> 6 -> blvl (fst x) (snd x) < L -> r < P -> SS r KS KR E s0 s ->
    b = sflag (fst x) (snd x) r -> (b = true -> exists y, py_nth (s_u s l) i = Some y) -> (b = true -> d = Z.of_nat (dst x r)) ->
    srun (if b then send_point o P l i d (fst x) (snd x) s else Ret s) [] (out1 (s_fin s0) r KS x) (SS r (bump KS x) KR E s0).
  Proof.
    intros N6 Hx Hr H Hb Hy Hd. unfold out1. rewrite <- Hb. destruct b.
    - rewrite (Hd eq_refl). destruct (Hy eq_refl) as [y Ey]. eapply srun_weak; [apply (send_point_srun s l i y); [exact Ey|]| | |].
      + apply (dst_range x r Hx Hr). auto.
      + reflexivity.
      + destruct H as (_ & [] & []). unfold tagof. rewrite t_s0, k_fin0 by auto. reflexivity.
      + intros s' ->. apply SS_inc_stag; auto.
    - apply srun_ret. apply SS_nosend; auto.
  Qed.

  Lemma SS_recv r KS KR E s0 s x fl : snd x <> 6 -> rflag (fst x) (snd x) r = true -> E (fst x) (snd x) = false -> fl = cl (src x r) -> SS r KS KR E s0 s ->
    SS r KS (bump KR x) (see r E x) s0 (set_sfin (inc_rtag s (fst x) (snd x)) (fst x) (snd x) fl).
  Proof.
    intros N6 F HE Hfl (HW & [] & HK). split; [destruct HW; constructor; auto|]. split; [|destruct HK; constructor; simpl; auto; unfold at2; replace (6 =? snd x) with false by (symmetry; apply Nat.eqb_neq; auto); rewrite andb_false_r; auto]. constructor; simpl; auto.
    - intros l op H6 H HE2. unfold at2. destruct (slot_dec l op x) as [[-> ->]|N0].
      + rewrite !Nat.eqb_refl. simpl. rewrite t_r0 by auto. rewrite bump_same. lia.
      + rewrite N0, bump_other by auto. apply t_r0; auto. unfold see, at2 in HE2. rewrite N0 in HE2. exact HE2.
    - intros l op H6 H. unfold see, at2. destruct (slot_dec l op x) as [[-> ->]|N0].
      + rewrite !Nat.eqb_refl. simpl. rewrite HE. exact Hfl.
      + rewrite N0. auto.
  Qed.
  Lemma SS_set_u r KS KR E s0 s l xs : length xs = length (s_u s l) -> SS r KS KR E s0 s -> SS r KS KR E s0 (set_u s l xs).
  Proof.
    intros Hxs (HW & HT & HK). split; [|split; [destruct HT; constructor; auto|destruct HK; constructor; auto]].
    destruct HW. constructor; simpl; auto. intros l' Hl'. unfold at1. destruct (l' =? l) eqn:E0; [|auto].
    apply Nat.eqb_eq in E0. subst l'. rewrite Hxs. auto.
  Qed.
  Lemma SS_skip r KS KR E s0 s x : snd x <> 6 -> rflag (fst x) (snd x) r = true -> E (fst x) (snd x) = true -> SS r KS KR E s0 s ->
    SS r KS (bump KR x) (see r E x) s0 s.
  Proof.
    intros N6 F HE (HW & [] & HK). split; [auto|]. split; [|auto]. constructor; auto.
    - intros l op H6 H HE2. destruct (slot_dec l op x) as [[-> ->]|N0].
      + unfold see, at2 in HE2. rewrite !Nat.eqb_refl, HE in HE2. discriminate.
      + rewrite bump_other by auto. apply t_r0; auto. unfold see, at2 in HE2. rewrite N0 in HE2. exact HE2.
    - intros l op H6 H. unfold see, at2. destruct (slot_dec l op x) as [[-> ->]|N0].
      + rewrite !Nat.eqb_refl. simpl. rewrite HE. simpl. rewrite t_f0, HE by auto. reflexivity.
      + rewrite N0. auto.
  Qed.
  (** an optional boundary receive into the ghost point of level [l] *)
  Lemma brecv_srun r KS KR E s0 s x l q (b : bool) : snd x <> 6 -> blvl (fst x) (snd x) < L -> r < P -> l < L -> SS r KS KR E s0 s ->
    b = rflag (fst x) (snd x) r -> (b = true -> has l r = true) -> (b = true -> q = Z.of_nat (src x r)) ->
    srun (if b && negb (s_sfin s (fst x) (snd x)) then recv_ghost o P l q (fst x) (snd x) s else Ret s)
         (in1 r KR E x) [] (SS r KS (bump KR x) (see r E x) s0).
  Proof.
    intros N6 Hx Hr Hl H Hb Hh Hq. unfold in1. rewrite <- Hb. destruct b.
    2:{ apply srun_ret. apply SS_norecv; auto. }
    symmetry in Hb. specialize (Hh eq_refl). specialize (Hq eq_refl). subst q.
    assert (HF : s_sfin s (fst x) (snd x) = E (fst x) (snd x)) by (destruct H as (_ & [] & _); auto). rewrite HF. cbn [andb].
    destruct (E (fst x) (snd x)) eqn:HE; cbn [negb].
    - apply srun_ret. apply SS_skip; auto.
    - pose proof (src_range x r Hx Hr Hb) as HS.
      unfold recv_ghost, receive. rewrite Hloc.
      replace (Z.of_nat (src x r) <? 0)%Z with false by (symmetry; apply Z.ltb_ge; lia).
      replace (Z.of_nat P <=? Z.of_nat (src x r))%Z with false by (symmetry; apply Z.leb_gt; lia). cbn [orb bind].
      rewrite Nat2Z.id. replace (Tag (s_rtag s (fst x) (snd x)) (fst x) (snd x)) with (tagof KR x).
      2:{ unfold tagof. destruct H as (_ & [] & _). rewrite t_r0 by auto. reflexivity. }
      apply srun_recv. intros d. cbn [bind fst snd]. unfold unpack_ghost.
      pose proof (SS_recv r KS KR E s0 s x (cl (src x r)) N6 Hb HE eq_refl H) as H2.
      set (s2 := set_sfin (inc_rtag s (fst x) (snd x)) (fst x) (snd x) (cl (src x r))) in *. clearbody s2.
      destruct (s_u s2 l) as [|y ys] eqn:Eu.
      + exfalso. pose proof (w_u r s2 (proj1 H2) l Hl) as X. rewrite Eu in X. simpl in X. apply (has_lo l r Hl Hr) in Hh.
        pose proof (lo_cnt grids P HV HP0 HP l r Hl Hr). lia.
      + apply srun_ret. apply SS_set_u; [rewrite Eu; reflexivity|exact H2].
  Qed.

  (** ** Values are always there *)
  Lemma py_nth_ok {B} (l : list B) i : i < length l -> exists x, py_nth l (Z.of_nat i) = Some x.
  Proof. intros H. rewrite py_nth_nat. apply ex_nth. auto. Qed.
  Lemma py_prev_ok {B} (l : list B) i : 1 <= i < length l -> exists x, py_nth l (Z.of_nat i - 1) = Some x.
  Proof. intros H. rewrite py_nth_pred by lia. apply ex_nth. lia. Qed.
  Lemma py_last_ok {B} (l : list B) : l <> [] -> exists x, py_nth l (-1) = Some x.
  Proof. intros H. rewrite py_nth_last by auto. apply ex_nth. destruct l; [congruence|simpl; lia]. Qed.
  Lemma t_len l r : l < L -> length (i_t (info l r)) = cnt l r + off l r.
  Proof. intros Hl. pose proof (len_t o P l r Hl) as H. rewrite inf_eq in H by auto. exact H. Qed.
  Lemma loc_ge l r i : l < L -> r < P -> lo l r <= i < lo l (S r) -> 0 < i -> 1 <= loc l r i < cnt l r + off l r.
  Proof.
    intros Hl Hr Hi Hp. pose proof (loc_bound o P HV HP0 HP l r i Hl Hr Hi). split; [|lia].
    unfold SetupProofs.loc. destruct (Nat.eq_dec (lo l r) 0) as [E|E]; [|].
    - pose proof (off_le grids P HV HP0 HP l r Hl Hr). lia.
    - assert (off l r = 1); [|lia]. apply (off_pos o P HV HP0 HP); auto; [apply (has_iff o P HP0 HP); auto; lia|lia].
  Qed.
  Lemma propagate_ok r s l i : l < L -> r < P -> W r s -> 1 <= i < cnt l r + off l r -> exists x, propagate (infos r) l s i = Some x.
  Proof.
    intros Hl Hr HW Hi. unfold propagate. rewrite inf_eq by auto.
    destruct (py_prev_ok (s_u s l) i) as [x ->]; [rewrite (w_u r s HW) by auto; lia|].
    destruct (py_prev_ok (i_t (info l r)) i) as [a ->]; [rewrite t_len by auto; lia|].
    destruct (py_nth_ok (i_t (info l r)) i) as [b ->]; [rewrite t_len by auto; lia|].
    destruct (l =? 0); [eauto|]. destruct (py_nth_ok (s_g s l) i) as [g ->]; [rewrite (w_g r s HW) by auto; lia|]. eauto.
  Qed.
  Lemma put_u_srun (s : St A) l i x (Q : St A -> Prop) : i < length (s_u s l) -> Q (set_u s l (upd (s_u s l) i x)) -> srun (put_u l i x s) [] [] Q.
  Proof. intros H HQ. eapply srun_local; [apply put_u_run; exact H|exact HQ]. Qed.
  Lemma SS_put r KS KR E s0 s l i x : SS r KS KR E s0 s -> SS r KS KR E s0 (set_u s l (upd (s_u s l) i x)).
  Proof. intros H. apply SS_set_u; [apply upd_length|exact H]. Qed.
  Lemma last_ok r s l : l < L -> r < P -> W r s -> has l r = true -> exists y, py_nth (s_u s l) (-1) = Some y.
  Proof.
    intros Hl Hr HW Hh. apply py_last_ok. intros X. pose proof (w_u r s HW l Hl) as Y. rewrite X in Y. simpl in Y.
    apply (has_lo l r Hl Hr) in Hh. pose proof (lo_cnt grids P HV HP0 HP l r Hl Hr). lia.
  Qed.

  (** The receive of op 4 in clean_up (682-684) drops the data. *)
  Lemma drecv_srun r KS KR E s0 s x q (b : bool) : snd x <> 6 -> blvl (fst x) (snd x) < L -> r < P -> SS r KS KR E s0 s ->
    b = rflag (fst x) (snd x) r -> (b = true -> q = Z.of_nat (src x r)) ->
    srun (if b && negb (s_sfin s (fst x) (snd x)) then ds <- receive o P q (fst x) (snd x) s ;; Ret (snd ds) else Ret s)
         (in1 r KR E x) [] (SS r KS (bump KR x) (see r E x) s0).
  Proof.
    intros N6 Hx Hr H Hb Hq. unfold in1. rewrite <- Hb. destruct b.
    2:{ apply srun_ret. apply SS_norecv; auto. }
    symmetry in Hb. specialize (Hq eq_refl). subst q.
    assert (HF : s_sfin s (fst x) (snd x) = E (fst x) (snd x)) by (destruct H as (_ & [] & _); auto). rewrite HF. cbn [andb].
    destruct (E (fst x) (snd x)) eqn:HE; cbn [negb].
    - apply srun_ret. apply SS_skip; auto.
    - pose proof (src_range x r Hx Hr Hb) as HS.
      unfold receive. rewrite Hloc.
      replace (Z.of_nat (src x r) <? 0)%Z with false by (symmetry; apply Z.ltb_ge; lia).
      replace (Z.of_nat P <=? Z.of_nat (src x r))%Z with false by (symmetry; apply Z.leb_gt; lia). cbn [orb bind].
      rewrite Nat2Z.id. replace (Tag (s_rtag s (fst x) (snd x)) (fst x) (snd x)) with (tagof KR x).
      2:{ unfold tagof. destruct H as (_ & [] & _). rewrite t_r0 by auto. reflexivity. }
      apply srun_recv. intros d. cbn [bind fst snd]. apply srun_ret. apply SS_recv; auto.
  Qed.

  (** send and receive one after the other *)
  Lemma send_then {B} (p : prog (Msg A) (St A)) (k : St A -> prog (Msg A) B) o1 I O Q1 Q : srun p [] o1 Q1 ->
    (forall s, Q1 s -> srun (k s) I O Q) -> srun (bind p k) I (o1 ++ O) Q.
  Proof. intros H1 H2. apply (srun_bind p k [] o1 I O Q1 Q); auto. Qed.
  Lemma recv_then {B} (p : prog (Msg A) (St A)) (k : St A -> prog (Msg A) B) i1 I O Q1 Q : srun p i1 [] Q1 ->
    (forall s, Q1 s -> srun (k s) I O Q) -> srun (bind p k) (i1 ++ I) O Q.
  Proof. intros H1 H2. apply (srun_bind p k i1 [] I O Q1 Q); auto. Qed.

  Lemma exch_6 op : exch_op op -> op <> 6.
  Proof. intros [->|[->| ->]]; discriminate. Qed.
  (** the boundary statements as they appear in the code *)
  Lemma send_f_srun r KS KR E s0 s l op : exch_op op -> l < L -> r < P -> SS r KS KR E s0 s ->
    srun (if i_last_is_f (info l r) then send_point o P l (-1) (i_send_to (info l r)) l op s else Ret s) []
         (out1 (s_fin s0) r KS (l, op)) (SS r (bump KS (l, op)) KR E s0).
  Proof.
    intros Hop Hl Hr H. pose proof (exch_6 op Hop) as N6. assert (HB : blvl l op = l) by (apply exch_lvl; auto).
    rewrite (last_is_f_eq l op r Hop). apply (bsend_srun r KS KR E s0 s (l, op) l (-1)%Z); cbn [fst snd]; rewrite ?HB; auto.
    - intros F. apply (last_ok r s l); auto; [apply H|]. destruct (sflag_parts (l, op) r F) as [X _]. cbn [fst snd] in X. rewrite HB in X. exact X.
    - intros F. rewrite <- (send_to_dst (l, op) r F). cbn [fst snd]. rewrite HB. reflexivity.
  Qed.
  Lemma recv_c_srun r KS KR E s0 s l op : exch_op op -> l < L -> r < P -> SS r KS KR E s0 s ->
    srun (if i_first_is_c (info l r) && negb (s_sfin s l op) then recv_ghost o P l (i_get_from (info l r)) l op s else Ret s)
         (in1 r KR E (l, op)) [] (SS r KS (bump KR (l, op)) (see r E (l, op)) s0).
  Proof.
    intros Hop Hl Hr H. pose proof (exch_6 op Hop) as N6. assert (HB : blvl l op = l) by (apply exch_lvl; auto).
    rewrite (first_is_c_eq l op r Hop). apply (brecv_srun r KS KR E s0 s (l, op) l); cbn [fst snd]; rewrite ?HB; auto.
    - intros F. destruct (rflag_parts (l, op) r F) as [X _]. cbn [fst snd] in X. rewrite HB in X. exact X.
    - intros F. rewrite <- (get_from_src (l, op) r F). cbn [fst snd]. rewrite HB. reflexivity.
  Qed.
  Lemma send_0_srun r KS KR E s0 s l : l < L -> r < P -> SS r KS KR E s0 s ->
    srun (if i_last_is_c (info l r) then send_point o P l (-1) (i_send_to (info l r)) l 0 s else Ret s) []
         (out1 (s_fin s0) r KS (l, 0)) (SS r (bump KS (l, 0)) KR E s0).
  Proof.
    intros Hl Hr H. rewrite last_is_c_eq. apply (bsend_srun r KS KR E s0 s (l, 0) l (-1)%Z); auto; try discriminate.
    - intros F. apply (last_ok r s l); auto; [apply H|]. apply (sflag_parts (l, 0) r F).
    - intros F. rewrite <- (send_to_dst (l, 0) r F). reflexivity.
  Qed.
  Lemma recv_0_srun r KS KR E s0 s l : l < L -> r < P -> SS r KS KR E s0 s ->
    srun (if i_first_is_f (info l r) && negb (s_sfin s l 0) then recv_ghost o P l (i_get_from (info l r)) l 0 s else Ret s)
         (in1 r KR E (l, 0)) [] (SS r KS (bump KR (l, 0)) (see r E (l, 0)) s0).
  Proof.
    intros Hl Hr H. rewrite first_is_f_eq. apply (brecv_srun r KS KR E s0 s (l, 0) l); auto; try discriminate.
    - intros F. apply (rflag_parts (l, 0) r F).
    - intros F. rewrite <- (get_from_src (l, 0) r F). reflexivity.
  Qed.
  Lemma recv_1_srun r KS KR E s0 s l : l < L -> r < P -> SS r KS KR E s0 s ->
    srun (if i_comm_front (info l r) && negb (s_sfin s l 1) then recv_ghost o P l (i_get_from (info l r)) l 1 s else Ret s)
         (in1 r KR E (l, 1)) [] (SS r KS (bump KR (l, 1)) (see r E (l, 1)) s0).
  Proof.
    intros Hl Hr H. rewrite comm_front_eq. apply (brecv_srun r KS KR E s0 s (l, 1) l); auto; try discriminate.
    - intros F. apply (rflag_parts (l, 1) r F).
    - intros F. rewrite <- (get_from_src (l, 1) r F). reflexivity.
  Qed.
  Lemma send_1_srun r KS KR E s0 s l i : l < L -> r < P -> SS r KS KR E s0 s ->
    (i_comm_back (info l r) = true -> exists y, py_nth (s_u s l) i = Some y) ->
    srun (if i_comm_back (info l r) then send_point o P l i (i_send_to (info l r)) l 1 s else Ret s) []
         (out1 (s_fin s0) r KS (l, 1)) (SS r (bump KS (l, 1)) KR E s0).
  Proof.
    intros Hl Hr H. rewrite comm_back_eq. intros Hy. apply (bsend_srun r KS KR E s0 s (l, 1) l i); auto; try discriminate.
    intros F. rewrite <- (send_to_dst (l, 1) r F). reflexivity.
  Qed.
  Definition LW r (s0 s : St A) : Prop := W r s /\ kp s0 s /\ s_stag s = s_stag s0 /\ s_rtag s = s_rtag s0 /\ s_sfin s = s_sfin s0.
  Lemma LW_refl r s : W r s -> LW r s s.
  Proof. intros H. split; [auto|]. split; [constructor; reflexivity|auto]. Qed.
  Lemma LW_put r s0 s l i x : LW r s0 s -> LW r s0 (set_u s l (upd (s_u s l) i x)).
  Proof.
    intros (HW & HK & H1 & H2 & H3). split; [|split; [destruct HK; constructor; auto|auto]].
    destruct HW. constructor; simpl; auto. intros l' Hl'. unfold at1. destruct (l' =? l) eqn:E0; [|auto].
    apply Nat.eqb_eq in E0. subst l'. rewrite upd_length. auto.
  Qed.
  Lemma LW_setv r s0 s l xs : LW r s0 s -> (l < L -> length xs = cnt l r + off l r) -> LW r s0 (set_v s l xs).
  Proof.
    intros (HW & HK & H1 & H2 & H3) Hx. split; [|split; [destruct HK; constructor; auto|auto]].
    destruct HW. constructor; simpl; auto. intros l' Hl'. unfold at1. destruct (l' =? l) eqn:E0; [|auto].
    apply Nat.eqb_eq in E0. subst l'. auto.
  Qed.
  Lemma LW_setg r s0 s l xs : LW r s0 s -> (l < L -> length xs = cnt l r + off l r) -> LW r s0 (set_g s l xs).
  Proof.
    intros (HW & HK & H1 & H2 & H3) Hx. split; [|split; [destruct HK; constructor; auto|auto]].
    destruct HW. constructor; simpl; auto. intros l' Hl'. unfold at1. destruct (l' =? l) eqn:E0; [|auto].
    apply Nat.eqb_eq in E0. subst l'. auto.
  Qed.
  (** a loop without messages *)
  Lemma op_loop {B} r (l : list B) (f : B -> St A -> prog (Msg A) (St A)) :
    (forall x s0 s, In x l -> LW r s0 s -> srun (f x s) [] [] (LW r s0)) -> Op r (for_each l f) [].
  Proof. intros H. apply op_local. intros s HW. apply (for_each_keep f (LW r s) l); [intros; apply H; auto|apply LW_refl; auto]. Qed.

  (** ** f_relax (292-333) *)
  Lemma flat_map_one {C} (b : bool) y (m : list C) l : NoDup l -> (b = true -> In y l) ->
    flat_map (fun x => if b && (x =? y) then m else []) l = if b then m else [].
  Proof.
    intros Hn Hi. destruct b; simpl.
    2:{ clear. induction l; simpl; auto. }
    specialize (Hi eq_refl). induction l as [|x l IH]; [destruct Hi|]. simpl. inversion Hn as [|? ? Hx Hl]; subst.
    destruct (x =? y) eqn:E.
    - apply Nat.eqb_eq in E. subst x. replace (flat_map _ l) with (@nil C); [apply app_nil_r|]. symmetry. clear - Hx.
      induction l as [|z l IH]; [reflexivity|]. simpl. destruct (z =? y) eqn:E; [apply Nat.eqb_eq in E; subst; exfalso; apply Hx; left; auto|].
      apply IH. intros G. apply Hx. right; auto.
    - apply Nat.eqb_neq in E. destruct Hi as [->|Hi]; [congruence|]. apply IH; auto.
  Qed.
  Lemma memn_snoc x y l1 : memn y (l1 ++ [x]) = memn y l1 || (x =? y).
  Proof. apply Bool.eq_iff_eq_true. rewrite orb_true_iff, Nat.eqb_eq, !memn_in, in_app_iff. simpl. intuition. Qed.

  Lemma f_relax_op r l : l < L -> r < P -> Op r (f_relax o P (infos r) l) [(l, 0); (l, 1)].
  Proof.
    intros Hl Hr K E s0 s H. unfold f_relax. rewrite inf_eq by auto. cbn [ins outs]. rewrite !app_nil_r. cbn [bumps sees fold_left].
    eapply send_then; [apply (send_0_srun r K K E s0 s l Hl Hr H)|]. clear s H. intros s H.
    eapply recv_then; [apply (recv_0_srun r (bump K (l, 0)) K E s0 s l Hl Hr H)|]. clear s H. intros s H.
    set (K0 := bump K (l, 0)) in *. set (E0 := see r E (l, 0)) in *.
    set (hi := lo l (S r)).
    assert (Hnd : NoDup (fps2 l r)) by (apply (fps2_nodup o P Hperm); auto).
    set (cf := i_comm_front (info l r)). set (cb := i_comm_back (info l r)).
    assert (CB : cb = true -> In (hi - 1) (fps2 l r)).
    { unfold cb, closed_info. cbn [i_comm_back]. intros X. apply andb_prop in X. destruct X as [X _]. apply andb_prop in X. destruct X as [X X1].
      apply andb_prop in X. destruct X as [X _]. apply (has_lo l r Hl Hr) in X. apply (fps2_in grids so P HV HP0 HP); auto. unfold hi. split; [lia|].
      unfold SetupProofs.isF in X1. apply negb_true_iff in X1. exact X1. }
    assert (CF : cf = true -> In (lo l r) (fps2 l r)).
    { unfold cf, closed_info. cbn [i_comm_front]. intros X. apply andb_prop in X. destruct X as [X _]. apply andb_prop in X. destruct X as [X X1].
      apply andb_prop in X. destruct X as [X _]. apply (has_lo l r Hl Hr) in X. apply (fps2_in grids so P HV HP0 HP); auto. split; [lia|].
      unfold SetupProofs.isF in X1. apply negb_true_iff in X1. exact X1. }
    set (Inv := fun (l1 : list nat) (s' : St A) => SS r (if cb && memn (hi - 1) l1 then bump K0 (l, 1) else K0)
         (if cf && memn (lo l r) l1 then bump K0 (l, 1) else K0) (if cf && memn (lo l r) l1 then see r E0 (l, 1) else E0) s0 s').
    eapply srun_weak.
    - change (i_loc_f (info l r)) with (map (loc l r) (fps2 l r)).
      apply (for_each_srun (loc l r) _ (fun x => if cf && (x =? lo l r) then in1 r K0 E0 (l, 1) else [])
        (fun x => if cb && (x =? hi - 1) then out1 (s_fin s0) r K0 (l, 1) else []) Inv (fps2 l r)).
      2:{ unfold Inv. simpl. rewrite !andb_false_r. exact H. }
      clear s H. intros l1 x l2 s EL HI.
      assert (Hx : In x (fps2 l r)) by (rewrite EL; apply in_or_app; right; left; auto).
      pose proof Hx as Hx'. apply (fps2_in grids so P HV HP0 HP) in Hx'; auto. destruct Hx' as [Hxo HxF].
      assert (Hx0 : 0 < x). { destruct x; [|lia]. rewrite (isC_0 grids P HV HP0 HP) in HxF by auto. discriminate. }
      assert (Hxl1 : memn x l1 = false).
      { apply memn_false. rewrite EL in Hnd. apply NoDup_remove_2 in Hnd. intros Y. apply Hnd. apply in_or_app. auto. }
      pose proof (loc_ge l r x Hl Hr Hxo Hx0) as HG.
      replace (if cf && (x =? lo l r) then in1 r K0 E0 (l, 1) else []) with ((if cf && (x =? lo l r) then in1 r K0 E0 (l, 1) else []) ++ []) by apply app_nil_r.
      apply (recv_then _ _ _ _ _ (SS r (if cb && memn (hi - 1) l1 then bump K0 (l, 1) else K0)
         (if cf && memn (lo l r) (l1 ++ [x]) then bump K0 (l, 1) else K0) (if cf && memn (lo l r) (l1 ++ [x]) then see r E0 (l, 1) else E0) s0)).
      { rewrite memn_snoc. destruct cf eqn:Hcf; cbn [andb]; [|apply srun_ret; exact HI].
        rewrite (np_min_loc o P HV HP0 HP Hperm) by auto. destruct (x =? lo l r) eqn:Ex.
        - apply Nat.eqb_eq in Ex. rewrite Ex, Nat.eqb_refl, orb_true_r. cbn [andb]. unfold Inv in HI. rewrite <- Ex, Hxl1 in HI. cbn [andb] in HI.
          pose proof (recv_1_srun r _ _ _ s0 s l Hl Hr HI) as X. fold cf in X. rewrite Hcf in X. exact X.
        - apply Nat.eqb_neq in Ex. replace (loc l r x =? loc l r (lo l r)) with false.
          2:{ symmetry. apply Nat.eqb_neq. intros Y. apply (loc_inj o P HV HP0 HP) in Y; auto; lia. }
          rewrite orb_false_r. cbn [andb]. apply srun_ret. exact HI. }
      clear s HI. intros s HI.
      destruct (propagate_ok r s l (loc l r x) Hl Hr (proj1 HI) HG) as [y ->]. cbn [lift bind].
      apply (srun_seq _ _ _ _ (SS r (if cb && memn (hi - 1) l1 then bump K0 (l, 1) else K0)
         (if cf && memn (lo l r) (l1 ++ [x]) then bump K0 (l, 1) else K0) (if cf && memn (lo l r) (l1 ++ [x]) then see r E0 (l, 1) else E0) s0)).
      { apply put_u_srun; [rewrite (w_u r s (proj1 HI)) by auto; lia|]. apply SS_put. exact HI. }
      clear s HI. intros s HI. unfold Inv. rewrite (memn_snoc x (hi - 1)). destruct cb eqn:Hcb; cbn [andb]; [|apply srun_ret; exact HI].
      rewrite (np_max_loc o P HV HP0 HP Hperm) by auto. fold hi. destruct (x =? hi - 1) eqn:Ex.
      + apply Nat.eqb_eq in Ex. rewrite <- Ex, Nat.eqb_refl, orb_true_r. rewrite <- Ex, Hxl1 in HI. cbn [andb] in HI.
        pose proof (send_1_srun r _ _ _ s0 s l (Z.of_nat (loc l r x)) Hl Hr HI) as X. fold cb in X. rewrite Hcb in X. apply X. intros _.
        apply py_nth_ok. rewrite (w_u r s (proj1 HI)) by auto. lia.
      + apply Nat.eqb_neq in Ex. replace (loc l r x =? loc l r (hi - 1)) with false.
        2:{ symmetry. apply Nat.eqb_neq. intros Y. apply (loc_inj o P HV HP0 HP) in Y; auto; unfold hi in *; lia. }
        rewrite orb_false_r. cbn [andb]. apply srun_ret. exact HI.
    - rewrite flat_map_one by auto. unfold in1, cf. rewrite comm_front_eq. cbn [fst snd]. destruct (rflag l 1 r); reflexivity.
    - rewrite flat_map_one by auto. unfold out1, cb. rewrite comm_back_eq. cbn [fst snd]. destruct (sflag l 1 r); reflexivity.
    - intros s' HI. unfold Inv in HI.
      assert (X1 : cf = true -> memn (lo l r) (fps2 l r) = true) by (intros; apply memn_in; auto).
      assert (X2 : cb = true -> memn (hi - 1) (fps2 l r) = true) by (intros; apply memn_in; auto).
      assert (HS : SS r K0 (if cf && memn (lo l r) (fps2 l r) then bump K0 (l, 1) else K0) (if cf && memn (lo l r) (fps2 l r) then see r E0 (l, 1) else E0) s0 s' \/
                   SS r (bump K0 (l, 1)) (if cf && memn (lo l r) (fps2 l r) then bump K0 (l, 1) else K0) (if cf && memn (lo l r) (fps2 l r) then see r E0 (l, 1) else E0) s0 s' ).
      { destruct (cb && memn (hi - 1) (fps2 l r)); auto. }
      assert (HS' : SS r (bump K0 (l, 1)) (if cf && memn (lo l r) (fps2 l r) then bump K0 (l, 1) else K0) (if cf && memn (lo l r) (fps2 l r) then see r E0 (l, 1) else E0) s0 s').
      { destruct cb eqn:Hcb.
        - rewrite (X2 eq_refl) in HI. exact HI.
        - cbn [andb] in HI. apply SS_nosend; [|exact HI]. cbn [fst snd]. rewrite <- comm_back_eq. exact Hcb. }
      destruct cf eqn:Hcf.
      + rewrite (X1 eq_refl) in HS'. exact HS'.
      + cbn [andb] in HS'. apply SS_norecv; [|exact HS']. cbn [fst snd]. rewrite <- comm_front_eq. exact Hcf.
  Qed.

  (** ** c_relax (335-370) *)
  Lemma LW_SS r K1 K2 E s0 s s' : SS r K1 K2 E s0 s -> LW r s s' -> SS r K1 K2 E s0 s'.
  Proof.
    intros (HW & HT & HK) (H1 & H2 & H3 & H4 & H5). split; [auto|]. split.
    - destruct HT. split; intros l op; rewrite ?H3, ?H4, ?H5; auto.
    - destruct HK, H2. split; congruence.
  Qed.
  Lemma SS_loop {B} r K1 K2 E s0 (l : list B) (f : B -> St A -> prog (Msg A) (St A)) s : SS r K1 K2 E s0 s ->
    (forall x s1, In x l -> LW r s s1 -> srun (f x s1) [] [] (LW r s)) -> srun (for_each l f s) [] [] (SS r K1 K2 E s0).
  Proof.
    intros H Hf. eapply srun_weak; [apply (for_each_keep f (LW r s) l Hf)|reflexivity|reflexivity|].
    - apply LW_refl. apply H.
    - intros s'. apply LW_SS. exact H.
  Qed.
  Lemma put_LW r s0 s l i x : l < L -> i < cnt l r + off l r -> LW r s0 s -> srun (put_u l i x s) [] [] (LW r s0).
  Proof. intros Hl Hi H. apply put_u_srun; [rewrite (w_u r s (proj1 H)) by auto; lia|]. apply LW_put. exact H. Qed.

  Lemma c_relax_op r l : l < L -> r < P -> Op r (c_relax o P r (infos r) l) [(l, 2)].
  Proof.
    intros Hl Hr K E s0 s H. unfold c_relax. rewrite inf_eq by auto. cbn [ins outs bumps sees fold_left].
    eapply send_then; [apply (send_f_srun r K K E s0 s l 2 (or_introl eq_refl) Hl Hr H)|]. clear s H. intros s H.
    eapply recv_then; [apply (recv_c_srun r (bump K (l, 2)) K E s0 s l 2 (or_introl eq_refl) Hl Hr H)|]. clear s H. intros s H.
    apply SS_loop; [exact H|]. clear H. intros i s1 Hi HL. unfold closed_info in Hi. cbn [i_loc_c] in Hi. apply in_map_iff in Hi. destruct Hi as (x & <- & Hx).
    apply (cps_in o P HV HP0 HP) in Hx; auto. destruct Hx as [Hx _]. rewrite (skip_iff o P HV HP0 HP) by auto.
    destruct (0 <? x) eqn:E1; [|apply srun_ret; auto]. apply Nat.ltb_lt in E1. pose proof (loc_ge l r x Hl Hr Hx E1) as G.
    destruct (propagate_ok r s1 l (loc l r x) Hl Hr (proj1 HL) G) as [y ->]. cbn [lift bind].
    destruct (py_nth_ok (s_u s1 l) (loc l r x)) as [z ->]; [rewrite (w_u r s1 (proj1 HL)) by auto; lia|]. cbn [lift bind].
    apply put_LW; auto. lia.
  Qed.

  (** ** forward_solve (459-486) *)
  Lemma recv_5_srun r KS KR E s0 s l : l < L -> r < P -> SS r KS KR E s0 s ->
    srun (if negb (i_get_from (info l r) =? -99)%Z && negb (s_sfin s l 5) then recv_ghost o P l (i_get_from (info l r)) l 5 s else Ret s)
         (in1 r KR E (l, 5)) [] (SS r KS (bump KR (l, 5)) (see r E (l, 5)) s0).
  Proof.
    intros Hl Hr H. rewrite get_from_5. apply (brecv_srun r KS KR E s0 s (l, 5) l); auto; try discriminate.
    - intros F. apply (rflag_parts (l, 5) r F).
    - intros F. rewrite <- (get_from_src (l, 5) r F). reflexivity.
  Qed.
  Lemma send_5_srun r KS KR E s0 s l : l < L -> r < P -> SS r KS KR E s0 s ->
    srun (if negb (i_send_to (info l r) =? -99)%Z then
            i <- lift (py_nth (i_loc (info l r)) (-1)) ;; send_point o P l (Z.of_nat i) (i_send_to (info l r)) l 5 s
          else Ret s) [] (out1 (s_fin s0) r KS (l, 5)) (SS r (bump KS (l, 5)) KR E s0).
  Proof.
    intros Hl Hr H. pose proof (bsend_srun r KS KR E s0 s (l, 5) l (Z.of_nat (loc l r (lo l (S r) - 1))) (i_send_to (info l r)) (sflag l 5 r)) as X.
    cbn [fst snd] in X. rewrite send_to_5. destruct (sflag l 5 r) eqn:F.
    - destruct (sflag_parts (l, 5) r F) as [X1 X2]. cbn [fst snd] in X1. change (blvl l 5) with l in X1.
      rewrite (loc_last o P HV HP0 HP) by auto. cbn [lift bind]. apply X; auto; try discriminate.
      + intros _. apply py_nth_ok. apply (has_lo l r Hl Hr) in X1. rewrite (w_u r s (proj1 H)) by auto.
        pose proof (loc_bound o P HV HP0 HP l r (lo l (S r) - 1) Hl Hr). lia.
      + intros _. rewrite <- (send_to_dst (l, 5) r F). reflexivity.
    - apply X; auto; discriminate.
  Qed.
  Lemma forward_solve_op r l : l < L -> r < P -> Op r (forward_solve o P (infos r) l) [(l, 5)].
  Proof.
    intros Hl Hr K E s0 s H. unfold forward_solve. rewrite inf_eq by auto. cbn [ins outs bumps sees fold_left].
    eapply recv_then; [apply (recv_5_srun r K K E s0 s l Hl Hr H)|]. clear s H. intros s H.
    eapply srun_seq.
    - apply (SS_loop r K (bump K (l, 5)) (see r E (l, 5)) s0); [exact H|]. intros i s1 Hi HL. apply in_seq in Hi.
      rewrite (w_u r s (proj1 H)) in Hi by auto.
      destruct (propagate_ok r s1 l i Hl Hr (proj1 HL)) as [y ->]; [lia|]. cbn [lift bind]. apply put_LW; auto. lia.
    - clear s H. intros s H. rewrite app_nil_r. eapply send_5_srun; eauto.
  Qed.

  (** ** fas_residual (488-549) *)
  Lemma recv_4_srun r KS KR E s0 s l : S l < L -> r < P -> SS r KS KR E s0 s ->
    srun (if (0 <=? i_get_from (info (S l) r))%Z && negb (s_sfin s l 4) then recv_ghost o P (S l) (i_get_from (info (S l) r)) l 4 s else Ret s)
         (in1 r KR E (l, 4)) [] (SS r KS (bump KR (l, 4)) (see r E (l, 4)) s0).
  Proof.
    intros Hl Hr H. rewrite get_from_4. apply (brecv_srun r KS KR E s0 s (l, 4) (S l)); auto; try discriminate.
    - intros F. apply (rflag_parts (l, 4) r F).
    - intros F. rewrite <- (get_from_src (l, 4) r F). reflexivity.
  Qed.
  (** The level of the point that is sent is [l + 1] in fas_residual and [l] in clean_up. *)
  Lemma send_4_srun r KS KR E s0 s l lv (x : option nat) : S l < L -> r < P -> SS r KS KR E s0 s ->
    (sflag l 4 r = true -> exists k, x = Some k /\ k < length (s_u s lv)) ->
    srun (if (0 <=? i_send_to (info (S l) r))%Z then
            k <- lift x ;; send_point o P lv (Z.of_nat k) (i_send_to (info (S l) r)) l 4 s
          else Ret s) [] (out1 (s_fin s0) r KS (l, 4)) (SS r (bump KS (l, 4)) KR E s0).
  Proof.
    intros Hl Hr H Hx. rewrite send_to_4. destruct (sflag l 4 r) eqn:F.
    - destruct (Hx eq_refl) as (k & -> & Hk). cbn [lift bind].
      pose proof (bsend_srun r KS KR E s0 s (l, 4) lv (Z.of_nat k) (i_send_to (info (S l) r)) (sflag l 4 r)) as X.
      cbn [fst snd] in X. rewrite F in X. apply X; auto; try discriminate.
      + intros _. apply py_nth_ok. exact Hk.
      + intros _. rewrite <- (send_to_dst (l, 4) r F). reflexivity.
    - pose proof (bsend_srun r KS KR E s0 s (l, 4) lv 0%Z (i_send_to (info (S l) r)) (sflag l 4 r)) as X.
      cbn [fst snd] in X. rewrite F in X. apply X; auto; discriminate.
  Qed.
  Lemma cpt_loc l r k : S l < L -> r < P -> k < cnt (S l) r -> let j := lo (S l) r + k in
    lo (S l) r <= j < lo (S l) (S r) /\ lo l r <= cpt l j < lo l (S r) /\ loc l r (cpt l j) < cnt l r + off l r /\ loc (S l) r j < cnt (S l) r + off (S l) r /\
    (0 < j -> 1 <= loc l r (cpt l j) /\ 1 <= loc (S l) r j).
  Proof.
    intros Hl Hr Hk j. pose proof (lo_cnt grids P HV HP0 HP (S l) r Hl Hr) as HC. assert (Hj : lo (S l) r <= j < lo (S l) (S r)) by (unfold j; lia).
    assert (Hl0 : l < L) by lia. pose proof (cpt_own o P HV HP0 HP l r j Hl Hr Hj) as Hc.
    split; [exact Hj|]. split; [exact Hc|]. split; [apply (loc_bound o P HV HP0 HP l r _ Hl0 Hr Hc)|]. split; [apply (loc_bound o P HV HP0 HP (S l) r _ Hl Hr Hj)|].
    intros Hp. pose proof (lo_le_N grids P HP0 HP (S l) (S r)). split; [apply loc_ge; auto; apply (cpt_pos o P HV HP0 HP); auto; lia|apply loc_ge; auto].
  Qed.
  Lemma fas_residual_op r l : S l < L -> r < P -> Op r (fas_residual o P r (infos r) l) [(l, 3); (l, 4)].
  Proof.
    intros Hl Hr K E s0 s H. assert (Hl0 : l < L) by lia. unfold fas_residual. rewrite !inf_eq by auto. rewrite (locc_len o P HV HP0 HP) by auto.
    cbn [ins outs bumps sees fold_left]. rewrite !app_nil_r.
    eapply srun_seq.
    { apply (SS_loop r K K E s0); [exact H|]. intros i s1 Hi HL. apply in_seq in Hi. destruct (cpt_loc l r i Hl Hr) as (J1 & J2 & J3 & J4 & J5); [lia|].
      rewrite (locc_nth o P HV HP0 HP) by (auto; lia). cbn [lift bind].
      destruct (py_nth_ok (s_u s1 l) (loc l r (cpt l (lo (S l) r + i)))) as [z ->]; [rewrite (w_u r s1 (proj1 HL)) by auto; lia|]. cbn [lift bind].
      rewrite (loc_k o P HV HP0 HP (S l)) by (auto; lia). apply put_LW; auto. }
    clear s H. intros s H.
    eapply send_then; [apply (send_f_srun r K K E s0 s l 3 (or_intror (or_introl eq_refl)) Hl0 Hr H)|]. clear s H. intros s H.
    eapply recv_then; [apply (recv_c_srun r _ K E s0 s l 3 (or_intror (or_introl eq_refl)) Hl0 Hr H)|]. clear s H. intros s H.
    rewrite <- (app_nil_r (out1 (s_fin s0) r (bump K (l, 3)) (l, 4))).
    eapply send_then; [eapply (send_4_srun r _ _ _ s0 s l (S l)); [exact Hl|exact Hr|exact H|]|].
    { intros F. destruct (sflag_parts (l, 4) r F) as [X1 _]. cbn [fst snd] in X1. change (blvl l 4) with (S l) in X1.
      exists (loc (S l) r (lo (S l) (S r) - 1)). split; [apply (loc_last o P HV HP0 HP); auto|]. apply (has_lo (S l) r Hl Hr) in X1.
      rewrite (w_u r s (proj1 H)) by auto. pose proof (loc_bound o P HV HP0 HP (S l) r (lo (S l) (S r) - 1) Hl Hr). lia. }
    clear s H. intros s H. rewrite <- (app_nil_r (in1 r (bump K (l, 3)) (see r E (l, 3)) (l, 4))).
    eapply recv_then; [eapply (recv_4_srun r _ _ _ s0 s l); [exact Hl|exact Hr|exact H]|]. clear s H. intros s H. cbv zeta.
    assert (H' : SS r (bump (bump K (l, 3)) (l, 4)) (bump (bump K (l, 3)) (l, 4)) (see r (see r E (l, 3)) (l, 4)) s0 (set_v s (S l) (map (vclone A) (s_u s (S l))))).
    { eapply LW_SS; [exact H|]. apply LW_setv; [apply LW_refl; apply H|]. intros _. rewrite map_length. apply (w_u r s (proj1 H)); auto. }
    clear H. revert H'. generalize (set_v s (S l) (map (vclone A) (s_u s (S l)))). clear s. intros s H.
    apply SS_loop; [exact H|]. clear H. intros i s1 Hi HL. apply in_seq in Hi. destruct (cpt_loc l r i Hl Hr) as (J1 & J2 & J3 & J4 & J5); [lia|].
    rewrite (skip_k o P HV HP0 HP (S l)) by (auto; lia). destruct (0 <? lo (S l) r + i) eqn:E1; [|apply srun_ret; auto]. apply Nat.ltb_lt in E1. specialize (J5 E1).
    rewrite (locc_nth o P HV HP0 HP) by (auto; lia). cbn [lift bind]. rewrite (loc_nth o P) by lia. cbn [lift bind].
    set (c := loc l r (cpt l (lo (S l) r + i))) in *. set (j := loc (S l) r (lo (S l) r + i)) in *. destruct HL as [HW HL].
    assert (FR : exists x, fas_rhs (infos r) l s1 c j = Some x).
    { unfold fas_rhs. rewrite !inf_eq by auto.
      destruct (py_prev_ok (s_u s1 l) c) as [? ->]; [rewrite (w_u r s1 HW) by auto; lia|].
      destruct (py_prev_ok (i_t (info l r)) c) as [? ->]; [rewrite t_len by auto; lia|].
      destruct (py_nth_ok (i_t (info l r)) c) as [? ->]; [rewrite t_len by auto; lia|].
      destruct (py_nth_ok (s_u s1 l) c) as [? ->]; [rewrite (w_u r s1 HW) by auto; lia|].
      destruct (py_nth_ok (s_v s1 (S l)) j) as [? ->]; [rewrite (w_v r s1 HW) by auto; lia|].
      destruct (py_prev_ok (s_v s1 (S l)) j) as [? ->]; [rewrite (w_v r s1 HW) by auto; lia|].
      destruct (py_prev_ok (i_t (info (S l) r)) j) as [? ->]; [rewrite t_len by auto; lia|].
      destruct (py_nth_ok (i_t (info (S l) r)) j) as [? ->]; [rewrite t_len by auto; lia|].
      destruct (l =? 0); [eauto|]. destruct (py_nth_ok (s_g s1 l) c) as [? ->]; [rewrite (w_g r s1 HW) by auto; lia|]. eauto. }
    destruct FR as [y ->]. cbn [lift bind].
    rewrite (py_upd_nat (s_g s1 (S l)) j y) by (rewrite (w_g r s1 HW) by auto; lia). cbn [lift bind]. apply srun_ret.
    apply LW_setg; [split; auto|]. intros _. rewrite upd_length. apply (w_g r s1 HW); auto.
  Qed.

  (** ** error_correction (715-726), interpolation (560-563) *)
  Lemma error_correction_op r l : S l < L -> r < P -> Op r (error_correction r (infos r) l) [].
  Proof.
    intros Hl Hr. assert (Hl0 : l < L) by lia. unfold error_correction. rewrite !inf_eq by auto. apply op_loop. rewrite (locc_len o P HV HP0 HP) by auto.
    intros i s0 s Hi HL. apply in_seq in Hi. destruct (cpt_loc l r i Hl Hr) as (J1 & J2 & J3 & J4 & J5); [lia|].
    rewrite (skip_k o P HV HP0 HP (S l)) by (auto; lia). destruct (0 <? lo (S l) r + i) eqn:E1; [|apply srun_ret; auto].
    rewrite (locc_nth o P HV HP0 HP) by (auto; lia). cbn [lift bind]. pose proof (cnt_coarse o P HV HP0 HP l r Hl Hr). rewrite (loc_nth o P) by lia. cbn [lift bind].
    rewrite <- (loc_k o P HV HP0 HP l) by (auto; lia). rewrite (loc_k o P HV HP0 HP (S l)) by (auto; lia). destruct HL as [HW HL].
    destruct (py_nth_ok (s_u s (S l)) (loc (S l) r (lo (S l) r + i))) as [? ->]; [rewrite (w_u r s HW) by auto; lia|]. cbn [lift bind].
    destruct (py_nth_ok (s_v s (S l)) (loc (S l) r (lo (S l) r + i))) as [? ->]; [rewrite (w_v r s HW) by auto; lia|]. cbn [lift bind].
    destruct (py_nth_ok (s_u s l) (loc l r (cpt l (lo (S l) r + i)))) as [? ->]; [rewrite (w_u r s HW) by auto; lia|]. cbn [lift bind].
    apply put_LW; auto. split; auto.
  Qed.
  Lemma interpolate_up_op r l : S l < L -> r < P -> Op r (interpolate_up r (infos r) l) [].
  Proof.
    intros Hl Hr. assert (Hl0 : l < L) by lia. unfold interpolate_up. rewrite !inf_eq by auto.
    apply op_loop. intros i s0 s Hi HL.
    replace (length (i_loc (info (S l) r))) with (cnt (S l) r) in Hi.
    2:{ unfold closed_info. cbn [i_loc]. rewrite map_length. unfold SetupProofs.pts. rewrite seq_length. reflexivity. }
    apply in_seq in Hi. destruct (cpt_loc l r i Hl Hr) as (J1 & J2 & J3 & J4 & J5); [lia|].
    rewrite (skip_k o P HV HP0 HP (S l)) by (auto; lia). destruct (0 <? lo (S l) r + i) eqn:E1; [|apply srun_ret; auto].
    rewrite (locc_nth o P HV HP0 HP) by (auto; lia). cbn [lift bind]. rewrite (loc_nth o P) by lia. cbn [lift bind]. destruct HL as [HW HL].
    destruct (py_nth_ok (s_u s (S l)) (loc (S l) r (lo (S l) r + i))) as [? ->]; [rewrite (w_u r s HW) by auto; lia|]. cbn [lift bind].
    apply put_LW; auto. split; auto.
  Qed.

  (** ** Cycles (261-290, 551-566) *)
  Fixpoint it_slots (n l : nat) (cyc : bool) (it : nat) (ff : bool) : list slot :=
    match n with
    | 0 => [(l, 5)]
    | S n' =>
        let half cyc ff := (if ((0 <? l) || (it =? 0)) && ff then [(l, 0); (l, 1)] else []) ++
          concat (repeat [(l, 2); (l, 0); (l, 1)] (cf_count o l)) ++ [(l, 3); (l, 4)] ++ it_slots n' (S l) cyc it true ++ [(l, 0); (l, 1)] in
        half cyc ff ++ (if negb (l =? 0) && cyc then half false false else [])
    end.
  Lemma op_if r (b : bool) p q h1 h2 : Op r p h1 -> Op r q h2 -> Op r (fun s => if b then p s else q s) (if b then h1 else h2).
  Proof. destruct b; auto. Qed.
  Lemma iteration_op r fs : r < P -> Op r (fs (L - 1)) [(L - 1, 5)] -> forall n l cyc it ff, l + n = L - 1 -> 0 < L ->
    Op r (iteration o P r (infos r) fs n l cyc it ff) (it_slots n l cyc it ff).
  Proof.
    intros Hr Hfs. induction n as [|n IH]; intros l cyc it ff Hn HL.
    - simpl. replace l with (L - 1) by lia. exact Hfs.
    - assert (Hl : S l < L) by lia. assert (Hl' : l < L) by lia.
      assert (Half : forall c f, Op r (fun s => s <- (if ((0 <? l) || (it =? 0)) && f then f_relax o P (infos r) l s else Ret s) ;;
            s <- times (cf_count o l) (fun s => s <- c_relax o P r (infos r) l s ;; f_relax o P (infos r) l s) s ;;
            s <- fas_residual o P r (infos r) l s ;;
            s <- iteration o P r (infos r) fs n (S l) c it true s ;;
            s <- error_correction r (infos r) l s ;;
            f_relax o P (infos r) l s)
          ((if ((0 <? l) || (it =? 0)) && f then [(l, 0); (l, 1)] else []) ++
          concat (repeat [(l, 2); (l, 0); (l, 1)] (cf_count o l)) ++ [(l, 3); (l, 4)] ++ it_slots n (S l) c it true ++ [(l, 0); (l, 1)])).
      { intros c f. apply op_bind; [apply (op_if r _ _ _ [(l, 0); (l, 1)] []); [apply f_relax_op; auto|apply op_ret]|].
        apply op_bind; [apply op_times; apply (op_bind r _ _ [(l, 2)] [(l, 0); (l, 1)]); [apply c_relax_op|apply f_relax_op]; auto|].
        apply op_bind; [apply fas_residual_op; auto|]. apply op_bind; [apply IH; lia|].
        apply (op_bind r _ _ [] [(l, 0); (l, 1)]); [apply error_correction_op; auto|apply f_relax_op; auto]. }
      apply (op_bind r _ _ _ _ (Half cyc ff)). apply op_if; [apply Half|apply op_ret].
  Qed.
  Definition nested_slots : list slot :=
    [(L - 1, 5)] ++ flat_map (fun l => if 0 <? l then it_slots (L - 1 - l) l false 0 true else []) (rev (seq 0 (L - 1))).
  Lemma op_for {B} r (f : B -> St A -> prog (Msg A) (St A)) (h : B -> list slot) (l : list B) : (forall x, In x l -> Op r (f x) (h x)) ->
    Op r (for_each l f) (flat_map h l).
  Proof.
    induction l as [|x l IH]; intros H; [apply op_ret|]. simpl. apply (op_bind r (f x) (for_each l f)); [apply H; left; auto|]. apply IH. intros y Hy. apply H. right; auto.
  Qed.
  Lemma nested_op r fs : r < P -> Op r (fs (L - 1)) [(L - 1, 5)] -> 0 < L -> Op r (nested_iteration o P r (infos r) fs) nested_slots.
  Proof.
    intros Hr Hfs HL. unfold nested_iteration, nested_slots. change (Mgrit.L o) with L. apply op_bind; [exact Hfs|].
    apply op_for. intros l Hl. apply in_rev in Hl. apply in_seq in Hl.
    apply (op_bind r _ _ []); [apply interpolate_up_op; auto; lia|]. apply op_if; [apply iteration_op; auto; lia|apply op_ret].
  Qed.

End LocalOps.
