(** Simulation relation between the rank states and the reference state; one lemma per solver operation. *)
From Coq Require Import List ZArith Lia Arith Bool Sorted Permutation.
From Verif Require Import Net NetProofs NetPhase PyList ListFacts Setup SplitProofs Spec SetupProofs Mgrit Reference Collect.
Import ListNotations.

(** ** Generic facts *)
Lemma flat_map_absent {C} (b : bool) y (m : C) l : ~ In y l ->
  flat_map (fun x => if b && (x =? y) then [m] else []) l = [].
Proof.
  intros H. induction l as [|x l IH]; [reflexivity|]. simpl. destruct (x =? y) eqn:E.
  - apply Nat.eqb_eq in E. exfalso. apply H. left; auto.
  - rewrite andb_false_r. apply IH. intros X. apply H. right; auto.
Qed.
Lemma flat_map_single {C} (b : bool) y (m : C) l :
  NoDup l -> (b = true -> In y l) ->
  flat_map (fun x => if b && (x =? y) then [m] else []) l = if b then [m] else [].
Proof.
  intros Hn Hi. destruct b; simpl.
  2:{ clear. induction l; simpl; auto. }
  specialize (Hi eq_refl). induction l as [|x l IH]; [destruct Hi|]. simpl. inversion Hn as [|? ? Hx Hl]; subst.
  destruct (x =? y) eqn:E.
  - apply Nat.eqb_eq in E. subst. pose proof (flat_map_absent true y m l Hx) as G. simpl in G. rewrite G. reflexivity.
  - apply Nat.eqb_neq in E. destruct Hi as [->|Hi]; [congruence|]. apply IH; auto.
Qed.

Section ForEach.
  Context {A : App}.
  Lemma for_each_run {B C} (h : C -> B) (f : B -> St A -> prog (Msg A) (St A)) (fin fout : C -> list (nat * mtag * Msg A))
    (Inv : list C -> St A -> Prop) (l : list C) :
    (forall l1 x l2 s, l = l1 ++ x :: l2 -> Inv l1 s ->
       exists s', lrun (f (h x) s) (fin x) (fout x) s' /\ Inv (l1 ++ [x]) s') ->
    forall s, Inv [] s -> exists s', lrun (for_each (map h l) f s) (flat_map fin l) (flat_map fout l) s' /\ Inv l s'.
  Proof.
    intros H.
    assert (G : forall l2 l1 s, l = l1 ++ l2 -> Inv l1 s ->
              exists s', lrun (for_each (map h l2) f s) (flat_map fin l2) (flat_map fout l2) s' /\ Inv l s').
    { induction l2 as [|x l2 IH]; intros l1 s E Hi.
      - exists s. rewrite app_nil_r in E. subst. split; [constructor|auto].
      - destruct (H l1 x l2 s E Hi) as (s1 & R1 & I1).
        destruct (IH (l1 ++ [x]) s1) as (s2 & R2 & I2); [rewrite <- app_assoc; auto|auto|].
        exists s2. split; [|auto]. simpl. eapply lrun_bind; eauto. }
    intros s Hs. apply (G l [] s eq_refl Hs).
  Qed.
  Lemma flat_map_nil {B C} (l : list B) : flat_map (fun _ => @nil C) l = [].
  Proof. induction l; simpl; auto. Qed.

  Lemma for_each_local {B C} (h : C -> B) (f : B -> St A -> prog (Msg A) (St A)) (Inv : list C -> St A -> Prop) (l : list C) :
    (forall l1 x l2 s, l = l1 ++ x :: l2 -> Inv l1 s -> exists s', lrun (f (h x) s) [] [] s' /\ Inv (l1 ++ [x]) s') ->
    forall s, Inv [] s -> exists s', lrun (for_each (map h l) f s) [] [] s' /\ Inv l s'.
  Proof.
    intros H s Hs. destruct (for_each_run h f (fun _ => []) (fun _ => []) Inv l H s Hs) as (s' & R & I).
    rewrite !flat_map_nil in R. eauto.
  Qed.
  (** loops over range(n): the processed part is a prefix *)
  Lemma seq_split a n l1 x l2 : seq a n = l1 ++ x :: l2 -> x = a + length l1 /\ length l1 < n.
  Proof.
    intros E. assert (Hl : length l1 < n). { apply (f_equal (@length nat)) in E. rewrite seq_length, app_length in E. simpl in E. lia. }
    split; [|auto]. pose proof (f_equal (fun l => nth (length l1) l 0) E) as G. cbv beta in G.
    rewrite seq_nth in G by auto. rewrite app_nth2 in G by lia. rewrite Nat.sub_diag in G. simpl in G. lia.
  Qed.
  Lemma for_range_local (f : nat -> St A -> prog (Msg A) (St A)) (Inv : nat -> St A -> Prop) a n :
    (forall k s, k < n -> Inv k s -> exists s', lrun (f (a + k) s) [] [] s' /\ Inv (S k) s') ->
    forall s, Inv 0 s -> exists s', lrun (for_each (seq a n) f s) [] [] s' /\ Inv n s'.
  Proof.
    intros H s Hs.
    destruct (for_each_local (fun x => x) f (fun l s => Inv (length l) s) (seq a n)) with (s := s) as (s' & R & I).
    - intros l1 x l2 s0 E I. apply seq_split in E. destruct E as [-> E]. rewrite app_length. simpl. rewrite Nat.add_1_r. apply H; auto.
    - exact Hs.
    - rewrite map_id in R. rewrite seq_length in I. eauto.
  Qed.
End ForEach.

Section Sim.
  Context {A : App}.
  Variable o : Opts A.
  Variable P : nat.
  Notation grids := (o_grids o).
  Notation so := (o_set_order o).
  Notation L := (length (o_grids o)).
  Notation N := (N grids).
  Notation tm := (tm grids).
  Notation lo := (lo grids P).
  Notation cnt := (cnt grids P).
  Notation off := (off grids P).
  Notation loc := (loc grids P).
  Notation isC := (isC grids).
  Notation isF := (isF grids).
  Notation owner := (owner grids P).
  Notation has := (has grids P).
  Notation more := (more grids P).
  Notation pts := (pts grids P).
  Notation cps := (cps grids P).
  Notation fps2 := (fps2 grids so P).
  Notation cpt := (cpt grids).
  Notation V := (Vec A).
  Variable wf : nat -> V -> Prop.
  Hypothesis HL : app_laws A wf.
  Hypothesis HV : valid_hierarchy grids.
  Hypothesis HA : no_adjacent_cpoints grids.
  Hypothesis HP0 : 0 < P.
  Hypothesis HP : P <= N 0.
  Hypothesis Hgcc : gcc o = true.
  Hypothesis Hperm : forall l r, l < L -> r < P -> order_perm grids so P l r.
  (** F-points are visited after their predecessor. *)
  Hypothesis Hresp : forall l r, l < L -> r < P -> forall l1 x l2, fps2 l r = l1 ++ x :: l2 ->
    forall y, In y (fps2 l r) -> S y = x -> In y l1.

  Definition infos (r : nat) : list LvlInfo := map (fun l => closed_info grids so P l r) (seq 0 L).
  Lemma inf_eq r l : l < L -> inf (infos r) l = closed_info grids so P l r.
  Proof.
    intros H. unfold inf, infos. rewrite (nth_indep _ _ (closed_info grids so P 0 r)) by (rewrite map_length, seq_length; auto).
    rewrite (map_nth (fun l => closed_info grids so P l r)), seq_nth by auto. reflexivity.
  Qed.

  (** ** Boundary messages *)
  Definition bout (l : nat) (cond : nat -> bool) (tag : mtag) (D : nat -> Data A) (r : nat) : list (nat * mtag * Msg A) :=
    if has l r && more l r && cond (lo l (S r)) then [(owner l (lo l (S r)), tag, MData (D (lo l (S r))))] else [].
  Definition bin (l : nat) (cond : nat -> bool) (tag : mtag) (D : nat -> Data A) (r : nat) : list (nat * mtag * Msg A) :=
    if has l r && (0 <? lo l r) && cond (lo l r) then [(owner l (lo l r - 1), tag, MData (D (lo l r)))] else [].

  Lemma has_iff l r : l < L -> r < P -> has l r = true <-> lo l r < lo l (S r).
  Proof. intros Hl Hr. unfold SetupProofs.has, SetupProofs.cnt. rewrite Nat.ltb_lt. lia. Qed.

  Lemma bnd_iff l s d : l < L -> s < P -> d < P ->
    (has l s = true /\ more l s = true /\ owner l (lo l (S s)) = d) <->
    (has l d = true /\ 0 < lo l d /\ owner l (lo l d - 1) = s).
  Proof.
    intros Hl Hs Hd. rewrite !has_iff by auto. unfold SetupProofs.more. rewrite Nat.ltb_lt. split.
    - intros (H1 & H2 & H3). destruct (owner_spec grids P HV HP0 HP l (lo l (S s)) Hl H2) as [O1 O2]. rewrite H3 in *.
      assert (s < d). { destruct (le_lt_dec d s) as [X|X]; [|auto]. pose proof (lo_mono grids P HV HP0 HP l (S d) (S s) Hl ltac:(lia) ltac:(lia)). lia. }
      pose proof (lo_mono grids P HV HP0 HP l (S s) d Hl ltac:(lia) ltac:(lia)).
      assert (lo l d = lo l (S s)) as E by lia.
      split; [lia|]. split; [lia|]. rewrite E. apply (owner_eq grids P HV HP0 HP); auto. lia.
    - intros (H1 & H2 & H3). pose proof (lo_le_N grids P HP0 HP l (S d)).
      destruct (owner_spec grids P HV HP0 HP l (lo l d - 1) Hl ltac:(lia)) as [O1 O2]. rewrite H3 in *.
      assert (s < d). { destruct (le_lt_dec d s) as [X|X]; [|auto]. pose proof (lo_mono grids P HV HP0 HP l d s Hl ltac:(lia) ltac:(lia)). lia. }
      pose proof (lo_mono grids P HV HP0 HP l (S s) d Hl ltac:(lia) ltac:(lia)).
      assert (lo l d = lo l (S s)) as E by lia.
      split; [lia|]. split; [lia|]. rewrite <- E. apply (owner_eq grids P HV HP0 HP); auto.
  Qed.
  Lemma bnd_lo l s d : l < L -> s < P -> d < P -> has l s = true -> more l s = true -> owner l (lo l (S s)) = d ->
    lo l d = lo l (S s) /\ s < d.
  Proof.
    intros Hl Hs Hd H1 H2 H3. rewrite has_iff in H1 by auto. unfold SetupProofs.more in H2. rewrite Nat.ltb_lt in H2.
    destruct (owner_spec grids P HV HP0 HP l (lo l (S s)) Hl H2) as [O1 O2]. rewrite H3 in *.
    assert (s < d). { destruct (le_lt_dec d s) as [X|X]; [|auto]. pose proof (lo_mono grids P HV HP0 HP l (S d) (S s) Hl ltac:(lia) ltac:(lia)). lia. }
    pose proof (lo_mono grids P HV HP0 HP l (S s) d Hl ltac:(lia) ltac:(lia)). lia.
  Qed.

  Lemma bmatch l cond tag D s d : l < L -> s < P -> d < P ->
    msgs_of d (bout l cond tag D s) = msgs_of s (bin l cond tag D d).
  Proof.
    intros Hl Hs Hd. pose proof (bnd_iff l s d Hl Hs Hd) as B. unfold bout, bin.
    destruct (has l s && more l s) eqn:E1; simpl.
    - apply andb_prop in E1. destruct E1 as [E1 E2].
      destruct (Nat.eq_dec (owner l (lo l (S s))) d) as [E3|E3].
      + destruct (proj1 B (conj E1 (conj E2 E3))) as (F1 & F2 & F3).
        destruct (bnd_lo l s d Hl Hs Hd E1 E2 E3) as [E4 _]. rewrite F1, E4. simpl. 
        replace (0 <? lo l (S s)) with true by (symmetry; apply Nat.ltb_lt; lia). simpl.
        destruct (cond (lo l (S s))); [|reflexivity]. unfold msgs_of; simpl. rewrite <- E4, F3, E4, E3, !Nat.eqb_refl. reflexivity.
      + transitivity (@nil (mtag * Msg A)).
        * destruct (cond _); [|reflexivity]. unfold msgs_of; simpl. apply Nat.eqb_neq in E3. rewrite E3. reflexivity.
        * destruct (has l d && (0 <? lo l d)) eqn:F1; simpl; [|reflexivity]. destruct (cond (lo l d)); [|reflexivity].
          unfold msgs_of; simpl. destruct (owner l (lo l d - 1) =? s) eqn:F2; [|reflexivity]. exfalso.
          apply andb_prop in F1. destruct F1 as [F1 F3]. apply Nat.ltb_lt in F3. apply Nat.eqb_eq in F2.
          destruct (proj2 B (conj F1 (conj F3 F2))) as (_ & _ & X). auto.
    - destruct (has l d && (0 <? lo l d)) eqn:F1; simpl; [|reflexivity]. destruct (cond (lo l d)); [|reflexivity].
      unfold msgs_of; simpl. destruct (owner l (lo l d - 1) =? s) eqn:F2; [|reflexivity]. exfalso.
      apply andb_prop in F1. destruct F1 as [F1 F3]. apply Nat.ltb_lt in F3. apply Nat.eqb_eq in F2.
      destruct (proj2 B (conj F1 (conj F3 F2))) as (X1 & X2 & _). rewrite X1, X2 in E1. discriminate.
  Qed.

  Lemma bout_dst l cond tag D r x : l < L -> r < P -> In x (bout l cond tag D r) -> fst (fst x) < P.
  Proof.
    intros Hl Hr. unfold bout. destruct (_ && _) eqn:E; [|intros []]. intros [<-|[]]. simpl.
    apply andb_prop in E. destruct E as [E _]. apply andb_prop in E. destruct E as [_ E].
    unfold SetupProofs.more in E. apply Nat.ltb_lt in E. apply (owner_spec grids P HV HP0 HP); auto.
  Qed.
  Lemma bin_src l cond tag D r x : l < L -> r < P -> In x (bin l cond tag D r) -> fst (fst x) < r.
  Proof.
    intros Hl Hr. unfold bin. destruct (_ && _) eqn:E; [|intros []]. intros [<-|[]]. simpl.
    apply andb_prop in E. destruct E as [E _]. apply andb_prop in E. destruct E as [E1 E2].
    apply Nat.ltb_lt in E2. set (s := owner l (lo l r - 1)).
    pose proof (lo_le_N grids P HP0 HP l r). 
    destruct (owner_spec grids P HV HP0 HP l (lo l r - 1) Hl ltac:(lia)) as [O1 O2]. fold s in O1, O2.
    destruct (proj2 (bnd_iff l s r Hl O1 Hr) (conj E1 (conj E2 eq_refl))) as (X1 & X2 & X3).
    apply (bnd_lo l s r); auto.
  Qed.

  (** Phase whose messages are boundary messages of the given kinds, in this order. *)
  Lemma phase_bnd {B} (p : nat -> prog (Msg A) B) (a : nat -> B) (ms : list (nat * (nat -> bool) * mtag * (nat -> Data A))) :
    (forall m, In m ms -> fst (fst (fst m)) < L) ->
    (forall r, r < P -> lrun (p r) (flat_map (fun m => bin (fst (fst (fst m))) (snd (fst (fst m))) (snd (fst m)) (snd m) r) ms)
                                   (flat_map (fun m => bout (fst (fst (fst m))) (snd (fst (fst m))) (snd (fst m)) (snd m) r) ms) (a r)) ->
    phase P p a.
  Proof.
    intros Hms H. eapply phase_up; [exact H| | |].
    - intros s d Hs Hd. clear H. induction ms as [|m ms IH]; [reflexivity|]. simpl. rewrite !msgs_of_app. f_equal.
      + apply bmatch; auto. apply Hms. left; auto.
      + apply IH. intros m' Hm'. apply Hms. right; auto.
    - intros r x Hr Hx. apply in_flat_map in Hx. destruct Hx as (m & Hm & Hx). eapply bout_dst; [|exact Hr|exact Hx]. apply Hms; auto.
    - intros r x Hr Hx. apply in_flat_map in Hx. destruct Hx as (m & Hm & Hx). eapply bin_src; [|exact Hr|exact Hx]. apply Hms; auto.
  Qed.

  (** ** The relation *)
  (** [xs] holds the values [f] at the points of rank [r] on level [l] *)
  Definition ows (l r : nat) (xs : list V) (f : nat -> V) : Prop :=
    length xs = cnt l r + off l r /\
    forall i, lo l r <= i < lo l (S r) -> nth_error xs (loc l r i) = Some (f i).
  Definition ghost (l r : nat) (xs : list V) (Q : V -> Prop) : Prop :=
    off l r = 1 -> exists x, nth_error xs 0 = Some x /\ Q x.

  (** data part *)
  Record RD (r : nat) (s : St A) (G : GS A) : Prop := {
    rd_u : forall l, l < L -> ows l r (s_u s l) (gu G l);
    rd_v : forall l, l < L -> ows l r (s_v s l) (gv G l);
    rd_g : forall l, l < L -> ows l r (s_g s l) (gg G l);
    rd_gh : forall l, l < L -> ghost l r (s_u s l) (wf l);
    rd_sfin : forall l op, s_sfin s l op = false;
    rd_conv : s_conv s = gconv G;
    rd_clen : length (gconv G) = o_max_iter o + 1;
    rd_last : forall f, glast G = Some f -> ows 0 r (s_last s) f;
    rd_iter : s_iter s = giter G;
    rd_out : Forall2 (fun x y => fst x = fst y /\ ows 0 r (snd x) (snd y)) (s_out s) (gout G)
  }.

  (** boundary kinds per operation id *)
  Definition cnd (l op a : nat) : bool :=
    match op with
    | 0 => isC l (a - 1) && isF l a
    | 1 => isF l (a - 1) && isF l a
    | 2 | 3 | 7 => isF l (a - 1) && isC l a
    | _ => true
    end.
  Definition blvl (l op : nat) : nat := if op =? 4 then S l else l.
  Definition sflag (l op r : nat) : bool := has (blvl l op) r && more (blvl l op) r && cnd l op (lo (blvl l op) (S r)).
  Definition rflag (l op r : nat) : bool := has (blvl l op) r && (0 <? lo (blvl l op) r) && cnd l op (lo (blvl l op) r).

  Definition base (op : nat) : Z := (50000 * (Z.of_nat op + 1))%Z.
  Arguments base op : simpl never.
  (** tag part: the [K l op]-th message of kind (l, op) is next *)
  Definition TG (K : nat -> nat -> Z) (r : nat) (s : St A) : Prop :=
    (forall l op, sflag l op r = true -> s_stag s l op = (base op + K l op)%Z) /\
    (forall l op, rflag l op r = true -> s_rtag s l op = (base op + K l op)%Z).

  Definition GWF (G : GS A) : Prop :=
    forall l i, l < L -> i < N l -> wf l (gu G l i) /\ wf l (gv G l i) /\ wf l (gg G l i).
  Definition Rel (s : nat -> St A) (G : GS A) : Prop :=
    GWF G /\ exists K, forall r, r < P -> RD r (s r) G /\ TG K r (s r).

  (** A solver operation simulates a reference operation. *)
  Definition Psim (op : nat -> St A -> prog (Msg A) (St A)) (gop : GS A -> GS A) : Prop :=
    forall s G, Rel s G -> exists s', phase P (fun r => op r (s r)) s' /\ Rel s' (gop G).

  Lemma psim_ret : Psim (fun _ s => Ret s) (fun G => G).
  Proof. intros s G H. exists s. split; [apply phase_ret|auto]. Qed.
  Lemma psim_bind op1 op2 g1 g2 : Psim op1 g1 -> Psim op2 g2 -> Psim (fun r s => bind (op1 r s) (op2 r)) (fun G => g2 (g1 G)).
  Proof.
    intros H1 H2 s G H. destruct (H1 s G H) as (s1 & F1 & R1). destruct (H2 s1 _ R1) as (s2 & F2 & R2).
    exists s2. split; [|auto]. apply (phase_bind P (fun r => op1 r (s r)) op2 s1 s2 F1 F2).
  Qed.
  Lemma psim_if (b : bool) op1 op2 g1 g2 : Psim op1 g1 -> Psim op2 g2 ->
    Psim (fun r s => if b then op1 r s else op2 r s) (fun G => if b then g1 G else g2 G).
  Proof. destruct b; auto. Qed.
  Lemma psim_times n op g : Psim op g -> Psim (fun r s => times n (op r) s) (iter n g).
  Proof.
    intros H. induction n as [|n IH]; [apply psim_ret|]. simpl. apply (psim_bind op (fun r s => times n (op r) s) g (iter n g) H IH).
  Qed.
  Lemma psim_local (op : nat -> St A -> prog (Msg A) (St A)) g :
    (forall G, GWF G -> GWF (g G)) ->
    (forall r s G, r < P -> GWF G -> RD r s G -> exists s', lrun (op r s) [] [] s' /\ RD r s' (g G) /\
        (forall l k, s_stag s' l k = s_stag s l k) /\ (forall l k, s_rtag s' l k = s_rtag s l k)) ->
    Psim op g.
  Proof.
    intros Hw H s G [W [K HR]].
    destruct (choose_ranks P (fun r s' => lrun (op r (s r)) [] [] s' /\ RD r s' (g G) /\
        (forall l k, s_stag s' l k = s_stag (s r) l k) /\ (forall l k, s_rtag s' l k = s_rtag (s r) l k)) (s 0)) as [s' Hs'].
    { intros r Hr. apply H; auto. apply HR; auto. }
    exists s'. split.
    - apply phase_local. intros r Hr. apply Hs'; auto.
    - split; [auto|]. exists K. intros r Hr. destruct (Hs' r Hr) as (_ & D & T1 & T2). split; [auto|].
      destruct (proj2 (HR r Hr)) as [T3 T4]. split; intros l k F; [rewrite T1|rewrite T2]; auto.
  Qed.
  (** communication of kinds [ks] = list of (tag level, op id) *)
  Definition bumped (ks : list (nat * nat)) (l op : nat) : Z :=
    if existsb (fun k => (fst k =? l) && (snd k =? op)) ks then 1%Z else 0%Z.

  Lemma comm_phase {B : Type} (op : nat -> St A -> prog (Msg A) B) (st : B -> St A) (g : GS A -> GS A)
    (ks : list (nat * nat)) (D : GS A -> nat -> nat -> nat -> Data A)
    (Pre : GS A -> nat -> St A -> Prop) (Q : GS A -> nat -> B -> Prop) (dflt : B) :
    (forall k, In k ks -> blvl (fst k) (snd k) < L) ->
    (forall G, GWF G -> GWF (g G)) ->
    (forall r s G (K : nat -> nat -> Z), r < P -> GWF G -> RD r s G -> Pre G r s -> TG K r s -> exists b,
        lrun (op r s)
          (flat_map (fun k => bin (blvl (fst k) (snd k)) (cnd (fst k) (snd k)) (Tag (base (snd k) + K (fst k) (snd k)) (fst k) (snd k)) (D G (fst k) (snd k)) r) ks)
          (flat_map (fun k => bout (blvl (fst k) (snd k)) (cnd (fst k) (snd k)) (Tag (base (snd k) + K (fst k) (snd k)) (fst k) (snd k)) (D G (fst k) (snd k)) r) ks) b /\
        RD r (st b) (g G) /\ Q G r b /\
        (forall l k, sflag l k r = true -> s_stag (st b) l k = s_stag s l k + bumped ks l k)%Z /\
        (forall l k, rflag l k r = true -> s_rtag (st b) l k = s_rtag s l k + bumped ks l k)%Z) ->
    forall s G, Rel s G -> (forall r, r < P -> Pre G r (s r)) ->
    exists b, phase P (fun r => op r (s r)) b /\ Rel (fun r => st (b r)) (g G) /\ forall r, r < P -> Q G r (b r).
  Proof.
    intros Hks Hw H s G [W [K HR]] Hpre.
    set (QQ := fun r b =>
        lrun (op r (s r))
          (flat_map (fun k => bin (blvl (fst k) (snd k)) (cnd (fst k) (snd k)) (Tag (base (snd k) + K (fst k) (snd k)) (fst k) (snd k)) (D G (fst k) (snd k)) r) ks)
          (flat_map (fun k => bout (blvl (fst k) (snd k)) (cnd (fst k) (snd k)) (Tag (base (snd k) + K (fst k) (snd k)) (fst k) (snd k)) (D G (fst k) (snd k)) r) ks) b /\
        RD r (st b) (g G) /\ Q G r b /\
        (forall l k, sflag l k r = true -> s_stag (st b) l k = s_stag (s r) l k + bumped ks l k)%Z /\
        (forall l k, rflag l k r = true -> s_rtag (st b) l k = s_rtag (s r) l k + bumped ks l k)%Z).
    destruct (choose_ranks P QQ dflt) as [b Hb].
    { intros r Hr. apply H; auto; apply HR; auto. }
    exists b. split; [|split].
    - apply (phase_bnd _ _ (map (fun k => (blvl (fst k) (snd k), cnd (fst k) (snd k), (Tag (base (snd k) + K (fst k) (snd k)) (fst k) (snd k)), D G (fst k) (snd k))) ks)).
      + intros m Hm. apply in_map_iff in Hm. destruct Hm as (k & <- & Hk). simpl. auto.
      + intros r Hr. rewrite !flat_map_concat_map, !map_map. rewrite <- !flat_map_concat_map. simpl. apply (Hb r Hr).
    - split; [auto|]. exists (fun l k => K l k + bumped ks l k)%Z. intros r Hr. destruct (Hb r Hr) as (_ & RDr & _ & T1 & T2).
      split; [auto|]. destruct (proj2 (HR r Hr)) as [T3 T4].
      split; intros l k F; [rewrite T1, T3|rewrite T2, T4]; auto; lia.
    - intros r Hr. apply (Hb r Hr).
  Qed.

  Lemma psim_comm (op : nat -> St A -> prog (Msg A) (St A)) g (ks : list (nat * nat)) (D : GS A -> nat -> nat -> nat -> Data A) :
    (forall k, In k ks -> blvl (fst k) (snd k) < L) ->
    (forall G, GWF G -> GWF (g G)) ->
    (forall r s G (K : nat -> nat -> Z), r < P -> GWF G -> RD r s G -> TG K r s -> exists s',
        lrun (op r s)
          (flat_map (fun k => bin (blvl (fst k) (snd k)) (cnd (fst k) (snd k)) (Tag (base (snd k) + K (fst k) (snd k)) (fst k) (snd k)) (D G (fst k) (snd k)) r) ks)
          (flat_map (fun k => bout (blvl (fst k) (snd k)) (cnd (fst k) (snd k)) (Tag (base (snd k) + K (fst k) (snd k)) (fst k) (snd k)) (D G (fst k) (snd k)) r) ks) s' /\
        RD r s' (g G) /\
        (forall l k, sflag l k r = true -> s_stag s' l k = s_stag s l k + bumped ks l k)%Z /\
        (forall l k, rflag l k r = true -> s_rtag s' l k = s_rtag s l k + bumped ks l k)%Z) ->
    Psim op g.
  Proof.
    intros H1 H2 H3 s G HR.
    destruct (comm_phase op (fun s => s) g ks D (fun _ _ _ => True) (fun _ _ _ => True) (s 0) H1 H2) with (s := s) (G := G) as (s' & F & R & _); auto.
    - intros r s0 G0 K Hr Hw Hd _ Ht. destruct (H3 r s0 G0 K Hr Hw Hd Ht) as (s' & X1 & X2 & X3 & X4). exists s'. auto.
    - eauto.
  Qed.

  (** ** Facts about local indices *)
  Lemma loc_bound l r i : l < L -> r < P -> lo l r <= i < lo l (S r) -> off l r <= loc l r i < cnt l r + off l r.
  Proof.
    intros Hl Hr Hi. unfold SetupProofs.loc. pose proof (off_le grids P HV HP0 HP l r Hl Hr). pose proof (lo_cnt grids P HV HP0 HP l r Hl Hr). lia.
  Qed.
  Lemma loc_inj l r i j : l < L -> r < P -> lo l r <= i -> lo l r <= j -> loc l r i = loc l r j -> i = j.
  Proof. intros Hl Hr Hi Hj. unfold SetupProofs.loc. pose proof (off_le grids P HV HP0 HP l r Hl Hr). lia. Qed.

  Lemma ows_upd l r xs f i x f' : l < L -> r < P -> lo l r <= i < lo l (S r) -> ows l r xs f ->
    (forall j, lo l r <= j < lo l (S r) -> f' j = if j =? i then x else f j) -> ows l r (upd xs (loc l r i) x) f'.
  Proof.
    intros Hl Hr Hi [H1 H2] Hf. split; [rewrite upd_length; auto|]. intros j Hj. rewrite Hf by auto.
    pose proof (loc_bound l r i Hl Hr Hi). destruct (j =? i) eqn:E.
    - apply Nat.eqb_eq in E. subst. apply upd_nth_same. lia.
    - apply Nat.eqb_neq in E. rewrite upd_nth_other; [apply H2; auto|]. intros X. apply loc_inj in X; auto; lia.
  Qed.
  Lemma ows_ext l r xs f f' : ows l r xs f -> (forall j, lo l r <= j < lo l (S r) -> f' j = f j) -> ows l r xs f'.
  Proof. intros [H1 H2] Hf. split; [auto|]. intros j Hj. rewrite Hf by auto. auto. Qed.
  Lemma ghost_upd l r xs i x Q : l < L -> r < P -> lo l r <= i < lo l (S r) -> ghost l r xs Q -> ghost l r (upd xs (loc l r i) x) Q.
  Proof.
    intros Hl Hr Hi Hg Ho. destruct (Hg Ho) as (y & Hy & Q1). exists y. split; [|auto].
    rewrite upd_nth_other; [auto|]. pose proof (loc_bound l r i Hl Hr Hi). lia.
  Qed.

  Lemma off_pos l r : l < L -> r < P -> has l r = true -> 0 < lo l r -> off l r = 1.
  Proof.
    intros Hl Hr Hh Hlo. unfold SetupProofs.off. unfold SetupProofs.has in Hh. apply Nat.ltb_lt in Hh.
    destruct (r =? 0) eqn:E.
    - apply Nat.eqb_eq in E. subst. rewrite (lo_0 grids P HV HP0 HP) in Hlo by auto. lia.
    - simpl. destruct (cnt l r =? 0) eqn:E2; [apply Nat.eqb_eq in E2; lia|reflexivity].
  Qed.
  Lemma off_lo l r : l < L -> r < P -> off l r = 1 -> has l r = true /\ 0 < lo l r.
  Proof.
    intros Hl Hr H. unfold SetupProofs.off in H. destruct (r =? 0) eqn:E; [discriminate|]. simpl in H.
    destruct (cnt l r =? 0) eqn:E2; [discriminate|]. apply Nat.eqb_neq in E, E2. split.
    - apply Nat.ltb_lt. lia.
    - apply (lo_pos grids P HV HP0 HP); auto; lia.
  Qed.
  (** no ghost means the block is empty or starts at 0 *)
  Lemma off_01 l r : off l r = 0 \/ off l r = 1.
  Proof. unfold SetupProofs.off. destruct (_ || _); auto. Qed.

  (** value of the left neighbour of an owned point *)
  Lemma prev_nth l r xs f i : l < L -> r < P -> ows l r xs f -> lo l r <= i < lo l (S r) -> 0 < i ->
    (lo l r = i -> nth_error xs 0 = Some (f (i - 1))) ->
    py_nth xs (Z.of_nat (loc l r i) - 1) = Some (f (i - 1)).
  Proof.
    intros Hl Hr [H1 H2] Hi Hp Hg. pose proof (off_le grids P HV HP0 HP l r Hl Hr) as O.
    destruct (Nat.eq_dec (lo l r) i) as [E|E].
    - assert (O1 : off l r = 1). { apply off_pos; auto; [apply has_iff; auto; lia|lia]. }
      assert (loc l r i = 1) as ->. { unfold SetupProofs.loc. lia. } rewrite py_nth_pred by lia. simpl. auto.
    - assert (loc l r i = S (loc l r (i - 1))) as ->. { unfold SetupProofs.loc. lia. }
      rewrite py_nth_pred by lia. simpl. rewrite Nat.sub_0_r. apply H2. lia.
  Qed.
  Lemma tms_nth l r i : l < L -> r < P -> lo l r <= i < lo l (S r) ->
    py_nth (tms grids P l r) (Z.of_nat (loc l r i)) = Some (tm l i).
  Proof.
    intros Hl Hr Hi. rewrite py_nth_nat. unfold tms. pose proof (off_le grids P HV HP0 HP l r Hl Hr) as O.
    pose proof (lo_cnt grids P HV HP0 HP l r Hl Hr).
    rewrite (map_nth_error (tm l) (loc l r i) (seq (lo l r - off l r) (cnt l r + off l r)) (d := i)); [reflexivity|].
    unfold SetupProofs.loc. rewrite nth_error_seq by lia. f_equal. lia.
  Qed.
  Lemma tms_prev l r i : l < L -> r < P -> lo l r <= i < lo l (S r) -> 0 < i ->
    py_nth (tms grids P l r) (Z.of_nat (loc l r i) - 1) = Some (tm l (i - 1)).
  Proof.
    intros Hl Hr Hi Hp. pose proof (off_le grids P HV HP0 HP l r Hl Hr) as O.
    pose proof (lo_cnt grids P HV HP0 HP l r Hl Hr).
    assert (G : 0 < loc l r i).
    { unfold SetupProofs.loc. destruct (Nat.eq_dec (lo l r) i) as [E|E]; [|lia].
      assert (O1 : off l r = 1). { apply off_pos; auto; [apply has_iff; auto; lia|lia]. } lia. }
    rewrite py_nth_pred by auto. unfold tms.
    rewrite (map_nth_error (tm l) (loc l r i - 1) (seq (lo l r - off l r) (cnt l r + off l r)) (d := i - 1)); [reflexivity|].
    unfold SetupProofs.loc in *. rewrite nth_error_seq by lia. f_equal. lia.
  Qed.

  (** ** Single statements *)
  Lemma send_point_run s l i x lt op dst : py_nth (s_u s l) i = Some x -> dst < P ->
    lrun (send_point o P l i (Z.of_nat dst) lt op s) [] [(dst, Tag (s_stag s lt op) lt op, MData (vpack A x))] (inc_stag s lt op).
  Proof.
    intros Hx Hd. unfold send_point. rewrite Hx. simpl. unfold send. rewrite Hgcc.
    replace (Z.of_nat dst <? 0)%Z with false by (symmetry; apply Z.ltb_ge; lia).
    replace (Z.of_nat P <=? Z.of_nat dst)%Z with false by (symmetry; apply Z.leb_gt; lia). simpl.
    rewrite Nat2Z.id. constructor. constructor.
  Qed.
  Lemma recv_ghost_run s l lt op src x xs d : s_u s l = x :: xs -> src < P ->
    lrun (recv_ghost o P l (Z.of_nat src) lt op s) [(src, Tag (s_rtag s lt op) lt op, MData d)] []
         (set_u (inc_rtag s lt op) l (vunpack A x d :: xs)).
  Proof.
    intros Hx Hd. unfold recv_ghost, receive. rewrite Hgcc.
    replace (Z.of_nat src <? 0)%Z with false by (symmetry; apply Z.ltb_ge; lia).
    replace (Z.of_nat P <=? Z.of_nat src)%Z with false by (symmetry; apply Z.leb_gt; lia). simpl.
    rewrite Nat2Z.id. constructor. simpl. unfold unpack_ghost. simpl. rewrite Hx. constructor.
  Qed.
  Lemma put_u_run (s : St A) l i (x : V) : i < length (s_u s l) -> lrun (put_u l i x s) [] [] (set_u s l (upd (s_u s l) i x)).
  Proof. intros H. unfold put_u. rewrite py_upd_nat by auto. simpl. constructor. Qed.

  Lemma RD_put r s G l i x f' : l < L -> r < P -> lo l r <= i < lo l (S r) -> RD r s G ->
    (forall j, lo l r <= j < lo l (S r) -> f' j = if j =? i then x else gu G l j) ->
    RD r (set_u s l (upd (s_u s l) (loc l r i) x)) (with_u G l f').
  Proof.
    intros Hl Hr Hi H Hf. destruct H. constructor; simpl; auto.
    - intros l' Hl'. unfold at1. destruct (l' =? l) eqn:E; [|auto]. apply Nat.eqb_eq in E. subst l'.
      eapply ows_upd; eauto.
    - intros l' Hl'. unfold at1. destruct (l' =? l) eqn:E; [|auto]. apply Nat.eqb_eq in E. subst l'.
      apply ghost_upd; auto.
  Qed.
  Lemma RD_ext r s G G' : RD r s G ->
    (forall l i, l < L -> lo l r <= i < lo l (S r) -> gu G' l i = gu G l i /\ gv G' l i = gv G l i /\ gg G' l i = gg G l i) ->
    gconv G' = gconv G -> glast G' = glast G -> giter G' = giter G -> gout G' = gout G -> RD r s G'.
  Proof.
    intros [] H E1 E2 E3 E4. constructor; auto.
    - intros l Hl. eapply ows_ext; eauto. intros j Hj. apply H; auto.
    - intros l Hl. eapply ows_ext; eauto. intros j Hj. apply H; auto.
    - intros l Hl. eapply ows_ext; eauto. intros j Hj. apply H; auto.
    - congruence.
    - congruence.
    - rewrite E2. auto.
    - congruence.
    - rewrite E4. auto.
  Qed.
  (** ghost received: value [y] *)
  Lemma RD_ghost r s G l x xs y : l < L -> r < P -> RD r s G -> off l r = 1 -> s_u s l = x :: xs -> wf l y ->
    RD r (set_u s l (y :: xs)) G.
  Proof.
    intros Hl Hr H Ho Hx Hy. destruct H. constructor; simpl; auto.
    - intros l' Hl'. unfold at1. destruct (l' =? l) eqn:E; [|auto]. apply Nat.eqb_eq in E. subst l'.
      destruct (rd_u0 l Hl) as [H1 H2]. rewrite Hx in *. split; [auto|]. intros i Hi.
      pose proof (loc_bound l r i Hl Hr Hi). specialize (H2 i Hi). destruct (loc l r i); [lia|]. exact H2.
    - intros l' Hl'. unfold at1. destruct (l' =? l) eqn:E; [|auto]. apply Nat.eqb_eq in E. subst l'.
      intros _. exists y. auto.
  Qed.
  Lemma RD_tags r (s s' : St A) (G : GS A) : RD r s G -> s_u s' = s_u s -> s_v s' = s_v s -> s_g s' = s_g s -> s_sfin s' = s_sfin s ->
    s_conv s' = s_conv s -> s_last s' = s_last s -> s_iter s' = s_iter s -> s_out s' = s_out s -> RD r s' G.
  Proof. intros [] E1 E2 E3 E4 E5 E6 E7 E8. constructor; rewrite ?E1, ?E2, ?E3, ?E4, ?E5, ?E6, ?E7, ?E8; auto. Qed.

  (** the optional boundary send of a point value *)
  Lemma bsend_run r s l i x lt op bl cond dst (b : bool) tag D : l < L -> r < P -> bl < L ->
    b = (has bl r && more bl r && cond (lo bl (S r))) ->
    (b = true -> py_nth (s_u s l) i = Some x /\ dst = Z.of_nat (owner bl (lo bl (S r))) /\ s_stag s lt op = tag /\ D (lo bl (S r)) = vpack A x) ->
    lrun (if b then send_point o P l i dst lt op s else Ret s) [] (bout bl cond (Tag tag lt op) D r) (if b then inc_stag s lt op else s).
  Proof.
    intros Hl Hr Hbl Hb H. unfold bout. rewrite <- Hb. destruct b; [|constructor].
    destruct (H eq_refl) as (H1 & H2 & H3 & H4). subst dst. rewrite H4. rewrite <- H3. apply send_point_run; auto.
    symmetry in Hb. apply andb_prop in Hb. destruct Hb as [Hb _]. apply andb_prop in Hb. destruct Hb as [_ Hb].
    unfold SetupProofs.more in Hb. apply Nat.ltb_lt in Hb. apply (owner_spec grids P HV HP0 HP); auto.
  Qed.

  Definition recvd (b : bool) (l lt op : nat) (y : V) (s : St A) : St A :=
    if b then set_u (inc_rtag s lt op) l (y :: tl (s_u s l)) else s.

  Lemma brecv_run r s l lt op bl cond src (b : bool) tag D y G : l < L -> r < P -> bl < L -> RD r s G ->
    b = (has bl r && (0 <? lo bl r) && cond (lo bl r)) ->
    (b = true -> off l r = 1 /\ src = Z.of_nat (owner bl (lo bl r - 1)) /\ s_rtag s lt op = tag /\ D (lo bl r) = vpack A y /\ wf l y) ->
    lrun (if b && negb (s_sfin s lt op) then recv_ghost o P l src lt op s else Ret s) (bin bl cond (Tag tag lt op) D r) [] (recvd b l lt op y s)
    /\ RD r (recvd b l lt op y s) G.
  Proof.
    intros Hl Hr Hbl HR Hb H. rewrite (rd_sfin r s G HR). simpl negb. rewrite andb_true_r.
    unfold bin, recvd. rewrite <- Hb. destruct b; [|split; [constructor|auto]].
    destruct (H eq_refl) as (H1 & H2 & H3 & H4 & H5). subst src. rewrite H4, <- H3.
    destruct (rd_gh r s G HR l Hl H1) as (x & Hx & Wx). destruct (s_u s l) as [|x0 xs] eqn:Eu; [discriminate|].
    simpl in Hx. injection Hx as ->.
    simpl tl.
    assert (Hsrc : owner bl (lo bl r - 1) < P).
    { symmetry in Hb. apply andb_prop in Hb. destruct Hb as [Hb _]. apply andb_prop in Hb. destruct Hb as [_ Hb].
      apply Nat.ltb_lt in Hb. pose proof (lo_le_N grids P HP0 HP bl r). apply (owner_spec grids P HV HP0 HP); auto; lia. }
    pose proof (recv_ghost_run s l lt op _ x xs (vpack A y) Eu Hsrc) as R.
    rewrite (unpack_pack A wf HL l x y Wx H5) in R. split; [exact R|].
    apply (RD_ghost r (inc_rtag s lt op) G l x xs y); auto.
    eapply RD_tags; eauto.
  Qed.

  (** ** Bridges to the reference vocabulary *)
  Lemma time_tm l i : time grids l i = tm l i.
  Proof. reflexivity. Qed.
  Lemma cpoint_isC l i : cpoint grids l i = isC l i.
  Proof. reflexivity. Qed.
  Lemma index_of_nth g i : incr g -> i < length g -> index_of (nth i g 0%Z) g = i.
  Proof.
    revert i. induction g as [|a g IH]; intros i H Hi; simpl in *; [lia|]. destruct i as [|i].
    - rewrite Z.eqb_refl. reflexivity.
    - replace (a =? nth i g 0)%Z with false.
      + f_equal. apply IH; [eapply incr_tail; eauto|lia].
      + symmetry. apply Z.eqb_neq. pose proof (H 0 (S i) ltac:(lia)) as G. simpl in G. specialize (G ltac:(lia)). lia.
  Qed.
  Lemma fine_cpt l j : S l < L -> j < N (S l) -> fine_index grids l j = cpt l j.
  Proof.
    intros Hl Hj. unfold fine_index. rewrite time_tm, <- (cpt_time grids P HV HP0 HP) by auto.
    apply (index_of_nth (nth l grids [])); [apply (grid_incr grids HV l); lia|apply (cpt_in grids P HV HP0 HP); auto].
  Qed.
  Lemma coarse_cpt l j : S l < L -> j < N (S l) -> coarse_index grids l (cpt l j) = j.
  Proof.
    intros Hl Hj. unfold coarse_index. rewrite time_tm, (cpt_time grids P HV HP0 HP) by auto.
    apply (index_of_nth (nth (S l) grids [])); [apply (grid_incr grids HV); auto|auto].
  Qed.
  Lemma no_adj l i : S l < L -> S i < N l -> isC l i = true -> isC l (S i) = false.
  Proof.
    intros Hl Hi Hc. unfold SetupProofs.isC in *. replace (l =? L - 1) with false in * by (symmetry; apply Nat.eqb_neq; lia).
    apply memz_in in Hc. apply memz_false. apply (HA l i); auto.
  Qed.

  Lemma frelax_C l G i : isC l i = true -> frelax o l G i = gu G l i.
  Proof. destruct i; [reflexivity|]. intros H. simpl. rewrite cpoint_isC, H. reflexivity. Qed.
  Lemma frelax_F l G i : 0 < i -> isC l i = false -> frelax o l G i = gstep o l G (frelax o l G (i - 1)) i.
  Proof. destruct i; [lia|]. intros _ H. simpl frelax at 1. rewrite cpoint_isC, H. simpl. rewrite Nat.sub_0_r. reflexivity. Qed.

  (** ** Well-formedness of reference states *)
  Lemma GWF_with_u G l f : GWF G -> (forall i, l < L -> i < N l -> wf l (f i)) -> GWF (with_u G l f).
  Proof.
    intros W H l' i Hl' Hi. destruct (W l' i Hl' Hi) as (W1 & W2 & W3). simpl. unfold at1.
    destruct (l' =? l) eqn:E; [apply Nat.eqb_eq in E; subst|]; auto.
  Qed.
  Lemma wf_gstep l G x i : GWF G -> l < L -> i < N l -> wf l x -> wf l (gstep o l G x i).
  Proof.
    intros W Hl Hi Hx. unfold gstep. pose proof (wf_phi A wf HL l x (time grids l (i - 1)) (time grids l i) Hx).
    destruct (l =? 0); [auto|]. apply (wf_add A wf HL); auto. apply W; auto.
  Qed.
  Lemma wf_frelax l G i : GWF G -> l < L -> i < N l -> wf l (frelax o l G i).
  Proof.
    intros W Hl. induction i as [|i IH]; intros Hi; [apply W; auto|]. simpl. destruct (cpoint _ _ _); [apply W; auto|].
    apply wf_gstep; auto. apply IH. lia.
  Qed.
  Lemma wf_fsolve l G i : GWF G -> l < L -> i < N l -> wf l (fsolve o l G i).
  Proof.
    intros W Hl. induction i as [|i IH]; intros Hi; [apply W; auto|]. simpl. apply wf_gstep; auto. apply IH. lia.
  Qed.
  Lemma wf_crelax l G i : GWF G -> l < L -> i < N l -> wf l (crelax o l G i).
  Proof.
    intros W Hl Hi. unfold crelax. destruct (_ && _); [|apply W; auto].
    apply (wf_add A wf HL); apply (wf_scale A wf HL); [apply wf_gstep; auto|]; apply W; auto; lia.
  Qed.
  Lemma wf_gres l G i : GWF G -> l < L -> i < N l -> wf l (gres o l G i).
  Proof.
    intros W Hl Hi. unfold gres. destruct (W l i Hl Hi) as (W1 & W2 & W3).
    assert (wf l (phi A l (gu G l (i - 1)) (time grids l (i - 1)) (time grids l i))).
    { apply (wf_phi A wf HL). apply W; auto; lia. }
    destruct (l =? 0); [apply (wf_sub A wf HL)|apply (wf_add A wf HL)]; auto. apply (wf_sub A wf HL); auto.
  Qed.
  Lemma wf_fas_u l G j : GWF G -> S l < L -> j < N (S l) -> wf (S l) (fas_u o l G j).
  Proof.
    intros W Hl Hj. unfold fas_u. apply (wf_restr A wf HL). rewrite fine_cpt by auto. apply W; [lia|].
    apply (cpt_in grids P HV HP0 HP); auto.
  Qed.
  Lemma wf_fas_g l G j : GWF G -> S l < L -> j < N (S l) -> wf (S l) (fas_g o l G j).
  Proof.
    intros W Hl Hj. unfold fas_g. destruct (0 <? j) eqn:E; [|apply W; auto; lia].
    apply (wf_sub A wf HL).
    - apply (wf_add A wf HL).
      + apply (wf_restr A wf HL). apply wf_gres; auto; [lia|]. rewrite fine_cpt by auto. apply (cpt_in grids P HV HP0 HP); auto.
      + apply (wf_clone A wf HL). apply wf_fas_u; auto.
    - apply (wf_phi A wf HL), (wf_clone A wf HL). apply wf_fas_u; auto; lia.
  Qed.
  Lemma GWF_fas l G : S l < L -> GWF G -> GWF (g_fas o l G).
  Proof.
    intros Hl W l' i Hl' Hi. destruct (W l' i Hl' Hi) as (W1 & W2 & W3). unfold g_fas; simpl. unfold at1.
    destruct (l' =? S l) eqn:E; [apply Nat.eqb_eq in E; subst|auto]. split; [|split].
    - apply wf_fas_u; auto.
    - apply (wf_clone A wf HL), wf_fas_u; auto.
    - apply wf_fas_g; auto.
  Qed.
  Lemma wf_corr l G i : GWF G -> S l < L -> i < N l -> wf l (corr o l G i).
  Proof.
    intros W Hl Hi. unfold corr. destruct (_ && _) eqn:E; [|apply W; auto; lia].
    apply andb_prop in E. destruct E as [E _]. rewrite cpoint_isC in E.
    destruct (cpt_surj grids P HV HP0 HP l i Hl Hi E) as (j & Hj & <-). rewrite coarse_cpt by auto.
    apply (wf_add A wf HL); [apply W; auto; lia|]. apply (wf_interp A wf HL). apply (wf_sub A wf HL); apply W; auto.
  Qed.
  Lemma wf_interp_up l G i : GWF G -> S l < L -> i < N l -> wf l (interp_up o l G i).
  Proof.
    intros W Hl Hi. unfold interp_up. destruct (_ && _) eqn:E; [|apply W; auto; lia].
    apply andb_prop in E. destruct E as [E _]. rewrite cpoint_isC in E.
    destruct (cpt_surj grids P HV HP0 HP l i Hl Hi E) as (j & Hj & <-). rewrite coarse_cpt by auto.
    apply (wf_interp A wf HL). apply W; auto.
  Qed.

  (** ** Propagation on a rank *)
  Lemma propagate_eq r s G l i x : l < L -> r < P -> lo l r <= i < lo l (S r) -> 0 < i -> RD r s G ->
    py_nth (s_u s l) (Z.of_nat (loc l r i) - 1) = Some x ->
    propagate (infos r) l s (loc l r i) = Some (gstep o l G x i).
  Proof.
    intros Hl Hr Hi Hp HR Hx. unfold propagate. rewrite inf_eq by auto. unfold closed_info. cbn [i_t]. rewrite Hx.
    rewrite tms_prev, tms_nth by auto. unfold gstep. destruct (l =? 0); [reflexivity|].
    rewrite py_nth_nat. rewrite (proj2 (rd_g r s G HR l Hl) i Hi). reflexivity.
  Qed.

  Lemma fps2_nodup l r : l < L -> r < P -> NoDup (fps2 l r).
  Proof.
    intros Hl Hr. unfold SetupProofs.fps2. eapply Permutation_NoDup; [apply Permutation_sym, fpts2_perm|].
    eapply Permutation_NoDup; [apply Permutation_sym, (Hperm l r Hl Hr)|]. apply NoDup_filter. apply seq_NoDup.
  Qed.
  Lemma fps2_in' l r i : l < L -> r < P -> In i (fps2 l r) <-> lo l r <= i < lo l (S r) /\ isC l i = false.
  Proof. intros Hl Hr. apply fps2_in; auto. Qed.

  Lemma np_min_loc l r : l < L -> r < P -> In (lo l r) (fps2 l r) -> np_min (map (loc l r) (fps2 l r)) = loc l r (lo l r).
  Proof.
    intros Hl Hr Hi. assert (NE : map (loc l r) (fps2 l r) <> []) by (destruct (fps2 l r); [destruct Hi|discriminate]).
    destruct (np_min_spec _ NE) as [M1 M2]. apply in_map_iff in M1. destruct M1 as (y & E & Hy).
    assert (G := M2 (loc l r (lo l r)) (in_map _ _ _ Hi)). rewrite <- E in *. apply fps2_in' in Hy; auto.
    unfold SetupProofs.loc in *. pose proof (off_le grids P HV HP0 HP l r Hl Hr). lia.
  Qed.
  Lemma np_max_loc l r : l < L -> r < P -> In (lo l (S r) - 1) (fps2 l r) ->
    np_max (map (loc l r) (fps2 l r)) = loc l r (lo l (S r) - 1).
  Proof.
    intros Hl Hr Hi. assert (NE : map (loc l r) (fps2 l r) <> []) by (destruct (fps2 l r); [destruct Hi|discriminate]).
    pose proof (np_max_in _ NE) as M1. apply in_map_iff in M1. destruct M1 as (y & E & Hy).
    pose proof (np_max_ge _ _ (in_map (loc l r) _ _ Hi)) as G. rewrite <- E in *. apply fps2_in' in Hy; auto.
    unfold SetupProofs.loc in *. pose proof (off_le grids P HV HP0 HP l r Hl Hr). lia.
  Qed.

  Lemma last_val l r xs f : l < L -> r < P -> has l r = true -> ows l r xs f -> py_nth xs (-1) = Some (f (lo l (S r) - 1)).
  Proof.
    intros Hl Hr Hh [H1 H2]. apply has_iff in Hh; auto. pose proof (lo_cnt grids P HV HP0 HP l r Hl Hr).
    rewrite py_nth_last by (intros ->; simpl in H1; lia).
    rewrite <- (H2 (lo l (S r) - 1)) by lia. f_equal. unfold SetupProofs.loc. pose proof (off_le grids P HV HP0 HP l r Hl Hr). lia.
  Qed.

  Lemma skip_iff l r i : l < L -> r < P -> lo l r <= i < lo l (S r) ->
    negb (loc l r i =? 0) || negb (r =? 0) = (0 <? i).
  Proof.
    intros Hl Hr Hi. destruct (r =? 0) eqn:E.
    - apply Nat.eqb_eq in E. subst r. simpl. rewrite orb_false_r. unfold SetupProofs.loc, SetupProofs.off. simpl.
      rewrite (lo_0 grids P HV HP0 HP) by auto. simpl. rewrite Nat.sub_0_r. destruct i; reflexivity.
    - apply Nat.eqb_neq in E. rewrite orb_true_r. symmetry. apply Nat.ltb_lt.
      pose proof (lo_pos grids P HV HP0 HP l r Hl ltac:(lia) Hr). pose proof (lo_cnt grids P HV HP0 HP l r Hl Hr). lia.
  Qed.

  Lemma stag_inc (s : St A) l op l' k : s_stag (inc_stag s l op) l' k = (s_stag s l' k + (if ((l' =? l) && (k =? op))%nat then 1 else 0))%Z.
  Proof.
    simpl. unfold at2. destruct ((l' =? l) && (k =? op)) eqn:E; [|lia]. apply andb_prop in E. destruct E as [E1 E2].
    apply Nat.eqb_eq in E1, E2. subst. reflexivity.
  Qed.
  Lemma rtag_recvd b l lt op y (s : St A) l' k :
    s_rtag (recvd b l lt op y s) l' k = (s_rtag s l' k + (if (b && (l' =? lt) && (k =? op))%nat then 1 else 0))%Z.
  Proof.
    unfold recvd. destruct b; simpl; [|lia]. unfold at2. destruct ((l' =? lt) && (k =? op)) eqn:E; [|lia].
    apply andb_prop in E. destruct E as [E1 E2]. apply Nat.eqb_eq in E1, E2. subst. reflexivity.
  Qed.
  Lemma stag_recvd b l lt op y (s : St A) : s_stag (recvd b l lt op y s) = s_stag s.
  Proof. unfold recvd. destruct b; reflexivity. Qed.
  Lemma rtag_inc (s : St A) l op : s_rtag (inc_stag s l op) = s_rtag s.
  Proof. reflexivity. Qed.
  Lemma ghost_recvd l lt op y (s : St A) : nth_error (s_u (recvd true l lt op y s) l) 0 = Some y.
  Proof. unfold recvd. simpl. unfold at1. rewrite Nat.eqb_refl. reflexivity. Qed.

  (** ** F-relaxation (mgrit.py 292-333) *)
  Lemma f_relax_sim l : l < L -> Psim (fun r s => f_relax o P (infos r) l s) (g_frelax o l).
  Proof.
    intros Hl.
    apply (psim_comm _ _ [(l, 0); (l, 1)] (fun G lt op a => if op =? 0 then vpack A (gu G lt (a - 1)) else vpack A (frelax o l G (a - 1)))).
    { intros k [<-|[<-|[]]]; exact Hl. }
    { intros G W. apply GWF_with_u; auto. intros i _ Hi. apply wf_frelax; auto. }
    intros r s G K Hr W HR [T1 T2].
    set (hi := lo l (S r)).
    assert (HhN : hi <= N l) by apply (lo_le_N grids P HP0 HP).
    set (b0 := i_last_is_c (closed_info grids so P l r)).
    set (b1 := i_first_is_f (closed_info grids so P l r)).
    set (cb := i_comm_back (closed_info grids so P l r)).
    set (cf := i_comm_front (closed_info grids so P l r)).
    assert (Eb0 : b0 = has l r && more l r && cnd l 0 (lo l (S r))).
    { unfold b0, closed_info, cnd. cbn [i_last_is_c]. rewrite <- !andb_assoc. reflexivity. }
    assert (Eb1 : b1 = has l r && (0 <? lo l r) && cnd l 0 (lo l r)).
    { unfold b1, closed_info, cnd. cbn [i_first_is_f]. rewrite <- !andb_assoc. do 2 f_equal. apply andb_comm. }
    assert (Ecb : cb = has l r && more l r && cnd l 1 (lo l (S r))).
    { unfold cb, closed_info, cnd. cbn [i_comm_back]. rewrite <- !andb_assoc. reflexivity. }
    assert (Ecf : cf = has l r && (0 <? lo l r) && cnd l 1 (lo l r)).
    { unfold cf, closed_info, cnd. cbn [i_comm_front]. rewrite <- !andb_assoc. do 2 f_equal. apply andb_comm. }
    unfold f_relax. rewrite inf_eq by auto. fold b0 b1 cb cf.
    clearbody b0 b1 cb cf.
    (* send the last C-point *)
    set (tag0 := (base 0 + K l 0%nat)%Z). set (tag1 := (base 1 + K l 1%nat)%Z).
    set (D0 := fun a => vpack A (gu G l (a - 1))). set (D1 := fun a => vpack A (frelax o l G (a - 1))).
    assert (R0 : lrun (if b0 then send_point o P l (-1) (i_send_to (closed_info grids so P l r)) l 0 s else Ret s) []
                   (bout l (cnd l 0) (Tag tag0 l 0) D0 r) (if b0 then inc_stag s l 0 else s)).
    { eapply (bsend_run r s l (-1)%Z (gu G l (hi - 1))); auto. intros Hb. rewrite Hb in Eb0. symmetry in Eb0.
      apply andb_prop in Eb0. destruct Eb0 as [X1 X2]. pose proof X1 as X1'. apply andb_prop in X1. destruct X1 as [X1 X3].
      split; [|split; [|split]].
      - apply (last_val l r _ (gu G l)); auto. apply (rd_u r s G HR); auto.
      - unfold closed_info. cbn [i_send_to]. rewrite X1, X3. reflexivity.
      - apply T1. unfold sflag. change (blvl l 0) with l. rewrite X1, X3. exact X2.
      - reflexivity. }
    set (s1 := if b0 then inc_stag s l 0 else s) in *.
    assert (HR1 : RD r s1 G). { unfold s1. destruct b0; [eapply RD_tags; eauto|auto]. }
    assert (G1 : b1 = true -> off l r = 1 /\ 0 < lo l r /\ lo l r <= N l /\ isC l (lo l r - 1) = true).
    { intros Hb. rewrite Hb in Eb1. symmetry in Eb1. apply andb_prop in Eb1. destruct Eb1 as [X1 X2].
      apply andb_prop in X1. destruct X1 as [X1 X3]. apply Nat.ltb_lt in X3. unfold cnd in X2. apply andb_prop in X2. destruct X2 as [X2 _].
      split; [apply off_pos; auto|]. split; [auto|]. split; [apply (lo_le_N grids P HP0 HP)|auto]. }
    destruct (brecv_run r s1 l l 0 l (cnd l 0) (i_get_from (closed_info grids so P l r)) b1 tag0 D0 (gu G l (lo l r - 1)) G) as [R1 HR2]; auto.
    { intros Hb. destruct (G1 Hb) as (X1 & X2 & X3 & X4). split; [auto|]. split; [|split; [|split]].
      - unfold closed_info. cbn [i_get_from]. rewrite Hb in Eb1. symmetry in Eb1. apply andb_prop in Eb1. destruct Eb1 as [Y1 _]. rewrite Y1. reflexivity.
      - unfold s1. replace (s_rtag (if b0 then inc_stag s l 0 else s) l 0) with (s_rtag s l 0) by (destruct b0; reflexivity).
        apply T2. rewrite <- Hb, Eb1. reflexivity.
      - reflexivity.
      - apply W; auto; lia. }
    set (s2 := recvd b1 l l 0 (gu G l (lo l r - 1)) s1) in *.
    assert (Rt2 : forall l' k, s_rtag s2 l' k = (s_rtag s l' k + (if (b1 && (l' =? l) && (k =? 0))%nat then 1 else 0))%Z).
    { intros. unfold s2. rewrite rtag_recvd. unfold s1. destruct b0; reflexivity. }
    assert (St2 : forall l' k, s_stag s2 l' k = (s_stag s l' k + (if (b0 && (l' =? l) && (k =? 0))%nat then 1 else 0))%Z).
    { intros. unfold s2. rewrite stag_recvd. unfold s1. destruct b0; [apply stag_inc|simpl; lia]. }
    (* the loop *)
    set (mix := fun (l1 : list nat) i => if memn i l1 || (i <? lo l r) then frelax o l G i else gu G l i).
    set (Inv := fun (l1 : list nat) (s' : St A) =>
      RD r s' (with_u G l (mix l1)) /\
      (b1 = true -> nth_error (s_u s' l) 0 = Some (frelax o l G (lo l r - 1))) /\
      (forall l' k, s_stag s' l' k = s_stag s2 l' k + (if (cb && memn (hi - 1) l1 && (l' =? l) && (k =? 1))%nat then 1 else 0))%Z /\
      (forall l' k, s_rtag s' l' k = s_rtag s2 l' k + (if (cf && memn (lo l r) l1 && (l' =? l) && (k =? 1))%nat then 1 else 0))%Z).
    destruct (for_each_run (loc l r)
      (fun i s => s <- (if cf && (i =? np_min (i_loc_f (closed_info grids so P l r))) && negb (s_sfin s l 1)
                       then recv_ghost o P l (i_get_from (closed_info grids so P l r)) l 1 s else Ret s) ;;
                 x <- lift (propagate (infos r) l s i) ;;
                 s <- put_u l i x s ;;
                 if cb && (i =? np_max (i_loc_f (closed_info grids so P l r)))
                 then send_point o P l (Z.of_nat i) (i_send_to (closed_info grids so P l r)) l 1 s else Ret s)
      (fun x => if cf && (x =? lo l r) then [(owner l (lo l r - 1), Tag tag1 l 1, MData (D1 (lo l r)))] else [])
      (fun x => if cb && (x =? hi - 1) then [(owner l hi, Tag tag1 l 1, MData (D1 hi))] else [])
      Inv (fps2 l r)) with (s := s2) as (s3 & R3 & I3).
    - intros l1 x l2 s' E (J1 & J2 & J3 & J4).
      assert (Hx : In x (fps2 l r)) by (rewrite E; apply in_or_app; right; left; auto).
      pose proof Hx as Hx'. apply fps2_in' in Hx'; auto. destruct Hx' as [Hxo HxF]. fold hi in Hxo.
      assert (Hx0 : 0 < x). { destruct x; [|lia]. rewrite (isC_0 grids P HV HP0 HP) in HxF by auto. discriminate. }
      assert (Hnd := fps2_nodup l r Hl Hr).
      assert (Hxl1 : ~ In x l1). { rewrite E in Hnd. apply NoDup_remove_2 in Hnd. intros Y. apply Hnd. apply in_or_app. auto. }
      (* optional receive *)
      assert (RV : exists s4, lrun (if cf && (loc l r x =? np_min (i_loc_f (closed_info grids so P l r))) && negb (s_sfin s' l 1)
                       then recv_ghost o P l (i_get_from (closed_info grids so P l r)) l 1 s' else Ret s')
                     (if cf && (x =? lo l r) then [(owner l (lo l r - 1), Tag tag1 l 1, MData (D1 (lo l r)))] else []) [] s4 /\
                   RD r s4 (with_u G l (mix l1)) /\
                   (b1 = true -> nth_error (s_u s4 l) 0 = Some (frelax o l G (lo l r - 1))) /\
                   (cf = true -> x = lo l r -> nth_error (s_u s4 l) 0 = Some (frelax o l G (lo l r - 1))) /\
                   (forall l' k, s_stag s4 l' k = s_stag s' l' k) /\
                   (forall l' k, s_rtag s4 l' k = s_rtag s' l' k + (if (cf && (x =? lo l r) && (l' =? l) && (k =? 1))%nat then 1 else 0))%Z).
      { destruct cf eqn:Hcf.
        2:{ exists s'. simpl. split; [constructor|]. split; [auto|]. split; [auto|]. split; [discriminate|].
            split; intros; [auto|lia]. }
        pose proof Ecf as Ecf'. symmetry in Ecf'. apply andb_prop in Ecf'. destruct Ecf' as [X1 X2]. pose proof X1 as X1'.
        apply andb_prop in X1. destruct X1 as [X1 X3]. apply Nat.ltb_lt in X3. unfold cnd in X2. apply andb_prop in X2. destruct X2 as [X4 X5].
        assert (Hlof : In (lo l r) (fps2 l r)).
        { apply fps2_in'; auto. split; [apply has_iff in X1; auto; lia|]. unfold SetupProofs.isF in X5. apply negb_true_iff in X5. exact X5. }
        assert (EM : np_min (i_loc_f (closed_info grids so P l r)) = loc l r (lo l r)) by (apply np_min_loc; auto).
        rewrite EM. destruct (x =? lo l r) eqn:Ex.
        - apply Nat.eqb_eq in Ex. subst x. rewrite Nat.eqb_refl. cbn [andb].
          destruct (brecv_run r s' l l 1 l (cnd l 1) (i_get_from (closed_info grids so P l r)) true tag1 D1 (frelax o l G (lo l r - 1)) (with_u G l (mix l1)))
            as [Q1 Q2]; auto.
          { intros _. split; [apply off_pos; auto|]. split; [|split; [|split]].
            - unfold closed_info. cbn [i_get_from]. rewrite X1'. reflexivity.
            - rewrite J4, Rt2. replace (memn (lo l r) l1) with false by (symmetry; apply memn_false; auto).
              rewrite andb_false_r. simpl. rewrite T2; [unfold tag1; lia|].
              rewrite Ecf. reflexivity.
            - reflexivity.
            - apply wf_frelax; auto. pose proof (lo_le_N grids P HP0 HP l r). lia. }
          exists (recvd true l l 1 (frelax o l G (lo l r - 1)) s').
          split. { unfold bin in Q1. rewrite <- Ecf in Q1. exact Q1. }
          split; [auto|]. split; [intros; apply ghost_recvd|]. split; [intros; apply ghost_recvd|].
          split; intros; [rewrite stag_recvd; auto|]. rewrite rtag_recvd. reflexivity.
        - apply Nat.eqb_neq in Ex. replace (loc l r x =? loc l r (lo l r)) with false.
          2:{ symmetry. apply Nat.eqb_neq. intros Y. apply loc_inj in Y; auto; lia. }
          simpl. exists s'. split; [constructor|]. split; [auto|]. split; [auto|]. split; [intros; congruence|].
          split; intros; [auto|lia]. }
      destruct RV as (s4 & Q1 & Q2 & Q3 & Q4 & Q5 & Q6).
      (* value of the predecessor *)
      assert (PV : py_nth (s_u s4 l) (Z.of_nat (loc l r x) - 1) = Some (frelax o l G (x - 1))).
      { assert (ME : mix l1 (x - 1) = frelax o l G (x - 1)).
        { unfold mix. destruct (x - 1 <? lo l r) eqn:Y; [rewrite orb_true_r; reflexivity|]. rewrite orb_false_r. apply Nat.ltb_ge in Y.
          destruct (isC l (x - 1)) eqn:YC; [rewrite (frelax_C l G _ YC); destruct (memn (x - 1) l1); reflexivity|].
          replace (memn (x - 1) l1) with true; [reflexivity|]. symmetry. apply memn_in.
          apply (Hresp l r Hl Hr l1 x l2 E); [|lia]. apply fps2_in'; auto. split; [fold hi; lia|auto]. }
        rewrite <- ME. pose proof (rd_u r s4 _ Q2 l Hl) as OW. simpl in OW. unfold at1 in OW. rewrite Nat.eqb_refl in OW.
        apply (prev_nth l r _ (mix l1)); auto. intros Elo. rewrite ME.
        (* the ghost holds the relaxed value *)
        replace (x - 1) with (lo l r - 1) by lia.
        destruct (isC l (lo l r - 1)) eqn:YC.
        - apply Q3. rewrite Eb1. unfold cnd, SetupProofs.isF. rewrite YC, Elo, HxF. simpl.
          replace (0 <? x) with true by (symmetry; apply Nat.ltb_lt; lia). rewrite (proj2 (has_iff l r Hl Hr)); [reflexivity|fold hi; lia].
        - apply Q4; [|auto]. rewrite Ecf. unfold cnd, SetupProofs.isF. rewrite YC, Elo, HxF. simpl.
          replace (0 <? x) with true by (symmetry; apply Nat.ltb_lt; lia). rewrite (proj2 (has_iff l r Hl Hr)); [reflexivity|fold hi; lia]. }
      pose proof (propagate_eq r s4 _ l x _ Hl Hr Hxo Hx0 Q2 PV) as PE.
      change (gstep o l (with_u G l (mix l1))) with (gstep o l G) in PE. rewrite <- frelax_F in PE by auto.
      set (s5 := set_u s4 l (upd (s_u s4 l) (loc l r x) (frelax o l G x))).
      assert (Hlen : loc l r x < length (s_u s4 l)).
      { rewrite (proj1 (rd_u r s4 _ Q2 l Hl)). apply (loc_bound l r x Hl Hr Hxo). }
      assert (HR5 : RD r s5 (with_u G l (mix (l1 ++ [x])))).
      { pose proof (RD_put r s4 _ l x (frelax o l G x) (mix (l1 ++ [x])) Hl Hr Hxo Q2) as X.
        eapply RD_ext; [apply X| | | | |]; auto.
        - intros j Hj. simpl. unfold at1. rewrite Nat.eqb_refl. unfold mix.
          destruct (j =? x) eqn:Y.
          + apply Nat.eqb_eq in Y. subst j. replace (memn x (l1 ++ [x])) with true; [reflexivity|].
            symmetry. apply memn_in. apply in_or_app. right; left; auto.
          + apply Nat.eqb_neq in Y. replace (memn j (l1 ++ [x])) with (memn j l1); [reflexivity|].
            apply Bool.eq_iff_eq_true. rewrite !memn_in, in_app_iff. simpl. intuition congruence.
        - intros l' i Hl' Hi. simpl. unfold at1. destruct (l' =? l); auto. }
      (* optional send *)
      assert (SD : exists s6, lrun (if cb && (loc l r x =? np_max (i_loc_f (closed_info grids so P l r)))
                 then send_point o P l (Z.of_nat (loc l r x)) (i_send_to (closed_info grids so P l r)) l 1 s5 else Ret s5)
                 [] (if cb && (x =? hi - 1) then [(owner l hi, Tag tag1 l 1, MData (D1 hi))] else []) s6 /\
               (forall G', RD r s5 G' -> RD r s6 G') /\ s_u s6 = s_u s5 /\
               (forall l' k, s_stag s6 l' k = s_stag s5 l' k + (if (cb && (x =? hi - 1) && (l' =? l) && (k =? 1))%nat then 1 else 0))%Z /\
               (forall l' k, s_rtag s6 l' k = s_rtag s5 l' k)).
      { destruct cb eqn:Hcb.
        2:{ exists s5. simpl. split; [constructor|]. split; [auto|]. split; [auto|]. split; intros; [lia|auto]. }
        pose proof Ecb as Ecb'. symmetry in Ecb'. apply andb_prop in Ecb'. destruct Ecb' as [X1 X2]. pose proof X1 as X1'.
        apply andb_prop in X1. destruct X1 as [X1 X3]. unfold cnd in X2. apply andb_prop in X2. destruct X2 as [X4 X5].
        assert (Hhif : In (hi - 1) (fps2 l r)).
        { apply fps2_in'; auto. apply has_iff in X1; auto. fold hi in X1 |- *. split; [lia|]. unfold SetupProofs.isF in X4. apply negb_true_iff in X4. exact X4. }
        assert (EM : np_max (i_loc_f (closed_info grids so P l r)) = loc l r (hi - 1)) by (apply np_max_loc; auto).
        rewrite EM. destruct (x =? hi - 1) eqn:Ex.
        - apply Nat.eqb_eq in Ex. rewrite <- Ex, Nat.eqb_refl. cbn [andb].
          exists (inc_stag s5 l 1). split; [|split; [|split; [|split]]].
          + unfold closed_info. cbn [i_send_to]. rewrite X1'. fold hi.
            replace tag1 with (s_stag s5 l 1).
            * unfold D1. rewrite <- Ex. apply send_point_run.
              -- rewrite py_nth_nat. unfold s5. simpl. unfold at1. rewrite Nat.eqb_refl. apply upd_nth_same. auto.
              -- unfold SetupProofs.more in X3. apply Nat.ltb_lt in X3. apply (owner_spec grids P HV HP0 HP); auto.
            * unfold s5. simpl. rewrite Q5, J3, St2. rewrite <- Ex. replace (memn x l1) with false by (symmetry; apply memn_false; auto).
              rewrite andb_false_r. simpl. rewrite T1; [unfold tag1; lia|].
              rewrite Ecb. reflexivity.
          + intros G' HG'. eapply RD_tags; eauto.
          + reflexivity.
          + intros. rewrite stag_inc. reflexivity.
          + reflexivity.
        - apply Nat.eqb_neq in Ex. replace (loc l r x =? loc l r (hi - 1)) with false.
          2:{ symmetry. apply Nat.eqb_neq. intros Y. apply loc_inj in Y; auto; lia. }
          cbn [andb]. exists s5. split; [constructor|]. split; [auto|]. split; [auto|]. split; intros; [rewrite Z.add_0_r; reflexivity|auto]. }
      destruct SD as (s6 & V1 & V2 & V3 & V4 & V5).
      exists s6. split; [|split; [|split; [|split]]].
      + eapply lrun_eq; [eapply lrun_bind; [exact Q1|]| | |].
        * rewrite PE. simpl. eapply lrun_bind; [apply put_u_run; exact Hlen|]. fold s5. exact V1.
        * simpl. apply app_nil_r.
        * reflexivity.
        * reflexivity.
      + apply V2. exact HR5.
      + intros Hb. rewrite V3. unfold s5, set_u, at1. cbn [s_u]. rewrite Nat.eqb_refl. rewrite upd_nth_other; [auto|].
        destruct (G1 Hb) as (Ho & _). pose proof (loc_bound l r x Hl Hr Hxo). lia.
      + intros l' k. rewrite V4. unfold s5. simpl. rewrite Q5, J3.
        assert (memn (hi - 1) (l1 ++ [x]) = memn (hi - 1) l1 || (x =? hi - 1)) as ->.
        { apply Bool.eq_iff_eq_true. rewrite orb_true_iff, Nat.eqb_eq, !memn_in, in_app_iff. simpl. intuition. }
        destruct (x =? hi - 1) eqn:Ex.
        * apply Nat.eqb_eq in Ex. replace (memn (hi - 1) l1) with false by (symmetry; apply memn_false; rewrite <- Ex; auto).
          simpl. rewrite andb_false_r. simpl. lia.
        * rewrite orb_false_r, andb_false_r. simpl. lia.
      + intros l' k. rewrite V5. unfold s5. simpl. rewrite Q6, J4.
        assert (memn (lo l r) (l1 ++ [x]) = memn (lo l r) l1 || (x =? lo l r)) as ->.
        { apply Bool.eq_iff_eq_true. rewrite orb_true_iff, Nat.eqb_eq, !memn_in, in_app_iff. simpl. intuition. }
        destruct (x =? lo l r) eqn:Ex.
        * apply Nat.eqb_eq in Ex. replace (memn (lo l r) l1) with false by (symmetry; apply memn_false; rewrite <- Ex; auto).
          simpl. rewrite andb_false_r. simpl. lia.
        * rewrite orb_false_r, andb_false_r. simpl. lia.
    - split; [|split; [|split]].
      + eapply RD_ext; [exact HR2| | | | |]; auto. intros l' i Hl' Hi. simpl. unfold at1. destruct (l' =? l) eqn:E; [|auto].
        apply Nat.eqb_eq in E. subst l'. unfold mix. simpl. replace (i <? lo l r) with false by (symmetry; apply Nat.ltb_ge; lia). auto.
      + intros Hb. unfold s2. rewrite Hb. rewrite ghost_recvd. destruct (G1 Hb) as (_ & _ & _ & X). rewrite frelax_C; auto.
      + intros. simpl. rewrite andb_false_r. simpl. lia.
      + intros. simpl. rewrite andb_false_r. simpl. lia.
    - destruct I3 as (J1 & J2 & J3 & J4).
      assert (CB : cb = true -> memn (hi - 1) (fps2 l r) = true).
      { intros Hb. rewrite Hb in Ecb. symmetry in Ecb. apply andb_prop in Ecb. destruct Ecb as [X1 X2].
        apply andb_prop in X1. destruct X1 as [X1 X3]. unfold cnd in X2. apply andb_prop in X2. destruct X2 as [X4 X5].
        apply memn_in. apply fps2_in'; auto. apply has_iff in X1; auto. fold hi in X1 |- *. split; [lia|]. unfold SetupProofs.isF in X4. apply negb_true_iff in X4. exact X4. }
      assert (CF : cf = true -> memn (lo l r) (fps2 l r) = true).
      { intros Hb. rewrite Hb in Ecf. symmetry in Ecf. apply andb_prop in Ecf. destruct Ecf as [X1 X2].
        apply andb_prop in X1. destruct X1 as [X1 X3]. unfold cnd in X2. apply andb_prop in X2. destruct X2 as [X4 X5].
        apply memn_in. apply fps2_in'; auto. split; [apply has_iff in X1; auto; lia|]. unfold SetupProofs.isF in X5. apply negb_true_iff in X5. exact X5. }
      exists s3. split; [|split; [|split]].
      + eapply lrun_eq; [eapply lrun_bind; [exact R0|]; eapply lrun_bind; [exact R1|]; exact R3| | |].
        * cbn [flat_map app fst snd]. change (blvl l 0) with l. change (blvl l 1) with l. f_equal. rewrite app_nil_r. rewrite flat_map_single.
          -- unfold bin. rewrite <- Ecf. reflexivity.
          -- apply fps2_nodup; auto.
          -- intros Hb. apply memn_in. auto.
        * cbn [flat_map app fst snd]. change (blvl l 0) with l. change (blvl l 1) with l. f_equal. rewrite app_nil_r. rewrite flat_map_single.
          -- unfold bout. rewrite <- Ecb. reflexivity.
          -- apply fps2_nodup; auto.
          -- intros Hb. apply memn_in. auto.
        * reflexivity.
      + eapply RD_ext; [exact J1| | | | |]; auto. intros l' i Hl' Hi. simpl. unfold at1. destruct (l' =? l) eqn:E; [|auto].
        apply Nat.eqb_eq in E. subst l'. split; [|auto]. unfold mix. destruct (isC l i) eqn:C.
        * rewrite frelax_C by auto. destruct (_ || _); reflexivity.
        * replace (memn i (fps2 l r)) with true; [reflexivity|]. symmetry. apply memn_in. apply fps2_in'; auto.
      + intros l' k Hf. rewrite J3, St2. unfold bumped. simpl. rewrite orb_false_r. rewrite !(Nat.eqb_sym l l').
        destruct (l' =? l) eqn:E1; [|rewrite !andb_false_r; simpl; lia]. apply Nat.eqb_eq in E1. subst l'.
        rewrite !andb_true_r. clear - Hf Eb0 Ecb CB. 
        destruct k as [|[|k]]; simpl.
        * change (sflag l 0 r) with (has l r && more l r && cnd l 0 (lo l (S r))) in Hf. rewrite <- Eb0 in Hf. rewrite Hf, andb_false_r. simpl. lia.
        * change (sflag l 1 r) with (has l r && more l r && cnd l 1 (lo l (S r))) in Hf. rewrite <- Ecb in Hf. rewrite Hf, (CB Hf), andb_false_r. simpl. lia.
        * rewrite !andb_false_r. lia.
      + intros l' k Hf. rewrite J4, Rt2. unfold bumped. simpl. rewrite orb_false_r. rewrite !(Nat.eqb_sym l l').
        destruct (l' =? l) eqn:E1; [|rewrite !andb_false_r; simpl; lia]. apply Nat.eqb_eq in E1. subst l'.
        rewrite !andb_true_r. clear - Hf Eb1 Ecf CF. 
        destruct k as [|[|k]]; simpl.
        * change (rflag l 0 r) with (has l r && (0 <? lo l r) && cnd l 0 (lo l r)) in Hf. rewrite <- Eb1 in Hf. rewrite Hf, andb_false_r. simpl. lia.
        * change (rflag l 1 r) with (has l r && (0 <? lo l r) && cnd l 1 (lo l r)) in Hf. rewrite <- Ecf in Hf. rewrite Hf, (CF Hf), andb_false_r. simpl. lia.
        * rewrite !andb_false_r. lia.
  Qed.

  (** ** The exchange before C-relaxation, FAS residual and stopping criterion (ops 2, 3, 7) *)
  Definition exch_op (op : nat) : Prop := op = 2 \/ op = 3 \/ op = 7.
  Lemma exch_cnd l op a : exch_op op -> cnd l op a = isF l (a - 1) && isC l a.
  Proof. intros [->|[->| ->]]; reflexivity. Qed.
  Lemma exch_lvl l op : exch_op op -> blvl l op = l.
  Proof. intros [->|[->| ->]]; reflexivity. Qed.
  Definition Dprev (G : GS A) (l a : nat) : Data A := vpack A (gu G l (a - 1)).

  Lemma exchange_run op l r s G K : exch_op op -> l < L -> r < P -> GWF G -> RD r s G ->
    (sflag l op r = true -> s_stag s l op = (base op + K)%Z) -> (rflag l op r = true -> s_rtag s l op = (base op + K)%Z) ->
    exists s1 s2,
      lrun (if i_last_is_f (closed_info grids so P l r) then send_point o P l (-1) (i_send_to (closed_info grids so P l r)) l op s else Ret s)
           [] (bout l (cnd l op) (Tag (base op + K) l op) (Dprev G l) r) s1 /\
      lrun (if i_first_is_c (closed_info grids so P l r) && negb (s_sfin s1 l op)
            then recv_ghost o P l (i_get_from (closed_info grids so P l r)) l op s1 else Ret s1)
           (bin l (cnd l op) (Tag (base op + K) l op) (Dprev G l) r) [] s2 /\
      RD r s2 G /\
      (rflag l op r = true -> nth_error (s_u s2 l) 0 = Some (gu G l (lo l r - 1))) /\
      (forall l' k, s_stag s2 l' k = s_stag s l' k + (if (sflag l op r && (l' =? l) && (k =? op))%nat then 1 else 0))%Z /\
      (forall l' k, s_rtag s2 l' k = s_rtag s l' k + (if (rflag l op r && (l' =? l) && (k =? op))%nat then 1 else 0))%Z /\
      (forall l', l' <> l \/ rflag l op r = false -> s_u s2 l' = s_u s l') /\ s_v s2 = s_v s /\ s_g s2 = s_g s.
  Proof.
    intros Hop Hl Hr W HR T1 T2. set (I := closed_info grids so P l r).
    assert (Eb : i_last_is_f I = sflag l op r).
    { unfold sflag. rewrite exch_lvl, exch_cnd by auto. unfold I, closed_info. cbn [i_last_is_f]. rewrite !andb_assoc. reflexivity. }
    assert (Ec : i_first_is_c I = rflag l op r).
    { unfold rflag. rewrite exch_lvl, exch_cnd by auto. unfold I, closed_info. cbn [i_first_is_c]. rewrite <- !andb_assoc.
      do 2 f_equal. apply andb_comm. }
    rewrite Eb, Ec.
    set (s1 := if sflag l op r then inc_stag s l op else s).
    assert (HR1 : RD r s1 G). { unfold s1. destruct (sflag l op r); [eapply RD_tags; eauto|auto]. }
    assert (R0 : lrun (if sflag l op r then send_point o P l (-1) (i_send_to I) l op s else Ret s) []
                   (bout l (cnd l op) (Tag (base op + K) l op) (Dprev G l) r) s1).
    { eapply (bsend_run r s l (-1)%Z (gu G l (lo l (S r) - 1))); auto.
      - unfold sflag. rewrite exch_lvl by auto. reflexivity.
      - intros Hb. pose proof Hb as Hb'. unfold sflag in Hb'. rewrite exch_lvl in Hb' by auto. apply andb_prop in Hb'. destruct Hb' as [X1 X2].
        pose proof X1 as X1'. apply andb_prop in X1. destruct X1 as [X1 X3]. split; [|split; [|split]].
        + apply (last_val l r _ (gu G l)); auto. apply (rd_u r s G HR); auto.
        + unfold I, closed_info. cbn [i_send_to]. rewrite X1'. reflexivity.
        + auto.
        + reflexivity. }
    destruct (brecv_run r s1 l l op l (cnd l op) (i_get_from I) (rflag l op r) (base op + K)%Z (Dprev G l) (gu G l (lo l r - 1)) G) as [R1 HR2]; auto.
    { unfold rflag. rewrite exch_lvl by auto. reflexivity. }
    { intros Hb. pose proof Hb as Hb'. unfold rflag in Hb'. rewrite exch_lvl in Hb' by auto. apply andb_prop in Hb'. destruct Hb' as [X1 X2].
      pose proof X1 as X1'. apply andb_prop in X1. destruct X1 as [X1 X3]. apply Nat.ltb_lt in X3. split; [|split; [|split; [|split]]].
      - apply off_pos; auto.
      - unfold I, closed_info. cbn [i_get_from]. rewrite X1'. reflexivity.
      - unfold s1. replace (s_rtag (if sflag l op r then inc_stag s l op else s) l op) with (s_rtag s l op) by (destruct (sflag l op r); reflexivity). auto.
      - reflexivity.
      - apply W; auto. pose proof (lo_le_N grids P HP0 HP l r). lia. }
    exists s1, (recvd (rflag l op r) l l op (gu G l (lo l r - 1)) s1).
    split; [exact R0|]. split; [exact R1|]. split; [exact HR2|]. split; [|split; [|split; [|split]]].
    - intros Hb. rewrite Hb. apply ghost_recvd.
    - intros. rewrite stag_recvd. unfold s1. destruct (sflag l op r); [apply stag_inc|simpl; lia].
    - intros. rewrite rtag_recvd. unfold s1. destruct (sflag l op r); reflexivity.
    - intros l' Hl'. unfold recvd, s1. destruct (rflag l op r), (sflag l op r); simpl; unfold at1; auto;
        (destruct Hl' as [Hl'|Hl']; [|discriminate]); apply Nat.eqb_neq in Hl'; rewrite Hl'; reflexivity.
    - unfold recvd, s1. destruct (rflag l op r), (sflag l op r); split; reflexivity.
  Qed.

  (** ghost value available at the first C-point *)
  Lemma rflag_C l r op : exch_op op -> S l < L -> r < P -> lo l r < lo l (S r) -> 0 < lo l r -> isC l (lo l r) = true -> rflag l op r = true.
  Proof.
    intros Hop Hl Hr H1 H2 H3. unfold rflag. rewrite exch_lvl, exch_cnd by auto.
    rewrite (proj2 (has_iff l r ltac:(lia) Hr)) by auto. rewrite H3. replace (0 <? lo l r) with true by (symmetry; apply Nat.ltb_lt; auto).
    simpl. rewrite andb_true_r. unfold SetupProofs.isF. apply negb_true_iff.
    destruct (isC l (lo l r - 1)) eqn:E; [|reflexivity]. pose proof (lo_le_N grids P HP0 HP l (S r)).
    pose proof (no_adj l (lo l r - 1) Hl ltac:(lia) E) as G. replace (S (lo l r - 1)) with (lo l r) in G by lia. congruence.
  Qed.

  Lemma cps_in l r i : l < L -> r < P -> In i (cps l r) <-> lo l r <= i < lo l (S r) /\ isC l i = true.
  Proof. intros Hl Hr. unfold SetupProofs.cps. rewrite filter_In, pts_in by auto. reflexivity. Qed.
  Lemma cps_nodup l r : NoDup (cps l r).
  Proof. unfold SetupProofs.cps, SetupProofs.pts. apply NoDup_filter, seq_NoDup. Qed.

  (** ** C-relaxation (mgrit.py 335-370) *)
  Lemma c_relax_sim l : S l < L -> Psim (fun r s => c_relax o P r (infos r) l s) (g_crelax o l).
  Proof.
    intros Hl. assert (Hl0 : l < L) by lia.
    apply (psim_comm _ _ [(l, 2)] (fun G lt op a => Dprev G lt a)).
    { intros k [<-|[]]; exact Hl0. }
    { intros G W. apply GWF_with_u; auto. intros i _ Hi. apply wf_crelax; auto. }
    intros r s G K Hr W HR [T1 T2].
    unfold c_relax. rewrite inf_eq by auto.
    destruct (exchange_run 2 l r s G (K l 2)) as (s1 & s2 & R1 & R2 & HR2 & Hgh & St2 & Rt2 & _); auto; [left; auto|].
    set (mix := fun (l1 : list nat) i => if memn i l1 then crelax o l G i else gu G l i).
    destruct (for_each_local (loc l r)
      (fun i s =>
         if negb (i =? 0) || negb (r =? 0) then
           y <- lift (propagate (infos r) l s i) ;;
           old <- lift (py_nth (s_u s l) (Z.of_nat i)) ;;
           put_u l i (vadd A (vscale A y (o_weight o)) (vscale A old (one_minus A (o_weight o)))) s
         else Ret s)
      (fun l1 s' => RD r s' (with_u G l (mix l1)) /\ (rflag l 2 r = true -> nth_error (s_u s' l) 0 = Some (gu G l (lo l r - 1))) /\
         s_stag s' = s_stag s2 /\ s_rtag s' = s_rtag s2)
      (cps l r)) with (s := s2) as (s3 & R3 & J1 & J2 & J3 & J4).
    - intros l1 x l2 s' E (J1 & J2 & J3 & J4).
      assert (Hsub : forall y, In y (l1 ++ x :: l2) -> lo l r <= y < lo l (S r) /\ isC l y = true) by (intros y Hy; rewrite <- E in Hy; apply cps_in in Hy; auto).
      destruct (Hsub x (in_elt x l1 l2)) as [Hxo HxC].
      assert (Hxl1 : ~ In x l1). { pose proof (cps_nodup l r) as Hnd. rewrite E in Hnd. apply NoDup_remove_2 in Hnd. intros Y. apply Hnd. apply in_or_app. auto. }
      rewrite skip_iff by auto. destruct (0 <? x) eqn:Hx0.
      + apply Nat.ltb_lt in Hx0.
        assert (OW := rd_u r s' _ J1 l Hl0). simpl in OW. unfold at1 in OW. rewrite Nat.eqb_refl in OW.
        assert (ME : mix l1 (x - 1) = gu G l (x - 1)).
        { unfold mix. destruct (memn (x - 1) l1) eqn:M; [|reflexivity]. apply memn_in in M.
          destruct (Hsub (x - 1)) as [Y1 Y2]; [apply in_or_app; left; auto|].
          pose proof (lo_le_N grids P HP0 HP l (S r)).
          pose proof (no_adj l (x - 1) Hl ltac:(lia) Y2) as X. replace (S (x - 1)) with x in X by lia. congruence. }
        assert (PV : py_nth (s_u s' l) (Z.of_nat (loc l r x) - 1) = Some (gu G l (x - 1))).
        { rewrite <- ME. apply (prev_nth l r _ (mix l1)); auto. intros Elo. rewrite ME, <- Elo. apply J2.
          apply rflag_C; [left; auto|auto|auto|lia|lia|rewrite Elo; auto]. }
        rewrite (propagate_eq r s' _ l x _ Hl0 Hr Hxo Hx0 J1 PV). simpl.
        rewrite py_nth_nat, (proj2 OW x Hxo). simpl.
        replace (mix l1 x) with (gu G l x) by (unfold mix; rewrite (proj2 (memn_false x l1) Hxl1); reflexivity).
        change (gstep o l (with_u G l (mix l1))) with (gstep o l G).
        set (y := vadd A _ _).
        eexists. split; [apply put_u_run; rewrite (proj1 OW); apply (loc_bound l r x Hl0 Hr Hxo)|].
        split; [|split; [intros Hb|split]].
        * pose proof (RD_put r s' _ l x y (mix (l1 ++ [x])) Hl0 Hr Hxo J1) as X.
          eapply RD_ext; [apply X| | | | |]; auto.
          -- intros j Hj. simpl. unfold at1. rewrite Nat.eqb_refl. unfold mix.
             destruct (j =? x) eqn:Y.
             ++ apply Nat.eqb_eq in Y. subst j. replace (memn x (l1 ++ [x])) with true.
                ** unfold crelax. rewrite cpoint_isC, HxC. replace (0 <? x) with true by (symmetry; apply Nat.ltb_lt; auto). reflexivity.
                ** symmetry. apply memn_in. apply in_or_app. right; left; auto.
             ++ apply Nat.eqb_neq in Y. replace (memn j (l1 ++ [x])) with (memn j l1); [reflexivity|].
                apply Bool.eq_iff_eq_true. rewrite !memn_in, in_app_iff. simpl. intuition congruence.
          -- intros l' i Hl' Hi. simpl. unfold at1. destruct (l' =? l); auto.
        * change (nth_error (s_u (set_u s' l (upd (s_u s' l) (loc l r x) y)) l) 0 = Some (gu G l (lo l r - 1))).
          unfold set_u, at1. cbn [s_u]. rewrite Nat.eqb_refl. rewrite upd_nth_other; [auto|].
          pose proof (loc_bound l r x Hl0 Hr Hxo). unfold rflag in Hb. change (blvl l 2) with l in Hb. apply andb_prop in Hb. destruct Hb as [Hb _].
          apply andb_prop in Hb. destruct Hb as [Hb1 Hb2]. apply Nat.ltb_lt in Hb2. pose proof (off_pos l r Hl0 Hr Hb1 Hb2). lia.
        * exact J3.
        * exact J4.
      + apply Nat.ltb_ge in Hx0. assert (x = 0) by lia. subst x. exists s'. split; [constructor|]. split; [|auto].
        eapply RD_ext; [exact J1| | | | |]; auto. intros l' i Hl' Hi. simpl. unfold at1. destruct (l' =? l) eqn:El; [|auto].
        apply Nat.eqb_eq in El. subst l'. split; [|auto]. unfold mix. destruct (Nat.eq_dec i 0) as [->|Hi0].
        * unfold crelax. rewrite andb_false_r. destruct (memn 0 (l1 ++ [0])), (memn 0 l1); reflexivity.
        * replace (memn i (l1 ++ [0])) with (memn i l1); [reflexivity|].
          apply Bool.eq_iff_eq_true. rewrite !memn_in, in_app_iff. simpl. intuition congruence.
    - split; [|auto]. eapply RD_ext; [exact HR2| | | | |]; auto. intros l' i Hl' Hi. simpl. unfold at1. destruct (l' =? l) eqn:E; [|auto].
      apply Nat.eqb_eq in E. subst l'. auto.
    - exists s3. split; [|split; [|split]].
      + eapply lrun_eq; [eapply lrun_bind; [exact R1|]; eapply lrun_bind; [exact R2|]; exact R3| | |]; try reflexivity.
      + eapply RD_ext; [exact J1| | | | |]; auto. intros l' i Hl' Hi. simpl. unfold at1. destruct (l' =? l) eqn:E; [|auto].
        apply Nat.eqb_eq in E. subst l'. split; [|auto]. unfold mix. destruct (memn i (cps l r)) eqn:M; [reflexivity|].
        apply memn_false in M. unfold crelax. rewrite cpoint_isC. destruct (isC l i) eqn:C; [|reflexivity].
        exfalso. apply M. apply cps_in; auto.
      + intros l' k Hf. rewrite J3, St2. unfold bumped. simpl. rewrite orb_false_r. rewrite (Nat.eqb_sym l l').
        destruct (l' =? l) eqn:E1; [|rewrite !andb_false_r; simpl; lia]. apply Nat.eqb_eq in E1. subst l'.
        rewrite !andb_true_r. destruct k as [|[|[|k]]]; rewrite ?andb_false_r; try lia. rewrite Hf. simpl. lia.
      + intros l' k Hf. rewrite J4, Rt2. unfold bumped. simpl. rewrite orb_false_r. rewrite (Nat.eqb_sym l l').
        destruct (l' =? l) eqn:E1; [|rewrite !andb_false_r; simpl; lia]. apply Nat.eqb_eq in E1. subst l'.
        rewrite !andb_true_r. destruct k as [|[|[|k]]]; rewrite ?andb_false_r; try lia. rewrite Hf. simpl. lia.
  Qed.

  (** ** FAS residual (mgrit.py 488-549) *)
  Definition with_v (G : GS A) (l : nat) (f : nat -> V) : GS A :=
    mkGS (gu G) (at1 (gv G) l f) (gg G) (gconv G) (glast G) (giter G) (gout G).
  Definition with_g (G : GS A) (l : nat) (f : nat -> V) : GS A :=
    mkGS (gu G) (gv G) (at1 (gg G) l f) (gconv G) (glast G) (giter G) (gout G).
  Lemma eqb_S l : (l =? S l) = false.
  Proof. apply Nat.eqb_neq. lia. Qed.
  Lemma RD_putg r s G l i x f' : l < L -> r < P -> lo l r <= i < lo l (S r) -> RD r s G ->
    (forall j, lo l r <= j < lo l (S r) -> f' j = if j =? i then x else gg G l j) ->
    RD r (set_g s l (upd (s_g s l) (loc l r i) x)) (with_g G l f').
  Proof.
    intros Hl Hr Hi H Hf. destruct H. constructor; simpl; auto.
    intros l' Hl'. unfold at1. destruct (l' =? l) eqn:E; [|auto]. apply Nat.eqb_eq in E. subst l'. eapply ows_upd; eauto.
  Qed.
  Lemma ows_map l r xs f h : ows l r xs f -> ows l r (map h xs) (fun j => h (f j)).
  Proof. intros [H1 H2]. split; [rewrite map_length; auto|]. intros i Hi. apply map_nth_error. auto. Qed.
  Lemma RD_setv r s G l : l < L -> RD r s G ->
    RD r (set_v s l (map (vclone A) (s_u s l))) (with_v G l (fun j => vclone A (gu G l j))).
  Proof.
    intros Hl H. destruct H. constructor; simpl; auto.
    intros l' Hl'. unfold at1. destruct (l' =? l) eqn:E; [|auto]. apply Nat.eqb_eq in E. subst l'. apply ows_map. auto.
  Qed.
  Lemma bin_ext l cond tag D D' r : (forall a, D a = D' a) -> bin l cond tag D r = bin l cond tag D' r.
  Proof. intros H. unfold bin. rewrite H. reflexivity. Qed.
  Lemma bout_ext l cond tag D D' r : (forall a, D a = D' a) -> bout l cond tag D r = bout l cond tag D' r.
  Proof. intros H. unfold bout. rewrite H. reflexivity. Qed.

  Lemma locc_nth l r k : S l < L -> r < P -> k < cnt (S l) r ->
    nth_error (i_loc_c (closed_info grids so P l r)) k = Some (loc l r (cpt l (lo (S l) r + k))).
  Proof.
    intros Hl Hr Hk. unfold closed_info. cbn [i_loc_c]. apply map_nth_error.
    unfold SetupProofs.cps, SetupProofs.pts. rewrite (cpts_block grids P HV HP0 HP) by auto. apply map_nth_error. apply nth_error_seq. auto.
  Qed.
  Lemma locc_len l r : S l < L -> r < P -> length (i_loc_c (closed_info grids so P l r)) = cnt (S l) r.
  Proof.
    intros Hl Hr. unfold closed_info. cbn [i_loc_c]. rewrite map_length.
    unfold SetupProofs.cps, SetupProofs.pts. rewrite (cpts_block grids P HV HP0 HP) by auto. rewrite map_length, seq_length. reflexivity.
  Qed.
  Lemma loc_nth l r k : k < cnt l r -> nth_error (i_loc (closed_info grids so P l r)) k = Some (loc l r (lo l r + k)).
  Proof.
    intros Hk. unfold closed_info. cbn [i_loc]. apply map_nth_error. unfold SetupProofs.pts. apply nth_error_seq. auto.
  Qed.
  Lemma loc_last l r : l < L -> r < P -> has l r = true ->
    py_nth (i_loc (closed_info grids so P l r)) (-1) = Some (loc l r (lo l (S r) - 1)).
  Proof.
    intros Hl Hr Hh. unfold SetupProofs.has in Hh. apply Nat.ltb_lt in Hh. pose proof (lo_cnt grids P HV HP0 HP l r Hl Hr).
    assert (E : length (i_loc (closed_info grids so P l r)) = cnt l r).
    { unfold closed_info. cbn [i_loc]. rewrite map_length. unfold SetupProofs.pts. apply seq_length. }
    rewrite py_nth_last by (intros X; rewrite X in E; simpl in E; lia). rewrite E, loc_nth by lia. do 2 f_equal. lia.
  Qed.
  Lemma loc_k l r k : l < L -> r < P -> k < cnt l r -> (if r =? 0 then k else k + 1) = loc l r (lo l r + k).
  Proof.
    intros Hl Hr Hk. unfold SetupProofs.loc. pose proof (off_le grids P HV HP0 HP l r Hl Hr) as O. revert O. unfold SetupProofs.off.
    replace (cnt l r =? 0) with false by (symmetry; apply Nat.eqb_neq; lia). rewrite orb_false_r. destruct (r =? 0); lia.
  Qed.
  Lemma skip_k l r k : l < L -> r < P -> k < cnt l r -> negb (k =? 0) || negb (r =? 0) = (0 <? lo l r + k).
  Proof.
    intros Hl Hr Hk. destruct (r =? 0) eqn:E.
    - apply Nat.eqb_eq in E. subst r. rewrite (lo_0 grids P HV HP0 HP) by auto. simpl. rewrite orb_false_r. destruct k; reflexivity.
    - apply Nat.eqb_neq in E. rewrite orb_true_r. symmetry. apply Nat.ltb_lt.
      pose proof (lo_pos grids P HV HP0 HP l r Hl ltac:(lia) Hr). lia.
  Qed.
  Lemma cpt_own l r j : S l < L -> r < P -> lo (S l) r <= j < lo (S l) (S r) -> lo l r <= cpt l j < lo l (S r).
  Proof.
    intros Hl Hr Hj. assert (Hj' : j < N (S l)) by (pose proof (lo_le_N grids P HP0 HP (S l) (S r)); lia).
    split; [apply (cpt_block grids P HV HP0 HP); auto; lia|].
    destruct (le_lt_dec (lo l (S r)) (cpt l j)) as [X|X]; [|auto].
    apply (cpt_block grids P HV HP0 HP) in X; auto. lia.
  Qed.
  Lemma cpt_pos l j : S l < L -> j < N (S l) -> 0 < j -> 0 < cpt l j.
  Proof.
    intros Hl Hj Hp. pose proof (cpt_0 grids P HV HP0 HP l Hl) as E. pose proof (N_pos grids P HV HP0 HP (S l) Hl).
    pose proof (proj2 (cpt_lt grids P HV HP0 HP l 0 j Hl H Hj) Hp). lia.
  Qed.

  Lemma fas_sim l : S l < L -> Psim (fun r s => fas_residual o P r (infos r) l s) (g_fas o l).
  Proof.
    intros Hl. assert (Hl0 : l < L) by lia.
    apply (psim_comm _ _ [(l, 3); (l, 4)] (fun G lt op a => if op =? 3 then Dprev G lt a else vpack A (fas_u o l G (a - 1)))).
    { intros k [<-|[<-|[]]]; [exact Hl0|exact Hl]. }
    { intros G W. apply GWF_fas; auto. }
    intros r s G K Hr W HR [T1 T2].
    unfold fas_residual. rewrite !inf_eq by auto. rewrite locc_len by auto.
    set (I := closed_info grids so P l r). set (J := closed_info grids so P (S l) r).
    pose proof (lo_cnt grids P HV HP0 HP (S l) r Hl Hr) as HC.
    pose proof (lo_le_N grids P HP0 HP (S l) (S r)) as HN.
    (* restriction of u *)
    set (mix := fun k j => if j <? lo (S l) r + k then fas_u o l G j else gu G (S l) j).
    destruct (for_range_local
      (fun i s =>
           c <- lift (nth_error (i_loc_c I) i) ;;
           x <- lift (py_nth (s_u s l) (Z.of_nat c)) ;;
           put_u (S l) (if r =? 0 then i else i + 1) (restr A l x) s)
      (fun k s' => RD r s' (with_u G (S l) (mix k)) /\ s_stag s' = s_stag s /\ s_rtag s' = s_rtag s)
      0 (cnt (S l) r)) with (s := s) as (s1 & R1 & HR1 & S1 & S1').
    { intros k s' Hk (J1 & J2 & J3). unfold I. rewrite locc_nth by auto. simpl.
      assert (Hj : lo (S l) r <= lo (S l) r + k < lo (S l) (S r)) by lia.
      pose proof (cpt_own l r _ Hl Hr Hj) as Hc.
      assert (OW := rd_u r s' _ J1 l Hl0). simpl in OW. unfold at1 in OW. rewrite eqb_S in OW.
      rewrite py_nth_nat, (proj2 OW _ Hc). simpl. rewrite (loc_k (S l)) by auto.
      assert (OW' := rd_u r s' _ J1 (S l) Hl).
      eexists. split; [apply put_u_run; rewrite (proj1 OW'); apply (loc_bound (S l) r _ Hl Hr Hj)|].
      split; [|split; assumption].
      set (y := restr A l _).
      pose proof (RD_put r s' _ (S l) _ y (mix (S k)) Hl Hr Hj J1) as X.
      eapply RD_ext; [apply X| | | | |]; auto.
      - intros j Hj'. simpl. unfold at1. rewrite Nat.eqb_refl. unfold mix. destruct (j =? lo (S l) r + k) eqn:Y.
        + apply Nat.eqb_eq in Y. subst j. replace (lo (S l) r + k <? lo (S l) r + S k) with true by (symmetry; apply Nat.ltb_lt; lia).
          unfold fas_u. rewrite fine_cpt by (auto; lia). reflexivity.
        + apply Nat.eqb_neq in Y. replace (j <? lo (S l) r + S k) with (j <? lo (S l) r + k); [reflexivity|].
          apply Bool.eq_iff_eq_true. rewrite !Nat.ltb_lt. lia.
      - intros l' i Hl' Hi. simpl. unfold at1. destruct (l' =? S l); auto. }
    { split; [|auto]. eapply RD_ext; [exact HR| | | | |]; auto. intros l' i Hl' Hi. simpl. unfold at1. destruct (l' =? S l) eqn:E; [|auto].
      apply Nat.eqb_eq in E. subst l'. unfold mix. replace (i <? lo (S l) r + 0) with false by (symmetry; apply Nat.ltb_ge; lia). auto. }
    set (G1 := with_u G (S l) (fas_u o l G)).
    assert (W1 : GWF G1). { apply GWF_with_u; auto. intros i _ Hi. apply wf_fas_u; auto. }
    assert (HR1' : RD r s1 G1).
    { eapply RD_ext; [exact HR1| | | | |]; auto. intros l' i Hl' Hi. simpl. unfold at1. destruct (l' =? S l) eqn:E; [|auto].
      apply Nat.eqb_eq in E. subst l'. unfold mix. replace (i <? lo (S l) r + cnt (S l) r) with true by (symmetry; apply Nat.ltb_lt; lia). auto. }
    assert (Gl : forall i, gu G1 l i = gu G l i). { intros i. unfold G1. simpl. unfold at1. rewrite eqb_S. reflexivity. }
    assert (GSl : forall i, gu G1 (S l) i = fas_u o l G i). { intros i. unfold G1. simpl. unfold at1. rewrite Nat.eqb_refl. reflexivity. }
    clear HR1.
    (* exchange on the fine level *)
    destruct (exchange_run 3 l r s1 G1 (K l 3)) as (s2 & s3 & R2 & R3 & HR3 & Hgh & St3 & Rt3 & _ & _ & _); auto.
    { right; left; auto. } { rewrite S1. auto. } { rewrite S1'. auto. }
    (* exchange on the coarse level *)
    set (tag4 := (base 4 + K l 4%nat)%Z). set (D4 := fun a => vpack A (fas_u o l G (a - 1))).
    assert (F4s : forall a, cnd l 4 a = true) by reflexivity.
    set (b4 := has (S l) r && more (S l) r). set (c4 := has (S l) r && (0 <? lo (S l) r)).
    assert (Es4 : (0 <=? i_send_to J)%Z = b4).
    { unfold J, closed_info. cbn [i_send_to]. fold b4. destruct b4; [apply Z.leb_le; lia|reflexivity]. }
    assert (Er4 : (0 <=? i_get_from J)%Z = c4).
    { unfold J, closed_info. cbn [i_get_from]. fold c4. destruct c4; [apply Z.leb_le; lia|reflexivity]. }
    assert (Fs4 : sflag l 4 r = b4). { unfold sflag. change (blvl l 4) with (S l). rewrite F4s, andb_true_r. reflexivity. }
    assert (Fr4 : rflag l 4 r = c4). { unfold rflag. change (blvl l 4) with (S l). rewrite F4s, andb_true_r. reflexivity. }
    rewrite Es4. set (s4 := if b4 then inc_stag s3 l 4 else s3).
    assert (HR4 : RD r s4 G1). { unfold s4. destruct b4; [eapply RD_tags; eauto|auto]. }
    assert (R4 : lrun (if b4 then k <- lift (py_nth (i_loc J) (-1)) ;; send_point o P (S l) (Z.of_nat k) (i_send_to J) l 4 s3 else Ret s3)
                   [] (bout (S l) (cnd l 4) (Tag tag4 l 4) D4 r) s4).
    { eapply lrun_eq with (i := []); [|reflexivity|reflexivity|reflexivity].
      assert (PE : (if b4 then k <- lift (py_nth (i_loc J) (-1)) ;; send_point o P (S l) (Z.of_nat k) (i_send_to J) l 4 s3 else Ret s3)
                 = (if b4 then send_point o P (S l) (Z.of_nat (loc (S l) r (lo (S l) (S r) - 1))) (i_send_to J) l 4 s3 else Ret s3)).
      { destruct b4 eqn:E; [|reflexivity]. apply andb_prop in E. destruct E as [E _]. unfold J at 1. rewrite loc_last by auto. reflexivity. }
      rewrite PE. eapply (bsend_run r s3 (S l) _ (fas_u o l G (lo (S l) (S r) - 1)) l 4 (S l) (cnd l 4)); auto.
      - intros Hb. unfold b4 in Hb. pose proof Hb as Hb'. apply andb_prop in Hb. destruct Hb as [Hb1 Hb2]. apply has_iff in Hb1; auto.
        split; [|split; [|split]].
        + rewrite py_nth_nat. rewrite <- GSl. apply (rd_u r s3 _ HR3 (S l) Hl). lia.
        + unfold J, closed_info. cbn [i_send_to]. rewrite Hb'. reflexivity.
        + rewrite St3. rewrite S1. simpl. rewrite andb_false_r. rewrite T1; [unfold tag4; lia|]. rewrite Fs4. exact Hb'.
        + reflexivity. }
    rewrite Er4.
    destruct (brecv_run r s4 (S l) l 4 (S l) (cnd l 4) (i_get_from J) c4 tag4 D4 (fas_u o l G (lo (S l) r - 1)) G1) as [R5 HR5]; auto.
    { intros Hb. unfold c4 in Hb. pose proof Hb as Hb'. apply andb_prop in Hb. destruct Hb as [Hb1 Hb2]. apply Nat.ltb_lt in Hb2.
      split; [|split; [|split; [|split]]].
      - apply off_pos; auto.
      - unfold J, closed_info. cbn [i_get_from]. rewrite Hb'. reflexivity.
      - unfold s4. replace (s_rtag (if b4 then inc_stag s3 l 4 else s3) l 4) with (s_rtag s3 l 4) by (destruct b4; reflexivity).
        rewrite Rt3. rewrite S1'. simpl. rewrite andb_false_r. rewrite T2; [unfold tag4; lia|]. rewrite Fr4. exact Hb'.
      - reflexivity.
      - apply wf_fas_u; auto. pose proof (lo_le_N grids P HP0 HP (S l) r). lia. }
    set (s5 := recvd c4 (S l) l 4 (fas_u o l G (lo (S l) r - 1)) s4) in *.
    assert (Gc : off (S l) r = 1 -> nth_error (s_u s5 (S l)) 0 = Some (fas_u o l G (lo (S l) r - 1))).
    { intros Ho. destruct (off_lo (S l) r Hl Hr Ho) as [X1 X2]. unfold s5, c4. rewrite X1.
      replace (0 <? lo (S l) r) with true by (symmetry; apply Nat.ltb_lt; auto). simpl andb. apply ghost_recvd. }
    assert (Gf : rflag l 3 r = true -> nth_error (s_u s5 l) 0 = Some (gu G l (lo l r - 1))).
    { intros Hf. replace (s_u s5 l) with (s_u s3 l); [rewrite Hgh by auto; rewrite Gl; reflexivity|].
      unfold s5, recvd, s4. destruct c4, b4; simpl; unfold at1; rewrite ?eqb_S; reflexivity. }
    pose proof (RD_setv r s5 G1 (S l) Hl HR5) as HR6.
    set (s6 := set_v s5 (S l) (map (vclone A) (s_u s5 (S l)))) in *.
    set (G2 := with_v G1 (S l) (fun j => vclone A (gu G1 (S l) j))) in *.
    (* right-hand side *)
    set (mixg := fun k j => if j <? lo (S l) r + k then fas_g o l G j else gg G (S l) j).
    destruct (for_range_local
      (fun i s =>
      if negb (i =? 0) || negb (r =? 0) then
        c <- lift (nth_error (i_loc_c I) i) ;;
        j <- lift (nth_error (i_loc J) i) ;;
        x <- lift (fas_rhs (infos r) l s c j) ;;
        gs <- lift (py_upd (s_g s (S l)) (Z.of_nat j) x) ;;
        Ret (set_g s (S l) gs)
      else Ret s)
      (fun k s' => RD r s' (with_g G2 (S l) (mixg k)) /\ s_u s' = s_u s6 /\ s_v s' = s_v s6 /\ s_stag s' = s_stag s6 /\ s_rtag s' = s_rtag s6)
      0 (cnt (S l) r)) with (s := s6) as (s7 & R7 & HR7 & U7 & V7 & S7 & S7').
    { intros k s' Hk (J1 & J2 & J3 & J4 & J5). rewrite skip_k with (l := S l) by auto. simpl plus.
      set (j := lo (S l) r + k). assert (Hj : lo (S l) r <= j < lo (S l) (S r)) by (unfold j; lia).
      destruct (0 <? j) eqn:Hj0.
      - apply Nat.ltb_lt in Hj0. unfold I, J. rewrite locc_nth, loc_nth by auto. fold j. simpl bind.
        set (c := cpt l j). pose proof (cpt_own l r _ Hl Hr Hj) as Hc. fold c in Hc.
        assert (Hc0 : 0 < c) by (apply cpt_pos; auto; lia).
        assert (OU : ows l r (s_u s' l) (gu G l)). { eapply ows_ext; [apply (rd_u r s' _ J1 l Hl0)|]. intros i _. symmetry. apply Gl. }
        assert (OV : ows (S l) r (s_v s' (S l)) (fun i => vclone A (fas_u o l G i))).
        { eapply ows_ext; [apply (rd_v r s' _ J1 (S l) Hl)|]. intros i _. change (vclone A (fas_u o l G i) = at1 (gv G1) (S l) (fun j => vclone A (gu G1 (S l) j)) (S l) i). unfold at1. rewrite Nat.eqb_refl, GSl. reflexivity. }
        assert (OG : ows l r (s_g s' l) (gg G l)). { eapply ows_ext; [apply (rd_g r s' _ J1 l Hl0)|]. intros i _. simpl. unfold at1. rewrite eqb_S. reflexivity. }
        assert (FR : fas_rhs (infos r) l s' (loc l r c) (loc (S l) r j) = Some (fas_g o l G j)).
        { unfold fas_rhs. rewrite !inf_eq by auto. unfold closed_info. cbn [i_t].
          rewrite (prev_nth l r _ (gu G l)); auto.
          2:{ intros Elo. rewrite J2. change (s_u s6) with (s_u s5). rewrite <- Elo. apply Gf.
              apply rflag_C; [right; left; auto|auto|auto|lia|lia|]. rewrite Elo. apply (cpt_in grids P HV HP0 HP); auto; lia. }
          rewrite tms_prev, tms_nth by auto. rewrite !py_nth_nat. rewrite (proj2 OU c Hc), (proj2 OV j Hj).
          rewrite (prev_nth (S l) r _ (fun i => vclone A (fas_u o l G i))); auto.
          2:{ intros Elo. rewrite J3. unfold s6, set_v, at1. cbn [s_v]. rewrite Nat.eqb_refl.
              rewrite (map_nth_error (vclone A) 0 _ (d := fas_u o l G (lo (S l) r - 1))); [rewrite Elo; reflexivity|]. apply Gc.
              apply off_pos; auto; [apply has_iff; auto; lia|lia]. }
          rewrite tms_prev by auto. rewrite <- py_nth_nat. rewrite tms_nth by auto. unfold fas_g, gres.
          replace (0 <? j) with true by (symmetry; apply Nat.ltb_lt; auto). rewrite fine_cpt by (auto; lia). fold c.
          destruct (l =? 0); [reflexivity|]. rewrite (proj2 OG c Hc). reflexivity. }
        rewrite FR. simpl bind.
        assert (OG' := rd_g r s' _ J1 (S l) Hl).
        rewrite py_upd_nat by (rewrite (proj1 OG'); apply (loc_bound (S l) r _ Hl Hr Hj)). simpl bind.
        eexists. split; [constructor|]. split; [|auto].
        pose proof (RD_putg r s' _ (S l) _ (fas_g o l G j) (mixg (S k)) Hl Hr Hj J1) as X.
        eapply RD_ext; [apply X| | | | |]; auto.
        + intros i Hi. simpl. unfold at1. rewrite Nat.eqb_refl. unfold mixg. destruct (i =? j) eqn:Y.
          * apply Nat.eqb_eq in Y. subst i. unfold j at 1. replace (lo (S l) r + k <? lo (S l) r + S k) with true by (symmetry; apply Nat.ltb_lt; lia). reflexivity.
          * apply Nat.eqb_neq in Y. replace (i <? lo (S l) r + S k) with (i <? lo (S l) r + k); [reflexivity|].
            apply Bool.eq_iff_eq_true. rewrite !Nat.ltb_lt. unfold j in Y. lia.
        + intros l' i Hl' Hi. simpl. unfold at1. destruct (l' =? S l); auto.
      - apply Nat.ltb_ge in Hj0. exists s'. split; [constructor|]. split; [|auto].
        eapply RD_ext; [exact J1| | | | |]; auto. intros l' i Hl' Hi. simpl. unfold at1. destruct (l' =? S l) eqn:El; [|auto].
        split; [auto|]. split; [auto|]. unfold mixg. unfold j in Hj0. destruct i as [|i].
        + unfold fas_g. simpl. apply Nat.eqb_eq in El. subst l'. destruct (0 <? lo (S l) r + S k), (0 <? lo (S l) r + k); reflexivity.
        + replace (S i <? lo (S l) r + S k) with false by (symmetry; apply Nat.ltb_ge; lia).
          replace (S i <? lo (S l) r + k) with false by (symmetry; apply Nat.ltb_ge; lia). reflexivity. }
    { split; [|auto]. eapply RD_ext; [exact HR6| | | | |]; auto. intros l' i Hl' Hi. simpl. unfold at1. destruct (l' =? S l) eqn:E; [|auto].
      apply Nat.eqb_eq in E. subst l'. unfold mixg. replace (i <? lo (S l) r + 0) with false by (symmetry; apply Nat.ltb_ge; lia). auto. }
    exists s7. split; [|split; [|split]].
    - eapply lrun_eq; [eapply lrun_bind; [exact R1|]; eapply lrun_bind; [exact R2|]; eapply lrun_bind; [exact R3|];
        eapply lrun_bind; [exact R4|]; eapply lrun_bind; [exact R5|]; exact R7| | |].
      + cbn [flat_map app fst snd]. change (blvl l 3) with l. change (blvl l 4) with (S l). rewrite !app_nil_r. f_equal. apply bin_ext. intros a. unfold Dprev. rewrite Gl. reflexivity.
      + cbn [flat_map app fst snd]. change (blvl l 3) with l. change (blvl l 4) with (S l). rewrite !app_nil_r. f_equal. apply bout_ext. intros a. unfold Dprev. rewrite Gl. reflexivity.
      + reflexivity.
    - eapply RD_ext; [exact HR7| | | | |]; auto. intros l' i Hl' Hi. unfold g_fas. simpl. unfold at1. destruct (l' =? S l) eqn:E; [|auto].
      apply Nat.eqb_eq in E. subst l'. split; [auto|]. split.
      + rewrite Nat.eqb_refl. reflexivity.
      + unfold mixg. replace (i <? lo (S l) r + cnt (S l) r) with true by (symmetry; apply Nat.ltb_lt; lia). reflexivity.
    - intros l' k Hf. rewrite S7. change (s_stag s6) with (s_stag s5). unfold s5. rewrite stag_recvd.
      assert (S4 : s_stag s4 l' k = (s_stag s3 l' k + (if (b4 && (l' =? l) && (k =? 4))%nat then 1 else 0))%Z).
      { unfold s4. destruct b4; [apply stag_inc|simpl; lia]. }
      rewrite S4, St3, S1. unfold bumped. simpl. rewrite orb_false_r. rewrite (Nat.eqb_sym l l').
      destruct (l' =? l) eqn:E1; [|rewrite !andb_false_r; simpl; lia]. apply Nat.eqb_eq in E1. subst l'. rewrite !andb_true_r.
      destruct k as [|[|[|[|[|k]]]]]; rewrite ?andb_false_r; simpl; try lia.
      + rewrite Hf. simpl. lia.
      + rewrite <- Fs4, Hf. simpl. lia.
    - intros l' k Hf. rewrite S7'. change (s_rtag s6) with (s_rtag s5). unfold s5. rewrite rtag_recvd.
      replace (s_rtag s4 l' k) with (s_rtag s3 l' k) by (unfold s4; destruct b4; reflexivity).
      rewrite Rt3, S1'. unfold bumped. simpl. rewrite orb_false_r. rewrite (Nat.eqb_sym l l').
      destruct (l' =? l) eqn:E1; [|rewrite !andb_false_r; simpl; lia]. apply Nat.eqb_eq in E1. subst l'. rewrite !andb_true_r.
      destruct k as [|[|[|[|[|k]]]]]; rewrite ?andb_false_r; simpl; try lia.
      + rewrite Hf. simpl. lia.
      + rewrite <- Fr4, Hf. simpl. lia.
  Qed.

  (** ** Loops over the coarse points that update the C-points of the finer level *)
  Lemma cnt_coarse l r : S l < L -> r < P -> cnt (S l) r <= cnt l r.
  Proof.
    intros Hl Hr. pose proof (f_equal (@length nat) (cpts_block grids P HV HP0 HP l r Hl Hr)) as E.
    rewrite map_length, seq_length in E. rewrite <- E. clear E.
    rewrite <- (seq_length (cnt l r) (lo l r)) at 2. generalize (seq (lo l r) (cnt l r)). clear. intros q.
    induction q as [|a q IH]; simpl; [lia|]. destruct (isC l a); simpl; lia.
  Qed.

  Lemma cloop l r s G (body : nat -> St A -> prog (Msg A) (St A)) (f : nat -> V) : S l < L -> r < P -> RD r s G ->
    (forall i, isC l i = false -> f i = gu G l i) -> f 0 = gu G l 0 ->
    (forall k s' G', k < cnt (S l) r -> RD r s' G' -> 0 < lo (S l) r + k ->
       (forall l', l' <> l -> gu G' l' = gu G l') -> gv G' = gv G -> gg G' = gg G ->
       gu G' l (cpt l (lo (S l) r + k)) = gu G l (cpt l (lo (S l) r + k)) ->
       body k s' = put_u l (loc l r (cpt l (lo (S l) r + k))) (f (cpt l (lo (S l) r + k))) s') ->
    (forall k s', k < cnt (S l) r -> lo (S l) r + k = 0 -> body k s' = Ret s') ->
    exists s', lrun (for_each (seq 0 (cnt (S l) r)) body s) [] [] s' /\ RD r s' (with_u G l f) /\
      s_stag s' = s_stag s /\ s_rtag s' = s_rtag s.
  Proof.
    intros Hl Hr HR Hf Hf0 Hb Hb0. assert (Hl0 : l < L) by lia.
    pose proof (lo_cnt grids P HV HP0 HP (S l) r Hl Hr) as HC.
    pose proof (lo_le_N grids P HP0 HP (S l) (S r)) as HN.
    pose proof (lo_le_N grids P HP0 HP l (S r)) as HN0.
    set (mix := fun k i => if isC l i && (coarse_index grids l i <? lo (S l) r + k) then f i else gu G l i).
    destruct (for_range_local body
      (fun k s' => RD r s' (with_u G l (mix k)) /\ s_stag s' = s_stag s /\ s_rtag s' = s_rtag s)
      0 (cnt (S l) r)) with (s := s) as (s1 & R1 & HR1 & S1 & S1').
    - intros k s' Hk (J1 & J2 & J3). simpl plus. set (j := lo (S l) r + k).
      assert (Hj : lo (S l) r <= j < lo (S l) (S r)) by (unfold j; lia).
      destruct (Nat.eq_dec j 0) as [Z|Z].
      + rewrite Hb0 by auto. exists s'. split; [constructor|]. split; [|auto].
        eapply RD_ext; [exact J1| | | | |]; auto. intros l' i Hl' Hi. simpl. unfold at1. destruct (l' =? l) eqn:E; [|auto].
        apply Nat.eqb_eq in E. subst l'. split; [|auto]. unfold mix. destruct (isC l i) eqn:C; [|reflexivity]. simpl.
        destruct (cpt_surj grids P HV HP0 HP l i Hl ltac:(lia) C) as (j' & Hj' & Ei). rewrite <- Ei, coarse_cpt by auto.
        unfold j in Z. destruct (Nat.eq_dec j' 0) as [->|N0].
        * rewrite (cpt_0 grids P HV HP0 HP) by auto. rewrite Hf0. destruct (_ <? _), (_ <? _); reflexivity.
        * replace (j' <? lo (S l) r + S k) with false by (symmetry; apply Nat.ltb_ge; lia).
          replace (j' <? lo (S l) r + k) with false by (symmetry; apply Nat.ltb_ge; lia). reflexivity.
      + pose proof (cpt_own l r _ Hl Hr Hj) as Hc. set (c := cpt l j) in *.
        assert (HcC : isC l c = true) by (apply (cpt_in grids P HV HP0 HP); auto; lia).
        rewrite (Hb k s' (with_u G l (mix k))); auto.
        2:{ unfold j in Z. lia. }
        2:{ intros l' Hl'. simpl. unfold at1. apply Nat.eqb_neq in Hl'. rewrite Hl'. reflexivity. }
        2:{ simpl. unfold at1. rewrite Nat.eqb_refl. fold j. unfold mix. rewrite coarse_cpt by (auto; lia).
            replace (j <? lo (S l) r + k) with false by (symmetry; apply Nat.ltb_ge; unfold j; lia). rewrite andb_false_r. reflexivity. }
        fold j. fold c. assert (OW := rd_u r s' _ J1 l Hl0).
        eexists. split; [apply put_u_run; rewrite (proj1 OW); apply (loc_bound l r c Hl0 Hr Hc)|]. split; [|split; assumption].
        pose proof (RD_put r s' _ l _ (f c) (mix (S k)) Hl0 Hr Hc J1) as X.
        eapply RD_ext; [apply X| | | | |]; auto.
        * intros i Hi. simpl. unfold at1. rewrite Nat.eqb_refl. unfold mix. destruct (i =? c) eqn:Y.
          -- apply Nat.eqb_eq in Y. subst i. rewrite HcC. unfold c. rewrite coarse_cpt by (auto; lia).
             replace (j <? lo (S l) r + S k) with true by (symmetry; apply Nat.ltb_lt; unfold j; lia). reflexivity.
          -- apply Nat.eqb_neq in Y. destruct (isC l i) eqn:C; [|reflexivity]. simpl.
             destruct (cpt_surj grids P HV HP0 HP l i Hl ltac:(lia) C) as (j' & Hj' & Ei). rewrite <- Ei, coarse_cpt by auto.
             replace (j' <? lo (S l) r + S k) with (j' <? lo (S l) r + k); [reflexivity|].
             apply Bool.eq_iff_eq_true. rewrite !Nat.ltb_lt.
             assert (j' <> j) by (intros ->; apply Y; symmetry; exact Ei). unfold j in *. lia.
        * intros l' i Hl' Hi. simpl. unfold at1. destruct (l' =? l); auto.
    - split; [|auto]. eapply RD_ext; [exact HR| | | | |]; auto. intros l' i Hl' Hi. simpl. unfold at1. destruct (l' =? l) eqn:E; [|auto].
      apply Nat.eqb_eq in E. subst l'. split; [|auto]. unfold mix. destruct (isC l i) eqn:C; [|reflexivity]. simpl.
      destruct (cpt_surj grids P HV HP0 HP l i Hl ltac:(lia) C) as (j' & Hj' & Ei). rewrite <- Ei, coarse_cpt by auto.
      replace (j' <? lo (S l) r + 0) with false; [reflexivity|]. symmetry. apply Nat.ltb_ge.
      rewrite Nat.add_0_r. apply (cpt_block grids P HV HP0 HP l r j'); auto; lia.
    - exists s1. split; [exact R1|]. split; [|auto].
      eapply RD_ext; [exact HR1| | | | |]; auto. intros l' i Hl' Hi. simpl. unfold at1. destruct (l' =? l) eqn:E; [|auto].
      apply Nat.eqb_eq in E. subst l'. split; [|auto]. unfold mix. destruct (isC l i) eqn:C; [|apply Hf; auto]. simpl.
      destruct (cpt_surj grids P HV HP0 HP l i Hl ltac:(lia) C) as (j' & Hj' & Ei). rewrite <- Ei, coarse_cpt by auto.
      replace (j' <? lo (S l) r + cnt (S l) r) with true; [reflexivity|]. symmetry. apply Nat.ltb_lt.
      rewrite HC. destruct (le_lt_dec (lo (S l) (S r)) j') as [X|X]; [|auto].
      apply (cpt_block grids P HV HP0 HP l (S r) j') in X; auto; lia.
  Qed.

  (** ** Error correction (715-726) *)
  Lemma error_correction_sim l : S l < L -> Psim (fun r s => error_correction r (infos r) l s) (g_corr o l).
  Proof.
    intros Hl. assert (Hl0 : l < L) by lia. apply psim_local.
    { intros G W. apply GWF_with_u; auto. intros i _ Hi. apply wf_corr; auto. }
    intros r s G Hr W HR. unfold error_correction. rewrite inf_eq by auto. rewrite locc_len by auto.
    pose proof (lo_cnt grids P HV HP0 HP (S l) r Hl Hr) as HC.
    pose proof (lo_le_N grids P HP0 HP (S l) (S r)) as HN.
    match goal with |- context [for_each _ ?b s] => set (body := b) end.
    destruct (cloop l r s G body (corr o l G)) as (s1 & R1 & HR1 & S1 & S1'); auto.
    - intros i C. unfold corr. rewrite cpoint_isC, C. reflexivity.
    - unfold corr. rewrite andb_false_r. reflexivity.
    - intros k s' G' Hk HR' Hp E1 E2 E3 E4. unfold body. rewrite (skip_k (S l)) by auto.
      replace (0 <? lo (S l) r + k) with true by (symmetry; apply Nat.ltb_lt; auto).
      rewrite locc_nth by auto. pose proof (cnt_coarse l r Hl Hr). rewrite loc_nth by lia. simpl bind.
      rewrite <- (loc_k l) by (auto; lia). rewrite (loc_k (S l)) by auto.
      set (j := lo (S l) r + k) in *. assert (Hj : lo (S l) r <= j < lo (S l) (S r)) by (unfold j; lia).
      pose proof (cpt_own l r _ Hl Hr Hj) as Hc.
      rewrite !py_nth_nat. rewrite (proj2 (rd_u r s' G' HR' (S l) Hl) j Hj). simpl bind.
      rewrite (proj2 (rd_v r s' G' HR' (S l) Hl) j Hj). simpl bind.
      rewrite (proj2 (rd_u r s' G' HR' l Hl0) _ Hc). simpl bind.
      rewrite E4, E2. rewrite (E1 (S l)) by lia. unfold corr. rewrite cpoint_isC.
      rewrite (proj2 (cpt_in grids P HV HP0 HP l j Hl ltac:(lia))).
      replace (0 <? cpt l j) with true by (symmetry; apply Nat.ltb_lt; apply cpt_pos; auto; lia).
      rewrite coarse_cpt by (auto; lia). reflexivity.
    - intros k s' Hk Hz. unfold body. rewrite (skip_k (S l)) by auto. rewrite Hz. reflexivity.
    - exists s1. rewrite S1, S1'. auto.
  Qed.

  (** ** Interpolation in nested iteration (560-563) *)
  Lemma interpolate_up_sim l : S l < L -> Psim (fun r s => interpolate_up r (infos r) l s) (g_interp_up o l).
  Proof.
    intros Hl. assert (Hl0 : l < L) by lia. apply psim_local.
    { intros G W. apply GWF_with_u; auto. intros i _ Hi. apply wf_interp_up; auto. }
    intros r s G Hr W HR. unfold interpolate_up. rewrite !inf_eq by auto.
    replace (length (i_loc (closed_info grids so P (S l) r))) with (cnt (S l) r).
    2:{ unfold closed_info. cbn [i_loc]. rewrite map_length. unfold SetupProofs.pts. rewrite seq_length. reflexivity. }
    pose proof (lo_cnt grids P HV HP0 HP (S l) r Hl Hr) as HC.
    pose proof (lo_le_N grids P HP0 HP (S l) (S r)) as HN.
    match goal with |- context [for_each _ ?b s] => set (body := b) end.
    destruct (cloop l r s G body (interp_up o l G)) as (s1 & R1 & HR1 & S1 & S1'); auto.
    - intros i C. unfold interp_up. rewrite cpoint_isC, C. reflexivity.
    - unfold interp_up. rewrite andb_false_r. reflexivity.
    - intros k s' G' Hk HR' Hp E1 E2 E3 E4. unfold body. rewrite (skip_k (S l)) by auto.
      replace (0 <? lo (S l) r + k) with true by (symmetry; apply Nat.ltb_lt; auto).
      rewrite locc_nth by auto. rewrite loc_nth by lia. simpl bind.
      set (j := lo (S l) r + k) in *. assert (Hj : lo (S l) r <= j < lo (S l) (S r)) by (unfold j; lia).
      rewrite !py_nth_nat. rewrite (proj2 (rd_u r s' G' HR' (S l) Hl) j Hj). simpl bind.
      rewrite (E1 (S l)) by lia. unfold interp_up. rewrite cpoint_isC.
      rewrite (proj2 (cpt_in grids P HV HP0 HP l j Hl ltac:(lia))).
      replace (0 <? cpt l j) with true by (symmetry; apply Nat.ltb_lt; apply cpt_pos; auto; lia).
      rewrite coarse_cpt by (auto; lia). reflexivity.
    - intros k s' Hk Hz. unfold body. rewrite (skip_k (S l)) by auto. rewrite Hz. reflexivity.
    - exists s1. rewrite S1, S1'. auto.
  Qed.

  (** ** Forward solve (459-486) *)
  Definition ghost_ok (l : nat) (G : GS A) (r : nat) (s : St A) : Prop :=
    off l r = 1 -> nth_error (s_u s l) 0 = Some (gu G l (lo l r - 1)).

  Lemma forward_solve_sim' l : l < L -> forall s G, Rel s G ->
    exists s', phase P (fun r => forward_solve o P (infos r) l (s r)) s' /\ Rel s' (g_fsolve o l G) /\
      forall r, r < P -> ghost_ok l (g_fsolve o l G) r (s' r).
  Proof.
    intros Hl s0 G0 HR0.
    apply (comm_phase (fun r s => forward_solve o P (infos r) l s) (fun s => s) (g_fsolve o l) [(l, 5)]
             (fun G lt op a => vpack A (fsolve o l G (a - 1))) (fun _ _ _ => True) (fun G r s' => ghost_ok l (g_fsolve o l G) r s') (s0 0)); auto.
    { intros k [<-|[]]; exact Hl. }
    { intros G W. apply GWF_with_u; auto. intros i _ Hi. apply wf_fsolve; auto. }
    intros r s G K Hr W HR _ [T1 T2]. unfold forward_solve. rewrite inf_eq by auto.
    set (I := closed_info grids so P l r).
    set (b := has l r && more l r). set (c := has l r && (0 <? lo l r)).
    assert (Fs : sflag l 5 r = b). { unfold sflag. change (blvl l 5) with l. change (cnd l 5 (lo l (S r))) with true. apply andb_true_r. }
    assert (Fr : rflag l 5 r = c). { unfold rflag. change (blvl l 5) with l. change (cnd l 5 (lo l r)) with true. apply andb_true_r. }
    assert (Es : negb (i_send_to I =? -99)%Z = b).
    { unfold I, closed_info. cbn [i_send_to]. fold b. destruct b; [|reflexivity]. apply negb_true_iff, Z.eqb_neq. lia. }
    assert (Er : negb (i_get_from I =? -99)%Z = c).
    { unfold I, closed_info. cbn [i_get_from]. fold c. destruct c; [|reflexivity]. apply negb_true_iff, Z.eqb_neq. lia. }
    rewrite Es, Er. pose proof (lo_le_N grids P HP0 HP l r) as HN. pose proof (lo_le_N grids P HP0 HP l (S r)) as HN'.
    pose proof (lo_cnt grids P HV HP0 HP l r Hl Hr) as HC. pose proof (off_le grids P HV HP0 HP l r Hl Hr) as HO.
    set (tag := (base 5 + K l 5%nat)%Z). set (D := fun a => vpack A (fsolve o l G (a - 1))).
    destruct (brecv_run r s l l 5 l (cnd l 5) (i_get_from I) c tag D (fsolve o l G (lo l r - 1)) G) as [R1 HR1]; auto.
    { intros Hb. unfold c in Hb. pose proof Hb as Hb'. apply andb_prop in Hb. destruct Hb as [Hb1 Hb2]. apply Nat.ltb_lt in Hb2.
      split; [|split; [|split; [|split]]].
      - apply off_pos; auto.
      - unfold I, closed_info. cbn [i_get_from]. rewrite Hb'. reflexivity.
      - apply T2. rewrite Fr. exact Hb'.
      - reflexivity.
      - apply wf_fsolve; auto. lia. }
    set (s1 := recvd c l l 5 (fsolve o l G (lo l r - 1)) s) in *.
    assert (Gc : off l r = 1 -> nth_error (s_u s1 l) 0 = Some (fsolve o l G (lo l r - 1))).
    { intros Ho. destruct (off_lo l r Hl Hr Ho) as [X1 X2]. unfold s1, c. rewrite X1.
      replace (0 <? lo l r) with true by (symmetry; apply Nat.ltb_lt; auto). simpl andb. apply ghost_recvd. }
    set (mix := fun k x => if x <? lo l r - off l r + 1 + k then fsolve o l G x else gu G l x).
    set (n := length (s_u s1 l) - 1).
    assert (En : n = cnt l r + off l r - 1). { unfold n. rewrite (proj1 (rd_u r s1 G HR1 l Hl)). reflexivity. }
    destruct (for_range_local (fun i s => x <- lift (propagate (infos r) l s i) ;; put_u l i x s)
      (fun k s' => RD r s' (with_u G l (mix k)) /\ (off l r = 1 -> nth_error (s_u s' l) 0 = Some (fsolve o l G (lo l r - 1))) /\
         s_stag s' = s_stag s1 /\ s_rtag s' = s_rtag s1) 1 n) with (s := s1) as (s2 & R2 & HR2 & G2 & S2 & S2').
    { intros k s' Hk (J1 & J2 & J3 & J4). rewrite En in Hk.
      set (i := lo l r - off l r + 1 + k).
      assert (Hi : lo l r <= i < lo l (S r)). { unfold i. destruct (off_01 l r); lia. }
      replace (1 + k) with (loc l r i) by (unfold SetupProofs.loc, i; lia).
      assert (OW := rd_u r s' _ J1 l Hl). simpl in OW. unfold at1 in OW. rewrite Nat.eqb_refl in OW.
      assert (PV : py_nth (s_u s' l) (Z.of_nat (loc l r i) - 1) = Some (fsolve o l G (i - 1))).
      { assert (ME : mix k (i - 1) = fsolve o l G (i - 1)).
        { unfold mix. replace (i - 1 <? lo l r - off l r + 1 + k) with true by (symmetry; apply Nat.ltb_lt; unfold i; lia). reflexivity. }
        rewrite <- ME. apply (prev_nth l r _ (mix k)); auto; [unfold i; lia|]. intros Elo. rewrite ME, <- Elo. apply J2.
        unfold i in Elo. destruct (off_01 l r); lia. }
      rewrite (propagate_eq r s' _ l i _ Hl Hr Hi ltac:(unfold i; lia) J1 PV). simpl bind.
      change (gstep o l (with_u G l (mix k))) with (gstep o l G).
      assert (EF : gstep o l G (fsolve o l G (i - 1)) i = fsolve o l G i).
      { unfold i. replace (lo l r - off l r + 1 + k) with (S (lo l r - off l r + k)) by lia. simpl. rewrite Nat.sub_0_r. reflexivity. }
      rewrite EF.
      eexists. split; [apply put_u_run; rewrite (proj1 OW); apply (loc_bound l r i Hl Hr Hi)|]. split; [|split; [|split; assumption]].
      - pose proof (RD_put r s' _ l _ (fsolve o l G i) (mix (S k)) Hl Hr Hi J1) as X.
        eapply RD_ext; [apply X| | | | |]; auto.
        + intros j Hj. simpl. unfold at1. rewrite Nat.eqb_refl. unfold mix. destruct (j =? i) eqn:Y.
          * apply Nat.eqb_eq in Y. subst j. replace (i <? lo l r - off l r + 1 + S k) with true by (symmetry; apply Nat.ltb_lt; unfold i; lia). reflexivity.
          * apply Nat.eqb_neq in Y. replace (j <? lo l r - off l r + 1 + S k) with (j <? lo l r - off l r + 1 + k); [reflexivity|].
            apply Bool.eq_iff_eq_true. rewrite !Nat.ltb_lt. unfold i in Y. lia.
        + intros l' j Hl' Hj. simpl. unfold at1. destruct (l' =? l); auto.
      - intros Ho. unfold set_u, at1. cbn [s_u]. rewrite Nat.eqb_refl. rewrite upd_nth_other; [auto|].
        pose proof (loc_bound l r i Hl Hr Hi). lia. }
    { split; [|split; [exact Gc|auto]]. eapply RD_ext; [exact HR1| | | | |]; auto. intros l' i Hl' Hi. simpl. unfold at1.
      destruct (l' =? l) eqn:E; [|auto]. apply Nat.eqb_eq in E. subst l'. split; [|auto]. unfold mix.
      destruct (i <? lo l r - off l r + 1 + 0) eqn:Y; [|reflexivity]. apply Nat.ltb_lt in Y.
      destruct (off_01 l r) as [O|O]; [|lia]. assert (i = lo l r) by lia. subst i.
      destruct (Nat.eq_dec (lo l r) 0) as [Z|Z]; [rewrite Z; reflexivity|].
      rewrite off_pos in O; auto; [discriminate|apply has_iff; auto; lia|lia]. }
    (* send *)
    set (s3 := if b then inc_stag s2 l 5 else s2).
    assert (R3 : lrun (if b then i <- lift (py_nth (i_loc I) (-1)) ;; send_point o P l (Z.of_nat i) (i_send_to I) l 5 s2 else Ret s2)
                   [] (bout l (cnd l 5) (Tag tag l 5) D r) s3).
    { assert (PE : (if b then i <- lift (py_nth (i_loc I) (-1)) ;; send_point o P l (Z.of_nat i) (i_send_to I) l 5 s2 else Ret s2)
                 = (if b then send_point o P l (Z.of_nat (loc l r (lo l (S r) - 1))) (i_send_to I) l 5 s2 else Ret s2)).
      { destruct b eqn:E; [|reflexivity]. apply andb_prop in E. destruct E as [E _]. unfold I at 1. rewrite loc_last by auto. reflexivity. }
      rewrite PE. eapply (bsend_run r s2 l _ (fsolve o l G (lo l (S r) - 1)) l 5 l (cnd l 5)); auto.
      intros Hb. unfold b in Hb. pose proof Hb as Hb'. apply andb_prop in Hb. destruct Hb as [Hb1 Hb2]. apply has_iff in Hb1; auto.
      split; [|split; [|split]].
      - rewrite py_nth_nat. rewrite (proj2 (rd_u r s2 _ HR2 l Hl) (lo l (S r) - 1)) by lia. simpl. unfold at1. rewrite Nat.eqb_refl. unfold mix.
        replace (lo l (S r) - 1 <? lo l r - off l r + 1 + n) with true by (symmetry; apply Nat.ltb_lt; lia). reflexivity.
      - unfold I, closed_info. cbn [i_send_to]. rewrite Hb'. reflexivity.
      - rewrite S2. unfold s1. rewrite stag_recvd. apply T1. rewrite Fs. exact Hb'.
      - reflexivity. }
    exists s3. split; [|split; [|split; [|split]]].
    - eapply lrun_eq; [eapply lrun_bind; [exact R1|]; eapply lrun_bind; [exact R2|]; exact R3| | |]; [| |reflexivity];
        cbn [flat_map app fst snd]; change (blvl l 5) with l; rewrite ?app_nil_r; reflexivity.
    - assert (X : RD r s2 (g_fsolve o l G)).
      { eapply RD_ext; [exact HR2| | | | |]; auto. intros l' i Hl' Hi. simpl. unfold at1. destruct (l' =? l) eqn:E; [|auto].
        apply Nat.eqb_eq in E. subst l'. split; [|auto]. unfold mix.
        replace (i <? lo l r - off l r + 1 + n) with true by (symmetry; apply Nat.ltb_lt; lia). reflexivity. }
      unfold s3. destruct b; [eapply RD_tags; eauto|auto].
    - intros Ho. replace (s_u s3 l) with (s_u s2 l) by (unfold s3; destruct b; reflexivity). rewrite G2 by auto. simpl. unfold at1.
      rewrite Nat.eqb_refl. reflexivity.
    - intros l' k Hf. assert (E3 : s_stag s3 l' k = (s_stag s2 l' k + (if (b && (l' =? l) && (k =? 5))%nat then 1 else 0))%Z).
      { unfold s3. destruct b; [apply stag_inc|simpl; lia]. }
      rewrite E3, S2. unfold s1. rewrite stag_recvd. unfold bumped. simpl. rewrite orb_false_r, (Nat.eqb_sym l l').
      destruct (l' =? l) eqn:E1; [|rewrite !andb_false_r; simpl; lia]. apply Nat.eqb_eq in E1. subst l'. rewrite !andb_true_r.
      destruct k as [|[|[|[|[|[|k]]]]]]; rewrite ?andb_false_r; simpl; try lia. rewrite <- Fs, Hf. simpl. lia.
    - intros l' k Hf. replace (s_rtag s3 l' k) with (s_rtag s2 l' k) by (unfold s3; destruct b; reflexivity).
      rewrite S2'. unfold s1. rewrite rtag_recvd. unfold bumped. simpl. rewrite orb_false_r, (Nat.eqb_sym l l').
      destruct (l' =? l) eqn:E1; [|rewrite !andb_false_r; simpl; lia]. apply Nat.eqb_eq in E1. subst l'. rewrite !andb_true_r.
      destruct k as [|[|[|[|[|[|k]]]]]]; rewrite ?andb_false_r; simpl; try lia. rewrite <- Fr, Hf. simpl. lia.
  Qed.
  Lemma forward_solve_sim l : l < L -> Psim (fun r s => forward_solve o P (infos r) l s) (g_fsolve o l).
  Proof. intros Hl s G HR. destruct (forward_solve_sim' l Hl s G HR) as (s' & F & R & _). eauto. Qed.

  (** ** AtMgrit.forward_solve on one process (at_mgrit.py 77-85) *)
  (** AtMgrit works on one process only (C26), and its distance must be positive. *)
  Hypothesis Hdist : forall k, o_dist o = Some k -> P = 1 /\ (1 <= k)%Z.

  Lemma at_propagate_snoc l s is i x y z : lrun (at_propagate o l s is x) [] [] y ->
    lrun (at_propagate o l s [i] y) [] [] z -> lrun (at_propagate o l s (is ++ [i]) x) [] [] z.
  Proof.
    revert x. induction is as [|j is IH]; intros x H1 H2; cbn [app at_propagate] in *.
    - inversion H1; subst. exact H2.
    - destruct (py_nth (s_g s l) (Z.of_nat j)); [|inversion H1]. destruct (py_nth (nth l grids []) (Z.of_nat j - 1)); [|inversion H1].
      destruct (py_nth (nth l grids []) (Z.of_nat j)); [|inversion H1]. cbn [lift bind] in *. apply IH; auto.
  Qed.
  Lemma at_propagate_run r s G l n i : 0 < l < L -> lo l r = 0 -> lo l (S r) = N l -> (forall i, loc l r i = i) ->
    ows l r (s_g s l) (gg G l) -> n <= i -> i < N l ->
    lrun (at_propagate o l s (seq (i - n + 1) n) (vclone A (gu G l (i - n)))) [] [] (window o l G n i).
  Proof.
    intros Hl E0 E1 E2 HR. revert i. induction n as [|n IH]; intros i Hn Hi.
    - rewrite Nat.sub_0_r. destruct i; constructor.
    - rewrite seq_S. destruct i as [|i]; [lia|]. cbn [window].
      replace (S i - S n) with (i - n) by lia. replace (i - n + 1 + n) with (S i) by lia.
      eapply at_propagate_snoc; [apply IH; lia|]. cbn [at_propagate].
      pose proof (proj2 HR (S i) ltac:(lia)) as X. rewrite E2 in X. rewrite !py_nth_nat, X. cbn [lift bind].
      rewrite py_nth_pred by lia. rewrite !(nth_error_nth' _ 0%Z) by (unfold SetupProofs.N, grid in *; lia). cbn [lift bind].
      unfold gstep. replace (l =? 0) with false by (symmetry; apply Nat.eqb_neq; lia). constructor.
  Qed.
  Lemma window_min l G n i : window o l G n i = window o l G (Nat.min n i) i.
  Proof. revert i. induction n as [|n IH]; intros [|i]; try reflexivity. cbn [window Nat.min]. rewrite IH. reflexivity. Qed.
  Lemma wf_window l G n i : GWF G -> l < L -> i < N l -> wf l (window o l G n i).
  Proof.
    intros W Hl. revert i. induction n as [|n IH]; intros i Hi.
    - destruct i; apply (wf_clone A wf HL), W; auto.
    - destruct i; [apply (wf_clone A wf HL), W; auto|]. cbn [window]. apply wf_gstep; auto. apply IH. lia.
  Qed.

  Lemma at_serial_run k r s G l : 0 < l < L -> P = 1 -> (1 <= k)%Z -> r < P -> GWF G -> RD r s G ->
    exists s', lrun (at_solve_serial o k l s) [] [] s' /\ RD r s' (with_u G l (window o l G (Z.to_nat (k - 1)))) /\
      s_stag s' = s_stag s /\ s_rtag s' = s_rtag s.
  Proof.
    intros Hl HP1 Hk Hr W HR. assert (Hl' : l < L) by lia.
    assert (E0 : lo l r = 0). { replace r with 0 by lia. apply (lo_0 grids P HV HP0 HP). auto. }
    assert (E1 : lo l (S r) = N l). { replace (S r) with P by lia. apply (SetupProofs.lo_P grids P). }
    assert (EL : forall i, loc l r i = i). { intros i. unfold SetupProofs.loc, SetupProofs.off. replace r with 0 by lia. simpl.
      rewrite (lo_0 grids P HV HP0 HP) by auto. lia. }
    set (w := window o l G (Z.to_nat (k - 1))). set (mix := fun n i => if i <? n then w i else gu G l i).
    unfold at_solve_serial. set (arr := map (vclone A) (s_u s l)).
    assert (ARR : forall i, i < N l -> nth_error arr i = Some (vclone A (gu G l i))).
    { intros i Hi. unfold arr. apply map_nth_error. rewrite <- (EL i) at 1. apply (rd_u r s G HR l Hl'). lia. }
    change (length (nth l grids [])) with (N l).
    destruct (for_range_local (fun point s => x <- lift (py_nth arr (Z.max 0 (Z.of_nat point - k + 1))) ;;
        (let first := Z.to_nat (Z.max 1 (Z.of_nat point - k + 2)) in
         x <- at_propagate o l s (seq first (point + 1 - first)) x ;; put_u l point x s))
      (fun n s' => RD r s' (with_u G l (mix n)) /\ s_stag s' = s_stag s /\ s_rtag s' = s_rtag s) 0 (N l)) with (s := s)
      as (s2 & R2 & HR2 & S2 & S2').
    { intros i s' Hi (J1 & J2 & J3). cbn [Nat.add]. set (m := Nat.min (Z.to_nat (k - 1)) i).
      replace (Z.max 0 (Z.of_nat i - k + 1)) with (Z.of_nat (i - m)) by lia. rewrite py_nth_nat, ARR by lia. cbn [lift bind]. cbv zeta.
      replace (Z.to_nat (Z.max 1 (Z.of_nat i - k + 2))) with (i - m + 1) by lia. replace (i + 1 - (i - m + 1)) with m by lia.
      assert (RP : lrun (at_propagate o l s' (seq (i - m + 1) m) (vclone A (gu G l (i - m)))) [] [] (w i)).
      { unfold w. rewrite window_min. fold m. apply (at_propagate_run r s' G l m i); auto; [|lia].
        exact (rd_g r s' _ J1 l Hl'). }
      eexists. split.
      { change (@nil (nat * mtag * Msg A)) with (@nil (nat * mtag * Msg A) ++ []). eapply lrun_bind; [exact RP|].
        apply put_u_run. rewrite (proj1 (rd_u r s' _ J1 l Hl')). pose proof (lo_cnt grids P HV HP0 HP l r Hl' Hr). lia. }
      split; [|split; assumption].
      pose proof (RD_put r s' _ l i (w i) (mix (S i)) Hl' Hr ltac:(lia) J1) as X. rewrite EL in X.
      eapply RD_ext; [apply X| | | | |]; auto.
      + intros j Hj. simpl. unfold at1. rewrite Nat.eqb_refl. unfold mix. destruct (j =? i) eqn:Y.
        * apply Nat.eqb_eq in Y. subst j. replace (i <? S i) with true by (symmetry; apply Nat.ltb_lt; lia). reflexivity.
        * apply Nat.eqb_neq in Y. replace (j <? S i) with (j <? i); [reflexivity|].
          apply Bool.eq_iff_eq_true. rewrite !Nat.ltb_lt. lia.
      + intros l' j Hl1 Hj. simpl. unfold at1. destruct (l' =? l); auto. }
    { split; [|auto]. eapply RD_ext; [exact HR| | | | |]; auto. intros l' i Hl1 Hi. simpl. unfold at1.
      destruct (l' =? l) eqn:E; [|auto]. apply Nat.eqb_eq in E. subst l'. auto. }
    exists s2. split; [exact R2|]. split; [|auto]. eapply RD_ext; [exact HR2| | | | |]; auto.
    intros l' i Hl1 Hi. simpl. unfold at1. destruct (l' =? l) eqn:E; [|auto]. apply Nat.eqb_eq in E. subst l'. split; [|auto].
    unfold mix. replace (i <? N l) with true by (symmetry; apply Nat.ltb_lt; lia). reflexivity.
  Qed.

  (** self.forward_solve, whichever class *)
  Lemma coarse_solve_sim' s G : Rel s G ->
    exists s', phase P (fun r => coarse_solve o P r (infos r) (L - 1) (s r)) s' /\ Rel s' (g_csolve o (L - 1) G) /\
      forall r, r < P -> ghost_ok (L - 1) (g_csolve o (L - 1) G) r (s' r).
  Proof.
    intros HR. assert (HL0 : 0 < L) by (destruct HV as [X _]; destruct grids; [congruence|simpl; lia]).
    unfold coarse_solve, g_csolve. destruct (o_dist o) as [k|] eqn:Ed; [|apply forward_solve_sim'; auto; lia].
    destruct (Hdist k eq_refl) as [HP1 Hk]. change (Mgrit.L o) with L.
    assert (Gh : forall G' (s' : nat -> St A) r, r < P -> ghost_ok (L - 1) G' r (s' r)).
    { intros G' s' r Hr X. exfalso. unfold SetupProofs.off in X. replace r with 0 in X by lia. discriminate. }
    replace (L - 1 =? 0) with (L =? 1) by (destruct L as [|[|]]; try reflexivity; lia).
    destruct (L =? 1) eqn:E; [exists s; split; [apply phase_ret|]; auto|]. apply Nat.eqb_neq in E.
    replace (P =? 1) with true by (symmetry; apply Nat.eqb_eq; auto).
    destruct HR as (W & K & HR).
    destruct (at_serial_run k 0 (s 0) G (L - 1) ltac:(lia) HP1 Hk HP0 W (proj1 (HR 0 HP0))) as (s' & R' & D' & T1 & T2).
    exists (fun _ => s'). split; [|split; [|intros r Hr; exact (Gh _ (fun _ => s') r Hr)]].
    - apply phase_local. intros r Hr. replace r with 0 by lia. exact R'.
    - split.
      + apply GWF_with_u; auto. intros i _ Hi. apply wf_window; auto. lia.
      + exists K. intros r Hr. replace r with 0 by lia. split; [exact D'|]. destruct (HR 0 HP0) as [_ [H1 H2]].
        split; intros l op Hf; [rewrite T1; apply H1|rewrite T2; apply H2]; auto.
  Qed.
  Lemma coarse_solve_sim : Psim (fun r s => coarse_solve o P r (infos r) (L - 1) s) (g_csolve o (L - 1)).
  Proof. intros s G HR. destruct (coarse_solve_sim' s G HR) as (s' & F & R & _). eauto. Qed.

  (** ** Stopping criterion (mgrit.py 372-457) *)
  Lemma L_pos : 0 < L.
  Proof. destruct HV as [H _]. destruct (o_grids o); [congruence|simpl; lia]. Qed.

  Lemma sequence_map_some {B C} (f : B -> option C) (g : B -> C) l :
    (forall x, In x l -> f x = Some (g x)) -> sequence (map f l) = Some (map g l).
  Proof.
    induction l as [|x l IH]; intros H; [reflexivity|]. simpl. rewrite H by (left; auto). rewrite IH; [reflexivity|]. intros; apply H; right; auto.
  Qed.
  Lemma filter_map_swap {B C} (p : C -> bool) (h : B -> C) l : filter p (map h l) = map h (filter (fun x => p (h x)) l).
  Proof. induction l as [|x l IH]; [reflexivity|]. simpl. destruct (p (h x)); simpl; rewrite IH; reflexivity. Qed.

  (** owned C-points that have a predecessor *)
  Definition own_crit (r : nat) : list nat := filter (fun i => 0 <? i) (cps 0 r).
  Lemma own_crit_in r i : r < P -> In i (own_crit r) <-> (lo 0 r <= i < lo 0 (S r) /\ isC 0 i = true) /\ 0 < i.
  Proof. intros Hr. unfold own_crit. rewrite filter_In, cps_in, Nat.ltb_lt; auto using L_pos. reflexivity. Qed.
  Lemma crit_filter r : r < P ->
    filter (fun i => negb (r =? 0) || negb (i =? 0)) (i_loc_c (closed_info grids so P 0 r)) = map (loc 0 r) (own_crit r).
  Proof.
    intros Hr. pose proof L_pos. unfold closed_info. cbn [i_loc_c]. rewrite filter_map_swap. f_equal. apply filter_ext_in.
    intros i Hi. apply cps_in in Hi; auto. rewrite orb_comm. apply skip_iff; tauto.
  Qed.

  Lemma compute_residual_sim s G : Rel s G -> (L = 1 -> forall r, r < P -> ghost_ok 0 G r (s r)) ->
    exists b, phase P (fun r => compute_residual o P r (infos r) (s r)) b /\ Rel (fun r => snd (b r)) G /\
      forall r, r < P -> fst (b r) = map (fun i => vnorm A (gres o 0 G i)) (own_crit r).
  Proof.
    intros HR0 Hg0. pose proof L_pos as HL0.
    destruct (comm_phase (fun r s => compute_residual o P r (infos r) s) snd (fun G => G) [(0, 7)]
             (fun G lt op a => Dprev G lt a) (fun G r s => L = 1 -> ghost_ok 0 G r s)
             (fun G r b => fst b = map (fun i => vnorm A (gres o 0 G i)) (own_crit r)) ([], s 0)) with (s := s) (G := G) as (b & Hb); auto.
    { intros k [<-|[]]; exact HL0. }
    2:{ exists b. exact Hb. }
    clear s G HR0 Hg0.
    intros r s G K Hr W HR Hg [T1 T2]. unfold compute_residual. rewrite inf_eq by auto.
    destruct (exchange_run 7 0 r s G (K 0%nat 7)) as (s1 & s2 & R1 & R2 & HR2 & Hgh & St2 & Rt2 & Hu & _); auto; [right; right; auto|].
    assert (Gh : forall i, In i (own_crit r) -> lo 0 r = i -> nth_error (s_u s2 0) 0 = Some (gu G 0 (i - 1))).
    { intros i Hi E. apply own_crit_in in Hi; auto. destruct Hi as [[Hi HC] Hp]. subst i.
      destruct (le_lt_dec L 1) as [H1|H1].
      - rewrite Hu; [apply Hg; [lia|]|].
        + apply off_pos; auto. apply has_iff; auto; lia.
        + right. unfold rflag. rewrite exch_lvl, exch_cnd by (right; right; auto).
          unfold SetupProofs.isF, SetupProofs.isC. replace (0 =? length grids - 1) with true by (symmetry; apply Nat.eqb_eq; lia).
          simpl. apply andb_false_r.
      - apply Hgh. apply rflag_C; auto; [right; right; auto|lia]. }
    set (val := map (fun i => vnorm A (gres o 0 G i)) (own_crit r)).
    assert (EV : sequence (map (fun i => match propagate (infos r) 0 s2 i, py_nth (s_u s2 0) (Z.of_nat i) with
                 | Some y, Some x => Some (vnorm A (vsub A y x)) | _, _ => None end)
               (filter (fun i => negb (r =? 0) || negb (i =? 0)) (i_loc_c (closed_info grids so P 0 r)))) = Some val).
    { rewrite crit_filter by auto. rewrite map_map. apply sequence_map_some. intros i Hi. pose proof Hi as Hi'.
      apply own_crit_in in Hi'; auto. destruct Hi' as [[Hio HC] Hp]. pose proof (rd_u r s2 G HR2 0 HL0) as OW.
      assert (PV : py_nth (s_u s2 0) (Z.of_nat (loc 0 r i) - 1) = Some (gu G 0 (i - 1))).
      { apply (prev_nth 0 r _ (gu G 0)); auto. }
      rewrite (propagate_eq r s2 G 0 i _ HL0 Hr Hio Hp HR2 PV). rewrite py_nth_nat, (proj2 OW i Hio). reflexivity. }
    exists (val, s2). split; [|split; [|split; [|split]]].
    - eapply lrun_eq; [eapply lrun_bind; [exact R1|]; eapply lrun_bind; [exact R2|]| | |].
      + rewrite EV. apply lr_ret.
      + cbn [flat_map app fst snd]. rewrite !app_nil_r. reflexivity.
      + cbn [flat_map app fst snd]. rewrite !app_nil_r. reflexivity.
      + reflexivity.
    - exact HR2.
    - reflexivity.
    - intros l' k Hf. cbn [snd]. rewrite St2. unfold bumped. simpl. rewrite orb_false_r.
      destruct l' as [|l']; [|simpl; rewrite andb_false_r; simpl; lia]. simpl. rewrite andb_true_r.
      destruct k as [|[|[|[|[|[|[|[|k]]]]]]]]; rewrite ?andb_false_r; simpl; try lia. rewrite Hf. simpl. lia.
    - intros l' k Hf. cbn [snd]. rewrite Rt2. unfold bumped. simpl. rewrite orb_false_r.
      destruct l' as [|l']; [|simpl; rewrite andb_false_r; simpl; lia]. simpl. rewrite andb_true_r.
      destruct k as [|[|[|[|[|[|[|[|k]]]]]]]]; rewrite ?andb_false_r; simpl; try lia. rewrite Hf. simpl. lia.
  Qed.

  Lemma compute_jump_sim s G f : Rel s G -> glast G = Some f ->
    exists b, phase P (fun r => compute_jump r (infos r) (s r)) b /\ Rel (fun r => snd (b r)) (save_last G) /\
      forall r, r < P -> fst (b r) = map (fun i => vnorm A (vsub A (gu G 0 i) (f i))) (own_crit r).
  Proof.
    intros [W [K HR]] Hf. pose proof L_pos as HL0.
    exists (fun r => (map (fun i => vnorm A (vsub A (gu G 0 i) (f i))) (own_crit r), set_last (s r) (map (vclone A) (s_u (s r) 0)))).
    split; [|split; [|reflexivity]].
    - apply phase_local. intros r Hr. unfold compute_jump. rewrite inf_eq, crit_filter by auto.
      assert (EV : sequence (map (fun i => match py_nth (s_u (s r) 0) (Z.of_nat i), py_nth (s_last (s r)) (Z.of_nat i) with
                 | Some x, Some y => Some (vnorm A (vsub A x y)) | _, _ => None end) (map (loc 0 r) (own_crit r)))
               = Some (map (fun i => vnorm A (vsub A (gu G 0 i) (f i))) (own_crit r))).
      { rewrite map_map. apply sequence_map_some. intros i Hi. apply own_crit_in in Hi; auto. destruct Hi as [[Hio HC] Hp].
        destruct (HR r Hr) as [HD _]. rewrite !py_nth_nat. rewrite (proj2 (rd_u _ _ _ HD 0 HL0) i Hio).
        rewrite (proj2 (rd_last _ _ _ HD f Hf) i Hio). reflexivity. }
      rewrite EV. apply lr_ret.
    - split; [exact W|]. exists K. intros r Hr. destruct (HR r Hr) as [HD HT]. split; [|exact HT].
      destruct HD. constructor; simpl; auto. intros f' [= <-]. apply (ows_map 0 r _ (gu G 0)). auto.
  Qed.

  Lemma pts_concat p : p <= P -> concat (map (pts 0) (seq 0 p)) = seq 0 (lo 0 p).
  Proof.
    pose proof L_pos as HL0. induction p as [|p IH]; intros Hp.
    - rewrite (lo_0 grids P HV HP0 HP) by auto. reflexivity.
    - rewrite seq_S, map_app, concat_app, IH by lia. simpl. rewrite app_nil_r. unfold SetupProofs.pts.
      pose proof (lo_cnt grids P HV HP0 HP 0 p HL0 ltac:(lia)) as E. rewrite <- E, seq_app. reflexivity.
  Qed.
  Lemma lo_P l : lo l P = N l.
  Proof. unfold SetupProofs.lo. rewrite Nat.ltb_irrefl. reflexivity. Qed.
  Lemma filter_filter {B} (p q : B -> bool) l : filter p (filter q l) = filter (fun x => q x && p x) l.
  Proof. induction l as [|x l IH]; [reflexivity|]. simpl. destruct (q x); simpl; rewrite IH; reflexivity. Qed.
  Lemma own_crit_concat : concat (map own_crit (seq 0 P)) = crit_points o.
  Proof.
    unfold crit_points, npts. change (length (nth 0 grids [])) with (N 0). rewrite <- lo_P, <- pts_concat by lia.
    rewrite <- concat_filter_map, map_map. f_equal. apply map_ext. intros r. unfold own_crit, SetupProofs.cps.
    rewrite filter_filter. reflexivity.
  Qed.
  Lemma crit_values_concat {C} (f : nat -> C) : concat (map (fun r => map f (own_crit r)) (seq 0 P)) = map f (crit_points o).
  Proof. rewrite <- own_crit_concat, concat_map, map_map. reflexivity. Qed.

  Lemma crit_points_nonempty : 2 <= N 0 -> crit_points o <> [].
  Proof.
    intros H2. pose proof L_pos as HL0. unfold crit_points. change (npts grids 0) with (N 0). destruct (le_lt_dec L 1) as [H1|H1].
    - intros E. assert (X : In 1 (filter (fun i => cpoint grids 0 i && (0 <? i)) (seq 0 (N 0)))).
      { apply filter_In. split; [apply in_seq; lia|]. unfold cpoint. replace (0 =? length grids - 1) with true by (symmetry; apply Nat.eqb_eq; lia). reflexivity. }
      rewrite E in X. destruct X.
    - intros E. pose proof (cpt_in grids P HV HP0 HP 0 1 ltac:(lia)) as C.
      assert (HN1 : 2 <= N 1). { destruct HV as (_ & _ & X). destruct (X 0 ltac:(lia)) as (_ & _ & Y). exact Y. }
      specialize (C ltac:(lia)). destruct C as [C1 C2].
      assert (X : In (cpt 0 1) (filter (fun i => cpoint grids 0 i && (0 <? i)) (seq 0 (N 0)))).
      { apply filter_In. split; [apply in_seq; lia|]. rewrite cpoint_isC, C2. apply Nat.ltb_lt. apply cpt_pos; auto. }
      rewrite E in X. destruct X.
  Qed.

  Lemma upd_upd {B} (l : list B) n x y : upd (upd l n x) n y = upd l n y.
  Proof. revert n. induction l as [|z l IH]; intros [|n]; simpl; auto. rewrite IH. reflexivity. Qed.
  Lemma put_conv_run (s : St A) it x : it < length (s_conv s) -> lrun (put_conv it x s) [] [] (set_conv s (upd (s_conv s) it x)).
  Proof. intros H. unfold put_conv. rewrite py_upd_nat by auto. simpl. constructor. Qed.
  Lemma RD_setconv r s G c : RD r s G -> length c = o_max_iter o + 1 -> RD r (set_conv s c) (set_gconv G c).
  Proof. intros [] Hc. constructor; simpl; auto. Qed.
  Lemma Rel_clen s G : Rel s G -> length (gconv G) = o_max_iter o + 1.
  Proof. intros [_ [K H]]. destruct (H 0 HP0) as [D _]. apply (rd_clen _ _ _ D). Qed.

  Lemma crit_tail_sim it s G (vals : nat -> list (Sc A)) x : Rel s G -> it <= o_max_iter o ->
    tnorm A (concat (map vals (seq 0 P))) = Some x ->
    exists s', phase P (fun r =>
      tmp <- gather P r (vals r) ;;
      s <- match tmp with
           | Some ls => match tnorm A (concat ls) with Some x => put_conv it x (s r) | None => Raise ValueError end
           | None => Ret (s r)
           end ;;
      cur <- lift (py_nth (s_conv s) (Z.of_nat it)) ;;
      x <- bcast P r cur ;; put_conv it x s) s' /\ Rel s' (set_gconv G (upd (gconv G) it x)).
  Proof.
    intros HR Hit Hx. pose proof (Rel_clen _ _ HR) as Hc. destruct HR as [W [K HR]].
    assert (HC : forall r, r < P -> s_conv (s r) = gconv G) by (intros r Hr; apply (rd_conv _ _ _ (proj1 (HR r Hr)))).
    exists (fun r => set_conv (s r) (upd (gconv G) it x)). split.
    - set (s1 := fun r => if r =? 0 then set_conv (s r) (upd (gconv G) it x) else s r).
      apply (phase_bind P _ _ (fun r => if r =? 0 then Some (map vals (seq 0 P)) else None)); [apply (gather_phase P HP0)|].
      apply (phase_bind P _ _ s1).
      { apply phase_local. intros r Hr. unfold s1. destruct (r =? 0); [|constructor]. rewrite Hx. rewrite <- (HC r Hr).
        apply put_conv_run. rewrite (HC r Hr). lia. }
      set (cur := fun r => nth it (s_conv (s1 r)) (sc_zero A)).
      assert (HC1 : forall r, r < P -> length (s_conv (s1 r)) = o_max_iter o + 1).
      { intros r Hr. unfold s1. destruct (r =? 0); simpl; [rewrite upd_length; auto|rewrite (HC r Hr); auto]. }
      apply (phase_bind P _ _ cur).
      { apply phase_local. intros r Hr. rewrite py_nth_nat. rewrite (nth_error_nth' _ (sc_zero A)) by (rewrite HC1; auto; lia). constructor. }
      apply (phase_bind P _ _ (fun _ => cur 0)); [apply (bcast_phase P HP0)|].
      assert (E0 : cur 0 = x).
      { unfold cur, s1. simpl. apply nth_error_nth. apply upd_nth_same. lia. }
      rewrite E0. apply phase_local. intros r Hr. eapply lrun_eq; [apply put_conv_run; rewrite HC1; auto; lia| | |]; auto.
      unfold s1. destruct (r =? 0); simpl; [rewrite upd_upd; reflexivity|rewrite (HC r Hr); reflexivity].
    - split; [exact W|]. exists K. intros r Hr. destruct (HR r Hr) as [D T]. split; [|exact T]. apply RD_setconv; auto. rewrite upd_length. auto.
  Qed.

  Lemma criterion_sim it s G : 2 <= N 0 -> Rel s G -> it <= o_max_iter o ->
    (is_jump o = true -> glast G <> None) -> (L = 1 -> forall r, r < P -> ghost_ok 0 G r (s r)) ->
    exists s', phase P (fun r => convergence_criterion o P r (infos r) it (s r)) s' /\ Rel s' (g_crit o it G).
  Proof.
    intros H2 HR Hit Hlast Hgh. unfold convergence_criterion, g_crit, crit_values.
    assert (NE : crit_points o <> []) by (apply crit_points_nonempty; auto).
    assert (NM : forall f : nat -> Sc A, tnorm A (map f (crit_points o)) <> None).
    { intros f. apply (tnorm_some A wf HL). destruct (crit_points o); [congruence|discriminate]. }
    rewrite Hgcc. destruct (is_jump o).
    - destruct (glast G) as [f|] eqn:EG; [|exfalso; apply Hlast; auto].
      destruct (compute_jump_sim s G f HR EG) as (b & F1 & R1 & Hv).
      unfold jump_norms. destruct (tnorm A _) as [x|] eqn:Ex; [|exfalso; eapply NM; eassumption].
      rewrite <- crit_values_concat in Ex.
      destruct (crit_tail_sim it (fun r => snd (b r)) (save_last G) (fun r => map (fun i => vnorm A (vsub A (gu G 0 i) (f i))) (own_crit r)) x R1 Hit Ex) as (s' & F2 & R2).
      exists s'. split; [|exact R2]. apply (phase_bind P _ _ b); [exact F1|].
      eapply phase_eq; [|exact F2]. intros r Hr. cbv beta. rewrite Hv by auto. reflexivity.
    - destruct (compute_residual_sim s G HR Hgh) as (b & F1 & R1 & Hv).
      unfold residual_norms. destruct (tnorm A _) as [x|] eqn:Ex; [|exfalso; eapply NM; eassumption].
      rewrite <- crit_values_concat in Ex.
      destruct (crit_tail_sim it (fun r => snd (b r)) G (fun r => map (fun i => vnorm A (gres o 0 G i)) (own_crit r)) x R1 Hit Ex) as (s' & F2 & R2).
      exists s'. split; [|exact R2]. apply (phase_bind P _ _ b); [exact F1|].
      eapply phase_eq; [|exact F2]. intros r Hr. cbv beta. rewrite Hv by auto. reflexivity.
  Qed.

  (** ** Cycles and the solve loop (mgrit.py 261-290, 551-646) *)
  Notation fsv r := (coarse_solve o P r (infos r)).

  Lemma iteration_sim n : forall l cyc it ff, l + n = L - 1 ->
    Psim (fun r s => iteration o P r (infos r) (fsv r) n l cyc it ff s) (g_iteration o n l cyc it ff).
  Proof.
    pose proof L_pos as HL0. induction n as [|n IH]; intros l cyc it ff Hn.
    - replace l with (L - 1) by lia. exact coarse_solve_sim.
    - assert (Hl : S l < L) by lia. assert (Hl' : l < L) by lia.
      set (b := fun ff : bool => ((0 <? l) || (it =? 0)) && ff).
      assert (Half : forall cyc ff, Psim
        (fun r s => s <- (if b ff then f_relax o P (infos r) l s else Ret s) ;;
                    s <- times (cf_count o l) (fun s => s <- c_relax o P r (infos r) l s ;; f_relax o P (infos r) l s) s ;;
                    s <- fas_residual o P r (infos r) l s ;;
                    s <- iteration o P r (infos r) (fsv r) n (S l) cyc it true s ;;
                    s <- error_correction r (infos r) l s ;;
                    f_relax o P (infos r) l s)
        (fun G => g_frelax o l (g_corr o l (g_iteration o n (S l) cyc it true (g_fas o l
           (iter (cf_count o l) (fun G => g_frelax o l (g_crelax o l G)) (if b ff then g_frelax o l G else G))))))).
      { intros c f.
        pose proof (psim_bind _ _ _ _ (error_correction_sim l Hl) (f_relax_sim l Hl')) as X1.
        pose proof (psim_bind _ _ _ _ (IH (S l) c it true ltac:(lia)) X1) as X2.
        pose proof (psim_bind _ _ _ _ (fas_sim l Hl) X2) as X3.
        pose proof (psim_times (cf_count o l) _ _ (psim_bind _ _ _ _ (c_relax_sim l Hl) (f_relax_sim l Hl'))) as X4.
        pose proof (psim_bind _ _ _ _ X4 X3) as X5.
        exact (psim_bind _ _ _ _ (psim_if (b f) _ _ _ _ (f_relax_sim l Hl') psim_ret) X5). }
      exact (psim_bind _ _ _ _ (Half cyc ff) (psim_if (negb (l =? 0) && cyc) _ _ _ _ (Half false false) psim_ret)).
  Qed.

  Lemma nested_from_sim n : n <= L - 1 ->
    Psim (fun r s => for_each (rev (seq 0 n)) (fun l s => s <- interpolate_up r (infos r) l s ;;
            if 0 <? l then iteration o P r (infos r) (fsv r) (Mgrit.L o - 1 - l) l false 0 true s else Ret s) s)
         (g_nested_from o n).
  Proof.
    pose proof L_pos as HL0. change (Mgrit.L o) with L. induction n as [|n IH]; intros Hn; [apply psim_ret|]. intros s G HR.
    pose proof (psim_bind _ _ _ _ (interpolate_up_sim n ltac:(lia))
      (psim_if (0 <? n) _ _ _ _ (iteration_sim (L - 1 - n) n false 0 true ltac:(lia)) psim_ret)) as X1.
    destruct (psim_bind _ _ _ _ X1 (IH ltac:(lia)) s G HR) as (s' & F & R').
    exists s'. split; [|exact R']. eapply phase_eq; [|exact F]. intros r Hr. rewrite seq_S, rev_app_distr. reflexivity.
  Qed.
  Lemma nested_sim : Psim (fun r s => nested_iteration o P r (infos r) (fsv r) s) (g_nested o).
  Proof.
    pose proof L_pos as HL0.
    exact (psim_bind _ _ _ _ coarse_solve_sim (nested_from_sim (L - 1) (le_n _))).
  Qed.

  (** bookkeeping of the reference operations *)
  Lemma iter_glast n f (G : GS A) : (forall G, glast (f G) = glast G) -> glast (iter n f G) = glast G.
  Proof. intros H. revert G. induction n as [|n IH]; intros G; simpl; [auto|]. rewrite IH. auto. Qed.
  Lemma g_iteration_last n : forall l cyc it ff (G : GS A), glast (g_iteration o n l cyc it ff G) = glast G.
  Proof.
    induction n as [|n IH]; intros l cyc it ff G.
    { cbn [g_iteration]. unfold g_csolve. destruct (o_dist o); [destruct (l =? 0)|]; reflexivity. }
    assert (Half : forall c f G0, glast (g_frelax o l (g_corr o l (g_iteration o n (S l) c it true (g_fas o l
           (iter (cf_count o l) (fun G => g_frelax o l (g_crelax o l G))
              (if ((0 <? l) || (it =? 0)) && f then g_frelax o l G0 else G0)))))) = glast G0).
    { intros c f G0. simpl. rewrite IH. simpl. rewrite iter_glast by reflexivity. destruct (_ && f); reflexivity. }
    cbn [g_iteration]. cbv zeta. destruct (negb (l =? 0) && cyc); rewrite ?Half; reflexivity.
  Qed.

  Lemma Rel_local s G (f : nat -> St A -> St A) (g : GS A -> GS A) :
    (forall G, GWF G -> GWF (g G)) ->
    (forall r s G, r < P -> RD r s G -> RD r (f r s) (g G) /\ s_stag (f r s) = s_stag s /\ s_rtag (f r s) = s_rtag s) ->
    Rel s G -> Rel (fun r => f r (s r)) (g G).
  Proof.
    intros Hw H [W [K HR]]. split; [auto|]. exists K. intros r Hr. destruct (HR r Hr) as [D [T1 T2]].
    destruct (H r (s r) G Hr D) as (D' & E1 & E2). split; [exact D'|]. split; rewrite ?E1, ?E2; auto.
  Qed.
  Lemma Rel_iter s G n : Rel s G -> Rel (fun r => set_iter (s r) n) (set_giter G n).
  Proof. apply (Rel_local s G (fun _ s => set_iter s n) (fun G => set_giter G n)); auto. intros r s0 G0 Hr []. split; [constructor; auto|auto]. Qed.
  Lemma Rel_emit s G (b : bool) : Rel s G -> Rel (fun r => if b then emit (s r) else s r) (g_emit_if b G).
  Proof.
    intros H. apply (Rel_local s G (fun _ s => if b then emit s else s) (g_emit_if b)); auto.
    - intros G0 W. unfold g_emit_if. destruct b; auto.
    - intros r s0 G0 Hr HD. unfold g_emit_if. destruct b; [|auto]. destruct HD. split; [|auto]. constructor; simpl; auto.
      apply Forall2_app; [auto|]. constructor; [|constructor]. simpl. split; [auto|]. apply rd_u0. apply L_pos.
  Qed.
  Lemma Rel_savelast s G (b : bool) : Rel s G ->
    Rel (fun r => if b then set_last (s r) (map (vclone A) (s_u (s r) 0)) else s r) (if b then save_last G else G).
  Proof.
    intros H. apply (Rel_local s G (fun _ s => if b then set_last s (map (vclone A) (s_u s 0)) else s) (fun G => if b then save_last G else G)); auto.
    - intros G0 W. destruct b; auto.
    - intros r s0 G0 Hr HD. destruct b; [|auto]. destruct HD. split; [|auto]. constructor; simpl; auto.
      intros f [= <-]. apply (ows_map 0 r _ (gu G0 0)). apply rd_u0. apply L_pos.
  Qed.

  Definition jump_ok (G : GS A) : Prop := is_jump o = true -> glast G <> None.
  Lemma g_pass_jump it G : jump_ok G -> jump_ok (g_pass o it G).
  Proof.
    intros H J. specialize (H J). unfold g_pass. assert (X : forall G0 : GS A, glast (g_emit_if (o_has_output o && (o_output_lvl o =? 2)%Z) G0) = glast G0).
    { intros. unfold g_emit_if. destruct (_ && _); reflexivity. }
    rewrite X. unfold g_crit. rewrite J. destruct (tnorm A _); [discriminate|]. rewrite g_iteration_last. exact H.
  Qed.

  Lemma solve_pass_sim it s G : 2 <= N 0 -> Rel s G -> it < o_max_iter o -> jump_ok G ->
    exists s', phase P (fun r => solve_pass o P r (infos r) (fsv r) it (s r))
                 (fun r => if g_stop o it (g_pass o it G) then inr (s' r) else inl (s' r)) /\ Rel s' (g_pass o it G).
  Proof.
    intros H2 HR Hit HJ. pose proof L_pos as HL0.
    pose proof (Rel_iter s G (it + 1) HR) as R0.
    set (G1 := set_giter G (it + 1)) in *. set (G2 := g_iteration o (L - 1) 0 (cycF o) it true G1).
    assert (exists s2, phase P (fun r => iteration o P r (infos r) (fsv r) (L - 1) 0 (cycF o) it true (set_iter (s r) (it + 1))) s2 /\
              Rel s2 G2 /\ (L = 1 -> forall r, r < P -> ghost_ok 0 G2 r (s2 r))) as (s2 & F2 & R2 & Gh2).
    { unfold G2. destruct (Nat.eq_dec L 1) as [E|E].
      - destruct (coarse_solve_sim' _ _ R0) as (s2 & F2 & R2 & Gh). rewrite E in *. exists s2. auto.
      - destruct (iteration_sim (L - 1) 0 (cycF o) it true eq_refl _ _ R0) as (s2 & F2 & R2). exists s2. split; [exact F2|]. split; [exact R2|]. intros; lia. }
    destruct (criterion_sim (it + 1) s2 G2 H2 R2 ltac:(lia)) as (s3 & F3 & R3); auto.
    { intros J. unfold G2. rewrite g_iteration_last. apply HJ; auto. }
    set (G3 := g_crit o (it + 1) G2) in *.
    pose proof (Rel_emit s3 G3 (o_has_output o && (o_output_lvl o =? 2)%Z) R3) as R4.
    set (s4 := fun r => if o_has_output o && (o_output_lvl o =? 2)%Z then emit (s3 r) else s3 r) in *.
    change (g_pass o it G) with (g_emit_if (o_has_output o && (o_output_lvl o =? 2)%Z) G3).
    set (G4 := g_emit_if (o_has_output o && (o_output_lvl o =? 2)%Z) G3) in *.
    exists s4. split; [|exact R4]. unfold solve_pass.
    apply (phase_bind P _ _ s2); [exact F2|]. apply (phase_bind P _ _ s3); [exact F3|].
    apply (phase_bind P _ _ (fun _ => nth (it + 1) (gconv G4) (sc_zero A))).
    - apply phase_local. intros r Hr. change (if o_has_output o && (o_output_lvl o =? 2)%Z then emit (s3 r) else s3 r) with (s4 r).
      destruct R4 as [_ [K R4]]. destruct (R4 r Hr) as [D _]. rewrite (rd_conv _ _ _ D). rewrite py_nth_nat.
      rewrite (nth_error_nth' _ (sc_zero A)) by (rewrite (rd_clen _ _ _ D); lia). constructor.
    - unfold g_stop. destruct (sc_lt A _ _ || (it =? o_max_iter o - 1)); [|apply phase_ret].
      rewrite Hgcc. simpl orb. unfold clean_up. rewrite Hgcc.
      apply (phase_bind P _ _ s4); [|apply phase_ret]. apply phase_wait. apply phase_ret.
  Qed.

  Lemma solve_loop_sim n : forall it s G, 2 <= N 0 -> Rel s G -> it + n <= o_max_iter o -> jump_ok G ->
    exists s', phase P (fun r => solve_loop o P r (infos r) (fsv r) n it (s r)) s' /\ Rel s' (g_loop o n it G).
  Proof.
    induction n as [|n IH]; intros it s G H2 HR Hit HJ; [exists s; split; [apply phase_ret|exact HR]|].
    destruct (solve_pass_sim it s G H2 HR ltac:(lia) HJ) as (s1 & F1 & R1). simpl. destruct (g_stop o it (g_pass o it G)).
    - exists s1. split; [|exact R1]. eapply phase_bind; [exact F1|]. apply phase_ret.
    - destruct (IH (S it) s1 (g_pass o it G) H2 R1 ltac:(lia) (g_pass_jump it G HJ)) as (s2 & F2 & R2).
      exists s2. split; [|exact R2]. eapply phase_bind; [exact F1|]. exact F2.
  Qed.
  Lemma solve_sim s G : 2 <= N 0 -> Rel s G -> jump_ok G ->
    exists s', phase P (fun r => solve o P r (infos r) (fsv r) (s r)) s' /\ Rel s' (g_solve o G).
  Proof.
    intros H2 HR HJ. destruct (solve_loop_sim (o_max_iter o) 0 s G H2 HR ltac:(lia) HJ) as (s1 & F1 & R1).
    eexists. split.
    - unfold solve. apply (phase_bind P _ _ s1); [exact F1|]. apply (phase_bind P _ _ (fun _ => tt)); [apply (barrier_phase P HP0)|]. apply phase_ret.
    - apply Rel_emit. exact R1.
  Qed.

  (** ** Construction (mgrit.py 122-243, 840-858) *)
  (** the vector every point of the finest level starts with *)
  Definition init_guess (i : nat) : V :=
    match o_rand o with None => vzero A (templ A 0) | Some rnd => rnd (owner 0 i) (loc 0 (owner 0 i) i) end.
  Hypothesis Hrand : forall rnd, o_rand o = Some rnd -> forall r i, wf 0 (rnd r i).

  Lemma len_t l r : l < L -> length (i_t (inf (infos r) l)) = cnt l r + off l r.
  Proof. intros Hl. rewrite inf_eq by auto. unfold closed_info. cbn [i_t]. unfold tms. rewrite map_length, seq_length. reflexivity. Qed.
  Lemma GWF_init : GWF (g_init o init_guess).
  Proof.
    intros l i Hl Hi. simpl. split; [|split; apply (wf_zero A wf HL), (wf_zero A wf HL), (wf_templ A wf HL)].
    destruct (i =? 0); [apply (wf_clone A wf HL), (wf_tstart A wf HL)|].
    destruct l; simpl; [|apply (wf_zero A wf HL), (wf_templ A wf HL)].
    unfold init_guess. destruct (o_rand o) as [rnd|] eqn:E; [eapply Hrand; eauto|apply (wf_zero A wf HL), (wf_templ A wf HL)].
  Qed.
  Lemma nth_error_repeat' {B} (x : B) n i : i < n -> nth_error (repeat x n) i = Some x.
  Proof. revert i. induction n as [|n IH]; intros [|i] H; simpl; try lia; auto. apply IH. lia. Qed.

  (** fresh value of local index [k] before the initial value is set *)
  Definition fresh (l r k : nat) : V :=
    match l, o_rand o with 0, Some rnd => rnd r k | _, _ => vzero A (templ A l) end.
  Lemma fresh_nth l r n k : k < n ->
    nth_error (match l, o_rand o with 0, Some rnd => map (rnd r) (seq 0 n) | _, _ => repeat (vzero A (templ A l)) n end) k = Some (fresh l r k).
  Proof.
    intros Hk. unfold fresh. destruct l; [|apply nth_error_repeat'; auto]. destruct (o_rand o); [|apply nth_error_repeat'; auto].
    apply map_nth_error. rewrite nth_error_seq by auto. reflexivity.
  Qed.
  Lemma fresh_len l r n :
    length (match l, o_rand o with 0, Some rnd => map (rnd r) (seq 0 n) | _, _ => repeat (vzero A (templ A l)) n end) = n.
  Proof. destruct l; [|apply repeat_length]. destruct (o_rand o); [rewrite map_length, seq_length; auto|apply repeat_length]. Qed.
  Lemma fresh_wf l r k : wf l (fresh l r k).
  Proof.
    unfold fresh. destruct l; [|apply (wf_zero A wf HL), (wf_templ A wf HL)].
    destruct (o_rand o) eqn:E; [eapply Hrand; eauto|apply (wf_zero A wf HL), (wf_templ A wf HL)].
  Qed.
  Lemma fresh_guess l r i : l < L -> r < P -> lo l r <= i < lo l (S r) ->
    fresh l r (loc l r i) = if l =? 0 then init_guess i else vzero A (templ A l).
  Proof.
    intros Hl Hr Hi. unfold fresh, init_guess. destruct l; [|reflexivity]. simpl.
    rewrite (owner_eq grids P HV HP0 HP 0 r i) by auto. reflexivity.
  Qed.

  Lemma init_RD r : r < P -> RD r (init_state o r (infos r)) (g_init o init_guess).
  Proof.
    intros Hr. pose proof L_pos as HL0. constructor; simpl.
    - intros l Hl. unfold init_u. rewrite len_t by auto. destruct (r =? 0) eqn:E.
      + apply Nat.eqb_eq in E. subst r. split; [rewrite upd_length; apply fresh_len|]. intros i Hi.
        pose proof (loc_bound l 0 i Hl Hr Hi) as B. assert (Ei : loc l 0 i = i).
        { unfold SetupProofs.loc, SetupProofs.off. simpl. rewrite (lo_0 grids P HV HP0 HP) by auto. lia. }
        destruct (i =? 0) eqn:E0.
        * apply Nat.eqb_eq in E0. subst i. rewrite Ei in *. apply upd_nth_same. rewrite fresh_len. lia.
        * apply Nat.eqb_neq in E0. rewrite upd_nth_other by lia. rewrite fresh_nth by lia. f_equal. apply fresh_guess; auto.
      + split; [apply fresh_len|]. intros i Hi. pose proof (loc_bound l r i Hl Hr Hi) as B. rewrite fresh_nth by lia. f_equal.
        apply Nat.eqb_neq in E. pose proof (lo_pos grids P HV HP0 HP l r Hl ltac:(lia) Hr) as Lp.
        pose proof (lo_cnt grids P HV HP0 HP l r Hl Hr). replace (i =? 0) with false by (symmetry; apply Nat.eqb_neq; lia).
        apply fresh_guess; auto.
    - intros l Hl. unfold init_vg. rewrite len_t by auto. split; [apply repeat_length|]. intros i Hi.
      pose proof (loc_bound l r i Hl Hr Hi). apply nth_error_repeat'. lia.
    - intros l Hl. unfold init_vg. rewrite len_t by auto. split; [apply repeat_length|]. intros i Hi.
      pose proof (loc_bound l r i Hl Hr Hi). apply nth_error_repeat'. lia.
    - intros l Hl Ho. unfold init_u. rewrite len_t by auto. assert (r =? 0 = false) as ->.
      { unfold SetupProofs.off in Ho. destruct (r =? 0); [discriminate|reflexivity]. }
      rewrite fresh_nth by lia. eexists. split; [reflexivity|]. apply fresh_wf.
    - reflexivity.
    - reflexivity.
    - apply repeat_length.
    - discriminate.
    - reflexivity.
    - constructor.
  Qed.
  Lemma init_Rel : Rel (fun r => init_state o r (infos r)) (g_init o init_guess).
  Proof.
    split; [apply GWF_init|]. exists (fun _ _ => 0%Z). intros r Hr. split; [apply init_RD; auto|].
    split; intros l op _; unfold init_state, base; cbn [s_stag s_rtag]; lia.
  Qed.

  Lemma construct_sim : exists s', phase P (fun r => construct o P r (infos r) (fsv r)) s' /\ Rel s' (g_construct o init_guess) /\
      jump_ok (g_construct o init_guess).
  Proof.
    destruct (psim_if (o_nested o) _ _ _ _ nested_sim psim_ret _ _ init_Rel) as (s1 & F1 & R1).
    pose proof (Rel_savelast s1 _ (is_jump o) R1) as R2.
    pose proof (Rel_emit _ _ (o_has_output o && (o_output_lvl o =? 2)%Z) R2) as R3.
    eexists. split; [|split; [exact R3|]].
    - unfold construct. apply (phase_bind P _ _ (fun _ => tt)); [apply (barrier_phase P HP0)|].
      apply (phase_bind P _ _ s1); [exact F1|].
      apply (phase_bind P _ _ (fun _ => tt)); [destruct (o_max_iter o =? 0); [apply (barrier_phase P HP0)|apply phase_ret]|].
      apply phase_ret.
    - intros J. unfold g_construct. rewrite J. unfold g_emit_if. destruct (_ && _); discriminate.
  Qed.


  Lemma setup_infos_eq r : r < P -> setup_infos o P r = Some (infos r).
  Proof.
    intros Hr. pose proof L_pos as HL0. unfold setup_infos, nlev. apply sequence_map_some. intros l Hl. apply in_seq in Hl.
    unfold setup_info. rewrite (setup_level_eq grids so P HV HP0 HP l r ltac:(lia) Hr (Hperm l r ltac:(lia) Hr)).
    assert (Hp : nonempty (i_pts (closed_info grids so P l 0)) = true).
    { unfold closed_info. cbn [i_pts]. rewrite nonempty_pts. unfold SetupProofs.has. apply Nat.ltb_lt.
      pose proof (lo_cnt grids P HV HP0 HP l 0 ltac:(lia) HP0). rewrite (lo_0 grids P HV HP0 HP) in H by lia.
      pose proof (N_pos grids P HV HP0 HP l ltac:(lia)) as NP.
      destruct (owner_spec grids P HV HP0 HP l 0 ltac:(lia) NP) as [O1 O2].
      destruct (owner l 0) as [|q] eqn:Eo; [lia|].
      pose proof (lo_cnt grids P HV HP0 HP l (S q) ltac:(lia) O1).
      pose proof (lo_pos grids P HV HP0 HP l (S q) ltac:(lia) ltac:(lia) O1 ltac:(lia)). lia. }
    assert (E1 : negb (l =? nlev o - 1) && (length (all_cpts grids l) <? 2) = false).
    { destruct (l =? nlev o - 1) eqn:E; [reflexivity|]. apply Nat.eqb_neq in E. unfold nlev in E. simpl. apply Nat.ltb_ge.
      rewrite (all_cpts_length grids P HV HP0 HP) by lia. destruct HV as (_ & _ & X). destruct (X l ltac:(lia)) as (_ & _ & Y). exact Y. }
    rewrite E1. destruct (r =? 0) eqn:E; [|reflexivity]. apply Nat.eqb_eq in E. subst r. rewrite Hp. reflexivity.
  Qed.

  Theorem main_sim : check o P = None -> 2 <= N 0 ->
    exists s', phase P (fun r => mgrit_main o P r) s' /\ Rel s' (g_main o init_guess).
  Proof.
    intros Hc H2. destruct construct_sim as (s1 & F1 & R1 & J1). destruct (solve_sim s1 _ H2 R1 J1) as (s2 & F2 & R2).
    exists s2. split; [|exact R2].
    apply (phase_eq P _ (fun r => bind (construct o P r (infos r) (fsv r)) (fun s => solve o P r (infos r) (fsv r) s))).
    - intros r Hr. unfold mgrit_main. rewrite Hc, setup_infos_eq by auto.
      replace (too_many_points o P) with (@None exn); [reflexivity|]. unfold too_many_points. destruct (o_dist o) as [k|] eqn:Ed; [|reflexivity].
      destruct (Hdist k eq_refl) as [E _]. rewrite E, andb_false_r. reflexivity.
    - eapply phase_bind; eauto.
  Qed.
End Sim.
