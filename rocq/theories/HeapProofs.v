(** The solver with objects (Heap.v) and the solver with values (Mgrit.v) exchange the same messages. *)
From Coq Require Import List ZArith Lia Arith Bool.
From Verif Require Import Net PyList ListFacts Setup Mgrit Heap NetSim.
Import ListNotations.
Open Scope prog_scope.

(** References and the values of their objects. *)
Definition refers {V : Type} (h : list V) (refs : list nat) (xs : list V) : Prop := Forall2 (fun a x => nth_error h a = Some x) refs xs.
Section Pts.
  Context {V : Type}.
  Implicit Types h : list V.
  Lemma refers_lt h l xs a : refers h l xs -> In a l -> a < length h.
  Proof. induction 1; simpl; [tauto|]. intros [->|I]; [apply nth_error_Some; congruence|auto]. Qed.
  Lemma refers_ext h h' l xs : (forall a, a < length h -> nth_error h' a = nth_error h a) -> refers h l xs -> refers h' l xs.
  Proof.
    intros E H. induction H; constructor; auto. rewrite E; [auto|]. apply nth_error_Some. congruence.
  Qed.
  Lemma refers_store h l xs a x : refers h l xs -> ~ In a l -> refers (upd h a x) l xs.
  Proof.
    induction 1; intros N; constructor.
    - rewrite upd_nth_other; [auto|]. intros ->. apply N. left. reflexivity.
    - apply IHForall2. intros I. apply N. right. exact I.
  Qed.
  Lemma refers_length h l xs : refers h l xs -> length l = length xs.
  Proof. induction 1; simpl; congruence. Qed.
  Lemma refers_nth h l xs i : refers h l xs ->
    match nth_error l i, nth_error xs i with Some a, Some x => nth_error h a = Some x /\ In a l | None, None => True | _, _ => False end.
  Proof.
    intros H. revert i. induction H; intros [|i]; simpl; auto. specialize (IHForall2 i).
    destruct (nth_error l i), (nth_error l' i); simpl in *; tauto.
  Qed.
  Lemma refers_py_nth h l xs i : refers h l xs ->
    match py_nth l i, py_nth xs i with Some a, Some x => nth_error h a = Some x /\ In a l | None, None => True | _, _ => False end.
  Proof.
    intros H. unfold py_nth. rewrite (refers_length _ _ _ H). destruct (0 <=? i)%Z; [apply refers_nth; auto|].
    destruct (0 <=? Z.of_nat (length xs) + i)%Z; [apply refers_nth; auto|exact I].
  Qed.
  Lemma refers_upd h l xs i a x : refers h l xs -> nth_error h a = Some x -> refers h (upd l i a) (upd xs i x).
  Proof. intros H E. revert i. induction H; intros [|i]; simpl; constructor; auto. apply IHForall2. Qed.
  Lemma refers_py_upd h l xs i a x : refers h l xs -> nth_error h a = Some x ->
    match py_upd l (Z.of_nat i) a, py_upd xs (Z.of_nat i) x with
    | Some l', Some xs' => l' = upd l i a /\ xs' = upd xs i x /\ i < length l | None, None => True | _, _ => False end.
  Proof.
    intros H E. unfold py_upd. rewrite (refers_length _ _ _ H). replace (0 <=? Z.of_nat i)%Z with true by (symmetry; apply Z.leb_le; lia).
    destruct (Z.ltb_spec (Z.of_nat i) (Z.of_nat (length xs))); [|exact I]. rewrite Nat2Z.id. repeat split; lia.
  Qed.
  Lemma refers_app h l xs l' xs' : refers h l xs -> refers h l' xs' -> refers h (l ++ l') (xs ++ xs').
  Proof. apply Forall2_app. Qed.
  Lemma refers_values h l xs d : refers h l xs -> map (fun a => nth a h d) l = xs.
  Proof. induction 1; simpl; [reflexivity|]. f_equal; [|auto]. apply nth_error_nth. auto. Qed.
  Lemma upd_same h a x : nth_error h a = Some x -> upd h a x = h.
  Proof. revert a. induction h as [|y h IH]; intros [|a]; simpl; try discriminate; intros E; [injection E as ->; reflexivity|f_equal; auto]. Qed.
  Lemma in_upd {B} (l : list B) i a b : In b (upd l i a) -> b = a \/ In b l.
  Proof. revert i. induction l as [|y l IH]; intros [|i]; simpl; [tauto..|intros [H|H]; auto|intros [H|H]; auto]. destruct (IH _ H); auto. Qed.
End Pts.

Section HeapSim.
  Context {A : App}.
  Variable al : Alias.
  Variable o : Opts A.
  Variables P r : nat.
  Variable infos : list LvlInfo.
  Notation prog := (prog (Msg A)).
  Notation V := (Vec A).
  Notation H := (HSt A).
  Notation inf := (inf infos).
  Notation L := (L o).
  Implicit Types h : H.
  Implicit Types s : St A.

  (** steps create their result; a transfer that returns its argument leaves it unchanged, except that interpolation may do
      anything when only the error correction uses it *)
  Hypothesis Hstep : forall l, al_step al l = false.
  Hypothesis Hrestr : forall l, al_restr al l = true -> forall x, restr A l x = x.
  Hypothesis Hinterp : forall l, al_interp al l = true -> o_nested o = false \/ forall x, interp A l x = x.
  (** rank 0 receives nothing; the other ranks write behind the ghost point *)
  Hypothesis Hfront : r = 0 -> forall l, i_first_is_f (inf l) = false /\ i_first_is_c (inf l) = false /\ i_comm_front (inf l) = false /\ i_get_from (inf l) = (-99)%Z.
  Hypothesis Hloc : r <> 0 -> forall l i, In i (i_loc (inf l)) \/ In i (i_loc_c (inf l)) \/ In i (i_loc_f (inf l)) -> 1 <= i.

  (** the object of u[l][0] is referenced from nowhere else *)
  Definition ghost_private (t : St (RA A)) : Prop :=
    forall l a rest, s_u t l = a :: rest ->
      ~ In a rest /\ (forall l', l' <> l -> ~ In a (s_u t l')) /\ (forall l', ~ In a (s_v t l')) /\ (forall l', ~ In a (s_g t l')) /\ ~ In a (s_last t).
  Record HR (h : H) (s : St A) : Prop := {
    hr_u : forall l, refers (h_heap h) (s_u (h_st h) l) (s_u s l);
    hr_v : forall l, refers (h_heap h) (s_v (h_st h) l) (s_v s l);
    hr_g : forall l, refers (h_heap h) (s_g (h_st h) l) (s_g s l);
    hr_last : refers (h_heap h) (s_last (h_st h)) (s_last s);
    hr_stag : s_stag (h_st h) = s_stag s;
    hr_rtag : s_rtag (h_st h) = s_rtag s;
    hr_sfin : s_sfin (h_st h) = s_sfin s;
    hr_conv : s_conv (h_st h) = s_conv s;
    hr_iter : s_iter (h_st h) = s_iter s;
    hr_fin : s_fin (h_st h) = s_fin s;
    hr_fin_it : s_fin_it (h_st h) = s_fin_it s;
    hr_pre : s_pre (h_st h) = s_pre s;
    hr_pre_it : s_pre_it (h_st h) = s_pre_it s;
    hr_out : h_out h = s_out s;
    hr_priv : r <> 0 -> ghost_private (h_st h)
  }.

  (** [h'] is [h] after operations that only created objects and changed objects created meanwhile *)
  Record ext (h h' : H) : Prop := {
    ex_st : h_st h' = h_st h;
    ex_out : h_out h' = h_out h;
    ex_len : length (h_heap h) <= length (h_heap h');
    ex_old : forall a, a < length (h_heap h) -> nth_error (h_heap h') a = nth_error (h_heap h) a
  }.
  Lemma ext_refl h : ext h h.
  Proof. constructor; auto. Qed.
  Lemma ext_trans h1 h2 h3 : ext h1 h2 -> ext h2 h3 -> ext h1 h3.
  Proof. intros [A1 B1 C1 D1] [A2 B2 C2 D2]. constructor; try congruence; [lia|]. intros a Ha. rewrite D2 by lia. auto. Qed.
  Lemma HR_ext h h' s : HR h s -> ext h h' -> HR h' s.
  Proof.
    intros [] [E1 E2 E3 E4]. constructor; rewrite ?E1, ?E2; auto; intros; try (eapply refers_ext; [exact E4|auto]; fail).
  Qed.
  Definition nogh (h : H) (a : nat) : Prop := r <> 0 -> forall l b rest, s_u (h_st h) l = b :: rest -> b <> a.
  Definition vref (h : H) (a : nat) (x : V) : Prop := deref h a = Some x /\ nogh h a.
  Lemma deref_ext h h' a x : ext h h' -> deref h a = Some x -> deref h' a = Some x.
  Proof. intros [_ _ _ E] D. unfold deref in *. rewrite E; [auto|]. apply nth_error_Some. congruence. Qed.
  Lemma vref_ext h h' a x : ext h h' -> vref h a x -> vref h' a x.
  Proof. intros E [D N]. split; [eapply deref_ext; eauto|]. unfold nogh. rewrite (ex_st _ _ E). exact N. Qed.
  Lemma deref_lt (h : H) a (x : V) : deref h a = Some x -> a < length (h_heap h).
  Proof. intros D. apply nth_error_Some. unfold deref in D. congruence. Qed.
  Lemma fresh_nogh h s a : HR h s -> length (h_heap h) <= a -> nogh h a.
  Proof.
    intros HS Ha _ l b rest E ->. pose proof (refers_lt _ _ _ a (hr_u _ _ HS l)) as X. rewrite E in X. specialize (X (or_introl eq_refl)). lia.
  Qed.

  Lemma ext_alloc h x : ext h (snd (alloc x h)).
  Proof. constructor; simpl; auto; [rewrite app_length; lia|]. intros a Ha. apply nth_error_app1. exact Ha. Qed.
  Lemma deref_alloc h x : deref (snd (alloc x h)) (fst (alloc x h)) = Some x.
  Proof. unfold deref. simpl. rewrite nth_error_app2, Nat.sub_diag by lia. reflexivity. Qed.
  Lemma ext_store h0 h a x : ext h0 h -> length (h_heap h0) <= a -> ext h0 (store a x h).
  Proof.
    intros [E1 E2 E3 E4] Ha. constructor; simpl; auto; [rewrite upd_length; auto|]. intros b Hb. rewrite upd_nth_other by lia. auto.
  Qed.

  (** results of operations: a value, and an object holding it *)
  Definition osim (h : H) (x : option (nat * H)) (y : option V) : Prop :=
    match x, y with
    | Some (a, h'), Some v => ext h h' /\ deref h' a = Some v /\ nogh h' a
    | None, None => True
    | _, _ => False
    end.
  (** as [osim], the object being new *)
  Definition nsim (h : H) (x : option (nat * H)) (v : V) : Prop :=
    exists a h', x = Some (a, h') /\ ext h h' /\ deref h' a = Some v /\ length (h_heap h) <= a.

  Lemma op1_new h a x f : deref h a = Some x -> nsim h (op1 false f a h) (f x).
  Proof.
    intros D. unfold op1. rewrite D. exists (fst (alloc (f x) h)), (snd (alloc (f x) h)). repeat split; [apply ext_alloc..|apply deref_alloc|]. simpl. lia.
  Qed.
  Lemma op2_new h a b x y f : deref h a = Some x -> deref h b = Some y -> nsim h (op2 f a b h) (f x y).
  Proof.
    intros D E. unfold op2. rewrite D, E. exists (fst (alloc (f x y) h)), (snd (alloc (f x y) h)). repeat split; [apply ext_alloc..|apply deref_alloc|]. simpl. lia.
  Qed.
  (** an object that does not exist in [h0] may also be changed *)
  Lemma op1_any h0 h b a x f : ext h0 h -> length (h_heap h0) <= a -> deref h a = Some x -> nsim h0 (op1 b f a h) (f x).
  Proof.
    intros E Ha D. unfold op1. rewrite D. destruct b.
    - exists a, (store a (f x) h). repeat split; [apply ext_store; auto..| |auto]. unfold deref. simpl. apply upd_nth_same. eapply deref_lt; eauto.
    - exists (fst (alloc (f x) h)), (snd (alloc (f x) h)). repeat split; [apply (ext_trans _ h); [auto|apply ext_alloc]..|apply deref_alloc|].
      simpl. pose proof (ex_len _ _ E). lia.
  Qed.
  Lemma op1_id h a x f b : deref h a = Some x -> (b = true -> f x = x) -> nogh h a -> (forall c, length (h_heap h) <= c -> nogh h c) ->
    osim h (op1 b f a h) (Some (f x)).
  Proof.
    intros D F N NF. unfold op1. rewrite D. destruct b.
    - simpl. rewrite F by auto. assert (E : store a x h = h) by (unfold store; rewrite upd_same by exact D; destruct h; reflexivity).
      rewrite E. repeat split; auto; try apply ext_refl.
    - split; [apply (ext_alloc h (f x))|]. split; [apply deref_alloc|]. unfold nogh in *. simpl. apply (NF (length (h_heap h))). lia.
  Qed.
  Lemma nsim_osim h s x v : HR h s -> nsim h x v -> osim h x (Some v).
  Proof.
    intros HS (a & h' & -> & E & D & F). simpl. repeat split; try apply E; auto. unfold nogh. rewrite (ex_st _ _ E). eapply fresh_nogh; eauto.
  Qed.

  Lemma py_nth_ref h s l i : HR h s -> forall (refs : list nat) xs, (refs = s_u (h_st h) l /\ xs = s_u s l) \/ (refs = s_v (h_st h) l /\ xs = s_v s l)
      \/ (refs = s_g (h_st h) l /\ xs = s_g s l) \/ (refs = s_last (h_st h) /\ xs = s_last s) ->
    match py_nth refs i, py_nth xs i with Some a, Some x => deref h a = Some x | None, None => True | _, _ => False end.
  Proof.
    intros HS refs xs Hc. assert (X : refers (h_heap h) refs xs).
    { destruct Hc as [[-> ->]|[[-> ->]|[[-> ->]|[-> ->]]]]; apply HS. }
    pose proof (refers_py_nth _ _ _ i X) as Y. unfold deref. destruct (py_nth refs i), (py_nth xs i); tauto.
  Qed.
  Lemma u_ref h s l i : HR h s -> match py_nth (u_ h l) i, py_nth (s_u s l) i with Some a, Some x => deref h a = Some x | None, None => True | _, _ => False end.
  Proof. intros HS. apply (py_nth_ref h s l i HS). auto. Qed.
  Lemma v_ref h s l i : HR h s -> match py_nth (v_ h l) i, py_nth (s_v s l) i with Some a, Some x => deref h a = Some x | None, None => True | _, _ => False end.
  Proof. intros HS. apply (py_nth_ref h s l i HS). auto. Qed.
  Lemma g_ref h s l i : HR h s -> match py_nth (g_ h l) i, py_nth (s_g s l) i with Some a, Some x => deref h a = Some x | None, None => True | _, _ => False end.
  Proof. intros HS. apply (py_nth_ref h s l i HS). auto. Qed.
  Lemma last_ref h s i : HR h s -> match py_nth (last_ h) i, py_nth (s_last s) i with Some a, Some x => deref h a = Some x | None, None => True | _, _ => False end.
  Proof. intros HS. apply (py_nth_ref h s 0 i HS). auto. Qed.
  (** an entry behind the ghost point is not a ghost object *)
  Lemma u_nogh h s l i a : HR h s -> (r <> 0 -> 1 <= i) -> py_nth (u_ h l) (Z.of_nat i) = Some a -> nogh h a.
  Proof.
    intros HS Hi E R0 l' b rest E' ->. destruct (hr_priv _ _ HS R0 l' a rest E') as (N1 & N2 & _). specialize (Hi R0).
    rewrite py_nth_nat in E. unfold u_ in E. destruct (Nat.eq_dec l l') as [->|Hl].
    - rewrite E' in E. destruct i as [|i]; [lia|]. simpl in E. apply N1. eapply nth_error_In; eauto.
    - apply (N2 l Hl). eapply nth_error_In; eauto.
  Qed.

  Lemma h_propagate_sim lvl h s i : HR h s -> osim h (h_propagate al infos lvl h i) (propagate infos lvl s i).
  Proof.
    intros HS. unfold h_propagate, propagate. pose proof (u_ref h s lvl (Z.of_nat i - 1) HS) as U.
    destruct (py_nth (u_ h lvl) (Z.of_nat i - 1)) as [x|], (py_nth (s_u s lvl) (Z.of_nat i - 1)) as [xv|]; try (exfalso; exact U); [|exact I].
    destruct (py_nth (i_t (inf lvl)) (Z.of_nat i - 1)) as [ta|]; [|exact I]. destruct (py_nth (i_t (inf lvl)) (Z.of_nat i)) as [tb|]; [|exact I].
    rewrite Hstep. destruct (lvl =? 0).
    - eapply nsim_osim; [eauto|]. apply (op1_new h x xv (fun v => phi A lvl v ta tb) U).
    - pose proof (g_ref h s lvl (Z.of_nat i) HS) as G.
      destruct (py_nth (g_ h lvl) (Z.of_nat i)) as [gi|], (py_nth (s_g s lvl) (Z.of_nat i)) as [gv|]; try (exfalso; exact G); [|exact I].
      destruct (op1_new h x xv (fun v => phi A lvl v ta tb) U) as (y & h1 & -> & E1 & D1 & F1).
      eapply nsim_osim; [eauto|]. destruct (op2_new h1 gi y gv _ (vadd A) (deref_ext _ _ _ _ E1 G) D1) as (z & h2 & -> & E2 & D2 & F2).
      exists z, h2. split; [reflexivity|]. split; [eapply ext_trans; eauto|]. split; [auto|]. pose proof (ex_len _ _ E1). lia.
  Qed.

  (** ** Assignments *)
  Lemma put_u_sim lvl i a x h s : HR h s -> vref h a x -> (r <> 0 -> 1 <= i) -> psim HR (h_put_u lvl i a h) (put_u lvl i x s).
  Proof.
    intros HS [D N] Hi. unfold h_put_u, put_u. pose proof (refers_py_upd _ _ _ i a x (hr_u _ _ HS lvl) D) as U.
    change (s_u (h_st h) lvl) with (u_ h lvl) in U. destruct (py_upd (u_ h lvl) (Z.of_nat i) a) as [l|], (py_upd (s_u s lvl) (Z.of_nat i) x) as [xs|]; try (exfalso; exact U); simpl; [|constructor].
    destruct U as (-> & -> & Hl). constructor. destruct HS. constructor; simpl; auto.
    - intros k. unfold at1. destruct (k =? lvl); [apply refers_upd; first [apply hr_u0|apply hr_g0|auto]|auto].
    - intros R0 k b rest E. simpl in E. unfold at1 in E.
      assert (Hg : exists rest', s_u (h_st h) k = b :: rest' /\ (k = lvl -> rest = upd rest' (i - 1) a) /\ (k <> lvl -> rest = rest')).
      { destruct (Nat.eqb_spec k lvl) as [->|Hk]; [|exists rest; repeat split; auto; lia]. specialize (Hi R0).
        unfold u_ in E. destruct (s_u (h_st h) lvl) as [|b' rest'] eqn:E'; [discriminate|]. destruct i as [|i]; [lia|]. simpl in E. injection E as -> <-.
        exists rest'. replace (S i - 1) with i by lia. repeat split; auto. lia. }
      destruct Hg as (rest' & E' & G1 & G2). destruct (hr_priv0 R0 k b rest' E') as (N1 & N2 & N3 & N4 & N5).
      assert (Nb : b <> a) by (apply (N R0 k b rest' E')). simpl. repeat split; auto.
      + destruct (Nat.eq_dec k lvl) as [Hk|Hk]; [rewrite G1 by auto|rewrite G2 by auto; auto]. intros X. destruct (in_upd _ _ _ _ X); auto.
      + intros l' Hl'. unfold at1. destruct (Nat.eqb_spec l' lvl) as [->|H1]; [|auto]. intros X. destruct (in_upd _ _ _ _ X) as [Y|Y]; [auto|exact (N2 lvl Hl' Y)].
  Qed.
  Lemma put_u_new lvl i a x h0 h s : HR h0 s -> ext h0 h -> deref h a = Some x -> nogh h a -> (r <> 0 -> 1 <= i) ->
    psim HR (h_put_u lvl i a h) (put_u lvl i x s).
  Proof. intros HS E D N Hi. apply put_u_sim; [eapply HR_ext; eauto|split; auto|auto]. Qed.

  (** operations that change no reference *)
  Ltac hr := let HS := fresh in intros HS; destruct HS; constructor; simpl; auto; try congruence; try (unfold at2; congruence).
  Lemma HR_stag h s lvl op : HR h s -> HR (st_map (fun t => inc_stag t lvl op) h) (inc_stag s lvl op).
  Proof. intros HS; destruct HS; constructor; simpl; auto. rewrite hr_stag0. reflexivity. Qed.
  Lemma HR_rtag h s lvl op : HR h s -> HR (st_map (fun t => inc_rtag t lvl op) h) (inc_rtag s lvl op).
  Proof. intros HS; destruct HS; constructor; simpl; auto. rewrite hr_rtag0. reflexivity. Qed.
  Lemma HR_sfin h s lvl op b : HR h s -> HR (st_map (fun t => set_sfin (inc_rtag t lvl op) lvl op b) h) (set_sfin (inc_rtag s lvl op) lvl op b).
  Proof. intros HS; destruct HS; constructor; simpl; auto; [rewrite hr_rtag0|rewrite hr_sfin0]; reflexivity. Qed.
  Lemma HR_iter h s n : HR h s -> HR (st_map (fun t => set_iter t n) h) (set_iter s n).
  Proof. intros HS; destruct HS; constructor; simpl; auto. Qed.
  Lemma HR_fin h s b n : HR h s -> HR (st_map (fun t => set_fin t b n) h) (set_fin s b n).
  Proof. intros HS; destruct HS; constructor; simpl; auto. Qed.
  Lemma HR_conv h s l : HR h s -> HR (st_map (fun t => set_conv t (l : list (Sc (RA A)))) h) (set_conv s l).
  Proof. intros HS; destruct HS; constructor; simpl; auto. Qed.
  Lemma HR_emit h s : HR h s -> HR (h_emit h) (emit s).
  Proof.
    intros HS. assert (E : values h (u_ h 0) = s_u s 0) by (apply refers_values; apply HS).
    destruct HS; constructor; simpl; auto. rewrite hr_out0, hr_iter0, E. reflexivity.
  Qed.
  Definition fresh_list (h : H) (l : list nat) : Prop := forall a, In a l -> length (h_heap h) <= a.
  Lemma fresh_not_ghost h s l a rest bs : HR h s -> s_u (h_st h) l = a :: rest -> fresh_list h bs -> ~ In a bs.
  Proof.
    intros HS E F X. pose proof (refers_lt _ _ _ a (hr_u _ _ HS l)) as Y. rewrite E in Y. specialize (Y (or_introl eq_refl)). specialize (F _ X). lia.
  Qed.
  Lemma HR_last h h' s bs xs : HR h s -> ext h h' -> refers (h_heap h') bs xs -> fresh_list h bs ->
    HR (st_map (fun t => set_last t (bs : list nat)) h') (set_last s xs).
  Proof.
    intros HS E Hb F. pose proof (HR_ext _ _ _ HS E) as HS'. destruct HS'; constructor; simpl; auto.
    intros R0 k b rest X. simpl in X. destruct (hr_priv0 R0 k b rest X) as (N1 & N2 & N3 & N4 & N5). simpl. repeat split; auto.
    rewrite (ex_st _ _ E) in X. eapply fresh_not_ghost; eauto.
  Qed.
  Lemma HR_v h h' s lvl bs xs : HR h s -> ext h h' -> refers (h_heap h') bs xs -> fresh_list h bs ->
    HR (st_map (fun t => set_v t lvl (bs : list nat)) h') (set_v s lvl xs).
  Proof.
    intros HS E Hb F. pose proof (HR_ext _ _ _ HS E) as HS'. destruct HS'; constructor; simpl; auto.
    - intros k. unfold at1. destruct (k =? lvl); auto.
    - intros R0 k b rest X. simpl in X. destruct (hr_priv0 R0 k b rest X) as (N1 & N2 & N3 & N4 & N5). simpl. repeat split; auto.
      intros l'. unfold at1. destruct (l' =? lvl); auto. rewrite (ex_st _ _ E) in X. eapply fresh_not_ghost; eauto.
  Qed.
  Lemma HR_g h s lvl i a x : HR h s -> vref h a x ->
    HR (st_map (fun t => set_g t lvl (upd (s_g (h_st h) lvl) i a : list (Vec (RA A)))) h) (set_g s lvl (upd (s_g s lvl) i x)).
  Proof.
    intros HS [D N]. destruct HS; constructor; simpl; auto.
    - intros k. unfold at1. destruct (k =? lvl); [apply refers_upd; first [apply hr_u0|apply hr_g0|auto]|auto].
    - intros R0 k b rest X. simpl in X. destruct (hr_priv0 R0 k b rest X) as (N1 & N2 & N3 & N4 & N5). simpl. repeat split; auto.
      intros l'. unfold at1. destruct (l' =? lvl); auto. intros Y. destruct (in_upd _ _ _ _ Y) as [Y'|Y']; [|exact (N4 lvl Y')]. exact (N R0 k b rest X Y').
  Qed.

  Lemma clones_sim l : forall h xs, refers (h_heap h) l xs ->
    exists bs h', clones l h = Some (bs, h') /\ ext h h' /\ refers (h_heap h') bs (map (vclone A) xs) /\ fresh_list h bs.
  Proof.
    induction l as [|a l IH]; intros h xs Hp; inversion Hp as [|? y ? l' H2 H4]; subst; simpl.
    - exists [], h. split; [reflexivity|]. split; [apply ext_refl|]. split; [constructor|intros ? []].
    - destruct (op1_new h a y (vclone A) H2) as (b & h1 & -> & E1 & D1 & F1).
      destruct (IH h1 l' (refers_ext _ _ _ _ (ex_old _ _ E1) H4)) as (bs & h2 & -> & E2 & P2 & F2).
      exists (b :: bs), h2. split; [reflexivity|]. split; [eapply ext_trans; eauto|]. split.
      + constructor; [|exact P2]. apply (deref_ext _ _ _ _ E2 D1).
      + intros c [<-|I]; [exact F1|]. specialize (F2 _ I). pose proof (ex_len _ _ E1). lia.
  Qed.

  (** ** Communication *)
  Lemma send_sim d dest lvl op h s : HR h s -> psim HR (h_send o P d dest lvl op h) (send o P d dest lvl op s).
  Proof.
    intros HS. unfold h_send, send. destruct ((dest <? 0)%Z || (Z.of_nat P <=? dest)%Z); [constructor|].
    rewrite (hr_stag _ _ HS), (hr_fin _ _ HS). constructor. constructor. apply HR_stag. exact HS.
  Qed.
  Lemma send_flag_sim b dest lvl op h s : HR h s -> psim HR (h_send_flag P b dest lvl op h) (send_flag P b dest lvl op s).
  Proof.
    intros HS. unfold h_send_flag, send_flag. destruct ((dest <? 0)%Z || (Z.of_nat P <=? dest)%Z); [constructor|].
    rewrite (hr_stag _ _ HS), (hr_fin _ _ HS). constructor. constructor. apply HR_stag. exact HS.
  Qed.
  Lemma receive_sim src lvl op h s : HR h s -> psim (fun x y => fst x = fst y /\ HR (snd x) (snd y)) (h_receive o P src lvl op h) (receive o P src lvl op s).
  Proof.
    intros HS. unfold h_receive, receive. destruct ((src <? 0)%Z || (Z.of_nat P <=? src)%Z); [constructor|].
    rewrite (hr_rtag _ _ HS). constructor. intros m. destruct m; try constructor; destruct (gcc o); constructor; simpl; split; auto; [apply HR_rtag|apply HR_sfin]; auto.
  Qed.
  Lemma receive_flag_sim src lvl op h s : HR h s -> psim (fun x y => fst x = fst y /\ HR (snd x) (snd y)) (h_receive_flag P src lvl op h) (receive_flag P src lvl op s).
  Proof.
    intros HS. unfold h_receive_flag, receive_flag. destruct ((src <? 0)%Z || (Z.of_nat P <=? src)%Z); [constructor|].
    rewrite (hr_rtag _ _ HS). constructor. intros m. destruct m; constructor. simpl; split; auto. apply HR_sfin; auto.
  Qed.
  Lemma unpack_sim lvl d h s : r <> 0 -> HR h s -> psim HR (h_unpack_ghost lvl d h) (unpack_ghost lvl d s).
  Proof.
    intros R0 HS. unfold h_unpack_ghost, unpack_ghost, u_. pose proof (hr_u _ _ HS lvl) as U.
    destruct (s_u (h_st h) lvl) as [|a rest] eqn:E; inversion U as [|? x ? xs D T E1 E2]; subst; [constructor|].
    unfold deref. rewrite D. constructor. destruct (hr_priv _ _ HS R0 lvl a rest E) as (N1 & N2 & N3 & N4 & N5).
    destruct HS. constructor; simpl; auto; try (intros; apply refers_store; auto; fail).
    intros k. unfold at1. destruct (Nat.eqb_spec k lvl) as [->|Hk]; [|apply refers_store; auto]. rewrite E. constructor.
    - apply upd_nth_same. apply nth_error_Some. congruence.
    - apply refers_store; auto.
  Qed.
  Lemma recv_ghost_sim lvl src lt op h s : r <> 0 -> HR h s -> psim HR (h_recv_ghost o P lvl src lt op h) (recv_ghost o P lvl src lt op s).
  Proof.
    intros R0 HS. unfold h_recv_ghost, recv_ghost. eapply psim_bind; [apply receive_sim; eauto|]. intros [d h1] [d' s1] [Ed H1]. simpl in *. subst d'.
    apply unpack_sim; auto.
  Qed.
  (** a receive behind the test of a flag that is false on rank 0 *)
  Lemma recv_if_sim (b : bool) lvl src lt op op' lf h s : (r = 0 -> b = false) -> HR h s ->
    psim HR (if b && negb (s_sfin (h_st h) lf op') then h_recv_ghost o P lvl src lt op h else Ret h)
            (if b && negb (s_sfin s lf op') then recv_ghost o P lvl src lt op s else Ret s).
  Proof.
    intros Hb HS. rewrite (hr_sfin _ _ HS). destruct b; simpl; [|constructor; auto]. destruct (s_sfin s lf op'); simpl; [constructor; auto|].
    apply recv_ghost_sim; auto. intros R0. specialize (Hb R0). discriminate.
  Qed.
  Lemma send_point_sim lvl i dest lt op h s : HR h s -> psim HR (h_send_point o P lvl i dest lt op h) (send_point o P lvl i dest lt op s).
  Proof.
    intros HS. unfold h_send_point, send_point. pose proof (u_ref h s lvl i HS) as U.
    destruct (py_nth (u_ h lvl) i) as [a|], (py_nth (s_u s lvl) i) as [x|]; try (exfalso; exact U); simpl; [|constructor].
    rewrite U. simpl. apply send_sim. exact HS.
  Qed.
  Lemma send_if_sim (b : bool) lvl i dest lt op h s : HR h s ->
    psim HR (if b then h_send_point o P lvl i dest lt op h else Ret h) (if b then send_point o P lvl i dest lt op s else Ret s).
  Proof. intros HS. destruct b; [apply send_point_sim|constructor]; auto. Qed.

  Lemma hfor_sim {B : Type} (l : list B) f g : forall h s, HR h s -> (forall x h s, In x l -> HR h s -> psim HR (f x h) (g x s)) ->
    psim HR (hfor l f h) (for_each l g s).
  Proof.
    induction l as [|x l IH]; intros h s HS HF; simpl; [constructor; auto|]. eapply psim_bind; [apply HF; auto; left; auto|].
    intros h1 s1 H1. apply IH; auto. intros; apply HF; auto. right. auto.
  Qed.
  Lemma htimes_sim n f g : forall h s, HR h s -> (forall h s, HR h s -> psim HR (f h) (g s)) -> psim HR (htimes n f h) (times n g s).
  Proof.
    induction n as [|n IH]; intros h s HS HF; simpl; [constructor; auto|]. eapply psim_bind; [apply HF; auto|]. intros h1 s1 H1. apply IH; auto.
  Qed.
  Lemma lift_osim h x y (R : nat * H -> V -> Prop) : osim h x y ->
    (forall a h' v, ext h h' -> deref h' a = Some v -> nogh h' a -> R (a, h') v) -> psim (M := Msg A) R (lift2 x) (lift y).
  Proof.
    intros O HI. unfold lift2, lift. destruct x as [[a h']|], y as [v|]; simpl in O; try (exfalso; exact O); constructor. apply HI; tauto.
  Qed.
  (** the result of a simulated operation bound to the rest of the program *)
  Lemma bind_osim {B C : Type} (R : B -> C -> Prop) h x y (f : nat * H -> prog B) (g : V -> prog C) : osim h x y ->
    (forall a h' v, ext h h' -> deref h' a = Some v -> nogh h' a -> psim R (f (a, h')) (g v)) -> psim R (bind (lift2 x) f) (bind (lift y) g).
  Proof.
    intros O HI. unfold lift2, lift. destruct x as [[a h']|], y as [v|]; simpl in O; try (exfalso; exact O); simpl; [|constructor]. apply HI; tauto.
  Qed.
  Lemma bind_lift_eq {D B C : Type} (R : B -> C -> Prop) (x : option D) (f : D -> prog B) (g : D -> prog C) :
    (forall d, x = Some d -> psim R (f d) (g d)) -> psim R (bind (lift x) f) (bind (lift x) g).
  Proof. intros HI. destruct x; simpl; [auto|constructor]. Qed.

  Lemma loc_ge l i : In i (i_loc (inf l)) \/ In i (i_loc_c (inf l)) \/ In i (i_loc_f (inf l)) -> r <> 0 -> 1 <= i.
  Proof. intros Hi R0. eapply Hloc; eauto. Qed.

  Lemma f_relax_sim lvl h s : HR h s -> psim HR (h_f_relax al o P infos lvl h) (f_relax o P infos lvl s).
  Proof.
    intros HS. unfold h_f_relax, f_relax. eapply psim_bind; [apply send_if_sim; exact HS|]. clear h s HS. intros h s HS.
    eapply psim_bind; [apply recv_if_sim; [intros R0; apply (Hfront R0)|exact HS]|]. clear h s HS. intros h s HS.
    apply hfor_sim; [exact HS|]. clear h s HS. intros i h s Hi HS.
    eapply psim_bind; [apply recv_if_sim; [|exact HS]|].
    { intros R0. destruct (Hfront R0 lvl) as (_ & _ & -> & _). reflexivity. }
    clear h s HS. intros h s HS. eapply bind_osim; [apply h_propagate_sim; exact HS|]. intros a h' v E D N. simpl.
    eapply psim_bind; [eapply put_u_new; eauto; apply (loc_ge lvl); auto|]. intros h2 s2 H2. apply send_if_sim. exact H2.
  Qed.

  Lemma c_relax_sim lvl h s : HR h s -> psim HR (h_c_relax al o P r infos lvl h) (c_relax o P r infos lvl s).
  Proof.
    intros HS. unfold h_c_relax, c_relax. eapply psim_bind; [apply send_if_sim; exact HS|]. clear h s HS. intros h s HS.
    eapply psim_bind; [apply recv_if_sim; [intros R0; apply (Hfront R0)|exact HS]|]. clear h s HS. intros h s HS.
    apply hfor_sim; [exact HS|]. clear h s HS. intros i h s Hi HS. destruct (negb (i =? 0) || negb (r =? 0)); [|constructor; auto].
    eapply bind_osim; [apply h_propagate_sim; exact HS|]. intros y h1 yv E1 D1 N1. cbn [fst snd]. pose proof (HR_ext _ _ _ HS E1) as HS1.
    pose proof (u_ref h1 s lvl (Z.of_nat i) HS1) as U.
    destruct (py_nth (u_ h1 lvl) (Z.of_nat i)) as [old|], (py_nth (s_u s lvl) (Z.of_nat i)) as [ov|]; try (exfalso; exact U); cbn [lift bind]; [|constructor].
    destruct (op1_new h1 y yv (fun v => vscale A v (o_weight o)) D1) as (w & h2 & -> & E2 & D2 & F2). cbn [lift2 lift bind fst snd].
    pose proof (deref_ext _ _ _ _ E2 U) as U2.
    destruct (op1_new h2 old ov (fun v => vscale A v (one_minus A (o_weight o))) U2) as (z & h3 & -> & E3 & D3 & F3). cbn [lift2 lift bind fst snd].
    pose proof (deref_ext _ _ _ _ E3 D2) as D2'.
    destruct (op2_new h3 w z _ _ (vadd A) D2' D3) as (x & h4 & -> & E4 & D4 & F4). cbn [lift2 lift bind fst snd].
    assert (E : ext h h4) by (eapply ext_trans; [exact E1|]; eapply ext_trans; [exact E2|]; eapply ext_trans; eauto).
    eapply put_u_new; [exact HS|exact E|exact D4| |apply (loc_ge lvl); auto].
    unfold nogh. rewrite (ex_st _ _ E). eapply fresh_nogh; [exact HS|]. pose proof (ex_len _ _ E1). pose proof (ex_len _ _ E2). pose proof (ex_len _ _ E3). lia.
  Qed.

  (** ** Norms *)
  Lemma norms_sim (f : nat -> H -> option (nat * H)) (F : St A -> nat -> option V) (s : St A) l :
    (forall i h, HR h s -> osim h (f i h) (F s i)) -> forall h, HR h s ->
    match h_norms f l h, sequence (map (fun i => match F s i with Some x => Some (vnorm A x) | None => None end) l) with
    | Some (ns, h'), Some ms => ns = ms /\ ext h h' | None, None => True | _, _ => False end.
  Proof.
    intros HF. induction l as [|i l IH]; intros h HS; simpl; [split; auto; apply ext_refl|].
    pose proof (HF i h HS) as O. destruct (f i h) as [[a h1]|], (F s i) as [x|]; simpl in O; try (exfalso; exact O); [|exact I].
    destruct O as (E1 & D1 & _). rewrite D1. specialize (IH h1 (HR_ext _ _ _ HS E1)).
    destruct (h_norms f l h1) as [[ns h2]|], (sequence _) as [ms|]; try (exfalso; exact IH); [|exact I].
    destruct IH as [-> E2]. split; [reflexivity|eapply ext_trans; eauto].
  Qed.
  Lemma sequence_ext {B C} (f g : B -> option C) l : (forall x, f x = g x) -> sequence (map f l) = sequence (map g l).
  Proof. intros E. rewrite (map_ext f g E). reflexivity. Qed.

  Definition val_rel (x : list (Sc A) * H) (y : list (Sc A) * St A) : Prop := fst x = fst y /\ HR (snd x) (snd y).
  Lemma compute_jump_sim h s : HR h s -> psim val_rel (h_compute_jump r infos h) (compute_jump r infos s).
  Proof.
    intros HS. unfold h_compute_jump, compute_jump.
    pose (F := fun s i => match py_nth (s_u s 0) (Z.of_nat i), py_nth (s_last s) (Z.of_nat i) with Some x, Some y => Some (vsub A x y) | _, _ => None end).
    rewrite (sequence_ext _ (fun i => match F s i with Some x => Some (vnorm A x) | None => None end)).
    2:{ intros i. unfold F. destruct (py_nth (s_u s 0) (Z.of_nat i)); [|reflexivity]. destruct (py_nth (s_last s) (Z.of_nat i)); reflexivity. }
    match goal with |- psim _ (bind (lift2 (h_norms ?f0 ?l _)) _) _ => pose proof (norms_sim f0 F s l) as X; set (f := f0) in *; set (pp := l) in * end.
    assert (HF : forall i h, HR h s -> osim h (f i h) (F s i)).
    { clear h HS X. intros i h HS. unfold f, F. pose proof (u_ref h s 0 (Z.of_nat i) HS) as U. pose proof (last_ref h s (Z.of_nat i) HS) as W.
      destruct (py_nth (u_ h 0) (Z.of_nat i)) as [a|], (py_nth (s_u s 0) (Z.of_nat i)) as [x|]; try (exfalso; exact U); [|exact I].
      destruct (py_nth (last_ h) (Z.of_nat i)) as [b|], (py_nth (s_last s) (Z.of_nat i)) as [y|]; try (exfalso; exact W); [|exact I].
      eapply nsim_osim; [eauto|]. apply op2_new; auto. }
    specialize (X HF h HS). destruct (h_norms f pp h) as [[ns h1]|], (sequence (map _ pp)) as [ms|]; try (exfalso; exact X); cbn [lift2 lift bind fst snd]; [|constructor].
    destruct X as [-> E1]. pose proof (HR_ext _ _ _ HS E1) as HS1.
    destruct (clones_sim (u_ h1 0) h1 _ (hr_u _ _ HS1 0)) as (bs & h2 & -> & E2 & P2 & F2). cbn [lift2 lift bind fst snd].
    constructor. split; [reflexivity|]. simpl. eapply HR_last; eauto.
  Qed.
  Lemma compute_residual_sim h s : HR h s -> psim val_rel (h_compute_residual al o P r infos h) (compute_residual o P r infos s).
  Proof.
    intros HS. unfold h_compute_residual, compute_residual. eapply psim_bind; [apply send_if_sim; exact HS|]. clear h s HS. intros h s HS.
    eapply psim_bind; [apply recv_if_sim; [intros R0; apply (Hfront R0)|exact HS]|]. clear h s HS. intros h s HS.
    pose (F := fun s i => match propagate infos 0 s i, py_nth (s_u s 0) (Z.of_nat i) with Some y, Some x => Some (vsub A y x) | _, _ => None end).
    rewrite (sequence_ext _ (fun i => match F s i with Some x => Some (vnorm A x) | None => None end)).
    2:{ intros i. unfold F. destruct (propagate infos 0 s i); [|reflexivity]. destruct (py_nth (s_u s 0) (Z.of_nat i)); reflexivity. }
    match goal with |- psim _ (lift2 (h_norms ?f0 ?l _)) _ => pose proof (norms_sim f0 F s l) as X; set (f := f0) in *; set (pp := l) in * end.
    assert (HF : forall i h, HR h s -> osim h (f i h) (F s i)).
    { clear h HS X. intros i h HS. unfold f, F. pose proof (h_propagate_sim 0 h s i HS) as O.
      destruct (h_propagate al infos 0 h i) as [[y h1]|], (propagate infos 0 s i) as [yv|]; simpl in O; try (exfalso; exact O); [|exact I].
      destruct O as (E1 & D1 & _). pose proof (HR_ext _ _ _ HS E1) as HS1. pose proof (u_ref h1 s 0 (Z.of_nat i) HS1) as U.
      destruct (py_nth (u_ h1 0) (Z.of_nat i)) as [a|], (py_nth (s_u s 0) (Z.of_nat i)) as [x|]; try (exfalso; exact U); [|exact I].
      eapply nsim_osim; [eauto|]. destruct (op2_new h1 y a _ _ (vsub A) D1 U) as (z & h2 & -> & E2 & D2 & F2).
      exists z, h2. split; [reflexivity|]. split; [eapply ext_trans; eauto|]. split; [auto|]. pose proof (ex_len _ _ E1). lia. }
    specialize (X HF h HS). destruct (h_norms f pp h) as [[ns h1]|], (sequence (map _ pp)) as [ms|]; try (exfalso; exact X); cbn [lift2 lift bind fst snd]; [|constructor].
    destruct X as [-> E1]. constructor. split; [reflexivity|]. simpl. eapply HR_ext; eauto.
  Qed.

  Lemma put_conv_sim it x h s : HR h s -> psim HR (h_put_conv it x h) (put_conv it x s).
  Proof.
    intros HS. unfold h_put_conv, put_conv. pose proof (hr_conv _ _ HS) as E. change (Sc (RA A)) with (Sc A) in E. rewrite E.
    apply bind_lift_eq. intros l _. constructor. apply HR_conv. exact HS.
  Qed.
  Lemma conv_crit_sim it h s : HR h s -> psim HR (h_convergence_criterion al o P r infos it h) (convergence_criterion o P r infos it s).
  Proof.
    intros HS. unfold h_convergence_criterion, convergence_criterion.
    eapply psim_bind; [instantiate (1 := val_rel); destruct (is_jump o); [apply compute_jump_sim|apply compute_residual_sim]; exact HS|].
    clear h s HS. intros [val h] [val' s] [Ev HS]. cbn [fst snd] in *. subst val'. destruct (gcc o).
    - eapply psim_bind; [apply psim_refl|]. intros tmp ? <-. eapply psim_bind.
      { instantiate (1 := HR). destruct tmp as [ls|]; [|constructor; exact HS]. destruct (tnorm A (concat ls)); [|constructor]. apply put_conv_sim. exact HS. }
      clear h s HS. intros h s HS. pose proof (hr_conv _ _ HS) as E. change (Sc (RA A)) with (Sc A) in E. rewrite E.
      apply bind_lift_eq. intros cur _. eapply psim_bind; [apply psim_refl|]. intros x ? <-. apply put_conv_sim. exact HS.
    - eapply psim_bind.
      { instantiate (1 := HR). rewrite (hr_sfin _ _ HS). destruct ((0 <? r) && negb (s_sfin s 0 6)); [|constructor; exact HS].
        eapply psim_bind; [apply receive_flag_sim; exact HS|]. intros [b h1] [b' s1] [Eb H1]. cbn [fst snd] in *. subst b'. constructor.
        destruct H1; constructor; simpl; auto. rewrite hr_pre_it0. reflexivity. }
      clear h s HS. intros h s HS. cbv zeta. rewrite (hr_pre _ _ HS). eapply psim_bind.
      { instantiate (1 := HR). destruct (r <? P - 1); [apply send_flag_sim|constructor]; apply HR_fin; exact HS. }
      clear h s HS. intros h s HS. destruct (tnorm A val); [|constructor]. apply put_conv_sim. exact HS.
  Qed.

  Lemma forward_solve_sim lvl h s : HR h s -> psim HR (h_forward_solve al o P infos lvl h) (forward_solve o P infos lvl s).
  Proof.
    intros HS. unfold h_forward_solve, forward_solve.
    eapply psim_bind; [apply recv_if_sim; [intros R0; destruct (Hfront R0 lvl) as (_ & _ & _ & ->); reflexivity|exact HS]|].
    clear h s HS. intros h s HS. replace (length (u_ h lvl)) with (length (s_u s lvl)) by (symmetry; eapply refers_length; apply HS).
    eapply psim_bind.
    { apply hfor_sim; [exact HS|]. intros i h1 s1 Hi HS1. apply in_seq in Hi. clear HS.
      eapply bind_osim; [apply h_propagate_sim; exact HS1|]. intros a h' v E D N. simpl. eapply put_u_new; eauto. intros _. lia. }
    clear h s HS. intros h s HS. destruct (negb (i_send_to (inf lvl) =? -99)%Z); [|constructor; exact HS].
    apply bind_lift_eq. intros i _. apply send_point_sim. exact HS.
  Qed.

  Lemma fas_rhs_sim lvl h s c j : HR h s -> osim h (h_fas_rhs al infos lvl h c j) (fas_rhs infos lvl s c j).
  Proof.
    intros HS. unfold h_fas_rhs, fas_rhs. pose proof (u_ref h s lvl (Z.of_nat c - 1) HS) as U1. pose proof (u_ref h s lvl (Z.of_nat c) HS) as U2.
    pose proof (v_ref h s (S lvl) (Z.of_nat j) HS) as V1. pose proof (v_ref h s (S lvl) (Z.of_nat j - 1) HS) as V2.
    destruct (py_nth (u_ h lvl) (Z.of_nat c - 1)) as [up|], (py_nth (s_u s lvl) (Z.of_nat c - 1)) as [upv|]; try (exfalso; exact U1); [|exact I].
    destruct (py_nth (i_t (inf lvl)) (Z.of_nat c - 1)) as [ta|]; [|exact I]. destruct (py_nth (i_t (inf lvl)) (Z.of_nat c)) as [tb|]; [|exact I].
    destruct (py_nth (u_ h lvl) (Z.of_nat c)) as [uc|], (py_nth (s_u s lvl) (Z.of_nat c)) as [ucv|]; try (exfalso; exact U2); [|exact I].
    destruct (py_nth (v_ h (S lvl)) (Z.of_nat j)) as [vj|], (py_nth (s_v s (S lvl)) (Z.of_nat j)) as [vjv|]; try (exfalso; exact V1); [|exact I].
    destruct (py_nth (v_ h (S lvl)) (Z.of_nat j - 1)) as [vp|], (py_nth (s_v s (S lvl)) (Z.of_nat j - 1)) as [vpv|]; try (exfalso; exact V2); [|exact I].
    destruct (py_nth (i_t (inf (S lvl))) (Z.of_nat j - 1)) as [sa|]; [|exact I]. destruct (py_nth (i_t (inf (S lvl))) (Z.of_nat j)) as [sb|]; [|exact I].
    (* the part common to both cases *)
    assert (back : forall x dv, nsim h x dv -> osim h
      (match x with
       | Some (d, s) => match op1 (al_restr al lvl) (restr A lvl) d s with
                        | Some (e, s) => match op2 (vadd A) e vj s with
                                         | Some (f, s) => match op1 (al_step al (S lvl)) (fun v => phi A (S lvl) v sa sb) vp s with
                                                          | Some (p, s) => op2 (vsub A) f p s | None => None end
                                         | None => None end
                        | None => None end
       | None => None end) (Some (vsub A (vadd A (restr A lvl dv) vjv) (phi A (S lvl) vpv sa sb)))).
    { intros x dv (d & h1 & -> & E1 & D1 & F1).
      destruct (op1_any h h1 (al_restr al lvl) d dv (restr A lvl) E1 F1 D1) as (e & h2 & -> & E2 & D2 & F2).
      destruct (op2_new h2 e vj _ _ (vadd A) D2 (deref_ext _ _ _ _ E2 V1)) as (f & h3 & -> & E3 & D3 & F3).
      pose proof (ext_trans _ _ _ E2 E3) as E3'. rewrite Hstep.
      destruct (op1_new h3 vp vpv (fun v => phi A (S lvl) v sa sb) (deref_ext _ _ _ _ E3' V2)) as (p & h4 & -> & E4 & D4 & F4).
      destruct (op2_new h4 f p _ _ (vsub A) (deref_ext _ _ _ _ E4 D3) D4) as (q & h5 & -> & E5 & D5 & F5).
      apply (nsim_osim h s); [exact HS|]. exists q, h5. split; [reflexivity|].
      split; [eapply ext_trans; [exact E3'|]; eapply ext_trans; eauto|]. split; [exact D5|].
      pose proof (ex_len _ _ E3'). pose proof (ex_len _ _ E4). lia. }
    rewrite (Hstep lvl). cbv zeta. destruct (lvl =? 0).
    - apply (back _ (vsub A (phi A lvl upv ta tb) ucv)).
      destruct (op1_new h up upv (fun v => phi A lvl v ta tb) U1) as (p & h1 & -> & E1 & D1 & F1).
      destruct (op2_new h1 p uc _ _ (vsub A) D1 (deref_ext _ _ _ _ E1 U2)) as (q & h2 & -> & E2 & D2 & F2).
      exists q, h2. split; [reflexivity|]. split; [eapply ext_trans; eauto|]. split; [auto|]. pose proof (ex_len _ _ E1). lia.
    - pose proof (g_ref h s lvl (Z.of_nat c) HS) as G.
      destruct (py_nth (g_ h lvl) (Z.of_nat c)) as [gc|], (py_nth (s_g s lvl) (Z.of_nat c)) as [gv|]; try (exfalso; exact G); [|exact I].
      apply (back _ (vadd A (vsub A gv ucv) (phi A lvl upv ta tb))).
      destruct (op2_new h gc uc _ _ (vsub A) G U2) as (d & h1 & -> & E1 & D1 & F1).
      destruct (op1_new h1 up upv (fun v => phi A lvl v ta tb) (deref_ext _ _ _ _ E1 U1)) as (p & h2 & -> & E2 & D2 & F2).
      destruct (op2_new h2 d p _ _ (vadd A) (deref_ext _ _ _ _ E2 D1) D2) as (q & h3 & -> & E3 & D3 & F3).
      exists q, h3. split; [reflexivity|]. split; [eapply ext_trans; [exact E1|]; eapply ext_trans; eauto|]. split; [auto|].
      pose proof (ex_len _ _ E1). pose proof (ex_len _ _ E2). lia.
  Qed.

  (** a transfer that may return its argument, applied to an entry of u behind the ghost point *)
  Lemma transfer_sim h s l i a x b f : HR h s -> (r <> 0 -> 1 <= i) -> py_nth (u_ h l) (Z.of_nat i) = Some a -> deref h a = Some x ->
    (b = true -> forall y, f y = y) -> osim h (op1 b f a h) (Some (f x)).
  Proof.
    intros HS Hi Ea D Hb. apply op1_id; auto; [eapply u_nogh; eauto|]. intros c Hc. eapply fresh_nogh; eauto.
  Qed.

  Lemma fas_residual_sim lvl h s : HR h s -> psim HR (h_fas_residual al o P r infos lvl h) (fas_residual o P r infos lvl s).
  Proof.
    intros HS. unfold h_fas_residual, fas_residual. eapply psim_bind.
    { apply hfor_sim; [exact HS|]. clear h s HS. intros i h s Hi HS. apply bind_lift_eq. intros c Hc. apply nth_error_In in Hc.
      pose proof (u_ref h s lvl (Z.of_nat c) HS) as U.
      destruct (py_nth (u_ h lvl) (Z.of_nat c)) as [a|] eqn:Ea, (py_nth (s_u s lvl) (Z.of_nat c)) as [x|]; try (exfalso; exact U); cbn [lift bind]; [|constructor].
      pose proof (transfer_sim h s lvl c a x (al_restr al lvl) (restr A lvl) HS (loc_ge lvl c (or_intror (or_introl Hc))) Ea U (Hrestr lvl)) as O.
      destruct (op1 (al_restr al lvl) (restr A lvl) a h) as [[e h1]|]; simpl in O; [|exfalso; exact O]. cbn [lift2 lift bind fst snd].
      destruct O as (E & D & N). eapply put_u_new; eauto. intros R0. destruct (Nat.eqb_spec r 0); lia. }
    clear h s HS. intros h s HS. eapply psim_bind; [apply send_if_sim; exact HS|]. clear h s HS. intros h s HS.
    eapply psim_bind; [apply recv_if_sim; [intros R0; apply (Hfront R0)|exact HS]|]. clear h s HS. intros h s HS.
    eapply psim_bind.
    { instantiate (1 := HR). destruct (0 <=? i_send_to (inf (S lvl)))%Z; [|constructor; exact HS]. apply bind_lift_eq. intros k _. apply send_point_sim. exact HS. }
    clear h s HS. intros h s HS.
    eapply psim_bind; [apply recv_if_sim; [intros R0; destruct (Hfront R0 (S lvl)) as (_ & _ & _ & ->); reflexivity|exact HS]|]. clear h s HS. intros h s HS.
    destruct (clones_sim (u_ h (S lvl)) h _ (hr_u _ _ HS (S lvl))) as (bs & h2 & -> & E2 & P2 & F2). cbn [lift2 lift bind fst snd]. cbv zeta.
    pose proof (HR_v h h2 s (S lvl) bs _ HS E2 P2 F2) as HS2. clear HS E2 P2 F2.
    apply hfor_sim; [exact HS2|]. clear h h2 bs s HS2. intros i h s Hi HS. destruct (negb (i =? 0) || negb (r =? 0)); [|constructor; exact HS].
    apply bind_lift_eq. intros c Hc. apply bind_lift_eq. intros j Hj.
    eapply bind_osim; [apply fas_rhs_sim; exact HS|]. intros a h' v E D N. cbn [fst snd].
    pose proof (HR_ext _ _ _ HS E) as HS'. pose proof (refers_py_upd _ _ _ j a v (hr_g _ _ HS' (S lvl)) D) as X.
    change (s_g (h_st h') (S lvl)) with (g_ h' (S lvl)) in X. destruct (py_upd (g_ h' (S lvl)) (Z.of_nat j) a) as [l|], (py_upd (s_g s (S lvl)) (Z.of_nat j) v) as [l'|]; try (exfalso; exact X); cbn [lift bind]; [|constructor].
    destruct X as (-> & -> & _). constructor. apply HR_g; [exact HS'|]. split; auto.
  Qed.

  Lemma error_correction_sim lvl h s : HR h s -> psim HR (h_error_correction al r infos lvl h) (error_correction r infos lvl s).
  Proof.
    intros HS. unfold h_error_correction, error_correction. apply hfor_sim; [exact HS|]. clear h s HS. intros i h s Hi HS.
    destruct (negb (i =? 0) || negb (r =? 0)); [|constructor; exact HS]. apply bind_lift_eq. intros c Hc. apply nth_error_In in Hc. apply bind_lift_eq. intros k Hk.
    pose proof (u_ref h s (S lvl) (Z.of_nat k) HS) as U1. pose proof (v_ref h s (S lvl) (Z.of_nat k) HS) as V1. pose proof (u_ref h s lvl (Z.of_nat c) HS) as U2.
    destruct (py_nth (u_ h (S lvl)) (Z.of_nat k)) as [a|], (py_nth (s_u s (S lvl)) (Z.of_nat k)) as [x|]; try (exfalso; exact U1); cbn [lift bind]; [|constructor].
    destruct (py_nth (v_ h (S lvl)) (Z.of_nat k)) as [b|], (py_nth (s_v s (S lvl)) (Z.of_nat k)) as [y|]; try (exfalso; exact V1); cbn [lift bind]; [|constructor].
    destruct (op2_new h a b _ _ (vsub A) U1 V1) as (d & h1 & -> & E1 & D1 & F1). cbn [lift2 lift bind fst snd].
    destruct (op1_any h h1 (al_interp al lvl) d _ (interp A lvl) E1 F1 D1) as (e & h2 & -> & E2 & D2 & F2). cbn [lift2 lift bind fst snd].
    replace (u_ h2 lvl) with (u_ h lvl) by (unfold u_; rewrite (ex_st _ _ E2); reflexivity).
    destruct (py_nth (u_ h lvl) (Z.of_nat c)) as [uc|], (py_nth (s_u s lvl) (Z.of_nat c)) as [ucv|]; try (exfalso; exact U2); cbn [lift bind]; [|constructor].
    destruct (op2_new h2 uc e _ _ (vadd A) (deref_ext _ _ _ _ E2 U2) D2) as (z & h3 & -> & E3 & D3 & F3). cbn [lift2 lift bind fst snd].
    pose proof (ext_trans _ _ _ E2 E3) as E. eapply put_u_new; [exact HS|exact E|exact D3| |apply (loc_ge lvl); auto].
    unfold nogh. rewrite (ex_st _ _ E). eapply fresh_nogh; [exact HS|]. pose proof (ex_len _ _ E2). lia.
  Qed.

  (** ** AtMgrit *)
  Hypothesis Hrank : r < P.
  Definition arr_rel (arr : list nat) (xs : list V) (h : H) (s : St A) : Prop := HR h s /\ refers (h_heap h) arr xs.
  Lemma at_propagate_sim lvl s is : forall a x h, HR h s -> vref h a x ->
    psim (fun ah v => ext h (snd ah) /\ vref (snd ah) (fst ah) v) (h_at_propagate al o lvl is a h) (at_propagate o lvl s is x).
  Proof.
    induction is as [|i is IH]; intros a x h HS [D N]; [constructor; repeat split; auto; apply ext_refl|]. cbn [h_at_propagate at_propagate].
    pose proof (g_ref h s lvl (Z.of_nat i) HS) as G.
    destruct (py_nth (g_ h lvl) (Z.of_nat i)) as [gi|], (py_nth (s_g s lvl) (Z.of_nat i)) as [gv|]; try (exfalso; exact G); cbn [lift bind]; [|constructor].
    apply bind_lift_eq. intros t0 _. apply bind_lift_eq. intros t1 _. rewrite Hstep.
    destruct (op1_new h a x (fun v => phi A lvl v t0 t1) D) as (y & h1 & -> & E1 & D1 & F1). cbn [lift2 lift bind fst snd].
    destruct (op2_new h1 gi y gv _ (vadd A) (deref_ext _ _ _ _ E1 G) D1) as (z & h2 & -> & E2 & D2 & F2). cbn [lift2 lift bind fst snd].
    pose proof (ext_trans _ _ _ E1 E2) as E. pose proof (HR_ext _ _ _ HS E) as HS2.
    assert (V2 : vref h2 z (vadd A gv (phi A lvl x t0 t1))).
    { split; [exact D2|]. unfold nogh. rewrite (ex_st _ _ E). eapply fresh_nogh; [exact HS|]. pose proof (ex_len _ _ E1). lia. }
    eapply psim_imp; [apply (IH z _ h2 HS2 V2)|]. intros ah v [E3 V3]. split; [eapply ext_trans; eauto|exact V3].
  Qed.
  Lemma at_serial_sim k lvl h s : r = 0 -> HR h s -> psim HR (h_at_solve_serial al o k lvl h) (at_solve_serial o k lvl s).
  Proof.
    intros R0 HS. unfold h_at_solve_serial, at_solve_serial.
    destruct (clones_sim (u_ h lvl) h _ (hr_u _ _ HS lvl)) as (arr & h2 & -> & E2 & P2 & _). cbn [lift2 lift bind fst snd]. cbv zeta.
    pose proof (HR_ext _ _ _ HS E2) as HS2. clear HS E2. generalize dependent (map (vclone A) (s_u s lvl)). intros xs P2.
    revert h2 s HS2 P2. induction (seq 0 (length (nth lvl (o_grids o) []))) as [|p l IH]; intros h2 s HS P2; [constructor; exact HS|]. cbn [hfor for_each].
    eapply (psim_bind (arr_rel arr xs)); [|intros h3 s3 [H3 P3]; apply IH; auto].
    pose proof (refers_py_nth _ _ _ (Z.max 0 (Z.of_nat p - k + 1)) P2) as X.
    destruct (py_nth arr (Z.max 0 (Z.of_nat p - k + 1))) as [a|], (py_nth xs (Z.max 0 (Z.of_nat p - k + 1))) as [x|]; try (exfalso; exact X); cbn [lift bind]; [|constructor].
    assert (N0 : forall h (a : nat), nogh h a) by (intros ? ? R; contradiction).
    eapply psim_bind; [apply (at_propagate_sim lvl s _ a x h2 HS); split; [apply X|apply N0]|]. intros [b h3] y [E3 [D3 N3]]. cbn [fst snd] in *.
    pose proof (put_u_sim lvl p b y h3 s (HR_ext _ _ _ HS E3) (conj D3 N3) ltac:(intros R; contradiction)) as Y.
    unfold h_put_u, put_u in Y |- *. destruct (py_upd (u_ h3 lvl) (Z.of_nat p) b) as [l1|], (py_upd (s_u s lvl) (Z.of_nat p) y) as [l2|]; cbn [lift bind] in Y |- *; inversion Y; subst; constructor.
    split; [assumption|]. cbn [h_heap st_map]. eapply refers_ext; [apply E3|exact P2].
  Qed.
  Lemma at_parallel_sim k lvl h s : HR h s -> psim HR (h_at_solve_parallel o P r infos k lvl h) (at_solve_parallel o P r infos k lvl s).
  Proof.
    intros HS. unfold h_at_solve_parallel, at_solve_parallel. destruct (i_cpts (inf lvl)) as [|c cs]; [constructor; exact HS|].
    destruct (k <=? 0)%Z; [constructor|]. cbv zeta. apply bind_lift_eq. intros t _.
    pose proof (g_ref h s lvl (-1)%Z HS) as G. pose proof (u_ref h s lvl (-1)%Z HS) as U.
    destruct (py_nth (g_ h lvl) (-1)) as [ga|], (py_nth (s_g s lvl) (-1)) as [gl|]; try (exfalso; exact G); cbn [lift bind]; [|constructor].
    rewrite G. cbn [lift bind].
    destruct (py_nth (u_ h lvl) (-1)) as [ua|], (py_nth (s_u s lvl) (-1)) as [ul|]; try (exfalso; exact U); cbn [lift bind]; [|constructor].
    rewrite U. cbn [lift bind].
    eapply psim_bind; [apply psim_refl|]. intros black _ <-. eapply psim_bind; [apply psim_refl|]. intros green _ <-.
    match goal with |- psim _ (if ?b then _ else _) _ => destruct b end; [constructor|].
    match goal with |- psim _ (if ?b then _ else _) _ => destruct b end; [constructor|].
    apply bind_lift_eq. intros j Hj. apply nth_error_In in Hj.
    eapply put_u_new; [exact HS|apply ext_alloc|apply deref_alloc| |apply (loc_ge lvl); auto].
    unfold nogh. simpl. apply (fresh_nogh h s); auto.
  Qed.
  Lemma coarse_solve_sim lvl h s : HR h s -> psim HR (h_coarse_solve al o P r infos lvl h) (coarse_solve o P r infos lvl s).
  Proof.
    intros HS. unfold h_coarse_solve, coarse_solve. destruct (o_dist o) as [k|]; [|apply forward_solve_sim; exact HS].
    destruct (L =? 1); [constructor; exact HS|]. destruct (Nat.eqb_spec P 1); [apply at_serial_sim; [lia|exact HS]|apply at_parallel_sim; exact HS].
  Qed.

  Lemma iteration_sim n : forall lvl cyc it ff h s, HR h s ->
    psim HR (h_iteration al o P r infos n lvl cyc it ff h) (iteration o P r infos (coarse_solve o P r infos) n lvl cyc it ff s).
  Proof.
    induction n as [|n IH]; intros lvl cyc it ff h s HS; [apply coarse_solve_sim; exact HS|]. cbn [h_iteration iteration].
    assert (half : forall cyc ff h s, HR h s -> psim HR
      (h <- (if ((0 <? lvl) || (it =? 0)) && ff then h_f_relax al o P infos lvl h else Ret h) ;;
       h <- htimes (cf_count o lvl) (fun h => h <- h_c_relax al o P r infos lvl h ;; h_f_relax al o P infos lvl h) h ;;
       h <- h_fas_residual al o P r infos lvl h ;; h <- h_iteration al o P r infos n (S lvl) cyc it true h ;;
       h <- h_error_correction al r infos lvl h ;; h_f_relax al o P infos lvl h)
      (s <- (if ((0 <? lvl) || (it =? 0)) && ff then f_relax o P infos lvl s else Ret s) ;;
       s <- times (cf_count o lvl) (fun s => s <- c_relax o P r infos lvl s ;; f_relax o P infos lvl s) s ;;
       s <- fas_residual o P r infos lvl s ;; s <- iteration o P r infos (coarse_solve o P r infos) n (S lvl) cyc it true s ;;
       s <- error_correction r infos lvl s ;; f_relax o P infos lvl s)).
    { clear h s HS cyc ff. intros cyc ff h s HS. eapply psim_bind.
      { instantiate (1 := HR). destruct (((0 <? lvl) || (it =? 0)) && ff); [apply f_relax_sim|constructor]; exact HS. }
      clear h s HS. intros h s HS. eapply psim_bind.
      { apply htimes_sim; [exact HS|]. clear h s HS. intros h s HS. eapply psim_bind; [apply c_relax_sim; exact HS|]. intros; apply f_relax_sim; auto. }
      clear h s HS. intros h s HS. eapply psim_bind; [apply fas_residual_sim; exact HS|].
      clear h s HS. intros h s HS. eapply psim_bind; [apply IH; exact HS|].
      clear h s HS. intros h s HS. eapply psim_bind; [apply error_correction_sim; exact HS|]. intros; apply f_relax_sim; auto. }
    cbv zeta. eapply psim_bind; [apply half; exact HS|]. clear h s HS. intros h s HS.
    destruct (negb (lvl =? 0) && cyc); [apply half|constructor]; exact HS.
  Qed.

  Lemma interpolate_up_sim lvl h s : o_nested o = true -> HR h s -> psim HR (h_interpolate_up al r infos lvl h) (interpolate_up r infos lvl s).
  Proof.
    intros Hn HS. unfold h_interpolate_up, interpolate_up. apply hfor_sim; [exact HS|]. clear h s HS. intros i h s Hi HS.
    destruct (negb (i =? 0) || negb (r =? 0)); [|constructor; exact HS]. apply bind_lift_eq. intros c Hc. apply nth_error_In in Hc.
    apply bind_lift_eq. intros j Hj. apply nth_error_In in Hj. pose proof (u_ref h s (S lvl) (Z.of_nat j) HS) as U.
    destruct (py_nth (u_ h (S lvl)) (Z.of_nat j)) as [a|] eqn:Ea, (py_nth (s_u s (S lvl)) (Z.of_nat j)) as [x|]; try (exfalso; exact U); cbn [lift bind]; [|constructor].
    assert (Hid : al_interp al lvl = true -> forall y, interp A lvl y = y).
    { intros E. destruct (Hinterp lvl E) as [X|X]; [congruence|exact X]. }
    pose proof (transfer_sim h s (S lvl) j a x (al_interp al lvl) (interp A lvl) HS (loc_ge (S lvl) j (or_introl Hj)) Ea U Hid) as O.
    destruct (op1 (al_interp al lvl) (interp A lvl) a h) as [[e h1]|]; simpl in O; [|exfalso; exact O]. cbn [lift2 lift bind fst snd].
    destruct O as (E & D & N). eapply put_u_new; [exact HS|eauto..|apply (loc_ge lvl); auto].
  Qed.
  Lemma nested_sim h s : o_nested o = true -> HR h s ->
    psim HR (h_nested_iteration al o P r infos h) (nested_iteration o P r infos (coarse_solve o P r infos) s).
  Proof.
    intros Hn HS. unfold h_nested_iteration, nested_iteration. eapply psim_bind; [apply coarse_solve_sim; exact HS|]. clear h s HS. intros h s HS.
    apply hfor_sim; [exact HS|]. clear h s HS. intros lvl h s _ HS. eapply psim_bind; [apply interpolate_up_sim; auto|]. clear h s HS. intros h s HS.
    destruct (0 <? lvl); [apply iteration_sim|constructor]; exact HS.
  Qed.

  Lemma clean_up_sim h s : HR h s -> psim HR (h_clean_up o P r infos h) (clean_up o P r infos s).
  Proof.
    intros HS. unfold h_clean_up, clean_up. constructor. destruct (gcc o); [constructor; exact HS|]. eapply psim_bind.
    { apply hfor_sim; [exact HS|]. clear h s HS. intros lvl h s _ HS. cbv zeta.
      do 4 (eapply psim_bind; [apply send_if_sim; exact HS|]; clear h s HS; intros h s HS).
      destruct (0 <=? i_send_to (inf (S lvl)))%Z; [|constructor; exact HS]. apply bind_lift_eq. intros c _. apply send_point_sim. exact HS. }
    clear h s HS. intros h s HS. eapply psim_bind.
    { instantiate (1 := HR). destruct (negb (i_send_to (inf (L - 1)) =? -99)%Z); [|constructor; exact HS]. apply bind_lift_eq. intros k _. apply send_point_sim. exact HS. }
    clear h s HS. intros h s HS. eapply psim_bind; [apply send_if_sim; exact HS|]. clear h s HS. intros h s HS. eapply psim_bind.
    { instantiate (1 := HR). rewrite (hr_fin_it _ _ HS), (hr_pre_it _ _ HS).
      match goal with |- psim _ (if ?b then _ else _) _ => destruct b end; [|constructor; exact HS]. eapply psim_bind.
      { apply hfor_sim; [exact HS|]. clear h s HS. intros lvl h s _ HS. cbv zeta.
        do 4 (eapply psim_bind; [apply recv_if_sim; [intros R0; apply (Hfront R0)|exact HS]|]; clear h s HS; intros h s HS).
        rewrite (hr_sfin _ _ HS). match goal with |- psim _ (if ?b then _ else _) _ => destruct b end; [|constructor; exact HS].
        eapply psim_bind; [apply receive_sim; exact HS|]. intros x y [_ Hxy]. constructor. exact Hxy. }
      clear h s HS. intros h s HS.
      eapply psim_bind; [apply recv_if_sim; [intros R0; destruct (Hfront R0 (L - 1)) as (_ & _ & _ & ->); reflexivity|exact HS]|]. clear h s HS. intros h s HS.
      apply recv_if_sim; [intros R0; apply (Hfront R0)|exact HS]. }
    clear h s HS. intros h s HS. constructor. constructor. exact HS.
  Qed.

  Definition sum_rel (x : H + H) (y : St A + St A) : Prop :=
    match x, y with inl h, inl s => HR h s | inr h, inr s => HR h s | _, _ => False end.
  Lemma solve_pass_sim it h s : HR h s -> psim sum_rel (h_solve_pass al o P r infos it h) (solve_pass o P r infos (coarse_solve o P r infos) it s).
  Proof.
    intros HS. unfold h_solve_pass, solve_pass. eapply psim_bind; [apply iteration_sim; apply HR_iter; exact HS|]. clear h s HS. intros h s HS.
    eapply psim_bind; [apply conv_crit_sim; exact HS|]. clear h s HS. intros h s HS. cbv zeta.
    assert (HS' : HR (if o_has_output o && (o_output_lvl o =? 2)%Z then h_emit h else h) (if o_has_output o && (o_output_lvl o =? 2)%Z then emit s else s)).
    { destruct (o_has_output o && (o_output_lvl o =? 2)%Z); [apply HR_emit|]; exact HS. }
    revert HS'. generalize (if o_has_output o && (o_output_lvl o =? 2)%Z then h_emit h else h) (if o_has_output o && (o_output_lvl o =? 2)%Z then emit s else s).
    clear h s HS. intros h s HS. pose proof (hr_conv _ _ HS) as E. change (Sc (RA A)) with (Sc A) in E. rewrite E, (hr_fin _ _ HS), (hr_pre _ _ HS).
    apply bind_lift_eq. intros cur _. destruct (sc_lt A cur (o_tol o) || (it =? o_max_iter o - 1)); [|constructor; exact HS].
    destruct (gcc o || s_fin s && s_pre s || (it =? o_max_iter o - 1)); [|constructor; exact HS].
    eapply psim_bind; [apply clean_up_sim; exact HS|]. intros x y Hxy. constructor. exact Hxy.
  Qed.
  Lemma solve_loop_sim n : forall it h s, HR h s -> psim HR (h_solve_loop al o P r infos n it h) (solve_loop o P r infos (coarse_solve o P r infos) n it s).
  Proof.
    induction n as [|n IH]; intros it h s HS; [constructor; exact HS|]. cbn [h_solve_loop solve_loop]. eapply psim_bind; [apply solve_pass_sim; exact HS|].
    intros [h1|h1] [s1|s1] X; simpl in X; try (exfalso; exact X); [apply IH; exact X|constructor; exact X].
  Qed.
  Lemma solve_sim h s : HR h s -> psim HR (h_solve al o P r infos h) (solve o P r infos (coarse_solve o P r infos) s).
  Proof.
    intros HS. unfold h_solve, solve. eapply psim_bind; [apply solve_loop_sim; exact HS|]. clear h s HS. intros h s HS.
    eapply psim_bind; [apply psim_refl|]. intros _ _ _. constructor. destruct (o_has_output o && (o_output_lvl o =? 1)%Z); [apply HR_emit|]; exact HS.
  Qed.

  (** ** The fresh object *)
  Hypothesis Hlen : length infos = L.
  Notation npts := (npts infos).
  Notation objs := (objs o r infos).
  Notation base := (base o r infos).
  Definition objs_u (lvl : nat) : list V :=
    match lvl, o_rand o with 0, Some rnd => map (rnd r) (seq 0 (npts lvl)) | _, _ => repeat (vzero A (templ A lvl)) (npts lvl) end.
  Lemma objs_u_length lvl : length (objs_u lvl) = npts lvl.
  Proof. unfold objs_u. destruct lvl, (o_rand o); rewrite ?map_length, ?seq_length, ?repeat_length; reflexivity. Qed.
  Lemma objs_length lvl : length (objs lvl) = npts lvl + 1 + npts lvl + npts lvl.
  Proof.
    unfold Heap.objs. fold (objs_u lvl). rewrite !app_length, objs_u_length, !repeat_length. simpl. lia.
  Qed.
  Lemma base_S lvl : base (S lvl) = base lvl + (npts lvl + 1 + npts lvl + npts lvl).
  Proof. unfold Heap.base. rewrite seq_S, map_app, list_sum_app. simpl. rewrite objs_length. lia. Qed.
  Lemma base_le l l' : l < l' -> base l + (npts l + 1 + npts l + npts l) <= base l'.
  Proof. induction 1; rewrite ?base_S in *; lia. Qed.
  Lemma heap_nth n : forall l i, l < n -> i < length (objs l) -> nth_error (concat (map objs (seq 0 n))) (base l + i) = nth_error (objs l) i.
  Proof.
    induction n as [|n IH]; intros l i Hl Hi; [lia|]. rewrite seq_S, map_app, concat_app. simpl.
    assert (E : length (concat (map objs (seq 0 n))) = base n).
    { unfold Heap.base. clear. induction (seq 0 n) as [|x l IH]; simpl; [reflexivity|]. rewrite app_length, IH. reflexivity. }
    rewrite app_nil_r. destruct (Nat.eq_dec l n) as [->|Hn].
    - rewrite nth_error_app2 by lia. f_equal. lia.
    - rewrite nth_error_app1; [apply IH; auto; lia|]. pose proof (base_le l n ltac:(lia)). rewrite objs_length in Hi. lia.
  Qed.
  Lemma refers_seq (h : list V) a n xs : length xs = n -> (forall i, i < n -> nth_error h (a + i) = nth_error xs i) -> refers h (seq a n) xs.
  Proof.
    intros <-. revert a. induction xs as [|x xs IH]; intros a E; simpl; constructor.
    - specialize (E 0 ltac:(simpl; lia)). rewrite Nat.add_0_r in E. exact E.
    - apply IH. intros i Hi. replace (S a + i) with (a + S i) by lia. apply (E (S i)). simpl. lia.
  Qed.
  Lemma dummy l : L <= l -> inf l = dummy_info.
  Proof. intros Hl. unfold Mgrit.inf. apply nth_overflow. lia. Qed.
  Lemma h_init_HR : HR (h_init o r infos) (init_state o r infos).
  Proof.
    assert (E1 : forall l i, l < L -> i < npts l -> nth_error (concat (map objs (seq 0 L))) (base l + i) = nth_error (objs_u l) i).
    { intros l i Hl Hi. rewrite heap_nth by (rewrite ?objs_length; lia). unfold Heap.objs. fold (objs_u l). rewrite nth_error_app1 by (rewrite objs_u_length; lia). reflexivity. }
    assert (E2 : forall l, l < L -> nth_error (concat (map objs (seq 0 L))) (base l + npts l) = Some (vclone A (tstart A l))).
    { intros l Hl. rewrite heap_nth by (rewrite ?objs_length; lia). unfold Heap.objs. fold (objs_u l). rewrite nth_error_app2, objs_u_length by (rewrite objs_u_length; lia).
      rewrite Nat.sub_diag. reflexivity. }
    assert (E3 : forall l i, l < L -> i < npts l -> nth_error (concat (map objs (seq 0 L))) (base l + npts l + 1 + i) = nth_error (init_vg infos l) i).
    { intros l i Hl Hi. rewrite <- !Nat.add_assoc. rewrite heap_nth by (rewrite ?objs_length; lia). unfold Heap.objs. fold (objs_u l).
      rewrite nth_error_app2, objs_u_length by (rewrite objs_u_length; lia). rewrite nth_error_app2 by (simpl; lia). simpl length.
      rewrite nth_error_app1 by (rewrite repeat_length; lia). unfold init_vg. f_equal. lia. }
    assert (E4 : forall l i, l < L -> i < npts l -> nth_error (concat (map objs (seq 0 L))) (base l + npts l + 1 + npts l + i) = nth_error (init_vg infos l) i).
    { intros l i Hl Hi. rewrite <- !Nat.add_assoc. rewrite heap_nth by (rewrite ?objs_length; lia). unfold Heap.objs. fold (objs_u l).
      rewrite nth_error_app2, objs_u_length by (rewrite objs_u_length; lia). rewrite nth_error_app2 by (simpl; lia). simpl length.
      rewrite nth_error_app2, repeat_length by (rewrite repeat_length; lia). unfold init_vg. f_equal. lia. }
    assert (Ln : forall l, length (init_vg (A := A) infos l) = npts l) by (intros; apply repeat_length).
    assert (Z : forall l, L <= l -> npts l = 0) by (intros l Hl; unfold Heap.npts; rewrite dummy by auto; reflexivity).
    constructor; simpl; auto.
    - intros l. destruct (Nat.ltb_spec l L) as [Hl|Hl].
      + unfold h_init_u, init_u. fold (npts l). fold (objs_u l).
        assert (X : refers (concat (map objs (seq 0 L))) (seq (base l) (npts l)) (objs_u l)) by (apply refers_seq; [apply objs_u_length|auto]).
        destruct (r =? 0); [|exact X]. apply refers_upd; auto.
      + specialize (Z l Hl). unfold init_u. fold (npts l). rewrite Z. destruct l, (o_rand o), (r =? 0); simpl; constructor.
    - intros l. destruct (Nat.ltb_spec l L) as [Hl|Hl]; [apply refers_seq; auto|]. specialize (Z l Hl). specialize (Ln l). rewrite Z in Ln.
      destruct (init_vg (A := A) infos l); [constructor|discriminate].
    - intros l. destruct (Nat.ltb_spec l L) as [Hl|Hl]; [apply refers_seq; auto|]. specialize (Z l Hl). specialize (Ln l). rewrite Z in Ln.
      destruct (init_vg (A := A) infos l); [constructor|discriminate].
    - constructor.
    - intros R0. assert (Er : (r =? 0) = false) by (apply Nat.eqb_neq; exact R0).
      intros l a rest E. simpl in *. destruct (Nat.ltb_spec l L) as [Hl|]; [|discriminate]. unfold h_init_u in *. rewrite Er in *.
      destruct (npts l) as [|n] eqn:En; [discriminate|]. simpl in E. injection E as <- <-.
      assert (far : forall l', l' <> l -> base l' + (npts l' + 1 + npts l' + npts l') <= base l \/ base l + 1 <= base l').
      { intros l' Hl'. destruct (Nat.lt_ge_cases l' l) as [H1|H1]; [left; apply base_le; auto|right]. pose proof (base_le l l' ltac:(lia)). lia. }
      repeat split; auto.
      + rewrite in_seq. lia.
      + intros l' Hl'. destruct (l' <? L); [|auto]. rewrite in_seq. destruct (far l' Hl'); lia.
      + intros l'. destruct (l' <? L); [|auto]. rewrite in_seq. destruct (Nat.eq_dec l' l) as [->|Hl']; [rewrite En; lia|]. destruct (far l' Hl'); lia.
      + intros l'. destruct (l' <? L); [|auto]. rewrite in_seq. destruct (Nat.eq_dec l' l) as [->|Hl']; [rewrite En; lia|]. destruct (far l' Hl'); lia.
  Qed.

  Lemma construct_sim : psim HR (h_construct al o P r infos) (construct o P r infos (coarse_solve o P r infos)).
  Proof.
    unfold h_construct, construct. eapply psim_bind; [apply psim_refl|]. intros _ _ _. eapply psim_bind.
    { instantiate (1 := HR). destruct (Sumbool.sumbool_of_bool (o_nested o)) as [En|En]; rewrite En; [apply nested_sim; auto|constructor]; apply h_init_HR. }
    intros h s HS. cbv zeta. 
    assert (X : psim HR (if is_jump o then ls <- lift2 (clones (u_ h 0) h) ;; Ret (st_map (fun t => set_last t (fst ls)) (snd ls)) else Ret h)
                        (@Ret (Msg A) _ (if is_jump o then set_last s (map (vclone A) (s_u s 0)) else s))).
    { destruct (is_jump o); [|constructor; exact HS]. destruct (clones_sim (u_ h 0) h _ (hr_u _ _ HS 0)) as (bs & h2 & -> & E2 & P2 & F2).
      cbn [lift2 lift bind fst snd]. constructor. eapply HR_last; eauto. }
    change (psim HR ?p ?q) with (psim HR p (bind (@Ret (Msg A) _ (if is_jump o then set_last s (map (vclone A) (s_u s 0)) else s))
       (fun s => _ <- (if o_max_iter o =? 0 then barrier P r else Ret tt) ;; Ret (if o_has_output o && (o_output_lvl o =? 2)%Z then emit s else s)))).
    eapply psim_bind; [exact X|]. clear h s HS X. intros h s HS. eapply psim_bind; [apply psim_refl|]. intros _ _ _. constructor.
    destruct (o_has_output o && (o_output_lvl o =? 2)%Z); [apply HR_emit|]; exact HS.
  Qed.
  Lemma rank_sim : psim HR (h <- h_construct al o P r infos ;; h_solve al o P r infos h)
    (s <- construct o P r infos (coarse_solve o P r infos) ;; solve o P r infos (coarse_solve o P r infos) s).
  Proof. eapply psim_bind; [apply construct_sim|]. intros; apply solve_sim; auto. Qed.
End HeapSim.
