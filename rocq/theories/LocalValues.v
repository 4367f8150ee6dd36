(** Values under the local convergence criteria: what holds at the points when everybody has returned. *)
From Coq Require Import List ZArith Lia Arith Bool Permutation.
From Verif Require Import Net NetProofs NetPhase PyList ListFacts Setup SplitProofs Spec SetupProofs Mgrit Collect Sim Pipeline LocalOps LocalMatch LocalRun Main.
Import ListNotations.

(** Operations that keep [good] vectors good; unpack restores what was packed. No level is distinguished: clean_up sends a
    vector of level lvl where one of level lvl + 1 is expected (mgrit.py 662). *)
Record flat_laws (A : App) (good : Vec A -> Prop) : Prop := {
  fl_phi : forall l x a b, good x -> good (phi A l x a b);
  fl_add : forall x y, good x -> good y -> good (vadd A x y);
  fl_sub : forall x y, good x -> good y -> good (vsub A x y);
  fl_scale : forall x w, good x -> good (vscale A x w);
  fl_clone : forall x, good x -> good (vclone A x);
  fl_zero : forall x, good x -> good (vzero A x);
  fl_restr : forall l x, good x -> good (restr A l x);
  fl_interp : forall l x, good x -> good (interp A l x);
  fl_templ : forall l, good (templ A l);
  fl_tstart : forall l, good (tstart A l);
  fl_pack : forall x y, good x -> good y -> vunpack A x (vpack A y) = y
}.

(** ** Reading local runs backwards *)
Section Inv.
  Context {A : App}.
  Notation tr := (list (nat * mtag * Msg A)).
  Lemma lrun_bind_inv {B C} (p : prog (Msg A) B) (f : B -> prog (Msg A) C) : forall i o c, lrun (bind p f) i o c ->
    exists i1 o1 b i2 o2, lrun p i1 o1 b /\ lrun (f b) i2 o2 c /\ i = i1 ++ i2 /\ o = o1 ++ o2.
  Proof.
    induction p as [a|e|d t m k IH|s t k IH|k IH]; intros i o c H; cbn [bind] in H.
    - exists [], [], a, i, o. split; [constructor|]. auto.
    - inversion H.
    - inversion H as [|? ? ? ? ? ? ? H5|]; subst. destruct (IH _ _ _ H5) as (i1 & o1 & b & i2 & o2 & H1 & H2 & -> & ->).
      exists i1, ((d, t, m) :: o1), b, i2, o2. split; [constructor; auto|]. auto.
    - inversion H as [| |? ? ? ? ? ? ? H5]; subst. destruct (IH _ _ _ _ H5) as (i1 & o1 & b & i2 & o2 & H1 & H2 & -> & ->).
      exists ((s, t, m) :: i1), o1, b, i2, o2. split; [constructor; auto|]. auto.
    - inversion H.
  Qed.
  Lemma lrun_ret_inv {B} (a : B) i o b : lrun (Msg := Msg A) (Ret a) i o b -> i = [] /\ o = [] /\ b = a.
  Proof. intros H. inversion H; auto. Qed.
  Lemma lrun_lift_inv {B} (x : option B) i o b : lrun (lift (A := A) x) i o b -> i = [] /\ o = [] /\ x = Some b.
  Proof. destruct x; intros H; inversion H; auto. Qed.
  (** a value that is looked up *)
  Lemma lrun_lift_bind {B C} (x : option B) (f : B -> prog (Msg A) C) i o c : lrun (bind (lift (A := A) x) f) i o c ->
    exists b, x = Some b /\ lrun (f b) i o c.
  Proof. destruct x; intros H; [eauto|inversion H]. Qed.
End Inv.

Ltac cut_bind H i1 o1 s1 i2 o2 H1 H2 := apply lrun_bind_inv in H; destruct H as (i1 & o1 & s1 & i2 & o2 & H1 & H2 & -> & ->).
Ltac cut_bind2 H i1 o1 s1 i2 o2 H1 H2 Ei Eo := apply lrun_bind_inv in H; destruct H as (i1 & o1 & s1 & i2 & o2 & H1 & H2 & Ei & Eo).
Ltac cut_lift H x E := apply lrun_lift_bind in H; destruct H as (x & E & H).
Ltac cut_ret H := apply lrun_ret_inv in H; destruct H as (-> & -> & ->).

Section LocalValues.
  Context {A : App}.
  Variable good : Vec A -> Prop.
  Variable o : Opts A.
  Variable P : nat.
  Notation grids := (o_grids o).
  Notation so := (o_set_order o).
  Notation L := (length (o_grids o)).
  Notation N := (N grids).
  Notation lo := (lo grids P).
  Notation cnt := (cnt grids P).
  Notation off := (off grids P).
  Notation loc := (loc grids P).
  Notation isC := (isC grids).
  Notation isF := (isF grids).
  Notation has := (has grids P).
  Notation cps := (cps grids P).
  Notation fps2 := (fps2 grids so P).
  Notation infos := (infos o P).
  Notation sflag := (sflag o P).
  Notation rflag := (rflag o P).
  Notation info l r := (closed_info grids so P l r).
  Notation own_crit := (own_crit o P).
  Notation tr := (list (nat * mtag * Msg A)).
  Hypothesis HL : flat_laws A good.
  Hypothesis HV : valid_hierarchy grids.
  Hypothesis HP0 : 0 < P.
  Hypothesis HP : P <= N 0.
  Hypothesis Hloc : gcc o = false.
  Hypothesis Hperm : forall l r, l < L -> r < P -> order_perm grids so P l r.
  Hypothesis Hresp : forall l r, l < L -> r < P -> predecessors_first (fps2 l r).
  Hypothesis HA : no_adjacent_cpoints grids.
  Hypothesis HL2 : 2 <= L.
  Hypothesis Hdist : o_dist o = None.

  (** Packed vectors are packs of good vectors. *)
  Definition okmsg (m : Msg A) : Prop := match m with MDataF d _ => exists y, good y /\ d = vpack A y | _ => True end.
  Definition ok (t : tr) : Prop := Forall (fun x => okmsg (snd x)) t.
  Lemma ok_app t1 t2 : ok (t1 ++ t2) <-> ok t1 /\ ok t2.
  Proof. apply Forall_app. Qed.
  (** The payload of a message that is unpacked into the ghost point of level 0. *)
  Definition rel (x : mtag * Msg A) : option (Data A) :=
    match x with
    | (Tag _ l op, MDataF d _) => if (l =? 0) && negb (op =? 4) then Some d else None
    | _ => None
    end.
  Definition relt (x : nat * mtag * Msg A) : option (Data A) := rel (snd (fst x), snd x).
  Fixpoint lastd (t : tr) : option (Data A) :=
    match t with [] => None | x :: t' => match lastd t' with Some d => Some d | None => relt x end end.
  Lemma lastd_app t1 t2 : lastd (t1 ++ t2) = match lastd t2 with Some d => Some d | None => lastd t1 end.
  Proof.
    induction t1 as [|x t1 IH]; simpl; [destruct (lastd t2); reflexivity|]. rewrite IH. destruct (lastd t2); reflexivity.
  Qed.

  Section Rank.
  Variable r : nat.
  Hypothesis Hr : r < P.

  Record VS (s : St A) : Prop := {
    v_w : W o P r s;
    v_u : forall l, Forall good (s_u s l);
    v_v : forall l, Forall good (s_v s l);
    v_g : forall l, Forall good (s_g s l)
  }.
  Definition gh (s : St A) (i : tr) (s' : St A) : Prop :=
    forall y0, nth_error (s_u s 0) 0 = Some y0 ->
      exists y, nth_error (s_u s' 0) 0 = Some y /\ match lastd i with None => y = y0 | Some d => d = vpack A y end.
  Lemma gh_refl s : gh s [] s.
  Proof. intros y H. exists y. split; [exact H|reflexivity]. Qed.
  Lemma gh_trans s1 i1 s2' i2 s3 : gh s1 i1 s2' -> gh s2' i2 s3 -> gh s1 (i1 ++ i2) s3.
  Proof.
    intros G1 G2 y Hy. destruct (G1 y Hy) as (y1 & E1 & C1). destruct (G2 y1 E1) as (y2 & E2 & C2). exists y2. split; [exact E2|].
    rewrite lastd_app. destruct (lastd i2); [exact C2|]. subst. exact C1.
  Qed.
  (** What every operation of the solver does to the state. *)
  Record post (s : St A) (i o' : tr) (s' : St A) : Prop := {
    p_vs : VS s';
    p_ok : ok o';
    p_gh : gh s i s';
    p_iter : s_iter s' = s_iter s
  }.
  Definition HT (p : St A -> prog (Msg A) (St A)) : Prop := forall s i o' s', VS s -> ok i -> lrun (p s) i o' s' -> post s i o' s'.
  Lemma post_refl s : VS s -> post s [] [] s.
  Proof. intros H. split; [auto|constructor|apply gh_refl|auto]. Qed.
  Lemma post_trans s i1 o1 s1 i2 o2 s2' : post s i1 o1 s1 -> post s1 i2 o2 s2' -> post s (i1 ++ i2) (o1 ++ o2) s2'.
  Proof.
    intros [X1 X2 X3 X4] [Y1 Y2 Y3 Y4]. split; [auto|apply ok_app; auto|eapply gh_trans; eauto|congruence].
  Qed.
  Lemma ht_ret : HT (fun s => Ret s).
  Proof. intros s i o' s' H _ R. cut_ret R. apply post_refl; auto. Qed.
  Lemma ht_bind p q : HT p -> HT q -> HT (fun s => bind (p s) q).
  Proof.
    intros H1 H3 s i o' s' HS Hi R. cut_bind R i1 o1 s1 i2 o2 R1 R2. apply ok_app in Hi. destruct Hi as [Hi1 Hi2].
    pose proof (H1 s i1 o1 s1 HS Hi1 R1) as Q1. eapply post_trans; [exact Q1|]. apply H3; auto. apply Q1.
  Qed.
  Lemma ht_if (b : bool) p q : HT p -> HT q -> HT (fun s => if b then p s else q s).
  Proof. destruct b; auto. Qed.
  Lemma ht_times p n : HT p -> HT (times n p).
  Proof. intros H. induction n as [|n IH]; [apply ht_ret|]. simpl. apply (ht_bind p (times n p)); auto. Qed.
  Lemma ht_for {B} (l : list B) f : (forall x, In x l -> HT (f x)) -> HT (for_each l f).
  Proof.
    induction l as [|x l IH]; intros H; [apply ht_ret|]. simpl. apply (ht_bind (f x) (for_each l f)); [apply H; left; auto|].
    apply IH. intros y Hy. apply H. right; auto.
  Qed.
  Lemma ht_ext p q : (forall s, p s = q s) -> HT q -> HT p.
  Proof. intros E H s i o' s' HS Hi R. rewrite E in R. auto. Qed.

  Lemma good_nth (l : list (Vec A)) i x : Forall good l -> py_nth l i = Some x -> good x.
  Proof.
    intros H E. unfold py_nth in E. rewrite Forall_forall in H.
    repeat match type of E with (if ?b then _ else _) = _ => destruct b end; try discriminate;
      apply H; eapply nth_error_In; eauto.
  Qed.
  Lemma good_upd (l : list (Vec A)) i x : Forall good l -> good x -> Forall good (upd l i x).
  Proof.
    intros H Hx. apply Forall_forall. intros y Hy. apply In_nth_error in Hy. destruct Hy as [j Hj].
    assert (Hl : j < length (upd l i x)) by (apply nth_error_Some; congruence). rewrite upd_length in Hl.
    destruct (Nat.eq_dec i j) as [->|Hn].
    - rewrite upd_nth_same in Hj by auto. congruence.
    - rewrite upd_nth_other in Hj by auto. rewrite Forall_forall in H. apply H. eapply nth_error_In; eauto.
  Qed.
  Lemma good_map_clone (l : list (Vec A)) : Forall good l -> Forall good (map (vclone A) l).
  Proof. intros H. apply Forall_map. eapply Forall_impl; [|exact H]. intros x Hx. apply (fl_clone A good HL). exact Hx. Qed.

  (** ** Single statements *)
  Definition HTs (p : prog (Msg A) (St A)) (s : St A) : Prop := forall i o' s', ok i -> lrun p i o' s' -> post s i o' s'.
  Lemma hts_lift {B} (x : option B) f s : (forall y, x = Some y -> HTs (f y) s) -> HTs (bind (lift x) f) s.
  Proof. intros H i o' s' Hi R. cut_lift R y E. apply (H y E); auto. Qed.
  Lemma hts_ht p : (forall s, VS s -> HTs (p s) s) <-> HT p.
  Proof. unfold HT, HTs. split; intros H; intros; eapply H; eauto. Qed.

  Lemma VS_u s l xs : length xs = length (s_u s l) -> Forall good xs -> VS s -> VS (set_u s l xs).
  Proof.
    intros Hx Hg [[W1 W2 W3] G1 G2 G3]. split; simpl; auto.
    - split; simpl; auto. intros l' Hl'. unfold at1. destruct (l' =? l) eqn:E; [|auto]. apply Nat.eqb_eq in E. subst. rewrite Hx. auto.
    - intros l'. unfold at1. destruct (l' =? l); auto.
  Qed.
  Lemma VS_ext s s' : s_u s' = s_u s -> s_v s' = s_v s -> s_g s' = s_g s -> VS s -> VS s'.
  Proof. intros E1 E2 E3 [[W1 W2 W3] G1 G2 G3]. split; [split|..]; intros; rewrite ?E1, ?E2, ?E3; auto. Qed.
  Lemma gh_same s s' : s_u s' 0 = s_u s 0 -> gh s [] s'.
  Proof. intros E y Hy. exists y. rewrite E. split; [exact Hy|reflexivity]. Qed.

  Lemma hts_put l i x s : good x -> (l = 0 -> 1 <= i) -> VS s -> HTs (put_u l i x s) s.
  Proof.
    intros Hx Hi0 HS i0 o' s' _ R. unfold put_u in R. cut_lift R xs E. cut_ret R.
    assert (E' : xs = upd (s_u s l) i x /\ i < length (s_u s l)).
    { unfold py_upd in E. replace (0 <=? Z.of_nat i)%Z with true in E by (symmetry; apply Z.leb_le; lia).
      destruct (Z.of_nat i <? Z.of_nat (length (s_u s l)))%Z eqn:X; [|discriminate]. rewrite Nat2Z.id in E. inversion E. apply Z.ltb_lt in X. split; [auto|lia]. }
    destruct E' as [-> Hil]. split; [|constructor| |reflexivity].
    - apply VS_u; [apply upd_length| |exact HS]. apply good_upd; [apply HS|exact Hx].
    - intros y Hy. exists y. split; [|reflexivity]. unfold set_u, at1. cbn [s_u]. destruct (0 =? l) eqn:El; [|exact Hy].
      apply Nat.eqb_eq in El. subst l. specialize (Hi0 eq_refl). rewrite upd_nth_other by lia. exact Hy.
  Qed.
  (** a send leaves the values alone *)
  Lemma send_inv l i d lt op s i0 o' s' : lrun (send_point o P l i d lt op s) i0 o' s' ->
    exists x, py_nth (s_u s l) i = Some x /\ i0 = [] /\ s' = inc_stag s lt op /\
              exists q, o' = [(q, Tag (s_stag s lt op) lt op, MDataF (vpack A x) (s_fin s))].
  Proof.
    intros R. unfold send_point in R. cut_lift R x E. exists x. split; [exact E|]. unfold send in R. rewrite Hloc in R.
    destruct ((d <? 0)%Z || (Z.of_nat P <=? d)%Z); inversion R as [|? ? ? ? ? ? ? R1|]; subst. cut_ret R1. eauto.
  Qed.
  Lemma hts_send l i d lt op s : VS s -> HTs (send_point o P l i d lt op s) s.
  Proof.
    intros HS i0 o' s' _ R. apply send_inv in R. destruct R as (x & E & -> & -> & q & ->).
    split; [|constructor; [|constructor]|apply gh_same; reflexivity|reflexivity].
    - eapply VS_ext; [| | |exact HS]; reflexivity.
    - simpl. exists x. split; [|reflexivity]. eapply good_nth; [|exact E]; apply HS.
  Qed.
  Lemma recv_inv q lt op s i0 o' ds : lrun (receive o P q lt op s) i0 o' ds ->
    exists q' d b, i0 = [(q', Tag (s_rtag s lt op) lt op, MDataF d b)] /\ o' = [] /\ ds = (d, set_sfin (inc_rtag s lt op) lt op b).
  Proof.
    intros R. unfold receive in R. rewrite Hloc in R. destruct ((q <? 0)%Z || (Z.of_nat P <=? q)%Z); inversion R as [| |? ? m ? ? ? ? R1]; subst.
    destruct m; try (inversion R1; fail). cut_ret R1. eauto 10.
  Qed.
  Lemma ghost_inv l q lt op s i0 o' s' : VS s -> ok i0 -> lrun (recv_ghost o P l q lt op s) i0 o' s' ->
    exists q' b x xs y, i0 = [(q', Tag (s_rtag s lt op) lt op, MDataF (vpack A y) b)] /\ o' = [] /\ good y /\ s_u s l = x :: xs /\
      s' = set_u (set_sfin (inc_rtag s lt op) lt op b) l (y :: xs).
  Proof.
    intros HS Hi R. unfold recv_ghost in R. cut_bind R i1 o1 ds i2 o2 R1 R2. apply recv_inv in R1. destruct R1 as (q' & d & b & -> & -> & ->).
    cbn [fst snd] in R2. unfold unpack_ghost in R2. cbn [s_u set_sfin inc_rtag] in R2. destruct (s_u s l) as [|x xs] eqn:E; [inversion R2|].
    cut_ret R2. apply ok_app in Hi. destruct Hi as [Hi _]. inversion Hi as [|? ? Hm _]; subst. simpl in Hm. destruct Hm as (y & Hy & ->).
    exists q', b, x, xs, y. rewrite (fl_pack A good HL); auto. pose proof (v_u _ HS l) as G. rewrite E in G. inversion G; auto.
  Qed.
  Lemma hts_ghost l q lt op s : (lt =? 0) && negb (op =? 4) = (l =? 0) -> VS s -> HTs (recv_ghost o P l q lt op s) s.
  Proof.
    intros El HS i0 o' s' Hi R. apply ghost_inv in R; auto. destruct R as (q' & b & x & xs & y & -> & -> & Hy & Eu & ->).
    split; [|constructor| |reflexivity].
    - apply VS_u.
      + cbn. rewrite Eu. reflexivity.
      + constructor; [auto|]. pose proof (v_u _ HS l) as G. rewrite Eu in G. inversion G; auto.
      + eapply VS_ext; [| | |exact HS]; reflexivity.
    - intros y0 Hy0. cbn [lastd relt rel fst snd]. unfold relt, rel. cbn [fst snd]. rewrite El. simpl. unfold at1. rewrite (Nat.eqb_sym 0 l).
      destruct (l =? 0); [exists y; auto|exists y0; auto].
  Qed.
  Lemma hts_drop q lt s : VS s -> HTs (bind (receive o P q lt 4 s) (fun ds => Ret (snd ds))) s.
  Proof.
    intros HS i0 o' s' Hi R. cut_bind R i1 o1 ds i2 o2 R1 R2. apply recv_inv in R1. destruct R1 as (q' & d & b & -> & -> & ->). cut_ret R2.
    split; [|constructor| |reflexivity].
    - eapply VS_ext; [| | |exact HS]; reflexivity.
    - intros y Hy. exists y. split; [exact Hy|]. cbn [app lastd]. unfold relt, rel. cbn [fst snd]. rewrite Nat.eqb_refl, andb_false_r. reflexivity.
  Qed.

  Lemma ht_ifs (c : St A -> bool) p q : HT p -> HT q -> HT (fun s => if c s then p s else q s).
  Proof. intros H1 H3 s i o' s' HS Hi R. destruct (c s); [apply H1|apply H3]; auto. Qed.
  Lemma ht_send l i d lt op : HT (send_point o P l i d lt op).
  Proof. apply hts_ht. intros s HS. apply hts_send; auto. Qed.
  Lemma ht_ghost l q lt op : (lt =? 0) && negb (op =? 4) = (l =? 0) -> HT (recv_ghost o P l q lt op).
  Proof. intros H. apply hts_ht. intros s HS. apply hts_ghost; auto. Qed.
  Lemma ht_lift {B} (f : St A -> option B) g : (forall s y, VS s -> f s = Some y -> HTs (g y s) s) -> HT (fun s => bind (lift (f s)) (fun y => g y s)).
  Proof. intros H. apply hts_ht. intros s HS. apply hts_lift. auto. Qed.
  Lemma good_propagate s l i x : VS s -> propagate (infos r) l s i = Some x -> good x.
  Proof.
    intros HS E. unfold propagate in E.
    destruct (py_nth (s_u s l) (Z.of_nat i - 1)) as [y|] eqn:Y; [|discriminate]. assert (G : good y) by (eapply good_nth; [|exact Y]; apply HS).
    destruct (py_nth (i_t (inf (infos r) l)) (Z.of_nat i - 1)); [|discriminate].
    destruct (py_nth (i_t (inf (infos r) l)) (Z.of_nat i)); [|discriminate].
    destruct (l =? 0); [inversion E; apply (fl_phi A good HL); auto|].
    destruct (py_nth (s_g s l) (Z.of_nat i)) as [g|] eqn:X; [|discriminate]. inversion E.
    apply (fl_add A good HL); [eapply good_nth; [|exact X]; apply HS|apply (fl_phi A good HL); auto].
  Qed.
  Lemma eqb_and_4 l op : op <> 4 -> (l =? 0) && negb (op =? 4) = (l =? 0).
  Proof. intros H. replace (op =? 4) with false by (symmetry; apply Nat.eqb_neq; auto). apply andb_true_r. Qed.
  Ltac side := first [apply eqb_and_4; discriminate | reflexivity].

  (** ** The operations *)
  Lemma Fidx l i : l < L -> In i (i_loc_f (info l r)) -> exists x, In x (fps2 l r) /\ i = loc l r x /\ 0 < x /\ lo l r <= x < lo l (S r) /\ isC l x = false /\ 1 <= i.
  Proof.
    intros Hl Hi. unfold closed_info in Hi. cbn [i_loc_f] in Hi. apply in_map_iff in Hi. destruct Hi as (x & <- & Hx). exists x.
    pose proof Hx as Hx'. apply (fps2_in grids so P HV HP0 HP) in Hx'; auto. destruct Hx' as [Hxo HxF].
    assert (Hx0 : 0 < x). { destruct x; [|lia]. rewrite (isC_0 grids P HV HP0 HP) in HxF by auto. discriminate. }
    pose proof (loc_ge o P HV HP0 HP l r x Hl Hr Hxo Hx0). repeat split; auto; lia.
  Qed.
  Definition f_body (l : nat) (i : nat) (s : St A) : prog (Msg A) (St A) :=
    s <- (if i_comm_front (info l r) && (i =? np_min (i_loc_f (info l r))) && negb (s_sfin s l 1)
          then recv_ghost o P l (i_get_from (info l r)) l 1 s else Ret s) ;;
    x <- lift (propagate (infos r) l s i) ;;
    s <- put_u l i x s ;;
    if i_comm_back (info l r) && (i =? np_max (i_loc_f (info l r)))
    then send_point o P l (Z.of_nat i) (i_send_to (info l r)) l 1 s else Ret s.
  Lemma f_body_ht l i : l < L -> In i (i_loc_f (info l r)) -> HT (f_body l i).
  Proof.
    intros Hl Hi. destruct (Fidx l i Hl Hi) as (x & _ & _ & _ & _ & _ & Hi1).
    apply (ht_bind (fun s => if i_comm_front (info l r) && (i =? np_min (i_loc_f (info l r))) && negb (s_sfin s l 1) then recv_ghost o P l (i_get_from (info l r)) l 1 s else Ret s)).
    - apply (ht_ifs (fun s => i_comm_front (info l r) && (i =? np_min (i_loc_f (info l r))) && negb (s_sfin s l 1))); [apply ht_ghost; side|apply ht_ret].
    - apply (ht_lift (fun s => propagate (infos r) l s i)
        (fun x s => bind (put_u l i x s) (fun s => if i_comm_back (info l r) && (i =? np_max (i_loc_f (info l r))) then send_point o P l (Z.of_nat i) (i_send_to (info l r)) l 1 s else Ret s))).
      intros s y HS E i0 o' s' Hi0 R. cut_bind R i1 o1 s1 i2 o2 R1 R2. apply ok_app in Hi0. destruct Hi0 as [Hi0 Hi2].
      pose proof (hts_put l i y s (good_propagate s l i y HS E) (fun _ => Hi1) HS i1 o1 s1 Hi0 R1) as Q1. eapply post_trans; [exact Q1|].
      revert R2. apply (ht_if _ (send_point o P l (Z.of_nat i) (i_send_to (info l r)) l 1) (fun s => Ret s)); [apply ht_send|apply ht_ret|apply Q1|auto].
  Qed.
  Lemma f_relax_eq l s : l < L -> f_relax o P (infos r) l s =
    bind (if i_last_is_c (info l r) then send_point o P l (-1) (i_send_to (info l r)) l 0 s else Ret s) (fun s =>
    bind (if i_first_is_f (info l r) && negb (s_sfin s l 0) then recv_ghost o P l (i_get_from (info l r)) l 0 s else Ret s) (fun s =>
    for_each (i_loc_f (info l r)) (f_body l) s)).
  Proof. intros Hl. unfold f_relax. rewrite inf_eq by auto. reflexivity. Qed.
  Lemma f_relax_ht l : l < L -> HT (f_relax o P (infos r) l).
  Proof.
    intros Hl. eapply ht_ext; [intros s; apply f_relax_eq; exact Hl|].
    apply (ht_bind (fun s => if i_last_is_c (info l r) then send_point o P l (-1) (i_send_to (info l r)) l 0 s else Ret s)).
    { apply ht_if; [apply ht_send|apply ht_ret]. }
    apply (ht_bind (fun s => if i_first_is_f (info l r) && negb (s_sfin s l 0) then recv_ghost o P l (i_get_from (info l r)) l 0 s else Ret s)).
    { apply (ht_ifs (fun s => i_first_is_f (info l r) && negb (s_sfin s l 0))); [apply ht_ghost; side|apply ht_ret]. }
    apply ht_for. intros i Hi. apply f_body_ht; auto.
  Qed.
  Lemma send_f_ht l op : HT (fun s => if i_last_is_f (info l r) then send_point o P l (-1) (i_send_to (info l r)) l op s else Ret s).
  Proof. apply ht_if; [apply ht_send|apply ht_ret]. Qed.
  Lemma recv_c_ht l op : op <> 4 -> HT (fun s => if i_first_is_c (info l r) && negb (s_sfin s l op) then recv_ghost o P l (i_get_from (info l r)) l op s else Ret s).
  Proof. intros H. apply (ht_ifs (fun s => i_first_is_c (info l r) && negb (s_sfin s l op))); [apply ht_ghost; apply eqb_and_4; auto|apply ht_ret]. Qed.
  Lemma c_relax_ht l : l < L -> HT (c_relax o P r (infos r) l).
  Proof.
    intros Hl. unfold c_relax. rewrite inf_eq by auto.
    apply (ht_bind (fun s => if i_last_is_f (info l r) then send_point o P l (-1) (i_send_to (info l r)) l 2 s else Ret s)); [apply send_f_ht|].
    apply (ht_bind (fun s => if i_first_is_c (info l r) && negb (s_sfin s l 2) then recv_ghost o P l (i_get_from (info l r)) l 2 s else Ret s)); [apply recv_c_ht; discriminate|].
    apply ht_for. intros i Hi. unfold closed_info in Hi. cbn [i_loc_c] in Hi. apply in_map_iff in Hi. destruct Hi as (x & <- & Hx).
    apply (cps_in o P HV HP0 HP) in Hx; auto. destruct Hx as [Hx _]. rewrite (skip_iff o P HV HP0 HP) by auto.
    destruct (0 <? x) eqn:E1; [|apply ht_ret]. apply Nat.ltb_lt in E1. pose proof (loc_ge o P HV HP0 HP l r x Hl Hr Hx E1) as G.
    apply hts_ht. intros s HS. apply hts_lift. intros y Ey. apply hts_lift. intros z Ez. apply hts_put; [|lia|exact HS].
    apply (fl_add A good HL); apply (fl_scale A good HL); [eapply good_propagate; eauto|eapply good_nth; [|exact Ez]; apply HS].
  Qed.
  Lemma forward_solve_ht l : 0 < l < L -> HT (forward_solve o P (infos r) l).
  Proof.
    intros [Hl0 Hl]. unfold forward_solve. rewrite inf_eq by auto.
    apply (ht_bind (fun s => if negb (i_get_from (info l r) =? -99)%Z && negb (s_sfin s l 5) then recv_ghost o P l (i_get_from (info l r)) l 5 s else Ret s)).
    { apply (ht_ifs (fun s => negb (i_get_from (info l r) =? -99)%Z && negb (s_sfin s l 5))); [apply ht_ghost; side|apply ht_ret]. }
    apply (ht_bind (fun s => for_each (seq 1 (length (s_u s l) - 1)) (fun i s => bind (lift (propagate (infos r) l s i)) (fun x => put_u l i x s)) s)).
    - intros s i o' s' HS Hi R. revert HS Hi R. apply ht_for. intros k _. apply hts_ht. intros s0 HS0. apply hts_lift. intros y Ey.
      apply hts_put; [eapply good_propagate; eauto|lia|auto].
    - destruct (negb (i_send_to (info l r) =? -99)%Z); [|apply ht_ret]. apply (ht_lift (fun _ => py_nth (i_loc (info l r)) (-1)) (fun i s => send_point o P l (Z.of_nat i) (i_send_to (info l r)) l 5 s)).
      intros s y HS _. apply hts_send; auto.
  Qed.
  Lemma VS_v s l xs : length xs = cnt l r + off l r -> Forall good xs -> VS s -> VS (set_v s l xs).
  Proof.
    intros Hx Hg [[W1 W2 W3] G1 G2 G3]. split; simpl; auto.
    - split; simpl; auto. intros l' Hl'. unfold at1. destruct (l' =? l) eqn:E; [|auto]. apply Nat.eqb_eq in E. subst. auto.
    - intros l'. unfold at1. destruct (l' =? l); auto.
  Qed.
  Lemma VS_g s l xs : length xs = length (s_g s l) -> Forall good xs -> VS s -> VS (set_g s l xs).
  Proof.
    intros Hx Hg [[W1 W2 W3] G1 G2 G3]. split; simpl; auto.
    - split; simpl; auto. intros l' Hl'. unfold at1. destruct (l' =? l) eqn:E; [|auto]. apply Nat.eqb_eq in E. subst. rewrite Hx. auto.
    - intros l'. unfold at1. destruct (l' =? l); auto.
  Qed.
  Lemma good_rhs s l c j x : VS s -> fas_rhs (infos r) l s c j = Some x -> good x.
  Proof.
    intros HS E. unfold fas_rhs in E.
    destruct (py_nth (s_u s l) (Z.of_nat c - 1)) as [up|] eqn:E1; [|discriminate].
    destruct (py_nth (i_t (inf (infos r) l)) (Z.of_nat c - 1)); [|discriminate].
    destruct (py_nth (i_t (inf (infos r) l)) (Z.of_nat c)); [|discriminate].
    destruct (py_nth (s_u s l) (Z.of_nat c)) as [uc|] eqn:E2; [|discriminate].
    destruct (py_nth (s_v s (S l)) (Z.of_nat j)) as [vj|] eqn:E3; [|discriminate].
    destruct (py_nth (s_v s (S l)) (Z.of_nat j - 1)) as [vp|] eqn:E4; [|discriminate].
    destruct (py_nth (i_t (inf (infos r) (S l))) (Z.of_nat j - 1)); [|discriminate].
    destruct (py_nth (i_t (inf (infos r) (S l))) (Z.of_nat j)); [|discriminate].
    apply good_nth in E1, E2, E3, E4; try apply HS. destruct HL.
    destruct (l =? 0); [inversion E; auto 8|]. destruct (py_nth (s_g s l) (Z.of_nat c)) as [gc|] eqn:E5; [|discriminate].
    apply good_nth in E5; [|apply HS]. inversion E; auto 8.
  Qed.
  Lemma fas_residual_ht l : S l < L -> HT (fas_residual o P r (infos r) l).
  Proof.
    intros Hl. assert (Hl0 : l < L) by lia. unfold fas_residual. rewrite !inf_eq by auto.
    apply (ht_bind (for_each (seq 0 (length (i_loc_c (info l r)))) (fun i s => c <- lift (nth_error (i_loc_c (info l r)) i) ;;
       x <- lift (py_nth (s_u s l) (Z.of_nat c)) ;; put_u (S l) (if r =? 0 then i else i + 1) (restr A l x) s))).
    { apply ht_for. intros i _. apply hts_ht. intros s HS. apply hts_lift. intros c _. apply hts_lift. intros x Ex. apply hts_put; [|discriminate|auto].
      apply (fl_restr A good HL). eapply good_nth; [|exact Ex]; apply HS. }
    apply (ht_bind (fun s => if i_last_is_f (info l r) then send_point o P l (-1) (i_send_to (info l r)) l 3 s else Ret s)); [apply send_f_ht|].
    apply (ht_bind (fun s => if i_first_is_c (info l r) && negb (s_sfin s l 3) then recv_ghost o P l (i_get_from (info l r)) l 3 s else Ret s)); [apply recv_c_ht; discriminate|].
    apply (ht_bind (fun s => if (0 <=? i_send_to (info (S l) r))%Z then k <- lift (py_nth (i_loc (info (S l) r)) (-1)) ;; send_point o P (S l) (Z.of_nat k) (i_send_to (info (S l) r)) l 4 s else Ret s)).
    { apply ht_if; [|apply ht_ret]. apply hts_ht. intros s HS. apply hts_lift. intros k _. apply hts_send; auto. }
    apply (ht_bind (fun s => if (0 <=? i_get_from (info (S l) r))%Z && negb (s_sfin s l 4) then recv_ghost o P (S l) (i_get_from (info (S l) r)) l 4 s else Ret s)).
    { apply (ht_ifs (fun s => (0 <=? i_get_from (info (S l) r))%Z && negb (s_sfin s l 4))); [apply ht_ghost; apply andb_false_r|apply ht_ret]. }
    intros s i o' s' HS Hi R. cbv zeta in R.
    assert (HV' : VS (set_v s (S l) (map (vclone A) (s_u s (S l))))).
    { apply VS_v; [rewrite map_length; apply (v_w _ HS); auto|apply good_map_clone; apply HS|exact HS]. }
    assert (Q : post (set_v s (S l) (map (vclone A) (s_u s (S l)))) i o' s').
    { revert HV' Hi R. apply ht_for. intros k _. apply ht_if; [|apply ht_ret]. apply hts_ht. clear s HS. intros s HS.
      apply hts_lift. intros c _. apply hts_lift. intros j _. apply hts_lift. intros x Ex. apply hts_lift. intros xs Exs.
      intros i1 o1 s1 _ R1. cut_ret R1.
      assert (X : length xs = length (s_g s (S l)) /\ Forall good xs).
      { unfold py_upd in Exs. repeat match type of Exs with (if ?b then _ else _) = _ => destruct b end; inversion Exs; split; try apply upd_length;
          apply good_upd; try apply HS; eapply good_rhs; eauto. }
      split; [apply VS_g; tauto|constructor|apply gh_same; reflexivity|reflexivity]. }
    destruct Q as [Q1 Q2 Q3 Q4]. split; auto.
  Qed.
  Lemma error_correction_ht l : S l < L -> HT (error_correction r (infos r) l).
  Proof.
    intros Hl. assert (Hl0 : l < L) by lia. unfold error_correction. rewrite !inf_eq by auto. rewrite (locc_len o P HV HP0 HP) by auto.
    apply ht_for. intros i Hi. apply in_seq in Hi. destruct (cpt_loc o P HV HP0 HP l r i Hl Hr) as (J1 & J2 & J3 & J4 & J5); [lia|].
    rewrite (skip_k o P HV HP0 HP (S l)) by (auto; lia). destruct (0 <? lo (S l) r + i) eqn:E1; [|apply ht_ret]. apply Nat.ltb_lt in E1.
    rewrite (locc_nth o P HV HP0 HP) by (auto; lia). apply hts_ht. intros s HS.
    apply hts_lift. intros c Ec. inversion Ec; subst c. apply hts_lift. intros k _. apply hts_lift. intros x Ex. apply hts_lift. intros y Ey. apply hts_lift. intros z Ez.
    apply hts_put; [|intros _; apply J5; auto|auto]. apply good_nth in Ex, Ey, Ez; try apply HS. destruct HL. auto.
  Qed.
  Lemma interpolate_up_ht l : S l < L -> HT (interpolate_up r (infos r) l).
  Proof.
    intros Hl. assert (Hl0 : l < L) by lia. unfold interpolate_up. rewrite !inf_eq by auto.
    apply ht_for. intros i Hi.
    replace (length (i_loc (info (S l) r))) with (cnt (S l) r) in Hi.
    2:{ unfold closed_info. cbn [i_loc]. rewrite map_length. unfold SetupProofs.pts. rewrite seq_length. reflexivity. }
    apply in_seq in Hi. destruct (cpt_loc o P HV HP0 HP l r i Hl Hr) as (J1 & J2 & J3 & J4 & J5); [lia|].
    rewrite (skip_k o P HV HP0 HP (S l)) by (auto; lia). destruct (0 <? lo (S l) r + i) eqn:E1; [|apply ht_ret]. apply Nat.ltb_lt in E1.
    rewrite (locc_nth o P HV HP0 HP) by (auto; lia). apply hts_ht. intros s HS.
    apply hts_lift. intros c Ec. inversion Ec; subst c. apply hts_lift. intros k _. apply hts_lift. intros x Ex.
    apply hts_put; [|intros _; apply J5; auto|auto]. apply good_nth in Ex; try apply HS. destruct HL. auto.
  Qed.
  Notation fs := (coarse_solve o P r (infos r)).
  Lemma fs_ht : HT (fs (L - 1)).
  Proof. unfold coarse_solve. rewrite Hdist. apply forward_solve_ht. lia. Qed.
  (** one V- or F-cycle without its last F-relaxation *)
  Definition half0 n l cyc it ff (s : St A) : prog (Msg A) (St A) :=
    s <- (if ((0 <? l) || (it =? 0)) && ff then f_relax o P (infos r) l s else Ret s) ;;
    s <- times (cf_count o l) (fun s => s <- c_relax o P r (infos r) l s ;; f_relax o P (infos r) l s) s ;;
    s <- fas_residual o P r (infos r) l s ;;
    s <- iteration o P r (infos r) fs n (S l) cyc it true s ;;
    error_correction r (infos r) l s.
  Lemma half0_ht n l cyc it ff : S l < L -> HT (iteration o P r (infos r) fs n (S l) cyc it true) -> HT (half0 n l cyc it ff).
  Proof.
    intros Hl HI. assert (Hl0 : l < L) by lia. unfold half0.
    apply (ht_bind (fun s => if ((0 <? l) || (it =? 0)) && ff then f_relax o P (infos r) l s else Ret s)); [apply ht_if; [apply f_relax_ht; auto|apply ht_ret]|].
    apply (ht_bind (times (cf_count o l) (fun s => s <- c_relax o P r (infos r) l s ;; f_relax o P (infos r) l s))).
    { apply ht_times. apply (ht_bind (c_relax o P r (infos r) l)); [apply c_relax_ht; auto|apply f_relax_ht; auto]. }
    apply (ht_bind (fas_residual o P r (infos r) l)); [apply fas_residual_ht; auto|].
    apply (ht_bind (iteration o P r (infos r) fs n (S l) cyc it true)); [exact HI|apply error_correction_ht; auto].
  Qed.
  Definition half n l cyc it ff (s : St A) : prog (Msg A) (St A) :=
    s <- (if ((0 <? l) || (it =? 0)) && ff then f_relax o P (infos r) l s else Ret s) ;;
    s <- times (cf_count o l) (fun s => s <- c_relax o P r (infos r) l s ;; f_relax o P (infos r) l s) s ;;
    s <- fas_residual o P r (infos r) l s ;;
    s <- iteration o P r (infos r) fs n (S l) cyc it true s ;;
    s <- error_correction r (infos r) l s ;;
    f_relax o P (infos r) l s.
  Lemma half_inv n l cyc it ff s i o' s' : lrun (half n l cyc it ff s) i o' s' ->
    exists i1 o1 s1 i2 o2, lrun (half0 n l cyc it ff s) i1 o1 s1 /\ lrun (f_relax o P (infos r) l s1) i2 o2 s' /\ i = i1 ++ i2 /\ o' = o1 ++ o2.
  Proof.
    intros R. unfold half in R. cut_bind R i1 o1 s1 j1 p1 R1 R0. cut_bind R0 i2 o2 s2 j2 p2 R2 R0'. cut_bind R0' i3 o3 s3 j3 p3 R3 R0.
    cut_bind R0 i4 o4 s4 j4 p4 R4 R0'. cut_bind R0' i5 o5 s5 j5 p5 R5 R0.
    exists (i1 ++ i2 ++ i3 ++ i4 ++ i5), (o1 ++ o2 ++ o3 ++ o4 ++ o5), s5, j5, p5. rewrite <- !app_assoc. split; [|auto].
    unfold half0. repeat (eapply lrun_bind; [eassumption|]). assumption.
  Qed.
  Lemma iteration_ht : forall n l cyc it ff, l + n = L - 1 -> HT (iteration o P r (infos r) fs n l cyc it ff).
  Proof.
    induction n as [|n IH]; intros l cyc it ff Hn.
    - simpl. replace l with (L - 1) by lia. apply fs_ht.
    - assert (Hl : S l < L) by lia. assert (Hl' : l < L) by lia.
      assert (Half : forall c f, HT (half n l c it f)).
      { intros c f s i o' s' HS Hi R. apply half_inv in R. destruct R as (i1 & o1 & s1 & i2 & o2 & R1 & R2 & -> & ->).
        apply ok_app in Hi. destruct Hi as [Hi1 Hi2]. pose proof (half0_ht n l c it f Hl (IH (S l) c it true ltac:(lia)) s i1 o1 s1 HS Hi1 R1) as Q1.
        eapply post_trans; [exact Q1|]. apply (f_relax_ht l Hl'); auto. apply Q1. }
      apply (ht_bind (half n l cyc it ff)); [apply Half|]. apply ht_if; [apply Half|apply ht_ret].
  Qed.
  Lemma nested_ht : HT (nested_iteration o P r (infos r) fs).
  Proof.
    unfold nested_iteration. change (Mgrit.L o) with L. apply (ht_bind (fs (L - 1))); [apply fs_ht|].
    apply ht_for. intros l Hl. apply in_rev in Hl. apply in_seq in Hl.
    apply (ht_bind (interpolate_up r (infos r) l)); [apply interpolate_up_ht; lia|]. apply ht_if; [apply iteration_ht; lia|apply ht_ret].
  Qed.

  (** ** The last point and the F-points of the finest level *)
  Definition lastu (s : St A) : option (Vec A) := nth_error (s_u s 0) (loc 0 r (lo 0 (S r) - 1)).
  Lemma own0 : lo 0 r < lo 0 (S r).
  Proof. rewrite !(lo_level0 grids P HV HP0 HP) by lia. apply (st_lt grids P HP); auto. Qed.
  Lemma len0 s : VS s -> length (s_u s 0) = S (loc 0 r (lo 0 (S r) - 1)).
  Proof.
    intros HS. rewrite (w_u _ _ _ _ (v_w _ HS)) by lia. pose proof own0. pose proof (lo_cnt grids P HV HP0 HP 0 r ltac:(lia) Hr).
    pose proof (off_le grids P HV HP0 HP 0 r ltac:(lia) Hr). unfold SetupProofs.loc. lia.
  Qed.
  Lemma lastu_py s : VS s -> py_nth (s_u s 0) (-1) = lastu s.
  Proof.
    intros HS. pose proof (len0 s HS) as E. rewrite py_nth_last by (intros X; rewrite X in E; discriminate). rewrite E. unfold lastu. f_equal. lia.
  Qed.
  Lemma lastu_some s : VS s -> exists y, lastu s = Some y /\ good y.
  Proof.
    intros HS. pose proof (len0 s HS) as E. destruct (lastu s) as [y|] eqn:Y.
    - exists y. split; [auto|]. unfold lastu in Y. apply nth_error_In in Y. pose proof (v_u _ HS 0) as G. rewrite Forall_forall in G. auto.
    - apply nth_error_None in Y. lia.
  Qed.
  Definition Fcons (s : St A) : Prop := forall x, In x (fps2 0 r) -> propagate (infos r) 0 s (loc 0 r x) = nth_error (s_u s 0) (loc 0 r x).
  Lemma propagate_0 s i : 1 <= i -> propagate (infos r) 0 s i =
    match nth_error (s_u s 0) (i - 1), nth_error (i_t (info 0 r)) (i - 1), nth_error (i_t (info 0 r)) i with
    | Some x, Some a, Some b => Some (phi A 0 x a b) | _, _, _ => None end.
  Proof. intros Hi. unfold propagate. rewrite inf_eq by lia. rewrite !py_nth_pred by lia. rewrite py_nth_nat. reflexivity. Qed.

  (** what an F-relaxation of the finest level sends last *)
  Definition sends_last (b : bool) (o' : tr) (s : St A) : Prop :=
    lastd o' = if b then match lastu s with Some y => Some (vpack A y) | None => None end else None.
  Lemma put_inv l i x (s : St A) i0 o' s' : lrun (put_u l i x s) i0 o' s' -> i0 = [] /\ o' = [] /\ s' = set_u s l (upd (s_u s l) i x) /\ i < length (s_u s l).
  Proof.
    intros R. unfold put_u in R. cut_lift R xs E. cut_ret R. split; [auto|]. split; [auto|].
    unfold py_upd in E. replace (0 <=? Z.of_nat i)%Z with true in E by (symmetry; apply Z.leb_le; lia).
    destruct (Z.of_nat i <? Z.of_nat (length (s_u s l)))%Z eqn:X; [|discriminate]. rewrite Nat2Z.id in E. inversion E. apply Z.ltb_lt in X. split; [auto|lia].
  Qed.
  Lemma for_inv {B C} (h : C -> B) (f : B -> St A -> prog (Msg A) (St A)) (Inv : list C -> tr -> St A -> Prop) (l : list C) :
    (forall l1 x l2 s i o1 o' s', l = l1 ++ x :: l2 -> ok i -> Inv l1 o1 s -> lrun (f (h x) s) i o' s' -> Inv (l1 ++ [x]) (o1 ++ o') s') ->
    forall s i o' s', ok i -> Inv [] [] s -> lrun (for_each (map h l) f s) i o' s' -> Inv l o' s'.
  Proof.
    intros H.
    assert (G : forall l2 l1 s i o1 o' s', l = l1 ++ l2 -> ok i -> Inv l1 o1 s -> lrun (for_each (map h l2) f s) i o' s' -> Inv l (o1 ++ o') s').
    { induction l2 as [|x l2 IH]; intros l1 s0 i o1 o' s' E Hi HI R.
      - cut_ret R. rewrite app_nil_r in *. subst. exact HI.
      - simpl in R. cut_bind R i1 p1 s1 i2 p2 R1 R2. apply ok_app in Hi. destruct Hi as [Hi1 Hi2].
        rewrite app_assoc. apply (IH (l1 ++ [x]) s1 i2); [rewrite <- app_assoc; exact E|exact Hi2| |exact R2]. eapply (H l1 x l2 s0 i1 o1 p1 s1); eauto. }
    intros s0 i o' s' Hi HI R. apply (G l [] s0 i [] o' s'); auto.
  Qed.
  Lemma nth_cons_ne {B} (x y : B) xs i : 1 <= i -> nth_error (x :: xs) i = nth_error (y :: xs) i.
  Proof. destruct i; [lia|reflexivity]. Qed.
  Lemma rel_other q t l op d b : l <> 0 -> relt (q, Tag t l op, MDataF d b) = None.
  Proof. intros H. unfold relt, rel. cbn [fst snd]. destruct l; [lia|reflexivity]. Qed.
  Lemma rel_0 q t op d b : op <> 4 -> relt (q, Tag t 0 op, MDataF d b) = Some d.
  Proof. intros H. unfold relt, rel. cbn [fst snd]. rewrite eqb_and_4 by auto. reflexivity. Qed.

  Lemma loc_own x : lo 0 r <= x < lo 0 (S r) -> x <> lo 0 r -> loc 0 r x - 1 = loc 0 r (x - 1).
  Proof. intros Hx Hn. unfold SetupProofs.loc. pose proof (off_le grids P HV HP0 HP 0 r ltac:(lia) Hr). lia. Qed.
  Lemma loc_lo : 0 < lo 0 r -> loc 0 r (lo 0 r) = 1.
  Proof.
    intros H. assert (off 0 r = 1); [|unfold SetupProofs.loc; lia].
    apply (off_pos o P HV HP0 HP); auto; [lia|]. apply (has_iff o P HP0 HP); auto; [lia|apply own0].
  Qed.

  (** An F-relaxation makes every F-point the step from the point before it, and sends the last point. *)
  Lemma f_relax_spec s i o' s' : VS s -> ok i -> lrun (f_relax o P (infos r) 0 s) i o' s' ->
    Fcons s' /\ sends_last (sflag 0 0 r || sflag 0 1 r) o' s'.
  Proof.
    intros HS Hi R. assert (H0 : 0 < L) by lia. rewrite f_relax_eq in R by auto.
    cut_bind R i1 o1 s1 i2 o2 R1 R2. cut_bind R2 i3 o3 s3 i4 o4 R3 R4.
    apply ok_app in Hi. destruct Hi as [Hi1 Hi]. apply ok_app in Hi. destruct Hi as [Hi3 Hi4].
    rewrite last_is_c_eq in R1. rewrite first_is_f_eq in R3.
    (* the first send *)
    assert (S1 : VS s1 /\ s_u s1 = s_u s /\ lastd o1 = if sflag 0 0 r then match lastu s with Some y => Some (vpack A y) | None => None end else None).
    { destruct (sflag 0 0 r).
      - apply send_inv in R1. destruct R1 as (x & E & -> & -> & q & ->). rewrite lastu_py in E by auto. rewrite E. cbn [lastd]. rewrite rel_0 by discriminate.
        split; [eapply VS_ext; [| | |exact HS]; reflexivity|auto].
      - cut_ret R1. auto. }
    destruct S1 as (V1 & U1 & D1).
    (* the first receive *)
    assert (S3 : VS s3 /\ o3 = [] /\ forall k, lo 0 r = 0 \/ 1 <= k -> nth_error (s_u s3 0) k = nth_error (s_u s1 0) k).
    { destruct (rflag 0 0 r) eqn:RF; cbn [andb] in R3; [|cut_ret R3; auto]. pose proof (proj2 (rflag_parts o P (0, 0) r RF)) as RF'. cbn [fst snd] in RF'. change (blvl 0 0) with 0 in RF'.
      destruct (negb (s_sfin s1 0 0)).
      - pose proof (hts_ghost 0 _ 0 0 s1 eq_refl V1 _ _ _ Hi3 R3) as Q. apply ghost_inv in R3; auto.
        destruct R3 as (q' & b & x & xs & y & -> & -> & Hy & Eu & ->). split; [apply Q|]. split; [auto|].
        intros k Hk. unfold set_u, at1. cbn [s_u]. simpl (0 =? 0). cbv iota. rewrite Eu. apply nth_cons_ne; lia.
      - cut_ret R3. auto. }
    destruct S3 as (V3 & -> & U3).
    set (hi := lo 0 (S r)) in *.
    assert (Hnd : NoDup (fps2 0 r)) by (apply (fps2_nodup o P Hperm); auto; lia).
    assert (Hlast1 : 0 < r -> 1 <= loc 0 r (hi - 1)).
    { intros Hp. pose proof own0 as OW. assert (0 < lo 0 r). { apply (lo_pos grids P HV HP0 HP); auto. pose proof (lo_cnt grids P HV HP0 HP 0 r H0 Hr). lia. }
      pose proof (loc_ge o P HV HP0 HP 0 r (hi - 1) H0 Hr). unfold hi in *. lia. }
    (* the loop *)
    set (Inv := fun (l1 : list nat) (p : tr) (t : St A) => VS t /\
      (forall x, In x l1 -> propagate (infos r) 0 t (loc 0 r x) = nth_error (s_u t 0) (loc 0 r x)) /\
      (forall k, lo 0 r = 0 \/ 1 <= k -> (forall x, In x l1 -> loc 0 r x <> k) -> nth_error (s_u t 0) k = nth_error (s_u s3 0) k) /\
      lastd p = if sflag 0 1 r && memn (hi - 1) l1 then match lastu t with Some y => Some (vpack A y) | None => None end else None).
    assert (G : Inv (fps2 0 r) o4 s').
    { change (i_loc_f (info 0 r)) with (map (loc 0 r) (fps2 0 r)) in R4. revert R4. apply (for_inv (loc 0 r) (f_body 0) Inv (fps2 0 r)); [|exact Hi4|].
      2:{ split; [auto|]. split; [intros x []|]. split; [auto|]. rewrite andb_false_r. reflexivity. }
      clear s' o4. intros l1 x l2 t j p1 p2 t' EL Hj (IV & IC & IO & ID) R.
      assert (Hxf : In (loc 0 r x) (i_loc_f (info 0 r))).
      { change (i_loc_f (info 0 r)) with (map (loc 0 r) (fps2 0 r)). apply in_map. rewrite EL. apply in_or_app; right; left; auto. }
      pose proof (f_body_ht 0 (loc 0 r x) H0 Hxf t j p2 t' IV Hj R) as Q.
      assert (Hx : In x (fps2 0 r)) by (rewrite EL; apply in_or_app; right; left; auto).
      pose proof Hx as Hx'. apply (fps2_in grids so P HV HP0 HP) in Hx'; auto. destruct Hx' as [Hxo HxF].
      assert (Hx0 : 0 < x). { destruct x; [|lia]. rewrite (isC_0 grids P HV HP0 HP) in HxF by auto. discriminate. }
      pose proof (loc_ge o P HV HP0 HP 0 r x H0 Hr Hxo Hx0) as HG.
      assert (Hown : forall z, In z (fps2 0 r) -> lo 0 r <= z < hi /\ 0 < z).
      { intros z Hz. apply (fps2_in grids so P HV HP0 HP) in Hz; auto. destruct Hz as [Hz1 Hz2]. split; [auto|].
        destruct z; [|lia]. rewrite (isC_0 grids P HV HP0 HP) in Hz2 by auto. discriminate. }
      assert (Hl1 : forall z, In z l1 -> In z (fps2 0 r)) by (intros z Hz; rewrite EL; apply in_or_app; auto).
      assert (Hxl1 : ~ In x l1). { rewrite EL in Hnd. apply NoDup_remove_2 in Hnd. intros Y. apply Hnd. apply in_or_app. auto. }
      unfold f_body in R. cut_bind R j1 q1 t1 j2 q2 T1 T2. apply ok_app in Hj. destruct Hj as [Hj1 Hj2].
      (* the receive touches the ghost point only, and only if the first F-point is next *)
      assert (S4 : VS t1 /\ q1 = [] /\ (forall k, lo 0 r = 0 \/ 1 <= k -> nth_error (s_u t1 0) k = nth_error (s_u t 0) k) /\ (x <> lo 0 r -> s_u t1 = s_u t)).
      { destruct (i_comm_front (info 0 r)) eqn:CF; cbn [andb] in T1; [|cut_ret T1; auto].
        change (i_loc_f (info 0 r)) with (map (loc 0 r) (fps2 0 r)) in T1.
        assert (RF : rflag 0 1 r = true) by (rewrite <- comm_front_eq; exact CF). pose proof (proj2 (rflag_parts o P (0, 1) r RF)) as RF'. cbn [fst snd] in RF'. change (blvl 0 1) with 0 in RF'.
        assert (Hlo : In (lo 0 r) (fps2 0 r)).
        { unfold closed_info in CF. cbn [i_comm_front] in CF. apply andb_prop in CF. destruct CF as [X _]. apply andb_prop in X. destruct X as [X X1].
          pose proof own0. apply (fps2_in grids so P HV HP0 HP); auto. split; [lia|]. unfold SetupProofs.isF in X1. apply negb_true_iff in X1. exact X1. }
        rewrite (np_min_loc o P HV HP0 HP Hperm) in T1 by auto.
        destruct (loc 0 r x =? loc 0 r (lo 0 r)) eqn:Ex; cbn [andb] in T1; [|cut_ret T1; auto].
        apply Nat.eqb_eq in Ex. apply (loc_inj o P HV HP0 HP) in Ex; auto; try lia.
        destruct (negb (s_sfin t 0 1)); [|cut_ret T1; auto].
        pose proof (hts_ghost 0 _ 0 1 t eq_refl IV _ _ _ Hj1 T1) as Q1. apply ghost_inv in T1; auto.
        destruct T1 as (q' & b & y0 & ys & y & -> & -> & Hy & Eu & ->). split; [apply Q1|]. split; [auto|]. split; [|congruence].
        intros k Hk. unfold set_u, at1. cbn [s_u]. simpl (0 =? 0). cbv iota. rewrite Eu. apply nth_cons_ne; lia. }
      destruct S4 as (V4 & -> & U4 & U4').
      cut_lift T2 y Ey. cut_bind T2 j3 q3 t3 j4 q4 T3 T4. apply put_inv in T3. destruct T3 as (-> & -> & -> & Hlen).
      set (t3 := set_u t1 0 (upd (s_u t1 0) (loc 0 r x) y)) in *.
      assert (U5 : forall k, k <> loc 0 r x -> nth_error (s_u t3 0) k = nth_error (s_u t1 0) k).
      { intros k Hk. unfold t3, set_u, at1. cbn [s_u]. simpl (0 =? 0). cbv iota. apply upd_nth_other. auto. }
      assert (U6 : nth_error (s_u t3 0) (loc 0 r x) = Some y).
      { unfold t3, set_u, at1. cbn [s_u]. simpl (0 =? 0). cbv iota. apply upd_nth_same. auto. }
      assert (S7 : s_u t' = s_u t3 /\ (if sflag 0 1 r && (x =? hi - 1) then lastd q4 = Some (vpack A y) else lastd q4 = None)).
      { rewrite comm_back_eq in T4. destruct (sflag 0 1 r) eqn:SF; cbn [andb] in T4 |- *; [|cut_ret T4; auto].
        assert (Hhi : In (hi - 1) (fps2 0 r)).
        { pose proof SF as CF. rewrite <- comm_back_eq in CF. unfold closed_info in CF. cbn [i_comm_back] in CF. apply andb_prop in CF. destruct CF as [X _]. apply andb_prop in X. destruct X as [X X1].
          pose proof own0. apply (fps2_in grids so P HV HP0 HP); auto. unfold hi. split; [lia|]. unfold SetupProofs.isF in X1. apply negb_true_iff in X1. exact X1. }
        change (i_loc_f (info 0 r)) with (map (loc 0 r) (fps2 0 r)) in T4. rewrite (np_max_loc o P HV HP0 HP Hperm) in T4 by auto. fold hi in T4.
        destruct (x =? hi - 1) eqn:Ex.
        - apply Nat.eqb_eq in Ex. rewrite <- Ex, Nat.eqb_refl in T4. apply send_inv in T4. destruct T4 as (z & Ez & -> & -> & q & ->).
          split; [reflexivity|]. cbn [lastd]. rewrite rel_0 by discriminate. rewrite py_nth_nat, U6 in Ez. congruence.
        - apply Nat.eqb_neq in Ex. replace (loc 0 r x =? loc 0 r (hi - 1)) with false in T4; [cut_ret T4; auto|].
          symmetry. apply Nat.eqb_neq. intros Y. pose proof own0. apply (loc_inj o P HV HP0 HP) in Y; auto; unfold hi in *; lia. }
      destruct S7 as [U7 D7].
      split; [apply Q|]. split; [|split].
      - intros z Hz. apply in_app_or in Hz.
        assert (Hz' : In z (fps2 0 r)) by (destruct Hz as [Hz|[<-|[]]]; auto). destruct (Hown z Hz') as [Hzo Hz0].
        pose proof (loc_ge o P HV HP0 HP 0 r z H0 Hr Hzo Hz0) as HGz.
        destruct Hz as [Hz|[<-|[]]].
        + assert (Hzx : z <> x) by (intros ->; contradiction).
          assert (Hlzx : loc 0 r z <> loc 0 r x). { intros Y. apply (loc_inj o P HV HP0 HP) in Y; auto; unfold hi in *; lia. }
          assert (Hpred : loc 0 r z - 1 <> loc 0 r x).
          { intros Y. assert (Exz : S x = z). { destruct (Nat.eq_dec z (lo 0 r)) as [->|Hn].
              - rewrite loc_lo in Y by lia. lia.
              - rewrite loc_own in Y by (auto; lia). apply (loc_inj o P HV HP0 HP) in Y; auto; try lia. }
            apply in_split in Hz. destruct Hz as (m1 & m2 & ->).
            assert (X : In x m1). { apply (Hresp 0 r H0 Hr m1 z (m2 ++ x :: l2)); auto. rewrite EL. rewrite <- app_assoc. reflexivity. }
            apply Hxl1. apply in_or_app. auto. }
          pose proof (IC z Hz) as E. rewrite propagate_0 in E |- * by lia. rewrite U7, !U5 by auto. rewrite (U4 (loc 0 r z)) by lia.
          destruct (Nat.eq_dec z (lo 0 r)) as [Ezlo|Hn].
          * rewrite U4' by congruence. exact E.
          * rewrite (U4 (loc 0 r z - 1)); [exact E|]. rewrite loc_own by (auto; lia).
            destruct (Nat.eq_dec (lo 0 r) 0) as [|Hlo]; [left; auto|right].
            pose proof (loc_ge o P HV HP0 HP 0 r (z - 1) H0 Hr). unfold hi in *. lia.
        + rewrite propagate_0 by lia. rewrite U7, U6, U5 by lia. rewrite propagate_0 in Ey by lia. exact Ey.
      - intros k Hk Hkx. rewrite U7. assert (k <> loc 0 r x) by (intros ->; apply (Hkx x); [apply in_or_app; right; left; auto|auto]).
        rewrite U5, U4 by auto. apply IO; auto. intros z Hz. apply Hkx. apply in_or_app. auto.
      - cbn [app]. rewrite lastd_app. rewrite (memn_snoc 0 (fun _ => false)). unfold lastu. fold hi. rewrite U7.
        destruct (sflag 0 1 r) eqn:SF; cbn [andb] in D7, ID |- *; [|rewrite D7; exact ID].
        destruct (x =? hi - 1) eqn:Ex.
        + rewrite D7, orb_true_r. apply Nat.eqb_eq in Ex. rewrite <- Ex, U6. reflexivity.
        + rewrite D7, orb_false_r. rewrite ID. destruct (memn (hi - 1) l1) eqn:M; [|reflexivity]. unfold lastu. fold hi.
          apply Nat.eqb_neq in Ex. apply memn_in in M. destruct (Hown _ (Hl1 _ M)) as [M1 M2]. pose proof (loc_ge o P HV HP0 HP 0 r (hi - 1) H0 Hr M1 M2).
          assert (Hne : loc 0 r (hi - 1) <> loc 0 r x) by (intros Y; apply (loc_inj o P HV HP0 HP) in Y; auto; lia).
          rewrite U5 by exact Hne. rewrite U4 by lia. destruct (nth_error (s_u t 0) (loc 0 r (hi - 1))); reflexivity. }
    destruct G as (GV & GC & GO & GD). split; [exact GC|].
    unfold sends_last. cbn [app]. rewrite !lastd_app, GD, D1.
    destruct (sflag 0 1 r) eqn:F1; cbn [andb].
    - assert (M : memn (hi - 1) (fps2 0 r) = true).
      { apply memn_in. pose proof F1 as CF. rewrite <- comm_back_eq in CF. unfold closed_info in CF. cbn [i_comm_back] in CF. apply andb_prop in CF. destruct CF as [X _]. apply andb_prop in X. destruct X as [X X1].
        pose proof own0. apply (fps2_in grids so P HV HP0 HP); auto. unfold hi. split; [lia|]. unfold SetupProofs.isF in X1. apply negb_true_iff in X1. exact X1. }
      rewrite M, orb_true_r. destruct (lastu_some s' GV) as (y & -> & _). reflexivity.
    - rewrite orb_false_r. destruct (sflag 0 0 r) eqn:F0; [|reflexivity].
      assert (E : lastu s' = lastu s); [|rewrite E; reflexivity].
      unfold lastu. fold hi.
      assert (HC : isC 0 (hi - 1) = true).
      { unfold Sim.sflag, Sim.cnd in F0. change (blvl 0 0) with 0 in F0. apply andb_prop in F0. destruct F0 as [_ F0]. apply andb_prop in F0. apply F0. }
      assert (HQ : lo 0 r = 0 \/ 1 <= loc 0 r (hi - 1)).
      { destruct (Nat.eq_dec r 0) as [E0|E0]; [left; rewrite E0; apply (lo_0 grids P HV HP0 HP); lia|right; apply Hlast1; lia]. }
      rewrite GO; [rewrite U3 by exact HQ; rewrite U1; reflexivity|exact HQ|].
      intros x Hx Y. apply (fps2_in grids so P HV HP0 HP) in Hx; auto. destruct Hx as [Hx1 Hx2]. pose proof own0.
      apply (loc_inj o P HV HP0 HP) in Y; auto; unfold hi in *; try lia. subst. congruence.
  Qed.

  (** states that differ in the ghost point of the finest level at most *)
  Definition only_ghost (s s' : St A) : Prop := length (s_u s' 0) = length (s_u s 0) /\ forall k, lo 0 r = 0 \/ 1 <= k -> nth_error (s_u s' 0) k = nth_error (s_u s 0) k.
  Lemma og_refl s : only_ghost s s.
  Proof. split; auto. Qed.
  Lemma og_trans s1 s2' s3 : only_ghost s1 s2' -> only_ghost s2' s3 -> only_ghost s1 s3.
  Proof. intros [A1 A2] [B1 B2]. split; [congruence|]. intros k Hk. rewrite B2, A2; auto. Qed.
  Lemma last_idx : lo 0 r = 0 \/ 1 <= loc 0 r (lo 0 (S r) - 1).
  Proof.
    destruct (Nat.eq_dec (lo 0 r) 0) as [|E]; [left; auto|right]. pose proof own0 as OW.
    pose proof (loc_ge o P HV HP0 HP 0 r (lo 0 (S r) - 1) ltac:(lia) Hr). lia.
  Qed.
  Lemma og_last s s' : only_ghost s s' -> lastu s' = lastu s.
  Proof. intros [_ H]. unfold lastu. apply H. apply last_idx. Qed.
  Lemma ghost_og q op s i0 o' s' : VS s -> ok i0 -> 0 < lo 0 r -> lrun (recv_ghost o P 0 q 0 op s) i0 o' s' -> only_ghost s s' /\ o' = [].
  Proof.
    intros HS Hi Hlo R. apply ghost_inv in R; auto. destruct R as (q' & b & x & xs & y & -> & -> & Hy & Eu & ->). split; [|auto].
    unfold only_ghost, set_u, at1. cbn [s_u]. simpl (0 =? 0). cbv iota. rewrite Eu. split; [reflexivity|].
    intros k Hk. apply nth_cons_ne. lia.
  Qed.
  Lemma rflag_lo op : op <> 4 -> rflag 0 op r = true -> 0 < lo 0 r.
  Proof.
    intros H4 H. pose proof (proj2 (rflag_parts o P (0, op) r H)) as X. cbn [fst snd] in X. unfold blvl in X.
    replace (op =? 4) with false in X by (symmetry; apply Nat.eqb_neq; auto). exact X.
  Qed.

  (** ** compute_residual (387-413), compute_jump (372-385) *)
  Definition resid (s : St A) (x : nat) : option (Sc A) :=
    match propagate (infos r) 0 s (loc 0 r x), nth_error (s_u s 0) (loc 0 r x) with
    | Some y, Some z => Some (vnorm A (vsub A y z)) | _, _ => None end.
  Lemma residual_spec s i o' vs : VS s -> ok i -> lrun (compute_residual o P r (infos r) s) i o' vs ->
    post s i o' (snd vs) /\ only_ghost s (snd vs) /\ sends_last (sflag 0 7 r) o' (snd vs) /\
    (Fcons s -> Fcons (snd vs)) /\ sequence (map (resid (snd vs)) (own_crit r)) = Some (fst vs).
  Proof.
    intros HS Hi R. assert (H0 : 0 < L) by lia. assert (X7 : exch_op 7) by (right; right; auto). unfold compute_residual in R. rewrite inf_eq in R by auto.
    cut_bind R i1 o1 s1 i2 o2 R1 R2. cut_bind R2 i3 o3 s3 i4 o4 R3 R4. apply ok_app in Hi. destruct Hi as [Hi1 Hi]. apply ok_app in Hi. destruct Hi as [Hi3 Hi4].
    pose proof (send_f_ht 0 7 s i1 o1 s1 HS Hi1 R1) as Q1. pose proof (recv_c_ht 0 7 ltac:(discriminate) s1 i3 o3 s3 (p_vs _ _ _ _ Q1) Hi3 R3) as Q3.
    cut_lift R4 val Ev. cut_ret R4. cbn [fst snd].
    rewrite (last_is_f_eq o P 0 7 r X7) in R1. rewrite (first_is_c_eq o P 0 7 r X7) in R3.
    assert (S1 : s_u s1 = s_u s /\ lastd o1 = if sflag 0 7 r then match lastu s with Some y => Some (vpack A y) | None => None end else None).
    { destruct (sflag 0 7 r).
      - apply send_inv in R1. destruct R1 as (x & E & -> & -> & q & ->). rewrite lastu_py in E by auto. rewrite E. cbn [lastd]. rewrite rel_0 by discriminate. auto.
      - cut_ret R1. auto. }
    destruct S1 as [U1 D1].
    assert (S3 : only_ghost s1 s3 /\ o3 = [] /\ (rflag 0 7 r = true \/ s3 = s1)).
    { destruct (rflag 0 7 r) eqn:RF; cbn [andb] in R3; [|cut_ret R3; auto using og_refl]. destruct (negb (s_sfin s1 0 7)); [|cut_ret R3; auto using og_refl].
      apply ghost_og in R3; [tauto|apply Q1|auto|apply (rflag_lo 7); auto]. }
    destruct S3 as (G3 & -> & C3).
    assert (OG : only_ghost s s3). { eapply og_trans; [|exact G3]. split; [rewrite U1; auto|]. intros k _. rewrite U1. auto. }
    split; [|split; [exact OG|split; [|split]]].
    - rewrite app_nil_r. replace (o1 ++ [] ++ []) with (o1 ++ []) by reflexivity. eapply post_trans; eauto.
    - unfold sends_last. rewrite !app_nil_r, D1. rewrite (og_last s s3 OG). reflexivity.
    - intros HF x Hx. destruct C3 as [RF| ->]; [|unfold Fcons in HF; specialize (HF x Hx); unfold propagate in *; rewrite U1; exact HF].
      pose proof Hx as Hx'. apply (fps2_in grids so P HV HP0 HP) in Hx'; auto. destruct Hx' as [Hxo HxF].
      assert (Hx0 : 0 < x). { destruct x; [|lia]. rewrite (isC_0 grids P HV HP0 HP) in HxF by auto. discriminate. }
      pose proof (loc_ge o P HV HP0 HP 0 r x H0 Hr Hxo Hx0) as HG. specialize (HF x Hx).
      assert (Hn : x <> lo 0 r).
      { intros ->. unfold Sim.rflag, Sim.cnd in RF. change (blvl 0 7) with 0 in RF. apply andb_prop in RF. destruct RF as [_ RF]. apply andb_prop in RF. destruct RF as [_ RF]. congruence. }
      rewrite propagate_0 in HF |- * by lia. destruct OG as [_ OG]. pose proof (rflag_lo 7 ltac:(discriminate) RF) as Hlo.
      assert (1 <= loc 0 r x - 1). { rewrite loc_own by (auto; lia). pose proof (loc_ge o P HV HP0 HP 0 r (x - 1) H0 Hr). lia. }
      rewrite !OG by (right; lia). exact HF.
    - rewrite (crit_filter' o P HV HP0 HP (fun _ => false)) in Ev by auto. rewrite map_map in Ev. rewrite <- Ev. f_equal. apply map_ext. intros x. unfold resid. rewrite py_nth_nat. reflexivity.
  Qed.
  Lemma jump_spec s i o' vs : VS s -> lrun (compute_jump r (infos r) s) i o' vs -> i = [] /\ o' = [] /\ snd vs = set_last s (map (vclone A) (s_u s 0)).
  Proof. intros HS R. unfold compute_jump in R. cut_lift R val Ev. cut_ret R. auto. Qed.

  (** ** A whole pass *)
  Definition pass_prog (it : nat) (s : St A) : prog (Msg A) (list (Sc A) * St A) :=
    s <- iteration o P r (infos r) fs (L - 1) 0 (cycF o) it true (set_iter s (it + 1)) ;; compute_crit o P r s.
  Record passed (it : nat) (s : St A) (i o' : tr) (vs : list (Sc A) * St A) : Prop := {
    pa_vs : VS (snd vs);
    pa_ok : ok o';
    pa_gh : gh s i (snd vs);
    pa_iter : s_iter (snd vs) = it + 1;
    pa_f : Fcons (snd vs);
    pa_last : sflag 0 0 r || sflag 0 1 r || sflag 0 7 r = true -> exists y, lastu (snd vs) = Some y /\ lastd o' = Some (vpack A y);
    pa_res : is_jump o = false -> sequence (map (resid (snd vs)) (own_crit r)) = Some (fst vs)
  }.
  Hypothesis Hcrit : is_jump o = true -> sflag 0 7 r = false.
  Lemma pass_spec it s i o' vs : VS s -> ok i -> lrun (pass_prog it s) i o' vs -> passed it s i o' vs.
  Proof.
    intros HS Hi R. unfold pass_prog in R. cut_bind R i1 o1 s1 i2 o2 R1 R2. apply ok_app in Hi. destruct Hi as [Hi1 Hi2].
    destruct (L - 1) as [|n] eqn:EL; [lia|]. assert (HS' : VS (set_iter s (it + 1))) by (eapply VS_ext; [| | |exact HS]; reflexivity).
    assert (R1' : exists p, lrun (half n 0 (cycF o) it true (set_iter s (it + 1))) i1 o1 p /\ p = s1).
    { change (lrun (bind (half n 0 (cycF o) it true (set_iter s (it + 1))) (fun s => Ret s)) i1 o1 s1) in R1. cut_bind R1 j1 p1 t j2 p2 T1 T2. cut_ret T2. rewrite !app_nil_r. eauto. }
    destruct R1' as (p & R1' & ->). apply half_inv in R1'. destruct R1' as (j1 & q1 & t1 & j2 & q2 & T1 & T2 & -> & ->).
    apply ok_app in Hi1. destruct Hi1 as [Hj1 Hj2].
    pose proof (half0_ht n 0 (cycF o) it true ltac:(lia) (iteration_ht n 1 (cycF o) it true ltac:(lia)) _ _ _ _ HS' Hj1 T1) as Q1.
    pose proof (f_relax_ht 0 ltac:(lia) _ _ _ _ (p_vs _ _ _ _ Q1) Hj2 T2) as Q2.
    destruct (f_relax_spec _ _ _ _ (p_vs _ _ _ _ Q1) Hj2 T2) as [HF HSL].
    pose proof (post_trans _ _ _ _ _ _ _ Q1 Q2) as Q.
    pose proof (p_iter _ _ _ _ Q) as EI. cbn [s_iter set_iter] in EI.
    unfold compute_crit in R2. destruct (is_jump o) eqn:EJ.
    - apply jump_spec in R2; [|apply Q]. destruct R2 as (-> & -> & E). rewrite !app_nil_r. split.
      + rewrite E. eapply VS_ext; [| | |apply Q]; reflexivity.
      + apply Q.
      + rewrite E. exact (p_gh _ _ _ _ Q).
      + rewrite E. exact EI.
      + rewrite E. exact HF.
      + rewrite (Hcrit eq_refl), orb_false_r. intros X. unfold sends_last in HSL. rewrite X in HSL. rewrite E.
        change (lastu (set_last s1 (map (vclone A) (s_u s1 0)))) with (lastu s1). rewrite lastd_app, HSL.
        destruct (lastu_some s1 (p_vs _ _ _ _ Q)) as (y & -> & _). eauto.
      + intros Z; rewrite EJ in Z; discriminate.
    - destruct (residual_spec s1 i2 o2 vs (p_vs _ _ _ _ Q) Hi2 R2) as (P1 & P2 & P3 & P4 & P5). split.
      + apply P1.
      + apply ok_app. split; [apply Q|apply P1].
      + eapply gh_trans; [exact (p_gh _ _ _ _ Q)|apply P1].
      + rewrite (p_iter _ _ _ _ P1). exact EI.
      + auto.
      + intros X. destruct (lastu_some (snd vs) (p_vs _ _ _ _ P1)) as (y & Ey & _). exists y. split; [exact Ey|]. rewrite lastd_app.
        unfold sends_last in P3. rewrite P3, Ey. destruct (sflag 0 7 r); [reflexivity|]. rewrite orb_false_r in X. rewrite lastd_app.
        unfold sends_last in HSL. rewrite HSL, X. rewrite <- (og_last _ _ P2), Ey. reflexivity.
      + auto.
  Qed.

  (** ** clean_up (648-691) *)
  Definition lasts (o' : tr) (s : St A) : Prop := Forall (fun x => forall d, relt x = Some d -> exists y, lastu s = Some y /\ d = vpack A y) o'.
  Lemma lasts_app o1 o2 s : lasts o1 s -> lasts o2 s -> lasts (o1 ++ o2) s.
  Proof. intros. apply Forall_app. auto. Qed.
  Definition CS (p : St A -> prog (Msg A) (St A)) : Prop := forall s i o' s', VS s -> lrun (p s) i o' s' -> i = [] /\ s_u s' = s_u s /\ lasts o' s.
  Lemma cs_ret : CS (fun s => Ret s).
  Proof. intros s i o' s' HS R. cut_ret R. repeat split; auto. constructor. Qed.
  Lemma cs_bind p q : HT p -> CS p -> CS q -> CS (fun s => bind (p s) q).
  Proof.
    intros H1 H3 H4 s i o' s' HS R. cut_bind R i1 o1 s1 i2 o2 R1 R2. destruct (H3 s i1 o1 s1 HS R1) as (-> & E & L1).
    assert (HS1 : VS s1) by (eapply p_vs; apply (H1 s [] o1 s1 HS); [constructor|exact R1]).
    destruct (H4 s1 i2 o2 s' HS1 R2) as (-> & E2 & L2). split; [auto|]. split; [congruence|].
    apply lasts_app; [auto|]. unfold lasts, lastu in *. rewrite <- E. exact L2.
  Qed.
  Lemma cs_if (b : bool) p q : CS p -> CS q -> CS (fun s => if b then p s else q s).
  Proof. destruct b; auto. Qed.
  Lemma cs_for {B} (l : list B) f : (forall x, In x l -> HT (f x) /\ CS (f x)) -> CS (for_each l f).
  Proof.
    induction l as [|x l IH]; intros H; [apply cs_ret|]. simpl. apply (cs_bind (f x) (for_each l f)); [apply H; left; auto|apply H; left; auto|].
    apply IH. intros y Hy. apply H. right; auto.
  Qed.
  Lemma cs_send l d op : CS (send_point o P l (-1) d l op).
  Proof.
    intros s i o' s' HS R. apply send_inv in R. destruct R as (x & E & -> & -> & q & ->). repeat split; auto. constructor; [|constructor].
    intros d0 Hd. unfold relt, rel in Hd. cbn [fst snd] in Hd. destruct ((l =? 0) && negb (op =? 4)) eqn:El; [|discriminate].
    apply andb_prop in El. destruct El as [El _]. apply Nat.eqb_eq in El. subst l. rewrite lastu_py in E by auto. exists x. split; [auto|congruence].
  Qed.
  Lemma cs_other l (x : option nat) d lt op : (lt =? 0) && negb (op =? 4) = false ->
    CS (fun s => bind (lift x) (fun c => send_point o P l (Z.of_nat c) d lt op s)) /\ HT (fun s => bind (lift x) (fun c => send_point o P l (Z.of_nat c) d lt op s)).
  Proof.
    intros El. split.
    - intros s i o' s' HS R. cut_lift R c Ec. apply send_inv in R. destruct R as (y & E & -> & -> & q & ->). repeat split; auto. constructor; [|constructor].
      intros d0 Hd. unfold relt, rel in Hd. cbn [fst snd] in Hd. rewrite El in Hd. discriminate.
    - apply hts_ht. intros s HS. apply hts_lift. intros c _. apply hts_send; auto.
  Qed.
  Lemma ht_sendif (b : bool) l i d lt op : HT (fun s => if b then send_point o P l i d lt op s else Ret s).
  Proof. apply ht_if; [apply ht_send|apply ht_ret]. Qed.
  Lemma cs_sendif (b : bool) l d op : CS (fun s => if b then send_point o P l (-1) d l op s else Ret s).
  Proof. apply cs_if; [apply cs_send|apply cs_ret]. Qed.
  Lemma both_bind p q : HT p /\ CS p -> HT q /\ CS q -> HT (fun s => bind (p s) q) /\ CS (fun s => bind (p s) q).
  Proof. intros [X1 X2] [Y1 Y2]. split; [apply ht_bind; auto|apply cs_bind; auto]. Qed.
  Lemma both_send (b : bool) l d op : HT (fun s => if b then send_point o P l (-1) d l op s else Ret s) /\ CS (fun s => if b then send_point o P l (-1) d l op s else Ret s).
  Proof. split; [apply ht_sendif|apply cs_sendif]. Qed.
  Lemma both_for {B} (l : list B) f : (forall x, In x l -> HT (f x) /\ CS (f x)) -> HT (for_each l f) /\ CS (for_each l f).
  Proof. intros H. split; [apply ht_for; intros; apply H; auto|apply cs_for; auto]. Qed.
  Lemma both_if (b : bool) p : HT p /\ CS p -> HT (fun s => if b then p s else Ret s) /\ CS (fun s => if b then p s else Ret s).
  Proof. intros [X Y]. split; [apply ht_if; [auto|apply ht_ret]|apply cs_if; [auto|apply cs_ret]]. Qed.
  Lemma clean_sends_spec : HT (clean_sends o P r) /\ CS (clean_sends o P r).
  Proof.
    unfold clean_sends. apply both_bind.
    { apply both_for. intros l _.
      apply (both_bind (fun s => if i_last_is_c (info l r) then send_point o P l (-1) (i_send_to (info l r)) l 0 s else Ret s)); [apply both_send|].
      apply (both_bind (fun s => if i_comm_back (info l r) then send_point o P l (-1) (i_send_to (info l r)) l 1 s else Ret s)); [apply both_send|].
      apply (both_bind (fun s => if i_last_is_f (info l r) then send_point o P l (-1) (i_send_to (info l r)) l 2 s else Ret s)); [apply both_send|].
      apply (both_bind (fun s => if i_last_is_f (info l r) then send_point o P l (-1) (i_send_to (info l r)) l 3 s else Ret s)); [apply both_send|].
      apply (both_if _ (fun s => bind (lift (py_nth (i_loc_c (info l r)) (-1))) (fun c => send_point o P l (Z.of_nat c) (i_send_to (info (S l) r)) l 4 s))).
      apply and_comm. apply cs_other. apply andb_false_r. }
    apply (both_bind (fun s => if negb (i_send_to (info (L - 1) r) =? -99)%Z then k <- lift (py_nth (i_loc (info (L - 1) r)) (-1)) ;;
            send_point o P (L - 1) (Z.of_nat k) (i_send_to (info (L - 1) r)) (L - 1) 5 s else Ret s)).
    { apply both_if. apply and_comm. apply cs_other. replace (L - 1 =? 0) with false by (symmetry; apply Nat.eqb_neq; lia). reflexivity. }
    apply both_send.
  Qed.

  Definition CR (p : St A -> prog (Msg A) (St A)) : Prop := forall s i o' s', VS s -> ok i -> lrun (p s) i o' s' -> o' = [] /\ only_ghost s s'.
  Definition RR p := HT p /\ CR p.
  Lemma rr_bind p q : RR p -> RR q -> RR (fun s => bind (p s) q).
  Proof.
    intros [X1 X2] [Y1 Y2]. split; [apply ht_bind; auto|]. intros s i o' s' HS Hi R. cut_bind R i1 o1 s1 i2 o2 R1 R2.
    apply ok_app in Hi. destruct Hi as [Hi1 Hi2]. destruct (X2 s i1 o1 s1 HS Hi1 R1) as (-> & G1).
    assert (HS1 : VS s1) by (eapply p_vs; apply (X1 s i1 [] s1 HS); auto). destruct (Y2 s1 i2 o2 s' HS1 Hi2 R2) as (-> & G2).
    split; [auto|]. eapply og_trans; eauto.
  Qed.
  Lemma rr_ret : RR (fun s => Ret s).
  Proof. split; [apply ht_ret|]. intros s i o' s' HS Hi R. cut_ret R. auto using og_refl. Qed.
  Lemma rr_for {B} (l : list B) f : (forall x, In x l -> RR (f x)) -> RR (for_each l f).
  Proof.
    induction l as [|x l IH]; intros H; [apply rr_ret|]. simpl. apply (rr_bind (f x) (for_each l f)); [apply H; left; auto|].
    apply IH. intros y Hy. apply H. right; auto.
  Qed.
  Lemma rr_recv (b : bool) l q op : op <> 4 -> (l = 0 -> b = true -> 0 < lo 0 r) -> RR (fun s => if b && negb (s_sfin s l op) then recv_ghost o P l q l op s else Ret s).
  Proof.
    intros H4 Hb. assert (X : RR (if b then recv_ghost o P l q l op else (fun s => Ret s))).
    { destruct b; [|apply rr_ret]. split; [apply ht_ghost; apply eqb_and_4; auto|]. intros s i o' s' HS Hi R. destruct (Nat.eq_dec l 0) as [->|Hl].
      - apply ghost_og in R; auto. tauto.
      - apply ghost_inv in R; auto. destruct R as (q' & b & x & xs & y & -> & -> & Hy & Eu & ->). split; [auto|].
        unfold only_ghost, set_u, at1. cbn [s_u]. replace (0 =? l) with false by (symmetry; apply Nat.eqb_neq; auto). split; auto. }
    split.
    - apply (ht_ifs (fun s => b && negb (s_sfin s l op))); [apply ht_ghost; apply eqb_and_4; auto|apply ht_ret].
    - intros s i o' s' HS Hi R. destruct b; cbn [andb] in R; [|cut_ret R; auto using og_refl]. destruct (negb (s_sfin s l op)); [|cut_ret R; auto using og_refl].
      apply X in R; auto.
  Qed.
  Lemma rr_drop (b : bool) q l : RR (fun s => if b && negb (s_sfin s l 4) then bind (receive o P q l 4 s) (fun ds => Ret (snd ds)) else Ret s).
  Proof.
    split.
    - apply hts_ht. intros s HS. destruct (b && negb (s_sfin s l 4)); [apply hts_drop; auto|]. intros i o' s' Hi R. apply (ht_ret s i o' s'); auto.
    - intros s i o' s' HS Hi R. destruct (b && negb (s_sfin s l 4)); [|cut_ret R; auto using og_refl].
      cut_bind R i1 o1 ds i2 o2 R1 R2. apply recv_inv in R1. destruct R1 as (q' & d & c & -> & -> & ->). cut_ret R2. split; [auto|]. split; auto.
  Qed.
  Lemma clean_recvs_spec : RR (clean_recvs o P r).
  Proof.
    unfold clean_recvs. apply rr_bind.
    { apply rr_for. intros l _.
      apply (rr_bind (fun s => if i_first_is_f (info l r) && negb (s_sfin s l 0) then recv_ghost o P l (i_get_from (info l r)) l 0 s else Ret s)).
      { apply rr_recv; [discriminate|]. intros -> X. rewrite first_is_f_eq in X. apply (rflag_lo 0); auto. }
      apply (rr_bind (fun s => if i_comm_front (info l r) && negb (s_sfin s l 1) then recv_ghost o P l (i_get_from (info l r)) l 1 s else Ret s)).
      { apply rr_recv; [discriminate|]. intros -> X. rewrite comm_front_eq in X. apply (rflag_lo 1); auto. }
      apply (rr_bind (fun s => if i_first_is_c (info l r) && negb (s_sfin s l 2) then recv_ghost o P l (i_get_from (info l r)) l 2 s else Ret s)).
      { apply rr_recv; [discriminate|]. intros -> X. rewrite (first_is_c_eq o P 0 2 r (or_introl eq_refl)) in X. apply (rflag_lo 2); auto. }
      apply (rr_bind (fun s => if i_first_is_c (info l r) && negb (s_sfin s l 3) then recv_ghost o P l (i_get_from (info l r)) l 3 s else Ret s)).
      { apply rr_recv; [discriminate|]. intros -> X. rewrite (first_is_c_eq o P 0 3 r (or_intror (or_introl eq_refl))) in X. apply (rflag_lo 3); auto. }
      apply rr_drop. }
    apply (rr_bind (fun s => if negb (i_get_from (info (L - 1) r) =? -99)%Z && negb (s_sfin s (L - 1) 5) then recv_ghost o P (L - 1) (i_get_from (info (L - 1) r)) (L - 1) 5 s else Ret s)).
    { apply rr_recv; [discriminate|]. lia. }
    apply rr_recv; [discriminate|]. intros _ X. rewrite (first_is_c_eq o P 0 7 r (or_intror (or_intror eq_refl))) in X. apply (rflag_lo 7); auto.
  Qed.
  Record cleaned (s : St A) (i o' : tr) (s' : St A) : Prop := {
    ce_post : post s i o' s';
    ce_og : only_ghost s s';
    ce_last : lasts o' s
  }.
  Lemma clean_spec s i o' s' : VS s -> ok i -> lrun (clean_body o P r s) i o' s' -> cleaned s i o' s'.
  Proof.
    intros HS Hi R. unfold clean_body in R. cut_bind R i1 o1 s1 i2 o2 R1 R2. apply ok_app in Hi. destruct Hi as [Hi1 Hi2].
    pose proof (proj1 clean_sends_spec s i1 o1 s1 HS Hi1 R1) as Q1. destruct (proj2 clean_sends_spec s i1 o1 s1 HS R1) as (-> & E & L1).
    assert (X : post s1 i2 o2 s' /\ o2 = [] /\ only_ghost s1 s').
    { destruct (same_it s1).
      - split; [apply (proj1 clean_recvs_spec); auto; apply Q1|]. apply (proj2 clean_recvs_spec s1 i2); auto. apply Q1.
      - cut_ret R2. split; [apply post_refl; apply Q1|]. auto using og_refl. }
    destruct X as (Q2 & -> & G2). split.
    - eapply post_trans; eauto.
    - eapply og_trans; [|exact G2]. split; [rewrite E; auto|]. intros k _. rewrite E. auto.
    - rewrite app_nil_r. exact L1.
  Qed.
End Rank.

  (** ** Messages between neighbours *)
  Fixpoint lastm (l : list (mtag * Msg A)) : option (Data A) :=
    match l with [] => None | x :: l' => match lastm l' with Some d => Some d | None => rel x end end.
  Lemma lastd_of q t : (forall x, In x t -> relt x <> None -> fst (fst x) = q) -> lastd t = lastm (msgs_of q t).
  Proof.
    induction t as [|[[p tg] m] t IH]; intros H; [reflexivity|]. cbn [lastd]. rewrite msgs_of_cons. rewrite IH by (intros x Hx; apply H; right; auto).
    destruct (p =? q) eqn:E; cbn [lastm]; [reflexivity|]. destruct (lastm (msgs_of q t)); [reflexivity|].
    destruct (relt (p, tg, m)) eqn:R; [|reflexivity]. apply Nat.eqb_neq in E. exfalso. apply E. apply (H (p, tg, m)); [left; auto|congruence].
  Qed.
  Lemma ok_of r (i : tr) (o' : nat -> tr) : (forall x, In x i -> fst (fst x) < r) -> (forall q, q < r -> msgs_of q i = msgs_of r (o' q)) ->
    (forall q, q < r -> ok (o' q)) -> ok i.
  Proof.
    intros Hi Hm Ho. apply Forall_forall. intros [[q t] m] Hx. pose proof (Hi _ Hx) as Hq. cbn [fst] in Hq.
    assert (X : In (t, m) (msgs_of q i)).
    { unfold msgs_of. apply in_map_iff. exists (q, t, m). split; [reflexivity|]. apply filter_In. split; [auto|apply Nat.eqb_refl]. }
    rewrite Hm in X by auto. unfold msgs_of in X. apply in_map_iff in X. destruct X as ([[q' t'] m'] & E & X). apply filter_In in X. destruct X as [X _].
    cbn [fst snd] in E. inversion E; subst. pose proof (Ho q Hq) as Y. unfold ok in Y. rewrite Forall_forall in Y. apply (Y _ X).
  Qed.
  Lemma evs_in2 l : forall ds (x : nat * mtag * Msg A), In x (evs l ds) -> exists y d, In y l /\ x = ev y d.
  Proof.
    induction l as [|y l IH]; intros [|d ds] x H; try destruct H.
    - exists y, d. split; [left; auto|auto].
    - destruct (IH ds x H) as (z & e & H1 & H2). exists z, e. split; [right; auto|auto].
  Qed.
  Lemma outs_slot fl r h : forall K x, In x (outs o P fl r K h) -> exists y t, In y h /\ sflag (fst y) (snd y) r = true /\ fst x = (dst o P y r, Tag t (fst y) (snd y)).
  Proof.
    induction h as [|y h IH]; intros K x Hx; [destruct Hx|]. cbn [outs] in Hx. apply in_app_or in Hx. destruct Hx as [Hx|Hx].
    - unfold out1 in Hx. destruct (sflag (fst y) (snd y) r) eqn:F; [|destruct Hx]. destruct Hx as [<-|[]]. exists y. eexists. split; [left; auto|]. split; [auto|reflexivity].
    - destruct (IH _ _ Hx) as (z & t & H1 & H2). exists z, t. split; [right; auto|auto].
  Qed.
  Lemma ins_slot cl r h : forall K E x, In x (ins o P cl r K E h) -> exists y t, In y h /\ rflag (fst y) (snd y) r = true /\ fst x = (src o P y r, Tag t (fst y) (snd y)).
  Proof.
    induction h as [|y h IH]; intros K E x Hx; [destruct Hx|]. cbn [ins] in Hx. apply in_app_or in Hx. destruct Hx as [Hx|Hx].
    - unfold in1 in Hx. destruct (rflag (fst y) (snd y) r) eqn:F; [|destruct Hx]. destruct (negb (E (fst y) (snd y))); [|destruct Hx].
      destruct Hx as [<-|[]]. exists y. eexists. split; [left; auto|]. split; [auto|reflexivity].
    - destruct (IH _ _ _ Hx) as (z & t & H1 & H2). exists z, t. split; [right; auto|auto].
  Qed.
  Lemma rel_slot q t l op d b : relt (q, Tag t l op, MDataF d b) <> None -> l = 0 /\ blvl l op = 0.
  Proof.
    unfold relt, rel. cbn [fst snd]. intros H. destruct ((l =? 0) && negb (op =? 4)) eqn:E; [|congruence]. apply andb_prop in E. destruct E as [E1 E2].
    apply Nat.eqb_eq in E1. apply negb_true_iff in E2. unfold blvl. rewrite E2. auto.
  Qed.
  Lemma out_rel fl r h K es x : r < P -> okslots o h -> In x (evs (outs o P fl r K h) es) -> relt x <> None -> fst (fst x) = S r.
  Proof.
    intros Hr Hok Hx HR. apply evs_in2 in Hx. destruct Hx as (y & d & Hy & ->). pose proof (outs_in o P HV HP0 HP fl r h Hr Hok K y Hy) as RG.
    apply outs_slot in Hy. destruct Hy as (z & t & Hz & F & E). destruct y as [[q tg] fb]. cbn [fst snd] in E, RG. inversion E; subst q tg.
    unfold ev in HR |- *. cbn [fst snd] in HR |- *. apply rel_slot in HR. destruct HR as [_ HR]. unfold dst in *. rewrite HR in *. apply (dst_0 o P HV HP0 HP). lia.
  Qed.
  Lemma in_rel cl r h K E ds x : r < P -> okslots o h -> In x (evs (ins o P cl r K E h) ds) -> fst (fst x) < r /\ (relt x <> None -> fst (fst x) = r - 1).
  Proof.
    intros Hr Hok Hx. apply evs_in2 in Hx. destruct Hx as (y & d & Hy & ->). pose proof (ins_in o P HV HP0 HP cl r h Hr Hok K E y Hy) as RG.
    split; [exact RG|]. intros HR.
    apply ins_slot in Hy. destruct Hy as (z & t & Hz & F & EE). destruct y as [[q tg] fb]. cbn [fst snd] in EE, RG. inversion EE; subst q tg.
    unfold ev in HR |- *. cbn [fst snd] in HR |- *. apply rel_slot in HR. destruct HR as [_ HR]. unfold src in *. rewrite HR in *. apply (src_0 o P HV HP0 HP); lia.
  Qed.
  Lemma pack_inj x y : good x -> good y -> vpack A x = vpack A y -> x = y.
  Proof. intros Hx Hy E. rewrite <- (fl_pack A good HL x x Hx Hx), E. apply (fl_pack A good HL); auto. Qed.
  Lemma sends_some r : S r < P -> sflag 0 0 r || sflag 0 1 r || sflag 0 7 r = true.
  Proof.
    intros Hr. assert (H0 : 0 < L) by lia. pose proof (own0 r ltac:(lia)) as O1. pose proof (own0 (S r) Hr) as O2.
    pose proof (lo_le_N grids P HP0 HP 0 (S (S r))) as LN.
    assert (H1 : has 0 r = true) by (apply (has_iff o P HP0 HP); auto; lia).
    assert (H2 : more grids P 0 r = true) by (unfold more; apply Nat.ltb_lt; lia).
    unfold Sim.sflag, Sim.cnd. change (blvl 0 0) with 0. change (blvl 0 1) with 0. change (blvl 0 7) with 0. rewrite H1, H2. cbn [andb].
    unfold SetupProofs.isF. destruct (isC 0 (lo 0 (S r) - 1)) eqn:C1, (isC 0 (lo 0 (S r))) eqn:C2; try reflexivity. exfalso.
    unfold SetupProofs.isC in C1, C2. destruct (0 =? L - 1) eqn:EL; [apply Nat.eqb_eq in EL; lia|]. apply memz_in in C1, C2.
    apply (HA 0 (lo 0 (S r) - 1)); [lia| |exact C1|].
    - fold (grid grids 0). change (length (grid grids 0)) with (N 0). lia.
    - replace (S (lo 0 (S r) - 1)) with (lo 0 (S r)) by lia. exact C2.
  Qed.

  (** ** One pass of everybody *)
  Hypothesis Hcrit : is_jump o = true -> forall r, r < P -> sflag 0 7 r = false /\ rflag 0 7 r = false.
  Section Phase.
    Variables (it a b : nat) (K : nat -> nat -> Z) (E : nat -> nat -> nat -> bool) (st : nat -> St A) (i o' : nat -> tr) (out : nat -> list (Sc A) * St A).
    Hypothesis Hab : a <= b.
    Hypothesis Hb : b <= P.
    Hypothesis HR : runs P (data_prog o P it a b st) (data_in o P it a b K E) (data_out o P it a b K) i o' out.
    Hypothesis HVS : forall r, r < P -> VS r (st r).
    Hypothesis Hlink : forall r, r < b -> S r < P -> nth_error (s_u (st (S r)) 0) 0 = lastu r (st r).

    Lemma i_facts r x : r < P -> In x (i r) -> fst (fst x) < r /\ (relt x <> None -> fst (fst x) = r - 1).
    Proof.
      intros Hr Hx. destruct (rn_in _ _ _ _ _ _ _ HR r Hr) as (ds & _ & Ei). rewrite Ei in Hx. unfold data_in in Hx.
      destruct (lt_dec r a); [rewrite kind_gone in Hx by auto; destruct Hx|]. destruct (lt_dec r b).
      - rewrite (kind_clean o P) in Hx by (auto; lia). eapply in_rel; eauto. apply (okslots_clean o P HV HP0 HP).
      - rewrite (kind_run o P) in Hx by (auto; lia). eapply in_rel; eauto. apply (okslots_pass o P HV HP0 HP).
    Qed.
    Lemma o_facts r x : r < P -> In x (o' r) -> relt x <> None -> fst (fst x) = S r.
    Proof.
      intros Hr Hx. destruct (rn_out _ _ _ _ _ _ _ HR r Hr) as (ds & _ & Ei). rewrite Ei in Hx. unfold data_out in Hx.
      destruct (lt_dec r a); [rewrite kind_gone in Hx by auto; destruct Hx|]. destruct (lt_dec r b).
      - rewrite (kind_clean o P) in Hx by (auto; lia). eapply out_rel; eauto. apply (okslots_clean o P HV HP0 HP).
      - rewrite (kind_run o P) in Hx by (auto; lia). eapply out_rel; eauto. apply (okslots_pass o P HV HP0 HP).
    Qed.
    Lemma last_same r : S r < P -> lastd (i (S r)) = lastd (o' r).
    Proof.
      intros Hr. rewrite (lastd_of r (i (S r))), (lastd_of (S r) (o' r)).
      - rewrite (rn_match _ _ _ _ _ _ _ HR r (S r)) by lia. reflexivity.
      - intros x Hx. apply o_facts; auto. lia.
      - intros x Hx Rx. destruct (i_facts (S r) x Hr Hx) as [_ Y]. rewrite Y by auto. lia.
    Qed.
    Lemma i_0 : i 0 = [].
    Proof. destruct (i 0) as [|x t] eqn:Q; [reflexivity|]. destruct (i_facts 0 x HP0) as [X _]; [rewrite Q; left; auto|lia]. Qed.

    (** what a rank does in this pass *)
    Definition did (r : nat) : Prop :=
      (r < a -> out r = ([], st r) /\ i r = [] /\ o' r = []) /\
      (a <= r < b -> cleaned r (st r) (i r) (o' r) (snd (out r))) /\
      (b <= r -> passed r it (st r) (i r) (o' r) (out r)).
    Lemma did_ok r : r < P -> did r -> ok (o' r).
    Proof.
      intros Hr (D1 & D2 & D3). destruct (lt_dec r a) as [X|X]; [destruct (D1 X) as (_ & _ & ->); constructor|].
      destruct (lt_dec r b) as [Y|Y]; [apply (p_ok _ _ _ _ _ (ce_post _ _ _ _ _ (D2 ltac:(lia))))|apply (pa_ok _ _ _ _ _ _ (D3 ltac:(lia)))].
    Qed.
    Lemma did_all r : r < P -> did r.
    Proof.
      induction r as [r IH] using (well_founded_induction lt_wf). intros Hr.
      assert (Hi : ok (i r)).
      { apply (ok_of r (i r) o').
        - intros x Hx. apply (i_facts r x Hr Hx).
        - intros q Hq. apply (rn_match _ _ _ _ _ _ _ HR q r); auto.
        - intros q Hq. apply did_ok; [lia|]. apply IH; lia. }
      pose proof (rn_run _ _ _ _ _ _ _ HR r Hr) as R. unfold data_prog in R. split; [|split].
      - intros X. rewrite kind_gone in R by auto. inversion R; auto.
      - intros X. rewrite (kind_clean o P) in R by (auto; lia). cut_bind2 R i1 p1 s1 i2 p2 R1 R2 Ei Eo.
        apply lrun_ret_inv in R2. destruct R2 as (-> & -> & ->). cbn [snd]. rewrite app_nil_r in Ei, Eo. rewrite Ei, Eo. apply clean_spec; auto. rewrite <- Ei. exact Hi.
      - intros X. rewrite (kind_run o P) in R by (auto; lia). apply pass_spec; auto. intros JJ. apply (Hcrit JJ r Hr).
    Qed.

    Lemma ghost_some r s : r < P -> VS r s -> exists y, nth_error (s_u s 0) 0 = Some y /\ good y.
    Proof.
      intros Hr HS. pose proof (len0 r Hr s HS) as Q. pose proof (v_u _ _ HS 0) as G. destruct (s_u s 0) as [|y ys]; [discriminate|].
      exists y. split; [reflexivity|]. inversion G; auto.
    Qed.
    Lemma did_vs r : r < P -> VS r (snd (out r)).
    Proof.
      intros Hr. destruct (did_all r Hr) as (D1 & D2 & D3). destruct (lt_dec r a) as [X|X]; [destruct (D1 X) as (-> & _); cbn [snd]; auto|].
      destruct (lt_dec r b) as [Y|Y]; [apply (p_vs _ _ _ _ _ (ce_post _ _ _ _ _ (D2 ltac:(lia))))|apply (pa_vs _ _ _ _ _ _ (D3 ltac:(lia)))].
    Qed.
    Lemma did_gh r : r < P -> gh (st r) (i r) (snd (out r)).
    Proof.
      intros Hr. destruct (did_all r Hr) as (D1 & D2 & D3). destruct (lt_dec r a) as [X|X]; [destruct (D1 X) as (-> & -> & _); apply gh_refl|].
      destruct (lt_dec r b) as [Y|Y]; [apply (p_gh _ _ _ _ _ (ce_post _ _ _ _ _ (D2 ltac:(lia))))|apply (pa_gh _ _ _ _ _ _ (D3 ltac:(lia)))].
    Qed.
    Lemma did_first : nth_error (s_u (snd (out 0)) 0) 0 = nth_error (s_u (st 0) 0) 0.
    Proof.
      destruct (ghost_some 0 (st 0) HP0 (HVS 0 HP0)) as (y & Y & _). destruct (did_gh 0 HP0 y Y) as (z & Z & C). rewrite i_0 in C. cbn [lastd] in C. congruence.
    Qed.
    Lemma did_last r : r < b -> r < P -> lastu r (snd (out r)) = lastu r (st r).
    Proof.
      intros Hrb Hr. destruct (did_all r Hr) as (D1 & D2 & _). destruct (lt_dec r a) as [X|X]; [destruct (D1 X) as (-> & _); reflexivity|].
      apply (og_last r Hr). apply (ce_og _ _ _ _ _ (D2 ltac:(lia))).
    Qed.
    Lemma did_link r : S r < P -> nth_error (s_u (snd (out (S r))) 0) 0 = lastu r (snd (out r)).
    Proof.
      intros Hr. assert (Hr' : r < P) by lia. destruct (did_all r Hr') as (D1 & D2 & D3).
      destruct (ghost_some (S r) (st (S r)) Hr (HVS (S r) Hr)) as (y0 & Y0 & G0). destruct (did_gh (S r) Hr y0 Y0) as (z & Z & C).
      destruct (ghost_some (S r) _ Hr (did_vs (S r) Hr)) as (z' & Z' & Gz). assert (z' = z) by congruence. subst z'.
      rewrite last_same in C by auto. rewrite Z. destruct (lt_dec r b) as [Hb'|Hb'].
      - rewrite did_last by auto. rewrite <- Hlink by auto. rewrite Y0. f_equal. destruct (lt_dec r a) as [X|X].
        + destruct (D1 X) as (_ & _ & Eo). rewrite Eo in C. exact C.
        + destruct (lastd (o' r)) as [d|] eqn:Ld; [|exact C]. destruct (D2 ltac:(lia)) as [_ _ CL]. unfold lasts in CL. rewrite Forall_forall in CL.
          assert (Q : exists x, In x (o' r) /\ relt x = Some d).
          { revert Ld. clear. induction (o' r) as [|x t IH]; [discriminate|]. cbn [lastd]. destruct (lastd t).
            - intros Q. destruct (IH Q) as (w & W1 & W2). exists w. split; [right; auto|auto].
            - intros Q. exists x. split; [left; auto|auto]. }
          destruct Q as (x & Hx & Rx). destruct (CL x Hx d Rx) as (w & W1 & W2). rewrite <- Hlink, Y0 in W1 by auto. inversion W1; subst w.
          apply pack_inj; auto. congruence.
      - destruct (pa_last _ _ _ _ _ _ (D3 ltac:(lia)) (sends_some r Hr)) as (w & W1 & W2). rewrite W2 in C. rewrite W1. f_equal. symmetry. apply pack_inj; auto.
        destruct (lastu_some r Hr' _ (did_vs r Hr')) as (w' & W3 & W4). congruence.
    Qed.
    Lemma nth_error_ext {B} (l : list B) : forall l', (forall k, nth_error l k = nth_error l' k) -> l = l'.
    Proof.
      induction l as [|x l IH]; intros [|y l'] H; [reflexivity|discriminate (H 0)|discriminate (H 0)|]. f_equal; [specialize (H 0); simpl in H; congruence|].
      apply IH. intros k. apply (H (S k)).
    Qed.
    Lemma did_keep r : r < b -> r < P -> s_u (snd (out r)) 0 = s_u (st r) 0 /\ s_iter (snd (out r)) = s_iter (st r).
    Proof.
      intros Hrb Hr. destruct (did_all r Hr) as (D1 & D2 & _). destruct (lt_dec r a) as [X|X]; [destruct (D1 X) as (-> & _); auto|].
      destruct (D2 ltac:(lia)) as [Q [G1 G2] _]. split; [|apply (p_iter _ _ _ _ _ Q)]. apply nth_error_ext. intros k.
      destruct k as [|k]; [|apply G2; right; lia]. destruct r as [|q].
      - apply did_first.
      - rewrite did_link by auto. rewrite did_last by lia. symmetry. apply Hlink; [lia|auto].
    Qed.
  End Phase.

  (** ** The invariant of the loop *)
  Definition res_ok (r : nat) (s : St A) : Prop := forall x, In x (own_crit r) -> exists v, resid r s x = Some v /\ sc_lt A v (o_tol o) = true.
  Definition small (r : nat) (s : St A) : Prop := is_jump o = false -> s_iter s = o_max_iter o \/ res_ok r s.
  Record JJ (n : nat) (st : nat -> St A) : Prop := {
    j_vs : forall r, r < P -> VS r (st r);
    j_link : forall r, r < n -> S r < P -> nth_error (s_u (st (S r)) 0) 0 = lastu r (st r);
    j_f : forall r, r < n -> r < P -> Fcons r (st r);
    j_res : forall r, r < n -> r < P -> small r (st r);
    j_first : nth_error (s_u (st 0) 0) 0 = Some (vclone A (tstart A 0))
  }.
  Lemma Fcons_ext r s s' : s_u s' 0 = s_u s 0 -> Fcons r s -> Fcons r s'.
  Proof. intros E H x Hx. specialize (H x Hx). unfold propagate in *. rewrite E. exact H. Qed.
  Lemma resid_ext r s s' x : s_u s' 0 = s_u s 0 -> resid r s' x = resid r s x.
  Proof. intros E. unfold resid, propagate. rewrite E. reflexivity. Qed.
  Lemma small_ext r s s' : s_u s' 0 = s_u s 0 -> s_iter s' = s_iter s -> small r s -> small r s'.
  Proof.
    intros E1 E2 H NJ. destruct (H NJ) as [X|X]; [left; congruence|right]. intros x Hx. rewrite (resid_ext r s s' x E1). apply X; auto.
  Qed.
  Lemma lastu_ext r s s' : s_u s' 0 = s_u s 0 -> lastu r s' = lastu r s.
  Proof. intros E. unfold lastu. rewrite E. reflexivity. Qed.
  Lemma JJ_ext n st st' : (forall r, r < P -> s_u (st' r) = s_u (st r) /\ s_v (st' r) = s_v (st r) /\ s_g (st' r) = s_g (st r) /\ s_iter (st' r) = s_iter (st r)) ->
    JJ n st -> JJ n st'.
  Proof.
    intros E [J1 J2 J3 J4 J5]. split.
    - intros r Hr. destruct (E r Hr) as (E1 & E2 & E3 & _). eapply VS_ext; [exact E1|exact E2|exact E3|auto].
    - intros r Hn Hr. destruct (E r ltac:(lia)) as (E1 & _). destruct (E (S r) Hr) as (E2 & _). rewrite E2. rewrite (lastu_ext r (st r)) by (rewrite E1; auto). auto.
    - intros r Hn Hr. destruct (E r Hr) as (E1 & _). apply (Fcons_ext r (st r)); [rewrite E1; auto|auto].
    - intros r Hn Hr. destruct (E r Hr) as (E1 & _ & _ & E4). apply (small_ext r (st r)); [rewrite E1; auto|auto|auto].
    - destruct (E 0 HP0) as (E1 & _). rewrite E1. auto.
  Qed.
  Lemma sequence_all {B C} (f : B -> option C) (p : C -> bool) l : forall ys, sequence (map f l) = Some ys -> forallb p ys = true ->
    forall x, In x l -> exists y, f x = Some y /\ p y = true.
  Proof.
    induction l as [|z l IH]; intros ys E H x Hx; [destruct Hx|]. simpl in E. destruct (f z) as [y|] eqn:Fz; [|discriminate].
    destruct (sequence (map f l)) as [ys'|] eqn:Q; [|discriminate]. inversion E; subst ys. simpl in H. apply andb_prop in H. destruct H as [H1 H2].
    destruct Hx as [<-|Hx]; [eauto|]. apply (IH ys'); auto.
  Qed.
  Lemma phase_step it a b b' K E st i o' out fs : a <= b -> b <= b' -> b' <= P -> it < o_max_iter o ->
    (forall r, a <= r < P -> here o P K a r (E r) (st r)) ->
    runs P (data_prog o P it a b st) (data_in o P it a b K E) (data_out o P it a b K) i o' out ->
    (forall r, r < b -> fs r = snd (out r)) ->
    (forall r, b <= r < P -> flag_post o P it b (K' o it K) (E' o P it a b E) out r (fs r)) ->
    (forall r, b <= r < b' -> F o it b out r = true) ->
    JJ b st -> JJ b' (fun r => if r <? b then fs r else em o (fs r)).
  Proof.
    intros Hab Hbb Hb Hit _ HR Hfs Hfp HF [J1 J2 J3 J4 J5].
    assert (Hb0 : b <= P) by lia.
    assert (JO : JJ b' (fun r => snd (out r))).
    { split.
      - intros r Hr. apply (did_vs it a b K E st i o' out Hab Hb0 HR J1 r Hr).
      - intros r Hn Hr. apply (did_link it a b K E st i o' out Hab Hb0 HR J1 J2 r Hr).
      - intros r Hn Hr. destruct (lt_dec r b) as [X|X].
        + apply (Fcons_ext r (st r)); [|auto]. apply (did_keep it a b K E st i o' out Hab Hb0 HR J1 J2 r X Hr).
        + destruct (did_all it a b K E st i o' out Hab Hb0 HR J1 r Hr) as (_ & _ & D3). apply (pa_f _ _ _ _ _ _ (D3 ltac:(lia))).
      - intros r Hn Hr. destruct (lt_dec r b) as [X|X].
        + apply (small_ext r (st r)); [| |auto]; apply (did_keep it a b K E st i o' out Hab Hb0 HR J1 J2 r X Hr).
        + intros NJ. destruct (did_all it a b K E st i o' out Hab Hb0 HR J1 r Hr) as (_ & _ & D3). specialize (D3 ltac:(lia)).
          pose proof (HF r ltac:(lia)) as FF. unfold F in FF. rewrite forallb_forall in FF. specialize (FF r ltac:(apply in_seq; lia)). unfold okq in FF.
          apply orb_prop in FF. destruct FF as [FF|FF].
          * right. intros x Hx. apply (sequence_all (resid r (snd (out r))) (fun y => sc_lt A y (o_tol o)) (own_crit r) (fst (out r))); auto.
            apply (pa_res _ _ _ _ _ _ D3 NJ).
          * left. apply Nat.eqb_eq in FF. rewrite (pa_iter _ _ _ _ _ _ D3). exact FF.
      - rewrite <- J5. apply (did_first it a b K E st i o' out Hab Hb0 HR J1). }
    eapply JJ_ext; [|exact JO]. intros r Hr. cbv beta. destruct (r <? b) eqn:Q.
    - apply Nat.ltb_lt in Q. rewrite Hfs by auto. auto.
    - apply Nat.ltb_ge in Q. destruct (fp_same _ _ _ _ _ _ _ _ _ (Hfp r ltac:(lia))) as (X1 & X2 & X3 & X4). unfold em.
      destruct (o_has_output o && _); auto.
  Qed.
  Lemma phase_end it a K E st i o' out : a <= P ->
    (forall r, a <= r < P -> here o P K a r (E r) (st r)) ->
    runs P (data_prog o P it a P st) (data_in o P it a P K E) (data_out o P it a P K) i o' out ->
    JJ P st -> JJ P (fun r => snd (out r)).
  Proof.
    intros Hab _ HR [J1 J2 J3 J4 J5]. split.
    - intros r Hr. apply (did_vs it a P K E st i o' out Hab (le_n P) HR J1 r Hr).
    - intros r Hn Hr. apply (did_link it a P K E st i o' out Hab (le_n P) HR J1 J2 r Hr).
    - intros r Hn Hr. apply (Fcons_ext r (st r)); [|auto]. apply (did_keep it a P K E st i o' out Hab (le_n P) HR J1 J2 r Hn Hr).
    - intros r Hn Hr. apply (small_ext r (st r)); [| |auto]; apply (did_keep it a P K E st i o' out Hab (le_n P) HR J1 J2 r Hn Hr).
    - rewrite <- J5. apply (did_first it a P K E st i o' out Hab (le_n P) HR J1).
  Qed.
  Hypothesis Hrand : forall rnd, o_rand o = Some rnd -> forall r i, good (rnd r i).
  Lemma init_vs r : r < P -> VS r (init_state o r (infos r)).
  Proof.
    intros Hr. split.
    - eapply init_SS; eauto.
    - intros l. cbn [init_state s_u]. unfold init_u.
      assert (G : Forall good (match l, o_rand o with 0, Some rnd => map (rnd r) (seq 0 (length (i_t (inf (infos r) l)))) | _, _ => repeat (vzero A (templ A l)) (length (i_t (inf (infos r) l))) end)).
      { assert (Z : Forall good (repeat (vzero A (templ A l)) (length (i_t (inf (infos r) l))))).
        { apply Forall_forall. intros x Hx. apply repeat_spec in Hx. subst. apply (fl_zero A good HL). apply (fl_templ A good HL). }
        destruct l; [|exact Z]. destruct (o_rand o) as [rnd|] eqn:Q; [|exact Z]. apply Forall_forall. intros x Hx. apply in_map_iff in Hx. destruct Hx as (k & <- & _). eapply Hrand; eauto. }
      cbv zeta. destruct (r =? 0); [|exact G]. apply good_upd; [exact G|]. apply (fl_clone A good HL). apply (fl_tstart A good HL).
    - intros l. cbn [init_state s_v]. apply Forall_forall. intros x Hx. apply repeat_spec in Hx. subst. repeat apply (fl_zero A good HL). apply (fl_templ A good HL).
    - intros l. cbn [init_state s_g]. apply Forall_forall. intros x Hx. apply repeat_spec in Hx. subst. repeat apply (fl_zero A good HL). apply (fl_templ A good HL).
  Qed.
  Lemma init_first : nth_error (s_u (init_state o 0 (infos 0)) 0) 0 = Some (vclone A (tstart A 0)).
  Proof.
    pose proof (len0 0 HP0 _ (init_vs 0 HP0)) as E. cbn [init_state s_u] in *. unfold init_u in *. cbv zeta in *. simpl (0 =? 0) in *. cbv iota in *.
    rewrite upd_length in E. apply upd_nth_same. lia.
  Qed.
  Lemma phase_start (K : nat -> nat -> Z) (E : nat -> nat -> nat -> bool) st :
    (forall r, r < P -> here o P K 0 r (E r) (st r)) -> started o P st -> JJ 0 (fun r => em o (sl o (st r))).
  Proof.
    intros _ HS. assert (JO : JJ 0 st).
    { unfold started in HS. destruct (o_nested o).
      - destruct HS as (I & O & i & o' & HR & Hi).
        assert (G : forall r, r < P -> post r (init_state o r (infos r)) (i r) (o' r) (st r)).
        { intros r. induction r as [r IH] using (well_founded_induction lt_wf). intros Hr. apply nested_ht; auto.
          - apply init_vs; auto.
          - apply (ok_of r (i r) o').
            + intros x Hx. apply (Hi r x Hr Hx).
            + intros q Hq. apply (rn_match _ _ _ _ _ _ _ HR q r); auto.
            + intros q Hq. apply (p_ok _ _ _ _ _ (IH q Hq ltac:(lia))).
          - apply (rn_run _ _ _ _ _ _ _ HR r Hr). }
        split; try lia.
        + intros r Hr. apply (p_vs _ _ _ _ _ (G r Hr)).
        + destruct (p_gh _ _ _ _ _ (G 0 HP0) _ init_first) as (y & Y & C). replace (i 0) with (@nil (nat * mtag * Msg A)) in C.
          * cbn [lastd] in C. congruence.
          * destruct (i 0) as [|x t] eqn:Q; [reflexivity|]. exfalso. pose proof (Hi 0 x HP0) as X. rewrite Q in X. specialize (X (or_introl eq_refl)). lia.
      - split; try lia.
        + intros r Hr. rewrite HS by auto. apply init_vs; auto.
        + rewrite HS by auto. apply init_first. }
    eapply JJ_ext; [|exact JO]. intros r Hr. cbv beta. unfold em, sl. destruct (o_has_output o && _), (is_jump o); auto.
  Qed.

  Hypothesis Hcf : forall l, l < L - 1 -> 1 <= cf_count o l.
  Hypothesis Hnorm : forall r vals, r < P -> length vals = length (own_crit r) ->
    exists x, tnorm A vals = Some x /\ (forallb (fun y => sc_lt A y (o_tol o)) vals = true -> sc_lt A x (o_tol o) = true).
  Theorem local_values : check o P = None -> 0 < o_max_iter o -> exists fin, phase P (fun r => mgrit_main o P r) fin /\ JJ P fin.
  Proof.
    intros Hc Hm. destruct (local_main_inv o P HV HP0 HP Hloc Hperm Hcf Hdist Hcrit Hnorm (fun _ _ b st => JJ b st) (JJ P)) as (fin & H1 & H2); auto.
    - intros it a b b' K E st i o' out fs X1 X2 X3 X4 X5 X6 X7 X8 X9 X10. apply (phase_step it a b b' K E st i o' out fs); auto.
    - intros it a K E st i o' out X1 X2 X3 X4. apply (phase_end it a K E st i o' out); auto.
    - intros K E st X1 X2. apply (phase_start K E); auto.
    - exists (fun r => em1 o (fin r)). split; [exact H1|]. apply (JJ_ext P fin); [|auto]. intros r Hr. unfold em1. destruct (o_has_output o && _); auto.
  Qed.

  (** ** The points of all ranks together *)
  Lemma JJ_global fin : JJ P fin -> exists U : nat -> Vec A,
    gathered P (fun r => s_u (fin r) 0) = map U (seq 0 (N 0)) /\ U 0 = vclone A (tstart A 0) /\
    (forall x, x < N 0 -> isC 0 x = false -> U x = phi A 0 (U (x - 1)) (nth (x - 1) (nth 0 grids []) 0%Z) (nth x (nth 0 grids []) 0%Z)) /\
    (is_jump o = false -> forall r x, r < P -> In x (own_crit r) -> s_iter (fin r) <> o_max_iter o ->
       sc_lt A (vnorm A (vsub A (phi A 0 (U (x - 1)) (nth (x - 1) (nth 0 grids []) 0%Z) (nth x (nth 0 grids []) 0%Z)) (U x))) (o_tol o) = true).
  Proof.
    intros [J1 J2 J3 J4 J5]. assert (H0 : 0 < L) by lia.
    set (U := fun x => nth (loc 0 (owner grids P 0 x) x) (s_u (fin (owner grids P 0 x)) 0) (templ A 0)).
    assert (HU : forall r x, r < P -> lo 0 r <= x < lo 0 (S r) -> nth_error (s_u (fin r) 0) (loc 0 r x) = Some (U x)).
    { intros r x Hr Hx. unfold U. rewrite (owner_eq grids P HV HP0 HP 0 r x) by auto. apply nth_error_nth'. rewrite (w_u _ _ _ _ (v_w _ _ (J1 r Hr))) by auto.
      pose proof (loc_bound o P HV HP0 HP 0 r x H0 Hr Hx). lia. }
    assert (HG : forall r x, r < P -> lo 0 r <= x < lo 0 (S r) -> 0 < x -> nth_error (s_u (fin r) 0) (loc 0 r x - 1) = Some (U (x - 1))).
    { intros r x Hr Hx Hx0. destruct (Nat.eq_dec x (lo 0 r)) as [->|Hn].
      - rewrite loc_lo by auto. destruct r as [|q]; [rewrite (lo_0 grids P HV HP0 HP) in Hx0 by auto; lia|]. simpl (1 - 1). rewrite J2 by lia.
        unfold lastu. pose proof (own0 q ltac:(lia)). apply HU; lia.
      - rewrite loc_own by auto. apply HU; auto. lia. }
    assert (HT' : forall r x, r < P -> lo 0 r <= x < lo 0 (S r) -> 0 < x ->
               nth_error (i_t (info 0 r)) (loc 0 r x - 1) = Some (nth (x - 1) (nth 0 grids []) 0%Z) /\
               nth_error (i_t (info 0 r)) (loc 0 r x) = Some (nth x (nth 0 grids []) 0%Z)).
    { intros r x Hr Hx Hx0. pose proof (loc_ge o P HV HP0 HP 0 r x H0 Hr Hx Hx0).
      pose proof (tms_prev o P HV HP0 HP 0 r x H0 Hr Hx Hx0) as T1. pose proof (tms_nth o P HV HP0 HP 0 r x H0 Hr Hx) as T2.
      rewrite py_nth_pred in T1 by lia. rewrite py_nth_nat in T2. split; assumption. }
    exists U. split; [|split; [|split]].
    - apply (ows_gathered_gen o P _ U HV HA HP0 HP Hperm Hresp). intros r Hr. split.
      + apply (w_u _ _ _ _ (v_w _ _ (J1 r Hr))). auto.
      + intros x Hx. apply HU; auto.
    - pose proof (own0 0 HP0). pose proof (HU 0 0 HP0) as X. rewrite (lo_0 grids P HV HP0 HP) in X by auto.
      assert (E : loc 0 0 0 = 0) by (unfold SetupProofs.loc, SetupProofs.off; simpl; lia). rewrite E in X.
      rewrite X in J5 by (rewrite (lo_0 grids P HV HP0 HP) in H by auto; lia). congruence.
    - intros x Hx HC. pose proof (owner_spec grids P HV HP0 HP 0 x H0 Hx) as [Hr Hxo]. set (r := owner grids P 0 x) in *.
      assert (Hx0 : 0 < x). { destruct x; [|lia]. rewrite (isC_0 grids P HV HP0 HP) in HC by auto. discriminate. }
      assert (HF : In x (fps2 0 r)) by (apply (fps2_in grids so P HV HP0 HP); auto).
      pose proof (J3 r Hr Hr x HF) as E. pose proof (loc_ge o P HV HP0 HP 0 r x H0 Hr Hxo Hx0). rewrite propagate_0 in E by lia.
      rewrite HG in E by auto. destruct (HT' r x Hr Hxo Hx0) as [T1 T2]. rewrite T1, T2, HU in E by auto. congruence.
    - intros NJ r x Hr Hx Hit. destruct (J4 r Hr Hr NJ) as [X|X]; [contradiction|]. destruct (X x Hx) as (v & Ev & Hv).
      unfold Sim.own_crit in Hx. apply filter_In in Hx. destruct Hx as [Hx Hx0]. apply Nat.ltb_lt in Hx0. apply (cps_in o P HV HP0 HP) in Hx; auto. destruct Hx as [Hxo _].
      unfold resid in Ev. pose proof (loc_ge o P HV HP0 HP 0 r x H0 Hr Hxo Hx0). rewrite propagate_0 in Ev by lia.
      rewrite HG in Ev by auto. destruct (HT' r x Hr Hxo Hx0) as [T1 T2]. rewrite T1, T2, HU in Ev by auto. inversion Ev; subst v. exact Hv.
  Qed.
End LocalValues.
