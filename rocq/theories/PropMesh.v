(** C49: unknowns of the induction machine's meshes. The dictionaries read from a .pre file, the index maps between the unknowns of
    two meshes, and when the interpolation built on them works. *)
From Coq Require Import Ascii String List ZArith Lia Arith Bool Reals Lra.
From Verif Require Import PyList ListFacts Getdp Vectors LinAlg Mesh PropVectors PropGetdp.
Import ListNotations.
Local Open Scope nat_scope.
Local Open Scope list_scope.

(** ** pre_file *)
(** A row (node, number) of the file belongs to an unknown unless its number is 0, -1 or 1. *)
Definition numbered (p : text * text) : bool :=
  negb (text_eqb (snd p) (tx "0")) && negb (text_eqb (snd p) (tx "-1")) && negb (text_eqb (snd p) (tx "1")).
Definition swap {X Y} (p : X * Y) : Y * X := (snd p, fst p).
Definition row_of (line : text) (p : text * text) : Prop := nth_error (split line) 1 = Some (fst p) /\ nth_error (split line) 4 = Some (snd p).

Lemma text_eqb_spec a b : reflect (a = b) (text_eqb a b).
Proof. unfold text_eqb. destruct (list_eq_dec ascii_dec a b); constructor; auto. Qed.
Lemma dset_new {X} (d : dict X) k v : ~ In k (map fst d) -> dset d k v = d ++ [(k, v)].
Proof.
  induction d as [|[k' v'] d IH]; intros H; [reflexivity|]. cbn [dset]. destruct (text_eqb_spec k k') as [->|E].
  - exfalso. apply H. left. reflexivity.
  - rewrite IH; [reflexivity|]. intros X0. apply H. right. exact X0.
Qed.
Lemma pre_rows_spec rows : forall ps d1 d2 b, Forall2 row_of rows ps ->
  NoDup (map fst d1 ++ map fst (filter numbered ps)) -> NoDup (map fst d2 ++ map snd (filter numbered ps)) ->
  pre_rows rows (d1, d2, b) =
    inl (d1 ++ filter numbered ps, d2 ++ map swap (filter numbered ps), b ++ map fst (filter (fun p => negb (numbered p)) ps)).
Proof.
  induction rows as [|l rows IH]; intros ps d1 d2 b H N1 N2; inversion H as [|? p ? ps' [H1 H2] H']; subst.
  - cbn. rewrite !app_nil_r. reflexivity.
  - cbn [pre_rows]. unfold pre_row. rewrite H1, H2. cbn [of_opt rbind]. fold (numbered p). cbn [filter] in *.
    change (negb (text_eqb (snd p) (tx "0")) && negb (text_eqb (snd p) (tx "-1")) && negb (text_eqb (snd p) (tx "1"))) with (numbered p).
    destruct (numbered p) eqn:E; cbn [negb rbind].
    + cbn [map] in N1, N2. rewrite dset_new by (intros X; apply NoDup_remove_2 in N1; apply N1; apply in_or_app; left; exact X).
      rewrite dset_new by (intros X; apply NoDup_remove_2 in N2; apply N2; apply in_or_app; left; exact X).
      rewrite (IH ps').
      * destruct p. cbn [map swap fst snd]. rewrite <- !app_assoc. reflexivity.
      * exact H'.
      * rewrite map_app, <- app_assoc. exact N1.
      * rewrite map_app, <- app_assoc. exact N2.
    + rewrite (IH ps' _ _ _ H' N1 N2). cbn [map]. rewrite <- app_assoc. reflexivity.
Qed.
Lemma dget_in {X} (d : dict X) k v : NoDup (map fst d) -> In (k, v) d -> dget d k = Some v.
Proof.
  induction d as [|[k' v'] d IH]; intros N H; [destruct H|]. cbn [dget map fst] in *. inversion N as [|? ? Hn N']; subst.
  destruct (text_eqb_spec k k') as [->|E].
  - destruct H as [H|H]; [congruence|]. exfalso. apply Hn. apply in_map_iff. exists (k', v). auto.
  - apply IH; [exact N'|]. destruct H as [H|H]; [congruence|exact H].
Qed.
Lemma dget_some {X} (d : dict X) k v : dget d k = Some v -> In (k, v) d.
Proof.
  induction d as [|[k' v'] d IH]; intros H; [discriminate|]. cbn [dget] in H. destruct (text_eqb_spec k k') as [->|E]; [left; congruence|right; auto].
Qed.

(** If no node and no number occurs twice, both dictionaries list the numbered nodes in the order of the file and are inverse to
    each other; the other nodes are the boundary. *)
Theorem C49_dictionaries : forall file before rows after ps,
  readlines file = before ++ rows ++ after -> length before = 9 -> length after = 35 -> Forall2 row_of rows ps ->
  NoDup (map fst (filter numbered ps)) -> NoDup (map snd (filter numbered ps)) ->
  exists cor_to_un un_to_cor boundary, pre_file file = inl (cor_to_un, un_to_cor, boundary) /\
    cor_to_un = filter numbered ps /\ length un_to_cor = length cor_to_un /\
    (forall node number, dget cor_to_un node = Some number <-> dget un_to_cor number = Some node) /\
    boundary = map fst (filter (fun p => negb (numbered p)) ps).
Proof.
  intros file before rows after ps E L1 L2 H N1 N2. unfold pre_file. rewrite E, !app_length, L1, L2.
  replace (9 + (length rows + 35) - 35 - 9) with (length rows) by lia.
  rewrite skipn_app, skipn_all2, L1 by lia. cbn [app Nat.sub skipn]. rewrite firstn_app, firstn_all, Nat.sub_diag. cbn [firstn]. rewrite app_nil_r.
  rewrite (pre_rows_spec rows ps [] [] []); auto. cbn [app].
  exists (filter numbered ps), (map swap (filter numbered ps)), (map fst (filter (fun p => negb (numbered p)) ps)).
  split; [reflexivity|]. split; [reflexivity|]. split; [apply map_length|]. split; [|reflexivity].
  assert (N2' : NoDup (map fst (map swap (filter numbered ps)))) by (rewrite map_map; exact N2).
  intros node number. split; intros D.
  - apply dget_in; [exact N2'|]. apply in_map_iff. exists (node, number). split; [reflexivity|]. apply dget_some. exact D.
  - apply dget_in; [exact N1|]. apply dget_some in D. apply in_map_iff in D as ([n k] & D1 & D2). cbn in D1. injection D1 as -> ->. exact D2.
Qed.

(** ** Index maps *)
Record coords_ok (C : Coords) : Prop := {
  eqb_ok : forall a b, coord_eqb C a b = true <-> a = b;
  disjoint_ok : forall p, inner C p = true -> outer C p = true -> False
}.
(** p is on the vertical or on the horizontal line through q *)
Definition aligned {X : Type} (p q : X * X) : Prop := fst p = fst q \/ snd p = snd q.

Section Fill.
  Context {X : Type}.
  Variables a b : X -> bool.
  Fixpoint fill2 (i : nat) (pts : list X) (k s : nat) (mi mo : list nat) : res (list nat * list nat) :=
    match pts with
    | [] => inl (mi, mo)
    | p :: pts' =>
        ks <-- (if a p then mi <-- put_index mi k i ;; inl (S k, mi) else inl (k, mi)) ;;
        ss <-- (if b p then mo <-- put_index mo s i ;; inl (S s, mo) else inl (s, mo)) ;;
        fill2 (S i) pts' (fst ks) (fst ss) (snd ks) (snd ss)
    end.
  Definition write (m : list nat) (k : nat) (l : list nat) : list nat := firstn k m ++ l ++ skipn (k + length l) m.
  Lemma write_nil m k : write m k [] = m.
  Proof. unfold write. cbn [app length]. rewrite Nat.add_0_r. apply firstn_skipn. Qed.
  Lemma upd_length' (m : list nat) k i : length (upd m k i) = length m.
  Proof. revert k. induction m as [|x m IH]; intros [|k]; cbn; auto. Qed.
  Lemma firstn_upd (m : list nat) k i : k < length m -> firstn (S k) (upd m k i) = firstn k m ++ [i].
  Proof.
    revert k. induction m as [|x m IH]; intros k H; [cbn in H; lia|]. destruct k as [|k]; [reflexivity|]. cbn [upd].
    rewrite !firstn_cons. cbn [app]. f_equal. apply IH. cbn in H. lia.
  Qed.
  Lemma skipn_upd (m : list nat) k i n : k < n -> skipn n (upd m k i) = skipn n m.
  Proof.
    revert k n. induction m as [|x m IH]; intros k n H; [reflexivity|]. destruct n as [|n]; [lia|]. destruct k as [|k]; [reflexivity|].
    cbn [upd skipn]. apply IH. lia.
  Qed.
  Lemma write_upd m k i l : k < length m -> write (upd m k i) (S k) l = write m k (i :: l).
  Proof.
    intros H. unfold write. rewrite firstn_upd by exact H. rewrite skipn_upd by lia. rewrite <- app_assoc. cbn [app length].
    replace (k + S (length l)) with (S k + length l) by lia. reflexivity.
  Qed.
  Lemma where_length (f : X -> bool) l : forall i, length (where_from i f l) = length (filter f l).
  Proof. induction l as [|x l IH]; intros i; [reflexivity|]. cbn [where_from filter]. destruct (f x); cbn [length]; rewrite IH; reflexivity. Qed.
  Lemma fill2_spec pts : forall i k s mi mo, k <= length mi -> s <= length mo ->
    fill2 i pts k s mi mo =
      if (k + length (filter a pts) <=? length mi) && (s + length (filter b pts) <=? length mo)
      then inl (write mi k (where_from i a pts), write mo s (where_from i b pts)) else inr EIndex.
  Proof.
    induction pts as [|p pts IH]; intros i k s mi mo Hk Hs.
    - cbn. rewrite !Nat.add_0_r, (proj2 (Nat.leb_le _ _) Hk), (proj2 (Nat.leb_le _ _) Hs), !write_nil. reflexivity.
    - cbn [fill2 filter where_from]. unfold put_index.
      destruct (a p) eqn:Ea; [destruct (Nat.ltb_spec k (length mi)) as [Lk|Lk]|]; cbn [rbind fst snd].
      + destruct (b p) eqn:Eb; [destruct (Nat.ltb_spec s (length mo)) as [Ls|Ls]|]; cbn [rbind fst snd].
        * rewrite IH by (rewrite upd_length'; lia). rewrite !upd_length'. cbn [length]. rewrite !Nat.add_succ_r. cbn [Nat.add].
          rewrite !write_upd by assumption. reflexivity.
        * cbn [length]. rewrite (proj2 (Nat.leb_gt (s + S (length (filter b pts))) _)) by lia. rewrite andb_false_r. reflexivity.
        * rewrite IH by (rewrite ?upd_length'; lia). rewrite !upd_length'. cbn [length]. rewrite !Nat.add_succ_r. cbn [Nat.add].
          rewrite !write_upd by assumption. reflexivity.
      + cbn [length]. rewrite (proj2 (Nat.leb_gt (k + S (length (filter a pts))) _)) by lia. reflexivity.
      + destruct (b p) eqn:Eb; [destruct (Nat.ltb_spec s (length mo)) as [Ls|Ls]|]; cbn [rbind fst snd].
        * rewrite IH by (rewrite ?upd_length'; lia). rewrite !upd_length'. cbn [length]. rewrite !Nat.add_succ_r. cbn [Nat.add].
          rewrite !write_upd by assumption. reflexivity.
        * cbn [length]. rewrite (proj2 (Nat.leb_gt (s + S (length (filter b pts))) _)) by lia. rewrite andb_false_r. reflexivity.
        * apply IH; lia.
  Qed.
  Lemma where_ext (f g : X -> bool) l : (forall x, In x l -> f x = g x) -> forall i, where_from i f l = where_from i g l.
  Proof.
    induction l as [|x l IH]; intros H i; [reflexivity|]. cbn [where_from]. rewrite (H x (or_introl eq_refl)), IH by (intros; apply H; right; assumption). reflexivity.
  Qed.
  (** superset with at most as many elements: the same *)
  Lemma filter_le (f g : X -> bool) l : (forall x, In x l -> f x = true -> g x = true) -> length (filter f l) <= length (filter g l).
  Proof.
    induction l as [|x l IH]; intros H; [reflexivity|]. cbn [filter]. specialize (IH (fun y Hy => H y (or_intror Hy))).
    pose proof (H x (or_introl eq_refl)) as Hx. destruct (f x); [rewrite (Hx eq_refl); cbn [length]; lia|]. destruct (g x); cbn [length]; lia.
  Qed.
  Lemma filter_more (f g : X -> bool) l : (forall x, In x l -> f x = true -> g x = true) ->
    length (filter g l) <= length (filter f l) -> forall x, In x l -> f x = g x.
  Proof.
    induction l as [|y l IH]; intros H L x Hx; [destruct Hx|]. cbn [filter] in L.
    pose proof (filter_le f g l (fun z Hz => H z (or_intror Hz))) as LE. pose proof (H y (or_introl eq_refl)) as Hy.
    assert (E : f y = g y /\ length (filter g l) <= length (filter f l)).
    { destruct (f y); [rewrite (Hy eq_refl) in *; cbn [length] in L; split; [reflexivity|lia]|]. destruct (g y); cbn [length] in L; [lia|]. split; [reflexivity|exact L]. }
    destruct E as [E1 E2]. destruct Hx as [->|Hx]; [exact E1|]. apply IH; auto. intros z Hz. apply H. right. exact Hz.
  Qed.
  (** arrays that fit exactly *)
  Lemma fill2_fit pts (inn out : X -> bool) : (forall x, In x pts -> inn x = true -> a x = true) -> (forall x, In x pts -> out x = true -> b x = true) ->
    let r := fill2 0 pts 0 0 (repeat 0 (length (filter inn pts))) (repeat 0 (length (filter out pts))) in
    ((forall x, In x pts -> a x = inn x /\ b x = out x) -> r = inl (np_where inn pts, np_where out pts)) /\
    ((exists x, In x pts /\ (a x <> inn x \/ b x <> out x)) -> r = inr EIndex).
  Proof.
    intros Ha Hb r. unfold r. rewrite fill2_spec by lia. cbn [Nat.add]. rewrite !repeat_length. split.
    - intros H. assert (Fa : filter a pts = filter inn pts) by (apply filter_ext_in; intros x Hx; apply H; exact Hx).
      assert (Fb : filter b pts = filter out pts) by (apply filter_ext_in; intros x Hx; apply H; exact Hx).
      rewrite Fa, Fb, !Nat.leb_refl. cbn [andb]. unfold write. cbn [firstn app Nat.add].
      rewrite !where_length, Fa, Fb, !skipn_all2, !app_nil_r by (rewrite repeat_length; lia).
      unfold np_where. do 2 f_equal; apply where_ext; intros x Hx; apply H; exact Hx.
    - intros (x & Hx & H). destruct (Nat.leb_spec (length (filter a pts)) (length (filter inn pts))) as [L1|L1]; [|reflexivity].
      destruct (Nat.leb_spec (length (filter b pts)) (length (filter out pts))) as [L2|L2]; [|reflexivity]. exfalso.
      destruct H as [H|H]; apply H; symmetry; [apply (filter_more inn a pts)|apply (filter_more out b pts)]; auto.
  Qed.
End Fill.

Section Maps.
  Variable C : Coords.
  Hypothesis HC : coords_ok C.
  Notation point := (coord C * coord C)%type.

  Lemma np_in_iff (p : point) l : np_in C p l = true <-> exists q, In q l /\ aligned p q.
  Proof.
    unfold np_in. rewrite existsb_exists. split; intros (q & Hq & H); exists q; (split; [exact Hq|]).
    - apply orb_true_iff in H as [H|H]; apply (eqb_ok C HC) in H; [left|right]; exact H.
    - apply orb_true_iff. destruct H as [H|H]; [left|right]; apply (eqb_ok C HC); exact H.
  Qed.
  Lemma np_in_self (p : point) f l : In p l -> f p = true -> np_in C p (filter f l) = true.
  Proof. intros H1 H2. apply np_in_iff. exists p. split; [apply filter_In; auto|left; reflexivity]. Qed.

  Lemma map_all_fill i pts ins outs k s mi mo : map_all C i pts ins outs k s mi mo = fill2 (fun p => np_in C p ins) (fun p => np_in C p outs) i pts k s mi mo.
  Proof.
    revert i k s mi mo. induction pts as [|p pts IH]; intros; [reflexivity|]. cbn [map_all fill2].
    destruct (np_in C p ins), (np_in C p outs); cbn [rbind fst snd]; try (destruct (put_index mi k i); cbn [rbind fst snd]; [|reflexivity]);
      try (destruct (put_index mo s i); cbn [rbind fst snd]; [|reflexivity]); apply IH.
  Qed.
  Lemma map_new_fill i pts ins outs k s mi mo :
    map_new C i pts ins outs k s mi mo = fill2 (fun p => np_in C p ins) (fun p => negb (np_in C p ins) && np_in C p outs) i pts k s mi mo.
  Proof.
    revert i k s mi mo. induction pts as [|p pts IH]; intros; [reflexivity|]. cbn [map_new fill2].
    destruct (np_in C p ins), (np_in C p outs); cbn [rbind fst snd negb andb]; try (destruct (put_index mi k i); cbn [rbind fst snd]; [|reflexivity]);
      try (destruct (put_index mo s i); cbn [rbind fst snd]; [|reflexivity]); apply IH.
  Qed.
End Maps.

(** Points on a common horizontal or vertical line are on the same side of the air gap. *)
Definition separated (C : Coords) (pts : list (coord C * coord C)) : Prop :=
  forall p q, In p pts -> In q pts -> aligned p q -> inner C p = inner C q /\ outer C p = outer C q.
Lemma np_in_separated C pts p : coords_ok C -> separated C pts -> In p pts ->
  np_in C p (filter (inner C) pts) = inner C p /\ np_in C p (filter (outer C) pts) = outer C p.
Proof.
  intros HC H Hp. split; [destruct (inner C p) eqn:E|destruct (outer C p) eqn:E]; try (apply np_in_self; auto; fail);
    apply not_true_is_false; intros X; apply (np_in_iff C HC) in X as (q & Hq & Al); apply filter_In in Hq as [Hq1 Hq2];
    destruct (H p q Hp Hq1 Al) as [H1 H2]; congruence.
Qed.
Lemma traverse_ok {X Y} (f : X -> option Y) e l ys : map f l = map Some ys -> traverse (fun x => of_opt e (f x)) l = inl ys.
Proof.
  revert ys. induction l as [|x l IH]; intros [|y ys] H; try discriminate; [reflexivity|]. cbn [map traverse] in *. injection H as H1 H2.
  rewrite H1. cbn [of_opt rbind]. rewrite (IH ys H2). reflexivity.
Qed.

(** The index maps list the positions of the unknowns inside and outside the air gap, in ascending order. *)
Theorem C49_index_maps : forall C, coords_ok C -> forall nodes un_to_cor boundary start unk bou,
  map (fun e => dget nodes (snd e)) un_to_cor = map Some unk -> map (dget nodes) boundary = map Some bou -> separated C unk ->
  get_arrays C nodes un_to_cor boundary start =
    inl (mkArrays C unk (unk ++ bou) (np_where (inner C) unk) (np_where (outer C) unk)
           (skipn start unk) (np_where (inner C) (skipn start unk)) (np_where (outer C) (skipn start unk))).
Proof.
  intros C HC nodes un boundary start unk bou H1 H2 Sep. unfold get_arrays.
  rewrite (traverse_ok _ _ _ _ H1). cbn [rbind]. rewrite (traverse_ok _ _ _ _ H2). cbn [rbind].
  set (new := skipn start unk).
  assert (SN : separated C new).
  { intros p q Hp Hq. apply Sep; [rewrite <- (firstn_skipn start unk)|rewrite <- (firstn_skipn start unk)]; apply in_or_app; right; assumption. }
  rewrite map_new_fill, map_all_fill.
  assert (HB : forall x, In x new -> outer C x = true -> negb (np_in C x (filter (inner C) new)) && np_in C x (filter (outer C) new) = true).
  { intros x Hx Ox. destruct (np_in_separated C new x HC SN Hx) as [-> ->].
    destruct (inner C x) eqn:I; [exfalso; exact (disjoint_ok C HC x I Ox)|exact Ox]. }
  rewrite (proj1 (fill2_fit _ _ new (inner C) (outer C) (fun x Hx Ix => np_in_self C HC x _ _ Hx Ix) HB)).
  - cbn [rbind].
    rewrite (proj1 (fill2_fit _ _ unk (inner C) (outer C)
      (fun x Hx Ix => np_in_self C HC x _ _ Hx Ix) (fun x Hx Ox => np_in_self C HC x _ _ Hx Ox))).
    + cbn [rbind fst snd]. reflexivity.
    + intros x Hx. apply np_in_separated; auto.
  - intros x Hx. destruct (np_in_separated C new x HC SN Hx) as [-> ->]. split; [reflexivity|].
    destruct (inner C x) eqn:I, (outer C x) eqn:O; auto. exfalso. exact (disjoint_ok C HC x I O).
Qed.
(** Otherwise the constructor of GridTransferMachine fails: "in" on a two-dimensional array compares single coordinates, so a point
    is also counted for the other side of the air gap and the index array is too short. *)
Theorem C49_aligned_fails : forall C, coords_ok C -> forall nodes un_to_cor boundary start unk bou p q,
  map (fun e => dget nodes (snd e)) un_to_cor = map Some unk -> map (dget nodes) boundary = map Some bou ->
  In p unk -> In q unk -> aligned p q -> inner C p <> inner C q \/ outer C p <> outer C q ->
  get_arrays C nodes un_to_cor boundary start = inr EIndex.
Proof.
  intros C HC nodes un boundary start unk bou p q H1 H2 Hp Hq Al D. unfold get_arrays.
  rewrite (traverse_ok _ _ _ _ H1). cbn [rbind]. rewrite (traverse_ok _ _ _ _ H2). cbn [rbind].
  rewrite map_new_fill, map_all_fill. rewrite fill2_spec by lia.
  match goal with |- context [if ?c then inl _ else inr EIndex] => destruct c end; [|reflexivity]. cbn [rbind].
  rewrite (proj2 (fill2_fit _ _ unk (inner C) (outer C)
    (fun x Hx Ix => np_in_self C HC x _ _ Hx Ix) (fun x Hx Ox => np_in_self C HC x _ _ Hx Ox))); [reflexivity|].
  assert (Al' : aligned q p) by (destruct Al; [left|right]; symmetry; assumption).
  assert (K : forall f : coord C * coord C -> bool, f p <> f q -> exists x, In x unk /\ np_in C x (filter f unk) <> f x).
  { intros f Hf. destruct (f p) eqn:Ep, (f q) eqn:Eq; try congruence.
    - exists q. split; [exact Hq|]. rewrite Eq. intros X. rewrite (proj2 (np_in_iff C HC _ _)) in X; [discriminate|]. exists p. split; [apply filter_In; auto|exact Al'].
    - exists p. split; [exact Hp|]. rewrite Ep. intros X. rewrite (proj2 (np_in_iff C HC _ _)) in X; [discriminate|]. exists q. split; [apply filter_In; auto|exact Al]. }
  destruct D as [D|D]; apply K in D as (x & Hx & D); exists x; auto.
Qed.

(** ** Interpolation between two meshes *)
Lemma where_at {X} (f : X -> bool) (val : X -> R) pts : forall pre,
  map (at_ (map val (pre ++ pts))) (where_from (length pre) f pts) = map val (filter f pts).
Proof.
  induction pts as [|p pts IH]; intros pre; [reflexivity|]. cbn [where_from filter].
  assert (IH' := IH (pre ++ [p])). rewrite app_length in IH'. cbn [length] in IH'. rewrite Nat.add_1_r, <- app_assoc in IH'. cbn [app] in IH'.
  destruct (f p); [|exact IH']. cbn [map]. rewrite IH'. f_equal. unfold at_. rewrite map_app, app_nth2; rewrite map_length; [|lia].
  rewrite Nat.sub_diag. reflexivity.
Qed.
Lemma repeat_zero {X} (val : X -> R) l : (forall p, In p l -> val p = 0%R) -> repeat 0%R (length l) = map val l.
Proof. induction l as [|p l IH]; intros H; [reflexivity|]. cbn. rewrite H, IH; auto; [|left; reflexivity]. intros q Hq. apply H. right. exact Hq. Qed.
Lemma set_where {X} (f : X -> bool) (val : X -> R) (d : X) pts : forall k l, k + length pts <= length l ->
  exists l', set_at l (where_from k f pts) (map val (filter f pts)) = Some l' /\ length l' = length l /\
    forall i, at_ l' i = if (k <=? i) && (i <? k + length pts) && f (nth (i - k) pts d) then val (nth (i - k) pts d) else at_ l i.
Proof.
  induction pts as [|p pts IH]; intros k l H.
  - exists l. split; [reflexivity|]. split; [reflexivity|]. intros i. cbn [length]. rewrite Nat.add_0_r.
    destruct (Nat.leb_spec k i); [|reflexivity]. rewrite (proj2 (Nat.ltb_ge i k)) by lia. reflexivity.
  - cbn [length] in H. cbn [where_from filter].
    assert (Q : forall i, (S k <=? i) && (i <? S k + length pts) = negb (i =? k) && ((k <=? i) && (i <? k + length (p :: pts)))).
    { intros i. cbn [length]. destruct (Nat.eqb_spec i k); [subst; rewrite (proj2 (Nat.leb_gt (S k) k)) by lia; reflexivity|]. cbn [negb andb].
      f_equal; [destruct (Nat.leb_spec (S k) i), (Nat.leb_spec k i); auto; lia|f_equal; lia]. }
    destruct (f p) eqn:Ef.
    + cbn [map set_at]. rewrite (proj2 (Nat.ltb_lt k (length l))) by lia.
      destruct (IH (S k) (upd_at l k (val p))) as (l' & E & L & At); [rewrite upd_at_length; lia|]. exists l'. split; [exact E|].
      rewrite upd_at_length in L. split; [exact L|]. intros i. rewrite At, Q. destruct (Nat.eqb_spec i k) as [->|Ne]; cbn [negb andb].
      * rewrite at_upd_at by lia. rewrite Nat.eqb_refl, Nat.sub_diag, Nat.leb_refl, (proj2 (Nat.ltb_lt k _)) by (cbn [length]; lia). cbn [nth]. rewrite Ef. reflexivity.
      * destruct (Nat.leb_spec k i); cbn [andb]; [|rewrite at_upd_at by lia; rewrite (proj2 (Nat.eqb_neq i k) Ne); reflexivity].
        replace (i - k) with (S (i - S k)) by lia. cbn [nth]. rewrite at_upd_at by lia. rewrite (proj2 (Nat.eqb_neq i k) Ne). reflexivity.
    + destruct (IH (S k) l) as (l' & E & L & At); [lia|]. exists l'. split; [exact E|]. split; [exact L|].
      intros i. rewrite At, Q. destruct (Nat.eqb_spec i k) as [->|Ne]; cbn [negb andb].
      * rewrite Nat.sub_diag. cbn [nth]. rewrite Ef, andb_false_r. reflexivity.
      * destruct (Nat.leb_spec k i); cbn [andb]; [|reflexivity]. replace (i - k) with (S (i - S k)) by lia. reflexivity.
Qed.
Lemma where_below {X} (f : X -> bool) l i : In i (np_where f l) -> i < length l.
Proof. destruct l as [|x l]; [intros []|]. intros H. apply (np_where_in f (x :: l) i x) in H. apply H. Qed.

(** The weighted sum of the values of a function at the vertices. *)
Definition weighted {X} (val : X -> R) (vertices : list X) (weights : list R) : R :=
  fold_right Rplus 0%R (map (fun p => (val (fst p) * snd p)%R) (combine vertices weights)).
(** Vertices are coarse points, and the weights of every fine point give the value of the function there. *)
Definition reproduces {X} (val : X -> R) (coarse fine : list X) (w : list (list nat) * list (list R)) : Prop :=
  length (snd w) = length (fst w) /\
  Forall2 (fun q p => exists vs, map (nth_error coarse) (fst p) = map Some vs /\ weighted val vs (snd p) = val q) fine (combine (fst w) (snd w)).

Lemma transfer_spec {X} (val : X -> R) (f : X -> bool) unk bou fine w :
  (forall p, In p bou -> val p = 0%R) -> reproduces val (filter f (unk ++ bou)) fine w ->
  mesh_transfer (map (at_ (map val unk)) (np_where f unk)) (fst w) (snd w) (length (filter f (unk ++ bou)) - length (filter f unk)) = map val fine /\
  forallb (forallb (fun i => i <? length (np_where f unk) + (length (filter f (unk ++ bou)) - length (filter f unk)))) (fst w) = true.
Proof.
  intros Hb [Lw H].
  assert (LC : length (filter f (unk ++ bou)) = length (filter f unk) + length (filter f bou)) by (rewrite filter_app, app_length; reflexivity).
  assert (LN : length (np_where f unk) = length (filter f unk)) by apply where_length.
  assert (W : map (at_ (map val unk)) (np_where f unk) ++ repeat 0%R (length (filter f (unk ++ bou)) - length (filter f unk)) = map val (filter f (unk ++ bou))).
  { replace (map (at_ (map val unk)) (np_where f unk)) with (map val (filter f unk)) by (symmetry; exact (where_at f val unk [])).
    rewrite LC. replace (length (filter f unk) + length (filter f bou) - length (filter f unk)) with (length (filter f bou)) by lia.
    rewrite (repeat_zero val) by (intros p Hp; apply Hb; apply filter_In in Hp; apply Hp). rewrite <- map_app, <- filter_app. reflexivity. }
  split.
  - unfold mesh_transfer. rewrite W. clear - H. induction H as [|q p fine ps (vs & Hv & Hw) _ IH]; [reflexivity|]. cbn [map]. rewrite IH. f_equal.
    rewrite <- Hw. unfold weighted, zipw. f_equal. clear - Hv. destruct p as [ids ws]. cbn [fst snd] in *. revert vs ws Hv.
    induction ids as [|i ids IH]; intros [|v vs] ws Hv; try discriminate; [reflexivity|]. cbn [map] in Hv. injection Hv as Hi Hv. destruct ws as [|w ws]; [reflexivity|].
    cbn [map combine fst snd]. f_equal; [|apply IH; exact Hv]. f_equal. unfold at_.
    rewrite (nth_indep _ 0%R (val v)) by (rewrite map_length; apply nth_error_Some; congruence). rewrite map_nth. f_equal. apply nth_error_nth. exact Hi.
  - rewrite LN, LC. replace (length (filter f unk) + (length (filter f unk) + length (filter f bou) - length (filter f unk))) with (length (filter f (unk ++ bou))) by lia.
    destruct w as [vtx wts]. cbn [fst snd] in *. clear - H Lw. revert wts Lw fine H. induction vtx as [|ids vtx IH]; intros [|w wts] Lw fine H; try discriminate; [reflexivity|].
    cbn [combine] in H. inversion H as [|q ? fine' ? (vs & Hv & _) H']; subst. cbn [forallb fst] in *. rewrite (IH wts) with (fine := fine') by (try assumption; cbn in Lw; lia).
    rewrite andb_true_r. apply forallb_forall. intros i Hi. apply Nat.ltb_lt. apply nth_error_Some.
    apply (in_map (nth_error (filter f (unk ++ bou)))) in Hi. rewrite Hv in Hi. apply in_map_iff in Hi as (v & <- & _). discriminate.
Qed.
Lemma traverse_inv {X Y} (f : X -> option Y) e l ys : traverse (fun x => of_opt e (f x)) l = inl ys -> map f l = map Some ys.
Proof.
  revert ys. induction l as [|x l IH]; intros ys H; cbn [traverse] in H; [injection H as <-; reflexivity|].
  destruct (f x) as [y|] eqn:E; [|discriminate]. cbn [of_opt rbind] in H. destruct (traverse _ l) as [ys'|]; [|discriminate]. cbn [rbind] in H.
  injection H as <-. cbn [map]. rewrite E, (IH ys' eq_refl). reflexivity.
Qed.
Lemma get_arrays_inv C nodes un boundary start A : get_arrays C nodes un boundary start = inl A ->
  exists bou, map (fun e => dget nodes (snd e)) un = map Some (unknown C A) /\ map (dget nodes) boundary = map Some bou /\ unknown_com C A = unknown C A ++ bou.
Proof.
  unfold get_arrays. intros H. destruct (traverse _ un) as [unk|] eqn:E1; [|discriminate]. cbn [rbind] in H.
  destruct (traverse _ boundary) as [bou|] eqn:E2; [|discriminate]. cbn [rbind] in H.
  destruct (map_new _ _ _ _ _ _ _ _ _); [|discriminate]. cbn [rbind] in H. destruct (map_all _ _ _ _ _ _ _ _ _); [|discriminate]. cbn [rbind] in H. injection H as <-.
  exists bou. cbn. split; [eapply traverse_inv; exact E1|]. split; [eapply traverse_inv; exact E2|reflexivity].
Qed.

(** A function that vanishes on the boundary nodes and is reproduced by the barycentric weights (for piecewise linear
    interpolation: every function that is linear on each triangle) is transferred exactly: unknown by unknown, the interpolated
    vector holds its values on the fine mesh. The fine mesh must contain the unknowns of the coarse one first, at least twice
    as many unknowns, and no new unknown inside the air gap. *)
Theorem C49_interpolation_exact : forall C, coords_ok C -> forall val weights
    nodes_c un_c bou_c coarse nodes_f un_f bou_f fine cor_c cor_f u,
  get_arrays C nodes_c un_c bou_c 0 = inl coarse -> get_arrays C nodes_f un_f bou_f (length un_c) = inl fine ->
  separated C (unknown C coarse) -> separated C (unknown C fine) -> length cor_c = length un_c -> length cor_f = length un_f ->
  firstn (length un_c) (unknown C fine) = unknown C coarse -> 2 * length un_c <= length un_f ->
  (forall p, In p (unknown_new C fine) -> inner C p = true \/ outer C p = true) ->
  (forall e p, In e bou_c -> dget nodes_c e = Some p -> val p = 0%R) ->
  reproduces val (filter (inner C) (unknown_com C coarse)) (filter (inner C) (unknown_new C fine)) (weights (filter (inner C) (unknown_com C coarse)) (filter (inner C) (unknown_new C fine))) ->
  reproduces val (filter (outer C) (unknown_com C coarse)) (filter (outer C) (unknown_new C fine)) (weights (filter (outer C) (unknown_com C coarse)) (filter (outer C) (unknown_new C fine))) ->
  m_middle u = map val (unknown C coarse) ->
  exists v, mach_interpolation (interpolation_factors C weights coarse fine cor_c cor_f) u = Some v /\
    m_middle v = map val (unknown C fine) /\ m_front v = m_front u /\ m_back v = m_back u.
Proof.
  intros C HC val weights nc uc bc coarse nf uf bf fine cc cf u Gc Gf Sc Sf Lc Lf Fi Tw IO Bz Ri Ro Hu.
  destruct (get_arrays_inv _ _ _ _ _ _ Gc) as (bouc & C1 & C2 & C3). destruct (get_arrays_inv _ _ _ _ _ _ Gf) as (bouf & F1 & F2 & _).
  rewrite (C49_index_maps C HC _ _ _ _ _ _ C1 C2 Sc) in Gc. rewrite (C49_index_maps C HC _ _ _ _ _ _ F1 F2 Sf) in Gf.
  injection Gc as Gc. injection Gf as Gf. revert C1 C2 C3 F1 F2 Sc Sf Fi IO Ri Ro Hu Gc Gf. generalize (unknown C coarse) as uk. generalize (unknown C fine) as fk.
  intros fk uk C1 C2 C3 F1 F2 Sc Sf Fi IO Ri Ro Hu Gc Gf. subst coarse fine. unfold interpolation_factors. cbn [unknown unknown_com unknown_new map_inner map_outer map_inner_new map_outer_new] in *.
  clear C3. assert (Luk : length uk = length uc) by (apply (f_equal (@length _)) in C1; rewrite !map_length in C1; lia).
  assert (Lfk : length fk = length uf) by (apply (f_equal (@length _)) in F1; rewrite !map_length in F1; lia).
  assert (Bz' : forall p, In p bouc -> val p = 0%R).
  { intros p Hp. apply (in_map Some) in Hp. rewrite <- C2 in Hp. apply in_map_iff in Hp as (e & E1 & E2). exact (Bz e p E2 E1). }
  set (new := skipn (length uc) fk) in *.
  destruct (transfer_spec val (inner C) uk bouc _ _ Bz' Ri) as [Ti Vi]. destruct (transfer_spec val (outer C) uk bouc _ _ Bz' Ro) as [To Vo].
  unfold mach_interpolation. cbn [sizeStart sizeStop mapInner mapOuter vtxInner vtxOuter wtsInner wtsOuter addInner addOuter mapInnerNew mapOuterNew].
  rewrite Hu. rewrite Ti, To, Vi, Vo. cbn [andb negb].
  replace (forallb (fun i => i <? length (map val uk)) (np_where (inner C) uk ++ np_where (outer C) uk)) with true.
  2: { symmetry. apply forallb_forall. intros i Hi. rewrite map_length. apply Nat.ltb_lt. apply in_app_or in Hi as [Hi|Hi]; eapply where_below; exact Hi. }
  cbn [negb]. rewrite repeat_length, map_length, Luk, Lc, Lf. rewrite (proj2 (Nat.ltb_ge _ _)) by lia.
  set (base := map val uk ++ skipn (length uc) (repeat 0%R (length uf - length uc))).
  assert (Lb : length base = length uf - length uc) by (unfold base; rewrite app_length, map_length, skipn_length, repeat_length; lia).
  assert (Ln : length new = length uf - length uc) by (unfold new; rewrite skipn_length; lia).
  destruct new as [|p0 new0] eqn:En.
  - cbn. exists (mkMach (m_fs u) (length (map val uk ++ base)) (m_bs u) (m_front u) (map val uk ++ base) (m_back u) (m_sc u)).
    split; [reflexivity|]. cbn. split; [|auto]. destruct base; [|cbn in Lb, Ln; lia]. rewrite app_nil_r.
    rewrite <- (firstn_skipn (length uc) fk). fold new. rewrite En, app_nil_r, Fi. reflexivity.
  - rewrite <- En in *. clear En.
    destruct (set_where (inner C) val p0 new 0 base) as (n1 & E1 & L1 & A1); [lia|]. unfold np_where at 1. rewrite E1.
    destruct (set_where (outer C) val p0 new 0 n1) as (n2 & E2 & L2 & A2); [lia|]. unfold np_where. rewrite E2.
    eexists. split; [reflexivity|]. cbn [m_middle m_front m_back]. split; [|auto].
    rewrite <- (firstn_skipn (length uc) fk). fold new. rewrite Fi, map_app. f_equal.
    apply (nth_ext _ _ 0%R 0%R); [rewrite map_length; lia|]. intros i Hi. fold (at_ n2 i). rewrite A2, A1, Nat.sub_0_r. cbn [Nat.leb Nat.add andb].
    rewrite (proj2 (Nat.ltb_lt i (length new))) by lia. cbn [andb].
    rewrite (nth_indep _ 0%R (val p0)) by (rewrite map_length; lia). rewrite map_nth.
    destruct (IO (nth i new p0)) as [I|I]; [apply nth_In; lia|rewrite I; destruct (outer C (nth i new p0)); reflexivity|rewrite I; reflexivity].
Qed.

(** ** Examples *)
(** A .pre file: 9 lines, 4 rows, 35 lines. *)
Definition pre_example : text := List.concat (repeat (tx "head" ++ [LF]) 9) ++ tx "1 17 0 4 25
1 18 0 4 -1
1 19 0 4 26
1 20 0 4 0
" ++ List.concat (repeat (tx "tail" ++ [LF]) 35).
Example C49_dictionaries_example :
  pre_file pre_example = inl ([(tx "17", tx "25"); (tx "19", tx "26")], [(tx "25", tx "17"); (tx "26", tx "19")], [tx "18"; tx "20"]) /\
  exists before rows after ps, readlines pre_example = before ++ rows ++ after /\ length before = 9 /\ length after = 35 /\ Forall2 row_of rows ps /\
    NoDup (map fst (filter numbered ps)) /\ NoDup (map snd (filter numbered ps)).
Proof.
  split; [vm_compute; reflexivity|].
  exists (firstn 9 (readlines pre_example)), (map nl [tx "1 17 0 4 25"; tx "1 18 0 4 -1"; tx "1 19 0 4 26"; tx "1 20 0 4 0"]), (skipn 13 (readlines pre_example)),
    [(tx "17", tx "25"); (tx "18", tx "-1"); (tx "19", tx "26"); (tx "20", tx "0")].
  split; [vm_compute; reflexivity|]. split; [vm_compute; reflexivity|]. split; [vm_compute; reflexivity|].
  split; [repeat (constructor; [split; vm_compute; reflexivity|]); constructor|].
  split; repeat constructor; cbn; intuition discriminate.
Qed.
(** Without distinct numbers the dictionaries are not inverse to each other. *)
Example C49_duplicate_numbers :
  match pre_rows [tx "1 17 0 4 25"; tx "1 18 0 4 25"] ([], [], []) with
  | inl (cor_to_un, un_to_cor, _) => dget cor_to_un (tx "17") = Some (tx "25") /\ dget un_to_cor (tx "25") = Some (tx "18")
  | inr _ => False
  end.
Proof. vm_compute. auto. Qed.

(** Integer coordinates; the air gap is |x| + |y| = 5. *)
Definition zsize (p : Z * Z) : Z := (Z.abs (fst p) + Z.abs (snd p))%Z.
Definition zcoords : Coords := mkCoords Z Z.eqb (fun p => (zsize p <=? 4)%Z) (fun p => (6 <=? zsize p)%Z).
Lemma zcoords_ok : coords_ok zcoords.
Proof. constructor; [exact Z.eqb_eq|]. cbn. intros p H1 H2. apply Z.leb_le in H1, H2. lia. Qed.
Definition mesh_nodes (d : Z * Z) : dict (Z * Z) :=
  [(tx "1", (2, 0)); (tx "2", (8, 9)); (tx "3", (0, 3)); (tx "4", (0, 11)); (tx "5", d); (tx "6", (4, 10))]%Z.
Definition mesh_un (n : nat) : dict text := firstn n [(tx "25", tx "1"); (tx "26", tx "2"); (tx "27", tx "5"); (tx "28", tx "6")].
Definition mesh_weights (coarse fine : list (Z * Z)) : list (list nat) * list (list R) :=
  (map (fun _ => [0; 1]) fine, map (fun _ => [/2; /2]%R) fine).
Definition mesh_val (p : Z * Z) : R := IZR (fst p).
Definition mesh_coarse : Arrays zcoords := mkArrays zcoords [(2, 0); (8, 9)]%Z [(2, 0); (8, 9); (0, 3); (0, 11)]%Z [0] [1] [(2, 0); (8, 9)]%Z [0] [1].
Example C49_hypotheses_hold :
  let fine := mkArrays zcoords [(2, 0); (8, 9); (1, 2); (4, 10)]%Z [(2, 0); (8, 9); (1, 2); (4, 10); (0, 3); (0, 11)]%Z [0; 2] [1; 3] [(1, 2); (4, 10)]%Z [0] [1] in
  let coarse := mesh_coarse in
  get_arrays zcoords (mesh_nodes (1, 2)%Z) (mesh_un 2) [tx "3"; tx "4"] 0 = inl coarse /\
  get_arrays zcoords (mesh_nodes (1, 2)%Z) (mesh_un 4) [tx "3"; tx "4"] 2 = inl fine /\
  separated zcoords (unknown zcoords coarse) /\ separated zcoords (unknown zcoords fine) /\
  (forall p, In p (unknown_new zcoords fine) -> inner zcoords p = true \/ outer zcoords p = true) /\
  (forall e p, In e [tx "3"; tx "4"] -> dget (mesh_nodes (1, 2)%Z) e = Some p -> mesh_val p = 0%R) /\
  reproduces mesh_val (filter (inner zcoords) (unknown_com zcoords coarse)) (filter (inner zcoords) (unknown_new zcoords fine)) (mesh_weights (filter (inner zcoords) (unknown_com zcoords coarse)) (filter (inner zcoords) (unknown_new zcoords fine))) /\
  reproduces mesh_val (filter (outer zcoords) (unknown_com zcoords coarse)) (filter (outer zcoords) (unknown_new zcoords fine)) (mesh_weights (filter (outer zcoords) (unknown_com zcoords coarse)) (filter (outer zcoords) (unknown_new zcoords fine))).
Proof.
  cbv zeta. split; [vm_compute; reflexivity|]. split; [vm_compute; reflexivity|].
  assert (Sf : separated zcoords [(2, 0); (8, 9); (1, 2); (4, 10)]%Z).
  { intros p q Hp Hq [Al|Al]; cbn in Hp, Hq; repeat (destruct Hp as [<-|Hp]; [repeat (destruct Hq as [<-|Hq]; [try (cbn in Al; discriminate Al); split; reflexivity|]); destruct Hq|]); destruct Hp. }
  split; [intros p q Hp Hq; apply Sf; cbn in *; intuition|]. split; [exact Sf|].
  split; [intros p [<-|[<-|[]]]; [left|right]; reflexivity|].
  split; [intros e p [<-|[<-|[]]] H; vm_compute in H; injection H as <-; reflexivity|].
  split; (split; [reflexivity|]); (constructor; [|constructor]); (eexists [_; _]; split; [reflexivity|]); unfold weighted, mesh_val; cbn; lra.
Qed.
(** A new unknown inside the air gap gets an unrelated coarse value (here 2 instead of 3). *)
Theorem C49_air_gap_refuted : ~ (forall C, coords_ok C -> forall val weights
    nodes_c un_c bou_c coarse nodes_f un_f bou_f fine cor_c cor_f u,
  get_arrays C nodes_c un_c bou_c 0 = inl coarse -> get_arrays C nodes_f un_f bou_f (length un_c) = inl fine ->
  separated C (unknown C coarse) -> separated C (unknown C fine) -> length cor_c = length un_c -> length cor_f = length un_f ->
  firstn (length un_c) (unknown C fine) = unknown C coarse -> 2 * length un_c <= length un_f ->
  (forall e p, In e bou_c -> dget nodes_c e = Some p -> val p = 0%R) ->
  reproduces val (filter (inner C) (unknown_com C coarse)) (filter (inner C) (unknown_new C fine)) (weights (filter (inner C) (unknown_com C coarse)) (filter (inner C) (unknown_new C fine))) ->
  reproduces val (filter (outer C) (unknown_com C coarse)) (filter (outer C) (unknown_new C fine)) (weights (filter (outer C) (unknown_com C coarse)) (filter (outer C) (unknown_new C fine))) ->
  m_middle u = map val (unknown C coarse) ->
  exists v, mach_interpolation (interpolation_factors C weights coarse fine cor_c cor_f) u = Some v /\
    m_middle v = map val (unknown C fine) /\ m_front v = m_front u /\ m_back v = m_back u).
Proof.
  intros H. set (fine := mkArrays zcoords [(2, 0); (8, 9); (3, 2); (4, 10)]%Z [(2, 0); (8, 9); (3, 2); (4, 10); (0, 3); (0, 11)]%Z [0] [1; 3] [(3, 2); (4, 10)]%Z [] [1]).
  specialize (H zcoords zcoords_ok mesh_val mesh_weights (mesh_nodes (3, 2)%Z) (mesh_un 2) [tx "3"; tx "4"] mesh_coarse
    (mesh_nodes (3, 2)%Z) (mesh_un 4) [tx "3"; tx "4"] fine (mesh_un 2) (mesh_un 4) (mkMach 0 2 0 [] [2; 8]%R [] sc0)).
  destruct H as (v & H & E & _).
  - vm_compute; reflexivity.
  - vm_compute; reflexivity.
  - intros p q Hp Hq [Al|Al]; cbn in Hp, Hq; repeat (destruct Hp as [<-|Hp]; [repeat (destruct Hq as [<-|Hq]; [try (cbn in Al; discriminate Al); split; reflexivity|]); destruct Hq|]); destruct Hp.
  - intros p q Hp Hq [Al|Al]; cbn in Hp, Hq; repeat (destruct Hp as [<-|Hp]; [repeat (destruct Hq as [<-|Hq]; [try (cbn in Al; discriminate Al); split; reflexivity|]); destruct Hq|]); destruct Hp.
  - reflexivity.
  - reflexivity.
  - reflexivity.
  - cbn. lia.
  - intros e p [<-|[<-|[]]] X; vm_compute in X; injection X as <-; reflexivity.
  - split; [reflexivity|]. constructor.
  - split; [reflexivity|]. constructor; [|constructor]. eexists [_; _]. split; [reflexivity|]. unfold weighted, mesh_val. cbn. lra.
  - reflexivity.
  - unfold mach_interpolation, interpolation_factors in H. cbn in H. injection H as <-. cbn in E. injection E. unfold mesh_val. cbn. intros. lra.
Qed.
(** Two nodes with the same x coordinate on both sides of the air gap. *)
Example C49_aligned_example :
  get_arrays zcoords [(tx "1", (2, 0)); (tx "2", (2, 9))]%Z [(tx "25", tx "1"); (tx "26", tx "2")] [] 0 = inr EIndex.
Proof. vm_compute. reflexivity. Qed.

Print Assumptions C49_dictionaries.
Print Assumptions C49_index_maps.
Print Assumptions C49_aligned_fails.
Print Assumptions C49_interpolation_exact.
Print Assumptions C49_air_gap_refuted.
