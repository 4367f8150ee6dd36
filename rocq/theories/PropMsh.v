(** C60, C61: mesh files and the interpolation between two meshes. *)
From Coq Require Import List ZArith Lia Arith Bool Ascii String Reals Lra Psatz.
From Verif Require Import PyList ListFacts LinAlg Getdp PropGetdp Vectors Mesh PropMesh Msh.
Import ListNotations.
Local Open Scope list_scope.
Local Open Scope nat_scope.

(** ** What a mesh file (MSH 4.0, ASCII) looks like *)
(** The lines between two markers, without the line of counts after the first; the last occurrence of a marker counts. *)
Definition between (b e : text) (content body : list text) : Prop :=
  exists before counts after, content = before ++ nl b :: counts :: body ++ nl e :: after /\
    ~ In (nl b) (counts :: body ++ nl e :: after) /\ ~ In (nl e) after.
(** A node: tag and the words of its coordinates. *)
Definition node_line (l : text) (n : text * (text * text)) : Prop :=
  exists rest, split l = fst n :: fst (snd n) :: snd (snd n) :: rest.
(** tagEntity dimEntity parametric numNodes *)
Definition entity_line (dims : list text) (l : text) : Prop := exists tag dim rest, split l = tag :: dim :: rest /\ In dim dims.
Inductive node_section (dims : list text) : list text -> list (text * (text * text)) -> Prop :=
  | ns_nil : node_section dims [] []
  | ns_block h ls ns lns nodes : entity_line dims h -> Forall2 node_line ls ns -> node_section dims lns nodes ->
      node_section dims (h :: ls ++ lns) (ns ++ nodes).
(** Blocks of elements of one kind: ... numElements, then tag and nodes. *)
Definition element_line (k : nat) (l : text) (e : text * list text) : Prop := split l = fst e :: snd e /\ List.length (snd e) = k.
Inductive element_section : list text -> list (text * list text) -> Prop :=
  | es_nil : element_section [] []
  | es_block h ls es k lns elems : py_nth (split h) (-1) = Some (int_str (Z.of_nat (List.length ls))) -> ls <> [] ->
      Forall2 (element_line k) ls es -> element_section lns elems -> element_section (h :: ls ++ lns) (es ++ elems).
Definition plane : list text := [tx "0"; tx "1"; tx "2"].
Definition off_words (n : text * (text * text)) : bool := negb (existsb (text_eqb (fst (snd n))) plane).

(** ** Text *)
Lemma split_from_words l : forall cur, Forall (fun c => is_space c = false) cur -> Forall word (split_from cur l).
Proof.
  induction l as [|c l IH]; intros cur H; cbn [split_from].
  - destruct cur; constructor; [split; [discriminate|exact H]|constructor].
  - destruct (is_space c) eqn:E.
    + destruct cur; [apply IH; constructor|]. constructor; [split; [discriminate|exact H]|apply IH; constructor].
    + apply IH. apply Forall_app. split; [exact H|repeat constructor; exact E].
Qed.
Lemma split_words l : Forall word (split l).
Proof. apply split_from_words. constructor. Qed.
Lemma sep_inj x : forall x' y y', word x -> word x' -> x ++ tx " " ++ y = x' ++ tx " " ++ y' -> x = x' /\ y = y'.
Proof.
  intros x' y y' [_ W] [_ W']. revert x' W'. induction x as [|c x IH]; intros [|d x'] W' E; cbn in E.
  - injection E as E. auto.
  - injection E as E1 E2. subst d. inversion W'; subst. discriminate.
  - injection E as E1 E2. subst c. inversion W; subst. discriminate.
  - injection E as E1 E2. inversion W; inversion W'; subst. destruct (IH ltac:(assumption) x' ltac:(assumption) E2). subst. auto.
Qed.
Lemma last_at_none m content : forall i pos, ~ In m content -> last_at m i content pos = pos.
Proof.
  induction content as [|l content IH]; intros i pos H; [reflexivity|]. cbn [last_at].
  destruct (text_eqb_spec l m) as [->|E]; [exfalso; apply H; left; reflexivity|]. apply IH. intros X. apply H. right. exact X.
Qed.
Lemma last_at_one m a b : forall i pos, ~ In m b -> last_at m i (a ++ m :: b) pos = i + List.length a.
Proof.
  induction a as [|l a IH]; intros i pos H; cbn [app last_at List.length].
  - destruct (text_eqb_spec m m) as [_|E]; [|exfalso; apply E; reflexivity]. rewrite last_at_none by exact H. lia.
  - rewrite IH by exact H. lia.
Qed.
Lemma section_between b e content body : between b e content body -> section_of b e content = body.
Proof.
  intros (before & counts & after & E & Nb & Ne). unfold section_of. fold (nl b) (nl e).
  assert (E1 : last_at (nl b) 0 content 0 = List.length before) by (rewrite E, last_at_one by exact Nb; reflexivity).
  assert (E2 : last_at (nl e) 0 content 0 = List.length before + 2 + List.length body).
  { rewrite E. replace (before ++ nl b :: counts :: body ++ nl e :: after) with ((before ++ nl b :: counts :: body) ++ nl e :: after)
      by (rewrite <- app_assoc; reflexivity).
    rewrite last_at_one by exact Ne. rewrite app_length. cbn [List.length]. lia. }
  rewrite E1, E2. replace (List.length before + 2 + List.length body - (List.length before + 2)) with (List.length body) by lia.
  rewrite E, skipn_app, skipn_all2 by lia. replace (List.length before + 2 - List.length before) with 2 by lia. cbn [app skipn].
  rewrite firstn_app, firstn_all, Nat.sub_diag. cbn [firstn]. apply app_nil_r.
Qed.

(** ** Nodes *)
Section Nodes.
  Variable C : Coords.
  Variable parse : text -> option (coord C).
  Notation point := (coord C * coord C)%type.

  (** The coordinates of a node are numbers. *)
  Definition placed (n : text * (text * text)) (p : text * point) : Prop :=
    fst p = fst n /\ parse (fst (snd n)) = Some (fst (snd p)) /\ parse (snd (snd n)) = Some (snd (snd p)).
  Definition coordinate_key (n : text * (text * text)) : text * text := (fst (snd n) ++ tx " " ++ snd (snd n), fst n).

  Lemma node_rows_app a b st : node_rows C parse (a ++ b) st = rbind (node_rows C parse a st) (node_rows C parse b).
  Proof.
    revert st. induction a as [|l a IH]; intros st; [reflexivity|]. cbn [app node_rows].
    destruct (node_row C parse st l) as [st'|e]; [apply IH|reflexivity].
  Qed.
  Lemma entity_skipped st h : entity_line plane h -> node_row C parse st h = inl st.
  Proof.
    intros (tag & dim & rest & E & D). unfold node_row. rewrite E.
    destruct D as [<-|[<-|[<-|[]]]]; reflexivity.
  Qed.
  Lemma off_test n : off_words n = negb (text_eqb (fst (snd n)) (tx "0")) && negb (text_eqb (fst (snd n)) (tx "1")) && negb (text_eqb (fst (snd n)) (tx "2")).
  Proof. unfold off_words, plane. cbn [existsb]. rewrite !negb_orb, andb_true_r, andb_assoc. reflexivity. Qed.

  Definition add_nodes (ns : list (text * (text * text))) (ps : list (text * point)) (st : dict point * dict text) : dict point * dict text :=
    (fold_left (fun d p => dset d (fst p) (snd p)) ps (fst st), fold_left (fun d n => dset d (fst (coordinate_key n)) (fst n)) ns (snd st)).
  Lemma node_rows_lines ls ns : Forall2 node_line ls ns -> forall ps, Forall2 placed (filter off_words ns) ps ->
    forall st, node_rows C parse ls st = inl (add_nodes (filter off_words ns) ps st).
  Proof.
    induction 1 as [|l n ls ns Hl H IH]; intros ps HP st.
    - cbn in HP. inversion HP. subst. destruct st. reflexivity.
    - cbn [node_rows filter] in *. destruct Hl as (rest & E).
      destruct n as [tag [wx wy]]. cbn [fst snd] in E. rewrite off_test in HP |- *. unfold node_row. rewrite E. cbn [fst snd] in HP |- *.
      destruct (negb (text_eqb wx (tx "0")) && negb (text_eqb wx (tx "1")) && negb (text_eqb wx (tx "2"))).
      + inversion HP as [|a p b ps' (T & P1 & P2) HP']. subst. cbn [fst snd] in T, P1, P2. rewrite P1. cbn [of_opt rbind nth_error]. rewrite P2. cbn [of_opt rbind].
        rewrite (IH ps' HP'). destruct p as [t [x y]]. cbn [fst snd] in T |- *. subst t. reflexivity.
      + cbn [rbind]. apply IH. exact HP.
  Qed.
  Lemma add_nodes_app ns1 ns2 ps1 ps2 st : add_nodes (ns1 ++ ns2) (ps1 ++ ps2) st = add_nodes ns2 ps2 (add_nodes ns1 ps1 st).
  Proof. unfold add_nodes. cbn [fst snd]. rewrite !fold_left_app. reflexivity. Qed.
  Lemma node_rows_section lns nodes : node_section plane lns nodes -> forall ps, Forall2 placed (filter off_words nodes) ps ->
    forall st, node_rows C parse lns st = inl (add_nodes (filter off_words nodes) ps st).
  Proof.
    induction 1 as [|h ls ns lns nodes Hh Hl H IH]; intros ps HP st.
    - cbn in HP. inversion HP. subst. destruct st. reflexivity.
    - cbn [node_rows]. rewrite entity_skipped by exact Hh. cbn [rbind]. rewrite node_rows_app.
      rewrite filter_app in HP |- *. apply Forall2_app_inv_l in HP as (p1 & p2 & H1 & H2 & ->).
      rewrite (node_rows_lines _ _ Hl _ H1). cbn [rbind]. rewrite (IH _ H2), add_nodes_app. reflexivity.
  Qed.
  Lemma fold_dset_new {X Y} (k : Y -> text) (v : Y -> X) l : forall d, NoDup (map fst d ++ map k l) ->
    fold_left (fun d y => dset d (k y) (v y)) l d = d ++ map (fun y => (k y, v y)) l.
  Proof.
    induction l as [|y l IH]; intros d H; cbn [fold_left map].
    - symmetry. apply app_nil_r.
    - cbn [map] in H. rewrite dset_new.
      + rewrite IH; [rewrite <- app_assoc; reflexivity|]. rewrite map_app, <- app_assoc. exact H.
      + apply NoDup_remove_2 in H. intros X0. apply H. apply in_or_app. left. exact X0.
  Qed.

  (** Every node whose first coordinate is not written as 0, 1 or 2 is read, with its tag and coordinates, in the order of the
      file; and the second dictionary finds the tag for the coordinates. *)
  Theorem C60_nodes : forall file lns nodes ps,
    between (tx "$Nodes") (tx "$EndNodes") (readlines file) lns -> node_section plane lns nodes ->
    Forall2 placed (filter off_words nodes) ps ->
    NoDup (map fst (filter off_words nodes)) -> NoDup (map snd (filter off_words nodes)) ->
    get_nodes C parse file = inl (ps, map coordinate_key (filter off_words nodes)).
  Proof.
    intros file lns nodes ps HB HN HP N1 N2. unfold get_nodes. rewrite (section_between _ _ _ _ HB).
    rewrite (node_rows_section _ _ HN _ HP). unfold add_nodes. cbn [fst snd].
    assert (ET : map fst ps = map fst (filter off_words nodes)).
    { clear - HP. induction HP as [|n p ns ps (T & _) HP IH]; [reflexivity|]. cbn [map]. rewrite T, IH. reflexivity. }
    rewrite (fold_dset_new fst snd) by (cbn [map app]; rewrite ET; exact N1).
    rewrite (fold_dset_new (fun n => fst (coordinate_key n)) fst).
    - cbn [app]. f_equal. f_equal. clear. induction ps as [|[t p] ps IH]; [reflexivity|]. cbn [map fst snd]. rewrite IH. reflexivity.
    - cbn [map app].
      assert (W : forall n, In n (filter off_words nodes) -> word (fst (snd n))).
      { intros n Hn. apply filter_In in Hn as [Hn _]. clear - HN Hn. induction HN as [|h ls ns lns nodes Hh Hl H IH]; [destruct Hn|].
        apply in_app_or in Hn as [Hn|Hn]; [|apply IH; exact Hn]. clear - Hl Hn. induction Hl as [|l n' ls ns (rest & E) Hl IH]; [destruct Hn|].
        destruct Hn as [->|Hn]; [|apply IH; exact Hn]. pose proof (split_words l) as X. rewrite E in X. inversion X as [|? ? ? X']. inversion X'. assumption. }
      clear - N2 W. induction (filter off_words nodes) as [|n l IH]; [constructor|]. cbn [map] in *. inversion N2 as [|? ? N3 N4]. subst. constructor.
      + intros X. apply in_map_iff in X as (m & E & Hm). apply N3. apply in_map_iff. exists m. split; [|exact Hm].
        unfold coordinate_key in E. cbn [fst] in E. apply sep_inj in E as [E1 E2]; [|apply W; right; exact Hm|apply W; left; reflexivity].
        destruct n as [? [? ?]], m as [? [? ?]]. cbn in *. congruence.
      + apply IH; [exact N4|]. intros m Hm. apply W. right. exact Hm.
  Qed.
End Nodes.

(** ** Elements *)
Definition with_nodes (k : nat) (e : text * list text) : bool := List.length (snd e) =? k.
Definition nodes_key (e : text * list text) : text * text := (join (tx " ") (snd e), fst e).
Lemma filter_all {X} (f : X -> bool) l : (forall x, In x l -> f x = true) -> filter f l = l.
Proof. induction l as [|x l IH]; intros H; [reflexivity|]. cbn. rewrite (H x) by (left; reflexivity). rewrite IH; auto. intros y Hy. apply H. right. exact Hy. Qed.
Lemma filter_none {X} (f : X -> bool) l : (forall x, In x l -> f x = false) -> filter f l = [].
Proof. induction l as [|x l IH]; intros H; [reflexivity|]. cbn. rewrite (H x) by (left; reflexivity). apply IH. intros y Hy. apply H. right. exact Hy. Qed.
Lemma element_count k ls es : Forall2 (element_line k) ls es -> forall e, In e es -> List.length (snd e) = k.
Proof. induction 1 as [|l e ls es [_ L] H IH]; intros e' He; [destruct He|]. destruct He as [<-|He]; auto. Qed.
Lemma blocks_spec ele elems : element_section ele elems -> forall fuel lns trs, List.length ele <= fuel ->
  exists l2 l3, blocks fuel ele lns trs = inl (lns ++ l2, trs ++ l3) /\
    Forall2 (element_line 2) l2 (filter (with_nodes 2) elems) /\ Forall2 (element_line 3) l3 (filter (with_nodes 3) elems).
Proof.
  induction 1 as [|h ls es k rest elems Hh Hne Hl H IH]; intros fuel lns trs L.
  - exists [], []. rewrite !app_nil_r. destruct fuel; cbn; auto.
  - cbn [List.length] in L. rewrite app_length in L. destruct fuel as [|fuel]; [lia|]. cbn [blocks].
    rewrite Hh. cbn [of_opt rbind]. rewrite int_of_str. cbn [of_opt rbind].
    destruct ls as [|l ls]; [exfalso; apply Hne; reflexivity|]. cbn [app nth_error of_opt rbind].
    replace (Z.of_nat (List.length (l :: ls)) <? 0)%Z with false by (symmetry; apply Z.ltb_ge; lia). rewrite Nat2Z.id.
    change (l :: ls ++ rest) with ((l :: ls) ++ rest).
    rewrite skipn_app, skipn_all, Nat.sub_diag, firstn_app, firstn_all, Nat.sub_diag. cbn [firstn skipn app]. rewrite app_nil_r.
    assert (EL : List.length (split l) = S k). { inversion Hl as [|? e ? ? [E K]]. subst. rewrite E. reflexivity. }
    pose proof (element_count _ _ _ Hl) as EC. rewrite EL. rewrite !filter_app.
    assert (F : forall j, filter (with_nodes j) es = if j =? k then es else []).
    { intros j. destruct (Nat.eqb_spec j k) as [->|N]; [apply filter_all|apply filter_none]; intros x Hx; unfold with_nodes; rewrite (EC x Hx);
        [apply Nat.eqb_refl|apply Nat.eqb_neq; auto]. }
    rewrite !F. destruct (Nat.eqb_spec (S k) 3) as [E3|N3]; [|destruct (Nat.eqb_spec (S k) 4) as [E4|N4]].
    + assert (k = 2) by lia. subst k. cbn [Nat.eqb app]. destruct (IH fuel (lns ++ l :: ls) trs) as (l2 & l3 & E & F2 & F3); [cbn [List.length] in L; lia|].
      exists ((l :: ls) ++ l2), l3. rewrite E, <- !app_assoc. split; [reflexivity|]. split; [apply Forall2_app; assumption|exact F3].
    + assert (k = 3) by lia. subst k. cbn [Nat.eqb app]. destruct (IH fuel lns (trs ++ l :: ls)) as (l2 & l3 & E & F2 & F3); [cbn [List.length] in L; lia|].
      exists l2, ((l :: ls) ++ l3). rewrite E, <- !app_assoc. split; [reflexivity|]. split; [exact F2|apply Forall2_app; assumption].
    + destruct (Nat.eqb_spec 2 k); [lia|]. destruct (Nat.eqb_spec 3 k); [lia|]. cbn [app].
      apply IH. cbn [List.length] in L. lia.
Qed.
Lemma element_rows_spec k l es : Forall2 (element_line k) l es -> forall st,
  element_rows k l st = inl (fold_left (fun d e => dset d (fst e) (snd e)) es (fst st), fold_left (fun d e => dset d (join (tx " ") (snd e)) (fst e)) es (snd st)).
Proof.
  induction 1 as [|x e l es [E L] H IH]; intros st; [destruct st; reflexivity|]. cbn [element_rows]. unfold element_row.
  assert (F : firstn k (snd e) = snd e) by (rewrite <- L; apply firstn_all). rewrite E, F, L, Nat.eqb_refl. cbn [rbind]. rewrite IH. reflexivity.
Qed.
Lemma join_inj a : forall b, Forall word a -> Forall word b -> List.length a = List.length b -> join (tx " ") a = join (tx " ") b -> a = b.
Proof.
  induction a as [|x a IH]; intros [|y b] Wa Wb L E; try discriminate; [reflexivity|].
  inversion Wa; inversion Wb; subst. cbn [List.length] in L. injection L as L.
  destruct a as [|x' a], b as [|y' b]; try discriminate; [cbn in E; congruence|].
  change (x ++ tx " " ++ join (tx " ") (x' :: a) = y ++ tx " " ++ join (tx " ") (y' :: b)) in E.
  apply sep_inj in E as [-> E]; [|assumption|assumption]. rewrite (IH (y' :: b)); auto.
Qed.
Lemma keys_distinct k (es : list (text * list text)) : (forall e, In e es -> Forall word (snd e) /\ List.length (snd e) = k) -> NoDup (map snd es) -> NoDup (map (fun e => join (tx " ") (snd e)) es).
Proof.
  induction es as [|e es IH]; intros H N; [constructor|]. cbn [map] in *. inversion N as [|? ? N1 N2]. subst. constructor.
  - intros X. apply in_map_iff in X as (e' & E & He'). apply N1. apply in_map_iff. exists e'. split; [|exact He'].
    destruct (H e (or_introl eq_refl)), (H e' (or_intror He')). apply join_inj; auto; congruence.
  - apply IH; [|exact N2]. intros x Hx. apply H. right. exact Hx.
Qed.
Lemma element_words k l es : Forall2 (element_line k) l es -> forall e, In e es -> Forall word (snd e) /\ List.length (snd e) = k.
Proof.
  induction 1 as [|x e' l es [E L] H IH]; intros e He; [destruct He|]. destruct He as [<-|He]; [|apply IH; exact He]. split; [|exact L].
  pose proof (split_words x) as W. rewrite E in W. inversion W. assumption.
Qed.
Lemma pair_id {X Y} (l : list (X * Y)) : map (fun e => (fst e, snd e)) l = l.
Proof. induction l as [|[x y] l IH]; [reflexivity|]. cbn [map fst snd]. rewrite IH. reflexivity. Qed.

(** All elements with two nodes are lines, all with three are triangles, in the order of the file, and the reverse dictionaries find
    the tags; other elements are left out. *)
Theorem C60_elements : forall file ele elems,
  between (tx "$Elements") (tx "$EndElements") (readlines file) ele -> element_section ele elems ->
  (forall k, NoDup (map fst (filter (with_nodes k) elems)) /\ NoDup (map snd (filter (with_nodes k) elems))) ->
  get_elements file = inl (filter (with_nodes 2) elems, filter (with_nodes 3) elems,
                           map nodes_key (filter (with_nodes 2) elems), map nodes_key (filter (with_nodes 3) elems)).
Proof.
  intros file ele elems HB HE HN. unfold get_elements. rewrite (section_between _ _ _ _ HB).
  destruct (blocks_spec _ _ HE (List.length ele) [] [] (le_n _)) as (l2 & l3 & E & F2 & F3).
  rewrite E. cbn [app fst snd rbind]. rewrite (element_rows_spec _ _ _ F2), (element_rows_spec _ _ _ F3). cbn [rbind fst snd].
  destruct (HN 2) as [A2 B2], (HN 3) as [A3 B3].
  rewrite !(fold_dset_new fst snd) by (cbn [map app]; assumption).
  rewrite !(fold_dset_new (fun e => join (tx " ") (snd e)) fst) by
    (cbn [map app]; eapply keys_distinct; [eapply element_words; eassumption|assumption]).
  cbn [app]. rewrite !pair_id. reflexivity.
Qed.

(** Versions other than "4", such as 4.1, are rejected. *)
Theorem C60_version : forall file l1 l2 rest v ws, readlines file = l1 :: l2 :: rest -> split l2 = v :: ws ->
  (check_version file = inl tt <-> v = tx "4") /\ (check_version file = inr EUser <-> v <> tx "4").
Proof.
  intros file l1 l2 rest v ws E S. unfold check_version. rewrite E. cbn [nth_error of_opt rbind]. rewrite S. cbn [nth_error of_opt rbind].
  destruct (text_eqb_spec v (tx "4")) as [H|H]; split; split; intros X; try congruence; exfalso; auto.
Qed.

(** ** Both files of a mesh *)
Record mesh_files (C : Coords) (parse : text -> option (coord C)) (pre msh : text) (ps : list (text * text))
    (pts : dict (coord C * coord C)) (elems : list (text * list text)) : Prop := {
  mf_version : exists l1 l2 rest ws, readlines msh = l1 :: l2 :: rest /\ split l2 = tx "4" :: ws;
  mf_rows : exists before rows after, readlines pre = before ++ rows ++ after /\ List.length before = 9 /\ List.length after = 35 /\ Forall2 row_of rows ps;
  mf_numbers : NoDup (map fst (filter numbered ps)) /\ NoDup (map snd (filter numbered ps));
  mf_nodes : exists lns nodes, between (tx "$Nodes") (tx "$EndNodes") (readlines msh) lns /\ node_section plane lns nodes /\
    Forall2 (placed C parse) (filter off_words nodes) pts /\ NoDup (map fst (filter off_words nodes)) /\ NoDup (map snd (filter off_words nodes));
  mf_elements : exists ele, between (tx "$Elements") (tx "$EndElements") (readlines msh) ele /\ element_section ele elems /\
    (forall k, NoDup (map fst (filter (with_nodes k) elems)) /\ NoDup (map snd (filter (with_nodes k) elems)))
}.
(** Node [n] of an element that is read is among the nodes that are read. *)
Definition nodes_known {X} (elems : list (text * list text)) (pts : dict X) : Prop :=
  forall e n, In e elems -> List.length (snd e) = 2 \/ List.length (snd e) = 3 -> In n (snd e) -> In n (map fst pts).

Lemma pre_file_spec file before rows after ps : readlines file = before ++ rows ++ after -> List.length before = 9 -> List.length after = 35 ->
  Forall2 row_of rows ps -> NoDup (map fst (filter numbered ps)) -> NoDup (map snd (filter numbered ps)) ->
  pre_file file = inl (filter numbered ps, map swap (filter numbered ps), map fst (filter (fun p => negb (numbered p)) ps)).
Proof.
  intros E L1 L2 H N1 N2. unfold pre_file. rewrite E, !app_length, L1, L2.
  replace (9 + (List.length rows + 35) - 35 - 9) with (List.length rows) by lia.
  rewrite skipn_app, skipn_all2, L1 by lia. cbn [app Nat.sub skipn]. rewrite firstn_app, firstn_all, Nat.sub_diag. cbn [firstn]. rewrite app_nil_r.
  rewrite (pre_rows_spec rows ps [] [] []); auto.
Qed.
Lemma in_dict {X} (d : dict X) k : In k (map fst d) <-> exists v, dget d k = Some v.
Proof.
  split.
  - induction d as [|[k' v'] d IH]; intros H; [destruct H|]. cbn [dget]. destruct (text_eqb_spec k k') as [->|E]; [exists v'; reflexivity|].
    apply IH. destruct H as [H|H]; [cbn in H; congruence|exact H].
  - intros [v H]. apply dget_some in H. apply (in_map fst) in H. exact H.
Qed.
Lemma lookup_all {X Y} (d : dict X) (k : Y -> text) l : (forall y, In y l -> In (k y) (map fst d)) <-> exists vs, map (fun y => dget d (k y)) l = map Some vs.
Proof.
  induction l as [|y l IH].
  - split; [exists []; reflexivity|intros _ y []].
  - split.
    + intros H. destruct (proj1 (in_dict d (k y)) (H y (or_introl eq_refl))) as [v Ev].
      destruct (proj1 IH) as [vs Evs]; [intros z Hz; apply H; right; exact Hz|]. exists (v :: vs). cbn [map]. rewrite Ev, Evs. reflexivity.
    + intros [[|v vs] H] z Hz; cbn [map] in H; [discriminate|]. injection H as H1 H2. destruct Hz as [<-|Hz].
      * apply in_dict. exists v. exact H1.
      * revert z Hz. apply (proj2 IH). exists vs. exact H2.
Qed.
Lemma traverse_lookup {X Y} (d : dict X) (k : Y -> text) l :
  ((forall y, In y l -> In (k y) (map fst d)) -> exists vs, traverse (fun y => of_opt EKey (dget d (k y))) l = inl vs) /\
  (~ (forall y, In y l -> In (k y) (map fst d)) -> traverse (fun y => of_opt EKey (dget d (k y))) l = inr EKey).
Proof.
  split.
  - intros H. apply lookup_all in H as [vs H]. exists vs. apply traverse_ok. exact H.
  - induction l as [|y l IH]; intros H; [exfalso; apply H; intros y []|]. cbn [traverse].
    destruct (dget d (k y)) as [v|] eqn:E; cbn [of_opt rbind]; [|reflexivity]. rewrite IH; [reflexivity|]. intros K. apply H. intros z [<-|Hz]; [|apply K; exact Hz].
    apply in_dict. exists v. exact E.
Qed.
Lemma in_dict_dec {X} (d : dict X) k : {In k (map fst d)} + {~ In k (map fst d)}.
Proof. apply in_dec. apply list_eq_dec. apply ascii_dec. Qed.
Lemma all_in_dict_dec {X Y} (d : dict X) (k : Y -> text) l : {forall y, In y l -> In (k y) (map fst d)} + {~ forall y, In y l -> In (k y) (map fst d)}.
Proof.
  induction l as [|y l IH]; [left; intros y []|]. destruct (in_dict_dec d (k y)) as [H|H].
  - destruct IH as [K|K]; [left; intros z [<-|Hz]; auto|right; intros N; apply K; intros z Hz; apply N; right; exact Hz].
  - right. intros N. apply H. apply N. left. reflexivity.
Qed.
Lemma traverse_elements {X} (d : dict X) es :
  ((forall e n, In e es -> In n (snd e) -> In n (map fst d)) ->
     exists vs, traverse (fun e : text * list text => traverse (fun n => of_opt EKey (dget d n)) (snd e)) es = inl vs) /\
  (~ (forall e n, In e es -> In n (snd e) -> In n (map fst d)) ->
     traverse (fun e : text * list text => traverse (fun n => of_opt EKey (dget d n)) (snd e)) es = inr EKey).
Proof.
  induction es as [|e es [IH1 IH2]]; split.
  - exists []. reflexivity.
  - intros H. exfalso. apply H. intros e n [].
  - intros H. destruct (proj1 (traverse_lookup d (fun n => n) (snd e))) as [v Ev]; [intros y Hy; apply (H e); [left; reflexivity|exact Hy]|].
    destruct IH1 as [vs Evs]; [intros e' n He; apply H; right; exact He|]. exists (v :: vs). cbn [traverse]. rewrite Ev, Evs. reflexivity.
  - intros H. cbn [traverse]. destruct (all_in_dict_dec d (fun n => n) (snd e)) as [K|K].
    + destruct (proj1 (traverse_lookup d (fun n => n) (snd e)) K) as [v ->]. cbn [rbind]. rewrite IH2; [reflexivity|].
      intros N. apply H. intros e' n [<-|He] Hn; [apply K; exact Hn|apply (N e' n He Hn)].
    + rewrite (proj2 (traverse_lookup d (fun n => n) (snd e)) K). reflexivity.
Qed.

Lemma known_split {X} elems (d : dict X) : nodes_known elems d <->
  (forall e n, In e (filter (with_nodes 2) elems) -> In n (snd e) -> In n (map fst d)) /\
  (forall e n, In e (filter (with_nodes 3) elems) -> In n (snd e) -> In n (map fst d)).
Proof.
  unfold nodes_known, with_nodes. split.
  - intros H. split; intros e n He; apply filter_In in He as [He L]; apply Nat.eqb_eq in L; apply H; auto.
  - intros [H2 H3] e n He [L|L]; [apply H2|apply H3]; apply filter_In; split; auto; apply Nat.eqb_eq; exact L.
Qed.

Section Data.
  Variable C : Coords.
  Variable parse : text -> option (coord C).
  Hypothesis HC : coords_ok C.
  Lemma read_files pre msh ps pts elems : mesh_files C parse pre msh ps pts elems ->
    pre_file pre = inl (filter numbered ps, map swap (filter numbered ps), map fst (filter (fun p => negb (numbered p)) ps)) /\
    (exists r, get_nodes C parse msh = inl (pts, r)) /\
    get_elements msh = inl (filter (with_nodes 2) elems, filter (with_nodes 3) elems, map nodes_key (filter (with_nodes 2) elems), map nodes_key (filter (with_nodes 3) elems)) /\
    check_version msh = inl tt.
  Proof.
    intros H. destruct (mf_rows _ _ _ _ _ _ _ H) as (before & rows & after & E & L1 & L2 & HR). destruct (mf_numbers _ _ _ _ _ _ _ H) as [N1 N2].
    destruct (mf_nodes _ _ _ _ _ _ _ H) as (lns & nodes & B & S & P & M1 & M2). destruct (mf_elements _ _ _ _ _ _ _ H) as (ele & Be & Se & Ne).
    destruct (mf_version _ _ _ _ _ _ _ H) as (l1 & l2 & rest & ws & V1 & V2).
    split; [eapply pre_file_spec; eauto|]. split; [eexists; eapply C60_nodes; eauto|]. split; [eapply C60_elements; eauto|].
    apply (C60_version _ _ _ _ _ _ V1 V2). reflexivity.
  Qed.
  (** The unknowns of a mesh are the numbered nodes of the .pre file in their order, at the coordinates of the .msh file. *)
  Theorem C60_compute_data : forall pre msh ps pts elems start unk bou, mesh_files C parse pre msh ps pts elems -> nodes_known elems pts ->
    map (fun p => dget pts (fst p)) (filter numbered ps) = map Some unk ->
    map (fun p => dget pts (fst p)) (filter (fun p => negb (numbered p)) ps) = map Some bou -> separated C unk ->
    compute_data C parse pre msh start = inl (filter numbered ps,
      mkArrays C unk (unk ++ bou) (np_where (inner C) unk) (np_where (outer C) unk)
               (skipn start unk) (np_where (inner C) (skipn start unk)) (np_where (outer C) (skipn start unk))).
  Proof.
    intros pre msh ps pts elems start unk bou H K U B S. destruct (read_files _ _ _ _ _ H) as (E1 & (r & E2) & E3 & _).
    unfold compute_data. rewrite E1. cbn [rbind]. rewrite E2. cbn [rbind]. rewrite E3. cbn [rbind fst snd].
    apply known_split in K as [K2 K3].
    destruct (proj1 (traverse_elements pts (filter (with_nodes 2) elems)) K2) as [v2 ->]. cbn [rbind].
    destruct (proj1 (traverse_elements pts (filter (with_nodes 3) elems)) K3) as [v3 ->]. cbn [rbind].
    rewrite (C49_index_maps C HC _ _ _ _ unk bou); [reflexivity| | |exact S].
    - rewrite map_map. exact U.
    - rewrite map_map. exact B.
  Qed.
  (** An element with a node that was not read: KeyError. *)
  Theorem C60_unknown_node_raises : forall pre msh ps pts elems start, mesh_files C parse pre msh ps pts elems -> ~ nodes_known elems pts ->
    compute_data C parse pre msh start = inr EKey.
  Proof.
    intros pre msh ps pts elems start H K. destruct (read_files _ _ _ _ _ H) as (E1 & (r & E2) & E3 & _).
    unfold compute_data. rewrite E1. cbn [rbind]. rewrite E2. cbn [rbind]. rewrite E3. cbn [rbind fst snd].
    set (es2 := filter (with_nodes 2) elems) in *. set (es3 := filter (with_nodes 3) elems) in *.
    destruct (traverse_elements pts es2) as [A2 B2]. destruct (traverse_elements pts es3) as [A3 B3].
    assert (D : forall es : list (text * list text), {forall e n, In e es -> In n (snd e) -> In n (map fst pts)} + {~ forall e n, In e es -> In n (snd e) -> In n (map fst pts)}).
    { clear. induction es as [|e es IH]; [left; intros e n []|]. destruct (all_in_dict_dec pts (fun n => n) (snd e)) as [X|X].
      - destruct IH as [Y|Y]; [left; intros e' n [<-|He] Hn; [apply X; exact Hn|apply (Y e' n He Hn)]|right; intros N; apply Y; intros e' n He; apply N; right; exact He].
      - right. intros N. apply X. intros n Hn. apply (N e n); [left; reflexivity|exact Hn]. }
    destruct (D es2) as [K2|K2]; [|rewrite (B2 K2); reflexivity]. destruct (A2 K2) as [v2 ->]. cbn [rbind].
    destruct (D es3) as [K3|K3]; [|rewrite (B3 K3); reflexivity]. exfalso. apply K. apply known_split. split; assumption.
  Qed.
  (** The constructor of the grid transfer on two well-formed meshes. *)
  Theorem C60_transfer : forall weights pre_c msh_c ps_c pts_c el_c unk_c bou_c pre_f msh_f ps_f pts_f el_f unk_f bou_f,
    mesh_files C parse pre_c msh_c ps_c pts_c el_c -> nodes_known el_c pts_c ->
    map (fun p => dget pts_c (fst p)) (filter numbered ps_c) = map Some unk_c ->
    map (fun p => dget pts_c (fst p)) (filter (fun p => negb (numbered p)) ps_c) = map Some bou_c -> separated C unk_c ->
    mesh_files C parse pre_f msh_f ps_f pts_f el_f -> nodes_known el_f pts_f ->
    map (fun p => dget pts_f (fst p)) (filter numbered ps_f) = map Some unk_f ->
    map (fun p => dget pts_f (fst p)) (filter (fun p => negb (numbered p)) ps_f) = map Some bou_f -> separated C unk_f ->
    firstn (List.length unk_c) unk_f = unk_c -> 2 * List.length unk_c <= List.length unk_f ->
    (forall p, In p (skipn (List.length unk_c) unk_f) -> inner C p = true \/ outer C p = true) ->
    forall val, (forall p, In p bou_c -> val p = 0%R) ->
    (forall side, side = inner C \/ side = outer C ->
       reproduces val (filter side (unk_c ++ bou_c)) (filter side (skipn (List.length unk_c) unk_f))
         (weights (filter side (unk_c ++ bou_c)) (filter side (skipn (List.length unk_c) unk_f)))) ->
    exists d, transfer_init C parse weights pre_c msh_c pre_f msh_f = inl d /\
      forall u, m_middle u = map val unk_c ->
      exists v, mach_interpolation d u = Some v /\ m_middle v = map val unk_f /\ m_front v = m_front u /\ m_back v = m_back u.
  Proof.
    intros weights pre_c msh_c ps_c pts_c el_c unk_c bou_c pre_f msh_f ps_f pts_f el_f unk_f bou_f Hc Kc Uc Bc Sc Hf Kf Uf Bf Sf Fi Tw IO val Bz Rep.
    assert (Lc : List.length (filter numbered ps_c) = List.length unk_c) by (apply (f_equal (@List.length _)) in Uc; rewrite !map_length in Uc; exact Uc).
    assert (Lf : List.length (filter numbered ps_f) = List.length unk_f) by (apply (f_equal (@List.length _)) in Uf; rewrite !map_length in Uf; exact Uf).
    unfold transfer_init. destruct (read_files _ _ _ _ _ Hc) as (_ & _ & _ & ->). destruct (read_files _ _ _ _ _ Hf) as (_ & _ & _ & ->). cbn [rbind].
    rewrite (C60_compute_data _ _ _ _ _ 0 _ _ Hc Kc Uc Bc Sc). cbn [rbind fst snd].
    rewrite (C60_compute_data _ _ _ _ _ _ _ _ Hf Kf Uf Bf Sf). cbn [rbind fst snd]. eexists. split; [reflexivity|]. intros u Hu.
    assert (Gc : get_arrays C pts_c (map swap (filter numbered ps_c)) (map fst (filter (fun p => negb (numbered p)) ps_c)) 0 = inl _)
      by (apply C49_index_maps; [exact HC|rewrite map_map; exact Uc|rewrite map_map; exact Bc|exact Sc]).
    assert (Gf : get_arrays C pts_f (map swap (filter numbered ps_f)) (map fst (filter (fun p => negb (numbered p)) ps_f)) (List.length (map swap (filter numbered ps_c))) = inl _)
      by (apply C49_index_maps; [exact HC|rewrite map_map; exact Uf|rewrite map_map; exact Bf|exact Sf]).
    destruct (C49_interpolation_exact C HC val weights _ _ _ _ _ _ _ _ (filter numbered ps_c) (filter numbered ps_f) u Gc Gf) as (v & V).
    - exact Sc.
    - exact Sf.
    - rewrite map_length. reflexivity.
    - rewrite map_length. reflexivity.
    - cbn [unknown]. rewrite map_length, Lc. exact Fi.
    - rewrite !map_length, Lc, Lf. exact Tw.
    - cbn [unknown_new]. rewrite map_length, Lc. exact IO.
    - intros e p He Ep. apply Bz. apply in_map_iff in He as (q & <- & Hq).
      assert (X : In (Some p) (map Some bou_c)) by (rewrite <- Bc; apply in_map_iff; exists q; auto).
      apply in_map_iff in X as (p' & X & Hp'). injection X as <-. exact Hp'.
    - cbn [unknown_com unknown_new]. rewrite map_length, Lc. apply Rep. left. reflexivity.
    - cbn [unknown_com unknown_new]. rewrite map_length, Lc. apply Rep. right. reflexivity.
    - exact Hu.
    - exists v. rewrite map_length in V. cbn [unknown] in V. exact V.
  Qed.
End Data.

(** ** Examples: a coarse and a fine mesh with integer coordinates; the air gap is |x| + |y| = 5 as in PropMesh.v *)
Definition head_lines : list text := [tx "$MeshFormat"; tx "4 0 8"; tx "$EndMeshFormat"; tx "$Entities"; tx "1 0 0"; tx "$EndEntities"].
Definition coarse_nodes : list text := [tx "1 0 0 1"; tx "1 -1 2 0"; tx "2 2 0 3"; tx "2 7 6 0"; tx "3 4 0 0"; tx "4 11 0 0"].
Definition fine_nodes : list text := coarse_nodes ++ [tx "7 1 0 2"; tx "5 3 1 0"; tx "6 9 3 0"].
Definition coarse_elements : list text := [tx "5 0 15 1"; tx "9 3"; tx "1 1 1 2"; tx "1 1 3 "; tx "2 3 2 "; tx "1 2 2 2"; tx "3 1 2 3 "; tx "4 2 3 4 "].
Definition msh_file (nodes elements : list text) : text :=
  List.concat (map nl (head_lines ++ [tx "$Nodes"; tx "2 4"] ++ nodes ++ [tx "$EndNodes"; tx "$Elements"; tx "3 5"] ++ elements ++ [tx "$EndElements"])).
Definition pre_text (rows : list text) : text := List.concat (map nl (repeat (tx "head") 9 ++ rows ++ repeat (tx "tail") 35)).
Definition coarse_rows : list text := [tx "1 1 0 1 9 1"; tx "1 2 0 1 10 1"; tx "1 3 0 2 0 0"; tx "1 4 0 2 0 0"].
Definition fine_rows : list text := [tx "1 1 0 1 9 1"; tx "1 2 0 1 10 1"; tx "1 5 0 1 11 1"; tx "1 6 0 1 12 1"; tx "1 3 0 2 0 0"; tx "1 4 0 2 0 0"].
Definition coarse_ps : list (text * text) := [(tx "1", tx "9"); (tx "2", tx "10"); (tx "3", tx "0"); (tx "4", tx "0")].
Definition fine_ps : list (text * text) := [(tx "1", tx "9"); (tx "2", tx "10"); (tx "5", tx "11"); (tx "6", tx "12"); (tx "3", tx "0"); (tx "4", tx "0")].
Definition coarse_pts : dict (Z * Z) := [(tx "1", (-1, 2)); (tx "2", (7, 6)); (tx "3", (4, 0)); (tx "4", (11, 0))]%Z.
Definition fine_pts : dict (Z * Z) := coarse_pts ++ [(tx "5", (3, 1)); (tx "6", (9, 3))]%Z.
Definition example_elems : list (text * list text) :=
  [(tx "9", [tx "3"]); (tx "1", [tx "1"; tx "3"]); (tx "2", [tx "3"; tx "2"]); (tx "3", [tx "1"; tx "2"; tx "3"]); (tx "4", [tx "2"; tx "3"; tx "4"])].

Lemma not_in_test x l : existsb (text_eqb x) l = false -> ~ In x l.
Proof. intros H X. apply not_true_iff_false in H. apply H. apply existsb_exists. exists x. split; [exact X|]. destruct (text_eqb_spec x x); congruence. Qed.
Fixpoint distinct (l : list text) : bool := match l with [] => true | x :: l' => negb (existsb (text_eqb x) l') && distinct l' end.
Lemma distinct_ok l : distinct l = true -> NoDup l.
Proof. induction l as [|x l IH]; intros H; [constructor|]. cbn in H. apply andb_true_iff in H as [H1 H2]. constructor; [apply not_in_test; apply negb_true_iff; exact H1|auto]. Qed.
Lemma distinct_by {X} (f : X -> text) l : distinct (map f l) = true -> NoDup l.
Proof. intros H. eapply NoDup_map_inv. apply distinct_ok. exact H. Qed.
Lemma between_at b e content body n : content = firstn n content ++ nl b :: nth (S n) content [] :: body ++ nl e :: skipn (n + 3 + List.length body) content ->
  existsb (text_eqb (nl b)) (nth (S n) content [] :: body ++ nl e :: skipn (n + 3 + List.length body) content) = false ->
  existsb (text_eqb (nl e)) (skipn (n + 3 + List.length body) content) = false -> between b e content body.
Proof. intros E A B. eexists _, _, _. split; [exact E|]. split; apply not_in_test; assumption. Qed.
Ltac lines_done := repeat (constructor; [eexists; vm_compute; reflexivity|]); constructor.
Ltac entity := eexists _, _, _; split; [vm_compute; reflexivity|cbn; auto].
Ltac elements_done := repeat (constructor; [split; vm_compute; reflexivity|]); constructor.
Lemma pair_key_distinct (l : list (text * (text * text))) : distinct (map (fun p => fst p ++ tx " " ++ snd p) (map snd l)) = true -> NoDup (map snd l).
Proof. apply distinct_by. Qed.
Lemma example_elements_ok : element_section (map nl coarse_elements) example_elems.
Proof.
  apply (es_block (nl (tx "5 0 15 1")) [nl (tx "9 3")] [(tx "9", [tx "3"])] 1 _ [(tx "1", [tx "1"; tx "3"]); (tx "2", [tx "3"; tx "2"]); (tx "3", [tx "1"; tx "2"; tx "3"]); (tx "4", [tx "2"; tx "3"; tx "4"])]);
    [vm_compute; reflexivity|discriminate|elements_done|].
  apply (es_block (nl (tx "1 1 1 2")) [nl (tx "1 1 3 "); nl (tx "2 3 2 ")] [(tx "1", [tx "1"; tx "3"]); (tx "2", [tx "3"; tx "2"])] 2 _ [(tx "3", [tx "1"; tx "2"; tx "3"]); (tx "4", [tx "2"; tx "3"; tx "4"])]);
    [vm_compute; reflexivity|discriminate|elements_done|].
  apply (es_block (nl (tx "1 2 2 2")) [nl (tx "3 1 2 3 "); nl (tx "4 2 3 4 ")] [(tx "3", [tx "1"; tx "2"; tx "3"]); (tx "4", [tx "2"; tx "3"; tx "4"])] 3 [] []);
    [vm_compute; reflexivity|discriminate|elements_done|constructor].
Qed.
Lemma example_elems_distinct k : NoDup (map fst (filter (with_nodes k) example_elems)) /\ NoDup (map snd (filter (with_nodes k) example_elems)).
Proof.
  destruct k as [|[|[|[|k]]]]; (split; [apply distinct_ok; vm_compute; reflexivity|apply (distinct_by (join (tx " "))); vm_compute; reflexivity]).
Qed.
Lemma coarse_ok : mesh_files zcoords int_of (pre_text coarse_rows) (msh_file coarse_nodes coarse_elements) coarse_ps coarse_pts example_elems.
Proof.
  constructor.
  - eexists _, _, _, _. split; vm_compute; reflexivity.
  - exists (firstn 9 (readlines (pre_text coarse_rows))), (map nl coarse_rows), (skipn 13 (readlines (pre_text coarse_rows))).
    split; [vm_compute; reflexivity|]. split; [vm_compute; reflexivity|]. split; [vm_compute; reflexivity|].
    repeat (constructor; [split; vm_compute; reflexivity|]). constructor.
  - split; apply distinct_ok; vm_compute; reflexivity.
  - exists (map nl coarse_nodes), [(tx "1", (tx "-1", tx "2")); (tx "2", (tx "7", tx "6")); (tx "3", (tx "4", tx "0")); (tx "4", (tx "11", tx "0"))].
    split; [apply (between_at _ _ _ _ 6); vm_compute; reflexivity|]. split; [|split; [|split; [apply distinct_ok; vm_compute; reflexivity|apply pair_key_distinct; vm_compute; reflexivity]]].
    + apply (ns_block plane (nl (tx "1 0 0 1")) [nl (tx "1 -1 2 0")] [(tx "1", (tx "-1", tx "2"))] _ [(tx "2", (tx "7", tx "6")); (tx "3", (tx "4", tx "0")); (tx "4", (tx "11", tx "0"))]); [entity|lines_done|].
      apply (ns_block plane (nl (tx "2 2 0 3")) [nl (tx "2 7 6 0"); nl (tx "3 4 0 0"); nl (tx "4 11 0 0")] [(tx "2", (tx "7", tx "6")); (tx "3", (tx "4", tx "0")); (tx "4", (tx "11", tx "0"))] [] []); [entity|lines_done|constructor].
    + cbn [filter]. repeat (constructor; [split; [|split]; vm_compute; reflexivity|]). constructor.
  - exists (map nl coarse_elements). split; [apply (between_at _ _ _ _ 15); vm_compute; reflexivity|]. split; [exact example_elements_ok|exact example_elems_distinct].
Qed.
Lemma fine_ok : mesh_files zcoords int_of (pre_text fine_rows) (msh_file fine_nodes coarse_elements) fine_ps fine_pts example_elems.
Proof.
  constructor.
  - eexists _, _, _, _. split; vm_compute; reflexivity.
  - exists (firstn 9 (readlines (pre_text fine_rows))), (map nl fine_rows), (skipn 15 (readlines (pre_text fine_rows))).
    split; [vm_compute; reflexivity|]. split; [vm_compute; reflexivity|]. split; [vm_compute; reflexivity|].
    repeat (constructor; [split; vm_compute; reflexivity|]). constructor.
  - split; apply distinct_ok; vm_compute; reflexivity.
  - exists (map nl fine_nodes), [(tx "1", (tx "-1", tx "2")); (tx "2", (tx "7", tx "6")); (tx "3", (tx "4", tx "0")); (tx "4", (tx "11", tx "0")); (tx "5", (tx "3", tx "1")); (tx "6", (tx "9", tx "3"))].
    split; [apply (between_at _ _ _ _ 6); vm_compute; reflexivity|]. split; [|split; [|split; [apply distinct_ok; vm_compute; reflexivity|apply pair_key_distinct; vm_compute; reflexivity]]].
    + apply (ns_block plane (nl (tx "1 0 0 1")) [nl (tx "1 -1 2 0")] [(tx "1", (tx "-1", tx "2"))] _ [(tx "2", (tx "7", tx "6")); (tx "3", (tx "4", tx "0")); (tx "4", (tx "11", tx "0")); (tx "5", (tx "3", tx "1")); (tx "6", (tx "9", tx "3"))]); [entity|lines_done|].
      apply (ns_block plane (nl (tx "2 2 0 3")) [nl (tx "2 7 6 0"); nl (tx "3 4 0 0"); nl (tx "4 11 0 0")] [(tx "2", (tx "7", tx "6")); (tx "3", (tx "4", tx "0")); (tx "4", (tx "11", tx "0"))] _ [(tx "5", (tx "3", tx "1")); (tx "6", (tx "9", tx "3"))]); [entity|lines_done|].
      apply (ns_block plane (nl (tx "7 1 0 2")) [nl (tx "5 3 1 0"); nl (tx "6 9 3 0")] [(tx "5", (tx "3", tx "1")); (tx "6", (tx "9", tx "3"))] [] []); [entity|lines_done|constructor].
    + cbn [filter]. repeat (constructor; [split; [|split]; vm_compute; reflexivity|]). constructor.
  - exists (map nl coarse_elements). split; [apply (between_at _ _ _ _ 18); vm_compute; reflexivity|]. split; [exact example_elements_ok|exact example_elems_distinct].
Qed.
Lemma example_nodes_known (d : dict (Z * Z)) : (forall n, In n [tx "1"; tx "2"; tx "3"; tx "4"] -> In n (map fst d)) -> nodes_known example_elems d.
Proof.
  intros H e n He _ Hn. apply H. cbn in He. destruct He as [<-|[<-|[<-|[<-|[<-|[]]]]]]; cbn in Hn |- *; intuition.
Qed.
(** The hypotheses of C60_transfer hold for the two meshes, with the second coordinate as function. *)
Example C60_transfer_example : exists d,
  transfer_init zcoords int_of mesh_weights (pre_text coarse_rows) (msh_file coarse_nodes coarse_elements) (pre_text fine_rows) (msh_file fine_nodes coarse_elements) = inl d /\
  forall u, m_middle u = [2; 6]%R -> exists v, mach_interpolation d u = Some v /\ m_middle v = [2; 6; 1; 3]%R /\ m_front v = m_front u /\ m_back v = m_back u.
Proof.
  apply (C60_transfer zcoords int_of zcoords_ok mesh_weights _ _ coarse_ps coarse_pts example_elems [(-1, 2); (7, 6)]%Z [(4, 0); (11, 0)]%Z
           _ _ fine_ps fine_pts example_elems [(-1, 2); (7, 6); (3, 1); (9, 3)]%Z [(4, 0); (11, 0)]%Z) with (val := fun p => IZR (snd p)).
  - exact coarse_ok.
  - apply example_nodes_known. intros n Hn. exact Hn.
  - reflexivity.
  - reflexivity.
  - intros p q [<-|[<-|[]]] [<-|[<-|[]]] [A|A]; try discriminate; auto.
  - exact fine_ok.
  - apply example_nodes_known. intros n Hn. cbn in Hn |- *. intuition.
  - reflexivity.
  - reflexivity.
  - intros p q [<-|[<-|[<-|[<-|[]]]]] [<-|[<-|[<-|[<-|[]]]]] [A|A]; try discriminate; auto.
  - reflexivity.
  - cbn. lia.
  - intros p [<-|[<-|[]]]; [left|right]; reflexivity.
  - intros p [<-|[<-|[]]]; reflexivity.
  - intros side [->| ->]; (split; [reflexivity|]); cbn.
    + constructor; [|constructor]. exists [(-1, 2); (4, 0)]%Z. split; [reflexivity|]. unfold weighted. cbn. lra.
    + constructor; [|constructor]. exists [(7, 6); (11, 0)]%Z. split; [reflexivity|]. unfold weighted. cbn. lra.
Qed.

(** ** What goes wrong *)
(** A node whose first coordinate is written as 0 (or 1, 2) is lost, although the file is well formed. *)
Theorem C60_all_nodes_read_refuted : ~ (forall C parse file lns nodes ps,
  between (tx "$Nodes") (tx "$EndNodes") (readlines file) lns -> node_section plane lns nodes -> Forall2 (placed C parse) nodes ps ->
  NoDup (map fst nodes) -> NoDup (map snd nodes) -> exists r, get_nodes C parse file = inl (ps, r)).
Proof.
  intros H. destruct (H zcoords int_of (msh_file (coarse_nodes ++ [tx "7 2 0 1"; tx "5 0 3 0"]) coarse_elements) (map nl (coarse_nodes ++ [tx "7 2 0 1"; tx "5 0 3 0"]))
    [(tx "1", (tx "-1", tx "2")); (tx "2", (tx "7", tx "6")); (tx "3", (tx "4", tx "0")); (tx "4", (tx "11", tx "0")); (tx "5", (tx "0", tx "3"))]
    (coarse_pts ++ [(tx "5", (0, 3)%Z)])) as (r & E).
  - apply (between_at _ _ _ _ 6); vm_compute; reflexivity.
  - apply (ns_block plane (nl (tx "1 0 0 1")) [nl (tx "1 -1 2 0")] [(tx "1", (tx "-1", tx "2"))] _ [(tx "2", (tx "7", tx "6")); (tx "3", (tx "4", tx "0")); (tx "4", (tx "11", tx "0")); (tx "5", (tx "0", tx "3"))]); [entity|lines_done|].
    apply (ns_block plane (nl (tx "2 2 0 3")) [nl (tx "2 7 6 0"); nl (tx "3 4 0 0"); nl (tx "4 11 0 0")] [(tx "2", (tx "7", tx "6")); (tx "3", (tx "4", tx "0")); (tx "4", (tx "11", tx "0"))] _ [(tx "5", (tx "0", tx "3"))]); [entity|lines_done|].
    apply (ns_block plane (nl (tx "7 2 0 1")) [nl (tx "5 0 3 0")] [(tx "5", (tx "0", tx "3"))] [] []); [entity|lines_done|constructor].
  - repeat (constructor; [split; [|split]; vm_compute; reflexivity|]). constructor.
  - apply distinct_ok. vm_compute. reflexivity.
  - apply pair_key_distinct. vm_compute. reflexivity.
  - assert (E' : match get_nodes zcoords int_of (msh_file (coarse_nodes ++ [tx "7 2 0 1"; tx "5 0 3 0"]) coarse_elements) with inl (d, _) => List.length d | inr _ => 0 end = 5)
      by (rewrite E; reflexivity).
    vm_compute in E'. discriminate.
Qed.
(** Entities of dimension 3 are read as nodes. *)
Theorem C60_solid_refuted : ~ (forall C parse file lns nodes ps,
  between (tx "$Nodes") (tx "$EndNodes") (readlines file) lns -> node_section (plane ++ [tx "3"]) lns nodes -> Forall2 (placed C parse) nodes ps ->
  (forall n, In n nodes -> off_words n = true) ->
  NoDup (map fst nodes) -> NoDup (map snd nodes) -> exists r, get_nodes C parse file = inl (ps, r)).
Proof.
  intros H. destruct (H zcoords int_of (msh_file [tx "7 3 0 1"; tx "5 8 3 0"] coarse_elements) (map nl [tx "7 3 0 1"; tx "5 8 3 0"])
    [(tx "5", (tx "8", tx "3"))] [(tx "5", (8, 3)%Z)]) as (r & E).
  - apply (between_at _ _ _ _ 6); vm_compute; reflexivity.
  - apply (ns_block _ (nl (tx "7 3 0 1")) [nl (tx "5 8 3 0")] [(tx "5", (tx "8", tx "3"))] [] []); [entity|lines_done|constructor].
  - repeat (constructor; [split; [|split]; vm_compute; reflexivity|]). constructor.
  - intros n [<-|[]]. reflexivity.
  - apply distinct_ok. vm_compute. reflexivity.
  - apply pair_key_distinct. vm_compute. reflexivity.
  - assert (E' : match get_nodes zcoords int_of (msh_file [tx "7 3 0 1"; tx "5 8 3 0"] coarse_elements) with inl (d, _) => List.length d | inr _ => 0 end = 1)
      by (rewrite E; reflexivity).
    vm_compute in E'. discriminate.
Qed.
(** An empty block of elements is harmless between other blocks, but not at the end (IndexError). *)
Example C60_empty_block :
  get_elements (msh_file coarse_nodes (coarse_elements ++ [tx "1 2 2 0"])) = inr EIndex /\
  get_elements (msh_file coarse_nodes (tx "1 2 2 0" :: coarse_elements)) = get_elements (msh_file coarse_nodes coarse_elements).
Proof. split; vm_compute; reflexivity. Qed.
(** A line with three nodes (second order) is taken for a triangle. *)
Example C60_second_order : get_elements (msh_file coarse_nodes [tx "1 1 8 1"; tx "7 1 2 3"]) =
  inl ([], [(tx "7", [tx "1"; tx "2"; tx "3"])], [], [(tx "1 2 3", tx "7")]).
Proof. vm_compute. reflexivity. Qed.
(** A triangle with a lost node: KeyError. *)
Example C60_lost_node : compute_data zcoords int_of (pre_text coarse_rows)
  (msh_file [tx "2 2 0 4"; tx "1 0 2 0"; tx "2 7 6 0"; tx "3 4 0 0"; tx "4 11 0 0"] coarse_elements) 0 = inr EKey.
Proof. vm_compute. reflexivity. Qed.
(** The shipped im_3kW.msh has version 4.1. *)
Example C60_version_example : check_version (List.concat (map nl [tx "$MeshFormat"; tx "4.1 0 8"; tx "$EndMeshFormat"])) = inr EUser /\
  check_version (msh_file coarse_nodes coarse_elements) = inl tt.
Proof. split; vm_compute; reflexivity. Qed.
