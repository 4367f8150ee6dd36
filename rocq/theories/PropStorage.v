(** C58: vector objects with references to arrays behave like values. *)
From Coq Require Import List Arith Lia Bool.
From Verif Require Import Storage.
Import ListNotations.

Section Spec.
  Variables D K : Type.
  Variables dadd dsub : D -> D -> D.
  Variable dmul : D -> K -> D.
  Variable dzero : D -> D.
  Variable kzero : K.
  Notation instr := (instr D K).

  (** ** Value semantics: every vector is a value of its own *)
  Fixpoint put (vs : list D) (a : nat) (d : D) : list D :=
    match vs, a with [], _ => [] | _ :: vs', 0 => d :: vs' | x :: vs', S a' => x :: put vs' a' d end.
  (** [zero] and [rand] are what clone_zero and clone_rand give *)
  Definition vstep (zero : D -> D) (rand : D -> D -> D) (vs : list D) (i : instr) : option (list D * list D) :=
    let get a := nth_error vs a in
    match i with
    | INew d => Some (vs ++ [d], [])
    | IAdd a b => match get a, get b with Some x, Some y => Some (vs ++ [dadd x y], []) | _, _ => None end
    | ISub a b => match get a, get b with Some x, Some y => Some (vs ++ [dsub x y], []) | _, _ => None end
    | IMul a c => match get a with Some x => Some (vs ++ [dmul x c], []) | None => None end
    | IClone a => match get a with Some x => Some (vs ++ [x], []) | None => None end
    | IZero a => match get a with Some x => Some (vs ++ [zero x], []) | None => None end
    | IRand a d => match get a with Some x => Some (vs ++ [rand x d], []) | None => None end
    | ISend a => match get a with Some x => Some (vs, [x]) | None => None end
    | IRecv a d => match get a with Some _ => Some (put vs a d, []) | None => None end
    | ISet a b => match get a, get b with Some _, Some y => Some (put vs a y, []) | _, _ => None end
    | IWrite a f => match get a with Some x => Some (put vs a (f x), []) | None => None end
    end.
  Fixpoint vrun (zero : D -> D) (rand : D -> D -> D) (p : list instr) (vs : list D) : option (list D * list D) :=
    match p with
    | [] => Some (vs, [])
    | i :: p' =>
        match vstep zero rand vs i with
        | None => None
        | Some (vs1, out) => match vrun zero rand p' vs1 with None => None | Some (vs2, out') => Some (vs2, out ++ out') end
        end
    end.
  Definition is_set (i : instr) : bool := match i with ISet _ _ => true | _ => false end.
  Definition is_write (i : instr) : bool := match i with IWrite _ _ => true | _ => false end.
  (** what a run ends with: the values of the vectors and the data sent *)
  Definition outcome (r : option (state D * list D)) : option (list D * list D) :=
    match r with Some (s, out) => Some (values D s, out) | None => None end.

  Notation step := (step D K dadd dsub dmul dzero kzero).
  Notation run := (run D K dadd dsub dmul dzero kzero).
  Notation state := (state D).
  Notation objs := (objs D).
  Notation arrs := (arrs D).
  Notation fresh := (fresh D).

  (** all references are to arrays that exist *)
  Definition ok (s : state) : Prop := forall l, In l (objs s) -> l < fresh s.
  Lemma nth_ok s a l : ok s -> nth_error (objs s) a = Some l -> l < fresh s.
  Proof. intros H E. apply H. eapply nth_error_In; eauto. Qed.
  Lemma map_fresh s d os : (forall l, In l os -> l < fresh s) -> map (fun k => if k =? fresh s then d else arrs s k) os = map (arrs s) os.
  Proof. intros H. apply map_ext_in. intros l Hl. specialize (H l Hl). destruct (Nat.eqb_spec l (fresh s)); [lia|reflexivity]. Qed.
  Lemma rebind_last os l0 l : rebind (os ++ [l0]) (length (os ++ [l0]) - 1) l = os ++ [l].
  Proof.
    rewrite app_length. simpl. replace (length os + 1 - 1) with (length os) by lia.
    induction os as [|o os IH]; [reflexivity|]. simpl. rewrite IH. reflexivity.
  Qed.
  Lemma map_rebind (f : nat -> D) os a l : map f (rebind os a l) = put (map f os) a (f l).
  Proof. revert a. induction os as [|o os IH]; intros [|a]; simpl; auto. rewrite IH. reflexivity. Qed.
  Lemma rebind_in os a l k : In k (rebind os a l) -> k = l \/ In k os.
  Proof. revert a. induction os as [|o os IH]; intros [|a]; simpl; auto. - intros [->|H]; auto. - intros [->|H]; auto. destruct (IH _ H); auto. Qed.

  Lemma numpy_new_ok s d : ok s -> ok (numpy_new D dzero s d) /\ values D (numpy_new D dzero s d) = values D s ++ [d].
  Proof.
    intros H. unfold numpy_new, alloc, new_obj, set_values, values. cbn [Storage.objs Storage.arrs Storage.fresh]. rewrite rebind_last. split.
    - intros l Hl. cbn [Storage.objs Storage.fresh] in *. apply in_app_or in Hl. destruct Hl as [Hl|[<-|[]]]; [specialize (H l Hl)|]; lia.
    - rewrite map_app. cbn [map]. rewrite Nat.eqb_refl. f_equal. apply map_ext_in. intros l Hl. specialize (H l Hl).
      destruct (Nat.eqb_spec l (S (fresh s))); [lia|]. destruct (Nat.eqb_spec l (fresh s)); [lia|reflexivity].
  Qed.
  Lemma nodup_snoc (os : list nat) l : NoDup os -> ~ In l os -> NoDup (os ++ [l]).
  Proof. intros N H. apply NoDup_Add with (a := l) (l := os); [|split; auto]. rewrite <- (app_nil_r os) at 1. apply Add_app. Qed.
  Lemma copy_new_ok s d : ok s -> ok (copy_new D s d) /\ values D (copy_new D s d) = values D s ++ [d] /\ (NoDup (objs s) -> NoDup (objs (copy_new D s d))).
  Proof.
    intros H. unfold copy_new, alloc, new_obj, values, ok. cbn [Storage.objs Storage.arrs Storage.fresh]. split; [|split].
    - intros l Hl. apply in_app_or in Hl. destruct Hl as [Hl|[<-|[]]]; [specialize (H l Hl)|]; lia.
    - rewrite map_app. cbn [map]. rewrite Nat.eqb_refl. f_equal. apply map_fresh. exact H.
    - intros N. apply nodup_snoc; [exact N|]. intros X. specialize (H _ X). lia.
  Qed.
  Lemma alloc_ok s d : ok s -> ok (snd (alloc D s d)) /\ values D (snd (alloc D s d)) = values D s /\ objs (snd (alloc D s d)) = objs s.
  Proof.
    intros H. unfold alloc, values, ok. cbn [snd Storage.objs Storage.arrs Storage.fresh]. split; [|split; [|reflexivity]].
    - intros l Hl. specialize (H l Hl). lia.
    - apply map_fresh. exact H.
  Qed.
  Lemma put_same vs a x : nth_error vs a = Some x -> put vs a x = vs.
  Proof. revert a. induction vs as [|v vs IH]; intros [|a] E; simpl in *; try discriminate; [congruence|]. rewrite IH; auto. Qed.
  Lemma put_snoc vs x d : put (vs ++ [x]) (length vs) d = vs ++ [d].
  Proof. induction vs as [|v vs IH]; simpl; [reflexivity|]. rewrite IH. reflexivity. Qed.
  Lemma map_write (f : nat -> D) os a l d : NoDup os -> nth_error os a = Some l -> map (fun k => if k =? l then d else f k) os = put (map f os) a d.
  Proof.
    revert a. induction os as [|o os IH]; intros [|a] N E; simpl in *; try discriminate.
    - injection E as ->. rewrite Nat.eqb_refl. f_equal. apply map_ext_in. intros k Hk. inversion N; subst. destruct (Nat.eqb_spec k l); [congruence|reflexivity].
    - inversion N; subst. rewrite (IH a) by auto. f_equal. destruct (Nat.eqb_spec o l) as [->|]; [|reflexivity]. exfalso. apply nth_error_In in E. contradiction.
  Qed.
  Lemma write_values s a l d : NoDup (objs s) -> nth_error (objs s) a = Some l -> values D (write D s l d) = put (values D s) a d.
  Proof. intros N E. unfold values, write. cbn [Storage.objs Storage.arrs]. apply map_write; auto. Qed.
  Lemma get_values s a : nth_error (values D s) a = match nth_error (objs s) a with Some l => Some (arrs s l) | None => None end.
  Proof. unfold values. destruct (nth_error (objs s) a) eqn:E; [apply map_nth_error, E|]. apply nth_error_None in E. apply nth_error_None. rewrite map_length. exact E. Qed.

  (** one instruction *)
  Lemma numpy_step s i : ok s -> is_write i = false ->
    match step Numpy s i with
    | Some (s', out) => ok s' /\ vstep dzero (fun _ d => d) (values D s) i = Some (values D s', out)
    | None => vstep dzero (fun _ d => d) (values D s) i = None
    end.
  Proof.
    intros H W. unfold Storage.step, vstep.
    assert (NB : forall d, ok (numpy_new D dzero s d) /\ Some (values D s ++ [d], @nil D) = Some (values D (numpy_new D dzero s d), [])).
    { intros d. destruct (numpy_new_ok s d H) as [H1 H2]. split; [exact H1|]. rewrite H2. reflexivity. }
    destruct i as [d|a b|a b|a c|a|a|a d|a|a d|a b|a f]; try discriminate W; rewrite ?get_values;
      try destruct (nth_error (objs s) a) as [l|] eqn:Ea; try destruct (nth_error (objs s) b) as [l'|] eqn:Eb; try reflexivity; try apply NB.
    - unfold alloc, new_obj, set_values, values. cbn [Storage.objs Storage.arrs Storage.fresh]. rewrite rebind_last. pose proof (nth_ok s a l H Ea) as Hl. split.
      + intros k Hk. cbn [Storage.objs Storage.fresh] in *. apply in_app_or in Hk. destruct Hk as [Hk|[<-|[]]]; [specialize (H k Hk)|]; lia.
      + rewrite map_app. cbn [map]. rewrite map_fresh by exact H. destruct (Nat.eqb_spec l (fresh s)); [lia|reflexivity].
    - destruct (copy_new_ok s (dzero (arrs s l)) H) as (H1 & H2 & _). split; [exact H1|]. rewrite H2. reflexivity.
    - split; [exact H|reflexivity].
    - unfold alloc, set_values. split.
      + intros k Hk. cbn [Storage.objs Storage.fresh] in *. apply rebind_in in Hk. destruct Hk as [->|Hk]; [lia|]. specialize (H k Hk). lia.
      + unfold values. cbn [Storage.objs Storage.arrs Storage.fresh]. rewrite map_rebind, map_fresh by exact H. rewrite Nat.eqb_refl. reflexivity.
    - split.
      + intros k Hk. unfold set_values in *. cbn [Storage.objs Storage.fresh] in *. apply rebind_in in Hk. destruct Hk as [->|Hk]; [eapply nth_ok; eauto|apply H, Hk].
      + unfold values, set_values. cbn [Storage.objs Storage.arrs]. rewrite map_rebind. reflexivity.
  Qed.
  (** clone_rand of VectorPetsc is a copy *)
  Definition rand_of (st : style) : D -> D -> D := match st with Petsc => fun x _ => x | _ => fun _ d => d end.
  Definition zero_of (st : style) : D -> D := match st with Numpy => dzero | _ => fun x => dmul x kzero end.
  Lemma deep_step st s i : st <> Numpy -> ok s -> NoDup (objs s) -> is_set i = false ->
    match step st s i with
    | Some (s', out) => ok s' /\ NoDup (objs s') /\ vstep (zero_of st) (rand_of st) (values D s) i = Some (values D s', out)
    | None => vstep (zero_of st) (rand_of st) (values D s) i = None
    end.
  Proof.
    intros Hst H N W.
    assert (CN : forall d, ok (copy_new D s d) /\ NoDup (objs (copy_new D s d)) /\ Some (values D s ++ [d], @nil D) = Some (values D (copy_new D s d), [])).
    { intros d. destruct (copy_new_ok s d H) as (H1 & H2 & H3). split; [exact H1|]. split; [auto|]. rewrite H2. reflexivity. }
    assert (AN : forall d, ok (copy_new D (snd (alloc D s d)) d) /\ NoDup (objs (copy_new D (snd (alloc D s d)) d)) /\
                           Some (values D s ++ [d], @nil D) = Some (values D (copy_new D (snd (alloc D s d)) d), [])).
    { intros d. destruct (alloc_ok s d H) as (A1 & A2 & A3). destruct (copy_new_ok _ d A1) as (H1 & H2 & H3). split; [exact H1|].
      split; [apply H3; rewrite A3; exact N|]. rewrite H2, A2. reflexivity. }
    assert (FW : forall s d x, ok s -> NoDup (objs s) -> let s1 := copy_new D s d in let s2 := write D s1 (last (objs s1) 0) x in
       ok s2 /\ NoDup (objs s2) /\ Some (values D s ++ [x], @nil D) = Some (values D s2, []) /\ arrs s1 (last (objs s1) 0) = d /\ last (objs s1) 0 = fresh s /\ objs s1 = objs s ++ [fresh s]).
    { clear. intros s d x H N s1 s2. destruct (copy_new_ok s d H) as (H1 & H2 & H3). fold s1 in H1, H2, H3.
      assert (L : objs s1 = objs s ++ [fresh s]) by reflexivity. assert (LL : last (objs s1) 0 = fresh s) by (rewrite L; apply last_last).
      split; [exact H1|]. split; [apply H3, N|]. split; [|split; [|split; [exact LL|exact L]]].
      - unfold s2. rewrite (write_values s1 (length (objs s))), H2; [|auto|].
        + replace (length (objs s)) with (length (values D s)) by apply map_length. rewrite put_snoc. reflexivity.
        + rewrite LL, L, nth_error_app2, Nat.sub_diag by lia. reflexivity.
      - rewrite LL. unfold s1, copy_new, alloc, new_obj. cbn [Storage.arrs]. rewrite Nat.eqb_refl. reflexivity. }
    assert (WR : forall a l d, nth_error (objs s) a = Some l -> ok (write D s l d) /\ NoDup (objs (write D s l d)) /\ Some (put (values D s) a d, @nil D) = Some (values D (write D s l d), [])).
    { intros a l d E. split; [exact H|]. split; [exact N|]. rewrite (write_values s a) by auto. reflexivity. }
    assert (OLD : forall l d k, nth_error (objs s) k = Some l -> arrs (copy_new D s d) l = arrs s l).
    { intros l d k E. pose proof (nth_ok s k l H E). unfold copy_new, alloc, new_obj. cbn [Storage.arrs]. destruct (Nat.eqb_spec l (fresh s)); [lia|reflexivity]. }
    unfold Storage.step, vstep. destruct st; [congruence| |];
    destruct i as [d|a b|a b|a c|a|a|a d|a|a d|a b|a f]; try discriminate W; rewrite ?get_values;
      try destruct (nth_error (objs s) a) as [l|] eqn:Ea; try destruct (nth_error (objs s) b) as [l'|] eqn:Eb; try reflexivity;
      cbn [zero_of rand_of]; try apply CN; try apply AN; try (apply WR; exact Ea); try (split; [exact H|split; [exact N|reflexivity]]).
    - cbv zeta. set (x := dadd _ _). destruct (FW s (arrs s l) x H N) as (F1 & F2 & F3 & F4 & _).
      split; [exact F1|]. split; [exact F2|]. rewrite <- F3. unfold x. rewrite F4, (OLD l' _ b Eb). reflexivity.
    - cbv zeta. set (x := dsub _ _). destruct (FW s (arrs s l) x H N) as (F1 & F2 & F3 & F4 & _).
      split; [exact F1|]. split; [exact F2|]. rewrite <- F3. unfold x. rewrite F4, (OLD l' _ b Eb). reflexivity.
    - cbv zeta. set (x := dmul _ _). destruct (FW s (arrs s l) x H N) as (F1 & F2 & F3 & F4 & _).
      split; [exact F1|]. split; [exact F2|]. rewrite <- F3. unfold x. rewrite F4. reflexivity.
    - cbv zeta. destruct (FW s (arrs s l) (arrs s l) H N) as (_ & _ & _ & F4 & F5 & F6). cbn [Storage.arrs Storage.objs Storage.fresh]. rewrite F4, F6, removelast_last.
      set (s1 := mkState D (objs s) (arrs (copy_new D s (arrs s l))) (fresh (copy_new D s (arrs s l)))).
      assert (O1 : ok s1). { intros k Hk. specialize (H k Hk). unfold s1, copy_new, alloc, new_obj. cbn [Storage.fresh]. lia. }
      assert (V1 : values D s1 = values D s). { unfold values, s1. cbn [Storage.objs Storage.arrs]. apply map_fresh, H. }
      set (x := dmul _ _). destruct (FW s1 (arrs s l) x O1 N) as (G1 & G2 & G3 & G4 & _).
      split; [exact G1|]. split; [exact G2|]. rewrite <- G3, V1. unfold x. rewrite G4. reflexivity.
    - cbv zeta. destruct (FW s (arrs s l) d H N) as (F1 & F2 & F3 & _). split; [exact F1|]. split; [exact F2|]. exact F3.
  Qed.
  Lemma numpy_run p : forall s, ok s -> forallb (fun i => negb (is_write i)) p = true ->
    outcome (run Numpy p s) = vrun dzero (fun _ d => d) p (values D s).
  Proof.
    induction p as [|i p IH]; intros s H W; [reflexivity|]. cbn [forallb] in W. apply andb_true_iff in W. destruct W as [W1 W2]. apply negb_true_iff in W1.
    pose proof (numpy_step s i H W1) as S. cbn [Storage.run vrun]. destruct (step Numpy s i) as [[s' out]|].
    - destruct S as [H' ->]. specialize (IH s' H' W2). destruct (run Numpy p s') as [[s2 out']|]; cbn [outcome] in *; rewrite <- IH; reflexivity.
    - rewrite S. reflexivity.
  Qed.
  Lemma deep_run st p : st <> Numpy -> forall s, ok s -> NoDup (objs s) -> forallb (fun i => negb (is_set i)) p = true ->
    outcome (run st p s) = vrun (zero_of st) (rand_of st) p (values D s).
  Proof.
    intros Hst. induction p as [|i p IH]; intros s H N W; [reflexivity|]. cbn [forallb] in W. apply andb_true_iff in W. destruct W as [W1 W2]. apply negb_true_iff in W1.
    pose proof (deep_step st s i Hst H N W1) as S. cbn [Storage.run vrun]. destruct (step st s i) as [[s' out]|].
    - destruct S as (H' & N' & ->). specialize (IH s' H' N' W2). destruct (run st p s') as [[s2 out']|]; cbn [outcome] in *; rewrite <- IH; reflexivity.
    - rewrite S. reflexivity.
  Qed.
End Spec.

(** With the numpy classes, whose clones share the array, every program that does not write into the array of a vector gives
    the same values and sends the same data as if vectors were values. *)
Theorem C58_numpy_vectors_are_values :
  forall (D K : Type) dadd dsub (dmul : D -> K -> D) dzero kzero d0 p, forallb (fun i => negb (is_write D K i)) p = true ->
  outcome D (run D K dadd dsub dmul dzero kzero Numpy p (empty D d0)) = vrun D K dadd dsub dmul dzero (fun _ d => d) p [].
Proof. intros. rewrite numpy_run; auto. intros l []. Qed.
(** With VectorPetsc and VectorFiredrake, whose unpack writes into the array, the same holds for every program that does not
    hand the array of one vector to another one (set_values), and these programs may even write into arrays. clone_zero is
    multiplication by zero, and clone_rand of VectorPetsc a copy. *)
Theorem C58_copying_vectors_are_values :
  forall (D K : Type) dadd dsub (dmul : D -> K -> D) dzero kzero d0 st p, st <> Numpy -> forallb (fun i => negb (is_set D K i)) p = true ->
  outcome D (run D K dadd dsub dmul dzero kzero st p (empty D d0)) =
  vrun D K dadd dsub dmul (fun x => dmul x kzero) (match st with Petsc => fun x _ => x | _ => fun _ d => d end) p [].
Proof.
  intros. rewrite deep_run; auto; [|intros l []|constructor]. unfold zero_of, rand_of, values. destruct st; [congruence|reflexivity|reflexivity].
Qed.
(** Both conditions are needed: writing into the array of a clone changes the original, *)
Theorem C58_numpy_write_refuted :
  exists p : list (instr nat nat),
  outcome nat (run nat nat Nat.add Nat.sub Nat.mul (fun _ => 0) 0 Numpy p (empty nat 0)) = Some ([7; 7], []) /\
  vrun nat nat Nat.add Nat.sub Nat.mul (fun _ => 0) (fun _ d => d) p [] = Some ([5; 7], []).
Proof. exists [INew 5; IClone 0; IWrite 1 (fun _ => 7)]. split; reflexivity. Qed.
(** and unpack into a vector that was given the array of another one changes both. *)
Theorem C58_shared_unpack_refuted :
  forall st, st <> Numpy -> exists p : list (instr nat nat),
  outcome nat (run nat nat Nat.add Nat.sub Nat.mul (fun _ => 0) 0 st p (empty nat 0)) = Some ([9; 9], []) /\
  vrun nat nat Nat.add Nat.sub Nat.mul (fun _ => 0) (match st with Petsc => fun x _ => x | _ => fun _ d => d end) p [] = Some ([5; 9], []).
Proof. intros st H. exists [INew 5; INew 6; ISet 1 0; IRecv 1 9]. destruct st; [congruence| |]; split; reflexivity. Qed.

(** Example: a program with every permitted instruction, for the three styles *)
Definition p_ex : list (instr nat nat) :=
  [INew 5; INew 3; IAdd 0 1; ISub 2 1; IMul 3 4; IClone 4; IZero 5; IRand 6 8; IRecv 5 11; ISend 5; ISend 4; IRecv 4 2; ISend 5; IAdd 4 5].
Example C58_program : forallb (fun i => negb (is_write nat nat i) && negb (is_set nat nat i)) p_ex = true /\
  vrun nat nat Nat.add Nat.sub Nat.mul (fun _ => 0) (fun _ d => d) p_ex [] = Some ([5; 3; 8; 5; 2; 11; 0; 8; 13], [11; 20; 11]) /\
  forall st, st <> Petsc -> outcome nat (run nat nat Nat.add Nat.sub Nat.mul (fun _ => 0) 0 st p_ex (empty nat 0)) = Some ([5; 3; 8; 5; 2; 11; 0; 8; 13], [11; 20; 11]).
Proof. split; [reflexivity|]. split; [reflexivity|]. intros st H. destruct st; [reflexivity|congruence|reflexivity]. Qed.
(** the random initial guess of a PETSc application is the template *)
Example C58_petsc_rand : outcome nat (run nat nat Nat.add Nat.sub Nat.mul (fun _ => 0) 0 Petsc [INew 5; IRand 0 8] (empty nat 0)) = Some ([5; 5], []).
Proof. reflexivity. Qed.

Print Assumptions C58_numpy_vectors_are_values.
Print Assumptions C58_copying_vectors_are_values.
Print Assumptions C58_numpy_write_refuted.
Print Assumptions C58_shared_unpack_refuted.
