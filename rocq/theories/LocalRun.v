(** Runs under the local residual criterion (conv_crit 2): everybody returns. *)
From Coq Require Import List ZArith Lia Arith Bool Permutation.
From Verif Require Import Net NetProofs NetPhase PyList ListFacts Setup SplitProofs Spec SetupProofs Mgrit Collect Sim Pipeline LocalOps LocalMatch.
Import ListNotations.

Section LocalRun.
  Context {A : App}.
  Variable o : Opts A.
  Variable P : nat.
  Notation grids := (o_grids o).
  Notation so := (o_set_order o).
  Notation L := (length (o_grids o)).
  Notation N := (N grids).
  Notation lo := (lo grids P).
  Notation cnt := (cnt grids P).
  Notation off := (off grids P).
  Notation loc := (loc grids P).
  Notation isC := (isC grids).
  Notation has := (has grids P).
  Notation owner := (owner grids P).
  Notation infos := (infos o P).
  Notation sflag := (sflag o P).
  Notation rflag := (rflag o P).
  Notation src := (src o P).
  Notation dst := (dst o P).
  Notation info l r := (closed_info grids so P l r).
  Notation own_crit := (own_crit o P).
  Notation clean_slots := (clean_slots o).
  Notation pass_slots := (pass_slots o).
  Hypothesis HV : valid_hierarchy grids.
  Hypothesis HP0 : 0 < P.
  Hypothesis HP : P <= N 0.
  Hypothesis Hloc : gcc o = false.
  Hypothesis Hperm : forall l r, l < L -> r < P -> order_perm grids so P l r.

  Lemma Lpos : 0 < L.
  Proof. apply (SetupProofs.L_pos grids P HV HP0 HP). Qed.

  (** ** clean_up (648-691) *)
  Definition clean_sends (r : nat) (s : St A) : prog (Msg A) (St A) :=
    s <- for_each (seq 0 (L - 1)) (fun lvl s =>
           s <- (if i_last_is_c (info lvl r) then send_point o P lvl (-1) (i_send_to (info lvl r)) lvl 0 s else Ret s) ;;
           s <- (if i_comm_back (info lvl r) then send_point o P lvl (-1) (i_send_to (info lvl r)) lvl 1 s else Ret s) ;;
           s <- (if i_last_is_f (info lvl r) then send_point o P lvl (-1) (i_send_to (info lvl r)) lvl 2 s else Ret s) ;;
           s <- (if i_last_is_f (info lvl r) then send_point o P lvl (-1) (i_send_to (info lvl r)) lvl 3 s else Ret s) ;;
           if (0 <=? i_send_to (info (S lvl) r))%Z then
             c <- lift (py_nth (i_loc_c (info lvl r)) (-1)) ;;
             send_point o P lvl (Z.of_nat c) (i_send_to (info (S lvl) r)) lvl 4 s
           else Ret s) s ;;
    s <- (if negb (i_send_to (info (L - 1) r) =? -99)%Z then
            k <- lift (py_nth (i_loc (info (L - 1) r)) (-1)) ;;
            send_point o P (L - 1) (Z.of_nat k) (i_send_to (info (L - 1) r)) (L - 1) 5 s
          else Ret s) ;;
    (if i_last_is_f (info 0 r) then send_point o P 0 (-1) (Z.of_nat r + 1) 0 7 s else Ret s).
  Definition clean_recvs (r : nat) (s : St A) : prog (Msg A) (St A) :=
    s <- for_each (seq 0 (L - 1)) (fun lvl s =>
           s <- (if i_first_is_f (info lvl r) && negb (s_sfin s lvl 0) then recv_ghost o P lvl (i_get_from (info lvl r)) lvl 0 s else Ret s) ;;
           s <- (if i_comm_front (info lvl r) && negb (s_sfin s lvl 1) then recv_ghost o P lvl (i_get_from (info lvl r)) lvl 1 s else Ret s) ;;
           s <- (if i_first_is_c (info lvl r) && negb (s_sfin s lvl 2) then recv_ghost o P lvl (i_get_from (info lvl r)) lvl 2 s else Ret s) ;;
           s <- (if i_first_is_c (info lvl r) && negb (s_sfin s lvl 3) then recv_ghost o P lvl (i_get_from (info lvl r)) lvl 3 s else Ret s) ;;
           if (0 <=? i_get_from (info (S lvl) r))%Z && negb (s_sfin s lvl 4)
           then ds <- receive o P (i_get_from (info (S lvl) r)) lvl 4 s ;; Ret (snd ds) else Ret s) s ;;
    s <- (if negb (i_get_from (info (L - 1) r) =? -99)%Z && negb (s_sfin s (L - 1) 5)
          then recv_ghost o P (L - 1) (i_get_from (info (L - 1) r)) (L - 1) 5 s else Ret s) ;;
    (if i_first_is_c (info 0 r) && negb (s_sfin s 0 7) then recv_ghost o P 0 (i_get_from (info 0 r)) 0 7 s else Ret s).
  Definition same_it (s : St A) : bool :=
    match s_fin_it s, s_pre_it s with Some a, Some b => a =? b | None, None => true | _, _ => false end.
  Definition clean_body (r : nat) (s : St A) : prog (Msg A) (St A) :=
    s <- clean_sends r s ;; if same_it s then clean_recvs r s else Ret s.

  Lemma for_each_peq {B} (l : list B) (f g : B -> St A -> prog (Msg A) (St A)) : (forall x s, In x l -> peq (f x s) (g x s)) ->
    forall s, peq (for_each l f s) (for_each l g s).
  Proof.
    induction l as [|x l IH]; intros H s; [apply peq_refl|]. simpl. eapply peq_trans; [apply bind_peq_l, H; left; auto|].
    apply bind_peq. intros s'. apply IH. intros y s0 Hy. apply H. right; auto.
  Qed.
  Lemma clean_up_peq r s : peq (clean_up o P r (infos r) s) (WaitAll (bind (clean_body r s) (fun s => WaitAll (Ret s)))).
  Proof.
    pose proof Lpos as HL. unfold clean_up. constructor. rewrite Hloc. change (Mgrit.L o) with L.
    assert (E : forall l, l < L -> inf (infos r) l = info l r) by (intros; apply inf_eq; auto).
    unfold clean_body, clean_sends. eapply peq_trans; [|apply peq_sym, bind_assoc]. eapply peq_trans; [|apply peq_sym, bind_assoc].
    eapply peq_trans.
    { apply bind_peq_l, (for_each_peq (seq 0 (L - 1)) _ (fun lvl s =>
           s <- (if i_last_is_c (info lvl r) then send_point o P lvl (-1) (i_send_to (info lvl r)) lvl 0 s else Ret s) ;;
           s <- (if i_comm_back (info lvl r) then send_point o P lvl (-1) (i_send_to (info lvl r)) lvl 1 s else Ret s) ;;
           s <- (if i_last_is_f (info lvl r) then send_point o P lvl (-1) (i_send_to (info lvl r)) lvl 2 s else Ret s) ;;
           s <- (if i_last_is_f (info lvl r) then send_point o P lvl (-1) (i_send_to (info lvl r)) lvl 3 s else Ret s) ;;
           if (0 <=? i_send_to (info (S lvl) r))%Z then
             c <- lift (py_nth (i_loc_c (info lvl r)) (-1)) ;;
             send_point o P lvl (Z.of_nat c) (i_send_to (info (S lvl) r)) lvl 4 s
           else Ret s)). intros l s1 Hl. apply in_seq in Hl. cbv zeta. rewrite (E l), (E (S l)) by lia. apply peq_refl. }
    apply bind_peq. intros s1. rewrite (E (L - 1)), (E 0) by lia. eapply peq_trans; [|apply peq_sym, bind_assoc]. apply bind_peq. intros s2.
    apply bind_peq. intros s3. unfold clean_recvs. fold (same_it s3). destruct (same_it s3); [|apply peq_refl].
    apply bind_peq_l. eapply peq_trans; [apply bind_peq_l, (for_each_peq (seq 0 (L - 1)) _ (fun lvl s =>
           s <- (if i_first_is_f (info lvl r) && negb (s_sfin s lvl 0) then recv_ghost o P lvl (i_get_from (info lvl r)) lvl 0 s else Ret s) ;;
           s <- (if i_comm_front (info lvl r) && negb (s_sfin s lvl 1) then recv_ghost o P lvl (i_get_from (info lvl r)) lvl 1 s else Ret s) ;;
           s <- (if i_first_is_c (info lvl r) && negb (s_sfin s lvl 2) then recv_ghost o P lvl (i_get_from (info lvl r)) lvl 2 s else Ret s) ;;
           s <- (if i_first_is_c (info lvl r) && negb (s_sfin s lvl 3) then recv_ghost o P lvl (i_get_from (info lvl r)) lvl 3 s else Ret s) ;;
           if (0 <=? i_get_from (info (S lvl) r))%Z && negb (s_sfin s lvl 4)
           then ds <- receive o P (i_get_from (info (S lvl) r)) lvl 4 s ;; Ret (snd ds) else Ret s))|].
    { intros l s4 Hl. apply in_seq in Hl. cbv zeta. rewrite (E l), (E (S l)) by lia. apply peq_refl. }
    apply peq_refl.
  Qed.

  Section Cl.
  Variable cl : nat -> bool.
  Notation SS := (SS o P).
  Notation outs := (outs o P).
  Notation ins := (ins o P cl).
  Notation sees := (sees o P cl).

  Definition SOp (r : nat) (p : St A -> prog (Msg A) (St A)) (h : list slot) : Prop :=
    forall KS KR E s0 s, SS r KS KR E s0 s -> srun (p s) [] (outs (s_fin s0) r KS h) (SS r (bumps KS h) KR E s0).
  Definition ROp (r : nat) (p : St A -> prog (Msg A) (St A)) (h : list slot) : Prop :=
    forall KS KR E s0 s, SS r KS KR E s0 s -> srun (p s) (ins r KR E h) [] (SS r KS (bumps KR h) (sees r E h) s0).
  Lemma sop_bind r p q h1 h2 : SOp r p h1 -> SOp r q h2 -> SOp r (fun s => bind (p s) q) (h1 ++ h2).
  Proof.
    intros H1 H2 KS KR E s0 s H. rewrite (outs_app o P). unfold bumps. rewrite !fold_left_app.
    eapply send_then; [apply H1; exact H|]. intros s1 H3. apply H2. exact H3.
  Qed.
  Lemma rop_bind r p q h1 h2 : ROp r p h1 -> ROp r q h2 -> ROp r (fun s => bind (p s) q) (h1 ++ h2).
  Proof.
    intros H1 H2 KS KR E s0 s H. rewrite (ins_app o P). unfold bumps, LocalOps.sees. rewrite !fold_left_app.
    eapply recv_then; [apply H1; exact H|]. intros s1 H3. apply H2. exact H3.
  Qed.
  Lemma sop_for {B} r (f : B -> St A -> prog (Msg A) (St A)) (h : B -> list slot) (l : list B) : (forall x, In x l -> SOp r (f x) (h x)) ->
    SOp r (for_each l f) (flat_map h l).
  Proof.
    induction l as [|x l IH]; intros H; [intros KS KR E s0 s HS; apply srun_ret; exact HS|]. simpl.
    apply (sop_bind r (f x) (for_each l f)); [apply H; left; auto|]. apply IH. intros y Hy. apply H. right; auto.
  Qed.
  Lemma rop_for {B} r (f : B -> St A -> prog (Msg A) (St A)) (h : B -> list slot) (l : list B) : (forall x, In x l -> ROp r (f x) (h x)) ->
    ROp r (for_each l f) (flat_map h l).
  Proof.
    induction l as [|x l IH]; intros H; [intros KS KR E s0 s HS; apply srun_ret; exact HS|]. simpl.
    apply (rop_bind r (f x) (for_each l f)); [apply H; left; auto|]. apply IH. intros y Hy. apply H. right; auto.
  Qed.
  Lemma sop_1 r p x : (forall KS KR E s0 s, SS r KS KR E s0 s -> srun (p s) [] (out1 o P (s_fin s0) r KS x) (SS r (bump KS x) KR E s0)) -> SOp r p [x].
  Proof. intros H KS KR E s0 s HS. cbn [LocalOps.outs bumps fold_left]. rewrite app_nil_r. apply H. exact HS. Qed.
  Lemma rop_1 r p x : (forall KS KR E s0 s, SS r KS KR E s0 s -> srun (p s) (in1 o P cl r KR E x) [] (SS r KS (bump KR x) (see o P cl r E x) s0)) -> ROp r p [x].
  Proof. intros H KS KR E s0 s HS. cbn [LocalOps.ins bumps LocalOps.sees fold_left]. rewrite app_nil_r. apply H. exact HS. Qed.

  Lemma dst_0 r : S r < P -> owner 0 (lo 0 (S r)) = S r.
  Proof.
    intros Hr. apply (owner_eq grids P HV HP0 HP); [apply Lpos|auto|]. rewrite !(lo_level0 grids P HV HP0 HP) by lia.
    pose proof (st_lt grids P HP (S r) Hr). lia.
  Qed.
  Lemma src_0 r : 0 < r -> r < P -> owner 0 (lo 0 r - 1) = r - 1.
  Proof.
    intros Hr0 Hr. apply (owner_eq grids P HV HP0 HP); [apply Lpos|lia|]. replace (S (r - 1)) with r by lia. rewrite !(lo_level0 grids P HV HP0 HP) by lia.
    pose proof (st_lt grids P HP (r - 1)). replace (S (r - 1)) with r in H by lia. lia.
  Qed.
  Lemma clean_sends_op r : r < P -> SOp r (clean_sends r) clean_slots.
  Proof.
    intros Hr. pose proof Lpos as HL. unfold clean_sends, LocalMatch.clean_slots, down_slots. rewrite <- app_assoc. apply sop_bind; [|apply (sop_bind r _ _ [(0 + (L - 1), 5)] [(0, 7)])].
    - apply sop_for. intros l Hl. apply in_seq in Hl. unfold lvl_slots.
      apply (sop_bind r _ _ [(l, 0)] [(l, 1); (l, 2); (l, 3); (l, 4)]); [apply sop_1; intros; eapply send_0_srun; eauto; lia|].
      apply (sop_bind r _ _ [(l, 1)] [(l, 2); (l, 3); (l, 4)]).
      { apply sop_1. intros KS KR E s0 s H. eapply send_1_srun; eauto; try lia. intros F. apply (last_ok o P HV HP0 HP r s l); [lia|auto|apply H|].
        rewrite (comm_back_eq o P) in F. apply (sflag_parts o P (l, 1) r F). }
      apply (sop_bind r _ _ [(l, 2)] [(l, 3); (l, 4)]); [apply sop_1; intros; eapply send_f_srun; eauto; [left; auto|lia]|].
      apply (sop_bind r _ _ [(l, 3)] [(l, 4)]); [apply sop_1; intros; eapply send_f_srun; eauto; [right; left; auto|lia]|].
      apply sop_1. intros KS KR E s0 s H. eapply (send_4_srun o P HV HP0 HP Hloc r KS KR E s0 s l l); eauto; [lia|].
      intros F. destruct (sflag_parts o P (l, 4) r F) as [X1 _]. cbn [fst snd] in X1. change (blvl l 4) with (S l) in X1.
      assert (Hc : 0 < cnt (S l) r) by (unfold SetupProofs.has in X1; apply Nat.ltb_lt in X1; exact X1).
      assert (LL : length (i_loc_c (info l r)) = cnt (S l) r) by (apply (locc_len o P HV HP0 HP); lia).
      assert (NE : i_loc_c (info l r) <> []) by (intros Y; rewrite Y in LL; simpl in LL; lia).
      destruct (cpt_loc o P HV HP0 HP l r (cnt (S l) r - 1)) as (_ & _ & J3 & _); [lia|auto|lia|].
      exists (loc l r (cpt grids l (lo (S l) r + (cnt (S l) r - 1)))). split; [|rewrite (w_u o P r s (proj1 H)) by lia; exact J3].
      rewrite py_nth_last by auto. rewrite LL. apply (locc_nth o P HV HP0 HP); lia.
    - change (0 + (L - 1)) with (L - 1). apply sop_1. intros. eapply send_5_srun; eauto. lia.
    - apply sop_1. intros KS KR E s0 s H. rewrite (last_is_f_eq o P 0 7 r) by (right; right; auto).
      apply (bsend_srun o P HV HP0 HP Hloc r KS KR E s0 s (0, 7) 0 (-1)%Z); auto; try discriminate.
      + intros F. apply (last_ok o P HV HP0 HP r s 0); [auto|auto|apply H|]. apply (sflag_parts o P (0, 7) r F).
      + intros F. pose proof (dst_range o P HV HP0 HP (0, 7) r HL Hr F). unfold LocalOps.dst. cbn [fst snd]. change (blvl 0 7) with 0. rewrite dst_0 by lia. lia.
  Qed.
  Lemma clean_recvs_op r : r < P -> ROp r (clean_recvs r) clean_slots.
  Proof.
    intros Hr. pose proof Lpos as HL. unfold clean_recvs, LocalMatch.clean_slots, down_slots. rewrite <- app_assoc. apply rop_bind; [|apply (rop_bind r _ _ [(0 + (L - 1), 5)] [(0, 7)])].
    - apply rop_for. intros l Hl. apply in_seq in Hl. unfold lvl_slots.
      apply (rop_bind r _ _ [(l, 0)] [(l, 1); (l, 2); (l, 3); (l, 4)]); [apply rop_1; intros; eapply recv_0_srun; eauto; lia|].
      apply (rop_bind r _ _ [(l, 1)] [(l, 2); (l, 3); (l, 4)]); [apply rop_1; intros; eapply recv_1_srun; eauto; lia|].
      apply (rop_bind r _ _ [(l, 2)] [(l, 3); (l, 4)]); [apply rop_1; intros; eapply recv_c_srun; eauto; [left; auto|lia]|].
      apply (rop_bind r _ _ [(l, 3)] [(l, 4)]); [apply rop_1; intros; eapply recv_c_srun; eauto; [right; left; auto|lia]|].
      apply rop_1. intros KS KR E s0 s H. rewrite (get_from_4 o P) by auto. apply (drecv_srun o P HV HP0 HP Hloc cl r KS KR E s0 s (l, 4)); auto; try discriminate.
      + cbn [fst snd]. change (blvl l 4) with (S l). lia.
      + intros F. rewrite <- (get_from_src o P (l, 4) r F); auto.
    - change (0 + (L - 1)) with (L - 1). apply rop_1. intros. eapply recv_5_srun; eauto. lia.
    - apply rop_1. intros. eapply recv_c_srun; eauto. right; right; auto.
  Qed.

  Lemma kp_same s0 s : kp s0 s -> same_it s = same_it s0.
  Proof. intros H. unfold same_it. rewrite (k_fin_it _ _ H), (k_pre_it _ _ H). reflexivity. Qed.
  Lemma clean_body_srun r K E s : r < P -> SS r K K E s s -> (same_it s = true \/ ins r K E clean_slots = []) ->
    srun (clean_body r s) (ins r K E clean_slots) (outs (s_fin s) r K clean_slots) (fun _ => True).
  Proof.
    intros Hr HS Hc. unfold clean_body. rewrite <- (app_nil_r (outs (s_fin s) r K clean_slots)).
    eapply send_then; [apply (clean_sends_op r Hr K K E s s HS)|]. intros s1 H1. rewrite (kp_same s s1) by apply H1.
    destruct (same_it s) eqn:ES.
    - eapply srun_weak; [apply (clean_recvs_op r Hr _ _ _ _ _ H1)|reflexivity|reflexivity|auto].
    - destruct Hc as [Hc|Hc]; [discriminate|]. rewrite Hc. apply srun_ret. exact I.
  Qed.

  (** ** compute_residual (387-413) *)
  Lemma crit_filter' r : r < P ->
    filter (fun i => negb (r =? 0) || negb (i =? 0)) (i_loc_c (info 0 r)) = map (loc 0 r) (own_crit r).
  Proof.
    intros Hr. pose proof Lpos. unfold closed_info. cbn [i_loc_c]. rewrite filter_map_swap. unfold Sim.own_crit. f_equal. apply filter_ext_in.
    intros i Hi. apply (cps_in o P HV HP0 HP) in Hi; auto. rewrite orb_comm. apply (skip_iff o P HV HP0 HP); tauto.
  Qed.
  Lemma sequence_ok {B C} (f : B -> option C) l : (forall x, In x l -> exists y, f x = Some y) -> exists ys, sequence (map f l) = Some ys /\ length ys = length l.
  Proof.
    induction l as [|x l IH]; intros H; [exists []; auto|]. simpl. destruct (H x (or_introl eq_refl)) as [y ->].
    destruct IH as (ys & -> & Hy); [intros z Hz; apply H; right; auto|]. exists (y :: ys). simpl. auto.
  Qed.
  Lemma residual_srun r K E s0 s : r < P -> SS r K K E s0 s ->
    srun (compute_residual o P r (infos r) s) (ins r K E [(0, 7)]) (outs (s_fin s0) r K [(0, 7)])
      (fun vs => SS r (bumps K [(0, 7)]) (bumps K [(0, 7)]) (sees r E [(0, 7)]) s0 (snd vs) /\ length (fst vs) = length (own_crit r)).
  Proof.
    intros Hr H. pose proof Lpos as HL. unfold compute_residual. rewrite inf_eq by auto. cbn [LocalOps.ins LocalOps.outs bumps LocalOps.sees fold_left].
    assert (X7 : exch_op 7) by (right; right; auto).
    eapply send_then; [eapply send_f_srun; eauto|]. clear s H. intros s H.
    eapply recv_then; [eapply recv_c_srun; eauto|]. clear s H. intros s H. rewrite crit_filter' by auto.
    destruct (sequence_ok (fun i => match propagate (infos r) 0 s i, py_nth (s_u s 0) (Z.of_nat i) with
               | Some y, Some x => Some (vnorm A (vsub A y x)) | _, _ => None end) (map (loc 0 r) (own_crit r))) as (ys & E1 & E2).
    { intros i Hi. apply in_map_iff in Hi. destruct Hi as (x & <- & Hx). unfold Sim.own_crit in Hx. apply filter_In in Hx. destruct Hx as [Hx Hx0].
      apply Nat.ltb_lt in Hx0. apply (cps_in o P HV HP0 HP) in Hx; auto. destruct Hx as [Hx _]. pose proof (loc_ge o P HV HP0 HP 0 r x HL Hr Hx Hx0) as G.
      destruct (propagate_ok o P HP0 HP r s 0 (loc 0 r x) HL Hr (proj1 H) G) as [y ->].
      destruct (py_nth_ok (s_u s 0) (loc 0 r x)) as [z ->]; [rewrite (w_u o P r s (proj1 H)) by auto; lia|]. eauto. }
    rewrite E1. cbn [lift bind]. apply srun_ret. cbn [fst snd]. split; [exact H|]. rewrite E2, map_length. reflexivity.
  Qed.

  (** compute_jump (372-385) sends nothing; it fits the same shape when no message of kind 7 can be on its way *)
  Definition compute_crit (r : nat) (s : St A) := if is_jump o then compute_jump r (infos r) s else compute_residual o P r (infos r) s.
  Lemma jump_srun r K E s0 s : r < P -> length (s_last s0) = cnt 0 r + off 0 r -> sflag 0 7 r = false -> rflag 0 7 r = false -> SS r K K E s0 s ->
    srun (compute_jump r (infos r) s) (ins r K E [(0, 7)]) (outs (s_fin s0) r K [(0, 7)])
      (fun vs => (exists s1, SS r (bumps K [(0, 7)]) (bumps K [(0, 7)]) (sees r E [(0, 7)]) s0 s1 /\ snd vs = set_last s1 (map (vclone A) (s_u s1 0))) /\
                 length (fst vs) = length (own_crit r)).
  Proof.
    intros Hr Hla F1 F2 H. pose proof Lpos as HL. unfold compute_jump. rewrite inf_eq by auto. cbn [LocalOps.ins LocalOps.outs bumps LocalOps.sees fold_left].
    unfold in1, out1. cbn [fst snd]. rewrite F1, F2. cbn [andb app]. rewrite crit_filter' by auto.
    destruct (sequence_ok (fun i => match py_nth (s_u s 0) (Z.of_nat i), py_nth (s_last s) (Z.of_nat i) with
                 | Some x, Some y => Some (vnorm A (vsub A x y)) | _, _ => None end) (map (loc 0 r) (own_crit r))) as (ys & E1 & E2).
    { intros i Hi. apply in_map_iff in Hi. destruct Hi as (x & <- & Hx). unfold Sim.own_crit in Hx. apply filter_In in Hx. destruct Hx as [Hx _].
      apply (cps_in o P HV HP0 HP) in Hx; auto. destruct Hx as [Hx _]. pose proof (loc_bound o P HV HP0 HP 0 r x HL Hr Hx) as G.
      destruct (py_nth_ok (s_u s 0) (loc 0 r x)) as [y ->]; [rewrite (w_u o P r s (proj1 H)) by auto; lia|].
      destruct (py_nth_ok (s_last s) (loc 0 r x)) as [z ->]; [rewrite (k_last _ _ (proj2 (proj2 H))); lia|]. eauto. }
    rewrite E1. cbn [lift bind]. apply srun_ret. cbn [fst snd]. split; [|rewrite E2, map_length; reflexivity].
    exists s. split; [|reflexivity]. apply (SS_nosend o P r _ _ _ _ _ (0, 7)); auto. apply (SS_norecv o P cl r _ _ _ _ _ (0, 7)); auto.
  Qed.
  (** what a pass leaves alone *)
  Record kq (r : nat) (s0 s : St A) : Prop := {
    q_conv : s_conv s = s_conv s0;
    q_fin : s_fin s = s_fin s0;
    q_fin_it : s_fin_it s = s_fin_it s0;
    q_pre : s_pre s = s_pre s0;
    q_pre_it : s_pre_it s = s_pre_it s0;
    q_s6 : s_stag s 0 6 = s_stag s0 0 6;
    q_r6 : s_rtag s 0 6 = s_rtag s0 0 6;
    q_f6 : s_sfin s 0 6 = s_sfin s0 0 6;
    q_last : is_jump o = true -> length (s_last s) = cnt 0 r + off 0 r
  }.
  Lemma kp_kq r s0 s : kp s0 s -> (is_jump o = true -> length (s_last s0) = cnt 0 r + off 0 r) -> kq r s0 s.
  Proof. intros [C1 C2 C3 C4 C5 C6 C7 C8 C9 C10] H. split; auto. rewrite C10. exact H. Qed.
  Lemma kp_kq_jump r s0 s : r < P -> W o P r s -> kp s0 s -> kq r s0 (set_last s (map (vclone A) (s_u s 0))).
  Proof. intros Hr [U _ _] [C1 C2 C3 C4 C5 C6 C7 C8 C9 C10]. split; auto. intros _. cbn [set_last s_last]. rewrite map_length. apply U. apply Lpos. Qed.
  Lemma pass_srun r K E s it : r < P -> o_dist o = None -> SS r K K E s s ->
    (is_jump o = true -> length (s_last s) = cnt 0 r + off 0 r /\ sflag 0 7 r = false /\ rflag 0 7 r = false) ->
    srun (s <- iteration o P r (infos r) (coarse_solve o P r (infos r)) (L - 1) 0 (cycF o) it true s ;; compute_crit r s)
      (ins r K E (pass_slots it)) (outs (s_fin s) r K (pass_slots it))
      (fun vs => (W o P r (snd vs) /\ TF o P r (bumps K (pass_slots it)) (bumps K (pass_slots it)) (sees r E (pass_slots it)) (snd vs) /\ kq r s (snd vs)) /\
                 length (fst vs) = length (own_crit r)).
  Proof.
    intros Hr Hd HS Hj. pose proof Lpos as HL. unfold LocalMatch.pass_slots. rewrite (ins_app o P), (outs_app o P).
    assert (Hf : Op o P cl r (coarse_solve o P r (infos r) (L - 1)) [(L - 1, 5)]).
    { eapply op_ext; [|apply (forward_solve_op o P HV HP0 HP Hloc cl r (L - 1)); auto; lia]. intros s1. unfold coarse_solve. rewrite Hd. reflexivity. }
    eapply srun_bind.
    - apply (iteration_op o P HV HP0 HP Hloc Hperm cl r _ Hr Hf (L - 1) 0 (cycF o) it true eq_refl HL K E s s HS).
    - intros s1 H1. unfold compute_crit. destruct (is_jump o) eqn:J.
      + destruct (Hj eq_refl) as (J1 & J2 & J3).
        eapply srun_weak; [apply (jump_srun r _ _ s s1 Hr J1 J2 J3 H1)|reflexivity|reflexivity|].
        intros vs [(s2 & (Y1 & Y2 & Y3) & ->) H3]. split; [|exact H3]. unfold bumps, LocalOps.sees in *. rewrite !fold_left_app.
        split; [destruct Y1; constructor; auto|]. split; [destruct Y2; constructor; auto|]. apply kp_kq_jump; auto.
      + eapply srun_weak; [apply (residual_srun r _ _ s s1 Hr H1)|reflexivity|reflexivity|].
        intros vs [(Y1 & Y2 & Y3) H3]. split; [|exact H3]. unfold bumps, LocalOps.sees in *. rewrite !fold_left_app. split; [exact Y1|]. split; [exact Y2|].
        apply kp_kq; auto. congruence.
  Qed.
  Lemma nested_srun r K E s : r < P -> o_dist o = None -> SS r K K E s s ->
    srun (nested_iteration o P r (infos r) (coarse_solve o P r (infos r)) s)
      (ins r K E (nested_slots o)) (outs (s_fin s) r K (nested_slots o))
      (SS r (bumps K (nested_slots o)) (bumps K (nested_slots o)) (sees r E (nested_slots o)) s).
  Proof.
    intros Hr Hd HS. pose proof Lpos as HL.
    assert (Hf : Op o P cl r (coarse_solve o P r (infos r) (L - 1)) [(L - 1, 5)]).
    { eapply op_ext; [|apply (forward_solve_op o P HV HP0 HP Hloc cl r (L - 1)); auto; lia]. intros s1. unfold coarse_solve. rewrite Hd. reflexivity. }
    apply (nested_op o P HV HP0 HP Hloc Hperm cl r _ Hr Hf HL K E s s HS).
  Qed.
  End Cl.

  (** ** What is in the lists of messages *)
  Lemma okslots_clean : okslots o clean_slots.
  Proof.
    pose proof Lpos as HL. intros x Hx. unfold LocalMatch.clean_slots in Hx. apply in_app_or in Hx. destruct Hx as [Hx|[<-|[]]]; [|exact HL].
    apply (down_slots_in o P HP0 HP) in Hx. destruct Hx as [[H1 H2]| ->].
    - destruct x as [l op]. cbn [fst snd] in *. unfold blvl. destruct (op =? 4); lia.
    - cbn [fst snd]. change (blvl (0 + (L - 1)) 5) with (L - 1). lia.
  Qed.
  Lemma pass_in it x : In x (pass_slots it) -> In x clean_slots.
  Proof.
    unfold LocalMatch.pass_slots, LocalMatch.clean_slots. rewrite !in_app_iff. intros [H|H]; [left|right; exact H]. eapply (it_slots_in o P HP0 HP); eauto.
  Qed.
  Lemma pass_all it x : (forall l, l < L - 1 -> 1 <= cf_count o l) -> In x clean_slots -> In x (pass_slots it).
  Proof.
    unfold LocalMatch.pass_slots, LocalMatch.clean_slots. rewrite !in_app_iff. intros Hcf [H|H]; [left|right; exact H]. apply (it_slots_all o P HP0 HP); auto.
  Qed.
  Lemma okslots_pass it : okslots o (pass_slots it).
  Proof. intros x Hx. apply okslots_clean. eapply pass_in; eauto. Qed.
  Lemma firsts_pass it g : exclusive g -> (forall l, l < L - 1 -> 1 <= cf_count o l) ->
    filter g (firsts (pass_slots it)) = filter g clean_slots.
  Proof.
    intros Hg Hcf. unfold LocalMatch.pass_slots, LocalMatch.clean_slots. rewrite firsts_disj.
    - rewrite !filter_app. f_equal. apply (filter_firsts o P HP0 HP); auto.
    - intros x H1 [<-|[]]. apply (it_slots_in o P HP0 HP) in H1. apply (down_slots_in o P HP0 HP) in H1. destruct H1 as [[_ H1]|[=]]. simpl in H1. lia.
  Qed.
  Lemma outs_in fl r h : r < P -> okslots o h -> forall K x, In x (outs o P fl r K h) -> r < fst (fst x) < P.
  Proof.
    intros Hr. induction h as [|y h IH]; intros Hok K x Hx; [destruct Hx|]. apply (okslots_cons o) in Hok. destruct Hok as [Hy Hok].
    cbn [outs] in Hx. apply in_app_or in Hx. destruct Hx as [Hx|Hx]; [|eapply IH; eauto]. unfold out1 in Hx.
    destruct (sflag (fst y) (snd y) r) eqn:F; [|destruct Hx]. destruct Hx as [<-|[]]. cbn [fst]. apply (dst_range o P HV HP0 HP y r); auto.
  Qed.
  Lemma ins_in cl r h : r < P -> okslots o h -> forall K E x, In x (ins o P cl r K E h) -> fst (fst x) < r.
  Proof.
    intros Hr. induction h as [|y h IH]; intros Hok K E x Hx; [destruct Hx|]. apply (okslots_cons o) in Hok. destruct Hok as [Hy Hok].
    cbn [ins] in Hx. apply in_app_or in Hx. destruct Hx as [Hx|Hx]; [|eapply IH; eauto]. unfold in1 in Hx.
    destruct (rflag (fst y) (snd y) r) eqn:F; [|destruct Hx]. destruct (negb (E (fst y) (snd y))); [|destruct Hx]. destruct Hx as [<-|[]]. cbn [fst].
    apply (src_range o P HV HP0 HP y r); auto.
  Qed.
  Lemma sees_in cl r h x : forall E, sees o P cl r E h (fst x) (snd x) = E (fst x) (snd x) || (mem x h && cl (src x r)).
  Proof.
    induction h as [|y h IH]; intros E; [simpl; rewrite orb_false_r; reflexivity|]. change (sees o P cl r E (y :: h)) with (sees o P cl r (see o P cl r E y) h).
    rewrite IH. unfold mem. cbn [existsb]. destruct (slot_eqb x y) eqn:Q.
    - apply slot_eqb_eq in Q. subst y. unfold see, at2. rewrite !Nat.eqb_refl. cbn [andb orb].
      destruct (E (fst x) (snd x)), (cl (src x r)), (existsb (slot_eqb x) h); reflexivity.
    - unfold see, at2. unfold slot_eqb in Q. rewrite Q. reflexivity.
  Qed.
  Lemma ins_none cl r h : okslots o h -> forall K E, (forall x, In x h -> rflag (fst x) (snd x) r = true -> E (fst x) (snd x) = true) -> ins o P cl r K E h = [].
  Proof.
    induction h as [|y h IH]; intros Hok K E HE; [reflexivity|]. apply (okslots_cons o) in Hok. destruct Hok as [Hy Hok]. cbn [ins].
    rewrite IH; auto.
    - unfold in1. destruct (rflag (fst y) (snd y) r) eqn:F; [|reflexivity]. rewrite (HE y (or_introl eq_refl) F). reflexivity.
    - intros x Hx F. unfold see, at2. destruct ((fst x =? fst y) && (snd x =? snd y)) eqn:Q; [|apply HE; [right; auto|auto]].
      apply andb_prop in Q. destruct Q as [Q1 Q2]. apply Nat.eqb_eq in Q1, Q2. rewrite <- Q1, <- Q2, (HE x (or_intror Hx) F). reflexivity.
  Qed.

  (** ** Where everybody is after [it] passes
      Ranks below [a] have left, ranks from [a] to [b] are about to clean up, the others go on. *)
  Record here (K : nat -> nat -> Z) (a : nat) (r : nat) (E : nat -> nat -> bool) (s : St A) : Prop := {
    h_w : W o P r s;
    h_tf : TF o P r K K E s;
    h_e : forall x, In x clean_slots -> E (fst x) (snd x) = (src x r <? a)
  }.
  Record cleaning (a r : nat) (s : St A) : Prop := {
    c_fin : s_fin s = true;
    c_it : a < r -> same_it s = true
  }.
  Record going (it b r : nat) (s : St A) : Prop := {
    g_fin : s_fin s = false;
    g_pre : s_pre s = (r =? b);
    g_conv : length (s_conv s) = o_max_iter o + 1;
    g_s6 : S r < P -> s_stag s 0 6 = (base 6 + Z.of_nat it)%Z;
    g_r6 : b < r -> s_rtag s 0 6 = (base 6 + Z.of_nat it)%Z;
    g_f6 : 0 < r -> s_sfin s 0 6 = (r =? b);
    g_last : is_jump o = true -> length (s_last s) = cnt 0 r + off 0 r
  }.

  Hypothesis Hcf : forall l, l < L - 1 -> 1 <= cf_count o l.
  Hypothesis Hdist : o_dist o = None.
  Hypothesis Hcrit : is_jump o = true -> forall r, r < P -> sflag 0 7 r = false /\ rflag 0 7 r = false.

  Section Data.
    Variables (it a b : nat) (K : nat -> nat -> Z) (E : nat -> nat -> nat -> bool) (st : nat -> St A).
    Hypothesis Hab : a <= b.
    Hypothesis Hb : b <= P.
    Hypothesis Hh : forall r, a <= r < P -> here K a r (E r) (st r).
    Hypothesis Hc : forall r, a <= r < b -> cleaning a r (st r).
    Hypothesis Hg : forall r, b <= r < P -> going it b r (st r).

    Definition cl (r : nat) : bool := (a <=? r) && (r <? b).
    Definition kind {B} (r : nat) (x y z : B) : B := if r <? a then x else if r <? b then y else z.
    Lemma kind_gone {B} r (x y z : B) : r < a -> kind r x y z = x.
    Proof. intros H. unfold kind. replace (r <? a) with true by (symmetry; apply Nat.ltb_lt; auto). reflexivity. Qed.
    Lemma kind_clean {B} r (x y z : B) : a <= r < b -> kind r x y z = y.
    Proof.
      intros H. unfold kind. replace (r <? a) with false by (symmetry; apply Nat.ltb_ge; lia).
      replace (r <? b) with true by (symmetry; apply Nat.ltb_lt; lia). reflexivity.
    Qed.
    Lemma kind_run {B} r (x y z : B) : b <= r -> kind r x y z = z.
    Proof.
      intros H. unfold kind. replace (r <? a) with false by (symmetry; apply Nat.ltb_ge; lia).
      replace (r <? b) with false by (symmetry; apply Nat.ltb_ge; lia). reflexivity.
    Qed.
    Lemma cl_clean r : a <= r < b -> cl r = true.
    Proof. intros H. unfold cl. apply andb_true_intro. split; [apply Nat.leb_le|apply Nat.ltb_lt]; lia. Qed.
    Lemma cl_run r : b <= r -> cl r = false.
    Proof. intros H. unfold cl. apply andb_false_intro2. apply Nat.ltb_ge. lia. Qed.

    Definition data_prog (r : nat) : prog (Msg A) (list (Sc A) * St A) :=
      kind r (Ret ([], st r))
             (s <- clean_body r (st r) ;; Ret ([], s))
             (s <- iteration o P r (infos r) (coarse_solve o P r (infos r)) (L - 1) 0 (cycF o) it true (set_iter (st r) (it + 1)) ;;
              compute_crit r s).
    Definition data_in (r : nat) := kind r [] (ins o P cl r K (E r) clean_slots) (ins o P cl r K (E r) (pass_slots it)).
    Definition data_out (r : nat) := kind r [] (outs o P true r K clean_slots) (outs o P false r K (pass_slots it)).
    Definition K' := bumps K (pass_slots it).
    Definition E' (r : nat) := sees o P cl r (E r) (pass_slots it).
    Definition data_post (r : nat) (vs : list (Sc A) * St A) : Prop :=
      b <= r -> here K' b r (E' r) (snd vs) /\ kq r (set_iter (st r) (it + 1)) (snd vs) /\ length (fst vs) = length (own_crit r).

    Lemma E_gone s d x : s < P -> d < P -> a <= d -> In x clean_slots -> pair_on o P s d x = true -> E d (fst x) (snd x) = (s <? a).
    Proof.
      intros Hs Hd Ha Hx G. rewrite (h_e _ _ _ _ _ (Hh d (conj Ha Hd)) x Hx). f_equal. apply (g_src o P HV HP0 HP s d Hs Hd x); auto. apply okslots_clean; auto.
    Qed.
    Lemma data_match s d : s < d -> d < P -> proj d (data_out s) = proj s (data_in d).
    Proof.
      intros Hsd Hd. assert (Hs : s < P) by lia. unfold data_out, data_in.
      destruct (lt_dec d a) as [Hda|Hda].
      { rewrite !kind_gone by lia. reflexivity. }
      assert (GEN : forall h, okslots o h -> (forall x, In x h -> In x clean_slots) -> filter (pair_on o P s d) (firsts h) = filter (pair_on o P s d) clean_slots ->
                s < b -> proj d (kind s [] (outs o P true s K clean_slots) (outs o P false s K (pass_slots it))) = proj s (ins o P cl d K (E d) h)).
      { intros h Hok Hin Hf Hsb. destruct (lt_dec s a) as [Hsa|Hsa].
        - rewrite kind_gone by lia. rewrite (ins_gone o P HV HP0 HP cl s d Hs Hd h Hok); [reflexivity|].
          intros x Hx G. rewrite (E_gone s d x) by (auto; lia). apply Nat.ltb_lt. lia.
        - rewrite kind_clean by lia. rewrite (proj_outs o P). rewrite (occ_nodup true _ _ (clean_nodup o P HP0 HP) K K) by auto.
          rewrite (ins_clean o P HV HP0 HP cl s d Hs Hd h Hok) by (apply cl_clean; lia). f_equal. rewrite <- Hf. apply filter_ext_in.
          intros x Hx. apply (proj1 (firsts_in _ _)) in Hx. destruct (pair_on o P s d x) eqn:G; [|reflexivity].
          rewrite (E_gone s d x) by (auto; lia). replace (s <? a) with false by (symmetry; apply Nat.ltb_ge; lia). reflexivity. }
      destruct (lt_dec d b) as [Hdb|Hdb].
      - rewrite (kind_clean d) by lia. apply GEN; [apply okslots_clean|auto| |lia]. rewrite firsts_nodup; [reflexivity|apply (clean_nodup o P HP0 HP)].
      - rewrite (kind_run d) by lia. destruct (lt_dec s b) as [Hsb|Hsb].
        + apply GEN; [apply okslots_pass|apply pass_in| |lia]. apply firsts_pass; auto. apply pair_exclusive.
        + rewrite (kind_run s) by lia. rewrite (proj_outs o P). symmetry. apply (ins_running o P HV HP0 HP cl s d Hs Hd); [apply okslots_pass|apply cl_run; lia|].
          intros x Hx G. rewrite (E_gone s d x) by (auto; try lia; eapply pass_in; eauto). apply Nat.ltb_ge. lia.
    Qed.
    Lemma data_run r : r < P -> srun (data_prog r) (data_in r) (data_out r) (data_post r).
    Proof.
      intros Hr. unfold data_prog, data_in, data_out. destruct (lt_dec r a) as [Ha|Ha].
      { rewrite !kind_gone by auto. apply srun_ret. intros Hbr. lia. }
      pose proof (Hh r (conj (proj1 (Nat.nlt_ge _ _) Ha) Hr)) as [HW HT HE]. destruct (lt_dec r b) as [Hbr|Hbr].
      - rewrite !kind_clean by lia. destruct (Hc r) as [C1 C2]; [lia|].
        rewrite <- (app_nil_r (outs o P true r K clean_slots)), <- (app_nil_r (ins o P cl r K (E r) clean_slots)).
        apply (srun_bind _ _ _ _ [] [] (fun _ => True)).
        + rewrite <- C1. apply clean_body_srun; auto.
          * split; [exact HW|]. split; [exact HT|]. constructor; auto.
          * destruct (Nat.eq_dec a r) as [<-|Hn]; [right|left; apply C2; lia].
            apply ins_none; [apply okslots_clean|]. intros x Hx F. rewrite HE by auto. apply Nat.ltb_lt.
            apply (src_range o P HV HP0 HP x a); auto. apply okslots_clean; auto.
        + intros s _. apply srun_ret. intros Hx. lia.
      - rewrite !kind_run by lia. destruct (Hg r) as [G1 G2 G3 G4 G5 G6 G7]; [lia|].
        pose proof (pass_srun cl r K (E r) (set_iter (st r) (it + 1)) it Hr Hdist) as X. cbn [s_fin set_iter] in X. rewrite G1 in X.
        eapply srun_weak; [apply X|reflexivity|reflexivity|].
        + split; [destruct HW; constructor; auto|]. split; [destruct HT; constructor; auto|]. constructor; auto.
        + intros J. destruct (Hcrit J r Hr). auto.
        + intros vs [(Y1 & Y2 & Y3) Y4] _. split; [|split; auto]. split; auto.
          intros x Hx. unfold E'. rewrite sees_in, HE by auto. rewrite (proj2 (mem_in x (pass_slots it))) by (apply pass_all; auto).
          cbn [andb]. unfold cl. apply Bool.eq_iff_eq_true. rewrite orb_true_iff, andb_true_iff, Nat.leb_le, !Nat.ltb_lt. lia.
    Qed.
    Lemma data_phase : exists out, phase P data_prog out /\ (forall r, r < P -> data_post r (out r)) /\ exists i o', runs P data_prog data_in data_out i o' out.
    Proof.
      apply (pipeline P data_prog data_in data_out data_post ([], st 0)).
      - apply data_run.
      - apply data_match.
      - intros r x Hr Hx. unfold data_out in Hx. destruct (lt_dec r a); [rewrite kind_gone in Hx by lia; destruct Hx|].
        destruct (lt_dec r b); [rewrite kind_clean in Hx by lia|rewrite kind_run in Hx by lia]; eapply outs_in in Hx; eauto; [apply okslots_clean|apply okslots_pass].
      - intros r x Hr Hx. unfold data_in in Hx. destruct (lt_dec r a); [rewrite kind_gone in Hx by lia; destruct Hx|].
        destruct (lt_dec r b); [rewrite kind_clean in Hx by lia|rewrite kind_run in Hx by lia]; eapply ins_in in Hx; eauto; [apply okslots_clean|apply okslots_pass].
    Qed.
  End Data.

  (** ** The flag (442-453) and the rest of a pass *)
  Hypothesis Hnorm : forall r vals, r < P -> length vals = length (own_crit r) ->
    exists x, tnorm A vals = Some x /\ (forallb (fun y => sc_lt A y (o_tol o)) vals = true -> sc_lt A x (o_tol o) = true).

  Definition flag_prog (r it1 : nat) (val : list (Sc A)) (s : St A) : prog (Msg A) (St A) :=
    s <- (if (0 <? r) && negb (s_sfin s 0 6) then
            bs <- receive_flag P (Z.of_nat r - 1) 0 6 s ;;
            Ret (set_pre (snd bs) (fst bs) (if fst bs then Some it1 else s_pre_it (snd bs)))
          else Ret s) ;;
    let fin := s_pre s && (forallb (fun x => sc_lt A x (o_tol o)) val || (it1 =? o_max_iter o)) in
    let s := set_fin s fin (Some it1) in
    s <- (if r <? P - 1 then send_flag P fin (Z.of_nat r + 1) 0 6 s else Ret s) ;;
    match tnorm A val with
    | Some x => put_conv it1 x s
    | None => Raise ValueError
    end.
  Definition em (s : St A) : St A := if o_has_output o && (o_output_lvl o =? 2)%Z then emit s else s.
  Definition after (r n it : nat) (s : St A) : prog (Msg A) (St A) :=
    x <- (cur <- lift (py_nth (s_conv (em s)) (Z.of_nat (it + 1))) ;;
          if sc_lt A cur (o_tol o) || (it =? o_max_iter o - 1) then
            if gcc o || (s_fin (em s) && s_pre (em s)) || (it =? o_max_iter o - 1)
            then s <- clean_up o P r (infos r) (em s) ;; Ret (inr s) else Ret (inl (em s))
          else Ret (inl (em s))) ;;
    match x with inl s' => solve_loop o P r (infos r) (coarse_solve o P r (infos r)) n (S it) s' | inr s' => Ret s' end.
  Lemma loop_peq r n it s : peq (solve_loop o P r (infos r) (coarse_solve o P r (infos r)) (S n) it s)
    (bind (s <- iteration o P r (infos r) (coarse_solve o P r (infos r)) (L - 1) 0 (cycF o) it true (set_iter s (it + 1)) ;; compute_crit r s)
       (fun vs => bind (flag_prog r (it + 1) (fst vs) (snd vs)) (after r n it))).
  Proof.
    cbn [solve_loop]. unfold solve_pass, convergence_criterion. rewrite Hloc. cbv zeta. change (Mgrit.L o) with L.
    eapply peq_trans; [apply bind_assoc|]. eapply peq_trans; [|apply peq_sym, bind_assoc]. apply bind_peq. intros s1.
    eapply peq_trans; [apply bind_assoc|]. eapply peq_trans; [apply bind_assoc|]. apply bind_peq. intros vs.
    unfold flag_prog, after. rewrite Hloc. apply peq_refl.
  Qed.
  Lemma em_conv s : s_conv (em s) = s_conv s.
  Proof. unfold em. destruct (o_has_output o && _); reflexivity. Qed.
  Lemma em_fin s : s_fin (em s) = s_fin s.
  Proof. unfold em. destruct (o_has_output o && _); reflexivity. Qed.
  Lemma em_pre s : s_pre (em s) = s_pre s.
  Proof. unfold em. destruct (o_has_output o && _); reflexivity. Qed.
  Lemma em_here K a r E s : here K a r E s -> here K a r E (em s).
  Proof. intros [[] [] H]. unfold em. destruct (o_has_output o && _); split; auto; constructor; auto. Qed.
  Lemma em_cleaning a r s : cleaning a r s -> cleaning a r (em s).
  Proof. intros []. unfold em. destruct (o_has_output o && _); split; auto. Qed.
  Lemma em_going it b r s : going it b r s -> going it b r (em s).
  Proof. intros []. unfold em. destruct (o_has_output o && _); split; auto. Qed.

  Lemma here_6 K a r E s s' : here K a r E s -> s_u s' = s_u s -> s_v s' = s_v s -> s_g s' = s_g s ->
    (forall l op, op <> 6 -> s_stag s' l op = s_stag s l op) -> (forall l op, op <> 6 -> s_rtag s' l op = s_rtag s l op) ->
    (forall l op, op <> 6 -> s_sfin s' l op = s_sfin s l op) -> here K a r E s'.
  Proof.
    intros [[U V G] [T1 T2 T3] H] E1 E2 E3 E4 E5 E6. split; [split; intros l; rewrite ?E1, ?E2, ?E3; auto| |exact H].
    split; intros l op N6; rewrite ?E4, ?E5, ?E6 by auto; auto.
  Qed.
  Lemma at2_6 {B} (f : nat -> nat -> B) x l op : op <> 6 -> at2 f 0 6 x l op = f l op.
  Proof. intros H. unfold at2. replace (op =? 6) with false by (symmetry; apply Nat.eqb_neq; auto). rewrite andb_false_r. reflexivity. Qed.
  Lemma at2_same {B} (f : nat -> nat -> B) x : at2 f 0 6 x 0 6 = x.
  Proof. reflexivity. Qed.

  Section Flags.
    Variables (it b : nat) (K : nat -> nat -> Z) (E : nat -> nat -> nat -> bool) (st0 : nat -> St A) (vs : nat -> list (Sc A) * St A).
    Hypothesis Hb : b <= P.
    Hypothesis Hit : it < o_max_iter o.
    Hypothesis Hg : forall r, b <= r < P -> going it b r (st0 r).
    Hypothesis Hh : forall r, b <= r < P -> here K b r (E r) (snd (vs r)).
    Hypothesis Hk : forall r, b <= r < P -> kq r (set_iter (st0 r) (it + 1)) (snd (vs r)).
    Hypothesis Hl : forall r, b <= r < P -> length (fst (vs r)) = length (own_crit r).

    Definition okq (q : nat) : bool := forallb (fun x => sc_lt A x (o_tol o)) (fst (vs q)) || (it + 1 =? o_max_iter o).
    Definition F (r : nat) : bool := forallb okq (seq b (S r - b)).
    Lemma F_first : F b = okq b.
    Proof. unfold F. replace (S b - b) with 1 by lia. simpl. apply andb_true_r. Qed.
    Lemma F_next r : b <= r -> F (S r) = F r && okq (S r).
    Proof.
      intros H. unfold F. replace (S (S r) - b) with (S r - b + 1) by lia. rewrite seq_app, forallb_app. cbn [seq forallb].
      replace (b + (S r - b)) with (S r) by lia. rewrite andb_true_r. reflexivity.
    Qed.
    Definition pre (r : nat) : bool := if r =? b then true else F (r - 1).
    Lemma F_pre r : b <= r -> F r = pre r && okq r.
    Proof.
      intros H. unfold pre. destruct (Nat.eqb_spec r b) as [->|Hn]; [apply F_first|]. replace r with (S (r - 1)) at 1 by lia.
      rewrite F_next by lia. replace (S (r - 1)) with r by lia. reflexivity.
    Qed.
    Lemma F_down r q : b <= q -> q <= r -> F r = true -> F q = true.
    Proof.
      intros Hq Hqr. induction r as [|r IH]; intros HF; [replace q with 0 by lia; auto|]. destruct (Nat.eq_dec q (S r)) as [->|Hn]; auto.
      rewrite F_next in HF by lia. apply andb_prop in HF. apply IH; [lia|tauto].
    Qed.
    Lemma F_last r : it + 1 = o_max_iter o -> F r = true.
    Proof. intros H. unfold F. apply forallb_forall. intros x _. unfold okq. rewrite H, Nat.eqb_refl. apply orb_true_r. Qed.

    Definition ftag : mtag := Tag (base 6 + Z.of_nat it)%Z 0 6.
    Definition flag_in (r : nat) : list (nat * mtag * Msg A) := if b <? r then [(r - 1, ftag, MBoolF (F (r - 1)) (F (r - 1)))] else [].
    Definition flag_out (r : nat) : list (nat * mtag * Msg A) := if (b <=? r) && (r <? P - 1) then [(S r, ftag, MBoolF (F r) (F r))] else [].
    Record flag_post (r : nat) (s : St A) : Prop := {
      fp_here : here K b r (E r) s;
      fp_fin : s_fin s = F r;
      fp_pre : s_pre s = pre r;
      fp_fit : s_fin_it s = Some (it + 1);
      fp_pit : b < r -> F (r - 1) = true -> s_pre_it s = Some (it + 1);
      fp_conv : length (s_conv s) = o_max_iter o + 1;
      fp_cur : exists x, nth_error (s_conv s) (it + 1) = Some x /\ (forallb (fun y => sc_lt A y (o_tol o)) (fst (vs r)) = true -> sc_lt A x (o_tol o) = true);
      fp_s6 : S r < P -> s_stag s 0 6 = (base 6 + Z.of_nat (S it))%Z;
      fp_r6 : b < r -> s_rtag s 0 6 = (base 6 + Z.of_nat (S it))%Z;
      fp_f6 : 0 < r -> s_sfin s 0 6 = pre r;
      fp_last : is_jump o = true -> length (s_last s) = cnt 0 r + off 0 r;
      fp_same : s_u s = s_u (snd (vs r)) /\ s_v s = s_v (snd (vs r)) /\ s_g s = s_g (snd (vs r)) /\ s_iter s = s_iter (snd (vs r))
    }.
    Lemma flag_run r : b <= r < P -> exists s', lrun (flag_prog r (it + 1) (fst (vs r)) (snd (vs r))) (flag_in r) (flag_out r) s' /\ flag_post r s'.
    Proof.
      intros Hr. destruct (Hg r Hr) as [G1 G2 G3 G4 G5 G6 G7]. pose proof (Hh r Hr) as HH. destruct (Hk r Hr) as [K1 K3 K4 K5 K6 K7 K8 K9 K10].
      cbn [set_iter s_conv s_iter s_fin s_fin_it s_pre s_pre_it s_stag s_rtag s_sfin] in *. set (s := snd (vs r)) in *. set (val := fst (vs r)) in *.
      destruct (Hnorm r val) as (x & Ex & Hx); [lia|apply Hl; auto|].
      set (s1 := if b <? r then set_pre (set_sfin (inc_rtag s 0 6) 0 6 (F (r - 1))) (F (r - 1)) (if F (r - 1) then Some (it + 1) else s_pre_it s) else s).
      assert (R1 : lrun (if (0 <? r) && negb (s_sfin s 0 6) then
            bs <- receive_flag P (Z.of_nat r - 1) 0 6 s ;;
            Ret (set_pre (snd bs) (fst bs) (if fst bs then Some (it + 1) else s_pre_it (snd bs)))
          else Ret s) (flag_in r) [] s1).
      { unfold flag_in, s1. destruct (b <? r) eqn:Q.
        - apply Nat.ltb_lt in Q. replace (0 <? r) with true by (symmetry; apply Nat.ltb_lt; lia). rewrite K9, G6 by lia.
          replace (r =? b) with false by (symmetry; apply Nat.eqb_neq; lia). cbn [andb negb]. unfold receive_flag.
          replace (Z.of_nat r - 1 <? 0)%Z with false by (symmetry; apply Z.ltb_ge; lia).
          replace (Z.of_nat P <=? Z.of_nat r - 1)%Z with false by (symmetry; apply Z.leb_gt; lia). cbn [orb].
          replace (Z.to_nat (Z.of_nat r - 1)) with (r - 1) by lia. rewrite K8, G5 by lia. cbn [bind]. unfold ftag. constructor. cbn [bind fst snd]. constructor.
        - apply Nat.ltb_ge in Q. assert (r = b) by lia. destruct (0 <? r) eqn:Q0; cbn [andb]; [|constructor].
          apply Nat.ltb_lt in Q0. rewrite K9, G6 by lia. replace (r =? b) with true by (symmetry; apply Nat.eqb_eq; lia). constructor. }
      assert (P1 : s_pre s1 = pre r).
      { unfold s1, pre. destruct (b <? r) eqn:Q.
        - apply Nat.ltb_lt in Q. replace (r =? b) with false by (symmetry; apply Nat.eqb_neq; lia). reflexivity.
        - apply Nat.ltb_ge in Q. rewrite K5, G2. destruct (Nat.eqb_spec r b); [reflexivity|lia]. }
      assert (FF : s_pre s1 && (forallb (fun y => sc_lt A y (o_tol o)) val || (it + 1 =? o_max_iter o)) = F r).
      { rewrite P1, F_pre by lia. reflexivity. }
      set (s2 := set_fin s1 (F r) (Some (it + 1))).
      set (s3 := if r <? P - 1 then inc_stag s2 0 6 else s2).
      assert (C1 : s_conv s1 = s_conv s) by (unfold s1; destruct (b <? r); reflexivity).
      assert (C3 : s_conv s3 = s_conv s) by (unfold s3, s2; destruct (r <? P - 1); exact C1).
      assert (T1 : s_stag s1 = s_stag s) by (unfold s1; destruct (b <? r); reflexivity).
      assert (R3 : lrun (if r <? P - 1 then send_flag P (F r) (Z.of_nat r + 1) 0 6 s2 else Ret s2) [] (flag_out r) s3).
      { unfold flag_out, s3. replace (b <=? r) with true by (symmetry; apply Nat.leb_le; lia). cbn [andb]. destruct (r <? P - 1) eqn:Q; [|constructor].
        apply Nat.ltb_lt in Q. unfold send_flag.
        replace (Z.of_nat r + 1 <? 0)%Z with false by (symmetry; apply Z.ltb_ge; lia).
        replace (Z.of_nat P <=? Z.of_nat r + 1)%Z with false by (symmetry; apply Z.leb_gt; lia). cbn [orb].
        replace (Z.to_nat (Z.of_nat r + 1)) with (S r) by lia.
        replace (s_stag s2 0 6) with (base 6 + Z.of_nat it)%Z by (cbn [s2 set_fin s_stag]; rewrite T1, K7, G4 by lia; reflexivity).
        constructor. constructor. }
      exists (set_conv s3 (upd (s_conv s) (it + 1) x)). split.
      - unfold flag_prog. rewrite <- (app_nil_r (flag_in r)). rewrite <- (app_nil_l (flag_out r)). eapply lrun_bind; [exact R1|].
        cbv zeta. rewrite FF. fold s2. rewrite <- (app_nil_r (flag_out r)). rewrite <- (app_nil_l (@nil (nat * mtag * Msg A))) at 1. eapply lrun_bind; [exact R3|].
        rewrite Ex. rewrite <- C3. apply put_conv_run. rewrite C3, K1, G3. lia.
      - constructor.
        + apply (here_6 K b r (E r) s _ HH); try (unfold s3, s2, s1; destruct (r <? P - 1), (b <? r); reflexivity);
            intros l op N6; unfold s3, s2, s1; destruct (r <? P - 1), (b <? r); cbn [set_conv inc_stag set_fin set_pre set_sfin inc_rtag s_stag s_rtag s_sfin]; rewrite ?at2_6 by auto; reflexivity.
        + unfold s3, s2. destruct (r <? P - 1); reflexivity.
        + unfold s3, s2. destruct (r <? P - 1); exact P1.
        + unfold s3, s2. destruct (r <? P - 1); reflexivity.
        + intros Q HF. unfold s3, s2, s1. apply Nat.ltb_lt in Q. rewrite Q, HF. destruct (r <? P - 1); reflexivity.
        + cbn [set_conv s_conv]. rewrite upd_length, K1. exact G3.
        + cbn [set_conv s_conv]. exists x. split; [apply upd_nth_same; rewrite K1, G3; lia|exact Hx].
        + intros Q. cbn [set_conv s_stag]. unfold s3, s2. replace (r <? P - 1) with true by (symmetry; apply Nat.ltb_lt; lia).
          cbn [inc_stag set_fin s_stag]. rewrite at2_same, T1, K7, G4 by lia. lia.
        + intros Q. cbn [set_conv s_rtag]. unfold s3, s2, s1. replace (b <? r) with true by (symmetry; apply Nat.ltb_lt; lia).
          destruct (r <? P - 1); cbn [inc_stag set_fin set_pre set_sfin inc_rtag s_rtag]; rewrite at2_same, K8, G5 by lia; lia.
        + intros Q. cbn [set_conv s_sfin]. replace (s_sfin s3 0 6) with (s_sfin s1 0 6) by (unfold s3, s2; destruct (r <? P - 1); reflexivity).
          unfold s1, pre. destruct (b <? r) eqn:Q1.
          * apply Nat.ltb_lt in Q1. replace (r =? b) with false by (symmetry; apply Nat.eqb_neq; lia). reflexivity.
          * apply Nat.ltb_ge in Q1. rewrite K9, G6 by auto. destruct (Nat.eqb_spec r b); [reflexivity|lia].
        + unfold s3, s2, s1. destruct (r <? P - 1), (b <? r); exact K10.
        + unfold s3, s2, s1. destruct (r <? P - 1), (b <? r); repeat split.
    Qed.
    Lemma flag_phase (other : nat -> St A) : exists fs, phase P (fun r => if r <? b then Ret (other r) else flag_prog r (it + 1) (fst (vs r)) (snd (vs r))) fs /\
      (forall r, r < b -> fs r = other r) /\ forall r, b <= r < P -> flag_post r (fs r).
    Proof.
      destruct (choose_ranks P (fun r s' => if r <? b then s' = other r else
                  lrun (flag_prog r (it + 1) (fst (vs r)) (snd (vs r))) (flag_in r) (flag_out r) s' /\ flag_post r s') (other 0)) as [fs Hfs].
      { intros r Hr. destruct (r <? b) eqn:Q; [eauto|]. apply Nat.ltb_ge in Q. apply flag_run. lia. }
      assert (HB : forall r, b <= r -> r <? b = false) by (intros; apply Nat.ltb_ge; auto).
      exists fs. split; [|split].
      - apply (phase_up P _ (fun r => flag_in r) flag_out).
        + intros r Hr. specialize (Hfs r Hr). destruct (r <? b) eqn:Q.
          * apply Nat.ltb_lt in Q. unfold flag_in, flag_out. replace (b <? r) with false by (symmetry; apply Nat.ltb_ge; lia).
            replace (b <=? r) with false by (symmetry; apply Nat.leb_gt; lia). rewrite Hfs. constructor.
          * tauto.
        + intros s d Hs Hd. unfold flag_in, flag_out. destruct ((b <=? s) && (s <? P - 1)) eqn:Q1.
          * apply andb_prop in Q1. destruct Q1 as [Q1 Q2]. apply Nat.leb_le in Q1. apply Nat.ltb_lt in Q2. rewrite msgs_of_cons. cbn [fst snd].
            destruct (Nat.eqb_spec (S s) d) as [<-|Hn].
            -- replace (b <? S s) with true by (symmetry; apply Nat.ltb_lt; lia). rewrite msgs_of_cons. cbn [fst snd]. replace (S s - 1) with s by lia.
               rewrite Nat.eqb_refl. reflexivity.
            -- destruct (b <? d) eqn:Q3; [|reflexivity]. rewrite msgs_of_cons. cbn [fst snd]. apply Nat.ltb_lt in Q3.
               replace (d - 1 =? s) with false by (symmetry; apply Nat.eqb_neq; lia). reflexivity.
          * destruct (b <? d) eqn:Q3; [|reflexivity]. rewrite msgs_of_cons. cbn [fst snd]. apply Nat.ltb_lt in Q3.
            destruct (Nat.eqb_spec (d - 1) s) as [<-|Hn]; [|reflexivity]. exfalso.
            assert (X : (b <=? d - 1) && (d - 1 <? P - 1) = true) by (apply andb_true_intro; split; [apply Nat.leb_le|apply Nat.ltb_lt]; lia). congruence.
        + intros r x Hr Hx. unfold flag_out in Hx. destruct ((b <=? r) && (r <? P - 1)) eqn:Q; [|destruct Hx]. destruct Hx as [<-|[]].
          apply andb_prop in Q. destruct Q as [_ Q]. apply Nat.ltb_lt in Q. cbn [fst]. lia.
        + intros r x Hr Hx. unfold flag_in in Hx. destruct (b <? r) eqn:Q; [|destruct Hx]. destruct Hx as [<-|[]]. apply Nat.ltb_lt in Q. cbn [fst]. lia.
      - intros r Hr. specialize (Hfs r ltac:(lia)). replace (r <? b) with true in Hfs by (symmetry; apply Nat.ltb_lt; auto). exact Hfs.
      - intros r Hr. specialize (Hfs r ltac:(lia)). rewrite HB in Hfs by lia. apply Hfs.
    Qed.
    (** the ranks that finish in this pass *)
    Lemma next_b : exists b', b <= b' <= P /\ (forall r, b <= r < b' -> F r = true) /\ (forall r, b' <= r < P -> F r = false) /\
      (it + 1 = o_max_iter o -> b' = P).
    Proof.
      assert (G : forall n, b + n <= P -> exists b', b <= b' <= b + n /\ (forall r, b <= r < b' -> F r = true) /\ (b' < b + n -> F b' = false)).
      { induction n as [|n IH]; intros Hn.
        - exists b. split; [lia|]. split; [intros; lia|lia].
        - destruct IH as (b' & H1 & H2 & H3); [lia|]. destruct (Nat.eq_dec b' (b + n)) as [->|Hne].
          + destruct (F (b + n)) eqn:Q.
            * exists (b + S n). split; [lia|]. split; [|lia]. intros r Hr. destruct (Nat.eq_dec r (b + n)) as [->|]; auto. apply H2. lia.
            * exists (b + n). split; [lia|]. split; auto.
          + exists b'. split; [lia|]. split; auto. intros _. apply H3. lia. }
      destruct (G (P - b)) as (b' & H1 & H2 & H3); [lia|]. exists b'. split; [lia|]. split; [auto|]. split.
      - intros r Hr. destruct (F r) eqn:Q; [|reflexivity]. rewrite <- H3 by lia. symmetry. apply (F_down r); [lia|lia|auto].
      - intros Hm. destruct (Nat.eq_dec b' P) as [|Hn]; [auto|]. rewrite F_last in H3 by auto. assert (true = false) by (apply H3; lia). discriminate.
    Qed.
    Lemma after_fin r n s : b <= r < P -> flag_post r s -> F r = true -> peq (after r n it s) (clean_up o P r (infos r) (em s)).
    Proof.
      intros Hr Hp HF. destruct Hp as [Q1 Q2 Q3 Q4 Q5 Q6 (x & Q7 & Q8) Q9 Q10 Q11 Q12 Q13]. unfold after. rewrite em_conv, py_nth_nat, Q7. cbn [lift bind].
      assert (H1 : sc_lt A x (o_tol o) || (it =? o_max_iter o - 1) = true).
      { rewrite F_pre in HF by lia. apply andb_prop in HF. destruct HF as [_ HF]. unfold okq in HF. apply orb_prop in HF. destruct HF as [HF|HF].
        - rewrite Q8 by auto. reflexivity.
        - apply Nat.eqb_eq in HF. replace (it =? o_max_iter o - 1) with true by (symmetry; apply Nat.eqb_eq; lia). apply orb_true_r. }
      assert (H2 : s_fin (em s) && s_pre (em s) = true).
      { rewrite em_fin, em_pre, Q2, Q3, HF. rewrite F_pre in HF by lia. apply andb_prop in HF. destruct HF as [-> _]. reflexivity. }
      rewrite H1, H2, Hloc. cbn [orb]. eapply peq_trans; [apply bind_assoc|]. cbn [bind]. apply bind_ret.
    Qed.
    Lemma after_go r n s : b <= r < P -> flag_post r s -> F r = false ->
      peq (after r n it s) (solve_loop o P r (infos r) (coarse_solve o P r (infos r)) n (S it) (em s)).
    Proof.
      intros Hr Hp HF. destruct Hp as [Q1 Q2 Q3 Q4 Q5 Q6 (x & Q7 & Q8) Q9 Q10 Q11 Q12 Q13]. unfold after. rewrite em_conv, py_nth_nat, Q7. cbn [lift bind].
      assert (H1 : it =? o_max_iter o - 1 = false).
      { apply Nat.eqb_neq. intros H. rewrite F_last in HF by lia. discriminate. }
      rewrite H1, Hloc, em_fin, Q2, HF. cbn [orb andb]. destruct (sc_lt A x (o_tol o) || false); apply peq_refl.
    Qed.
  End Flags.

  (** ** The loop (603-635) with everything after it but the last barrier
      [J it a b st] is a further invariant, [Jf] what it gives at the end. *)
  Variable J : nat -> nat -> nat -> (nat -> St A) -> Prop.
  Variable Jf : (nat -> St A) -> Prop.
  Hypothesis HJ : forall it a b b' K E st i o' out fs, a <= b -> b <= b' -> b' <= P -> it < o_max_iter o ->
    (forall r, a <= r < P -> here K a r (E r) (st r)) ->
    runs P (data_prog it a b st) (data_in it a b K E) (data_out it a b K) i o' out ->
    (forall r, r < b -> fs r = snd (out r)) -> (forall r, b <= r < P -> flag_post it b (K' it K) (E' it a b E) out r (fs r)) ->
    (forall r, b <= r < b' -> F it b out r = true) ->
    J it a b st -> J (S it) b b' (fun r => if r <? b then fs r else em (fs r)).
  Hypothesis HJf : forall it a K E st i o' out, a <= P ->
    (forall r, a <= r < P -> here K a r (E r) (st r)) ->
    runs P (data_prog it a P st) (data_in it a P K E) (data_out it a P K) i o' out ->
    J it a P st -> Jf (fun r => snd (out r)).
  Lemma loop_phase n : forall it a b K E (st : nat -> St A), it + n = o_max_iter o -> (n = 0 -> b = P) -> a <= b -> b <= P ->
    (forall r, a <= r < P -> here K a r (E r) (st r)) ->
    (forall r, a <= r < b -> cleaning a r (st r)) ->
    (forall r, b <= r < P -> going it b r (st r)) -> J it a b st ->
    exists fin, Jf fin /\ phase P (fun r => kind a b r (Ret (st r)) (clean_up o P r (infos r) (st r))
                                    (solve_loop o P r (infos r) (coarse_solve o P r (infos r)) n it (st r))) fin.
  Proof.
    induction n as [|n IH]; intros it a b K E st Hn Hz Hab Hb Hh Hc Hg HJ0;
      destruct (data_phase it a b K E st Hab Hb Hh Hc Hg) as (out & D1 & D2 & i & o' & DR);
      pose proof (phase_wait_some P (cl a b) _ _ D1) as D3.
    - specialize (Hz eq_refl). subst b. exists (fun r => snd (out r)). split; [eapply HJf; eauto|].
      apply (phase_peq P _ (fun r => bind (if cl a P r then WaitAll (data_prog it a P st r) else data_prog it a P st r)
                                     (fun vs => if cl a P r then WaitAll (Ret (snd vs)) else Ret (snd vs)))).
      + intros r Hr. unfold data_prog. destruct (lt_dec r a) as [Ha|Ha].
        * rewrite !kind_gone by auto. unfold cl. replace (a <=? r) with false by (symmetry; apply Nat.leb_gt; lia). apply peq_refl.
        * rewrite !kind_clean by lia. rewrite cl_clean by lia. eapply peq_trans; [apply clean_up_peq|]. cbn [bind]. constructor.
          eapply peq_trans; [|apply peq_sym, bind_assoc]. cbn [bind snd]. apply peq_refl.
      + eapply phase_bind; [exact D3|]. apply (phase_wait_some P (cl a P) (fun r => Ret (snd (out r)))). apply phase_ret.
    - assert (Hit : it < o_max_iter o) by lia.
      assert (DP : forall r, b <= r < P -> data_post it a b K E st r (out r)) by (intros; apply D2; lia).
      assert (Hh' : forall r, b <= r < P -> here (K' it K) b r (E' it a b E r) (snd (out r))) by (intros r Hr; apply (DP r Hr); lia).
      assert (Hk' : forall r, b <= r < P -> kq r (set_iter (st r) (it + 1)) (snd (out r))) by (intros r Hr; apply (DP r Hr); lia).
      assert (Hl' : forall r, b <= r < P -> length (fst (out r)) = length (own_crit r)) by (intros r Hr; apply (DP r Hr); lia).
      destruct (flag_phase it b (K' it K) (E' it a b E) st out Hb Hit Hg Hh' Hk' Hl' (fun r => snd (out r))) as (fs & F1 & F2 & F3).
      pose proof (phase_wait_some P (cl a b) _ _ F1) as F4.
      destruct (next_b it b out Hb Hit) as (b' & B1 & B2 & B3 & B4).
      set (st' := fun r => if r <? b then fs r else em (fs r)).
      destruct (IH (S it) b b' (K' it K) (E' it a b E) st') as [fin [HF Hfin]]; auto; try lia.
      { intros r Hr. unfold st'. replace (r <? b) with false by (symmetry; apply Nat.ltb_ge; lia). apply em_here. apply F3. lia. }
      { intros r Hr. unfold st'. replace (r <? b) with false by (symmetry; apply Nat.ltb_ge; lia). apply em_cleaning.
        destruct (F3 r) as [Q1 Q2 Q3 Q4 Q5 Q6 Q7 Q8 Q9 Q10 Q11 Q12]; [lia|]. split; [rewrite Q2; apply B2; lia|]. intros Hr'. unfold same_it.
        rewrite Q4, Q5 by (try lia; apply B2; lia). apply Nat.eqb_refl. }
      { intros r Hr. unfold st'. replace (r <? b) with false by (symmetry; apply Nat.ltb_ge; lia). apply em_going.
        destruct (F3 r) as [Q1 Q2 Q3 Q4 Q5 Q6 Q7 Q8 Q9 Q10 Q11 Q12]; [lia|].
        assert (HP' : pre it b out r = (r =? b')).
        { unfold pre. destruct (Nat.eqb_spec r b) as [->|Hn1].
          - assert (b' = b) as -> by lia. symmetry. apply Nat.eqb_refl.
          - destruct (Nat.eqb_spec r b') as [->|Hn2]; [apply B2; lia|apply B3; lia]. }
        split.
        - rewrite Q2. apply B3. lia.
        - rewrite Q3. exact HP'.
        - exact Q6.
        - exact Q8.
        - intros Hr'. apply Q9. lia.
        - intros Hr'. rewrite Q10 by auto. exact HP'.
        - exact Q11. }
      { unfold st'. apply (HJ it a b b' K E st i o' out fs); auto; lia. }
      exists fin. split; [exact HF|].
      apply (phase_peq P _ (fun r => bind (if cl a b r then WaitAll (data_prog it a b st r) else data_prog it a b st r)
              (fun vs => bind (if cl a b r then WaitAll (if r <? b then Ret (snd vs) else flag_prog r (it + 1) (fst vs) (snd vs))
                               else if r <? b then Ret (snd vs) else flag_prog r (it + 1) (fst vs) (snd vs))
              (fun s => if r <? b then Ret s else after r n it s)))).
      + intros r Hr. unfold data_prog. destruct (lt_dec r a) as [Ha|Ha]; [|destruct (lt_dec r b) as [Hbr|Hbr]].
        * rewrite !kind_gone by auto. unfold cl. replace (a <=? r) with false by (symmetry; apply Nat.leb_gt; lia).
          replace (r <? b) with true by (symmetry; apply Nat.ltb_lt; lia). cbn [andb bind snd]. apply peq_refl.
        * rewrite !kind_clean by lia. rewrite cl_clean by lia. replace (r <? b) with true by (symmetry; apply Nat.ltb_lt; lia).
          eapply peq_trans; [apply clean_up_peq|]. cbn [bind]. constructor. eapply peq_trans; [|apply peq_sym, bind_assoc]. cbn [bind snd]. apply peq_refl.
        * rewrite !kind_run by lia. rewrite cl_run by lia. replace (r <? b) with false by (symmetry; apply Nat.ltb_ge; lia). apply loop_peq.
      + eapply phase_bind; [exact D3|]. eapply phase_bind; [exact F4|].
        eapply phase_peq; [|exact Hfin]. intros r Hr. cbv beta. unfold st'. destruct (r <? b) eqn:Q.
        * apply Nat.ltb_lt in Q. rewrite kind_gone by auto. apply peq_refl.
        * apply Nat.ltb_ge in Q. destruct (lt_dec r b') as [Hb'|Hb'].
          -- rewrite kind_clean by lia. apply (after_fin it b (K' it K) (E' it a b E) out Hb Hit); [lia|apply F3; lia|apply B2; lia].
          -- rewrite kind_run by lia. apply (after_go it b (K' it K) (E' it a b E) out Hb Hit); [lia|apply F3; lia|apply B3; lia].
  Qed.

  (** ** From the constructor to the end of solve *)
  Definition K0 : nat -> nat -> Z := fun _ _ => 0%Z.
  Definition E0 : nat -> nat -> bool := fun _ _ => false.
  Lemma init_len r l : l < L -> length (init_u o r (infos r) l) = cnt l r + off l r.
  Proof.
    intros Hl. unfold init_u. rewrite (len_t o P) by auto.
    set (n := cnt l r + off l r).
    pose proof (fresh_len o (fun _ _ => True) (fun _ _ _ _ => I) l r n) as H. destruct (r =? 0); [rewrite upd_length|]; exact H.
  Qed.
  Lemma init_SS r : SS o P r K0 K0 E0 (init_state o r (infos r)) (init_state o r (infos r)).
  Proof.
    split; [|split].
    - split; intros l Hl; cbn [init_state s_u s_v s_g]; [apply init_len; auto| |]; unfold init_vg; rewrite repeat_length; apply (len_t o P); auto.
    - split; intros l op H6 HF; cbn [init_state s_stag s_rtag s_sfin]; unfold base, K0, E0; try lia; reflexivity.
    - split; reflexivity.
  Qed.
  Lemma okslots_nested : okslots o (nested_slots o).
  Proof.
    pose proof Lpos as HL. intros x Hx. unfold nested_slots in Hx. apply in_app_or in Hx. destruct Hx as [[<-|[]]|Hx].
    - cbn [fst snd]. change (blvl (L - 1) 5) with (L - 1). lia.
    - apply in_flat_map in Hx. destruct Hx as (l & H1 & H2). apply in_rev in H1. apply in_seq in H1. destruct (0 <? l); [|destruct H2].
      apply (it_slots_in o P HP0 HP) in H2. apply (down_slots_in o P HP0 HP) in H2. destruct H2 as [[H2 H3]| ->].
      + destruct x as [l0 op]. cbn [fst snd] in *. unfold blvl. destruct (op =? 4); lia.
      + cbn [fst snd]. change (blvl (l + (L - 1 - l)) 5) with (l + (L - 1 - l)). lia.
  Qed.
  (** the states before the loop *)
  Definition started (st : nat -> St A) : Prop :=
    if o_nested o
    then exists I O i o', runs P (fun r => nested_iteration o P r (infos r) (coarse_solve o P r (infos r)) (init_state o r (infos r))) I O i o' st /\
           forall r x, r < P -> In x (i r) -> fst (fst x) < r
    else forall r, r < P -> st r = init_state o r (infos r).
  Lemma start_phase : exists K E st, phase P (fun r => if o_nested o then nested_iteration o P r (infos r) (coarse_solve o P r (infos r)) (init_state o r (infos r))
                                                     else Ret (init_state o r (infos r))) st /\
    (forall r, r < P -> here K 0 r (E r) (st r) /\ kp (init_state o r (infos r)) (st r)) /\ started st.
  Proof.
    unfold started. destruct (o_nested o).
    - set (cl := fun _ : nat => false). set (h := nested_slots o).
      exists (bumps K0 h), (fun r => sees o P cl r E0 h).
      destruct (pipeline P (fun r => nested_iteration o P r (infos r) (coarse_solve o P r (infos r)) (init_state o r (infos r)))
                  (fun r => ins o P cl r K0 E0 h) (fun r => outs o P false r K0 h)
                  (fun r => SS o P r (bumps K0 h) (bumps K0 h) (sees o P cl r E0 h) (init_state o r (infos r))) (init_state o 0 (infos 0))) as (st & H1 & H2 & i & o' & H3).
      + intros r Hr. change false with (s_fin (init_state o r (infos r))). apply nested_srun; auto. apply init_SS.
      + intros s d Hsd Hd. rewrite (proj_outs o P). symmetry. apply (ins_running o P HV HP0 HP cl s d); [lia|auto|apply okslots_nested|reflexivity|reflexivity].
      + intros r x Hr Hx. eapply outs_in; eauto. apply okslots_nested.
      + intros r x Hr Hx. eapply ins_in; eauto. apply okslots_nested.
      + exists st. split; [exact H1|]. split.
        2:{ eexists _, _, i, o'. split; [exact H3|]. intros r x Hr Hx. destruct (rn_in _ _ _ _ _ _ _ H3 r Hr) as (ds & _ & E). rewrite E in Hx.
            apply evs_in in Hx. destruct Hx as (y & Hy & ->). apply (ins_in cl r h Hr okslots_nested K0 E0 y Hy). }
        intros r Hr. destruct (H2 r Hr) as (X1 & X2 & X3). split; [|exact X3]. split; auto.
        intros x Hx. rewrite sees_in. unfold cl, E0. rewrite andb_false_r. reflexivity.
    - exists K0, (fun _ => E0), (fun r => init_state o r (infos r)). split; [apply phase_ret|]. split; [|auto]. intros r Hr. destruct (init_SS r) as (X1 & X2 & X3).
      split; [|exact X3]. split; auto.
  Qed.
  Definition sl (s : St A) : St A := if is_jump o then set_last s (map (vclone A) (s_u s 0)) else s.
  Lemma sl_here K a r E s : here K a r E s -> here K a r E (sl s).
  Proof. intros [[] [] H]. unfold sl. destruct (is_jump o); split; auto; constructor; auto. Qed.
  Lemma start_going r s : W o P r s -> kp (init_state o r (infos r)) s -> going 0 0 r (sl s).
  Proof.
    intros [U _ _] [C1 C2 C3 C4 C5 C6 C7 C8 C9 _]. cbn [init_state s_conv s_iter s_fin s_fin_it s_pre s_pre_it s_stag s_rtag s_sfin] in *. unfold sl.
    split.
    - destruct (is_jump o); exact C3.
    - destruct (is_jump o); exact C5.
    - destruct (is_jump o); cbn [set_last s_conv]; rewrite C1; apply repeat_length.
    - intros _. transitivity (s_stag s 0 6); [destruct (is_jump o); reflexivity|]. rewrite C7. unfold base. lia.
    - intros _. transitivity (s_rtag s 0 6); [destruct (is_jump o); reflexivity|]. rewrite C8. unfold base. lia.
    - intros Hr. transitivity (s_sfin s 0 6); [destruct (is_jump o); reflexivity|]. rewrite C9. symmetry. apply Nat.eqb_neq. lia.
    - intros JJ. rewrite JJ. cbn [set_last s_last]. rewrite map_length. apply U. apply Lpos.
  Qed.
  Definition em1 (s : St A) : St A := if o_has_output o && (o_output_lvl o =? 1)%Z then emit s else s.
  Lemma solve_phase K E (st : nat -> St A) : (forall r, r < P -> here K 0 r (E r) (st r)) -> (forall r, r < P -> going 0 0 r (st r)) -> J 0 0 0 st ->
    exists fin, phase P (fun r => solve o P r (infos r) (coarse_solve o P r (infos r)) (st r)) (fun r => em1 (fin r)) /\ (0 < o_max_iter o -> Jf fin).
  Proof.
    intros Hh Hg HJ0.
    assert (X : exists fin, (0 < o_max_iter o -> Jf fin) /\ phase P (fun r => solve_loop o P r (infos r) (coarse_solve o P r (infos r)) (o_max_iter o) 0 (st r)) fin).
    { destruct (Nat.eq_dec (o_max_iter o) 0) as [Hm|Hm].
      - exists st. split; [lia|]. rewrite Hm. cbn [solve_loop]. apply phase_ret.
      - destruct (loop_phase (o_max_iter o) 0 0 0 K E st) as [fin [HF Hfin]].
        + reflexivity.
        + intros H. congruence.
        + lia.
        + lia.
        + intros r Hr. apply Hh. lia.
        + intros r Hr. lia.
        + intros r Hr. apply Hg. lia.
        + exact HJ0.
        + exists fin. split; [auto|]. eapply phase_peq; [|exact Hfin]. intros r Hr. cbv beta. rewrite (kind_run 0 0) by lia. apply peq_refl. }
    destruct X as [fin [HF Hfin]].
    exists fin. split; [|exact HF]. unfold solve.
    eapply phase_bind; [exact Hfin|]. eapply phase_bind; [apply (barrier_phase P HP0)|]. apply phase_ret.
  Qed.

  Hypothesis HA : no_adjacent_cpoints grids.
  Hypothesis Hresp : forall l r, l < L -> r < P -> predecessors_first (fps2 grids so P l r).
  Hypothesis HJ0 : forall K E st, (forall r, r < P -> here K 0 r (E r) (st r)) -> started st -> J 0 0 0 (fun r => em (sl (st r))).
  Theorem local_main_inv : check o P = None -> exists fin, phase P (fun r => mgrit_main o P r) (fun r => em1 (fin r)) /\ (0 < o_max_iter o -> Jf fin).
  Proof.
    intros Hc. destruct start_phase as (K & E & st & H1 & H2 & H3).
    destruct (solve_phase K E (fun r => em (sl (st r)))) as [fin [Hfin HF]].
    { intros r Hr. apply em_here, sl_here. apply H2; auto. }
    { intros r Hr. apply em_going. apply start_going; [apply (h_w _ _ _ _ _ (proj1 (H2 r Hr)))|apply H2; auto]. }
    { apply (HJ0 K E); auto. intros r Hr. apply H2; auto. }
    exists fin. split; [|exact HF].
    apply (phase_eq P _ (fun r => bind (construct o P r (infos r) (coarse_solve o P r (infos r))) (fun s => solve o P r (infos r) (coarse_solve o P r (infos r)) s))).
    - intros r Hr. unfold mgrit_main. rewrite Hc, (setup_infos_eq o P HV HA HP0 HP Hperm Hresp) by auto.
      unfold too_many_points. rewrite Hdist. reflexivity.
    - apply (phase_bind P _ _ (fun r => em (sl (st r)))); [|exact Hfin]. unfold construct.
      eapply phase_bind; [apply (barrier_phase P HP0)|]. eapply phase_bind; [exact H1|]. cbv zeta.
      apply (phase_bind P _ _ (fun _ => tt)); [destruct (o_max_iter o =? 0); [apply (barrier_phase P HP0)|apply phase_ret]|]. apply phase_ret.
  Qed.
End LocalRun.

(** Without a further invariant. *)
Theorem local_main {A : App} (o : Opts A) (P : nat) : valid_hierarchy (o_grids o) -> 0 < P -> P <= N (o_grids o) 0 -> gcc o = false ->
  (forall l r, l < length (o_grids o) -> r < P -> order_perm (o_grids o) (o_set_order o) P l r) ->
  (forall l, l < length (o_grids o) - 1 -> 1 <= cf_count o l) -> o_dist o = None ->
  (is_jump o = true -> forall r, r < P -> sflag o P 0 7 r = false /\ rflag o P 0 7 r = false) ->
  (forall r vals, r < P -> length vals = length (own_crit o P r) ->
    exists x, tnorm A vals = Some x /\ (forallb (fun y => sc_lt A y (o_tol o)) vals = true -> sc_lt A x (o_tol o) = true)) ->
  no_adjacent_cpoints (o_grids o) -> (forall l r, l < length (o_grids o) -> r < P -> predecessors_first (fps2 (o_grids o) (o_set_order o) P l r)) ->
  check o P = None -> exists fin, phase P (fun r => mgrit_main o P r) fin.
Proof.
  intros H1 H2 H3 H4 H5 H6 H7 H8 H9 H10 H11 H12.
  destruct (local_main_inv o P H1 H2 H3 H4 H5 H6 H7 H8 H9 (fun _ _ _ _ => True) (fun _ => True)) as [fin [X _]]; auto. eauto.
Qed.
