(** Tag counters: every process numbers its messages of one kind (level, op_id) consecutively. *)
From Coq Require Import List ZArith Lia Arith Bool.
From Verif Require Import Net PyList Setup Mgrit.
Import ListNotations.

(** Along every path of program [p] (whatever is received), the tags of the point-to-point sends labelled (lvl, op) are
    [ks lvl op], [ks lvl op] + 1, ... in this order, those of the receives [kr lvl op], ...; [Q] holds of the next free
    tags when the program returns. Collectives carry labels of 100 and more. *)
Fixpoint numbered {Msg B : Type} (ks kr : nat -> nat -> Z) (p : prog Msg B) (Q : (nat -> nat -> Z) -> (nat -> nat -> Z) -> B -> Prop) : Prop :=
  match p with
  | Ret a => Q ks kr a
  | Raise _ => True
  | Send _ t _ k =>
      if t_op t <? 100 then t_num t = ks (t_lvl t) (t_op t) /\ numbered (at2 ks (t_lvl t) (t_op t) (ks (t_lvl t) (t_op t) + 1)%Z) kr k Q
      else numbered ks kr k Q
  | Recv _ t k =>
      if t_op t <? 100 then t_num t = kr (t_lvl t) (t_op t) /\
        forall m, numbered ks (at2 kr (t_lvl t) (t_op t) (kr (t_lvl t) (t_op t) + 1)%Z) (k m) Q
      else forall m, numbered ks kr (k m) Q
  | WaitAll k => numbered ks kr k Q
  end.

Section Rules.
  Context {Msg : Type}.
  Lemma numbered_bind {B C} (p : prog Msg B) (f : B -> prog Msg C) Q R : forall ks kr,
    numbered ks kr p Q -> (forall ks kr b, Q ks kr b -> numbered ks kr (f b) R) -> numbered ks kr (bind p f) R.
  Proof.
    induction p as [a|e|d t m k IH|s t k IH|k IH]; intros ks kr H1 H2; simpl in *; auto.
    - destruct (t_op t <? 100); [destruct H1; split|]; auto.
    - destruct (t_op t <? 100); [destruct H1; split|]; auto.
  Qed.
  Lemma numbered_weaken {B} (p : prog Msg B) (Q R : _ -> _ -> B -> Prop) : forall ks kr,
    numbered ks kr p Q -> (forall ks kr b, Q ks kr b -> R ks kr b) -> numbered ks kr p R.
  Proof.
    induction p as [a|e|d t m k IH|s t k IH|k IH]; intros ks kr H1 H2; simpl in *; auto.
    - destruct (t_op t <? 100); [destruct H1; split|]; auto.
    - destruct (t_op t <? 100); [destruct H1; split|]; auto.
  Qed.
End Rules.

Section Counted.
  Context {A : App}.
  Variable o : Opts A.
  Variables P r : nat.
  Variable infos : list LvlInfo.
  Notation St := (St A).

  (** program started in state [s]: the tags come from the counters of [s], and the final counters are right *)
  Definition cnt {B} (st : B -> St) (s : St) (p : prog (Msg A) B) : Prop :=
    numbered (s_stag s) (s_rtag s) p (fun ks kr b => ks = s_stag (st b) /\ kr = s_rtag (st b)).
  Notation cn := (cnt (fun s : St => s)).
  (** no point-to-point messages *)
  Definition quiet {B} (p : prog (Msg A) B) : Prop := forall ks kr, numbered ks kr p (fun ks' kr' _ => ks' = ks /\ kr' = kr).

  Lemma cnt_bind {B C} (stb : B -> St) (stc : C -> St) s (p : prog (Msg A) B) f :
    cnt stb s p -> (forall b, cnt stc (stb b) (f b)) -> cnt stc s (bind p f).
  Proof. intros H1 H2. eapply numbered_bind; [exact H1|]. intros ks kr b [-> ->]. apply H2. Qed.
  Lemma cnt_quiet {B C} (stc : C -> St) s (p : prog (Msg A) B) f :
    quiet p -> (forall b, cnt stc s (f b)) -> cnt stc s (bind p f).
  Proof. intros H1 H2. eapply numbered_bind; [apply H1|]. intros ks kr b [-> ->]. apply H2. Qed.
  Lemma cnt_ret {B} (st : B -> St) s b : s_stag (st b) = s_stag s -> s_rtag (st b) = s_rtag s -> cnt st s (Ret b).
  Proof. intros E1 E2. split; auto. Qed.
  Lemma cnt_raise {B} (st : B -> St) s e : cnt st s (Raise e).
  Proof. exact I. Qed.
  Lemma cnt_same {B} (st : B -> St) s s' p : s_stag s' = s_stag s -> s_rtag s' = s_rtag s -> cnt st s' p -> cnt st s p.
  Proof. unfold cnt. intros -> ->. auto. Qed.
  Lemma quiet_lift {B} (x : option B) : quiet (lift x).
  Proof. intros ks kr. destruct x; simpl; auto. Qed.

  Lemma for_each_cn {B} (l : list B) f : (forall x s, cn s (f x s)) -> forall s, cn s (for_each l f s).
  Proof.
    intros H. induction l as [|x l IH]; intros s; [split; reflexivity|]. simpl.
    apply (cnt_bind (fun s => s)); auto.
  Qed.
  Lemma times_cn n f : (forall s, cn s (f s)) -> forall s, cn s (times n f s).
  Proof. intros H. induction n as [|n IH]; intros s; [split; reflexivity|]. simpl. apply (cnt_bind (fun s => s)); auto. Qed.

  Lemma send_cn d dest lvl op s : op < 100 -> cn s (send o P d dest lvl op s).
  Proof.
    intros H. unfold send. destruct (_ || _)%bool; [exact I|]. unfold cnt. simpl.
    replace (op <? 100) with true by (symmetry; apply Nat.ltb_lt; auto). repeat split.
  Qed.
  Lemma send_flag_cn b dest lvl op s : op < 100 -> cn s (send_flag P b dest lvl op s).
  Proof.
    intros H. unfold send_flag. destruct (_ || _)%bool; [exact I|]. unfold cnt. simpl.
    replace (op <? 100) with true by (symmetry; apply Nat.ltb_lt; auto). repeat split.
  Qed.
  Lemma receive_cn source lvl op s : op < 100 -> cnt snd s (receive o P source lvl op s).
  Proof.
    intros H. unfold receive. destruct (_ || _)%bool; [exact I|]. unfold cnt. simpl.
    replace (op <? 100) with true by (symmetry; apply Nat.ltb_lt; auto). split; [reflexivity|].
    intros m. destruct m; simpl; auto; destruct (gcc o); simpl; auto.
  Qed.
  Lemma receive_flag_cn source lvl op s : op < 100 -> cnt snd s (receive_flag P source lvl op s).
  Proof.
    intros H. unfold receive_flag. destruct (_ || _)%bool; [exact I|]. unfold cnt. simpl.
    replace (op <? 100) with true by (symmetry; apply Nat.ltb_lt; auto). split; [reflexivity|].
    intros m. destruct m; simpl; auto.
  Qed.
  Lemma unpack_ghost_cn lvl d s : cn s (unpack_ghost lvl d s).
  Proof. unfold unpack_ghost. destruct (s_u s lvl); [exact I|]. apply cnt_ret; reflexivity. Qed.
  Lemma recv_ghost_cn lvl source lt op s : op < 100 -> cn s (recv_ghost o P lvl source lt op s).
  Proof. intros H. unfold recv_ghost. apply (cnt_bind snd); [apply receive_cn; auto|]. intros b. apply unpack_ghost_cn. Qed.
  Lemma send_point_cn lvl i dest lt op s : op < 100 -> cn s (send_point o P lvl i dest lt op s).
  Proof. intros H. unfold send_point. apply cnt_quiet; [apply quiet_lift|]. intros b. apply send_cn; auto. Qed.
  Lemma put_u_cn lvl i x s : cn s (put_u lvl i x s).
  Proof. unfold put_u. apply cnt_quiet; [apply quiet_lift|]. intros b. apply cnt_ret; reflexivity. Qed.

  Ltac go :=
    repeat (intros; match goal with
    | |- cnt _ _ (if ?b then _ else _) => destruct b
    | |- cnt _ _ (bind (lift _) _) => apply cnt_quiet; [apply quiet_lift|]
    | |- cnt _ _ (bind (receive _ _ _ _ _ _) _) => apply (cnt_bind snd)
    | |- cnt _ _ (bind (receive_flag _ _ _ _ _) _) => apply (cnt_bind snd)
    | |- cnt _ _ (bind _ _) => apply (cnt_bind (fun s : St => s))
    | |- cnt _ _ (Ret _) => apply cnt_ret; reflexivity
    | |- cnt _ _ (Raise _) => apply cnt_raise
    | |- cnt _ _ (send_point _ _ _ _ _ _ _ _) => apply send_point_cn; lia
    | |- cnt _ _ (send_flag _ _ _ _ _ _) => apply send_flag_cn; lia
    | |- cnt _ _ (receive _ _ _ _ _ _) => apply receive_cn; lia
    | |- cnt _ _ (receive_flag _ _ _ _ _) => apply receive_flag_cn; lia
    | |- cnt _ _ (recv_ghost _ _ _ _ _ _ _) => apply recv_ghost_cn; lia
    | |- cnt _ _ (put_u _ _ _ _) => apply put_u_cn
    | |- cnt _ _ (for_each _ _ _) => apply for_each_cn
    | |- cnt _ _ (times _ _ _) => apply times_cn
    end).

  Lemma f_relax_cn lvl s : cn s (f_relax o P infos lvl s).
  Proof. unfold f_relax. cbv zeta. go. Qed.
  Lemma c_relax_cn lvl s : cn s (c_relax o P r infos lvl s).
  Proof. unfold c_relax. cbv zeta. go. Qed.
  Lemma compute_jump_cn s : cnt snd s (compute_jump r infos s).
  Proof. unfold compute_jump. cbv zeta. go. Qed.
  Lemma compute_residual_cn s : cnt snd s (compute_residual o P r infos s).
  Proof. unfold compute_residual. cbv zeta. go. Qed.
  Lemma forward_solve_cn lvl s : cn s (forward_solve o P infos lvl s).
  Proof. unfold forward_solve. cbv zeta. go. Qed.
  Lemma fas_residual_cn lvl s : cn s (fas_residual o P r infos lvl s).
  Proof.
    unfold fas_residual. cbv zeta. go.
    intros b3. match goal with |- cnt _ ?s (for_each _ _ ?s') => apply (cnt_same _ s s'); [reflexivity|reflexivity|] end. go.
  Qed.
  Lemma error_correction_cn lvl s : cn s (error_correction r infos lvl s).
  Proof. unfold error_correction. cbv zeta. go. Qed.

  Lemma gather_from_quiet srcs k : (forall l, quiet (k l)) -> quiet (gather_from (A:=A) srcs k).
  Proof.
    revert k. induction srcs as [|q srcs IH]; intros k H; [apply H|]. intros ks kr. simpl. intros m.
    destruct m; simpl; auto. apply IH. intros ls. apply H.
  Qed.
  Lemma quiet_bind {B C} (p : prog (Msg A) B) (f : B -> prog (Msg A) C) : quiet p -> (forall b, quiet (f b)) -> quiet (bind p f).
  Proof. intros H1 H2 ks kr. eapply numbered_bind; [apply H1|]. intros ks' kr' b [-> ->]. apply H2. Qed.
  Lemma gather_quiet val : quiet (gather (A:=A) P r val).
  Proof.
    unfold gather. destruct (r =? 0); [|intros ks kr; simpl; auto].
    apply quiet_bind; [apply gather_from_quiet|]; intros b ks kr; simpl; auto.
  Qed.
  Lemma send_all_quiet dsts t m : 100 <= t_op t -> quiet (send_all (A:=A) dsts t m).
  Proof.
    intros H. induction dsts as [|d dsts IH]; intros ks kr; simpl; auto.
    replace (t_op t <? 100) with false by (symmetry; apply Nat.ltb_ge; auto). apply IH.
  Qed.
  Lemma recv_units_quiet srcs t : 100 <= t_op t -> quiet (recv_units (A:=A) srcs t).
  Proof.
    intros H. induction srcs as [|d srcs IH]; intros ks kr; simpl; auto.
    replace (t_op t <? 100) with false by (symmetry; apply Nat.ltb_ge; auto). intros m. destruct m; simpl; auto.
  Qed.
  Lemma bcast_quiet x : quiet (bcast (A:=A) P r x).
  Proof.
    unfold bcast. destruct (r =? 0).
    - apply quiet_bind; [apply send_all_quiet; simpl; lia|]. intros b ks kr. simpl. auto.
    - intros ks kr. simpl. intros m. destruct m; simpl; auto.
  Qed.
  Lemma barrier_quiet : quiet (barrier (A:=A) P r).
  Proof.
    unfold barrier. destruct (r =? 0).
    - apply quiet_bind; [apply recv_units_quiet; simpl; lia|]. intros b. apply send_all_quiet; simpl; lia.
    - intros ks kr. simpl. intros m. destruct m; simpl; auto.
  Qed.
  Lemma put_conv_cn it x s : cn s (put_conv it x s).
  Proof. unfold put_conv. go. Qed.

  Lemma convergence_criterion_cn it s : cn s (convergence_criterion o P r infos it s).
  Proof.
    unfold convergence_criterion. cbv zeta. apply (cnt_bind snd).
    - destruct (is_jump o); [apply compute_jump_cn|apply compute_residual_cn].
    - intros vs. destruct (gcc o).
      + apply cnt_quiet; [apply gather_quiet|]. intros tmp. apply (cnt_bind (fun s => s)).
        * destruct tmp; [|go]. destruct (tnorm A (concat l)); [apply put_conv_cn|go].
        * intros s'. apply cnt_quiet; [apply quiet_lift|]. intros cur. apply cnt_quiet; [apply bcast_quiet|].
          intros x. apply put_conv_cn.
      + apply (cnt_bind (fun s => s)); [go|]. intros s1.
        set (fin := _ && _). apply (cnt_same _ s1 (set_fin s1 fin (Some it))); [reflexivity|reflexivity|].
        apply (cnt_bind (fun s => s)); [go|]. intros s2. destruct (tnorm A (fst vs)); [apply put_conv_cn|go].
  Qed.

  Lemma quiet_ret {B} (b : B) : quiet (Ret b).
  Proof. intros ks kr. simpl. auto. Qed.
  Lemma recv_at_quiet srcs t : 100 <= t_op t -> quiet (recv_at (A:=A) srcs t).
  Proof.
    intros H. induction srcs as [|d srcs IH]; [apply quiet_ret|]. intros ks kr. simpl.
    replace (t_op t <? 100) with false by (symmetry; apply Nat.ltb_ge; auto). intros m. destruct m; simpl; auto.
    apply (quiet_bind _ _ IH). intros b. apply quiet_ret.
  Qed.
  Lemma allgather_black_quiet grp x : quiet (allgather_black (A:=A) r grp x).
  Proof.
    destruct grp as [|root others]; [intros ks kr; exact I|]. unfold allgather_black. destruct (r =? root).
    - apply quiet_bind; [apply recv_at_quiet; simpl; lia|]. intros ls.
      apply quiet_bind; [apply send_all_quiet; simpl; lia|]. intros _. apply quiet_ret.
    - intros ks kr. exact (recv_at_quiet [root] TAG_BLACK ltac:(simpl; lia) ks kr).
  Qed.
  Lemma bcast_green_quiet grp l : quiet (bcast_green (A:=A) r grp l).
  Proof.
    destruct grp as [|root others]; [intros ks kr; exact I|]. unfold bcast_green. destruct (r =? root).
    - apply quiet_bind; [apply send_all_quiet; simpl; lia|]. intros _. apply quiet_ret.
    - apply recv_at_quiet; simpl; lia.
  Qed.
  Lemma at_propagate_quiet lvl s is : forall x, quiet (at_propagate o lvl s is x).
  Proof.
    induction is as [|i is IH]; intros x; cbn [at_propagate]; [apply quiet_ret|].
    repeat (apply quiet_bind; [apply quiet_lift|intros ?]). apply IH.
  Qed.
  Lemma coarse_solve_cn lvl s : cn s (coarse_solve o P r infos lvl s).
  Proof.
    unfold coarse_solve. destruct (o_dist o) as [k|]; [|apply forward_solve_cn].
    destruct (Mgrit.L o =? 1); [go|]. destruct (P =? 1).
    - unfold at_solve_serial. cbv zeta. apply for_each_cn. intros i s'. apply cnt_quiet; [apply quiet_lift|]. intros x.
      apply cnt_quiet; [apply at_propagate_quiet|]. intros y. apply put_u_cn.
    - unfold at_solve_parallel. destruct (i_cpts _); [go|]. cbv zeta. destruct (k <=? 0)%Z; [go|].
      do 3 (apply cnt_quiet; [apply quiet_lift|]; intros ?).
      apply cnt_quiet; [apply allgather_black_quiet|]. intros black.
      apply cnt_quiet; [apply bcast_green_quiet|]. intros green. go.
  Qed.

  Section Cycle.
    Variable fsolve : nat -> St -> prog (Msg A) St.
    Hypothesis Hfs : forall lvl s, cn s (fsolve lvl s).

    Lemma iteration_cn n : forall lvl cyc it ff s, cn s (iteration o P r infos fsolve n lvl cyc it ff s).
    Proof.
      induction n as [|n IH]; intros lvl cyc it ff s; cbn [iteration]; [apply Hfs|].
      assert (H : forall cyc ff s, cn s (
            s <- (if ((0 <? lvl) || (it =? 0)) && ff then f_relax o P infos lvl s else Ret s) ;;
            s <- times (cf_count o lvl) (fun s => s <- c_relax o P r infos lvl s ;; f_relax o P infos lvl s) s ;;
            s <- fas_residual o P r infos lvl s ;;
            s <- iteration o P r infos fsolve n (S lvl) cyc it true s ;;
            s <- error_correction r infos lvl s ;;
            f_relax o P infos lvl s)).
      { intros. go; auto using f_relax_cn, c_relax_cn, fas_residual_cn, error_correction_cn. }
      cbv zeta. apply (cnt_bind (fun s => s)); [apply H|]. intros b. destruct (_ && _); [apply H|go].
    Qed.
    Lemma interpolate_up_cn lvl s : cn s (interpolate_up r infos lvl s).
    Proof. unfold interpolate_up. cbv zeta. go. Qed.
    Lemma nested_iteration_cn s : cn s (nested_iteration o P r infos fsolve s).
    Proof. unfold nested_iteration. go; auto using interpolate_up_cn, iteration_cn. Qed.
    Lemma cnt_wait {B} (st : B -> St) s p : cnt st s p -> cnt st s (WaitAll p).
    Proof. auto. Qed.
    Lemma clean_up_cn s : cn s (clean_up o P r infos s).
    Proof. unfold clean_up. cbv zeta. apply cnt_wait. go; intros; try (apply cnt_wait; go). Qed.
    Lemma solve_pass_cn it s : cnt (fun x => match x with inl s => s | inr s => s end) s (solve_pass o P r infos fsolve it s).
    Proof.
      unfold solve_pass. cbv zeta. apply (cnt_same _ s (set_iter s (it + 1))); [reflexivity|reflexivity|].
      apply (cnt_bind (fun s => s)); [apply iteration_cn|]. intros s1.
      apply (cnt_bind (fun s => s)); [apply convergence_criterion_cn|]. intros s2.
      set (s3 := if _ && _ then emit s2 else s2).
      assert (E : s_stag s3 = s_stag s2 /\ s_rtag s3 = s_rtag s2) by (unfold s3; destruct (_ && _); auto).
      apply (cnt_same _ s2 s3); [apply E|apply E|]. clearbody s3.
      apply cnt_quiet; [apply quiet_lift|]. intros cur. go. apply clean_up_cn.
    Qed.
    Lemma solve_loop_cn n : forall it s, cn s (solve_loop o P r infos fsolve n it s).
    Proof.
      induction n as [|n IH]; intros it s; cbn [solve_loop]; [go|].
      eapply cnt_bind; [apply solve_pass_cn|]. intros [s'|s']; [apply IH|go].
    Qed.
    Lemma solve_cn s : cn s (solve o P r infos fsolve s).
    Proof.
      unfold solve. apply (cnt_bind (fun s => s)); [apply solve_loop_cn|]. intros s'.
      apply cnt_quiet; [apply barrier_quiet|]. intros _. destruct (_ && _); go.
    Qed.
    Lemma construct_cn : cn (init_state o r infos) (construct o P r infos fsolve).
    Proof.
      unfold construct. cbv zeta. apply cnt_quiet; [apply barrier_quiet|]. intros _.
      apply (cnt_bind (fun s => s)); [destruct (o_nested o); [apply nested_iteration_cn|go]|]. intros s.
      set (s1 := if is_jump o then _ else _).
      assert (E : s_stag s1 = s_stag s /\ s_rtag s1 = s_rtag s) by (unfold s1; destruct (is_jump o); auto).
      apply (cnt_same _ s s1); [apply E|apply E|]. clearbody s1.
      apply cnt_quiet.
      - destruct (o_max_iter o =? 0); [apply barrier_quiet|]. intros ks kr. simpl. auto.
      - intros _. destruct (_ && _); go.
    Qed.
  End Cycle.
End Counted.

Definition first_tag (lvl op : nat) : Z := (50000 * (Z.of_nat op + 1))%Z.
Lemma main_numbered {A : App} (o : Opts A) P r : numbered first_tag first_tag (mgrit_main o P r) (fun _ _ _ => True).
Proof.
  unfold mgrit_main. destruct (check o P); [exact I|]. destruct (setup_infos o P r) as [infos|]; [|exact I].
  destruct (too_many_points o P); [exact I|]. eapply numbered_bind.
  - apply (construct_cn o P r infos (coarse_solve o P r infos)). intros. apply coarse_solve_cn.
  - intros ks kr s [-> ->]. eapply numbered_weaken; [apply (solve_cn o P r infos (coarse_solve o P r infos)); intros; apply coarse_solve_cn|].
    auto.
Qed.
