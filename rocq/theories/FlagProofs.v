(** Executions with a record of the messages sent, and the finished flags of the local convergence criteria. *)
From Coq Require Import List ZArith Lia Arith Bool.
From Verif Require Import Net NetProofs PyList Setup Mgrit.
Import ListNotations.

(** ** Executions with a log *)
Section Log.
  Context {Msg A : Type}.
  Notation config := (config Msg A).
  (** (sender, receiver, tag, message) *)
  Definition event : Type := (nat * nat * mtag * Msg)%type.
  (** What the next action of rank [p] adds to the log. *)
  Definition sends (p : nat) (c : config) : list event :=
    match procs c p with Send d t m _ => [(p, d, t, m)] | _ => [] end.
  (** [logged P c l c']: some schedule leads from [c] to [c'] and the messages sent are [l], oldest first. *)
  Inductive logged (P : nat) (c : config) : list event -> config -> Prop :=
  | logged_nil : logged P c [] c
  | logged_step l c1 p c2 : logged P c l c1 -> step P p c1 c2 -> logged P c (l ++ sends p c1) c2.

  Lemma logged_cons P p c c1 l c2 : step P p c c1 -> logged P c1 l c2 -> logged P c (sends p c ++ l) c2.
  Proof.
    intros S H. induction H as [|l c2 q c3 H IH S2].
    - rewrite app_nil_r. apply (logged_step P c [] c p c1); [constructor|auto].
    - rewrite app_assoc. eapply logged_step; eauto.
  Qed.
  Lemma logged_steps P c l c' : logged P c l c' -> exists n, steps P n c c'.
  Proof.
    induction 1 as [|l c1 p c2 H (n & IH) S].
    - exists 0. apply steps_id.
    - exists (n + 1). eapply steps_trans; [exact IH|]. eapply steps_1; eauto.
  Qed.
  Lemma steps_logged P n : forall c c', steps P n c c' -> exists l c'', logged P c l c'' /\ ceq c'' c'.
  Proof.
    induction n as [|n IH]; intros c c' H; inversion H; subst.
    - exists [], c. split; [constructor|]. split; auto.
    - destruct (IH _ _ H2) as (l & c'' & H3 & H4). exists (sends p c ++ l), c''. split; auto.
      eapply logged_cons; eauto.
  Qed.

  Lemma take_in t q (m : Msg) rest : take t q = Some (m, rest) ->
    (exists t', t_num t' = t_num t /\ In (t', m) q) /\ (forall x, In x rest -> In x q).
  Proof.
    revert m rest. induction q as [|[t' m'] q IH]; simpl; intros m rest H; [discriminate|].
    destruct (Z.eqb_spec (t_num t) (t_num t')) as [E|E].
    - injection H as <- <-. split; eauto.
    - destruct (take t q) as [[m2 q2]|] eqn:E2; [|discriminate]. injection H as <- <-.
      destruct (IH _ _ eq_refl) as [(t2 & H1 & H2) H3]. split; [eauto|]. simpl. firstorder.
  Qed.

  (** Whatever is in flight was sent. *)
  Lemma chan_log P progs l c : logged P (initial progs) l c -> forall s d t m, In (t, m) (chan c s d) -> In (s, d, t, m) l.
  Proof.
    induction 1 as [|l c1 p c2 H IH S]; intros s d t m Hin; [destruct Hin|].
    apply in_or_app. destruct S as [Hp S]. unfold sends. destruct (procs c1 p) as [a|e|d0 t0 m0 k|s0 t0 k|k] eqn:E; try contradiction.
    - destruct S as [_ S]. rewrite S in Hin.
      destruct (Nat.eqb_spec s p), (Nat.eqb_spec d d0); simpl in Hin; subst; auto.
      apply in_app_or in Hin as [Hin|[Hin|[]]]; [left; auto|right; left; congruence].
    - destruct S as (m1 & rest & Ht & _ & S). rewrite S in Hin. left. apply IH.
      destruct (Nat.eqb_spec s s0), (Nat.eqb_spec d p); simpl in Hin; subst; auto.
      apply (take_in _ _ _ _ Ht); auto.
    - destruct S as (_ & _ & S). rewrite S in Hin. left; auto.
  Qed.
End Log.

(** ** Finished flags *)
Section Flags.
  Context {A : App}.
  Variable r : nat.
  (** Along every path of the program of rank [r]: a flag [true] is only sent by rank 0 or after a flag [true] whose tag
      number is not larger has been received from rank r-1. [got] holds the tag numbers of the flags [true] received so
      far; every flag carries the label (level 0, operation 6) and a
      number from 350000 on; [Q] holds of [got] and the result. *)
  Fixpoint flags {B : Type} (got : list Z) (p : prog (Msg A) B) (Q : list Z -> B -> Prop) : Prop :=
    match p with
    | Ret b => Q got b
    | Raise _ => True
    | Send d t m k =>
        match m with
        | MBoolF b _ => (t_lvl t = 0 /\ t_op t = 6 /\ (350000 <= t_num t)%Z) /\ (b = true -> r = 0 \/ exists j, In j got /\ (j <= t_num t)%Z)
        | _ => True
        end /\ flags got k Q
    | Recv s t k =>
        forall m, flags (match m with MBoolF true _ => if S s =? r then t_num t :: got else got | _ => got end) (k m) Q
    | WaitAll k => flags got k Q
    end.

  Lemma flags_bind {B C} (p : prog (Msg A) B) (f : B -> prog (Msg A) C) Q R : forall got,
    flags got p Q -> (forall got b, Q got b -> flags got (f b) R) -> flags got (bind p f) R.
  Proof.
    induction p as [b|e|d t m k IH|s t k IH|k IH]; intros got H1 H2; simpl in *; auto.
    destruct H1; split; auto.
  Qed.
  Lemma flags_weaken {B} (p : prog (Msg A) B) (Q R : _ -> B -> Prop) : forall got,
    flags got p Q -> (forall got b, Q got b -> R got b) -> flags got p R.
  Proof.
    induction p as [b|e|d t m k IH|s t k IH|k IH]; intros got H1 H2; simpl in *; auto.
    destruct H1; split; auto.
  Qed.
End Flags.

(** The local predicate of all ranks gives the order of the flags in every execution. *)
Section Order.
  Context {A : App} {B : Type}.
  Variable P : nat.
  Variable progs : nat -> prog (Msg A) B.
  Variable Q : nat -> list Z -> B -> Prop.
  Hypothesis Hlocal : forall r, flags r [] (progs r) (Q r).

  (** A flag [true] with number [n] of rank [r]-1 is in the log. *)
  Definition told (l : list (event (Msg:=Msg A))) (r : nat) (n : Z) : Prop :=
    exists q t f, S q = r /\ t_num t = n /\ In (q, r, t, MBoolF true f) l.
  (** Every flag [true] of a rank r > 0 comes after one of rank r-1 with a number not larger. *)
  Definition ordered (l : list (event (Msg:=Msg A))) : Prop :=
    forall l1 l2 r d t f, l = l1 ++ (r, d, t, MBoolF true f) :: l2 -> 0 < r -> exists n, (n <= t_num t)%Z /\ told l1 r n.

  Lemma told_app l l' r n : told l r n -> told (l ++ l') r n.
  Proof. intros (q & t & f & H1 & H2 & H3). exists q, t, f. repeat split; auto. apply in_or_app; auto. Qed.

  Lemma flags_invariant l c : logged P (initial progs) l c ->
    (forall r, exists got, flags r got (procs c r) (Q r) /\ forall n, In n got -> told l r n) /\ ordered l /\
    (forall s d t b f, In (s, d, t, MBoolF b f) l -> t_lvl t = 0 /\ t_op t = 6 /\ (350000 <= t_num t)%Z).
  Proof.
    intros H. induction H as [|l c1 p c2 H IH S].
    - split; [|split]. 
      + intros r. exists []. split; [apply Hlocal|]. intros n [].
      + intros l1 l2 r d t f E. destruct l1; discriminate E.
      + intros s d t b f [].
    - destruct IH as (I1 & I2 & I3). pose proof (chan_log P progs l c1 H) as Hch.
      destruct S as [Hp S]. unfold sends. destruct (I1 p) as (gp & Fp & Gp).
      destruct (procs c1 p) as [a|e|d0 t0 m0 k|s0 t0 k|k] eqn:E; try contradiction.
      + destruct S as [S _]. destruct Fp as [F1 F2]. split; [|split].
        * intros r. destruct (Nat.eqb_spec r p) as [->|Ne].
          -- exists gp. rewrite S, Nat.eqb_refl. split; auto. intros n Hn. apply told_app; auto.
          -- destruct (I1 r) as (g & F & G). exists g. rewrite S. apply Nat.eqb_neq in Ne. rewrite Ne. split; auto.
             intros n Hn. apply told_app; auto.
        * intros l1 l2 r d t f El Hr.
          destruct (rev_ind (fun l2 => l2 = [] \/ exists l3 x, l2 = l3 ++ [x]) (or_introl eq_refl)
                      (fun x l3 _ => or_intror (ex_intro _ l3 (ex_intro _ x eq_refl))) l2) as [->|(l3 & x & ->)].
          -- apply app_inj_tail in El as [<- El]. injection El as <- <- <- ->.
             destruct F1 as (_ & F1). destruct (F1 eq_refl) as [->|(j & J1 & J2)]; [lia|]. exists j. split; auto.
          -- rewrite app_comm_cons, app_assoc in El. apply app_inj_tail in El as [-> _].
             apply (I2 l1 l3 r d t f); auto.
        * intros s d t b f Hin. apply in_app_or in Hin as [Hin|[Hin|[]]]; [eauto|]. injection Hin as <- <- <- ->.
          apply F1.
      + destruct S as (m & rest & Ht & S & _). rewrite app_nil_r. split; auto.
        intros r. destruct (Nat.eqb_spec r p) as [->|Ne].
        * destruct (take_in _ _ _ _ Ht) as [(t' & T1 & T2) _]. specialize (Fp m). specialize (Hch _ _ _ _ T2).
          rewrite S, Nat.eqb_refl. eexists. split; [exact Fp|]. intros n Hn.
          destruct m as [| |[|] f| | | |]; auto. destruct (Nat.eqb_spec (Datatypes.S s0) p) as [Es|Es]; auto.
          destruct Hn as [<-|Hn]; auto. exists s0, t', f. auto.
        * destruct (I1 r) as (g & F & G). exists g. rewrite S. apply Nat.eqb_neq in Ne. rewrite Ne. auto.
      + destruct S as (_ & S & _). rewrite app_nil_r. split; auto. intros r. destruct (Nat.eqb_spec r p) as [->|Ne].
        * exists gp. rewrite S, Nat.eqb_refl. auto.
        * destruct (I1 r) as (g & F & G). exists g. rewrite S. apply Nat.eqb_neq in Ne. rewrite Ne. auto.
  Qed.

  (** Hence every smaller rank has told, each not later than its successor. *)
  Lemma told_all l c : logged P (initial progs) l c -> forall r n, told l r n -> forall q, q < r ->
    exists n', (n' <= n)%Z /\ told l (S q) n'.
  Proof.
    intros H r. destruct (flags_invariant l c H) as (_ & O & _). clear H.
    induction r as [|r IH]; intros n T q Hq; [lia|].
    destruct (Nat.eq_dec q r) as [->|Ne]; [exists n; split; [lia|auto]|].
    destruct T as (q0 & t & f & E & <- & Hin). injection E as ->.
    apply in_split in Hin as (l1 & l2 & El).
    destruct (O l1 l2 r (S r) t f El ltac:(lia)) as (n1 & Hn1 & T1).
    assert (T2 : told l r n1) by (rewrite El; apply told_app; auto).
    destruct (IH n1 T2 q ltac:(lia)) as (n2 & Hn2 & T3). exists n2. split; [lia|auto].
  Qed.
End Order.

(** ** The solver with a local criterion keeps the predicate *)
Section Solver.
  Context {A : App}.
  Variable o : Opts A.
  Variables P r : nat.
  Variable infos : list LvlInfo.
  Notation St := (St A).
  Hypothesis Hloc : gcc o = false.

  (** attributes that only the convergence criterion changes *)
  Definition frame (s : St) := (s_stag s 0 6, s_rtag s 0 6, (s_fin s, s_fin_it s), (s_pre s, s_iter s)).
  (** no flags are sent or received and [frame] is kept *)
  Definition keep {B} (st : B -> St) (s : St) (p : prog (Msg A) B) : Prop :=
    forall got, flags r got p (fun got' b => got' = got /\ frame (st b) = frame s).
  Definition calm {B} (p : prog (Msg A) B) : Prop := forall got, flags r got p (fun got' _ => got' = got).
  Notation kp := (keep (fun s : St => s)).

  Lemma keep_bind {B C} (stb : B -> St) (stc : C -> St) s (p : prog (Msg A) B) f :
    keep stb s p -> (forall b, keep stc (stb b) (f b)) -> keep stc s (bind p f).
  Proof.
    intros H1 H2 got. eapply flags_bind; [apply H1|]. intros g b [-> E]. eapply flags_weaken; [apply H2|].
    simpl. intros g' c [-> E2]. split; congruence.
  Qed.
  Lemma keep_calm {B C} (stc : C -> St) s (p : prog (Msg A) B) f :
    calm p -> (forall b, keep stc s (f b)) -> keep stc s (bind p f).
  Proof. intros H1 H2 got. eapply flags_bind; [apply H1|]. intros g b ->. apply H2. Qed.
  Lemma keep_ret {B} (st : B -> St) s b : frame (st b) = frame s -> keep st s (Ret b).
  Proof. intros E got. split; auto. Qed.
  Lemma keep_raise {B} (st : B -> St) s e : keep st s (Raise e).
  Proof. intros got. exact I. Qed.
  Lemma keep_same {B} (st : B -> St) s s' p : frame s' = frame s -> keep st s' p -> keep st s p.
  Proof. unfold keep. intros ->. auto. Qed.
  Lemma keep_wait {B} (st : B -> St) s p : keep st s p -> keep st s (WaitAll p).
  Proof. auto. Qed.
  Lemma calm_lift {B} (x : option B) : calm (lift x).
  Proof. intros got. destruct x; simpl; auto. Qed.
  Lemma calm_ret {B} (b : B) : calm (Ret b).
  Proof. intros got. reflexivity. Qed.
  Lemma calm_bind {B C} (p : prog (Msg A) B) (f : B -> prog (Msg A) C) : calm p -> (forall b, calm (f b)) -> calm (bind p f).
  Proof. intros H1 H2 got. eapply flags_bind; [apply H1|]. intros g b ->. apply H2. Qed.

  Lemma for_each_kp {B} (l : list B) f : (forall x s, kp s (f x s)) -> forall s, kp s (for_each l f s).
  Proof. intros H. induction l as [|x l IH]; intros s; [split; reflexivity|]. simpl. apply (keep_bind (fun s => s)); auto. Qed.
  Lemma times_kp n f : (forall s, kp s (f s)) -> forall s, kp s (times n f s).
  Proof. intros H. induction n as [|n IH]; intros s; [split; reflexivity|]. simpl. apply (keep_bind (fun s => s)); auto. Qed.

  Lemma at2_other {B} (f : nat -> nat -> B) lvl op x : op <> 6 -> at2 f lvl op x 0 6 = f 0 6.
  Proof. intros H. unfold at2. replace (6 =? op) with false by (symmetry; apply Nat.eqb_neq; auto). rewrite andb_false_r. auto. Qed.
  Lemma send_kp d dest lvl op s : op <> 6 -> kp s (send o P d dest lvl op s).
  Proof.
    intros H. unfold send. destruct (_ || _)%bool; [apply keep_raise|]. rewrite Hloc. intros got. simpl. split; auto. split; auto.
    unfold frame. simpl. rewrite at2_other; auto.
  Qed.
  Lemma receive_kp source lvl op s : op <> 6 -> keep snd s (receive o P source lvl op s).
  Proof.
    intros H. unfold receive. destruct (_ || _)%bool; [apply keep_raise|]. rewrite Hloc. intros got. simpl.
    intros m. destruct m; simpl; auto. split; auto. unfold frame. simpl. rewrite at2_other; auto.
  Qed.
  Lemma unpack_ghost_kp lvl d s : kp s (unpack_ghost lvl d s).
  Proof. unfold unpack_ghost. destruct (s_u s lvl); [apply keep_raise|]. apply keep_ret; reflexivity. Qed.
  Lemma recv_ghost_kp lvl source lt op s : op <> 6 -> kp s (recv_ghost o P lvl source lt op s).
  Proof. intros H. unfold recv_ghost. apply (keep_bind snd); [apply receive_kp; auto|]. intros b. apply unpack_ghost_kp. Qed.
  Lemma send_point_kp lvl i dest lt op s : op <> 6 -> kp s (send_point o P lvl i dest lt op s).
  Proof. intros H. unfold send_point. apply keep_calm; [apply calm_lift|]. intros b. apply send_kp; auto. Qed.
  Lemma put_u_kp lvl i x s : kp s (put_u lvl i x s).
  Proof. unfold put_u. apply keep_calm; [apply calm_lift|]. intros b. apply keep_ret; reflexivity. Qed.

  Ltac go :=
    repeat (intros; match goal with
    | |- keep _ _ (if ?b then _ else _) => destruct b
    | |- keep _ _ (bind (lift _) _) => apply keep_calm; [apply calm_lift|]
    | |- keep _ _ (bind (receive _ _ _ _ _ _) _) => apply (keep_bind snd)
    | |- keep _ _ (bind _ _) => apply (keep_bind (fun s : St => s))
    | |- keep _ _ (Ret _) => apply keep_ret; reflexivity
    | |- keep _ _ (Raise _) => apply keep_raise
    | |- keep _ _ (send_point _ _ _ _ _ _ _ _) => apply send_point_kp; lia
    | |- keep _ _ (receive _ _ _ _ _ _) => apply receive_kp; lia
    | |- keep _ _ (recv_ghost _ _ _ _ _ _ _) => apply recv_ghost_kp; lia
    | |- keep _ _ (put_u _ _ _ _) => apply put_u_kp
    | |- keep _ _ (for_each _ _ _) => apply for_each_kp
    | |- keep _ _ (times _ _ _) => apply times_kp
    end).

  Lemma f_relax_kp lvl s : kp s (f_relax o P infos lvl s).
  Proof. unfold f_relax. cbv zeta. go. Qed.
  Lemma c_relax_kp lvl s : kp s (c_relax o P r infos lvl s).
  Proof. unfold c_relax. cbv zeta. go. Qed.
  Lemma compute_jump_kp s : keep snd s (compute_jump r infos s).
  Proof. unfold compute_jump. cbv zeta. go. Qed.
  Lemma compute_residual_kp s : keep snd s (compute_residual o P r infos s).
  Proof. unfold compute_residual. cbv zeta. go. Qed.
  Lemma forward_solve_kp lvl s : kp s (forward_solve o P infos lvl s).
  Proof. unfold forward_solve. cbv zeta. go. Qed.
  Lemma fas_residual_kp lvl s : kp s (fas_residual o P r infos lvl s).
  Proof.
    unfold fas_residual. cbv zeta. go.
    intros b3. match goal with |- keep _ ?s (for_each _ _ ?s') => apply (keep_same _ s s'); [reflexivity|] end. go.
  Qed.
  Lemma error_correction_kp lvl s : kp s (error_correction r infos lvl s).
  Proof. unfold error_correction. cbv zeta. go. Qed.
  Lemma put_conv_kp it x s : kp s (put_conv it x s).
  Proof. unfold put_conv. go. Qed.

  Lemma send_all_calm dsts t m : (forall b f, m <> MBoolF b f) -> calm (send_all (A:=A) dsts t m).
  Proof.
    intros H. induction dsts as [|d dsts IH]; intros got; simpl; auto. split; [|apply IH]. destruct m; auto. destruct (H b fin eq_refl).
  Qed.
  Lemma recv_units_calm srcs t : calm (recv_units (A:=A) srcs t).
  Proof. induction srcs as [|d srcs IH]; intros got; simpl; auto. intros m. destruct m; simpl; auto. Qed.
  Lemma barrier_calm : calm (barrier (A:=A) P r).
  Proof.
    unfold barrier. destruct (r =? 0).
    - apply calm_bind; [apply recv_units_calm|]. intros b. apply send_all_calm. discriminate.
    - intros got. simpl. split; auto. intros m. destruct m; simpl; auto.
  Qed.
  Lemma recv_at_calm srcs t : calm (recv_at (A:=A) srcs t).
  Proof.
    induction srcs as [|d srcs IH]; [apply calm_ret|]. intros got. simpl. intros m. destruct m; simpl; auto.
    apply (calm_bind _ _ IH). intros b. apply calm_ret.
  Qed.
  Lemma allgather_black_calm grp x : calm (allgather_black (A:=A) r grp x).
  Proof.
    destruct grp as [|root others]; [intros got; exact I|]. unfold allgather_black. destruct (r =? root).
    - apply calm_bind; [apply recv_at_calm|]. intros ls.
      apply calm_bind; [apply send_all_calm; discriminate|]. intros _. apply calm_ret.
    - intros got. split; auto. exact (recv_at_calm [root] TAG_BLACK got).
  Qed.
  Lemma bcast_green_calm grp l : calm (bcast_green (A:=A) r grp l).
  Proof.
    destruct grp as [|root others]; [intros got; exact I|]. unfold bcast_green. destruct (r =? root).
    - apply calm_bind; [apply send_all_calm; discriminate|]. intros _. apply calm_ret.
    - apply recv_at_calm.
  Qed.
  Lemma at_propagate_calm lvl s is : forall x, calm (at_propagate o lvl s is x).
  Proof.
    induction is as [|i is IH]; intros x; cbn [at_propagate]; [apply calm_ret|].
    repeat (apply calm_bind; [apply calm_lift|intros ?]). apply IH.
  Qed.
  Lemma coarse_solve_kp lvl s : kp s (coarse_solve o P r infos lvl s).
  Proof.
    unfold coarse_solve. destruct (o_dist o) as [k|]; [|apply forward_solve_kp].
    destruct (Mgrit.L o =? 1); [go|]. destruct (P =? 1).
    - unfold at_solve_serial. cbv zeta. apply for_each_kp. intros i s'. apply keep_calm; [apply calm_lift|]. intros x.
      apply keep_calm; [apply at_propagate_calm|]. intros y. apply put_u_kp.
    - unfold at_solve_parallel. destruct (i_cpts _); [go|]. cbv zeta. destruct (k <=? 0)%Z; [go|].
      do 3 (apply keep_calm; [apply calm_lift|]; intros ?).
      apply keep_calm; [apply allgather_black_calm|]. intros black.
      apply keep_calm; [apply bcast_green_calm|]. intros green. go.
  Qed.

  (** After [it] iterations. *)
  Definition Inv (it : nat) (got : list Z) (s : St) : Prop :=
    s_iter s = it /\ (r < P - 1 -> (s_stag s 0 6 = 350000 + Z.of_nat it)%Z) /\ (s_rtag s 0 6 <= 350000 + Z.of_nat it)%Z /\
    (s_pre s = true -> r = 0 \/ exists j, In j got /\ (j < 350000 + Z.of_nat it)%Z) /\
    (s_fin s = true -> exists i, s_fin_it s = Some i /\ (r = 0 \/ exists j, In j got /\ (j < 350000 + Z.of_nat i)%Z)).
  Lemma Inv_frame it got s s' : frame s' = frame s -> Inv it got s -> Inv it got s'.
  Proof. unfold frame. intros E. injection E as E1 E2 E3 E4 E5 E6. unfold Inv. rewrite E1, E2, E3, E4, E5, E6. auto. Qed.
  Definition fin_now (it : nat) (s : St) : Prop := s_fin_it s = Some it.

  Lemma criterion_flags it got s : s_iter s = it + 1 -> Inv it got (set_iter s it) ->
    flags r got (convergence_criterion o P r infos (it + 1) s) (fun got' s' => Inv (it + 1) got' s' /\ fin_now (it + 1) s').
  Proof.
    intros Eit HI. unfold convergence_criterion. eapply flags_bind with (Q := fun g vs => g = got /\ frame (snd vs) = frame s).
    { destruct (is_jump o); [apply compute_jump_kp|apply compute_residual_kp]. }
    intros g [val s1] [-> E1]. cbn [fst snd] in *. rewrite Hloc.
    assert (HI1 : Inv it got (set_iter s1 it) /\ s_iter s1 = it + 1).
    { unfold frame in E1. injection E1 as F1 F2 F3 F4 F5 F6. split; [|congruence]. revert HI. unfold Inv. cbn [s_iter s_stag s_rtag s_pre s_fin s_fin_it set_iter set_fin set_pre set_sfin inc_rtag inc_stag init_state].
      rewrite F1, F2, F3, F4, F5. auto. }
    clear HI E1 Eit s. destruct HI1 as [HI Eit].
    eapply flags_bind with (Q := fun g s' => s_iter s' = it + 1 /\ (r < P - 1 -> (s_stag s' 0 6 = 350000 + Z.of_nat it)%Z) /\
      (s_rtag s' 0 6 <= 350000 + Z.of_nat (it + 1))%Z /\
      (s_pre s' = true -> r = 0 \/ exists j, In j g /\ (j < 350000 + Z.of_nat (it + 1))%Z)).
    { destruct HI as (H0 & H1 & H2 & H3 & _). cbn [s_iter s_stag s_rtag s_pre s_fin s_fin_it set_iter set_fin set_pre set_sfin inc_rtag inc_stag init_state] in H1, H2, H3.
      destruct ((0 <? r) && negb (s_sfin s1 0 6)) eqn:E.
      - apply andb_prop in E as [E _]. apply Nat.ltb_lt in E. unfold receive_flag.
        destruct ((Z.of_nat r - 1 <? 0)%Z || (Z.of_nat P <=? Z.of_nat r - 1)%Z); [exact I|]. cbn [bind flags]. intros m.
        destruct m as [| |b f| | | |]; try exact I. cbn [bind flags fst snd]. cbn [s_iter s_stag s_rtag s_pre s_fin s_fin_it set_iter set_fin set_pre set_sfin inc_rtag inc_stag init_state].
        replace (S (Z.to_nat (Z.of_nat r - 1)) =? r) with true by (symmetry; apply Nat.eqb_eq; lia).
        change (at2 (s_rtag s1) 0 6 (s_rtag s1 0 6 + 1)%Z 0 6) with (s_rtag s1 0 6 + 1)%Z.
        repeat split; auto; [lia|]. intros ->. right. exists (s_rtag s1 0 6). split; [left; auto|lia].
      - cbn [flags]. repeat split; auto; [lia|]. intros Hp. destruct (H3 Hp) as [?|(j & J1 & J2)]; auto.
        right. exists j. split; auto. lia. }
    intros g s2 (H0 & H1 & H2 & H3). cbv zeta. set (fin := s_pre s2 && _).
    assert (Hfin : fin = true -> r = 0 \/ exists j, In j g /\ (j < 350000 + Z.of_nat (it + 1))%Z).
    { unfold fin. intros Hf. apply andb_prop in Hf as [Hf _]. auto. }
    clearbody fin. clear s1 HI Eit got.
    eapply flags_bind with (Q := fun g' s' => g' = g /\ s_iter s' = it + 1 /\ (r < P - 1 -> (s_stag s' 0 6 = 350000 + Z.of_nat (it + 1))%Z) /\
      s_rtag s' 0 6 = s_rtag s2 0 6 /\ s_pre s' = s_pre s2 /\ s_fin s' = fin /\ s_fin_it s' = Some (it + 1)).
    { destruct (Nat.ltb_spec r (P - 1)) as [E|E].
      - unfold send_flag. destruct (_ || _)%bool; [exact I|]. cbn [flags t_num t_lvl t_op]. cbn [s_iter s_stag s_rtag s_pre s_fin s_fin_it set_iter set_fin set_pre set_sfin inc_rtag inc_stag init_state].
        change (at2 (s_stag s2) 0 6 (s_stag s2 0 6 + 1)%Z 0 6) with (s_stag s2 0 6 + 1)%Z. rewrite (H1 E).
        split; [split; [repeat split; lia|]|repeat split; auto; lia].
        intros Hf. destruct (Hfin Hf) as [?|(j & J1 & J2)]; auto. right. exists j. split; auto. lia.
      - cbn [flags]. cbn [s_iter s_stag s_rtag s_pre s_fin s_fin_it set_iter set_fin set_pre set_sfin inc_rtag inc_stag init_state]. repeat split; auto. intros; lia. }
    intros g' s3 (-> & K1 & K2 & K3 & K4 & K5 & K6).
    assert (I3 : Inv (it + 1) g s3 /\ fin_now (it + 1) s3).
    { split; [|exact K6]. unfold Inv. rewrite K3, K4, K5, K6. repeat split; auto. intros Hf. exists (it + 1). auto. }
    destruct (tnorm A val) as [x|]; [|exact I]. eapply flags_weaken; [apply (put_conv_kp (it + 1) x s3)|].
    simpl. intros g'' s4 [-> E]. destruct I3 as [I3 F3]. split; [eapply Inv_frame; eauto|].
    unfold fin_now in *. unfold frame in E. congruence.
  Qed.

  Section Cycle.
    Variable fsolve : nat -> St -> prog (Msg A) St.
    Hypothesis Hfs : forall lvl s, kp s (fsolve lvl s).

    Lemma iteration_kp n : forall lvl cyc it ff s, kp s (iteration o P r infos fsolve n lvl cyc it ff s).
    Proof.
      induction n as [|n IH]; intros lvl cyc it ff s; cbn [iteration]; [apply Hfs|].
      assert (H : forall cyc ff s, kp s (
            s <- (if ((0 <? lvl) || (it =? 0)) && ff then f_relax o P infos lvl s else Ret s) ;;
            s <- times (cf_count o lvl) (fun s => s <- c_relax o P r infos lvl s ;; f_relax o P infos lvl s) s ;;
            s <- fas_residual o P r infos lvl s ;;
            s <- iteration o P r infos fsolve n (S lvl) cyc it true s ;;
            s <- error_correction r infos lvl s ;;
            f_relax o P infos lvl s)).
      { intros. go; auto using f_relax_kp, c_relax_kp, fas_residual_kp, error_correction_kp. }
      cbv zeta. apply (keep_bind (fun s => s)); [apply H|]. intros b. destruct (_ && _); [apply H|go].
    Qed.
    Lemma interpolate_up_kp lvl s : kp s (interpolate_up r infos lvl s).
    Proof. unfold interpolate_up. cbv zeta. go. Qed.
    Lemma nested_iteration_kp s : kp s (nested_iteration o P r infos fsolve s).
    Proof. unfold nested_iteration. go; auto using interpolate_up_kp, iteration_kp. Qed.
    Lemma clean_up_kp s : kp s (clean_up o P r infos s).
    Proof. unfold clean_up. rewrite Hloc. cbv zeta. apply keep_wait. go. intros. apply keep_wait. go. Qed.

    (** What holds of a process that leaves the loop. *)
    Definition left_loop (got : list Z) (s : St) : Prop :=
      (s_fin s = true -> exists i, s_fin_it s = Some i /\ (r = 0 \/ exists j, In j got /\ (j < 350000 + Z.of_nat i)%Z)) /\
      (s_iter s < o_max_iter o -> s_fin s = true /\ s_fin_it s = Some (s_iter s)).

    Lemma solve_pass_flags it got s : Inv it got s -> flags r got (solve_pass o P r infos fsolve it s)
      (fun got' x => match x with inl s' => Inv (it + 1) got' s' | inr s' => left_loop got' s' end).
    Proof.
      intros HI. unfold solve_pass. cbv zeta.
      eapply flags_bind; [apply (iteration_kp (Mgrit.L o - 1) 0 (cycF o) it true (set_iter s (it + 1)))|].
      cbn beta. intros g s1 [-> E1].
      eapply flags_bind; [apply (criterion_flags it got s1)|].
      { unfold frame in E1. injection E1 as F1 F2 F3 F4 F5 F6. exact F6. }
      { unfold frame in E1. injection E1 as F1 F2 F3 F4 F5 F6. destruct HI as (K1 & K2 & K3 & K4 & K5).
        unfold Inv. cbn [s_iter s_stag s_rtag s_pre s_fin s_fin_it set_iter set_fin set_pre set_sfin inc_rtag inc_stag init_state]. rewrite F1, F2, F3, F4, F5. auto. }
      cbn beta. intros g s2 [I2 F2].
      set (s3 := if _ && _ then emit s2 else s2).
      assert (E : frame s3 = frame s2) by (unfold s3; destruct (_ && _); auto). clearbody s3.
      assert (I3 : Inv (it + 1) g s3) by (eapply Inv_frame; eauto).
      assert (F3 : s_fin_it s3 = Some (it + 1)) by (unfold frame in E; unfold fin_now in F2; congruence).
      destruct (py_nth (s_conv s3) (Z.of_nat (it + 1))) as [cur|]; [|exact I]. cbn [lift bind].
      destruct (sc_lt A cur (o_tol o) || (it =? o_max_iter o - 1)); [|exact I3].
      destruct (gcc o || s_fin s3 && s_pre s3 || (it =? o_max_iter o - 1)) eqn:Eb; [|exact I3].
      eapply flags_bind; [apply (clean_up_kp s3)|]. cbn beta. intros g' s4 [-> E4]. cbn [flags].
      rewrite Hloc in Eb. simpl in Eb. unfold frame in E4. injection E4 as G1 G2 G3 G4 G5 G6.
      destruct I3 as (K1 & K2 & K3 & K4 & K5). unfold left_loop. rewrite G3, G4, G6, K1. split; [exact K5|].
      intros Hlt. split; [|exact F3]. apply orb_prop in Eb as [Eb|Eb]; [apply andb_prop in Eb as [Eb _]; auto|].
      apply Nat.eqb_eq in Eb. lia.
    Qed.
    Lemma solve_loop_flags n : forall it got s, n + it = o_max_iter o -> Inv it got s ->
      flags r got (solve_loop o P r infos fsolve n it s) left_loop.
    Proof.
      induction n as [|n IH]; intros it got s En HI; cbn [solve_loop].
      - destruct HI as (K1 & K2 & K3 & K4 & K5). split; [exact K5|]. intros; lia.
      - eapply flags_bind; [apply solve_pass_flags; exact HI|]. cbn beta. intros g [s'|s'] H; [|exact H].
        apply IH; [lia|]. replace (S it) with (it + 1) by lia. exact H.
    Qed.
    Lemma left_loop_frame got s s' : frame s' = frame s -> left_loop got s -> left_loop got s'.
    Proof. unfold frame. intros E. injection E as E1 E2 E3 E4 E5 E6. unfold left_loop. rewrite E3, E4, E6. auto. Qed.
    Lemma solve_flags got s : Inv 0 got s -> flags r got (solve o P r infos fsolve s) left_loop.
    Proof.
      intros HI. unfold solve. eapply flags_bind; [apply solve_loop_flags; [apply Nat.add_0_r|exact HI]|].
      intros g s' H. eapply flags_bind; [apply barrier_calm|]. cbn beta. intros g' _ ->. cbn [flags].
      destruct (_ && _); auto.
    Qed.
    Lemma construct_flags : flags r [] (construct o P r infos fsolve) (fun got s => Inv 0 got s).
    Proof.
      unfold construct. cbv zeta. eapply flags_bind; [apply barrier_calm|]. cbn beta. intros g _ ->.
      eapply flags_bind with (Q := fun g s => g = [] /\ frame s = frame (init_state o r infos)).
      { destruct (o_nested o); [apply nested_iteration_kp|]. split; auto. }
      intros g s [-> E]. set (s1 := if is_jump o then _ else _).
      assert (E1 : frame s1 = frame s) by (unfold s1; destruct (is_jump o); auto). clearbody s1.
      eapply flags_bind with (Q := fun g _ => g = []).
      { destruct (o_max_iter o =? 0); [apply barrier_calm|reflexivity]. }
      intros g _ ->. cbn [flags].
      assert (I1 : Inv 0 [] s1).
      { eapply Inv_frame; [rewrite E1; exact E|]. unfold Inv. cbn [s_iter s_stag s_rtag s_pre s_fin s_fin_it set_iter set_fin set_pre set_sfin inc_rtag inc_stag init_state]. repeat split; try lia; try discriminate.
        intros Hr. apply Nat.eqb_eq in Hr. auto. }
      destruct (_ && _); [eapply Inv_frame; [|exact I1]; reflexivity|exact I1].
    Qed.
  End Cycle.
End Solver.

Lemma main_flags {A : App} (o : Opts A) P r : gcc o = false -> flags r [] (mgrit_main o P r) (left_loop o r).
Proof.
  intros Hloc. unfold mgrit_main. destruct (check o P); [exact I|]. destruct (setup_infos o P r) as [infos|]; [|exact I].
  destruct (too_many_points o P); [exact I|]. eapply flags_bind.
  - apply construct_flags; auto. intros. apply coarse_solve_kp; auto.
  - intros g s HI. eapply (solve_flags o P r infos); auto. intros. apply coarse_solve_kp; auto.
Qed.
