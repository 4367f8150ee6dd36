(** The global convergence criterion when the world communicator is split into space and time (C22).
    Models /repo/src/pymgrit/core/mgrit.py 428-432: gather and bcast are called on MPI.COMM_WORLD, but the test for the
    root uses the rank in the time communicator. *)
From Coq Require Import List ZArith Lia Arith Bool.
From Verif Require Import Net NetProofs NetPhase PyList Mgrit SimpleSetup SimpleSetupProofs Collect.
Import ListNotations.

Section World.
  Context {A : App}.
  (** world size, size of the space communicators (split.py), world rank *)
  Variables N s : nat.

  (** comm_time_rank of a process of the world *)
  Definition time_rank (w : nat) : nat := index_of w (snd (split_communicator N s w)).

  (** Lines 428-432; [val] are the norms of the process, [old] is self.conv[iteration] before. *)
  Definition world_criterion (val : list (Sc A)) (old : Sc A) (w : nat) : prog (Msg A) (Sc A) :=
    tmp <- gather N w val ;;                                                              (* 428 *)
    cur <- (if time_rank w =? 0                                                           (* 429 *)
            then match tmp with
                 | Some ls => match tnorm A (concat ls) with                              (* 430-431 *)
                              | Some x => Ret x
                              | None => Raise ValueError
                              end
                 | None => Raise TypeError                       (* for sublist in None *)
                 end
            else Ret old) ;;
    bcast N w cur.                                                                        (* 432 *)

  Lemma time_rank_div T w : N = T * s -> 0 < s -> w < N -> time_rank w = w / s.
  Proof. intros E Hs Hw. unfold time_rank. subst N. apply (split_ranks s T w Hs Hw). Qed.
End World.

(** ** C22 *)
(** What the property asks for: every process returns the norm over the values of its own time communicator. *)
Definition own_time_values {A : App} (N s : nat) (vals : nat -> list (Sc A)) (w : nat) : list (Sc A) :=
  concat (map vals (snd (split_communicator N s w))).

(** With a space dimension of one process the criterion is right on every number of processes and for every schedule. *)
Theorem C22_no_space_parallelism :
  forall (A : App) (N n : nat) (vals : nat -> list (Sc A)) (old : nat -> Sc A) c, 0 < N ->
  tnorm A (concat (map vals (seq 0 N))) <> None ->
  steps N n (initial (fun w => world_criterion N 1 (vals w) (old w) w)) c -> stuck N c ->
  exists res, finished N res c /\ forall w, w < N -> Some (res w) = tnorm A (own_time_values N 1 vals w).
Proof.
  intros A N n vals old c HN Hne H St.
  destruct (tnorm A (concat (map vals (seq 0 N)))) as [x|] eqn:E; [|congruence].
  assert (TR : forall w, w < N -> time_rank N 1 w = w).
  { intros w Hw. rewrite (time_rank_div N 1 N w) by lia. apply Nat.div_1_r. }
  assert (F : phase N (fun w => world_criterion N 1 (vals w) (old w) w) (fun _ => x)).
  { unfold world_criterion.
    apply (phase_bind N (fun w => gather N w (vals w)) _ (fun w => if w =? 0 then Some (map vals (seq 0 N)) else None)).
    - apply (gather_phase N HN).
    - apply (phase_bind N _ (fun w cur => bcast N w cur) (fun w => if w =? 0 then x else old w)).
      + apply (phase_eq N _ (fun w => Ret (if w =? 0 then x else old w))); [|apply phase_ret].
        intros w Hw. rewrite TR by auto. destruct (w =? 0); [rewrite E|]; reflexivity.
      + apply (bcast_phase N HN (fun w => if w =? 0 then x else old w)). }
  exists (fun _ => x). destruct (phase_finishes N _ _ F) as (m & d & H1 & H2).
  destruct (finished_unique N m _ _ _ H2 H1 n c H) as (_ & _ & X). split; [apply X, St|].
  intros w Hw. unfold own_time_values. rewrite <- E. f_equal. f_equal. f_equal.
  unfold split_communicator, comm_split. cbn [snd].
  symmetry. rewrite (filter_ext _ (fun _ => true)) by (intros q; rewrite !Nat.mod_1_r; reflexivity).
  clear. induction (seq 0 N) as [|q l IH]; [reflexivity|]. simpl. f_equal. exact IH.
Qed.

(** With at least two space processes, in every maximal execution each process with world rank 1 .. s-1 (time rank 0,
    world rank not 0) has died with a TypeError; so it never obtains a convergence value. *)
Theorem C22_space_parallel_raises :
  forall (A : App) (T s n w : nat) (vals : nat -> list (Sc A)) (old : nat -> Sc A) c,
  0 < T -> 0 < w -> w < s ->
  steps (T * s) n (initial (fun w => world_criterion (T * s) s (vals w) (old w) w)) c -> stuck (T * s) c ->
  procs c w = Raise TypeError.
Proof.
  intros A T s n w vals old c HT Hw Hs H St.
  set (start := world_criterion (T * s) s (vals w) (old w) w).
  assert (Es : start = Send 0 TAG_GATHER (MList (vals w)) (Raise TypeError)).
  { unfold start, world_criterion, gather. destruct (w =? 0) eqn:E; [apply Nat.eqb_eq in E; lia|]. simpl.
    rewrite (time_rank_div (T * s) s T w) by nia. rewrite Nat.div_small by lia. reflexivity. }
  assert (I : procs c w = start \/ procs c w = Raise TypeError).
  { assert (G : forall m d e, steps (T * s) m d e -> procs d w = start \/ procs d w = Raise TypeError ->
                procs e w = start \/ procs e w = Raise TypeError).
    { intros m d e X. induction X as [d e E _|p m d d1 e [Hp Y] _ IH]; intros Z; [rewrite <- E; exact Z|]. apply IH. clear IH.
      destruct (Nat.eq_dec p w) as [->|Np].
      - destruct Z as [Z|Z]; rewrite Z in Y; [|contradiction]. rewrite Es in Y. destruct Y as [Y _]. rewrite Y, Nat.eqb_refl. auto.
      - assert (procs d1 w = procs d w) as ->; [|exact Z].
        assert (Q : w =? p = false) by (apply Nat.eqb_neq; auto).
        destruct (procs d p); try contradiction.
        + destruct Y as [Y _]. rewrite Y, Q. reflexivity.
        + destruct Y as (m0 & rest & _ & Y & _). rewrite Y, Q. reflexivity.
        + destruct Y as (_ & Y & _). rewrite Y, Q. reflexivity. }
    apply (G _ _ _ H). left. reflexivity. }
  destruct I as [I|I]; [|exact I]. exfalso. rewrite Es in I.
  apply (St w (mkConfig (upd1 (procs c) w (Raise TypeError))
                        (fun s0 d' => if (s0 =? w) && (d' =? 0) then chan c s0 d' ++ [(TAG_GATHER, MList (vals w))] else chan c s0 d'))).
  split; [nia|]. rewrite I. split; intros; reflexivity.
Qed.

(** Hence the property fails for every splitting with a space dimension. *)
Corollary C22_own_communicator_refuted :
  forall (A : App) (T s n : nat) (vals : nat -> list (Sc A)) (old : nat -> Sc A) c, 0 < T -> 2 <= s ->
  steps (T * s) n (initial (fun w => world_criterion (T * s) s (vals w) (old w) w)) c -> stuck (T * s) c ->
  ~ (exists res, finished (T * s) res c /\ forall w, w < T * s -> Some (res w) = tnorm A (own_time_values (T * s) s vals w)).
Proof.
  intros A T s n vals old c HT Hs H St (res & [F _] & _).
  pose proof (C22_space_parallel_raises A T s n 1 vals old c HT ltac:(lia) ltac:(lia) H St) as R.
  rewrite (F 1 ltac:(nia)) in R. discriminate.
Qed.
