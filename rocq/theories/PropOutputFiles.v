(** C69: the solution files of examples/example_output_fcn.py. *)
From Coq Require Import List ZArith Lia Arith Bool Permutation Sorted.
From Verif Require Import Net NetProofs NetFifo NetPhase PyList ListFacts Setup SplitProofs Spec SetupProofs Mgrit Reference RefProofs Sim Main Collect.
From Verif Require Import NetExec OutputFiles LocalOps ParallelProofs PropHistory ExampleApp.
Import ListNotations.

(** Sorting a permutation of a list with increasing times gives that list. *)
Section Sorting.
  Context {A : App}.
  Notation V := (Vec A).
  Lemma insert_perm (x : Z * V) l : Permutation (insert x l) (x :: l).
  Proof.
    induction l as [|y l IH]; simpl; [reflexivity|]. destruct (fst x <=? fst y)%Z; [reflexivity|].
    etransitivity; [apply perm_skip, IH|]. apply perm_swap.
  Qed.
  Lemma sort_perm (l : list (Z * V)) : Permutation (sort_by_time l) l.
  Proof. induction l as [|x l IH]; simpl; [reflexivity|]. etransitivity; [apply insert_perm|]. apply perm_skip, IH. Qed.
  Lemma insert_sorted (x : Z * V) l : StronglySorted (fun a b => (fst a <= fst b)%Z) l -> StronglySorted (fun a b => (fst a <= fst b)%Z) (insert x l).
  Proof.
    induction l as [|y l IH]; intros H; simpl; [repeat constructor|]. inversion H as [|y' l' Hl Hy]; subst.
    destruct (fst x <=? fst y)%Z eqn:E.
    - apply Z.leb_le in E. constructor; [exact H|]. constructor; [exact E|]. eapply Forall_impl; [|exact Hy]. simpl. intros a Ha. lia.
    - apply Z.leb_gt in E. constructor; [apply IH, Hl|]. apply Forall_forall. intros a Ha.
      apply (Permutation_in _ (insert_perm x l)) in Ha. destruct Ha as [<-|Ha]; [lia|]. rewrite Forall_forall in Hy. auto.
  Qed.
  Lemma sort_sorted (l : list (Z * V)) : StronglySorted (fun a b => (fst a <= fst b)%Z) (sort_by_time l).
  Proof. induction l as [|x l IH]; simpl; [constructor|]. apply insert_sorted, IH. Qed.
  Lemma sorted_perm_eq (l m : list (Z * V)) : StronglySorted (fun a b => (fst a <= fst b)%Z) l ->
    StronglySorted (fun a b => (fst a < fst b)%Z) m -> Permutation l m -> l = m.
  Proof.
    revert m. induction l as [|x l IH]; intros m Hl Hm Hp.
    - apply Permutation_nil in Hp. auto.
    - destruct m as [|y m]; [apply Permutation_sym, Permutation_nil in Hp; discriminate|].
      inversion Hl as [|? ? Hl' Hx]; inversion Hm as [|? ? Hm' Hy]; subst. rewrite Forall_forall in Hx, Hy.
      assert (x = y).
      { assert (Hi : In y (x :: l)) by (apply (Permutation_in _ (Permutation_sym Hp)); left; reflexivity).
        assert (Hj : In x (y :: m)) by (apply (Permutation_in _ Hp); left; reflexivity).
        destruct Hi as [|Hi]; [auto|]. destruct Hj as [|Hj]; [auto|]. specialize (Hx _ Hi). specialize (Hy _ Hj). simpl in *. lia. }
      subst y. f_equal. apply IH; auto. eapply Permutation_cons_inv; exact Hp.
  Qed.
  Lemma sort_by_time_eq (l m : list (Z * V)) : StronglySorted (fun a b => (fst a < fst b)%Z) m -> Permutation l m -> sort_by_time l = m.
  Proof. intros Hm Hp. apply sorted_perm_eq; auto; [apply sort_sorted|]. etransitivity; [apply sort_perm|exact Hp]. Qed.
End Sorting.

Lemma forall2_len {X Y} (R : X -> Y -> Prop) l m : Forall2 R l m -> length l = length m.
Proof. induction 1; simpl; auto. Qed.

(** Level 0 of process [r] *)
Definition level0 {A : App} (o : Opts A) (P r : nat) : LvlInfo :=
  match setup_infos o P r with Some l => nth 0 l dummy_info | None => dummy_info end.

Section Files.
  Context {A : App} (wf : nat -> Vec A -> Prop) (o : Opts A) (P : nat) (GS : good_setup wf o P).
  Notation grids := (o_grids o).
  Let HV := HV' wf o P GS.
  Let HP0 := HP0' wf o P GS.
  Let HP := HP' wf o P GS.
  Let Hperm := fun l r Hl Hr => proj1 (f_order_block wf o P GS l r Hl Hr).
  Let Hresp := fun l r Hl Hr => proj2 (f_order_block wf o P GS l r Hl Hr).

  Definition part (r : nat) (f : nat -> Vec A) : list (Z * Vec A) := map (fun j => (tm grids 0 j, f j)) (pts grids P 0 r).

  Lemma local_solution_eq r u f : r < P -> ows o P 0 r u f -> local_solution (level0 o P r) u = Some (part r f).
  Proof.
    intros Hr [H1 H2]. assert (HL0 : 0 < length grids) by (apply (SetupProofs.L_pos grids P HV HP0 HP)).
    unfold local_solution, level0. rewrite (setup_infos_eq o P HV (gs_apart _ _ _ GS) HP0 HP Hperm Hresp) by auto.
    change (nth 0 (infos o P r) dummy_info) with (inf (infos o P r) 0). rewrite inf_eq by auto. unfold closed_info. cbn [i_loc i_t]. rewrite map_map.
    unfold part. apply sequence_map_some. intros j Hj. apply (pts_in grids P HV HP0 HP) in Hj; auto.
    rewrite !py_nth_nat, (H2 j Hj). unfold tms. rewrite nth_error_map.
    pose proof (loc_bound o P HV HP0 HP 0 r j HL0 Hr Hj) as B. pose proof (off_le grids P HV HP0 HP 0 r HL0 Hr) as B2.
    rewrite (nth_error_nth' _ 0) by (rewrite seq_length; lia). rewrite seq_nth by lia. cbn [option_map].
    unfold SetupProofs.loc. replace (lo grids P 0 r - off grids P 0 r + (j - (lo grids P 0 r - off grids P 0 r))) with j by lia. reflexivity.
  Qed.

  Lemma write_all_spec (h : nat -> nat -> Vec A) calls : forall fs,
    (forall r call, In (r, call) calls -> r < P /\ ows o P 0 r (snd call) (h (fst call))) ->
    exists fs', write_all (level0 o P) calls fs = Some fs' /\
      (forall it r, (exists u, In (r, (it, u)) calls) -> fs' it r = Some (part r (h it))) /\
      (forall it r, ~ (exists u, In (r, (it, u)) calls) -> fs' it r = fs it r).
  Proof.
    induction calls as [|[r0 [it0 u0]] calls IH]; intros fs H.
    - exists fs. split; [reflexivity|]. split; [intros it r [u []]|auto].
    - destruct (H r0 (it0, u0) (or_introl eq_refl)) as [Hr Ho]. simpl in Ho.
      cbn [write_all]. unfold output_call. cbn [fst snd]. rewrite (local_solution_eq r0 u0 _ Hr Ho).
      destruct (IH (save it0 r0 (part r0 (h it0)) fs)) as (fs' & E & H1 & H2); [intros r call Hi; apply H; right; exact Hi|].
      exists fs'. split; [exact E|]. 
      assert (dec : forall it r, (exists u, In (r, (it, u)) calls) \/ ~ (exists u, In (r, (it, u)) calls)).
      { intros it r. destruct (existsb (fun x => (fst x =? r) && (fst (snd x) =? it)) calls) eqn:Ex.
        - left. apply existsb_exists in Ex. destruct Ex as ([r1 [it1 u1]] & Hi & Hb). simpl in Hb. apply andb_true_iff in Hb.
          destruct Hb as [Hb1 Hb2]. apply Nat.eqb_eq in Hb1, Hb2. subst. eauto.
        - right. intros (u & Hi). assert (existsb (fun x => (fst x =? r) && (fst (snd x) =? it)) calls = true); [|congruence].
          apply existsb_exists. exists (r, (it, u)). simpl. rewrite !Nat.eqb_refl. auto. }
      split.
      + intros it r (u & [Hi|Hi]).
        * injection Hi as <- <- <-. destruct (dec it0 r0) as [D|D]; [auto|]. rewrite H2 by auto. unfold save. rewrite !Nat.eqb_refl. reflexivity.
        * apply H1. eauto.
      + intros it r Hn. rewrite H2 by (intros (u & Hi); apply Hn; exists u; right; exact Hi).
        unfold save. destruct ((it =? it0) && (r =? r0)) eqn:Eb; [|reflexivity]. apply andb_true_iff in Eb. destruct Eb as [E1 E2].
        apply Nat.eqb_eq in E1, E2. subst. exfalso. apply Hn. exists u0. left. reflexivity.
  Qed.

  Lemma parts_all f : concat (map (fun r => part r f) (seq 0 P)) = map (fun j => (tm grids 0 j, f j)) (seq 0 (N grids 0)).
  Proof.
    unfold part. rewrite <- (map_map (pts grids P 0) (map (fun j => (tm grids 0 j, f j)))), <- concat_map. f_equal.
    rewrite (pts_concat o P HV (gs_apart _ _ _ GS) HP0 HP Hperm Hresp) by lia. rewrite (SetupProofs.lo_P grids P). reflexivity.
  Qed.

  (** The files after a run, whatever was in the folders before. *)
  Lemma files_of_run n c : o_has_output o = true -> o_output_lvl o = 2%Z ->
    steps P n (initial (mgrit_main o P)) c -> stuck P c ->
    exists res k, finished P res c /\ (forall r, r < P -> s_iter (res r) = k) /\
      gathered P (fun r => s_u (res r) 0) = map (gu (iterate o (init_guess o P) k) 0) (seq 0 (N grids 0)) /\
      forall calls fs0, interleaves P res calls ->
        exists fs, write_all (level0 o P) calls fs0 = Some fs /\
          (forall it r, it <= k -> r < P -> fs it r = Some (part r (gu (iterate o (init_guess o P) it) 0))) /\
          (forall it r, ~ (it <= k /\ r < P) -> fs it r = fs0 it r).
  Proof.
    intros Ho Hl Hn St.
    destruct (main_sim o P wf (gs_laws _ _ _ GS) HV (gs_apart _ _ _ GS) HP0 HP (Hgcc' wf o P GS) Hperm Hresp (gs_dist _ _ _ GS) (gs_rand _ _ _ GS)
                (gs_accept _ _ _ GS) (gs_two _ _ _ GS)) as (s & F & _ & K & R).
    destruct (phase_finishes P _ _ F) as (n' & c' & S' & F').
    destruct (finished_unique _ _ _ _ _ F' S' n c Hn) as (_ & _ & Fin). destruct (Fin St) as [_ Fs].
    destruct (run_facts wf o P n c GS Hn St) as (res & k & F1 & Hk & _ & Hg & Hi & _ & _ & _ & _ & _ & Hout).
    rewrite Ho, Hl in Hout. cbn [Z.eqb Pos.eqb] in Hout.
    exists res, k. split; [exact F1|]. split; [exact Hi|]. split; [exact Hg|].
    intros calls fs0 [I1 I2]. set (h := fun it => gu (iterate o (init_guess o P) it) 0).
    assert (Hres : forall r, r < P -> Forall2 (fun x y => fst x = fst y /\ ows o P 0 r (snd x) (snd y)) (s_out (res r)) (map (fun j => (j, h j)) (seq 0 (S k)))).
    { intros r Hr. rewrite <- (finished_res_unique P c s res Fs F1 r Hr). unfold h. rewrite <- Hout. apply (rd_out _ _ _ _ _ _ (proj1 (R r Hr))). }
    assert (Hmem : forall r call, In (r, call) calls <-> r < P /\ In call (s_out (res r))).
    { intros r call. split.
      - intros Hc. split; [eapply I1; eauto|]. rewrite <- (I2 r) by (eapply I1; eauto). apply (in_map snd _ (r, call)).
        apply filter_In. split; [exact Hc|]. apply Nat.eqb_refl.
      - intros [Hr Hc]. rewrite <- (I2 r Hr) in Hc. apply in_map_iff in Hc. destruct Hc as ([r' call'] & E & Hc). apply filter_In in Hc.
        destruct Hc as [Hc Eb]. simpl in *. apply Nat.eqb_eq in Eb. subst. exact Hc. }
    assert (Hin1 : forall r call, r < P -> In call (s_out (res r)) -> fst call <= k /\ ows o P 0 r (snd call) (h (fst call))).
    { intros r call Hr Hc. specialize (Hres r Hr). apply In_nth_error in Hc. destruct Hc as (i & Hc).
      destruct (nth_error (map (fun j => (j, h j)) (seq 0 (S k))) i) as [y|] eqn:Ey.
      - assert (fst call = fst y /\ ows o P 0 r (snd call) (snd y)) as [Q1 Q2].
        { clear - Hres Hc Ey. revert i Hc Ey. induction Hres; intros [|i] Hc Ey; simpl in *; try discriminate; [|eauto]. congruence. }
        apply nth_error_In in Ey. apply in_map_iff in Ey. destruct Ey as (j & <- & Hj). apply in_seq in Hj. cbn [fst snd] in Q1, Q2. subst j. split; [lia|exact Q2].
      - exfalso. apply nth_error_None in Ey. rewrite <- (forall2_len _ _ _ Hres) in Ey. assert (nth_error (s_out (res r)) i <> None) as X by congruence.
        apply nth_error_Some in X. lia. }
    assert (Hin2 : forall r it, r < P -> it <= k -> exists u, In (it, u) (s_out (res r))).
    { intros r it Hr Hle. specialize (Hres r Hr). assert (Hy : In (it, h it) (map (fun j => (j, h j)) (seq 0 (S k)))).
      { apply in_map_iff. exists it. split; [reflexivity|]. apply in_seq. lia. }
      clear - Hres Hy. induction Hres as [|[a b] y l m [E _] HF IH]; [destruct Hy|]. destruct Hy as [->|Hy].
      - simpl in E. subst. eexists; left; reflexivity.
      - destruct (IH Hy) as (u & Hu). eexists; right; exact Hu. }
    destruct (write_all_spec h calls fs0) as (fs & E & W1 & W2).
    { intros r call Hc. apply Hmem in Hc. destruct Hc as [Hr Hc]. split; [exact Hr|]. apply (Hin1 r call Hr Hc). }
    exists fs. split; [exact E|]. split.
    - intros it r Hle Hr. apply W1. destruct (Hin2 r it Hr Hle) as (u & Hu). exists u. apply Hmem. auto.
    - intros it r Hno. apply W2. intros (u & Hu). apply Hmem in Hu. destruct Hu as [Hr Hc]. apply Hno. split; [|exact Hr]. apply (Hin1 r _ Hr Hc).
  Qed.
End Files.

(** *** Process 0 plots, for every iteration, the solution after that iteration at all time points.
    [calls]: any order in which the processes write; [listing]: any order in which os.listdir names the files; [fs0]: files
    of earlier runs. The times are those of the finest grid, the values those of the sequential iteration of C01, so the plots
    do not depend on the number of processes; the number of plots, len(conv) + 1, never exceeds the number of folders. *)
Theorem C69_plotted_solutions :
  forall (A : App) (wf : nat -> Vec A -> Prop) (o : Opts A) (P n : nat) c,
  good_setup wf o P -> o_rand o = None -> sc_is_zero A (sc_zero A) = true -> o_has_output o = true -> o_output_lvl o = 2%Z ->
  steps P n (initial (mgrit_main o P)) c -> stuck P c ->
  exists res, finished P res c /\
    length (result_conv (res 0)) + 1 <= s_iter (res 0) + 1 /\
    forall calls fs0, interleaves P res calls ->
      exists fs, write_all (level0 o P) calls fs0 = Some fs /\
        forall it listing, it <= s_iter (res 0) -> (forall r, P <= r -> fs0 it r = None) -> lists_folder fs it listing ->
          read_folder fs it listing =
            map (fun j => (nth j (nth 0 (o_grids o) []) 0%Z, gu (iterate o zero_guess it) 0 j)) (seq 0 (length (nth 0 (o_grids o) []))) /\
          (it = s_iter (res 0) -> map snd (read_folder fs it listing) = gathered P (fun r => s_u (res r) 0)).
Proof.
  intros A wf o P n c G Hr Hz Ho Hl Hn St.
  destruct (files_of_run wf o P G n c Ho Hl Hn St) as (res & k & F & Hi & Hg & Hfs).
  destruct (C14_reported_history A wf o P n c G Hr Hz Hn St) as (res' & hist & F' & Hi' & _ & Hc).
  assert (HP0 : 0 < P) by apply (HP0' wf o P G). rewrite (init_guess_zero o P Hr) in *.
  exists res. split; [exact F|]. split.
  { rewrite (finished_res_unique P c res res' F F' 0 HP0), (Hc 0 HP0), (Hi' 0 HP0).
    assert (forall l : list (Sc A), length (filter (fun x => negb (sc_is_zero A x)) l) <= length l) as X; [|specialize (X hist); lia].
    induction l as [|x l IH]; simpl; [lia|]. destruct (negb (sc_is_zero A x)); simpl; lia. }
  intros calls fs0 Hc0. destruct (Hfs calls fs0 Hc0) as (fs & E & W1 & W2). exists fs. split; [exact E|].
  intros it listing Hit Hold [L1 L2]. rewrite (Hi 0 HP0) in *.
  assert (R : read_folder fs it listing =
            map (fun j => (nth j (nth 0 (o_grids o) []) 0%Z, gu (iterate o zero_guess it) 0 j)) (seq 0 (length (nth 0 (o_grids o) [])))).
  { unfold read_folder. apply sort_by_time_eq.
    - assert (SS : StronglySorted Z.lt (nth 0 (o_grids o) [])).
      { destruct (HV' wf o P G) as (V1 & V2 & _). apply V2. destruct (o_grids o); [congruence|simpl; lia]. }
      generalize (nth 0 (o_grids o) []), (gu (iterate o zero_guess it) 0), SS. clear. intros l f SS.
      apply ssorted_incr in SS.
      assert (D : forall m b, b + m <= length l -> StronglySorted (fun x y : Z * Vec A => (fst x < fst y)%Z) (map (fun j => (nth j l 0%Z, f j)) (seq b m))).
      { induction m as [|m IH]; intros b Hb; simpl; constructor; [apply IH; lia|]. apply Forall_forall. intros x Hx. apply in_map_iff in Hx.
        destruct Hx as (j & <- & Hj). apply in_seq in Hj. simpl. apply SS; lia. }
      apply D. lia.
    - rewrite <- (parts_all wf o P G). rewrite <- flat_map_concat_map.
      assert (PL : Permutation listing (seq 0 P)).
      { apply NoDup_Permutation; [exact L1|apply seq_NoDup|]. intros r. rewrite L2, in_seq. split.
        - intros Hx. destruct (le_lt_dec P r) as [D|D]; [|lia]. rewrite W2 in Hx by lia. rewrite Hold in Hx by exact D. congruence.
        - intros Hx. rewrite W1 by lia. discriminate. }
      etransitivity; [apply Permutation_flat_map, PL|].
      rewrite !flat_map_concat_map. apply Permutation_refl'. f_equal. apply map_ext_in. intros r Hx. apply in_seq in Hx. rewrite W1 by lia. reflexivity. }
  split; [exact R|]. intros ->. rewrite R, Hg, map_map. reflexivity.
Qed.

Lemma interleaves_exists {A : App} P (res : nat -> St A) :
  interleaves P res (flat_map (fun r => map (pair r) (s_out (res r))) (seq 0 P)).
Proof.
  split.
  - intros r call H. apply in_flat_map in H. destruct H as (r' & Hr & H). apply in_map_iff in H. destruct H as (x & E & _).
    injection E as -> _. apply in_seq in Hr. lia.
  - intros r Hr.
    assert (X : forall m a, map snd (filter (fun x => fst x =? r) (flat_map (fun r => map (pair r) (s_out (res r))) (seq a m))) =
                            if (a <=? r) && (r <? a + m) then s_out (res r) else []).
    { induction m as [|m IH]; intros a; simpl.
      - destruct (a <=? r) eqn:E1, (r <? a + 0) eqn:E2; simpl; auto. apply Nat.leb_le in E1. apply Nat.ltb_lt in E2. lia.
      - rewrite filter_app, map_app, IH.
        assert (Y : forall l, map snd (filter (fun x => fst x =? r) (map (pair a) l)) = if a =? r then l else ([] : list (nat * list (Vec A)))).
        { induction l as [|x l IHl]; simpl; [destruct (a =? r); auto|]. destruct (a =? r) eqn:E; simpl; rewrite IHl; reflexivity. }
        rewrite Y. destruct (a =? r) eqn:E.
        + apply Nat.eqb_eq in E. subst. replace (S r <=? r) with false by (symmetry; apply Nat.leb_gt; lia).
          rewrite Nat.leb_refl. replace (r <? r + S m) with true by (symmetry; apply Nat.ltb_lt; lia). simpl. apply app_nil_r.
        + apply Nat.eqb_neq in E. simpl. replace (a + S m) with (S (a + m)) by lia.
          replace (a <=? r) with (S a <=? r); [reflexivity|].
          destruct (le_lt_dec (S a) r) as [D|D].
          * rewrite !(proj2 (Nat.leb_le _ _)) by lia. reflexivity.
          * rewrite !(proj2 (Nat.leb_gt _ _)) by lia. reflexivity. }
    rewrite X. replace (r <? 0 + P) with true by (symmetry; apply Nat.ltb_lt; lia). reflexivity.
Qed.

(** *** The folders are not emptied before a run: after a run with more processes the files of the surplus ranks are still there,
    are read too, and the plots contain time points twice. *)
Theorem C69_old_files_refuted :
  ~ (forall (A : App) (wf : nat -> Vec A -> Prop) (o : Opts A) (P' P n' n : nat) c' c res' res calls' calls fs0 fs it listing,
     good_setup wf o P' -> good_setup wf o P -> o_rand o = None -> o_has_output o = true -> o_output_lvl o = 2%Z ->
     steps P' n' (initial (mgrit_main o P')) c' -> finished P' res' c' -> interleaves P' res' calls' ->
     write_all (level0 o P') calls' no_files = Some fs0 ->
     steps P n (initial (mgrit_main o P)) c -> finished P res c -> interleaves P res calls ->
     write_all (level0 o P) calls fs0 = Some fs -> it <= s_iter (res 0) -> lists_folder fs it listing ->
     length (read_folder fs it listing) = length (nth 0 (o_grids o) [])).
Proof.
  intros H. pose (o := zopts3 0 2).
  assert (G2 : good_setup (fun _ _ => True) o 2) by (apply zopts3_good; lia).
  assert (G1 : good_setup (fun _ _ => True) o 1) by (apply zopts3_good; lia).
  destruct (run_main (fun _ _ => True) o 2 G2) as (n2 & c2 & r2 & S2 & F2 & _).
  destruct (run_main (fun _ _ => True) o 1 G1) as (n1 & c1 & r1 & S1 & F1 & _).
  destruct (files_of_run _ o 2 G2 n2 c2 eq_refl eq_refl S2 (finished_stuck _ _ _ F2)) as (q2 & k2 & Q2 & _ & _ & W2).
  destruct (files_of_run _ o 1 G1 n1 c1 eq_refl eq_refl S1 (finished_stuck _ _ _ F1)) as (q1 & k1 & Q1 & I1 & _ & W1).
  destruct (W2 _ no_files (interleaves_exists 2 q2)) as (fs0 & E0 & A0 & B0).
  destruct (W1 _ fs0 (interleaves_exists 1 q1)) as (fs & E & A1 & B1).
  assert (X0 : fs 0 0 = Some (part o 1 0 (gu (iterate o (init_guess o 1) 0) 0))) by (apply A1; lia).
  assert (X1 : fs 0 1 = Some (part o 2 1 (gu (iterate o (init_guess o 2) 0) 0))) by (rewrite B1 by lia; apply A0; lia).
  assert (X2 : forall r, 2 <= r -> fs 0 r = None) by (intros r Hr; rewrite B1, B0 by lia; reflexivity).
  specialize (H zapp (fun _ _ => True) o 2 1 n2 n1 c2 c1 q2 q1 _ _ fs0 fs 0 [0; 1] G2 G1 eq_refl eq_refl eq_refl S2 Q2 (interleaves_exists 2 q2) E0
                S1 Q1 (interleaves_exists 1 q1) E (Nat.le_0_l _)).
  assert (L : lists_folder fs 0 [0; 1]).
  { split; [repeat constructor; simpl; intuition discriminate|]. intros r. destruct r as [|[|r]]; simpl.
    - rewrite X0. split; [discriminate|auto].
    - rewrite X1. split; [discriminate|auto].
    - rewrite X2 by lia. split; [intros [D|[D|[]]]; discriminate D|intros D; exfalso; apply D; reflexivity]. }
  specialize (H L). unfold read_folder in H. rewrite (Permutation_length (sort_perm _)) in H. cbn [flat_map] in H. rewrite X0, X1 in H.
  rewrite !app_length in H. unfold part in H. rewrite !map_length in H. vm_compute in H. discriminate H.
Qed.

(** Two processes, files listed in descending order: the folder of iteration 1 gives all 17 points. *)
Example C69_hypotheses_hold :
  good_setup (fun _ _ => True) (zopts3 0 2) 2 /\
  match procs (run_net 2 400 1000 (initial (mgrit_main (zopts3 0 2) 2))) 0, procs (run_net 2 400 1000 (initial (mgrit_main (zopts3 0 2) 2))) 1 with
  | Ret s0, Ret s1 =>
      let calls := [(1, nth 0 (s_out s1) (9, [])); (0, nth 0 (s_out s0) (9, [])); (0, nth 1 (s_out s0) (9, [])); (1, nth 1 (s_out s1) (9, []));
                    (1, nth 2 (s_out s1) (9, [])); (0, nth 2 (s_out s0) (9, []))] in
      map snd (filter (fun x => fst x =? 0) calls) = s_out s0 /\ map snd (filter (fun x => fst x =? 1) calls) = s_out s1 /\
      s_iter s0 = 2 /\ length (result_conv s0) = 2 /\
      match write_all (level0 (zopts3 0 2) 2) calls no_files with
      | Some fs => map fst (read_folder fs 1 [1; 0]) = grid_of 17 1 /\ nth 9 (read_folder fs 1 [1; 0]) (0, 0)%Z = (9, 671)%Z
      | None => False end
  | _, _ => False
  end.
Proof.
  split; [apply zopts3_good; lia|]. vm_compute. repeat split.
Qed.

Print Assumptions C69_plotted_solutions.
Print Assumptions C69_old_files_refuted.
