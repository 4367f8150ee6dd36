(** C55: the pictures of MgritWithPlots compared with what the solver does. *)
From Coq Require Import List ZArith Lia Arith Bool.
From Verif Require Import Net NetPhase PyList ListFacts Setup SplitProofs Spec SetupProofs SetupProps Mgrit Reference RefProofs Sim Main NetExec Plots ExampleApp PropSetup PropHistory OrderProofs.
Import ListNotations.

(** ** The order of the phases *)
(** The calls of iteration and nested_iteration are those of the lists [schedule] and [nested_schedule]: the programs
    behave the same, whatever the tables, the application and the coarsest solve are. *)
Theorem C55_schedule :
  forall (A : App) (o : Opts A) P r infos fsolve n lvl cyc it first_f s,
  peq (iteration o P r infos fsolve n lvl cyc it first_f s)
      (for_each (schedule (cf_count o) n lvl cyc it first_f) (run_phase o P r infos fsolve) s) /\
  peq (nested_iteration o P r infos fsolve s) (for_each (nested_schedule (cf_count o) (nlev o)) (run_phase o P r infos fsolve) s).
Proof. intros. split; [apply iteration_schedule|apply nested_schedule_run]. Qed.
(** F-cycle on three levels, one CF-relaxation, first iteration. *)
Example C55_schedule_example :
  schedule (fun _ => 1) 2 0 true 0 true =
  [PF 0; PC 0; PF 0; PR 0;
     PF 1; PC 1; PF 1; PR 1; PS 2; PE 1; PF 1;   PC 1; PF 1; PR 1; PS 2; PE 1; PF 1;
   PE 0; PF 0].
Proof. reflexivity. Qed.

(** ** plot_cycle *)
Section Pictures.
  Variable c : Z.
  Variable L : nat.
  Notation M := (L - 1).
  Notation label := (LF :: concat (repeat [LC; LF] (Z.to_nat c))).
  Notation cf := (fun _ : nat => Z.to_nat c).
  Notation R := (filter relaxing).

  Definition ex (h : Z) : list phase := says (0, M - Z.abs_nat h, mask label h).
  Definition exs (hs : list Z) : list phase := flat_map ex hs.

  Lemma R_cf l k : R (concat (repeat [PC l; PF l] k)) = concat (repeat [PC l; PF l] k).
  Proof. induction k as [|k IH]; simpl; [reflexivity|]. rewrite IH. reflexivity. Qed.
  Lemma says_cf l x k : says (x, l, concat (repeat [LC; LF] k)) = concat (repeat [PC l; PF l] k).
  Proof. unfold says. induction k as [|k IH]; simpl; [reflexivity|]. rewrite IH. reflexivity. Qed.
  Lemma ex_neg n : 0 < n -> ex (- Z.of_nat n) = PF (M - n) :: concat (repeat [PC (M - n); PF (M - n)] (Z.to_nat c)).
  Proof.
    intros H. unfold ex, mask. replace (- Z.of_nat n <? 0)%Z with true by (symmetry; apply Z.ltb_lt; lia).
    replace (Z.abs_nat (- Z.of_nat n)) with n by lia. cbn [says map]. f_equal. apply (says_cf (M - n) 0).
  Qed.
  Lemma ex_pos n : 0 < n -> ex (Z.of_nat n) = [PF (M - n)].
  Proof.
    intros H. unfold ex, mask. replace (Z.of_nat n <? 0)%Z with false by (symmetry; apply Z.ltb_ge; lia).
    replace (Z.of_nat n =? 0)%Z with false by (symmetry; apply Z.eqb_neq; lia). rewrite Zabs2Nat.id. reflexivity.
  Qed.
  Lemma vee_S i : vee (S i) = (- Z.of_nat (S i))%Z :: vee i ++ [Z.of_nat (S i)].
  Proof.
    unfold vee. replace (2 * S i + 1) with (S ((2 * i + 1) + 1)) by lia.
    cbn [seq map]. f_equal. rewrite <- (seq_shift _ 0), map_map, seq_app, map_app. f_equal.
    - apply map_ext. intros. lia.
    - cbn [seq map]. f_equal. lia.
  Qed.
  Lemma descent_S n : 0 < n -> descent (S n) = (- Z.of_nat n)%Z :: descent n.
  Proof.
    intros H. unfold descent. replace (S n - 1) with (S (n - 1)) by lia. cbn [seq map]. f_equal; [lia|].
    rewrite <- seq_shift, map_map. apply map_ext. intros. lia.
  Qed.

  Lemma sched_head n lvl cyc it : schedule cf (S n) lvl cyc it true =
    (if (0 <? lvl) || (it =? 0) then [PF lvl] else []) ++ schedule cf (S n) lvl cyc it false.
  Proof. cbn [schedule]. rewrite andb_true_r, andb_false_r. cbn [app]. rewrite !app_assoc. reflexivity. Qed.
  Lemma sched_v n lvl it : R (schedule cf (S n) lvl false it false) =
    concat (repeat [PC lvl; PF lvl] (Z.to_nat c)) ++ R (schedule cf n (S lvl) false it true) ++ [PF lvl].
  Proof.
    cbn [schedule]. rewrite !andb_false_r. cbn [app]. rewrite app_nil_r, filter_app, R_cf. f_equal.
    simpl filter. rewrite filter_app. reflexivity.
  Qed.
  Lemma sched_deep n lvl cyc it : 0 < lvl -> R (schedule cf n lvl cyc it true) =
    match n with 0 => [PS lvl] | S _ => PF lvl :: R (schedule cf n lvl cyc it false) end.
  Proof.
    intros H. destruct n; [reflexivity|]. rewrite sched_head. replace (0 <? lvl) with true by (symmetry; apply Nat.ltb_lt; lia).
    cbn [orb]. rewrite filter_app. reflexivity.
  Qed.

  (** one V from level [lvl], counted with its first F-relaxation *)
  Lemma vee_schedule n : forall lvl it, lvl + n = M ->
    exs (vee n) = match n with 0 => [PS lvl] | S _ => PF lvl :: R (schedule cf n lvl false it false) end.
  Proof.
    induction n as [|n IH]; intros lvl it E.
    - unfold vee, exs. simpl. unfold ex, mask. simpl. replace (M - 0) with lvl by lia. reflexivity.
    - rewrite vee_S. unfold exs. cbn [flat_map]. rewrite flat_map_app. cbn [flat_map]. rewrite app_nil_r.
      fold (exs (vee n)). rewrite ex_neg, ex_pos by lia. replace (M - S n) with lvl by lia. cbn [app]. f_equal. rewrite sched_v.
      f_equal. f_equal. rewrite (IH (S lvl) it) by lia. symmetry. apply (sched_deep n (S lvl) false it). lia.
  Qed.
  (** the F-part of an F-cycle below the finest level *)
  Lemma f_schedule n : forall lvl it, 0 < lvl -> lvl + n = M ->
    R (schedule cf n lvl true it true) = exs (descent (S n)) ++ exs (flat_map vee (seq 0 (S n))).
  Proof.
    induction n as [|n IH]; intros lvl it H E.
    - simpl. unfold exs. simpl. unfold ex, mask. simpl. replace (M - 0) with lvl by lia. reflexivity.
    - rewrite descent_S by lia. rewrite seq_S, flat_map_app. unfold exs at 2. rewrite flat_map_app. cbn [Nat.add flat_map]. rewrite app_nil_r.
      fold (exs (flat_map vee (seq 0 (S n)))) (exs (vee (S n))).
      rewrite (vee_schedule (S n) lvl it E). unfold exs at 1. cbn [flat_map]. rewrite ex_neg by lia. fold (exs (descent (S n))).
      rewrite <- !app_assoc, (app_assoc (exs (descent (S n)))), <- (IH (S lvl) it) by lia.
      replace (M - S n) with lvl by lia. rewrite sched_v. cbn [schedule].
      replace (0 <? lvl) with true by (symmetry; apply Nat.ltb_lt; lia).
      replace (lvl =? 0) with false by (symmetry; apply Nat.eqb_neq; lia). cbn [orb andb negb app].
      cbn [filter relaxing]. f_equal.
      do 4 (rewrite ?filter_app, ?R_cf; cbn [filter relaxing app]). rewrite <- !app_assoc. reflexivity.
  Qed.
  (** the heights of an F-cycle picture and the code *)
  Lemma f_picture it : 2 <= L -> exs (result_iter L true) =
    PF 0 :: R (schedule cf M 0 true it false) ++ R (schedule cf M 0 false it false).
  Proof.
    intros H. unfold result_iter. destruct M as [|n] eqn:E; [lia|]. replace L with (S (S n)) by lia.
    rewrite descent_S by lia. rewrite (seq_S (S n) 0), flat_map_app. unfold exs. cbn [flat_map]. rewrite !flat_map_app. cbn [Nat.add flat_map]. rewrite app_nil_r.
    fold (exs (vee (S n))) (exs (descent (S n))) (exs (flat_map vee (seq 0 (S n)))).
    rewrite (vee_schedule (S n) 0 it) by lia. rewrite ex_neg by lia.
    rewrite <- app_assoc, (app_assoc (exs (descent (S n)))), <- (f_schedule n 1 it) by lia.
    replace (M - S n) with 0 by lia. cbn [app]. f_equal.
    cbn [schedule]. rewrite !andb_false_r. cbn [app negb andb Nat.eqb]. rewrite !app_nil_r.
    do 4 (rewrite ?filter_app, ?R_cf; cbn [filter relaxing app]). rewrite <- !app_assoc. reflexivity.
  Qed.

  Lemma says_x x y l t : says (x, l, t) = says (y, l, t).
  Proof. reflexivity. Qed.
  Lemma part_says (f : Z -> nat) (g : Z -> list letter) hs : forall start,
    flat_map says (combine (combine (seq start (length hs)) (map f hs)) (map g hs)) = flat_map (fun h => says (0, f h, g h)) hs.
  Proof. induction hs as [|h hs IH]; intros start; [reflexivity|]. simpl length. cbn [seq map combine flat_map]. rewrite IH. reflexivity. Qed.
  Lemma part_plain iter start hs : iter = 0 -> flat_map says (plot_part L label iter start hs false) = exs hs.
  Proof. intros ->. unfold plot_part. cbn [Nat.eqb]. apply part_says. Qed.
  Lemma part_later iter start h hs : iter <> 0 -> (h < 0)%Z -> flat_map says (plot_part L label iter start (h :: hs) false) = tl (exs (h :: hs)).
  Proof.
    intros H Hh. unfold plot_part. replace (iter =? 0) with false by (symmetry; apply Nat.eqb_neq; lia).
    cbn [map on_first length seq combine flat_map exs]. rewrite part_says. fold (exs hs).
    unfold ex, mask. replace (h <? 0)%Z with true by (symmetry; apply Z.ltb_lt; lia). reflexivity.
  Qed.
  Lemma part_nested hs h : flat_map says (plot_part L label 0 0 (hs ++ [h]) true) = exs hs.
  Proof.
    unfold plot_part. cbn [Nat.eqb]. rewrite !map_app. cbn [map]. unfold on_last. rewrite rev_unit. cbn [on_first]. cbn [rev].
    rewrite rev_involutive. rewrite app_length. simpl length. rewrite seq_app.
    assert (K : forall (a : list nat) a1 (b : list nat) b1 (t : list (list letter)) t1, length a = length b -> length a = length t ->
      combine (combine (a ++ [a1]) (b ++ [b1])) (t ++ [t1]) = combine (combine a b) t ++ [(a1, b1, t1)]).
    { induction a as [|x a IH]; intros a1 [|y b] b1 [|z t] t1; simpl; try discriminate; [reflexivity|]. intros E1 E2. f_equal. apply IH; lia. }
    cbn [seq]. rewrite K by (rewrite ?seq_length, ?map_length; reflexivity). rewrite flat_map_app, part_says. cbn [flat_map says map]. rewrite !app_nil_r. reflexivity.
  Qed.

  Lemma rev_levels n : map (fun l => M - l) (rev (seq 0 n)) = rev (map (fun l => M - l) (seq 0 n)).
  Proof. apply map_rev. Qed.
  Lemma nested_says : 2 <= L -> exs (flat_map vee (seq 0 M)) = R (nested_schedule cf L).
  Proof.
    intros H. unfold nested_schedule. cbn [filter relaxing].
    assert (K : forall n, S n <= M -> exs (flat_map vee (seq 0 (S n))) =
      PS M :: R (flat_map (fun lvl => PI lvl :: if 0 <? lvl then schedule cf (M - lvl) lvl false 0 true else []) (rev (seq (M - n) n)))).
    { induction n as [|n IH]; intros Hn.
      - unfold exs. simpl. unfold ex, mask. simpl. replace (M - 0) with M by lia. reflexivity.
      - rewrite seq_S, flat_map_app. unfold exs. rewrite flat_map_app. cbn [Nat.add flat_map]. rewrite app_nil_r.
        fold (exs (flat_map vee (seq 0 (S n)))) (exs (vee (S n))). rewrite IH by lia. cbn [app]. f_equal.
        replace (seq (M - S n) (S n)) with ((M - S n) :: seq (M - n) n) by (cbn [seq]; f_equal; f_equal; lia).
        cbn [rev]. rewrite flat_map_app, filter_app. f_equal. cbn [flat_map]. rewrite app_nil_r. cbn [filter relaxing].
        replace (0 <? M - S n) with true by (symmetry; apply Nat.ltb_lt; lia). replace (M - (M - S n)) with (S n) by lia.
        rewrite sched_deep by lia. rewrite (vee_schedule (S n) (M - S n) 0) by lia. reflexivity. }
    destruct M as [|m] eqn:E; [lia|]. rewrite K by lia. f_equal.
    replace (S m - m) with 1 by lia. cbn [seq rev]. rewrite flat_map_app, filter_app. cbn [flat_map Nat.ltb Nat.leb]. cbn [app filter relaxing]. rewrite app_nil_r. reflexivity.
  Qed.
  Lemma heads cyc : 2 <= L -> exists h hs, result_iter L cyc = h :: hs /\ (h < 0)%Z.
  Proof.
    intros H. unfold result_iter. destruct cyc.
    - replace L with (S (L - 1)) by lia. rewrite descent_S by lia. eexists. eexists. split; [reflexivity|]. lia.
    - destruct (L - 1) as [|n] eqn:E; [lia|]. rewrite vee_S. eexists. eexists. split; [reflexivity|]. lia.
  Qed.
  Lemma part_cycle cyc it start : 2 <= L ->
    flat_map says (plot_part L label it start (result_iter L cyc) false) =
    R (schedule cf M 0 cyc it true) ++ (if cyc then R (schedule cf M 0 false it false) else []).
  Proof.
    intros H. destruct (heads cyc H) as (h & hs & E & Hh).
    assert (X : exs (result_iter L cyc) = PF 0 :: R (schedule cf M 0 cyc it false) ++ (if cyc then R (schedule cf M 0 false it false) else [])).
    { destruct cyc; [apply f_picture; auto|]. rewrite app_nil_r. unfold result_iter. rewrite (vee_schedule M 0 it) by lia.
      destruct M eqn:EM; [lia|reflexivity]. }
    assert (HS : schedule cf M 0 cyc it true = (if it =? 0 then [PF 0] else []) ++ schedule cf M 0 cyc it false).
    { destruct M eqn:EM; [lia|]. apply (sched_head n 0 cyc it). }
    rewrite HS, filter_app, <- app_assoc. destruct (it =? 0) eqn:E0.
    - apply Nat.eqb_eq in E0. rewrite part_plain by auto. rewrite X. reflexivity.
    - apply Nat.eqb_neq in E0. rewrite E, part_later by auto. rewrite <- E, X. reflexivity.
  Qed.
End Pictures.

Lemma plot_cyc_nodes c L nested cyc k nodes : plot_cyc (VInt c) L nested cyc k = inr nodes ->
  nodes = (if nested then plot_part L (LF :: concat (repeat [LC; LF] (Z.to_nat c))) 0 0 (result_nes L) true else []) ++
    flat_map (fun iter => plot_part L (LF :: concat (repeat [LC; LF] (Z.to_nat c))) iter
      (iter * length (result_iter L cyc) + length (if nested then result_nes L else [])) (result_iter L cyc) false) (seq 0 k).
Proof. unfold plot_cyc. cbn [relax_label]. destruct nested; congruence. Qed.

(** With an integer number of CF-relaxations (the same on all levels, as labels with a single number presuppose) and at
    least two levels, the V-cycle picture read from left to right names exactly the relaxations and coarsest solves of
    nested iteration followed by the iterations 0, 1, ...; *)
Theorem C55_v_cycle_picture :
  forall (c : Z) (L : nat) (nested : bool) (iterations : nat) nodes, 2 <= L ->
  plot_cyc (VInt c) L nested false iterations = inr nodes ->
  flat_map says nodes = filter relaxing
    ((if nested then nested_schedule (fun _ => Z.to_nat c) L else []) ++
     flat_map (fun it => schedule (fun _ => Z.to_nat c) (L - 1) 0 false it true) (seq 0 iterations)).
Proof.
  intros c L nested k nodes H E. rewrite (plot_cyc_nodes _ _ _ _ _ _ E).
  rewrite flat_map_app, filter_app. f_equal.
  - destruct nested; [|reflexivity]. unfold result_nes. rewrite part_nested. apply nested_says; auto.
  - generalize (length (if nested then result_nes L else [])). intros off. induction (seq 0 k) as [|it l IH]; [reflexivity|].
    cbn [flat_map]. rewrite flat_map_app, filter_app, <- IH. f_equal. rewrite part_cycle, app_nil_r by auto. reflexivity.
Qed.
(** the F-cycle picture shows, after every F-cycle of the code, one more V-cycle from the finest level (which
    iteration leaves out, line 289), *)
Theorem C55_f_cycle_picture :
  forall (c : Z) (L : nat) (nested : bool) (iterations : nat) nodes, 2 <= L ->
  plot_cyc (VInt c) L nested true iterations = inr nodes ->
  flat_map says nodes = filter relaxing
    ((if nested then nested_schedule (fun _ => Z.to_nat c) L else []) ++
     flat_map (fun it => schedule (fun _ => Z.to_nat c) (L - 1) 0 true it true ++ schedule (fun _ => Z.to_nat c) (L - 1) 0 false it false)
       (seq 0 iterations)).
Proof.
  intros c L nested k nodes H E. rewrite (plot_cyc_nodes _ _ _ _ _ _ E).
  rewrite flat_map_app, filter_app. f_equal.
  - destruct nested; [|reflexivity]. unfold result_nes. rewrite part_nested. apply nested_says; auto.
  - generalize (length (if nested then result_nes L else [])). intros off. induction (seq 0 k) as [|it l IH]; [reflexivity|].
    cbn [flat_map]. rewrite flat_map_app, !filter_app, <- IH. f_equal. rewrite part_cycle by auto. reflexivity.
Qed.
(** so it is never the picture of what is done. *)
Theorem C55_f_cycle_picture_refuted :
  forall (c : Z) (L : nat) (nested : bool) (iterations : nat) nodes, 2 <= L -> 0 < iterations ->
  plot_cyc (VInt c) L nested true iterations = inr nodes ->
  flat_map says nodes <> filter relaxing
    ((if nested then nested_schedule (fun _ => Z.to_nat c) L else []) ++
     flat_map (fun it => schedule (fun _ => Z.to_nat c) (L - 1) 0 true it true) (seq 0 iterations)).
Proof.
  intros c L nested k nodes H Hk E. rewrite (C55_f_cycle_picture c L nested k nodes H E). intros X.
  rewrite !filter_app in X. apply app_inv_head in X. apply (f_equal (@length _)) in X.
  assert (P0 : forall it, 0 < length (filter relaxing (schedule (fun _ => Z.to_nat c) (L - 1) 0 false it false))).
  { intros it. destruct (L - 1) as [|n] eqn:EL; [lia|]. rewrite sched_v, !app_length. simpl. lia. }
  assert (Q : forall l, length (filter relaxing (flat_map (fun it => schedule (fun _ => Z.to_nat c) (L - 1) 0 true it true) l)) + length l <=
    length (filter relaxing (flat_map (fun it => schedule (fun _ => Z.to_nat c) (L - 1) 0 true it true ++ schedule (fun _ => Z.to_nat c) (L - 1) 0 false it false) l))).
  { induction l as [|it l IH]; [simpl; lia|]. cbn [flat_map]. rewrite !filter_app, !app_length. specialize (P0 it). simpl length in *. lia. }
  specialize (Q (seq 0 k)). rewrite seq_length in Q. lia.
Qed.
(** The nodes stand side by side. *)
Theorem C55_nodes_side_by_side :
  forall (c : Z) (L : nat) (nested cyc : bool) (iterations : nat) nodes, 0 < L ->
  plot_cyc (VInt c) L nested cyc iterations = inr nodes -> map (fun x : node => fst (fst x)) nodes = seq 0 (length nodes).
Proof.
  intros c L nested cyc k nodes HL E. rewrite (plot_cyc_nodes _ _ _ _ _ _ E).
  set (label := LF :: _).
  assert (LF1 : forall {X} (f : X -> X) l, length (on_first f l) = length l) by (intros X f [|x l]; reflexivity).
  assert (K : forall iter start hs nest, map (fun x : node => fst (fst x)) (plot_part L label iter start hs nest) = seq start (length hs)).
  { intros iter start hs nest. unfold plot_part.
    set (strs := if iter =? 0 then _ else _). assert (Hs : length strs = length hs).
    { unfold strs. destruct (iter =? 0), nest; unfold on_last; rewrite ?LF1, ?rev_length, ?LF1, ?rev_length, ?map_length; reflexivity. }
    clearbody strs. revert start strs Hs. induction hs as [|h hs IH]; intros start [|s strs] Hs; try discriminate; [reflexivity|].
    simpl length. cbn [seq map combine fst]. f_equal. apply IH. simpl in Hs. lia. }
  assert (K2 : forall iter start hs nest, length (plot_part L label iter start hs nest) = length hs).
  { intros iter start hs nest. pose proof (f_equal (@length nat) (K iter start hs nest)) as Q. rewrite map_length, seq_length in Q. exact Q. }
  rewrite map_app, app_length. set (off := length (if nested then result_nes L else [])).
  assert (HA : map (fun x : node => fst (fst x)) (if nested then plot_part L label 0 0 (result_nes L) true else []) = seq 0 off /\
               length (if nested then plot_part L label 0 0 (result_nes L) true else []) = off).
  { unfold off. destruct nested; [rewrite K, K2; auto|auto]. }
  destruct HA as [-> ->]. rewrite seq_app. f_equal. simpl plus. set (len := length (result_iter L cyc)).
  assert (HB : forall a, map (fun x : node => fst (fst x)) (flat_map (fun iter => plot_part L label iter (iter * len + off) (result_iter L cyc) false) (seq a k)) = seq (a * len + off) (k * len) /\
    length (flat_map (fun iter => plot_part L label iter (iter * len + off) (result_iter L cyc) false) (seq a k)) = k * len).
  { clear HL E. induction k as [|k IH]; intros a; [auto|]. cbn [seq flat_map]. rewrite map_app, app_length, K, K2. destruct (IH (S a)) as [-> ->]. fold len.
    split; [|lia]. replace (S k * len) with (len + k * len) by lia. rewrite seq_app. f_equal. f_equal. lia. }
  destruct (HB 0) as [-> ->]. reflexivity.
Qed.

(** But the constructor always stores a list in self.cf_iter, and a list times a string is a TypeError: nothing is ever
    drawn, the plotting process fails as soon as there is something to draw. It is the first process and no other one. *)
Theorem C55_plot_cycle_refuted :
  forall (A : App) (o : Opts A) (iterations : nat), o_nested o = true \/ 0 < iterations ->
  forall rank, plot_cycle o rank false iterations = inl TypeError <-> rank = 0.
Proof.
  intros A o k H rank. split.
  { intros E. destruct rank; [reflexivity|discriminate E]. }
  intros ->. unfold plot_cycle, plot. cbn [Nat.eqb].
  assert (E : relax_label (stored_cf (o_cf o) (nlev o)) = None) by (unfold stored_cf; destruct (o_cf o); reflexivity).
  unfold plot_cyc. rewrite E. destruct H as [->|H]; [reflexivity|].
  replace (k =? 0) with false by (symmetry; apply Nat.eqb_neq; lia). rewrite orb_true_r. reflexivity.
Qed.

(** Three levels, nested iteration, two iterations with one CF-relaxation. *)
Example C55_pictures_example :
  plot_cyc (VInt 1) 3 true false 2 =
    inr [(0, 2, [LS]); (1, 1, [LF; LC; LF]); (2, 2, [LS]); (3, 1, [LF]); (4, 0, []);
         (5, 0, [LF; LC; LF]); (6, 1, [LF; LC; LF]); (7, 2, [LS]); (8, 1, [LF]); (9, 0, [LF]);
         (10, 0, [LC; LF]); (11, 1, [LF; LC; LF]); (12, 2, [LS]); (13, 1, [LF]); (14, 0, [LF])] /\
  plot_cyc (VInt 1) 3 false true 1 =
    inr [(0, 0, [LF; LC; LF]); (1, 1, [LF; LC; LF]); (2, 2, [LS]); (3, 1, [LF; LC; LF]); (4, 2, [LS]); (5, 1, [LF]);
         (6, 0, [LF; LC; LF]); (7, 1, [LF; LC; LF]); (8, 2, [LS]); (9, 1, [LF]); (10, 0, [LF])].
Proof. split; reflexivity. Qed.
(** With one level the second iteration is drawn without a label although the solver runs: [2 <= L] is needed. *)
Example C55_one_level_example :
  plot_cyc (VInt 1) 1 false false 2 = inr [(0, 0, [LS]); (1, 0, [])] /\ schedule (fun _ => 1) 0 0 false 1 true = [PS 0].
Proof. split; reflexivity. Qed.
Example C55_plot_cycle_example : plot_cycle (zopts3 1 20) 0 false 1 = inl TypeError.
Proof. reflexivity. Qed.

(** ** plot_parallel_distribution, drawn for as many processes as there are *)
(** Above the bottom row, the tick of a point of level [l] lies in the box labelled 'Process r' of its row if and only if
    process r owns the point. *)
Theorem C55_boxes_show_the_owner :
  forall grids set_order P l i j r J, valid_hierarchy grids -> 0 < P -> P <= length (nth 0 grids []) -> f_order_ok grids set_order P ->
  S l < length grids -> i < length (nth l grids []) -> j < length (nth 0 grids []) -> nth i (nth l grids []) 0%Z = nth j (nth 0 grids []) 0%Z ->
  r < P -> setup_level grids set_order P r l = Some J ->
  exists b, (forall b', In b' (boxes (length grids) (length (nth 0 grids [])) P) -> b_row b' = length grids - 1 - l -> b_proc b' = r -> b' = b) /\
    In b (boxes (length grids) (length (nth 0 grids [])) P) /\ b_row b = length grids - 1 - l /\ b_proc b = r /\
    (covers b j <-> In i (i_pts J)).
Proof.
  intros grids so P l i j r J HV H0 HP HO Hl Hi Hj E Hr HJ.
  set (nt := length (nth 0 grids [])) in *. set (L := length grids) in *.
  exists (mkBox (L - 1 - l) r (4 * Z.of_nat (list_sum (firstn r (split_into nt P))) - 1)%Z (4 * Z.of_nat (nth r (split_into nt P) 0%nat) - 1)%Z).
  assert (IN : forall b, In b (boxes L nt P) <-> exists row, row < L /\
     (if row =? 0 then b = mkBox row 0 (-1)%Z (4 * Z.of_nat (list_sum (split_into nt P)) - 1)%Z
      else exists q, q < P /\ b = mkBox row q (4 * Z.of_nat (list_sum (firstn q (split_into nt P))) - 1)%Z (4 * Z.of_nat (nth q (split_into nt P) 0%nat) - 1)%Z)).
  { intros b. unfold boxes. rewrite in_flat_map. split.
    - intros (row & Hrow & Hb). apply in_seq in Hrow. exists row. split; [lia|]. destruct (row =? 0).
      + destruct Hb as [<-|[]]. reflexivity.
      + apply in_map_iff in Hb. destruct Hb as (q & <- & Hq). apply in_seq in Hq. rewrite split_into_length in Hq by auto. exists q. split; [lia|reflexivity].
    - intros (row & Hrow & Hb). exists row. split; [apply in_seq; lia|]. destruct (row =? 0).
      + left. symmetry. exact Hb.
      + destruct Hb as (q & Hq & ->). apply in_map_iff. exists q. split; [reflexivity|]. apply in_seq. rewrite split_into_length by auto. lia. }
  split.
  { intros b' Hb Er Ep. apply IN in Hb. destruct Hb as (row & Hrow & Hb). destruct (row =? 0) eqn:R0.
    - apply Nat.eqb_eq in R0. subst row b'. simpl in Er. lia.
    - destruct Hb as (q & Hq & ->). simpl in Er, Ep. subst. reflexivity. }
  split.
  { apply IN. exists (L - 1 - l). split; [lia|]. replace (L - 1 - l =? 0) with false by (symmetry; apply Nat.eqb_neq; lia). exists r. auto. }
  split; [reflexivity|]. split; [reflexivity|].
  unfold covers. cbn [b_left4 b_width4].
  fold (starts nt P r).
  pose proof (starts_S nt P r Hr) as ES. rewrite <- split_into_nth in ES by auto.
  assert (EP : i_pts J = pts grids P l r).
  { rewrite (tables grids so P HV H0 HP HO l r) in HJ by (auto; lia). injection HJ as <-. reflexivity. }
  rewrite EP. unfold pts. rewrite in_seq.
  pose proof (lo_le_iff grids P HV H0 HP l r i j ltac:(lia) ltac:(lia) Hi Hj E) as A1.
  pose proof (lo_le_iff grids P HV H0 HP l (S r) i j ltac:(lia) ltac:(lia) Hi Hj E) as A2.
  pose proof (lo_mono1 grids P HV H0 HP l r ltac:(lia) Hr). unfold cnt. unfold st in A1, A2. change (N grids 0) with nt in A1, A2.
  lia.
Qed.
(** The bottom row (the coarsest level) is one box named 'Process 0' over all points, whoever owns them. *)
Theorem C55_bottom_box_refuted :
  ~ (forall grids set_order P i j J, valid_hierarchy grids -> 0 < P -> P <= length (nth 0 grids []) -> f_order_ok grids set_order P ->
     i < length (nth (length grids - 1) grids []) -> j < length (nth 0 grids []) ->
     nth i (nth (length grids - 1) grids []) 0%Z = nth j (nth 0 grids []) 0%Z ->
     setup_level grids set_order P 0 (length grids - 1) = Some J ->
     forall b, In b (boxes (length grids) (length (nth 0 grids [])) P) -> b_row b = 0 -> b_proc b = 0 -> covers b j -> In i (i_pts J)).
Proof.
  intros H. destruct C04_hypotheses_hold as [V O].
  specialize (H ex_grids ascending_order 5 1 8).
  destruct (setup_level ex_grids ascending_order 5 0 2) as [J|] eqn:E; [|vm_compute in E; discriminate].
  specialize (H J V ltac:(lia) ltac:(vm_compute; lia) O ltac:(vm_compute; lia) ltac:(vm_compute; lia) eq_refl E
    (mkBox 0 0 (-1)%Z 67%Z) ltac:(left; reflexivity) eq_refl eq_refl ltac:(split; vm_compute; discriminate)).
  vm_compute in E. injection E as <-. simpl in H. intuition discriminate.
Qed.

Lemma where_in_iff a b j : In j (where_in a b) <-> j < length a /\ In (nth j a 0%Z) b.
Proof.
  unfold where_in. rewrite filter_In, in_seq, existsb_exists. split.
  - intros (Hj & y & Hy & E). apply Z.eqb_eq in E. rewrite E. split; [lia|exact Hy].
  - intros (Hj & Hb). split; [lia|]. exists (nth j a 0%Z). split; [exact Hb|]. apply Z.eqb_refl.
Qed.

Section Ticks.
  Variable grids : list (list Z).
  Notation L := (length grids).
  Notation t0 := (nth 0 grids []).
  Definition row_ticks (i : nat) : list (nat * nat * bool) :=
    flat_map (fun j => if memn j (where_in t0 (nth (if i =? L - 1 then i else S i) grids [])) then [(L - 1 - i, j, true)]
                       else if memn j (where_in t0 (nth i grids [])) then [(L - 1 - i, j, false)] else []) (seq 0 (length t0)).
  Lemma ticks_tail n : forall a cs, a + n = L -> 0 < a -> cs = where_in t0 (nth a grids []) ->
    ticks_from grids (seq a n) (Some cs) = Some (flat_map row_ticks (seq a n)).
  Proof.
    induction n as [|n IH]; intros a cs E Ha ->; [reflexivity|]. cbn [seq ticks_from flat_map].
    destruct (a =? L - 1) eqn:C.
    - apply Nat.eqb_eq in C. assert (n = 0) by lia. subst n. cbn [seq ticks_from]. unfold row_ticks.
      cbn [flat_map]. replace (a =? L - 1) with true by (symmetry; apply Nat.eqb_eq; lia). reflexivity.
    - rewrite (IH (S a) _ ltac:(lia) ltac:(lia) eq_refl). unfold row_ticks at 2. rewrite C. reflexivity.
  Qed.
  Lemma ticks_eq : 2 <= L -> ticks grids = Some (flat_map row_ticks (seq 0 L)).
  Proof.
    intros H. unfold ticks. destruct L as [|n] eqn:E; [lia|]. cbn [seq ticks_from flat_map]. rewrite E.
    replace (0 =? S n - 1) with false by (symmetry; apply Nat.eqb_neq; lia).
    rewrite (ticks_tail n 1 _ ltac:(lia) ltac:(lia) eq_refl). unfold row_ticks at 2. rewrite E.
    replace (0 =? S n - 1) with false by (symmetry; apply Nat.eqb_neq; lia). reflexivity.
  Qed.
End Ticks.

(** With at least two levels the ticks of row L-1-l are the points of level l, at the position of the same time on the
    finest grid; the long ones are its C-points. *)
Theorem C55_ticks :
  forall grids, valid_hierarchy grids -> 2 <= length grids ->
  exists T, ticks grids = Some T /\
  forall row j long, In (row, j, long) T <->
    exists l i, l < length grids /\ row = length grids - 1 - l /\ i < length (nth l grids []) /\ j < length (nth 0 grids []) /\
      nth i (nth l grids []) 0%Z = nth j (nth 0 grids []) 0%Z /\ long = cpoint grids l i.
Proof.
  intros grids HV HL. exists (flat_map (row_ticks grids) (seq 0 (length grids))). split; [apply ticks_eq; auto|].
  assert (HC : forall l i j, l < length grids -> nth i (nth l grids []) 0%Z = nth j (nth 0 grids []) 0%Z -> i < length (nth l grids []) -> j < length (nth 0 grids []) ->
    cpoint grids l i = memn j (where_in (nth 0 grids []) (nth (if l =? length grids - 1 then l else S l) grids []))).
  { intros l i j Hl E Hi Hj. apply eq_true_iff_eq. rewrite memn_in, where_in_iff. unfold cpoint, time. destruct (l =? length grids - 1) eqn:C.
    - split; [|auto]. intros _. split; [exact Hj|]. rewrite <- E. apply nth_In. exact Hi.
    - rewrite existsb_exists, E. split.
      + intros (y & Hy & Ey). apply Z.eqb_eq in Ey. rewrite Ey. auto.
      + intros (_ & Hy). eexists. split; [exact Hy|]. apply Z.eqb_refl. }
  intros row j long. rewrite in_flat_map. split.
  - intros (l & Hl & H). apply in_seq in Hl. unfold row_ticks in H. apply in_flat_map in H. destruct H as (j' & Hj' & H). apply in_seq in Hj'.
    assert (Hfine : In (nth j' (nth 0 grids []) 0%Z) (nth l grids []) -> exists i, i < length (nth l grids []) /\ nth i (nth l grids []) 0%Z = nth j' (nth 0 grids []) 0%Z).
    { intros X. destruct (In_nth _ _ 0%Z X) as (i & Hi & E). eauto. }
    destruct (memn j' (where_in (nth 0 grids []) (nth (if l =? length grids - 1 then l else S l) grids []))) eqn:C1.
    + destruct H as [H|[]]. injection H as <- <- <-. pose proof C1 as C2. apply memn_in, where_in_iff in C2. destruct C2 as [_ C2].
      assert (X : In (nth j' (nth 0 grids []) 0%Z) (nth l grids [])).
      { destruct (l =? length grids - 1) eqn:CL; [exact C2|]. apply Nat.eqb_neq in CL. destruct HV as (_ & _ & V). apply (V l ltac:(lia)). exact C2. }
      destruct (Hfine X) as (i & Hi & E). exists l, i. rewrite (HC l i j') by (auto; lia). repeat split; auto; lia.
    + destruct (memn j' (where_in (nth 0 grids []) (nth l grids []))) eqn:C2; [|destruct H]. destruct H as [H|[]]. injection H as <- <- <-.
      apply memn_in, where_in_iff in C2. destruct (Hfine (proj2 C2)) as (i & Hi & E). exists l, i. rewrite (HC l i j') by (auto; lia). repeat split; auto; lia.
  - intros (l & i & Hl & -> & Hi & Hj & E & ->). exists l. split; [apply in_seq; lia|]. unfold row_ticks. apply in_flat_map. exists j. split; [apply in_seq; lia|].
    rewrite (HC l i j) by auto. destruct (memn j (where_in (nth 0 grids []) (nth (if l =? length grids - 1 then l else S l) grids []))); [left; reflexivity|].
    replace (memn j (where_in (nth 0 grids []) (nth l grids []))) with true; [left; reflexivity|]. symmetry. apply memn_in, where_in_iff. split; [exact Hj|].
    rewrite <- E. apply nth_In. exact Hi.
Qed.
(** With one level the picture is not drawn: tmp_coarse has no value. *)
Theorem C55_one_level_refuted : forall t, t <> [] -> ticks [t] = None.
Proof. intros [|a t] H; [congruence|reflexivity]. Qed.
Example C55_distribution_example :
  valid_hierarchy ex_grids /\ f_order_ok ex_grids ascending_order 5 /\ 2 <= length ex_grids /\
  boxes 3 17 2 = [mkBox 0 0 (-1) 67; mkBox 1 0 (-1) 35; mkBox 1 1 35 31; mkBox 2 0 (-1) 35; mkBox 2 1 35 31] /\
  option_map (filter (fun x => Nat.eqb (fst (fst x)) 1)) (ticks ex_grids) =
    Some [(1, 0, true); (1, 2, false); (1, 4, false); (1, 6, false); (1, 8, true); (1, 10, false); (1, 12, false); (1, 14, false); (1, 16, true)].
Proof. split; [apply C04_hypotheses_hold|]. split; [apply C04_hypotheses_hold|]. split; [simpl; lia|]. split; reflexivity. Qed.

(** ** plot_convergence
    After one solve() without exact zeros in the history the curve has one point per iteration, in order: the iteration number and
    the value of the stopping criterion of that iteration. *)
Theorem C55_convergence_curve :
  forall (A : App) (wf : nat -> Vec A -> Prop) (o : Opts A) (P n : nat) c,
  good_setup wf o P -> o_rand o = None -> sc_is_zero A (sc_zero A) = true ->
  steps P n (initial (mgrit_main o P)) c -> stuck P c ->
  let value := fun j => tnorm A (crit_of o (gu (iterate o zero_guess (j - 1)) 0) (gu (iterate o zero_guess j) 0)) in
  exists res, finished P res c /\
    ((forall j x, 1 <= j <= s_iter (res 0) -> value j = Some x -> sc_is_zero A x = false) ->
     exists curve, plot_convergence (res 0) 0 false = inr curve /\ map fst curve = seq 1 (s_iter (res 0)) /\
       forall j y, In (j, y) curve -> value j = Some y) /\
    (forall r, 0 < r -> r < P -> plot_convergence (res r) r false = inr []).
Proof.
  intros A wf o P n c G Hr Hz H S value.
  destruct (C14_complete_history A wf o P n c G Hr Hz H S) as (res & F & X). exists res. split; [exact F|]. split.
  - intros NZ. specialize (X 0 (gs_procs _ _ _ G) NZ). fold value in X.
    assert (Hl : length (result_conv (res 0)) = s_iter (res 0)).
    { apply (f_equal (@length _)) in X. rewrite !map_length, seq_length in X. exact X. }
    eexists. split; [reflexivity|]. rewrite Hl. revert X Hl. generalize (result_conv (res 0)), (s_iter (res 0)), 1.
    intros l. induction l as [|y l IH]; intros k b X Hl; destruct k as [|k]; try discriminate; [split; [reflexivity|intros j y []]|].
    cbn [seq map combine] in *. injection X as X0 X1. destruct (IH k (Datatypes.S b) X1 ltac:(simpl in Hl; lia)) as [I1 I2]. split.
    + cbn [fst]. rewrite I1. reflexivity.
    + intros j z [E|E]; [injection E as <- <-; auto|apply I2; exact E].
  - intros r H0 Hr'. unfold plot_convergence, plot. replace (r =? 0) with false by (symmetry; apply Nat.eqb_neq; lia). reflexivity.
Qed.
(** After a second solve() the curve may show values of the first one: one iteration was done, two points are drawn. *)
Theorem C55_convergence_curve_refuted :
  exists n c s, steps 1 n (initial (mgrit_twice zopts2 1)) c /\ procs c 0 = Ret s /\ s_iter s = 1 /\
    plot_convergence s 0 false = inr [(1, 17600%Z : Sc zapp); (2, 23040%Z : Sc zapp)].
Proof.
  destruct (run_net_steps 1 3 4000 (mgrit_twice zopts2 1)) as (n & Hn). exists n. eexists.
  exists (match procs (run_net 1 3 4000 (initial (mgrit_twice zopts2 1))) 0 with Ret s => s | _ => init_state zopts2 0 [] end).
  split; [exact Hn|]. split; [|split; vm_compute; reflexivity].
  set (c := run_net 1 3 4000 (initial (mgrit_twice zopts2 1))).
  assert (X : match procs c 0 with Ret _ => True | _ => False end) by (vm_compute; exact I).
  destruct (procs c 0); try contradiction. reflexivity.
Qed.
Example C55_curve_example : good_setup (fun _ _ => True) (zopts3 0 20) 4 /\ o_rand (zopts3 0 20) = None /\
  plot_convergence (match procs (run_net 4 900 2000 (initial (mgrit_main (zopts3 0 20) 4))) 0 with Ret s => s | _ => init_state (zopts3 0 20) 0 [] end) 0 false =
    inr [(1, 9264%Z : Sc zapp); (2, 22144%Z : Sc zapp); (3, 11264%Z : Sc zapp)].
Proof. split; [apply zopts3_good; auto; lia|]. split; vm_compute; reflexivity. Qed.

Print Assumptions C55_schedule.
Print Assumptions C55_v_cycle_picture.
Print Assumptions C55_f_cycle_picture.
Print Assumptions C55_f_cycle_picture_refuted.
Print Assumptions C55_nodes_side_by_side.
Print Assumptions C55_plot_cycle_refuted.
Print Assumptions C55_boxes_show_the_owner.
Print Assumptions C55_bottom_box_refuted.
Print Assumptions C55_ticks.
Print Assumptions C55_one_level_refuted.
Print Assumptions C55_convergence_curve.
Print Assumptions C55_convergence_curve_refuted.
