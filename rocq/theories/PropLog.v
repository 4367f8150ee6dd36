(** C74: the messages of a run. *)
From Coq Require Import Reals Lra List ZArith Lia Arith Bool Sorted.
From Verif Require Import Net NetProofs NetExec PyList ListFacts Setup Spec SetupProofs Mgrit Reference RefProofs Sim Main ParallelProofs ExampleApp OrderProofs
  Algebra LinAlg Vectors Apps PropVectors PropAccuracy PropApps PropSpatial PropAdvectionError Log.
Import ListNotations.
Local Open Scope nat_scope.

(** Every message is written exactly once, with and without parallelism in space. *)
Theorem C74_one_writer : forall (M : Type) (msg : M) P sizes, 0 < P -> 0 < sizes ->
  concat (map (fun r => log_info P r None msg) (seq 0 P)) = [msg] /\
  concat (map (fun r => concat (map (fun s => log_info P r (Some s) msg) (seq 0 sizes))) (seq 0 P)) = [msg].
Proof.
  intros M msg P sizes HP HS.
  assert (Z : forall {X} (f : nat -> list X) l, (forall r, In r l -> f r = []) -> concat (map f l) = []).
  { intros X f l. induction l as [|a l IH]; intros H; [reflexivity|]. cbn [map concat]. rewrite (H a (or_introl eq_refl)). apply IH. intros r Hr. apply H. right. exact Hr. }
  assert (E : forall (f : nat -> list M), (forall r, r <> P - 1 -> f r = []) -> f (P - 1) = [msg] -> concat (map f (seq 0 P)) = [msg]).
  { intros f H1 H2. replace P with (P - 1 + 1) by lia. rewrite seq_app, map_app, concat_app. cbn [seq map concat Nat.add]. rewrite H2, app_nil_r.
    rewrite (Z _ f); [reflexivity|]. intros r Hr. apply in_seq in Hr. apply H1. lia. }
  assert (N : forall r, r <> P - 1 -> (r =? P - 1) = false) by (intros r Hr; apply Nat.eqb_neq; exact Hr).
  split; apply E.
  - intros r Hr. unfold log_info. rewrite N by exact Hr. reflexivity.
  - unfold log_info. rewrite Nat.eqb_refl. reflexivity.
  - intros r Hr. apply Z. intros s _. unfold log_info. rewrite N by exact Hr. reflexivity.
  - unfold log_info. rewrite Nat.eqb_refl. destruct sizes as [|s]; [lia|]. cbn [seq map concat Nat.eqb]. rewrite (Z _ (fun s => if s =? 0 then [msg] else [])); [reflexivity|].
    intros q Hq. apply in_seq in Hq. destruct q; [lia|reflexivity].
Qed.

(** ** Differences *)
Lemma diff_length l : length (np_diff l) = length l - 1.
Proof. unfold np_diff. rewrite map_length, combine_length. destruct l; [reflexivity|]. cbn [tl length]. lia. Qed.
Lemma diff_nth l i : S i < length l -> nth i (np_diff l) 0 = nth (S i) l 0 - nth i l 0.
Proof.
  revert i. induction l as [|a [|b l] IH]; intros i Hi; simpl in Hi; try lia. destruct i as [|i]; [reflexivity|].
  specialize (IH i ltac:(simpl; lia)). exact IH.
Qed.
Lemma close_small d m : (Z.of_nat m < 100000)%Z -> isclose d m = true -> d = m.
Proof. unfold isclose. intros Hm H. apply Z.leb_le in H. lia. Qed.
Lemma close_refl m : isclose m m = true.
Proof. unfold isclose. apply Z.leb_le. lia. Qed.

Section Factor.
  Variable grids : list (list Z).
  Hypothesis HV : valid_hierarchy grids.
  Variable l : nat.
  Hypothesis Hl : S l < length grids.
  Notation grid k := (nth k grids []).
  Lemma len_pos : 1 <= SetupProofs.N grids 0.
  Proof. clear l Hl. destruct HV as (H0 & H1 & _). destruct (H1 0) as [_ X]; [destruct grids; [congruence|simpl; lia]|]. change (1 <= length (nth 0 grids [])). destruct (nth 0 grids []); [congruence|simpl; lia]. Qed.
  Notation cp j := (nth j (all_cpts grids l) 0).
  Lemma cp_len : length (all_cpts grids l) = length (grid (S l)).
  Proof. exact (all_cpts_length grids 1 HV Nat.lt_0_1 len_pos l Hl). Qed.
  Lemma cp_two : 2 <= length (grid (S l)).
  Proof. destruct HV as (_ & _ & H). apply (H l Hl). Qed.
  Lemma cp_0 : cp 0 = 0.
  Proof. exact (cpt_0 grids 1 HV Nat.lt_0_1 len_pos l Hl). Qed.
  Lemma cp_time j : j < length (grid (S l)) -> cp j < length (grid l) /\ nth (cp j) (grid l) 0%Z = nth j (grid (S l)) 0%Z.
  Proof.
    intros Hj. split; [exact (proj1 (cpt_in grids 1 HV Nat.lt_0_1 len_pos l j Hl Hj))|exact (cpt_time grids 1 HV Nat.lt_0_1 len_pos l j Hl Hj)].
  Qed.
  Lemma cp_lt j : S j < length (grid (S l)) -> cp j < cp (S j).
  Proof. intros Hj. apply (cpt_lt grids 1 HV Nat.lt_0_1 len_pos l j (S j) Hl ltac:(change (j < length (grid (S l))); lia) Hj). lia. Qed.
  (** indices are determined by the times *)
  Lemma index_inj i j : i < length (grid l) -> j < length (grid l) -> nth i (grid l) 0%Z = nth j (grid l) 0%Z -> i = j.
  Proof.
    intros Hi Hj E. destruct HV as (_ & H & _). destruct (H l ltac:(lia)) as [HS _]. pose proof (ssorted_incr _ HS) as Q.
    destruct (Nat.lt_trichotomy i j) as [D|[D|D]]; [pose proof (Q i j D Hj); lia|exact D|pose proof (Q j i D Hi); lia].
  Qed.
  Lemma coarsening_some : exists w, coarsening grids l = Some (cp 1, w) /\
    (w = false <-> forall i, S i < length (grid (S l)) -> isclose (cp (S i) - cp i) (cp 1) = true).
  Proof.
    pose proof cp_len as E. pose proof cp_two as T. unfold coarsening. pose proof (diff_length (all_cpts grids l)) as D.
    pose proof (fun i => diff_nth (all_cpts grids l) i) as X. destruct (np_diff (all_cpts grids l)) as [|m ds] eqn:En; [simpl in D; lia|].
    assert (Em : m = cp 1). { specialize (X 0 ltac:(lia)). cbn [nth] in X. rewrite X, cp_0. lia. }
    subst m. eexists. split; [reflexivity|]. rewrite negb_false_iff, forallb_forall. split.
    - intros H i Hi. rewrite <- (X i) by lia. apply H, nth_In. lia.
    - intros H d Hd. apply (In_nth _ _ 0) in Hd. destruct Hd as (i & Hi & <-). rewrite X by lia. apply H. lia.
  Qed.
End Factor.

(** The coarsening factor m of a level: the first step of the coarse grid covers m steps of the fine grid.  If process 0 does not warn and m < 100000, every
    m-th point of the fine grid is a point of the coarse grid.  If it warns, the coarse grid is not made of every m-th point. *)
Theorem C74_coarsening_factors : forall grids l, valid_hierarchy grids -> S l < length grids ->
  let fine := nth l grids [] in let coarse := nth (S l) grids [] in
  exists m w, coarsening grids l = Some (m, w) /\ 0 < m /\ m < length fine /\ nth 1 coarse 0%Z = nth m fine 0%Z /\
    (w = false -> (Z.of_nat m < 100000)%Z -> forall j, j < length coarse -> j * m < length fine /\ nth j coarse 0%Z = nth (j * m) fine 0%Z) /\
    (w = true -> exists j, j < length coarse /\ (length fine <= j * m \/ nth j coarse 0%Z <> nth (j * m) fine 0%Z)).
Proof.
  intros grids l HV Hl fine coarse. destruct (coarsening_some grids HV l Hl) as (w & E & Hw). pose proof (cp_two grids HV l Hl) as T.
  pose proof (cp_0 grids HV l Hl) as Z0. pose proof (cp_lt grids HV l Hl 0 T) as P0. destruct (cp_time grids HV l Hl 1 T) as [L1 T1].
  exists (nth 1 (all_cpts grids l) 0), w. split; [exact E|]. split; [lia|]. split; [exact L1|]. split; [symmetry; exact T1|]. 
  set (m := nth 1 (all_cpts grids l) 0) in *. split.
  - intros Ew Hm.
    assert (Q : forall j, j < length coarse -> nth j (all_cpts grids l) 0 = j * m).
    { induction j as [|j IH]; intros Hj; [rewrite Z0; reflexivity|]. specialize (IH ltac:(lia)).
      pose proof (close_small _ _ Hm ((proj1 Hw Ew) j Hj)) as C. pose proof (cp_lt grids HV l Hl j Hj). simpl. lia. }
    intros j Hj. rewrite <- Q by exact Hj. destruct (cp_time grids HV l Hl j Hj) as [Lj Tj]. split; [exact Lj|symmetry; exact Tj].
  - intros Ew.
    assert (D : (exists j, j < length coarse /\ nth j (all_cpts grids l) 0 <> j * m) \/ forall j, j < length coarse -> nth j (all_cpts grids l) 0 = j * m).
    { clear. induction (length coarse) as [|n IH]; [right; lia|]. destruct IH as [(j & Hj & Nj)|IH]; [left; exists j; split; [lia|exact Nj]|].
      destruct (Nat.eq_dec (nth n (all_cpts grids l) 0) (n * m)) as [Y|Y]; [right|left; exists n; split; [lia|exact Y]].
      intros j Hj. destruct (Nat.eq_dec j n) as [->|]; [exact Y|apply IH; lia]. }
    destruct D as [(j & Hj & Nj)|D].
    + exists j. split; [exact Hj|]. destruct (cp_time grids HV l Hl j Hj) as [Lj Tj].
      destruct (le_lt_dec (length fine) (j * m)) as [Y|Y]; [left; exact Y|right]. intros X. apply Nj. apply (index_inj grids HV l Hl); [exact Lj|exact Y|].
      rewrite Tj. exact X.
    + exfalso. assert (w = false); [|congruence]. apply Hw. intros i Hi. change (length (nth (S l) grids [])) with (length coarse) in Hi.
      rewrite (D (S i) Hi), (D i) by lia. replace (S i * m - i * m) with m by lia. apply close_refl.
Qed.

(** For large factors np.isclose hides a difference of one: 0, a, 2a+1 on 0, 1, ..., 2a+1 gives no warning for a >= 100000. *)
Definition uneven (a : nat) : list (list Z) := [map Z.of_nat (seq 0 (2 * a + 2)); [0; Z.of_nat a; Z.of_nat (2 * a + 1)]%Z].
Lemma uneven_nth a i : i < 2 * a + 2 -> nth i (map Z.of_nat (seq 0 (2 * a + 2))) 0%Z = Z.of_nat i.
Proof. intros Hi. change 0%Z with (Z.of_nat 0). rewrite map_nth, seq_nth by exact Hi. reflexivity. Qed.
Lemma uneven_valid a : 0 < a -> valid_hierarchy (uneven a).
Proof.
  intros Ha. split; [discriminate|]. split.
  - intros [|[|l]] Hl; [| |simpl in Hl; lia].
    + split; [|unfold uneven; cbn [nth]; intros H; apply (f_equal (@length Z)) in H; rewrite map_length, seq_length in H; simpl in H; lia].
      assert (Q : forall n s, StronglySorted Z.lt (map Z.of_nat (seq s n))).
      { induction n as [|n IH]; intros s; cbn [seq map]; constructor; [apply IH|].
        apply Forall_forall. intros x Hx. apply in_map_iff in Hx. destruct Hx as (i & <- & Hi). apply in_seq in Hi. lia. }
      apply Q.
    + split; [|discriminate]. unfold uneven. cbn [nth]. repeat constructor; lia.
  - intros [|l] Hl; [|simpl in Hl; lia]. unfold uneven. cbn [nth]. split; [|split; [|simpl; lia]].
    + intros x Hx. apply in_map_iff. destruct Hx as [<-|[<-|[<-|[]]]].
      * exists 0. split; [reflexivity|apply in_seq; lia].
      * exists a. split; [reflexivity|apply in_seq; lia].
      * exists (2 * a + 1). split; [reflexivity|apply in_seq; lia].
    + replace (2 * a + 2) with (S (2 * a + 1)) by lia. reflexivity.
Qed.
Lemma uneven_cpts a : 0 < a -> all_cpts (uneven a) 0 = [0; a; 2 * a + 1].
Proof.
  intros Ha. change (all_cpts (uneven a) 0) with (np_where (fun t => memz t [0; Z.of_nat a; Z.of_nat (2 * a + 1)]%Z) (map Z.of_nat (seq 0 (2 * a + 2)))).
  apply ssorted_ext; [apply np_where_sorted|repeat constructor; lia|].
  intros i. rewrite (np_where_in _ _ _ 0%Z), map_length, seq_length. split.
  - intros [Hi H]. rewrite uneven_nth in H by exact Hi. apply memz_in in H. simpl. destruct H as [H|[H|[H|[]]]]; lia.
  - intros Hi. assert (B : i < 2 * a + 2) by (destruct Hi as [<-|[<-|[<-|[]]]]; lia). split; [exact B|]. rewrite uneven_nth by exact B. apply memz_in.
    destruct Hi as [<-|[<-|[<-|[]]]]; simpl; auto.
Qed.
Theorem C74_large_factors_refuted : ~ (forall grids l m, valid_hierarchy grids -> S l < length grids -> coarsening grids l = Some (m, false) ->
  forall j, j < length (nth (S l) grids []) -> nth j (nth (S l) grids []) 0%Z = nth (j * m) (nth l grids []) 0%Z).
Proof.
  intros H. assert (X : exists a, Z.of_nat a = 100000%Z) by (exists (Z.to_nat 100000); apply Z2Nat.id; lia). destruct X as [a Ha].
  specialize (H (uneven a) 0 a (uneven_valid a ltac:(lia)) ltac:(simpl; lia)).
  assert (C : coarsening (uneven a) 0 = Some (a, false)).
  { unfold coarsening. rewrite uneven_cpts by lia. unfold np_diff. cbn [tl combine map fst snd]. replace (a - 0) with a by lia. f_equal. f_equal.
    apply negb_false_iff. cbn [forallb]. rewrite close_refl. cbn [andb]. rewrite andb_true_r. unfold isclose. apply Z.leb_le. lia. }
  specialize (H C 2 ltac:(simpl; lia)). unfold uneven in H. cbn [nth] in H. rewrite uneven_nth in H by lia. lia.
Qed.

(** ** The overview *)
Lemma steps_nth (t : list Z) : map (fun p => (snd p - fst p)%Z) (combine t (tl t)) = map (fun i => (nth (S i) t 0 - nth i t 0)%Z) (seq 0 (length t - 1)).
Proof.
  induction t as [|a [|b t] IH]; [reflexivity..|]. cbn [tl combine map length Nat.sub seq nth fst snd] in *. f_equal. rewrite IH. rewrite Nat.sub_0_r. rewrite <- seq_shift, map_map. reflexivity.
Qed.
Lemma fold_max_spec l : forall d, In (fold_left Z.max l d) (d :: l) /\ forall x, In x (d :: l) -> (x <= fold_left Z.max l d)%Z.
Proof.
  induction l as [|a l IH]; intros d; cbn [fold_left]; [split; [left; reflexivity|intros x [->|[]]; lia]|].
  destruct (IH (Z.max d a)) as [H1 H2]. split.
  - destruct H1 as [H1|H1]; [|right; right; exact H1]. rewrite <- H1. destruct (Z.max_spec d a) as [[_ ->]|[_ ->]]; [right; left|left]; reflexivity.
  - intros x [->|[->|Hx]]; [|specialize (H2 _ (or_introl eq_refl)); lia|apply H2; right; exact Hx]. specialize (H2 _ (or_introl eq_refl)). lia.
Qed.
Lemma max_dt_spec t : 2 <= length t -> exists d, max_dt t = Some d /\ (forall i, S i < length t -> (nth (S i) t 0 - nth i t 0 <= d)%Z) /\
  exists i, S i < length t /\ (nth (S i) t 0 - nth i t 0 = d)%Z.
Proof.
  intros Ht. unfold max_dt. rewrite steps_nth. destruct (map _ _) as [|d ds] eqn:E.
  { apply (f_equal (@length Z)) in E. rewrite map_length, seq_length in E. simpl in E. lia. }
  destruct (fold_max_spec ds d) as [H1 H2]. exists (fold_left Z.max ds d). split; [reflexivity|]. rewrite <- E in H1, H2. split.
  - intros i Hi. apply H2. apply (in_map (fun i => (nth (S i) t 0 - nth i t 0)%Z)). apply in_seq. lia.
  - apply in_map_iff in H1. destruct H1 as (i & E1 & Hi). apply in_seq in Hi. exists i. split; [lia|exact E1].
Qed.
Lemma factors_some grids : valid_hierarchy grids -> forall ls, (forall l, In l ls -> S l < length grids) ->
  exists ms, factors grids ls = Some ms /\ length ms = length ls /\ forall i, i < length ls -> exists w, coarsening grids (nth i ls 0) = Some (nth i ms 0, w).
Proof.
  intros HV. induction ls as [|l ls IH]; intros H; [exists []; split; [reflexivity|split; [reflexivity|simpl; lia]]|].
  destruct (IH (fun k Hk => H k (or_intror Hk))) as (ms & E & Lm & Hm). destruct (coarsening_some grids HV l (H l (or_introl eq_refl))) as (w & Ec & _).
  cbn [factors]. rewrite Ec, E. eexists. split; [reflexivity|]. split; [simpl; lia|]. intros [|i] Hi; [exists w; exact Ec|]. apply Hm. simpl in Hi. lia.
Qed.

(** The overview of an accepted setup: the time interval contains all time points and both ends are time points; the largest step is one of the steps and
    none is larger; the factors are those of the levels. *)
Theorem C74_run_information : forall (A : App) (o : Opts A) P sizes,
  valid_hierarchy (o_grids o) -> 2 <= length (nth 0 (o_grids o) []) ->
  let t := nth 0 (o_grids o) [] in
  exists info, run_information o P sizes = Some info /\
    In (ri_start _ info) t /\ In (ri_stop _ info) t /\ (forall x, In x t -> (ri_start _ info <= x <= ri_stop _ info)%Z) /\
    ri_points _ info = length t /\ (0 < ri_max_dt _ info)%Z /\
    (forall i, S i < length t -> (nth (S i) t 0 - nth i t 0 <= ri_max_dt _ info)%Z) /\
    (exists i, S i < length t /\ (nth (S i) t 0 - nth i t 0 = ri_max_dt _ info)%Z) /\
    ri_levels _ info = length (o_grids o) /\ length (ri_factors _ info) = length (o_grids o) - 1 /\
    (forall l, S l < length (o_grids o) -> exists w, coarsening (o_grids o) l = Some (nth l (ri_factors _ info) 0, w)).
Proof.
  intros A o P sizes HV Ht t. destruct (max_dt_spec t Ht) as (d & Ed & Hd & Hx).
  destruct (factors_some (o_grids o) HV (seq 0 (length (o_grids o) - 1))) as (ms & Em & Lm & Hm); [intros l Hl; apply in_seq in Hl; lia|].
  rewrite seq_length in Lm, Hm. unfold run_information. fold t. rewrite Ed, Em. eexists. split; [reflexivity|].
  cbn [ri_start ri_stop ri_points ri_max_dt ri_levels ri_factors].
  assert (HS : StronglySorted Z.lt t). { destruct HV as (H0 & H1 & _). apply (H1 0). destruct (o_grids o); [congruence|simpl; lia]. }
  pose proof (ssorted_incr _ HS) as Inc. fold t in Ht.
  assert (La : last t 0%Z = nth (length t - 1) t 0%Z).
  { clear. induction t as [|a [|b t] IH]; [reflexivity..|]. change (last (a :: b :: t) 0%Z) with (last (b :: t) 0%Z). rewrite IH. cbn [length]. replace (S (S (length t)) - 1) with (S (S (length t) - 1)) by lia. reflexivity. }
  rewrite La. split; [apply nth_In; lia|]. split; [apply nth_In; lia|]. split.
  { intros x Hx'. apply (In_nth _ _ 0%Z) in Hx'. destruct Hx' as (i & Hi & <-). split.
    - destruct i as [|i]; [lia|]. pose proof (Inc 0 (S i) ltac:(lia) Hi). lia.
    - destruct (Nat.eq_dec i (length t - 1)) as [->|]; [lia|]. pose proof (Inc i (length t - 1) ltac:(lia) ltac:(lia)). lia. }
  split; [reflexivity|]. split. { destruct Hx as (i & Hi & <-). pose proof (Inc i (S i) ltac:(lia) Hi). lia. }
  split; [exact Hd|]. split; [exact Hx|]. split; [reflexivity|]. split; [exact Lm|]. intros l Hl. destruct (Hm l ltac:(lia)) as [w Hw]. rewrite seq_nth in Hw by lia. exists w. exact Hw.
Qed.
(** With a single time point the overview fails (after the solve). *)
Theorem C74_single_point : forall (A : App) (o : Opts A) P sizes, length (nth 0 (o_grids o) []) <= 1 -> run_information o P sizes = None.
Proof. intros A o P sizes H. unfold run_information, max_dt. rewrite steps_nth. replace (length (nth 0 (o_grids o) []) - 1) with 0 by lia. reflexivity. Qed.

(** ** The lines of the iterations *)
(** Any run with tol > 0: after the first iteration the divisor of every logged factor is at least tol; the factors relate the logged values, their product
    leads from the first to the last one, and the last factor of a run that stops before the last allowed iteration is below 1. *)
Local Open Scope R_scope.
Lemma div_mul (a b : R) : b <> 0 -> a = a / b * b.
Proof. intros H. field. exact H. Qed.
Theorem C74_logged_convergence : forall (C : VClass) step template init tm,
  let A := app_of C step template init tm in
  forall wf (o : Opts A) P n cfg, good_setup wf o P -> 0 < o_tol o ->
  steps P n (initial (mgrit_main o P)) cfg -> stuck P cfg ->
  exists res k, finished P res cfg /\ (forall r, (r < P)%nat -> s_iter (res r) = k) /\
    let conv : list R := s_conv (res (P - 1)%nat) in
    let lines := map (iter_line Rdiv 0 conv) (seq 0 k) in
    length lines = k /\
    (forall i, (i < k)%nat -> exists f, nth_error lines i = Some ((i + 1)%nat, nth (i + 1) conv 0, f) /\ (f = None <-> i = 0%nat) /\
       forall q, f = Some q -> o_tol o <= nth i conv 0 /\ nth (i + 1) conv 0 = q * nth i conv 0 /\ (S i = k -> (k < o_max_iter o)%nat -> q < 1)) /\
    ((0 < k)%nat -> nth k conv 0 = fold_left (fun c line => match snd line with Some q => q * c | None => c end) lines (nth 1 conv 0)).
Proof.
  intros C step template init tm A wf o P n cfg G Ht H St.
  destruct (@run_facts A wf o P n cfg G H St) as (res & k & F & _ & _ & _ & Hk & Hc & Hlt & Hst & _). exists res, k. split; [exact F|]. split; [exact Hk|].
  intros conv lines. pose proof (gs_procs _ _ _ G) as HP. assert (Ec : conv = gconv (iterate o (init_guess o P) k)) by (apply Hc; lia).
  rewrite <- Ec in Hlt, Hst.
  assert (Big : forall j, (0 < j < k)%nat -> o_tol o <= nth j conv 0).
  { intros j Hj. specialize (Hlt j Hj). change (sc_zero A) with 0 in Hlt. cbn [A app_of sc_lt] in Hlt. destruct (Rlt_dec _ _) as [|Y]; [discriminate|]. apply Rnot_lt_le. exact Y. }
  split; [unfold lines; rewrite map_length, seq_length; reflexivity|]. split.
  - intros i Hi. unfold lines. rewrite nth_error_map.
    replace (nth_error (seq 0 k) i) with (Some i) by (symmetry; rewrite (nth_error_nth' _ 0%nat) by (rewrite seq_length; exact Hi); rewrite seq_nth by exact Hi; reflexivity).
    cbn [option_map]. unfold iter_line. eexists. split; [reflexivity|]. destruct i as [|i]; cbn [Nat.eqb]; [split; [tauto|discriminate]|].
    split; [split; discriminate|]. intros q E. injection E as <-. specialize (Big (S i) ltac:(lia)). split; [exact Big|]. split; [apply div_mul; lra|].
    intros Ek Hm. specialize (Hst Hm). change (sc_zero A) with 0 in Hst. cbn [A app_of sc_lt] in Hst. destruct (Rlt_dec _ _) as [Y|]; [|discriminate].
    replace k with (S i + 1)%nat in Y by lia. apply (Rmult_lt_reg_r (nth (S i) conv 0)); [lra|].
    unfold Rdiv. rewrite Rmult_assoc, Rinv_l by lra. rewrite Rmult_1_r, Rmult_1_l. eapply Rlt_le_trans; [exact Y|exact Big].
  - intros Hk0. unfold lines.
    assert (Q : forall m, (m < k)%nat -> fold_left (fun c line => match snd line with Some q => q * c | None => c end) (map (iter_line Rdiv 0 conv) (seq 0 (S m))) (nth 1 conv 0) = nth (S m) conv 0).
    { induction m as [|m IH]; intros Hm; [reflexivity|]. replace (S (S m)) with (S m + 1)%nat at 1 by lia. rewrite seq_app, map_app, fold_left_app, IH by lia.
      cbn [seq map fold_left Nat.add]. unfold iter_line. cbn [Nat.eqb snd]. replace (S m + 1)%nat with (S (S m)) by lia. specialize (Big (S m) ltac:(lia)). symmetry. apply div_mul. lra. }
    destruct k as [|k']; [lia|]. symmetry. apply Q. lia.
Qed.

Local Open Scope nat_scope.
Example C74_example_overview :
  valid_hierarchy (o_grids (zopts3 0 5)) /\ 2 <= length (nth 0 (o_grids (zopts3 0 5)) []) /\
  run_information (zopts3 0 5) 4 1 = Some (mkRI zapp 0 16 17 1 3 [2; 4] (1%Z : Sc zapp) [1; 1]%Z true (Some true) (1%Z : Sc zapp) 4 1 (Some 0%Z)).
Proof. split; [apply valid_hierarchyb_ok; reflexivity|]. split; [simpl; lia|]. vm_compute. reflexivity. Qed.
Example C74_example_factors :
  let even := [map Z.of_nat (seq 0 8); [0; 2; 4; 6]%Z] in let odd := [[0; 1; 2; 3; 4; 5; 9]%Z; [0; 2; 5]%Z] in
  valid_hierarchy even /\ coarsening even 0 = Some (2, false) /\ valid_hierarchy odd /\ coarsening odd 0 = Some (2, true) /\ max_dt (nth 0 odd []) = Some 4%Z.
Proof. cbv zeta. split; [apply valid_hierarchyb_ok; reflexivity|]. split; [reflexivity|]. split; [apply valid_hierarchyb_ok; reflexivity|]. split; reflexivity. Qed.
Example C74_example_single : length (nth 0 [[3%Z]] []) <= 1 /\ max_dt [3%Z] = None.
Proof. split; [simpl; lia|reflexivity]. Qed.
Example C74_example_writers : map (fun r => map (fun s => log_info 3 r (Some s) true) [0; 1]) [0; 1; 2] = [[[]; []]; [[]; []]; [[true]; []]].
Proof. reflexivity. Qed.
Example C74_example_lines : map (iter_line (fun x y => Z.div y x) 0%Z [0; 64; 16; 2]%Z) (seq 0 3) = [(1, 64%Z, None); (2, 16%Z, Some 4%Z); (3, 2%Z, Some 8%Z)].
Proof. reflexivity. Qed.
Example C74_hypotheses_hold : forall P, 0 < P -> P <= 129 -> exists L,
  let A := advection_app (-1) 1 3 L example_time in let o := example_opts A 1%R (1 / 10000000)%R in
  @good_setup A (fun _ => arr_wf 2) o P /\ (0 < o_tol o)%R.
Proof. intros P HP HP'. destruct (C70_hypotheses_hold P HP HP') as (L & _ & G & _). exists L. cbv zeta. split; [exact G|]. change (0 < 1 / 10000000)%R. lra. Qed.

Print Assumptions C74_one_writer.
Print Assumptions C74_coarsening_factors.
Print Assumptions C74_large_factors_refuted.
Print Assumptions C74_run_information.
Print Assumptions C74_single_point.
Print Assumptions C74_logged_convergence.
Print Assumptions C74_hypotheses_hold.
