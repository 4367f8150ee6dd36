(** C64: MGRIT with the user-defined stopping criterion of examples/example_convergence_criterion.py. *)
From Coq Require Import Reals Lra List ZArith Lia Arith Bool.
From Verif Require Import Net NetProofs NetExec NetPhase PyList ListFacts Setup Spec SetupProofs Mgrit Reference Sim Main RefProofs Algebra PropAlgebra Vectors Spatial Custom CustomProofs ExampleApp OrderProofs PropSpatial.
Import ListNotations.

(** The value the criterion gives for two successive approximations [old] and [new] of all C-points of the finest level, the first
    point included; before the first iteration the old rows are zero. *)
Definition all_rows {A : App} (cr : UserCrit A) (o : Opts A) (u : nat -> Vec A) : list (uRow cr) :=
  map (fun i => u_row cr (u i)) (filter (cpoint (o_grids o) 0) (seq 0 (length (nth 0 (o_grids o) [])))).
Definition criterion {A : App} (cr : UserCrit A) (o : Opts A) (approx : nat -> nat -> Vec A) (j : nat) : Sc A :=
  let new := all_rows cr o (approx j) in
  let old := match j with 0 => repeat (u_zero cr (tstart A 0)) (length new) | S i => all_rows cr o (approx i) end in
  u_global cr [u_local cr old new].

(** Every execution on any number of processes ends; the approximations are those of Mgrit (the same [iterate]), only the number of
    iterations follows from the new criterion; all processes agree on number of iterations and history; the value of the constructor
    stands in front of the history. Output calls as in Mgrit. *)
Theorem C64_every_execution :
  forall (A : App) (wf : nat -> Vec A -> Prop) (cr : UserCrit A) (o : Opts A) (P : nat),
  good_setup wf o P -> crit_laws wf cr ->
  let approx := fun j => gu (iterate o (init_guess o P) j) 0 in
  let n_points := length (nth 0 (o_grids o) []) in
  exists n res k,
    (forall m d, steps P m (initial (custom_main cr o P)) d ->
       m <= n /\ (exists c, steps P (n - m) d c /\ finished P res c) /\ (stuck P d -> m = n /\ finished P res d)) /\
    k <= o_max_iter o /\ (0 < o_max_iter o -> 0 < k) /\
    (forall j, 0 < j < k -> sc_lt A (criterion cr o approx j) (o_tol o) = false) /\
    (k < o_max_iter o -> sc_lt A (criterion cr o approx k) (o_tol o) = true) /\
    gathered P (fun r => s_u (fst (res r)) 0) = map (approx k) (seq 0 n_points) /\
    (forall r, r < P -> s_iter (fst (res r)) = k /\
       s_conv (fst (res r)) = map (criterion cr o approx) (seq 0 (S k)) ++ repeat (sc_zero A) (o_max_iter o - k)) /\
    let outputs := if o_has_output o then if (o_output_lvl o =? 2)%Z then seq 0 (S k) else if (o_output_lvl o =? 1)%Z then [k] else [] else [] in
    (forall r, r < P -> map fst (s_out (fst (res r))) = outputs) /\
    (forall i j, nth_error outputs i = Some j ->
       gathered P (fun r => snd (nth i (s_out (fst (res r))) (0, []))) = map (approx j) (seq 0 n_points)).
Proof.
  intros A wf cr o P G CL approx np. destruct (custom_main_sim wf cr o P G CL) as (x & F & R).
  destruct (phase_finishes P _ _ F) as (n & c & H1 & H2). pose proof (rel_agrees wf o P G _ _ R) as [Au Ac Ai Ao Av].
  destruct (c_main_result cr o (init_guess o P)) as (k & K1 & K2 & Ku & Ki & Kc & Kf & Ks & Ko). exists n, x, k.
  assert (Ev : forall j, c_value cr o (init_guess o P) j = criterion cr o approx j).
  { intros [|j]; unfold criterion, all_rows; cbv zeta; [rewrite map_length|]; reflexivity. }
  split.
  { intros m d Hd. destruct (finished_unique P n _ _ x H2 H1 m d Hd) as (X & Y & Z). eauto. }
  split; [exact K1|]. split; [exact K2|]. split; [intros j Hj; rewrite <- Ev; auto|]. split; [intros Hk; rewrite <- Ev; auto|].
  split; [rewrite Au; apply map_ext; exact Ku|]. split.
  { intros r Hr. split; [rewrite (Ai r Hr); exact Ki|]. rewrite (Ac r Hr), Kc.
    replace (o_max_iter o + 1) with (S k + (o_max_iter o - k)) by lia. rewrite seq_app, map_app. f_equal.
    - apply map_ext_in. intros j Hj. apply in_seq in Hj. rewrite (proj2 (Nat.leb_le j k)) by lia. apply Ev.
    - cbn [plus]. generalize (o_max_iter o - k). intros q. assert (Y : forall b, k < b -> map (fun j => if j <=? k then c_value cr o (init_guess o P) j else sc_zero A) (seq b q) = repeat (sc_zero A) q); [|apply Y; lia].
      induction q as [|q IH]; intros b Hb; [reflexivity|]. cbn [seq map repeat]. rewrite IH by lia. rewrite (proj2 (Nat.leb_gt b k)) by lia. reflexivity. }
  intros outputs. fold outputs in Ko. split.
  - intros r Hr. rewrite (Ao r Hr). clear - Ko. induction Ko as [|a b l l' [E _] _ IH]; cbn [map]; congruence.
  - intros i j Hj. assert (E : exists f, nth_error (gout (c_main cr o (init_guess o P))) i = Some (j, f) /\ forall p, f p = approx j p).
    { clear - Ko Hj. revert i Hj. induction Ko as [|a b l l' [E1 E2] _ IH]; intros [|i] Hj; try discriminate.
      - injection Hj as ->. destruct a as [a f]. cbn [fst snd] in *. subst a. exists f. split; [reflexivity|exact E2].
      - apply IH. exact Hj. }
    destruct E as (f & Ef & Ep). rewrite (Av i j f Ef). apply map_ext. exact Ep.
Qed.

(** The result does not depend on the number of processes (without random initial guess). *)
Theorem C64_process_count_independence :
  forall (A : App) (wf : nat -> Vec A -> Prop) (cr : UserCrit A) (o : Opts A) (P P' n n' : nat) c c',
  good_setup wf o P -> good_setup wf o P' -> crit_laws wf cr -> o_rand o = None ->
  steps P n (initial (custom_main cr o P)) c -> stuck P c ->
  steps P' n' (initial (custom_main cr o P')) c' -> stuck P' c' ->
  exists res res', finished P res c /\ finished P' res' c' /\
    gathered P (fun r => s_u (fst (res r)) 0) = gathered P' (fun r => s_u (fst (res' r)) 0) /\
    (forall r r', r < P -> r' < P' -> s_conv (fst (res r)) = s_conv (fst (res' r')) /\ s_iter (fst (res r)) = s_iter (fst (res' r'))).
Proof.
  intros A wf cr o P P' n n' c c' G G' CL Hr H S H' S'.
  destruct (custom_main_sim wf cr o P G CL) as (x & F & R). destruct (custom_main_sim wf cr o P' G' CL) as (x' & F' & R').
  destruct (phase_finishes P _ _ F) as (m & d & H1 & H2). destruct (phase_finishes P' _ _ F') as (m' & d' & H1' & H2').
  pose proof (rel_agrees wf o P G _ _ R) as [Au Ac Ai _ _]. pose proof (rel_agrees wf o P' G' _ _ R') as [Au' Ac' Ai' _ _].
  rewrite (init_guess_zero o P Hr) in *. rewrite (init_guess_zero o P' Hr) in *.
  exists x, x'. split; [apply (finished_unique P m _ _ x H2 H1 n c H), S|]. split; [apply (finished_unique P' m' _ _ x' H2' H1' n' c' H'), S'|].
  split; [congruence|]. intros r r' Hr1 Hr2. rewrite (Ac r Hr1), (Ac' r' Hr2), (Ai r Hr1), (Ai' r' Hr2). auto.
Qed.

Local Open Scope R_scope.
(** ** The criterion of the example *)
Lemma max_list_nonneg l : 0 <= max_list l.
Proof. induction l as [|x l IH]; [apply Rle_refl|]. simpl. eapply Rle_trans; [exact IH|apply Rmax_r]. Qed.
Lemma max_list_ge l x : In x l -> x <= max_list l.
Proof. induction l as [|y l IH]; intros []; simpl; [subst; apply Rmax_l|]. eapply Rle_trans; [apply IH; auto|apply Rmax_r]. Qed.
Lemma max_list_app l l' : max_list (l ++ l') = Rmax (max_list l) (max_list l').
Proof.
  induction l as [|x l IH]; simpl; [symmetry; apply Rmax_right, max_list_nonneg|]. rewrite IH. apply Rmax_assoc.
Qed.
Lemma rows_change_nonneg old new : 0 <= rows_change old new.
Proof. unfold rows_change. pose proof (max_list_nonneg (map (fun x => row_change (fst x) (snd x)) (combine old new))). lra. Qed.
Lemma combine_app {B C} (a a' : list B) (b b' : list C) : length a = length b -> combine (a ++ a') (b ++ b') = combine a b ++ combine a' b'.
Proof. revert b. induction a as [|x a IH]; intros [|y b] H; try discriminate; [reflexivity|]. simpl. rewrite IH by (simpl in H; lia). reflexivity. Qed.
Lemma rows_change_app o1 o2 n1 n2 : length o1 = length n1 -> rows_change (o1 ++ o2) (n1 ++ n2) = Rmax (rows_change o1 n1) (rows_change o2 n2).
Proof.
  intros H. unfold rows_change. rewrite combine_app, map_app, max_list_app by auto. symmetry. apply RmaxRmult. lra.
Qed.

(** MgritCustomized for the vector class [C] with get_values [values], vectors of [n] numbers on the finest level *)
Definition example_criterion (C : VClass) (values : cV C -> list R) step rest intp templ init tm : UserCrit (app_with C step rest intp templ init tm) :=
  @mkCrit (app_with C step rest intp templ init tm) (list R) values (fun v => repeat 0 (length (values v))) rows_change 0 max_abs.
Lemma example_laws C values step rest intp templ init tm (wf : nat -> cV C -> Prop) n :
  (forall x, wf 0%nat x -> length (values x) = n) -> @crit_laws (app_with C step rest intp templ init tm) wf (example_criterion C values step rest intp templ init tm).
Proof.
  intros Hn. constructor; cbn [u_zero example_criterion u_global u_local u_none uRow].
  - intros x y Hx Hy. rewrite (Hn x Hx), (Hn y Hy). reflexivity.
  - intros parts HL _. transitivity (rows_change (concat (map fst parts)) (concat (map snd parts))).
    + change (max_list (map Rabs (map (fun p : list (list R) * list (list R) => match snd p with [] => 0 | _ => rows_change (fst p) (snd p) end) parts)) =
              rows_change (concat (map fst parts)) (concat (map snd parts))).
      induction parts as [|[old new] parts IH]; [unfold rows_change; simpl; lra|].
      cbn [map concat fst snd]. rewrite rows_change_app by (apply (HL (old, new)); left; reflexivity). cbn [max_list fold_right].
      unfold max_list in IH. rewrite IH by (intros p Hp; apply HL; right; exact Hp). f_equal. destruct new as [|row new].
      * rewrite Rabs_R0. specialize (HL (old, []) (or_introl eq_refl)). cbn [fst snd] in HL. destruct old; [|discriminate]. unfold rows_change. simpl. lra.
      * apply Rabs_pos_eq, rows_change_nonneg.
    + unfold max_abs. cbn [map max_list fold_right]. rewrite (Rmax_left _ 0) by (apply Rabs_pos).
      symmetry. apply Rabs_pos_eq, rows_change_nonneg.
Qed.

Lemma iterate_vec_wf {A : App} (wf : nat -> Vec A -> Prop) (o : Opts A) P : good_setup wf o P -> forall j p,
  (p < length (nth 0 (o_grids o) []))%nat -> wf 0%nat (gu (iterate o (init_guess o P) j) 0%nat p).
Proof.
  intros G j p Hp.
  pose proof (gwf_iterate wf o (gs_laws _ _ _ G) (gs_grids _ _ _ G) (init_guess o P) j (fun i _ => guess_wf _ _ _ G i)) as W.
  apply W; [|exact Hp]. pose proof (gs_grids _ _ _ G) as [X _]. destruct (o_grids o); [congruence|simpl; lia].
Qed.
(** If the run stops before the last iteration, every component of every C-point that is not zero changed by less than tol percent
    in the last iteration. *)
Theorem C64_small_change :
  forall C values step rest intp templ init tm (wf : nat -> cV C -> Prop) size P,
  (forall x, wf 0%nat x -> length (values x) = size) ->
  let A := app_with C step rest intp templ init tm in
  forall o : Opts A, @good_setup A wf o P ->
  let cr := example_criterion C values step rest intp templ init tm in
  let approx := fun j => gu (@iterate A o (init_guess o P) j) 0%nat in
  exists n res k,
    (forall m d, steps P m (initial (custom_main cr o P)) d -> (m <= n)%nat /\ (stuck P d -> finished P res d)) /\
    gathered P (fun r => s_u (fst (res r)) 0%nat) = map (approx k) (seq 0 (length (nth 0 (o_grids o) []))) /\
    ((k < o_max_iter o)%nat -> (0 < k)%nat /\
     forall i c, (i < length (nth 0 (o_grids o) []))%nat -> cpoint (o_grids o) 0 i = true -> (c < size)%nat ->
       let old := nth c (values (approx (k - 1)%nat i)) 0 in
       let new := nth c (values (approx k i)) 0 in
       new <> 0 -> 100 * Rabs (new - old) < o_tol o * Rabs new).
Proof.
  intros C values step rest intp templ init tm wf size P Hsz A o G cr approx.
  destruct (C64_every_execution A wf cr o P G (example_laws C values step rest intp templ init tm wf size Hsz))
    as (n & res & k & X1 & K1 & K2 & _ & Ks & Ku & _). exists n, res, k.
  split; [intros m d Hd; destruct (X1 m d Hd) as (a & _ & b); split; [exact a|]; intros Sd; apply (b Sd)|]. split; [exact Ku|].
  intros Hk. assert (Hk0 : (0 < k)%nat) by (apply K2; lia). split; [exact Hk0|]. intros i c Hi Hc Hcs old new Hnew.
  specialize (Ks Hk). cbn [A app_with sc_lt] in Ks.
  destruct (Rlt_dec _ _) as [Hlt|]; [|discriminate]. clear Ks.
  assert (Hw : forall j p, (p < length (nth 0 (o_grids o) []))%nat -> length (values (approx j p)) = size).
  { intros j p Hp. apply Hsz. apply (@iterate_vec_wf A wf o P G j p Hp). }
  destruct k as [|k]; [lia|]. assert (Eo : old = nth c (values (approx k i)) 0) by (unfold old; rewrite Nat.sub_succ, Nat.sub_0_r; reflexivity). clearbody old. unfold criterion in Hlt. cbv zeta in Hlt.
  cbn [cr example_criterion u_global u_local] in Hlt. unfold max_abs in Hlt. cbn [map max_list fold_right] in Hlt.
  rewrite (Rmax_left _ 0), (Rabs_pos_eq (rows_change _ _)) in Hlt by (apply Rabs_pos || apply rows_change_nonneg).
  unfold rows_change, all_rows in Hlt. fold approx in Hlt.
  set (pts := filter _ _) in Hlt. assert (Hip : In i pts) by (apply filter_In; split; [apply in_seq; lia|exact Hc]).
  assert (Hr : row_change (values (approx k i)) (values (approx (S k) i)) <= max_list (map (fun x => row_change (fst x) (snd x))
     (combine (map (fun i => values (approx k i)) pts) (map (fun i => values (approx (S k) i)) pts)))).
  { apply max_list_ge. apply in_map_iff. exists (values (approx k i), values (approx (S k) i)). split; [reflexivity|].
    clear - Hip. induction pts as [|p pts IH]; [destruct Hip|]. destruct Hip as [->|Hip]; [left; reflexivity|right; apply IH, Hip]. }
  assert (Hc' : rel_change old new <= row_change (values (approx k i)) (values (approx (S k) i))).
  { unfold row_change. apply max_list_ge. apply in_map_iff. exists (old, new). split; [reflexivity|]. rewrite Eo. unfold new.
    rewrite <- combine_nth by (rewrite !Hw by auto; reflexivity). apply nth_In. rewrite combine_length, !Hw by auto. lia. }
  unfold rel_change in Hc'. destruct (Req_EM_T new 0) as [E|_]; [contradiction|]. rewrite Rabs_Rabsolu in Hc'. unfold Rdiv in Hc'. rewrite Rabs_mult, Rabs_inv in Hc'.
  change (u_row cr) with values in Hlt. cbn [u_row cr example_criterion] in Hlt.
  assert (Hpos : 0 < Rabs new) by (apply Rabs_pos_lt; exact Hnew).
  assert (Hq : 100 * (Rabs (new - old) * / Rabs new) < o_tol o) by (eapply Rle_lt_trans; [|exact Hlt]; apply Rmult_le_compat_l; [lra|]; eapply Rle_trans; [exact Hc'|exact Hr]).
  apply (Rmult_lt_compat_r (Rabs new)) in Hq; [|exact Hpos]. rewrite Rmult_assoc, Rmult_assoc, Rinv_l, Rmult_1_r in Hq by lra. exact Hq.
Qed.

(** The constructor's value: 100, if any component at a C-point differs from zero at the beginning; so the history returned by solve()
    starts with a value that belongs to no iteration. *)
Lemma rel_change_zero x : rel_change 0 x = if Req_EM_T x 0 then 0 else 1.
Proof.
  unfold rel_change. destruct (Req_EM_T x 0) as [E|E]; [reflexivity|]. replace ((x - 0) / x) with 1 by (field; exact E).
  rewrite Rabs_R1. apply Rabs_R1.
Qed.
Lemma row_change_zero n row : (length row <= n)%nat ->
  row_change (repeat 0 n) row = if existsb (fun x => if Req_EM_T x 0 then false else true) row then 1 else 0.
Proof.
  unfold row_change. revert n. induction row as [|x row IH]; intros n H; [destruct n; reflexivity|]. destruct n as [|n]; [simpl in H; lia|].
  cbn [repeat combine map max_list fold_right existsb fst snd]. rewrite rel_change_zero.
  specialize (IH n ltac:(simpl in H; lia)). unfold max_list in IH. rewrite IH. destruct (Req_EM_T x 0); cbn [orb].
  - apply Rmax_right. destruct (existsb _ row); lra.
  - apply Rmax_left. destruct (existsb _ row); lra.
Qed.
Lemma rows_change_zero n rows : (forall row, In row rows -> length row = n) ->
  rows_change (repeat (repeat 0 n) (length rows)) rows = if existsb (existsb (fun x => if Req_EM_T x 0 then false else true)) rows then 100 else 0.
Proof.
  intros H. unfold rows_change.
  assert (E : max_list (map (fun x => row_change (fst x) (snd x)) (combine (repeat (repeat 0 n) (length rows)) rows)) =
    if existsb (existsb (fun x => if Req_EM_T x 0 then false else true)) rows then 1 else 0).
  { induction rows as [|row rows IH]; [reflexivity|]. cbn [length repeat combine map max_list fold_right existsb fst snd].
    rewrite row_change_zero by (rewrite (H row) by (left; reflexivity); lia). unfold max_list in IH. rewrite IH by (intros; apply H; right; assumption).
    destruct (existsb _ row); cbn [orb].
    - apply Rmax_left. destruct (existsb _ rows); lra.
    - apply Rmax_right. destruct (existsb _ rows); lra. }
  rewrite E. destruct (existsb _ rows); lra.
Qed.
Theorem C64_constructor_value :
  forall C values step rest intp templ init tm (wf : nat -> cV C -> Prop) size P,
  (forall x, wf 0%nat x -> length (values x) = size) ->
  let A := app_with C step rest intp templ init tm in
  forall (o : Opts A) n c, @good_setup A wf o P ->
  let cr := example_criterion C values step rest intp templ init tm in
  let start := gu (@iterate A o (init_guess o P) 0) 0%nat in
  (exists i, (i < length (nth 0 (o_grids o) []))%nat /\ cpoint (o_grids o) 0 i = true /\ exists x, In x (values (start i)) /\ x <> 0) ->
  steps P n (initial (custom_main cr o P)) c -> stuck P c ->
  exists res, finished P res c /\
    forall r, (r < P)%nat -> hd_error (s_conv (fst (res r))) = Some 100 /\ hd_error (@result_conv A (fst (res r))) = Some 100.
Proof.
  intros C values step rest intp templ init tm wf size P Hsz A o n c G cr start (i & Hi & Hc & x & Hx & Hx0) H S.
  destruct (C64_every_execution A wf cr o P G (example_laws C values step rest intp templ init tm wf size Hsz))
    as (m & res & k & X1 & _ & _ & _ & _ & _ & Kc & _). exists res. split; [apply (X1 n c H), S|].
  assert (E : criterion cr o (fun j => gu (@iterate A o (init_guess o P) j) 0%nat) 0 = 100).
  { unfold criterion. cbv zeta. cbn [cr example_criterion u_global u_local u_zero].
    unfold max_abs. cbn [map max_list fold_right]. rewrite (Rmax_left _ 0), (Rabs_pos_eq (rows_change _ _)) by (apply Rabs_pos || apply rows_change_nonneg).
    assert (Hw : length (values (init 0%nat)) = size) by (apply Hsz, (wf_tstart A wf (gs_laws _ _ _ G) 0)).
    cbn [A app_with tstart]. rewrite Hw. rewrite rows_change_zero.
    - replace (existsb _ _) with true; [reflexivity|]. symmetry. apply existsb_exists. exists (values (start i)). split.
      + unfold all_rows. apply in_map_iff. exists i. split; [reflexivity|]. apply filter_In. split; [apply in_seq; split; [apply Nat.le_0_l|exact Hi]|exact Hc].
      + apply existsb_exists. exists x. split; [exact Hx|]. destruct (Req_EM_T x 0); [contradiction|reflexivity].
    - intros row Hr. apply in_map_iff in Hr. destruct Hr as (p & <- & Hp). apply filter_In in Hp. destruct Hp as [Hp _]. apply in_seq in Hp.
      apply Hsz. apply (@iterate_vec_wf A wf o P G 0%nat p). exact (proj2 Hp). }
  intros r Hr. destruct (Kc r Hr) as [_ Kr].
  assert (X : exists l, s_conv (fst (res r)) = 100 :: l).
  { eexists. etransitivity; [exact Kr|]. cbn [seq map app]. f_equal. exact E. }
  destruct X as [l X]. split; [etransitivity; [exact (f_equal (@hd_error R) X)|reflexivity]|].
  unfold result_conv. etransitivity; [exact (f_equal (fun x => hd_error (filter (fun c => negb (sc_is_zero A c)) x)) X)|].
  cbn [filter A app_with sc_is_zero]. destruct (Req_EM_T 100 0); [lra|]. reflexivity.
Qed.

(** ** Components that become zero are ignored
    Numbers as vectors (class [ints]): the step maps 0 to 4, 4 to 5, 3 to 0 and everything else to 3, the coarse step is 0, the initial
    guess is 1. *)
Definition ints : VClass := mkVClass Z Z Z.add Z.sub (fun x _ => x) (fun x => IZR (Z.abs x)) (fun x => x) (fun _ => 0%Z) (fun x => x) (fun _ d => d).
Definition jumpy (l : nat) (x : Z) (a b : R) : Z :=
  match l with O => if Z.eqb x 0 then 4%Z else if Z.eqb x 4 then 5%Z else if Z.eqb x 3 then 0%Z else 3%Z | _ => 0%Z end.
Definition ints_app : App := app_with ints jumpy (fun _ x => x) (fun _ x => x) (fun _ => 0%Z) (fun _ => 7%Z) IZR.
Definition ints_crit : UserCrit ints_app := example_criterion ints (fun x => [IZR x]) jumpy (fun _ x => x) (fun _ x => x) (fun _ => 0%Z) (fun _ => 7%Z) IZR.
Definition ints_opts : Opts ints_app :=
  mkOpts ints_app [grid_of 9 1; grid_of 5 2] 1 (1 : Sc ints_app) 20 (1 : Sc ints_app) false (CfInt 0) (Some false) 0 false 2
    (Some (fun _ _ => 1%Z : Vec ints_app)) 0 ascending_order.
Lemma ints_good P : (0 < P)%nat -> (P <= 9)%nat -> good_setup (fun _ _ => True) ints_opts P.
Proof.
  intros HP HP'. constructor.
  - constructor; simpl; auto; intros; discriminate.
  - apply valid_hierarchyb_ok. vm_compute. reflexivity.
  - apply no_adjacentb_ok. vm_compute. reflexivity.
  - simpl. lia.
  - exact HP.
  - transitivity (if (9 <? P)%nat then Some (UserException 10) else None); [lazy; reflexivity|]. replace (9 <? P)%nat with false by (symmetry; apply Nat.ltb_ge; lia). reflexivity.
  - left; reflexivity.
  - apply ascending_order_ok.
  - simpl; auto.
  - discriminate.
Qed.
(** With tolerance 1 every run on up to 9 processes stops after the first of 20 iterations; before it the C-points 2, 4, 6, 8 had the
    value 1, now 0, a change by 100 percent of the old value, and the result is not the solution. *)
Theorem C64_small_change_refuted : forall P n c, (0 < P)%nat -> (P <= 9)%nat ->
  steps P n (initial (custom_main ints_crit ints_opts P)) c -> stuck P c ->
  exists res, finished P res c /\ (forall r, (r < P)%nat -> s_iter (fst (res r)) = 1%nat) /\ o_max_iter ints_opts = 20%nat /\
    map (gu (iterate ints_opts (init_guess ints_opts P) 0) 0%nat) [0; 2; 4; 6; 8]%nat = [7; 1; 1; 1; 1]%Z /\
    gathered P (fun r => s_u (fst (res r)) 0%nat) = [7; 3; 0; 4; 0; 4; 0; 4; 0]%Z /\
    map (time_stepping ints_opts) (seq 0 9) = [7; 3; 0; 4; 5; 3; 0; 4; 5]%Z.
Proof.
  intros P n c HP HP' H S.
  pose proof (example_laws ints (fun x => [IZR x]) jumpy (fun _ x => x) (fun _ x => x) (fun _ => 0%Z) (fun _ => 7%Z) IZR (fun _ _ => True) 1 (fun _ _ => eq_refl)) as CL.
  destruct (C64_every_execution ints_app _ ints_crit ints_opts P (ints_good P HP HP') CL) as (m & res & k & X1 & K1 & K2 & Kf & _ & Ku & Kc & _).
  exists res. split; [apply (X1 n c H), S|].
  assert (k = 1%nat).
  { specialize (K2 ltac:(simpl; lia)). destruct k as [|[|k]]; [lia|reflexivity|]. specialize (Kf 1%nat ltac:(lia)). exfalso.
    assert (E : criterion ints_crit ints_opts (fun j => gu (iterate ints_opts (init_guess ints_opts P) j) 0%nat) 1 = 0).
    { unfold criterion. cbv zeta.
      assert (E0 : all_rows ints_crit ints_opts (gu (iterate ints_opts (init_guess ints_opts P) 0) 0%nat) = [[7]; [1]; [1]; [1]; [1]]) by (lazy; reflexivity).
      assert (E1 : all_rows ints_crit ints_opts (gu (iterate ints_opts (init_guess ints_opts P) 1) 0%nat) = [[7]; [0]; [0]; [0]; [0]]) by (lazy; reflexivity).
      rewrite E0, E1. cbn [ints_crit example_criterion u_global u_local].
      unfold max_abs, rows_change, row_change, rel_change. cbn [combine map max_list fold_right fst snd].
      destruct (Req_EM_T 7 0); [lra|]. destruct (Req_EM_T 0 0); [|lra]. replace ((7 - 7) / 7) with 0 by field.
      rewrite !Rabs_R0. repeat (rewrite (Rmax_left 0 0) by apply Rle_refl). rewrite Rmult_0_l || rewrite Rmult_0_r. rewrite Rabs_R0. apply Rmax_left, Rle_refl. }
    assert (X : sc_lt ints_app 0 (1 : Sc ints_app) = true) by (cbn [ints_app app_with sc_lt]; destruct (Rlt_dec 0 1); [reflexivity|lra]).
    rewrite E in Kf. change (o_tol ints_opts) with (1 : Sc ints_app) in Kf. rewrite X in Kf. discriminate. }
  subst k. split; [intros r Hr; apply (Kc r Hr)|]. split; [reflexivity|]. split; [lazy; reflexivity|].
  split; [rewrite Ku; lazy; reflexivity|lazy; reflexivity].
Qed.

(** The hypotheses hold for the heat equation with spatial coarsening (C63) and for the class of integers above. *)
Example C64_hypotheses_hold : forall P, (0 < P)%nat -> (P <= 129)%nat -> exists step rest intp templ init,
  let A := app_with VectorArr step rest intp templ init example_time in
  let o := example_opts A 1 (1 / 10000000) in
  @good_setup A (inner example_nx) o P /\ (forall x, inner example_nx 0 x -> length (a_vals x) = 15%nat) /\
  @crit_laws A (inner example_nx) (example_criterion VectorArr a_vals step rest intp templ init example_time) /\ o_rand o = None.
Proof.
  intros P HP HP'. destruct (C63_hypotheses_hold P HP HP') as (mat & _ & _ & _ & _ & G & _). eexists _, _, _, _, _. split; [exact G|].
  assert (X : forall x, inner example_nx 0 x -> length (a_vals x) = 15%nat) by (intros x [H1 H2]; cbn in *; congruence).
  split; [exact X|]. split; [|reflexivity]. apply (example_laws VectorArr a_vals _ _ _ _ _ _ _ 15 X).
Qed.
Example C64_constructor_hypotheses : forall P,
  (exists i, (i < length (nth 0 (o_grids ints_opts) []))%nat /\ cpoint (o_grids ints_opts) 0 i = true /\
     exists x, In x [IZR (gu (iterate ints_opts (init_guess ints_opts P) 0) 0%nat i)] /\ x <> 0).
Proof.
  intros P. exists 0%nat. split; [cbn; lia|]. split; [reflexivity|]. exists 7. split; [left; lazy; reflexivity|lra].
Qed.

Print Assumptions C64_every_execution.
Print Assumptions C64_process_count_independence.
Print Assumptions C64_small_change.
Print Assumptions C64_small_change_refuted.
Print Assumptions C64_constructor_value.
Print Assumptions C64_hypotheses_hold.
