(** C51 (two levels are parareal), C52 (convergence of the two-level method) and C53 (a small residual bounds the error). *)
From Coq Require Import List ZArith Lia Arith Bool Sorted Reals Lra.
From Verif Require Import Net NetProofs NetExec PyList ListFacts Setup Spec SetupProofs Mgrit Reference RefProofs Sim Main ParallelProofs ExampleApp
  OrderProofs Algebra PropAlgebra Parareal LinAlg Vectors Apps PropVectors.
Import ListNotations.
Local Open Scope nat_scope.

(** ** C51: two-level MGRIT with copy transfers is the parareal iteration
    Every value of the result: the C-points hold [k] parareal iterations of the start values (initial guess or nested
    iteration), the other points the fine propagation of the C-point before them; any non-linear fine and coarse steps, V or
    F cycle, any number of processes. *)
Theorem C51_two_level_is_parareal :
  forall (A : App) (wf : nat -> Vec A -> Prop) (zero : nat -> Vec A) (o : Opts A) (P n : nat) cfg,
  good_setup wf o P -> exact_laws A wf zero -> weight_one wf o -> length (o_grids o) = 2 -> o_dist o = None -> copying wf ->
  (forall x, wf 1 x -> vadd A (vzero A (vzero A (templ A 1))) x = x) ->
  steps P n (initial (mgrit_main o P)) cfg -> stuck P cfg ->
  exists res k, finished P res cfg /\ (forall r, r < P -> s_iter (res r) = k) /\
    forall j i, 0 < k -> j < length (nth 1 (o_grids o) []) -> i < length (nth 0 (o_grids o) []) ->
      fine_index (o_grids o) 0 j <= i -> (S j < length (nth 1 (o_grids o) []) -> i < fine_index (o_grids o) 0 (S j)) ->
      nth_error (gathered P (fun r => s_u (res r) 0)) i =
      Some (fine_steps o (fine_index (o_grids o) 0 j) (i - fine_index (o_grids o) 0 j)
             (parareal (vadd A) (vsub A) (fine_prop o) (coarse_prop o) (cf_count o 0) (start_values o (init_guess o P)) k j)).
Proof.
  intros A wf zero o P n cfg G HE HW H2 HD HC HZ H S.
  destruct (run_facts wf o P n cfg G H S) as (res & k & F & _ & _ & Hu & Hk & _). exists res, k.
  split; [exact F|]. split; [exact Hk|]. intros j i Hk0 Hj Hi Hlo Hhi. rewrite Hu, nth_error_map, ListFacts.nth_error_seq by lia. simpl. f_equal.
  pose proof (gs_grids _ _ _ G) as HV. pose proof (gs_laws _ _ _ G) as HL.
  destruct (iterate_parareal wf zero o HL HE HV HW H2 HD HC HZ (init_guess o P)) with (k := k) as [_ K]; [intros; apply guess_wf; auto|].
  rewrite <- (holds_at o HV H2 _ _ (K Hk0) j (i - fine_index (o_grids o) 0 j)).
  - f_equal. lia.
  - exact Hj.
  - unfold npts. lia.
  - intros Hs. specialize (Hhi Hs). lia.
Qed.

(** ** C52: convergence of the two-level method *)
Lemma stepping_fine {A : App} (o : Opts A) i n : time_stepping o (i + n) = fine_steps o i n (time_stepping o i).
Proof.
  induction n as [|n IH]; [rewrite Nat.add_0_r; reflexivity|]. rewrite Nat.add_succ_r. cbn [time_stepping fine_steps]. rewrite IH, Nat.add_succ_r. reflexivity.
Qed.
(** the last C-point before a point *)
Lemma last_cpoint {A : App} (o : Opts A) : valid_hierarchy (o_grids o) -> length (o_grids o) = 2 -> forall i, i < length (nth 0 (o_grids o) []) ->
  exists j, j < length (nth 1 (o_grids o) []) /\ fine_index (o_grids o) 0 j <= i /\
    (S j < length (nth 1 (o_grids o) []) -> i < fine_index (o_grids o) 0 (S j)).
Proof.
  intros HV H2 i Hi. pose proof (npos o HV 1 ltac:(rewrite H2; lia)) as Hn. unfold npts in Hn.
  assert (B : forall m, m < length (nth 1 (o_grids o) []) -> (exists j, j < length (nth 1 (o_grids o) []) /\ fine_index (o_grids o) 0 j <= i /\
    (S j < length (nth 1 (o_grids o) []) -> i < fine_index (o_grids o) 0 (S j))) \/ fine_index (o_grids o) 0 m <= i).
  { induction m as [|m IH]; intros Hm; [right; rewrite (c_0 o HV H2); lia|]. destruct (IH ltac:(lia)) as [X|X]; [left; exact X|].
    destruct (Nat.lt_ge_cases i (fine_index (o_grids o) 0 (S m))) as [Y|Y]; [|right; exact Y]. left. exists m. repeat split; auto; lia. }
  destruct (B (length (nth 1 (o_grids o) []) - 1) ltac:(lia)) as [X|X]; [exact X|].
  exists (length (nth 1 (o_grids o) []) - 1). repeat split; auto; lia.
Qed.

Section Convergence.
  Context {A : App}.
  Variable wf : nat -> Vec A -> Prop.
  Variable zero : nat -> Vec A.
  Variable o : Opts A.
  Variable P : nat.
  Hypothesis G : good_setup wf o P.
  Hypothesis HE : exact_laws A wf zero.
  Hypothesis HW : weight_one wf o.
  Hypothesis H2 : length (o_grids o) = 2.
  Hypothesis HD : o_dist o = None.
  Hypothesis HC : copying wf.
  Hypothesis HZ : forall x, wf 1 x -> vadd A (vzero A (vzero A (templ A 1))) x = x.
  Notation nc := (length (nth 1 (o_grids o) [])).
  Notation nt := (length (nth 0 (o_grids o) [])).
  Notation c := (fine_index (o_grids o) 0).
  Notation start := (start_values o (init_guess o P)).
  Let HV := gs_grids _ _ _ G.
  Let HL := gs_laws _ _ _ G.

  (** A distance on vectors, and how much the propagators change it: [alpha j] for the difference of fine and coarse
      propagation over the [j]-th coarse interval, [beta j] for the coarse step, [gamma] for the fine propagation. *)
  Variable dist : Vec A -> Vec A -> R.
  Variables (alpha beta : nat -> R) (gamma M : R).
  Local Open Scope R_scope.
  Hypothesis d_pos : forall x y, 0 <= dist x y.
  Hypothesis d_self : forall x, dist x x = 0.
  Hypothesis d_add : forall a b x y, wf 0%nat a -> wf 0%nat b -> wf 0%nat x -> wf 0%nat y -> dist (vadd A a x) (vadd A b y) <= dist a b + dist x y.
  Hypothesis d_coarse : forall j x y, (S j < nc)%nat -> wf 0%nat x -> wf 0%nat y -> dist (coarse_prop o j x) (coarse_prop o j y) <= beta j * dist x y.
  Hypothesis d_diff : forall j x y, (S j < nc)%nat -> wf 0%nat x -> wf 0%nat y ->
    dist (vsub A (fine_prop o j x) (coarse_prop o j x)) (vsub A (fine_prop o j y) (coarse_prop o j y)) <= alpha j * dist x y.
  Hypothesis d_fine : forall j x y, (S j < nc)%nat -> wf 0%nat x -> wf 0%nat y -> dist (fine_prop o j x) (fine_prop o j y) <= gamma * dist x y.
  Hypothesis Ha : forall j, (S j < nc)%nat -> 0 <= alpha j.
  Hypothesis Hb : forall j, (S j < nc)%nat -> 0 <= beta j.
  Hypothesis Hg : 0 <= gamma.
  (** error of the start values at the C-points *)
  Hypothesis HM : forall j, (j < nc)%nat -> dist (start j) (time_stepping o (c j)) <= M.

  Lemma nc_pos : (0 < nc)%nat. Proof. apply (npos o HV 1). rewrite H2. lia. Qed.
  Lemma wf_start j : (j < nc)%nat -> wf 0%nat (start j).
  Proof.
    intros Hj. unfold start_values. destruct (j =? 0)%nat; [apply (wf_clone A wf HL), (wf_tstart A wf HL)|].
    destruct (o_nested o); [apply (wf10 wf HL HC), (wf_coarse_stepping wf o HL)|apply guess_wf; exact G].
  Qed.
  Lemma stepping_next j : (S j < nc)%nat -> time_stepping o (c (S j)) = fine_prop o j (time_stepping o (c j)).
  Proof.
    intros Hj. unfold fine_prop. rewrite <- stepping_fine. f_equal. pose proof (c_lt o HV H2 j (S j) Hj ltac:(lia)). lia.
  Qed.
  Lemma add_sub_back x y : wf 0%nat x -> wf 0%nat y -> vadd A x (vsub A y x) = y.
  Proof.
    intros Hx Hy. rewrite (el_comm A wf zero HE 0); auto; [apply (el_sub A wf zero HE 0); auto|apply (wf_sub A wf HL); auto].
  Qed.

  Notation error res j := (fun eps => exists y, nth_error (gathered P (fun r => s_u (res r) 0%nat)) (c j) = Some y /\ dist y (time_stepping o (c j)) <= eps).
  (** After [k] iterations the error at the [j]-th C-point is at most M * q^k * b^(j - k*(nu+1)) * binomial(j - k*nu, k) with
      q = a * gamma^nu; in particular zero for j < k * (nu + 1). *)
  Theorem C52_superlinear a b : (forall j, (S j < nc)%nat -> alpha j <= a) -> (forall j, (S j < nc)%nat -> beta j <= b) -> 0 <= a -> 1 <= b ->
    forall n cfg, steps P n (initial (mgrit_main o P)) cfg -> stuck P cfg ->
    exists res k, finished P res cfg /\ (forall r, (r < P)%nat -> s_iter (res r) = k) /\
      ((0 < k)%nat -> forall j, (j < nc)%nat ->
        error res j (M * (a * gamma ^ cf_count o 0) ^ k * b ^ (j - k * (cf_count o 0 + 1)) * INR (binom (j - k * cf_count o 0) k))).
  Proof.
    intros Haa Hbb Ha0 Hb1 n cfg H S. destruct (C51_two_level_is_parareal A wf zero o P n cfg G HE HW H2 HD HC HZ H S) as (res & k & F & Hk & V).
    exists res, k. split; [exact F|]. split; [exact Hk|]. intros Hk0 j Hj. pose proof nc_pos as Hn.
    eexists. split.
    - rewrite (V j (c j) Hk0 Hj); [reflexivity|apply (c_in o HV H2 j Hj)|lia|]. intros Hs. apply (c_lt o HV H2 j (Datatypes.S j) Hs). lia.
    - rewrite Nat.sub_diag. cbn [fine_steps].
      refine (parareal_bound (wf 0%nat) (vadd A) (vsub A) (fine_prop o) (coarse_prop o) dist (nc - 1) (cf_count o 0) alpha beta gamma start
        (fun j => time_stepping o (c j)) _ _ _ _ _ d_pos d_self d_add _ _ _ _ Hg _ _ _ a b M _ _ Ha0 Hb1 _ k j _).
      + intros i x Hx. apply (wf_fine_steps wf o HL). exact Hx.
      + intros i x Hx. apply (wf10 wf HL HC), (wf_phi A wf HL), (wf01 wf HL HC). exact Hx.
      + intros x y. apply (wf_add A wf HL).
      + intros x y. apply (wf_sub A wf HL).
      + apply add_sub_back.
      + intros i x y Hi. apply d_coarse. lia.
      + intros i x y Hi. apply d_diff. lia.
      + intros i x y Hi. apply d_fine. lia.
      + intros i Hi. apply Ha. lia.
      + intros i Hi. apply wf_start. lia.
      + rewrite (c_0 o HV H2). reflexivity.
      + intros i Hi. apply stepping_next. lia.
      + intros i Hi. apply Haa. lia.
      + intros i Hi. apply Hbb. lia.
      + intros i Hi. apply HM. lia.
      + lia.
  Qed.

  (** If alpha_j * gamma^nu <= rho * (1 - beta_j) on every coarse interval, every iteration reduces the maximal error at the
      C-points by the factor rho, whatever the number of points. *)
  Theorem C52_linear rho : 0 <= rho -> (forall j, (S j < nc)%nat -> alpha j * gamma ^ cf_count o 0 <= rho * (1 - beta j)) ->
    forall n cfg, steps P n (initial (mgrit_main o P)) cfg -> stuck P cfg ->
    exists res k, finished P res cfg /\ (forall r, (r < P)%nat -> s_iter (res r) = k) /\
      ((0 < k)%nat -> forall j, (j < nc)%nat -> error res j (M * rho ^ k)).
  Proof.
    intros Hr Hrho n cfg H S. destruct (C51_two_level_is_parareal A wf zero o P n cfg G HE HW H2 HD HC HZ H S) as (res & k & F & Hk & V).
    exists res, k. split; [exact F|]. split; [exact Hk|]. intros Hk0 j Hj. pose proof nc_pos as Hn.
    eexists. split.
    - rewrite (V j (c j) Hk0 Hj); [reflexivity|apply (c_in o HV H2 j Hj)|lia|]. intros Hs. apply (c_lt o HV H2 j (Datatypes.S j) Hs). lia.
    - rewrite Nat.sub_diag. cbn [fine_steps].
      refine (parareal_linear (wf 0%nat) (vadd A) (vsub A) (fine_prop o) (coarse_prop o) dist (nc - 1) (cf_count o 0) alpha beta gamma start
        (fun j => time_stepping o (c j)) _ _ _ _ _ d_pos d_self d_add _ _ _ _ _ Hg _ _ _ rho M Hr _ _ k j _).
      + intros i x Hx. apply (wf_fine_steps wf o HL). exact Hx.
      + intros i x Hx. apply (wf10 wf HL HC), (wf_phi A wf HL), (wf01 wf HL HC). exact Hx.
      + intros x y. apply (wf_add A wf HL).
      + intros x y. apply (wf_sub A wf HL).
      + apply add_sub_back.
      + intros i x y Hi. apply d_coarse. lia.
      + intros i x y Hi. apply d_diff. lia.
      + intros i x y Hi. apply d_fine. lia.
      + intros i Hi. apply Ha. lia.
      + intros i Hi. apply Hb. lia.
      + intros i Hi. apply wf_start. lia.
      + rewrite (c_0 o HV H2). reflexivity.
      + intros i Hi. apply stepping_next. lia.
      + intros i Hi. apply Hrho. lia.
      + intros i Hi. apply HM. lia.
      + lia.
  Qed.
End Convergence.

(** *** The Dahlquist equation with backward Euler: the error is halved in every iteration
    u' = lambda u with lambda <= 0, u(0) = 1, on any nested pair of time grids (the solver's integer times are mapped to
    reals by an increasing function [tm]), any coarsening, any number of processes, initial guess zero or nested iteration. *)
Section Dahlquist.
  Variables (lambda : R) (tm : Z -> R).
  Definition dahl : App := app_of VectorDahlquist (fun _ => dahlquist_step lambda BE) (fun _ => 0%R) (fun _ => 1%R) tm.
  Variable o : Opts dahl.
  Variable P : nat.
  Hypothesis G : good_setup (fun _ _ => True) o P.
  Hypothesis HW : o_weight o = (1%R : Sc dahl).
  Hypothesis H2 : length (o_grids o) = 2.
  Hypothesis HD : o_dist o = None.
  Hypothesis HR : o_rand o = None.
  Hypothesis Hlam : (lambda <= 0)%R.
  Hypothesis Htm : forall a b, (a <= b)%Z -> (tm a <= tm b)%R.
  Notation nc := (length (nth 1 (o_grids o) [])).
  Notation nt := (length (nth 0 (o_grids o) [])).
  Notation c := (fine_index (o_grids o) 0).
  Local Open Scope R_scope.
  Let HV := gs_grids _ _ _ G.
  (** real time of a fine point, and -lambda times the length of an interval *)
  Notation ft i := (tm (time (o_grids o) 0 i)).
  Notation len i n := (- lambda * (ft (i + n)%nat - ft i)).

  Lemma dahl_laws : app_laws dahl (fun _ _ => True) /\ exact_laws dahl (fun _ _ => True) (fun _ => 0) /\ @weight_one dahl (fun _ _ => True) o.
  Proof.
    destruct (C29_solver_hypotheses VectorDahlquist (fun _ => True) 0 (fun _ => dahlquist_step lambda BE) (fun _ => 0) (fun _ => 1) tm) as (X & Y & _ & Z); auto.
    - apply C29_dahlquist_laws.
    - split; [exact X|]. split; [exact Y|]. apply Z. exact HW.
  Qed.
  Lemma time_mono l i j : (l < 2)%nat -> (i <= j)%nat -> (j < length (nth l (o_grids o) []))%nat -> (time (o_grids o) l i <= time (o_grids o) l j)%Z.
  Proof.
    intros Hl Hij Hj. destruct HV as (_ & X & _). destruct (X l ltac:(rewrite H2; lia)) as [Y _]. unfold time.
    destruct (Nat.eq_dec i j) as [->|Hne]; [lia|]. pose proof (ssorted_lt _ Y i j ltac:(lia) Hj). lia.
  Qed.
  Lemma coarse_time j : (j < nc)%nat -> time (o_grids o) 1 j = time (o_grids o) 0 (c j).
  Proof.
    intros Hj. destruct HV as (_ & X & Y). destruct (X 0%nat ltac:(rewrite H2; lia)) as [S0 _]. destruct (Y 0%nat ltac:(rewrite H2; lia)) as (I & _).
    unfold fine_index. set (t := time (o_grids o) 1 j).
    assert (Ht : In t (nth 0 (o_grids o) [])) by (apply I; unfold t, time; apply nth_In; exact Hj).
    destruct (In_nth _ _ 0%Z Ht) as (i & Hi & E). rewrite <- E, (index_of_nth o 1 Nat.lt_0_1 (N0_pos o HV) _ _ (ssorted_incr _ S0) Hi). reflexivity.
  Qed.
  (** Fine propagation over [n] steps multiplies by a factor g between the Pade bound and 1 / (1 + s). *)
  Lemma fine_factor i : forall n, (i + n < nt)%nat -> exists g, (forall x : R, fine_steps o i n x = g * x) /\ 0 < g <= 1 /\ 0 <= len i n /\
    g * (1 + len i n) <= 1 /\ 2 - len i n <= g * (2 + len i n).
  Proof.
    induction n as [|n IH]; intros Hn.
    - exists 1. rewrite Nat.add_0_r. replace (- lambda * (ft i - ft i)) with 0 by ring. repeat split; try lra. intros x. simpl. ring.
    - destruct (IH ltac:(lia)) as (g & E & Hg & Hs & B1 & B2).
      set (z := - lambda * (ft (i + S n)%nat - ft (i + n)%nat)).
      assert (Hz : 0 <= z).
      { unfold z. pose proof (Htm _ _ (time_mono 0 (i + n) (i + S n) ltac:(lia) ltac:(lia) Hn)). apply Rmult_le_pos; lra. }
      assert (Es : len i (S n) = len i n + z) by (unfold z; ring). rewrite Es. set (s := len i n) in *.
      exists (g / (1 + z)). assert (Hi : 0 < / (1 + z)) by (apply Rinv_0_lt_compat; lra).
      assert (Hq : g / (1 + z) * (1 + z) = g) by (field; lra). set (q := g / (1 + z)) in *.
      assert (Q0 : 0 < q) by (unfold q; apply Rmult_lt_0_compat; lra).
      assert (Q1 : q <= 1) by nra.
      repeat split; try lra.
      + intros x. cbn [fine_steps]. rewrite E. cbn [phi dahl app_of]. unfold dahlquist_step.
        replace (1 - (ft (i + S n) - ft (i + n)) * lambda) with (1 + z) by (unfold z; ring).
        assert (K : 1 / (1 + z) * (g * x) = g / (1 + z) * x) by (field; lra). exact K.
      + assert (s * z >= 0) by nra. nra.
      + destruct (Rle_dec (2 - (s + z)) 0) as [X|X]; [|apply Rnot_le_lt in X].
        * assert (0 <= q * (2 + (s + z))) by (apply Rmult_le_pos; lra). lra.
        * apply Rmult_le_reg_r with ((2 + s) * (1 + z)); [apply Rmult_lt_0_compat; lra|].
          assert (K : q * (2 + (s + z)) * ((2 + s) * (1 + z)) = g * (2 + s) * (2 + (s + z))) by (rewrite <- Hq; ring). rewrite K.
          assert (L : (2 - s) * (2 + (s + z)) <= g * (2 + s) * (2 + (s + z))) by (apply Rmult_le_compat_r; lra).
          assert ((2 - (s + z)) * ((2 + s) * (1 + z)) - (2 - s) * (2 + (s + z)) = - (z * s * s) - z * z * (2 + s)) by ring.
          assert (0 <= z * s * s) by (apply Rmult_le_pos; [apply Rmult_le_pos|]; lra).
          assert (0 <= z * z * (2 + s)) by (apply Rmult_le_pos; [apply Rmult_le_pos|]; lra). lra.
  Qed.
  Lemma coarse_factor j (x : R) : (S j < nc)%nat -> coarse_prop o j x = / (1 + len (c j) (c (S j) - c j)) * x.
  Proof.
    intros Hj. pose proof (c_lt o HV H2 j (S j) Hj ltac:(lia)) as Hlt. unfold coarse_prop. cbn [phi dahl app_of]. unfold dahlquist_step.
    rewrite !coarse_time by lia. replace (c j + (c (S j) - c j))%nat with (c (S j)) by lia.
    replace (1 - (tm (time (o_grids o) 0 (c (S j))) - tm (time (o_grids o) 0 (c j))) * lambda) with
      (1 + - lambda * (tm (time (o_grids o) 0 (c (S j))) - tm (time (o_grids o) 0 (c j)))) by ring.
    unfold Rdiv. rewrite Rmult_1_l. reflexivity.
  Qed.
  Lemma interval_factor j : (S j < nc)%nat -> exists g, (forall x : R, fine_prop o j x = g * x) /\ 0 < g <= 1 /\
    let s := len (c j) (c (S j) - c j) in 0 <= s /\ g * (1 + s) <= 1 /\ 2 - s <= g * (2 + s).
  Proof.
    intros Hj. pose proof (c_lt o HV H2 j (S j) Hj ltac:(lia)) as Hlt. destruct (c_in o HV H2 (S j) Hj) as [Hin _].
    apply (fine_factor (c j) (c (S j) - c j)). unfold npts in Hin. lia.
  Qed.

  Lemma exact_range i : (i < nt)%nat -> 0 <= time_stepping o i <= 1.
  Proof.
    intros Hi. replace i with (0 + i)%nat by lia. rewrite stepping_fine. destruct (fine_factor 0 i Hi) as (g & E & Hg & _). rewrite E.
    cbn [time_stepping vclone tstart dahl app_of c_clone VectorDahlquist]. lra.
  Qed.
  Lemma coarse_range j : (j < nc)%nat -> 0 <= coarse_stepping o j <= 1.
  Proof.
    induction j as [|j IH]; intros Hj; [simpl; lra|]. cbn [coarse_stepping]. rewrite coarse_factor by auto. specialize (IH ltac:(lia)).
    destruct (interval_factor j Hj) as (g & _ & _ & Hs & _). cbv zeta in Hs. set (s := len (c j) _) in *.
    assert (0 < / (1 + s)) by (apply Rinv_0_lt_compat; lra). assert (/ (1 + s) * (1 + s) = 1) by (field; lra).
    split; [apply Rmult_le_pos; lra|]. assert (/ (1 + s) <= 1) by nra. nra.
  Qed.

  Theorem C52_dahlquist_halved : forall n cfg, steps P n (initial (mgrit_main o P)) cfg -> stuck P cfg ->
    exists res k, finished P res cfg /\ (forall r, (r < P)%nat -> s_iter (res r) = k) /\
      ((0 < k)%nat -> forall i, (i < nt)%nat -> exists y : R, nth_error (gathered P (fun r => s_u (res r) 0%nat)) i = Some y /\
        Rabs (y - time_stepping o i) <= (1 / 2) ^ k).
  Proof.
    intros n cfg H St. destruct dahl_laws as (HL & HE & HW1).
    assert (HC : @copying dahl (fun _ _ => True)) by (intros x; split; reflexivity).
    assert (HZ : forall x, True -> vadd dahl (vzero dahl (vzero dahl (templ dahl 1))) x = x) by (intros x _; simpl; lra).
    pose (alpha := fun j => Rabs (fine_prop o j 1 - coarse_prop o j 1)).
    pose (beta := fun j => / (1 + len (c j) (c (S j) - c j))).
    destruct (C52_linear (A := dahl) (fun _ _ => True) (fun _ => 0) o P G HE HW1 H2 HD HC HZ (fun x y : R => Rabs (x - y)) alpha beta 1 1) with (rho := 1 / 2) (n := n) (cfg := cfg)
      as (res & k & F & Hk & V); auto; try lra.
    - intros x y. apply Rabs_pos.
    - intros x. replace (x - x) with 0 by ring. apply Rabs_R0.
    - intros a b x y _ _ _ _. simpl. replace (a + x - (b + y)) with ((a - b) + (x - y)) by ring. apply Rabs_triang.
    - intros j x y Hj _ _. rewrite !coarse_factor by auto. fold (beta j). replace (beta j * x - beta j * y) with (beta j * (x - y)) by ring.
      rewrite Rabs_mult. destruct (interval_factor j Hj) as (g & _ & _ & Hs & _). cbv zeta in Hs.
      rewrite (Rabs_pos_eq (beta j)); [lra|]. unfold beta. apply Rlt_le, Rinv_0_lt_compat. lra.
    - intros j x y Hj _ _. destruct (interval_factor j Hj) as (g & E & _). unfold alpha. rewrite !coarse_factor by auto. rewrite !E. fold (beta j).
      simpl. replace (g * x - beta j * x - (g * y - beta j * y)) with ((g * 1 - beta j * 1) * (x - y)) by ring. rewrite Rabs_mult. lra.
    - intros j x y Hj _ _. destruct (interval_factor j Hj) as (g & E & Hg & _). rewrite !E. replace (g * x - g * y) with (g * (x - y)) by ring.
      rewrite Rabs_mult, (Rabs_pos_eq g) by lra. apply Rmult_le_compat_r; [apply Rabs_pos|lra].
    - intros j Hj. apply Rabs_pos.
    - intros j Hj. destruct (interval_factor j Hj) as (g & _ & _ & Hs & _). cbv zeta in Hs. unfold beta. apply Rlt_le, Rinv_0_lt_compat. lra.
    - intros j Hj. unfold start_values. destruct (c_in o HV H2 j Hj) as [Hin _]. pose proof (exact_range (c j) Hin) as X.
      destruct (Nat.eqb_spec j 0) as [->|Hne].
      + rewrite (c_0 o HV H2). simpl. replace (1 - 1) with 0 by ring. rewrite Rabs_R0. lra.
      + destruct (o_nested o).
        * pose proof (coarse_range j Hj) as Y. apply Rabs_le. lra.
        * unfold init_guess. rewrite HR. simpl. apply Rabs_le. lra.
    - intros j Hj. rewrite pow1, Rmult_1_r. unfold alpha. destruct (interval_factor j Hj) as (g & E & Hg & Hs & B1 & B2). rewrite E, coarse_factor by auto.
      fold (beta j). unfold beta. set (s := len (c j) _) in *. assert (I : / (1 + s) * (1 + s) = 1) by (field; lra). set (b := / (1 + s)) in *.
      assert (B0 : 0 < b) by (apply Rinv_0_lt_compat; lra).
      assert (gb : g <= b) by nra. rewrite Rabs_left1 by lra.
      assert (K : 1 - s / 2 <= g * (1 + s)) by nra. assert (b - g <= 1 / 2 * (1 - b)) by nra. lra.
    - exists res, k. split; [exact F|]. split; [exact Hk|]. intros Hk0 i Hi.
      destruct (C51_two_level_is_parareal dahl (fun _ _ => True) (fun _ => 0) o P n cfg G HE HW1 H2 HD HC HZ H St) as (res' & k' & F' & Hk' & V').
      assert (Ek : k' = k).
      { pose proof (gs_procs _ _ _ G) as HP. rewrite <- (Hk 0%nat HP), <- (Hk' 0%nat HP). f_equal. destruct F as [F _], F' as [F' _].
        specialize (F 0%nat HP). specialize (F' 0%nat HP). congruence. }
      subst k'. assert (Eg : gathered P (fun r => s_u (res' r) 0%nat) = gathered P (fun r => s_u (res r) 0%nat)).
      { unfold gathered. f_equal. apply map_ext_in. intros r Hr. apply in_seq in Hr. destruct F as [F _], F' as [F' _].
        specialize (F r ltac:(lia)). specialize (F' r ltac:(lia)). rewrite F in F'. injection F'. intros ->. reflexivity. }
      rewrite Eg in V'. destruct (last_cpoint o HV H2 i Hi) as (j & Hj & Hlo & Hhi).
      eexists. split; [apply (V' j i); auto|]. destruct (V Hk0 j Hj) as (y & Ey & By).
      rewrite (V' j (c j) Hk0 Hj) in Ey; [|apply (c_in o HV H2 j Hj)|lia|intros Hs; apply (c_lt o HV H2 j (S j) Hs); lia].
      rewrite Nat.sub_diag in Ey. cbn [fine_steps] in Ey. match type of Ey with Some ?a = Some ?b => assert (E2 : a = b) by congruence end. rewrite E2. clear E2 Ey.
      destruct (fine_factor (c j) (i - c j)) as (g & E & Hg & _); [lia|].
      replace (time_stepping o i) with (fine_steps o (c j) (i - c j) (time_stepping o (c j))) by (rewrite <- stepping_fine; f_equal; lia).
      rewrite !E. replace (g * y - g * time_stepping o (c j)) with (g * (y - time_stepping o (c j))) by ring. rewrite Rabs_mult, (Rabs_pos_eq g) by lra.
      assert (0 <= Rabs (y - time_stepping o (c j))) by apply Rabs_pos. rewrite Rmult_1_l in By. nra.
  Qed.
End Dahlquist.

(** *** The hypotheses hold: 17 points, coarsening 4, four processes; the Dahlquist equation on 9 points. *)
Definition zopts24 (crit : Z) (nested : bool) (max_iter : nat) : Opts zapp :=
  mkOpts zapp [grid_of 17 1; grid_of 5 4] 1 (1%Z : Sc zapp) max_iter (1%Z : Sc zapp) nested (CfInt 1) (Some false) 0
    false 1 None crit ascending_order.
Lemma zopts24_good crit nested max_iter P : (crit = 0 \/ crit = 1)%Z -> 0 < P -> P <= 17 -> good_setup (fun _ _ => True) (zopts24 crit nested max_iter) P.
Proof.
  intros Hc HP HP'. constructor.
  - apply zapp_laws.
  - apply valid_hierarchyb_ok. reflexivity.
  - apply no_adjacentb_ok. reflexivity.
  - simpl. lia.
  - exact HP.
  - unfold check. simpl. replace (17 <? P) with false by (symmetry; apply Nat.ltb_ge; lia). destruct Hc as [-> | ->]; reflexivity.
  - exact Hc.
  - apply ascending_order_ok.
  - discriminate.
  - discriminate.
Qed.
Example C51_hypotheses_hold : good_setup (fun _ _ => True) (zopts24 0 true 1) 3 /\ exact_laws zapp (fun _ _ => True) (fun _ => 0%Z) /\
  @weight_one zapp (fun _ _ => True) (zopts24 0 true 1) /\ @copying zapp (fun _ _ => True) /\
  (forall x, True -> vadd zapp (vzero zapp (vzero zapp (templ zapp 1))) x = x).
Proof.
  split; [apply zopts24_good; auto; lia|]. split; [apply zapp_exact|]. split; [apply zopts_weight; reflexivity|].
  split; [intros x; split; reflexivity|]. intros x _. reflexivity.
Qed.
(** One iteration on three processes: the parareal values at the C-points; they are exact up to the second coarse interval
    and wrong afterwards. *)
Example C51_run :
  let o := zopts24 0 true 1 in
  let cfg := run_net 3 200 1000 (initial (mgrit_main o 3)) in
  let u := gathered 3 (fun r => match procs cfg r with Ret s => s_u s 0 | _ => [] end) in
  let para := parareal Z.add Z.sub (fine_prop o) (coarse_prop o) 1 (start_values o (init_guess o 3)) 1 in
  map (fun j => nth (4 * j) u 0%Z) (seq 0 5) = map para (seq 0 5) /\
  map (fun j => (para j - time_stepping o (4 * j))%Z) (seq 0 5) = [0; 0; 0; -5376; -120960]%Z.
Proof. vm_compute. split; reflexivity. Qed.

(** Distances of integers: the fine propagation over four steps multiplies them by 16, the coarse step by 2. *)
Definition zdist (x y : Vec zapp) : R := IZR (Z.abs ((x : Z) - y)).
Lemma zdist_lin (f : Z -> Z) k : (0 <= k)%Z -> (forall x y, f x - f y = k * (x - y))%Z -> forall x y : Z, zdist (f x) (f y) = (IZR k * zdist x y)%R.
Proof. intros Hk H x y. unfold zdist. rewrite H, Z.abs_mul, mult_IZR, (Z.abs_eq k) by auto. reflexivity. Qed.
Example C52_hypotheses_hold : let o := zopts24 0 true 1 in
  (forall x y, 0 <= zdist x y)%R /\ (forall x, zdist x x = 0)%R /\
  (forall a b x y, zdist (vadd zapp a x) (vadd zapp b y) <= zdist a b + zdist x y)%R /\
  forall j, S j < 5 ->
    (forall x y, zdist (coarse_prop o j x) (coarse_prop o j y) <= 2 * zdist x y)%R /\
    (forall x y, zdist (vsub zapp (fine_prop o j x) (coarse_prop o j x)) (vsub zapp (fine_prop o j y) (coarse_prop o j y)) <= 14 * zdist x y)%R /\
    (forall x y, zdist (fine_prop o j x) (fine_prop o j y) <= 16 * zdist x y)%R.
Proof.
  cbv zeta. split; [intros x y; unfold zdist; apply IZR_le; lia|]. split; [intros x; unfold zdist; rewrite Z.sub_diag; reflexivity|].
  split; [intros a b x y; unfold zdist; simpl; rewrite <- plus_IZR; apply IZR_le; lia|].
  intros j Hj. destruct j as [|[|[|[|j]]]]; try lia; repeat split; intros x y; apply Req_le.
  all: first [apply (zdist_lin _ 2); [lia|] | apply (zdist_lin (fun x => vsub zapp (fine_prop (zopts24 0 true 1) _ x) (coarse_prop (zopts24 0 true 1) _ x)) 14); [lia|] | apply (zdist_lin _ 16); [lia|]].
  all: intros a b; cbn -[Z.mul Z.add Z.sub]; lia.
Qed.
Definition dopts : Opts (dahl (-1) (fun z => IZR z / 10)%R) :=
  mkOpts (dahl (-1) (fun z => IZR z / 10)%R) [grid_of 9 1; grid_of 5 2] 1 (1%R : Sc (dahl (-1) (fun z => IZR z / 10)%R)) 3
    (0%R : Sc (dahl (-1) (fun z => IZR z / 10)%R)) false (CfInt 1) (Some false) 0 false 2 None 0 ascending_order.
Example C52_dahlquist_hypotheses : forall P, 0 < P -> P <= 9 ->
  good_setup (fun _ _ => True) dopts P /\ (forall a b, (a <= b)%Z -> (IZR a / 10 <= IZR b / 10)%R) /\ o_weight dopts = (1%R : Sc (dahl (-1) (fun z => IZR z / 10)%R)).
Proof.
  intros P HP HP'. split; [|split; [intros a b H; apply IZR_le in H; lra|reflexivity]]. constructor.
  - destruct (C29_solver_hypotheses VectorDahlquist (fun _ => True) 0%R (fun _ => dahlquist_step (-1) BE) (fun _ => 0%R) (fun _ => 1%R) (fun z => IZR z / 10)%R)
      as (X & _); auto. apply C29_dahlquist_laws.
  - apply valid_hierarchyb_ok. reflexivity.
  - apply no_adjacentb_ok. reflexivity.
  - simpl. lia.
  - exact HP.
  - unfold check. simpl. replace (9 <? P) with false by (symmetry; apply Nat.ltb_ge; lia). reflexivity.
  - left; reflexivity.
  - apply ascending_order_ok.
  - discriminate.
  - discriminate.
Qed.

(** ** C53: a residual below the tolerance bounds the error
    Residual criterion, any number of levels, any weight, cycle and relaxation. If [dist x y <= eps] for vectors whose difference
    has a norm below the tolerance, a time norm below the tolerance means that all its entries are, and each fine step expands
    distances by at most gamma >= 1, then a run that stops before the last allowed iteration has at point [i] an error of at
    most gamma^i * eps for every C-point up to [i]. *)
Definition cpoints_upto {A : App} (o : Opts A) (i : nat) : nat :=
  length (filter (fun k => (length (o_grids o) =? 1) || memz (nth k (nth 0 (o_grids o) []) 0%Z) (nth 1 (o_grids o) [])) (seq 1 i)).
Lemma cpoint_mem {A : App} (o : Opts A) k : 0 < length (o_grids o) ->
  cpoint (o_grids o) 0 k = (length (o_grids o) =? 1) || memz (nth k (nth 0 (o_grids o) []) 0%Z) (nth 1 (o_grids o) []).
Proof.
  intros H. unfold cpoint, time. destruct (Nat.eqb_spec 0 (length (o_grids o) - 1)) as [E|E]; destruct (Nat.eqb_spec (length (o_grids o)) 1) as [F|F]; try lia; reflexivity.
Qed.
Theorem C53_residual_bounds_error :
  forall (A : App) (wf : nat -> Vec A -> Prop) (o : Opts A) (P n : nat) cfg (dist : Vec A -> Vec A -> R) (gamma eps : R),
  good_setup wf o P -> o_conv_crit o = 0%Z ->
  (forall x, dist x x = 0)%R -> (forall x y z, dist x z <= dist x y + dist y z)%R ->
  (1 <= gamma)%R -> (forall x y i, S i < length (nth 0 (o_grids o) []) -> wf 0 x -> wf 0 y ->
    let t := fun j => nth j (nth 0 (o_grids o) []) 0%Z in (dist (phi A 0 x (t i) (t (S i))) (phi A 0 y (t i) (t (S i))) <= gamma * dist x y)%R) ->
  (forall x y, wf 0 x -> wf 0 y -> sc_lt A (vnorm A (vsub A x y)) (o_tol o) = true -> (dist x y <= eps)%R) -> (0 <= eps)%R ->
  (forall l x, tnorm A l = Some x -> sc_lt A x (o_tol o) = true -> forall y, In y l -> sc_lt A y (o_tol o) = true) ->
  steps P n (initial (mgrit_main o P)) cfg -> stuck P cfg ->
  exists res k, finished P res cfg /\ (forall r, r < P -> s_iter (res r) = k) /\
    (k < o_max_iter o -> forall i, i < length (nth 0 (o_grids o) []) ->
      exists y, nth_error (gathered P (fun r => s_u (res r) 0)) i = Some y /\
        (dist (time_stepping o i) y <= gamma ^ i * INR (cpoints_upto o i) * eps)%R).
Proof.
  intros A wf o P n cfg dist gamma eps G Hcr d_self d_tri Hg d_phi d_tol He Htn H S.
  destruct (run_facts wf o P n cfg G H S) as (res & k & F & Hk1 & Hk2 & Hu & Hk & Hcv & Hlt & Hst & Hh & _). exists res, k.
  split; [exact F|]. split; [exact Hk|]. intros Hkm. assert (Hk0 : 0 < k) by (apply Hk2; lia).
  pose proof (gs_grids _ _ _ G) as HV. pose proof (gs_laws _ _ _ G) as HL. pose proof (L_ge1 o HV) as HL1.
  set (it := iterate o (init_guess o P)) in *.
  assert (W : GWF o wf (it k)) by (apply (gwf_iterate wf o HL HV); intros; apply guess_wf; auto).
  assert (Wu : forall i, i < length (nth 0 (o_grids o) []) -> wf 0 (gu (it k) 0 i)) by (intros i Hi; apply W; [exact HL1|exact Hi]).
  assert (Wt : forall i, wf 0 (time_stepping o i)).
  { induction i as [|i IH]; [apply (wf_clone A wf HL), (wf_tstart A wf HL)|]. apply (wf_phi A wf HL). exact IH. }
  assert (Cr : crit_of o (gu (it (k - 1)) 0) (gu (it k) 0) =
    map (fun i => vnorm A (vsub A (phi A 0 (gu (it k) 0 (i - 1)) (time (o_grids o) 0 (i - 1)) (time (o_grids o) 0 i)) (gu (it k) 0 i))) (crit_points o)).
  { unfold crit_of, is_jump. rewrite Hcr. reflexivity. }
  pose proof (Hh k ltac:(lia)) as HT. rewrite Cr in HT. specialize (Hst Hkm).
  assert (SM : forall i, i < length (nth 0 (o_grids o) []) -> 0 < i -> cpoint (o_grids o) 0 i = true ->
    (dist (phi A 0 (gu (it k) 0 (i - 1)) (time (o_grids o) 0 (i - 1)) (time (o_grids o) 0 i)) (gu (it k) 0 i) <= eps)%R).
  { intros i Hi H0 Hc. apply d_tol; [apply (wf_phi A wf HL), Wu; lia|apply Wu; auto|].
    destruct (nth_error (gconv (it k)) k) as [x|] eqn:Ex.
    - apply (Htn _ x HT); [rewrite <- Hst; f_equal; symmetry; apply nth_error_nth; exact Ex|]. apply in_map_iff. exists i. split; [reflexivity|].
      unfold crit_points. apply filter_In. split; [apply in_seq; unfold npts; lia|]. rewrite Hc. apply Nat.ltb_lt. exact H0.
    - exfalso. apply (tnorm_some A wf HL) in HT; auto. intros E. apply map_eq_nil in E. exact (crit_points_ne wf o P G E). }
  intros i Hi. rewrite Hu, nth_error_map, ListFacts.nth_error_seq by lia. simpl. eexists. split; [reflexivity|].
  revert Hi. induction i as [|i IH]; intros Hi.
  - replace (gu (it k) 0 0) with (time_stepping o 0) by (symmetry; unfold it; apply iterate_first). rewrite d_self. simpl. lra.
  - specialize (IH ltac:(lia)).
    assert (CS : cpoints_upto o (Datatypes.S i) = cpoints_upto o i + if cpoint (o_grids o) 0 (Datatypes.S i) then 1 else 0).
    { unfold cpoints_upto. rewrite seq_S, filter_app, app_length. f_equal. rewrite (cpoint_mem o (Datatypes.S i) HL1). cbn [filter Nat.add].
      destruct ((length (o_grids o) =? 1) || _); reflexivity. }
    set (x := phi A 0 (gu (it k) 0 i) (time (o_grids o) 0 i) (time (o_grids o) 0 (Datatypes.S i))).
    assert (B : (dist (time_stepping o (Datatypes.S i)) x <= gamma ^ Datatypes.S i * INR (cpoints_upto o i) * eps)%R).
    { cbn [time_stepping]. unfold x. eapply Rle_trans; [apply d_phi; [exact Hi|apply Wt|apply Wu; lia]|]. cbn [pow]. rewrite !Rmult_assoc.
      apply Rmult_le_compat_l; [lra|]. rewrite <- Rmult_assoc. exact IH. }
    assert (P1 : (1 <= gamma ^ Datatypes.S i)%R) by (apply pow_R1_Rle; exact Hg).
    rewrite CS, plus_INR. destruct (cpoint (o_grids o) 0 (Datatypes.S i)) eqn:Ec.
    + pose proof (SM (Datatypes.S i) Hi ltac:(lia) Ec) as R0. rewrite Nat.sub_succ, Nat.sub_0_r in R0. fold x in R0.
      pose proof (d_tri (time_stepping o (Datatypes.S i)) x (gu (it k) 0 (Datatypes.S i))) as T. simpl INR. simpl INR in B.
      replace (gamma ^ Datatypes.S i * (INR (cpoints_upto o i) + 1) * eps)%R with (gamma ^ Datatypes.S i * INR (cpoints_upto o i) * eps + gamma ^ Datatypes.S i * eps)%R by ring.
      assert (eps <= gamma ^ Datatypes.S i * eps)%R by nra. lra.
    + unfold it. rewrite (iterate_F o HV (init_guess o P) k (Datatypes.S i) Hk0 ltac:(lia) Ec). fold it. unfold gstep. cbn [Nat.eqb].
      rewrite Nat.sub_succ, Nat.sub_0_r. fold x. simpl INR. rewrite Rplus_0_r. exact B.
Qed.

(** Three levels, tolerance 20000: the run on four processes stops after 1 of 20 iterations, with wrong values. *)
Definition zopts_tol : Opts zapp_l1 :=
  mkOpts zapp_l1 [grid_of 17 1; grid_of 9 2; grid_of 3 8] 2 (1%Z : Sc zapp_l1) 20 (20000%Z : Sc zapp_l1) true (CfInt 1) (Some true) 0
    false 1 None 0 ascending_order.
Example C53_hypotheses_hold :
  good_setup (fun _ _ => True) zopts_tol 4 /\
  (forall x, zdist x x = 0)%R /\ (forall x y z, zdist x z <= zdist x y + zdist y z)%R /\
  (forall x y a b, zdist (phi zapp_l1 0 x a b) (phi zapp_l1 0 y a b) <= 2 * zdist x y)%R /\
  (forall x y, sc_lt zapp_l1 (vnorm zapp_l1 (vsub zapp_l1 x y)) (o_tol zopts_tol) = true -> (zdist x y <= 19999)%R) /\
  (forall l x, tnorm zapp_l1 l = Some x -> sc_lt zapp_l1 x (o_tol zopts_tol) = true -> forall y, In y l -> sc_lt zapp_l1 y (o_tol zopts_tol) = true) /\
  map (cpoints_upto zopts_tol) (seq 0 17) = [0; 0; 1; 1; 2; 2; 3; 3; 4; 4; 5; 5; 6; 6; 7; 7; 8] /\
  let cfg := run_net 4 900 1000 (initial (mgrit_main zopts_tol 4)) in
  map (fun r => match procs cfg r with Ret s => (s_iter s, last (s_u s 0) 0%Z) | _ => (0, 0%Z) end) (seq 0 4) =
    [(1, 31%Z); (1, 335%Z); (1, 2319%Z); (1, 13327%Z)] /\
  time_stepping zopts_tol 16 = 131071%Z.
Proof.
  split.
  { constructor.
    - constructor; simpl; auto; intros; discriminate.
    - apply valid_hierarchyb_ok. reflexivity.
    - apply no_adjacentb_ok. reflexivity.
    - simpl. lia.
    - lia.
    - reflexivity.
    - left; reflexivity.
    - apply ascending_order_ok.
    - discriminate.
    - discriminate. }
  split; [intros x; unfold zdist; rewrite Z.sub_diag; reflexivity|].
  split; [intros x y z; unfold zdist; rewrite <- plus_IZR; apply IZR_le; lia|].
  split; [intros x y a b; apply Req_le, (zdist_lin (fun x => phi zapp_l1 0 x a b) 2); [lia|]; intros; cbn [phi zapp_l1]; lia|].
  split; [intros x y E; apply Z.ltb_lt in E; unfold zdist; apply IZR_le; cbn [vnorm vsub zapp_l1 o_tol zopts_tol mkOpts] in E; lia|].
  split; [|vm_compute; repeat split; reflexivity].
  intros l x E Hx y Hy. simpl in *. apply Z.ltb_lt in Hx. apply Z.ltb_lt. assert (E' : fold_right (fun x s => Z.abs x + s)%Z 0%Z l = x) by congruence.
  subst x. clear E. induction l as [|x l IH]; [destruct Hy|]. assert (X : forall l, (0 <= fold_right (fun x s => Z.abs x + s) 0 l)%Z) by (clear; induction l as [|x l IH]; simpl; lia).
  cbn [fold_right] in Hx. specialize (X l). destruct Hy as [->|Hy]; [lia|]. apply IH; auto. lia.
Qed.

Print Assumptions C51_two_level_is_parareal.
Print Assumptions C52_superlinear.
Print Assumptions C52_linear.
Print Assumptions C52_dahlquist_halved.
Print Assumptions C53_residual_bounds_error.
