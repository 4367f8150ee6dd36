(** C59: the Arenstorf orbit problem. The right-hand side is the circular restricted three-body problem: the Jacobi integral is
    constant along its solutions, the equations are reversible, the triangular points are its equilibria off the axis, and the
    initial value is a regular symmetric state. *)
From Coq Require Import Reals Lra List Psatz.
From Verif Require Import Arenstorf.
Import ListNotations.
Local Open Scope R_scope.

(** Squared distances to the two masses, at (-a, 0) and (b, 0). *)
Definition dist1 (a : R) (y : State) : R := (px y + a) * (px y + a) + py y * py y.
Definition dist2 (b : R) (y : State) : R := (px y - b) * (px y - b) + py y * py y.
Definition regular (a b : R) (y : State) : Prop := 0 < dist1 a y /\ 0 < dist2 b y.
(** The Jacobi integral: twice the energy in the rotating frame. *)
Definition jacobi (a b : R) (y : State) : R :=
  vx y * vx y + vy y * vy y - (px y * px y + py y * py y) - 2 * b / sqrt (dist1 a y) - 2 * a / sqrt (dist2 b y).
(** A curve solves y' = f(t, y) on [t0, t1]. *)
Definition solves (f : R -> State -> State) (Y : R -> State) (t0 t1 : R) : Prop :=
  forall t, t0 <= t <= t1 ->
    derivable_pt_lim (fun s => px (Y s)) t (px (f t (Y t))) /\ derivable_pt_lim (fun s => py (Y s)) t (py (f t (Y t))) /\
    derivable_pt_lim (fun s => vx (Y s)) t (vx (f t (Y t))) /\ derivable_pt_lim (fun s => vy (Y s)) t (vy (f t (Y t))).
(** The integrator returns the value at t_stop of a solution that stays away from the two masses. *)
Definition integrates (ivp : (R -> State -> State) -> State -> R -> R -> list State) (f : R -> State -> State) (y0 : State) (t0 t1 : R) : Prop :=
  exists Y, solves f Y t0 t1 /\ (forall t, t0 <= t <= t1 -> regular par_a par_b (Y t)) /\ Y t0 = y0 /\ ivp f y0 t0 t1 = [Y t0; Y t1].
(** Time stepping: step after step over a list of time points. *)
Fixpoint march (ivp : (R -> State -> State) -> State -> R -> R -> list State) (u : State) (t : R) (ts : list R) : option State :=
  match ts with
  | [] => Some u
  | t' :: ts' => match step ivp u t t' with Some u' => march ivp u' t' ts' | None => None end
  end.

(** In every step of the march the integrator is exact. *)
Fixpoint exact_along (ivp : (R -> State -> State) -> State -> R -> R -> list State) (u : State) (t : R) (ts : list R) : Prop :=
  match ts with
  | [] => True
  | t' :: ts' => t <= t' /\ integrates ivp (arenstorf par_a par_b) u t t' /\
                 (forall v, step ivp u t t' = Some v -> exact_along ivp v t' ts')
  end.
(** Reflection at the axis of the masses with time reversed. *)
Definition mirror (y : State) : State := mkS (px y) (- py y) (- vx y) (vy y).
(** The equations of the docstring (92-98): D_2 with x - a. *)
Definition arenstorf_doc (a b : R) (y : State) : State :=
  let d1 := Rpower ((px y + a) ^ 2 + py y ^ 2) (3 / 2) in
  let d2 := Rpower ((px y - a) ^ 2 + py y ^ 2) (3 / 2) in
  mkS (vx y) (vy y)
      (px y + 2 * vy y - b * (px y + a) / d1 - a * (px y - b) / d2)
      (py y - 2 * vx y - b * py y / d1 - a * py y / d2).

Lemma pow_three_halves s : 0 < s -> Rpower s (3 / 2) = s * sqrt s.
Proof.
  intros H. replace (3 / 2) with (1 + / 2) by lra. rewrite Rpower_plus, Rpower_1, Rpower_sqrt by exact H. reflexivity.
Qed.
Lemma d_inv_sqrt f t l : 0 < f t -> derivable_pt_lim f t l ->
  derivable_pt_lim (fun s => / sqrt (f s)) t (- l / (2 * (f t * sqrt (f t)))).
Proof.
  intros H D. pose proof (sqrt_lt_R0 _ H) as S.
  assert (E : forall x y, derivable_pt_lim (fun s => 1 / sqrt (f s)) t x -> x = y -> derivable_pt_lim (fun s => / sqrt (f s)) t y).
  { intros x y K <-. intros eps He. destruct (K eps He) as [d Hd]. exists d. intros h Hh Hl. specialize (Hd h Hh Hl).
    unfold Rdiv in Hd |- *. rewrite !Rmult_1_l in Hd. exact Hd. }
  eapply E.
  - apply (derivable_pt_lim_div (fun _ => 1) (fun s => sqrt (f s))).
    + apply derivable_pt_lim_const.
    + apply (derivable_pt_lim_comp f sqrt); [exact D|apply derivable_pt_lim_sqrt; exact H].
    + lra.
  - unfold Rsqr. rewrite sqrt_sqrt by lra. field. split; lra.
Qed.
Lemma d_to f t l l' : derivable_pt_lim f t l -> l = l' -> derivable_pt_lim f t l'.
Proof. intros H <-. exact H. Qed.
Lemma d_square f t l : derivable_pt_lim f t l -> derivable_pt_lim (fun s => f s * f s) t (2 * f t * l).
Proof. intros H. eapply d_to; [apply (derivable_pt_lim_mult f f); exact H|ring]. Qed.
Lemma d_shift f c t l : derivable_pt_lim f t l -> derivable_pt_lim (fun s => f s + c) t l.
Proof. intros H. eapply d_to; [apply (derivable_pt_lim_plus f (fun _ => c)); [exact H|apply derivable_pt_lim_const]|ring]. Qed.

Lemma jacobi_derivative a b Y t : regular a b (Y t) ->
  derivable_pt_lim (fun s => px (Y s)) t (px (arenstorf a b t (Y t))) -> derivable_pt_lim (fun s => py (Y s)) t (py (arenstorf a b t (Y t))) ->
  derivable_pt_lim (fun s => vx (Y s)) t (vx (arenstorf a b t (Y t))) -> derivable_pt_lim (fun s => vy (Y s)) t (vy (arenstorf a b t (Y t))) ->
  derivable_pt_lim (fun s => jacobi a b (Y s)) t 0.
Proof.
  intros [R1 R2] Dx Dy Du Dv. unfold jacobi, Rdiv.
  assert (D1 : derivable_pt_lim (fun s => dist1 a (Y s)) t (2 * (px (Y t) + a) * vx (Y t) + 2 * py (Y t) * vy (Y t))).
  { unfold dist1. apply (derivable_pt_lim_plus (fun s => (px (Y s) + a) * (px (Y s) + a)) (fun s => py (Y s) * py (Y s))).
    - apply (d_square (fun s => px (Y s) + a)). apply d_shift. exact Dx.
    - apply (d_square (fun s => py (Y s))). exact Dy. }
  assert (D2 : derivable_pt_lim (fun s => dist2 b (Y s)) t (2 * (px (Y t) - b) * vx (Y t) + 2 * py (Y t) * vy (Y t))).
  { unfold dist2. apply (derivable_pt_lim_plus (fun s => (px (Y s) - b) * (px (Y s) - b)) (fun s => py (Y s) * py (Y s))).
    - apply (d_square (fun s => px (Y s) - b)). apply (d_shift (fun s => px (Y s)) (- b)). exact Dx.
    - apply (d_square (fun s => py (Y s))). exact Dy. }
  pose proof (d_inv_sqrt _ _ _ R1 D1) as I1. pose proof (d_inv_sqrt _ _ _ R2 D2) as I2.
  pose proof (d_square _ _ _ Dx) as Qx. pose proof (d_square _ _ _ Dy) as Qy.
  pose proof (d_square _ _ _ Du) as Qu. pose proof (d_square _ _ _ Dv) as Qv.
  eapply d_to.
  - apply (derivable_pt_lim_minus
             (fun s => vx (Y s) * vx (Y s) + vy (Y s) * vy (Y s) - (px (Y s) * px (Y s) + py (Y s) * py (Y s)) - 2 * b * / sqrt (dist1 a (Y s)))
             (fun s => 2 * a * / sqrt (dist2 b (Y s)))).
    + apply (derivable_pt_lim_minus
               (fun s => vx (Y s) * vx (Y s) + vy (Y s) * vy (Y s) - (px (Y s) * px (Y s) + py (Y s) * py (Y s)))
               (fun s => 2 * b * / sqrt (dist1 a (Y s)))).
      * apply (derivable_pt_lim_minus (fun s => vx (Y s) * vx (Y s) + vy (Y s) * vy (Y s)) (fun s => px (Y s) * px (Y s) + py (Y s) * py (Y s))).
        -- apply (derivable_pt_lim_plus (fun s => vx (Y s) * vx (Y s)) (fun s => vy (Y s) * vy (Y s))); [exact Qu|exact Qv].
        -- apply (derivable_pt_lim_plus (fun s => px (Y s) * px (Y s)) (fun s => py (Y s) * py (Y s))); [exact Qx|exact Qy].
      * apply (derivable_pt_lim_scal (fun s => / sqrt (dist1 a (Y s))) (2 * b)). exact I1.
    + apply (derivable_pt_lim_scal (fun s => / sqrt (dist2 b (Y s))) (2 * a)). exact I2.
  - cbn [arenstorf px py vx vy].
    replace ((px (Y t) + a) ^ 2 + py (Y t) ^ 2) with (dist1 a (Y t)) by (unfold dist1; ring).
    replace ((px (Y t) - b) ^ 2 + py (Y t) ^ 2) with (dist2 b (Y t)) by (unfold dist2; ring).
    rewrite !pow_three_halves by assumption.
    pose proof (sqrt_lt_R0 _ R1). pose proof (sqrt_lt_R0 _ R2). field. repeat split; lra.
Qed.

(** Along every solution that stays away from the masses the Jacobi integral is constant, for all masses a, b. *)
Theorem C59_jacobi_integral a b Y t0 t1 : solves (arenstorf a b) Y t0 t1 -> (forall t, t0 <= t <= t1 -> regular a b (Y t)) ->
  forall s t, t0 <= s <= t1 -> t0 <= t <= t1 -> jacobi a b (Y s) = jacobi a b (Y t).
Proof.
  intros HS HR. assert (K : forall s t, t0 <= s <= t1 -> t0 <= t <= t1 -> s < t -> jacobi a b (Y s) = jacobi a b (Y t)).
  { intros s t Hs Ht L. destruct (MVT_cor2 (fun r => jacobi a b (Y r)) (fun _ => 0) s t L) as (c & E & _).
    - intros c Hc. assert (Hc' : t0 <= c <= t1) by lra. destruct (HS c Hc') as (A & B & C & D).
      apply jacobi_derivative; auto.
    - lra. }
  intros s t Hs Ht. destruct (Rtotal_order s t) as [L|[->|L]]; [apply K; auto|reflexivity|symmetry; apply K; auto].
Qed.

(** With an exact integrator, time stepping keeps the Jacobi integral of the initial value, over any number of steps. *)
Theorem C59_steps_keep_jacobi ivp ts : forall t u, regular par_a par_b u -> exact_along ivp u t ts ->
  exists v, march ivp u t ts = Some v /\ regular par_a par_b v /\ jacobi par_a par_b v = jacobi par_a par_b u.
Proof.
  induction ts as [|t' ts IH]; intros t u R H; [exists u; auto|]. destruct H as (L & (Y & HS & HR & E0 & EI) & N).
  assert (ES : step ivp u t t' = Some (Y t')) by (unfold step; rewrite EI; reflexivity).
  destruct (IH t' (Y t')) as (v & M & Rv & J).
  - apply HR. lra.
  - apply N. exact ES.
  - exists v. cbn [march]. rewrite ES. split; [exact M|split; [exact Rv|]]. rewrite J, <- E0.
    apply (C59_jacobi_integral par_a par_b Y t t'); auto; lra.
Qed.

Lemma d_flip f c t l : derivable_pt_lim f (c - t) l -> derivable_pt_lim (fun s => f (c - s)) t (- l).
Proof.
  intros H. eapply d_to; [apply (derivable_pt_lim_comp (fun s => c - s) f); [|exact H]|].
  - apply (derivable_pt_lim_minus (fun _ => c) (fun s => s)); [apply derivable_pt_lim_const|apply derivable_pt_lim_id].
  - ring.
Qed.
Lemma d_neg f t l : derivable_pt_lim f t l -> derivable_pt_lim (fun s => - f s) t (- l).
Proof. apply derivable_pt_lim_opp. Qed.

(** Reversibility: run backwards and reflected, a solution is a solution. *)
Theorem C59_reversible a b Y t0 t1 : solves (arenstorf a b) Y t0 t1 -> solves (arenstorf a b) (fun s => mirror (Y (t0 + t1 - s))) t0 t1.
Proof.
  intros H t Ht. destruct (H (t0 + t1 - t)) as (A & B & C & D); [lra|].
  apply d_flip in A, B, C, D. apply d_neg in B, C. cbn [mirror px py vx vy arenstorf] in *.
  replace (- py (Y (t0 + t1 - t))) with (py (Y (t0 + t1 - t)) * -1) by ring.
  replace ((py (Y (t0 + t1 - t)) * -1) ^ 2) with (py (Y (t0 + t1 - t)) ^ 2) by ring.
  repeat split; (eapply d_to; [eassumption|]); unfold Rdiv; ring.
Qed.

Lemma cube_half_inj s t : 0 < s -> 0 < t -> s * sqrt s = t * sqrt t -> s = t.
Proof.
  intros Hs Ht E. pose proof (sqrt_lt_R0 _ Hs). pose proof (sqrt_lt_R0 _ Ht).
  destruct (Rtotal_order s t) as [L|[->|L]]; [|reflexivity|].
  - pose proof (sqrt_lt_1 s t). nra.
  - pose proof (sqrt_lt_1 t s). nra.
Qed.

(** The states at rest off the axis are the two triangular points: at distance 1 from both masses. *)
Theorem C59_triangular_points a b t y : 0 < a -> 0 < b -> a + b = 1 -> py y <> 0 ->
  (arenstorf a b t y = mkS 0 0 0 0 <-> vx y = 0 /\ vy y = 0 /\ px y = 1 / 2 - a /\ py y * py y = 3 / 4).
Proof.
  intros Ha Hb Hab Hy.
  assert (Y2 : 0 < py y * py y) by nra.
  assert (R1 : 0 < dist1 a y) by (unfold dist1; pose proof (Rle_0_sqr (px y + a)) as X; unfold Rsqr in X; lra).
  assert (R2 : 0 < dist2 b y) by (unfold dist2; pose proof (Rle_0_sqr (px y - b)) as X; unfold Rsqr in X; lra).
  assert (E1 : (px y + a) ^ 2 + py y ^ 2 = dist1 a y) by (unfold dist1; ring).
  assert (E2 : (px y - b) ^ 2 + py y ^ 2 = dist2 b y) by (unfold dist2; ring).
  unfold arenstorf. cbv zeta. rewrite E1, E2, !pow_three_halves by assumption.
  pose proof (sqrt_lt_R0 _ R1) as S1. pose proof (sqrt_lt_R0 _ R2) as S2.
  set (D1 := dist1 a y * sqrt (dist1 a y)). set (D2 := dist2 b y * sqrt (dist2 b y)).
  assert (P1 : 0 < D1) by (apply Rmult_lt_0_compat; assumption). assert (P2 : 0 < D2) by (apply Rmult_lt_0_compat; assumption).
  split.
  - intros E. assert (Eu : vx y = 0) by (apply (f_equal px) in E; exact E). assert (Ev : vy y = 0) by (apply (f_equal py) in E; exact E).
    assert (Fx : px y + 2 * vy y - b * (px y + a) / D1 - a * (px y - b) / D2 = 0) by (apply (f_equal vx) in E; exact E).
    assert (Fy : py y - 2 * vx y - b * py y / D1 - a * py y / D2 = 0) by (apply (f_equal vy) in E; exact E).
    rewrite Eu, Ev in *. assert (G : 1 - b / D1 - a / D2 = 0).
    { apply (Rmult_eq_reg_l (py y)); [|exact Hy]. rewrite Rmult_0_r, <- Fy. field. split; lra. }
    assert (K : a * b * (/ D1 - / D2) = 0).
    { replace (a * b * (/ D1 - / D2)) with (px y * (1 - b / D1 - a / D2) - (px y + 2 * 0 - b * (px y + a) / D1 - a * (px y - b) / D2))
        by (field; split; lra). rewrite Fx, G. ring. }
    assert (E12 : / D1 = / D2) by (apply Rmult_integral in K as [K|K]; [nra|lra]).
    assert (E12' : D1 = D2) by (rewrite <- (Rinv_inv D1), <- (Rinv_inv D2), E12 by lra; reflexivity).
    assert (D11 : D1 = 1). { rewrite <- E12' in G. assert (X : (a + b) * / D1 = 1) by (unfold Rdiv in G; lra). rewrite Hab, Rmult_1_l in X.
      rewrite <- (Rinv_inv D1), X by lra. apply Rinv_1. }
    assert (N1 : dist1 a y = 1) by (apply cube_half_inj; [exact R1|lra|rewrite sqrt_1; fold D1; lra]).
    assert (N2 : dist2 b y = 1) by (apply cube_half_inj; [exact R2|lra|rewrite sqrt_1; fold D2; lra]).
    unfold dist1 in N1. unfold dist2 in N2. repeat split; auto.
    + replace b with (1 - a) in N2 by lra. nra.
    + replace b with (1 - a) in N2 by lra. assert (px y = 1 / 2 - a) by nra. replace (px y + a) with (1 / 2) in N1 by lra. lra.
  - intros (Eu & Ev & Ex & Ey). assert (N1 : dist1 a y = 1) by (unfold dist1; rewrite Ex, Ey; field).
    assert (N2 : dist2 b y = 1) by (unfold dist2; rewrite Ex, Ey; replace b with (1 - a) by lra; field).
    unfold D1, D2. rewrite N1, N2, sqrt_1, Eu, Ev. f_equal; field_simplify; nra.
Qed.

(** The initial value is away from both masses and symmetric. *)
Theorem C59_initial_value : regular par_a par_b vector_t_start /\ mirror vector_t_start = vector_t_start.
Proof.
  unfold regular, dist1, dist2, vector_t_start, mirror, par_b, par_a; cbn [px py vx vy]. repeat split; [lra|lra|f_equal; ring].
Qed.

(** The equations of the docstring are other equations: they differ at the initial value, and have no rest at the triangular points. *)
Theorem C59_documented_equations_refuted :
  arenstorf_doc par_a par_b vector_t_start <> arenstorf par_a par_b 0 vector_t_start /\
  (forall t, arenstorf par_a par_b t (mkS (1 / 2 - par_a) (sqrt (3 / 4)) 0 0) = mkS 0 0 0 0) /\
  arenstorf_doc par_a par_b (mkS (1 / 2 - par_a) (sqrt (3 / 4)) 0 0) <> mkS 0 0 0 0.
Proof.
  assert (Q : 0 < sqrt (3 / 4)) by (apply sqrt_lt_R0; lra). assert (QQ : sqrt (3 / 4) * sqrt (3 / 4) = 3 / 4) by (apply sqrt_sqrt; lra).
  assert (A0 : 0 < par_a < 1 / 4) by (unfold par_a; lra). split; [|split].
  - intros E. apply (f_equal vx) in E. unfold arenstorf, arenstorf_doc, vector_t_start in E. cbn [px py vx vy] in E.
    set (p := Rpower ((0.994 - par_a) ^ 2 + 0 ^ 2) (3 / 2)) in *. set (q := Rpower ((0.994 - par_b) ^ 2 + 0 ^ 2) (3 / 2)) in *.
    assert (P0 : 0 < p) by apply exp_pos. assert (Q0 : 0 < q) by apply exp_pos.
    assert (N : 0 < par_a * (0.994 - par_b)) by (unfold par_b, par_a; lra).
    assert (E' : / p = / q) by (unfold Rdiv in E; nra).
    assert (pq : p = q) by (rewrite <- (Rinv_inv p), <- (Rinv_inv q), E' by lra; reflexivity).
    unfold p, q in pq. rewrite !pow_three_halves in pq by (unfold par_b, par_a; lra). apply cube_half_inj in pq; unfold par_b, par_a in *; lra.
  - intros t. apply C59_triangular_points; cbn [px py vx vy]; unfold par_b; auto; lra.
  - intros E. apply (f_equal vy) in E. unfold arenstorf_doc in E. cbn [px py vx vy] in E.
    replace ((1 / 2 - par_a + par_a) ^ 2 + sqrt (3 / 4) ^ 2) with 1 in E by (cbn [pow]; rewrite !Rmult_1_r, QQ; field).
    set (s := (1 / 2 - par_a - par_a) ^ 2 + sqrt (3 / 4) ^ 2) in *.
    assert (Hs : 0 < s < 1) by (unfold s; cbn [pow]; rewrite !Rmult_1_r, QQ; nra).
    rewrite !pow_three_halves in E by lra. rewrite sqrt_1 in E. pose proof (sqrt_lt_R0 s (proj1 Hs)) as S0.
    assert (D0 : 0 < s * sqrt s) by nra. assert (E' : 1 = / (s * sqrt s)).
    { apply (Rmult_eq_reg_l (par_a * sqrt (3 / 4))); [|nra]. unfold par_b, Rdiv in E. rewrite !Rmult_1_r, Rinv_1, Rmult_1_r in E. lra. }
    assert (E2 : s * sqrt s = 1 * sqrt 1) by (rewrite sqrt_1, Rmult_1_r, <- (Rinv_inv (s * sqrt s)), <- E', Rinv_1 by lra; reflexivity).
    apply cube_half_inj in E2; lra.
Qed.

(** ** Examples *)
(** A march of three steps from the triangular point, with the integrator that finds the constant solution. *)
Definition L4 : State := mkS (1 / 2 - par_a) (sqrt (3 / 4)) 0 0.
Lemma L4_rest t : arenstorf par_a par_b t L4 = mkS 0 0 0 0.
Proof. apply C59_documented_equations_refuted. Qed.
Lemma L4_regular : regular par_a par_b L4.
Proof.
  assert (Q : sqrt (3 / 4) * sqrt (3 / 4) = 3 / 4) by (apply sqrt_sqrt; lra).
  unfold regular, dist1, dist2, L4; cbn [px py]. rewrite Q.
  pose proof (Rle_0_sqr (1 / 2 - par_a + par_a)) as X1. pose proof (Rle_0_sqr (1 / 2 - par_a - par_b)) as X2. unfold Rsqr in X1, X2. split; lra.
Qed.
Definition still (f : R -> State -> State) (y : State) (t0 t1 : R) : list State := [y; y].
Example arenstorf_example : exact_along still L4 0 [1; 2; 5] /\ march still L4 0 [1; 2; 5] = Some L4.
Proof.
  assert (K : forall t t', integrates still (arenstorf par_a par_b) L4 t t').
  { intros t t'. exists (fun _ => L4). split; [|split; [|split; reflexivity]].
    - intros s _. rewrite L4_rest. cbn [px py vx vy]. repeat split; apply derivable_pt_lim_const.
    - intros s _. apply L4_regular. }
  assert (S : forall t t' v, step still L4 t t' = Some v -> v = L4) by (intros t t' v E; unfold step, still in E; cbn in E; congruence).
  split; [|reflexivity]. cbn [exact_along]. split; [lra|split; [apply K|]]. intros v E. apply S in E as ->.
  split; [lra|split; [apply K|]]. intros v E. apply S in E as ->. split; [lra|split; [apply K|auto]].
Qed.
(** A moving solution: with one mass only (a = 0, b = 1) the circular orbit of radius 4 has angular velocity 1/8 in the fixed frame. *)
Example circular_orbit : solves (arenstorf 0 1) (fun t => mkS (4 * cos (- (7 / 8) * t)) (4 * sin (- (7 / 8) * t))
    (4 * (- sin (- (7 / 8) * t)) * - (7 / 8)) (4 * cos (- (7 / 8) * t) * - (7 / 8))) 0 10 /\
  (forall t, 0 <= t <= 10 -> regular 0 1 (mkS (4 * cos (- (7 / 8) * t)) (4 * sin (- (7 / 8) * t)) (4 * (- sin (- (7 / 8) * t)) * - (7 / 8)) (4 * cos (- (7 / 8) * t) * - (7 / 8)))).
Proof.
  assert (SC : forall t, sin t * sin t + cos t * cos t = 1) by (intros t; pose proof (sin2_cos2 t) as H; unfold Rsqr in H; exact H).
  assert (DL : forall t, derivable_pt_lim (fun s => - (7 / 8) * s) t (- (7 / 8))).
  { intros t. eapply d_to; [apply (derivable_pt_lim_scal (fun s => s) (- (7 / 8))); apply derivable_pt_lim_id|ring]. }
  assert (DS : forall t, derivable_pt_lim (fun s => sin (- (7 / 8) * s)) t (cos (- (7 / 8) * t) * - (7 / 8))).
  { intros t. apply (derivable_pt_lim_comp (fun s => - (7 / 8) * s) sin); [apply DL|apply derivable_pt_lim_sin]. }
  assert (DC : forall t, derivable_pt_lim (fun s => cos (- (7 / 8) * s)) t (- sin (- (7 / 8) * t) * - (7 / 8))).
  { intros t. apply (derivable_pt_lim_comp (fun s => - (7 / 8) * s) cos); [apply DL|apply derivable_pt_lim_cos]. }
  split.
  - intros t _. unfold arenstorf. cbn [px py vx vy]. specialize (SC (- (7 / 8) * t)). set (S := sin (- (7 / 8) * t)) in *. set (C := cos (- (7 / 8) * t)) in *.
    replace ((4 * C + 0) ^ 2 + (4 * S) ^ 2) with (16 * (S * S + C * C)) by ring. rewrite SC, Rmult_1_r.
    rewrite (pow_three_halves 16) by lra. replace (sqrt 16) with 4 by (symmetry; apply sqrt_lem_1; lra).
    repeat split.
    + eapply d_to; [apply (derivable_pt_lim_scal (fun s => cos (- (7 / 8) * s)) 4); apply DC|fold S; ring].
    + eapply d_to; [apply (derivable_pt_lim_scal (fun s => sin (- (7 / 8) * s)) 4); apply DS|fold C; ring].
    + eapply d_to.
      * apply (derivable_pt_lim_mult (fun s => 4 * - sin (- (7 / 8) * s)) (fun _ => - (7 / 8))); [|apply derivable_pt_lim_const].
        apply (derivable_pt_lim_scal (fun s => - sin (- (7 / 8) * s)) 4). apply d_neg. apply DS.
      * fold C S. unfold Rdiv. rewrite !Rmult_0_l. field.
    + eapply d_to.
      * apply (derivable_pt_lim_mult (fun s => 4 * cos (- (7 / 8) * s)) (fun _ => - (7 / 8))); [|apply derivable_pt_lim_const].
        apply (derivable_pt_lim_scal (fun s => cos (- (7 / 8) * s)) 4). apply DC.
      * fold C S. unfold Rdiv. rewrite !Rmult_0_l. field.
  - intros t _. specialize (SC (- (7 / 8) * t)). set (S := sin (- (7 / 8) * t)) in *. set (C := cos (- (7 / 8) * t)) in *.
    unfold regular, dist1, dist2. cbn [px py]. split; nra.
Qed.

Print Assumptions C59_jacobi_integral.
Print Assumptions C59_steps_keep_jacobi.
Print Assumptions C59_reversible.
Print Assumptions C59_triangular_points.
Print Assumptions C59_initial_value.
Print Assumptions C59_documented_equations_refuted.
