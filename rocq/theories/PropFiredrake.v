(** C72: the diffusion problem of the Firedrake coupling. *)
From Coq Require Import Reals Lra List ZArith Lia Arith Bool Sorted.
From Verif Require Import Net NetProofs NetExec PyList ListFacts Setup Spec SetupProofs Mgrit Reference RefProofs Sim Main ParallelProofs ExampleApp OrderProofs
  Algebra PropAlgebra LinAlg Vectors AppProofs PropVectors PropParareal PropSpatial PropAccuracy Firedrake.
Import ListNotations.
Local Open Scope R_scope.

(** What the theorems need of the mesh: positive weights, unit normals, a function that vanishes at the points of the cells is zero, the constant function is
    continuous and has no gradient, and the gradients on the facets are bounded by those in the cells with constant mu (the trace inequality
    behind the interior penalty method). *)
Record dg_mesh (n : nat) (vol : list VolPoint) (fac : list FacPoint) (mu : R) : Prop := {
  dm_vw : forall q, In q vol -> 0 < vw q;
  dm_fw : forall f, In f fac -> 0 <= fw f /\ fnx f ^ 2 + fny f ^ 2 = 1;
  dm_uni : forall c, (forall q, In q vol -> ev n (vb q) c = 0) -> forall i, (i < n)%nat -> c i = 0;
  dm_one : forall q, In q vol -> ev n (vb q) (fun _ => 1) = 1 /\ ev n (vgx q) (fun _ => 1) = 0 /\ ev n (vgy q) (fun _ => 1) = 0;
  dm_onef : forall f, In f fac -> ev n (pb f) (fun _ => 1) = 1 /\ ev n (mb f) (fun _ => 1) = 1 /\ ev n (pgx f) (fun _ => 1) = 0 /\
    ev n (pgy f) (fun _ => 1) = 0 /\ ev n (mgx f) (fun _ => 1) = 0 /\ ev n (mgy f) (fun _ => 1) = 0;
  dm_mu : 0 < mu;
  dm_trace : forall c,
    total (fun f => fw f * (((ev n (pgx f) c + ev n (mgx f) c) / 2) ^ 2 + ((ev n (pgy f) c + ev n (mgy f) c) / 2) ^ 2)) fac <=
    mu * total (fun q => vw q * (ev n (vgx q) c ^ 2 + ev n (vgy q) c ^ 2)) vol
}.

(** integral of a function over the domain *)
Definition integral (n : nat) (vol : list VolPoint) (c : nat -> R) : R := total (fun q => vw q * ev n (vb q) c) vol.
(** product of two functions, and the interior penalty form of the operator - div(kappa grad): with [c] the jump and {c} the mean,
    kappa (grad g . grad p) in the cells and kappa (mu [g] [p] - [p] n . {grad g} - [g] n . {grad p}) on the facets (n: unit normal) *)
Definition product (n : nat) vol (g p : nat -> R) : R := total (fun q => vw q * (ev n (vb q) g * ev n (vb q) p)) vol.
Definition diffusion_form (n : nat) vol fac (kappa mu : R) (g p : nat -> R) : R :=
  let jump := fun f c => ev n (pb f) c - ev n (mb f) c in
  let slope := fun f c => fnx f * ((ev n (pgx f) c + ev n (mgx f) c) / 2) + fny f * ((ev n (pgy f) c + ev n (mgy f) c) / 2) in
  kappa * total (fun q => vw q * (ev n (vgx q) g * ev n (vgx q) p + ev n (vgy q) g * ev n (vgy q) p)) vol +
  kappa * total (fun f => fw f * (mu * (jump f g * jump f p) - jump f p * slope f g - jump f g * slope f p)) fac.
(** v is the backward Euler step from u: the equation holds for every test function *)
Definition weak_step (n : nat) vol fac kappa mu (dt : R) (u v : list R) : Prop :=
  length v = n /\ forall g, product n vol g (at_ v) + dt * diffusion_form n vol fac kappa mu g (at_ v) = product n vol g (at_ u).
(** L2 distance *)
Definition l2_dist (n : nat) vol (u v : list R) : R := l2 n vol (fun k => at_ u k - at_ v k).

Lemma total_ext {X} (f g : X -> R) l : (forall x, In x l -> f x = g x) -> total f l = total g l.
Proof.
  induction l as [|x l IH]; intros H; [reflexivity|]. unfold total in *. cbn [fold_right]. rewrite (H x) by (left; reflexivity). f_equal.
  apply IH. intros y Hy. apply H. right; exact Hy.
Qed.
Lemma total_le {X} (f g : X -> R) l : (forall x, In x l -> f x <= g x) -> total f l <= total g l.
Proof.
  induction l as [|x l IH]; intros H; [apply Rle_refl|]. unfold total in *. cbn [fold_right]. apply Rplus_le_compat; [apply H; left; reflexivity|].
  apply IH. intros y Hy. apply H. right; exact Hy.
Qed.
Lemma total_plus {X} (f g : X -> R) l : total (fun x => f x + g x) l = total f l + total g l.
Proof. unfold total. induction l as [|x l IH]; cbn [fold_right]; [ring|]. rewrite IH. ring. Qed.
Lemma total_scal {X} a (f : X -> R) l : total (fun x => a * f x) l = a * total f l.
Proof. unfold total. induction l as [|x l IH]; cbn [fold_right]; [ring|]. rewrite IH. ring. Qed.
Lemma total_0 {X} (f : X -> R) l : (forall x, In x l -> f x = 0) -> total f l = 0.
Proof. intros H. rewrite (total_ext f (fun _ => 0 * 0) l) by (intros; rewrite H by auto; ring). rewrite total_scal. ring. Qed.
Lemma total_nonneg {X} (f : X -> R) l : (forall x, In x l -> 0 <= f x) -> 0 <= total f l.
Proof. intros H. rewrite <- (total_0 (fun _ : X => 0) l) by reflexivity. apply total_le. exact H. Qed.
Lemma total_zero_each {X} (f : X -> R) l : (forall x, In x l -> 0 <= f x) -> total f l = 0 -> forall x, In x l -> f x = 0.
Proof.
  induction l as [|y l IH]; intros H E x Hx; [destruct Hx|]. unfold total in *. cbn [fold_right] in E.
  assert (A1 : 0 <= f y) by (apply H; left; reflexivity).
  assert (A2 : 0 <= total f l) by (apply total_nonneg; intros z Hz; apply H; right; exact Hz). unfold total in A2.
  destruct Hx as [<-|Hx]; [lra|]. apply IH; [intros z Hz; apply H; right; exact Hz|lra|exact Hx].
Qed.

Section Linear.
  Variable n : nat.
  Definition lin (F : (nat -> R) -> R) : Prop := forall c, F c = rsum n (fun i => c i * F (unit_ i)).
  Lemma ev_unit b i : (i < n)%nat -> ev n b (unit_ i) = b i.
  Proof.
    intros Hi. unfold ev, unit_. rewrite (rsum_ext n _ (fun k => if (k =? i)%nat then b k else 0)).
    - rewrite rsum_delta. apply Nat.ltb_lt in Hi. rewrite Hi. reflexivity.
    - intros k _. destruct (k =? i)%nat; ring.
  Qed.
  Lemma lin_ev b : lin (ev n b).
  Proof. intros c. unfold ev at 1. apply rsum_ext. intros i Hi. rewrite ev_unit by exact Hi. ring. Qed.
  Lemma lin_plus F G : lin F -> lin G -> lin (fun c => F c + G c).
  Proof. intros HF HG c. rewrite (HF c), (HG c), <- rsum_plus. apply rsum_ext. intros; ring. Qed.
  Lemma lin_minus F G : lin F -> lin G -> lin (fun c => F c - G c).
  Proof. intros HF HG c. rewrite (HF c), (HG c), <- rsum_minus. apply rsum_ext. intros; ring. Qed.
  Lemma lin_opp F : lin F -> lin (fun c => - F c).
  Proof. intros HF c. rewrite (HF c), <- rsum_opp. apply rsum_ext. intros; ring. Qed.
  Lemma lin_scal a F : lin F -> lin (fun c => a * F c).
  Proof. intros HF c. rewrite (HF c), <- rsum_scal. apply rsum_ext. intros; ring. Qed.
  Lemma lin_scal_r a F : lin F -> lin (fun c => F c * a).
  Proof. intros HF c. rewrite (HF c), <- rsum_scal_r. apply rsum_ext. intros; ring. Qed.
  Lemma lin_total {X} (F : X -> (nat -> R) -> R) l : (forall x, lin (F x)) -> lin (fun c => total (fun x => F x c) l).
  Proof.
    intros H. induction l as [|x l IH].
    - intros c. unfold total. cbn [fold_right]. symmetry. apply rsum_zero. intros; ring.
    - exact (lin_plus (F x) _ (H x) IH).
  Qed.
  Lemma lin_add F x y : lin F -> F (fun k => x k + y k) = F x + F y.
  Proof. intros H. rewrite (H _), (H x), (H y), <- rsum_plus. apply rsum_ext. intros; ring. Qed.
  Lemma lin_sub F x y : lin F -> F (fun k => x k - y k) = F x - F y.
  Proof. intros H. rewrite (H _), (H x), (H y), <- rsum_minus. apply rsum_ext. intros; ring. Qed.
  Lemma lin_ext F x y : lin F -> (forall k, (k < n)%nat -> x k = y k) -> F x = F y.
  Proof. intros H E. rewrite (H x), (H y). apply rsum_ext. intros k Hk. rewrite E by exact Hk. reflexivity. Qed.
End Linear.

Ltac linear := repeat first [apply lin_ev | apply lin_plus | apply lin_minus | apply lin_opp | apply lin_total; intros ? | apply lin_scal | apply lin_scal_r].

Section Diffusion.
  Variable n : nat.
  Variables (vol : list VolPoint) (fac : list FacPoint).
  Variables kappa mu : R.
  Notation M := (mass n vol).
  Notation K := (stiff n vol fac kappa mu).
  Notation B := (form n vol fac kappa mu).
  Notation mat := (form_matrix n vol fac kappa mu).

  Lemma mass_lin_l p : lin n (fun g => M g p).
  Proof. unfold mass. linear. Qed.
  Lemma mass_lin_r g : lin n (fun p => M g p).
  Proof. unfold mass. linear. Qed.
  Lemma form_lin_l dt p : lin n (fun g => B dt g p).
  Proof. unfold form, mass, stiff, jump_x, jump_y, flux_x, flux_y, kjump_x, kjump_y, avg, Rdiv. linear. Qed.
  Lemma form_lin_r dt g : lin n (fun p => B dt g p).
  Proof. unfold form, mass, stiff, jump_x, jump_y, flux_x, flux_y, kjump_x, kjump_y, avg, Rdiv. linear. Qed.
  (** the form is the assembled matrix *)
  Lemma form_assembled dt g p : B dt g p = rsum n (fun i => g i * mv n (mat dt) p i).
  Proof.
    rewrite (form_lin_l dt p g). apply rsum_ext. intros i _. f_equal. rewrite (form_lin_r dt (unit_ i) p). unfold mv, form_matrix.
    apply rsum_ext. intros; ring.
  Qed.
  Lemma mass_sym g p : M g p = M p g.
  Proof. unfold mass. apply total_ext. intros; ring. Qed.

  Hypothesis Hm : dg_mesh n vol fac mu.
  Hypothesis Hk : 0 <= kappa.

  Lemma mass_nonneg c : 0 <= M c c.
  Proof. apply total_nonneg. intros q Hq. apply Rmult_le_pos; [left; apply (dm_vw _ _ _ _ Hm q Hq)|apply Rle_0_sqr]. Qed.
  Lemma mass_definite c : M c c = 0 -> forall i, (i < n)%nat -> c i = 0.
  Proof.
    intros E. apply (dm_uni _ _ _ _ Hm). intros q Hq.
    pose proof (total_zero_each (fun q => vw q * (ev n (vb q) c * ev n (vb q) c)) vol) as Z. cbv beta in Z.
    assert (Zq : vw q * (ev n (vb q) c * ev n (vb q) c) = 0).
    { apply Z; [|exact E|exact Hq]. intros q' Hq'. apply Rmult_le_pos; [left; apply (dm_vw _ _ _ _ Hm q' Hq')|apply Rle_0_sqr]. }
    pose proof (dm_vw _ _ _ _ Hm q Hq). apply Rmult_integral in Zq. destruct Zq as [Zq|Zq]; [lra|]. apply Rmult_integral in Zq. destruct Zq; assumption.
  Qed.
  (** the interior penalty form is not negative *)
  Lemma stiff_nonneg c : 0 <= K c c.
  Proof.
    pose proof (dm_mu _ _ _ _ Hm) as Mu.
    set (G := total (fun f => fw f * (((ev n (pgx f) c + ev n (mgx f) c) / 2) ^ 2 + ((ev n (pgy f) c + ev n (mgy f) c) / 2) ^ 2)) fac).
    set (V := total (fun q => vw q * (ev n (vgx q) c ^ 2 + ev n (vgy q) c ^ 2)) vol).
    assert (T : G <= mu * V) by apply (dm_trace _ _ _ _ Hm).
    assert (E1 : total (fun q => vw q * (ev n (vgx q) c * (ev n (vgx q) c * kappa) + ev n (vgy q) c * (ev n (vgy q) c * kappa))) vol = kappa * V).
    { unfold V. rewrite <- total_scal. apply total_ext. intros; ring. }
    assert (E2 : - (kappa / mu) * G <=
      - total (fun f => fw f * (jump_x n f c * flux_x n kappa f c + jump_y n f c * flux_y n kappa f c)) fac
      - total (fun f => fw f * (flux_x n kappa f c * jump_x n f c + flux_y n kappa f c * jump_y n f c)) fac
      + total (fun f => fw f * (mu * (jump_x n f c * kjump_x n kappa f c + jump_y n f c * kjump_y n kappa f c))) fac).
    { unfold G. rewrite <- total_scal.
      set (t1 := fun f => fw f * (jump_x n f c * flux_x n kappa f c + jump_y n f c * flux_y n kappa f c)).
      set (t2 := fun f => fw f * (flux_x n kappa f c * jump_x n f c + flux_y n kappa f c * jump_y n f c)).
      set (t3 := fun f => fw f * (mu * (jump_x n f c * kjump_x n kappa f c + jump_y n f c * kjump_y n kappa f c))).
      replace (- total t1 fac - total t2 fac + total t3 fac) with (total (fun f => (-1) * t1 f + ((-1) * t2 f + t3 f)) fac)
        by (rewrite !total_plus, !total_scal; ring).
      apply total_le. intros f Hf. unfold t1, t2, t3, jump_x, jump_y, flux_x, flux_y, kjump_x, kjump_y, avg. destruct (dm_fw _ _ _ _ Hm f Hf) as [W _].
      set (jx := ev n (pb f) c * fnx f + ev n (mb f) c * - fnx f). set (jy := ev n (pb f) c * fny f + ev n (mb f) c * - fny f).
      set (gx := (ev n (pgx f) c + ev n (mgx f) c) / 2). set (gy := (ev n (pgy f) c + ev n (mgy f) c) / 2).
      assert (Q : 0 <= fw f * kappa * mu * ((jx - gx / mu) ^ 2 + (jy - gy / mu) ^ 2)).
      { apply Rmult_le_pos; [apply Rmult_le_pos; [apply Rmult_le_pos; assumption|lra]|]. pose proof (pow2_ge_0 (jx - gx / mu)). pose proof (pow2_ge_0 (jy - gy / mu)). lra. }
      match goal with |- ?a <= ?b => enough (b - a = fw f * kappa * mu * ((jx - gx / mu) ^ 2 + (jy - gy / mu) ^ 2)) by lra end.
      unfold jx, jy, gx, gy. field. lra. }
    unfold stiff. rewrite E1.
    assert (E3 : kappa / mu * G <= kappa * V).
    { unfold Rdiv. replace (kappa * V) with (kappa * / mu * (mu * V)) by (field; lra). apply Rmult_le_compat_l; [|exact T].
      apply Rmult_le_pos; [exact Hk|left; apply Rinv_0_lt_compat; exact Mu]. }
    lra.
  Qed.
  Lemma mat_injective dt : 0 <= dt -> injective n (mat dt).
  Proof.
    intros Hd x E. apply mass_definite.
    assert (F : B dt x x = 0).
    { rewrite form_assembled. apply rsum_zero. intros i Hi. rewrite E by exact Hi. ring. }
    unfold form in F. pose proof (mass_nonneg x). pose proof (Rmult_le_pos _ _ Hd (stiff_nonneg x)). lra.
  Qed.
  Lemma stiff_form g p : K g p = diffusion_form n vol fac kappa mu g p.
  Proof.
    unfold stiff, diffusion_form. set (t0 := total _ vol). set (t1 := total _ fac). set (t2 := total _ fac). set (t3 := total _ fac).
    replace (t0 - t1 - t2 + t3) with (t0 + (-1 * t1 + (-1 * t2 + t3))) by ring. f_equal.
    - unfold t0. rewrite <- total_scal. apply total_ext. intros; ring.
    - unfold t1, t2, t3. rewrite <- !total_scal, <- !total_plus. apply total_ext. intros f Hf. destruct (dm_fw _ _ _ _ Hm f Hf) as [_ N].
      unfold jump_x, jump_y, flux_x, flux_y, kjump_x, kjump_y, avg.
      replace (mu * ((ev n (pb f) g - ev n (mb f) g) * (ev n (pb f) p - ev n (mb f) p))) with
        (mu * ((ev n (pb f) g - ev n (mb f) g) * (ev n (pb f) p - ev n (mb f) p)) * (fnx f ^ 2 + fny f ^ 2)) by (rewrite N; ring). field.
  Qed.
  Lemma weak_form dt u v : weak_step n vol fac kappa mu dt u v <-> length v = n /\ forall g, B dt g (at_ v) = M g (at_ u).
  Proof. unfold weak_step, form. split; intros [L0 H]; split; auto; intros g; specialize (H g); rewrite stiff_form in *; exact H. Qed.
  Lemma weak_matrix dt u v : length v = n ->
    weak_step n vol fac kappa mu dt u v <-> forall i, (i < n)%nat -> mv n (mat dt) (at_ v) i = at_ (load n vol u) i.
  Proof.
    intros Lv. unfold load. split.
    - intros W i Hi. apply weak_form in W. destruct W as [_ H]. rewrite at_tab by exact Hi. rewrite <- H.
      rewrite (form_lin_r dt (unit_ i) (at_ v)). unfold mv, form_matrix. apply rsum_ext. intros; ring.
    - intros H. apply weak_form. split; [exact Lv|]. intros g. rewrite form_assembled, (mass_lin_l (at_ u) g).
      apply rsum_ext. intros i Hi. rewrite H, at_tab by exact Hi. reflexivity.
  Qed.
  Lemma weak_unique dt u v w : 0 <= dt -> weak_step n vol fac kappa mu dt u v -> weak_step n vol fac kappa mu dt u w -> v = w.
  Proof.
    intros Hd Hv Hw. destruct Hv as [Lv Hv'], Hw as [Lw Hw'].
    rewrite (spsolve_unique n (mat dt) (load n vol u) v), (spsolve_unique n (mat dt) (load n vol u) w); auto using mat_injective;
      apply weak_matrix; try assumption; split; assumption.
  Qed.
  Lemma fstep_weak s u ta tb : length (h_soln s) = n -> length u = n -> ta <= tb ->
    let '(s', v) := fstep n vol fac kappa mu s u ta tb in h_soln s' = v /\ weak_step n vol fac kappa mu (tb - ta) u v.
  Proof.
    intros Ls Lu Ht. unfold fstep, solve. cbn [h_dt h_f h_soln]. split; [reflexivity|].
    set (d := spsolve _ _ _). assert (Ld : length d = n) by apply spsolve_length.
    assert (Lv : length (vplus (h_soln s) d) = n) by (unfold vplus; rewrite zipw_length; lia).
    apply weak_matrix; [exact Lv|]. intros i Hi.
    rewrite (mv_ext n (mat (tb - ta)) (mat (tb - ta)) _ (fun k => at_ d k - - at_ (h_soln s) k)) by
      (auto; intros k Hk'; unfold vplus; rewrite at_zipw by lia; ring).
    rewrite mv_minus, mv_opp. unfold d. rewrite spsolve_ok by (auto; apply mat_injective; lra).
    unfold vminus. rewrite at_zipw by (unfold load, mulmv; rewrite tab_length; exact Hi). unfold mulmv. rewrite at_tab by exact Hi. ring.
  Qed.

  (** integral and norm along a step *)
  Lemma weak_integral dt u v : weak_step n vol fac kappa mu dt u v -> integral n vol (at_ v) = integral n vol (at_ u).
  Proof.
    intros W. apply weak_form in W. destruct W as [_ H]. specialize (H (fun _ => 1)). unfold form in H.
    assert (E : forall c, M (fun _ => 1) c = integral n vol c).
    { intros c. apply total_ext. intros q Hq. destruct (dm_one _ _ _ _ Hm q Hq) as (-> & _). ring. }
    assert (Z : K (fun _ => 1) (at_ v) = 0).
    { unfold stiff. rewrite !total_0; [ring| | | |].
      - intros f Hf. destruct (dm_onef _ _ _ _ Hm f Hf) as (E1 & E2 & _). unfold kjump_x, kjump_y, avg. rewrite E1, E2. field.
      - intros f Hf. destruct (dm_onef _ _ _ _ Hm f Hf) as (E1 & E2 & _). unfold jump_x at 1, jump_y at 1, avg. rewrite E1, E2. field.
      - intros f Hf. destruct (dm_onef _ _ _ _ Hm f Hf) as (_ & _ & E1 & E2 & E3 & E4). unfold flux_x, flux_y, avg. rewrite E1, E2, E3, E4. field.
      - intros q Hq. destruct (dm_one _ _ _ _ Hm q Hq) as (_ & -> & ->). ring. }
    rewrite !E, Z in H. lra.
  Qed.
  Lemma energy dt x y : 0 <= dt -> (forall g, B dt g x = M g y) -> M x x <= M y y.
  Proof.
    intros Hd H. specialize (H x). unfold form in H. pose proof (Rmult_le_pos _ _ Hd (stiff_nonneg x)) as S0.
    assert (Y : M x y <= (M x x + M y y) / 2).
    { unfold mass. unfold Rdiv. rewrite <- total_plus, (Rmult_comm _ (/ 2)), <- total_scal. apply total_le. intros q Hq.
      pose proof (dm_vw _ _ _ _ Hm q Hq) as W. pose proof (Rle_0_sqr (ev n (vb q) x - ev n (vb q) y)) as S1. unfold Rsqr in S1.
      pose proof (Rmult_le_pos _ _ (Rlt_le _ _ W) S1). lra. }
    lra.
  Qed.
  Lemma weak_contracts dt u u' v v' : 0 <= dt -> weak_step n vol fac kappa mu dt u v -> weak_step n vol fac kappa mu dt u' v' -> l2_dist n vol v v' <= l2_dist n vol u u'.
  Proof.
    intros Hd W W'. apply weak_form in W, W'. destruct W as [_ H], W' as [_ H']. unfold l2_dist, l2. apply sqrt_le_1_alt. apply (energy dt); [exact Hd|]. intros g.
    rewrite (lin_sub n (fun p => B dt g p) _ _ (form_lin_r dt g)), (lin_sub n (fun p => M g p) _ _ (mass_lin_r g)).
    rewrite H, H'. reflexivity.
  Qed.
  Lemma weak_norm dt u v : 0 <= dt -> weak_step n vol fac kappa mu dt u v -> l2 n vol (at_ v) <= l2 n vol (at_ u).
  Proof. intros Hd W. apply weak_form in W. destruct W as [_ H]. unfold l2. apply sqrt_le_1_alt. apply (energy dt); [exact Hd|]. exact H. Qed.

  (** the L2 norm *)
  Lemma l2_norm2 c : l2 n vol c = norm2 (map (fun q => sqrt (vw q) * ev n (vb q) c) vol).
  Proof.
    unfold l2, norm2. f_equal. unfold mass. assert (W : forall q, In q vol -> 0 <= vw q) by (intros q Hq; left; apply (dm_vw _ _ _ _ Hm q Hq)).
    clear Hm. induction vol as [|q l IH]; [reflexivity|]. unfold total in *. cbn [fold_right map]. rewrite IH by (intros; apply W; right; assumption). f_equal.
    replace (sqrt (vw q) * ev n (vb q) c * (sqrt (vw q) * ev n (vb q) c)) with (sqrt (vw q) * sqrt (vw q) * (ev n (vb q) c * ev n (vb q) c)) by ring.
    rewrite sqrt_sqrt by (apply W; left; reflexivity). reflexivity.
  Qed.
  Lemma l2_triangle x y : l2 n vol (fun k => x k + y k) <= l2 n vol x + l2 n vol y.
  Proof.
    rewrite !l2_norm2. eapply Rle_trans; [|apply norm2_triangle_sq; rewrite !map_length; reflexivity]. apply Req_le. f_equal.
    clear Hm. induction vol as [|q l IH]; [reflexivity|]. cbn [map]. unfold vplus, zipw in *. cbn [combine map]. f_equal; [|exact IH]. cbn [fst snd].
    rewrite (lin_add n (ev n (vb q)) x y (lin_ev n (vb q))). ring.
  Qed.
  Lemma l2_ext x y : (forall k, (k < n)%nat -> x k = y k) -> l2 n vol x = l2 n vol y.
  Proof. intros E. rewrite !l2_norm2. f_equal. apply map_ext. intros q. f_equal. apply (lin_ext n); [apply lin_ev|exact E]. Qed.
End Diffusion.

(** The application object keeps dt, f and soln between calls, and the solver starts from soln: neither influences the returned values.  Every call
    returns the only solution of the equation of its arguments, whatever was computed before with the same object. *)
Theorem C72_hidden_state : forall n vol fac kappa mu, dg_mesh n vol fac mu -> 0 <= kappa ->
  forall calls s, length (h_soln s) = n -> (forall u ta tb, In (u, ta, tb) calls -> length u = n /\ ta <= tb) ->
  Forall2 (fun c v => let '(u, ta, tb) := c in
    weak_step n vol fac kappa mu (tb - ta) u v /\ forall w, weak_step n vol fac kappa mu (tb - ta) u w -> w = v) calls (fsteps n vol fac kappa mu s calls) /\
  forall s', length (h_soln s') = n -> fsteps n vol fac kappa mu s' calls = fsteps n vol fac kappa mu s calls.
Proof.
  intros n vol fac kappa mu Hm Hk. induction calls as [|[[u ta] tb] rest IH]; intros s Ls H; [split; [constructor|reflexivity]|].
  destruct (H u ta tb (or_introl eq_refl)) as [Lu Ht]. cbn [fsteps].
  pose proof (fstep_weak n vol fac kappa mu Hm Hk s u ta tb Ls Lu Ht) as F. destruct (fstep n vol fac kappa mu s u ta tb) as [s1 v1]. destruct F as [E1 W1].
  assert (L1 : length (h_soln s1) = n) by (rewrite E1; apply W1).
  destruct (IH s1 L1 (fun u' a b Hi => H u' a b (or_intror Hi))) as [F1 F2]. split.
  - constructor; [|exact F1]. split; [exact W1|]. intros w Hw. apply (weak_unique n vol fac kappa mu Hm Hk (tb - ta) u); auto. lra.
  - intros s' Ls'. pose proof (fstep_weak n vol fac kappa mu Hm Hk s' u ta tb Ls' Lu Ht) as F. destruct (fstep n vol fac kappa mu s' u ta tb) as [s2 v2]. destruct F as [E2 W2].
    f_equal; [apply (weak_unique n vol fac kappa mu Hm Hk (tb - ta) u); auto; lra|]. apply F2. rewrite E2. apply W2.
Qed.

(** VectorFiredrake is a vector space with a norm. *)
Theorem C72_vector_laws : forall n vol fac mu, dg_mesh n vol fac mu ->
  space_laws (VectorFiredrake n vol) (fun u => length u = n) (repeat 0 n) /\ norm_laws (VectorFiredrake n vol) (fun u => length u = n) (repeat 0 n).
Proof.
  intros n vol fac mu Hm. split; constructor; cbn [VectorFiredrake cV c_add c_sub c_mul c_norm c_clone c_zero c_pack c_unpack]; intros.
  all: try reflexivity.
  all: try solve [lists n].
  - apply sqrt_pos.
  - unfold l2. split.
    + intros E. apply sqrt_eq_0 in E; [|apply (mass_nonneg n vol fac mu Hm)]. apply (list_ext _ _ n); [assumption|apply repeat_length|].
      intros k Hk. rewrite (mass_definite n vol fac mu Hm _ E k Hk). unfold at_. rewrite nth_repeat. reflexivity.
    + intros ->. replace (mass n vol (at_ (repeat 0 n)) (at_ (repeat 0 n))) with 0; [apply sqrt_0|]. symmetry. apply total_0. intros q _.
      unfold ev. rewrite rsum_zero; [ring|]. intros k _. unfold at_. rewrite nth_repeat. ring.
  - assert (E : forall q, ev n (vb q) (at_ (vtimes x a)) = ev n (vb q) (at_ x) * a).
    { intros q. unfold ev. rewrite <- rsum_scal_r. apply rsum_ext. intros k _. rewrite at_vtimes. ring. }
    rewrite !(l2_norm2 n vol fac mu Hm). rewrite <- norm2_mul. f_equal. unfold vtimes at 2. rewrite map_map. apply map_ext. intros q. rewrite E. ring.
  - eapply Rle_trans; [|apply (l2_triangle n vol fac mu Hm)]. apply Req_le. apply (l2_ext n vol fac mu Hm). intros k Hk.
    unfold vplus. rewrite at_zipw by lia. reflexivity.
Qed.

(** Diffusion2D on all levels (one object per level) with GridTransferCopy.  [start]: the interpolated initial condition. *)
Definition diffusion_app (n : nat) vol fac kappa mu (start : list R) (tm : Z -> R) : App :=
  app_of (VectorFiredrake n vol) (fun _ u ta tb => snd (fstep n vol fac kappa mu (new_object n) u ta tb)) (fun _ => repeat 0 n) (fun _ => start) tm.

Section DiffusionRuns.
  Variables (n : nat) (vol : list VolPoint) (fac : list FacPoint) (kappa mu : R) (start : list R) (tm : Z -> R).
  Hypothesis Hm : dg_mesh n vol fac mu.
  Hypothesis Hk : 0 <= kappa.
  Hypothesis Ls : length start = n.
  Notation A := (diffusion_app n vol fac kappa mu start tm).
  Lemma fd_length u ta tb : length (snd (fstep n vol fac kappa mu (new_object n) u ta tb)) = n.
  Proof. unfold fstep, solve, vplus. cbn [snd h_soln new_object]. rewrite zipw_length, repeat_length, spsolve_length. lia. Qed.
  Lemma fd_laws :
    app_laws A (fun _ u => length u = n) /\ exact_laws A (fun _ u => length u = n) (fun _ => repeat 0 n) /\ @lossless A (fun _ u => length u = n) /\
    forall o : Opts A, @weight_mean A (fun _ u => length u = n) o /\ (o_weight o = 1 -> @weight_one A (fun _ u => length u = n) o).
  Proof.
    apply (C29_solver_hypotheses (VectorFiredrake n vol) (fun u => length u = n)).
    - apply (C72_vector_laws n vol fac mu Hm).
    - intros. apply fd_length.
    - intros. apply repeat_length.
    - intros. exact Ls.
  Qed.
  Lemma fd_step (u : list R) s s' : length u = n -> tm s <= tm s' -> weak_step n vol fac kappa mu (tm s' - tm s) u (phi A 0 u s s').
  Proof.
    intros Lu Ht. change (phi A 0 u s s') with (snd (fstep n vol fac kappa mu (new_object n) u (tm s) (tm s'))).
    pose proof (fstep_weak n vol fac kappa mu Hm Hk (new_object n) u (tm s) (tm s') (repeat_length 0 n) Lu Ht) as F.
    destruct (fstep n vol fac kappa mu (new_object n) u (tm s) (tm s')). apply F.
  Qed.
End DiffusionRuns.

(** Any run: after enough iterations every returned function has the integral of the initial function, and the L2 norm does not grow in time.  With the
    residual criterion, the L2 distance from the values of time stepping is at most tol for every C-point. *)
Theorem C72_diffusion_runs : forall n vol fac kappa mu start tm,
  dg_mesh n vol fac mu -> 0 <= kappa -> length start = n -> (forall s t, (s <= t)%Z -> tm s <= tm t) ->
  let A := diffusion_app n vol fac kappa mu start tm in
  forall (o : Opts A) (P N : nat) cfg,
  @good_setup A (fun _ u => length u = n) o P -> (o_dist o <> None -> (1 < length (o_grids o))%nat) ->
  let points := nth 0 (o_grids o) [] in
  steps P N (initial (mgrit_main o P)) cfg -> stuck P cfg ->
  exists res k, finished P res cfg /\ (forall r, (r < P)%nat -> s_iter (res r) = k) /\
    let u : list (list R) := gathered P (fun r => s_u (res r) 0) in
    length u = length points /\
    (o_weight o = 1 -> (0 < k)%nat -> (length (nth 1 (o_grids o) []) <= k * cf_count o 0 + 1)%nat ->
     nth 0 u [] = start /\
     forall i, (S i < length points)%nat ->
       weak_step n vol fac kappa mu (tm (nth (S i) points 0%Z) - tm (nth i points 0%Z)) (nth i u []) (nth (S i) u []) /\
       integral n vol (at_ (nth (S i) u [])) = integral n vol (at_ start) /\ l2 n vol (at_ (nth (S i) u [])) <= l2 n vol (at_ (nth i u []))) /\
    (o_conv_crit o = 0%Z -> (k < o_max_iter o)%nat ->
     exists exact : nat -> list R, exact 0%nat = start /\
       (forall i, (S i < length points)%nat ->
         weak_step n vol fac kappa mu (tm (nth (S i) points 0%Z) - tm (nth i points 0%Z)) (exact i) (exact (S i))) /\
       forall i, (i < length points)%nat -> l2_dist n vol (exact i) (nth i u []) <= INR (cpoints_upto o i) * o_tol o).
Proof.
  intros n vol fac kappa mu start tm Hm Hk Ls Hmono A o P N cfg G HD points H St0.
  destruct (fd_laws n vol fac kappa mu start tm Hm Ls) as (AL & E & _ & W). destruct (W o) as [_ W1].
  pose proof (gs_grids _ _ _ G) as HV.
  assert (Mono : forall i, (S i < length points)%nat -> tm (nth i points 0%Z) <= tm (nth (S i) points 0%Z)).
  { intros i Hi. apply Hmono. destruct HV as (HV0 & HV1 & _). destruct (HV1 0%nat) as [HS _]; [destruct (o_grids o); [congruence|simpl; lia]|].
    apply Z.lt_le_incl. apply (ssorted_incr _ HS); unfold points in Hi; lia. }
  assert (Wf : forall i, length (time_stepping o i : list R) = n).
  { induction i as [|i IH]; [exact Ls|]. cbn [time_stepping]. apply (wf_phi _ _ AL 0%nat). exact IH. }
  assert (SA : forall i, (S i < length points)%nat ->
    weak_step n vol fac kappa mu (tm (nth (S i) points 0%Z) - tm (nth i points 0%Z)) (time_stepping o i) (time_stepping o (S i))).
  { intros i Hi. cbn [time_stepping]. apply (fd_step n vol fac kappa mu start tm Hm Hk); [apply Wf|apply Mono; exact Hi]. }
  destruct (@run_facts A (fun _ u => length u = n) o P N cfg G H St0) as (res & k & F & _ & K2 & Hu & Hkk & _ & _ & Hst & Hh & _). exists res, k.
  split; [exact F|]. split; [exact Hkk|]. intros u.
  assert (Lu : length u = length points) by (unfold u; rewrite Hu, map_length, seq_length; reflexivity). split; [exact Lu|].
  assert (HP : (0 < P)%nat) by apply (gs_procs _ _ _ G).
  split.
  - intros Hw Hk0 Hcc.
    destruct (C09_exact_after_enough_iterations A (fun _ u => length u = n) _ o P N cfg G E (W1 Hw) HD H St0) as (res' & k' & F' & Hk' & X).
    assert (Er : forall r, (r < P)%nat -> res' r = res r) by (intros r Hr; apply (finished_res_unique P cfg res' res F' F r Hr)).
    assert (k' = k) by (rewrite <- (Hkk 0%nat HP), <- (Hk' 0%nat HP), Er by exact HP; reflexivity). subst k'.
    specialize (X Hk0 (or_introl Hcc)).
    assert (Eu : u = map (time_stepping o) (seq 0 (length points))).
    { etransitivity; [|exact X]. unfold u, gathered. f_equal. apply map_ext_in. intros r Hr. apply in_seq in Hr. rewrite Er by lia. reflexivity. }
    assert (En : forall i, (i < length points)%nat -> nth i u [] = time_stepping o i).
    { intros i Hi. rewrite Eu. rewrite (nth_indep _ _ (time_stepping o 0)) by (rewrite map_length, seq_length; auto).
      rewrite (map_nth (time_stepping o)), seq_nth by auto. reflexivity. }
    pose proof (gs_two _ _ _ G) as Two. fold points in Two. split; [rewrite En by lia; reflexivity|]. intros i Hi. rewrite !En by lia. split; [apply SA; exact Hi|]. split.
    + clear Eu En. induction i as [|i IH].
      * rewrite (weak_integral n vol fac kappa mu Hm _ _ _ (SA 0%nat Hi)). reflexivity.
      * rewrite (weak_integral n vol fac kappa mu Hm _ _ _ (SA (S i) Hi)). apply IH. lia.
    + pose proof (Mono i Hi). eapply (weak_norm n vol fac kappa mu Hm Hk); [|apply SA; exact Hi]. lra.
  - intros Hcc Hkm. exists (time_stepping o). split; [reflexivity|]. split; [exact SA|]. intros i Hi.
    destruct (C53_residual_bounds_error A (fun _ u => length u = n) o P N cfg (l2_dist n vol) 1 (Rmax 0 (o_tol o))) as (res' & k' & F' & Hk' & X); auto.
    + intros y. unfold l2_dist, l2. replace (mass n vol _ _) with 0; [apply sqrt_0|]. symmetry. apply total_0. intros q _.
      unfold ev. rewrite rsum_zero; [ring|]. intros j _. ring.
    + intros y z w. unfold l2_dist. eapply Rle_trans; [|apply (l2_triangle n vol fac mu Hm)]. apply Req_le. apply (l2_ext n vol fac mu Hm). intros; ring.
    + apply Rle_refl.
    + intros y z p Hp Wy Wz. cbv zeta. rewrite Rmult_1_l. pose proof (Mono p Hp) as T.
      apply (weak_contracts n vol fac kappa mu Hm Hk (tm (nth (S p) points 0%Z) - tm (nth p points 0%Z))); [lra| |];
        apply (fd_step n vol fac kappa mu start tm Hm Hk); assumption.
    + intros y z Wy Wz Hyz. cbn [A diffusion_app app_of sc_lt vnorm vsub VectorFiredrake c_norm c_sub] in Hyz.
      destruct (Rlt_dec _ _) as [Y|]; [|discriminate]. eapply Rle_trans; [|apply Rmax_r]. left. eapply Rle_lt_trans; [|exact Y]. apply Req_le.
      apply (l2_ext n vol fac mu Hm). intros j Hj. unfold vminus. rewrite at_zipw by lia. reflexivity.
    + apply Rmax_l.
    + intros l y Wy Hlt z Wz. cbn [A diffusion_app app_of sc_lt tnorm] in *. injection Wy as <-. destruct (Rlt_dec (norm2 l) _) as [Y|]; [|discriminate].
      destruct (Rlt_dec z _) as [|Nz]; [reflexivity|]. exfalso. apply Nz. pose proof (norm2_entry l z Wz). pose proof (Rle_abs z).
      eapply Rle_lt_trans; [|exact Y]. lra.
    + assert (Er : forall r, (r < P)%nat -> res' r = res r) by (intros r Hr; apply (finished_res_unique P cfg res' res F' F r Hr)).
      assert (k' = k) by (rewrite <- (Hkk 0%nat HP), <- (Hk' 0%nat HP), Er by exact HP; reflexivity). subst k'.
      destruct (X Hkm i Hi) as (y & Ey & By).
      assert (Eu : gathered P (fun r => s_u (res' r) 0) = u).
      { unfold u, gathered. f_equal. apply map_ext_in. intros r Hr. apply in_seq in Hr. rewrite Er by lia. reflexivity. }
      rewrite Eu in Ey. apply (nth_error_nth _ _ ([] : list R)) in Ey.
      assert (T0 : 0 <= o_tol o).
      { specialize (Hst Hkm). specialize (Hh k (conj (K2 (Nat.le_lt_trans 0 k (o_max_iter o) (Nat.le_0_l k) Hkm)) (Nat.le_refl k))).
        symmetry in Hh. apply (nth_error_nth _ _ (sc_zero A)) in Hh. rewrite Hh in Hst.
        cbn [A diffusion_app app_of sc_lt] in Hst.
        destruct (Rlt_dec _ _) as [Y|]; [|discriminate]. eapply Rle_trans; [|left; exact Y]. apply norm2_nonneg. }
      rewrite pow1, Rmult_1_l, Rmax_right in By by exact T0. rewrite Ey. exact By.
Qed.

(** The periodic unit square cut into two triangles, (0,0) (1,0) (0,1) and (1,1) (0,1) (1,0): six degrees of freedom, edge mid-points in the cells, Simpson's
    rule on the three facets (diagonal, x = 0 and y = 0); mu = 5 is the default of the constructor. *)
Definition on0 (l : list R) : nat -> R := at_ (l ++ [0; 0; 0]).
Definition on1 (l : list R) : nat -> R := at_ ([0; 0; 0] ++ l).
Definition two_triangles : list VolPoint :=
  map (fun l => mkVol (1 / 6) (on0 l) (on0 [-1; 1; 0]) (on0 [-1; 0; 1])) [[1 / 2; 1 / 2; 0]; [0; 1 / 2; 1 / 2]; [1 / 2; 0; 1 / 2]] ++
  map (fun l => mkVol (1 / 6) (on1 l) (on1 [1; -1; 0]) (on1 [1; 0; -1])) [[1 / 2; 1 / 2; 0]; [0; 1 / 2; 1 / 2]; [1 / 2; 0; 1 / 2]].
Definition facet_rule (len nx ny : R) (p m : R -> list R) : list FacPoint :=
  map (fun ws => mkFac (len * fst ws) nx ny (on0 (p (snd ws))) (on1 (m (snd ws))) (on0 [-1; 1; 0]) (on0 [-1; 0; 1]) (on1 [1; -1; 0]) (on1 [1; 0; -1]))
    [(1 / 6, 0); (4 / 6, 1 / 2); (1 / 6, 1)].
Definition three_facets : list FacPoint :=
  facet_rule (sqrt 2) (1 / sqrt 2) (1 / sqrt 2) (fun s => [0; 1 - s; s]) (fun s => [0; s; 1 - s]) ++
  facet_rule 1 (-1) 0 (fun s => [1 - s; 0; s]) (fun s => [s; 0; 1 - s]) ++
  facet_rule 1 0 (-1) (fun s => [1 - s; s; 0]) (fun s => [s; 1 - s; 0]).
Ltac values := unfold ev, on0, on1, at_; cbn [rsum nth app].
Ltac each H := repeat (destruct H as [<-|H]); [..|destruct H].

Lemma two_triangles_mesh : dg_mesh 6 two_triangles three_facets 5.
Proof.
  assert (S2 : 0 < sqrt 2 <= 3).
  { split; [apply sqrt_lt_R0; lra|]. rewrite <- (sqrt_square 3) by lra. apply sqrt_le_1_alt. lra. }
  assert (N2 : (1 / sqrt 2) ^ 2 + (1 / sqrt 2) ^ 2 = 1).
  { pose proof (sqrt_sqrt 2 ltac:(lra)) as Q. replace ((1 / sqrt 2) ^ 2 + (1 / sqrt 2) ^ 2) with (2 / (sqrt 2 * sqrt 2)) by (field; lra). rewrite Q. field. }
  constructor.
  - intros q H. cbn [two_triangles map app In] in H. each H; cbn [vw]; lra.
  - intros f H. cbn [three_facets facet_rule map app In fst snd] in H. each H; cbn [fw fnx fny]; (split; [lra|]); try lra; exact N2.
  - intros c H i Hi.
    assert (E : c 0%nat = 0 /\ c 1%nat = 0 /\ c 2%nat = 0 /\ c 3%nat = 0 /\ c 4%nat = 0 /\ c 5%nat = 0).
    { cbn [two_triangles map app] in H.
      pose proof (H _ (or_introl eq_refl)) as H1. pose proof (H _ (or_intror (or_introl eq_refl))) as H2.
      pose proof (H _ (or_intror (or_intror (or_introl eq_refl)))) as H3. pose proof (H _ (or_intror (or_intror (or_intror (or_introl eq_refl))))) as H4.
      pose proof (H _ (or_intror (or_intror (or_intror (or_intror (or_introl eq_refl)))))) as H5.
      pose proof (H _ (or_intror (or_intror (or_intror (or_intror (or_intror (or_introl eq_refl))))))) as H6. clear H.
      unfold ev, on0, on1, at_ in *. cbn [vb rsum nth app] in *. lra. }
    destruct i as [|[|[|[|[|[|i]]]]]]; [apply E..|lia].
  - intros q H. cbn [two_triangles map app In] in H. each H; cbn [vb vgx vgy]; values; lra.
  - intros f H. cbn [three_facets facet_rule map app In fst snd] in H. each H; cbn [pb mb pgx pgy mgx mgy]; values; lra.
  - lra.
  - intros c. unfold total. cbn [three_facets facet_rule two_triangles map app fold_right fst snd fw pgx pgy mgx mgy vw vgx vgy]. values.
    set (a := -1 * c 0%nat + c 1%nat). set (b := c 3%nat - c 4%nat). set (p := - c 0%nat + c 2%nat). set (q := c 3%nat - c 5%nat).
    match goal with |- ?l <= ?r => replace l with ((sqrt 2 + 2) * (((a + b) / 2) ^ 2 + ((p + q) / 2) ^ 2)) by (unfold a, b, p, q; field);
      replace r with (5 * ((a ^ 2 + p ^ 2 + b ^ 2 + q ^ 2) / 2)) by (unfold a, b, p, q; field) end.
    assert (Q : ((a + b) / 2) ^ 2 + ((p + q) / 2) ^ 2 <= (a ^ 2 + p ^ 2 + b ^ 2 + q ^ 2) / 2).
    { pose proof (pow2_ge_0 (a - b)). pose proof (pow2_ge_0 (p - q)). lra. }
    pose proof (pow2_ge_0 ((a + b) / 2)). pose proof (pow2_ge_0 ((p + q) / 2)).
    apply Rle_trans with (5 * (((a + b) / 2) ^ 2 + ((p + q) / 2) ^ 2)); [apply Rmult_le_compat_r; lra|lra].
Qed.

Example C72_hypotheses_hold : forall P, (0 < P)%nat -> (P <= 129)%nat ->
  let start := [1; 0; 0; 0; 0; 0] in
  let A := diffusion_app 6 two_triangles three_facets (1 / 10) 5 start example_time in
  let o := example_opts A 1 (1 / 10000000) in
  dg_mesh 6 two_triangles three_facets 5 /\ length start = 6%nat /\ (forall s t, (s <= t)%Z -> example_time s <= example_time t) /\
  @good_setup A (fun _ u => length u = 6%nat) o P /\ o_dist o = None /\ integral 6 two_triangles (at_ start) = 1 / 6 /\
  diffusion_form 6 two_triangles three_facets (1 / 10) 5 (at_ start) (at_ start) <> 0 /\ length (h_soln (new_object 6)) = 6%nat.
Proof.
  intros P HP HP' start A o. split; [apply two_triangles_mesh|]. split; [reflexivity|]. split.
  { intros s t Hs. unfold example_time. apply IZR_le in Hs. lra. }
  split.
  { constructor.
    - apply (fd_laws 6 two_triangles three_facets (1 / 10) 5 start example_time two_triangles_mesh). reflexivity.
    - apply valid_hierarchyb_ok. vm_compute. reflexivity.
    - apply no_adjacentb_ok. vm_compute. reflexivity.
    - simpl. lia.
    - exact HP.
    - transitivity (if (129 <? P)%nat then Some (UserException 10) else None); [lazy; reflexivity|]. replace (129 <? P)%nat with false by (symmetry; apply Nat.ltb_ge; lia). reflexivity.
    - left; reflexivity.
    - apply ascending_order_ok.
    - discriminate.
    - discriminate. }
  split; [reflexivity|]. split.
  { unfold integral, total. cbn [two_triangles map app fold_right vw vb]. values. unfold start. cbn [nth]. lra. }
  split; [|reflexivity].
  assert (S2 : 0 < sqrt 2) by (apply sqrt_lt_R0; lra).
  unfold diffusion_form, total.
  cbn [three_facets facet_rule two_triangles map app fold_right fst snd fw fnx fny pb mb pgx pgy mgx mgy vw vb vgx vgy]. values. unfold start. cbn [nth].
  match goal with |- ?l <> 0 => replace l with (1 / 3) by (field; lra) end. lra.
Qed.

Print Assumptions C72_hidden_state.
Print Assumptions C72_vector_laws.
Print Assumptions C72_diffusion_runs.
Print Assumptions C72_hypotheses_hold.
