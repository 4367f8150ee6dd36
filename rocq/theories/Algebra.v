(** Numerical properties of the reference algorithm over exact vector arithmetic: what is already solved stays solved,
    every iteration solves at least one more coarse interval, later points never influence earlier ones. *)
From Coq Require Import List ZArith Lia Arith Bool.
From Verif Require Import Net PyList ListFacts Setup Spec SetupProofs Mgrit Reference RefProofs Sim.
Import ListNotations.

(** Exact arithmetic of a user's vectors: on each level an abelian group with subtraction; clones are equal; transfers
    map zero to zero. Steps are arbitrary functions. *)
Record exact_laws (A : App) (wf : nat -> Vec A -> Prop) (zero : nat -> Vec A) : Prop := {
  el_zero : forall l, wf l (zero l);
  el_comm : forall l x y, wf l x -> wf l y -> vadd A x y = vadd A y x;
  el_assoc : forall l x y z, wf l x -> wf l y -> wf l z -> vadd A (vadd A x y) z = vadd A x (vadd A y z);
  el_add0 : forall l x, wf l x -> vadd A x (zero l) = x;
  el_sub : forall l x y, wf l x -> wf l y -> vadd A (vsub A x y) y = x;
  el_clone : forall l x, wf l x -> vclone A x = x;
  el_restr0 : forall l, restr A l (zero l) = zero (S l);
  el_interp0 : forall l, interp A l (zero (S l)) = zero l
}.
(** w*y + (1-w)*y = y *)
Definition weight_mean {A : App} (wf : nat -> Vec A -> Prop) (o : Opts A) : Prop :=
  forall l y, wf l y -> vadd A (vscale A y (o_weight o)) (vscale A y (one_minus A (o_weight o))) = y.
(** the weight is 1 *)
Definition weight_one {A : App} (wf : nat -> Vec A -> Prop) (o : Opts A) : Prop :=
  forall l y x, wf l y -> wf l x -> vadd A (vscale A y (o_weight o)) (vscale A x (one_minus A (o_weight o))) = y.
(** interpolating a restricted vector gives it back (copy-type transfers) *)
Definition lossless {A : App} (wf : nat -> Vec A -> Prop) : Prop :=
  forall l x, wf l x -> interp A l (restr A l x) = x.

Section Algebra.
  Context {A : App}.
  Variable wf : nat -> Vec A -> Prop.
  Variable zero : nat -> Vec A.
  Variable o : Opts A.
  Hypothesis HL : app_laws A wf.
  Hypothesis HE : exact_laws A wf zero.
  Hypothesis HV : valid_hierarchy (o_grids o).
  Notation V := (Vec A).
  Notation GS := (GS A).
  Notation grids := (o_grids o).
  Notation L := (length (o_grids o)).
  Notation N := (npts (o_grids o)).
  Notation isC := (cpoint (o_grids o)).
  Notation fi := (fine_index (o_grids o)).
  Notation ci := (coarse_index (o_grids o)).
  Notation GWF := (GWF o wf).

  (** ** Group facts *)
  Lemma cancel l x y z : wf l x -> wf l y -> wf l z -> vadd A x z = vadd A y z -> x = y.
  Proof.
    intros Hx Hy Hz E. pose proof (el_zero A wf zero HE l) as H0.
    assert (Hm : wf l (vsub A (zero l) z)) by (apply (wf_sub A wf HL); auto).
    assert (K : vadd A z (vsub A (zero l) z) = zero l) by (rewrite (el_comm A wf zero HE l) by auto; apply (el_sub A wf zero HE l); auto).
    rewrite <- (el_add0 A wf zero HE l x Hx), <- (el_add0 A wf zero HE l y Hy), <- K.
    rewrite <- !(el_assoc A wf zero HE l) by auto. rewrite E. reflexivity.
  Qed.
  Lemma add0l l x : wf l x -> vadd A (zero l) x = x.
  Proof. intros H. rewrite (el_comm A wf zero HE l); auto; [apply (el_add0 A wf zero HE l); auto|apply (el_zero A wf zero HE)]. Qed.
  Lemma sub_self l x : wf l x -> vsub A x x = zero l.
  Proof.
    intros H. apply (cancel l _ _ x); auto; [apply (wf_sub A wf HL); auto|apply (el_zero A wf zero HE)|].
    rewrite (el_sub A wf zero HE l), add0l; auto.
  Qed.
  Lemma sub_zero_eq l x y : wf l x -> wf l y -> vsub A x y = zero l -> x = y.
  Proof. intros Hx Hy E. rewrite <- (el_sub A wf zero HE l x y Hx Hy), E. apply add0l; auto. Qed.
  (** (g - (g + x)) + x = 0 *)
  Lemma res_zero l g x : wf l g -> wf l x -> vadd A (vsub A g (vadd A g x)) x = zero l.
  Proof.
    intros Hg Hx. assert (Hgx : wf l (vadd A g x)) by (apply (wf_add A wf HL); auto).
    assert (Hs : wf l (vsub A g (vadd A g x))) by (apply (wf_sub A wf HL); auto).
    apply (cancel l _ _ g); auto; [apply (wf_add A wf HL); auto|apply (el_zero A wf zero HE)|].
    rewrite (el_assoc A wf zero HE l) by auto. rewrite (el_comm A wf zero HE l x g) by auto.
    rewrite (el_sub A wf zero HE l), add0l; auto.
  Qed.
  (** ((g - u) + x) + u = g + x *)
  Lemma res_back l g u x : wf l g -> wf l u -> wf l x -> vadd A (vadd A (vsub A g u) x) u = vadd A g x.
  Proof.
    intros Hg Hu Hx. assert (Hs : wf l (vsub A g u)) by (apply (wf_sub A wf HL); auto).
    rewrite (el_assoc A wf zero HE l) by auto. rewrite (el_comm A wf zero HE l x u) by auto.
    rewrite <- (el_assoc A wf zero HE l) by auto. rewrite (el_sub A wf zero HE l); auto.
  Qed.
  (** (r + v) - v = r *)
  Lemma add_sub l r v : wf l r -> wf l v -> vsub A (vadd A r v) v = r.
  Proof.
    intros Hr Hv. assert (wf l (vadd A r v)) by (apply (wf_add A wf HL); auto).
    apply (cancel l _ _ v); auto; [apply (wf_sub A wf HL); auto|]. apply (el_sub A wf zero HE l); auto.
  Qed.

  (** ** Index facts *)
  Lemma npos l : l < L -> 0 < N l.
  Proof. intros H. destruct HV as (_ & H1 & _). destruct (H1 l H) as [_ X]. unfold npts. destruct (nth l grids []); [congruence|simpl; lia]. Qed.
  Lemma N0_pos : 1 <= SetupProofs.N grids 0.
  Proof. apply (npos 0). destruct HV as (H & _). destruct grids; [congruence|simpl; lia]. Qed.
  Let O1 : 0 < 1 := Nat.lt_0_1.
  Lemma fi_in l j : S l < L -> j < N (S l) -> fi l j < N l /\ isC l (fi l j) = true.
  Proof. intros Hl Hj. rewrite (fine_cpt o 1 HV O1 N0_pos) by auto. apply (cpt_in grids 1 HV O1 N0_pos); auto. Qed.
  Lemma fi_lt l i j : S l < L -> i < N (S l) -> j < N (S l) -> (fi l i < fi l j <-> i < j).
  Proof. intros Hl Hi Hj. rewrite !(fine_cpt o 1 HV O1 N0_pos) by auto. apply (cpt_lt grids 1 HV O1 N0_pos); auto. Qed.
  Lemma fi_0 l : S l < L -> fi l 0 = 0.
  Proof.
    intros Hl. rewrite (fine_cpt o 1 HV O1 N0_pos); auto; [apply (cpt_0 grids 1 HV O1 N0_pos); auto|].
    apply npos. auto.
  Qed.
  Lemma ci_fi l j : S l < L -> j < N (S l) -> ci l (fi l j) = j.
  Proof. intros Hl Hj. rewrite (fine_cpt o 1 HV O1 N0_pos) by auto. apply (coarse_cpt o 1 HV O1 N0_pos); auto. Qed.
  Lemma fi_ci l i : S l < L -> i < N l -> isC l i = true -> ci l i < N (S l) /\ fi l (ci l i) = i.
  Proof.
    intros Hl Hi Hc. destruct (cpt_surj grids 1 HV O1 N0_pos l i Hl Hi Hc) as (j & Hj & <-).
    rewrite (coarse_cpt o 1 HV O1 N0_pos) by auto. split; [exact Hj|]. apply (fine_cpt o 1 HV O1 N0_pos); auto.
  Qed.
  Lemma fi_pos l j : S l < L -> j < N (S l) -> 0 < j -> 0 < fi l j.
  Proof. intros Hl Hj H. rewrite <- (fi_0 l Hl) at 1. apply fi_lt; auto. lia. Qed.
  Lemma ci_pos l i : S l < L -> i < N l -> isC l i = true -> 0 < i -> 0 < ci l i.
  Proof.
    intros Hl Hi Hc H. destruct (fi_ci l i Hl Hi Hc) as [H1 H2]. destruct (ci l i) eqn:E; [|lia]. rewrite fi_0 in H2 by auto. lia.
  Qed.

  (** ** Update functions *)
  Lemma at1_same {B} (f : nat -> B) l x : at1 f l x l = x.
  Proof. unfold at1. rewrite Nat.eqb_refl. reflexivity. Qed.
  Lemma at1_other {B} (f : nat -> B) l k x : k <> l -> at1 f l x k = f k.
  Proof. intros H. unfold at1. replace (k =? l) with false; [reflexivity|]. symmetry. apply Nat.eqb_neq. auto. Qed.

  Lemma gstep_ext l (G G' : GS) x i : (l <> 0 -> gg G' l i = gg G l i) -> gstep o l G' x i = gstep o l G x i.
  Proof. intros H. unfold gstep. destruct (l =? 0) eqn:E; [reflexivity|]. rewrite H; [reflexivity|]. apply Nat.eqb_neq. exact E. Qed.

  (** ** Frame: an iteration on level l only writes gu on levels >= l and gv, gg on levels > l *)
  Definition frame (l : nat) (G G' : GS) : Prop :=
    (forall k i, k < l -> gu G' k i = gu G k i) /\ (forall k i, k <= l -> gv G' k i = gv G k i /\ gg G' k i = gg G k i).
  Lemma frame_refl l G : frame l G G. Proof. split; auto. Qed.
  Lemma frame_trans l G1 G2 G3 : frame l G1 G2 -> frame l G2 G3 -> frame l G1 G3.
  Proof.
    intros [a b] [c d]. split.
    - intros k i Hk. rewrite c, a; auto.
    - intros k i Hk. destruct (b k i Hk), (d k i Hk). split; congruence.
  Qed.
  Lemma frame_with_u l G f : frame l G (with_u G l f).
  Proof. split; [|intros; split; reflexivity]. intros k i Hk. cbn. rewrite at1_other by lia. reflexivity. Qed.
  Lemma frame_fas l G : frame l G (g_fas o l G).
  Proof.
    split.
    - intros k i Hk. cbn. rewrite at1_other by lia. reflexivity.
    - intros k i Hk. cbn. rewrite !at1_other by lia. split; reflexivity.
  Qed.
  Lemma frame_up l G G' : frame (S l) G G' -> frame l G G'.
  Proof. intros [a b]. split; [intros; apply a; lia|intros; apply b; lia]. Qed.
  Lemma frame_iter l n f : (forall G, frame l G (f G)) -> forall G, frame l G (iter n f G).
  Proof. intros H. induction n as [|n IH]; intros G; [apply frame_refl|]. simpl. eapply frame_trans; [apply H|apply IH]. Qed.

  (** the pieces of one cycle: relaxation, restriction with the coarse cycle, correction *)
  Definition relaxed (l it : nat) (ff : bool) (G : GS) : GS :=
    iter (cf_count o l) (fun G => g_frelax o l (g_crelax o l G)) (if ((0 <? l) || (it =? 0)) && ff then g_frelax o l G else G).
  Definition half (n l it : nat) (cyc ff : bool) (G : GS) : GS :=
    g_frelax o l (g_corr o l (g_iteration o n (S l) cyc it true (g_fas o l (relaxed l it ff G)))).
  Lemma iteration_S n l cyc it ff G : g_iteration o (S n) l cyc it ff G =
    let G := half n l it cyc ff G in if negb (l =? 0) && cyc then half n l it false false G else G.
  Proof. reflexivity. Qed.

  Lemma frame_relaxed l it ff G : frame l G (relaxed l it ff G).
  Proof.
    unfold relaxed. eapply frame_trans; [|apply frame_iter].
    - destruct (_ && _); [apply frame_with_u|apply frame_refl].
    - intros G'. eapply frame_trans; apply frame_with_u.
  Qed.
  Lemma frame_csolve l G : frame l G (g_csolve o l G).
  Proof. unfold g_csolve. destruct (o_dist o); [destruct (l =? 0)|]; [apply frame_refl|apply frame_with_u|apply frame_with_u]. Qed.
  Lemma frame_iteration n : forall l cyc it ff G, frame l G (g_iteration o n l cyc it ff G).
  Proof.
    induction n as [|n IH]; intros l cyc it ff G; [apply frame_csolve|].
    assert (Hh : forall c f G, frame l G (half n l it c f G)).
    { intros c f G'. unfold half. eapply frame_trans; [apply frame_relaxed|]. eapply frame_trans; [apply frame_fas|].
      eapply frame_trans; [apply frame_up; apply IH|]. eapply frame_trans; apply frame_with_u. }
    rewrite iteration_S. cbv zeta. destruct (negb (l =? 0) && cyc); [|apply Hh]. eapply frame_trans; apply Hh.
  Qed.

  (** ** Well-formedness *)
  Lemma gwf_frelax l G : l < L -> GWF G -> GWF (g_frelax o l G).
  Proof. intros Hl W. apply GWF_with_u; auto. intros i _ Hi. apply (wf_frelax o 1 wf HL O1 N0_pos); auto. Qed.
  Lemma gwf_crelax l G : l < L -> GWF G -> GWF (g_crelax o l G).
  Proof. intros Hl W. apply GWF_with_u; auto. intros i _ Hi. apply (wf_crelax o 1 wf HL O1 N0_pos); auto. Qed.
  Lemma gwf_fsolve l G : l < L -> GWF G -> GWF (g_fsolve o l G).
  Proof. intros Hl W. apply GWF_with_u; auto. intros i _ Hi. apply (wf_fsolve o 1 wf HL O1 N0_pos); auto. Qed.
  Lemma gwf_csolve l G : l < L -> GWF G -> GWF (g_csolve o l G).
  Proof.
    intros Hl W. unfold g_csolve. destruct (o_dist o); [|apply gwf_fsolve; auto]. destruct (l =? 0); [exact W|].
    apply GWF_with_u; auto. intros i _ Hi. apply (wf_window o 1 wf HL O1 N0_pos); auto.
  Qed.
  Lemma gwf_corr l G : S l < L -> GWF G -> GWF (g_corr o l G).
  Proof. intros Hl W. apply GWF_with_u; auto. intros i _ Hi. apply (wf_corr o 1 wf HL HV O1 N0_pos); auto. Qed.
  Lemma gwf_interp l G : S l < L -> GWF G -> GWF (g_interp_up o l G).
  Proof. intros Hl W. apply GWF_with_u; auto. intros i _ Hi. apply (wf_interp_up o 1 wf HL HV O1 N0_pos); auto. Qed.
  Lemma gwf_fas l G : S l < L -> GWF G -> GWF (g_fas o l G).
  Proof. intros Hl W. apply (GWF_fas o 1 wf HL HV O1 N0_pos); auto. Qed.
  Lemma gwf_sweeps l n : l < L -> forall G, GWF G -> GWF (iter n (fun G => g_frelax o l (g_crelax o l G)) G).
  Proof. intros Hl. induction n as [|n IH]; intros G W; [exact W|]. simpl. apply IH. apply gwf_frelax, gwf_crelax; auto. Qed.
  Lemma gwf_relaxed l it ff G : l < L -> GWF G -> GWF (relaxed l it ff G).
  Proof. intros Hl W. apply gwf_sweeps; auto. destruct (_ && _); [apply gwf_frelax; auto|auto]. Qed.
  Lemma gwf_iteration n : forall l cyc it ff G, n + l = L - 1 -> l < L -> GWF G -> GWF (g_iteration o n l cyc it ff G).
  Proof.
    induction n as [|n IH]; intros l cyc it ff G Hn Hl W; [apply gwf_csolve; auto|].
    assert (Hh : forall c f G, GWF G -> GWF (half n l it c f G)).
    { intros c f G' W'. unfold half. apply gwf_frelax, gwf_corr, IH, gwf_fas, gwf_relaxed; auto; lia. }
    rewrite iteration_S. cbv zeta. destruct (negb (l =? 0) && cyc); auto.
  Qed.

  (** ** Solved points stay as they are *)
  (** [D] is an initial segment of the points of level [l]. *)
  Definition segment (l : nat) (D : nat -> Prop) : Prop := (forall i, D i -> i < N l) /\ (forall i, D (S i) -> D i).
  Lemma seg_le l D : segment l D -> forall i j, i <= j -> D j -> D i.
  Proof. intros [_ H] i j Hij. induction Hij as [|j Hij IH]; auto. Qed.
  Lemma seg_pred l D : segment l D -> forall i, D i -> D (i - 1).
  Proof. intros H i Hi. apply (seg_le l D H (i - 1) i); auto. lia. Qed.
  (** The points of [D] satisfy the equations of level [l]. *)
  Definition solved (l : nat) (G : GS) (D : nat -> Prop) : Prop :=
    forall i, D i -> 0 < i -> gu G l i = gstep o l G (gu G l (i - 1)) i.
  (** Nothing on level [l] changes at points of [D]. *)
  Definition kept (l : nat) (D : nat -> Prop) (G G' : GS) : Prop :=
    (forall i, D i -> gu G' l i = gu G l i) /\ (forall i, gg G' l i = gg G l i).
  Lemma kept_refl l D G : kept l D G G. Proof. split; auto. Qed.
  Lemma kept_trans l D G1 G2 G3 : kept l D G1 G2 -> kept l D G2 G3 -> kept l D G1 G3.
  Proof. intros [a b] [c d]. split; intros; [rewrite c, a; auto|congruence]. Qed.
  Lemma kept_solved l D G G' : segment l D -> kept l D G G' -> solved l G D -> solved l G' D.
  Proof.
    intros S [a b] H i Hi H0. rewrite !a; auto; [|eapply seg_pred; eauto]. rewrite (H i Hi H0) at 1. symmetry. apply gstep_ext. auto.
  Qed.

  Lemma frelax_kept l D G : segment l D -> solved l G D -> kept l D G (g_frelax o l G).
  Proof.
    intros S H. split; [|reflexivity]. intros i. cbn. rewrite at1_same. induction i as [|i IH]; intros Hi; [reflexivity|].
    cbn [frelax]. destruct (isC l (Datatypes.S i)); [reflexivity|]. rewrite IH by (apply S; auto).
    rewrite (H (Datatypes.S i) Hi ltac:(lia)). replace (Datatypes.S i - 1) with i by lia. reflexivity.
  Qed.
  Lemma fsolve_kept l D G : segment l D -> solved l G D -> kept l D G (g_fsolve o l G).
  Proof.
    intros S H. split; [|reflexivity]. intros i. cbn. rewrite at1_same. induction i as [|i IH]; intros Hi; [reflexivity|].
    cbn [fsolve]. rewrite IH by (apply S; auto).
    rewrite (H (Datatypes.S i) Hi ltac:(lia)). replace (Datatypes.S i - 1) with i by lia. reflexivity.
  Qed.
  Lemma window_solved l D G : l < L -> GWF G -> segment l D -> solved l G D -> forall n i, D i -> window o l G n i = gu G l i.
  Proof.
    intros Hl W S H. assert (C : forall i, D i -> vclone A (gu G l i) = gu G l i).
    { intros i Hi. apply (el_clone A wf zero HE l). apply W; auto. apply S; auto. }
    induction n as [|n IH]; intros [|i] Hi; cbn [window]; auto.
    rewrite IH by (apply S; auto). rewrite (H (Datatypes.S i) Hi ltac:(lia)). replace (Datatypes.S i - 1) with i by lia. reflexivity.
  Qed.
  Lemma csolve_kept l D G : l < L -> GWF G -> segment l D -> solved l G D -> kept l D G (g_csolve o l G).
  Proof.
    intros Hl W S H. unfold g_csolve. destruct (o_dist o); [|apply fsolve_kept; auto]. destruct (l =? 0); [apply kept_refl|].
    split; [|reflexivity]. intros i Hi. cbn [with_u gu]. rewrite at1_same. apply (window_solved l D); auto.
  Qed.
  Lemma crelax_kept l D G : weight_mean wf o -> l < L -> GWF G -> segment l D -> solved l G D -> kept l D G (g_crelax o l G).
  Proof.
    intros HW Hl W S H. split; [|reflexivity]. intros i Hi. cbn. rewrite at1_same. unfold crelax.
    destruct (isC l i && (0 <? i)) eqn:E; [|reflexivity]. apply andb_true_iff in E. destruct E as [_ E]. apply Nat.ltb_lt in E.
    rewrite <- (H i Hi E). apply (HW l). apply W; auto. apply S; auto.
  Qed.
  Lemma sweeps_kept l D n : weight_mean wf o -> l < L -> segment l D -> forall G, GWF G -> solved l G D ->
    kept l D G (iter n (fun G => g_frelax o l (g_crelax o l G)) G).
  Proof.
    intros HW Hl S. induction n as [|n IH]; intros G W H; [apply kept_refl|]. simpl.
    assert (K1 : kept l D G (g_crelax o l G)) by (apply crelax_kept; auto).
    assert (K2 : kept l D G (g_frelax o l (g_crelax o l G))).
    { eapply kept_trans; [exact K1|]. apply frelax_kept; auto. eapply kept_solved; eauto. }
    eapply kept_trans; [exact K2|]. apply IH; [apply gwf_frelax, gwf_crelax; auto|]. eapply kept_solved; eauto.
  Qed.
  Lemma relaxed_kept l D it ff G : weight_mean wf o -> l < L -> segment l D -> GWF G -> solved l G D -> kept l D G (relaxed l it ff G).
  Proof.
    intros HW Hl S W H. unfold relaxed. destruct (_ && _); [|apply sweeps_kept; auto].
    assert (K : kept l D G (g_frelax o l G)) by (apply frelax_kept; auto).
    eapply kept_trans; [exact K|]. apply sweeps_kept; auto; [apply gwf_frelax; auto|]. eapply kept_solved; eauto.
  Qed.

  (** ** The coarse problem *)
  Definition coarseD (l : nat) (D : nat -> Prop) (j : nat) : Prop := j < N (S l) /\ D (fi l j).
  Lemma coarse_segment l D : S l < L -> segment l D -> segment (S l) (coarseD l D).
  Proof.
    intros Hl S. split; [intros i H; apply H|]. intros j [H1 H2]. split; [lia|]. eapply (seg_le l D S); [|exact H2].
    pose proof (fi_lt l j (Datatypes.S j) Hl ltac:(lia) H1). lia.
  Qed.
  Lemma gres_zero l D G i : l < L -> GWF G -> segment l D -> solved l G D -> D i -> 0 < i -> gres o l G i = zero l.
  Proof.
    intros Hl W S H Hi H0. unfold gres. pose proof (H i Hi H0) as E. unfold gstep in E.
    assert (Hin : i < N l) by (apply S; auto).
    assert (Wp : wf l (phi A l (gu G l (i - 1)) (time grids l (i - 1)) (time grids l i))).
    { apply (wf_phi A wf HL). apply W; auto. unfold SetupProofs.N, grid. unfold npts in Hin. lia. }
    destruct (l =? 0); rewrite E.
    - apply sub_self; auto.
    - apply res_zero; auto. apply W; auto.
  Qed.
  Lemma fas_solved l D G : S l < L -> GWF G -> segment l D -> solved l G D -> solved (S l) (g_fas o l G) (coarseD l D).
  Proof.
    intros Hl W S H j [Hj Hd] H0.
    assert (Hj1 : j - 1 < N (Datatypes.S l)) by lia.
    assert (R : forall k, k < N (Datatypes.S l) -> wf (Datatypes.S l) (fas_u o l G k)) by (intros; apply (wf_fas_u o 1 wf HL HV O1 N0_pos); auto).
    unfold gstep. cbn [g_fas gu gg Nat.eqb]. rewrite !at1_same. unfold fas_g. replace (0 <? j) with true by (symmetry; apply Nat.ltb_lt; auto).
    rewrite (gres_zero l D G) by (auto; try lia; apply fi_pos; auto). rewrite (el_restr0 A wf zero HE).
    rewrite !(el_clone A wf zero HE (Datatypes.S l)) by auto.
    assert (Wz : wf (Datatypes.S l) (zero (Datatypes.S l))) by apply (el_zero A wf zero HE).
    rewrite (el_sub A wf zero HE (Datatypes.S l)); [symmetry; apply add0l; auto|apply (wf_add A wf HL); auto|apply (wf_phi A wf HL); auto].
  Qed.
  (** Correction, where the coarse cycle changed nothing. *)
  Lemma corr_kept l D G G' : S l < L -> GWF G -> GWF G' -> segment l D -> frame (S l) (g_fas o l G) G' ->
    kept (S l) (coarseD l D) (g_fas o l G) G' -> kept l D G (g_corr o l G').
  Proof.
    intros Hl W W' S [F1 F2] [K1 _]. split.
    - intros i Hi. cbn. rewrite at1_same. unfold corr. assert (Hin : i < N l) by (apply S; auto).
      assert (E0 : gu G' l i = gu G l i). { rewrite F1 by lia. cbn. rewrite at1_other by lia. reflexivity. }
      destruct (isC l i && (0 <? i)) eqn:E; [|exact E0]. apply andb_true_iff in E. destruct E as [E1 E2].
      destruct (fi_ci l i Hl Hin E1) as [Hc Hf]. rewrite K1 by (split; [auto|rewrite Hf; auto]).
      destruct (F2 (Datatypes.S l) (ci l i) ltac:(lia)) as [-> _]. cbn [g_fas gu gv]. rewrite !at1_same.
      assert (R : wf (Datatypes.S l) (fas_u o l G (ci l i))) by (apply (wf_fas_u o 1 wf HL HV O1 N0_pos); auto).
      rewrite (el_clone A wf zero HE (Datatypes.S l)) by auto. rewrite (sub_self (Datatypes.S l)) by auto.
      rewrite (el_interp0 A wf zero HE), E0. apply (el_add0 A wf zero HE l). apply W; [lia|exact Hin].
    - intros i. cbn. destruct (F2 l i ltac:(lia)) as [_ ->]. cbn. rewrite at1_other by lia. reflexivity.
  Qed.

  Lemma iteration_kept : weight_mean wf o -> forall n l cyc it ff G D, n + l = L - 1 -> l < L -> GWF G -> segment l D -> solved l G D ->
    kept l D G (g_iteration o n l cyc it ff G).
  Proof.
    intros HW. induction n as [|n IH]; intros l cyc it ff G D Hn Hl W S H; [apply csolve_kept; auto|].
    assert (Hh : forall c f G, GWF G -> solved l G D -> kept l D G (half n l it c f G)).
    { intros c f G1 W1 H1. unfold half. set (G2 := relaxed l it f G1).
      assert (W2 : GWF G2) by (apply gwf_relaxed; auto).
      assert (K2 : kept l D G1 G2) by (apply relaxed_kept; auto).
      assert (H2 : solved l G2 D) by (eapply kept_solved; eauto).
      set (G3 := g_iteration o n (Datatypes.S l) c it true (g_fas o l G2)).
      assert (W3 : GWF G3) by (apply gwf_iteration; [lia|lia|apply gwf_fas; auto; lia]).
      assert (K3 : kept l D G2 (g_corr o l G3)).
      { apply corr_kept; auto; [lia|apply frame_iteration|]. apply IH; [lia|lia|apply gwf_fas; auto; lia|apply coarse_segment; auto; lia|].
        apply fas_solved; auto; lia. }
      eapply kept_trans; [exact K2|]. eapply kept_trans; [exact K3|]. apply frelax_kept; auto. eapply kept_solved; eauto. }
    rewrite iteration_S. cbv zeta. pose proof (Hh cyc ff G W H) as K. destruct (negb (l =? 0) && cyc); [|exact K].
    eapply kept_trans; [exact K|]. apply Hh; [|eapply kept_solved; eauto].
    unfold half. apply gwf_frelax, gwf_corr, gwf_iteration, gwf_fas, gwf_relaxed; auto; lia.
  Qed.

  (** ** Gaining one coarse interval *)
  (** Number of C-points in (0, i]. *)
  Definition cc (l i : nat) : nat := length (filter (isC l) (seq 1 i)).
  Lemma cc_S l i : cc l (S i) = cc l i + if isC l (S i) then 1 else 0.
  Proof. unfold cc. rewrite seq_S, filter_app, app_length. simpl. destruct (isC l (S i)); reflexivity. Qed.
  Lemma cc_mono l i j : i <= j -> cc l i <= cc l j.
  Proof. induction 1 as [|j H IH]; [lia|]. rewrite cc_S. lia. Qed.
  Lemma cc_C l i : 0 < i -> isC l i = true -> cc l i = cc l (i - 1) + 1.
  Proof. intros H E. destruct i; [lia|]. rewrite cc_S, E. replace (S i - 1) with i by lia. reflexivity. Qed.
  Definition upto (l m i : nat) : Prop := i < N l /\ cc l i <= m.
  Lemma upto_segment l m : segment l (upto l m).
  Proof. split; [intros i H; apply H|]. intros i [H1 H2]. split; [lia|]. pose proof (cc_mono l i (S i) ltac:(lia)). lia. Qed.
  Lemma solved_sub l G (D D' : nat -> Prop) : (forall i, D' i -> D i) -> solved l G D -> solved l G D'.
  Proof. intros H S i Hi. apply S; auto. Qed.

  Lemma f_step l G i : 0 < i -> isC l i = false ->
    gu (g_frelax o l G) l i = gstep o l (g_frelax o l G) (gu (g_frelax o l G) l (i - 1)) i.
  Proof.
    intros H E. cbn [g_frelax with_u gu]. rewrite at1_same. destruct i as [|i]; [lia|]. cbn [frelax]. rewrite E.
    replace (S i - 1) with i by lia. symmetry. apply gstep_ext. reflexivity.
  Qed.
  Lemma f_keep l G i : isC l i = true -> gu (g_frelax o l G) l i = gu G l i.
  Proof. intros E. cbn [g_frelax with_u gu]. rewrite at1_same. destruct i as [|i]; [reflexivity|]. cbn [frelax]. rewrite E. reflexivity. Qed.
  Lemma frelax_solved0 l G : solved l (g_frelax o l G) (upto l 0).
  Proof.
    intros i [Hi Hc] H. apply f_step; auto. destruct (isC l i) eqn:E; [|reflexivity]. rewrite (cc_C l i H E) in Hc. lia.
  Qed.
  Lemma one_mean : weight_one wf o -> weight_mean wf o.
  Proof. intros H l y Hy. apply (H l); auto. Qed.

  Lemma sweep_gain l m G : weight_one wf o -> l < L -> GWF G -> solved l G (upto l m) ->
    solved l (g_frelax o l (g_crelax o l G)) (upto l (m + 1)).
  Proof.
    intros HW Hl W H.
    assert (K : kept l (upto l m) G (g_frelax o l (g_crelax o l G))).
    { pose proof (sweeps_kept l (upto l m) 1 (one_mean HW) Hl (upto_segment l m) G W H) as X. exact X. }
    intros i [Hi Hc] H0. destruct (isC l i) eqn:E; [|apply f_step; auto].
    pose proof (cc_C l i H0 E) as C. destruct K as [K1 _].
    rewrite (K1 (i - 1)) by (split; [lia|lia]). rewrite f_keep by auto. cbn [g_crelax with_u gu]. rewrite at1_same. unfold crelax.
    rewrite E. replace (0 <? i) with true by (symmetry; apply Nat.ltb_lt; auto). cbn [andb].
    rewrite (HW l); [symmetry; apply gstep_ext; reflexivity| |].
    - apply (wf_gstep o wf HL); auto. apply W; auto. unfold SetupProofs.N, grid. unfold npts in Hi. lia.
    - apply W; auto.
  Qed.
  Lemma sweeps_gain l n : weight_one wf o -> l < L -> forall m G, GWF G -> solved l G (upto l m) ->
    solved l (iter n (fun G => g_frelax o l (g_crelax o l G)) G) (upto l (m + n)).
  Proof.
    intros HW Hl. induction n as [|n IH]; intros m G W H; [rewrite Nat.add_0_r; exact H|]. simpl.
    replace (m + S n) with (m + 1 + n) by lia. apply IH; [apply gwf_frelax, gwf_crelax; auto|]. apply sweep_gain; auto.
  Qed.
  Lemma relaxed_gain l it ff m G : weight_one wf o -> l < L -> GWF G -> solved l G (upto l m) ->
    solved l (relaxed l it ff G) (upto l (m + cf_count o l)).
  Proof.
    intros HW Hl W H. unfold relaxed. destruct (_ && _); [|apply sweeps_gain; auto].
    apply sweeps_gain; auto; [apply gwf_frelax; auto|]. eapply kept_solved; [apply upto_segment| |exact H].
    apply frelax_kept; auto. apply upto_segment.
  Qed.
  Lemma relaxed_first l it m G : weight_one wf o -> l < L -> GWF G -> (0 <? l) || (it =? 0) = true -> m = cf_count o l ->
    solved l (relaxed l it true G) (upto l m).
  Proof.
    intros HW Hl W E ->. unfold relaxed. rewrite E. cbn [andb]. apply (sweeps_gain l _ HW Hl 0); [apply gwf_frelax; auto|].
    apply frelax_solved0.
  Qed.

  (** From the relaxed state on, nothing solved is lost. *)
  Lemma rest_kept n l it c G D : weight_mean wf o -> S n + l = L - 1 -> GWF G -> segment l D -> solved l G D ->
    kept l D G (g_frelax o l (g_corr o l (g_iteration o n (S l) c it true (g_fas o l G)))).
  Proof.
    intros HW Hn W S H.
    set (G3 := g_iteration o n (Datatypes.S l) c it true (g_fas o l G)).
    assert (W3 : GWF G3) by (apply gwf_iteration; [lia|lia|apply gwf_fas; auto; lia]).
    assert (K3 : kept l D G (g_corr o l G3)).
    { apply corr_kept; auto; [lia|apply frame_iteration|]. apply iteration_kept; [auto|lia|lia|apply gwf_fas; auto; lia|apply coarse_segment; auto; lia|].
      apply fas_solved; auto; lia. }
    eapply kept_trans; [exact K3|]. apply frelax_kept; auto. eapply kept_solved; eauto.
  Qed.
  Lemma half_kept n l it c f G D : weight_mean wf o -> S n + l = L - 1 -> GWF G -> segment l D -> solved l G D ->
    kept l D G (half n l it c f G).
  Proof.
    intros HW Hn W S H. assert (K : kept l D G (relaxed l it f G)) by (apply relaxed_kept; auto; lia).
    eapply kept_trans; [exact K|]. apply rest_kept; auto; [apply gwf_relaxed; auto; lia|]. eapply kept_solved; eauto.
  Qed.
  Lemma gwf_half n l it c f G : S n + l = L - 1 -> GWF G -> GWF (half n l it c f G).
  Proof. intros Hn W. unfold half. apply gwf_frelax, gwf_corr, gwf_iteration, gwf_fas, gwf_relaxed; auto; lia. Qed.

  Lemma fsolve_solved l G D : solved l (g_fsolve o l G) D.
  Proof.
    intros i _ H. destruct i as [|i]; [lia|]. cbn [g_fsolve with_u gu]. rewrite at1_same. cbn [fsolve].
    replace (S i - 1) with i by lia. symmetry. apply gstep_ext. reflexivity.
  Qed.

  (** The coarsest solve gains (at least) one point if the distance of AT-MGRIT is at least 2. *)
  Lemma csolve_gain l G p : (forall k, o_dist o = Some k -> 0 < l /\ (2 <= k)%Z) -> l < L -> GWF G -> p < N l -> 0 < p ->
    solved l G (fun i => i < p) -> solved l (g_csolve o l G) (fun i => i <= p).
  Proof.
    intros HD Hl W Hp Hp0 H. unfold g_csolve. destruct (o_dist o) as [k|]; [|apply fsolve_solved].
    destruct (HD k eq_refl) as [Hl0 Hk]. replace (l =? 0) with false by (symmetry; apply Nat.eqb_neq; lia).
    assert (Sg : segment l (fun i => i < p)) by (split; intros; lia).
    intros i Hi H0. cbn [with_u gu]. rewrite !at1_same. destruct i as [|i]; [lia|]. replace (S i - 1) with i by lia.
    rewrite (window_solved l (fun i => i < p) G Hl W Sg H _ i) by lia.
    destruct (Z.to_nat (k - 1)) as [|n] eqn:E; [lia|]. cbn [window].
    rewrite (window_solved l (fun i => i < p) G Hl W Sg H _ i) by lia. symmetry. apply gstep_ext. reflexivity.
  Qed.

  Section Lossless.
    Hypothesis HW : weight_one wf o.
    Hypothesis HD : forall k, o_dist o = Some k -> 1 < L /\ (2 <= k)%Z.
    Hypothesis HT : lossless wf.

    (** If the coarse problem is solved up to the coarse copy of C-point [p], the correction solves [p]. *)
    Lemma corr_gain l p G G' : S l < L -> GWF G -> GWF G' -> p < N l -> 0 < p -> isC l p = true ->
      solved l G (fun i => i < p) -> frame (S l) (g_fas o l G) G' ->
      kept (S l) (coarseD l (fun i => i < p)) (g_fas o l G) G' -> solved (S l) G' (fun j => j <= ci l p) ->
      solved l (g_corr o l G') (fun i => i <= p).
    Proof.
      intros Hl W W' Hp Hp0 Hc H F K Hs.
      assert (Sg : segment l (fun i => i < p)) by (split; intros; lia).
      pose proof (corr_kept l _ G G' Hl W W' Sg F K) as KC.
      intros i Hi H0. destruct (Nat.eq_dec i p) as [->|Hne].
      2:{ apply (kept_solved l (fun i => i < p) G); auto. lia. }
      destruct KC as [KC1 KC2]. rewrite (KC1 (p - 1)) by lia.
      rewrite (gstep_ext l G (g_corr o l G')) by (intros; apply KC2).
      cbn [g_corr with_u gu]. rewrite at1_same. unfold corr. rewrite Hc. replace (0 <? p) with true by (symmetry; apply Nat.ltb_lt; auto). cbn [andb].
      destruct (fi_ci l p Hl Hp Hc) as [Hj Hf]. pose proof (ci_pos l p Hl Hp Hc Hp0) as Hj0. set (j := ci l p) in *.
      destruct F as [F1 F2]. destruct K as [K1 K2].
      assert (E0 : gu G' l p = gu G l p). { rewrite F1 by lia. cbn. rewrite at1_other by lia. reflexivity. }
      rewrite E0. rewrite (Hs j (le_n _) Hj0). rewrite (K1 (j - 1)).
      2:{ split; [lia|]. rewrite <- Hf. apply fi_lt; auto; lia. }
      destruct (F2 (S l) j ltac:(lia)) as [-> _]. unfold gstep at 1. cbn [Nat.eqb]. rewrite K2. cbn [g_fas gu gv gg]. rewrite !at1_same.
      unfold fas_g. replace (0 <? j) with true by (symmetry; apply Nat.ltb_lt; auto). rewrite Hf.
      assert (R : forall k, k < N (S l) -> wf (S l) (fas_u o l G k)) by (intros; apply (wf_fas_u o 1 wf HL HV O1 N0_pos); auto).
      rewrite !(el_clone A wf zero HE (S l)) by (apply R; lia).
      assert (Wr : wf l (gres o l G p)) by (apply (wf_gres o 1 wf HL O1 N0_pos); auto; lia).
      assert (WRr : wf (S l) (restr A l (gres o l G p))) by (apply (wf_restr A wf HL); auto).
      rewrite (el_sub A wf zero HE (S l)); [|apply (wf_add A wf HL); auto|apply (wf_phi A wf HL), R; lia].
      rewrite (add_sub (S l)) by auto. rewrite HT by auto. unfold gres, gstep.
      assert (Wu : wf l (gu G l p)) by (apply W; [lia|exact Hp]).
      assert (Wp : wf l (phi A l (gu G l (p - 1)) (time grids l (p - 1)) (time grids l p))).
      { apply (wf_phi A wf HL), W; [lia|]. unfold SetupProofs.N, grid. unfold npts in Hp. lia. }
      destruct (l =? 0).
      - rewrite (el_comm A wf zero HE l); auto; [|apply (wf_sub A wf HL); auto]. apply (el_sub A wf zero HE l); auto.
      - assert (Wg : wf l (gg G l p)) by (apply W; [lia|exact Hp]).
        rewrite (el_comm A wf zero HE l); auto; [|apply (wf_add A wf HL); auto; apply (wf_sub A wf HL); auto]. apply (res_back l); auto.
    Qed.

    Lemma iteration_gain : forall n l cyc it ff G p, n + l = L - 1 -> l < L -> GWF G -> p < N l -> 0 < p ->
      solved l G (fun i => i < p) -> (isC l p = false -> ((0 <? l) || (it =? 0)) && ff = true) ->
      solved l (g_iteration o n l cyc it ff G) (fun i => i <= p).
    Proof.
      induction n as [|n IH]; intros l cyc it ff G p Hn Hl W Hp Hp0 H Hf.
      { apply csolve_gain; auto. intros k Hk. destruct (HD k Hk). split; lia. }
      assert (Sp : segment l (fun i => i < p)) by (split; intros; lia).
      assert (Sp1 : segment l (fun i => i <= p)) by (split; intros; lia).
      assert (Hh : solved l (half n l it cyc ff G) (fun i => i <= p)).
      { unfold half. destruct (isC l p) eqn:E.
        - set (G2 := relaxed l it ff G). assert (W2 : GWF G2) by (apply gwf_relaxed; auto).
          assert (H2 : solved l G2 (fun i => i < p)). { eapply kept_solved; [exact Sp| |exact H]. apply relaxed_kept; auto. apply one_mean; auto. }
          assert (HlS : S l < L) by lia.
          destruct (fi_ci l p HlS Hp E) as [Hj Hfj]. pose proof (ci_pos l p HlS Hp E Hp0) as Hj0.
          assert (EqD : forall j, j < ci l p -> coarseD l (fun i => i < p) j).
          { intros j Hlt. split; [lia|]. rewrite <- Hfj. apply fi_lt; auto; lia. }
          assert (W3 : GWF (g_fas o l G2)) by (apply gwf_fas; auto).
          assert (S3 : solved (S l) (g_fas o l G2) (coarseD l (fun i => i < p))) by (apply fas_solved; auto).
          set (G3 := g_iteration o n (S l) cyc it true (g_fas o l G2)).
          assert (W4 : GWF G3) by (apply gwf_iteration; auto; lia).
          assert (Sc : solved l (g_corr o l G3) (fun i => i <= p)).
          { apply (corr_gain l p G2 G3); auto.
            - apply frame_iteration.
            - apply iteration_kept; [apply one_mean; auto|lia|auto|auto|apply coarse_segment; auto|auto].
            - apply IH; [lia|auto|auto|auto|auto|apply (solved_sub _ _ _ _ EqD S3)|intros _; reflexivity]. }
          eapply kept_solved; [exact Sp1| |exact Sc]. apply frelax_kept; auto.
        - set (G1 := g_frelax o l G).
          assert (H1 : solved l G1 (fun i => i <= p)).
          { intros i Hi H0. destruct (Nat.eq_dec i p) as [->|Hne]; [apply f_step; auto|].
            apply (kept_solved l (fun i => i < p) G); auto; [apply frelax_kept; auto|lia]. }
          assert (W1 : GWF G1) by (apply gwf_frelax; auto).
          assert (E2 : relaxed l it ff G = iter (cf_count o l) (fun G => g_frelax o l (g_crelax o l G)) G1).
          { unfold relaxed. rewrite (Hf eq_refl). reflexivity. }
          rewrite E2. assert (K : kept l (fun i => i <= p) G1 (iter (cf_count o l) (fun G => g_frelax o l (g_crelax o l G)) G1)).
          { apply sweeps_kept; auto. apply one_mean; auto. }
          eapply kept_solved; [exact Sp1| |exact H1]. eapply kept_trans; [exact K|]. apply rest_kept; [| | |auto|].
          + apply one_mean; auto.
          + exact Hn.
          + apply gwf_sweeps; auto.
          + eapply kept_solved; eauto. }
      rewrite iteration_S. cbv zeta. destruct (negb (l =? 0) && cyc); [|exact Hh].
      eapply kept_solved; [exact Sp1| |exact Hh]. apply half_kept; auto; [apply one_mean; auto|apply gwf_half; auto].
    Qed.

    Lemma rest_gain n l it c m G : S n + l = L - 1 -> GWF G -> solved l G (upto l m) ->
      solved l (g_frelax o l (g_corr o l (g_iteration o n (S l) c it true (g_fas o l G)))) (upto l (m + 1)).
    Proof.
      intros Hn W H i [Hi Hci] H0. destruct (isC l i) eqn:E; [|apply f_step; auto]. pose proof (cc_C l i H0 E) as C.
      assert (Hs : solved l G (fun k => k < i)).
      { eapply solved_sub; [|exact H]. intros k Hk. split; [lia|]. pose proof (cc_mono l k (i - 1) ltac:(lia)). lia. }
      assert (HlS : S l < L) by lia.
      destruct (fi_ci l i HlS Hi E) as [Hj Hfj]. pose proof (ci_pos l i HlS Hi E H0) as Hj0.
      assert (W3 : GWF (g_fas o l G)) by (apply gwf_fas; auto).
      assert (Si : segment l (fun k => k < i)) by (split; intros; lia).
      assert (S3 : solved (S l) (g_fas o l G) (coarseD l (fun k => k < i))) by (apply fas_solved; auto; lia).
      assert (W4 : GWF (g_iteration o n (S l) c it true (g_fas o l G))) by (apply gwf_iteration; auto; lia).
      assert (Sc : solved l (g_corr o l (g_iteration o n (S l) c it true (g_fas o l G))) (fun k => k <= i)).
      { apply (corr_gain l i G); auto.
        - apply frame_iteration.
        - apply iteration_kept; [apply one_mean; auto|lia|auto|auto|apply coarse_segment; auto|auto].
        - apply iteration_gain; [lia|auto|auto|auto|auto| |intros _; reflexivity].
          eapply solved_sub; [|exact S3]. intros j Hlt. split; [lia|]. rewrite <- Hfj. apply fi_lt; auto; lia. }
      assert (Si1 : segment l (fun k => k <= i)) by (split; intros; lia).
      assert (K : solved l (g_frelax o l (g_corr o l (g_iteration o n (S l) c it true (g_fas o l G)))) (fun k => k <= i)).
      { eapply kept_solved; [exact Si1| |exact Sc]. apply frelax_kept; auto. }
      apply K; auto.
    Qed.
  End Lossless.

  (** ** Whole iterations on the finest level *)
  Lemma top_eq it cyc G : 1 < L -> g_iteration o (L - 1) 0 cyc it true G = half (L - 2) 0 it cyc true G.
  Proof. intros H. replace (L - 1) with (S (L - 2)) by lia. rewrite iteration_S. reflexivity. Qed.
  Lemma L_ge1 : 0 < L.
  Proof. destruct HV as (H & _). destruct grids; [congruence|simpl; lia]. Qed.

  (** AtMgrit does nothing on a single level *)
  Lemma csolve_one : (o_dist o <> None -> 1 < L) -> L = 1 -> forall G D, solved 0 (g_csolve o 0 G) D.
  Proof. intros H E G D. unfold g_csolve. destruct (o_dist o); [specialize (H ltac:(discriminate)); lia|]. apply fsolve_solved. Qed.
  Lemma cycle_gain it cyc m G : (o_dist o <> None -> 1 < L) -> weight_one wf o -> GWF G -> (0 < it -> solved 0 G (upto 0 m)) -> (it = 0 -> m = 0) ->
    solved 0 (g_iteration o (L - 1) 0 cyc it true G) (upto 0 (m + cf_count o 0)).
  Proof.
    intros HD HW W H Hit. pose proof L_ge1. destruct (Nat.eq_dec L 1) as [E|E]; [rewrite E; apply csolve_one; auto|].
    rewrite top_eq by lia. unfold half.
    assert (R : solved 0 (relaxed 0 it true G) (upto 0 (m + cf_count o 0))).
    { destruct (Nat.eq_dec it 0) as [->|Hne]; [|apply relaxed_gain; auto; apply H; lia].
      rewrite Hit by auto. apply relaxed_first; auto. }
    eapply kept_solved; [apply upto_segment| |exact R]. apply rest_kept; auto.
    - apply one_mean; auto.
    - lia.
    - apply gwf_relaxed; auto.
    - apply upto_segment.
  Qed.
  Lemma cycle_gain_lossless it cyc m G : (forall k, o_dist o = Some k -> 1 < L /\ (2 <= k)%Z) -> weight_one wf o -> lossless wf -> GWF G -> (0 < it -> solved 0 G (upto 0 m)) -> (it = 0 -> m = 0) ->
    solved 0 (g_iteration o (L - 1) 0 cyc it true G) (upto 0 (m + (cf_count o 0 + 1))).
  Proof.
    intros HD HW HT W H Hit. pose proof L_ge1. destruct (Nat.eq_dec L 1) as [E|E].
    { rewrite E. apply csolve_one; auto. intros X. destruct (o_dist o) as [k|]; [|congruence]. destruct (HD k eq_refl). lia. }
    rewrite top_eq by lia. unfold half. rewrite Nat.add_assoc. apply rest_gain; auto.
    - lia.
    - apply gwf_relaxed; auto.
    - destruct (Nat.eq_dec it 0) as [->|Hne]; [|apply relaxed_gain; auto; apply H; lia].
      rewrite Hit by auto. apply relaxed_first; auto.
  Qed.

  (** ** Well-formedness of all iterates *)
  Lemma gwf_init guess : (forall i, i < N 0 -> wf 0 (guess i)) -> GWF (g_init o guess).
  Proof.
    intros Hg l i Hl Hi. cbn [g_init gu gv gg]. split; [|split; apply (wf_zero A wf HL), (wf_zero A wf HL), (wf_templ A wf HL)].
    destruct (i =? 0); [apply (wf_clone A wf HL), (wf_tstart A wf HL)|]. destruct l; cbn [Nat.eqb].
    - apply Hg. exact Hi.
    - apply (wf_zero A wf HL), (wf_templ A wf HL).
  Qed.
  Lemma gwf_nested_from l : forall G, l < L -> GWF G -> GWF (g_nested_from o l G).
  Proof.
    induction l as [|l IH]; intros G Hl W; [exact W|]. cbn [g_nested_from]. cbv zeta. apply IH; [lia|].
    destruct (0 <? l); [apply gwf_iteration; try lia|]; apply gwf_interp; auto.
  Qed.
  Lemma gwf_same G G' : gu G' = gu G -> gv G' = gv G -> gg G' = gg G -> GWF G -> GWF G'.
  Proof. intros E1 E2 E3 W l i Hl Hi. rewrite E1, E2, E3. apply W; auto. Qed.
  Lemma gwf_construct guess : (forall i, i < N 0 -> wf 0 (guess i)) -> GWF (g_construct o guess).
  Proof.
    intros Hg. pose proof L_ge1. assert (W : GWF (if o_nested o then g_nested o (g_init o guess) else g_init o guess)).
    { destruct (o_nested o); [|apply gwf_init; auto]. apply gwf_nested_from; [lia|]. apply gwf_csolve; [lia|]. apply gwf_init; auto. }
    unfold g_construct. cbv zeta. set (G := if o_nested o then _ else _) in *. clearbody G.
    destruct (is_jump o), (o_has_output o && (o_output_lvl o =? 2)%Z); eapply gwf_same; try exact W; reflexivity.
  Qed.
  Lemma gwf_pass it G : GWF G -> GWF (g_pass o it G).
  Proof.
    intros W. pose proof L_ge1.
    assert (W1 : GWF (cyc_state o it G)). { unfold cyc_state. apply gwf_iteration; [lia|lia|]. eapply gwf_same; [| | |exact W]; reflexivity. }
    eapply gwf_same; [| | |exact W1].
    - apply pass_gu.
    - unfold g_pass, g_crit. fold (cyc_state o it G). destruct (_ && _); cbn [g_emit_if g_emit gv]; destruct (tnorm _ _); auto; destruct (is_jump o); reflexivity.
    - unfold g_pass, g_crit. fold (cyc_state o it G). destruct (_ && _); cbn [g_emit_if g_emit gg]; destruct (tnorm _ _); auto; destruct (is_jump o); reflexivity.
  Qed.
  Lemma gwf_iterate guess k : (forall i, i < N 0 -> wf 0 (guess i)) -> GWF (iterate o guess k).
  Proof. intros Hg. induction k as [|k IH]; [apply gwf_construct; auto|]. apply (gwf_pass k); auto. Qed.

  Lemma solved_gu0 G G' D : gu G' = gu G -> solved 0 G D -> solved 0 G' D.
  Proof. intros E H i Hi H0. rewrite E. rewrite (H i Hi H0) at 1. apply gstep_ext. intros X; congruence. Qed.
  Lemma solved_stepping G D i : segment 0 D -> gu G 0 0 = vclone A (tstart A 0) -> solved 0 G D -> D i -> gu G 0 i = time_stepping o i.
  Proof.
    intros S H0 H. induction i as [|i IH]; intros Hi; [exact H0|]. rewrite (H (Datatypes.S i) Hi ltac:(lia)).
    replace (Datatypes.S i - 1) with i by lia. rewrite IH by (apply S; auto). unfold gstep. cbn [Nat.eqb time_stepping].
    replace (Datatypes.S i - 1) with i by lia. reflexivity.
  Qed.
  Lemma stepping_solved G D : segment 0 D -> (forall i, D i -> gu G 0 i = time_stepping o i) -> solved 0 G D.
  Proof.
    intros S H i Hi H0. rewrite (H i Hi), (H (i - 1)) by (eapply seg_pred; eauto). destruct i as [|i]; [lia|].
    unfold gstep. cbn [Nat.eqb time_stepping]. replace (Datatypes.S i - 1) with i by lia. reflexivity.
  Qed.

  (** Finite termination. *)
  Lemma iterate_gain guess k : (o_dist o <> None -> 1 < L) -> weight_one wf o -> (forall i, i < N 0 -> wf 0 (guess i)) -> 0 < k ->
    solved 0 (iterate o guess k) (upto 0 (k * cf_count o 0)).
  Proof.
    intros HD HW Hg. induction k as [|k IH]; [lia|]. intros _. unfold iterate. cbn [g_passes].
    apply (solved_gu0 (cyc_state o k (iterate o guess k))); [apply pass_gu|]. unfold cyc_state.
    replace (S k * cf_count o 0) with (k * cf_count o 0 + cf_count o 0) by lia. apply cycle_gain; auto.
    - eapply gwf_same; [| | |apply (gwf_iterate guess k Hg)]; reflexivity.
    - intros ->. reflexivity.
  Qed.
  Lemma iterate_gain_lossless guess k : (forall k, o_dist o = Some k -> 1 < L /\ (2 <= k)%Z) -> weight_one wf o -> lossless wf -> (forall i, i < N 0 -> wf 0 (guess i)) -> 0 < k ->
    solved 0 (iterate o guess k) (upto 0 (k * (cf_count o 0 + 1))).
  Proof.
    intros HD HW HT Hg. induction k as [|k IH]; [lia|]. intros _. unfold iterate. cbn [g_passes].
    apply (solved_gu0 (cyc_state o k (iterate o guess k))); [apply pass_gu|]. unfold cyc_state.
    replace (S k * (cf_count o 0 + 1)) with (k * (cf_count o 0 + 1) + (cf_count o 0 + 1)) by lia. apply cycle_gain_lossless; auto.
    - eapply gwf_same; [| | |apply (gwf_iterate guess k Hg)]; reflexivity.
    - intros ->. reflexivity.
  Qed.

  (** Fixed point. *)
  Lemma full_segment l : segment l (fun i => i < N l).
  Proof. split; intros; lia. Qed.
  Lemma iterate_fixed guess k n : weight_mean wf o -> (forall i, i < N 0 -> wf 0 (guess i)) ->
    (forall i, i < N 0 -> gu (iterate o guess k) 0 i = time_stepping o i) ->
    forall i, i < N 0 -> gu (iterate o guess (k + n)) 0 i = time_stepping o i.
  Proof.
    intros HW Hg H. induction n as [|n IH]; [rewrite Nat.add_0_r; exact H|]. intros i Hi. pose proof L_ge1.
    replace (k + S n) with (S (k + n)) by lia. unfold iterate. cbn [g_passes]. rewrite pass_gu. rewrite <- (IH i Hi). unfold cyc_state.
    set (G := set_giter (g_passes o (k + n) (g_construct o guess)) (k + n + 1)).
    destruct (iteration_kept HW (L - 1) 0 (cycF o) (k + n) true G (fun i => i < N 0)) as [K _]; try lia.
    - eapply gwf_same; [| | |apply (gwf_iterate guess (k + n) Hg)]; reflexivity.
    - apply full_segment.
    - apply stepping_solved; [apply full_segment|]. exact IH.
    - rewrite K by auto. reflexivity.
  Qed.

  (** After an iteration all F-points of the finest level are solved. *)
  Lemma iterate_F guess k i : 0 < k -> 0 < i -> isC 0 i = false ->
    gu (iterate o guess k) 0 i = gstep o 0 (iterate o guess k) (gu (iterate o guess k) 0 (i - 1)) i.
  Proof.
    intros Hk Hi E. destruct k as [|k]; [lia|]. unfold iterate. cbn [g_passes]. pose proof L_ge1.
    rewrite pass_gu. rewrite (gstep_ext 0 (cyc_state o k (g_passes o k (g_construct o guess)))) by congruence. unfold cyc_state.
    destruct (Nat.eq_dec L 1) as [E1|E1].
    - exfalso. unfold cpoint in E. rewrite E1 in E. discriminate.
    - rewrite top_eq by lia. unfold half. apply f_step; auto.
  Qed.
  Lemma zero_residual guess k : (forall i, i < N 0 -> wf 0 (guess i)) -> 0 < k ->
    (forall i, In i (crit_points o) -> gres o 0 (iterate o guess k) i = zero 0) ->
    forall i, i < N 0 -> gu (iterate o guess k) 0 i = time_stepping o i.
  Proof.
    intros Hg Hk H i Hi. pose proof L_ge1 as HL1. apply (solved_stepping _ (fun i => i < N 0)); auto; [apply full_segment|apply iterate_first|].
    intros j Hj H0. destruct (isC 0 j) eqn:E; [|apply iterate_F; auto].
    pose proof (gwf_iterate guess k Hg) as W.
    assert (R : gres o 0 (iterate o guess k) j = zero 0).
    { apply H. unfold crit_points. apply filter_In. split; [apply in_seq; lia|]. rewrite E. apply Nat.ltb_lt. auto. }
    unfold gres in R. cbn [Nat.eqb] in R. symmetry. unfold gstep. cbn [Nat.eqb]. apply (sub_zero_eq 0); auto.
    - apply (wf_phi A wf HL), W; [lia|]. unfold SetupProofs.N, grid. unfold npts in Hj. lia.
    - apply W; [lia|exact Hj].
  Qed.
  Lemma solution_residual G i : GWF G -> (forall i, i < N 0 -> gu G 0 i = time_stepping o i) -> In i (crit_points o) -> gres o 0 G i = zero 0.
  Proof.
    intros W H Hi. unfold crit_points in Hi. apply filter_In in Hi. destruct Hi as [Hi E]. apply in_seq in Hi. apply andb_true_iff in E.
    destruct E as [_ E]. apply Nat.ltb_lt in E. apply (gres_zero 0 (fun i => i < N 0)); auto; [apply L_ge1|apply full_segment| |lia].
    apply stepping_solved; auto. apply full_segment.
  Qed.
End Algebra.
