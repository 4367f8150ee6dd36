(** C61: interpolation weights between two meshes. The Delaunay triangulation is scipy's; what is used of it is stated here. *)
From Coq Require Import List ZArith Lia Arith Bool Ascii String Reals Lra Psatz.
From Verif Require Import PyList ListFacts LinAlg Getdp PropGetdp Vectors Mesh PropMesh Msh PropMsh.
Import ListNotations.
Local Open Scope list_scope.
Local Open Scope R_scope.

(** Every triangle has three of the points as vertices, and its transform takes them to the unit vectors. *)
Definition triangle (pts : list rpoint) (T : Tri) (i : nat) (vs : list nat) (tr : rpoint * rpoint * rpoint) (pa pb pc : rpoint) : Prop :=
  nth_error (simplices T) i = Some vs /\ nth_error (transform T) i = Some tr /\ map (nth_error pts) vs = map Some [pa; pb; pc] /\
  barycentric tr pa = [1; 0; 0] /\ barycentric tr pb = [0; 1; 0] /\ barycentric tr pc = [0; 0; 1].
Definition tri_ok (pts : list rpoint) (T : Tri) : Prop :=
  List.length (simplices T) = List.length (transform T) /\
  forall i, (i < List.length (simplices T))%nat -> exists vs tr pa pb pc, triangle pts T i vs tr pa pb pc.
(** Convex combination of three points. *)
Definition in_triangle (pa pb pc q : rpoint) : Prop :=
  exists l1 l2 l3, 0 <= l1 /\ 0 <= l2 /\ 0 <= l3 /\ l1 + l2 + l3 = 1 /\
    fst q = l1 * fst pa + l2 * fst pb + l3 * fst pc /\ snd q = l1 * snd pa + l2 * snd pb + l3 * snd pc.
(** The point is found in a triangle that contains it. *)
Definition located (pts : list rpoint) (T : Tri) (tol : R) (q : rpoint) : Prop :=
  exists i vs tr pa pb pc, find_simplex T tol q = Z.of_nat i /\ triangle pts T i vs tr pa pb pc /\ in_triangle pa pb pc q.
(** The function is linear on the triangle in which the point is found. *)
Definition linear_at (val : rpoint -> R) (pts : list rpoint) (T : Tri) (tol : R) (q : rpoint) : Prop :=
  forall i vs tr pa pb pc, find_simplex T tol q = Z.of_nat i -> triangle pts T i vs tr pa pb pc ->
  exists a b c, forall p, In p [pa; pb; pc; q] -> val p = a * fst p + b * snd p + c.
Definition sum3 (w : list R) : R := fold_right Rplus 0 w.

Lemma list3 (a b c a' b' c' : R) : [a; b; c] = [a'; b'; c'] -> a = a' /\ b = b' /\ c = c'.
Proof. intros H. injection H as H1 H2 H3. auto. Qed.
(** The transform inverts the triangle. *)
Lemma combination tr pa pb pc q : barycentric tr pa = [1; 0; 0] -> barycentric tr pb = [0; 1; 0] -> barycentric tr pc = [0; 0; 1] ->
  exists b1 b2, barycentric tr q = [b1; b2; 1 - (b1 + b2)] /\
    fst q = b1 * fst pa + b2 * fst pb + (1 - (b1 + b2)) * fst pc /\ snd q = b1 * snd pa + b2 * snd pb + (1 - (b1 + b2)) * snd pc.
Proof.
  destruct tr as [[[m11 m12] [m21 m22]] [ox oy]], pa as [ax ay], pb as [bx by_], pc as [cx cy], q as [x y]. unfold barycentric. cbn [fst snd].
  intros A B K. apply list3 in A as (A1 & A2 & _). apply list3 in B as (B1 & B2 & _). apply list3 in K as (K1 & K2 & _).
  exists (m11 * (x - ox) + m12 * (y - oy)), (m21 * (x - ox) + m22 * (y - oy)). split; [reflexivity|].
  set (x1 := ax - ox) in *. set (y1 := ay - oy) in *. set (x2 := bx - ox) in *. set (y2 := by_ - oy) in *. set (x3 := cx - ox) in *. set (y3 := cy - oy) in *.
  set (D := x1 * y2 - x2 * y1).
  assert (D1 : m11 * D = y2) by (unfold D; replace (m11 * (x1 * y2 - x2 * y1)) with (y2 * (m11 * x1 + m12 * y1) - y1 * (m11 * x2 + m12 * y2)) by ring; rewrite A1, B1; ring).
  assert (D2 : m12 * D = - x2) by (unfold D; replace (m12 * (x1 * y2 - x2 * y1)) with (x1 * (m11 * x2 + m12 * y2) - x2 * (m11 * x1 + m12 * y1)) by ring; rewrite A1, B1; ring).
  assert (D3 : m21 * D = - y1) by (unfold D; replace (m21 * (x1 * y2 - x2 * y1)) with (y2 * (m21 * x1 + m22 * y1) - y1 * (m21 * x2 + m22 * y2)) by ring; rewrite A2, B2; ring).
  assert (D4 : m22 * D = x1) by (unfold D; replace (m22 * (x1 * y2 - x2 * y1)) with (x1 * (m21 * x2 + m22 * y2) - x2 * (m21 * x1 + m22 * y1)) by ring; rewrite A2, B2; ring).
  assert (DN : D <> 0). { intros Z. rewrite Z, Rmult_0_r in D1, D2, D3, D4. rewrite <- D1 in B2. rewrite <- D4 in A1. replace y1 with 0 in A1 by lra. lra. }
  assert (G : forall u v, u = x1 * (m11 * u + m12 * v) + x2 * (m21 * u + m22 * v) /\ v = y1 * (m11 * u + m12 * v) + y2 * (m21 * u + m22 * v)).
  { intros u v. split; apply (Rmult_eq_reg_l D); try exact DN.
    - replace (D * (x1 * (m11 * u + m12 * v) + x2 * (m21 * u + m22 * v))) with (x1 * ((m11 * D) * u + (m12 * D) * v) + x2 * ((m21 * D) * u + (m22 * D) * v)) by ring.
      rewrite D1, D2, D3, D4. unfold D. ring.
    - replace (D * (y1 * (m11 * u + m12 * v) + y2 * (m21 * u + m22 * v))) with (y1 * ((m11 * D) * u + (m12 * D) * v) + y2 * ((m21 * D) * u + (m22 * D) * v)) by ring.
      rewrite D1, D2, D3, D4. unfold D. ring. }
  destruct (G x3 y3) as [X3 Y3]. rewrite K1, K2 in X3, Y3. destruct (G (x - ox) (y - oy)) as [GX GY].
  replace ax with (x1 + ox) by (unfold x1; ring). replace bx with (x2 + ox) by (unfold x2; ring). replace cx with ox by (unfold x3 in X3; lra).
  replace ay with (y1 + oy) by (unfold y1; ring). replace by_ with (y2 + oy) by (unfold y2; ring). replace cy with oy by (unfold y3 in Y3; lra).
  split; lra.
Qed.
Lemma inside_nonneg tr pa pb pc q : barycentric tr pa = [1; 0; 0] -> barycentric tr pb = [0; 1; 0] -> barycentric tr pc = [0; 0; 1] ->
  (in_triangle pa pb pc q <-> Forall (fun b => 0 <= b) (barycentric tr q)).
Proof.
  intros A B K. split.
  - intros (l1 & l2 & l3 & H1 & H2 & H3 & S & X & Y).
    assert (E : barycentric tr q = [l1; l2; l3]).
    { destruct tr as [[[m11 m12] [m21 m22]] [ox oy]], pa as [ax ay], pb as [bx by_], pc as [cx cy], q as [x y]. unfold barycentric in *. cbn [fst snd] in *.
      apply list3 in A as (A1 & A2 & _). apply list3 in B as (B1 & B2 & _). apply list3 in K as (K1 & K2 & _). subst x y.
      assert (E1 : m11 * (l1 * ax + l2 * bx + l3 * cx - ox) + m12 * (l1 * ay + l2 * by_ + l3 * cy - oy) = l1).
      { transitivity (l1 * (m11 * (ax - ox) + m12 * (ay - oy)) + l2 * (m11 * (bx - ox) + m12 * (by_ - oy)) + l3 * (m11 * (cx - ox) + m12 * (cy - oy)) + (l1 + l2 + l3 - 1) * (m11 * ox + m12 * oy)); [ring|].
        rewrite A1, B1, K1, S. ring. }
      assert (E2 : m21 * (l1 * ax + l2 * bx + l3 * cx - ox) + m22 * (l1 * ay + l2 * by_ + l3 * cy - oy) = l2).
      { transitivity (l1 * (m21 * (ax - ox) + m22 * (ay - oy)) + l2 * (m21 * (bx - ox) + m22 * (by_ - oy)) + l3 * (m21 * (cx - ox) + m22 * (cy - oy)) + (l1 + l2 + l3 - 1) * (m21 * ox + m22 * oy)); [ring|].
        rewrite A2, B2, K2, S. ring. }
      rewrite E1, E2. replace (1 - (l1 + l2)) with l3 by lra. reflexivity. }
    rewrite E. constructor; [assumption|]. constructor; [assumption|]. constructor; [assumption|constructor].
  - intros H. destruct (combination tr pa pb pc q A B K) as (b1 & b2 & E & X & Y). rewrite E in H.
    inversion H as [|? ? P1 N1]. inversion N1 as [|? ? P2 N2]. inversion N2 as [|? ? P3 _]. subst.
    exists b1, b2, (1 - (b1 + b2)). repeat split; auto; lra.
Qed.
Lemma clamp_id w : 0 <= w -> clamp w = w.
Proof. intros H. unfold clamp. destruct (Rlt_dec w 0); lra. Qed.
Lemma clamp_nonneg w : 0 <= clamp w.
Proof. unfold clamp. destruct (Rlt_dec w 0); lra. Qed.
Lemma py_nth_nat {X} (l : list X) i : (i < List.length l)%nat -> py_nth l (Z.of_nat i) = nth_error l i.
Proof.
  intros H. unfold py_nth. destruct (0 <=? Z.of_nat i)%Z eqn:E; [|apply Z.leb_gt in E; lia]. rewrite Nat2Z.id. reflexivity.
Qed.

Lemma point_weights_eq T tol q i vs tr : find_simplex T tol q = Z.of_nat i -> nth_error (simplices T) i = Some vs -> nth_error (transform T) i = Some tr ->
  point_weights T tol q = inl (vs, map clamp (barycentric tr q)).
Proof.
  intros F V W. unfold point_weights. rewrite F, !py_nth_nat by (apply nth_error_Some; congruence). rewrite V, W. reflexivity.
Qed.
Lemma traverse_each {X Y} (f : X -> res Y) (P : X -> Y -> Prop) l : (forall x, In x l -> exists y, f x = inl y /\ P x y) ->
  exists ys, traverse f l = inl ys /\ Forall2 P l ys.
Proof.
  induction l as [|x l IH]; intros H; [exists []; split; [reflexivity|constructor]|].
  destruct (H x (or_introl eq_refl)) as (y & E & Hy). destruct IH as (ys & Es & Hys); [intros z Hz; apply H; right; exact Hz|].
  exists (y :: ys). cbn [traverse]. rewrite E, Es. split; [reflexivity|constructor; assumption].
Qed.
Lemma combine_fst_snd {X Y} (l : list (X * Y)) : combine (map fst l) (map snd l) = l.
Proof. induction l as [|[x y] l IH]; [reflexivity|]. cbn [map combine fst snd]. rewrite IH. reflexivity. Qed.

(** Points found in a triangle that contains them: the weights reproduce every function that is linear on these triangles. *)
Theorem C61_inside_exact : forall delaunay tol xyz uvw, tri_ok xyz (delaunay xyz) -> (forall q, In q uvw -> located xyz (delaunay xyz) tol q) ->
  exists w, interp_weights delaunay tol xyz uvw = inl w /\
    forall val, (forall q, In q uvw -> linear_at val xyz (delaunay xyz) tol q) -> reproduces val xyz uvw w.
Proof.
  intros delaunay tol xyz uvw HT HL. set (T := delaunay xyz) in *.
  destruct (traverse_each (point_weights T tol) (fun q p => forall val, linear_at val xyz T tol q ->
    exists vs, map (nth_error xyz) (fst p) = map Some vs /\ weighted val vs (snd p) = val q) uvw) as (ys & E & H).
  - intros q Hq. destruct (HL q Hq) as (i & vs & tr & pa & pb & pc & F & HTr & I). pose proof HTr as (V & W & M & A & B & K).
    eexists. split; [eapply point_weights_eq; eassumption|]. intros val L. cbn [fst snd]. exists [pa; pb; pc]. split; [exact M|].
    pose proof (proj1 (inside_nonneg _ _ _ _ q A B K) I) as N.
    destruct (combination tr pa pb pc q A B K) as (b1 & b2 & Eb & X & Y). rewrite Eb in N |- *.
    inversion N as [|? ? P1 N1]. inversion N1 as [|? ? P2 N2]. inversion N2 as [|? ? P3 _]. subst.
    cbn [map]. rewrite !clamp_id by assumption. destruct (L i vs tr pa pb pc F HTr) as (a & b & c & HV).
    unfold weighted. cbn [combine map fold_right fst snd]. rewrite (HV pa), (HV pb), (HV pc), (HV q) by (cbn; auto). rewrite X, Y. ring.
  - exists (map fst ys, map snd ys). unfold interp_weights. fold T. rewrite E. split; [reflexivity|]. intros val Lin. split; [cbn; rewrite !map_length; reflexivity|].
    cbn [fst snd]. rewrite combine_fst_snd. clear - H Lin. induction H as [|q p uvw ys Hq H IH]; constructor.
    + apply Hq. apply Lin. left. reflexivity.
    + apply IH. intros q' Hq'. apply Lin. right. exact Hq'.
Qed.

(** No weight is negative, so the fill value (NaN) of compute_mesh_transfer is never used. *)
Theorem C61_fill_never_used : forall delaunay tol xyz uvw vtx wts, interp_weights delaunay tol xyz uvw = inl (vtx, wts) ->
  Forall (Forall (fun w => 0 <= w)) wts /\
  forall values dif fill, compute_mesh_transfer values vtx wts dif 0 fill = mesh_transfer values vtx wts dif.
Proof.
  intros delaunay tol xyz uvw vtx wts E. assert (N : Forall (Forall (fun w => 0 <= w)) wts).
  { unfold interp_weights in E. destruct (traverse _ uvw) as [ys|e] eqn:T; [|discriminate]. cbn [rbind] in E. injection E as <- <-.
    revert ys T. induction uvw as [|q uvw IH]; intros ys T; cbn [traverse] in T; [injection T as <-; constructor|].
    unfold point_weights at 1 in T. destruct (py_nth (simplices _) _) as [vs|]; [|discriminate]. cbn [of_opt rbind] in T.
    destruct (py_nth (transform _) _) as [tr|]; [|discriminate]. cbn [of_opt rbind] in T.
    destruct (traverse _ uvw) as [ys'|] eqn:T'; [|discriminate]. cbn [rbind] in T. injection T as <-. constructor; [|apply IH; reflexivity].
    cbn [snd]. apply Forall_forall. intros w Hw. apply in_map_iff in Hw as (b & <- & _). apply clamp_nonneg. }
  split; [exact N|]. intros values dif fill. unfold compute_mesh_transfer, mesh_transfer. rewrite Nat.sub_0_r, firstn_all.
  apply map_ext_in. intros p Hp. replace (existsb _ (snd p)) with false; [reflexivity|]. symmetry. apply not_true_iff_false. intros X.
  apply existsb_exists in X as (w & Hw & X). destruct p as [v ws]. apply in_combine_r in Hp. rewrite Forall_forall in N. specialize (N ws Hp). rewrite Forall_forall in N.
  specialize (N w Hw). destruct (Rlt_dec w 0); [lra|discriminate].
Qed.

(** The weights of a point found with tolerance [tol] add up to at least 1 and at most 1 + 2 tol; to 1 exactly inside the triangle. *)
Theorem C61_weight_sum : forall pts T tol q i vs tr pa pb pc, 0 <= tol -> find_simplex T tol q = Z.of_nat i -> triangle pts T i vs tr pa pb pc ->
  Forall (fun b => - tol <= b) (barycentric tr q) ->
  exists w, point_weights T tol q = inl (vs, w) /\ 1 <= sum3 w <= 1 + 2 * tol /\ (sum3 w = 1 <-> in_triangle pa pb pc q).
Proof.
  intros pts T tol q i vs tr pa pb pc Ht F (V & W & M & A & B & K) H. exists (map clamp (barycentric tr q)).
  split; [eapply point_weights_eq; eassumption|]. rewrite (inside_nonneg _ _ _ _ q A B K).
  destruct (combination tr pa pb pc q A B K) as (b1 & b2 & -> & _ & _) in H |- *.
  inversion H as [|? ? P1 N1]. inversion N1 as [|? ? P2 N2]. inversion N2 as [|? ? P3 _]. subst.
  unfold sum3. cbn [map fold_right]. assert (EQ : clamp b1 + (clamp b2 + (clamp (1 - (b1 + b2)) + 0)) = 1 <-> 0 <= b1 /\ 0 <= b2 /\ 0 <= 1 - (b1 + b2)).
  { unfold clamp. destruct (Rlt_dec b1 0), (Rlt_dec b2 0), (Rlt_dec (1 - (b1 + b2)) 0); split; intros; try split; try split; lra. }
  split.
  - unfold clamp. destruct (Rlt_dec b1 0), (Rlt_dec b2 0), (Rlt_dec (1 - (b1 + b2)) 0); lra.
  - rewrite EQ. split.
    + intros (Q1 & Q2 & Q3). constructor; [exact Q1|]. constructor; [exact Q2|]. constructor; [exact Q3|constructor].
    + intros Q. inversion Q as [|? ? Q1 Q']. inversion Q' as [|? ? Q2 Q'']. inversion Q'' as [|? ? Q3 _]. auto.
Qed.
(** Interpolated values exceed the largest value by at most the factor 1 + 2 tol. *)
Theorem C61_interpolated_bound : forall pts T tol q i vs tr pa pb pc values dif M, 0 <= tol -> find_simplex T tol q = Z.of_nat i ->
  triangle pts T i vs tr pa pb pc -> Forall (fun b => - tol <= b) (barycentric tr q) -> 0 <= M -> Forall (fun v => Rabs v <= M) values ->
  exists w, point_weights T tol q = inl (vs, w) /\ Forall (fun r => Rabs r <= (1 + 2 * tol) * M) (mesh_transfer values [vs] [w] dif).
Proof.
  intros pts T tol q i vs tr pa pb pc values dif M Ht F HTr H HM HV.
  destruct (C61_weight_sum _ _ _ _ _ _ _ _ _ _ Ht F HTr H) as (w & E & [S1 S2] & _). exists w. split; [exact E|].
  assert (N : Forall (fun x => 0 <= x) w).
  { destruct HTr as (V & W & _). rewrite (point_weights_eq _ _ _ _ _ _ F V W) in E. injection E as <-. apply Forall_forall. intros x Hx.
    apply in_map_iff in Hx as (b & <- & _). apply clamp_nonneg. }
  unfold mesh_transfer. cbn [combine map fst snd]. constructor; [|constructor].
  apply Rle_trans with (sum3 w * M); [|apply Rmult_le_compat_r; lra].
  assert (HW : forall k, Rabs (at_ (values ++ repeat 0 dif) k) <= M).
  { intros k. unfold at_. destruct (le_lt_dec (List.length (values ++ repeat 0 dif)) k) as [L|L]; [rewrite nth_overflow, Rabs_R0 by exact L; exact HM|].
    pose proof (nth_In _ 0 L) as I. apply in_app_or in I as [I|I]; [rewrite Forall_forall in HV; apply HV; exact I|].
    apply repeat_spec in I. rewrite I, Rabs_R0. exact HM. }
  clear - N HW HM. revert vs. unfold zipw, sum3. induction N as [|x w Hx N IH]; intros [|k vs]; cbn [map combine fold_right fst snd].
  - rewrite Rabs_R0. lra.
  - rewrite Rabs_R0. lra.
  - rewrite Rabs_R0. assert (0 <= fold_right Rplus 0 w) by (clear - N; induction N; cbn; lra). nra.
  - eapply Rle_trans; [apply Rabs_triang|]. rewrite Rmult_plus_distr_r. apply Rplus_le_compat; [|apply IH].
    rewrite Rabs_mult, (Rabs_pos_eq x Hx), Rmult_comm. apply Rmult_le_compat_l; [exact Hx|apply HW].
Qed.

(** ** A single triangle *)
Definition unit_pts : list rpoint := [(1, 0); (0, 1); (0, 0)].
Definition unit_tr : rpoint * rpoint * rpoint := ((1, 0), (0, 1), (0, 0)).
Definition within (tol : R) (bs : list R) : bool := forallb (fun b => if Rle_dec (- tol) b then true else false) bs.
Definition unit_tri : Tri := mkTri [[0; 1; 2]%nat] (fun tol q => if within tol (barycentric unit_tr q) then 0%Z else (-1)%Z) [unit_tr].
Lemma unit_bary x y : barycentric unit_tr (x, y) = [x; y; 1 - (x + y)].
Proof. unfold barycentric, unit_tr. cbn [fst snd]. f_equal; [ring|]. f_equal; [ring|]. f_equal. ring. Qed.
Lemma unit_triangle : triangle unit_pts unit_tri 0 [0; 1; 2]%nat unit_tr (1, 0) (0, 1) (0, 0).
Proof.
  split; [reflexivity|]. split; [reflexivity|]. split; [reflexivity|]. rewrite !unit_bary.
  split; [|split]; repeat f_equal; ring.
Qed.
Lemma unit_tri_ok : tri_ok unit_pts unit_tri.
Proof. split; [reflexivity|]. intros [|i] H; [|cbn in H; lia]. eexists _, _, _, _, _. exact unit_triangle. Qed.
Lemma unit_found tol x y : - tol <= x -> - tol <= y -> - tol <= 1 - (x + y) -> find_simplex unit_tri tol (x, y) = 0%Z.
Proof.
  intros A B K. unfold unit_tri. cbn [find_simplex]. rewrite unit_bary. unfold within. cbn [forallb].
  destruct (Rle_dec (- tol) x), (Rle_dec (- tol) y), (Rle_dec (- tol) (1 - (x + y))); try lra. reflexivity.
Qed.
(** A point found within the tolerance but outside the triangle: constants are not kept. *)
Theorem C61_constants_kept_refuted : ~ (forall pts T tol q i vs tr pa pb pc w, tri_ok pts T -> 0 <= tol -> find_simplex T tol q = Z.of_nat i ->
  triangle pts T i vs tr pa pb pc -> Forall (fun b => - tol <= b) (barycentric tr q) -> point_weights T tol q = inl (vs, w) -> sum3 w = 1).
Proof.
  intros H. assert (F : find_simplex unit_tri (1 / 10) (- (1 / 20), 1 / 2) = Z.of_nat 0) by (apply unit_found; lra).
  assert (B : Forall (fun b => - (1 / 10) <= b) (barycentric unit_tr (- (1 / 20), 1 / 2))).
  { rewrite unit_bary. constructor; [lra|]. constructor; [lra|]. constructor; [lra|constructor]. }
  assert (T0 : 0 <= 1 / 10) by lra.
  specialize (H _ _ _ _ _ _ _ _ _ _ _ unit_tri_ok T0 F unit_triangle B (point_weights_eq _ _ _ _ _ _ F eq_refl eq_refl)).
  rewrite unit_bary in H. unfold sum3, clamp in H. cbn [map fold_right] in H.
  destruct (Rlt_dec (- (1 / 20)) 0); [|lra]. destruct (Rlt_dec (1 / 2) 0); [lra|]. destruct (Rlt_dec (1 - (- (1 / 20) + 1 / 2)) 0); lra.
Qed.
(** A point outside all triangles takes the last triangle; the weights can be arbitrarily large. *)
Theorem C61_outside_refuted : forall M, exists q w, find_simplex unit_tri (1 / 10) q = (-1)%Z /\ point_weights unit_tri (1 / 10) q = inl ([0; 1; 2]%nat, w) /\ M < sum3 w.
Proof.
  intros M. set (x := Rabs M + 2). assert (Hx : 2 <= x) by (unfold x; pose proof (Rabs_pos M); lra).
  assert (F : find_simplex unit_tri (1 / 10) (x, 0) = (-1)%Z).
  { unfold unit_tri. cbn [find_simplex]. rewrite unit_bary. unfold within. cbn [forallb].
    destruct (Rle_dec (- (1 / 10)) (1 - (x + 0))); [lra|]. rewrite !andb_false_r. reflexivity. }
  exists (x, 0), (map clamp [x; 0; 1 - (x + 0)]). split; [exact F|]. split.
  - unfold point_weights. rewrite F. change (@inl (list nat * list R) exc ([0; 1; 2]%nat, map clamp (barycentric unit_tr (x, 0))) = inl ([0; 1; 2]%nat, map clamp [x; 0; 1 - (x + 0)])).
    rewrite unit_bary. reflexivity.
  - unfold sum3, clamp. cbn [map fold_right]. destruct (Rlt_dec x 0); [lra|]. destruct (Rlt_dec 0 0); [lra|]. destruct (Rlt_dec (1 - (x + 0)) 0); [|lra].
    pose proof (Rle_abs M). unfold x. lra.
Qed.

(** ** Files to interpolated vector *)
Lemma machine_coords_ok r : coords_ok (machine_coords r).
Proof.
  constructor.
  - intros a b. cbn. destruct (Req_EM_T a b); split; congruence.
  - intros p. cbn. destruct (Rlt_dec _ _) as [A|A]; [|discriminate]. destruct (Rgt_dec _ _) as [B|B]; [|discriminate]. intros _ _. lra.
Qed.
Definition weights_of (delaunay : list rpoint -> Tri) (xyz uvw : list rpoint) : list (list nat) * list (list R) :=
  match interp_weights delaunay (1 / 10) xyz uvw with inl w => w | inr _ => ([], []) end.
Lemma weights_of_eq delaunay xyz uvw w : interp_weights delaunay (1 / 10) xyz uvw = inl w -> weights_of delaunay xyz uvw = w.
Proof. intros E. unfold weights_of. rewrite E. reflexivity. Qed.
(** A function that vanishes on the boundary and is linear on the triangles of the coarse mesh in which the new unknowns are found is
    transferred exactly, from the four files to the values of the vector. *)
Theorem C61_transfer_exact : forall r delaunay parse pre_c msh_c ps_c pts_c el_c unk_c bou_c pre_f msh_f ps_f pts_f el_f unk_f bou_f,
  let C := machine_coords r in
  mesh_files C parse pre_c msh_c ps_c pts_c el_c -> nodes_known el_c pts_c ->
  map (fun p => dget pts_c (fst p)) (filter numbered ps_c) = map Some unk_c ->
  map (fun p => dget pts_c (fst p)) (filter (fun p => negb (numbered p)) ps_c) = map Some bou_c -> separated C unk_c ->
  mesh_files C parse pre_f msh_f ps_f pts_f el_f -> nodes_known el_f pts_f ->
  map (fun p => dget pts_f (fst p)) (filter numbered ps_f) = map Some unk_f ->
  map (fun p => dget pts_f (fst p)) (filter (fun p => negb (numbered p)) ps_f) = map Some bou_f -> separated C unk_f ->
  firstn (List.length unk_c) unk_f = unk_c -> (2 * List.length unk_c <= List.length unk_f)%nat ->
  (forall p, In p (skipn (List.length unk_c) unk_f) -> inner C p = true \/ outer C p = true) ->
  forall val, (forall p, In p bou_c -> val p = 0) ->
  (forall side, side = inner C \/ side = outer C -> let pts := filter side (unk_c ++ bou_c) in
     tri_ok pts (delaunay pts) /\ forall q, In q (filter side (skipn (List.length unk_c) unk_f)) ->
       located pts (delaunay pts) (1 / 10) q /\ linear_at val pts (delaunay pts) (1 / 10) q) ->
  exists d, transfer_init C parse (weights_of delaunay) pre_c msh_c pre_f msh_f = inl d /\
    forall u, m_middle u = map val unk_c ->
    exists v, mach_interpolation d u = Some v /\ m_middle v = map val unk_f /\ m_front v = m_front u /\ m_back v = m_back u.
Proof.
  intros r delaunay parse pre_c msh_c ps_c pts_c el_c unk_c bou_c pre_f msh_f ps_f pts_f el_f unk_f bou_f C Hc Kc Uc Bc Sc Hf Kf Uf Bf Sf Fi Tw IO val Bz Tri.
  eapply C60_transfer; try eassumption; [apply machine_coords_ok|]. intros side Hs. destruct (Tri side Hs) as [OK HQ].
  destruct (C61_inside_exact delaunay (1 / 10) _ (filter side (skipn (List.length unk_c) unk_f)) OK) as (w & E & Rep); [intros q Hq; apply HQ; exact Hq|].
  exact (eq_ind_r (fun W => reproduces val _ _ W) (Rep val (fun q Hq => proj2 (HQ q Hq))) (weights_of_eq _ _ _ _ E)).
Qed.

Example C61_inside_example : located unit_pts unit_tri (1 / 10) (1 / 4, 1 / 2) /\ linear_at (fun p => 3 * fst p - snd p + 2) unit_pts unit_tri (1 / 10) (1 / 4, 1 / 2) /\
  point_weights unit_tri (1 / 10) (1 / 4, 1 / 2) = inl ([0; 1; 2]%nat, [1 / 4; 1 / 2; 1 - (1 / 4 + 1 / 2)]).
Proof.
  assert (F : find_simplex unit_tri (1 / 10) (1 / 4, 1 / 2) = Z.of_nat 0) by (apply unit_found; lra). split; [|split].
  - exists 0%nat, [0; 1; 2]%nat, unit_tr, (1, 0), (0, 1), (0, 0). split; [exact F|]. split; [exact unit_triangle|].
    exists (1 / 4), (1 / 2), (1 / 4). cbn [fst snd]. repeat split; lra.
  - intros i vs tr pa pb pc _ _. exists 3, (-1), 2. intros p _. ring.
  - rewrite (point_weights_eq _ _ _ _ _ _ F eq_refl eq_refl), unit_bary. cbn [map]. rewrite !clamp_id by lra. reflexivity.
Qed.

(** The hypotheses of C61_transfer_exact hold for two small meshes around the circle of radius 5, with the function y + 1. *)
Definition real_of (t : text) : option R := option_map IZR (int_of t).
Definition ex_nodes_c : list text := [tx "1 2 0 6"; tx "1 -1 3 0"; tx "2 7 9 0"; tx "3 3 -1 0"; tx "4 -3 -1 0"; tx "5 15 -1 0"; tx "6 6 -1 0"].
Definition ex_nodes_f : list text := ex_nodes_c ++ [tx "2 2 0 2"; tx "7 -1 1 0"; tx "8 9 4 0"].
Definition ex_rows (new : list text) : list text := [tx "1 1 0 1 9 1"; tx "1 2 0 1 10 1"] ++ new ++ [tx "1 3 0 2 0 0"; tx "1 4 0 2 0 0"; tx "1 5 0 2 0 0"; tx "1 6 0 2 0 0"].
Definition ex_new : list text := [tx "1 7 0 1 11 1"; tx "1 8 0 1 12 1"].
Definition ex_ps (new : list (text * text)) : list (text * text) := [(tx "1", tx "9"); (tx "2", tx "10")] ++ new ++ [(tx "3", tx "0"); (tx "4", tx "0"); (tx "5", tx "0"); (tx "6", tx "0")].
Definition ex_pts_c : dict rpoint := [(tx "1", (-1, 3)); (tx "2", (7, 9)); (tx "3", (3, -1)); (tx "4", (-3, -1)); (tx "5", (15, -1)); (tx "6", (6, -1))].
Definition ex_pts_f : dict rpoint := ex_pts_c ++ [(tx "7", (-1, 1)); (tx "8", (9, 4))].
Definition ex_words_c : list (text * (text * text)) :=
  [(tx "1", (tx "-1", tx "3")); (tx "2", (tx "7", tx "9")); (tx "3", (tx "3", tx "-1")); (tx "4", (tx "-3", tx "-1")); (tx "5", (tx "15", tx "-1")); (tx "6", (tx "6", tx "-1"))].
Definition ex_words_f : list (text * (text * text)) := [(tx "7", (tx "-1", tx "1")); (tx "8", (tx "9", tx "4"))].
Lemma ex_coarse : mesh_files (machine_coords 5) real_of (pre_text (ex_rows [])) (msh_file ex_nodes_c coarse_elements) (ex_ps []) ex_pts_c example_elems.
Proof.
  constructor.
  - eexists _, _, _, _. split; vm_compute; reflexivity.
  - exists (firstn 9 (readlines (pre_text (ex_rows [])))), (map nl (ex_rows [])), (skipn 15 (readlines (pre_text (ex_rows [])))).
    split; [vm_compute; reflexivity|]. split; [vm_compute; reflexivity|]. split; [vm_compute; reflexivity|].
    repeat (constructor; [split; vm_compute; reflexivity|]). constructor.
  - split; apply distinct_ok; vm_compute; reflexivity.
  - exists (map nl ex_nodes_c), ex_words_c.
    split; [apply (between_at _ _ _ _ 6); vm_compute; reflexivity|]. split; [|split; [|split; [apply distinct_ok; vm_compute; reflexivity|apply pair_key_distinct; vm_compute; reflexivity]]].
    + change ex_words_c with (ex_words_c ++ []). apply (ns_block plane (nl (tx "1 2 0 6")) (map nl (tl ex_nodes_c)) ex_words_c [] []); [entity|lines_done|constructor].
    + cbn [filter]. repeat (constructor; [split; [|split]; reflexivity|]). constructor.
  - exists (map nl coarse_elements). split; [apply (between_at _ _ _ _ 16); vm_compute; reflexivity|]. split; [exact example_elements_ok|exact example_elems_distinct].
Qed.
Lemma ex_fine : mesh_files (machine_coords 5) real_of (pre_text (ex_rows ex_new)) (msh_file ex_nodes_f coarse_elements)
  (ex_ps [(tx "7", tx "11"); (tx "8", tx "12")]) ex_pts_f example_elems.
Proof.
  constructor.
  - eexists _, _, _, _. split; vm_compute; reflexivity.
  - exists (firstn 9 (readlines (pre_text (ex_rows ex_new)))), (map nl (ex_rows ex_new)), (skipn 17 (readlines (pre_text (ex_rows ex_new)))).
    split; [vm_compute; reflexivity|]. split; [vm_compute; reflexivity|]. split; [vm_compute; reflexivity|].
    repeat (constructor; [split; vm_compute; reflexivity|]). constructor.
  - split; apply distinct_ok; vm_compute; reflexivity.
  - exists (map nl ex_nodes_f), (ex_words_c ++ ex_words_f).
    split; [apply (between_at _ _ _ _ 6); vm_compute; reflexivity|]. split; [|split; [|split; [apply distinct_ok; vm_compute; reflexivity|apply pair_key_distinct; vm_compute; reflexivity]]].
    + apply (ns_block plane (nl (tx "1 2 0 6")) (map nl (tl ex_nodes_c)) ex_words_c _ ex_words_f); [entity|lines_done|].
      change ex_words_f with (ex_words_f ++ []). apply (ns_block plane (nl (tx "2 2 0 2")) [nl (tx "7 -1 1 0"); nl (tx "8 9 4 0")] ex_words_f [] []); [entity|lines_done|constructor].
    + cbn [filter]. repeat (constructor; [split; [|split]; reflexivity|]). constructor.
  - exists (map nl coarse_elements). split; [apply (between_at _ _ _ _ 19); vm_compute; reflexivity|]. split; [exact example_elements_ok|exact example_elems_distinct].
Qed.
Lemma side_in x y : x * x + y * y <= 24 -> inner (machine_coords 5) (x, y) = true /\ outer (machine_coords 5) (x, y) = false.
Proof.
  intros H. assert (S : cart2pol (x, y) <= 5). { unfold cart2pol. cbn [fst snd]. replace (x ^ 2 + y ^ 2) with (x * x + y * y) by ring. rewrite <- (sqrt_square 5) by lra. apply sqrt_le_1_alt. lra. }
  assert (P : 0 <= cart2pol (x, y)) by apply sqrt_pos. cbn [machine_coords inner outer]. rewrite !Rabs_pos_eq by lra.
  destruct (Rlt_dec _ _) as [A|A]; [|exfalso; lra]. destruct (Rgt_dec _ _) as [B|B]; [exfalso; lra|auto].
Qed.
Lemma side_out x y : 36 <= x * x + y * y -> inner (machine_coords 5) (x, y) = false /\ outer (machine_coords 5) (x, y) = true.
Proof.
  intros H. assert (S : 6 <= cart2pol (x, y)). { unfold cart2pol. cbn [fst snd]. replace (x ^ 2 + y ^ 2) with (x * x + y * y) by ring. rewrite <- (sqrt_square 6) by lra. apply sqrt_le_1_alt. lra. }
  cbn [machine_coords inner outer]. rewrite !Rabs_pos_eq by lra.
  destruct (Rlt_dec _ _) as [A|A]; [exfalso; lra|]. destruct (Rgt_dec _ _) as [B|B]; [auto|exfalso; lra].
Qed.
Definition tri_in : Tri := mkTri [[0; 1; 2]%nat] (fun _ _ => 0%Z) [((0, / 4), (/ 6, - / 12), (-3, -1))].
Definition tri_out : Tri := mkTri [[0; 1; 2]%nat] (fun _ _ => 0%Z) [((0, / 10), (/ 9, - / 90), (6, -1))].
Definition ex_delaunay (pts : list rpoint) : Tri := match pts with (x, _) :: _ => if Rlt_dec x 0 then tri_in else tri_out | [] => tri_in end.
Definition ex_unk_c : list rpoint := [(-1, 3); (7, 9)].
Definition ex_bou : list rpoint := [(3, -1); (-3, -1); (15, -1); (6, -1)].
Definition ex_unk_f : list rpoint := [(-1, 3); (7, 9); (-1, 1); (9, 4)].
Lemma ex_sides : filter (inner (machine_coords 5)) (ex_unk_c ++ ex_bou) = [(-1, 3); (3, -1); (-3, -1)] /\ filter (outer (machine_coords 5)) (ex_unk_c ++ ex_bou) = [(7, 9); (15, -1); (6, -1)] /\
  filter (inner (machine_coords 5)) (skipn 2 ex_unk_f) = [(-1, 1)] /\ filter (outer (machine_coords 5)) (skipn 2 ex_unk_f) = [(9, 4)].
Proof.
  unfold ex_unk_c, ex_bou, ex_unk_f. cbn [app filter skipn].
  destruct (side_in (-1) 3) as [-> ->]; [lra|]. destruct (side_out 7 9) as [-> ->]; [lra|]. destruct (side_in 3 (-1)) as [-> ->]; [lra|].
  destruct (side_in (-3) (-1)) as [-> ->]; [lra|]. destruct (side_out 15 (-1)) as [-> ->]; [lra|]. destruct (side_out 6 (-1)) as [-> ->]; [lra|].
  destruct (side_in (-1) 1) as [-> ->]; [lra|]. destruct (side_out 9 4) as [-> ->]; [lra|]. auto.
Qed.
Lemma ex_triangle_in : triangle [(-1, 3); (3, -1); (-3, -1)] tri_in 0 [0; 1; 2]%nat ((0, / 4), (/ 6, - / 12), (-3, -1)) (-1, 3) (3, -1) (-3, -1).
Proof. split; [reflexivity|]. split; [reflexivity|]. split; [reflexivity|]. unfold barycentric. cbn [fst snd]. split; [|split]; repeat f_equal; lra. Qed.
Lemma ex_triangle_out : triangle [(7, 9); (15, -1); (6, -1)] tri_out 0 [0; 1; 2]%nat ((0, / 10), (/ 9, - / 90), (6, -1)) (7, 9) (15, -1) (6, -1).
Proof. split; [reflexivity|]. split; [reflexivity|]. split; [reflexivity|]. unfold barycentric. cbn [fst snd]. split; [|split]; repeat f_equal; lra. Qed.
Lemma ex_separated : separated (machine_coords 5) ex_unk_f.
Proof.
  destruct (side_in (-1) 3) as [A1 A2]; [lra|]. destruct (side_out 7 9) as [B1 B2]; [lra|]. destruct (side_in (-1) 1) as [C1 C2]; [lra|]. destruct (side_out 9 4) as [D1 D2]; [lra|].
  intros p q Hp Hq Al. unfold ex_unk_f in Hp, Hq. cbn [In] in Hp, Hq.
  destruct Hp as [<-|[<-|[<-|[<-|[]]]]], Hq as [<-|[<-|[<-|[<-|[]]]]]; rewrite ?A1, ?A2, ?B1, ?B2, ?C1, ?C2, ?D1, ?D2; auto; exfalso; destruct Al as [Al|Al]; cbn in Al; lra.
Qed.
Example C61_transfer_example : exists d,
  transfer_init (machine_coords 5) real_of (weights_of ex_delaunay) (pre_text (ex_rows [])) (msh_file ex_nodes_c coarse_elements) (pre_text (ex_rows ex_new)) (msh_file ex_nodes_f coarse_elements) = inl d /\
  forall u, m_middle u = [3 + 1; 9 + 1] -> exists v, mach_interpolation d u = Some v /\ m_middle v = [3 + 1; 9 + 1; 1 + 1; 4 + 1] /\ m_front v = m_front u /\ m_back v = m_back u.
Proof.
  apply (C61_transfer_exact 5 ex_delaunay real_of _ _ (ex_ps []) ex_pts_c example_elems ex_unk_c ex_bou _ _
           (ex_ps [(tx "7", tx "11"); (tx "8", tx "12")]) ex_pts_f example_elems ex_unk_f ex_bou) with (val := fun p => snd p + 1).
  - exact ex_coarse.
  - intros e n He _ Hn. cbn in He. destruct He as [<-|[<-|[<-|[<-|[<-|[]]]]]]; cbn in Hn |- *; intuition.
  - reflexivity.
  - reflexivity.
  - intros p q Hp Hq. apply ex_separated; unfold ex_unk_f; cbn in *; intuition.
  - exact ex_fine.
  - intros e n He _ Hn. cbn in He. destruct He as [<-|[<-|[<-|[<-|[<-|[]]]]]]; cbn in Hn |- *; intuition.
  - reflexivity.
  - reflexivity.
  - exact ex_separated.
  - reflexivity.
  - cbn. lia.
  - intros p [<-|[<-|[]]]; [left; apply side_in; lra|right; apply side_out; lra].
  - intros p Hp. cbn [In ex_bou] in Hp. destruct Hp as [<-|[<-|[<-|[<-|[]]]]]; cbn [snd]; lra.
  - intros side Hs. destruct ex_sides as (S1 & S2 & S3 & S4). cbv zeta. change (List.length ex_unk_c) with 2%nat. destruct Hs as [->| ->].
    + change (coord (machine_coords 5)) with R in *. rewrite S1, S3. unfold ex_delaunay. destruct (Rlt_dec (-1) 0) as [_|X]; [|exfalso; lra]. split.
      * split; [reflexivity|]. intros [|i] H; [|cbn in H; lia]. eexists _, _, _, _, _. exact ex_triangle_in.
      * intros q [<-|[]]. split; [|intros i vs tr pa pb pc _ _; exists 0, 1, 1; intros p _; ring].
        exists 0%nat, [0; 1; 2]%nat, ((0, / 4), (/ 6, - / 12), (-3, -1)), (-1, 3), (3, -1), (-3, -1). split; [reflexivity|]. split; [exact ex_triangle_in|].
        exists (1 / 2), (1 / 6), (1 / 3). cbn [fst snd]. repeat split; lra.
    + change (coord (machine_coords 5)) with R in *. rewrite S2, S4. unfold ex_delaunay. destruct (Rlt_dec 7 0) as [X|_]; [exfalso; lra|]. split.
      * split; [reflexivity|]. intros [|i] H; [|cbn in H; lia]. eexists _, _, _, _, _. exact ex_triangle_out.
      * intros q [<-|[]]. split; [|intros i vs tr pa pb pc _ _; exists 0, 1, 1; intros p _; ring].
        exists 0%nat, [0; 1; 2]%nat, ((0, / 10), (/ 9, - / 90), (6, -1)), (7, 9), (15, -1), (6, -1). split; [reflexivity|]. split; [exact ex_triangle_out|].
        exists (1 / 2), (5 / 18), (2 / 9). cbn [fst snd]. repeat split; lra.
Qed.

Print Assumptions C60_nodes.
Print Assumptions C60_elements.
Print Assumptions C60_version.
Print Assumptions C60_compute_data.
Print Assumptions C60_unknown_node_raises.
Print Assumptions C60_transfer.
Print Assumptions C60_all_nodes_read_refuted.
Print Assumptions C60_solid_refuted.
Print Assumptions C61_inside_exact.
Print Assumptions C61_fill_never_used.
Print Assumptions C61_weight_sum.
Print Assumptions C61_interpolated_bound.
Print Assumptions C61_constants_kept_refuted.
Print Assumptions C61_outside_refuted.
Print Assumptions C61_transfer_exact.
