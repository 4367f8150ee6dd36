(** The reference algorithm: MGRIT (FAS) written on global time indices, with no processes, no local indices, no
    messages. This is what the parallel rank programs of Mgrit.v are compared with, and what the numerical theorems are
    about. Only the user-supplied operations [App], the options and the time grids occur here. *)
From Coq Require Import List ZArith Arith Bool.
From Verif Require Import Mgrit.
Import ListNotations.

(** Position of a time in a grid. *)
Fixpoint index_of (t : Z) (l : list Z) : nat :=
  match l with [] => 0 | x :: l' => if Z.eqb x t then 0 else S (index_of t l') end.

Section Grid.
  Variable grids : list (list Z).
  (** number of points / i-th time of level [l] *)
  Definition npts (l : nat) : nat := length (nth l grids []).
  Definition time (l i : nat) : Z := nth i (nth l grids []) 0%Z.
  (** C-points: the times of the next coarser level; all points of the coarsest level *)
  Definition cpoint (l i : nat) : bool :=
    if l =? length grids - 1 then true else existsb (Z.eqb (time l i)) (nth (S l) grids []).
  (** index on level [l] of the [j]-th point of level [l+1], and back *)
  Definition fine_index (l j : nat) : nat := index_of (time (S l) j) (nth l grids []).
  Definition coarse_index (l i : nat) : nat := index_of (time l i) (nth (S l) grids []).
End Grid.

(** Global solver state: values indexed by level and global time index. *)
Record GS (A : App) : Type := mkGS {
  gu : nat -> nat -> Vec A;                     (* solution approximation *)
  gv : nat -> nat -> Vec A;                     (* restricted approximation *)
  gg : nat -> nat -> Vec A;                     (* FAS right-hand side *)
  gconv : list (Sc A);                          (* convergence history *)
  glast : option (nat -> Vec A);                (* fine approximation of the previous iteration (jump criterion) *)
  giter : nat;                                  (* iteration number *)
  gout : list (nat * (nat -> Vec A))            (* output calls: iteration number, fine approximation *)
}.
Arguments mkGS {A}. Arguments gu {A} g. Arguments gv {A} g. Arguments gg {A} g. Arguments gconv {A} g.
Arguments glast {A} g. Arguments giter {A} g. Arguments gout {A} g.

Section Ref.
  Context {A : App}.
  Variable o : Opts A.
  Notation V := (Vec A).
  Notation GS := (GS A).
  Notation grids := (o_grids o).
  Notation tm := (time grids).
  Notation isC := (cpoint grids).

  Definition with_u (G : GS) (l : nat) (f : nat -> V) : GS :=
    mkGS (at1 (gu G) l f) (gv G) (gg G) (gconv G) (glast G) (giter G) (gout G).

  (** One time step to point [i] of level [l] from value [x]: Phi(x), plus the right-hand side on coarse levels. *)
  Definition gstep (l : nat) (G : GS) (x : V) (i : nat) : V :=
    if l =? 0 then phi A l x (tm l (i - 1)) (tm l i) else vadd A (gg G l i) (phi A l x (tm l (i - 1)) (tm l i)).

  (** F-relaxation: F-points become time stepping from the C-point before them. *)
  Fixpoint frelax (l : nat) (G : GS) (i : nat) : V :=
    match i with
    | 0 => gu G l 0
    | S j => if isC l i then gu G l i else gstep l G (frelax l G j) i
    end.
  Definition g_frelax (l : nat) (G : GS) : GS := with_u G l (frelax l G).

  (** Weighted C-relaxation. *)
  Definition crelax (l : nat) (G : GS) (i : nat) : V :=
    if isC l i && (0 <? i)
    then vadd A (vscale A (gstep l G (gu G l (i - 1)) i) (o_weight o)) (vscale A (gu G l i) (one_minus A (o_weight o)))
    else gu G l i.
  Definition g_crelax (l : nat) (G : GS) : GS := with_u G l (crelax l G).

  (** Sequential solve of a level. *)
  Fixpoint fsolve (l : nat) (G : GS) (i : nat) : V :=
    match i with 0 => gu G l 0 | S j => gstep l G (fsolve l G j) i end.
  Definition g_fsolve (l : nat) (G : GS) : GS := with_u G l (fsolve l G).

  (** Coarsest-level solve of AT-MGRIT with distance [k]: each point is reached from the old value [k - 1] points before
      it (or the first point). *)
  Fixpoint window (l : nat) (G : GS) (n i : nat) : V :=
    match n, i with
    | S n', S j => gstep l G (window l G n' j) i
    | _, _ => vclone A (gu G l i)
    end.
  Definition g_csolve (l : nat) (G : GS) : GS :=
    match o_dist o with
    | None => g_fsolve l G
    | Some k => if l =? 0 then G                  (* a single level: nothing is done *)
                else with_u G l (window l G (Z.to_nat (k - 1)))
    end.

  (** Residual at point [i] of level [l]. *)
  Definition gres (l : nat) (G : GS) (i : nat) : V :=
    let x := phi A l (gu G l (i - 1)) (tm l (i - 1)) (tm l i) in
    if l =? 0 then vsub A x (gu G l i) else vadd A (vsub A (gg G l i) (gu G l i)) x.

  (** Restriction of approximation and residual; the coarse right-hand side of FAS. *)
  Definition fas_u (l : nat) (G : GS) (j : nat) : V := restr A l (gu G l (fine_index grids l j)).
  Definition fas_g (l : nat) (G : GS) (j : nat) : V :=
    if 0 <? j
    then vsub A (vadd A (restr A l (gres l G (fine_index grids l j))) (vclone A (fas_u l G j)))
                (phi A (S l) (vclone A (fas_u l G (j - 1))) (tm (S l) (j - 1)) (tm (S l) j))
    else gg G (S l) 0.
  Definition g_fas (l : nat) (G : GS) : GS :=
    mkGS (at1 (gu G) (S l) (fas_u l G)) (at1 (gv G) (S l) (fun j => vclone A (fas_u l G j)))
         (at1 (gg G) (S l) (fas_g l G)) (gconv G) (glast G) (giter G) (gout G).

  (** Coarse-grid correction at the C-points. *)
  Definition corr (l : nat) (G : GS) (i : nat) : V :=
    if isC l i && (0 <? i)
    then vadd A (gu G l i) (interp A l (vsub A (gu G (S l) (coarse_index grids l i)) (gv G (S l) (coarse_index grids l i))))
    else gu G l i.
  Definition g_corr (l : nat) (G : GS) : GS := with_u G l (corr l G).

  Fixpoint iter (n : nat) (f : GS -> GS) (G : GS) : GS := match n with 0 => G | S n' => iter n' f (f G) end.

  (** One V- ([cyc = false]) or F-cycle; [n] levels below [l]. *)
  Fixpoint g_iteration (n l : nat) (cyc : bool) (it : nat) (first_f : bool) (G : GS) : GS :=
    match n with
    | 0 => g_csolve l G
    | S n' =>
        let half cyc first_f G :=
          let G := if ((0 <? l) || (it =? 0)) && first_f then g_frelax l G else G in
          let G := iter (cf_count o l) (fun G => g_frelax l (g_crelax l G)) G in
          let G := g_fas l G in
          let G := g_iteration n' (S l) cyc it true G in
          g_frelax l (g_corr l G) in
        let G := half cyc first_f G in
        if negb (l =? 0) && cyc then half false false G else G
    end.

  (** Interpolation of a coarse solution to the C-points. *)
  Definition interp_up (l : nat) (G : GS) (i : nat) : V :=
    if isC l i && (0 <? i) then interp A l (gu G (S l) (coarse_index grids l i)) else gu G l i.
  Definition g_interp_up (l : nat) (G : GS) : GS := with_u G l (interp_up l G).

  Fixpoint g_nested_from (l : nat) (G : GS) : GS :=
    match l with
    | 0 => G
    | S l' => let G := g_interp_up l' G in
              g_nested_from l' (if 0 <? l' then g_iteration (length grids - 1 - l') l' false 0 true G else G)
    end.
  Definition g_nested (G : GS) : GS := g_nested_from (length grids - 1) (g_csolve (length grids - 1) G).

  (** C-points with a predecessor, in time order, and the values entering the stopping criterion. *)
  Definition crit_points : list nat := filter (fun i => isC 0 i && (0 <? i)) (seq 0 (npts grids 0)).
  Definition residual_norms (G : GS) : list (Sc A) := map (fun i => vnorm A (gres 0 G i)) crit_points.
  Definition jump_norms (last : nat -> V) (G : GS) : list (Sc A) :=
    map (fun i => vnorm A (vsub A (gu G 0 i) (last i))) crit_points.

  Definition save_last (G : GS) : GS :=
    mkGS (gu G) (gv G) (gg G) (gconv G) (Some (fun i => vclone A (gu G 0 i))) (giter G) (gout G).
  Definition set_gconv (G : GS) (l : list (Sc A)) : GS := mkGS (gu G) (gv G) (gg G) l (glast G) (giter G) (gout G).
  Definition set_giter (G : GS) (n : nat) : GS := mkGS (gu G) (gv G) (gg G) (gconv G) (glast G) n (gout G).
  Definition g_emit (G : GS) : GS :=
    mkGS (gu G) (gv G) (gg G) (gconv G) (glast G) (giter G) (gout G ++ [(giter G, gu G 0)]).

  (** Values entering the criterion of iteration [it] and the state after computing them. *)
  Definition crit_values (G : GS) : list (Sc A) :=
    if is_jump o then match glast G with Some last => jump_norms last G | None => [] end else residual_norms G.
  (** conv[it] := ||values|| (the norm of a non-empty list always exists) *)
  Definition g_crit (it : nat) (G : GS) : GS :=
    match tnorm A (crit_values G) with
    | Some x => set_gconv (if is_jump o then save_last G else G) (PyList.upd (gconv G) it x)
    | None => G
    end.

  Definition g_emit_if (b : bool) (G : GS) : GS := if b then g_emit G else G.

  (** One iteration: cycle, criterion, output. *)
  Definition g_pass (it : nat) (G : GS) : GS :=
    g_emit_if (o_has_output o && (o_output_lvl o =? 2)%Z)
      (g_crit (it + 1) (g_iteration (length grids - 1) 0 (cycF o) it true (set_giter G (it + 1)))).
  (** Stop below the tolerance or after the last iteration. *)
  Definition g_stop (it : nat) (G : GS) : bool :=
    sc_lt A (nth (it + 1) (gconv G) (sc_zero A)) (o_tol o) || (it =? o_max_iter o - 1).
  Fixpoint g_loop (n it : nat) (G : GS) : GS :=
    match n with
    | 0 => G
    | S n' => let G := g_pass it G in if g_stop it G then G else g_loop n' (S it) G
    end.
  Definition g_solve (G : GS) : GS :=
    g_emit_if (o_has_output o && (o_output_lvl o =? 1)%Z) (g_loop (o_max_iter o) 0 G).

  (** Fresh object: initial value at point 0, [guess] elsewhere on the finest level, zeros on the others. *)
  Definition g_init (guess : nat -> V) : GS :=
    mkGS (fun l i => if i =? 0 then vclone A (tstart A l) else if l =? 0 then guess i else vzero A (templ A l))
         (fun l _ => vzero A (vzero A (templ A l))) (fun l _ => vzero A (vzero A (templ A l)))
         (repeat (sc_zero A) (o_max_iter o + 1)) None 0 [].
  Definition g_construct (guess : nat -> V) : GS :=
    let G := if o_nested o then g_nested (g_init guess) else g_init guess in
    let G := if is_jump o then save_last G else G in
    g_emit_if (o_has_output o && (o_output_lvl o =? 2)%Z) G.

  (** Sequential time stepping on the finest grid: the solution MGRIT is supposed to approximate. *)
  Fixpoint time_stepping (i : nat) : V :=
    match i with 0 => vclone A (tstart A 0) | S j => phi A 0 (time_stepping j) (tm 0 j) (tm 0 i) end.

  (** Mgrit(...).solve() *)
  Definition g_main (guess : nat -> V) : GS := g_solve (g_construct guess).
  (** Deterministic initial guess: zero vectors. *)
  Definition zero_guess (i : nat) : V := vzero A (templ A 0).
End Ref.

(** What a user's vectors and applications must satisfy: [wf l] are the vectors of level [l]; all operations stay
    within their level; unpacking into any vector of the level reproduces the packed vector. *)
Record app_laws (A : App) (wf : nat -> Vec A -> Prop) : Prop := {
  wf_phi : forall l x a b, wf l x -> wf l (phi A l x a b);
  wf_add : forall l x y, wf l x -> wf l y -> wf l (vadd A x y);
  wf_sub : forall l x y, wf l x -> wf l y -> wf l (vsub A x y);
  wf_scale : forall l x w, wf l x -> wf l (vscale A x w);
  wf_clone : forall l x, wf l x -> wf l (vclone A x);
  wf_zero : forall l x, wf l x -> wf l (vzero A x);
  wf_restr : forall l x, wf l x -> wf (S l) (restr A l x);
  wf_interp : forall l x, wf (S l) x -> wf l (interp A l x);
  wf_templ : forall l, wf l (templ A l);
  wf_tstart : forall l, wf l (tstart A l);
  unpack_pack : forall l x y, wf l x -> wf l y -> vunpack A x (vpack A y) = y;
  tnorm_some : forall l, l <> [] -> tnorm A l <> None
}.
