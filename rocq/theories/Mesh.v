(** Unknowns of two meshes and the index maps between them: /repo/src/pymgrit/induction_machine/helper.py 315-497.
    Coordinates are of any type with an equality test; cart2pol and the comparisons with the radius are the parameters
    [inner] (abs(r) - 1e-9 < abs(inner_r)) and [outer] (abs(r) > abs(inner_r) + 1e-7). Entries of the returned dictionaries
    that only serve plotting (points, elements, boundary nodes) are left out. *)
From Coq Require Import List ZArith Arith Bool Ascii Reals.
From Verif Require Import PyList Getdp Vectors.
Import ListNotations.
Local Open Scope nat_scope.

Record Coords : Type := mkCoords { coord : Type; coord_eqb : coord -> coord -> bool;
  inner : coord * coord -> bool; outer : coord * coord -> bool }.

Section Mesh.
  Variable C : Coords.
  Notation point := (coord C * coord C)%type.

  (** p in array, for a row and a two-dimensional numpy array: (array == p).any() *)
  Definition np_in (p : point) (array : list point) : bool :=
    existsb (fun q => coord_eqb C (fst p) (fst q) || coord_eqb C (snd p) (snd q)) array.
  (** m[k] = i with an index array m *)
  Definition put_index (m : list nat) (k i : nat) : res (list nat) := if k <? length m then inl (upd m k i) else inr EIndex.

  (** 411-419: if ... elif *)
  Fixpoint map_new (i : nat) (pts ins outs : list point) (k s : nat) (mi mo : list nat) : res (list nat * list nat) :=
    match pts with
    | [] => inl (mi, mo)
    | p :: pts' =>
        if np_in p ins then mi <-- put_index mi k i ;; map_new (S i) pts' ins outs (S k) s mi mo
        else if np_in p outs then mo <-- put_index mo s i ;; map_new (S i) pts' ins outs k (S s) mi mo
        else map_new (S i) pts' ins outs k s mi mo
    end.
  (** 421-432: two separate ifs *)
  Fixpoint map_all (i : nat) (pts ins outs : list point) (k s : nat) (mi mo : list nat) : res (list nat * list nat) :=
    match pts with
    | [] => inl (mi, mo)
    | p :: pts' =>
        ks <-- (if np_in p ins then mi <-- put_index mi k i ;; inl (S k, mi) else inl (k, mi)) ;;
        ss <-- (if np_in p outs then mo <-- put_index mo s i ;; inl (S s, mo) else inl (s, mo)) ;;
        map_all (S i) pts' ins outs (fst ks) (fst ss) (snd ks) (snd ss)
    end.

  Record Arrays : Type := mkArrays { unknown : list point; unknown_com : list point; map_inner : list nat; map_outer : list nat;
    unknown_new : list point; map_inner_new : list nat; map_outer_new : list nat }.
  (** get_arrays (315-458) *)
  Definition get_arrays (nodes : dict point) (un_to_cor : dict text) (boundary : list text) (new_start : nat) : res Arrays :=
    unk <-- traverse (fun e => of_opt EKey (dget nodes (snd e))) un_to_cor ;;                (* 363-368 *)
    bou <-- traverse (fun e => of_opt EKey (dget nodes e)) boundary ;;                       (* 370-374 *)
    let new := skipn new_start unk in                                                       (* 376 *)
    mn <-- map_new 0 new (filter (inner C) new) (filter (outer C) new) 0 0                  (* 397-419 *)
             (repeat 0 (length (filter (inner C) new))) (repeat 0 (length (filter (outer C) new))) ;;
    ma <-- map_all 0 unk (filter (inner C) unk) (filter (outer C) unk) 0 0
             (repeat 0 (length (filter (inner C) unk))) (repeat 0 (length (filter (outer C) unk))) ;;
    inl (mkArrays unk (unk ++ bou) (fst ma) (snd ma) new (fst mn) (snd mn)).

  (** interpolation_factors (461-497). [weights] is interp_weights (500-518): the Delaunay triangulation of the coarse points and
      the barycentric coordinates of the fine points. *)
  Definition interpolation_factors (weights : list point -> list point -> list (list nat) * list (list R))
      (coarse fine : Arrays) (cor_to_un_coarse cor_to_un_fine : dict text) : MeshData :=
    let com_in := filter (inner C) (unknown_com coarse) in
    let com_out := filter (outer C) (unknown_com coarse) in
    let wi := weights com_in (filter (inner C) (unknown_new fine)) in
    let wo := weights com_out (filter (outer C) (unknown_new fine)) in
    mkMesh (length cor_to_un_coarse) (length cor_to_un_fine) (map_inner coarse) (map_outer coarse) (fst wi) (fst wo) (snd wi) (snd wo)
      (length com_in - length (filter (inner C) (unknown coarse))) (length com_out - length (filter (outer C) (unknown coarse)))
      (map_inner_new fine) (map_outer_new fine).
End Mesh.
