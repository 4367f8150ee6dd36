(** Mesh files and the interpolation between two meshes: /repo/src/pymgrit/induction_machine/helper.py 164-297, 500-518 and the
    constructor of grid_transfer_machine.py. Files are lists of characters as in Getdp.v. *)
From Coq Require Import List ZArith Arith Bool Ascii String Reals.
From Verif Require Import PyList Getdp LinAlg Vectors Mesh.
Import ListNotations.
Local Open Scope list_scope.
Local Open Scope nat_scope.

(** check_version (193-199) *)
Definition check_version (file : text) : res unit :=
  line <-- of_opt EIndex (nth_error (readlines file) 1) ;;
  w <-- of_opt EIndex (nth_error (split line) 0) ;;
  if text_eqb w (tx "4") then inl tt else inr EUser.

(** for i in range(len(content)): if content[i] == marker: pos = i; pos is 0 without the marker *)
Fixpoint last_at (marker : text) (i : nat) (content : list text) (pos : nat) : nat :=
  match content with
  | [] => pos
  | line :: content' => last_at marker (S i) content' (if text_eqb line marker then i else pos)
  end.
(** content[start + 2:end] between two markers *)
Definition section_of (b e : text) (content : list text) : list text :=
  let start := last_at (b ++ [LF]) 0 content 0 in
  let stop := last_at (e ++ [LF]) 0 content 0 in
  firstn (stop - (start + 2)) (skipn (start + 2) content).

Section Msh.
  Variable C : Coords.
  Variable parse : text -> option (coord C).                                             (* float *)
  Notation point := (coord C * coord C)%type.

  (** get_nodes (221-249) *)
  Definition node_row (st : dict point * dict text) (node : text) : res (dict point * dict text) :=
    match split node with
    | w0 :: w1 :: row =>
        if negb (text_eqb w1 (tx "0")) && negb (text_eqb w1 (tx "1")) && negb (text_eqb w1 (tx "2")) then
          x <-- of_opt EValue (parse w1) ;;
          w2 <-- of_opt EIndex (nth_error row 0) ;;
          y <-- of_opt EValue (parse w2) ;;
          inl (dset (fst st) w0 (x, y), dset (snd st) (w1 ++ tx " " ++ w2) w0)
        else inl st
    | _ => inl st
    end.
  Fixpoint node_rows (l : list text) (st : dict point * dict text) : res (dict point * dict text) :=
    match l with [] => inl st | node :: l' => st' <-- node_row st node ;; node_rows l' st' end.
  Definition get_nodes (file : text) : res (dict point * dict text) :=
    node_rows (section_of (tx "$Nodes") (tx "$EndNodes") (readlines file)) ([], []).

  (** get_elements (252-297): the loop over the blocks; [fuel] is at least the number of lines. A negative number of elements,
      which moves the index backwards, is not modelled (EUser). *)
  Fixpoint blocks (fuel : nat) (ele lns trs : list text) : res (list text * list text) :=
    match fuel, ele with
    | _, [] => inl (lns, trs)
    | 0, _ => inl (lns, trs)
    | S fuel', header :: rest =>
        w <-- of_opt EIndex (py_nth (split header) (-1)) ;;
        num <-- of_opt EValue (int_of w) ;;
        first <-- of_opt EIndex (nth_error rest 0) ;;
        if (num <? 0)%Z then inr EUser
        else
          let n := Z.to_nat num in
          let words := List.length (split first) in
          if words =? 3 then blocks fuel' (skipn n rest) (lns ++ firstn n rest) trs
          else if words =? 4 then blocks fuel' (skipn n rest) lns (trs ++ firstn n rest)
          else blocks fuel' (skipn n rest) lns trs
    end.
  (** 282-295: row[0], row[1..k] *)
  Definition element_row (k : nat) (st : dict (list text) * dict text) (elem : text) : res (dict (list text) * dict text) :=
    match split elem with
    | w0 :: row => if List.length (firstn k row) =? k then inl (dset (fst st) w0 (firstn k row), dset (snd st) (join (tx " ") (firstn k row)) w0)
                   else inr EIndex
    | [] => inr EIndex
    end.
  Fixpoint element_rows (k : nat) (l : list text) (st : dict (list text) * dict text) : res (dict (list text) * dict text) :=
    match l with [] => inl st | elem :: l' => st' <-- element_row k st elem ;; element_rows k l' st' end.
  Definition get_elements (file : text) : res (dict (list text) * dict (list text) * dict text * dict text) :=
    let ele := section_of (tx "$Elements") (tx "$EndElements") (readlines file) in
    b <-- blocks (List.length ele) ele [] [] ;;
    l <-- element_rows 2 (fst b) ([], []) ;;
    t <-- element_rows 3 (snd b) ([], []) ;;
    inl (fst l, fst t, snd l, snd t).

  (** compute_data (164-190): the entries used later. get_arrays also looks up the nodes of all lines and triangles (337-359), which
      Mesh.get_arrays leaves out: KeyError. *)
  Definition compute_data (pre msh : text) (new_unknown_start : nat) : res (dict text * Arrays C) :=
    p <-- pre_file pre ;;
    nd <-- get_nodes msh ;;
    el <-- get_elements msh ;;
    let '(cor_to_un, un_to_cor, boundary) := p in
    let '(lns, trs, _, _) := el in
    _ <-- traverse (fun e => traverse (fun n => of_opt EKey (dget (fst nd) n)) (snd e)) lns ;;
    _ <-- traverse (fun e => traverse (fun n => of_opt EKey (dget (fst nd) n)) (snd e)) trs ;;
    arrays <-- get_arrays C (fst nd) un_to_cor boundary new_unknown_start ;;
    inl (cor_to_un, arrays).

  (** GridTransferMachine.__init__ (grid_transfer_machine.py 27-46) *)
  Definition transfer_init (weights : list point -> list point -> list (list nat) * list (list R))
      (coarse_pre coarse_msh fine_pre fine_msh : text) : res MeshData :=
    _ <-- check_version coarse_msh ;;
    c <-- compute_data coarse_pre coarse_msh 0 ;;
    _ <-- check_version fine_msh ;;
    f <-- compute_data fine_pre fine_msh (List.length (fst c)) ;;
    inl (interpolation_factors C weights (snd c) (snd f) (fst c) (fst f)).
End Msh.

(** ** interp_weights (500-518) in real numbers *)
Notation rpoint := (R * R)%type.
(** scipy's Delaunay object: the vertices of every triangle, find_simplex (with the tolerance; -1 for no triangle), and the affine
    transform of every triangle: rows of a 2x2 matrix and an offset. *)
Record Tri : Type := mkTri { simplices : list (list nat); find_simplex : R -> rpoint -> Z; transform : list (rpoint * rpoint * rpoint) }.
Local Open Scope R_scope.
Definition clamp (w : R) : R := if Rlt_dec w 0 then 0 else w.                            (* wts[wts < 0] = 0 *)
Definition barycentric (tr : rpoint * rpoint * rpoint) (p : rpoint) : list R :=
  let '(r1, r2, off) := tr in
  let dx := fst p - fst off in let dy := snd p - snd off in
  let b1 := fst r1 * dx + snd r1 * dy in
  let b2 := fst r2 * dx + snd r2 * dy in
  [b1; b2; 1 - (b1 + b2)].
(** np.take with index -1 takes the last row *)
Definition point_weights (T : Tri) (tol : R) (p : rpoint) : res (list nat * list R) :=
  let simplex := find_simplex T tol p in
  vertices <-- of_opt EIndex (py_nth (simplices T) simplex) ;;
  temp <-- of_opt EIndex (py_nth (transform T) simplex) ;;
  inl (vertices, map clamp (barycentric temp p)).
Definition interp_weights (delaunay : list rpoint -> Tri) (tol : R) (xyz uvw : list rpoint) : res (list (list nat) * list (list R)) :=
  vw <-- traverse (point_weights (delaunay xyz) tol) uvw ;;
  inl (map fst vw, map snd vw).

(** compute_mesh_transfer (201-218) with its fill value and dif2 *)
Definition compute_mesh_transfer (values : list R) (vtx : list (list nat)) (wts : list (list R)) (dif dif2 : nat) (fill : R) : list R :=
  let work := values ++ repeat 0 dif in
  let ret := map (fun p => if existsb (fun w => if Rlt_dec w 0 then true else false) (snd p) then fill
                           else fold_right Rplus 0 (zipw Rmult (map (at_ work) (fst p)) (snd p))) (combine vtx wts) in
  firstn (List.length ret - dif2) ret.

(** Real coordinates; cart2pol (300-308) and the tests of get_arrays (378-401) against a radius *)
Definition cart2pol (p : rpoint) : R := sqrt (fst p ^ 2 + snd p ^ 2).
Definition machine_coords (inner_r : R) : Coords := mkCoords R (fun a b => if Req_EM_T a b then true else false)
  (fun p => if Rlt_dec (Rabs (cart2pol p) - 1 / 10 ^ 9) (Rabs inner_r) then true else false)
  (fun p => if Rgt_dec (Rabs (cart2pol p)) (Rabs inner_r + 1 / 10 ^ 7) then true else false).
Definition default_inner_r : R := 0.04568666666666668.
