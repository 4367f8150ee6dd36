(** The vector classes and grid transfers that ship with pymgrit, over exact real scalars.
    numpy arrays are lists of reals, 2-D arrays are stored row by row. Sharing of array objects between vectors is not
    modelled: no shipped class changes an array of an existing vector in place (set_values and unpack replace it). *)
From Coq Require Import Reals Lra Lia List Arith ZArith Bool.
From Verif Require Import LinAlg Mgrit.
Import ListNotations.
Local Open Scope R_scope.

(** What a vector class offers to the solver (core/vector.py). *)
Record VClass : Type := mkVClass {
  cV : Type; cD : Type;
  c_add : cV -> cV -> cV; c_sub : cV -> cV -> cV; c_mul : cV -> R -> cV; c_norm : cV -> R;
  c_clone : cV -> cV; c_zero : cV -> cV; c_pack : cV -> cD; c_unpack : cV -> cD -> cV
}.

(** ** VectorDahlquist (dahlquist/dahlquist.py 12-58); np.linalg.norm of a scalar is its absolute value *)
Definition VectorDahlquist : VClass :=
  mkVClass R R Rplus Rminus Rmult Rabs (fun u => u) (fun _ => 0) (fun u => u) (fun _ d => d).

(** ** VectorHeat1D (heat/heat_1d.py 14-128), VectorAdvection1D (advection/advection_1d.py 14-65), VectorBrusselator
    (brusselator/brusselator.py 12-63: size is 2, no attribute size) *)
Record Arr : Type := mkArr { a_size : nat; a_vals : list R }.
Definition arr_zeros (n : nat) : Arr := mkArr n (repeat 0 n).                          (* __init__ *)
Definition arr_set (u : Arr) (v : list R) : Arr := mkArr (a_size u) v.                 (* set_values *)
Definition VectorArr : VClass := mkVClass Arr (list R)
  (fun u v => arr_set (arr_zeros (a_size u)) (vplus (a_vals u) (a_vals v)))
  (fun u v => arr_set (arr_zeros (a_size u)) (vminus (a_vals u) (a_vals v)))
  (fun u c => arr_set (arr_zeros (a_size u)) (vtimes (a_vals u) c))
  (fun u => norm2 (a_vals u))
  (fun u => arr_set (arr_zeros (a_size u)) (a_vals u))
  (fun u => arr_zeros (a_size u))
  a_vals
  arr_set.

(** ** VectorHeat2D (heat/heat_2d.py 20-136), VectorAllenCahn2D (allen_cahn/allen_cahn.py 16-132) *)
Record Arr2 : Type := mkArr2 { b_nx : nat; b_ny : nat; b_vals : list R }.
Definition arr2_zeros (nx ny : nat) : Arr2 := mkArr2 nx ny (repeat 0 (nx * ny)).
Definition arr2_set (u : Arr2) (v : list R) : Arr2 := mkArr2 (b_nx u) (b_ny u) v.
Definition VectorArr2 : VClass := mkVClass Arr2 (list R)
  (fun u v => arr2_set (arr2_zeros (b_nx u) (b_ny u)) (vplus (b_vals u) (b_vals v)))
  (fun u v => arr2_set (arr2_zeros (b_nx u) (b_ny u)) (vminus (b_vals u) (b_vals v)))
  (fun u c => arr2_set (arr2_zeros (b_nx u) (b_ny u)) (vtimes (b_vals u) c))
  (fun u => norm2 (b_vals u))
  (fun u => arr2_set (arr2_zeros (b_nx u) (b_ny u)) (b_vals u))
  (fun u => arr2_zeros (b_nx u) (b_ny u))
  b_vals
  arr2_set.

(** ** VectorArenstorfOrbit (arenstorf_orbit/arenstorf_orbit.py 14-74) *)
Record Orbit : Type := mkOrbit { y0 : R; y1 : R; y2 : R; y3 : R }.
Definition orbit_get (u : Orbit) : list R := [y0 u; y1 u; y2 u; y3 u].
Definition orbit_set (u : Orbit) (v : list R) : Orbit := mkOrbit (at_ v 0) (at_ v 1) (at_ v 2) (at_ v 3).
Definition orbit_zero : Orbit := mkOrbit 0 0 0 0.
Definition VectorOrbit : VClass := mkVClass Orbit (list R)
  (fun u v => orbit_set orbit_zero (vplus (orbit_get u) (orbit_get v)))
  (fun u v => orbit_set orbit_zero (vminus (orbit_get u) (orbit_get v)))
  (fun u c => orbit_set orbit_zero (vtimes (orbit_get u) c))
  (fun u => norm2 (orbit_get u))
  (fun u => orbit_set orbit_zero (orbit_get u))
  (fun _ => orbit_zero)
  orbit_get
  orbit_set.

(** ** VectorHeat1D2Pts (heat/vector_heat_1d_2pts.py 12-140) *)
Record Pair : Type := mkPair { p_size : nat; p_dtau : R; p_first : list R; p_second : list R }.
Definition pair_zeros (n : nat) (d : R) : Pair := mkPair n d (repeat 0 n) (repeat 0 n).
Definition pair_set (u : Pair) (f s : list R) (d : R) : Pair := mkPair (p_size u) d f s.
Definition VectorPair : VClass := mkVClass Pair (list R * list R)
  (fun u v => pair_set (pair_zeros (p_size u) (p_dtau u)) (vplus (p_first u) (p_first v)) (vplus (p_second u) (p_second v)) (p_dtau u))
  (fun u v => pair_set (pair_zeros (p_size u) (p_dtau u)) (vminus (p_first u) (p_first v)) (vminus (p_second u) (p_second v)) (p_dtau u))
  (fun u c => pair_set (pair_zeros (p_size u) (p_dtau u)) (vtimes (p_first u) c) (vtimes (p_second u) c) (p_dtau u))
  (fun u => norm2 (p_first u ++ p_second u))
  (fun u => pair_set (pair_zeros (p_size u) (p_dtau u)) (p_first u) (p_second u) (p_dtau u))
  (fun u => pair_zeros (p_size u) (p_dtau u))
  (fun u => (p_first u, p_second u))                                                   (* 125-131: dtau is not packed *)
  (fun u d => mkPair (p_size u) (p_dtau u) (fst d) (snd d)).                           (* 133-140 *)

(** ** VectorMachine (induction_machine/vector_machine.py 11-188); the scalars jl, ia, ib, ic, ua, ub, uc, tr *)
Record Scal : Type := mkScal { jl : R; ia : R; ib : R; ic : R; ua : R; ub : R; uc : R; tr : R }.
Record Mach : Type := mkMach { m_fs : nat; m_ms : nat; m_bs : nat;                      (* u_front_size, u_middle_size, u_back_size *)
  m_front : list R; m_middle : list R; m_back : list R; m_sc : Scal }.
Definition sc0 : Scal := mkScal 0 0 0 0 0 0 0 0.
Definition sc_map2 (f : R -> R -> R) (s t : Scal) : Scal :=
  mkScal (f (jl s) (jl t)) (f (ia s) (ia t)) (f (ib s) (ib t)) (f (ic s) (ic t)) (f (ua s) (ua t)) (f (ub s) (ub t)) (f (uc s) (uc t)) (f (tr s) (tr t)).
Definition sc_map (f : R -> R) (s : Scal) : Scal := sc_map2 (fun x _ => f x) s s.
Definition mach_zeros (f m b : nat) : Mach := mkMach f m b (repeat 0 f) (repeat 0 m) (repeat 0 b) sc0.
Definition mach_like (u : Mach) : Mach := mach_zeros (length (m_front u)) (length (m_middle u)) (length (m_back u)).
Definition mach_unpack (u : Mach) (d : list R * list R * list R * Scal) : Mach :=       (* 172-188 *)
  let '(f, m, b, s) := d in mkMach (m_fs u) (m_ms u) (m_bs u) f m b s.
Definition mach_pack (u : Mach) : list R * list R * list R * Scal := (m_front u, m_middle u, m_back u, m_sc u).   (* 162-170 *)
Definition mach_get (u : Mach) : list R := (m_front u ++ m_middle u) ++ m_back u.       (* get_values 137-143 *)
(** Python slices of a 1-D array: l[:a] and l[a:] with a possibly negative bound (clamped) *)
Definition py_bound (n : nat) (a : Z) : nat :=
  Z.to_nat (Z.min (Z.of_nat n) (Z.max 0 (if (a <? 0)%Z then Z.of_nat n + a else a)))%Z.
Definition py_slice {X} (l : list X) (a b : Z) : list X :=
  skipn (py_bound (length l) a) (firstn (py_bound (length l) b) l).
Definition mach_set (u : Mach) (v : list R) (s : Scal) : Mach :=                         (* set_values 145-160 *)
  mkMach (m_fs u) (m_ms u) (m_bs u)
    (py_slice v 0 (Z.of_nat (m_fs u)))
    (py_slice v (Z.of_nat (m_fs u)) (- Z.of_nat (m_bs u)))
    (py_slice v (- Z.of_nat (m_bs u)) (Z.of_nat (length v))) s.
Definition VectorMachine : VClass := mkVClass Mach (list R * list R * list R * Scal)
  (fun u v => mach_unpack (mach_like u) (vplus (m_front u) (m_front v), vplus (m_middle u) (m_middle v), vplus (m_back u) (m_back v), sc_map2 Rplus (m_sc u) (m_sc v)))
  (fun u v => mach_unpack (mach_like u) (vminus (m_front u) (m_front v), vminus (m_middle u) (m_middle v), vminus (m_back u) (m_back v), sc_map2 Rminus (m_sc u) (m_sc v)))
  (fun u c => mach_unpack (mach_like u) (vtimes (m_front u) c, vtimes (m_middle u) c, vtimes (m_back u) c, sc_map (fun x => x * c) (m_sc u)))
  (fun u => norm2 (mach_get u))                                                          (* 102-110: scalars are left out *)
  (fun u => mach_unpack (mach_like u) (mach_pack u))
  mach_like
  mach_pack
  mach_unpack.

(** ** GridTransferCopy (core/grid_transfer_copy.py 25-47) *)
Definition copy_restriction (C : VClass) (u : cV C) : cV C := c_clone C u.
Definition copy_interpolation (C : VClass) (u : cV C) : cV C := c_clone C u.

(** ** GridTransferMachine (induction_machine/grid_transfer_machine.py 26-83)
    [transfer_data] as computed by helper.py 461-497 (reading meshes and the Delaunay triangulation are not modelled). *)
Record MeshData : Type := mkMesh { sizeStart : nat; sizeStop : nat;
  mapInner : list nat; mapOuter : list nat; vtxInner : list (list nat); vtxOuter : list (list nat);
  wtsInner : list (list R); wtsOuter : list (list R); addInner : nat; addOuter : nat;
  mapInnerNew : list nat; mapOuterNew : list nat }.
(** compute_mesh_transfer (helper.py 201-218) with dif2 = 0 and non-negative weights (interp_weights sets negative ones to
    0, helper.py 517, so the fill value is never used): weighted sums of the values at the vertices. *)
Definition mesh_transfer (values : list R) (vtx : list (list nat)) (wts : list (list R)) (dif : nat) : list R :=
  let work := values ++ repeat 0 dif in
  map (fun p => fold_right Rplus 0 (zipw Rmult (map (at_ work) (fst p)) (snd p))) (combine vtx wts).
(** a[idx] = v for index arrays of equal length; None: index out of bounds or lengths differ *)
Fixpoint upd_at (l : list R) (n : nat) (x : R) : list R :=
  match l, n with [], _ => [] | _ :: l', O => x :: l' | y :: l', S n' => y :: upd_at l' n' x end.
Fixpoint set_at (l : list R) (idx : list nat) (v : list R) : option (list R) :=
  match idx, v with
  | [], [] => Some l
  | i :: idx', x :: v' => if (i <? length l)%nat then set_at (upd_at l i x) idx' v' else None
  | _, _ => None
  end.
Definition mach_restriction (d : MeshData) (u : Mach) : Mach :=                          (* 48-58 *)
  mkMach (m_fs u) (sizeStart d) (m_bs u) (m_front u) (firstn (sizeStart d) (m_middle u)) (m_back u) (m_sc u).
Definition mach_interpolation (d : MeshData) (u : Mach) : option Mach :=                 (* 60-83; None: an exception of numpy *)
  let new := repeat 0 (sizeStop d - sizeStart d) in                                      (* 69 *)
  let inner := mesh_transfer (map (at_ (m_middle u)) (mapInner d)) (vtxInner d) (wtsInner d) (addInner d) in
  let outer := mesh_transfer (map (at_ (m_middle u)) (mapOuter d)) (vtxOuter d) (wtsOuter d) (addOuter d) in
  if negb (forallb (fun i => i <? length (m_middle u))%nat (mapInner d ++ mapOuter d)) then None    (* 72, 76: IndexError *)
  else if negb (forallb (forallb (fun i => i <? length (mapInner d) + addInner d)%nat) (vtxInner d) &&
                forallb (forallb (fun i => i <? length (mapOuter d) + addOuter d)%nat) (vtxOuter d)) then None
  else if (length new <? length (m_middle u))%nat then None                                   (* 78: operands could not be broadcast *)
  else match set_at (m_middle u ++ skipn (length (m_middle u)) new) (mapInnerNew d) inner with
       | None => None
       | Some new1 => match set_at new1 (mapOuterNew d) outer with
                      | None => None
                      | Some new2 => let mid := m_middle u ++ new2 in
                                     Some (mkMach (m_fs u) (length mid) (m_bs u) (m_front u) mid (m_back u) (m_sc u))
                      end
       end.

(** ** GridTransferHeat (examples/example_spatial_coarsening.py 18-82) *)
Definition add_at (l : list R) (n : nat) (x : R) : list R := upd_at l n (at_ l n + x).   (* l[n] += x, n in range *)
Definition heat_restriction (u : Arr) : Arr :=                                            (* 33-55; loop: each entry assigned once *)
  let sol := a_vals u in
  let n := ((length sol - 1) / 2)%nat in
  mkArr n (tab n (fun i => at_ sol (2 * i) * 1 / 4 + at_ sol (2 * i + 1) * 1 / 2 + at_ sol (2 * i + 2) * 1 / 4)).
Definition heat_interpolation (u : Arr) : Arr :=                                          (* 58-82 *)
  let sol := a_vals u in
  let n := (length sol * 2 + 1)%nat in
  mkArr n (fold_left (fun ret i => add_at (add_at (add_at ret (i * 2) (1 / 2 * at_ sol i)) (i * 2 + 1) (at_ sol i)) (i * 2 + 2) (1 / 2 * at_ sol i))
                     (seq 0 (length sol)) (repeat 0 n)).

(** ** A shipped vector class, a step and copy transfers as an application for the solver model
    [tm] gives the float value of the time points, which the solver model identifies by integers. np.linalg.norm with
    t_norm = 2 is used for the residual history. *)
Definition app_of (C : VClass) (step : nat -> cV C -> R -> R -> cV C) (template init : nat -> cV C) (tm : Z -> R) : App :=
  mkApp (cV C) (cD C) R (c_add C) (c_sub C) (c_mul C) (c_norm C) (c_clone C) (c_zero C) (c_pack C) (c_unpack C)
    (fun l u a b => step l u (tm a) (tm b)) (fun _ => copy_restriction C) (fun _ => copy_interpolation C) template init
    (fun l => Some (norm2 l)) (fun x y => if Rlt_dec x y then true else false) 0
    (fun x => if Req_EM_T x 0 then true else false) (fun x => 1 - x).
