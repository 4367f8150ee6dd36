(** The example applications shipped with pymgrit, in exact real arithmetic. Only definitions.
    User functions (init_cond, rhs, boundary functions) are parameters; scipy/numpy calls are those of LinAlg.v. *)
From Coq Require Import Reals List Arith ZArith Bool.
From Verif Require Import LinAlg Vectors.
Import ListNotations.
Local Open Scope R_scope.

(** ** Dahlquist.step (dahlquist/dahlquist.py 88-111); division by zero (an exception or inf in Python) is excluded by the theorems *)
Inductive dmethod : Type := BE | FE | TR | MR.
Definition dahlquist_step (lambda : R) (m : dmethod) (u t_start t_stop : R) : R :=
  let z := (t_stop - t_start) * lambda in                                               (* 101 *)
  match m with
  | BE => 1 / (1 - z) * u                                                               (* 103 *)
  | FE => (1 + z) * u                                                                   (* 105 *)
  | TR => (1 + z / 2) / (1 - z / 2) * u                                                 (* 107 *)
  | MR => let k1 := - 1 / (1 - z / 2) * u in u + (t_stop - t_start) * k1                (* 109-110 *)
  end.

(** ** Brusselator.step (brusselator/brusselator.py 68-81, 105-132); the pair (x, y) *)
Definition brus (y : R * R) : R * R :=
  (1 + (fst y) ^ 2 * snd y - (3 + 1) * fst y, 3 * fst y - (fst y) ^ 2 * snd y).
Definition axpy (u : R * R) (c : R) (k : R * R) : R * R := (fst u + c * fst k, snd u + c * snd k).
Definition brusselator_step (u : R * R) (t_start t_stop : R) : R * R :=
  let dt := t_stop - t_start in
  let k1 := brus u in
  let k2 := brus (axpy u (dt / 2) k1) in
  let k3 := brus (axpy u (dt / 2) k2) in
  let k4 := brus (axpy u dt k3) in
  (fst u + dt / 6 * (fst k1 + 2 * fst k2 + 2 * fst k3 + fst k4), snd u + dt / 6 * (snd k1 + 2 * snd k2 + 2 * snd k3 + snd k4)).

Definition ones (n : nat) : list R := repeat 1 n.

(** ** Heat1D (heat/heat_1d.py 131-217); Heat1DBDF1 and Heat1DBDF2 have the same grid and matrix *)
(** 154-157: interior points and spacing; x[1] needs nx >= 4 *)
Definition heat_x (x_start x_end : R) (nx : nat) : list R := firstn (nx - 2) (skipn 1 (linspace x_start x_end nx)).
Definition heat_dx (x : list R) : R := at_ x 1 - at_ x 0.
Definition heat_matrix (a dx : R) (n : nat) : option matrix :=                          (* compute_matrix, 177-196 *)
  let fac := a / dx ^ 2 in
  let diagonal := vtimes (vtimes (ones n) 2) fac in
  let lower := vtimes (ones (n - 1)) (- fac) in
  let upper := vtimes (ones (n - 1)) (- fac) in
  diags n [(0%Z, diagonal); ((-1)%Z, lower); (1%Z, upper)].
(** [x] grid, [L] = self.space_disc, [rhs] as called by the code on the whole grid *)
Definition heat1d_step (n : nat) (L : matrix) (x : list R) (rhs : list R -> R -> list R) (u : Arr) (t_start t_stop : R) : Arr :=  (* 198-217 *)
  let tmp := a_vals u in
  let tmp := spsolve n (madd (mscal (t_stop - t_start) L) mident) (vplus tmp (vtimes (rhs x t_stop) (t_stop - t_start))) in
  arr_set (arr_zeros (length tmp)) tmp.

(** ** Heat1DBDF1 (heat/heat_1d_2pts_bdf1.py) *)
Definition bdf1_init (n : nat) (L : matrix) (x : list R) (rhs : list R -> R -> list R) (init : list R) (dtau t0 : R) : Pair :=    (* 62-67 *)
  let tmp2 := spsolve n (madd (mscal dtau L) mident) (vplus init (vtimes (rhs x (t0 + dtau)) dtau)) in
  pair_set (pair_zeros n dtau) init tmp2 dtau.
Definition bdf1_step (n : nat) (L : matrix) (x : list R) (rhs : list R -> R -> list R) (u : Pair) (t_start t_stop : R) : Pair :=  (* 90-117 *)
  let second := p_second u in let dtau := p_dtau u in
  let tmp1 := spsolve n (madd (mscal (t_stop - t_start - dtau) L) mident) (vplus second (vtimes (rhs x t_stop) (t_stop - t_start - dtau))) in
  let tmp2 := spsolve n (madd (mscal dtau L) mident) (vplus tmp1 (vtimes (rhs x (t_stop + dtau)) dtau)) in
  pair_set (pair_zeros (p_size u) (p_dtau u)) tmp1 tmp2 dtau.

(** ** Heat1DBDF2 (heat/heat_1d_2pts_bdf2.py) *)
Definition bdf2_init (n : nat) (L : matrix) (x : list R) (rhs : list R -> R -> list R) (init : list R) (dtau t0 : R) : Pair :=    (* 64-69 *)
  let tmp2 := spsolve n (madd (mscal (dtau / 2) L) mident)
    (vplus (mulmv n (madd mident (mscal (- (dtau / 2)) L)) init) (vtimes (vplus (rhs x t0) (rhs x (t0 + dtau))) (dtau / 2))) in
  pair_set (pair_zeros n dtau) init tmp2 dtau.
(** the three coefficients (117-119, 128-130) for the step sizes tau_i and tau_{i-1} *)
Definition bdf2_coeffs (tau_i tau_im1 : R) : R * R * R :=
  let r_i := tau_i / tau_im1 in
  (r_i ^ 2 / (tau_i * (1 + r_i)), (1 + r_i) / tau_i, (1 + 2 * r_i) / (tau_i * (1 + r_i))).
(** one of the two updates (114-122, 125-133) *)
Definition bdf2_update (n : nat) (L : matrix) (x : list R) (rhs : list R -> R -> list R) (tau_i tau_im1 t : R) (um2 um1 : list R) : list R :=
  let '(cm2, cm1, c) := bdf2_coeffs tau_i tau_im1 in
  spsolve n (madd L (mscal c mident)) (vplus (vminus (rhs x t) (vtimes um2 cm2)) (vtimes um1 cm1)).
Definition bdf2_step (n : nat) (L : matrix) (x : list R) (rhs : list R -> R -> list R) (u : Pair) (t_start t_stop : R) : Pair :=  (* 92-138 *)
  let first := p_first u in let second := p_second u in let dtau := p_dtau u in
  let tau := t_stop - t_start - dtau in
  let tmp1 := bdf2_update n L x rhs tau dtau t_stop first second in
  let tmp2 := bdf2_update n L x rhs dtau tau (t_stop + dtau) second tmp1 in
  pair_set (pair_zeros (p_size u) (p_dtau u)) tmp1 tmp2 dtau.

(** ** Heat2D (heat/heat_2d.py 139-366)
    Entry (i, j) of a 2-D array is entry i*ny+j of its list. rhs and the boundary functions act element by element:
    [bcl i], [bcr i] are the values of bc_left(self.x)[i], bc_right(self.x)[i], [bcb j], [bct j] those of
    bc_bottom(self.y)[j], bc_top(self.y)[j]; [f i j t] is rhs(x_i, y_j, t). *)
(** l[s] = 0 for a slice s of a 1-D array: [:a], [-a:] (a >= 1), [s::st] *)
Definition zero_where (P : nat -> bool) (l : list R) : list R := tab (length l) (fun k => if P k then 0 else at_ l k).
Definition sl_to (a : nat) (k : nat) : bool := (k <? a)%nat.
Definition sl_last (a len : nat) (k : nat) : bool := (len - a <=? k)%nat.
Definition sl_step (s st : nat) (k : nat) : bool := (s <=? k)%nat && ((k - s) mod st =? 0)%nat.
Definition heat2d_matrix (a dx dy : R) (nx ny : nat) : option matrix :=                 (* compute_matrix, 250-287 *)
  let fx := a / dx ^ 2 in
  let fy := a / dy ^ 2 in
  let n := (nx * ny)%nat in
  let main := vtimes (ones n) (2 * (fx + fy)) in
  let main := zero_where (sl_to ny) (zero_where (sl_last ny n) main) in
  let main := zero_where (sl_step ny ny) (zero_where (sl_step (2 * ny - 1) ny) main) in
  let upper := vtimes (ones (n - 1)) (- fy) in
  let upper := zero_where (sl_to ny) (zero_where (sl_last ny (n - 1)) upper) in
  let upper := zero_where (sl_step ny ny) (zero_where (sl_step (2 * ny - 1) ny) upper) in
  let lower := vtimes (ones (n - 1)) (- fy) in
  let lower := zero_where (sl_to (ny - 1)) (zero_where (sl_last ny (n - 1)) lower) in
  let lower := zero_where (sl_step (ny - 1) ny) (zero_where (sl_step (2 * ny - 2) ny) lower) in
  let upper2 := vtimes (ones (n - ny)) (- fx) in
  let upper2 := zero_where (sl_to ny) upper2 in
  let upper2 := zero_where (sl_step ny ny) (zero_where (sl_step (2 * ny - 1) ny) upper2) in
  let lower2 := vtimes (ones (n - ny)) (- fx) in
  let lower2 := zero_where (sl_last ny (n - ny)) lower2 in
  let lower2 := zero_where (sl_step 0 ny) (zero_where (sl_step (ny - 1) ny) lower2) in
  diags n [(0%Z, main); ((-1)%Z, lower); (1%Z, upper); ((- Z.of_nat ny)%Z, lower2); (Z.of_nat ny, upper2)].
Section Heat2D.
  Variables nx ny : nat.
  Variable L : matrix.
  Variables bcl bcr bcb bct : nat -> R.
  Variable f : nat -> nat -> R -> R.
  Definition set_where (P : nat -> nat -> bool) (v : nat -> nat -> R) (l : list R) : list R :=
    tab (nx * ny) (fun k => let i := (k / ny)%nat in let j := (k mod ny)%nat in if P i j then v i j else at_ l k).
  Definition set_bcs (l : list R) : list R :=                                            (* 244-247, 316-319, 347-350 *)
    let l := set_where (fun _ j => (j =? 0)%nat) (fun i _ => bcl i) l in
    let l := set_where (fun _ j => (j =? ny - 1)%nat) (fun i _ => bcr i) l in
    let l := set_where (fun i _ => (i =? nx - 1)%nat) (fun _ j => bcb j) l in
    set_where (fun i _ => (i =? 0)%nat) (fun _ j => bct j) l.
  Definition interior (i j : nat) : bool := ((1 <=? i) && (i <? nx - 1) && (1 <=? j) && (j <? ny - 1))%nat.   (* [1:-1, 1:-1] *)
  (** l[1:-1, 1:-1] += v *)
  Definition add_interior (v : nat -> nat -> R) (l : list R) : list R :=
    tab (nx * ny) (fun k => let i := (k / ny)%nat in let j := (k mod ny)%nat in if interior i j then at_ l k + v i j else at_ l k).
  Definition heat2d_rhs (theta : R) (u : list R) (t_start t_stop : R) : list R :=        (* compute_rhs, 289-320 *)
    let n := (nx * ny)%nat in
    let b := repeat 0 n in
    let b := if Req_EM_T theta 1
             then set_where interior (fun i j => at_ u (i * ny + j) + (t_stop - t_start) * f i j t_stop) b
             else let tmp := mulmv n (madd mident (mscal (- (theta * (t_stop - t_start))) L)) u in
                  let b := vplus b tmp in
                  add_interior (fun i j => theta * (t_stop - t_start) * f i j t_stop + (1 - theta) * (t_stop - t_start) * f i j t_start) b in
    set_bcs b.
  Definition heat2d_step (theta : R) (u : Arr2) (t_start t_stop : R) : Arr2 :=           (* step, 322-366 *)
    let n := (nx * ny)%nat in
    let new :=
      if Req_EM_T theta 0
      then let new := set_bcs (repeat 0 n) in
           let tmp := mulmv n (madd mident (mscal (- (t_stop - t_start)) L)) (b_vals u) in
           let new := vplus new tmp in
           add_interior (fun i j => (t_stop - t_start) * f i j t_start) new
      else spsolve n (madd (mscal ((t_stop - t_start) * theta) L) mident) (heat2d_rhs theta (b_vals u) t_start t_stop) in
    arr2_set (arr2_zeros nx ny) new.
  Definition heat2d_start (init : nat -> nat -> R) : Arr2 :=                              (* 242-248 *)
    arr2_set (arr2_zeros nx ny) (set_bcs (tab (nx * ny) (fun k => init (k / ny) (k mod ny))%nat)).
End Heat2D.

(** ** Advection1D (advection/advection_1d.py 68-143) *)
Definition advection_x (x_start x_end : R) (nx : nat) : list R := firstn (nx - 1) (linspace x_start x_end nx).   (* 84-86 *)
Definition set_entry (A : matrix) (r c : nat) (v : R) : matrix := fun i j => if ((i =? r) && (j =? c))%nat then v else A i j.
Definition advection_matrix (c dx : R) (n : nat) : option matrix :=                      (* compute_matrix, 101-120 *)
  let fac := c / dx in
  match diags n [(0%Z, vtimes (ones n) fac); ((-1)%Z, vtimes (ones n) (- fac))] with
  | Some m => Some (set_entry m 0 (n - 1) (- fac))
  | None => None
  end.
Definition advection_step (n : nat) (L : matrix) (u : Arr) (t_start t_stop : R) : Arr := (* step, 129-143 *)
  let tmp := spsolve n (madd (mscal (t_stop - t_start) L) mident) (a_vals u) in
  arr_set (arr_zeros (length tmp)) tmp.

(** ** AllenCahn (allen_cahn/allen_cahn.py 135-260) *)
(** compute_matrix, 172-189: stencil [1, -2, 1]; the five diagonals have offsets nx-1, 0, 1, -1, 1-nx *)
Definition kron (m : nat) (A B : matrix) : matrix := fun r c => A (r / m)%nat (c / m)%nat * B (r mod m)%nat (c mod m)%nat.
Definition allen_cahn_matrix (nx : nat) : option matrix :=
  let dx := 1 / INR nx in
  match diags nx [((Z.of_nat nx - 1)%Z, [1]); (0%Z, [-2]); (1%Z, [1]); ((Z.of_nat nx - 1 - Z.of_nat nx)%Z, [1]); ((1 - Z.of_nat nx)%Z, [1])] with
  | Some d => Some (mscal (1 / dx ^ 2) (madd (kron nx d mident) (kron nx mident d)))
  | None => None
  end.
Section AllenCahn.
  Variable n : nat.                                  (* nx * ny *)
  Variable L : matrix.
  Variable nu : nat.
  Variables eps newton_tol : R.
  Variable newton_maxiter : Z.
  Definition pow_vec (u : list R) (k : nat) : list R := map (fun x => x ^ k) u.
  (** 1/eps^2 * u * (1 - u ** nu) *)
  Definition reaction (u : list R) : list R := map (fun x => 1 / eps ^ 2 * x * (1 - x ^ nu)) u.
  (** 221: the residual *)
  Definition newton_g (fac : R) (rhs new : list R) : list R :=
    vminus (vminus new (vtimes (vplus (mulmv n L new) (reaction new)) fac)) rhs.
  Definition norm_inf (u : list R) : R := fold_right (fun x m => Rmax (Rabs x) m) 0 u.
  (** 224-225: the Jacobian *)
  Definition newton_dg (fac : R) (new : list R) : matrix :=
    fun i j => mident i j - fac * (L i j + 1 / eps ^ 2 * (if (j =? i)%nat then 1 - INR (nu + 1) * at_ new i ^ nu else 0)).
  (** the loop 219-227: the value of [new] when the loop is left and the number n of iterations made; None if the loop
      has not been left after [fuel] evaluations of its guard *)
  Fixpoint newton_loop (fuel : nat) (fac : R) (rhs new : list R) (it : nat) : option (list R * nat) :=
    match fuel with
    | O => None
    | S fuel' =>
        if negb (0 <? newton_maxiter)%Z then Some (new, it)                              (* 220: while 0 < self.newton_maxiter *)
        else let g := newton_g fac rhs new in
             if Rlt_dec (norm_inf g) newton_tol then Some (new, it)                       (* 222-223 *)
             else newton_loop fuel' fac rhs (vminus new (spsolve n (newton_dg fac new) g)) (S it)   (* 226-227 *)
    end.
  (** 206-218: factor and right-hand side of the implicit ([cn] = false) and the Crank-Nicolson method *)
  Definition newton_fac (cn : bool) (t_start t_stop : R) : R := if cn then (t_stop - t_start) / 2 else t_stop - t_start.
  Definition newton_rhs (cn : bool) (old : list R) (t_start t_stop : R) : list R :=
    if cn then vplus old (vtimes (vplus (mulmv n L old) (reaction old)) ((t_stop - t_start) / 2)) else old.
  Definition allen_cahn_impl (fuel : nat) (cn : bool) (u : list R) (t_start t_stop : R) : option (list R * nat) :=
    newton_loop fuel (newton_fac cn t_start t_stop) (newton_rhs cn u t_start t_stop) u 0.
  (** 201-205 *)
  Definition allen_cahn_imex (u : list R) (t_start t_stop : R) : list R :=
    spsolve n (madd mident (mscal (- (t_stop - t_start)) L)) (vplus u (vtimes (reaction u) (t_stop - t_start))).
End AllenCahn.
