(** The messages of a run: log_info (mgrit.py 247-259), the coarsening factors and the warning about them (mgrit.py 206-219), the lines of the iterations
    (mgrit.py 610-623) and the overview at the end (mgrit.py 568-588, at_mgrit.py 229-249).
    Not modelled: the text around the values, [str] of the values, run times. *)
From Coq Require Import List ZArith Arith Bool.
From Verif Require Import PyList Setup Mgrit.
Import ListNotations.

(** 247-259: what the process with the given ranks hands to the logger; [space]: rank in the space communicator, if there is one *)
Definition log_info {M : Type} (size rank : nat) (space : option nat) (msg : M) : list M :=
  if rank =? size - 1
  then match space with
       | Some s => if s =? 0 then [msg] else []
       | None => [msg]
       end
  else [].

(** np.diff of an increasing array of indices *)
Definition np_diff (l : list nat) : list nat := map (fun p => snd p - fst p) (combine l (tl l)).
(** np.isclose(a, b) with the default tolerances: |a - b| <= 1e-8 + 1e-5 |b| *)
Definition isclose (a b : nat) : bool := (Z.abs (Z.of_nat a - Z.of_nat b) * 100000000 <=? 1 + 1000 * Z.of_nat b)%Z.
(** 212-217: the coarsening factor of a level but the coarsest, and whether process 0 warns; [None]: IndexError of [np.diff(tmp_cpts)[0]] *)
Definition coarsening (grids : list (list Z)) (lvl : nat) : option (nat * bool) :=
  let diffs := np_diff (all_cpts grids lvl) in
  match diffs with
  | [] => None
  | m :: _ => Some (m, negb (forallb (fun d => isclose d m) diffs))
  end.
(** self.m[:-1] *)
Fixpoint factors (grids : list (list Z)) (levels : list nat) : option (list nat) :=
  match levels with
  | [] => Some []
  | l :: ls => match coarsening grids l, factors grids ls with Some (m, _), Some ms => Some (m :: ms) | _, _ => None end
  end.

(** np.max(t[1:] - t[:-1]); [None]: ValueError of the maximum of nothing *)
Definition max_dt (t : list Z) : option Z :=
  match map (fun p => (snd p - fst p)%Z) (combine t (tl t)) with [] => None | d :: ds => Some (fold_left Z.max ds d) end.

(** 110-112, 581; AtMgrit prints the whole list (at_mgrit.py 242) *)
Definition cf_shown {A : App} (o : Opts A) : list Z :=
  let L := length (o_grids o) in
  let l := match o_cf o with CfInt z => repeat z L | CfList l => l | CfOther => [] end in
  match o_dist o with None => firstn (L - 1) l | Some _ => l end.

Record RunInfo (A : App) : Type := mkRI {
  ri_start : Z; ri_stop : Z;           (* time interval *)
  ri_points : nat;                     (* number of time points *)
  ri_max_dt : Z;
  ri_levels : nat;
  ri_factors : list nat;
  ri_weight : Sc A;
  ri_cf : list Z;
  ri_nested : bool;
  ri_cycle : option bool;
  ri_tol : Sc A;
  ri_time_size : nat; ri_space_size : nat;
  ri_last : option Z                   (* convergence criterion (Mgrit, 587) or distance (AtMgrit, 248) *)
}.
Definition run_information {A : App} (o : Opts A) (P sizes : nat) : option (RunInfo A) :=
  let t := nth 0 (o_grids o) [] in
  match max_dt t, factors (o_grids o) (seq 0 (length (o_grids o) - 1)) with
  | Some d, Some ms =>
      Some (mkRI A (nth 0 t 0%Z) (last t 0%Z) (length t) d (length (o_grids o)) ms (o_weight o) (cf_shown o) (o_nested o) (o_cycle o) (o_tol o) P sizes
        (match o_dist o with None => Some (o_conv_crit o) | Some k => Some k end))
  | _, _ => None
  end.

(** 610-623: number of the iteration, value of the criterion and convergence factor ("-" in the first iteration).  An entry of [conv] is not changed
    after its iteration, so the final list may be used. *)
Definition iter_line {S : Type} (div : S -> S -> S) (zero : S) (conv : list S) (iteration : nat) : nat * S * option S :=
  (iteration + 1, nth (iteration + 1) conv zero,
   if iteration =? 0 then None else Some (div (nth (iteration + 1) conv zero) (nth iteration conv zero))).
