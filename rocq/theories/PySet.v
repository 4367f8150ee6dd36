(** CPython's hash set, as far as it decides the order in which a set of small integers is traversed.
    Objects/setobject.c of CPython 3.7 - 3.12 (set_add_entry, set_insert_clean, set_table_resize, set_merge,
    set_copy_and_difference, set_difference), used by /repo/src/pymgrit/core/mgrit.py 773:
    [list(set(all_pts) - set(cpts))]. The hash of a non-negative integer below 2^61 - 1 (also of a numpy.int64) is the
    integer itself. Simplifications: membership tests and discards do not walk through the table, they look for the key
    itself; the keys of a set are distinct. *)
From Coq Require Import List ZArith Arith Bool.
From Verif Require Import PyList.
Import ListNotations.

Inductive slot : Type := Empty | Dummy | Key (k : nat).
Definition table : Type := list slot.
Definition key_of (s : slot) : list nat := match s with Key k => [k] | _ => [] end.
(** the traversal order: slot after slot *)
Definition keys (t : table) : list nat := flat_map key_of t.
Definition is_empty (s : slot) : bool := match s with Empty => true | _ => false end.
Definition is_key (s : slot) : bool := match s with Key _ => true | _ => false end.
Definition fill (t : table) : nat := length (filter (fun s => negb (is_empty s)) t).
Definition used (t : table) : nat := length (filter is_key t).

Definition free (t : table) (i : nat) : bool := (i <? length t) && is_empty (nth i t Empty).
(** LINEAR_PROBES = 9, PERTURB_SHIFT = 5 *)
Fixpoint probe (fuel : nat) (t : table) (i perturb : nat) : option nat :=
  match fuel with
  | 0 => None
  | S fuel' =>
      match find (free t) (seq i (if i + 9 <=? length t - 1 then 10 else 1)) with
      | Some j => Some j
      | None => let p := perturb / 32 in probe fuel' t ((i * 5 + 1 + p) mod length t) p
      end
  end.
(** The fuel suffices as long as the table is not full ([probe_finds] in PySetProofs.v). *)
Definition insert (t : table) (k : nat) : table :=
  match probe (k + length t + 1) t (k mod length t) k with
  | Some j => upd t j (Key k)
  | None => t
  end.
(** smallest 8 * 2^j above [minused] *)
Fixpoint newsize (fuel sz minused : nat) : nat :=
  match fuel with 0 => sz | S fuel' => if sz <=? minused then newsize fuel' (2 * sz) minused else sz end.
Definition empty_table (minused : nat) : table := repeat Empty (newsize minused 8 minused).
Definition resize (t : table) (minused : nat) : table := fold_left insert (keys t) (empty_table minused).
Definition growth (n : nat) : nat := if (50000 <? Z.of_nat n)%Z then n * 2 else n * 4.
Definition add (t : table) (k : nat) : table :=
  let t' := insert t k in
  if fill t' * 5 <? (length t' - 1) * 3 then t' else resize t' (growth (used t')).
Definition mk_set (l : list nat) : table := fold_left add l (empty_table 0).

(** set_copy: set_merge into an empty set *)
Definition copy (t : table) : table :=
  let n := used t in
  let t0 := if (8 - 1) * 3 <=? n * 5 then empty_table (n * 2) else empty_table 0 in
  if length t0 =? length t then t else fold_left insert (keys t) t0.
Definition discard (cs : list nat) (s : slot) : slot := match s with Key k => if memn k cs then Dummy else Key k | _ => s end.
Definition difference (t : table) (cs : list nat) : table :=
  if length cs <? used t / 4 then
    let c := map (discard cs) (copy t) in
    if fill c - used c <=? (length c - 1) / 4 then c else resize c (growth (used c))
  else fold_left add (filter (fun k => negb (memn k cs)) (keys t)) (empty_table 0).
(** list(set(all) - set(cs)) *)
Definition cpython_order (all cs : list nat) : list nat := keys (difference (mk_set all) cs).
