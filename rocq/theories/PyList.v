(** Python / numpy list primitives used by the model. Only definitions. *)
From Coq Require Import List ZArith Arith Bool.
Import ListNotations.

(** [l[i]] of a Python list: negative indices count from the end, [None] is IndexError. *)
Definition py_nth {A : Type} (l : list A) (i : Z) : option A :=
  if (0 <=? i)%Z then nth_error l (Z.to_nat i)
  else if (0 <=? Z.of_nat (length l) + i)%Z then nth_error l (Z.to_nat (Z.of_nat (length l) + i))
  else None.

(** List with position [n] replaced ([n] counted from 0; unchanged if out of range). *)
Fixpoint upd {A : Type} (l : list A) (n : nat) (x : A) : list A :=
  match l, n with
  | [], _ => []
  | _ :: l', 0 => x :: l'
  | y :: l', S n' => y :: upd l' n' x
  end.

(** [l[i] = x] of a Python list; [None] is IndexError. *)
Definition py_upd {A : Type} (l : list A) (i : Z) (x : A) : option (list A) :=
  if (0 <=? i)%Z then
    if (i <? Z.of_nat (length l))%Z then Some (upd l (Z.to_nat i) x) else None
  else if (0 <=? Z.of_nat (length l) + i)%Z then Some (upd l (Z.to_nat (Z.of_nat (length l) + i)) x)
  else None.

(** [np.where(f(l))[0]]: ascending positions at which [f] holds. *)
Fixpoint where_from {A : Type} (n : nat) (f : A -> bool) (l : list A) : list nat :=
  match l with
  | [] => []
  | x :: l' => if f x then n :: where_from (S n) f l' else where_from (S n) f l'
  end.
Definition np_where {A : Type} (f : A -> bool) (l : list A) : list nat := where_from 0 f l.

(** [x in l] for index arrays and for arrays of times. *)
Definition memn (x : nat) (l : list nat) : bool := existsb (Nat.eqb x) l.
Definition memz (x : Z) (l : list Z) : bool := existsb (Z.eqb x) l.

(** [np.cumsum(l)]. *)
Fixpoint cumsum_from (a : nat) (l : list nat) : list nat :=
  match l with [] => [] | x :: l' => (a + x) :: cumsum_from (a + x) l' end.
Definition cumsum (l : list nat) : list nat := cumsum_from 0 l.

(** [np.searchsorted(l, x)] (side 'left') on an ascending array: first position with [l[i] >= x]. *)
Fixpoint searchsorted (l : list Z) (x : Z) : nat :=
  match l with [] => 0 | a :: l' => if (a <? x)%Z then S (searchsorted l' x) else 0 end.

(** [np.nonzero(a[:, None] == b)[1]]: for each element of [a] the positions in [b] at which it occurs. *)
Definition positions (a b : list Z) : list nat := flat_map (fun x => np_where (Z.eqb x) b) a.

(** [itertools.groupby(enumerate(l), lambda x: x[0] - x[1])]: maximal runs of consecutive integers. *)
Fixpoint runs (l : list nat) : list (list nat) :=
  match l with
  | [] => []
  | x :: l' =>
      match runs l' with
      | (y :: ys) :: rest => if y =? S x then (x :: y :: ys) :: rest else [x] :: (y :: ys) :: rest
      | other => [x] :: other
      end
  end.

(** Minimum and maximum of an index array (0 for the empty array, which no caller uses). *)
Definition np_min (l : list nat) : nat := match l with [] => 0 | x :: l' => fold_left Nat.min l' x end.
Definition np_max (l : list nat) : nat := fold_left Nat.max l 0.

(** All results present, or None. *)
Fixpoint sequence {A : Type} (l : list (option A)) : option (list A) :=
  match l with
  | [] => Some []
  | Some x :: l' => match sequence l' with Some r => Some (x :: r) | None => None end
  | None :: _ => None
  end.

(** [range(n)] as an index list. *)
Definition py_range (n : nat) : list nat := seq 0 n.

(** [l[:n]] *)
Definition py_take {A : Type} (n : nat) (l : list A) : list A := firstn n l.
