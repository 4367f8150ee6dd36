(** Vectors with their storage: which array a vector object refers to.

    Vectors.v treats the values of a vector as part of the object. Here an object has a reference to an array, and the three
    ways in which the shipped classes handle this reference are modelled:
    - Numpy: VectorHeat1D (/repo/src/pymgrit/heat/heat_1d.py 14-128), VectorHeat2D, VectorAdvection1D, VectorAllenCahn2D,
      VectorBrusselator: set_values and unpack rebind the attribute, clone shares the array with the original;
    - Petsc: VectorPetsc (/repo/src/pymgrit/petsc/vector_petsc.py 19-104): the constructor copies, unpack writes into the array;
    - Firedrake: VectorFiredrake (/repo/src/pymgrit/firedrake/vector_firedrake.py 17-142): as Petsc, arithmetic works in
      place on a copy.
    Arrays are abstract data with the operations the classes use. The classes with two or three arrays (VectorHeat1D2Pts,
    VectorMachine) treat each of them as in Numpy; VectorDahlquist and VectorArenstorfOrbit hold numbers, no arrays. *)
From Coq Require Import List Arith Bool.
Import ListNotations.

Inductive style : Type := Numpy | Petsc | Firedrake.

Section Storage.
  Variables D K : Type.                        (* contents of an array, scalars *)
  Variables dadd dsub : D -> D -> D.
  Variable dmul : D -> K -> D.
  Variable dzero : D -> D.                     (* zeros of the same shape *)
  Variable kzero : K.                          (* the number 0 *)

  (** What a program can do with vectors; objects are numbered in the order of their creation. *)
  Inductive instr : Type :=
  | INew (d : D)                (* an application makes a vector from an array it has computed *)
  | IAdd (a b : nat) | ISub (a b : nat) | IMul (a : nat) (c : K)
  | IClone (a : nat) | IZero (a : nat) | IRand (a : nat) (d : D)      (* d: the random numbers *)
  | ISend (a : nat)             (* pack, pickled at once *)
  | IRecv (a : nat) (d : D)     (* unpack of received data *)
  | ISet (a b : nat)            (* a.set_values(b.get_values()) *)
  | IWrite (a : nat) (f : D -> D).   (* code that works in place on a.get_values() *)

  Record state : Type := mkState { objs : list nat; arrs : nat -> D; fresh : nat }.
  Definition write (s : state) (l : nat) (d : D) : state := mkState (objs s) (fun k => if k =? l then d else arrs s k) (fresh s).
  (** a new array *)
  Definition alloc (s : state) (d : D) : nat * state :=
    (fresh s, mkState (objs s) (fun k => if k =? fresh s then d else arrs s k) (S (fresh s))).
  (** a new object that refers to array [l] *)
  Definition new_obj (s : state) (l : nat) : state := mkState (objs s ++ [l]) (arrs s) (fresh s).
  Fixpoint rebind (os : list nat) (a l : nat) : list nat :=
    match os, a with [], _ => [] | _ :: os', 0 => l :: os' | o :: os', S a' => o :: rebind os' a' l end.
  Definition set_values (s : state) (a l : nat) : state := mkState (rebind (objs s) a l) (arrs s) (fresh s).

  (** tmp = VectorHeat1D(size); tmp.set_values(d): the constructor makes an array of zeros *)
  Definition numpy_new (s : state) (d : D) : state :=
    let '(l0, s) := alloc s (dzero d) in
    let s := new_obj s l0 in
    let '(l, s) := alloc s d in
    set_values s (length (objs s) - 1) l.
  (** VectorPetsc(d), VectorFiredrake(d): copy of an array which may be a temporary one *)
  Definition copy_new (s : state) (d : D) : state := let '(l, s) := alloc s d in new_obj s l.

  Definition step (st : style) (s : state) (i : instr) : option (state * list D) :=
    let get a := nth_error (objs s) a in
    let one a (f : nat -> state * list D) := match get a with Some l => Some (f l) | None => None end in
    let two a b (f : nat -> nat -> state * list D) := match get a, get b with Some l, Some l' => Some (f l l') | _, _ => None end in
    let v := arrs s in
    match st with
    | Numpy =>
        match i with
        | INew d => Some (numpy_new s d, [])
        | IAdd a b => two a b (fun l l' => (numpy_new s (dadd (v l) (v l')), []))
        | ISub a b => two a b (fun l l' => (numpy_new s (dsub (v l) (v l')), []))
        | IMul a c => one a (fun l => (numpy_new s (dmul (v l) c), []))
        | IClone a => one a (fun l => let '(l0, s) := alloc s (dzero (v l)) in                 (* 76-77: the array is shared *)
                                      let s := new_obj s l0 in (set_values s (length (objs s) - 1) l, []))
        | IZero a => one a (fun l => (copy_new s (dzero (v l)), []))                           (* 86 *)
        | IRand a d => one a (fun _ => (numpy_new s d, []))                                    (* 94-95 *)
        | ISend a => one a (fun l => (s, [v l]))                                               (* 120 *)
        | IRecv a d => one a (fun _ => let '(l', s) := alloc s d in (set_values s a l', []))   (* 128 *)
        | ISet a b => two a b (fun _ l' => (set_values s a l', []))                            (* 104 *)
        | IWrite a f => one a (fun l => (write s l (f (v l)), []))
        end
    | Petsc | Firedrake =>
        match i with
        | INew d => Some (copy_new (snd (alloc s d)) d, [])
        | IAdd a b => two a b (fun l l' =>
            match st with
            | Firedrake => let s := copy_new s (v l) in                                        (* 86 *)
                           let lt := last (objs s) 0 in (write s lt (dadd (arrs s lt) (arrs s l')), [])   (* 87-89 *)
            | _ => (copy_new (snd (alloc s (dadd (v l) (v l')))) (dadd (v l) (v l')), []) end)  (* 40 *)
        | ISub a b => two a b (fun l l' =>
            match st with
            | Firedrake => let s := copy_new s (v l) in
                           let lt := last (objs s) 0 in (write s lt (dsub (arrs s lt) (arrs s l')), [])
            | _ => (copy_new (snd (alloc s (dsub (v l) (v l')))) (dsub (v l) (v l')), []) end)
        | IMul a c => one a (fun l =>
            match st with
            | Firedrake => let s := copy_new s (v l) in
                           let lt := last (objs s) 0 in (write s lt (dmul (arrs s lt) c), [])
            | _ => (copy_new (snd (alloc s (dmul (v l) c))) (dmul (v l) c), []) end)
        | IClone a => one a (fun l => (copy_new s (v l), []))
        | IZero a => one a (fun l =>                                                           (* values * 0 *)
            match st with
            | Firedrake => let s := copy_new s (v l) in                                        (* tmp *)
                           let lt := last (objs s) 0 in
                           let s := mkState (removelast (objs s)) (arrs s) (fresh s) in        (* tmp = tmp * 0 *)
                           let s := copy_new s (arrs s lt) in
                           let lt := last (objs s) 0 in (write s lt (dmul (arrs s lt) kzero), [])
            | _ => (copy_new (snd (alloc s (dmul (v l) kzero))) (dmul (v l) kzero), []) end)
        | IRand a d => one a (fun l =>
            match st with
            | Firedrake => let s := copy_new s (v l) in let lt := last (objs s) 0 in (write s lt d, [])
            | _ => (copy_new s (v l), []) end)                                                 (* 85-86: a copy, no random numbers *)
        | ISend a => one a (fun l => (s, [v l]))
        | IRecv a d => one a (fun l => (write s l d, []))
        | ISet a b => two a b (fun _ l' => (set_values s a l', []))
        | IWrite a f => one a (fun l => (write s l (f (v l)), []))
        end
    end.
  Fixpoint run (st : style) (p : list instr) (s : state) : option (state * list D) :=
    match p with
    | [] => Some (s, [])
    | i :: p' =>
        match step st s i with
        | None => None
        | Some (s1, out) => match run st p' s1 with None => None | Some (s2, out') => Some (s2, out ++ out') end
        end
    end.
  Definition empty (d : D) : state := mkState [] (fun _ => d) 0.
  (** the values of the vectors *)
  Definition values (s : state) : list D := map (arrs s) (objs s).
End Storage.
Arguments INew {D K}. Arguments IAdd {D K}. Arguments ISub {D K}. Arguments IMul {D K}. Arguments IClone {D K}. Arguments IZero {D K}.
Arguments IRand {D K}. Arguments ISend {D K}. Arguments IRecv {D K}. Arguments ISet {D K}. Arguments IWrite {D K}.
