(** MGRIT with a user-defined stopping criterion: class MgritCustomized (examples/example_convergence_criterion.py, below
    "E"), which overrides convergence_criterion. Only definitions. *)
From Coq Require Import Reals List Arith ZArith Bool.
From Verif Require Import Net PyList Setup Mgrit.
Import ListNotations.

(** What the criterion does with the values, as parameters: get_values() of a vector (a row of [new], E 51), a row of zeros
    of that length (E 43), the number a process with C-points computes from old and new rows (E 54-55), the number of a process
    without C-points (E 46) and the number computed from those of all processes (E 60). *)
Record UserCrit (A : App) : Type := mkCrit {
  uRow : Type;
  u_row : Vec A -> uRow;
  u_zero : Vec A -> uRow;
  u_local : list uRow -> list uRow -> Sc A;
  u_none : Sc A;
  u_global : list (Sc A) -> Sc A
}.
Arguments mkCrit {A}. Arguments uRow {A} u. Arguments u_row {A} u. Arguments u_zero {A} u. Arguments u_local {A} u.
Arguments u_none {A} u. Arguments u_global {A} u.

Section Custom.
  Context {A : App}.
  Variable cr : UserCrit A.
  Variable o : Opts A.
  Variable P r : nat.
  Variable infos : list LvlInfo.
  Notation prog := (prog (Msg A)).
  Notation L := (length (o_grids o)).
  Notation solver := (coarse_solve o P r infos).
  (** the object: the attributes of Mgrit and last_it *)
  Notation State := (St A * list (uRow cr))%type.

  (** comm_time.allgather(x) (E 58): everybody sends to process 0, which sends the list to everybody. *)
  Definition allgather (x : Sc A) : prog (list (Sc A)) :=
    ls <- gather P r [x] ;;
    match ls with
    | Some ls => _ <- send_all (seq 1 (P - 1)) TAG_BCAST (MList (concat ls)) ;; Ret (concat ls)
    | None => Recv 0 TAG_BCAST (fun m => match m with MList l => Ret l | _ => Raise TypeError end)
    end.

  (** convergence_criterion (E 32-61) *)
  Definition custom_criterion (iteration : nat) (x : State) : prog State :=
    let s := fst x in
    let points := i_loc_c (inf infos 0) in
    last <- (if negb (length (snd x) =? length points)                                                  (* E 42 *)
             then v <- lift (py_nth (s_u s 0) 0) ;; Ret (repeat (u_zero cr v) (length points))          (* E 43 *)
             else Ret (snd x)) ;;
    new <- lift (sequence (map (fun i => option_map (u_row cr) (py_nth (s_u s 0) (Z.of_nat i))) points)) ;;  (* E 50-52 *)
    let tmp := match points with [] => u_none cr | _ => u_local cr last new end in                      (* E 46-55 *)
    ls <- allgather tmp ;;                                                                              (* E 58 *)
    s <- put_conv iteration (u_global cr ls) s ;;                                                       (* E 60 *)
    Ret (s, new).                                                                                       (* E 61 *)

  (** One pass of Mgrit.solve (mgrit.py 603-635, as [solve_pass]) with the overridden criterion. *)
  Definition custom_pass (it : nat) (x : State) : prog (State + State) :=
    s <- iteration o P r infos solver (L - 1) 0 (cycF o) it true (set_iter (fst x) (it + 1)) ;;
    x <- custom_criterion (it + 1) (s, snd x) ;;
    let s := if o_has_output o && (o_output_lvl o =? 2)%Z then emit (fst x) else fst x in
    cur <- lift (py_nth (s_conv s) (Z.of_nat (it + 1))) ;;
    if sc_lt A cur (o_tol o) || (it =? o_max_iter o - 1) then
      if gcc o || (s_fin s && s_pre s) || (it =? o_max_iter o - 1)
      then s <- clean_up o P r infos s ;; Ret (inr (s, snd x)) else Ret (inl (s, snd x))
    else Ret (inl (s, snd x)).
  Fixpoint custom_loop (n it : nat) (x : State) : prog State :=
    match n with
    | 0 => Ret x
    | S n' => y <- custom_pass it x ;;
              match y with inl x' => custom_loop n' (S it) x' | inr x' => Ret x' end
    end.
  (** Mgrit.solve (mgrit.py 590-646) *)
  Definition custom_solve (x : State) : prog State :=
    x <- custom_loop (o_max_iter o) 0 x ;;
    _ <- barrier P r ;;
    Ret (if o_has_output o && (o_output_lvl o =? 1)%Z then emit (fst x) else fst x, snd x).
  (** MgritCustomized.__init__ (E 21-30) *)
  Definition custom_construct : prog State :=
    s <- construct o P r infos solver ;; custom_criterion 0 (s, []).
End Custom.

(** MgritCustomized(...).solve() on process [r] *)
Definition custom_main {A : App} (cr : UserCrit A) (o : Opts A) (P r : nat) : prog (Msg A) (St A * list (uRow cr)) :=
  match check o P with
  | Some e => Raise e
  | None =>
      match setup_infos o P r with
      | None => Raise IndexError
      | Some infos =>
          match too_many_points o P with
          | Some e => Raise e
          | None => x <- custom_construct cr o P r infos ;; custom_solve cr o P r infos x
          end
      end
  end.

(** The criterion of the example for vectors whose get_values() is a list of numbers: 100 times the largest
    |(new - old) / new| over all entries with new /= 0 (E 54-55); all numbers are real. np.max of an array without entries is not
    modelled (ValueError): a vector has at least one entry. *)
Local Open Scope R_scope.
Definition rel_change (old new : R) : R := if Req_EM_T new 0 then 0 else Rabs (Rabs ((new - old) / new)).
Definition max_list (l : list R) : R := fold_right Rmax 0 l.
Definition row_change (old new : list R) : R := max_list (map (fun x => rel_change (fst x) (snd x)) (combine old new)).
Definition rows_change (old new : list (list R)) : R :=
  100 * max_list (map (fun x => row_change (fst x) (snd x)) (combine old new)).
(** np.max(np.abs(tmp)) (E 60) *)
Definition max_abs (l : list R) : R := max_list (map Rabs l).
