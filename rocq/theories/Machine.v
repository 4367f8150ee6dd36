(** MgritMachine and MgritMachineConvJl (src/pymgrit/induction_machine/mgrit_machine.py, mgrit_machine_conv_jl.py):
    subclasses of Mgrit for the induction machine. Line numbers refer to mgrit_machine.py (M) and mgrit_machine_conv_jl.py (J).

    Simplifications: the switch of the problems' right-hand side to a sine during nested iteration (M 30-36, 50-52;
    J 38-44, 58-60) is left out, i.e. the step is the same before and after; no theorem here depends on the step.
    The method f_exchange (M 45, J 53, 77, 83, 95) exists neither in these classes nor in Mgrit: the call is an
    AttributeError, whatever follows it. *)
From Coq Require Import List ZArith Arith Bool.
From Verif Require Import Net PyList Setup Mgrit.
Import ListNotations.

Section Machine.
  Context {A : App}.
  Variable o : Opts A.
  Variables (P r : nat) (infos : list LvlInfo).
  Notation V := (Vec A).
  Notation St := (St A).
  Notation prog := (prog (Msg A)).
  Notation inf l := (inf infos l).
  Notation L := (length (o_grids o)).

  (** M 41-43, J 49-51: all C-points, the first one of process 0 included (unlike Mgrit.nested_iteration). *)
  Definition machine_interpolate (lvl : nat) (s : St) : prog St :=
    let I := inf lvl in
    let J := inf (S lvl) in
    for_each (seq 0 (length (i_loc J))) (fun i s =>
      c <- lift (nth_error (i_loc_c I) i) ;;
      j <- lift (nth_error (i_loc J) i) ;;
      x <- lift (py_nth (s_u s (S lvl)) (Z.of_nat j)) ;;
      put_u lvl c (interp A lvl x) s) s.

  (** nested_iteration (M 22-52, J 30-60) *)
  Definition machine_nested (s : St) : prog St :=
    s <- forward_solve o P infos (L - 1) s ;;                                            (* M 38 *)
    for_each (rev (seq 0 (L - 1))) (fun lvl s =>                                         (* M 40 *)
      s <- machine_interpolate lvl s ;;                                                  (* M 41-43 *)
      Raise AttributeError) s.                                                           (* M 45 *)

  (** Mgrit.__init__ (mgrit.py 141, 206-243) with the overridden nested_iteration *)
  Definition machine_construct : prog St :=
    _ <- barrier P r ;;
    s <- (if o_nested o then machine_nested (init_state o r infos) else Ret (init_state o r infos)) ;;
    let s := if is_jump o then set_last s (map (vclone A) (s_u s 0)) else s in
    _ <- (if o_max_iter o =? 0 then barrier P r else Ret tt) ;;
    Ret (if o_has_output o && (o_output_lvl o =? 2)%Z then emit s else s).

  (** MgritMachineConvJl.iteration (J 62-96). The list self.cf_iter as argument of range (J 79) is a TypeError. *)
  Definition cj_iteration (n lvl : nat) (first_f : bool) (s : St) : prog St :=
    match n with
    | 0 => forward_solve o P infos lvl s                                                 (* J 71-73 *)
    | S _ => if first_f then s <- f_relax o P infos lvl s ;; Raise AttributeError        (* J 75-77 *)
             else Raise TypeError                                                        (* J 79 *)
    end.

  (** One pass of Mgrit.solve (mgrit.py 603-635) with that iteration; output_fcn is None meanwhile (J 131-132). *)
  Definition cj_pass (it : nat) (s : St) : prog (St + St) :=
    let s := set_iter s (it + 1) in
    s <- cj_iteration (L - 1) 0 true s ;;
    s <- convergence_criterion o P r infos (it + 1) s ;;
    cur <- lift (py_nth (s_conv s) (Z.of_nat (it + 1))) ;;
    if sc_lt A cur (o_tol o) || (it =? o_max_iter o - 1) then
      if gcc o || (s_fin s && s_pre s) || (it =? o_max_iter o - 1)
      then s <- clean_up o P r infos s ;; Ret (inr s) else Ret (inl s)
    else Ret (inl s).
  Fixpoint cj_loop (n it : nat) (s : St) : prog St :=
    match n with
    | 0 => Ret s
    | S n' => x <- cj_pass it s ;;
              match x with inl s' => cj_loop n' (S it) s' | inr s' => Ret s' end
    end.

  (** convergence_criteria (J 98-118), only called by the constructor (J 28). [jl] is the number a process computes from
      its vectors at the C-points (J 104-114; last_it is all zero then), [join] is np.max(np.abs(.)) (J 117).
      allgather is gather to process 0 and broadcast; process 0 applies [join] before the broadcast. *)
  Variable jl : list V -> Sc A.
  Variable join : list (Sc A) -> Sc A.
  Definition cj_criteria (it : nat) (s : St) : prog St :=
    vs <- lift (sequence (map (fun c => py_nth (s_u s 0) (Z.of_nat c)) (i_loc_c (inf 0)))) ;;
    tmp <- gather P r [jl vs] ;;
    x <- bcast P r (match tmp with Some ls => join (concat ls) | None => sc_zero A end) ;;
    put_conv it x s.

  (** MgritMachineConvJl.solve (J 120-147) *)
  Definition cj_solve (f_after : bool) (s : St) : prog St :=
    s <- cj_loop (o_max_iter o) 0 s ;;                                                   (* J 133 *)
    _ <- barrier P r ;;
    s <- (if f_after then f_relax o P infos 0 s else Ret s) ;;                           (* J 135-142 *)
    Ret (if o_has_output o then emit s else s).                                          (* J 144-145 *)
End Machine.

(** MgritMachine(...).solve() on process [r] *)
Definition machine_main {A : App} (o : Opts A) (P r : nat) : prog (Msg A) (St A) :=
  match check o P with
  | Some e => Raise e
  | None =>
      match setup_infos o P r with
      | None => Raise IndexError
      | Some infos =>
          s <- machine_construct o P r infos ;;
          solve o P r infos (forward_solve o P infos) s
      end
  end.

(** MgritMachineConvJl(f_after, ...).solve() on process [r] *)
Definition machine_cj_main {A : App} (o : Opts A) (jl : list (Vec A) -> Sc A) (join : list (Sc A) -> Sc A) (f_after : bool)
    (P r : nat) : prog (Msg A) (St A) :=
  match check o P with
  | Some e => Raise e
  | None =>
      match setup_infos o P r with
      | None => Raise IndexError
      | Some infos =>
          s <- machine_construct o P r infos ;;
          s <- cj_criteria P r infos jl join 0 s ;;
          cj_solve o P r infos f_after s
      end
  end.
