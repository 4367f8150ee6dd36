(** The MGRIT solver as a rank program.
    Models /repo/src/pymgrit/core/mgrit.py (class Mgrit), one process of the time communicator. *)
From Coq Require Import List ZArith Arith Bool.
From Verif Require Import Net PyList Setup.
Import ListNotations.
Open Scope prog_scope.

(** What the user supplies: vectors (core/vector.py), applications (core/application.py), transfers
    (core/grid_transfer.py) and floating-point scalars. All operations are parameters; value semantics
    (no aliasing between vectors) is assumed. *)
Record App : Type := mkApp {
  Vec : Type;                                   (* Vector objects of all levels *)
  Data : Type;                                  (* what pack() returns *)
  Sc : Type;                                    (* floats *)
  vadd : Vec -> Vec -> Vec;                     (* __add__ *)
  vsub : Vec -> Vec -> Vec;                     (* __sub__ *)
  vscale : Vec -> Sc -> Vec;                    (* __mul__ *)
  vnorm : Vec -> Sc;                            (* norm() *)
  vclone : Vec -> Vec;                          (* clone() *)
  vzero : Vec -> Vec;                           (* clone_zero() *)
  vpack : Vec -> Data;                          (* pack() *)
  vunpack : Vec -> Data -> Vec;                 (* u.unpack(d): value of u afterwards *)
  phi : nat -> Vec -> Z -> Z -> Vec;            (* problem[lvl].step(u_start, t_start, t_stop) *)
  restr : nat -> Vec -> Vec;                    (* transfer[lvl].restriction *)
  interp : nat -> Vec -> Vec;                   (* transfer[lvl].interpolation *)
  templ : nat -> Vec;                           (* problem[lvl].vector_template *)
  tstart : nat -> Vec;                          (* problem[lvl].vector_t_start *)
  tnorm : list Sc -> option Sc;                 (* np.linalg.norm(., ord=t_norm); None is ValueError (empty, inf) *)
  sc_lt : Sc -> Sc -> bool;                     (* < on floats *)
  sc_zero : Sc;
  sc_is_zero : Sc -> bool;                      (* x == 0 *)
  one_minus : Sc -> Sc                          (* 1.0 - x *)
}.

Inductive cf_arg : Type := CfInt (z : Z) | CfList (l : list Z) | CfOther.

(** Constructor arguments (mgrit.py 33-37; at_mgrit.py 17). *)
Record Opts (A : App) : Type := mkOptsAt {
  o_grids : list (list Z);                      (* problem[lvl].t for each level *)
  o_ntransfer : nat;                            (* len(transfer) *)
  o_weight : Sc A;                              (* weight_c *)
  o_max_iter : nat;
  o_tol : Sc A;
  o_nested : bool;
  o_cf : cf_arg;
  o_cycle : option bool;                        (* Some false = 'V', Some true = 'F', None = anything else *)
  o_output_lvl : Z;
  o_has_output : bool;                          (* output_fcn is callable *)
  o_t_norm : Z;
  o_rand : option (nat -> nat -> Vec A);        (* random_init_guess: vector drawn by rank r for local index i *)
  o_conv_crit : Z;
  o_set_order : list nat -> list nat -> list nat; (* iteration order of set(all_pts) - set(cpts) *)
  o_dist : option Z                             (* None: class Mgrit; Some k: class AtMgrit(k) (at_mgrit.py 17-35) *)
}.
Arguments o_grids {A} o. Arguments o_ntransfer {A} o. Arguments o_weight {A} o. Arguments o_max_iter {A} o.
Arguments o_tol {A} o. Arguments o_nested {A} o. Arguments o_cf {A} o. Arguments o_cycle {A} o.
Arguments o_output_lvl {A} o. Arguments o_has_output {A} o. Arguments o_t_norm {A} o. Arguments o_rand {A} o.
Arguments o_conv_crit {A} o. Arguments o_set_order {A} o. Arguments o_dist {A} o.
(** Arguments of class Mgrit. *)
Definition mkOpts (A : App) grids ntransfer (weight : Sc A) max_iter (tol : Sc A) nested cf cycle output_lvl has_output t_norm
  (rand : option (nat -> nat -> Vec A)) conv_crit set_order : Opts A :=
  mkOptsAt A grids ntransfer weight max_iter tol nested cf cycle output_lvl has_output t_norm rand conv_crit set_order None.

Section Check.
  Context {A : App}.
  Variable o : Opts A.
  Variable P : nat.

  (** len(set(a) & set(b)) *)
  Definition inter_size (a b : list Z) : nat := length (filter (fun t => memz t a) (nodup Z.eq_dec b)).

  (** Input checks in program order (at_mgrit.py 31-33, then mgrit.py 74-128); the code is the position of the check. *)
  Definition check : option exn :=
    let gs := o_grids o in
    let L := length gs in
    if match o_dist o with Some _ => negb (memz (o_conv_crit o) [0; 1]%Z) | None => false end
    then Some (UserException 11)                                                                    (* at_mgrit.py 31 *)
    else if negb (L =? o_ntransfer o + 1) then Some (UserException 1)                                    (* 79 *)
    else if existsb (fun i => length (nth i gs []) <? length (nth (i + 1) gs [])) (seq 0 (L - 1))
         then Some (UserException 2)                                                                (* 82-85 *)
    else match o_cycle o with None => Some (UserException 3) | Some _ =>                            (* 87 *)
    if negb (memz (o_output_lvl o) [0; 1; 2]%Z) then Some (UserException 4)                         (* 90 *)
    else if existsb (fun l => negb (inter_size (nth (l - 1) gs []) (nth l gs []) =? length (nth l gs []))) (seq 1 (L - 1))
         then Some (UserException 5)                                                                (* 93-96 *)
    else if negb (memz (o_t_norm o) [1; 2; 3]%Z) then Some (UserException 6)                        (* 98 *)
    else if negb (memz (o_conv_crit o) [0; 1; 2; 3]%Z) then Some (UserException 7)                  (* 102 *)
    else match o_cf o with                                                                          (* 110-120 *)
         | CfOther => Some (UserException 9)
         | CfList l => if length l <? L - 1 then Some (UserException 8)
                       else if length (nth 0 gs []) <? P then Some (UserException 10) else None     (* 127 *)
         | CfInt _ => if length (nth 0 gs []) <? P then Some (UserException 10) else None
         end
    end.

  (** self.cf_iter[lvl] used as range(...): non-positive values give no pass (110-111, 277).
      Accepted lists are long enough for all lvl < lvl_max - 1. *)
  Definition cf_count (lvl : nat) : nat :=
    match o_cf o with
    | CfInt z => Z.to_nat z
    | CfList l => Z.to_nat (nth lvl l 0%Z)
    | CfOther => 0
    end.

  Definition cycF : bool := match o_cycle o with Some b => b | None => false end.
  (** self.global_conv_crit (184) *)
  Definition gcc : bool := (o_conv_crit o =? 0)%Z || (o_conv_crit o =? 1)%Z.
  (** conv_crit 1 and 3 are the jump criteria (234, 424-427, 436-439) *)
  Definition is_jump : bool := (o_conv_crit o =? 1)%Z || (o_conv_crit o =? 3)%Z.
  (** self.lvl_max *)
  Definition nlev : nat := length (o_grids o).

  (** Lines 206-222 without the vectors: [np.diff(tmp_cpts)[0]] (213) needs two C-points on every level but the
      coarsest; then setup_points_and_comm_info on each level; rank 0 assigns u[lvl][0] (857-858), which is an
      IndexError if it has no point on the level. *)
  Definition setup_info (r lvl : nat) : option LvlInfo :=
    if negb (lvl =? nlev - 1) && (length (all_cpts (o_grids o) lvl) <? 2) then None
    else match setup_level (o_grids o) (o_set_order o) P r lvl with
         | Some J => if (r =? 0) && negb (nonempty (i_pts J)) then None else Some J
         | None => None
         end.
  Definition setup_infos (r : nat) : option (list LvlInfo) :=
    sequence (map (setup_info r) (seq 0 nlev)).

  (** AtMgrit.setup_points_and_comm_info (at_mgrit.py 90-217) equals the one of Mgrit, followed on the coarsest level by
      lines 174-217: process of each coarsest point (180), number of points of each process that has one (182). *)
  Definition coarsest_owner : list nat :=
    match split_times (o_grids o) P with
    | Some split => map (searchsorted split) (nth (nlev - 1) (o_grids o) [])
    | None => []
    end.
  Definition coarsest_counts : list nat :=
    filter (fun n => 0 <? n) (map (fun q => length (filter (Nat.eqb q) coarsest_owner)) (seq 0 P)).
  (** Lines 184-186; when only the first process has too many points, [np.where(...)[0][0]] is an IndexError. *)
  Definition too_many_points : option exn :=
    match o_dist o with
    | None => None
    | Some _ =>
        if (existsb (fun n => 1 <? n) (tl coarsest_counts) || (2 <? hd 0 coarsest_counts)) && negb (P =? 1)
        then Some (if existsb (fun n => 1 <? n) (tl coarsest_counts) then UserException 12 else IndexError)
        else None
    end.
End Check.

Definition dummy_info : LvlInfo := mkInfo [] [] [] [] [] [] false false false false false false (-99)%Z (-99)%Z.

(** What travels between processes: packed vectors, without (709) or with (711-712) the finished flag; the
    convergence flag of op 6 (453); gathered norms and the broadcast value (428, 432); barrier tokens; the
    (time, g, u) triples of the coarsest level of AtMgrit (at_mgrit.py 48-54). *)
Inductive Msg (A : App) : Type :=
| MData (d : Data A)
| MDataF (d : Data A) (fin : bool)
| MBoolF (b : bool) (fin : bool)
| MList (l : list (Sc A))
| MSc (x : Sc A)
| MUnit
| MAt (l : list (Z * Data A * Data A)).
Arguments MData {A} d. Arguments MDataF {A} d fin. Arguments MBoolF {A} b fin.
Arguments MList {A} l. Arguments MSc {A} x. Arguments MUnit {A}. Arguments MAt {A} l.

(** Mutable attributes of a Mgrit object. Level-indexed Python lists are functions of the level. *)
Record St (A : App) : Type := mkSt {
  s_u : nat -> list (Vec A);                    (* self.u *)
  s_v : nat -> list (Vec A);                    (* self.v *)
  s_g : nat -> list (Vec A);                    (* self.g *)
  s_stag : nat -> nat -> Z;                     (* self.tags_send *)
  s_rtag : nat -> nat -> Z;                     (* self.tags_recv *)
  s_sfin : nat -> nat -> bool;                  (* self.sender_finished *)
  s_conv : list (Sc A);                         (* self.conv *)
  s_last : list (Vec A);                        (* self.save_values_last_iter *)
  s_iter : nat;                                 (* self.solve_iter *)
  s_fin : bool;                                 (* self.finished[0] *)
  s_fin_it : option nat;                        (* self.finished[1] *)
  s_pre : bool;                                 (* self.pre_finished[0] *)
  s_pre_it : option nat;                        (* self.pre_finished[1] *)
  s_out : list (nat * list (Vec A))             (* calls of output_fcn so far: (solve_iter, u[0]) *)
}.
Arguments mkSt {A}. Arguments s_u {A} s. Arguments s_v {A} s. Arguments s_g {A} s. Arguments s_stag {A} s.
Arguments s_rtag {A} s. Arguments s_sfin {A} s. Arguments s_conv {A} s. Arguments s_last {A} s. Arguments s_iter {A} s.
Arguments s_fin {A} s. Arguments s_fin_it {A} s. Arguments s_pre {A} s. Arguments s_pre_it {A} s. Arguments s_out {A} s.

Section StUpd.
  Context {A : App}.
  Definition at1 {B : Type} (f : nat -> B) (i : nat) (x : B) : nat -> B := fun j => if j =? i then x else f j.
  Definition at2 {B : Type} (f : nat -> nat -> B) (i j : nat) (x : B) : nat -> nat -> B :=
    fun i' j' => if (i' =? i) && (j' =? j) then x else f i' j'.
  Definition set_u (s : St A) (lvl : nat) (l : list (Vec A)) : St A :=
    mkSt (at1 (s_u s) lvl l) (s_v s) (s_g s) (s_stag s) (s_rtag s) (s_sfin s) (s_conv s) (s_last s) (s_iter s)
         (s_fin s) (s_fin_it s) (s_pre s) (s_pre_it s) (s_out s).
  Definition set_v (s : St A) (lvl : nat) (l : list (Vec A)) : St A :=
    mkSt (s_u s) (at1 (s_v s) lvl l) (s_g s) (s_stag s) (s_rtag s) (s_sfin s) (s_conv s) (s_last s) (s_iter s)
         (s_fin s) (s_fin_it s) (s_pre s) (s_pre_it s) (s_out s).
  Definition set_g (s : St A) (lvl : nat) (l : list (Vec A)) : St A :=
    mkSt (s_u s) (s_v s) (at1 (s_g s) lvl l) (s_stag s) (s_rtag s) (s_sfin s) (s_conv s) (s_last s) (s_iter s)
         (s_fin s) (s_fin_it s) (s_pre s) (s_pre_it s) (s_out s).
  Definition inc_stag (s : St A) (lvl op : nat) : St A :=
    mkSt (s_u s) (s_v s) (s_g s) (at2 (s_stag s) lvl op (s_stag s lvl op + 1)%Z) (s_rtag s) (s_sfin s) (s_conv s)
         (s_last s) (s_iter s) (s_fin s) (s_fin_it s) (s_pre s) (s_pre_it s) (s_out s).
  Definition inc_rtag (s : St A) (lvl op : nat) : St A :=
    mkSt (s_u s) (s_v s) (s_g s) (s_stag s) (at2 (s_rtag s) lvl op (s_rtag s lvl op + 1)%Z) (s_sfin s) (s_conv s)
         (s_last s) (s_iter s) (s_fin s) (s_fin_it s) (s_pre s) (s_pre_it s) (s_out s).
  Definition set_sfin (s : St A) (lvl op : nat) (b : bool) : St A :=
    mkSt (s_u s) (s_v s) (s_g s) (s_stag s) (s_rtag s) (at2 (s_sfin s) lvl op b) (s_conv s)
         (s_last s) (s_iter s) (s_fin s) (s_fin_it s) (s_pre s) (s_pre_it s) (s_out s).
  Definition set_conv (s : St A) (l : list (Sc A)) : St A :=
    mkSt (s_u s) (s_v s) (s_g s) (s_stag s) (s_rtag s) (s_sfin s) l
         (s_last s) (s_iter s) (s_fin s) (s_fin_it s) (s_pre s) (s_pre_it s) (s_out s).
  Definition set_last (s : St A) (l : list (Vec A)) : St A :=
    mkSt (s_u s) (s_v s) (s_g s) (s_stag s) (s_rtag s) (s_sfin s) (s_conv s)
         l (s_iter s) (s_fin s) (s_fin_it s) (s_pre s) (s_pre_it s) (s_out s).
  Definition set_iter (s : St A) (n : nat) : St A :=
    mkSt (s_u s) (s_v s) (s_g s) (s_stag s) (s_rtag s) (s_sfin s) (s_conv s)
         (s_last s) n (s_fin s) (s_fin_it s) (s_pre s) (s_pre_it s) (s_out s).
  Definition set_fin (s : St A) (b : bool) (i : option nat) : St A :=
    mkSt (s_u s) (s_v s) (s_g s) (s_stag s) (s_rtag s) (s_sfin s) (s_conv s)
         (s_last s) (s_iter s) b i (s_pre s) (s_pre_it s) (s_out s).
  Definition set_pre (s : St A) (b : bool) (i : option nat) : St A :=
    mkSt (s_u s) (s_v s) (s_g s) (s_stag s) (s_rtag s) (s_sfin s) (s_conv s)
         (s_last s) (s_iter s) (s_fin s) (s_fin_it s) b i (s_out s).
  (** self.output_fcn(self) *)
  Definition emit (s : St A) : St A :=
    mkSt (s_u s) (s_v s) (s_g s) (s_stag s) (s_rtag s) (s_sfin s) (s_conv s)
         (s_last s) (s_iter s) (s_fin s) (s_fin_it s) (s_pre s) (s_pre_it s) (s_out s ++ [(s_iter s, s_u s 0)]).
End StUpd.

(** Tags of the collectives (a separate context in MPI; point-to-point tags start at 50000, line 192). *)
Definition TAG_GATHER : mtag := Tag (-1) 0 100.
Definition TAG_BCAST : mtag := Tag (-2) 0 101.
Definition TAG_BARRIER : mtag := Tag (-3) 0 102.
Definition TAG_BLACK : mtag := Tag (-4) 0 103.
Definition TAG_GREEN : mtag := Tag (-5) 0 104.

Section Rank.
  Context {A : App}.
  Variable o : Opts A.
  Variables P r : nat.                          (* comm_time_size, comm_time_rank *)
  Variable infos : list LvlInfo.                (* tables of this process, one per level *)
  Notation prog := (prog (Msg A)).
  Notation V := (Vec A).
  Notation St := (St A).

  Definition inf (lvl : nat) : LvlInfo := nth lvl infos dummy_info.
  Definition L : nat := nlev o.

  Definition lift {B : Type} (x : option B) : prog B :=
    match x with Some b => Ret b | None => Raise IndexError end.
  Fixpoint for_each {B : Type} (l : list B) (f : B -> St -> prog St) (s : St) : prog St :=
    match l with [] => Ret s | x :: l' => s' <- f x s ;; for_each l' f s' end.
  Fixpoint times (n : nat) (f : St -> prog St) (s : St) : prog St :=
    match n with 0 => Ret s | S n' => s' <- f s ;; times n' f s' end.

  (** send (704-713) for a packed vector. An invalid destination rank is an MPI error. *)
  Definition send (data : Data A) (dest : Z) (lvl op : nat) (s : St) : prog St :=
    if (dest <? 0)%Z || (Z.of_nat P <=? dest)%Z then Raise MpiError
    else Send (Z.to_nat dest) (Tag (s_stag s lvl op) lvl op)
              (if gcc o then MData data else MDataF data (s_fin s)) (Ret (inc_stag s lvl op)).

  (** send (704-713) of the convergence flag (only called for local criteria, 453). *)
  Definition send_flag (b : bool) (dest : Z) (lvl op : nat) (s : St) : prog St :=
    if (dest <? 0)%Z || (Z.of_nat P <=? dest)%Z then Raise MpiError
    else Send (Z.to_nat dest) (Tag (s_stag s lvl op) lvl op) (MBoolF b (s_fin s)) (Ret (inc_stag s lvl op)).

  (** receive (693-702) of a packed vector. *)
  Definition receive (source : Z) (lvl op : nat) (s : St) : prog (Data A * St) :=
    if (source <? 0)%Z || (Z.of_nat P <=? source)%Z then Raise MpiError
    else Recv (Z.to_nat source) (Tag (s_rtag s lvl op) lvl op) (fun m =>
      match m with
      | MData d => if gcc o then Ret (d, inc_rtag s lvl op) else Raise TypeError
      | MDataF d b => if gcc o then Raise TypeError else Ret (d, set_sfin (inc_rtag s lvl op) lvl op b)
      | _ => Raise TypeError
      end).

  (** receive (693-702) of the convergence flag (443). *)
  Definition receive_flag (source : Z) (lvl op : nat) (s : St) : prog (bool * St) :=
    if (source <? 0)%Z || (Z.of_nat P <=? source)%Z then Raise MpiError
    else Recv (Z.to_nat source) (Tag (s_rtag s lvl op) lvl op) (fun m =>
      match m with
      | MBoolF b f => Ret (b, set_sfin (inc_rtag s lvl op) lvl op f)
      | _ => Raise TypeError
      end).

  (** self.u[lvl][0].unpack(data) *)
  Definition unpack_ghost (lvl : nat) (d : Data A) (s : St) : prog St :=
    match s_u s lvl with
    | x :: xs => Ret (set_u s lvl (vunpack A x d :: xs))
    | [] => Raise IndexError
    end.
  (** self.u[lvl][0].unpack(self.receive(source, lvl_tag, op)) *)
  Definition recv_ghost (lvl : nat) (source : Z) (lvl_tag op : nat) (s : St) : prog St :=
    ds <- receive source lvl_tag op s ;; unpack_ghost lvl (fst ds) (snd ds).

  (** self.u[lvl][i].pack() sent to dest; i = -1 is the last point *)
  Definition send_point (lvl : nat) (i : Z) (dest : Z) (lvl_tag op : nat) (s : St) : prog St :=
    x <- lift (py_nth (s_u s lvl) i) ;; send (vpack A x) dest lvl_tag op s.

  Definition put_u (lvl : nat) (i : nat) (x : V) (s : St) : prog St :=
    l <- lift (py_upd (s_u s lvl) (Z.of_nat i) x) ;; Ret (set_u s lvl l).

  (** [step(u[i-1], t[i-1], t[i])], plus [g[i]] on lvl > 0 (320-327, 359-368, 474-481). *)
  Definition propagate (lvl : nat) (s : St) (i : nat) : option V :=
    match py_nth (s_u s lvl) (Z.of_nat i - 1), py_nth (i_t (inf lvl)) (Z.of_nat i - 1),
          py_nth (i_t (inf lvl)) (Z.of_nat i) with
    | Some x, Some a, Some b =>
        if lvl =? 0 then Some (phi A lvl x a b)
        else match py_nth (s_g s lvl) (Z.of_nat i) with
             | Some gi => Some (vadd A gi (phi A lvl x a b))
             | None => None
             end
    | _, _, _ => None
    end.

  (** f_relax (292-333) *)
  Definition f_relax (lvl : nat) (s : St) : prog St :=
    let I := inf lvl in
    s <- (if i_last_is_c I then send_point lvl (-1) (i_send_to I) lvl 0 s else Ret s) ;;
    s <- (if i_first_is_f I && negb (s_sfin s lvl 0) then recv_ghost lvl (i_get_from I) lvl 0 s else Ret s) ;;
    for_each (i_loc_f I) (fun i s =>
      s <- (if i_comm_front I && (i =? np_min (i_loc_f I)) && negb (s_sfin s lvl 1)
            then recv_ghost lvl (i_get_from I) lvl 1 s else Ret s) ;;
      x <- lift (propagate lvl s i) ;;
      s <- put_u lvl i x s ;;
      if i_comm_back I && (i =? np_max (i_loc_f I))
      then send_point lvl (Z.of_nat i) (i_send_to I) lvl 1 s else Ret s) s.

  (** c_relax (335-370) *)
  Definition c_relax (lvl : nat) (s : St) : prog St :=
    let I := inf lvl in
    s <- (if i_last_is_f I then send_point lvl (-1) (i_send_to I) lvl 2 s else Ret s) ;;
    s <- (if i_first_is_c I && negb (s_sfin s lvl 2) then recv_ghost lvl (i_get_from I) lvl 2 s else Ret s) ;;
    for_each (i_loc_c I) (fun i s =>
      if negb (i =? 0) || negb (r =? 0) then
        y <- lift (propagate lvl s i) ;;
        old <- lift (py_nth (s_u s lvl) (Z.of_nat i)) ;;
        put_u lvl i (vadd A (vscale A y (o_weight o)) (vscale A old (one_minus A (o_weight o)))) s
      else Ret s) s.

  (** compute_jump (372-385) *)
  Definition compute_jump (s : St) : prog (list (Sc A) * St) :=
    let I := inf 0 in
    val <- lift (sequence (map (fun i =>
                 match py_nth (s_u s 0) (Z.of_nat i), py_nth (s_last s) (Z.of_nat i) with
                 | Some x, Some y => Some (vnorm A (vsub A x y))
                 | _, _ => None
                 end)
               (filter (fun i => negb (r =? 0) || negb (i =? 0)) (i_loc_c I)))) ;;
    Ret (val, set_last s (map (vclone A) (s_u s 0))).

  (** compute_residual (387-413) *)
  Definition compute_residual (s : St) : prog (list (Sc A) * St) :=
    let I := inf 0 in
    s <- (if i_last_is_f I then send_point 0 (-1) (i_send_to I) 0 7 s else Ret s) ;;
    s <- (if i_first_is_c I && negb (s_sfin s 0 7) then recv_ghost 0 (i_get_from I) 0 7 s else Ret s) ;;
    val <- lift (sequence (map (fun i =>
                 match propagate 0 s i, py_nth (s_u s 0) (Z.of_nat i) with
                 | Some y, Some x => Some (vnorm A (vsub A y x))
                 | _, _ => None
                 end)
               (filter (fun i => negb (r =? 0) || negb (i =? 0)) (i_loc_c I)))) ;;
    Ret (val, s).

  (** MPI.COMM_WORLD.gather(val, root=0) (428), COMM_WORLD being the time communicator: the root receives from the
      other ranks in rank order. *)
  Fixpoint gather_from (srcs : list nat) (k : list (list (Sc A)) -> prog (list (list (Sc A)))) : prog (list (list (Sc A))) :=
    match srcs with
    | [] => k []
    | q :: srcs' => Recv q TAG_GATHER (fun m =>
        match m with
        | MList l => gather_from srcs' (fun ls => k (l :: ls))
        | _ => Raise TypeError
        end)
    end.
  Definition gather (val : list (Sc A)) : prog (option (list (list (Sc A)))) :=
    if r =? 0 then ls <- gather_from (seq 1 (P - 1)) (fun ls => Ret ls) ;; Ret (Some (val :: ls))
    else Send 0 TAG_GATHER (MList val) (Ret None).

  Fixpoint send_all (dsts : list nat) (tag : mtag) (m : Msg A) : prog unit :=
    match dsts with [] => Ret tt | d :: dsts' => Send d tag m (send_all dsts' tag m) end.

  (** MPI.COMM_WORLD.bcast(x, root=0) (432) *)
  Definition bcast (x : Sc A) : prog (Sc A) :=
    if r =? 0 then _ <- send_all (seq 1 (P - 1)) TAG_BCAST (MSc x) ;; Ret x
    else Recv 0 TAG_BCAST (fun m => match m with MSc y => Ret y | _ => Raise TypeError end).

  (** comm_time.barrier() (141, 239, 637): everybody reports to rank 0, which then releases everybody. *)
  Fixpoint recv_units (srcs : list nat) (tag : mtag) : prog unit :=
    match srcs with
    | [] => Ret tt
    | q :: srcs' => Recv q tag (fun m => match m with MUnit => recv_units srcs' tag | _ => Raise TypeError end)
    end.
  Definition barrier : prog unit :=
    if r =? 0 then _ <- recv_units (seq 1 (P - 1)) TAG_BARRIER ;; send_all (seq 1 (P - 1)) TAG_BARRIER MUnit
    else Send 0 TAG_BARRIER MUnit (recv_units [0] TAG_BARRIER).

  Definition put_conv (iteration : nat) (x : Sc A) (s : St) : prog St :=
    l <- lift (py_upd (s_conv s) (Z.of_nat iteration) x) ;; Ret (set_conv s l).

  (** convergence_criterion (415-457) *)
  Definition convergence_criterion (iteration : nat) (s : St) : prog St :=
    vs <- (if is_jump o then compute_jump s else compute_residual s) ;;
    let val := fst vs in
    let s := snd vs in
    if gcc o then
      tmp <- gather val ;;                                                              (* 428 *)
      s <- match tmp with                                                               (* 429-431 *)
           | Some ls => match tnorm A (concat ls) with
                        | Some x => put_conv iteration x s
                        | None => Raise ValueError
                        end
           | None => Ret s
           end ;;
      cur <- lift (py_nth (s_conv s) (Z.of_nat iteration)) ;;
      x <- bcast cur ;;                                                                 (* 432 *)
      put_conv iteration x s
    else
      s <- (if (0 <? r) && negb (s_sfin s 0 6) then                                     (* 442-445 *)
              bs <- receive_flag (Z.of_nat r - 1) 0 6 s ;;
              Ret (set_pre (snd bs) (fst bs) (if fst bs then Some iteration else s_pre_it (snd bs)))
            else Ret s) ;;
      let fin := s_pre s && (forallb (fun x => sc_lt A x (o_tol o)) val || (iteration =? o_max_iter o)) in
      let s := set_fin s fin (Some iteration) in                                        (* 447-449 *)
      s <- (if r <? P - 1 then send_flag fin (Z.of_nat r + 1) 0 6 s else Ret s) ;;      (* 452-453 *)
      match tnorm A val with                                                            (* 455 *)
      | Some x => put_conv iteration x s
      | None => Raise ValueError
      end.

  (** forward_solve (459-486) *)
  Definition forward_solve (lvl : nat) (s : St) : prog St :=
    let I := inf lvl in
    s <- (if negb (Z.eqb (i_get_from I) (-99)) && negb (s_sfin s lvl 5)
          then recv_ghost lvl (i_get_from I) lvl 5 s else Ret s) ;;
    s <- for_each (seq 1 (length (s_u s lvl) - 1)) (fun i s =>
           x <- lift (propagate lvl s i) ;; put_u lvl i x s) s ;;
    if negb (Z.eqb (i_send_to I) (-99)) then
      i <- lift (py_nth (i_loc I) (-1)) ;; send_point lvl (Z.of_nat i) (i_send_to I) lvl 5 s
    else Ret s.

  (** ** AtMgrit.forward_solve (at_mgrit.py 37-88) *)

  (** Lines 82-85: [tmp_u = g[i] + step(tmp_u, t[i-1], t[i])] for the indices [is]; the times are global_t. *)
  Fixpoint at_propagate (lvl : nat) (s : St) (is : list nat) (x : V) : prog V :=
    match is with
    | [] => Ret x
    | i :: is' =>
        gi <- lift (py_nth (s_g s lvl) (Z.of_nat i)) ;;
        a <- lift (py_nth (nth lvl (o_grids o) []) (Z.of_nat i - 1)) ;;
        b <- lift (py_nth (nth lvl (o_grids o) []) (Z.of_nat i)) ;;
        at_propagate lvl s is' (vadd A gi (phi A lvl x a b))
    end.
  (** Lines 79-86: one process. *)
  Definition at_solve_serial (k : Z) (lvl : nat) (s : St) : prog St :=
    let arr := map (vclone A) (s_u s lvl) in                                            (* 79 *)
    for_each (seq 0 (length (nth lvl (o_grids o) []))) (fun point s =>                  (* 80 *)
      x <- lift (py_nth arr (Z.max 0 (Z.of_nat point - k + 1))) ;;                      (* 81 *)
      let first := Z.to_nat (Z.max 1 (Z.of_nat point - k + 2)) in
      x <- at_propagate lvl s (seq first (point + 1 - first)) x ;;                      (* 82-85 *)
      put_u lvl point x s) s.                                                           (* 86 *)

  (** Lines 188-200, 212-217: members of comm_black and comm_green of rank [q], in rank order; [] is UNDEFINED.
      Distances k <= 0 are not modelled here (see [at_solve_parallel]). *)
  Definition at_index (q : nat) : option nat :=
    let all := coarsest_owner o P in
    let own := if hd 0 (coarsest_counts o P) =? 2 then tl all else all in               (* 188-191 *)
    hd_error (np_where (Z.eqb (Z.of_nat q)) (map Z.of_nat own)).                        (* 194-195 *)
  Definition at_black (k q : nat) : option nat := match at_index q with Some i => Some (i / k) | None => None end.
  Definition at_green (k q : nat) : option nat :=
    match at_index q with Some i => Some (if i mod k =? k - 1 then i / k + 1 else i / k) | None => None end.
  Definition members (color : nat -> option nat) : list nat :=
    filter (fun q => match color r, color q with Some a, Some b => a =? b | _, _ => false end) (seq 0 P).
  (** Lines 201-210 *)
  Definition local_coarse_grid (k : nat) : list Z :=
    let cp := i_cpts (inf (L - 1)) in
    let first := hd 0 cp + 1 - k in
    let last := if (r =? 0) && negb (hd 0 (coarsest_counts o P) =? 1) then nth 1 cp 0 else hd 0 cp in
    firstn (last + 1 - first) (skipn first (nth (L - 1) (o_grids o) [])).

  Fixpoint recv_at (srcs : list nat) (tag : mtag) : prog (list (Z * Data A * Data A)) :=
    match srcs with
    | [] => Ret []
    | q :: srcs' => Recv q tag (fun m => match m with MAt l => ls <- recv_at srcs' tag ;; Ret (l ++ ls) | _ => Raise TypeError end)
    end.
  (** comm_black.allgather: the first member collects and distributes. *)
  Definition allgather_black (grp : list nat) (x : Z * Data A * Data A) : prog (list (Z * Data A * Data A)) :=
    match grp with
    | [] => Raise AttributeError
    | root :: others =>
        if r =? root then
          ls <- recv_at others TAG_BLACK ;;
          _ <- send_all others TAG_BLACK (MAt (x :: ls)) ;; Ret (x :: ls)
        else Send root TAG_BLACK (MAt [x]) (recv_at [root] TAG_BLACK)
    end.
  (** comm_green.bcast(data_black, root=0) *)
  Definition bcast_green (grp : list nat) (l : list (Z * Data A * Data A)) : prog (list (Z * Data A * Data A)) :=
    match grp with
    | [] => Raise AttributeError
    | root :: others =>
        if r =? root then _ <- send_all others TAG_GREEN (MAt l) ;; Ret l else recv_at [root] TAG_GREEN
    end.

  (** Lines 47-76: several processes. Reading self.g_coarsest is an AttributeError: create_coarsest_level (219-227), the
      only place that assigns it, is never called. Distances k <= 0 are not modelled (an arbitrary error). *)
  Definition at_solve_parallel (k : Z) (lvl : nat) (s : St) : prog St :=
    match i_cpts (inf lvl) with
    | [] => Ret s                                                                       (* 47 *)
    | _ =>
        if (k <=? 0)%Z then Raise MpiError else
        let k := Z.to_nat k in
        t <- lift (py_nth (nth lvl (o_grids o) []) (Z.of_nat (last (i_cpts (inf lvl)) 0))) ;;
        gl <- lift (py_nth (s_g s lvl) (-1)) ;;
        ul <- lift (py_nth (s_u s lvl) (-1)) ;;
        black <- allgather_black (members (at_black k)) (t, vpack A gl, vpack A ul) ;;  (* 48-52 *)
        green <- bcast_green (members (at_green k)) black ;;                            (* 54 *)
        if existsb (fun d => memz (fst (fst d)) (local_coarse_grid k)) (black ++ green) then Raise AttributeError  (* 64 *)
        else if 1 <? length (local_coarse_grid k) then Raise AttributeError             (* 67 *)
        else let j := if (r =? 0) && negb (hd 0 (coarsest_counts o P) =? 1) then 1 else 0 in
             c <- lift (nth_error (i_loc_c (inf lvl)) j) ;;
             put_u lvl c (vclone A (tstart A lvl)) s                                    (* 70-76 *)
    end.

  (** self.forward_solve(lvl) (mgrit.py 459-486 or at_mgrit.py 37-88) *)
  Definition coarse_solve (lvl : nat) (s : St) : prog St :=
    match o_dist o with
    | None => forward_solve lvl s
    | Some k => if L =? 1 then Ret s                                                    (* at_mgrit.py 45 *)
                else if P =? 1 then at_solve_serial k lvl s else at_solve_parallel k lvl s
    end.

  (** The FAS right-hand side of one coarse point (524-547): c local index on lvl, j local index on lvl+1. *)
  Definition fas_rhs (lvl : nat) (s : St) (c j : nat) : option V :=
    match py_nth (s_u s lvl) (Z.of_nat c - 1), py_nth (i_t (inf lvl)) (Z.of_nat c - 1),
          py_nth (i_t (inf lvl)) (Z.of_nat c), py_nth (s_u s lvl) (Z.of_nat c),
          py_nth (s_v s (S lvl)) (Z.of_nat j), py_nth (s_v s (S lvl)) (Z.of_nat j - 1) with
    | Some up, Some ta, Some tb, Some uc, Some vj, Some vp =>
        match py_nth (i_t (inf (S lvl))) (Z.of_nat j - 1), py_nth (i_t (inf (S lvl))) (Z.of_nat j) with
        | Some sa, Some sb =>
            let back res := vsub A (vadd A (restr A lvl res) vj) (phi A (S lvl) vp sa sb) in
            if lvl =? 0 then Some (back (vsub A (phi A lvl up ta tb) uc))
            else match py_nth (s_g s lvl) (Z.of_nat c) with
                 | Some gc => Some (back (vadd A (vsub A gc uc) (phi A lvl up ta tb)))
                 | None => None
                 end
        | _, _ => None
        end
    | _, _, _, _, _, _ => None
    end.

  (** fas_residual (488-549) *)
  Definition fas_residual (lvl : nat) (s : St) : prog St :=
    let I := inf lvl in
    let J := inf (S lvl) in
    s <- for_each (seq 0 (length (i_loc_c I))) (fun i s =>                              (* 498-500 *)
           c <- lift (nth_error (i_loc_c I) i) ;;
           x <- lift (py_nth (s_u s lvl) (Z.of_nat c)) ;;
           put_u (S lvl) (if r =? 0 then i else i + 1) (restr A lvl x) s) s ;;
    s <- (if i_last_is_f I then send_point lvl (-1) (i_send_to I) lvl 3 s else Ret s) ;;
    s <- (if i_first_is_c I && negb (s_sfin s lvl 3) then recv_ghost lvl (i_get_from I) lvl 3 s else Ret s) ;;
    s <- (if (0 <=? i_send_to J)%Z then                                                 (* 511-513 *)
            k <- lift (py_nth (i_loc J) (-1)) ;; send_point (S lvl) (Z.of_nat k) (i_send_to J) lvl 4 s
          else Ret s) ;;
    s <- (if (0 <=? i_get_from J)%Z && negb (s_sfin s lvl 4)                            (* 516-517 *)
          then recv_ghost (S lvl) (i_get_from J) lvl 4 s else Ret s) ;;
    let s := set_v s (S lvl) (map (vclone A) (s_u s (S lvl))) in                        (* 520 *)
    for_each (seq 0 (length (i_loc_c I))) (fun i s =>                                   (* 524-547 *)
      if negb (i =? 0) || negb (r =? 0) then
        c <- lift (nth_error (i_loc_c I) i) ;;
        j <- lift (nth_error (i_loc J) i) ;;
        x <- lift (fas_rhs lvl s c j) ;;
        l <- lift (py_upd (s_g s (S lvl)) (Z.of_nat j) x) ;;
        Ret (set_g s (S lvl) l)
      else Ret s) s.

  (** error_correction (715-726); note that index_local[lvl] (not lvl+1) is used to address level lvl+1. *)
  Definition error_correction (lvl : nat) (s : St) : prog St :=
    let I := inf lvl in
    for_each (seq 0 (length (i_loc_c I))) (fun i s =>
      if negb (i =? 0) || negb (r =? 0) then
        c <- lift (nth_error (i_loc_c I) i) ;;
        k <- lift (nth_error (i_loc I) i) ;;
        x <- lift (py_nth (s_u s (S lvl)) (Z.of_nat k)) ;;
        y <- lift (py_nth (s_v s (S lvl)) (Z.of_nat k)) ;;
        uc <- lift (py_nth (s_u s lvl) (Z.of_nat c)) ;;
        put_u lvl c (vadd A uc (interp A lvl (vsub A x y))) s
      else Ret s) s.

  Section Cycle.
    (** forward_solve is overridden by AtMgrit. *)
    Variable fsolve : nat -> St -> prog St.

    (** iteration (261-290). [n] is the number of levels below [lvl]; at the bottom the coarsest solve (270-272).
        The trailing call iteration(lvl, 'V', first_f=False) of an F-cycle (289-290) is unfolded once: with 'V' it does
        not call itself again. *)
    Fixpoint iteration (n lvl : nat) (cyc : bool) (it : nat) (first_f : bool) (s : St) : prog St :=
      match n with
      | 0 => fsolve lvl s
      | S n' =>
          let half cyc first_f s :=
            s <- (if ((0 <? lvl) || (it =? 0)) && first_f then f_relax lvl s else Ret s) ;;       (* 274-275 *)
            s <- times (cf_count o lvl) (fun s => s <- c_relax lvl s ;; f_relax lvl s) s ;;       (* 277-279 *)
            s <- fas_residual lvl s ;;                                                            (* 281 *)
            s <- iteration n' (S lvl) cyc it true s ;;                                            (* 283 *)
            s <- error_correction lvl s ;;                                                        (* 285 *)
            f_relax lvl s in                                                                      (* 287 *)
          s <- half cyc first_f s ;;
          if negb (lvl =? 0) && cyc then half false false s else Ret s                            (* 289-290 *)
      end.

    (** Lines 560-563: interpolate level lvl+1 to the C-points of level lvl. *)
    Definition interpolate_up (lvl : nat) (s : St) : prog St :=
      let I := inf lvl in
      let J := inf (S lvl) in
      for_each (seq 0 (length (i_loc J))) (fun i s =>
        if negb (i =? 0) || negb (r =? 0) then
          c <- lift (nth_error (i_loc_c I) i) ;;
          j <- lift (nth_error (i_loc J) i) ;;
          x <- lift (py_nth (s_u s (S lvl)) (Z.of_nat j)) ;;
          put_u lvl c (interp A lvl x) s
        else Ret s) s.

    (** nested_iteration (551-566) *)
    Definition nested_iteration (s : St) : prog St :=
      s <- fsolve (L - 1) s ;;
      for_each (rev (seq 0 (L - 1))) (fun lvl s =>
        s <- interpolate_up lvl s ;;
        if 0 <? lvl then iteration (L - 1 - lvl) lvl false 0 true s else Ret s) s.

    (** clean_up (648-691) *)
    Definition clean_up (s : St) : prog St :=
      WaitAll (
      if gcc o then Ret s else
      s <- for_each (seq 0 (L - 1)) (fun lvl s =>                                        (* 651-662 *)
             let I := inf lvl in
             s <- (if i_last_is_c I then send_point lvl (-1) (i_send_to I) lvl 0 s else Ret s) ;;
             s <- (if i_comm_back I then send_point lvl (-1) (i_send_to I) lvl 1 s else Ret s) ;;
             s <- (if i_last_is_f I then send_point lvl (-1) (i_send_to I) lvl 2 s else Ret s) ;;
             s <- (if i_last_is_f I then send_point lvl (-1) (i_send_to I) lvl 3 s else Ret s) ;;
             if (0 <=? i_send_to (inf (S lvl)))%Z then
               c <- lift (py_nth (i_loc_c I) (-1)) ;;
               send_point lvl (Z.of_nat c) (i_send_to (inf (S lvl))) lvl 4 s
             else Ret s) s ;;
      s <- (if negb (Z.eqb (i_send_to (inf (L - 1))) (-99)) then                         (* 663-665 *)
              k <- lift (py_nth (i_loc (inf (L - 1))) (-1)) ;;
              send_point (L - 1) (Z.of_nat k) (i_send_to (inf (L - 1))) (L - 1) 5 s
            else Ret s) ;;
      s <- (if i_last_is_f (inf 0) then send_point 0 (-1) (Z.of_nat r + 1) 0 7 s else Ret s) ;;   (* 669-670 *)
      s <- (if match s_fin_it s, s_pre_it s with                                         (* 672 *)
               | Some a, Some b => a =? b | None, None => true | _, _ => false end
            then
              s <- for_each (seq 0 (L - 1)) (fun lvl s =>                                (* 673-684 *)
                     let I := inf lvl in
                     s <- (if i_first_is_f I && negb (s_sfin s lvl 0) then recv_ghost lvl (i_get_from I) lvl 0 s else Ret s) ;;
                     s <- (if i_comm_front I && negb (s_sfin s lvl 1) then recv_ghost lvl (i_get_from I) lvl 1 s else Ret s) ;;
                     s <- (if i_first_is_c I && negb (s_sfin s lvl 2) then recv_ghost lvl (i_get_from I) lvl 2 s else Ret s) ;;
                     s <- (if i_first_is_c I && negb (s_sfin s lvl 3) then recv_ghost lvl (i_get_from I) lvl 3 s else Ret s) ;;
                     if (0 <=? i_get_from (inf (S lvl)))%Z && negb (s_sfin s lvl 4)
                     then ds <- receive (i_get_from (inf (S lvl))) lvl 4 s ;; Ret (snd ds) else Ret s) s ;;
              s <- (if negb (Z.eqb (i_get_from (inf (L - 1))) (-99)) && negb (s_sfin s (L - 1) 5)
                    then recv_ghost (L - 1) (i_get_from (inf (L - 1))) (L - 1) 5 s else Ret s) ;;
              (if i_first_is_c (inf 0) && negb (s_sfin s 0 7) then recv_ghost 0 (i_get_from (inf 0)) 0 7 s else Ret s)
            else Ret s) ;;
      WaitAll (Ret s)).                                                                  (* 691 *)

    (** One pass of the for loop of solve (603-635): [inl] continue, [inr] break. *)
    Definition solve_pass (it : nat) (s : St) : prog (St + St) :=
      let s := set_iter s (it + 1) in                                                    (* 604 *)
      s <- iteration (L - 1) 0 (cycF o) it true s ;;                                     (* 606 *)
      s <- convergence_criterion (it + 1) s ;;                                           (* 608 *)
      let s := if o_has_output o && (o_output_lvl o =? 2)%Z then emit s else s in        (* 625-626 *)
      cur <- lift (py_nth (s_conv s) (Z.of_nat (it + 1))) ;;
      if sc_lt A cur (o_tol o) || (it =? o_max_iter o - 1) then                          (* 628-635 *)
        if gcc o || (s_fin s && s_pre s) || (it =? o_max_iter o - 1)
        then s <- clean_up s ;; Ret (inr s) else Ret (inl s)
      else Ret (inl s).

    (** for iteration in range(self.iter_max), starting at [it] with [n] passes left *)
    Fixpoint solve_loop (n it : nat) (s : St) : prog St :=
      match n with
      | 0 => Ret s
      | S n' => x <- solve_pass it s ;;
                match x with inl s' => solve_loop n' (S it) s' | inr s' => Ret s' end
      end.

    (** solve (590-646); the returned dictionary is [result_conv] of the final state. *)
    Definition solve (s : St) : prog St :=
      s <- solve_loop (o_max_iter o) 0 s ;;
      _ <- barrier ;;                                                                    (* 637 *)
      Ret (if o_has_output o && (o_output_lvl o =? 1)%Z then emit s else s).             (* 641-642 *)
  End Cycle.

  (** create_u_v_g (840-858), all levels at once; levels are independent. *)
  Definition init_u (lvl : nat) : list V :=
    let n := length (i_t (inf lvl)) in
    let l := match lvl, o_rand o with
             | 0, Some rnd => map (rnd r) (seq 0 n)
             | _, _ => repeat (vzero A (templ A lvl)) n
             end in
    if r =? 0 then upd l 0 (vclone A (tstart A lvl)) else l.
  Definition init_vg (lvl : nat) : list V := repeat (vzero A (vzero A (templ A lvl))) (length (i_t (inf lvl))).

  (** Lines 122-196 and 224-228: the fresh object. *)
  Definition init_state : St :=
    mkSt init_u init_vg init_vg
         (fun _ op => (50000 * (Z.of_nat op + 1))%Z) (fun _ op => (50000 * (Z.of_nat op + 1))%Z)
         (fun _ _ => false)
         (repeat (sc_zero A) (o_max_iter o + 1)) [] 0 false None (r =? 0) (if r =? 0 then Some 0 else None) [].

  (** __init__ after the checks and the set-up of the tables (141, 206-243). *)
  Definition construct (fsolve : nat -> St -> prog St) : prog St :=
    _ <- barrier ;;                                                                      (* 141 *)
    s <- (if o_nested o then nested_iteration fsolve init_state else Ret init_state) ;;  (* 231-232 *)
    let s := if is_jump o then set_last s (map (vclone A) (s_u s 0)) else s in           (* 234-235 *)
    _ <- (if o_max_iter o =? 0 then barrier else Ret tt) ;;                              (* 238-239 *)
    Ret (if o_has_output o && (o_output_lvl o =? 2)%Z then emit s else s).               (* 242-243 *)
End Rank.

(** self.conv[np.where(self.conv != 0)] (645) *)
Definition result_conv {A : App} (s : St A) : list (Sc A) := filter (fun x => negb (sc_is_zero A x)) (s_conv s).

(** Program of rank [r]: Mgrit(...) and then solve(). A failing table set-up raises before any communication
    except the barrier of line 141, which is omitted in that case. *)
Definition mgrit_main {A : App} (o : Opts A) (P r : nat) : prog (Msg A) (St A) :=
  match check o P with
  | Some e => Raise e
  | None =>
      match setup_infos o P r with
      | None => Raise IndexError
      | Some infos =>
          match too_many_points o P with
          | Some e => Raise e
          | None =>
              s <- construct o P r infos (coarse_solve o P r infos) ;;
              solve o P r infos (coarse_solve o P r infos) s
          end
      end
  end.
