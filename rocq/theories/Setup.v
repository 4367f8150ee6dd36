(** Point distribution and communication tables.
    Models /repo/src/pymgrit/core/mgrit.py: split_into (829-838), split_points (728-740),
    setup_points_and_comm_info (742-827). *)
From Coq Require Import List ZArith Arith Bool.
From Verif Require Import PyList.
Import ListNotations.

(** mgrit.py 829-838. [int(n / p)] is integer division here; SplitFloat.v treats the double-precision division. *)
Definition split_into (n p : nat) : list nat :=
  repeat (n / p + 1) (n mod p) ++ repeat (n / p) (p - n mod p).

(** mgrit.py 728-740: block size and first index of rank [r]. *)
Definition split_points (n p r : nat) : nat * nat :=
  let split := split_into n p in
  (nth r split 0, if 0 <? nth r split 0 then list_sum (firstn r split) else 0).

(** Per-level attributes of one process that setup_points_and_comm_info fills. *)
Record LvlInfo : Type := mkInfo {
  i_pts : list nat;       (* all_pts: global indices of the points of the process, without ghost *)
  i_t : list Z;           (* self.t[lvl], with ghost *)
  i_cpts : list nat;      (* self.cpts[lvl] *)
  i_loc : list nat;       (* self.index_local[lvl] *)
  i_loc_c : list nat;     (* self.index_local_c[lvl] *)
  i_loc_f : list nat;     (* self.index_local_f[lvl] *)
  i_comm_front : bool;
  i_comm_back : bool;
  i_first_is_c : bool;
  i_first_is_f : bool;
  i_last_is_c : bool;
  i_last_is_f : bool;
  i_send_to : Z;
  i_get_from : Z
}.

Section Setup.
  (** Time grids, one per level (problem[lvl].t). Times are only compared, so they are integers. *)
  Variable grids : list (list Z).
  (** Iteration order of the Python set [set(all_pts) - set(cpts)] (line 773), which CPython's hash table decides. *)
  Variable set_order : list nat -> list nat -> list nat.
  (** comm_time_size, comm_time_rank *)
  Variables P r : nat.

  Definition grid (lvl : nat) : list Z := nth lvl grids [].
  Definition lvl_max : nat := length grids.

  (** Lines 767-770: global indices of the C-points of a level; self.m[lvl_max-1] = 1. *)
  Definition all_cpts (lvl : nat) : list nat :=
    if lvl =? lvl_max - 1 then py_range (length (grid lvl))
    else np_where (fun t => memz t (grid (S lvl))) (grid lvl).

  (** Line 771. Only used for membership tests, so the order is irrelevant. *)
  Definition all_fpts (lvl : nat) : list nat :=
    filter (fun i => negb (memn i (all_cpts lvl))) (py_range (length (grid lvl))).

  (** Lines 756-764: the points of the process. *)
  Definition my_pts (lvl : nat) : option (list nat) :=
    let '(block, first) := split_points (length (grid 0)) P r in
    let pts0 := firstn block (skipn first (py_range (length (grid 0)))) in
    if lvl =? 0 then Some pts0
    else
      match pts0, rev pts0 with
      | a :: _, b :: _ =>
          match nth_error (grid 0) a, nth_error (grid 0) b with
          | Some int_start, Some int_stop =>
              Some (np_where (fun t => (int_start <=? t)%Z && (t <=? int_stop)%Z) (grid lvl))
          | _, _ => None
          end
      | _, _ => None                                   (* all_pts[0] of an empty block: IndexError *)
      end.

  (** Lines 783-790. Entries are Z because a ghost index may be -1. *)
  Definition with_ghost (pts : list nat) : list Z :=
    match pts with
    | a :: _ => if r =? 0 then map Z.of_nat pts else (Z.of_nat a - 1)%Z :: map Z.of_nat pts
    | [] => []
    end.

  (** Lines 816-817: last time of the block of each process. *)
  Definition split_times : option (list Z) :=
    sequence (map (fun c => py_nth (grid 0) (Z.of_nat c - 1)) (cumsum (split_into (length (grid 0)) P))).

  Definition last_pt (pts : list nat) : nat := last pts 0.
  Definition first_pt (pts : list nat) : nat := hd 0 pts.
  Definition nonempty {A : Type} (l : list A) : bool := match l with [] => false | _ => true end.

  (** Lines 742-827. [None] is an IndexError. *)
  Definition setup_level (lvl : nat) : option LvlInfo :=
    match my_pts lvl, split_times with
    | Some pts, Some split =>
        let gt := grid lvl in
        let n := length gt in
        let call := all_cpts lvl in
        let fall := all_fpts lvl in
        let cpts := filter (fun i => negb (memn i fall)) pts in                       (* 772: sorted difference *)
        let fpts := set_order pts cpts in                                             (* 773 *)
        let fpts2 := concat (rev (runs fpts)) in                                      (* 774-776 *)
        let ptsg := with_ghost pts in                                                 (* 782-790 *)
        match sequence (map (py_nth gt) ptsg) with                                    (* 792 *)
        | Some tl =>
            let send_to :=                                                            (* 818-823 *)
              match rev tl, rev gt with
              | tlast :: _, glast :: _ =>
                  if Z.eqb tlast glast then Some (-99)%Z
                  else match np_where (Z.eqb tlast) gt with
                       | k :: _ => match nth_error gt (k + 1) with
                                   | Some nxt => Some (Z.of_nat (searchsorted split nxt))
                                   | None => None
                                   end
                       | [] => None
                       end
              | _, _ => Some (-99)%Z
              end in
            let get_from :=                                                           (* 824-825 *)
              match tl with
              | t0 :: _ => if negb (r =? 0) || negb (Z.eqb t0 (hd 0%Z (grid 0)))
                           then Z.of_nat (searchsorted split t0) else (-99)%Z
              | [] => (-99)%Z
              end in
            match send_to with
            | Some st =>
                Some (mkInfo pts tl cpts
                  (positions (map Z.of_nat pts) ptsg)                                 (* 800 *)
                  (positions (map Z.of_nat cpts) ptsg)                                (* 801 *)
                  (positions (map Z.of_nat fpts2) ptsg)                               (* 802 *)
                  (nonempty fpts && (0 <? np_min fpts) && memn (np_min fpts - 1) fall)(* 796 *)
                  (nonempty fpts && memn (np_max fpts + 1) fall)                      (* 797 *)
                  (nonempty pts && memn (first_pt pts) cpts && negb (first_pt pts =? 0)
                     && memn (first_pt pts - 1) fall)                                 (* 805-806 *)
                  (nonempty pts && memn (first_pt pts) fpts2 && (0 <? first_pt pts)
                     && memn (first_pt pts - 1) call)                                 (* 807 *)
                  (nonempty pts && memn (last_pt pts) cpts && negb (last_pt pts =? n - 1)
                     && memn (last_pt pts + 1) fall)                                  (* 808-810 *)
                  (nonempty pts && memn (last_pt pts) fpts2 && negb (last_pt pts =? n - 1)
                     && memn (last_pt pts + 1) call)                                  (* 811-813 *)
                  st get_from)
            | None => None
            end
        | None => None
        end
    | _, _ => None
    end.
End Setup.
