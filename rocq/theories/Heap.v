(** The solver with Vector objects instead of vector values: every list entry is a reference into a heap, operations create
    objects, [unpack] changes an object in place. Same functions as in Mgrit.v, same lines of
    /repo/src/pymgrit/core/mgrit.py and at_mgrit.py. *)
From Coq Require Import List ZArith Arith Bool.
From Verif Require Import Net PyList Setup Mgrit.
Import ListNotations.
Open Scope prog_scope.

(** How the user's functions treat their argument, per level: [true] is a function that writes its result into the argument
    and returns the argument, [false] one that returns a new object. Python's operators, clone and clone_zero of the
    Vector classes always create an object. *)
Record Alias : Type := mkAlias {
  al_step : nat -> bool;                        (* problem[lvl].step *)
  al_restr : nat -> bool;                       (* transfer[lvl].restriction *)
  al_interp : nat -> bool                       (* transfer[lvl].interpolation *)
}.

(** References in place of vectors. *)
Definition RA (A : App) : App :=
  mkApp nat unit (Sc A) (fun a _ => a) (fun a _ => a) (fun a _ => a) (fun _ => sc_zero A) (fun a => a) (fun a => a) (fun _ => tt) (fun a _ => a)
    (fun _ a _ _ => a) (fun _ a => a) (fun _ a => a) (fun _ => 0) (fun _ => 0) (tnorm A) (sc_lt A) (sc_zero A) (sc_is_zero A) (one_minus A).

(** Objects, the attributes of the Mgrit object (its [s_out] is unused) and what output_fcn has seen. *)
Record HSt (A : App) : Type := mkH { h_heap : list (Vec A); h_st : St (RA A); h_out : list (nat * list (Vec A)) }.
Arguments mkH {A}. Arguments h_heap {A} h. Arguments h_st {A} h. Arguments h_out {A} h.

Section HeapRank.
  Context {A : App}.
  Variable al : Alias.
  Variable o : Opts A.
  Variables P r : nat.
  Variable infos : list LvlInfo.
  Notation prog := (prog (Msg A)).
  Notation V := (Vec A).
  Notation H := (HSt A).
  Notation inf := (inf infos).
  Notation L := (L o).

  Definition st_map (f : St (RA A) -> St (RA A)) (s : H) : H := mkH (h_heap s) (f (h_st s)) (h_out s).
  Definition u_ (s : H) : nat -> list nat := s_u (h_st s).
  Definition v_ (s : H) : nat -> list nat := s_v (h_st s).
  Definition g_ (s : H) : nat -> list nat := s_g (h_st s).
  Definition last_ (s : H) : list nat := s_last (h_st s).
  Definition deref (s : H) (a : nat) : option V := nth_error (h_heap s) a.
  Definition alloc (x : V) (s : H) : nat * H := (length (h_heap s), mkH (h_heap s ++ [x]) (h_st s) (h_out s)).
  Definition store (a : nat) (x : V) (s : H) : H := mkH (upd (h_heap s) a x) (h_st s) (h_out s).
  (** an operation on one object, in place or not; on two objects *)
  Definition op1 (inplace : bool) (f : V -> V) (a : nat) (s : H) : option (nat * H) :=
    match deref s a with
    | Some x => Some (if inplace then (a, store a (f x) s) else alloc (f x) s)
    | None => None
    end.
  Definition op2 (f : V -> V -> V) (a b : nat) (s : H) : option (nat * H) :=
    match deref s a, deref s b with Some x, Some y => Some (alloc (f x y) s) | _, _ => None end.
  (** [item.clone() for item in l] *)
  Fixpoint clones (l : list nat) (s : H) : option (list nat * H) :=
    match l with
    | [] => Some ([], s)
    | a :: l' => match op1 false (vclone A) a s with
                 | Some (b, s1) => match clones l' s1 with Some (bs, s2) => Some (b :: bs, s2) | None => None end
                 | None => None
                 end
    end.

  Fixpoint hfor {B : Type} (l : list B) (f : B -> H -> prog H) (s : H) : prog H :=
    match l with [] => Ret s | x :: l' => s' <- f x s ;; hfor l' f s' end.
  Fixpoint htimes (n : nat) (f : H -> prog H) (s : H) : prog H :=
    match n with 0 => Ret s | S n' => s' <- f s ;; htimes n' f s' end.
  Definition lift2 {B : Type} (x : option (B * H)) : prog (B * H) := lift x.

  (** send, receive (693-713) *)
  Definition h_send (data : Data A) (dest : Z) (lvl op : nat) (s : H) : prog H :=
    if (dest <? 0)%Z || (Z.of_nat P <=? dest)%Z then Raise MpiError
    else Send (Z.to_nat dest) (Tag (s_stag (h_st s) lvl op) lvl op)
              (if gcc o then MData data else MDataF data (s_fin (h_st s))) (Ret (st_map (fun t => inc_stag t lvl op) s)).
  Definition h_send_flag (b : bool) (dest : Z) (lvl op : nat) (s : H) : prog H :=
    if (dest <? 0)%Z || (Z.of_nat P <=? dest)%Z then Raise MpiError
    else Send (Z.to_nat dest) (Tag (s_stag (h_st s) lvl op) lvl op) (MBoolF b (s_fin (h_st s))) (Ret (st_map (fun t => inc_stag t lvl op) s)).
  Definition h_receive (source : Z) (lvl op : nat) (s : H) : prog (Data A * H) :=
    if (source <? 0)%Z || (Z.of_nat P <=? source)%Z then Raise MpiError
    else Recv (Z.to_nat source) (Tag (s_rtag (h_st s) lvl op) lvl op) (fun m =>
      match m with
      | MData d => if gcc o then Ret (d, st_map (fun t => inc_rtag t lvl op) s) else Raise TypeError
      | MDataF d b => if gcc o then Raise TypeError else Ret (d, st_map (fun t => set_sfin (inc_rtag t lvl op) lvl op b) s)
      | _ => Raise TypeError
      end).
  Definition h_receive_flag (source : Z) (lvl op : nat) (s : H) : prog (bool * H) :=
    if (source <? 0)%Z || (Z.of_nat P <=? source)%Z then Raise MpiError
    else Recv (Z.to_nat source) (Tag (s_rtag (h_st s) lvl op) lvl op) (fun m =>
      match m with
      | MBoolF b f => Ret (b, st_map (fun t => set_sfin (inc_rtag t lvl op) lvl op f) s)
      | _ => Raise TypeError
      end).
  (** self.u[lvl][0].unpack(data): the object changes *)
  Definition h_unpack_ghost (lvl : nat) (d : Data A) (s : H) : prog H :=
    match u_ s lvl with
    | a :: _ => match deref s a with Some x => Ret (store a (vunpack A x d) s) | None => Raise IndexError end
    | [] => Raise IndexError
    end.
  Definition h_recv_ghost (lvl : nat) (source : Z) (lvl_tag op : nat) (s : H) : prog H :=
    ds <- h_receive source lvl_tag op s ;; h_unpack_ghost lvl (fst ds) (snd ds).
  Definition h_send_point (lvl : nat) (i : Z) (dest : Z) (lvl_tag op : nat) (s : H) : prog H :=
    a <- lift (py_nth (u_ s lvl) i) ;; x <- lift (deref s a) ;; h_send (vpack A x) dest lvl_tag op s.
  (** self.u[lvl][i] = object *)
  Definition h_put_u (lvl : nat) (i : nat) (a : nat) (s : H) : prog H :=
    l <- lift (py_upd (u_ s lvl) (Z.of_nat i) a) ;; Ret (st_map (fun t => set_u t lvl l) s).

  (** [step(u[i-1], t[i-1], t[i])], plus [g[i]] on lvl > 0 (320-327, 359-368, 474-481) *)
  Definition h_propagate (lvl : nat) (s : H) (i : nat) : option (nat * H) :=
    match py_nth (u_ s lvl) (Z.of_nat i - 1), py_nth (i_t (inf lvl)) (Z.of_nat i - 1), py_nth (i_t (inf lvl)) (Z.of_nat i) with
    | Some x, Some a, Some b =>
        if lvl =? 0 then op1 (al_step al lvl) (fun v => phi A lvl v a b) x s
        else match py_nth (g_ s lvl) (Z.of_nat i) with
             | Some gi => match op1 (al_step al lvl) (fun v => phi A lvl v a b) x s with
                          | Some (y, s1) => op2 (vadd A) gi y s1
                          | None => None
                          end
             | None => None
             end
    | _, _, _ => None
    end.

  Definition h_f_relax (lvl : nat) (s : H) : prog H :=
    let I := inf lvl in
    s <- (if i_last_is_c I then h_send_point lvl (-1) (i_send_to I) lvl 0 s else Ret s) ;;
    s <- (if i_first_is_f I && negb (s_sfin (h_st s) lvl 0) then h_recv_ghost lvl (i_get_from I) lvl 0 s else Ret s) ;;
    hfor (i_loc_f I) (fun i s =>
      s <- (if i_comm_front I && (i =? np_min (i_loc_f I)) && negb (s_sfin (h_st s) lvl 1)
            then h_recv_ghost lvl (i_get_from I) lvl 1 s else Ret s) ;;
      xs <- lift2 (h_propagate lvl s i) ;;
      s <- h_put_u lvl i (fst xs) (snd xs) ;;
      if i_comm_back I && (i =? np_max (i_loc_f I))
      then h_send_point lvl (Z.of_nat i) (i_send_to I) lvl 1 s else Ret s) s.

  Definition h_c_relax (lvl : nat) (s : H) : prog H :=
    let I := inf lvl in
    s <- (if i_last_is_f I then h_send_point lvl (-1) (i_send_to I) lvl 2 s else Ret s) ;;
    s <- (if i_first_is_c I && negb (s_sfin (h_st s) lvl 2) then h_recv_ghost lvl (i_get_from I) lvl 2 s else Ret s) ;;
    hfor (i_loc_c I) (fun i s =>
      if negb (i =? 0) || negb (r =? 0) then
        ys <- lift2 (h_propagate lvl s i) ;;
        old <- lift (py_nth (u_ (snd ys) lvl) (Z.of_nat i)) ;;
        ws <- lift2 (op1 false (fun v => vscale A v (o_weight o)) (fst ys) (snd ys)) ;;
        zs <- lift2 (op1 false (fun v => vscale A v (one_minus A (o_weight o))) old (snd ws)) ;;
        xs <- lift2 (op2 (vadd A) (fst ws) (fst zs) (snd zs)) ;;
        h_put_u lvl i (fst xs) (snd xs)
      else Ret s) s.

  (** norms of the vectors computed by [f] for the points [l] *)
  Fixpoint h_norms (f : nat -> H -> option (nat * H)) (l : list nat) (s : H) : option (list (Sc A) * H) :=
    match l with
    | [] => Some ([], s)
    | i :: l' =>
        match f i s with
        | Some (a, s1) =>
            match deref s1 a with
            | Some x => match h_norms f l' s1 with Some (ns, s2) => Some (vnorm A x :: ns, s2) | None => None end
            | None => None
            end
        | None => None
        end
    end.
  Definition h_compute_jump (s : H) : prog (list (Sc A) * H) :=
    let I := inf 0 in
    vs <- lift2 (h_norms (fun i s => match py_nth (u_ s 0) (Z.of_nat i), py_nth (last_ s) (Z.of_nat i) with
                                     | Some a, Some b => op2 (vsub A) a b s | _, _ => None end)
                         (filter (fun i => negb (r =? 0) || negb (i =? 0)) (i_loc_c I)) s) ;;
    ls <- lift2 (clones (u_ (snd vs) 0) (snd vs)) ;;
    Ret (fst vs, st_map (fun t => set_last t (fst ls)) (snd ls)).
  Definition h_compute_residual (s : H) : prog (list (Sc A) * H) :=
    let I := inf 0 in
    s <- (if i_last_is_f I then h_send_point 0 (-1) (i_send_to I) 0 7 s else Ret s) ;;
    s <- (if i_first_is_c I && negb (s_sfin (h_st s) 0 7) then h_recv_ghost 0 (i_get_from I) 0 7 s else Ret s) ;;
    lift2 (h_norms (fun i s => match h_propagate 0 s i with
                               | Some (y, s1) => match py_nth (u_ s1 0) (Z.of_nat i) with Some x => op2 (vsub A) y x s1 | None => None end
                               | None => None end)
                   (filter (fun i => negb (r =? 0) || negb (i =? 0)) (i_loc_c I)) s).

  Definition h_put_conv (iteration : nat) (x : Sc A) (s : H) : prog H :=
    l <- lift (py_upd (s_conv (h_st s) : list (Sc A)) (Z.of_nat iteration) x) ;; Ret (st_map (fun t => set_conv t (l : list (Sc (RA A)))) s).
  Definition h_convergence_criterion (iteration : nat) (s : H) : prog H :=
    vs <- (if is_jump o then h_compute_jump s else h_compute_residual s) ;;
    let val := fst vs in
    let s := snd vs in
    if gcc o then
      tmp <- gather P r val ;;
      s <- match tmp with
           | Some ls => match tnorm A (concat ls) with
                        | Some x => h_put_conv iteration x s
                        | None => Raise ValueError
                        end
           | None => Ret s
           end ;;
      cur <- lift (py_nth (s_conv (h_st s) : list (Sc A)) (Z.of_nat iteration)) ;;
      x <- bcast P r cur ;;
      h_put_conv iteration x s
    else
      s <- (if (0 <? r) && negb (s_sfin (h_st s) 0 6) then
              bs <- h_receive_flag (Z.of_nat r - 1) 0 6 s ;;
              Ret (st_map (fun t => set_pre t (fst bs) (if fst bs then Some iteration else s_pre_it t)) (snd bs))
            else Ret s) ;;
      let fin := s_pre (h_st s) && (forallb (fun x => sc_lt A x (o_tol o)) val || (iteration =? o_max_iter o)) in
      let s := st_map (fun t => set_fin t fin (Some iteration)) s in
      s <- (if r <? P - 1 then h_send_flag fin (Z.of_nat r + 1) 0 6 s else Ret s) ;;
      match tnorm A val with
      | Some x => h_put_conv iteration x s
      | None => Raise ValueError
      end.

  Definition h_forward_solve (lvl : nat) (s : H) : prog H :=
    let I := inf lvl in
    s <- (if negb (Z.eqb (i_get_from I) (-99)) && negb (s_sfin (h_st s) lvl 5)
          then h_recv_ghost lvl (i_get_from I) lvl 5 s else Ret s) ;;
    s <- hfor (seq 1 (length (u_ s lvl) - 1)) (fun i s =>
           xs <- lift2 (h_propagate lvl s i) ;; h_put_u lvl i (fst xs) (snd xs)) s ;;
    if negb (Z.eqb (i_send_to I) (-99)) then
      i <- lift (py_nth (i_loc I) (-1)) ;; h_send_point lvl (Z.of_nat i) (i_send_to I) lvl 5 s
    else Ret s.

  (** right-hand side of one coarse point (524-547) *)
  Definition h_fas_rhs (lvl : nat) (s : H) (c j : nat) : option (nat * H) :=
    match py_nth (u_ s lvl) (Z.of_nat c - 1), py_nth (i_t (inf lvl)) (Z.of_nat c - 1),
          py_nth (i_t (inf lvl)) (Z.of_nat c), py_nth (u_ s lvl) (Z.of_nat c),
          py_nth (v_ s (S lvl)) (Z.of_nat j), py_nth (v_ s (S lvl)) (Z.of_nat j - 1) with
    | Some up, Some ta, Some tb, Some uc, Some vj, Some vp =>
        match py_nth (i_t (inf (S lvl))) (Z.of_nat j - 1), py_nth (i_t (inf (S lvl))) (Z.of_nat j) with
        | Some sa, Some sb =>
            let back x := match x with
                          | Some (d, s) =>
                              match op1 (al_restr al lvl) (restr A lvl) d s with
                              | Some (e, s) =>
                                  match op2 (vadd A) e vj s with
                                  | Some (f, s) => match op1 (al_step al (S lvl)) (fun v => phi A (S lvl) v sa sb) vp s with
                                                   | Some (p, s) => op2 (vsub A) f p s
                                                   | None => None
                                                   end
                                  | None => None
                                  end
                              | None => None
                              end
                          | None => None
                          end in
            if lvl =? 0 then back (match op1 (al_step al lvl) (fun v => phi A lvl v ta tb) up s with
                                   | Some (p, s) => op2 (vsub A) p uc s
                                   | None => None end)
            else match py_nth (g_ s lvl) (Z.of_nat c) with
                 | Some gc => back (match op2 (vsub A) gc uc s with
                                    | Some (d, s) => match op1 (al_step al lvl) (fun v => phi A lvl v ta tb) up s with
                                                     | Some (p, s) => op2 (vadd A) d p s
                                                     | None => None
                                                     end
                                    | None => None
                                    end)
                 | None => None
                 end
        | _, _ => None
        end
    | _, _, _, _, _, _ => None
    end.

  Definition h_fas_residual (lvl : nat) (s : H) : prog H :=
    let I := inf lvl in
    let J := inf (S lvl) in
    s <- hfor (seq 0 (length (i_loc_c I))) (fun i s =>
           c <- lift (nth_error (i_loc_c I) i) ;;
           a <- lift (py_nth (u_ s lvl) (Z.of_nat c)) ;;
           xs <- lift2 (op1 (al_restr al lvl) (restr A lvl) a s) ;;
           h_put_u (S lvl) (if r =? 0 then i else i + 1) (fst xs) (snd xs)) s ;;
    s <- (if i_last_is_f I then h_send_point lvl (-1) (i_send_to I) lvl 3 s else Ret s) ;;
    s <- (if i_first_is_c I && negb (s_sfin (h_st s) lvl 3) then h_recv_ghost lvl (i_get_from I) lvl 3 s else Ret s) ;;
    s <- (if (0 <=? i_send_to J)%Z then
            k <- lift (py_nth (i_loc J) (-1)) ;; h_send_point (S lvl) (Z.of_nat k) (i_send_to J) lvl 4 s
          else Ret s) ;;
    s <- (if (0 <=? i_get_from J)%Z && negb (s_sfin (h_st s) lvl 4)
          then h_recv_ghost (S lvl) (i_get_from J) lvl 4 s else Ret s) ;;
    vs <- lift2 (clones (u_ s (S lvl)) s) ;;
    let s := st_map (fun t => set_v t (S lvl) (fst vs : list (Vec (RA A)))) (snd vs) in
    hfor (seq 0 (length (i_loc_c I))) (fun i s =>
      if negb (i =? 0) || negb (r =? 0) then
        c <- lift (nth_error (i_loc_c I) i) ;;
        j <- lift (nth_error (i_loc J) i) ;;
        xs <- lift2 (h_fas_rhs lvl s c j) ;;
        l <- lift (py_upd (g_ (snd xs) (S lvl)) (Z.of_nat j) (fst xs)) ;;
        Ret (st_map (fun t => set_g t (S lvl) (l : list (Vec (RA A)))) (snd xs))
      else Ret s) s.

  Definition h_error_correction (lvl : nat) (s : H) : prog H :=
    let I := inf lvl in
    hfor (seq 0 (length (i_loc_c I))) (fun i s =>
      if negb (i =? 0) || negb (r =? 0) then
        c <- lift (nth_error (i_loc_c I) i) ;;
        k <- lift (nth_error (i_loc I) i) ;;
        x <- lift (py_nth (u_ s (S lvl)) (Z.of_nat k)) ;;
        y <- lift (py_nth (v_ s (S lvl)) (Z.of_nat k)) ;;
        ds <- lift2 (op2 (vsub A) x y s) ;;
        es <- lift2 (op1 (al_interp al lvl) (interp A lvl) (fst ds) (snd ds)) ;;
        uc <- lift (py_nth (u_ (snd es) lvl) (Z.of_nat c)) ;;
        xs <- lift2 (op2 (vadd A) uc (fst es) (snd es)) ;;
        h_put_u lvl c (fst xs) (snd xs)
      else Ret s) s.

  (** ** AtMgrit.forward_solve (at_mgrit.py 37-88) *)

  (** Lines 82-85: [tmp_u = g[i] + step(tmp_u, t[i-1], t[i])] for the indices [is], starting with object [a] *)
  Fixpoint h_at_propagate (lvl : nat) (is : list nat) (a : nat) (s : H) : prog (nat * H) :=
    match is with
    | [] => Ret (a, s)
    | i :: is' =>
        gi <- lift (py_nth (g_ s lvl) (Z.of_nat i)) ;;
        t0 <- lift (py_nth (nth lvl (o_grids o) []) (Z.of_nat i - 1)) ;;
        t1 <- lift (py_nth (nth lvl (o_grids o) []) (Z.of_nat i)) ;;
        ys <- lift2 (op1 (al_step al lvl) (fun v => phi A lvl v t0 t1) a s) ;;
        zs <- lift2 (op2 (vadd A) gi (fst ys) (snd ys)) ;;
        h_at_propagate lvl is' (fst zs) (snd zs)
    end.
  (** Lines 79-86: one process. tmp_u_arr holds clones; u[lvl][point] becomes the clone itself when no step is done. *)
  Definition h_at_solve_serial (k : Z) (lvl : nat) (s : H) : prog H :=
    arr <- lift2 (clones (u_ s lvl) s) ;;                                               (* 79 *)
    hfor (seq 0 (length (nth lvl (o_grids o) []))) (fun point s =>                      (* 80 *)
      a <- lift (py_nth (fst arr) (Z.max 0 (Z.of_nat point - k + 1))) ;;                (* 81 *)
      let first := Z.to_nat (Z.max 1 (Z.of_nat point - k + 2)) in
      xs <- h_at_propagate lvl (seq first (point + 1 - first)) a s ;;                   (* 82-85 *)
      h_put_u lvl point (fst xs) (snd xs)) (snd arr).                                   (* 86 *)
  (** Lines 47-76: several processes; see [at_solve_parallel]. *)
  Definition h_at_solve_parallel (k : Z) (lvl : nat) (s : H) : prog H :=
    match i_cpts (inf lvl) with
    | [] => Ret s
    | _ =>
        if (k <=? 0)%Z then Raise MpiError else
        let k := Z.to_nat k in
        t <- lift (py_nth (nth lvl (o_grids o) []) (Z.of_nat (last (i_cpts (inf lvl)) 0))) ;;
        ga <- lift (py_nth (g_ s lvl) (-1)) ;; gl <- lift (deref s ga) ;;
        ua <- lift (py_nth (u_ s lvl) (-1)) ;; ul <- lift (deref s ua) ;;
        black <- allgather_black r (members P r (at_black o P k)) (t, vpack A gl, vpack A ul) ;;
        green <- bcast_green r (members P r (at_green o P k)) black ;;
        let tmp := alloc (vclone A (tstart A lvl)) s in                                 (* 58 *)
        if existsb (fun d => memz (fst (fst d)) (local_coarse_grid o P r infos k)) (black ++ green) then Raise AttributeError
        else if 1 <? length (local_coarse_grid o P r infos k) then Raise AttributeError
        else let j := if (r =? 0) && negb (hd 0 (coarsest_counts o P) =? 1) then 1 else 0 in
             c <- lift (nth_error (i_loc_c (inf lvl)) j) ;;
             h_put_u lvl c (fst tmp) (snd tmp)
    end.
  (** self.forward_solve(lvl) (mgrit.py 459-486 or at_mgrit.py 37-88) *)
  Definition h_coarse_solve (lvl : nat) (s : H) : prog H :=
    match o_dist o with
    | None => h_forward_solve lvl s
    | Some k => if L =? 1 then Ret s
                else if P =? 1 then h_at_solve_serial k lvl s else h_at_solve_parallel k lvl s
    end.

  Fixpoint h_iteration (n lvl : nat) (cyc : bool) (it : nat) (first_f : bool) (s : H) : prog H :=
    match n with
    | 0 => h_coarse_solve lvl s
    | S n' =>
        let half cyc first_f s :=
          s <- (if ((0 <? lvl) || (it =? 0)) && first_f then h_f_relax lvl s else Ret s) ;;
          s <- htimes (cf_count o lvl) (fun s => s <- h_c_relax lvl s ;; h_f_relax lvl s) s ;;
          s <- h_fas_residual lvl s ;;
          s <- h_iteration n' (S lvl) cyc it true s ;;
          s <- h_error_correction lvl s ;;
          h_f_relax lvl s in
        s <- half cyc first_f s ;;
        if negb (lvl =? 0) && cyc then half false false s else Ret s
    end.

  Definition h_interpolate_up (lvl : nat) (s : H) : prog H :=
    let I := inf lvl in
    let J := inf (S lvl) in
    hfor (seq 0 (length (i_loc J))) (fun i s =>
      if negb (i =? 0) || negb (r =? 0) then
        c <- lift (nth_error (i_loc_c I) i) ;;
        j <- lift (nth_error (i_loc J) i) ;;
        x <- lift (py_nth (u_ s (S lvl)) (Z.of_nat j)) ;;
        xs <- lift2 (op1 (al_interp al lvl) (interp A lvl) x s) ;;
        h_put_u lvl c (fst xs) (snd xs)
      else Ret s) s.
  Definition h_nested_iteration (s : H) : prog H :=
    s <- h_coarse_solve (L - 1) s ;;
    hfor (rev (seq 0 (L - 1))) (fun lvl s =>
      s <- h_interpolate_up lvl s ;;
      if 0 <? lvl then h_iteration (L - 1 - lvl) lvl false 0 true s else Ret s) s.

  Definition h_clean_up (s : H) : prog H :=
    WaitAll (
    if gcc o then Ret s else
    s <- hfor (seq 0 (L - 1)) (fun lvl s =>
           let I := inf lvl in
           s <- (if i_last_is_c I then h_send_point lvl (-1) (i_send_to I) lvl 0 s else Ret s) ;;
           s <- (if i_comm_back I then h_send_point lvl (-1) (i_send_to I) lvl 1 s else Ret s) ;;
           s <- (if i_last_is_f I then h_send_point lvl (-1) (i_send_to I) lvl 2 s else Ret s) ;;
           s <- (if i_last_is_f I then h_send_point lvl (-1) (i_send_to I) lvl 3 s else Ret s) ;;
           if (0 <=? i_send_to (inf (S lvl)))%Z then
             c <- lift (py_nth (i_loc_c I) (-1)) ;;
             h_send_point lvl (Z.of_nat c) (i_send_to (inf (S lvl))) lvl 4 s
           else Ret s) s ;;
    s <- (if negb (Z.eqb (i_send_to (inf (L - 1))) (-99)) then
            k <- lift (py_nth (i_loc (inf (L - 1))) (-1)) ;;
            h_send_point (L - 1) (Z.of_nat k) (i_send_to (inf (L - 1))) (L - 1) 5 s
          else Ret s) ;;
    s <- (if i_last_is_f (inf 0) then h_send_point 0 (-1) (Z.of_nat r + 1) 0 7 s else Ret s) ;;
    s <- (if match s_fin_it (h_st s), s_pre_it (h_st s) with
             | Some a, Some b => a =? b | None, None => true | _, _ => false end
          then
            s <- hfor (seq 0 (L - 1)) (fun lvl s =>
                   let I := inf lvl in
                   s <- (if i_first_is_f I && negb (s_sfin (h_st s) lvl 0) then h_recv_ghost lvl (i_get_from I) lvl 0 s else Ret s) ;;
                   s <- (if i_comm_front I && negb (s_sfin (h_st s) lvl 1) then h_recv_ghost lvl (i_get_from I) lvl 1 s else Ret s) ;;
                   s <- (if i_first_is_c I && negb (s_sfin (h_st s) lvl 2) then h_recv_ghost lvl (i_get_from I) lvl 2 s else Ret s) ;;
                   s <- (if i_first_is_c I && negb (s_sfin (h_st s) lvl 3) then h_recv_ghost lvl (i_get_from I) lvl 3 s else Ret s) ;;
                   if (0 <=? i_get_from (inf (S lvl)))%Z && negb (s_sfin (h_st s) lvl 4)
                   then ds <- h_receive (i_get_from (inf (S lvl))) lvl 4 s ;; Ret (snd ds) else Ret s) s ;;
            s <- (if negb (Z.eqb (i_get_from (inf (L - 1))) (-99)) && negb (s_sfin (h_st s) (L - 1) 5)
                  then h_recv_ghost (L - 1) (i_get_from (inf (L - 1))) (L - 1) 5 s else Ret s) ;;
            (if i_first_is_c (inf 0) && negb (s_sfin (h_st s) 0 7) then h_recv_ghost 0 (i_get_from (inf 0)) 0 7 s else Ret s)
          else Ret s) ;;
    WaitAll (Ret s)).

  (** self.output_fcn(self): it sees the values the objects have now *)
  Definition values (s : H) (l : list nat) : list V := map (fun a => nth a (h_heap s) (templ A 0)) l.
  Definition h_emit (s : H) : H := mkH (h_heap s) (h_st s) (h_out s ++ [(s_iter (h_st s), values s (u_ s 0))]).

  Definition h_solve_pass (it : nat) (s : H) : prog (H + H) :=
    let s := st_map (fun t => set_iter t (it + 1)) s in
    s <- h_iteration (L - 1) 0 (cycF o) it true s ;;
    s <- h_convergence_criterion (it + 1) s ;;
    let s := if o_has_output o && (o_output_lvl o =? 2)%Z then h_emit s else s in
    cur <- lift (py_nth (s_conv (h_st s) : list (Sc A)) (Z.of_nat (it + 1))) ;;
    if sc_lt A cur (o_tol o) || (it =? o_max_iter o - 1) then
      if gcc o || (s_fin (h_st s) && s_pre (h_st s)) || (it =? o_max_iter o - 1)
      then s <- h_clean_up s ;; Ret (inr s) else Ret (inl s)
    else Ret (inl s).
  Fixpoint h_solve_loop (n it : nat) (s : H) : prog H :=
    match n with
    | 0 => Ret s
    | S n' => x <- h_solve_pass it s ;;
              match x with inl s' => h_solve_loop n' (S it) s' | inr s' => Ret s' end
    end.
  Definition h_solve (s : H) : prog H :=
    s <- h_solve_loop (o_max_iter o) 0 s ;;
    _ <- barrier P r ;;
    Ret (if o_has_output o && (o_output_lvl o =? 1)%Z then h_emit s else s).

  (** create_u_v_g (840-858): one object per list entry; on rank 0 the first entry of u is then replaced by a clone of the
      initial value. The objects of level [lvl] follow those of the levels before: u, the clone, v, g. *)
  Definition npts (lvl : nat) : nat := length (i_t (inf lvl)).
  Definition objs (lvl : nat) : list V :=
    (match lvl, o_rand o with
     | 0, Some rnd => map (rnd r) (seq 0 (npts lvl))
     | _, _ => repeat (vzero A (templ A lvl)) (npts lvl)
     end) ++ [vclone A (tstart A lvl)] ++ repeat (vzero A (vzero A (templ A lvl))) (npts lvl) ++ repeat (vzero A (vzero A (templ A lvl))) (npts lvl).
  Definition base (lvl : nat) : nat := list_sum (map (fun k => length (objs k)) (seq 0 lvl)).
  Definition h_init_u (lvl : nat) : list nat :=
    let l := seq (base lvl) (npts lvl) in
    if r =? 0 then upd l 0 (base lvl + npts lvl) else l.
  Definition h_init : H :=
    mkH (concat (map objs (seq 0 L)))
        (mkSt (A := RA A) (fun lvl => if lvl <? L then h_init_u lvl else [])
              (fun lvl => if lvl <? L then seq (base lvl + npts lvl + 1) (npts lvl) else [])
              (fun lvl => if lvl <? L then seq (base lvl + npts lvl + 1 + npts lvl) (npts lvl) else [])
              (fun _ op => (50000 * (Z.of_nat op + 1))%Z) (fun _ op => (50000 * (Z.of_nat op + 1))%Z)
              (fun _ _ => false)
              (repeat (sc_zero A) (o_max_iter o + 1)) [] 0 false None (r =? 0) (if r =? 0 then Some 0 else None) []) [].

  Definition h_construct : prog H :=
    _ <- barrier P r ;;
    s <- (if o_nested o then h_nested_iteration h_init else Ret h_init) ;;
    s <- (if is_jump o then ls <- lift2 (clones (u_ s 0) s) ;; Ret (st_map (fun t => set_last t (fst ls)) (snd ls)) else Ret s) ;;
    _ <- (if o_max_iter o =? 0 then barrier P r else Ret tt) ;;
    Ret (if o_has_output o && (o_output_lvl o =? 2)%Z then h_emit s else s).
End HeapRank.

(** Program of rank [r], class Mgrit or AtMgrit. *)
Definition heap_main {A : App} (al : Alias) (o : Opts A) (P r : nat) : prog (Msg A) (HSt A) :=
  match check o P with
  | Some e => Raise e
  | None =>
      match setup_infos o P r with
      | None => Raise IndexError
      | Some infos =>
          match too_many_points o P with
          | Some e => Raise e
          | None => s <- h_construct al o P r infos ;; h_solve al o P r infos s
          end
      end
  end.
