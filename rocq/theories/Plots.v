(** The pictures of MgritWithPlots, as data: what is drawn where, with which label.

    Models /repo/src/pymgrit/core/mgrit_with_plots.py: plot (19-25), plot_parallel_distribution (44-113: boxes and ticks),
    plot_cycle (115-183: nodes with their labels), and the order in which mgrit.py calls its phases (iteration 261-290,
    nested_iteration 551-566) as a list.
    Not modelled: figure size, colours, axes, the legend, the dashed lines between the iterations, saving to a file;
    plot_convergence. The rounded corners of the boxes (their outline lies 0.004 inside) are left out. *)
From Coq Require Import List ZArith Lia Arith Bool.
From Verif Require Import Net NetPhase PyList Setup Spec Mgrit Reference.
Import ListNotations.

(** ** The phases of a cycle *)
Inductive phase : Type :=
| PF (l : nat)        (* f_relax *)
| PC (l : nat)        (* c_relax *)
| PR (l : nat)        (* fas_residual *)
| PE (l : nat)        (* error_correction *)
| PS (l : nat)        (* forward_solve *)
| PI (l : nat).       (* lines 560-563 of nested_iteration: interpolate from level l+1 to level l *)

Section Schedule.
  Variable cf : nat -> nat.           (* number of CF-relaxations per level *)

  (** The calls made by iteration(lvl, cycle_type, iteration, first_f) (261-290); [n] levels below [lvl]. *)
  Fixpoint schedule (n lvl : nat) (cyc : bool) (it : nat) (first_f : bool) : list phase :=
    match n with
    | 0 => [PS lvl]
    | S n' =>
        let half cyc first_f :=
          (if ((0 <? lvl) || (it =? 0)) && first_f then [PF lvl] else []) ++
          concat (repeat [PC lvl; PF lvl] (cf lvl)) ++ [PR lvl] ++ schedule n' (S lvl) cyc it true ++ [PE lvl; PF lvl] in
        half cyc first_f ++ (if negb (lvl =? 0) && cyc then half false false else [])
    end.

  (** The calls made by nested_iteration (551-566) with [L] levels. *)
  Definition nested_schedule (L : nat) : list phase :=
    PS (L - 1) :: flat_map (fun lvl => PI lvl :: if 0 <? lvl then schedule (L - 1 - lvl) lvl false 0 true else []) (rev (seq 0 (L - 1))).
End Schedule.

(** Relaxations and coarsest solves: the phases the picture has labels for. *)
Definition relaxing (p : phase) : bool := match p with PF _ | PC _ | PS _ => true | _ => false end.

Section Run.
  Context {A : App}.
  Variable o : Opts A.
  Variables P r : nat.
  Variable infos : list LvlInfo.
  Variable fsolve : nat -> St A -> prog (Msg A) (St A).

  Definition run_phase (p : phase) (s : St A) : prog (Msg A) (St A) :=
    match p with
    | PF l => f_relax o P infos l s
    | PC l => c_relax o P r infos l s
    | PR l => fas_residual o P r infos l s
    | PE l => error_correction r infos l s
    | PS l => fsolve l s
    | PI l => interpolate_up r infos l s
    end.
End Run.

(** ** plot_cycle *)
(** self.cf_iter as a Python value, and 'self.cf_iter * str' (120): an integer repeats the string (not at all if it is
    negative), a list times a string is a TypeError. *)
Inductive pycf : Type := VInt (z : Z) | VList (l : list Z).
(** mgrit.py 110-121 and 159: an integer is turned into a list. *)
Definition stored_cf (c : cf_arg) (levels : nat) : pycf :=
  match c with
  | CfInt z => VList (repeat z levels)
  | CfList l => VList l
  | CfOther => VList []               (* rejected by the constructor *)
  end.

Inductive letter : Type := LF | LC | LS.
(** 'F' + cf * 'CF' (120) *)
Definition relax_label (c : pycf) : option (list letter) :=
  match c with VInt z => Some (LF :: concat (repeat [LC; LF] (Z.to_nat z))) | VList _ => None end.

(** np.linspace(-i, i, 2*i+1) (152, 157, 161) and np.linspace(-L+1, 0, L)[:-1] (159): integers, exact in double precision *)
Definition vee (i : nat) : list Z := map (fun k => (Z.of_nat k - Z.of_nat i)%Z) (seq 0 (2 * i + 1)).
Definition descent (L : nat) : list Z := map (fun k => (Z.of_nat k - Z.of_nat (L - 1))%Z) (seq 0 (L - 1)).

Definition result_nes (L : nat) : list Z := flat_map vee (seq 0 (L - 1)) ++ [Z.of_nat (L - 1)].             (* 151-153 *)
Definition result_iter (L : nat) (cyc : bool) : list Z :=
  if cyc then descent L ++ flat_map vee (seq 0 L)                                                              (* 159-161 *)
  else vee (L - 1).                                                                                            (* 156-157 *)

(** mask (118-123) *)
Definition mask (label : list letter) (h : Z) : list letter :=
  if (h <? 0)%Z then label else if (h =? 0)%Z then [LS] else [LF].

(** A node of the picture: position on the x-axis, level named by the y-axis (height |h| is labelled
    'Level (L-1-|h|)', 172-173), text. *)
Definition node : Type := (nat * nat * list letter)%type.
Definition on_first {X} (f : X -> X) (l : list X) : list X := match l with [] => [] | x :: l' => f x :: l' end.
Definition on_last {X} (f : X -> X) (l : list X) : list X := rev (on_first f (rev l)).

(** plot_part (125-142): [start] is the first value of x_axis, [heights] is [result]. *)
Definition plot_part (L : nat) (label : list letter) (iter start : nat) (heights : list Z) (nest_it : bool) : list node :=
  let strings := map (mask label) heights in
  let strings := if nest_it then on_last (fun _ => []) strings else strings in                                 (* 129 *)
  let strings := if iter =? 0 then strings else on_first (@tl letter) strings in                               (* 136-137 *)
  combine (combine (seq start (length heights)) (map (fun h => L - 1 - Z.abs_nat h) heights)) strings.

(** plot_cyc (117-181): the nodes drawn, or the exception raised. *)
Definition plot_cyc (c : pycf) (L : nat) (nested cyc : bool) (iterations : nat) : exn + list node :=
  let nes := if nested then result_nes L else [] in
  let res := result_iter L cyc in
  match relax_label c with
  | None => if nested || negb (iterations =? 0) then inl TypeError else inr []
  | Some label =>
      inr ((if nested then plot_part L label 0 0 nes true else []) ++
           flat_map (fun iter => plot_part L label iter (iter * length res + length nes) res false) (seq 0 iterations))
  end.

(** plot (19-25) and plot_cycle (183) on the process of time rank [rank]. With spatial parallelism line 22 compares the
    communicator itself with 0, which is never true. *)
Definition plot {X : Type} (rank : nat) (spatial : bool) (f : exn + list X) : exn + list X :=
  if rank =? 0 then (if spatial then inr [] else f) else inr [].
Definition plot_cycle {A : App} (o : Opts A) (rank : nat) (spatial : bool) (iterations : nat) : exn + list node :=
  plot rank spatial (plot_cyc (stored_cf (o_cf o) (nlev o)) (nlev o) (o_nested o) (cycF o) iterations).

(** plot_convergence (27-42): the points (x, y) of the curve; without spatial parallelism drawn on rank 0 *)
Definition plot_convergence {A : App} (s : St A) (rank : nat) (spatial : bool) : exn + list (nat * Sc A) :=
  let y := result_conv s in                                                              (* self.conv[np.where(self.conv != 0)] *)
  plot rank spatial (inr (combine (seq 1 (length y)) y)).                                (* np.arange(1, len + 1) *)

(** What a node says is done: one phase per letter. *)
Definition says (x : node) : list phase :=
  let '(_, lvl, text) := x in map (fun c => match c with LF => PF lvl | LC => PC lvl | LS => PS lvl end) text.

(** ** plot_parallel_distribution *)
(** A box (73-85): row, process named in its label, left end and width; lengths in quarters. *)
Record box : Type := mkBox { b_row : nat; b_proc : nat; b_left4 : Z; b_width4 : Z }.
Definition boxes (L nt time_procs : nat) : list box :=
  let split := split_into nt time_procs in
  flat_map (fun i =>
    if i =? 0 then [mkBox i 0 (-1)%Z (4 * Z.of_nat (list_sum split) - 1)%Z]                                    (* 81-85 *)
    else map (fun j => mkBox i j (4 * Z.of_nat (list_sum (firstn j split)) - 1)%Z
                              (4 * Z.of_nat (nth j split 0%nat) - 1)%Z) (seq 0 (length split)))                    (* 76-79 *)
    (seq 0 L).
(** The x-position [j] (a point of the finest grid) lies in the box. *)
Definition covers (b : box) (j : nat) : Prop := (b_left4 b <= 4 * Z.of_nat j <= b_left4 b + b_width4 b)%Z.

(** np.where(np.in1d(a, b))[0] *)
Definition where_in (a b : list Z) : list nat := filter (fun j => existsb (Z.eqb (nth j a 0%Z)) b) (seq 0 (length a)).

(** Ticks (92-102): (row, position, long). [tmp_coarse] keeps its value in the last pass; with one level it is unbound
    (an UnboundLocalError, [None]). *)
Fixpoint ticks_from (grids : list (list Z)) (is : list nat) (tmp_coarse : option (list nat)) : option (list (nat * nat * bool)) :=
  let L := length grids in
  let t0 := nth 0 grids [] in
  match is with
  | [] => Some []
  | i :: is' =>
      let tmp_coarse := if i =? L - 1 then tmp_coarse else Some (where_in t0 (nth (S i) grids [])) in
      let tmp_fine := where_in t0 (nth i grids []) in
      match tmp_coarse with
      | None => match t0 with [] => ticks_from grids is' tmp_coarse | _ => None end
      | Some cs =>
          match ticks_from grids is' tmp_coarse with
          | None => None
          | Some rest =>
              Some (flat_map (fun j => if memn j cs then [(L - 1 - i, j, true)]
                                       else if memn j tmp_fine then [(L - 1 - i, j, false)] else []) (seq 0 (length t0)) ++ rest)
          end
      end
  end.
Definition ticks (grids : list (list Z)) : option (list (nat * nat * bool)) := ticks_from grids (seq 0 (length grids)) None.

(** ** The schedule is what the solver does *)
Section RunFacts.
  Context {A : App}.
  Variable o : Opts A.
  Variables P r : nat.
  Variable infos : list LvlInfo.
  Variable fsolve : nat -> St A -> prog (Msg A) (St A).
  Notation run := (run_phase o P r infos fsolve).

  Lemma for_each_app {B : Type} (f : B -> St A -> prog (Msg A) (St A)) l1 l2 s :
    peq (for_each (l1 ++ l2) f s) (bind (for_each l1 f s) (for_each l2 f)).
  Proof.
    revert s. induction l1 as [|x l1 IH]; intros s; simpl; [apply peq_refl|].
    eapply peq_trans; [apply bind_peq; intros a; apply IH|]. apply peq_sym, bind_assoc.
  Qed.
  Lemma for_each_one {B : Type} (f : B -> St A -> prog (Msg A) (St A)) x s : peq (for_each [x] f s) (f x s).
  Proof. simpl. apply bind_ret. Qed.
  Lemma for_each_peq {B : Type} (f g : B -> St A -> prog (Msg A) (St A)) l s : (forall x s, In x l -> peq (f x s) (g x s)) ->
    peq (for_each l f s) (for_each l g s).
  Proof.
    revert s. induction l as [|x l IH]; intros s H; simpl; [apply peq_refl|].
    eapply peq_trans; [apply bind_peq_l, H; left; reflexivity|]. apply bind_peq. intros a. apply IH. intros; apply H; right; auto.
  Qed.
  Lemma for_each_flat {B C : Type} (f : B -> St A -> prog (Msg A) (St A)) (g : C -> list B) l s :
    peq (for_each (flat_map g l) f s) (for_each l (fun x => for_each (g x) f) s).
  Proof.
    revert s. induction l as [|x l IH]; intros s; simpl; [apply peq_refl|].
    eapply peq_trans; [apply for_each_app|]. apply bind_peq. intros a. apply IH.
  Qed.
  Lemma times_rel n l s : peq (times n (fun s => bind (c_relax o P r infos l s) (f_relax o P infos l)) s)
    (for_each (concat (repeat [PC l; PF l] n)) run s).
  Proof.
    revert s. induction n as [|n IH]; intros s; [apply peq_refl|].
    simpl repeat. simpl concat. change (PC l :: PF l :: concat (repeat [PC l; PF l] n)) with ([PC l; PF l] ++ concat (repeat [PC l; PF l] n)).
    cbn [times]. eapply peq_trans; [|apply peq_sym, for_each_app].
    eapply peq_trans; [apply bind_peq; intros a; apply IH|]. apply bind_peq_l.
    cbn [for_each run_phase]. apply bind_peq. intros a. apply peq_sym, bind_ret.
  Qed.

  Lemma iteration_schedule n : forall lvl cyc it ff s,
    peq (iteration o P r infos fsolve n lvl cyc it ff s) (for_each (schedule (cf_count o) n lvl cyc it ff) run s).
  Proof.
    induction n as [|n IH]; intros lvl cyc it ff s; [cbn [iteration schedule]; exact (peq_sym _ _ (for_each_one run (PS lvl) s))|].
    set (halfp := fun (cyc ff : bool) (s : St A) =>
      s <- (if ((0 <? lvl) || (it =? 0)) && ff then f_relax o P infos lvl s else Ret s) ;;
      s <- times (cf_count o lvl) (fun s => s <- c_relax o P r infos lvl s ;; f_relax o P infos lvl s) s ;;
      s <- fas_residual o P r infos lvl s ;;
      s <- iteration o P r infos fsolve n (S lvl) cyc it true s ;;
      s <- error_correction r infos lvl s ;;
      f_relax o P infos lvl s).
    set (halfl := fun cyc ff : bool =>
      (if ((0 <? lvl) || (it =? 0)) && ff then [PF lvl] else []) ++
      concat (repeat [PC lvl; PF lvl] (cf_count o lvl)) ++ [PR lvl] ++ schedule (cf_count o) n (S lvl) cyc it true ++ [PE lvl; PF lvl]).
    change (iteration o P r infos fsolve (S n) lvl cyc it ff s)
      with (s <- halfp cyc ff s ;; if negb (lvl =? 0) && cyc then halfp false false s else Ret s).
    change (schedule (cf_count o) (S n) lvl cyc it ff) with (halfl cyc ff ++ (if negb (lvl =? 0) && cyc then halfl false false else [])).
    assert (HH : forall cyc ff s, peq (halfp cyc ff s) (for_each (halfl cyc ff) run s)).
    { clear s cyc ff. intros cyc ff s. unfold halfp, halfl.
      eapply peq_trans; [|apply peq_sym, for_each_app]. 
      apply (peq_trans _ (bind (if ((0 <? lvl) || (it =? 0)) && ff then f_relax o P infos lvl s else Ret s)
        (for_each (concat (repeat [PC lvl; PF lvl] (cf_count o lvl)) ++ [PR lvl] ++ schedule (cf_count o) n (S lvl) cyc it true ++ [PE lvl; PF lvl]) run))).
      2:{ apply bind_peq_l. destruct (((0 <? lvl) || (it =? 0)) && ff); [|apply peq_refl]. exact (peq_sym _ _ (for_each_one run (PF lvl) s)). }
      apply bind_peq. intros s1.
      eapply peq_trans; [|apply peq_sym, for_each_app]. eapply peq_trans; [apply bind_peq_l, times_rel|].
      apply bind_peq. intros s2. cbn [app for_each run_phase]. apply bind_peq. intros s3.
      eapply peq_trans; [|apply peq_sym, for_each_app]. eapply peq_trans; [apply bind_peq_l, IH|].
      apply bind_peq. intros s4. cbn [for_each run_phase]. apply bind_peq. intros s5. apply peq_sym, bind_ret. }
    eapply peq_trans; [|apply peq_sym, for_each_app]. eapply peq_trans; [apply bind_peq_l, HH|].
    apply bind_peq. intros s1. destruct (negb (lvl =? 0) && cyc); [apply HH|apply peq_refl].
  Qed.

  Lemma nested_schedule_run s : peq (nested_iteration o P r infos fsolve s) (for_each (nested_schedule (cf_count o) (nlev o)) run s).
  Proof.
    unfold nested_iteration, nested_schedule. cbn [for_each run_phase]. apply bind_peq. intros s1.
    eapply peq_trans; [|apply peq_sym, for_each_flat]. apply for_each_peq. intros lvl s2 _.
    cbn [for_each run_phase]. apply bind_peq. intros s3. destruct (0 <? lvl); [apply iteration_schedule|apply peq_refl].
  Qed.
End RunFacts.
