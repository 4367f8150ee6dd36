(** Calling GetDP: /repo/src/pymgrit/induction_machine/induction_machine.py, InductionMachine (constructor, step, run_getdp).
    Numbers and files as in Getdp.v. GetDP and the shell are functions from the command and the files to the files and the
    return code; what they are assumed to do is said in PropGetdpRun.v. The output of GetDP on the terminal (verbose) is not
    modelled. *)
From Coq Require Import List ZArith Arith Bool Ascii String.
From Verif Require Import PyList Vectors Getdp.
Import ListNotations.
Local Open Scope list_scope.

(** The files: a regular file has a content. *)
Definition FS : Type := text -> option text.
Definition fs_set (fs : FS) (f x : text) : FS := fun g => if text_eqb g f then Some x else fs g.
Definition open_file (fs : FS) (f : text) : res text := of_opt EFile (fs f).
Definition isfile (fs : FS) (f : text) : bool := match fs f with Some _ => true | None => false end.

(** ** os.path (POSIX): posixpath.py split, splitext, join *)
Definition SL : ascii := "/"%char.
(** (p[:i], p[i:]) with i = p.rfind(c) + 1 *)
Fixpoint rpart (c : ascii) (p : text) : text * text :=
  match p with
  | [] => ([], [])
  | x :: p' => let (h, t) := rpart c p' in
               match h with [] => if Ascii.eqb x c then ([x], t) else ([], x :: t) | _ => (x :: h, t) end
  end.
Fixpoint lstrip (c : ascii) (p : text) : text := match p with x :: p' => if Ascii.eqb x c then lstrip c p' else p | [] => [] end.
Definition rstrip (c : ascii) (p : text) : text := rev (lstrip c (rev p)).
Definition os_split (p : text) : text * text :=
  let (head, tail) := rpart SL p in
  (if forallb (Ascii.eqb SL) head then head else rstrip SL head, tail).
(** os.path.splitext of a name without slashes (run_getdp applies it to the second part of os.path.split) *)
Definition os_splitext (p : text) : text * text :=
  let (h, t) := rpart "." p in                                                          (* h = root ++ ["."] *)
  match h with
  | [] => (p, [])
  | _ => let root := removelast h in
         if forallb (Ascii.eqb ".") root then (p, []) else (root, "."%char :: t)
  end.
Definition os_join (a b : text) : text :=
  match b with
  | x :: _ => if Ascii.eqb x SL then b else match rev a with [] => b | y :: _ => if Ascii.eqb y SL then a ++ b else a ++ SL :: b end
  | [] => match rev a with [] => [] | y :: _ => if Ascii.eqb y SL then a else a ++ [SL] end
  end.

(** ** subprocess.run(command, shell=True)
    The words of a command: separated by spaces, double quotes keep spaces and # and are removed. None: a character with another
    meaning for the shell (or possibly one), or an open quote. *)
Definition plain (c : ascii) : bool :=
  let n := nat_of_ascii c in
  ((48 <=? n) && (n <=? 57)) || ((65 <=? n) && (n <=? 90)) || ((97 <=? n) && (n <=? 122)) ||
  existsb (Ascii.eqb c) (tx "-_./+,:@%^").
Definition QU : ascii := """"%char.
Fixpoint shell_words (quoted : bool) (cur : option text) (l : text) : option (list text) :=
  match l with
  | [] => if quoted then None else Some (match cur with None => [] | Some w => [w] end)
  | c :: l' =>
      let more := Some (match cur with None => [c] | Some w => w ++ [c] end) in
      if quoted then
        if Ascii.eqb c QU then shell_words false cur l'
        else if plain c || Ascii.eqb c " " || Ascii.eqb c "#" then shell_words true more l' else None
      else if Ascii.eqb c " " then
        match cur with None => shell_words false None l' | Some w => option_map (cons w) (shell_words false None l') end
      else if Ascii.eqb c QU then shell_words true (Some (match cur with None => [] | Some w => w end)) l'
      else if plain c then shell_words false more l' else None
  end.
(** [exec program arguments]: the return code is 0 for success. [other]: commands outside of the above. *)
Definition Exec : Type := text -> list text -> FS -> FS * Z.
Definition run_shell (exec : Exec) (other : text -> FS -> FS * Z) (command : text) (fs : FS) : FS * Z :=
  match shell_words false None command with
  | Some (program :: args) => exec program args fs
  | _ => other command fs
  end.

(** ** The application *)
(** Values of options: numbers (with str(x)) and strings; is_numeric (helper.py 12-23) *)
Inductive oval : Type := ONum (s : text) | OStr (s : text).
Definition is_numeric (o : oval) : bool := match o with ONum _ => true | OStr _ => false end.
Definition ostr (o : oval) : text := match o with ONum s => s | OStr s => s end.        (* str(o) *)

Section Machine.
  Variable F : Flt.
  Notation fl := (fl F).

  (** VectorMachine (vector_machine.py 11-188) with numbers of Getdp.v; the class itself is in Vectors.v *)
  Record MScal : Type := mkMS { s_jl : fl; s_ia : fl; s_ib : fl; s_ic : fl; s_ua : fl; s_ub : fl; s_uc : fl; s_tr : fl }.
  Record MVec : Type := mkMV { v_fs : nat; v_ms : nat; v_bs : nat; v_front : list fl; v_middle : list fl; v_back : list fl; v_sc : MScal }.
  Definition mv_zeros (f m b : nat) : MVec :=
    let z := fzero F in mkMV f m b (repeat z f) (repeat z m) (repeat z b) (mkMS z z z z z z z z).
  Definition mv_get (u : MVec) : list fl := (v_front u ++ v_middle u) ++ v_back u.       (* get_values 137-143 *)
  Definition mv_set (u : MVec) (v : list fl) (s : MScal) : MVec :=                         (* set_values 145-160 *)
    mkMV (v_fs u) (v_ms u) (v_bs u)
      (py_slice v 0 (Z.of_nat (v_fs u)))
      (py_slice v (Z.of_nat (v_fs u)) (- Z.of_nat (v_bs u)))
      (py_slice v (- Z.of_nat (v_bs u)) (Z.of_nat (List.length v))) s.

  (** self *)
  Record Machine : Type := mkMachine { pro_path : text; getdp_path : text; mesh : text; nx : nat; time_step : fl; preprocessing : text;
    fopt : list oval }.

  (** __init__ (26-77). [rc] is the return code of getdp --version; t is self.t, set by Application.__init__; tsub and tdiv are the
      subtraction of two times and the division by an integer. *)
  Record Args : Type := mkArgs { grid : text; path_im3kw : text; path_getdp : text; imposed_speed : oval; nb_trelax : oval; analysis_type : oval;
    nb_max_iter : oval; relaxation_factor : oval; stop_criterion : oval; nonlinear : bool; pwm : bool; pro_file : text; steps_per_solve : Z }.
  Definition machine_init (tsub : fl -> fl -> fl) (tdiv : fl -> Z -> fl) (fs : FS) (rc : Z) (t : list fl) (a : Args) : res (Machine * MVec) :=
    let pro := path_im3kw a ++ pro_file a in
    if negb (isfile fs pro) then inr EUser
    else if negb (isfile fs (path_getdp a)) then inr EUser
    else
      pre <-- open_file fs (path_im3kw a ++ grid a ++ tx ".pre") ;;
      p <-- pre_file pre ;;
      let unknowns := List.length (snd (fst p)) in
      t1 <-- of_opt EIndex (nth_error t 1) ;;
      t0 <-- of_opt EIndex (nth_error t 0) ;;
      if negb (rc =? 0)%Z then inr EUser
      else inl (mkMachine pro (path_getdp a) (grid a ++ tx ".msh") (unknowns + 8 + 15) (tdiv (tsub t1 t0) (steps_per_solve a)) (tx "#1")
             [OStr (tx "Flag_AnalysisType"); analysis_type a; OStr (tx "Flag_NL"); ONum (int_str (Z.b2z (nonlinear a)));
              OStr (tx "Flag_ImposedSpeed"); imposed_speed a; OStr (tx "Nb_max_iter"); nb_max_iter a;
              OStr (tx "relaxation_factor"); relaxation_factor a; OStr (tx "stop_criterion"); stop_criterion a;
              OStr (tx "NbTrelax"); nb_trelax a; OStr (tx "Flag_PWM"); ONum (int_str (Z.b2z (pwm a)))],
           mv_zeros 8 unknowns 15).

  (** run_getdp (96-191) *)
  Fixpoint funargs (funargstr : text) (opt : list oval) : res text :=                    (* 111-116 *)
    match opt with
    | [] => inl funargstr
    | [_] => inr EIndex
    | k :: v :: opt' =>
        funargs (funargstr ++ (if is_numeric v then tx " -setnumber " ++ ostr k ++ tx " " ++ ostr v
                               else tx " -setstring " ++ ostr k ++ tx " " ++ ostr v)) opt'
    end.
  Definition command (self : Machine) (what : text) (mshfile tmp_name resfile resdir funargstr : text) (t_stop : fl) : text :=
    join (tx " ") [getdp_path self; pro_path self; what; tx "-msh"; mshfile; tx "-name"; tmp_name; tx "-res"; resfile;
                   tx "-setnumber timemax"; fstr F t_stop; tx "-setnumber dtime"; fstr F (time_step self);
                   tx "-setstring ResDir"; resdir; funargstr].
  Record Results : Type := mkRes { r_x : list fl; r_y : list (list fl); r_jl : list fl; r_ia : list fl; r_ib : list fl; r_ic : list fl;
    r_ua : list fl; r_ub : list fl; r_uc : list fl; r_tr : list fl }.
  Definition run_getdp (self : Machine) (shell : text -> FS -> FS * Z) (tmpdir : text) (fs : FS) (u_start : list fl) (t_start t_stop : fl) : res Results :=
    match u_start with
    | [] => inr EValue                                                                  (* np.max of an empty array *)
    | _ =>
      if existsb (fnan F) u_start then inr EUser
      else
        let (fdir, file) := os_split (pro_path self) in
        let fname := fst (os_splitext file) in
        funargstr <-- funargs [] (fopt self) ;;
        let funargstr := tl funargstr in
        let mshfile := os_join fdir (mesh self) in
        let tmp_name := os_join tmpdir fname in
        let resdir := os_join tmpdir (tx "res") in
        let prefile := os_join tmpdir (fname ++ tx ".pre") in
        let resfile := os_join tmpdir (fname ++ tx ".res") in
        let '(fs1, code1) := shell (command self (tx "-pre """ ++ preprocessing self ++ tx """") mshfile tmp_name resfile resdir funargstr t_stop) fs in
        if negb (code1 =? 0)%Z then inr EUser
        else
          let num_dofs := List.length u_start in
          pre <-- open_file fs1 prefile ;;
          num_pres <-- get_preresolution pre ;;
          if negb (Z.of_nat num_dofs =? num_pres)%Z then inr EUser
          else
            resolution <-- set_resolution F t_start u_start num_dofs ;;
            let fs2 := fs_set fs1 resfile resolution in
            let '(fs3, code2) := shell (command self (tx "-restart") mshfile tmp_name resfile resdir funargstr t_stop) fs2 in
            if negb (code2 =? 0)%Z then inr EUser
            else
              r <-- open_file fs3 resfile ;;
              ty <-- getdp_read_resolution F r num_dofs ;;
              let values_from name := f <-- open_file fs3 (os_join tmpdir name) ;; get_values_from F f in
              jl <-- values_from (tx "resJL.dat") ;;
              ia <-- values_from (tx "resIa.dat") ;;
              ib <-- values_from (tx "resIb.dat") ;;
              ic <-- values_from (tx "resIc.dat") ;;
              ua <-- values_from (tx "resUa.dat") ;;
              ub <-- values_from (tx "resUb.dat") ;;
              uc <-- values_from (tx "resUc.dat") ;;
              tr <-- values_from (tx "resTr.dat") ;;
              inl (mkRes (fst ty) (snd ty) jl ia ib ic ua ub uc tr)
    end.

  (** step (79-94) *)
  Definition machine_step (self : Machine) (shell : text -> FS -> FS * Z) (tmpdir : text) (fs : FS) (u_start : MVec) (t_start t_stop : fl) : res MVec :=
    soli <-- run_getdp self shell tmpdir fs (mv_get u_start) t_start t_stop ;;
    let ret := mv_zeros (v_fs u_start) (v_ms u_start) (v_bs u_start) in
    y <-- of_opt EIndex (py_nth (r_y soli) (-1)) ;;
    jl <-- of_opt EIndex (py_nth (r_jl soli) (-1)) ;;
    ia <-- of_opt EIndex (py_nth (r_ia soli) (-1)) ;;
    ib <-- of_opt EIndex (py_nth (r_ib soli) (-1)) ;;
    ic <-- of_opt EIndex (py_nth (r_ic soli) (-1)) ;;
    ua <-- of_opt EIndex (py_nth (r_ua soli) (-1)) ;;
    ub <-- of_opt EIndex (py_nth (r_ub soli) (-1)) ;;
    uc <-- of_opt EIndex (py_nth (r_uc soli) (-1)) ;;
    tr <-- of_opt EIndex (py_nth (r_tr soli) (-1)) ;;
    inl (mv_set ret y (mkMS jl ia ib ic ua ub uc tr)).
End Machine.
