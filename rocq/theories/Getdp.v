(** Files of GetDP: /repo/src/pymgrit/induction_machine/helper.py. Text files are lists of characters (7-bit), numbers are
    printed and read character by character. *)
From Coq Require Import List ZArith Arith Bool Ascii String Decimal DecimalString DecimalZ.
From Verif Require Import PyList.
Import ListNotations.
Local Open Scope list_scope.

Definition text := list ascii.
Definition tx (s : string) : text := list_ascii_of_string s.
Definition LF : ascii := ascii_of_nat 10.
Definition CR : ascii := ascii_of_nat 13.
Definition is_space (c : ascii) : bool := let n := nat_of_ascii c in ((9 <=? n) && (n <=? 13)) || ((28 <=? n) && (n <=? 32)).

(** str.split() *)
Fixpoint split_from (cur l : text) : list text :=
  match l with
  | [] => match cur with [] => [] | _ => [cur] end
  | c :: l' => if is_space c then match cur with [] => split_from [] l' | _ => cur :: split_from [] l' end
               else split_from (cur ++ [c]) l'
  end.
Definition split (l : text) : list text := split_from [] l.
(** open(file): universal newlines; readlines() keeps the newline of every line *)
Fixpoint newlines (l : text) : text :=
  match l with
  | [] => []
  | c :: l' => if Ascii.eqb c CR
               then LF :: match l' with d :: l'' => if Ascii.eqb d LF then newlines l'' else newlines l' | [] => [] end
               else c :: newlines l'
  end.
Fixpoint lines_from (cur l : text) : list text :=
  match l with
  | [] => match cur with [] => [] | _ => [cur] end
  | c :: l' => if Ascii.eqb c LF then (cur ++ [c]) :: lines_from [] l' else lines_from (cur ++ [c]) l'
  end.
Definition readlines (file : text) : list text := lines_from [] (newlines file).
(** s.find(p) != -1, p in s *)
Fixpoint prefix (p l : text) : bool :=
  match p, l with
  | [], _ => true
  | a :: p', b :: l' => Ascii.eqb a b && prefix p' l'
  | _, [] => false
  end.
Fixpoint contains (p l : text) : bool := prefix p l || match l with [] => false | _ :: l' => contains p l' end.
Definition text_eqb (a b : text) : bool := if list_eq_dec ascii_dec a b then true else false.
(** sep.join(l) *)
Fixpoint join (sep : text) (l : list text) : text :=
  match l with [] => [] | [x] => x | x :: l' => x ++ sep ++ join sep l' end.
(** str(i) and int(s) of integers (int also accepts a plus sign and underscores, which do not occur) *)
Definition int_str (z : Z) : text := tx (NilZero.string_of_int (Z.to_int z)).
Definition int_of (s : text) : option Z := option_map Z.of_int (NilZero.int_of_string (string_of_list_ascii s)).

(** Floats: str(x), float(s), 0.0 and np.isnan. *)
Record Flt : Type := mkFlt { fl : Type; fstr : fl -> text; fparse : text -> option fl; fzero : fl; fnan : fl -> bool }.

(** Exceptions: IndexError, ValueError, KeyError, Exception, FileNotFoundError *)
Inductive exc : Type := EIndex | EValue | EKey | EUser | EFile.
Definition res (X : Type) : Type := (X + exc)%type.
Definition rbind {X Y : Type} (x : res X) (f : X -> res Y) : res Y := match x with inl a => f a | inr e => inr e end.
Definition of_opt {X : Type} (e : exc) (x : option X) : res X := match x with Some a => inl a | None => inr e end.
Notation "x <-- e ;; f" := (rbind e (fun x => f)) (at level 61, e at next level, right associativity).
Fixpoint traverse {X Y : Type} (f : X -> res Y) (l : list X) : res (list Y) :=
  match l with [] => inl [] | x :: l' => y <-- f x ;; ys <-- traverse f l' ;; inl (y :: ys) end.

Section Files.
  Variable F : Flt.

  (** set_resolution (41-63): t_start is one time and num_dofs an integer, as at its only call (induction_machine.py 161), so
      both loops run once. u_start is a real array: np.imag gives zeros. Stacking needs equal lengths (ValueError). *)
  Definition set_resolution (t_start : fl F) (u_start : list (fl F)) (num_dofs : nat) : res text :=
    let y := firstn num_dofs u_start in
    if List.length y =? List.length u_start then
      inl (join [LF]
        [tx "$ResFormat /* GetDP 2.10.0, ascii */"; tx "1.1 0"; tx "$EndResFormat";
         tx "$Solution  /* DofData #" ++ int_str 0 ++ tx " */";
         int_str 0 ++ tx " " ++ fstr F t_start ++ tx " 0 " ++ int_str 0;
         join [LF] (map (fun x => join (tx " ") [fstr F x; fstr F (fzero F)]) y);
         tx "$EndSolution" ++ [LF]])
    else inr EValue.

  (** get_values_from (65-77): last word of every line *)
  Definition get_values_from (file : text) : res (list (fl F)) :=
    words <-- traverse (fun line => of_opt EIndex (py_nth (split line) (-1))) (readlines file) ;;
    traverse (fun w => of_opt EValue (fparse F w)) words.

  (** x[j - 1, a:b + 1] = v with a row of n entries: equal lengths, or one value for the whole slice *)
  Definition assign_slice (n a b : nat) (v row : list (fl F)) : res (list (fl F)) :=
    let hi := Nat.min (b + 1) n in
    let width := hi - a in
    if List.length v =? width then inl (firstn a row ++ v ++ skipn (a + width) row)
    else match v with
         | [x] => inl (firstn a row ++ repeat x width ++ skipn (a + width) row)
         | _ => inr EValue
         end.
  (** np.array([list(map(float, s.split())) for s in xtmp])[:, 0]; the second column must exist *)
  Definition first_column (xtmp : list text) : res (list (fl F)) :=
    rows <-- traverse (fun s => traverse (fun w => of_opt EValue (fparse F w)) (split s)) xtmp ;;
    match rows with
    | [] => inr EIndex
    | r0 :: _ => if forallb (fun r => List.length r =? List.length r0) rows
                 then if 2 <=? List.length r0 then inl (map (fun r => hd (fzero F) r) rows) else inr EIndex
                 else inr EValue
    end.
  (** getdp_read_resolution (80-135), the loop over the lines. State: x (rows), t, oldstep; j is the number of rows.
      [fuel] is at least the number of lines left. *)
  Fixpoint read_loop (fuel n : nat) (content : list text) (x : list (list (fl F))) (t : list (fl F)) (oldstep : Z)
    : res (list (fl F) * list (list (fl F))) :=
    match fuel, content with
    | _, [] => inl (t, x)
    | 0, _ => inl (t, x)
    | S fuel', line :: rest =>
        if contains (tx "$Solution") line then
          match rest with
          | [] => inr EIndex
          | header :: rest =>
              let tmp := split header in
              w0 <-- of_opt EIndex (nth_error tmp 0) ;;
              k0 <-- of_opt EValue (int_of w0) ;;
              w1 <-- of_opt EIndex (nth_error tmp 1) ;;
              t0 <-- of_opt EValue (fparse F w1) ;;
              w2 <-- of_opt EIndex (nth_error tmp 2) ;;
              _ <-- of_opt EValue (fparse F w2) ;;
              w3 <-- of_opt EIndex (nth_error tmp 3) ;;
              step <-- of_opt EValue (int_of w3) ;;
              if (1 + step <? oldstep)%Z then inr EUser
              else
                let new := (oldstep <? 1 + step)%Z in
                let x := if new then x ++ [repeat (fzero F) n] else x in
                let t := if new then t ++ [fzero F] else t in
                let oldstep := if new then (1 + step)%Z else oldstep in
                t <-- of_opt EIndex (py_upd t (Z.of_nat (List.length x) - 1) t0) ;;
                v <-- first_column (firstn n rest) ;;
                row <-- of_opt EIndex (py_nth x (Z.of_nat (List.length x) - 1)) ;;
                a <-- of_opt EIndex (py_nth [0; n] k0) ;;
                b <-- of_opt EIndex (py_nth [0; n] (1 + k0)) ;;
                row <-- assign_slice n a b v row ;;
                x <-- of_opt EIndex (py_upd x (Z.of_nat (List.length x) - 1) row) ;;
                read_loop fuel' n (skipn n rest) x t oldstep
          end
        else if contains (tx "$ResFormat") line then
          match rest with
          | [] => inr EIndex
          | version :: _ => if text_eqb (firstn 3 version) (tx "1.1") then read_loop fuel' n rest x t oldstep else inr EUser
          end
        else read_loop fuel' n rest x t oldstep
    end.
  (** np.max of an empty array raises ValueError *)
  Definition getdp_read_resolution (file : text) (n : nat) : res (list (fl F) * list (list (fl F))) :=
    let content := readlines file in
    tx <-- read_loop (List.length content) n content [] [] 0 ;;
    if (List.length (snd tx) =? 0) || (n =? 0) then inr EValue
    else if existsb (existsb (fnan F)) (snd tx) || existsb (fnan F) (fst tx) then inr EUser
    else inl tx.
End Files.

(** get_preresolution (26-38) *)
Definition get_preresolution (file : text) : res Z :=
  let content := readlines file in
  ind <-- of_opt EIndex (nth_error (np_where (contains (tx "$DofData")) content) 0) ;;
  line <-- of_opt EIndex (nth_error content (ind + 5)) ;;
  w <-- of_opt EIndex (py_nth (split line) (-1)) ;;
  of_opt EValue (int_of w).

(** Dictionaries: insertion order, a second assignment to a key keeps its place *)
Definition dict (X : Type) : Type := list (text * X).
Fixpoint dset {X : Type} (d : dict X) (k : text) (v : X) : dict X :=
  match d with
  | [] => [(k, v)]
  | (k', v') :: d' => if text_eqb k k' then (k', v) :: d' else (k', v') :: dset d' k v
  end.
Fixpoint dget {X : Type} (d : dict X) (k : text) : option X :=
  match d with [] => None | (k', v') :: d' => if text_eqb k k' then Some v' else dget d' k end.

(** pre_file (138-161) *)
Definition pre_row (st : dict text * dict text * list text) (ma : text) : res (dict text * dict text * list text) :=
  let '(cor_to_un, un_to_cor, boundary) := st in
  let row := split ma in
  w1 <-- of_opt EIndex (nth_error row 1) ;;
  w4 <-- of_opt EIndex (nth_error row 4) ;;
  if negb (text_eqb w4 (tx "0")) && negb (text_eqb w4 (tx "-1")) && negb (text_eqb w4 (tx "1"))
  then inl (dset cor_to_un w1 w4, dset un_to_cor w4 w1, boundary)
  else inl (cor_to_un, un_to_cor, boundary ++ [w1]).
Fixpoint pre_rows (l : list text) (st : dict text * dict text * list text) : res (dict text * dict text * list text) :=
  match l with [] => inl st | ma :: l' => st' <-- pre_row st ma ;; pre_rows l' st' end.
Definition pre_file (file : text) : res (dict text * dict text * list text) :=
  let content := readlines file in
  pre_rows (firstn (List.length content - 35 - 9) (skipn 9 content)) ([], [], []).
