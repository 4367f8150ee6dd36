(** C48: result files of GetDP. What set_resolution writes is what getdp_read_resolution reads, also after GetDP has appended
    further solutions; the last row is the last solution. *)
From Coq Require Import List ZArith Lia Arith Bool Sorted Ascii String DecimalString.
From Coq Require DecimalPos DecimalZ.
From Verif Require Import PyList ListFacts Getdp.
Import ListNotations.
Local Open Scope list_scope.

(** What is used of Python's floats: float(str(x)) = x, str(x) is one word without a dollar sign, "0" is a number. *)
Record float_io (F : Flt) : Prop := {
  io_parse : forall x, fparse F (fstr F x) = Some x;
  io_word : forall x, fstr F x <> [] /\ Forall (fun c => is_space c = false /\ c <> "$"%char) (fstr F x);
  io_zero : fparse F (tx "0") <> None
}.

(** A solution as GetDP stores it: time step number, time, and one line with real and imaginary part per unknown. *)
Record Solution (F : Flt) : Type := mkSol { sol_step : Z; sol_time : fl F; sol_vals : list (fl F * fl F) }.
Arguments sol_step {F}. Arguments sol_time {F}. Arguments sol_vals {F}. Arguments mkSol {F}.
Definition solution_text {F : Flt} (s : Solution F) : text :=
  tx "$Solution  /* DofData #0 */" ++ [LF] ++
  tx "0 " ++ fstr F (sol_time s) ++ tx " 0 " ++ int_str (sol_step s) ++ [LF] ++
  List.concat (map (fun p => fstr F (fst p) ++ tx " " ++ fstr F (snd p) ++ [LF]) (sol_vals s)) ++
  tx "$EndSolution" ++ [LF].
Definition file_text {F : Flt} (sols : list (Solution F)) : text :=
  tx "$ResFormat /* GetDP 2.10.0, ascii */" ++ [LF] ++ tx "1.1 0" ++ [LF] ++ tx "$EndResFormat" ++ [LF] ++ List.concat (map solution_text sols).

(** The last stored solution of every run of equal time step numbers. *)
Fixpoint last_per_step {F : Flt} (l : list (Solution F)) : list (Solution F) :=
  match l with
  | [] => []
  | s :: l' => match l' with
               | s' :: _ => if Z.eqb (sol_step s) (sol_step s') then last_per_step l' else s :: last_per_step l'
               | [] => [s]
               end
  end.
Definition real_parts {F : Flt} (s : Solution F) : list (fl F) := map fst (sol_vals s).
Definition has_nan {F : Flt} (s : Solution F) : bool := fnan F (sol_time s) || existsb (fnan F) (real_parts s).
Definition in_order {F : Flt} (sols : list (Solution F)) : Prop := Sorted (fun a b => (sol_step a <= sol_step b)%Z) sols.
(** A well-formed file: solutions with n unknowns and step numbers from 0 on. *)
Definition stored {F : Flt} (n : nat) (sols : list (Solution F)) : Prop :=
  Forall (fun s => List.length (sol_vals s) = n /\ (0 <= sol_step s)%Z) sols.

(** ** Text *)
Lemma lines_from_app l : forall cur rest, ~ In LF l -> lines_from cur (l ++ LF :: rest) = (cur ++ l ++ [LF]) :: lines_from [] rest.
Proof.
  induction l as [|c l IH]; intros cur rest H; cbn [app lines_from].
  - reflexivity.
  - destruct (Ascii.eqb_spec c LF) as [->|E]; [exfalso; apply H; left; reflexivity|].
    rewrite IH by (intros X; apply H; right; exact X). rewrite <- app_assoc. reflexivity.
Qed.
Lemma newlines_id l : ~ In CR l -> newlines l = l.
Proof.
  induction l as [|c l IH]; intros H; [reflexivity|]. cbn [newlines].
  destruct (Ascii.eqb_spec c CR) as [->|E]; [exfalso; apply H; left; reflexivity|].
  rewrite IH by (intros X; apply H; right; exact X). reflexivity.
Qed.
Definition word (w : text) : Prop := w <> [] /\ Forall (fun c => is_space c = false) w.
Lemma split_word w : forall cur rest, Forall (fun c => is_space c = false) w -> cur ++ w <> [] ->
  split_from cur (w ++ " "%char :: rest) = (cur ++ w) :: split_from [] rest.
Proof.
  induction w as [|c w IH]; intros cur rest H N; cbn [app split_from].
  - change (is_space " ") with true. cbn. destruct cur; [exfalso; apply N; reflexivity|]. rewrite app_nil_r. reflexivity.
  - inversion H; subst. rewrite H2, IH; auto; rewrite <- app_assoc; [reflexivity|exact N].
Qed.
Lemma split_last w : forall cur, Forall (fun c => is_space c = false) w -> cur ++ w <> [] -> split_from cur (w ++ [LF]) = [cur ++ w].
Proof.
  induction w as [|c w IH]; intros cur H N; cbn [app split_from].
  - change (is_space LF) with true. cbn. destruct cur; [exfalso; apply N; reflexivity|]. rewrite app_nil_r. reflexivity.
  - inversion H; subst. rewrite H2, IH; auto; rewrite <- app_assoc; [reflexivity|exact N].
Qed.
Lemma split_cons w rest : word w -> split (w ++ " "%char :: rest) = w :: split rest.
Proof. intros [N H]. unfold split. rewrite split_word; auto. Qed.
Lemma split_one w : word w -> split (w ++ [LF]) = [w].
Proof. intros [N H]. unfold split. rewrite split_last; auto. Qed.
Lemma contains_none c p l : ~ In c l -> contains (c :: p) l = false.
Proof.
  induction l as [|d l IH]; intros H; [reflexivity|]. cbn [contains prefix].
  destruct (Ascii.eqb_spec c d) as [->|E]; [exfalso; apply H; left; reflexivity|].
  cbn. apply IH. intros X. apply H. right. exact X.
Qed.

Lemma uint_chars d : Forall (fun c => is_space c = false /\ c <> "$"%char) (tx (NilEmpty.string_of_uint d)).
Proof. induction d; cbn [NilEmpty.string_of_uint tx list_ascii_of_string]; [constructor|..]; (constructor; [split; [reflexivity|discriminate]|exact IHd]). Qed.
Lemma int_chars z : int_str z <> [] /\ Forall (fun c => is_space c = false /\ c <> "$"%char) (int_str z).
Proof.
  unfold int_str. assert (K : forall d, tx (NilZero.string_of_uint d) <> [] /\ Forall (fun c => is_space c = false /\ c <> "$"%char) (tx (NilZero.string_of_uint d))).
  { intros d. split; [destruct d; discriminate|]. destruct d; cbn [NilZero.string_of_uint]; try exact (uint_chars _).
    constructor; [split; [reflexivity|discriminate]|constructor]. }
  destruct (Z.to_int z) as [d|d]; cbn [NilZero.string_of_int]; [apply K|]. split; [discriminate|].
  constructor; [split; [reflexivity|discriminate]|apply K].
Qed.
Lemma int_of_str z : int_of (int_str z) = Some z.
Proof.
  unfold int_of, int_str, tx. rewrite string_of_list_ascii_of_string, NilZero.isi.
  - cbn. f_equal. apply DecimalZ.of_to.
  - destruct z as [|p|p]; cbn; try discriminate. intros X. injection X as X. apply (DecimalPos.Unsigned.to_uint_nonnil p X).
  - destruct z as [|p|p]; cbn; try discriminate. intros X. injection X as X. apply (DecimalPos.Unsigned.to_uint_nonnil p X).
Qed.

Definition nl (l : text) : text := l ++ [LF].
Lemma readlines_nl ls : (forall l, In l ls -> ~ In LF l /\ ~ In CR l) -> readlines (List.concat (map nl ls)) = map nl ls.
Proof.
  intros H. unfold readlines. rewrite newlines_id.
  - induction ls as [|l ls IH]; [reflexivity|]. cbn [map List.concat]. unfold nl at 1. rewrite <- app_assoc. cbn [app].
    rewrite lines_from_app by (apply H; left; reflexivity). cbn [app]. f_equal. apply IH. intros x Hx. apply H. right. exact Hx.
  - intros X. apply in_concat in X as (y & Hy & X). apply in_map_iff in Hy as (l & <- & Hl). unfold nl in X. apply in_app_or in X as [X|[X|[]]].
    + exact (proj2 (H l Hl) X).
    + discriminate.
Qed.

Section Read.
  Variable F : Flt.
  Hypothesis IO : float_io F.
  Notation fl := (fl F).

  Definition sol_header (s : Solution F) : text := tx "0 " ++ fstr F (sol_time s) ++ tx " 0 " ++ int_str (sol_step s).
  Definition sol_row (p : fl * fl) : text := fstr F (fst p) ++ tx " " ++ fstr F (snd p).
  Definition sol_lines (s : Solution F) : list text :=
    [tx "$Solution  /* DofData #0 */"; sol_header s] ++ map sol_row (sol_vals s) ++ [tx "$EndSolution"].
  Definition file_lines (sols : list (Solution F)) : list text :=
    [tx "$ResFormat /* GetDP 2.10.0, ascii */"; tx "1.1 0"; tx "$EndResFormat"] ++ List.concat (map sol_lines sols).

  Lemma concat_map_nl (l : list (list text)) : List.concat (map nl (List.concat l)) = List.concat (map (fun x => List.concat (map nl x)) l).
  Proof. induction l as [|x l IH]; [reflexivity|]. cbn [List.concat map]. rewrite map_app, concat_app, IH. reflexivity. Qed.
  Lemma solution_text_lines s : solution_text s = List.concat (map nl (sol_lines s)).
  Proof.
    unfold solution_text, sol_lines. rewrite map_app, concat_app, map_app, concat_app. cbn [map List.concat]. unfold nl, sol_header.
    rewrite <- !app_assoc, map_map, (map_ext (fun x => sol_row x ++ [LF]) (fun p => fstr F (fst p) ++ tx " " ++ fstr F (snd p) ++ [LF])).
    - cbn [app]. reflexivity.
    - intros p. unfold sol_row. rewrite <- !app_assoc. reflexivity.
  Qed.
  Lemma file_text_lines sols : file_text sols = List.concat (map nl (file_lines sols)).
  Proof.
    unfold file_text, file_lines. rewrite map_app, concat_app, concat_map_nl. cbn [map List.concat]. unfold nl. rewrite <- !app_assoc.
    rewrite map_map, (map_ext (fun x => List.concat (map nl (sol_lines x))) solution_text) by (intros x; symmetry; apply solution_text_lines).
    reflexivity.
  Qed.

  Lemma word_ok x : word (fstr F x).
  Proof. destruct (io_word F IO x) as [H1 H2]. split; [exact H1|]. eapply Forall_impl; [|exact H2]. intros a [Ha _]. exact Ha. Qed.
  Lemma word_not (x : text) c : Forall (fun c => is_space c = false /\ c <> "$"%char) x -> is_space c = true \/ c = "$"%char -> ~ In c x.
  Proof. intros H K X. rewrite Forall_forall in H. destruct (H c X) as [H1 H2]. destruct K as [K|K]; congruence. Qed.
  Lemma float_not x c : is_space c = true \/ c = "$"%char -> ~ In c (fstr F x).
  Proof. apply word_not. apply (io_word F IO). Qed.
  Lemma int_not x c : is_space c = true \/ c = "$"%char -> ~ In c (int_str x).
  Proof. apply word_not. apply int_chars. Qed.
  Lemma row_not p c : c <> " "%char -> is_space c = true \/ c = "$"%char -> ~ In c (sol_row p).
  Proof.
    intros N K X. unfold sol_row in X. apply in_app_or in X as [X|X]; [exact (float_not _ _ K X)|].
    cbn [tx list_ascii_of_string app] in X. destruct X as [X|X]; [congruence|exact (float_not _ _ K X)].
  Qed.
  Lemma header_not s c : c <> " "%char -> c <> "0"%char -> is_space c = true \/ c = "$"%char -> ~ In c (sol_header s).
  Proof.
    intros N N0 K X. unfold sol_header in X. cbn [tx list_ascii_of_string app] in X. destruct X as [X|[X|X]]; try congruence.
    apply in_app_or in X as [X|X]; [exact (float_not _ _ K X)|].
    cbn in X. destruct X as [X|[X|[X|X]]]; try congruence. exact (int_not _ _ K X).
  Qed.
  Lemma lines_plain sols l : In l (file_lines sols) -> ~ In LF l /\ ~ In CR l.
  Proof.
    unfold file_lines. cbn [app]. intros [<-|[<-|[<-|H]]]; try (split; cbn; intuition discriminate).
    apply in_concat in H as (y & Hy & H). apply in_map_iff in Hy as (s & <- & _). unfold sol_lines in H. cbn [app] in H.
    destruct H as [<-|[<-|H]]; [split; cbn; intuition discriminate| |].
    - split; (apply header_not; [discriminate|discriminate|left; reflexivity]).
    - apply in_app_or in H as [H|[<-|[]]]; [|split; cbn; intuition discriminate].
      apply in_map_iff in H as (p & <- & _). split; (apply row_not; [discriminate|left; reflexivity]).
  Qed.
  Lemma readlines_file sols : readlines (file_text sols) = map nl (file_lines sols).
  Proof. rewrite file_text_lines. apply readlines_nl. intros l. apply lines_plain. Qed.

  Lemma split_header s : split (nl (sol_header s)) = [tx "0"; fstr F (sol_time s); tx "0"; int_str (sol_step s)].
  Proof.
    unfold nl, sol_header. cbn [tx list_ascii_of_string app]. rewrite <- !app_assoc. cbn [app]. 
    change ("0"%char :: " "%char :: fstr F (sol_time s) ++ " "%char :: "0"%char :: " "%char :: int_str (sol_step s) ++ [LF])
      with (["0"%char] ++ " "%char :: (fstr F (sol_time s) ++ " "%char :: (["0"%char] ++ " "%char :: (int_str (sol_step s) ++ [LF])))).
    assert (Z0 : word ["0"%char]) by (split; [discriminate|repeat constructor]).
    rewrite split_cons by exact Z0. rewrite split_cons by apply word_ok. rewrite split_cons by exact Z0. rewrite split_one; [reflexivity|].
    destruct (int_chars (sol_step s)) as [H1 H2]. split; [exact H1|]. eapply Forall_impl; [|exact H2]. intros a [Ha _]. exact Ha.
  Qed.
  Lemma split_row p : split (nl (sol_row p)) = [fstr F (fst p); fstr F (snd p)].
  Proof.
    unfold nl, sol_row. cbn [tx list_ascii_of_string app]. rewrite <- app_assoc. cbn [app].
    rewrite split_cons by apply word_ok. rewrite split_one by apply word_ok. reflexivity.
  Qed.
  Lemma first_column_rows l : l <> [] -> first_column F (map nl (map sol_row l)) = inl (map fst l).
  Proof.
    intros N. unfold first_column. rewrite map_map.
    assert (T : traverse (fun s => traverse (fun w => of_opt EValue (fparse F w)) (split s)) (map (fun x => nl (sol_row x)) l)
      = inl (map (fun p => [fst p; snd p]) l)).
    { clear N. induction l as [|p l IH]; [reflexivity|]. cbn [map traverse]. rewrite split_row. cbn [traverse].
      rewrite !(io_parse F IO). cbn [of_opt rbind]. rewrite IH. reflexivity. }
    rewrite T. cbn [rbind]. destruct l as [|p l]; [exfalso; apply N; reflexivity|]. cbn [map].
    replace (forallb _ _) with true.
    - cbn. rewrite map_map. reflexivity.
    - symmetry. apply forallb_forall. intros r [<-|Hr]; [reflexivity|]. apply in_map_iff in Hr as (q & <- & _). reflexivity.
  Qed.

  Lemma upd_last {X} (l : list X) (a b : X) : upd (l ++ [a]) (List.length l) b = l ++ [b].
  Proof. induction l as [|x l IH]; [reflexivity|]. cbn [app List.length upd]. rewrite IH. reflexivity. Qed.
  Lemma py_upd_last {X} (l : list X) (a b : X) : py_upd (l ++ [a]) (Z.of_nat (List.length (l ++ [a])) - 1) b = Some (l ++ [b]).
  Proof.
    unfold py_upd. rewrite app_length. cbn [List.length].
    replace (Z.of_nat (List.length l + 1) - 1)%Z with (Z.of_nat (List.length l)) by lia.
    rewrite (proj2 (Z.leb_le 0 _)) by lia. rewrite (proj2 (Z.ltb_lt _ _)) by lia. rewrite Nat2Z.id, upd_last. reflexivity.
  Qed.
  Lemma py_nth_last {X} (l : list X) (a : X) : py_nth (l ++ [a]) (Z.of_nat (List.length (l ++ [a])) - 1) = Some a.
  Proof.
    unfold py_nth. rewrite app_length. cbn [List.length].
    replace (Z.of_nat (List.length l + 1) - 1)%Z with (Z.of_nat (List.length l)) by lia.
    rewrite (proj2 (Z.leb_le 0 _)) by lia. rewrite Nat2Z.id, nth_error_app2, Nat.sub_diag by lia. reflexivity.
  Qed.
  Lemma assign_all n v row : List.length v = n -> List.length row = n -> assign_slice F n 0 n v row = inl v.
  Proof.
    intros Hv Hr. unfold assign_slice. replace (Nat.min (n + 1) n) with n by lia. rewrite Nat.sub_0_r, Hv, Nat.eqb_refl.
    rewrite Nat.add_0_l, skipn_all2 by lia. cbn [firstn app]. rewrite app_nil_r. reflexivity.
  Qed.

  Lemma read_end fuel n rest x t old : read_loop F (S fuel) n (nl (tx "$EndSolution") :: rest) x t old = read_loop F fuel n rest x t old.
  Proof. reflexivity. Qed.
  (** One stored solution. *)
  Lemma read_sol fuel n s rest x t old : n <> 0 -> List.length (sol_vals s) = n ->
    read_loop F (S (S fuel)) n (map nl (sol_lines s) ++ rest) x t old =
    if (1 + sol_step s <? old)%Z then inr EUser
    else
      let new := (old <? 1 + sol_step s)%Z in
      let x := if new then x ++ [repeat (fzero F) n] else x in
      let t := if new then t ++ [fzero F] else t in
      let oldstep := if new then (1 + sol_step s)%Z else old in
      t <-- of_opt EIndex (py_upd t (Z.of_nat (List.length x) - 1) (sol_time s)) ;;
      row <-- of_opt EIndex (py_nth x (Z.of_nat (List.length x) - 1)) ;;
      row <-- assign_slice F n 0 n (map fst (sol_vals s)) row ;;
      x <-- of_opt EIndex (py_upd x (Z.of_nat (List.length x) - 1) row) ;;
      read_loop F fuel n rest x t oldstep.
  Proof.
    intros Hn Hl.
    assert (FC : first_column F (firstn n (map nl (map sol_row (sol_vals s)) ++ nl (tx "$EndSolution") :: rest)) = inl (map fst (sol_vals s))).
    { rewrite firstn_app, firstn_all2 by (rewrite !map_length; lia). rewrite !map_length, Hl, Nat.sub_diag. cbn [firstn].
    rewrite app_nil_r. apply first_column_rows. intros X. rewrite X in Hl. cbn in Hl. lia. }
    assert (SK : skipn n (map nl (map sol_row (sol_vals s)) ++ nl (tx "$EndSolution") :: rest) = nl (tx "$EndSolution") :: rest).
    { rewrite skipn_app, skipn_all2 by (rewrite !map_length; lia). rewrite !map_length, Hl, Nat.sub_diag. reflexivity. }
    assert (E : map nl (sol_lines s) ++ rest = nl (tx "$Solution  /* DofData #0 */") :: nl (sol_header s) ::
    (map nl (map sol_row (sol_vals s)) ++ nl (tx "$EndSolution") :: rest)).
    { unfold sol_lines. rewrite !map_app, <- app_assoc, <- app_assoc. reflexivity. }
    destruct (fparse F (tx "0")) as [z0|] eqn:Ez; [|exfalso; exact (io_zero F IO Ez)].
    rewrite E. cbn [read_loop].
    change (contains (tx "$Solution") (nl (tx "$Solution  /* DofData #0 */"))) with true. cbv iota.
    rewrite split_header. cbn [nth_error of_opt rbind]. change (int_of (tx "0")) with (Some 0%Z). cbn [of_opt rbind].
    rewrite (io_parse F IO), Ez, int_of_str. cbn [of_opt rbind]. rewrite FC, SK. cbn [rbind].
    change (py_nth [0; n] 0) with (Some 0). change (py_nth [0; n] (1 + 0)) with (Some n). cbn [of_opt rbind].
    reflexivity.
  Qed.
  Lemma read_sol_new fuel n s rest x t old : n <> 0 -> List.length (sol_vals s) = n -> List.length x = List.length t -> (old < 1 + sol_step s)%Z ->
    read_loop F (S (S fuel)) n (map nl (sol_lines s) ++ rest) x t old =
    read_loop F fuel n rest (x ++ [real_parts s]) (t ++ [sol_time s]) (1 + sol_step s).
  Proof.
    intros Hn Hl Hxt Hs. rewrite read_sol by assumption. rewrite (proj2 (Z.ltb_ge _ _)) by lia. rewrite (proj2 (Z.ltb_lt _ _)) by lia. cbv zeta.
    replace (List.length (x ++ [repeat (fzero F) n])) with (List.length (t ++ [fzero F])) at 1 by (rewrite !app_length; simpl; lia).
    rewrite py_upd_last. cbn [of_opt rbind]. rewrite py_nth_last. cbn [of_opt rbind].
    rewrite assign_all by (rewrite ?map_length, ?repeat_length; lia). cbn [rbind]. rewrite py_upd_last. reflexivity.
  Qed.
  Lemma read_sol_same fuel n s rest x t r t1 : n <> 0 -> List.length (sol_vals s) = n -> List.length x = List.length t -> List.length r = n ->
    read_loop F (S (S fuel)) n (map nl (sol_lines s) ++ rest) (x ++ [r]) (t ++ [t1]) (1 + sol_step s) =
    read_loop F fuel n rest (x ++ [real_parts s]) (t ++ [sol_time s]) (1 + sol_step s).
  Proof.
    intros Hn Hl Hxt Hr. rewrite read_sol by assumption. rewrite (proj2 (Z.ltb_ge _ _)) by lia. cbv zeta iota.
    replace (List.length (x ++ [r])) with (List.length (t ++ [t1])) at 1 by (rewrite !app_length; simpl; lia).
    rewrite py_upd_last. cbn [of_opt rbind]. rewrite py_nth_last. cbn [of_opt rbind].
    rewrite assign_all by (rewrite ?map_length, ?repeat_length; lia). cbn [rbind]. rewrite py_upd_last. reflexivity.
  Qed.
  Lemma read_sol_old fuel n s rest x t old : n <> 0 -> List.length (sol_vals s) = n -> (1 + sol_step s < old)%Z ->
    read_loop F (S (S fuel)) n (map nl (sol_lines s) ++ rest) x t old = inr EUser.
  Proof. intros Hn Hl Hs. rewrite read_sol by assumption. rewrite (proj2 (Z.ltb_lt _ _)) by lia. reflexivity. Qed.

  Lemma read_sols n sols : n <> 0 -> forall c fuel x t, stored n (c :: sols) -> List.length x = List.length t -> 2 * List.length sols <= fuel ->
    in_order (c :: sols) ->
    read_loop F fuel n (map nl (List.concat (map sol_lines sols))) (x ++ [real_parts c]) (t ++ [sol_time c]) (1 + sol_step c) =
    inl (t ++ map sol_time (last_per_step (c :: sols)), x ++ map real_parts (last_per_step (c :: sols))).
  Proof.
    intros Hn. induction sols as [|s sols IH]; intros c fuel x t St L Fu Or.
    - destruct fuel; reflexivity.
    - cbn [map List.concat]. rewrite map_app. cbn [List.length] in Fu. destruct fuel as [|[|fuel]]; [lia..|].
      destruct (Forall_inv St) as [Lc Pc]. pose proof (Forall_inv_tail St) as St2. destruct (Forall_inv St2) as [Ls Ps].
      apply Sorted_inv in Or as [Or' Hd]. apply HdRel_inv in Hd.
      change (last_per_step (c :: s :: sols)) with (if Z.eqb (sol_step c) (sol_step s) then last_per_step (s :: sols) else c :: last_per_step (s :: sols)).
      destruct (Z.eqb_spec (sol_step c) (sol_step s)) as [E|E].
      + rewrite E, read_sol_same by (try assumption; unfold real_parts; rewrite ?map_length; assumption).
        apply (IH s fuel x t); auto. lia.
      + rewrite read_sol_new by (first [assumption|lia|rewrite !app_length; simpl; lia]).
        rewrite (IH s fuel (x ++ [real_parts c]) (t ++ [sol_time c])); auto; [|rewrite !app_length; simpl; lia|lia].
        cbn [map]. rewrite <- !app_assoc. reflexivity.
  Qed.
  Lemma read_sols_bad n sols : n <> 0 -> forall c fuel x t, stored n (c :: sols) -> List.length x = List.length t -> 2 * List.length sols <= fuel ->
    ~ in_order (c :: sols) ->
    read_loop F fuel n (map nl (List.concat (map sol_lines sols))) (x ++ [real_parts c]) (t ++ [sol_time c]) (1 + sol_step c) = inr EUser.
  Proof.
    intros Hn. induction sols as [|s sols IH]; intros c fuel x t St L Fu Or.
    - exfalso. apply Or. repeat constructor.
    - cbn [map List.concat]. rewrite map_app. cbn [List.length] in Fu. destruct fuel as [|[|fuel]]; [lia..|].
      destruct (Forall_inv St) as [Lc Pc]. pose proof (Forall_inv_tail St) as St2. destruct (Forall_inv St2) as [Ls Ps].
      destruct (Z_lt_ge_dec (sol_step s) (sol_step c)) as [D|D]; [apply read_sol_old; auto; lia|].
      assert (Or' : ~ in_order (s :: sols)) by (intros X; apply Or; constructor; [exact X|constructor; lia]).
      destruct (Z.eqb_spec (sol_step c) (sol_step s)) as [E|E].
      + rewrite E, read_sol_same by (try assumption; unfold real_parts; rewrite ?map_length; assumption).
        apply (IH s fuel x t); auto. lia.
      + rewrite read_sol_new by (first [assumption|lia|rewrite !app_length; simpl; lia]).
        apply (IH s fuel (x ++ [real_parts c]) (t ++ [sol_time c])); auto; [rewrite !app_length; simpl; lia|lia].
  Qed.
  Lemma sol_lines_length s : 3 <= List.length (sol_lines s).
  Proof. unfold sol_lines. rewrite !app_length. simpl. lia. Qed.
  Lemma all_lines_length sols : 3 * List.length sols <= List.length (List.concat (map sol_lines sols)).
  Proof. induction sols as [|s l IH]; [simpl; lia|]. cbn [map List.concat List.length]. rewrite app_length. pose proof (sol_lines_length s). lia. Qed.
  Lemma read_file n c sols : n <> 0 -> stored n (c :: sols) ->
    exists fuel, 2 * List.length sols <= fuel /\
    getdp_read_resolution F (file_text (c :: sols)) n =
    rbind (read_loop F fuel n (map nl (List.concat (map sol_lines sols))) ([] ++ [real_parts c]) ([] ++ [sol_time c]) (1 + sol_step c))
      (fun tx => if (List.length (snd tx) =? 0) || (n =? 0) then inr EValue
                 else if existsb (existsb (fnan F)) (snd tx) || existsb (fnan F) (fst tx) then inr EUser else inl tx).
  Proof.
    intros Hn St. destruct (Forall_inv St) as [Lc Pc].
    set (m := List.length (map nl (file_lines (c :: sols)))).
    assert (Hm : 3 + 3 + 3 * List.length sols <= m).
    { unfold m. rewrite map_length. unfold file_lines. rewrite app_length. cbn [List.length map List.concat]. rewrite app_length.
      pose proof (sol_lines_length c). pose proof (all_lines_length sols). lia. }
    destruct m as [|[|[|[|[|fuel]]]]] eqn:Em; [lia..|]. exists fuel. split; [lia|].
    unfold getdp_read_resolution. rewrite readlines_file. fold m. rewrite Em. unfold file_lines. rewrite map_app. cbn [map List.concat]. rewrite map_app.
    cbn [app]. 
    change (read_loop F (S (S (S (S (S fuel))))) n
      (nl (tx "$ResFormat /* GetDP 2.10.0, ascii */") :: nl (tx "1.1 0") :: nl (tx "$EndResFormat") :: map nl (sol_lines c) ++ map nl (List.concat (map sol_lines sols))) [] [] 0)
      with (read_loop F (S (S fuel)) n (map nl (sol_lines c) ++ map nl (List.concat (map sol_lines sols))) [] [] 0).
    rewrite read_sol_new by (try reflexivity; try assumption; lia). reflexivity.
  Qed.
End Read.

(** ** C48 *)
(** All solutions of a file are read; of several solutions for one time step the last one counts; imaginary parts are
    ignored; a NaN is reported. *)
Theorem C48_read_all : forall (F : Flt), float_io F -> forall n (sols : list (Solution F)), n <> 0 -> sols <> [] -> stored n sols -> in_order sols ->
  getdp_read_resolution F (file_text sols) n =
    if existsb has_nan (last_per_step sols) then inr EUser
    else inl (map sol_time (last_per_step sols), map real_parts (last_per_step sols)).
Proof.
  intros F IO n sols Hn N St Or. destruct sols as [|c sols]; [exfalso; apply N; reflexivity|].
  destruct (read_file F IO n c sols Hn St) as (fuel & Fu & ->). rewrite (read_sols F IO n sols Hn c fuel [] []); auto. cbn [rbind app fst snd].
  assert (NE : last_per_step (c :: sols) <> []).
  { clear. revert c. induction sols as [|s sols IH]; intros c; [discriminate|]. 
    change (last_per_step (c :: s :: sols)) with (if Z.eqb (sol_step c) (sol_step s) then last_per_step (s :: sols) else c :: last_per_step (s :: sols)).
    destruct (Z.eqb (sol_step c) (sol_step s)); [apply IH|discriminate]. }
  rewrite map_length. destruct (last_per_step (c :: sols)) as [|k l]; [exfalso; apply NE; reflexivity|].
  rewrite (proj2 (Nat.eqb_neq n 0) Hn). cbn [List.length Nat.eqb orb].
  replace (existsb (existsb (fnan F)) (map real_parts (k :: l)) || existsb (fnan F) (map sol_time (k :: l))) with (existsb has_nan (k :: l)); [reflexivity|].
  generalize (k :: l) as q. clear. induction q as [|k l IH]; [reflexivity|]. cbn [existsb map]. rewrite IH. unfold has_nan.
  destruct (fnan F (sol_time k)), (existsb (fnan F) (real_parts k)), (existsb (existsb (fnan F)) (map real_parts l)), (existsb (fnan F) (map sol_time l)); reflexivity.
Qed.
(** Step numbers that go down are reported. *)
Theorem C48_order_checked : forall (F : Flt), float_io F -> forall n (sols : list (Solution F)), n <> 0 -> stored n sols -> ~ in_order sols ->
  getdp_read_resolution F (file_text sols) n = inr EUser.
Proof.
  intros F IO n sols Hn St Or. destruct sols as [|c sols]; [exfalso; apply Or; constructor|].
  destruct (read_file F IO n c sols Hn St) as (fuel & Fu & ->). rewrite (read_sols_bad F IO n sols Hn c fuel [] []); auto.
Qed.

(** What set_resolution writes is a file with one solution (time step 0). *)
Lemma set_resolution_text F t u : u <> [] -> set_resolution F t u (List.length u) = inl (file_text [mkSol 0 t (map (fun x => (x, fzero F)) u)]).
Proof.
  intros N. unfold set_resolution. rewrite firstn_all, Nat.eqb_refl. f_equal. unfold file_text, solution_text.
  cbn [map List.concat sol_step sol_time sol_vals]. rewrite map_map. cbn [fst snd].
  assert (J : join [LF] (map (fun x => join (tx " ") [fstr F x; fstr F (fzero F)]) u) ++ [LF] =
    List.concat (map (fun x => fstr F x ++ tx " " ++ fstr F (fzero F) ++ [LF]) u)).
  { clear t. induction u as [|x u IH]; [exfalso; apply N; reflexivity|]. destruct u as [|y u].
    - cbn [map join List.concat]. rewrite <- !app_assoc. reflexivity.
    - specialize (IH ltac:(discriminate)). cbn [map List.concat]. cbn [map List.concat] in IH. rewrite <- IH. cbn [join]. rewrite <- !app_assoc. reflexivity. }
  cbn [join]. rewrite app_nil_r, <- J. rewrite <- !app_assoc. reflexivity.
Qed.
(** The file written for GetDP contains exactly the time and the values of the vector. *)
Theorem C48_write_read : forall (F : Flt), float_io F -> forall t u, u <> [] -> fnan F t = false -> existsb (fnan F) u = false ->
  exists file, set_resolution F t u (List.length u) = inl file /\ getdp_read_resolution F file (List.length u) = inl ([t], [u]).
Proof.
  intros F IO t u N Ht Hu. exists (file_text [mkSol 0 t (map (fun x => (x, fzero F)) u)]). split; [apply set_resolution_text; exact N|].
  rewrite C48_read_all; auto.
  - unfold last_per_step. cbn [existsb map]. unfold has_nan, real_parts. cbn [sol_time sol_vals]. rewrite map_map. cbn [fst]. rewrite map_id, Ht, Hu. reflexivity.
  - destruct u; [exfalso; apply N; reflexivity|discriminate].
  - discriminate.
  - constructor; [|constructor]. cbn. rewrite map_length. split; [reflexivity|discriminate].
  - repeat constructor.
Qed.
(** After GetDP has appended the solutions of the following time steps, the last row, which InductionMachine.step uses
    (soli['y'][-1]), is the last one of them, and no row is lost. *)
Theorem C48_restart : forall (F : Flt), float_io F -> forall t u sols last, stored (List.length u) (sols ++ [last]) -> u <> [] ->
  StronglySorted (fun a b => (sol_step a < sol_step b)%Z) (sols ++ [last]) -> Forall (fun s => (0 < sol_step s)%Z) (sols ++ [last]) ->
  fnan F t = false -> existsb (fnan F) u = false -> existsb has_nan (sols ++ [last]) = false ->
  exists file ts ys, set_resolution F t u (List.length u) = inl file /\
    getdp_read_resolution F (file ++ List.concat (map solution_text (sols ++ [last]))) (List.length u) = inl (ts, ys) /\
    List.length ys = S (S (List.length sols)) /\ py_nth ys (-1) = Some (real_parts last) /\ py_nth ts (-1) = Some (sol_time last).
Proof.
  intros F IO t u sols last St N So Po Ht Hu Hs. set (first := mkSol 0 t (map (fun x => (x, fzero F)) u)).
  assert (K : last_per_step (first :: sols ++ [last]) = first :: sols ++ [last]).
  { clear - So Po. assert (X : StronglySorted (fun a b => (sol_step a < sol_step b)%Z) (first :: sols ++ [last])) by (constructor; [exact So|exact Po]).
    revert X. generalize (first :: sols ++ [last]) as l. clear. induction l as [|a l IH]; intros H; [reflexivity|].
    apply StronglySorted_inv in H as [H1 H2]. cbn [last_per_step]. destruct l as [|b l]; [reflexivity|]. pose proof (Forall_inv H2) as Hab. cbv beta in Hab.
    destruct (Z.eqb_spec (sol_step a) (sol_step b)); [lia|]. rewrite IH by exact H1. reflexivity. }
  exists (file_text [first]), (map sol_time (first :: sols ++ [last])), (map real_parts (first :: sols ++ [last])).
  split; [apply set_resolution_text; exact N|]. split; [|split; [|split]].
  - replace (file_text [first] ++ List.concat (map solution_text (sols ++ [last]))) with (file_text (first :: sols ++ [last])).
    + rewrite (C48_read_all F IO (List.length u)).
      * rewrite K. cbn [existsb]. rewrite Hs. unfold has_nan, real_parts, first. cbn [sol_time sol_vals]. rewrite map_map. cbn [fst]. rewrite map_id, Ht, Hu. reflexivity.
      * destruct u; [exfalso; apply N; reflexivity|discriminate].
      * discriminate.
      * constructor; [|exact St]. unfold first. cbn. rewrite map_length. split; [reflexivity|discriminate].
      * apply StronglySorted_Sorted. constructor.
        -- clear - So. induction So as [|a l H IH Q]; constructor; auto. eapply Forall_impl; [|exact Q]. cbn. intros; lia.
        -- eapply Forall_impl; [|exact Po]. unfold first. cbn [sol_step]. intros a Ha. lia.
    + unfold file_text. cbn [map List.concat]. rewrite app_nil_r, <- !app_assoc. reflexivity.
  - cbn [map List.length]. rewrite map_length, app_length. simpl. lia.
  - cbn [map]. rewrite map_app. cbn [map]. rewrite app_comm_cons. unfold py_nth. cbn [Z.leb Z.compare].
    replace (0 <=? Z.of_nat (List.length ((real_parts first :: map real_parts sols) ++ [real_parts last])) + -1)%Z with true by (symmetry; apply Z.leb_le; rewrite app_length; simpl List.length; lia).
    rewrite app_length. cbn [List.length]. replace (Z.to_nat _) with (S (List.length (map real_parts sols))) by lia.
    rewrite nth_error_app2 by (cbn [List.length]; lia). cbn [List.length]. rewrite Nat.sub_diag. reflexivity.
  - cbn [map]. rewrite map_app. cbn [map]. rewrite app_comm_cons. unfold py_nth. cbn [Z.leb Z.compare].
    replace (0 <=? Z.of_nat (List.length ((sol_time first :: map sol_time sols) ++ [sol_time last])) + -1)%Z with true by (symmetry; apply Z.leb_le; rewrite app_length; simpl List.length; lia).
    rewrite app_length. cbn [List.length]. replace (Z.to_nat _) with (S (List.length (map sol_time sols))) by lia.
    rewrite nth_error_app2 by (cbn [List.length]; lia). cbn [List.length]. rewrite Nat.sub_diag. reflexivity.
Qed.

(** get_values_from returns the last word of every line, whatever stands before it. *)
Lemma split_before a : forall cur rest, exists pre, split_from cur (a ++ " "%char :: rest) = pre ++ split_from [] rest.
Proof.
  induction a as [|c a IH]; intros cur rest; cbn [app split_from].
  - change (is_space " ") with true. cbv iota. destruct cur; [exists []|eexists [_]]; reflexivity.
  - destruct (is_space c); [|apply IH]. destruct cur as [|d cur]; [apply IH|]. destruct (IH [] rest) as (pre & ->). exists ((d :: cur) :: pre). reflexivity.
Qed.
Theorem C48_values : forall (F : Flt), float_io F -> forall rows : list (text * fl F),
  Forall (fun r => ~ In LF (fst r) /\ ~ In CR (fst r)) rows ->
  get_values_from F (List.concat (map (fun r : text * fl F => fst r ++ tx " " ++ fstr F (snd r) ++ [LF]) rows)) = inl (map snd rows).
Proof.
  intros F IO rows H. unfold get_values_from.
  replace (map (fun r : text * fl F => fst r ++ tx " " ++ fstr F (snd r) ++ [LF]) rows) with (map nl (map (fun r : text * fl F => fst r ++ tx " " ++ fstr F (snd r)) rows))
    by (rewrite map_map; apply map_ext; intros r; unfold nl; rewrite <- !app_assoc; reflexivity).
  rewrite readlines_nl.
  - rewrite map_map. assert (T : traverse (fun line => of_opt EIndex (py_nth (split line) (-1))) (map (fun x : text * fl F => nl (fst x ++ tx " " ++ fstr F (snd x))) rows) = inl (map (fun r => fstr F (snd r)) rows)).
    { clear H. induction rows as [|r rows IH]; [reflexivity|]. cbn [map traverse].
      destruct (split_before (fst r) [] (fstr F (snd r) ++ [LF])) as (pre & E).
      assert (E' : split (nl (fst r ++ tx " " ++ fstr F (snd r))) = pre ++ split (fstr F (snd r) ++ [LF]))
        by (unfold split, nl; rewrite <- !app_assoc; exact E).
      rewrite E'. rewrite split_one by (apply word_ok; exact IO).
      unfold py_nth at 1. cbn [Z.leb Z.compare]. rewrite (proj2 (Z.leb_le 0 _)) by (rewrite app_length; simpl; lia).
      rewrite app_length. cbn [List.length]. replace (Z.to_nat _) with (List.length pre) by lia.
      rewrite nth_error_app2, Nat.sub_diag by lia. cbn [nth_error of_opt rbind]. rewrite IH. reflexivity. }
    rewrite T. cbn [rbind]. clear - IO. induction rows as [|r rows IH]; [reflexivity|]. cbn [map traverse]. rewrite (io_parse F IO). cbn [of_opt rbind].
    rewrite IH. reflexivity.
  - intros l Hl. apply in_map_iff in Hl as (r & <- & Hr). rewrite Forall_forall in H. destruct (H r Hr) as [H1 H2].
    split; intros X; (apply in_app_or in X as [X|X]; [contradiction|]); cbn [tx list_ascii_of_string app] in X;
      (destruct X as [X|X]; [discriminate|]); revert X; (apply float_not; [exact IO|left; reflexivity]).
Qed.

(** The number of unknowns: last word of the fifth line after the first line that mentions $DofData. *)
Lemma prefix_ok p : forall l, prefix p l = true <-> exists b, l = p ++ b.
Proof.
  induction p as [|c p IH]; intros l; simpl; [split; eauto|]. destruct l as [|d l]; [split; [discriminate|intros (b & E); discriminate]|].
  rewrite andb_true_iff, IH. split.
  - intros [E (b & ->)]. apply Ascii.eqb_eq in E. subst d. eauto.
  - intros (b & E). injection E as -> ->. rewrite Ascii.eqb_refl. eauto.
Qed.
Lemma contains_ok p l : contains p l = true <-> exists a b, l = a ++ p ++ b.
Proof.
  induction l as [|c l IH]; simpl; rewrite orb_true_iff, prefix_ok.
  - split; [intros [(b & E)|E]; [exists [], b; exact E|discriminate]|]. intros (a & b & E). left. exists b. destruct a; [exact E|discriminate].
  - rewrite IH. split; [intros [(b & E)|(a & b & ->)]; [exists [], b; exact E|exists (c :: a), b; reflexivity]|].
    intros (a & b & E). destruct a as [|d a]; [left; exists b; exact E|]. injection E as -> ->. right. eauto.
Qed.
Lemma np_where_from {X} (f : X -> bool) a x b : (forall y, In y a -> f y = false) -> f x = true -> nth_error (np_where f (a ++ x :: b)) 0 = Some (List.length a).
Proof.
  intros Ha Hx. unfold np_where. assert (G : forall i, nth_error (where_from i f (a ++ x :: b)) 0 = Some (i + List.length a)); [|apply (G 0)].
  induction a as [|y a IH]; intros i; cbn [app where_from List.length].
  - rewrite Hx. simpl. f_equal. lia.
  - rewrite (Ha y) by (left; reflexivity). rewrite IH by (intros z Hz; apply Ha; right; exact Hz). f_equal. lia.
Qed.
Theorem C48_preresolution : forall (before after : list text) (dofdata l1 l2 l3 l4 row : text) (n : Z),
  (forall l, In l (before ++ dofdata :: l1 :: l2 :: l3 :: l4 :: row :: after) -> ~ In LF l /\ ~ In CR l) ->
  (forall l a b, In l before -> l <> a ++ tx "$DofData" ++ b) -> (exists a b, dofdata = a ++ tx "$DofData" ++ b) ->
  (exists a, row = a ++ tx " " ++ int_str n) ->
  get_preresolution (List.concat (map (fun l => l ++ [LF]) (before ++ dofdata :: l1 :: l2 :: l3 :: l4 :: row :: after))) = inl n.
Proof.
  intros before after dofdata l1 l2 l3 l4 row n Hl Hb (a & b & E) (c & Er). unfold get_preresolution.
  change (fun l : list ascii => l ++ [LF]) with nl. rewrite readlines_nl by exact Hl. rewrite map_app. cbn [map].
  rewrite np_where_from.
  - cbn [of_opt rbind]. rewrite nth_error_app2 by (rewrite map_length; lia). rewrite map_length.
    replace (List.length before + 5 - List.length before) with 5 by lia. cbn [nth_error of_opt rbind]. subst row.
    destruct (split_before c [] (int_str n ++ [LF])) as (pre & E').
    assert (E2 : split (nl (c ++ tx " " ++ int_str n)) = pre ++ split (int_str n ++ [LF])) by (unfold split, nl; rewrite <- !app_assoc; exact E').
    rewrite E2. rewrite split_one.
    2:{ destruct (int_chars n) as [N1 N2]. split; [exact N1|]. eapply Forall_impl; [|exact N2]. intros x Hx. apply Hx. }
    unfold py_nth. cbn [Z.leb Z.compare]. rewrite (proj2 (Z.leb_le 0 _)) by (rewrite app_length; simpl; lia).
    rewrite app_length. cbn [List.length]. replace (Z.to_nat _) with (List.length pre) by lia.
    rewrite nth_error_app2, Nat.sub_diag by lia. cbn [nth_error of_opt rbind]. rewrite int_of_str. reflexivity.
  - intros y Hy. apply in_map_iff in Hy as (l & <- & Hy). destruct (contains (tx "$DofData") (nl l)) eqn:C; [|reflexivity]. exfalso.
    apply contains_ok in C as (a' & b' & C). unfold nl in C. destruct b' as [|d b' _] using rev_ind.
    + rewrite app_nil_r in C. change (tx "$DofData") with (tx "$DofDat" ++ ["a"%char]) in C. rewrite app_assoc in C. apply app_inj_tail in C. destruct C as [_ C]. discriminate.
    + rewrite !app_assoc in C. apply app_inj_tail in C as [C _]. rewrite <- app_assoc in C. apply (Hb l a' b' Hy C).
  - apply contains_ok. exists a, (b ++ [LF]). rewrite E. unfold nl. rewrite <- !app_assoc. reflexivity.
Qed.
Example C48_preresolution_example : get_preresolution (tx "$Group
1 2
$DofData  /* #0 */
0 0
1 6
0
1 6 1 0 0
1340 1265
$EndDofData
") = inl 1265%Z.
Proof. reflexivity. Qed.

(** ** Examples: numbers with one kind of NaN *)
Definition zflt : Flt := mkFlt (option Z) (fun x => match x with Some z => int_str z | None => tx "nan" end)
  (fun s => if text_eqb s (tx "nan") then Some None else option_map Some (int_of s)) (Some 0%Z) (fun x => match x with None => true | _ => false end).
Lemma zflt_io : float_io zflt.
Proof.
  constructor.
  - intros [z|]; [|reflexivity]. cbn [zflt fparse fstr]. unfold text_eqb. destruct (list_eq_dec ascii_dec (int_str z) (tx "nan")) as [E|E].
    + pose proof (int_of_str z) as X. rewrite E in X. discriminate.
    + rewrite int_of_str. reflexivity.
  - intros [z|]; [apply int_chars|]. cbn. split; [discriminate|]. repeat constructor; discriminate.
  - vm_compute. discriminate.
Qed.
Example C48_file_example : set_resolution zflt (Some 7%Z) [Some 12%Z; Some (-3)%Z] 2 =
  inl (tx "$ResFormat /* GetDP 2.10.0, ascii */
1.1 0
$EndResFormat
$Solution  /* DofData #0 */
0 7 0 0
12 0
-3 0
$EndSolution
").
Proof. vm_compute. reflexivity. Qed.
Example C48_hypotheses_hold :
  let sols := [mkSol (F := zflt) 1 (Some 8%Z) [(Some 5%Z, Some 1%Z); (Some 6%Z, None)]; mkSol (F := zflt) 2 (Some 9%Z) [(Some 4%Z, Some 0%Z); (Some (-10)%Z, Some 2%Z)]] in
  float_io zflt /\ stored 2 sols /\ in_order sols /\ StronglySorted (fun a b => (sol_step a < sol_step b)%Z) sols /\ existsb has_nan sols = false /\
  match set_resolution zflt (Some 7%Z) [Some 12%Z; Some (-3)%Z] 2 with
  | inl file => getdp_read_resolution zflt (file ++ List.concat (map solution_text sols)) 2 =
      inl ([Some 7; Some 8; Some 9], [[Some 12; Some (-3)]; [Some 5; Some 6]; [Some 4; Some (-10)]])%Z
  | inr _ => False
  end.
Proof.
  cbv zeta. split; [exact zflt_io|]. split; [repeat constructor; cbn; lia|]. split; [repeat constructor; cbn; lia|]. split; [repeat constructor; cbn; lia|].
  split; [reflexivity|]. vm_compute. reflexivity.
Qed.
Example C48_disorder_example :
  let sols := [mkSol (F := zflt) 3 (Some 8%Z) [(Some 5%Z, Some 1%Z)]; mkSol (F := zflt) 2 (Some 9%Z) [(Some 4%Z, Some 0%Z)]] in
  stored 1 sols /\ ~ in_order sols /\ getdp_read_resolution zflt (file_text sols) 1 = inr EUser.
Proof.
  cbv zeta. split; [repeat constructor; cbn; lia|]. split; [|vm_compute; reflexivity].
  intros X. apply Sorted_inv in X as [_ X]. apply HdRel_inv in X. cbn in X. lia.
Qed.
Example C48_values_example : get_values_from zflt (tx "0.1 2
 time 0.2   -15
") = inl [Some 2; Some (-15)]%Z /\ get_values_from zflt (tx "0.1 2

") = inr EIndex.
Proof. split; vm_compute; reflexivity. Qed.

Print Assumptions C48_read_all.
Print Assumptions C48_order_checked.
Print Assumptions C48_write_read.
Print Assumptions C48_restart.
Print Assumptions C48_values.
Print Assumptions C48_preresolution.
