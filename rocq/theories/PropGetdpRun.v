(** C62: time steps computed by GetDP. If GetDP does what its options say, then InductionMachine.step returns the last solution of
    GetDP's time loop and its last output values; a sequence of steps is one uninterrupted run of GetDP. *)
From Coq Require Import List ZArith Lia Arith Bool Sorted Ascii String DecimalString.
From Verif Require Import PyList ListFacts Vectors Getdp PropGetdp GetdpRun.
Import ListNotations.
Local Open Scope list_scope.

(** ** What is assumed of GetDP *)
(** Arguments of a call: options with a number or a string *)
Definition option_words (o : text * oval) : list text :=
  match snd o with ONum s => [tx "-setnumber"; fst o; s] | OStr s => [tx "-setstring"; fst o; s] end.
Definition arguments (pro : text) (what : list text) (msh nm rs tmax dt rd : text) (opts : list (text * oval)) : list text :=
  pro :: what ++ [tx "-msh"; msh; tx "-name"; nm; tx "-res"; rs; tx "-setnumber"; tx "timemax"; tmax; tx "-setnumber"; tx "dtime"; dt;
                  tx "-setstring"; tx "ResDir"; rd] ++ flat_map option_words opts.
(** A .pre file for n unknowns *)
Definition announces (n : nat) (file : text) : Prop :=
  exists before after dofdata l1 l2 l3 l4 row,
    (forall l, In l (before ++ dofdata :: l1 :: l2 :: l3 :: l4 :: row :: after) -> ~ In LF l /\ ~ In CR l) /\
    (forall l a b, In l before -> l <> a ++ tx "$DofData" ++ b) /\ (exists a b, dofdata = a ++ tx "$DofData" ++ b) /\
    (exists a, row = a ++ tx " " ++ int_str (Z.of_nat n)) /\
    file = List.concat (map (fun l => l ++ [LF]) (before ++ dofdata :: l1 :: l2 :: l3 :: l4 :: row :: after)).
(** One time step of GetDP: time, unknowns, output values *)
Record Out (F : Flt) : Type := mkOut { o_time : fl F; o_u : list (fl F); o_sc : MScal F }.
Arguments mkOut {F}. Arguments o_time {F}. Arguments o_u {F}. Arguments o_sc {F}.
Definition quantities (F : Flt) : list (text * (MScal F -> fl F)) :=
  [(tx "JL", s_jl F); (tx "Ia", s_ia F); (tx "Ib", s_ib F); (tx "Ic", s_ic F); (tx "Ua", s_ua F); (tx "Ub", s_ub F); (tx "Uc", s_uc F); (tx "Tr", s_tr F)].
Fixpoint numbered {F : Flt} (k : Z) (outs : list (Out F)) : list (Solution F) :=
  match outs with [] => [] | o :: outs' => mkSol k (o_time o) (map (fun x => (x, fzero F)) (o_u o)) :: numbered (k + 1) outs' end.
Definition rows_text {F : Flt} (rows : list (text * fl F)) : text :=
  List.concat (map (fun r : text * fl F => fst r ++ tx " " ++ fstr F (snd r) ++ [LF]) rows).

(** [advance tmax dt t u]: the time steps GetDP takes from the values u at time t *)
Record getdp_does (F : Flt) (exec : Exec) (exe pro msh : text) (opts : list (text * oval)) (n : nat)
    (advance : fl F -> fl F -> fl F -> list (fl F) -> list (Out F)) : Prop := {
  does_pre : forall tmax dt nm rs rd fs, exists fs' pre,
    exec exe (arguments pro [tx "-pre"; tx "#1"] msh nm rs (fstr F tmax) (fstr F dt) rd opts) fs = (fs', 0%Z) /\
    fs' (nm ++ tx ".pre") = Some pre /\ announces n pre;
  does_restart : forall tmax dt t u nm rs rd fs pre outs o,
    fs (nm ++ tx ".pre") = Some pre -> announces n pre ->
    List.length u = n -> fnan F t = false -> existsb (fnan F) u = false ->
    fs rs = Some (file_text [mkSol 0 t (map (fun x => (x, fzero F)) u)]) ->
    (forall q, In q (quantities F) -> rd ++ fst q ++ tx ".dat" <> rs) ->
    advance tmax dt t u = outs ++ [o] ->
    exists fs', exec exe (arguments pro [tx "-restart"] msh nm rs (fstr F tmax) (fstr F dt) rd opts) fs = (fs', 0%Z) /\
      fs' rs = Some (file_text (mkSol 0 t (map (fun x => (x, fzero F)) u) :: numbered 1 (outs ++ [o]))) /\
      forall q, In q (quantities F) -> exists rows label,
        Forall (fun r => ~ In LF (fst r) /\ ~ In CR (fst r)) (rows ++ [(label, snd q (o_sc o))]) /\
        fs' (rd ++ fst q ++ tx ".dat") = Some (rows_text (rows ++ [(label, snd q (o_sc o))]))
}.

(** ** Paths and words *)
Definition plain_text (w : text) : Prop := Forall (fun c => plain c = true) w.
Definition plain_word (w : text) : Prop := w <> [] /\ plain_text w.

Lemma rpart_app c p : fst (rpart c p) ++ snd (rpart c p) = p.
Proof.
  induction p as [|x p IH]; [reflexivity|]. cbn [rpart]. destruct (rpart c p) as [h t]. cbn [fst snd] in IH. subst p.
  destruct h as [|y h]; [destruct (Ascii.eqb x c)|]; reflexivity.
Qed.
Lemma rpart_tail c p : ~ In c (snd (rpart c p)).
Proof.
  induction p as [|x p IH]; [intros []|]. cbn [rpart]. destruct (rpart c p) as [h t]. cbn [snd] in IH. destruct h as [|y h]; [|exact IH].
  destruct (Ascii.eqb_spec x c); [exact IH|]. cbn. intros [E|E]; contradiction.
Qed.
Lemma split_tail_no_slash p : ~ In SL (snd (os_split p)).
Proof. unfold os_split. pose proof (rpart_tail SL p) as H. destruct (rpart SL p) as [h t]. exact H. Qed.
Lemma in_lstrip c p x : In x (lstrip c p) -> In x p.
Proof. induction p as [|y p IH]; [auto|]. cbn [lstrip]. destruct (Ascii.eqb y c); [intros H; right; auto|auto]. Qed.
Lemma split_in p x : In x (fst (os_split p)) \/ In x (snd (os_split p)) -> In x p.
Proof.
  intros H. rewrite <- (rpart_app SL p). unfold os_split in H. destruct (rpart SL p) as [h t]. cbn [fst snd] in *. apply in_or_app.
  destruct H as [H|H]; [left|right; exact H]. destruct (forallb (Ascii.eqb SL) h); [exact H|].
  unfold rstrip in H. apply in_rev in H. apply in_lstrip in H. apply in_rev. exact H.
Qed.
Lemma in_removelast {X} (l : list X) x : In x (removelast l) -> In x l.
Proof. induction l as [|y l IH]; [auto|]. cbn [removelast]. destruct l as [|z l]; [intros []|]. intros [E|E]; [left; exact E|right; apply IH; exact E]. Qed.
Lemma splitext_in p x : In x (fst (os_splitext p)) -> In x p.
Proof.
  intros H. unfold os_splitext in H. pose proof (rpart_app "." p) as E. destruct (rpart "." p) as [h t]. cbn [fst snd] in E.
  destruct h as [|y h]; [exact H|]. destruct (forallb (Ascii.eqb ".") (removelast (y :: h))); [exact H|].
  cbn [fst] in H. rewrite <- E. apply in_or_app. left. apply in_removelast. exact H.
Qed.
(** Names in a directory *)
Definition in_dir (d x : text) : text := match rev d with [] => x | y :: _ => if Ascii.eqb y SL then d ++ x else d ++ SL :: x end.
Lemma os_join_dir d x : ~ In SL x -> x <> [] -> os_join d x = in_dir d x.
Proof.
  intros H N. unfold os_join, in_dir. destruct x as [|c x]; [contradiction|].
  destruct (Ascii.eqb_spec c SL) as [->|E]; [exfalso; apply H; left; reflexivity|]. reflexivity.
Qed.
Lemma in_dir_app d x y : in_dir d (x ++ y) = in_dir d x ++ y.
Proof. unfold in_dir. destruct (rev d) as [|c r]; [reflexivity|]. destruct (Ascii.eqb c SL); rewrite <- app_assoc; reflexivity. Qed.
Lemma os_join_nil d : os_join d [] = in_dir d [].
Proof. unfold os_join, in_dir. destruct (rev d) as [|c r] eqn:E; [reflexivity|]. destruct (Ascii.eqb c SL); rewrite ?app_nil_r; reflexivity. Qed.
Lemma os_join_all d x : ~ In SL x -> os_join d x = in_dir d x.
Proof. intros H. destruct x as [|c x]; [apply os_join_nil|apply os_join_dir; [exact H|discriminate]]. Qed.
Lemma in_dir_plain d x : plain_text d -> plain_text x -> plain_text (in_dir d x).
Proof.
  intros Hd Hx. unfold in_dir. destruct (rev d) as [|c r]; [exact Hx|]. destruct (Ascii.eqb c SL); apply Forall_app; split; auto.
Qed.
Lemma os_join_plain d x : plain_text d -> plain_text x -> plain_text (os_join d x).
Proof.
  intros Hd Hx. destruct x as [|c x]; [rewrite os_join_nil; apply in_dir_plain; auto|]. unfold os_join.
  destruct (Ascii.eqb c SL); [exact Hx|]. apply (in_dir_plain d (c :: x) Hd Hx).
Qed.

(** [parses p ws]: as a part of a command p gives the words ws *)
Definition parses (p : text) (ws : list text) : Prop :=
  (forall rest, shell_words false None (p ++ " "%char :: rest) = option_map (app ws) (shell_words false None rest)) /\
  shell_words false None p = Some ws.
Lemma words_plain w : forall cur rest, plain_text w ->
  shell_words false (Some cur) (w ++ rest) = shell_words false (Some (cur ++ w)) rest.
Proof.
  induction w as [|c w IH]; intros cur rest H; [rewrite app_nil_r; reflexivity|]. inversion H as [|x y Hc Hw]; subst. cbn [app shell_words].
  destruct (Ascii.eqb_spec c " ") as [->|N1]; [discriminate|]. destruct (Ascii.eqb_spec c QU) as [->|N2]; [discriminate|].
  rewrite Hc, IH by exact Hw. rewrite <- app_assoc. reflexivity.
Qed.
Lemma words_start w rest : plain_word w -> shell_words false None (w ++ rest) = shell_words false (Some w) rest.
Proof.
  intros [N H]. destruct w as [|c w]; [contradiction|]. inversion H as [|x y Hc Hw]; subst. cbn [app shell_words].
  destruct (Ascii.eqb_spec c " ") as [->|N1]; [discriminate|]. destruct (Ascii.eqb_spec c QU) as [->|N2]; [discriminate|].
  rewrite Hc, words_plain by exact Hw. reflexivity.
Qed.
Lemma parses_word w : plain_word w -> parses w [w].
Proof.
  intros H. split.
  - intros rest. rewrite words_start by exact H. cbn [shell_words]. destruct (shell_words false None rest); reflexivity.
  - rewrite <- (app_nil_r w) at 1. rewrite words_start by exact H. reflexivity.
Qed.
Lemma parses_app p q ws vs : parses p ws -> parses q vs -> parses (p ++ tx " " ++ q) (ws ++ vs).
Proof.
  intros [P1 P2] [Q1 Q2]. cbn [tx list_ascii_of_string app]. split.
  - intros rest. rewrite <- app_assoc. cbn [app]. rewrite P1, Q1. destruct (shell_words false None rest); [|reflexivity].
    cbn. rewrite <- app_assoc. reflexivity.
  - rewrite P1, Q2. reflexivity.
Qed.
Lemma parses_nil : parses [] [].
Proof. split; [intros rest; cbn; destruct (shell_words false None rest); reflexivity|reflexivity]. Qed.
Lemma parses_join ps wss : Forall2 parses ps wss -> parses (join (tx " ") ps) (List.concat wss).
Proof.
  intros H. induction H as [|p ws ps wss H1 H2 IH]; [apply parses_nil|]. cbn [List.concat]. destruct H2 as [|p2 ws2 ps wss H2 H3].
  - cbn. rewrite app_nil_r. exact H1.
  - change (join (tx " ") (p :: p2 :: ps)) with (p ++ tx " " ++ join (tx " ") (p2 :: ps)). apply parses_app; [exact H1|exact IH].
Qed.

(** ** The options *)
Definition plain_option (o : text * oval) : Prop := plain_word (fst o) /\ plain_word (ostr (snd o)).
Definition flat_options (opts : list (text * oval)) : list oval := flat_map (fun o => [OStr (fst o); snd o]) opts.
Definition option_text (o : text * oval) : text := join (tx " ") (option_words o).
Lemma funargs_options opts : forall acc, funargs acc (flat_options opts) = inl (acc ++ List.concat (map (fun o => tx " " ++ option_text o) opts)).
Proof.
  induction opts as [|[k v] opts IH]; intros acc; [cbn; rewrite app_nil_r; reflexivity|].
  cbn [flat_options flat_map app map List.concat]. cbn [funargs]. cbn [fst snd]. fold (flat_options opts). rewrite IH. rewrite <- app_assoc.
  do 3 f_equal. unfold option_text, option_words. cbn [fst snd]. destruct v; cbn [is_numeric ostr join]; rewrite <- ?app_assoc; reflexivity.
Qed.
Lemma parses_option o : plain_option o -> parses (option_text o) (option_words o).
Proof.
  intros [Hk Hv]. unfold option_text. replace (option_words o) with (List.concat (map (fun w => [w]) (option_words o))) at 2
    by (unfold option_words; destruct (snd o); reflexivity).
  apply parses_join. unfold option_words. destruct (snd o) as [s|s]; cbn [ostr] in Hv; cbn [map];
    repeat (constructor; [apply parses_word; first [assumption|split; [discriminate|repeat constructor]]|]); constructor.
Qed.
Lemma parses_options_from opts : Forall plain_option opts -> forall p ws, parses p ws ->
  parses (p ++ List.concat (map (fun o => tx " " ++ option_text o) opts)) (ws ++ flat_map option_words opts).
Proof.
  intros H. induction H as [|o opts Ho H IH]; intros p ws Hp; cbn [map List.concat flat_map]; [rewrite !app_nil_r; exact Hp|].
  rewrite !app_assoc. apply IH. rewrite <- app_assoc. apply parses_app; [exact Hp|apply parses_option; exact Ho].
Qed.
Lemma parses_options opts : Forall plain_option opts ->
  parses (tl (List.concat (map (fun o => tx " " ++ option_text o) opts))) (flat_map option_words opts).
Proof.
  intros H. destruct H as [|o opts Ho H]; [apply parses_nil|]. cbn [map List.concat flat_map].
  change (tl ((tx " " ++ option_text o) ++ List.concat (map (fun o0 => tx " " ++ option_text o0) opts)))
    with (option_text o ++ List.concat (map (fun o0 => tx " " ++ option_text o0) opts)).
  apply parses_options_from; [exact H|apply parses_option; exact Ho].
Qed.

(** The numbers are printed without characters that the shell changes. *)
Definition plain_numbers (F : Flt) : Prop := forall x, plain_word (fstr F x).

(** The words GetDP receives, if no path or option contains a character with a meaning for the shell. *)
Theorem C62_command : forall (F : Flt) (self : Machine F) opts msh nm rs rd t_stop, plain_numbers F ->
  fopt F self = flat_options opts -> preprocessing F self = tx "#1" -> Forall plain_option opts ->
  plain_word (getdp_path F self) -> plain_word (pro_path F self) -> plain_word msh -> plain_word nm -> plain_word rs -> plain_word rd ->
  exists funargstr, funargs [] (fopt F self) = inl funargstr /\
    shell_words false None (command F self (tx "-pre """ ++ preprocessing F self ++ tx """") msh nm rs rd (tl funargstr) t_stop) =
      Some (getdp_path F self :: arguments (pro_path F self) [tx "-pre"; tx "#1"] msh nm rs (fstr F t_stop) (fstr F (time_step F self)) rd opts) /\
    shell_words false None (command F self (tx "-restart") msh nm rs rd (tl funargstr) t_stop) =
      Some (getdp_path F self :: arguments (pro_path F self) [tx "-restart"] msh nm rs (fstr F t_stop) (fstr F (time_step F self)) rd opts).
Proof.
  intros F self opts msh nm rs rd t_stop PN Ho Hp Po H1 H2 H3 H4 H5 H6.
  exists (List.concat (map (fun o => tx " " ++ option_text o) opts)). split; [rewrite Ho, funargs_options; reflexivity|].
  assert (G : forall what ws, parses what ws ->
    shell_words false None (command F self what msh nm rs rd (tl (List.concat (map (fun o => tx " " ++ option_text o) opts))) t_stop) =
      Some (getdp_path F self :: arguments (pro_path F self) ws msh nm rs (fstr F t_stop) (fstr F (time_step F self)) rd opts)).
  { intros what ws Hw. unfold command, arguments.
    assert (D : forall a b, plain_word a -> plain_word b -> parses (a ++ tx " " ++ b) [a; b])
      by (intros a b Ha Hb; apply (parses_app a b [a] [b]); apply parses_word; assumption).
    match goal with |- shell_words _ _ (join _ ?ps) = Some ?r => assert (Q : parses (join (tx " ") ps) r) end; [|exact (proj2 Q)].
    match goal with |- parses _ ?r => replace r with (List.concat [[getdp_path F self]; [pro_path F self]; ws; [tx "-msh"]; [msh]; [tx "-name"]; [nm]; [tx "-res"]; [rs];
      [tx "-setnumber"; tx "timemax"]; [fstr F t_stop]; [tx "-setnumber"; tx "dtime"]; [fstr F (time_step F self)]; [tx "-setstring"; tx "ResDir"]; [rd];
      flat_map option_words opts]) by (cbn [List.concat app]; rewrite ?app_nil_r; reflexivity) end.
    apply parses_join.
    constructor; [apply parses_word; assumption|]. constructor; [apply parses_word; assumption|]. constructor; [exact Hw|].
    constructor; [apply parses_word; split; [discriminate|repeat constructor]|]. constructor; [apply parses_word; assumption|].
    constructor; [apply parses_word; split; [discriminate|repeat constructor]|]. constructor; [apply parses_word; assumption|].
    constructor; [apply parses_word; split; [discriminate|repeat constructor]|]. constructor; [apply parses_word; assumption|].
    constructor; [apply (D (tx "-setnumber") (tx "timemax")); (split; [discriminate|repeat constructor])|]. constructor; [apply parses_word; apply PN|].
    constructor; [apply (D (tx "-setnumber") (tx "dtime")); (split; [discriminate|repeat constructor])|]. constructor; [apply parses_word; apply PN|].
    constructor; [apply (D (tx "-setstring") (tx "ResDir")); (split; [discriminate|repeat constructor])|]. constructor; [apply parses_word; assumption|].
    constructor; [apply parses_options; exact Po|]. constructor. }
  split; apply G.
  - rewrite Hp. split; [|reflexivity]. intros rest. cbn [tx list_ascii_of_string app].
    cbn. destruct (shell_words false None rest); reflexivity.
  - apply parses_word. split; [discriminate|repeat constructor].
Qed.

(** ** One step *)
Record ready (F : Flt) (self : Machine F) (opts : list (text * oval)) (tmpdir : text) : Prop := {
  rd_fopt : fopt F self = flat_options opts;
  rd_pre : preprocessing F self = tx "#1";
  rd_opts : Forall plain_option opts;
  rd_getdp : plain_word (getdp_path F self);
  rd_pro : plain_word (pro_path F self);
  rd_mesh : plain_word (mesh F self);
  rd_tmp : plain_word tmpdir
}.
(** The mesh file in the directory of the .pro file *)
Definition beside (pro name : text) : text := os_join (fst (os_split pro)) name.
Record shaped (F : Flt) (n : nat) (u : MVec F) : Prop := {
  sh_front : List.length (v_front F u) = v_fs F u;
  sh_middle : List.length (v_middle F u) = v_ms F u;
  sh_back : List.length (v_back F u) = v_bs F u;
  sh_all : v_fs F u + v_ms F u + v_bs F u = n;
  sh_pos : v_bs F u <> 0
}.

Lemma in_dir_not_nil d x : d <> [] -> in_dir d x <> [].
Proof.
  intros N. unfold in_dir. destruct (rev d) as [|c r] eqn:E.
  - exfalso. apply N. rewrite <- (rev_involutive d), E. reflexivity.
  - destruct d; [contradiction|]. destruct (Ascii.eqb c SL); discriminate.
Qed.
Lemma fs_set_same fs f x : fs_set fs f x f = Some x.
Proof. unfold fs_set, text_eqb. destruct (list_eq_dec ascii_dec f f); [reflexivity|contradiction]. Qed.
Lemma fs_set_other fs f x g : g <> f -> fs_set fs f x g = fs g.
Proof. intros H. unfold fs_set, text_eqb. destruct (list_eq_dec ascii_dec g f); [contradiction|reflexivity]. Qed.
Lemma announces_read n pre : announces n pre -> get_preresolution pre = inl (Z.of_nat n).
Proof. intros (before & after & d & l1 & l2 & l3 & l4 & row & H1 & H2 & H3 & H4 & ->). apply C48_preresolution; assumption. Qed.
Lemma py_nth_end {X} (l : list X) x : py_nth (l ++ [x]) (-1) = Some x.
Proof.
  unfold py_nth. cbn [Z.leb Z.compare]. rewrite app_length. cbn [List.length]. rewrite (proj2 (Z.leb_le 0 _)) by lia.
  replace (Z.to_nat _) with (List.length l) by lia. rewrite nth_error_app2, Nat.sub_diag by lia. reflexivity.
Qed.
Lemma slice_front {X} (v : list X) a : py_slice v 0 (Z.of_nat a) = firstn a v.
Proof.
  unfold py_slice. unfold py_bound at 1. cbn [Z.ltb Z.compare]. replace (Z.to_nat _) with 0 by lia. cbn [skipn].
  unfold py_bound. rewrite (proj2 (Z.ltb_ge _ _)) by lia. destruct (Nat.le_gt_cases a (List.length v)).
  - f_equal. lia.
  - rewrite (firstn_all2 (n := a)) by lia. apply firstn_all2. lia.
Qed.
Lemma slices {X} (f m b : list X) : b <> [] ->
  py_slice (f ++ m ++ b) 0 (Z.of_nat (List.length f)) = f /\
  py_slice (f ++ m ++ b) (Z.of_nat (List.length f)) (- Z.of_nat (List.length b)) = m /\
  py_slice (f ++ m ++ b) (- Z.of_nat (List.length b)) (Z.of_nat (List.length (f ++ m ++ b))) = b.
Proof.
  intros N. assert (Lb : List.length b <> 0) by (destruct b; [contradiction|discriminate]).
  split; [|split].
  - rewrite slice_front, firstn_app, firstn_all, Nat.sub_diag. cbn. apply app_nil_r.
  - unfold py_slice, py_bound. rewrite !app_length. rewrite (proj2 (Z.ltb_ge _ _)) by lia. rewrite (proj2 (Z.ltb_lt _ 0)) by lia.
    replace (Z.to_nat _) with (List.length f) by lia. replace (Z.to_nat _) with (List.length f + List.length m) by lia.
    rewrite app_assoc, firstn_app. rewrite firstn_all2 by (rewrite app_length; lia). rewrite app_length, Nat.sub_diag. cbn [firstn]. rewrite app_nil_r.
    rewrite skipn_app, skipn_all, Nat.sub_diag. reflexivity.
  - unfold py_slice, py_bound. rewrite !app_length. rewrite (proj2 (Z.ltb_lt _ 0)) by lia. rewrite (proj2 (Z.ltb_ge _ _)) by lia.
    rewrite firstn_all2 by (rewrite !app_length; lia). replace (Z.to_nat _) with (List.length (f ++ m)) by (rewrite app_length; lia).
    rewrite app_assoc, skipn_app, skipn_all, Nat.sub_diag. reflexivity.
Qed.
Lemma numbered_app {F} (a b : list (Out F)) : forall k, numbered k (a ++ b) = numbered k a ++ numbered (k + Z.of_nat (List.length a)) b.
Proof.
  induction a as [|x a IH]; intros k; cbn [app numbered List.length]; [f_equal; lia|]. rewrite IH. do 3 f_equal. lia.
Qed.
Lemma numbered_in {F} (l : list (Out F)) : forall k s, In s (numbered k l) ->
  (k <= sol_step s)%Z /\ exists o, In o l /\ s = mkSol (sol_step s) (o_time o) (map (fun x => (x, fzero F)) (o_u o)).
Proof.
  induction l as [|o l IH]; intros k s H; [destruct H|]. destruct H as [<-|H].
  - split; [cbn; lia|]. exists o. split; [left; reflexivity|reflexivity].
  - apply IH in H as (H1 & o' & H2 & H3). split; [lia|]. exists o'. split; [right; exact H2|exact H3].
Qed.
Lemma numbered_sorted {F} (l : list (Out F)) : forall k, StronglySorted (fun a b => (sol_step a < sol_step b)%Z) (numbered k l).
Proof.
  induction l as [|o l IH]; intros k; constructor; [apply IH|]. apply Forall_forall. intros s Hs. apply numbered_in in Hs as [Hs _]. cbn. lia.
Qed.
Lemma dat_not_res d x rs (q : text * nat) : rs = x ++ tx ".res" -> d ++ fst q ++ tx ".dat" <> rs.
Proof.
  intros -> E. apply (f_equal (@rev ascii)) in E. rewrite !rev_app_distr in E. cbn in E. discriminate.
Qed.

Definition no_nan {F : Flt} (o : Out F) : Prop := fnan F (o_time o) = false /\ existsb (fnan F) (o_u o) = false.

Theorem C62_step : forall (F : Flt), float_io F -> plain_numbers F -> forall self opts tmpdir exec other n advance,
  ready F self opts tmpdir ->
  getdp_does F exec (getdp_path F self) (pro_path F self) (beside (pro_path F self) (mesh F self)) opts n advance ->
  forall fs u t_start t_stop outs o f m b, shaped F n u -> fnan F t_start = false -> existsb (fnan F) (mv_get F u) = false ->
  advance t_stop (time_step F self) t_start (mv_get F u) = outs ++ [o] ->
  Forall (fun x => List.length (o_u x) = n /\ no_nan x) (outs ++ [o]) ->
  o_u o = f ++ m ++ b -> List.length f = v_fs F u -> List.length m = v_ms F u -> List.length b = v_bs F u ->
  machine_step F self (run_shell exec other) tmpdir fs u t_start t_stop = inl (mkMV F (v_fs F u) (v_ms F u) (v_bs F u) f m b (o_sc o)).
Proof.
  intros F IO PN self opts tmpdir exec other n advance R D fs u t_start t_stop outs o f m b Sh Nt Nu Adv Ok Eo Lf Lm Lb.
  assert (Lu : List.length (mv_get F u) = n).
  { unfold mv_get. rewrite !app_length, (sh_front F n u Sh), (sh_middle F n u Sh), (sh_back F n u Sh). apply (sh_all F n u Sh). }
  assert (Hn : n <> 0) by (pose proof (sh_all F n u Sh); pose proof (sh_pos F n u Sh); lia).
  unfold machine_step, run_getdp. revert Lu Nu Adv. generalize (mv_get F u) as us. intros us Lu Nu Adv.
  assert (Nus : us <> []) by (intros ->; cbn in Lu; lia).
  destruct us as [|u0 us0] eqn:Eus; [contradiction|]. rewrite <- Eus in *. clear u0 us0 Eus. rewrite Nu.
  destruct (os_split (pro_path F self)) as [fdir file] eqn:Es.
  set (fname := fst (os_splitext file)).
  assert (Hfile : ~ In SL file) by (pose proof (split_tail_no_slash (pro_path F self)) as X; rewrite Es in X; exact X).
  assert (Hfn : ~ In SL fname) by (intros X; apply Hfile; apply (splitext_in file SL X)).
  assert (Pdir : plain_text fdir).
  { apply Forall_forall. intros x Hx. pose proof (proj2 (rd_pro F self opts tmpdir R)) as P. unfold plain_text in P. rewrite Forall_forall in P. apply P.
    apply split_in. rewrite Es. left. exact Hx. }
  assert (Pfn : plain_text fname).
  { apply Forall_forall. intros x Hx. pose proof (proj2 (rd_pro F self opts tmpdir R)) as P. unfold plain_text in P. rewrite Forall_forall in P. apply P.
    apply split_in. rewrite Es. right. apply splitext_in. exact Hx. }
  set (nm := in_dir tmpdir fname).
  assert (E1 : os_join tmpdir fname = nm) by (apply os_join_all; exact Hfn).
  assert (J : forall x, ~ In SL x -> os_join tmpdir x = in_dir tmpdir x) by (intros x; apply os_join_all).
  assert (E2 : os_join tmpdir (fname ++ tx ".pre") = nm ++ tx ".pre").
  { rewrite J, in_dir_app; [reflexivity|]. intros X. apply in_app_or in X as [X|X]; [exact (Hfn X)|]. cbn in X. intuition discriminate. }
  assert (E3 : os_join tmpdir (fname ++ tx ".res") = nm ++ tx ".res").
  { rewrite J, in_dir_app; [reflexivity|]. intros X. apply in_app_or in X as [X|X]; [exact (Hfn X)|]. cbn in X. intuition discriminate. }
  set (rd := in_dir tmpdir (tx "res")).
  assert (E4 : os_join tmpdir (tx "res") = rd) by (apply J; cbn; intuition discriminate).
  assert (E5 : forall q, ~ In SL q -> os_join tmpdir (tx "res" ++ q) = rd ++ q).
  { intros q Hq. rewrite J, in_dir_app; [reflexivity|]. intros X. apply in_app_or in X as [X|X]; [|exact (Hq X)]. cbn in X. intuition discriminate. }
  destruct R as [R1 R2 R3 R4 R5 R6 R7]. 
  assert (Pnm : plain_word nm) by (split; [apply in_dir_not_nil; apply R7|apply in_dir_plain; [apply R7|exact Pfn]]).
  assert (Prs : plain_word (nm ++ tx ".res")).
  { split; [intros X; apply app_eq_nil in X; destruct X; discriminate|]. apply Forall_app. split; [apply Pnm|repeat constructor]. }
  assert (Prd : plain_word rd) by (split; [apply in_dir_not_nil; apply R7|apply in_dir_plain; [apply R7|repeat constructor]]).
  assert (Pmsh : plain_word (os_join fdir (mesh F self))).
  { split; [|apply os_join_plain; [exact Pdir|apply R6]]. unfold os_join. destruct (mesh F self) as [|c r] eqn:Em; [exfalso; apply (proj1 R6); reflexivity|].
    destruct (Ascii.eqb c SL); [discriminate|]. destruct (rev fdir) as [|y l]; [discriminate|].
    destruct (Ascii.eqb y SL); intros X; apply app_eq_nil in X; destruct X; discriminate. }
  destruct (C62_command F self opts (os_join fdir (mesh F self)) nm (nm ++ tx ".res") rd t_stop PN R1 R2 R3 R4 R5 Pmsh Pnm Prs Prd) as (fa & Efa & Ec1 & Ec2).
  rewrite Efa. cbn [rbind]. rewrite E1, E2, E3, E4. unfold run_shell. rewrite Ec1, Ec2. clear Ec1 Ec2 Efa.
  unfold beside in D. rewrite Es in D. cbn [fst] in D.
  destruct (does_pre _ _ _ _ _ _ _ _ D t_stop (time_step F self) nm (nm ++ tx ".res") rd fs) as (fs1 & pre & X1 & X2 & X3).
  rewrite X1. change (negb (0 =? 0)%Z) with false. cbv iota. unfold open_file at 1. rewrite X2. cbn [of_opt rbind].
  rewrite (announces_read n pre X3). cbn [rbind]. rewrite Lu, Z.eqb_refl. cbn [negb].
  set (first := mkSol (F := F) 0 t_start (map (fun x => (x, fzero F)) us)).
  pose proof (set_resolution_text F t_start us Nus) as Sr. fold first in Sr. rewrite Lu in Sr. rewrite Sr. cbn [rbind].
  assert (Ne : nm ++ tx ".pre" <> nm ++ tx ".res") by (intros X; apply app_inv_head in X; discriminate).
  destruct (does_restart _ _ _ _ _ _ _ _ D t_stop (time_step F self) t_start us nm (nm ++ tx ".res") rd (fs_set fs1 (nm ++ tx ".res") (file_text [first])) pre outs o)
    as (fs3 & Y1 & Y2 & Y3).
  - rewrite fs_set_other by exact Ne. exact X2.
  - exact X3.
  - exact Lu.
  - exact Nt.
  - exact Nu.
  - apply fs_set_same.
  - intros q Hq. apply (dat_not_res rd nm (nm ++ tx ".res") (fst q, 0) eq_refl).
  - exact Adv.
  - rewrite Y1. change (negb (0 =? 0)%Z) with false. cbv iota. unfold open_file at 1. rewrite Y2. cbn [of_opt rbind]. fold first.
    pose proof (numbered_app outs [o] 1) as Na. cbn [numbered] in Na.
    set (last := mkSol (F := F) (1 + Z.of_nat (List.length outs)) (o_time o) (map (fun x => (x, fzero F)) (o_u o))) in *.
    assert (Hin : forall s, In s (numbered 1 outs ++ [last]) -> (1 <= sol_step s)%Z /\ List.length (sol_vals s) = n /\ has_nan s = false).
    { intros s Hs. rewrite <- Na in Hs. apply numbered_in in Hs as (S1 & o' & S2 & S3). rewrite Forall_forall in Ok. destruct (Ok o' S2) as [O1 [O2 O3]].
      rewrite S3. cbn [sol_step sol_vals]. split; [exact S1|]. rewrite map_length. split; [exact O1|]. unfold has_nan, real_parts. cbn [sol_time sol_vals].
      rewrite map_map. cbn [fst]. rewrite map_id, O2, O3. reflexivity. }
    destruct (C48_restart F IO t_start us (numbered 1 outs) last) as (rf & ts & ys & Z1 & Z2 & Z3 & Z4 & Z5).
    + apply Forall_forall. intros s Hs. destruct (Hin s Hs) as (H1 & H2 & H3). rewrite Lu. split; [exact H2|lia].
    + exact Nus.
    + rewrite <- Na. apply numbered_sorted.
    + apply Forall_forall. intros s Hs. destruct (Hin s Hs) as (H1 & _). lia.
    + exact Nt.
    + exact Nu.
    + destruct (existsb has_nan (numbered 1 outs ++ [last])) eqn:Ex; [|reflexivity]. apply existsb_exists in Ex as (s & Hs & Ex).
      destruct (Hin s Hs) as (_ & _ & H3). congruence.
    + rewrite Lu in Z1, Z2. rewrite Sr in Z1. injection Z1 as <-.
      rewrite Na. replace (file_text (first :: numbered 1 outs ++ [last])) with (file_text [first] ++ List.concat (map solution_text (numbered 1 outs ++ [last]))).
      2:{ unfold file_text. cbn [map List.concat]. rewrite app_nil_r, <- !app_assoc. reflexivity. }
      rewrite Z2. cbn [rbind snd fst].
      assert (V : forall q, In q (quantities F) -> exists l, open_file fs3 (os_join tmpdir (tx "res" ++ fst q ++ tx ".dat")) = inl l /\
        exists vs, get_values_from F l = inl vs /\ py_nth vs (-1) = Some (snd q (o_sc o))).
      { intros q Hq. destruct (Y3 q Hq) as (rows & label & V1 & V2). exists (rows_text (rows ++ [(label, snd q (o_sc o))])).
        rewrite E5 by (unfold quantities in Hq; cbn [In] in Hq; repeat (destruct Hq as [<-|Hq]; [cbn; intuition discriminate|]); contradiction).
        unfold open_file. rewrite V2. split; [reflexivity|]. unfold rows_text. rewrite (C48_values F IO) by exact V1.
        eexists. split; [reflexivity|]. rewrite map_app. apply py_nth_end. }
      destruct (V (tx "JL", s_jl F)) as (l1 & A1 & q1 & B1 & C1); [cbn; tauto|].
      destruct (V (tx "Ia", s_ia F)) as (l2 & A2 & q2 & B2 & C2); [cbn; tauto|].
      destruct (V (tx "Ib", s_ib F)) as (l3 & A3 & q3 & B3 & C3); [cbn; tauto|].
      destruct (V (tx "Ic", s_ic F)) as (l4 & A4 & q4 & B4 & C4); [cbn; tauto|].
      destruct (V (tx "Ua", s_ua F)) as (l5 & A5 & q5 & B5 & C5); [cbn; tauto|].
      destruct (V (tx "Ub", s_ub F)) as (l6 & A6 & q6 & B6 & C6); [cbn; tauto|].
      destruct (V (tx "Uc", s_uc F)) as (l7 & A7 & q7 & B7 & C7); [cbn; tauto|].
      destruct (V (tx "Tr", s_tr F)) as (l8 & A8 & q8 & B8 & C8); [cbn; tauto|].
      cbn [fst snd] in *. cbv zeta.
      change (tx "resJL.dat") with (tx "res" ++ tx "JL" ++ tx ".dat"). rewrite A1. cbn [rbind]. rewrite B1. cbn [rbind].
      change (tx "resIa.dat") with (tx "res" ++ tx "Ia" ++ tx ".dat"). rewrite A2. cbn [rbind]. rewrite B2. cbn [rbind].
      change (tx "resIb.dat") with (tx "res" ++ tx "Ib" ++ tx ".dat"). rewrite A3. cbn [rbind]. rewrite B3. cbn [rbind].
      change (tx "resIc.dat") with (tx "res" ++ tx "Ic" ++ tx ".dat"). rewrite A4. cbn [rbind]. rewrite B4. cbn [rbind].
      change (tx "resUa.dat") with (tx "res" ++ tx "Ua" ++ tx ".dat"). rewrite A5. cbn [rbind]. rewrite B5. cbn [rbind].
      change (tx "resUb.dat") with (tx "res" ++ tx "Ub" ++ tx ".dat"). rewrite A6. cbn [rbind]. rewrite B6. cbn [rbind].
      change (tx "resUc.dat") with (tx "res" ++ tx "Uc" ++ tx ".dat"). rewrite A7. cbn [rbind]. rewrite B7. cbn [rbind].
      change (tx "resTr.dat") with (tx "res" ++ tx "Tr" ++ tx ".dat"). rewrite A8. cbn [rbind]. rewrite B8. cbn [rbind].
      cbn [r_y r_jl r_ia r_ib r_ic r_ua r_ub r_uc r_tr]. rewrite Z4, C1, C2, C3, C4, C5, C6, C7, C8. cbn [of_opt rbind].
      unfold mv_set. cbn [mv_zeros v_fs v_ms v_bs]. unfold real_parts, last. cbn [sol_vals]. rewrite map_map. cbn [fst]. rewrite map_id, Eo.
      assert (Nb : b <> []) by (intros ->; cbn in Lb; pose proof (sh_pos F n u Sh); lia).
      destruct (slices f m b Nb) as (S1 & S2 & S3). rewrite <- Lf, <- Lb, S1, S2, S3. destruct (o_sc o). reflexivity.
Qed.

(** ** What a returned vector guarantees, whatever GetDP does: the input had no NaN, GetDP's return codes were 0, the number of
    unknowns was the one of the preprocessing, and no unknown of the result is NaN. *)
Lemma rbind_inv {X Y} (x : res X) (f : X -> res Y) y : rbind x f = inl y -> exists a, x = inl a /\ f a = inl y.
Proof. destruct x as [a|e]; [intros H; exists a; split; [reflexivity|exact H]|discriminate]. Qed.
Lemma of_opt_inv {X} e (x : option X) y : of_opt e x = inl y -> x = Some y.
Proof. destruct x; [intros H; injection H as ->; reflexivity|discriminate]. Qed.
Lemma py_slice_in {X} (l : list X) a b x : In x (py_slice l a b) -> In x l.
Proof. unfold py_slice. intros H. rewrite <- (firstn_skipn (py_bound (List.length l) b) l). apply in_or_app. left.
  rewrite <- (firstn_skipn (py_bound (List.length l) a) (firstn _ l)). apply in_or_app. right. exact H. Qed.
Lemma py_nth_in {X} (l : list X) i x : py_nth l i = Some x -> In x l.
Proof. unfold py_nth. destruct (0 <=? i)%Z; [apply nth_error_In|]. destruct (0 <=? _)%Z; [apply nth_error_In|discriminate]. Qed.

Theorem C62_result_checked : forall (F : Flt) self shell tmpdir fs u t_start t_stop r,
  machine_step F self shell tmpdir fs u t_start t_stop = inl r ->
  existsb (fnan F) (mv_get F u) = false /\ existsb (fnan F) (mv_get F r) = false /\
  (exists c1 c2 fs1 fs2 fs3 f pre, shell c1 fs = (fs1, 0%Z) /\ fs1 f = Some pre /\ get_preresolution pre = inl (Z.of_nat (List.length (mv_get F u))) /\
    shell c2 fs2 = (fs3, 0%Z)) /\
  (v_fs F r, v_ms F r, v_bs F r) = (v_fs F u, v_ms F u, v_bs F u).
Proof.
  intros F self shell tmpdir fs u t_start t_stop r H. unfold machine_step in H. apply rbind_inv in H as (soli & Hr & H).
  apply rbind_inv in H as (y & Hy & H). apply of_opt_inv in Hy.
  do 8 (apply rbind_inv in H as (? & _ & H)). injection H as <-.
  unfold run_getdp in Hr. remember (mv_get F u) as us eqn:Eus. destruct us as [|u0 us]; [discriminate|].
  destruct (existsb (fnan F) (u0 :: us)) eqn:Nu; [discriminate|].
  destruct (os_split (pro_path F self)) as [fdir file]. apply rbind_inv in Hr as (fa & _ & Hr).
  match type of Hr with context [shell ?c fs] => destruct (shell c fs) as [fs1 code1] eqn:S1 end.
  destruct (code1 =? 0)%Z eqn:C1; [|discriminate]. cbn [negb] in Hr. apply Z.eqb_eq in C1. subst code1.
  apply rbind_inv in Hr as (pre & Hpre & Hr). unfold open_file in Hpre. apply of_opt_inv in Hpre.
  apply rbind_inv in Hr as (np & Hnp & Hr). destruct (Z.of_nat (List.length (u0 :: us)) =? np)%Z eqn:En; [|discriminate]. cbn [negb] in Hr.
  apply Z.eqb_eq in En. apply rbind_inv in Hr as (rs & _ & Hr).
  match type of Hr with context [shell ?c ?g] => destruct (shell c g) as [fs3 code2] eqn:S2 end.
  destruct (code2 =? 0)%Z eqn:C2; [|discriminate]. cbn [negb] in Hr. apply Z.eqb_eq in C2. subst code2.
  apply rbind_inv in Hr as (rf & _ & Hr). apply rbind_inv in Hr as (ty & Hty & Hr). do 8 (apply rbind_inv in Hr as (? & _ & Hr)). injection Hr as <-.
  split; [reflexivity|]. split; [|split; [|reflexivity]].
  - cbn [r_y] in Hy. unfold getdp_read_resolution in Hty. apply rbind_inv in Hty as (ty' & _ & Hty). destruct (_ || _); [discriminate|].
    destruct (existsb (existsb (fnan F)) (snd ty')) eqn:E; [discriminate|]. destruct (existsb (fnan F) (fst ty')); [discriminate|].
    cbn [orb] in Hty. injection Hty as <-. apply py_nth_in in Hy.
    assert (Ny : existsb (fnan F) y = false).
    { destruct (existsb (fnan F) y) eqn:Q; [|reflexivity]. assert (X : existsb (existsb (fnan F)) (snd ty') = true) by (apply existsb_exists; exists y; auto). congruence. }
    destruct (existsb (fnan F) (mv_get F _)) eqn:Q; [|reflexivity]. apply existsb_exists in Q as (z & Hx & Q).
    assert (Hin : In z y).
    { unfold mv_get, mv_set in Hx. cbn [v_front v_middle v_back] in Hx. apply in_app_or in Hx as [Hx|Hx]; [apply in_app_or in Hx as [Hx|Hx]|]; apply py_slice_in in Hx; exact Hx. }
    assert (X : existsb (fnan F) y = true) by (apply existsb_exists; exists z; auto). congruence.
  - rewrite <- En in Hnp. do 5 eexists. eexists. exists pre. split; [exact S1|]. split; [exact Hpre|]. split; [exact Hnp|exact S2].
Qed.

(** ** A sequence of steps *)
Fixpoint march {V T : Type} (step : V -> T -> T -> res V) (u : V) (t : T) (ts : list T) : res V :=
  match ts with [] => inl u | t' :: ts' => u' <-- step u t t' ;; march step u' t' ts' end.

(** GetDP's time loop: steps of size dt as long as the time is less than tmax *)
Section Loop.
  Variable F : Flt.
  Variable plus : fl F -> fl F -> fl F.
  Variable less : fl F -> fl F -> bool.
  Variable phi : fl F -> fl F -> list (fl F) -> list (fl F).
  Variable output : fl F -> fl F -> list (fl F) -> MScal F.
  Definition one (dt t : fl F) (u : list (fl F)) : Out F := mkOut (plus t dt) (phi dt t u) (output dt t u).
  Inductive runs (dt tmax : fl F) : fl F -> list (fl F) -> list (Out F) -> Prop :=
  | runs_stop : forall t u, less t tmax = false -> runs dt tmax t u []
  | runs_step : forall t u outs, less t tmax = true -> runs dt tmax (plus t dt) (phi dt t u) outs -> runs dt tmax t u (one dt t u :: outs).
  (** b is a plus a positive number of steps and the sums before are less than b *)
  Inductive reaches (dt b : fl F) : fl F -> Prop :=
  | reaches_one : forall a, less a b = true -> plus a dt = b -> reaches dt b a
  | reaches_more : forall a, less a b = true -> reaches dt b (plus a dt) -> reaches dt b a.
  Fixpoint reaches_all (dt a : fl F) (ts : list (fl F)) : Prop :=
    match ts with [] => True | b :: ts' => reaches dt b a /\ reaches_all dt b ts' end.

  Lemma runs_det dt tmax t u l1 : runs dt tmax t u l1 -> forall l2, runs dt tmax t u l2 -> l1 = l2.
  Proof. induction 1 as [t u H|t u outs H H1 IH]; intros l2 H2; inversion H2; subst; try congruence. f_equal. apply IH. assumption. Qed.
  Lemma reaches_runs dt b a : less b b = false -> reaches dt b a -> forall u, exists outs o, runs dt b a u (outs ++ [o]) /\ o_time o = b.
  Proof.
    intros Ib H. induction H as [a H1 H2|a H1 H2 IH]; intros u.
    - exists [], (one dt a u). split; [|exact H2]. cbn. constructor; [exact H1|]. rewrite H2. constructor. exact Ib.
    - destruct (IH (phi dt a u)) as (outs & o & R1 & R2). exists (one dt a u :: outs), o. split; [|exact R2]. cbn. constructor; assumption.
  Qed.
  Lemma runs_app dt b c : (forall x, less x b = true -> less x c = true) -> forall outs a u o outs2, runs dt b a u (outs ++ [o]) ->
    runs dt c (o_time o) (o_u o) outs2 -> runs dt c a u ((outs ++ [o]) ++ outs2).
  Proof.
    intros Bc. induction outs as [|x outs IH]; intros a u o outs2 H H2; cbn [app] in *; inversion H; subst.
    - constructor; [apply Bc; assumption|]. inversion H6; subst. exact H2.
    - constructor; [apply Bc; assumption|]. apply IH; assumption.
  Qed.
  Lemma runs_ok dt tmax n : (forall t u, List.length u = n -> existsb (fnan F) u = false -> List.length (phi dt t u) = n /\ existsb (fnan F) (phi dt t u) = false) ->
    (forall t, fnan F t = false -> fnan F (plus t dt) = false) ->
    forall t u outs, runs dt tmax t u outs -> fnan F t = false -> List.length u = n -> existsb (fnan F) u = false ->
    Forall (fun x => List.length (o_u x) = n /\ no_nan x) outs.
  Proof.
    intros Hp Ht t u outs H. induction H as [t u H|t u outs H H1 IH]; intros Nt Lu Nu; constructor.
    - destruct (Hp t u Lu Nu). cbn. split; [assumption|]. split; cbn; [apply Ht; exact Nt|assumption].
    - destruct (Hp t u Lu Nu). apply IH; auto.
  Qed.
End Loop.

Lemma last_cons {X} (l : list X) : forall a b d, last (a :: b :: l) d = last (b :: l) a.
Proof. induction l as [|c l IH]; intros a b d; [reflexivity|]. change (last (a :: b :: c :: l) d) with (last (b :: c :: l) d). rewrite IH, <- (IH b c a). reflexivity. Qed.

(** Steps over a time grid, each ending exactly at the next point after a whole number of GetDP's time steps, give the vector of one run
    of GetDP from the first to the last point, and it belongs to the last point. *)
Theorem C62_uninterrupted : forall (F : Flt), float_io F -> plain_numbers F -> forall self opts tmpdir exec other n advance,
  ready F self opts tmpdir ->
  getdp_does F exec (getdp_path F self) (pro_path F self) (beside (pro_path F self) (mesh F self)) opts n advance ->
  forall plus less phi output,
  (forall tmax t u, runs F plus less phi output (time_step F self) tmax t u (advance tmax (time_step F self) t u)) ->
  (forall t u, List.length u = n -> existsb (fnan F) u = false ->
    List.length (phi (time_step F self) t u) = n /\ existsb (fnan F) (phi (time_step F self) t u) = false) ->
  (forall t, fnan F t = false -> fnan F (plus t (time_step F self)) = false) ->
  (forall t, less t t = false) -> (forall a b c, less a b = true -> less b c = true -> less a c = true) ->
  forall fs t t1 ts u, shaped F n u -> fnan F t = false -> existsb (fnan F) (mv_get F u) = false ->
  reaches_all F plus less (time_step F self) t (t1 :: ts) ->
  exists outs o r, runs F plus less phi output (time_step F self) (last ts t1) t (mv_get F u) (outs ++ [o]) /\ o_time o = last ts t1 /\
    march (machine_step F self (run_shell exec other) tmpdir fs) u t (t1 :: ts) = inl r /\
    machine_step F self (run_shell exec other) tmpdir fs u t (last ts t1) = inl r /\
    mv_get F r = o_u o /\ v_sc F r = o_sc o.
Proof.
  intros F IO PN self opts tmpdir exec other n advance R D plus less phi output Ra Hp Ht Li Lt fs.
  assert (One : forall u t tmax outs o, shaped F n u -> fnan F t = false -> existsb (fnan F) (mv_get F u) = false ->
    runs F plus less phi output (time_step F self) tmax t (mv_get F u) (outs ++ [o]) ->
    exists r, machine_step F self (run_shell exec other) tmpdir fs u t tmax = inl r /\ mv_get F r = o_u o /\ v_sc F r = o_sc o /\ shaped F n r /\
      (v_fs F r, v_ms F r, v_bs F r) = (v_fs F u, v_ms F u, v_bs F u) /\ existsb (fnan F) (o_u o) = false /\ fnan F (o_time o) = false).
  { intros u t tmax outs o Sh Nt Nu H.
    assert (Lu : List.length (mv_get F u) = n).
    { unfold mv_get. rewrite !app_length, (sh_front F n u Sh), (sh_middle F n u Sh), (sh_back F n u Sh). apply (sh_all F n u Sh). }
    pose proof (runs_det _ _ _ _ _ _ _ _ _ _ (Ra tmax t (mv_get F u)) _ H) as Ea.
    pose proof (runs_ok _ _ _ _ _ _ _ n Hp Ht _ _ _ H Nt Lu Nu) as Ok.
    assert (Oo : List.length (o_u o) = n /\ no_nan o) by (rewrite Forall_forall in Ok; apply Ok; apply in_or_app; right; left; reflexivity).
    destruct Oo as [Lo [No1 No2]]. pose proof (sh_all F n u Sh) as Sa. pose proof (sh_pos F n u Sh) as Sp.
    pose proof (firstn_skipn (v_fs F u) (o_u o)) as X1. pose proof (firstn_skipn (v_ms F u) (skipn (v_fs F u) (o_u o))) as X2.
    set (f := firstn (v_fs F u) (o_u o)) in *. set (m := firstn (v_ms F u) (skipn (v_fs F u) (o_u o))) in *.
    set (b := skipn (v_ms F u) (skipn (v_fs F u) (o_u o))) in *.
    assert (Lf : List.length f = v_fs F u) by (unfold f; rewrite firstn_length; lia).
    assert (Lm : List.length m = v_ms F u) by (unfold m; rewrite firstn_length, skipn_length; lia).
    assert (Lb : List.length b = v_bs F u) by (unfold b; rewrite !skipn_length; lia).
    assert (Eo : o_u o = f ++ m ++ b) by (rewrite X2, X1; reflexivity).
    exists (mkMV F (v_fs F u) (v_ms F u) (v_bs F u) f m b (o_sc o)).
    split; [apply (C62_step F IO PN self opts tmpdir exec other n advance R D fs u t tmax outs o f m b); assumption|].
    split; [unfold mv_get; cbn [v_front v_middle v_back]; rewrite Eo, <- app_assoc; reflexivity|]. split; [reflexivity|]. split; [constructor; cbn; assumption|].
    split; [reflexivity|]. split; assumption. }
  assert (G : forall ts t t1 u, shaped F n u -> fnan F t = false -> existsb (fnan F) (mv_get F u) = false ->
    reaches_all F plus less (time_step F self) t (t1 :: ts) ->
    exists outs o r, runs F plus less phi output (time_step F self) (last ts t1) t (mv_get F u) (outs ++ [o]) /\ o_time o = last ts t1 /\
      march (machine_step F self (run_shell exec other) tmpdir fs) u t (t1 :: ts) = inl r /\
      mv_get F r = o_u o /\ v_sc F r = o_sc o /\ shaped F n r /\ (v_fs F r, v_ms F r, v_bs F r) = (v_fs F u, v_ms F u, v_bs F u)).
  { induction ts as [|t2 ts IH]; intros t t1 u Sh Nt Nu Re.
    - destruct Re as [Re _]. destruct (reaches_runs F plus less phi output _ _ _ (Li t1) Re (mv_get F u)) as (outs & o & R1 & R2).
      destruct (One u t t1 outs o Sh Nt Nu R1) as (r & S1 & S2 & S3 & S4 & S5 & _). exists outs, o, r. cbn [last march]. rewrite S1. cbn [rbind].
      split; [exact R1|]. split; [exact R2|]. split; [reflexivity|]. split; [exact S2|]. split; [exact S3|]. split; [exact S4|exact S5].
    - destruct Re as [Re Re']. destruct (reaches_runs F plus less phi output _ _ _ (Li t1) Re (mv_get F u)) as (outs & o & R1 & R2).
      destruct (One u t t1 outs o Sh Nt Nu R1) as (r & S1 & S2 & S3 & S4 & S5 & S6 & S7). rewrite R2 in S7. rewrite <- S2 in S6.
      destruct (IH t1 t2 r S4 S7 S6 Re') as (outs2 & o2 & r2 & Q1 & Q2 & Q3 & Q4 & Q5 & Q6 & Q7).
      assert (El : last (t2 :: ts) t1 = last ts t2) by (destruct ts as [|x l]; [reflexivity|apply last_cons]).
      exists ((outs ++ [o]) ++ outs2), o2, r2. rewrite El. split; [|split; [exact Q2|split; [cbn [march]; rewrite S1; cbn [rbind]; exact Q3|]]].
      + rewrite <- app_assoc. apply (runs_app F plus less phi output _ t1); [|exact R1|rewrite R2, <- S2; exact Q1].
        intros x Hx. apply (Lt x t1); [exact Hx|]. clear - Re' Lt.
        assert (G : forall ts a b, reaches_all F plus less (time_step F self) a (b :: ts) -> less a (last ts b) = true); [|apply G; exact Re'].
        clear - Lt. induction ts as [|c ts IH]; intros a b [H1 H2].
        * cbn. destruct H1; assumption.
        * destruct ts as [|x l].
          -- cbn. destruct H2 as [H2 _]. apply (Lt a b); [destruct H1|destruct H2]; assumption.
          -- rewrite last_cons. apply (Lt a b); [destruct H1; assumption|]. apply (IH b c). exact H2.
      + split; [exact Q4|]. split; [exact Q5|]. split; [exact Q6|]. rewrite Q7. exact S5. }
  intros t t1 ts u Sh Nt Nu Re. destruct (G ts t t1 u Sh Nt Nu Re) as (outs & o & r & A1 & A2 & A3 & A4 & A5 & A6 & A7).
  exists outs, o, r. split; [exact A1|]. split; [exact A2|]. split; [exact A3|]. split; [|split; [exact A4|exact A5]].
  destruct (One u t (last ts t1) outs o Sh Nt Nu A1) as (r' & B1 & B2 & B3 & B4 & B5 & _). rewrite B1. f_equal.
  rewrite <- A4 in B2. rewrite <- A5 in B3. rewrite <- A7 in B5. clear - A6 B2 B3 B4 B5.
  destruct r as [fs ms bs f m b sc], r' as [fs' ms' bs' f' m' b' sc']. destruct A6 as [P1 P2 P3 _ _]. destruct B4 as [P1' P2' P3' _ _].
  unfold mv_get in B2. cbn [v_fs v_ms v_bs v_front v_middle v_back v_sc] in *. injection B5 as -> -> ->. subst sc'.
  rewrite <- !app_assoc in B2.
  assert (K : forall (a a' b b' : list (fl F)), a ++ b = a' ++ b' -> List.length a = List.length a' -> a = a' /\ b = b').
  { clear. induction a as [|x a IH]; intros [|x' a'] b b' E L; try discriminate; [split; [reflexivity|exact E]|].
    injection E as -> E. destruct (IH a' b b' E) as [-> ->]; [cbn in L; lia|]. split; reflexivity. }
  destruct (K _ _ _ _ B2) as [-> B3]; [congruence|]. destruct (K _ _ _ _ B3) as [-> ->]; [congruence|]. reflexivity.
Qed.

(** ** The constructor *)
Lemma rpart_at c d x : ~ In c x -> rpart c (d ++ c :: x) = (d ++ [c], x).
Proof.
  intros H. assert (Hx : rpart c x = ([], x)).
  { clear d. induction x as [|y x IH]; [reflexivity|]. cbn [rpart]. rewrite IH by (intros X; apply H; right; exact X).
    destruct (Ascii.eqb_spec y c) as [->|E]; [exfalso; apply H; left; reflexivity|reflexivity]. }
  induction d as [|y d IH]; cbn [app rpart].
  - rewrite Hx, Ascii.eqb_refl. reflexivity.
  - rewrite IH. destruct d; reflexivity.
Qed.
Lemma rpart_none c x : ~ In c x -> rpart c x = ([], x).
Proof.
  induction x as [|y x IH]; intros H; [reflexivity|]. cbn [rpart]. rewrite IH by (intros X; apply H; right; exact X).
  destruct (Ascii.eqb_spec y c) as [->|E]; [exfalso; apply H; left; reflexivity|reflexivity].
Qed.
(** A directory as the examples give it: empty, or with one slash at the end *)
Definition directory (p : text) : Prop := p = [] \/ p = [SL] \/ exists d c, c <> SL /\ p = d ++ [c; SL].
Lemma beside_dir p pro name : directory p -> ~ In SL pro -> ~ In SL name -> name <> [] -> beside (p ++ pro) name = p ++ name.
Proof.
  intros D Hp Hn N. unfold beside, os_split. destruct D as [->|[->|(d & c & Hc & ->)]].
  - cbn [app]. rewrite rpart_none by exact Hp. cbn [forallb fst]. rewrite os_join_all by exact Hn. reflexivity.
  - change ([SL] ++ pro) with ([] ++ SL :: pro). rewrite rpart_at by exact Hp. cbn [app forallb]. rewrite Ascii.eqb_refl. cbn [andb fst].
    rewrite os_join_all by exact Hn. reflexivity.
  - rewrite <- app_assoc. change ([c; SL] ++ pro) with ([c] ++ SL :: pro). rewrite app_assoc, rpart_at by exact Hp.
    replace (forallb (Ascii.eqb SL) ((d ++ [c]) ++ [SL])) with false.
    2:{ symmetry. apply not_true_is_false. intros X. rewrite forallb_forall in X. specialize (X c). rewrite Ascii.eqb_eq in X. apply Hc. symmetry. apply X.
        apply in_or_app. left. apply in_or_app. right. left. reflexivity. }
    cbn [fst]. unfold rstrip. rewrite !rev_app_distr. cbn [rev app lstrip]. rewrite Ascii.eqb_refl.
    destruct (Ascii.eqb_spec c SL); [contradiction|]. cbn [rev]. rewrite rev_involutive, os_join_all by exact Hn.
    unfold in_dir. rewrite rev_app_distr. cbn [rev app]. destruct (Ascii.eqb_spec c SL); [contradiction|]. rewrite <- !app_assoc. reflexivity.
Qed.

Definition option_names : list text := map tx ["Flag_AnalysisType"; "Flag_NL"; "Flag_ImposedSpeed"; "Nb_max_iter"; "relaxation_factor"; "stop_criterion"; "NbTrelax"; "Flag_PWM"]%string.
Theorem C62_init : forall (F : Flt) tsub tdiv fs rc t a self v, machine_init F tsub tdiv fs rc t a = inl (self, v) ->
  (** every value is a number or word without special characters, the path is a directory *)
  Forall (fun o => plain_word (ostr o)) [analysis_type a; imposed_speed a; nb_max_iter a; relaxation_factor a; stop_criterion a; nb_trelax a] ->
  plain_text (path_im3kw a) -> plain_word (path_getdp a) -> plain_word (pro_file a) -> plain_word (grid a) ->
  directory (path_im3kw a) -> ~ In SL (pro_file a) -> ~ In SL (grid a) ->
  (exists opts, map fst opts = option_names /\
    map snd opts = [analysis_type a; ONum (int_str (Z.b2z (nonlinear a))); imposed_speed a; nb_max_iter a; relaxation_factor a; stop_criterion a; nb_trelax a; ONum (int_str (Z.b2z (pwm a)))] /\
    forall tmpdir, plain_word tmpdir -> ready F self opts tmpdir) /\
  (exists pre c2u u2c boundary, fs (path_im3kw a ++ grid a ++ tx ".pre") = Some pre /\ pre_file pre = inl (c2u, u2c, boundary) /\
    nx F self = 8 + List.length u2c + 15 /\ shaped F (nx F self) v /\ mv_get F v = repeat (fzero F) (nx F self) /\
    List.length (v_front F v) = 8 /\ List.length (v_middle F v) = List.length u2c /\ List.length (v_back F v) = 15) /\
  isfile fs (pro_path F self) = true /\ isfile fs (getdp_path F self) = true /\ rc = 0%Z /\
  beside (pro_path F self) (mesh F self) = path_im3kw a ++ grid a ++ tx ".msh" /\
  (exists t0 t1 ts, t = t0 :: t1 :: ts /\ time_step F self = tdiv (tsub t1 t0) (steps_per_solve a)).
Proof.
  intros F tsub tdiv fs rc t a self v H Po Pp Pg Pr Pm Dp Sp Sg. unfold machine_init in H.
  destruct (isfile fs (path_im3kw a ++ pro_file a)) eqn:I1; [|discriminate]. destruct (isfile fs (path_getdp a)) eqn:I2; [|discriminate]. cbn [negb] in H.
  apply rbind_inv in H as (pre & Hpre & H). apply of_opt_inv in Hpre. apply rbind_inv in H as ([[c2u u2c] boundary] & Hp & H).
  cbn [fst snd] in H. apply rbind_inv in H as (t1 & H1 & H). apply of_opt_inv in H1. apply rbind_inv in H as (t0 & H0 & H). apply of_opt_inv in H0.
  destruct (rc =? 0)%Z eqn:Er; [|discriminate]. cbn [negb] in H. apply Z.eqb_eq in Er. injection H as <- <-.
  repeat match goal with P : Forall _ (_ :: _) |- _ => let P1 := fresh "P" in pose proof (Forall_inv P) as P1; apply Forall_inv_tail in P end.
  assert (B : forall b : bool, plain_word (int_str (Z.b2z b))) by (intros []; (split; [discriminate|repeat constructor])).
  cbn [pro_path getdp_path mesh nx time_step preprocessing fopt]. split; [|split; [|split; [|split; [|split; [|split]]]]].
  - exists (combine option_names [analysis_type a; ONum (int_str (Z.b2z (nonlinear a))); imposed_speed a; nb_max_iter a; relaxation_factor a; stop_criterion a; nb_trelax a; ONum (int_str (Z.b2z (pwm a)))]).
    split; [reflexivity|]. split; [reflexivity|]. intros tmpdir Pt. constructor; cbn [fopt preprocessing getdp_path pro_path mesh]; try assumption; try reflexivity.
    + repeat (constructor; [split; cbn [fst snd ostr]; first [assumption|apply B|split; [discriminate|repeat constructor]]|]). constructor.
    + split; [intros X; apply app_eq_nil in X as [_ X]; apply (proj1 Pr X)|]. apply Forall_app. split; [exact Pp|apply Pr].
    + split; [intros X; apply app_eq_nil in X as [X _]; apply (proj1 Pm X)|]. apply Forall_app. split; [apply Pm|repeat constructor].
  - exists pre, c2u, u2c, boundary. split; [exact Hpre|]. split; [exact Hp|]. split; [lia|]. split.
    + constructor; cbn [mv_zeros v_fs v_ms v_bs v_front v_middle v_back]; rewrite ?repeat_length; lia.
    + split; [unfold mv_get; cbn [mv_zeros v_front v_middle v_back]; rewrite <- !repeat_app; f_equal; lia|].
      cbn [mv_zeros v_front v_middle v_back]. rewrite !repeat_length. auto.
  - exact I1.
  - exact I2.
  - exact Er.
  - apply beside_dir; auto.
    + intros X. apply in_app_or in X as [X|X]; [exact (Sg X)|]. cbn in X. intuition discriminate.
    + intros X. apply app_eq_nil in X as [_ X]. discriminate.
  - destruct t as [|a0 [|a1 ts]]; try discriminate. injection H0 as ->. injection H1 as ->. exists t0, t1, ts. split; reflexivity.
Qed.

(** ** An instance: a program that behaves like GetDP; numbers are integers *)
Lemma zflt_plain : plain_numbers zflt.
Proof.
  intros [z|]; [|split; [discriminate|repeat constructor]]. cbn [zflt fstr]. split; [apply int_chars|]. unfold int_str.
  assert (K : forall d, plain_text (tx (NilEmpty.string_of_uint d))).
  { induction d; cbn [NilEmpty.string_of_uint tx list_ascii_of_string]; [constructor|..]; (constructor; [reflexivity|exact IHd]). }
  assert (K2 : forall d, plain_text (tx (NilZero.string_of_uint d))) by (intros [ | | | | | | | | | | ]; try apply K; repeat constructor).
  destruct (Z.to_int z) as [d|d]; cbn [NilZero.string_of_int]; [apply K2|]. constructor; [reflexivity|apply K2].
Qed.
Definition zadd (a b : option Z) : option Z := match a, b with Some x, Some y => Some (x + y)%Z | _, _ => None end.
Definition zless (a b : option Z) : bool := match a, b with Some x, Some y => (x <? y)%Z | _, _ => false end.
Definition zphi (dt t : option Z) (u : list (option Z)) : list (option Z) := map (fun x => zadd x (Some 2%Z)) u.
Definition zoutput (dt t : option Z) (u : list (option Z)) : MScal zflt :=
  let x := hd (Some 0%Z) u in mkMS zflt x (Some 1%Z) (Some 2%Z) (Some 3%Z) (Some 4%Z) (Some 5%Z) (Some 6%Z) (zadd x x).
Fixpoint zloop (fuel : nat) (tmax dt t : option Z) (u : list (option Z)) : list (Out zflt) :=
  match fuel with
  | 0 => []
  | S fuel' => if zless t tmax then one zflt zadd zphi zoutput dt t u :: zloop fuel' tmax dt (zadd t dt) (zphi dt t u) else []
  end.
Definition zadvance (tmax dt t : option Z) (u : list (option Z)) : list (Out zflt) :=
  match tmax, t with Some b, Some a => zloop (Z.to_nat (b - a)) tmax dt t u | _, _ => [] end.
Lemma zadvance_runs k tmax t u : (0 < k)%Z -> runs zflt zadd zless zphi zoutput (Some k) tmax t u (zadvance tmax (Some k) t u).
Proof.
  intros Hk. unfold zadvance. destruct tmax as [b|]; [|constructor; destruct t; reflexivity]. destruct t as [a|]; [|constructor; reflexivity].
  assert (G : forall fuel a u, (b - a <= Z.of_nat fuel)%Z -> runs zflt zadd zless zphi zoutput (Some k) (Some b) (Some a) u (zloop fuel (Some b) (Some k) (Some a) u)).
  { induction fuel as [|fuel IH]; intros a' u' L.
    - constructor. cbn. apply Z.ltb_ge. lia.
    - cbn [zloop]. destruct (zless (Some a') (Some b)) eqn:E; [|constructor; exact E]. constructor; [exact E|]. cbn [zadd]. apply IH. cbn in E. apply Z.ltb_lt in E. lia. }
  apply G. lia.
Qed.

Definition zpre (n : nat) : text := tx "$Group
1 2
$DofData  /* #0 */
0 0
1 6
0
1 6 1 0 0
40 " ++ int_str (Z.of_nat n) ++ tx "
$EndDofData
".
Lemma zpre_announces n : announces n (zpre n).
Proof.
  exists [tx "$Group"; tx "1 2"], [tx "$EndDofData"], (tx "$DofData  /* #0 */"), (tx "0 0"), (tx "1 6"), (tx "0"), (tx "1 6 1 0 0"), (tx "40 " ++ int_str (Z.of_nat n)).
  split; [|split; [|split; [|split]]].
  - intros l Hl. cbn [app In] in Hl.
    repeat (destruct Hl as [<-|Hl]; [split; first [ cbn; intuition discriminate | intros X; cbn [tx list_ascii_of_string app In] in X; destruct X as [X|[X|[X|X]]]; try discriminate;
      revert X; apply (int_not (Z.of_nat n)); left; reflexivity ]|]). contradiction.
  - intros l a b Hl E. apply (f_equal (contains (tx "$DofData"))) in E. rewrite (proj2 (contains_ok (tx "$DofData") (a ++ tx "$DofData" ++ b))) in E by eauto.
    destruct Hl as [<-|[<-|[]]]; vm_compute in E; discriminate.
  - exists [], (tx "  /* #0 */"). reflexivity.
  - exists (tx "40"). reflexivity.
  - unfold zpre. cbn [map app List.concat]. rewrite <- !app_assoc. reflexivity.
Qed.
Definition zwrite (rd : text) (outs : list (Out zflt)) (fs : FS) : FS :=
  fold_right (fun q fs => fs_set fs (rd ++ fst q ++ tx ".dat") (rows_text (F := zflt) (map (fun o => (fstr zflt (o_time o), snd q (o_sc o))) outs))) fs (quantities zflt).
Definition zexec (n : nat) : Exec := fun exe args fs =>
  match args with
  | pro :: what :: args' =>
      let args' := if text_eqb what (tx "-pre") then tl args' else args' in
      match args' with
      | _ :: _ :: _ :: nm :: _ :: rs :: _ :: _ :: tmax :: _ :: _ :: dt :: _ :: _ :: rd :: _ =>
          if text_eqb what (tx "-pre") then (fs_set fs (nm ++ tx ".pre") (zpre n), 0%Z)
          else
            match fparse zflt tmax, fparse zflt dt, fs rs with
            | Some tmax, Some dt, Some file =>
                match getdp_read_resolution zflt file n with
                | inl ([t], [u]) => let outs := zadvance tmax dt t u in
                    (zwrite rd outs (fs_set fs rs (file_text (mkSol 0 t (map (fun x => (x, fzero zflt)) u) :: numbered 1 outs))), 0%Z)
                | _ => (fs, 1%Z)
                end
            | _, _, _ => (fs, 1%Z)
            end
      | _ => (fs, 1%Z)
      end
  | _ => (fs, 1%Z)
  end.
Lemma zexec_does exe pro msh opts n : n <> 0 -> getdp_does zflt (zexec n) exe pro msh opts n zadvance.
Proof.
  intros Hn. constructor.
  - intros tmax dt nm rs rd fs. exists (fs_set fs (nm ++ tx ".pre") (zpre n)), (zpre n).
    split; [reflexivity|]. split; [apply fs_set_same|apply zpre_announces].
  - intros tmax dt t u nm rs rd fs pre outs o _ _ Lu Nt Nu Hr Hd Adv.
    assert (Nu' : u <> []) by (intros ->; cbn in Lu; lia).
    assert (Er : getdp_read_resolution zflt (file_text [mkSol (F := zflt) 0 t (map (fun x => (x, fzero zflt)) u)]) n = inl ([t], [u])).
    { destruct (C48_write_read zflt zflt_io t u Nu' Nt Nu) as (file & W1 & W2). pose proof (set_resolution_text zflt t u Nu') as W3. 
      rewrite W3 in W1. injection W1 as <-. rewrite <- Lu. exact W2. }
    exists (zwrite rd (outs ++ [o]) (fs_set fs rs (file_text (mkSol 0 t (map (fun x => (x, fzero zflt)) u) :: numbered 1 (outs ++ [o]))))).
    split.
    + unfold zexec, arguments. cbn [app]. change (text_eqb (tx "-restart") (tx "-pre")) with false. cbv iota.
      rewrite !(io_parse zflt zflt_io), Hr, Er, Adv. reflexivity.
    + split.
      * unfold zwrite. revert Hd. generalize (quantities zflt) as l. induction l as [|q l IH]; intros Hd; cbn [fold_right]; [apply fs_set_same|].
        rewrite fs_set_other; [apply IH; intros q' Hq'; apply Hd; right; exact Hq'|]. intros X. apply (Hd q); [left; reflexivity|symmetry; exact X].
      * intros q Hq. exists (map (fun x => (fstr zflt (o_time x), snd q (o_sc x))) outs), (fstr zflt (o_time o)). split.
        -- apply Forall_forall. intros r Hr'. change [(fstr zflt (o_time o), snd q (o_sc o))] with (map (fun x => (fstr zflt (o_time x), snd q (o_sc x))) [o]) in Hr'.
           rewrite <- map_app in Hr'. apply in_map_iff in Hr' as (x & <- & _). cbn [fst].
           split; (apply (float_not zflt zflt_io); left; reflexivity).
        -- change [(fstr zflt (o_time o), snd q (o_sc o))] with (map (fun x => (fstr zflt (o_time x), snd q (o_sc x))) [o]). rewrite <- map_app.
           assert (X : forall (a b : text), rd ++ a ++ tx ".dat" = rd ++ b ++ tx ".dat" -> a = b) by (intros a b E; apply app_inv_head in E; apply app_inv_tail in E; exact E).
           unfold zwrite. unfold quantities in *. cbn [In] in Hq. cbn [fold_right fst snd].
           repeat (destruct Hq as [<-|Hq]; [cbn [fst snd]; repeat first [apply fs_set_same|rewrite fs_set_other by (intros E; apply X in E; discriminate)]|]). contradiction.
Qed.

(** The hypotheses of the theorems hold for it. *)
Definition zself (dt : Z) : Machine zflt := mkMachine zflt (tx "/models/im_3kW.pro") (tx "/bin/getdp") (tx "im_3kW.msh") 3 (Some dt) (tx "#1")
  [OStr (tx "Flag_NL"); ONum (tx "1"); OStr (tx "stop_criterion"); ONum (tx "1e-06")].
Definition zopts : list (text * oval) := [(tx "Flag_NL", ONum (tx "1")); (tx "stop_criterion", ONum (tx "1e-06"))].
Definition zshell : text -> FS -> FS * Z := run_shell (zexec 3) (fun _ fs => (fs, 127%Z)).
Definition zstart : MVec zflt := mkMV zflt 1 1 1 [Some 10%Z] [Some 20%Z] [Some 30%Z] (mkMS zflt (Some 0%Z) (Some 0%Z) (Some 0%Z) (Some 0%Z) (Some 0%Z) (Some 0%Z) (Some 0%Z) (Some 0%Z)).
Lemma zself_ready dt : ready zflt (zself dt) zopts (tx "/tmp/x").
Proof. constructor; try reflexivity; repeat (first [constructor|discriminate]). Qed.
Example C62_example :
  ready zflt (zself 1) zopts (tx "/tmp/x") /\ float_io zflt /\ plain_numbers zflt /\ shaped zflt 3 zstart /\
  getdp_does zflt (zexec 3) (getdp_path zflt (zself 1)) (pro_path zflt (zself 1)) (beside (pro_path zflt (zself 1)) (mesh zflt (zself 1))) zopts 3 zadvance /\
  (forall tmax t u, runs zflt zadd zless zphi zoutput (Some 1%Z) tmax t u (zadvance tmax (Some 1%Z) t u)) /\
  reaches_all zflt zadd zless (Some 1%Z) (Some 0%Z) [Some 2%Z; Some 3%Z] /\
  exists r, march (machine_step zflt (zself 1) zshell (tx "/tmp/x") (fun _ => None)) zstart (Some 0%Z) [Some 2%Z; Some 3%Z] = inl r /\
    mv_get zflt r = [Some 16; Some 26; Some 36]%Z /\ s_jl zflt (v_sc zflt r) = Some 14%Z.
Proof.
  split; [apply zself_ready|]. split; [exact zflt_io|]. split; [exact zflt_plain|]. split; [constructor; (reflexivity || discriminate)|].
  split; [apply zexec_does; discriminate|]. split; [intros; apply zadvance_runs; lia|]. split.
  - split; [|split; [|exact I]]; [apply reaches_more; [reflexivity|]|]; apply reaches_one; reflexivity.
  - eexists. split; [vm_compute; reflexivity|]. split; reflexivity.
Qed.
(** The hypotheses on the numbers in C62_uninterrupted *)
Example C62_numbers_example :
  (forall t u, List.length u = 3 -> existsb (fnan zflt) u = false -> List.length (zphi (Some 1%Z) t u) = 3 /\ existsb (fnan zflt) (zphi (Some 1%Z) t u) = false) /\
  (forall t, fnan zflt t = false -> fnan zflt (zadd t (Some 1%Z)) = false) /\
  (forall t, zless t t = false) /\ (forall a b c, zless a b = true -> zless b c = true -> zless a c = true).
Proof.
  split; [|split; [|split]].
  - intros t u L N. unfold zphi. rewrite map_length. split; [exact L|]. clear L. induction u as [|[x|] u IH]; [reflexivity| |discriminate]. cbn in *. apply IH. exact N.
  - intros [x|]; [reflexivity|discriminate].
  - intros [x|]; [cbn; apply Z.ltb_irrefl|reflexivity].
  - intros [a|] [b|] [c|]; cbn; try discriminate. rewrite !Z.ltb_lt. lia.
Qed.

(** A .pre file with three nodes, one of them on the boundary *)
Example C62_init_example :
  let pre := List.concat (repeat (tx "head
") 9) ++ tx "1 11 0 1 7 0
1 12 0 1 -1 0
1 13 0 1 8 0
" ++ List.concat (repeat (tx "tail
") 35) in
  let fs := fun f : text => if text_eqb f (tx "models/im_3kW.pre") then Some pre else if text_eqb f (tx "models/im_3kW.pro") || text_eqb f (tx "/bin/getdp") then Some [] else None in
  let a := mkArgs (tx "im_3kW") (tx "models/") (tx "/bin/getdp") (ONum (tx "1")) (ONum (tx "2")) (ONum (tx "1")) (ONum (tx "60")) (ONum (tx "0.5")) (ONum (tx "1e-06")) true false (tx "im_3kW.pro") 2 in
  exists self v, machine_init zflt (fun x y => zadd x (option_map Z.opp y)) (fun x k => option_map (fun z => (z / k)%Z) x) fs 0 [Some 0; Some 4; Some 8]%Z a = inl (self, v) /\
    nx zflt self = 25 /\ time_step zflt self = Some 2%Z /\ directory (path_im3kw a) /\ plain_word (path_im3kw a) /\ plain_word (pro_file a) /\ plain_word (grid a) /\
    ~ In SL (pro_file a) /\ ~ In SL (grid a) /\
    Forall (fun o => plain_word (ostr o)) [analysis_type a; imposed_speed a; nb_max_iter a; relaxation_factor a; stop_criterion a; nb_trelax a].
Proof.
  cbv zeta. do 2 eexists. split; [vm_compute; reflexivity|]. split; [reflexivity|]. split; [reflexivity|].
  split; [right; right; exists (tx "model"), "s"%char; split; [discriminate|reflexivity]|].
  split; [split; [discriminate|repeat constructor]|]. split; [split; [discriminate|repeat constructor]|]. split; [split; [discriminate|repeat constructor]|].
  split; [cbn; intuition discriminate|]. split; [cbn; intuition discriminate|].
  repeat (constructor; [split; [discriminate|repeat constructor]|]). constructor.
Qed.

(** The time step is computed from the first interval only (line 62). On a grid with intervals of different length the vector of step
    t_start -> t_stop belongs to another time than t_stop. *)
Theorem C62_stop_time_refuted : ~ forall (t : list (option Z)) a self v fs rc,
  machine_init zflt (fun x y => zadd x (option_map Z.opp y)) (fun x k => option_map (fun z => (z / k)%Z) x) fs rc t a = inl (self, v) ->
  forall i t0 t1, nth_error t i = Some t0 -> nth_error t (S i) = Some t1 -> zless t0 t1 = true ->
  exists outs o, zadvance t1 (time_step zflt self) t0 (mv_get zflt v) = outs ++ [o] /\ o_time o = t1.
Proof.
  intros H.
  pose (a := mkArgs (tx "im_3kW") [] (tx "getdp") (ONum (tx "1")) (ONum (tx "2")) (ONum (tx "1")) (ONum (tx "60")) (ONum (tx "0.5")) (ONum (tx "1e-06")) false false (tx "im_3kW.pro") 1).
  destruct (machine_init zflt (fun x y => zadd x (option_map Z.opp y)) (fun x k => option_map (fun z => (z / k)%Z) x) (fun _ => Some []) 0 [Some 0; Some 2; Some 3]%Z a) as [[self v]|e] eqn:E;
    [|vm_compute in E; discriminate].
  specialize (H _ _ _ _ _ _ E 1 (Some 2%Z) (Some 3%Z) eq_refl eq_refl eq_refl).
  apply (f_equal (fun x => match x with inl (m, _) => time_step zflt m | inr _ => None end)) in E.
  assert (Et : time_step zflt self = Some 2%Z) by (symmetry; vm_compute in E |- *; exact E). rewrite Et in H. clear E.
  destruct H as (outs & o & E & T). apply (f_equal (fun l => List.last (map (fun x : Out zflt => o_time x : option Z) l) None)) in E.
  rewrite map_app in E. cbn [map] in E. rewrite last_last, T in E. vm_compute in E. discriminate.
Qed.
(** A directory with a space: the constructor finds all files, but GetDP is called with other words than the path. *)
Theorem C62_space_refuted : exists (self : Machine zflt) v a fs, machine_init zflt (fun x y => zadd x (option_map Z.opp y)) (fun x k => x) fs 0 [Some 0; Some 1]%Z a = inl (self, v) /\
  isfile fs (pro_path zflt self) = true /\
  forall what msh nm rs rd funargstr t_stop ws, shell_words false None (command zflt self what msh nm rs rd funargstr t_stop) = Some ws ->
  exists w, nth_error ws 1 = Some w /\ w <> pro_path zflt self.
Proof.
  pose (a := mkArgs (tx "im_3kW") (tx "my models/") (tx "getdp") (ONum (tx "1")) (ONum (tx "2")) (ONum (tx "1")) (ONum (tx "60")) (ONum (tx "0.5")) (ONum (tx "1e-06")) false false (tx "im_3kW.pro") 1).
  destruct (machine_init zflt (fun x y => zadd x (option_map Z.opp y)) (fun x k => x) (fun _ => Some []) 0 [Some 0; Some 1]%Z a) as [[self v]|e] eqn:E;
    [|vm_compute in E; discriminate].
  exists self, v, a, (fun _ => Some []). split; [exact E|].
  apply (f_equal (fun x => match x with inl (m, _) => (getdp_path zflt m, pro_path zflt m) | inr _ => ([], []) end)) in E.
  assert (Ep : (getdp_path zflt self, pro_path zflt self) = (tx "getdp", tx "my models/im_3kW.pro")) by (symmetry; vm_compute in E |- *; exact E).
  clear E. injection Ep as Eg Ep. rewrite Ep. split; [reflexivity|].
  intros what msh nm rs rd fa t_stop ws W. exists (tx "my"). split; [|discriminate]. unfold command in W. rewrite Eg, Ep in W. cbn [join] in W.
  match type of W with shell_words false None (?g ++ ?sp ++ ?r) = _ => change (g ++ sp ++ r) with (tx "getdp" ++ " "%char :: r) in W; 
    rewrite (proj1 (parses_word (tx "getdp") ltac:(split; [discriminate|repeat constructor]))) in W end.
  match type of W with option_map _ (shell_words false None (?g ++ ?r)) = _ => change (g ++ r) with (tx "my" ++ " "%char :: (tx "models/im_3kW.pro" ++ r)) in W;
    rewrite (proj1 (parses_word (tx "my") ltac:(split; [discriminate|repeat constructor]))) in W end.
  destruct (shell_words false None _) as [l|]; [|discriminate]. cbn in W. injection W as <-. reflexivity.
Qed.
Print Assumptions C62_command. Print Assumptions C62_step. Print Assumptions C62_result_checked. Print Assumptions C62_uninterrupted. Print Assumptions C62_init.
Print Assumptions C62_stop_time_refuted. Print Assumptions C62_space_refuted.
