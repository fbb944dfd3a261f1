(** Property theorems: C58 (imports that are reported as unused). *)
From Verif Require Import Base Lexer SymTab Ast Eval ParserBase ParserExpr ParserValue Lint ParserDecl ParserFile Process RunSyntax RunGraph Imports ImportFrame ImportRun Prop_Process.
From Verif Require SourceMan.
Import SourceMan (fkind, RSL, TRLC).
Open Scope Z_scope.

Section RUN.
Variable compiles : text -> bool.
Variable matches : text -> text -> option bool.
Variable pick : list SourceMan.node -> nat.
Variable lint recovery : bool.
Hypothesis regex : forall p x, compiles p = true -> matches p x <> None.

(** Whatever imports that are reported are dropped, in all files together
    ([f] chooses): if no string of the file mentions the package in markup,
    then the run has the same result, with the same messages.  The files that
    are read, and their order, are left as they are. *)
Theorem C58_unused_dropped fs gr v ms us f : build_graph fs = Ok gr ->
  process_all compiles matches pick lint recovery fs = Ok (Some v, ms, us) ->
  (forall pa p, In pa (gr_rsl gr ++ gr_trlc gr) -> f pa p = true ->
     unused_import v pa p <> [] /\ silent (pa_src pa) (pa_id pa) (package_name (v_stab v) p)) ->
  process_from compiles matches pick lint recovery (drop_all f gr) = Ok (Some v, ms).
Proof.
  intros Eg H U. unfold process_all in H. rewrite Eg in H. cbn [bind] in H.
  destruct (process_from compiles matches pick lint recovery gr) as [[o m]| | |] eqn:E; try discriminate. cbn [bind] in H. injection H as -> -> _.
  eapply run_drop; eauto.
Qed.

(** Exactly when the import of a package [k] is reported, and where: the file
    is used, the name is the text of one token of the file only, and no
    component with markup as its value refers to the package. *)
Theorem C58_reports fs gr v ms us l k : build_graph fs = Ok gr ->
  process_all compiles matches pick true recovery fs = Ok (Some v, ms, us) ->
  In (l, k) us <->
  exists pa ps p tk, In pa (gr_rsl gr ++ gr_trlc gr) /\ file_needed fs (input_of pa) /\ cu_imports (pa_cu pa) = Some ps /\ In p ps /\
    In (k, N_pkg p) (v_stab v) /\ named_once (pa_src pa) k tk /\ l = tok_loc (pa_id pa) tk /\ ~ markup_use v (pa_id pa) k.
Proof.
  intros Eg H. unfold process_all in H. rewrite Eg in H. cbn [bind] in H.
  destruct (process_from compiles matches pick true recovery gr) as [[o m]| | |] eqn:E; try discriminate. cbn [bind fst] in H. injection H as -> -> <-.
  eapply run_reports; eauto.
Qed.
(** Without lint mode, or if the run fails, nothing is reported. *)
Theorem C58_no_reports fs v ms us : process_all compiles matches pick lint recovery fs = Ok (v, ms, us) -> lint = false \/ v = None -> us = [].
Proof.
  unfold process_all. destruct (build_graph fs) as [gr| | |]; try discriminate. cbn [bind].
  destruct (process_from _ _ _ _ _ gr) as [[o m]| | |]; try discriminate. cbn. intros H. injection H as -> -> <-. intros [-> | ->]; auto. destruct v; auto.
Qed.
End RUN.
Print Assumptions C58_unused_dropped.
Print Assumptions C58_reports.
Print Assumptions C58_no_reports.

(** A package that is named once more, anywhere in the file, is not reported. *)
Theorem C58_named_not_reported v pa p a b c tk tk' : lexed (pa_src pa) = a ++ tk :: b ++ tk' :: c ->
  tk_value tk = VText (package_name (v_stab v) p) -> tk_value tk' = VText (package_name (v_stab v) p) -> unused_import v pa p = [].
Proof.
  intros E H H'. unfold unused_import, import_uses. rewrite E, filter_app. cbn [filter]. unfold has_text at 2. rewrite H, text_eqb_refl.
  rewrite filter_app. cbn [filter]. unfold has_text at 3. rewrite H', text_eqb_refl. rewrite !map_app. cbn [map]. rewrite map_app. cbn [map].
  destruct (map _ (filter _ a)) as [|x [|]]; cbn; auto. destruct (map _ (filter _ b)) as [|]; cbn; auto.
Qed.
Print Assumptions C58_named_not_reported.

(** ** Examples *)
Definition no_regex (p : text) : bool := false.
Definition no_match (p x : text) : option bool := None.
Definition first_node (l : list SourceMan.node) : nat := 0%nat.
Definition graph_of (l : list (fkind * text)) : graph_result :=
  match build_graph (files l) with Ok gr => gr | _ => GR [] [] env0 (SourceMan.BState [] [] [] 0) [] end.
Definition run_all (l : list (fkind * text)) : res unit (option env * list msg * list (loc * text)) :=
  process_all no_regex no_match first_node true true (files l).
Definition table_of (l : list (fkind * text)) : env := match run_all l with Ok (Some v, _, _) => v | _ => env0 end.
Definition unused_of (l : list (fkind * text)) : list (loc * text) := match run_all l with Ok (_, us) => us | _ => [] end.
Definition every (pa : parser) (p : nat) : bool := true.
Definition run_without (l : list (fkind * text)) (f : parser -> nat -> bool) : res unit (option env * list msg) :=
  process_from no_regex no_match first_node true true (drop_all f (graph_of l)).

Definition p_rsl : text := t "package P type R { n Integer }".
Definition p_trlc : text := t "package P R x { n = 1 }".
Definition q_rsl : text := t "package Q type S { m optional Markup_String  ar optional Markup_String [1 .. 2] }".
(** An import of which nothing is used, one that is used, and one that is
    only used in markup. *)
Definition plain : list (fkind * text) :=
  [(RSL, p_rsl); (RSL, q_rsl); (TRLC, p_trlc); (TRLC, t "package Q import P S y { m = ""see [[y]]"" }")].
Definition used : list (fkind * text) :=
  [(RSL, p_rsl); (RSL, q_rsl); (TRLC, p_trlc); (TRLC, t "package Q import P P.R y { n = 2 }")].
Definition marked : list (fkind * text) :=
  [(RSL, p_rsl); (RSL, q_rsl); (TRLC, p_trlc); (TRLC, t "package Q import P S y { m = ""see [[P.x]]"" }")].
Example C58_example :
  map snd (unused_of plain) = [t "P"] /\ map snd (unused_of used) = [] /\ map snd (unused_of marked) = [].
Proof. vm_compute. repeat split. Qed.
Example C58_named_not_reported_example : exists a b c tk tk',
  lexed (t "package Q import P P.R y { n = 2 }") = a ++ tk :: b ++ tk' :: c /\ tk_value tk = VText (t "P") /\ tk_value tk' = VText (t "P").
Proof.
  set (l := lexed _). exists (firstn 3 l), [], (skipn 5 l), (nth 3 l (Token COMMENT VNone 0 0 0 0)), (nth 4 l (Token COMMENT VNone 0 0 0 0)).
  vm_compute. auto.
Qed.
(** The left side of [C58_reports] holds for the first run, with the location
    of the import. *)
Example C58_reports_example : exists ms l, run_all plain = Ok (Some (table_of plain), ms, [(l, t "P")]) /\ sr_line (l_ref l) = 1 /\ sr_col (l_ref l) = 18 /\ l_file l = 3.
Proof. do 2 eexists. split; [vm_compute; reflexivity|]. vm_compute. auto. Qed.
Example C58_no_reports_example : exists v ms, process_all no_regex no_match first_node false true (files plain) = Ok (Some v, ms, []).
Proof. do 2 eexists. vm_compute. reflexivity. Qed.
(** The imports to drop: all that are reported *)
Definition reported (v : env) (pa : parser) (p : nat) : bool := match unused_import v pa p with [] => false | _ => true end.
Definition file_at (l : list (fkind * text)) (i : nat) : parser :=
  nth i (gr_rsl (graph_of l) ++ gr_trlc (graph_of l)) (Parser 9 RSL false [] false no_unit (Pos None None [])).

(** The hypotheses of [C58_unused_dropped] hold for the first run: [P] is
    reported in the last file, whose only string has markup without [P]. *)
Example C58_unused_dropped_example :
  build_graph (files plain) = Ok (graph_of plain) /\
  (exists ms us, run_all plain = Ok (Some (table_of plain), ms, us)) /\
  map cu_imports (map pa_cu (gr_rsl (graph_of plain) ++ gr_trlc (graph_of plain))) = [Some []; Some []; Some []; Some [0%nat]] /\
  unused_import (table_of plain) (file_at plain 3) 0 <> [] /\
  silent (pa_src (file_at plain 3)) (pa_id (file_at plain 3)) (package_name (v_stab (table_of plain)) 0) /\
  run_without plain (reported (table_of plain)) = Ok (Some (table_of plain), match run_all plain with Ok (_, ms, _) => ms | _ => [] end).
Proof.
  split; [vm_compute; reflexivity|]. split; [vm_compute; eauto|]. split; [vm_compute; reflexivity|]. split; [vm_compute; discriminate|].
  split; [|vm_compute; reflexivity].
  intros tk I K. vm_compute in I. decompose [or] I; subst; try discriminate K; try contradiction.
  unfold markup_silent. vm_compute. repeat constructor; discriminate.
Qed.

(** A markup reference inside of an array is not a use of the import: the
    import is reported, but without it the run fails. *)
Definition in_array : list (fkind * text) :=
  [(RSL, p_rsl); (RSL, q_rsl); (TRLC, p_trlc); (TRLC, t "package Q import P S y { ar = [""see [[P.x]]""] }")].
Theorem C58_reported_is_unused_refuted : exists fs gr v ms us pa ms',
  build_graph fs = Ok gr /\ process_all no_regex no_match first_node true true fs = Ok (Some v, ms, us) /\
  In pa (gr_trlc gr) /\ cu_imports (pa_cu pa) = Some [0%nat] /\ unused_import v pa 0 = us /\ map snd us = [t "P"] /\
  process_from no_regex no_match first_node true true (drop_all (fun q _ => pa_id q =? pa_id pa) gr) = Ok (None, ms').
Proof.
  exists (files in_array), (graph_of in_array), (table_of in_array). do 2 eexists. exists (file_at in_array 3). eexists.
  split; [vm_compute; reflexivity|]. split; [vm_compute; reflexivity|]. split; [vm_compute; auto|]. split; [vm_compute; reflexivity|].
  split; [vm_compute; reflexivity|]. split; vm_compute; reflexivity.
Qed.
Print Assumptions C58_reported_is_unused_refuted.

(** A comment with the name of the package is a use of the import: nothing is
    reported, although the run is the same without the import. *)
Definition in_comment : list (fkind * text) :=
  [(RSL, p_rsl); (RSL, q_rsl); (TRLC, p_trlc); (TRLC, t "package Q import P /* P */ S y { }")].
Theorem C58_unused_is_reported_refuted : exists fs gr v ms pa,
  build_graph fs = Ok gr /\ process_all no_regex no_match first_node true true fs = Ok (Some v, ms, []) /\
  In pa (gr_trlc gr) /\ cu_imports (pa_cu pa) = Some [0%nat] /\
  process_from no_regex no_match first_node true true (drop_all (fun q _ => pa_id q =? pa_id pa) gr) = Ok (Some v, ms).
Proof.
  exists (files in_comment), (graph_of in_comment), (table_of in_comment). eexists. exists (file_at in_comment 3).
  split; [vm_compute; reflexivity|]. split; [vm_compute; reflexivity|]. split; [vm_compute; auto|]. split; vm_compute; reflexivity.
Qed.
Print Assumptions C58_unused_is_reported_refuted.
