(** Property theorems: C60 (iteration over objects by section). *)
From Coq Require Import Permutation Sorted.
From Verif Require Import Base Lexer SymTab Ast Eval ParserBase ExprSyntax ParserValue ValueSyntax ParserDecl DeclSyntax Process RunSyntax Sections SectionProofs SectionRun Prop_Process Prop_Api.
From Verif Require SourceMan.
Import SourceMan (fkind, RSL, TRLC).
Open Scope Z_scope.

Section RUN.
Variable compiles : text -> bool.
Variable matches : text -> text -> option bool.
Variable pick : list SourceMan.node -> nat.
Variable lint recovery : bool.
(** A regular expression that compiles can be matched with any string. *)
Hypothesis regex : forall p x, compiles p = true -> matches p x <> None.
Notation process := (process compiles matches pick lint recovery).

(** The first iteration by section follows the text of the files: package by
    package, and in each package file by file, the name of the file, and then
    its sections and objects as they are written ([outline]), each announced
    once and with its level ([listing]).  Files and sections without objects
    are left out. *)
Theorem C60_first fs v ms : process fs = Ok (Some v, ms) -> NoDup (map i_id fs) ->
  exists trlc names ds, (forall f, In f trlc -> In f fs /\ i_kind f = TRLC /\ file_needed fs f) /\ StronglySorted named_before trlc /\
    v_stab v = package_table names /\ outlines (v_stab v) (v_objs v) 0 trlc ds (List.length (v_objs v)) /\
    fst (iter_record_objects_by_section v fresh_table) = flat_map doc_listing (by_package (List.length names) ds).
Proof.
  intros H N. destruct (run_sections _ _ _ _ _ regex _ _ _ H N) as (trlc & names & ds & A & B & C & D & E & _). exists trlc, names, ds. auto.
Qed.

(** Iteration over objects yields every object once. *)
Theorem C60_objects fs v ms : process fs = Ok (Some v, ms) -> NoDup (map i_id fs) -> Permutation (iter_record_objects v) (seq 0 (List.length (v_objs v))).
Proof. intros H N. destruct (run_sections _ _ _ _ _ regex _ _ _ H N) as (trlc & names & ds & A & B & C & D & E & F). auto. Qed.

(** Any further iteration by section yields the objects only, without files
    and sections. *)
Theorem C60_again fs v ms : process fs = Ok (Some v, ms) -> NoDup (map i_id fs) ->
  forall vi, let vi' := snd (iter_record_objects_by_section v vi) in
  iter_record_objects_by_section v vi' = (map (fun o => Ev_object o (List.length (nth o (v_secs v) []) - 1)) (iter_record_objects v), vi').
Proof.
  intros H N vi vi'. apply visit_all_again. intros o I. split; [apply visit_all_known; auto|].
  apply (Permutation_in _ (C60_objects _ _ _ H N)) in I. apply in_seq in I. apply nth_error_Some. tauto.
Qed.
End RUN.
Print Assumptions C60_first.
Print Assumptions C60_objects.
Print Assumptions C60_again.

Definition tree_run (s : string) : res unit (option env * list msg) := run_of [(RSL, t "package P  type R { }"); (TRLC, t s); (TRLC, t "package P  section ""A"" { R z { } }")].
Definition tree : res unit (option env * list msg) :=
  tree_run "package P  R a { } section ""A"" { section ""empty"" { } section ""B"" { R b { } } R c { } } section ""A"" { R d { } } R e { }".
Definition tree_events : list event :=
  [Ev_file 1; Ev_object 0 0; Ev_section (t "A") 0; Ev_section (t "B") 1; Ev_object 1 1; Ev_object 2 0; Ev_section (t "A") 0; Ev_object 3 0; Ev_object 4 0;
   Ev_file 2; Ev_section (t "A") 0; Ev_object 5 0].
Example C60_example : tree = Ok (Some (env_of tree), msgs_of tree) /\ msgs_of tree = [] /\
  fst (iter_record_objects_by_section (env_of tree) fresh_table) = tree_events /\ iter_record_objects (env_of tree) = [0; 1; 2; 3; 4; 5]%nat.
Proof. repeat apply conj; vm_compute; reflexivity. Qed.
Example C60_files_example : NoDup (map i_id (files [(RSL, []); (TRLC, []); (TRLC, [])])).
Proof. cbn. repeat constructor; cbn; intuition discriminate. Qed.

(** So iterating twice does not yield the same. *)
Theorem C60_repeatable_refuted : exists fs v ms, process (fun _ => true) (fun a b => Some (text_eqb a b)) (fun _ => 0%nat) true true fs = Ok (Some v, ms) /\
  let '(evs, vi) := iter_record_objects_by_section v fresh_table in fst (iter_record_objects_by_section v vi) <> evs.
Proof.
  exists (files [(RSL, t "package P  type R { }"); (TRLC, t "package P  R a { }")]). 
  set (r := run_of [(RSL, t "package P  type R { }"); (TRLC, t "package P  R a { }")]). exists (env_of r), (msgs_of r). split; [vm_compute; reflexivity|].
  vm_compute. discriminate.
Qed.
Print Assumptions C60_repeatable_refuted.

(** Nor do levels tell whether an object is in a section: objects outside of
    sections have the level of objects in an outermost section. *)
Definition inside : res unit (option env * list msg) := run_of [(RSL, t "package P  type R { }"); (TRLC, t "package P  section ""A"" { R a { } R b { } }")].
Definition outside : res unit (option env * list msg) := run_of [(RSL, t "package P  type R { }"); (TRLC, t "package P  section ""A"" { R a { } } R b { }")].
Theorem C60_levels_refuted : exists v v' ms ms', inside = Ok (Some v, ms) /\ outside = Ok (Some v', ms') /\
  iter_record_objects_by_section v fresh_table = iter_record_objects_by_section v' fresh_table /\
  map (@List.length sect) (v_secs v) = [1; 1]%nat /\ map (@List.length sect) (v_secs v') = [1; 0]%nat.
Proof.
  exists (env_of inside), (env_of outside), (msgs_of inside), (msgs_of outside). repeat apply conj; vm_compute; reflexivity.
Qed.
Print Assumptions C60_levels_refuted.
