(** Unused imports: /repo/trlc/lint.py lines 224-254 [markup_ref] and
    [verify_imports], called at the end of a run (trlc.py:544-545).

    The order in which files and the imports of a file (a Python set) are
    visited is not modelled; here it is the order of parsing. *)
From Verif Require Import Base Lexer SymTab Ast Eval ParserBase ParserExpr ParserValue Lint ParserDecl ParserFile Resolve Process.
From Verif Require SourceMan.
Import SourceMan (fkind, RSL, TRLC).
Open Scope Z_scope.

(** All tokens of a file, including comments: lexer.py:615-645 records them
    when they are read, and a file that was parsed was read to its end. *)
Definition lexed (src : text) : list token :=
  flat_map (fun i => match i with ITok tk => [tk] | _ => [] end) match items src with Some l => l | None => [] end.

(** A literal that is the [ast_link] of a token of the file and that has
    references (ast.py:815).  Only parser.py:748-749 and 1934-1936 set such a
    link: to the value of a component or of a frozen component, and not to the
    elements of arrays and tuples. *)
Definition linked_literal (file : Z) (f : field) : list (loc * text * list vexpr) :=
  match snd f with
  | XLit l (LStr s true) refs => if l_file l =? file then [(l, s, refs)] else []
  | _ => []
  end.
Definition linked_literals (v : env) (file : Z) : list (loc * text * list vexpr) :=
  flat_map (fun rt => flat_map (fun kf => linked_literal file (snd kf)) (r_frozen rt)) (recs (v_types v)) ++
  flat_map (fun ob => flat_map (fun kf => linked_literal file (snd kf)) (o_fields ob)) (v_objs v).

(** lint.py:227 *)
Definition refers_to (v : env) (name : text) (x : vexpr) : bool :=
  match x with XRef _ _ p _ _ => text_eqb (package_name (v_stab v) p) name | _ => false end.
(** lint.py:224-229 [markup_ref] *)
Definition markup_ref (v : env) (file : Z) (name : text) : option (loc * text) :=
  match find (fun x => existsb (refers_to v name) (snd x)) (linked_literals v file) with
  | Some (l, s, _) => Some (l, s)
  | None => None
  end.

(** lint.py:231-254 [verify_imports] for one import: the list of uses, and the
    message if there is exactly one. *)
Definition import_uses (v : env) (pa : parser) (p : nat) : list (loc * text) :=
  let name := package_name (v_stab v) p in
  map (fun tk => (tok_loc (pa_id pa) tk, tok_text tk)) (filter (has_text name) (lexed (pa_src pa))) ++
  match markup_ref v (pa_id pa) name with Some m => [m] | None => [] end.
Definition unused_import (v : env) (pa : parser) (p : nat) : list (loc * text) :=
  match import_uses v pa p with [u] => [u] | _ => [] end.
Definition verify_file (required : list SourceMan.node) (v : env) (pa : parser) : list (loc * text) :=
  if selected required pa then
    match cu_imports (pa_cu pa) with Some ps => flat_map (unused_import v pa) ps | None => [] end
  else [].

Section RUN.
Variable compiles : text -> bool.
Variable matches : text -> text -> option bool.
Variable pick : list SourceMan.node -> nat.
Variable lint recovery : bool.

(** trlc.py:487-505: the files that are needed *)
Definition needed_nodes (gr : graph_result) : option (list SourceMan.node) :=
  let s := gr_state gr in
  SourceMan.closure pick (S (List.length (SourceMan.gdom (SourceMan.b_graph s)))) (SourceMan.b_graph s) (SourceMan.initial_work s) [].
(** trlc.py:487-542: what follows the dependency graph *)
Definition process_from (gr : graph_result) : res unit (option env * list msg) :=
  let s := gr_state gr in
  let ok0 := forallb pa_ok (gr_rsl gr ++ gr_trlc gr) in
  match needed_nodes gr with
  | None => OutOfFuel
  | Some required =>
      let work := SourceMan.rsl_work s required in
      match SourceMan.waves (S (List.length work)) (SourceMan.b_graph s) work [] with
      | None => OutOfFuel
      | Some (order, cyc) =>
          do r1 <- parse_rsl_files compiles matches lint recovery (gr_rsl gr) order (gr_env gr) true ;
          let '(ok1, v1, ms1) := r1 in
          let ok := ok0 && ok1 && negb cyc in
          let ms1 := gr_msgs gr ++ ms1 ++ (if cyc then [Msg_cycle] else []) in
          if negb recovery && negb ok then Ok (None, ms1)
          else
            do lm <- (if lint && ok then run_linter v1 else Ok []) ;
            do r2 <- parse_trlc_files recovery (filter (fun pa => pa_ok pa && selected required pa) (gr_trlc gr)) v1 true ;
            let '(ok2, v2, ms2) := r2 in
            let ms2 := ms1 ++ lm ++ ms2 in
            if negb ok2 then Ok (None, ms2)
            else
              do r3 <- resolve_references (all_objects v2) v2 true ;
              let '(ok3, v3, ms3) := r3 in
              let ms3 := ms2 ++ ms3 in
              if negb ok3 then Ok (None, ms3)
              else if negb ok then Ok (None, ms3)
              else
                do r4 <- run_checks matches v3 ;
                let (ok4, ms4) := r4 in
                let ms4 := ms3 ++ ms4 in
                if ok4 then Ok (Some v3, ms4) else Ok (None, ms4)
      end
  end.
Lemma process_split fs : process compiles matches pick lint recovery fs = bind (build_graph fs) process_from.
Proof. reflexivity. Qed.

(** trlc.py:544-545: the imports are verified after all checks. *)
Definition verify_imports (gr : graph_result) (v : env) : list (loc * text) :=
  match needed_nodes gr with
  | Some required => flat_map (verify_file required v) (gr_rsl gr ++ gr_trlc gr)
  | None => []
  end.
(** trlc.py:481-548 [process]: the symbol table, the messages, and the imports
    that are reported *)
Definition process_all (fs : list input_file) : res unit (option env * list msg * list (loc * text)) :=
  do gr <- build_graph fs ;
  do r <- process_from gr ;
  Ok (r, match fst r with Some v => if lint then verify_imports gr v else [] | None => [] end).
End RUN.
