(** The whole run: /repo/trlc/trlc.py lines 306-548 [Source_Manager], from the
    content of the files to the symbol table.

    The dependency graph, its closure and the order of parsing are those of
    SourceMan.v.  For [verify_imports] see Imports.v (it only emits lint
    messages).  Not modelled: the verification of checks with an SMT solver, callbacks. *)
From Verif Require Import Base Lexer SymTab Ast Eval ParserBase ParserExpr ParserValue Lint ParserDecl ParserFile Resolve.
From Verif Require Checks SourceMan.
Import SourceMan (fkind, RSL, TRLC).
Open Scope Z_scope.

(** A file to be processed; [i_id] orders the files by name. *)
Record input_file := Input { i_id : Z; i_kind : fkind; i_primary : bool; i_src : text }.

(** A registered file: parser.py:286-334 *)
Record parser := Parser {
  pa_id : Z; pa_kind : fkind; pa_primary : bool; pa_src : text;
  pa_ok : bool;                    (* no error in the preamble *)
  pa_cu : cunit; pa_pos : pos
}.

Inductive msg :=
| Msg_note (n : note)
| Msg_cycle                      (* circular inheritence between ... *)
| Msg_lint (f : finding)
| Msg_check (m : Checks.cmsg).
Definition is_error (m : msg) : bool :=
  match m with
  | Msg_note (Note_error _) | Msg_cycle => true
  | Msg_note (Note_lint _ _) | Msg_lint _ => false
  | Msg_check (Checks.M_warning _ _ _) => false
  | Msg_check _ => true
  end.

Section PROCESS.
(** Regular expressions, and the order in which a set is emptied. *)
Variable compiles : text -> bool.
Variable matches : text -> text -> option bool.
Variable pick : list SourceMan.node -> nat.
(** [--no-lint] and [--no-error-recovery] *)
Variable lint recovery : bool.

(** ** Registration *)

Definition no_unit : cunit := CU None [] [] None.
(** trlc.py:152-166 and parser.py:127-143: the parser reads the first token;
    an error in it is reported and the file is not registered. *)
Definition open_file (f : input_file) : res unit (option parser * list msg) :=
  match items (i_src f) with
  | None => OutOfFuel
  | Some l =>
      match p_advance (PS (Pos None None l) []) with
      | POk _ s => Ok (Some (Parser (i_id f) (i_kind f) (i_primary f) (i_src f) true no_unit (at_ s)), [])
      | PErr e _ => Ok (None, [Msg_note (Note_error e)])
      | PCrash => Crash
      | PFuel => OutOfFuel
      end
  end.
Fixpoint open_all (fs : list input_file) : res unit (list parser * list msg) :=
  match fs with
  | [] => Ok ([], [])
  | f :: fs' =>
      do r <- open_file f ;
      do rs <- open_all fs' ;
      Ok (match fst r with Some p => p :: fst rs | None => fst rs end, snd r ++ snd rs)
  end.

(** ** Running a parser *)

Definition fuel_for (pa : parser) : nat := (3 + List.length (rest (pa_pos pa)))%nat.
Inductive outcome (A : Type) := Fine (a : A) (s : st) | Failed (s : st).
Arguments Fine {A} a s.
Arguments Failed {A} s.
Definition after {A} (o : outcome A) : st := match o with Fine _ s | Failed s => s end.
(** An error that is raised has been reported. *)
Definition launch {A} (m : D A) (pa : parser) (v : env) : res unit (outcome A) :=
  match m (St v (pa_cu pa) [] (PS (pa_pos pa) [])) with
  | DOk a s => Ok (Fine a s)
  | DErr e s => Ok (Failed (St (s_env s) (s_cu s) (s_sec s) (PS (at_ (s_ps s)) (out (s_ps s) ++ [Note_error e]))))
  | DCrash => Crash
  | DFuel => OutOfFuel
  end.
Definition messages (s : st) : list msg := map Msg_note (out (s_ps s)).

(** ** Preambles and the dependency graph: trlc.py:306-348 *)

Definition set_ok (ok : bool) (s : st) (pa : parser) : parser :=
  Parser (pa_id pa) (pa_kind pa) (pa_primary pa) (pa_src pa) ok (s_cu s) (at_ (s_ps s)).
Definition parser_preamble (pa : parser) (v : env) : res unit (parser * env * list msg) :=
  do o <- launch (parse_preamble (pa_id pa) (fuel_for pa) (pa_kind pa)) pa v ;
  match o with
  | Fine _ s => Ok (set_ok true s pa, s_env s, messages s)
  | Failed s => Ok (set_ok false s pa, s_env s, messages s)
  end.
Fixpoint preambles (l : list parser) (v : env) : res unit (list parser * env * list msg) :=
  match l with
  | [] => Ok ([], v, [])
  | pa :: l' =>
      do r <- parser_preamble pa v ;
      let '(pa', v', ms) := r in
      do rs <- preambles l' v' ;
      let '(l2, v2, ms2) := rs in
      Ok (pa' :: l2, v2, ms ++ ms2)
  end.

(** What SourceMan.v knows about a file after its preamble *)
Definition parsed_of (pa : parser) : SourceMan.parsed :=
  SourceMan.Parsed (SourceMan.File (pa_id pa) (pa_kind pa) (pa_primary pa)
      match cu_pkg (pa_cu pa) with
      | Some _ => SourceMan.Pre (cu_name (pa_cu pa)) (map tok_text (cu_raw (pa_cu pa))) (pa_ok pa)
      | None => SourceMan.Pre_bad
      end)
    match cu_pkg (pa_cu pa) with Some _ => Some (cu_name (pa_cu pa)) | None => None end
    (map tok_text (cu_raw (pa_cu pa))) (pa_ok pa).
(** trlc.py:323-331 *)
Definition add_node (g : SourceMan.graph) (p : SourceMan.parsed) : SourceMan.graph :=
  match SourceMan.p_pkg p, SourceMan.p_ok p with
  | Some pkg, true =>
      if SourceMan.mem (pkg, RSL) (SourceMan.gdom g) then g
      else g ++ [((pkg, RSL), []); ((pkg, TRLC), [(pkg, RSL)])]
  | _, _ => g
  end.
Definition package_name (d : ntable) (p : nat) : text :=
  match find (fun x => match snd x with N_pkg q => Nat.eqb q p | _ => false end) d with Some (k, _) => k | None => [] end.
(** trlc.py:338-348 *)
Definition import_names (v : env) (pa : parser) : parser * list text * list msg :=
  if pa_ok pa then
    let (ps, es) := imported (pa_id pa) (v_stab v) (cu_raw (pa_cu pa)) in
    let c := pa_cu pa in
    (Parser (pa_id pa) (pa_kind pa) (pa_primary pa) (pa_src pa) true
            (CU (cu_pkg c) (cu_name c) (cu_raw c) (Some ps)) (pa_pos pa),
     map (package_name (v_stab v)) ps, map (fun e => Msg_note (Note_error e)) es)
  else (pa, [], []).
Definition add_edges (g : SourceMan.graph) (pa : parser) (names : list text) : SourceMan.graph :=
  if pa_ok pa then SourceMan.gunion g (cu_name (pa_cu pa), pa_kind pa) (map (fun i => (i, pa_kind pa)) names) else g.
Fixpoint resolve_all (l : list parser) (v : env) (g : SourceMan.graph) : list parser * SourceMan.graph * list msg :=
  match l with
  | [] => ([], g, [])
  | pa :: l' =>
      let '(pa', names, ms) := import_names v pa in
      let '(l2, g2, ms2) := resolve_all l' v (add_edges g pa names) in
      (pa' :: l2, g2, ms ++ ms2)
  end.
(** One round of the loop in trlc.py:317; [l] sorted by name *)
Definition container (l : list parser) (v : env) (g : SourceMan.graph)
  : res unit (list parser * env * SourceMan.graph * list msg) :=
  do r <- preambles l v ;
  let '(l1, v1, ms1) := r in
  let g1 := fold_left add_node (map parsed_of l1) g in
  let '(l2, g2, ms2) := resolve_all l1 v1 g1 in
  Ok (l2, v1, g2, ms1 ++ ms2).

Fixpoint insert_parser (p : parser) (l : list parser) : list parser :=
  match l with
  | [] => [p]
  | q :: l' => if pa_id p <=? pa_id q then p :: l else q :: insert_parser p l'
  end.
Definition by_name (l : list parser) : list parser := fold_right insert_parser [] l.
Definition of_kind (k : fkind) (l : list parser) : list parser := filter (fun p => SourceMan.fkind_eqb (pa_kind p) k) l.

(** ast.py:3716-3745 [create_global_table] *)
Definition env0 : env := Env (Types [] [] []) [] [] builtin_table [] 0.

(** ** Types: trlc.py:378-430 *)

Definition node_of (pa : parser) : option SourceMan.node :=
  match cu_pkg (pa_cu pa) with Some _ => Some (cu_name (pa_cu pa), pa_kind pa) | None => None end.
Definition has_node (nd : SourceMan.node) (pa : parser) : bool :=
  match node_of pa with Some x => SourceMan.node_eqb x nd | None => false end.
Definition parse_types (pa : parser) (v : env) : res unit (bool * env * list msg) :=
  do o <- launch (parse_rsl_file (pa_id pa) (pa_src pa) lint compiles matches (fuel_for pa) recovery) pa v ;
  match o with
  | Fine ok s => Ok (ok, s_env s, messages s)
  | Failed s => Ok (false, s_env s, messages s)
  end.
Fixpoint parse_rsl_files (l : list parser) (order : list SourceMan.node) (v : env) (ok : bool)
  : res unit (bool * env * list msg) :=
  match order with
  | [] => Ok (ok, v, [])
  | nd :: order' =>
      match find (has_node nd) l with
      | None => Crash
      | Some pa =>
          do r <- parse_types pa v ;
          let '(ok1, v1, ms1) := r in
          do rs <- parse_rsl_files l order' v1 (ok && ok1) ;
          let '(ok2, v2, ms2) := rs in
          Ok (ok2, v2, ms1 ++ ms2)
      end
  end.

(** ast.py:3457-3465 [values]: sorted by simplified name *)
Fixpoint insert_entry (x : text * entity) (d : ntable) : ntable :=
  match d with
  | [] => [x]
  | y :: d' => if SourceMan.text_leb (simplified_name (fst x)) (simplified_name (fst y)) then x :: d else y :: insert_entry x d'
  end.
Definition table_values (d : ntable) : ntable := fold_right insert_entry [] d.
Definition packages (v : env) : list nat :=
  flat_map (fun x => match snd x with N_pkg p => [p] | _ => [] end) (table_values (v_stab v)).
Definition all_values (v : env) : list entity :=
  flat_map (fun p => map snd (table_values (nth p (v_pkgs v) []))) (packages v).
Definition all_types (v : env) : list ty :=
  flat_map (fun e => match e with N_type a => [a] | _ => [] end) (all_values v).
Definition all_objects (v : env) : list nat :=
  flat_map (fun e => match e with N_obj o => [o] | _ => [] end) (all_values v).

(** trlc.py:507-513 *)
Definition run_linter (v : env) : res unit (list msg) :=
  match perform_sanity_checks (v_types v) (all_types v) with
  | Ok s => Ok (map Msg_lint (found s))
  | Err _ => Crash
  | Crash => Crash
  | OutOfFuel => OutOfFuel
  end.

(** ** Objects: trlc.py:432-452 *)

Definition parse_objects (pa : parser) (v : env) : res unit (bool * env * list msg) :=
  do o <- launch (parse_trlc_file (pa_id pa) (pa_src pa) (fuel_for pa) recovery) pa v ;
  match o with
  | Fine ok s => Ok (ok, s_env s, messages s)
  | Failed s => Ok (false, s_env s, messages s)
  end.
Fixpoint parse_trlc_files (l : list parser) (v : env) (ok : bool) : res unit (bool * env * list msg) :=
  match l with
  | [] => Ok (ok, v, [])
  | pa :: l' =>
      do r <- parse_objects pa v ;
      let '(ok1, v1, ms1) := r in
      do rs <- parse_trlc_files l' v1 (ok && ok1) ;
      let '(ok2, v2, ms2) := rs in
      Ok (ok2, v2, ms1 ++ ms2)
  end.

(** ** References: trlc.py:454-466.  The package of a reference is known, so
    the names do not depend on the file. *)
Definition final_names (v : env) : names := names_of v no_unit.
Fixpoint resolve_references (os : list nat) (v : env) (ok : bool) : res unit (bool * env * list msg) :=
  match os with
  | [] => Ok (ok, v, [])
  | o :: os' =>
      match nth_error (v_objs v) o with
      | None => Crash
      | Some ob =>
          match resolve_object (v_types v) (v_objs v) (final_names v) ob with
          | Ok ob' => resolve_references os' (change_object o (fun _ => ob') v) ok
          | Err e => do r <- resolve_references os' v false ;
                     let '(ok2, v2, ms) := r in Ok (ok2, v2, Msg_note (Note_error e) :: ms)
          | Crash => Crash
          | OutOfFuel => OutOfFuel
          end
      end
  end.

(** ** Checks: trlc.py:468-479 *)
Definition listed_objects (v : env) : list object :=
  flat_map (fun o => match nth_error (v_objs v) o with Some ob => [ob] | None => [] end) (all_objects v).
Definition run_checks (v : env) : res unit (bool * list msg) :=
  match Checks.perform_all (World (v_objs v) matches) (v_types v) (listed_objects v) true with
  | (ms, Checks.Returned ok) => Ok (ok, map Msg_check ms)
  | (ms, Checks.Raised) => Ok (false, map Msg_check ms)
  | (ms, Checks.Broken) => Crash
  end.

(** ** trlc.py:481-548 [process] *)

(** What the source manager knows when the graph is built: all parsers, the
    declarations (packages), the graph, the required nodes. *)
Record graph_result := GR {
  gr_rsl : list parser; gr_trlc : list parser; gr_env : env; gr_state : SourceMan.bstate; gr_msgs : list msg
}.
Definition build_graph (fs : list input_file) : res unit graph_result :=
  do r0 <- open_all fs ;
  let '(l, ms0) := r0 in
  do r1 <- container (by_name (of_kind RSL l)) env0 [] ;
  let '(rsl, v1, g1, ms1) := r1 in
  do r2 <- container (by_name (of_kind TRLC l)) v1 g1 ;
  let '(trlc, v2, g2, ms2) := r2 in
  Ok (GR rsl trlc v2 (SourceMan.BState [] g2 (map parsed_of (rsl ++ trlc)) 0) (ms0 ++ ms1 ++ ms2)).

Definition is_secondary (required : list SourceMan.node) (pa : parser) : bool :=
  SourceMan.secondary required (parsed_of pa).
Definition selected (required : list SourceMan.node) (pa : parser) : bool :=
  pa_primary pa || is_secondary required pa.

(** The result is the symbol table, if any, and all messages. *)
Definition process (fs : list input_file) : res unit (option env * list msg) :=
  do gr <- build_graph fs ;
  let s := gr_state gr in
  let ok0 := forallb pa_ok (gr_rsl gr ++ gr_trlc gr) in
  match SourceMan.closure pick (S (List.length (SourceMan.gdom (SourceMan.b_graph s)))) (SourceMan.b_graph s)
                          (SourceMan.initial_work s) [] with
  | None => OutOfFuel
  | Some required =>
      let work := SourceMan.rsl_work s required in
      match SourceMan.waves (S (List.length work)) (SourceMan.b_graph s) work [] with
      | None => OutOfFuel
      | Some (order, cyc) =>
          do r1 <- parse_rsl_files (gr_rsl gr) order (gr_env gr) true ;
          let '(ok1, v1, ms1) := r1 in
          let ok := ok0 && ok1 && negb cyc in
          let ms1 := gr_msgs gr ++ ms1 ++ (if cyc then [Msg_cycle] else []) in
          if negb recovery && negb ok then Ok (None, ms1)
          else
            do lm <- (if lint && ok then run_linter v1 else Ok []) ;
            do r2 <- parse_trlc_files (filter (fun pa => pa_ok pa && selected required pa) (gr_trlc gr)) v1 true ;
            let '(ok2, v2, ms2) := r2 in
            let ms2 := ms1 ++ lm ++ ms2 in
            if negb ok2 then Ok (None, ms2)
            else
              do r3 <- resolve_references (all_objects v2) v2 true ;
              let '(ok3, v3, ms3) := r3 in
              let ms3 := ms2 ++ ms3 in
              if negb ok3 then Ok (None, ms3)
              else if negb ok then Ok (None, ms3)
              else
                do r4 <- run_checks v3 ;
                let (ok4, ms4) := r4 in
                let ms4 := ms3 ++ ms4 in
                if ok4 then Ok (Some v3, ms4) else Ok (None, ms4)
      end
  end.
End PROCESS.
