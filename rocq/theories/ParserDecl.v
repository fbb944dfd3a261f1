(** Declarations of types, checks and record objects: /repo/trlc/parser.py
    lines 336-347, 377-769, 1539-1673 and 1886-1961, with the parts of
    /repo/trlc/ast.py that store what is declared: 3471-3503 [register],
    3222-3300 [Record_Object].

    Python updates the symbol tables while it parses, and keeps the updates
    when an error is raised; so errors carry the state reached.  Left out:
    descriptions, syntax highlighting links, [cu.items]. *)
From Verif Require Import Base Lexer SymTab Ast Eval ParserBase ParserExpr ParserValue Lint.
From Verif Require SourceMan.
Open Scope Z_scope.

(** ** The state *)

(** ast.py:3363-3382 [Section]: where it is and its name.  Sections of one run
    are at different places, so this is also their identity; the parent is the
    section before it in [self.section]. *)
Notation sect := (loc * text)%type.

(** Everything that is declared.  Packages, record types, tuple types,
    enumeration types and objects are numbered in the order in which they are
    registered; [v_secs] are the sections of each object; [v_next] is a
    number that was not yet used to identify an anonymous type or a value. *)
Record env := Env {
  v_types : types;
  v_objs  : list object;
  v_secs  : list (list sect);
  v_stab  : ntable;
  v_pkgs  : list ntable;
  v_next  : nat
}.

(** ast.py:207-290 [Compilation_Unit]; [cu_imports] is None until the imports
    are resolved. *)
Record cunit := CU { cu_pkg : option nat; cu_name : text; cu_raw : list token; cu_imports : option (list nat) }.

(** The state while a file is parsed: [s_sec] is the stack [self.section],
    innermost first. *)
Record st := St { s_env : env; s_cu : cunit; s_sec : list sect; s_ps : ps }.

Inductive dres (A : Type) : Type :=
| DOk (a : A) (s : st)
| DErr (e : perr) (s : st)
| DCrash
| DFuel.
Arguments DOk {A} a s.
Arguments DErr {A} e s.
Arguments DCrash {A}.
Arguments DFuel {A}.

Definition D (A : Type) : Type := st -> dres A.
Definition dret {A} (a : A) : D A := fun s => DOk a s.
Definition dbind {A B} (m : D A) (k : A -> D B) : D B :=
  fun s => match m s with
           | DOk a s' => k a s'
           | DErr e s' => DErr e s'
           | DCrash => DCrash
           | DFuel => DFuel
           end.
Notation "'let#' x ':=' m 'in' k" := (dbind m (fun x => k))
  (at level 200, x pattern, m at level 100, k at level 200).
Definition derror {A} (e : perr) : D A := fun s => DErr e s.
Definition dcrash {A} : D A := fun _ => DCrash.
Definition dfuel {A} : D A := fun _ => DFuel.
Definition dcond {A} (c : ps -> bool) (a b : D A) : D A := fun s => if c (s_ps s) then a s else b s.
Definition dget : D env := fun s => DOk (s_env s) s.
Definition dset (f : env -> env) : D unit := fun s => DOk tt (St (f (s_env s)) (s_cu s) (s_sec s) (s_ps s)).

(** The names of the current state. *)
Definition names_of (v : env) (c : cunit) : names :=
  Names (v_stab v) (v_pkgs v) match cu_pkg c with Some p => p | None => 0%nat end
        (cu_imports c).

(** A parser without effect on the declarations. *)
Definition with_names {A} (m : env -> names -> P A) : D A :=
  fun s => match m (s_env s) (names_of (s_env s) (s_cu s)) (s_ps s) with
           | POk a p => DOk a (St (s_env s) (s_cu s) (s_sec s) p)
           | PErr e p => DErr e (St (s_env s) (s_cu s) (s_sec s) p)
           | PCrash => DCrash
           | PFuel => DFuel
           end.
Definition dp {A} (m : P A) : D A := with_names (fun _ _ => m).
Definition dlift {A} (r : res perr A) : D A := dp (lift r).

(** A number that identifies a new anonymous type or value. *)
Definition fresh : D nat :=
  fun s => let v := s_env s in
           DOk (v_next v) (St (Env (v_types v) (v_objs v) (v_secs v) (v_stab v) (v_pkgs v) (S (v_next v)))
                              (s_cu s) (s_sec s) (s_ps s)).

Definition set_types (G : types) (v : env) : env :=
  Env G (v_objs v) (v_secs v) (v_stab v) (v_pkgs v) (v_next v).
Fixpoint change {A} (l : list A) (i : nat) (f : A -> A) : list A :=
  match l, i with
  | [], _ => []
  | x :: l', O => f x :: l'
  | x :: l', S i' => x :: change l' i' f
  end.
Definition change_rec (r : nat) (f : rectype -> rectype) (v : env) : env :=
  set_types (Types (change (recs (v_types v)) r f) (tups (v_types v)) (enums (v_types v))) v.
Definition change_tup (u : nat) (f : tuptype -> tuptype) (v : env) : env :=
  set_types (Types (recs (v_types v)) (change (tups (v_types v)) u f) (enums (v_types v))) v.
Definition change_enum (e : nat) (f : enumtype -> enumtype) (v : env) : env :=
  set_types (Types (recs (v_types v)) (tups (v_types v)) (change (enums (v_types v)) e f)) v.
Definition add_rec (x : rectype) (v : env) : env :=
  set_types (Types (recs (v_types v) ++ [x]) (tups (v_types v)) (enums (v_types v))) v.
Definition add_tup (x : tuptype) (v : env) : env :=
  set_types (Types (recs (v_types v)) (tups (v_types v) ++ [x]) (enums (v_types v))) v.
Definition add_enum (x : enumtype) (v : env) : env :=
  set_types (Types (recs (v_types v)) (tups (v_types v)) (enums (v_types v) ++ [x])) v.
Definition add_comp (c : component) (rt : rectype) : rectype :=
  RecType (r_pkg rt) (r_name rt) (r_parent rt) (r_comps rt ++ [c]) (r_frozen rt) (r_final rt) (r_abstract rt) (r_checks rt).
Definition add_frozen (k : text) (f : field) (rt : rectype) : rectype :=
  RecType (r_pkg rt) (r_name rt) (r_parent rt) (r_comps rt) (r_frozen rt ++ [(k, f)]) (r_final rt) (r_abstract rt) (r_checks rt).
Definition set_final (rt : rectype) : rectype :=
  RecType (r_pkg rt) (r_name rt) (r_parent rt) (r_comps rt) (r_frozen rt) true (r_abstract rt) (r_checks rt).
Definition add_rec_check (c : check) (rt : rectype) : rectype :=
  RecType (r_pkg rt) (r_name rt) (r_parent rt) (r_comps rt) (r_frozen rt) (r_final rt) (r_abstract rt) (r_checks rt ++ [c]).
Definition add_tup_check (c : check) (ut : tuptype) : tuptype :=
  TupType (u_pkg ut) (u_name ut) (u_comps ut) (u_seps ut) (u_checks ut ++ [c]).
Definition add_lit (n : text) (en : enumtype) : enumtype :=
  EnumType (en_pkg en) (en_name en) (en_lits en ++ [n]).

Section DECL.
Variable file : Z.
Variable src : text.
Variable lint : bool.
(** Regular expressions: which compile, and what they match. *)
Variable compiles : text -> bool.
Variable matches : text -> text -> option bool.
(** A bound for all loops. *)
Variable n : nat.

Notation loc_of := (tok_loc file).

(** The package of the file; it is set when this is used. *)
Definition current : D nat := fun s => match cu_pkg (s_cu s) with Some p => DOk p s | None => DCrash end.

(** ** Registration *)

(** ast.py:3471-3503 [register]: the tests *)
Definition registrable {A} (of_entity : A -> entity) (d : list (text * A)) (name : text) (l : loc) : res perr unit :=
  match t_find d name with
  | Some (k, a) => Err (E_name l (if text_eqb k name then Duplicate entity (of_entity a) else Too_similar entity (of_entity a)))
  | None => Ok tt
  end.
Definition add_entry (p : nat) (name : text) (e : entity) (v : env) : env :=
  Env (v_types v) (v_objs v) (v_secs v) (v_stab v) (change (v_pkgs v) p (fun d => d ++ [(name, e)])) (v_next v).
(** Registration in the table of the current package. *)
Definition may_register (p : nat) (name : text) (l : loc) : D unit :=
  with_names (fun v N => lift (registrable (fun e => e) (p_symbols N p) name l)).
Definition register (p : nat) (name : text) (l : loc) (e : entity) : D unit :=
  let# _ := may_register p name l in dset (add_entry p name e).

(** parser.py:336-347 [parse_described_name]; the description is left out *)
Definition parse_described_name : P token :=
  let* name := p_match file IDENTIFIER in
  pcond (peek STRING) (let* _ := p_match file STRING in pret name) (pret name).

(** ** Enumerations *)

(** parser.py:405-417 *)
Fixpoint enum_literals_loop (m : nat) (e : nat) (empty : bool) : D bool :=
  match m with
  | O => dfuel
  | S m' =>
      dcond (peek C_KET) (dret empty)
        (let# name := dp parse_described_name in
         let# v := dget in
         let# _ := dlift (registrable (fun _ => N_type (TEnum e)) (enum_literals (v_types v) e) (tok_text name) (loc_of name)) in
         let# _ := dset (change_enum e (add_lit (tok_text name))) in
         enum_literals_loop m' e false)
  end.
(** parser.py:388-426 [parse_enum_declaration] *)
Definition parse_enum_declaration : D unit :=
  let# _ := dp (p_match_kw file (t "enum")) in
  let# name := dp parse_described_name in
  let# p := current in
  let# v := dget in
  let e := List.length (enums (v_types v)) in
  let# _ := register p (tok_text name) (loc_of name) (N_type (TEnum e)) in
  let# _ := dset (add_enum (EnumType p (tok_text name) [])) in
  let# _ := dp (p_match file C_BRA) in
  let# empty := enum_literals_loop n e true in
  let# _ := dp (p_match file C_KET) in
  if empty then derror (E_msg (loc_of name) M_empty_enum) else dret tt.

(** ** Types of components *)

(** parser.py:556-601 [parse_union_type]: the members with the last token of
    their names *)
Definition member : D (nat * token) :=
  let# (e, tk) := with_names (fun v N => parse_qualified_name file N (default_scope N) (Some is_record_entity)) in
  match e with N_type (TRec r) => dret (r, tk) | _ => dcrash end.
Fixpoint union_members (m : nat) : D (list (nat * token)) :=
  match m with
  | O => dfuel
  | S m' =>
      dcond (peek COMMA)
        (let# _ := dp (p_match file COMMA) in
         let# x := member in
         let# l := union_members m' in
         dret (x :: l))
        (dret [])
  end.
(** 583-592: types are compared by their qualified name; packages have
    different names, so their number stands for the name. *)
Definition same_name (G : types) (a b : nat) : bool :=
  match rec G a, rec G b with
  | Some x, Some y => Nat.eqb (r_pkg x) (r_pkg y) && text_eqb (r_name x) (r_name y)
  | _, _ => false
  end.
Fixpoint duplicates (G : types) (seen : list nat) (l : list (nat * token)) : P unit :=
  match l with
  | [] => pret tt
  | (r, tk) :: l' =>
      if existsb (same_name G r) seen then
        let* _ := pnote (Note_error (E_msg (loc_of tk) M_duplicate_member)) in duplicates G seen l'
      else duplicates G (r :: seen) l'
  end.
Definition parse_union_type : D ty :=
  let# _ := dp (p_match file S_BRA) in
  let# x := member in
  let# l := union_members n in
  let# _ := dp (p_match file S_KET) in
  let# v := dget in
  let# _ := dp (duplicates (v_types v) [] (x :: l)) in
  let# i := fresh in
  dret (TUnion i (map fst (x :: l))).

(** parser.py:449-456, 614-620 *)
Definition parse_component_type : D ty :=
  dcond (peek S_BRA) parse_union_type
    (let# (e, _) := with_names (fun v N => parse_qualified_name file N (default_scope N) (Some is_type)) in
     match e with N_type a => dret a | _ => dcrash end).

(** ** Tuples *)

(** parser.py:428-471 [parse_tuple_field] for tuple type [u] *)
Definition parse_tuple_field (u : nat) (allowed : bool) (reason : pmsg) (required : bool) : D (component * loc) :=
  let# name := dp parse_described_name in
  let# opt :=
    dcond (fun s => required || peek_kw (t "optional") s)
      (let# tk := dp (p_match_kw file (t "optional")) in
       if allowed then dret true else derror (E_msg (loc_of tk) reason))
      (dret false) in
  let# a := parse_component_type in
  dret (Comp (tok_text name) a opt (TTup u), loc_of name).

(** The components so far with their locations, as a table *)
Definition comp_table (cs : list (component * loc)) : list (text * component) := map (fun x => (c_name (fst x), fst x)) cs.
Definition register_field (cs : list (component * loc)) (c : component * loc) : D (list (component * loc)) :=
  let# _ := dlift (registrable N_comp (comp_table cs) (c_name (fst c)) (snd c)) in dret (cs ++ [c]).

(** parser.py:508-516, 3123-3151 of ast.py *)
Definition sep_of (tk : token) : option separator :=
  if is_kind IDENTIFIER tk then Some (Sep_word (tok_text tk))
  else if is_kind AT tk then Some Sep_at
  else if is_kind COLON tk then Some Sep_colon
  else if is_kind SEMICOLON tk then Some Sep_semicolon
  else None.
Definition parse_separator : P (list separator) :=
  fun s => match nt (at_ s) with
           | Some tk => match sep_of tk with
                        | Some sep => (let* _ := p_advance in pret [sep]) s
                        | None => POk [] s
                        end
           | None => POk [] s
           end.

(** ast.py:3053-3057 [add_separator]: the assertion *)
Definition add_separator (cs : list (component * loc)) (seps sep : list separator) : D unit :=
  match sep with
  | [] => dret tt
  | _ => if Nat.eqb (S (List.length seps)) (List.length cs) then dret tt else dcrash
  end.

(** parser.py:499-530 *)
Fixpoint tuple_fields (m : nat) (u : nat) (has_seps required allowed : bool)
         (cs : list (component * loc)) (seps : list separator) : D (bool * list (component * loc) * list separator) :=
  match m with
  | O => dfuel
  | S m' =>
      dcond (fun s => peek_kw (t "separator") s || peek IDENTIFIER s)
        (let# (has_seps', allowed', seps') :=
           dcond (fun s => has_seps || peek_kw (t "separator") s)
             (let# tk := dp (p_match_kw file (t "separator")) in
              if allowed then
                let# sep := dp parse_separator in
                let# _ := add_separator cs seps sep in
                dret (true, allowed, seps ++ sep)
              else derror (E_msg (loc_of tk) M_separators))
             (dret (has_seps, false, seps)) in
         let# c := parse_tuple_field u has_seps' M_optional_separators required in
         let# cs' := register_field cs c in
         tuple_fields m' u has_seps' (required || c_opt (fst c)) allowed' cs' seps')
        (dret (has_seps, cs, seps))
  end.

(** parser.py:535-546: the components are visited sorted by their simplified
    names; the first with separators is reported. *)
Fixpoint insert_field (c : component * loc) (l : list (component * loc)) : list (component * loc) :=
  match l with
  | [] => [c]
  | d :: l' => if SourceMan.text_leb (simplified_name (c_name (fst c))) (simplified_name (c_name (fst d)))
               then c :: l else d :: insert_field c l'
  end.
Definition sorted_fields (l : list (component * loc)) : list (component * loc) := fold_right insert_field [] l.
Definition has_separators (G : types) (a : ty) : bool :=
  match a with
  | TTup w => match tup G w with Some wt => match u_seps wt with [] => false | _ => true end | None => false end
  | _ => false
  end.
Definition nesting (G : types) (cs : list (component * loc)) : res perr unit :=
  match find (fun c => has_separators G (c_typ (fst c))) (sorted_fields cs) with
  | Some c => Err (E_msg (snd c) M_nested_separators)
  | None => Ok tt
  end.

(** parser.py:473-554 [parse_tuple_declaration]; no other tuple type is
    declared meanwhile, so the number of the new one is known. *)
Definition parse_tuple_declaration : D unit :=
  let# _ := dp (p_match_kw file (t "tuple")) in
  let# name := dp parse_described_name in
  let# _ := dp (p_match file C_BRA) in
  let# v := dget in
  let u := List.length (tups (v_types v)) in
  let# c := parse_tuple_field u false M_optional_first false in
  let# cs := register_field [] c in
  let# (has_seps, cs, seps) := tuple_fields n u false false true cs [] in
  let# _ := dp (p_match file C_KET) in
  let# v := dget in
  let# _ := if has_seps then dlift (nesting (v_types v) cs) else dret tt in
  let# p := current in
  let# _ := register p (tok_text name) (loc_of name) (N_type (TTup u)) in
  dset (add_tup (TupType p (tok_text name) (map fst cs) seps [])).

(** ** Records *)

(** parser.py:622-655 *)
Definition int_of (tk : token) : P Z := match tk_value tk with VInt z => pret z | _ => pcrash end.
Definition upper_bound : P (option Z) :=
  pcond (peek INTEGER) (let* tk := p_match file INTEGER in let* z := int_of tk in pret (Some z))
    (pcond (peek_op (t "*")) (let* _ := p_match file OPERATOR in pret None)
       (fun s => match nt (at_ s) with
                 | Some tk => PErr (E_msg (loc_of tk) M_upper_bound) s
                 | None => PCrash
                 end)).
Definition parse_array_part (a : ty) : D ty :=
  dcond (peek S_BRA)
    (let# _ := dp (p_match file S_BRA) in
     let# tk := dp (p_match file INTEGER) in
     let# lo := dp (int_of tk) in
     let# _ := dp (p_match file RANGE) in
     let# hi := dp upper_bound in
     let# _ := dp (p_match file S_KET) in
     let# i := fresh in
     dret (TArr i lo hi a))
    (dret a).
(** parser.py:603-670 [parse_record_component] *)
Definition parse_record_component (r : nat) : D (component * loc) :=
  let# name := dp parse_described_name in
  let# opt := dcond (peek_kw (t "optional")) (let# _ := dp (p_match_kw file (t "optional")) in dret true) (dret false) in
  let# a := parse_component_type in
  let# a := parse_array_part a in
  dret (Comp (tok_text name) a opt (TRec r), loc_of name).

(** parse_value with the declarations of the state *)
Definition value_of (a : ty) : D vexpr :=
  with_names (fun v N => parse_value file src (v_types v) (v_objs v) N n a).

(** parser.py:727-752 *)
Definition parse_freeze (r : nat) : D unit :=
  let# _ := dp (p_match_kw file (t "freeze")) in
  let# tk := dp (p_match file IDENTIFIER) in
  let# v := dget in
  let# c := dlift (t_lookup file N_comp (components_of (v_types v) (TRec r)) tk None) in
  if is_frozen (v_types v) r (c_name c) then derror (E_msg (loc_of tk) M_frozen_twice)
  else
    let# _ := dp (p_match file ASSIGN) in
    let# x := value_of (c_typ c) in
    let# id := fresh in
    dset (change_rec r (add_frozen (c_name c) (id, x))).
(** parser.py:754-761 *)
Definition declare_component (r : nat) : D unit :=
  let# (c, l) := parse_record_component r in
  let# v := dget in
  match rec (v_types v) r with
  | None => dcrash
  | Some rt =>
      if r_final rt then derror (E_msg l M_final)
      else
        let# _ := dlift (registrable N_comp (components_of (v_types v) (TRec r)) (c_name c) l) in
        dset (change_rec r (add_comp c))
  end.
(** parser.py:726-761 *)
Fixpoint record_body (m : nat) (r : nat) : D unit :=
  match m with
  | O => dfuel
  | S m' =>
      dcond (peek C_KET) (dret tt)
        (let# _ := dcond (peek_kw (t "freeze")) (parse_freeze r) (declare_component r) in
         record_body m' r)
  end.

(** parser.py:687-695: the type that is extended *)
Definition parse_extends : D (option nat) :=
  dcond (peek_kw (t "extends"))
    (let# _ := dp (p_match_kw file (t "extends")) in
     let# (r, _) := member in
     dret (Some r))
    (dret None).
Definition is_final_type (G : types) (parent : option nat) : bool :=
  match parent with
  | Some p => match rec G p with Some rt => r_final rt | None => false end
  | None => false
  end.
(** parser.py:672-769 [parse_record_declaration] *)
Definition parse_record_declaration : D unit :=
  let# (abstract, final) :=
    dcond (peek_kw (t "abstract")) (let# _ := dp (p_match_kw file (t "abstract")) in dret (true, false))
      (dcond (peek_kw (t "final")) (let# _ := dp (p_match_kw file (t "final")) in dret (false, true))
         (dret (false, false))) in
  let# _ := dp (p_match_kw file (t "type")) in
  let# name := dp parse_described_name in
  let# parent := parse_extends in
  let# v := dget in
  let inherited := is_final_type (v_types v) parent in
  let# _ := if lint && inherited && negb final then dp (pnote (Note_lint (loc_of name) L_clarify_final)) else dret tt in
  let# p := current in
  let r := List.length (recs (v_types v)) in
  let# _ := register p (tok_text name) (loc_of name) (N_type (TRec r)) in
  let# _ := dset (add_rec (RecType p (tok_text name) parent [] [] inherited abstract [])) in
  let# _ := dp (p_match file C_BRA) in
  let# _ := record_body n r in
  let# _ := dp (p_match file C_KET) in
  if final then dset (change_rec r set_final) else dret tt.

(** parser.py:377-386 [parse_type_declaration] *)
Definition parse_type_declaration : D unit :=
  dcond (peek_kw (t "enum")) parse_enum_declaration
    (dcond (peek_kw (t "tuple")) parse_tuple_declaration parse_record_declaration).

(** ** Check blocks *)

Definition check_scope (G : types) (N : names) (a : ty) : nscope :=
  [map (fun x => (fst x, N_comp (snd x))) (components_of G a); p_symbols N (n_current N); n_stab N].
Definition is_composite (e : entity) : bool := match e with N_type (TRec _ | TTup _) => true | _ => false end.

(** parser.py:1566-1575 *)
Definition parse_severity : P severity :=
  pcond (peek KEYWORD)
    (let* tk := p_match file KEYWORD in
     if has_text (t "warning") tk then pret Sev_warning
     else if has_text (t "error") tk then pret Sev_error
     else if has_text (t "fatal") tk then pret Sev_fatal
     else perror (E_msg (loc_of tk) M_severity))
    (pret Sev_error).
(** parser.py:1577-1583 *)
Definition parse_message : P token :=
  let* tk := p_match file STRING in
  let* _ := if existsb (fun c => N.eqb c 10) (tok_text tk)
            then pnote (Note_error (E_msg (loc_of tk) M_newline)) else pret tt in
  pret tk.
(** parser.py:1585-1620: the details and the anchor *)
Definition details : P (option text * bool) :=
  let* tk := p_match file STRING in
  pcond (peek COMMA) (let* _ := p_match file COMMA in pret (Some (tok_text tk), true)) (pret (Some (tok_text tk), false)).
Definition check_tail : P (option text * bool) :=
  pcond (peek COMMA)
    (let* _ := p_match file COMMA in
     pcond (peek IDENTIFIER) (pret (None, true))
       (pcond (peek STRING) details
          (fun s => match nt (at_ s) with
                    | Some tk => PErr (E_msg (loc_of tk) M_anchor) s
                    | None => PCrash
                    end)))
    (pret (None, false)).
Definition parse_anchor (G : types) (a : ty) (has : bool) : P (option text) :=
  if has then
    let* tk := p_match file IDENTIFIER in
    let* c := lift (t_lookup file N_comp (components_of G a) tk None) in
    pret (Some (c_name c))
  else pret None.
(** parser.py:1561-1628: one check of type [a] *)
Definition parse_check (v : env) (N : names) (a : ty) : P check :=
  let* e := parse_expression file lint (v_types v) (World (v_objs v) matches) compiles N n (check_scope (v_types v) N a) in
  match e_typ e with
  | Some TBool =>
      let* _ := p_match file COMMA in
      let* sev := parse_severity in
      let* msg := parse_message in
      let* (extra, has) := check_tail in
      let* anchor := parse_anchor (v_types v) a has in
      pret (Check sev e anchor (loc_of msg) (tok_text msg) extra)
  | _ => perror (E_msg (e_loc e) M_check_type)
  end.
Definition add_check (a : ty) (c : check) (v : env) : env :=
  match a with
  | TRec r => change_rec r (add_rec_check c) v
  | TTup u => change_tup u (add_tup_check c) v
  | _ => v
  end.
Fixpoint check_loop (m : nat) (a : ty) : D unit :=
  match m with
  | O => dfuel
  | S m' =>
      dcond (peek C_KET) (dret tt)
        (let# c := with_names (fun v N => parse_check v N a) in
         let# _ := dset (add_check a c) in
         check_loop m' a)
  end.
(** parser.py:1539-1653 [parse_check_block] *)
Definition parse_check_block : D unit :=
  let# _ := dp (p_match_kw file (t "checks")) in
  let# tk := dp (p_match file IDENTIFIER) in
  let# p := current in
  let# e := with_names (fun v N => lift (e_lookup file (p_symbols N p) tk (Some is_composite))) in
  match e with
  | N_type a =>
      let# _ := dp (p_match file C_BRA) in
      let# _ := check_loop n a in
      let# _ := dp (p_match file C_KET) in
      dret tt
  | _ => dcrash
  end.

(** ** Record objects *)

(** ast.py:3257-3272: all components are null at first *)
Fixpoint null_components (id : nat) (l : loc) (cs : list component) : list (text * field) :=
  match cs with
  | [] => []
  | c :: cs' => (c_name c, (id, XNull l)) :: null_components (S id) l cs'
  end.
Definition is_null (v : vexpr) : bool := match v with XNull _ => true | _ => false end.
Fixpoint set_field (d : list (text * field)) (k : text) (f : field) : list (text * field) :=
  match d with
  | [] => []
  | (k', f') :: d' => if text_eqb k' k then (k', f) :: d' else (k', f') :: set_field d' k f
  end.
Definition add_object (ob : object) (sec : list sect) (v : env) : env :=
  Env (v_types v) (v_objs v ++ [ob]) (v_secs v ++ [sec]) (v_stab v) (v_pkgs v)
      (List.length (o_fields ob) + v_next v)%nat.
Definition change_object (o : nat) (f : object -> object) (v : env) : env :=
  Env (v_types v) (change (v_objs v) o f) (v_secs v) (v_stab v) (v_pkgs v) (v_next v).
Definition put (k : text) (f : field) (ob : object) : object :=
  Object (o_pkg ob) (o_name ob) (o_loc ob) (o_typ ob) (set_field (o_fields ob) k f).

(** The field [k] of object [o]; [None]: KeyError *)
Definition field_of (o : nat) (k : text) : D field :=
  let# v := dget in
  match nth_error (v_objs v) o with
  | Some ob => match assoc k (o_fields ob) with Some f => dret f | None => dcrash end
  | None => dcrash
  end.
(** ast.py:3296-3309 [assign] *)
Definition assign (o : nat) (k : text) (f : field) : D unit :=
  let# old := field_of o k in
  if is_null (snd old) then dset (change_object o (put k f)) else dcrash.

(** parser.py:1917-1937 *)
Definition assignment (r o : nat) : D unit :=
  let# tk := dp (p_match file IDENTIFIER) in
  let# v := dget in
  let# c := dlift (t_lookup file N_comp (components_of (v_types v) (TRec r)) tk None) in
  let# old := field_of o (c_name c) in
  if negb (is_null (snd old)) then derror (E_msg (loc_of tk) (M_assigned (c_name c)))
  else if is_frozen (v_types v) r (c_name c) then derror (E_msg (loc_of tk) (M_frozen (c_name c)))
  else
    let# _ := dp (p_match file ASSIGN) in
    let# x := value_of (c_typ c) in
    let# id := fresh in
    assign o (c_name c) (id, x).
Fixpoint assignments (m : nat) (r o : nat) : D unit :=
  match m with
  | O => dfuel
  | S m' => dcond (peek C_KET) (dret tt) (let# _ := assignment r o in assignments m' r o)
  end.
(** parser.py:1939-1949 *)
Fixpoint complete (l : loc) (r o : nat) (cs : list component) : D unit :=
  match cs with
  | [] => dret tt
  | c :: cs' =>
      let# old := field_of o (c_name c) in
      let# _ :=
        if is_null (snd old) then
          (let# v := dget in
           match get_freezing (v_types v) r (c_name c) with
           | Some f => assign o (c_name c) f
           | None => if c_opt c then dret tt else derror (E_msg l (M_required (c_name c)))
           end)
        else dret tt in
      complete l r o cs'
  end.

(** The sections around, outermost first *)
Definition sections : D (list sect) := fun s => DOk (rev (s_sec s)) s.
Definition enter (x : sect) : D unit := fun s => DOk tt (St (s_env s) (s_cu s) (x :: s_sec s) (s_ps s)).
Definition leave : D unit :=
  fun s => match s_sec s with _ :: l => DOk tt (St (s_env s) (s_cu s) l (s_ps s)) | [] => DCrash end.

(** parser.py:1886-1954 [parse_record_object_declaration] *)
Definition parse_object : D unit :=
  let# (r, tk) := member in
  let# v := dget in
  match rec (v_types v) r with
  | None => dcrash
  | Some rt =>
      if r_abstract rt then derror (E_msg (loc_of tk) M_abstract)
      else
        let# name := dp (p_match file IDENTIFIER) in
        let# p := current in
        let# sec := sections in
        let o := List.length (v_objs v) in
        let l := loc_of name in
        let# _ := register p (tok_text name) l (N_obj o) in
        let# _ := dset (add_object (Object p (tok_text name) l r
                                      (null_components (v_next v) l (all_components (v_types v) r))) sec) in
        let# _ := dp (p_match file C_BRA) in
        let# _ := assignments n r o in
        let# _ := complete l r o (all_components (v_types v) r) in
        let# _ := dp (p_match file C_KET) in
        dret tt
  end.

(** parser.py:1956-1961 [parse_trlc_entry], 1655-1672
    [parse_section_declaration]; [m] bounds nesting and length. *)
Fixpoint parse_entry (m : nat) : D unit :=
  match m with
  | O => dfuel
  | S m' => dcond (peek_kw (t "section"))
              (let# _ := dp (p_match_kw file (t "section")) in
               let# name := dp (p_match file STRING) in
               let# _ := enter (loc_of name, tok_text name) in
               let# _ := dp (p_match file C_BRA) in
               let# _ := entries_loop m' in
               let# _ := dp (p_match file C_KET) in
               leave)
              parse_object
  end
with entries_loop (m : nat) : D unit :=
  match m with
  | O => dfuel
  | S m' => dcond (peek C_KET) (dret tt) (let# _ := parse_entry m' in entries_loop m')
  end.
End DECL.
