(** Files and runs: how the symbol table of an accepted run follows from the
    content of the files.  Written from the reference manual (sections on
    files, packages and imports); the relations do not mention the parser. *)
From Coq Require Import Relations Permutation Sorted.
From Verif Require Import Base Lexer SymTab Ast Eval ParserBase ExprSyntax ParserValue ValueSyntax ParserDecl DeclSyntax.
From Verif Require Import Process.
From Verif Require SourceMan.
Import SourceMan (fkind, RSL, TRLC).
Open Scope Z_scope.

(** ** The tokens of a file *)

Definition not_comment (tk : token) : bool := if kind_eq_dec (tk_kind tk) COMMENT then false else true.
(** The file consists of the tokens [ts] and comments. *)
Definition tokens_of (src : text) (ts : list token) : Prop :=
  exists all, lex src = Lexed all /\ ts = filter not_comment all.
(** What the lexer delivers starts with [ts], apart from comments. *)
Definition begins (src : text) (ts : list token) : Prop :=
  exists l all more, items src = Some l /\ l = map ITok all ++ more /\ ts = filter not_comment all.

(** file ::= 'package' IDENTIFIER_name {'import' IDENTIFIER_name} ... *)
Inductive imports_part : list token -> list token -> Prop :=
| ip_none : imports_part [] []
| ip_more kw tk l ts : word "import" kw -> tk_kind tk = IDENTIFIER -> imports_part l ts -> imports_part (tk :: l) (kw :: tk :: ts).
Inductive preamble_part : token -> list token -> list token -> Prop :=
| preamble_is kw name l ts : word "package" kw -> tk_kind name = IDENTIFIER -> imports_part l ts ->
    (forall tk, In tk l -> tok_text tk <> tok_text name) ->
    preamble_part name l (kw :: name :: ts).
(** A file starts with a preamble. *)
Definition starts (f : input_file) (name : token) (l : list token) : Prop :=
  exists ts, preamble_part name l ts /\ begins (i_src f) ts.
(** A file is a preamble and a body. *)
Definition file_is (f : input_file) (name : token) (l : list token) (body : list token) : Prop :=
  exists ts, preamble_part name l ts /\ tokens_of (i_src f) (ts ++ body).

(** Nothing but comments before a lexical error: such a file is reported, and
    then ignored. *)
Definition unreadable (f : input_file) (e : lex_error) : Prop :=
  exists cs more, items (i_src f) = Some (map ITok cs ++ IErr e :: more) /\ filter not_comment cs = [].

(** ** Packages *)

(** Packages by index *)
Definition package_table (names : list text) : ntable :=
  builtin_table ++ combine names (map N_pkg (seq 0 (List.length names))).
(** The symbol table before any declaration *)
Definition start_env (names : list text) : env :=
  Env (Types [] [] []) [] [] (package_table names) (map (fun _ => []) names) 0.
(** The packages that the imported names denote; other names are ignored (but
    reported). *)
Definition imports_are (d : ntable) (l : list token) (ps : list nat) : Prop :=
  forall q, In q ps <-> exists tk, In tk l /\ entry d (tok_text tk) (N_pkg q).

Section RUN.
Variable compiles : text -> bool.
Variable matches : text -> text -> option bool.
Variable lax : bool.
(** The packages that can be imported by files with types, and those that
    can be imported by files with objects *)
Variables rsl_names all_names : ntable.

(** ** Declarations of files, one file after the other *)
Inductive types_of : list input_file -> env -> env -> Prop :=
| types_none v : types_of [] v v
| types_more f fs name l body p ps v v1 v' : i_kind f = RSL -> file_is f name l body ->
    entry rsl_names (tok_text name) (N_pkg p) -> imports_are rsl_names l ps ->
    type_items (i_id f) (i_src f) compiles matches p (Some ps) lax v body v1 ->
    types_of fs v1 v' -> types_of (f :: fs) v v'.
Inductive objects_of : list input_file -> env -> env -> Prop :=
| objects_none v : objects_of [] v v
| objects_more f fs name l body p ps v v1 v' : i_kind f = TRLC -> file_is f name l body ->
    entry all_names (tok_text name) (N_pkg p) -> imports_are all_names l ps ->
    object_items (i_id f) (i_src f) p (Some ps) lax [] v body v1 ->
    objects_of fs v1 v' -> objects_of (f :: fs) v v'.
End RUN.

(** ** References *)

(** A value without the targets of references *)
Fixpoint bare (v : vexpr) : vexpr :=
  match v with
  | XNull l => XNull l
  | XLit l k refs => XLit l k (map bare refs)
  | XUnary l a op x => XUnary l a op x
  | XArr l a vs => XArr l a (map bare vs)
  | XTup l u vs => XTup l u (map (fun kx => (fst kx, bare (snd kx))) vs)
  | XRef l _ p n _ => XRef l None p n None
  end.
Definition bare_object (ob : object) : object :=
  Object (o_pkg ob) (o_name ob) (o_loc ob) (o_typ ob) (map (fun f : text * field => (fst f, (fst (snd f), bare (snd (snd f))))) (o_fields ob)).
(** [v'] is [v] with the targets of references. *)
Definition linked_env (v v' : env) : Prop :=
  v_types v' = v_types v /\ v_secs v' = v_secs v /\ v_stab v' = v_stab v /\ v_pkgs v' = v_pkgs v /\
  map bare_object (v_objs v') = map bare_object (v_objs v).

(** ** Which files are used *)

Definition declares (f : input_file) (P : text) : Prop := exists name l, starts f name l /\ tok_text name = P.
Definition imports_name (f : input_file) (P : text) : Prop := exists name l tk, starts f name l /\ In tk l /\ tok_text tk = P.
(** Objects of a package need its types and the objects of imported packages;
    types need the types of imported packages. *)
Inductive needs (fs : list input_file) : text * fkind -> text * fkind -> Prop :=
| needs_types P f : In f fs -> declares f P -> needs fs (P, TRLC) (P, RSL)
| needs_rsl P Q f f' : In f fs -> i_kind f = RSL -> declares f P -> imports_name f Q ->
    In f' fs -> i_kind f' = RSL -> declares f' Q -> needs fs (P, RSL) (Q, RSL)
| needs_trlc P Q f f' : In f fs -> i_kind f = TRLC -> declares f P -> imports_name f Q ->
    In f' fs -> declares f' Q -> needs fs (P, TRLC) (Q, TRLC).
(** What is needed for the files that are not only included *)
Definition needed (fs : list input_file) (n : text * fkind) : Prop :=
  exists w, (exists f, In f fs /\ i_primary f = true /\ i_kind f = snd w /\ declares f (fst w)) /\
    clos_refl_trans _ (needs fs) w n.
Definition file_needed (fs : list input_file) (f : input_file) : Prop :=
  exists P, declares f P /\ needed fs (P, i_kind f).
Definition named_before (a b : input_file) : Prop := i_id a <= i_id b.

(** ** What an accepted run returns *)
Record accepted (compiles : text -> bool) (matches : text -> text -> option bool) (lax : bool)
    (fs : list input_file) (v : env) (bad idle rsl trlc : list input_file) (rsl_names more : list text) (v1 v2 : env) : Prop := Accepted {
  (** Every file cannot be read at all, is not needed, or is used once. *)
  ac_files : Permutation fs (bad ++ idle ++ rsl ++ trlc);
  ac_bad : forall f, In f bad -> exists e, unreadable f e;
  ac_idle : forall f, In f idle -> ~ file_needed fs f;
  ac_rsl : forall f, In f rsl -> i_kind f = RSL /\ file_needed fs f;
  ac_trlc : forall f, In f trlc -> i_kind f = TRLC /\ file_needed fs f;
  (** Types come after the types they need, objects in the order of files. *)
  ac_order : forall a f b P Q, rsl = a ++ f :: b -> declares f P -> needs fs (P, RSL) (Q, RSL) ->
    exists g, In g a /\ declares g Q;
  ac_sorted : StronglySorted named_before trlc;
  (** The packages *)
  ac_rsl_names : forall P, In P rsl_names <-> exists f, In f fs /\ i_kind f = RSL /\ declares f P;
  ac_all_names : forall P, In P (rsl_names ++ more) <-> exists f, In f fs /\ declares f P;
  ac_distinct : NoDup (map simplified_name (map fst builtin_table ++ rsl_names ++ more));
  ac_one : forall f g P, In f (idle ++ rsl) -> In g (idle ++ rsl) -> i_kind f = RSL -> i_kind g = RSL -> declares f P -> declares g P -> f = g;
  (** The declarations *)
  ac_types : types_of compiles matches lax (package_table rsl_names) rsl (start_env (rsl_names ++ more)) v1;
  ac_objects : objects_of lax (package_table (rsl_names ++ more)) trlc v1 v2;
  ac_linked : linked_env v2 v
}.
