(** Files on which a run may fail with a Python exception, see C52.  Written
    with the grammars of RunSyntax.v and Hazards.v only. *)
From Verif Require Import Base Lexer SymTab Ast Eval Typing Soundness ParserBase ExprSyntax ValueSyntax DeclSyntax Process RunSyntax Hazards.
From Verif Require SourceMan.
Import SourceMan (fkind, RSL, TRLC).
Open Scope Z_scope.

(** A file starts with a package and imports, and then comes an import of the
    package itself or an import without a name. *)
Definition bad_imports (ts : list token) : Prop :=
  exists kw name l us more, ts = kw :: name :: us ++ more /\ word "package" kw /\ tk_kind name = IDENTIFIER /\ imports_part l us /\
    ((exists tk, In tk l /\ tok_text tk = tok_text name) \/
     exists imp, word "import" imp /\ (more = [imp] \/ exists tk z, more = imp :: tk :: z /\ tk_kind tk <> IDENTIFIER)).

(** A file that consists of tokens [ts], is complete, and contains none of the
    phrases of Hazards.v *)
Record harmless (f : input_file) (ts : list token) : Prop := Harmless {
  hl_tokens : tokens_of (i_src f) ts;
  hl_phrases : ~ hazardous ts;
  hl_complete : cut_off ts -> exists name l, preamble_part name l ts;
  hl_imports : i_kind f = RSL -> ~ bad_imports ts
}.

(** ** Checks *)

(** The phrases of checks that may fail with an exception for some objects:
    an index, a quantifier whose condition can be null, and a component of a
    union which has another type in an extension of a member. *)
Definition fragile (G : types) (e : expr) : Prop :=
  (exists l a x y, sub (EBinary l a B_index x y) e) \/
  (exists l un v ls src body, sub (EQuant l un v ls src body) e /\ maybe_null body = true) \/
  (exists l c p un i ms, sub (EField l c p true un) e /\ e_typ p = Some (TUnion i ms) /\ ~ coherent G ms (c_name c) (c_typ c)).
