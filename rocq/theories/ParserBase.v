(** The token buffer of the parser, its error handling and the resolution of
    names: /repo/trlc/parser.py lines 127-223 and 336-376, and the lookups of
    /repo/trlc/ast.py lines 3399-3790 on flattened tables. *)
From Verif Require Import Base Lexer SymTab Ast Eval.
From Verif Require Markup.
Open Scope Z_scope.

(** ** What the lexer delivers *)

(** The result of each call of [lexer.token()] until it returns None.  The
    lexer can be called again after an error and goes on from where it was. *)
Inductive item := ITok (tk : token) | IErr (e : lex_error) | ICrash.

Section ITEMS.
Variable content : text.
Fixpoint items_from (n : nat) (s : lstate) : option (list item) :=
  match n with
  | O => None
  | S n' =>
      match next_token content s with
      | (_, LEnd) => Some []
      | (_, LCrash) => Some [ICrash]
      | (_, LFuel) => None
      | (s', LErr e) => option_map (cons (IErr e)) (items_from n' s')
      | (s', LTok tk) => option_map (cons (ITok tk)) (items_from n' s')
      end
  end.
Definition items : option (list item) := items_from (fuel content) (init content).
End ITEMS.

(** ** Errors *)

(** Entities found in symbol tables; types are identified as in Ast.v,
    packages and objects by their index. *)
Inductive bfun := F_len | F_startswith | F_endswith | F_matches | F_oneof.
Inductive entity :=
| N_type (a : ty)
| N_fun (f : bfun)
| N_pkg (p : nat)
| N_obj (o : nat)
| N_comp (c : component)
| N_qv (name : text) (a : ty).

(** The other messages of the parser, one constructor per message. *)
Inductive pmsg :=
| M_import                (* package must be imported before use *)
| M_membership            (* membership test only defined for Strings and Arrays *)
| M_exponent              (* exponent must not be negative *)
| M_shadows               (* shadows ... *)
| M_quantify              (* you can only quantify over arrays *)
| M_null                  (* null is not permitted here *)
| M_arity (n : Z)         (* function requires %u parameters *)
| M_arity_at_least (n : Z)
| M_regex                 (* the message of re.error *)
| M_not_builtin           (* not a valid builtin function or numeric type *)
| M_not_a_name            (* %s %s is not a valid name *)
| M_no_fields             (* which is not a tuple, record, or union *)
| M_no_member_field       (* field %s does not exist in any member *)
| M_conflicting_field     (* field %s has conflicting types *)
| M_not_array             (* which is not an array *)
(* values *)
| M_boolean_literal       (* expected boolean literal *)
| M_comma                 (* comma separating array elements is missing *)
| M_too_few (lo n : Z)    (* this array requires at least ... *)
| M_too_many (hi n : Z)   (* this array requires at most ... *)
| M_other_enum            (* expected %s *)
| M_reference_type        (* expected reference of type ... *)
(* declarations *)
| M_empty_enum            (* empty enumerations are not permitted *)
| M_optional_first        (* first field may not be optional *)
| M_optional_separators   (* optional only permitted in tuples with separators *)
| M_separators            (* either all fields must be separated, or none *)
| M_nested_separators     (* may not contain another tuple with separators *)
| M_duplicate_member      (* duplicate type %s in union *)
| M_upper_bound           (* expected INTEGER or * for upper bound *)
| M_frozen_twice          (* duplicate freezing of %s *)
| M_final                 (* cannot declare new components in final record type *)
| M_check_type            (* check expression must be Boolean *)
| M_severity              (* expected warning|error|fatal *)
| M_newline               (* error message must not contain a newline *)
| M_anchor                (* expected either a details string or identifier *)
(* record objects and files *)
| M_abstract              (* cannot declare object of abstract record type *)
| M_assigned (name : text)      (* component already assigned *)
| M_frozen (name : text)        (* cannot overwrite frozen component *)
| M_required (name : text)      (* required component is not defined *)
| M_self_import.          (* package %s cannot import itself *)

(** [None] as location: the location of the whole file. *)
Inductive perr :=
| E_lex (e : lex_error)
| E_expected (l : option loc) (k : kind)
| E_expected_kw (l : option loc) (w : text)
| E_static (l : loc) (e : static_error)
| E_eval (l : loc) (p : problem)
| E_name (l : loc) (e : stab_error entity)
| E_msg (l : loc) (m : pmsg)
| E_markup (l : loc) (m : Markup.merr).

(** Calls of [mh.error] with [fatal=False], of [mh.check] in lint mode and
    of [mh.warning]: they do not end the parsing. *)
Inductive lint_msg := L_unary_minus | L_partial_field | L_clarify_final | L_duplicate_import.
Inductive note := Note_error (e : perr) | Note_lint (l : loc) (m : lint_msg).

(** ** The state of the parser *)

Record pos := Pos { ct : option token; nt : option token; rest : list item }.
Record ps := PS { at_ : pos; out : list note }.

Inductive pres (A : Type) : Type :=
| POk (a : A) (s : ps)
| PErr (e : perr) (s : ps)
| PCrash
| PFuel.
Arguments POk {A} a s.
Arguments PErr {A} e s.
Arguments PCrash {A}.
Arguments PFuel {A}.

Definition P (A : Type) : Type := ps -> pres A.
Definition pret {A} (a : A) : P A := fun s => POk a s.
Definition pbind {A B} (m : P A) (k : A -> P B) : P B :=
  fun s => match m s with
           | POk a s' => k a s'
           | PErr e s' => PErr e s'
           | PCrash => PCrash
           | PFuel => PFuel
           end.
Notation "'let*' x ':=' m 'in' k" := (pbind m (fun x => k))
  (at level 200, x pattern, m at level 100, k at level 200).
Definition perror {A} (e : perr) : P A := fun s => PErr e s.
Definition pcrash {A} : P A := fun _ => PCrash.
Definition pfuel {A} : P A := fun _ => PFuel.
Definition pnote (n : note) : P unit := fun s => POk tt (PS (at_ s) (out s ++ [n])).
Definition pcond {A} (c : ps -> bool) (a b : P A) : P A := fun s => if c s then a s else b s.

(** Results of the constructors and of the evaluation. *)
Definition of_static {A} (r : sres A) : res perr A :=
  match r with
  | Ok a => Ok a
  | Err (l, e) => Err (E_static l e)
  | Crash => Crash
  | OutOfFuel => OutOfFuel
  end.
(** errors.py:ice_loc raises an error that is not a TRLC_Error. *)
Definition of_eval {A} (r : eres A) : res perr A :=
  match r with
  | Ok a => Ok a
  | Err (l, p) => if internal p then Crash else Err (E_eval l p)
  | Crash => Crash
  | OutOfFuel => OutOfFuel
  end.
Definition lift {A} (r : res perr A) : P A :=
  match r with
  | Ok a => pret a
  | Err e => perror e
  | Crash => pcrash
  | OutOfFuel => pfuel
  end.

(** The outcome of one round of the loop in [advance]; [prev] is what
    [self.nt] holds if the lexer raises. *)
Inductive fetched := Got (p : option token * list item) | Failed (e : lex_error) (p : option token * list item)
| Broke.
Fixpoint fetch (prev : option token) (l : list item) : fetched :=
  match l with
  | [] => Got (None, [])
  | ITok tk :: l' => if kind_eq_dec (tk_kind tk) COMMENT then fetch (Some tk) l' else Got (Some tk, l')
  | IErr e :: l' => Failed e (prev, l')
  | ICrash :: _ => Broke
  end.

(** parser.py:145-151 [advance] *)
Definition p_advance : P unit :=
  fun s => match fetch (nt (at_ s)) (rest (at_ s)) with
           | Got (n, l) => POk tt (PS (Pos (nt (at_ s)) n l) (out s))
           | Failed e (n, l) => PErr (E_lex e) (PS (Pos (nt (at_ s)) n l) (out s))
           | Broke => PCrash
           end.

Definition is_kind (k : kind) (tk : token) : bool := if kind_eq_dec (tk_kind tk) k then true else false.
Definition has_text (w : text) (tk : token) : bool :=
  match tk_value tk with VText s => text_eqb s w | _ => false end.
Definition is_kw (w : text) (tk : token) : bool := is_kind KEYWORD tk && has_text w tk.
Definition is_op (w : text) (tk : token) : bool := is_kind OPERATOR tk && has_text w tk.
Definition next_is (f : token -> bool) (s : ps) : bool :=
  match nt (at_ s) with Some tk => f tk | None => false end.

(** parser.py:160-171 [peek], [peek_eof], [peek_kw] *)
Definition peek (k : kind) : ps -> bool := next_is (is_kind k).
Definition peek_kw (w : text) : ps -> bool := next_is (is_kw w).
Definition peek_op (w : text) : ps -> bool := next_is (is_op w).
Definition peek_eof (s : ps) : bool := match nt (at_ s) with None => true | _ => false end.

Section FILE.
(** The file a token is from, see Ast.v [loc]. *)
Variable file : Z.
Definition tok_loc (tk : token) : loc :=
  Loc file (Sref (tk_line tk) (tk_col tk) (tk_start tk) (tk_end tk)).

(** Where [match] reports a mismatch *)
Definition here (s : ps) : option loc :=
  match nt (at_ s) with
  | Some tk => Some (tok_loc tk)
  | None => option_map tok_loc (ct (at_ s))
  end.

(** parser.py:173-192 [match], 201-223 [match_kw]; the result is the matched
    token, which is [self.ct] afterwards. *)
Definition p_take (f : token -> bool) (e : option loc -> perr) : P token :=
  fun s => match nt (at_ s) with
           | Some tk => if f tk then (let* _ := p_advance in pret tk) s else PErr (e (here s)) s
           | None => PErr (e (here s)) s
           end.
Definition p_match (k : kind) : P token := p_take (is_kind k) (fun l => E_expected l k).
Definition p_match_kw (w : text) : P token := p_take (is_kw w) (fun l => E_expected_kw l w).

(** parser.py:194-199 [match_eof] *)
Definition p_match_eof : P unit :=
  fun s => match nt (at_ s) with None => POk tt s | Some _ => PErr (E_expected_kw (here s) (t "end of file")) s end.

(** parser.py:152-158 [skip_until_newline] *)
Fixpoint skip_line (n : nat) (line : Z) : P unit :=
  match n with
  | O => pfuel
  | S n' => pcond (next_is (fun tk => tk_line tk =? line))
                  (let* _ := p_advance in skip_line n' line) (pret tt)
  end.
Definition skip_until_newline (n : nat) : P unit :=
  fun s => match ct (at_ s) with
           | None => POk tt s
           | Some tk => skip_line n (tk_line tk) s
           end.

(** ** Names *)

(** A symbol table with its parents and imported tables, in the order in
    which they are searched: precise names with what they denote. *)
Definition ntable := list (text * entity).

Fixpoint t_find {A} (d : list (text * A)) (name : text) : option (text * A) :=
  match d with
  | [] => None
  | (k, a) :: d' => if text_eqb (simplified_name k) (simplified_name name) then Some (k, a) else t_find d' name
  end.

(** ast.py:3549-3577 [contains] *)
Definition t_contains {A} (d : list (text * A)) (name : text) : bool :=
  match t_find d name with Some (k, _) => text_eqb k name | None => false end.

(** The text of an identifier (or of another token with text). *)
Definition tok_text (tk : token) : text := match tk_value tk with VText s => s | _ => [] end.

(** ast.py:3641-3692 [lookup] *)
Definition t_lookup {A} (of_entity : A -> entity) (d : list (text * A)) (tk : token)
           (required : option (A -> bool)) : res perr A :=
  match t_find d (tok_text tk) with
  | None => Err (E_name (tok_loc tk) (Unknown_symbol entity))
  | Some (k, a) =>
      if text_eqb k (tok_text tk) then
        match required with
        | Some c => if c a then Ok a else Err (E_name (tok_loc tk) (Wrong_class entity (of_entity a)))
        | None => Ok a
        end
      else Err (E_name (tok_loc tk) (Did_you_mean entity (of_entity a)))
  end.
Definition e_lookup := t_lookup (fun e : entity => e).

(** ast.py:3763-3790 [Scope]: innermost table first. *)
Definition nscope := list ntable.
Fixpoint s_contains (sc : nscope) (name : text) : bool :=
  match sc with
  | [] => false
  | d :: sc' => t_contains d name || s_contains sc' name
  end.
Fixpoint s_lookup (sc : nscope) (tk : token) (required : option (entity -> bool)) : res perr entity :=
  match sc with
  | [] => Crash
  | [d] => e_lookup d tk required
  | d :: sc' => if t_contains d (tok_text tk) then e_lookup d tk required else s_lookup sc' tk required
  end.

(** ast.py:3716-3745 [create_global_table]: predefined types and functions;
    packages are added as they are declared. *)
Definition builtin_table : ntable :=
  [(t "Integer", N_type TInt); (t "Decimal", N_type TDec); (t "Boolean", N_type TBool);
   (t "String", N_type TStr); (t "Markup_String", N_type TMarkup);
   (t "len", N_fun F_len); (t "startswith", N_fun F_startswith); (t "endswith", N_fun F_endswith);
   (t "matches", N_fun F_matches); (t "oneof", N_fun F_oneof)].

(** The names a parser works with. *)
Record names := Names {
  n_stab    : ntable;              (* predefined entities and packages *)
  n_pkgs    : list ntable;         (* entries of each package *)
  n_current : nat;                 (* the package of the file *)
  n_imports : option (list nat)    (* the imported packages; None: not resolved *)
}.
Variable N : names.

(** ast.py:3046-3055: the table of a package makes the global one visible *)
Definition p_symbols (p : nat) : ntable := nth p (n_pkgs N) [] ++ n_stab N.
(** ast.py:276-280 [is_visible] *)
Definition is_visible (p : nat) : bool :=
  match n_imports N with
  | Some l => Nat.eqb p (n_current N) || existsb (Nat.eqb p) l
  | None => false
  end.
(** What happens with a package that is not visible: ast.py:278 asserts that
    the imports are resolved. *)
Definition hidden {A} (e : perr) : res perr A :=
  match n_imports N with Some _ => Err e | None => Crash end.

(** parser.py:349-376 [parse_qualified_name] after the first identifier,
    which is [tk]; also returns the last token used. *)
Definition qualified_rest (sc : nscope) (tk : token) (required : option (entity -> bool)) : P (entity * token) :=
  let* sym := lift (s_lookup sc tk None) in
  match sym with
  | N_pkg p =>
      if is_visible p then
        let* _ := p_match DOT in
        let* tk2 := p_match IDENTIFIER in
        let* e := lift (e_lookup (p_symbols p) tk2 required) in
        pret (e, tk2)
      else lift (hidden (E_msg (tok_loc tk) M_import))
  | _ => let* e := lift (s_lookup sc tk required) in pret (e, tk)
  end.
Definition parse_qualified_name (sc : nscope) (required : option (entity -> bool)) : P (entity * token) :=
  let* tk := p_match IDENTIFIER in qualified_rest sc tk required.

End FILE.
