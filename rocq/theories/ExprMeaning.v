(** The expression a syntax tree stands for, as a relation: which operator,
    name, literal and location each part of the tree becomes.  The types that
    operands must have, and the types noted in the expression, are those of
    the relation [wt] in Typing.v.  Both are specifications; they share no
    function with the parser but the tables of names. *)
From Verif Require Import Base Lexer SymTab Ast Eval ParserBase ExprSyntax ValueSyntax.
Open Scope Z_scope.

(** ** Names *)

(** What a name refers in nested tables: the innermost one that has exactly
    this name decides. *)
Inductive in_scope : nscope -> text -> entity -> Prop :=
| scope_here d sc k e : entry d k e -> in_scope (d :: sc) k e
| scope_outer d sc k e : (forall e', ~ entry d k e') -> in_scope sc k e -> in_scope (d :: sc) k e.
Definition unused (sc : nscope) (k : text) : Prop := forall d e, In d sc -> ~ entry d k e.

Section MEANING.
Variable file : Z.
Variable G : types.
Variable W : world.
Variable compiles : text -> bool.
Variable N : names.
Notation loc_of := (tok_loc file).

(** The package of the file and the imported ones can be named. *)
Definition usable (p : nat) : Prop := exists l, n_imports N = Some l /\ (p = n_current N \/ In p l).

(** [refers sc tk sels e tk' sels']: the name [tk], or [tk.tk'] if [tk] is a
    package, refers [e]; [sels'] is what follows. *)
Inductive refers (sc : nscope) : token -> list (token * option raw) -> entity -> token -> list (token * option raw) -> Prop :=
| den_plain tk sels e : in_scope sc (tok_text tk) e -> (forall p, e <> N_pkg p) -> refers sc tk sels e tk sels
| den_package tk p tk2 sels e : in_scope sc (tok_text tk) (N_pkg p) -> usable p ->
    entry (p_symbols N p) (tok_text tk2) e -> refers sc tk ((tk2, None) :: sels) e tk2 sels.

(** Predefined functions and conversions: a plain name is looked up among the
    predefined names only. *)
Inductive callable (sc : nscope) : option token -> token -> entity -> Prop :=
| call_plain tk e : entry (n_stab N) (tok_text tk) e -> callable sc None tk e
| call_package tp tk e : refers sc tp [(tk, None)] e tk [] -> callable sc (Some tp) tk e.

Inductive literal_value : token -> expr -> Prop :=
| lv_int tk z : tk_kind tk = INTEGER -> tk_value tk = VInt z -> literal_value tk (ELit (loc_of tk) (LInt z))
| lv_dec tk q : tk_kind tk = DECIMAL -> tk_value tk = VDec q -> literal_value tk (ELit (loc_of tk) (LDec q))
| lv_str tk s : tk_kind tk = STRING -> tk_value tk = VText s -> literal_value tk (ELit (loc_of tk) (LStr s false))
| lv_true tk : keyword "true" tk -> literal_value tk (ELit (loc_of tk) (LBool true))
| lv_false tk : keyword "false" tk -> literal_value tk (ELit (loc_of tk) (LBool false))
| lv_null tk : keyword "null" tk -> literal_value tk (ENull (loc_of tk)).

Inductive apply_not : option token -> expr -> expr -> Prop :=
| an_none e : apply_not None e e
| an_some tk a e : apply_not (Some tk) e (EUnary (loc_of tk) a U_not e).

(** ** Trees *)

Inductive means (sc : nscope) : raw -> expr -> Prop :=
| m_lit tk e : literal_value tk e -> means sc (R_lit tk) e
(* names *)
| m_enum tk sels i tk' tk2 en : refers sc tk sels (N_type (TEnum i)) tk' [(tk2, None)] ->
    nth_error (enums G) i = Some en -> In (tok_text tk2) (en_lits en) ->
    means sc (R_name tk sels) (ELit (loc_of tk2) (LEnum i (tok_text tk2)))
| m_component tk sels c tk' sels' e : refers sc tk sels (N_comp c) tk' sels' ->
    selected sc (EName (loc_of tk') (c_typ c) (c_name c) false (c_opt c)) sels' e -> means sc (R_name tk sels) e
| m_variable tk sels n a tk' sels' e : refers sc tk sels (N_qv n a) tk' sels' ->
    selected sc (EName (loc_of tk') a n true false) sels' e -> means sc (R_name tk sels) e
(* predefined functions *)
| m_len pkg tk r a x op : callable sc pkg tk (N_fun F_len) -> means sc r x -> In op [U_strlen; U_arrlen] ->
    means sc (R_call pkg tk [r]) (EUnary (loc_of tk) a op x)
| m_starts pkg tk r r' a x y : callable sc pkg tk (N_fun F_startswith) -> means sc r x -> means sc r' y ->
    means sc (R_call pkg tk [r; r']) (EBinary (loc_of tk) a B_starts x y)
| m_ends pkg tk r r' a x y : callable sc pkg tk (N_fun F_endswith) -> means sc r x -> means sc r' y ->
    means sc (R_call pkg tk [r; r']) (EBinary (loc_of tk) a B_ends x y)
| m_matches pkg tk r r' a x y l p b : callable sc pkg tk (N_fun F_matches) -> means sc r x -> means sc r' y ->
    evaluate W None y = Ok (Val l (Some (PStr p, b))) -> compiles p = true ->
    means sc (R_call pkg tk [r; r']) (EBinary (loc_of tk) a B_regex x y)
| m_oneof pkg tk rs xs : callable sc pkg tk (N_fun F_oneof) -> rs <> [] -> each sc rs xs ->
    means sc (R_call pkg tk rs) (EOneof (loc_of tk) xs)
| m_integer pkg tk r a x : callable sc pkg tk (N_type TInt) -> means sc r x ->
    means sc (R_call pkg tk [r]) (EUnary (loc_of tk) a U_toint x)
| m_decimal pkg tk r a x : callable sc pkg tk (N_type TDec) -> means sc r x ->
    means sc (R_call pkg tk [r]) (EUnary (loc_of tk) a U_todec x)
(* operators *)
| m_unary tk op r a x : In op [U_minus; U_plus; U_abs; U_not] -> means sc r x ->
    means sc (R_unary tk op r) (EUnary (loc_of tk) a op x)
| m_binary tk op r r' a x y :
    In op [B_and; B_or; B_xor; B_implies; B_eq; B_neq; B_lt; B_leq; B_gt; B_geq; B_plus; B_minus; B_times; B_div;
           B_rem; B_pow] ->
    means sc r x -> means sc r' y -> means sc (R_binary tk op r r') (EBinary (loc_of tk) a op x y)
| m_member neg tk r r' a op x y e : In op [B_contains; B_arrcontains] -> means sc r x -> means sc r' y ->
    apply_not neg (EBinary (loc_of tk) a op x y) e -> means sc (R_member neg tk r r') e
| m_range neg tk r lo hi x l h e : means sc r x -> means sc lo l -> means sc hi h ->
    apply_not neg (ERange (loc_of tk) x l h) e -> means sc (R_range neg tk r lo hi) e
(* quantifiers and conditions *)
| m_quant universal tq tv ts body c i lo hi el x : unused sc (tok_text tv) ->
    in_scope sc (tok_text ts) (N_comp c) -> c_typ c = TArr i lo hi el ->
    means ([(tok_text tv, N_qv (tok_text tv) el)] :: sc) body x ->
    means sc (R_quant universal tq tv ts body) (EQuant (loc_of tq) universal (tok_text tv) (loc_of ts) c x)
| m_cond tk c x more y c' x' more' y' : means sc c c' -> means sc x x' -> each_pair sc more more' -> means sc y y' ->
    means sc (R_cond tk c x more y) (ECond (loc_of tk) ((c', x') :: more') y')
(** Fields of a union have a mark, and whether all members have them. *)
with selected (sc : nscope) : expr -> list (token * option raw) -> expr -> Prop :=
| sel_nil e : selected sc e [] e
| sel_field e tk c l e' : c_name c = tok_text tk -> selected sc (EField (loc_of tk) c e false true) l e' ->
    selected sc e ((tk, None) :: l) e'
| sel_union e tk c u l e' : c_name c = tok_text tk -> selected sc (EField (loc_of tk) c e true u) l e' ->
    selected sc e ((tk, None) :: l) e'
| sel_index e tk r x a l e' : means sc r x -> selected sc (EBinary (loc_of tk) a B_index e x) l e' ->
    selected sc e ((tk, Some r) :: l) e'
with each (sc : nscope) : list raw -> list expr -> Prop :=
| each_nil : each sc [] []
| each_cons r x rs xs : means sc r x -> each sc rs xs -> each sc (r :: rs) (x :: xs)
with each_pair (sc : nscope) : list (raw * raw) -> list (expr * expr) -> Prop :=
| each_pair_nil : each_pair sc [] []
| each_pair_cons r r' x x' rs xs : means sc r x -> means sc r' x' -> each_pair sc rs xs ->
    each_pair sc ((r, r') :: rs) ((x, x') :: xs).
End MEANING.
Scheme means_mut := Minimality for means Sort Prop
  with selected_mut := Minimality for selected Sort Prop
  with each_mut := Minimality for each Sort Prop
  with each_pair_mut := Minimality for each_pair Sort Prop.
Combined Scheme means_ind4 from means_mut, selected_mut, each_mut, each_pair_mut.
Arguments means_ind4 {file G W compiles N}.
