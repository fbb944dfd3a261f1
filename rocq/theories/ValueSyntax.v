(** The notation of values, from the language reference manual (section
    Record object declarations): which tokens denote which value of a type.

    With [lax] the relation also admits what the parser accepts beyond the
    manual: missing and trailing commas in arrays, and missing separators in
    tuples.  The last argument of the relation lists the errors that are
    reported without rejecting the value. *)
From Coq Require Import Relations.
From Verif Require Import Base Lexer SymTab Ast Eval TypesProofs ParserBase ParserExpr ParserValue Lint.
From Verif Require Markup.
Open Scope Z_scope.

(** ** Types a value can have *)

(** What the declarations guarantee for tuple types. *)
Record tuple_ok (G : types) (u : nat) (ut : tuptype) : Prop := TupleOk {
  to_some : u_comps ut <> [];
  to_names : NoDup (map c_name (u_comps ut));
  (* fields have complete types, and there are no arrays in tuples *)
  to_types : forall c, In c (u_comps ut) ->
    match c_typ c with TTup w => (w < u)%nat | TArr _ _ _ _ => False | _ => True end;
  (* separators between all fields or none *)
  to_seps : u_seps ut = [] \/ List.length (u_comps ut) = Datatypes.S (List.length (u_seps ut));
  to_nesting : u_seps ut <> [] -> forall c w wt, In c (u_comps ut) -> c_typ c = TTup w -> tup G w = Some wt ->
    u_seps wt = [];
  (* optional fields come last, and require separators *)
  to_first : forall c cs, u_comps ut = c :: cs -> c_opt c = false;
  to_optional : forall cs c cs' c' cs'', u_comps ut = cs ++ c :: cs' ++ c' :: cs'' -> c_opt c = true -> c_opt c' = true;
  to_form : u_seps ut = [] -> forall c, In c (u_comps ut) -> c_opt c = false
}.
Definition tuples_ok (G : types) : Prop := forall u ut, tup G u = Some ut -> tuple_ok G u ut.

(** Array types have no array types as elements. *)
Definition simple_array (a : ty) : Prop :=
  match a with TArr _ _ _ (TArr _ _ _ _) => False | _ => True end.

Section SPEC.
Variable file : Z.
Variable src : text.
Variable G : types.
Variable objs : list object.
Variable N : names.
Variable lax : bool.

Notation loc_of := (tok_loc file).

(** The precise name [name] is declared in the table. *)
Definition entry (d : ntable) (name : text) (e : entity) : Prop := t_find d name = Some (name, e).

(** An object may be given where a reference of type [a] is required. *)
Definition fits_ref (ob : object) (a : ty) : Prop :=
  match a with
  | TRec r => clos_refl_trans nat (extends G) (o_typ ob) r
  | TUnion _ ms => exists m, In m ms /\ clos_refl_trans nat (extends G) (o_typ ob) m
  | _ => False
  end.

(** The name of an object, with or without its package. *)
Inductive object_name : nat -> token -> list token -> Prop :=
| on_here tk : tk_kind tk = IDENTIFIER -> object_name (n_current N) tk [tk]
| on_package tp dot tk p : tk_kind tp = IDENTIFIER -> tk_kind dot = DOT -> tk_kind tk = IDENTIFIER ->
    entry (n_stab N) (tok_text tp) (N_pkg p) -> is_visible N p = true ->
    object_name p tk [tp; dot; tk].
(** An object that is already declared is found at once; what is not yet
    declared is left for later. *)
Inductive target (a : ty) (pkg : nat) (name : text) : option nat -> Prop :=
| tg_found o ob : entry (p_symbols N pkg) name (N_obj o) -> nth_error objs o = Some ob -> fits_ref ob a ->
    target a pkg name (Some o)
| tg_later : t_contains (p_symbols N pkg) name = false -> target a pkg name None.

(** The name of an enumeration type. *)
Inductive enum_name (e : nat) : list token -> Prop :=
| en_here tk : tk_kind tk = IDENTIFIER -> s_lookup file (default_scope N) tk None = Ok (N_type (TEnum e)) ->
    enum_name e [tk]
| en_package tp dot tk p : tk_kind tp = IDENTIFIER -> tk_kind dot = DOT -> tk_kind tk = IDENTIFIER ->
    s_lookup file (default_scope N) tp None = Ok (N_pkg p) -> is_visible N p = true ->
    entry (p_symbols N p) (tok_text tk) (N_type (TEnum e)) ->
    enum_name e [tp; dot; tk].

Inductive sign : token -> unop -> Prop :=
| sign_plus tk : tk_kind tk = OPERATOR -> tk_value tk = VText (t "+") -> sign tk U_plus
| sign_minus tk : tk_kind tk = OPERATOR -> tk_value tk = VText (t "-") -> sign tk U_minus.

Inductive separates : separator -> token -> Prop :=
| sp_at tk : tk_kind tk = AT -> separates Sep_at tk
| sp_colon tk : tk_kind tk = COLON -> separates Sep_colon tk
| sp_semicolon tk : tk_kind tk = SEMICOLON -> separates Sep_semicolon tk
| sp_word tk w : tk_kind tk = IDENTIFIER -> tk_value tk = VText w -> separates (Sep_word w) tk.

Definition error_at (l : loc) (m : pmsg) : note := Note_error (E_msg l m).

(** The errors about the size of an array with closing bracket [ket].  The
    upper bound 0 has no effect. *)
Inductive size_errors (lo : Z) (hi : option Z) (vs : list vexpr) (ket : token) : list note -> list note -> Prop :=
| size_ok few many :
    few = (if Z.of_nat (List.length vs) <? lo then [error_at (loc_of ket) (M_too_few lo (Z.of_nat (List.length vs)))] else []) ->
    match hi with
    | Some h => if negb (h =? 0) && (h <? Z.of_nat (List.length vs))
                then exists v, nth_error vs (Z.to_nat h) = Some v /\
                               many = [error_at (x_loc v) (M_too_many h (Z.of_nat (List.length vs)))]
                else many = []
    | None => many = []
    end ->
    size_errors lo hi vs ket few many.

Definition nulls (l : loc) (cs : list component) : list (text * vexpr) := map (fun c => (c_name c, XNull l)) cs.
Definition first_loc (ts : list token) (l : loc) : Prop := exists tk ts', ts = tk :: ts' /\ l = loc_of tk.
Definition last_loc (ts : list token) (l : loc) : Prop := exists ts' tk, ts = ts' ++ [tk] /\ l = loc_of tk.
Definition starts_with (k : kind) (ts : list token) : Prop := exists tk ts', ts = tk :: ts' /\ tk_kind tk = k.

Inductive value : ty -> vexpr -> list token -> list note -> Prop :=
| v_int tk z : tk_kind tk = INTEGER -> tk_value tk = VInt z -> value TInt (XLit (loc_of tk) (LInt z) []) [tk] []
| v_dec tk q : tk_kind tk = DECIMAL -> tk_value tk = VDec q -> value TDec (XLit (loc_of tk) (LDec q) []) [tk] []
| v_sign a tk op l k ts : a = TInt \/ a = TDec -> sign tk op -> value a (XLit l k []) ts [] ->
    value a (XUnary (loc_of tk) (Some a) op (XLit l k [])) (tk :: ts) []
| v_str tk : tk_kind tk = STRING -> value TStr (XLit (loc_of tk) (LStr (tok_text tk) false) []) [tk] []
| v_markup tk rs : tk_kind tk = STRING ->
    Markup.markup_references src (l_ref (loc_of tk)) (markup_visible N) = Ok rs ->
    value TMarkup (XLit (loc_of tk) (LStr (tok_text tk) true) (map (markup_ref file N) rs)) [tk] []
| v_bool tk (b : bool) : tk_kind tk = KEYWORD -> tk_value tk = VText (if b then t "true" else t "false") ->
    value TBool (XLit (loc_of tk) (LBool b) []) [tk] []
| v_enum e ts dot tk : enum_name e ts -> tk_kind dot = DOT -> tk_kind tk = IDENTIFIER ->
    t_find (enum_literals G e) (tok_text tk) = Some (tok_text tk, tok_text tk) ->
    value (TEnum e) (XLit (loc_of tk) (LEnum e (tok_text tk)) []) (ts ++ [dot; tk]) []
| v_ref a pkg tk ts tgt : is_record a = true \/ is_union a = true -> object_name pkg tk ts ->
    target a pkg (tok_text tk) tgt ->
    value a (XRef (loc_of tk) (Some a) pkg (tok_text tk) tgt) ts []
| v_arr i lo hi el bra vs ts ket ns few many : tk_kind bra = S_BRA -> tk_kind ket = S_KET ->
    elements el vs ts ns -> size_errors lo hi vs ket few many ->
    value (TArr i lo hi el) (XArr (loc_of bra) (TArr i lo hi el) vs) (bra :: ts ++ [ket]) (ns ++ few ++ many)
| v_generic u ut bra d ts ket ns : tup G u = Some ut -> u_seps ut = [] ->
    tk_kind bra = BRA -> tk_kind ket = KET -> listed (u_comps ut) d ts ns ->
    value (TTup u) (XTup (loc_of bra) u d) (bra :: ts ++ [ket]) ns
| v_separated u ut l d ts ns : tup G u = Some ut -> u_seps ut <> [] -> first_loc ts l ->
    separated false l (u_comps ut) (u_seps ut) d ts ns ->
    value (TTup u) (XTup l u d) ts ns
(** array_aggregate: the elements between the brackets *)
with elements : ty -> list vexpr -> list token -> list note -> Prop :=
| el_none el : elements el [] [] []
| el_one el v ts ns : value el v ts ns -> elements el [v] ts ns
| el_more el v ts ns comma vs us ms : value el v ts ns -> tk_kind comma = COMMA ->
    elements el vs us ms -> (lax = false -> vs <> []) ->
    elements el (v :: vs) (ts ++ comma :: us) (ns ++ ms)
| el_gap el v ts ns l vs us ms : lax = true -> value el v ts ns -> last_loc ts l -> elements el vs us ms -> vs <> [] ->
    elements el (v :: vs) (ts ++ us) (ns ++ error_at l M_comma :: ms)
(** tuple_aggregate, first form, between the brackets *)
with listed : list component -> list (text * vexpr) -> list token -> list note -> Prop :=
| ls_one c v ts ns : value (c_typ c) v ts ns -> listed [c] [(c_name c, v)] ts ns
| ls_more c cs v ts ns comma d us ms : value (c_typ c) v ts ns -> tk_kind comma = COMMA -> listed cs d us ms ->
    listed (c :: cs) ((c_name c, v) :: d) (ts ++ comma :: us) (ns ++ ms)
(** tuple_aggregate, second form; [gap]: a separator was missing before *)
with separated : bool -> loc -> list component -> list separator -> list (text * vexpr) -> list token -> list note -> Prop :=
| sq_last gap l c v ts ns : value (c_typ c) v ts ns -> separated gap l [c] [] [(c_name c, v)] ts ns
| sq_more gap l c cs sep seps v ts ns tk d us ms : value (c_typ c) v ts ns -> separates sep tk ->
    separated gap l cs seps d us ms ->
    separated gap l (c :: cs) (sep :: seps) ((c_name c, v) :: d) (ts ++ tk :: us) (ns ++ ms)
| sq_omitted gap l c cs sep seps v ts ns : value (c_typ c) v ts ns -> (forall c', In c' cs -> c_opt c' = true) ->
    List.length cs = Datatypes.S (List.length seps) ->
    separated gap l (c :: cs) (sep :: seps) ((c_name c, v) :: nulls l cs) ts ns
| sq_gap gap l c c' cs sep seps v ts ns d us ms : lax = true -> value (c_typ c) v ts ns -> c_opt c' = false ->
    separated true l (c' :: cs) seps d us ms ->
    separated gap l (c :: c' :: cs) (sep :: seps) ((c_name c, v) :: d) (ts ++ us) (ns ++ ms)
| sq_stuck l c cs sep seps v ts ns tk : lax = true -> value (c_typ c) v ts ns -> separates sep tk ->
    (forall c', In c' cs -> c_opt c' = true) -> List.length cs = Datatypes.S (List.length seps) ->
    separated true l (c :: cs) (sep :: seps) ((c_name c, v) :: nulls l cs) (ts ++ [tk]) ns.

Scheme value_mind := Minimality for value Sort Prop
with elements_mind := Minimality for elements Sort Prop
with listed_mind := Minimality for listed Sort Prop
with separated_mind := Minimality for separated Sort Prop.
Combined Scheme value_all from value_mind, elements_mind, listed_mind, separated_mind.
End SPEC.
