(** The notation of declarations and what they declare, written from the
    reference manual (sections on type declarations, check blocks, record
    objects and files).  The relations do not mention the parser; they
    describe the tokens of a declaration and the symbol table after it.

    Descriptions of names and types have no meaning here. *)
From Coq Require Import Relations.
From Verif Require Import Base Lexer SymTab Ast Eval ParserBase ParserExpr ExprSyntax ParserValue TypesProofs ValueSyntax ParserDecl Typing ExprMeaning.
Open Scope Z_scope.

(** ** Words *)
Definition word (w : string) (tk : token) : Prop := tk_kind tk = KEYWORD /\ tk_value tk = VText (t w).
(** IDENTIFIER [STRING] *)
Inductive described : token -> list token -> Prop :=
| described_plain tk : tk_kind tk = IDENTIFIER -> described tk [tk]
| described_text tk s : tk_kind tk = IDENTIFIER -> tk_kind s = STRING -> described tk [tk; s].
(** [word] *)
Inductive option_word (w : string) : bool -> list token -> Prop :=
| ow_yes tk : word w tk -> option_word w true [tk]
| ow_no : option_word w false [].

(** ** Tables *)

(** [l'] is [l] with the element [x] at [i] replaced by [y]. *)
Definition replaced {A} (l : list A) (i : nat) (x y : A) (l' : list A) : Prop :=
  exists a b, l = a ++ x :: b /\ List.length a = i /\ l' = a ++ y :: b.
(** No name of the table is the same as, or too similar to, [name]. *)
Definition free_name {A} (d : list (text * A)) (name : text) : Prop :=
  forall k x, In (k, x) d -> simplified_name k <> simplified_name name.
(** The new [name] is entered in the table of package [p]; built-in names and
    names of packages cannot be declared again. *)
Definition entered (stab : ntable) (pkgs : list ntable) (p : nat) (name : text) (e : entity) (pkgs' : list ntable) : Prop :=
  exists d, replaced pkgs p d (d ++ [(name, e)]) pkgs' /\ free_name d name /\ free_name stab name.

Section SPEC.
Variable file : Z.
Variable src : text.
Variable compiles : text -> bool.
Variable matches : text -> text -> option bool.
(** The package and the imports of the file *)
Variable p : nat.
Variable imports : option (list nat).
(** What the parser tolerates (see [value]); some of it is reported. *)
Variable lax : bool.

Definition names_in (v : env) : names := Names (v_stab v) (v_pkgs v) p imports.

(** ** Enumerations *)
Inductive literals : list text -> list token -> Prop :=
| lits_none : literals [] []
| lits_more tk tn l ts : described tk tn -> literals l ts -> literals (tok_text tk :: l) (tn ++ ts).
Inductive enum_decl (v : env) : list token -> env -> Prop :=
| enum_declared kw name tn bra lits tl ket pkgs :
    word "enum" kw -> described name tn -> tk_kind bra = C_BRA -> literals lits tl -> tk_kind ket = C_KET ->
    lits <> [] -> NoDup (map simplified_name lits) ->
    entered (v_stab v) (v_pkgs v) p (tok_text name) (N_type (TEnum (List.length (enums (v_types v))))) pkgs ->
    enum_decl v (kw :: tn ++ bra :: tl ++ [ket])
      (Env (Types (recs (v_types v)) (tups (v_types v)) (enums (v_types v) ++ [EnumType p (tok_text name) lits]))
           (v_objs v) (v_secs v) (v_stab v) pkgs (v_next v)).

(** ** Names of types *)

(** A name in the package of the file hides a built-in one. *)
Definition known (N : names) (name : text) (e : entity) : Prop :=
  entry (p_symbols N (n_current N)) name e \/
  t_contains (p_symbols N (n_current N)) name = false /\ entry (n_stab N) name e.
(** qualified_name ::= [IDENTIFIER_package_name '.'] IDENTIFIER_name *)
Inductive qualified (N : names) : entity -> token -> list token -> Prop :=
| q_here e tk : tk_kind tk = IDENTIFIER -> known N (tok_text tk) e -> (forall q, e <> N_pkg q) ->
    qualified N e tk [tk]
| q_package e tp dot tk q : tk_kind tp = IDENTIFIER -> tk_kind dot = DOT -> tk_kind tk = IDENTIFIER ->
    known N (tok_text tp) (N_pkg q) -> is_visible N q = true -> entry (p_symbols N q) (tok_text tk) e ->
    qualified N e tk [tp; dot; tk].
Inductive members (N : names) : list nat -> list token -> Prop :=
| mb_one r tk ts : qualified N (N_type (TRec r)) tk ts -> members N [r] ts
| mb_more r tk ts comma rs us : qualified N (N_type (TRec r)) tk ts -> tk_kind comma = COMMA -> members N rs us ->
    members N (r :: rs) (ts ++ comma :: us).
(** A name, or a union: '[' name {',' name} ']'.  Anonymous types are
    numbered. *)
Inductive type_part (N : names) (k : nat) : ty -> list token -> nat -> Prop :=
| tp_name a tk ts : qualified N (N_type a) tk ts -> type_part N k a ts k
| tp_union bra rs ts ket : tk_kind bra = S_BRA -> members N rs ts -> tk_kind ket = S_KET ->
    (lax = false -> NoDup rs) ->
    type_part N k (TUnion k rs) (bra :: ts ++ [ket]) (S k).
(** ['[' INTEGER '..' ('*' | INTEGER) ']'] *)
Inductive upper : option Z -> token -> Prop :=
| up_int tk z : tk_kind tk = INTEGER -> tk_value tk = VInt z -> upper (Some z) tk
| up_star tk : tk_kind tk = OPERATOR -> tk_value tk = VText (t "*") -> upper None tk.
Inductive array_part (k : nat) (a : ty) : ty -> list token -> nat -> Prop :=
| ap_none : array_part k a a [] k
| ap_array bra tl lo range th hi ket : tk_kind bra = S_BRA -> tk_kind tl = INTEGER -> tk_value tl = VInt lo ->
    tk_kind range = RANGE -> upper hi th -> tk_kind ket = S_KET ->
    array_part k a (TArr k lo hi a) [bra; tl; range; th; ket] (S k).

(** ** Tuples *)
Inductive field_decl (N : names) (u : nat) (k : nat) : component -> list token -> nat -> Prop :=
| fd_field name tn opt to a ta k' : described name tn -> option_word "optional" opt to -> type_part N k a ta k' ->
    field_decl N u k (Comp (tok_text name) a opt (TTup u)) (tn ++ to ++ ta) k'.
Inductive separator_symbol : separator -> token -> Prop :=
| ss_word tk : tk_kind tk = IDENTIFIER -> separator_symbol (Sep_word (tok_text tk)) tk
| ss_at tk : tk_kind tk = AT -> separator_symbol Sep_at tk
| ss_colon tk : tk_kind tk = COLON -> separator_symbol Sep_colon tk
| ss_semicolon tk : tk_kind tk = SEMICOLON -> separator_symbol Sep_semicolon tk.
(** The fields after the first, without separators ... *)
Inductive plain_fields (N : names) (u : nat) : nat -> list component -> list token -> nat -> Prop :=
| pf_none k : plain_fields N u k [] [] k
| pf_more k c tc k1 cs ts k' : field_decl N u k c tc k1 -> plain_fields N u k1 cs ts k' ->
    plain_fields N u k (c :: cs) (tc ++ ts) k'.
(** ... or each after a separator. *)
Inductive separated_fields (N : names) (u : nat) : nat -> list component -> list separator -> list token -> nat -> Prop :=
| sf_none k : separated_fields N u k [] [] [] k
| sf_more k kw sep tk c tc k1 cs seps ts k' : word "separator" kw -> separator_symbol sep tk ->
    field_decl N u k c tc k1 -> separated_fields N u k1 cs seps ts k' ->
    separated_fields N u k (c :: cs) (sep :: seps) (kw :: tk :: tc ++ ts) k'.
Inductive fields_decl (N : names) (u : nat) (k : nat) : list component -> list separator -> list token -> nat -> Prop :=
| fs_plain c tc k1 cs ts k' : field_decl N u k c tc k1 -> plain_fields N u k1 cs ts k' ->
    (forall d, In d (c :: cs) -> c_opt d = false) ->
    fields_decl N u k (c :: cs) [] (tc ++ ts) k'
| fs_separated c tc k1 cs seps ts k' : field_decl N u k c tc k1 -> separated_fields N u k1 cs seps ts k' ->
    seps <> [] -> c_opt c = false ->
    (forall a d b e, cs = a ++ d :: b -> In e b -> c_opt d = true -> c_opt e = true) ->
    fields_decl N u k (c :: cs) seps (tc ++ ts) k'.
Inductive tuple_decl (v : env) : list token -> env -> Prop :=
| tuple_declared kw name tn bra cs seps ts k' ket pkgs :
    word "tuple" kw -> described name tn -> tk_kind bra = C_BRA ->
    fields_decl (names_in v) (List.length (tups (v_types v))) (v_next v) cs seps ts k' -> tk_kind ket = C_KET ->
    NoDup (map (fun c => simplified_name (c_name c)) cs) ->
    (seps <> [] -> forall c w wt, In c cs -> c_typ c = TTup w -> nth_error (tups (v_types v)) w = Some wt -> u_seps wt = []) ->
    entered (v_stab v) (v_pkgs v) p (tok_text name) (N_type (TTup (List.length (tups (v_types v))))) pkgs ->
    tuple_decl v (kw :: tn ++ bra :: ts ++ [ket])
      (Env (Types (recs (v_types v)) (tups (v_types v) ++ [TupType p (tok_text name) cs seps []]) (enums (v_types v)))
           (v_objs v) (v_secs v) (v_stab v) pkgs k').

(** ** Records *)

(** A type or one that it extends freezes the component [k]. *)
Definition freezes (G : types) (r : nat) (k : text) (f : field) : Prop :=
  exists q, clos_refl_trans nat (extends G) r q /\ In (k, f) (own_frozen G q).

(** The body, for a type whose components so far are in [rt].  Everything
    else is as in [v]. *)
Definition with_rec (v : env) (rt : rectype) : types :=
  Types (recs (v_types v) ++ [rt]) (tups (v_types v)) (enums (v_types v)).
(** What follows a value is not a separator of its type: the parser would
    take it for the next field (the manual has no rule for this). *)
Definition not_separator (G : types) (a : ty) (ts : list token) : Prop :=
  forall u ut tk us sep, a = TTup u -> nth_error (tups G) u = Some ut -> ts = tk :: us -> In sep (u_seps ut) -> ~ separates sep tk.
Inductive body_decl (v : env) : rectype -> nat -> list token -> rectype -> nat -> Prop :=
| bd_end rt k : body_decl v rt k [] rt k
| bd_component pk nm pa cs fz abs cks k name tn opt to a ta k1 b tb k2 ts rt' k' :
    described name tn -> option_word "optional" opt to -> type_part (names_in v) k a ta k1 -> array_part k1 a b tb k2 ->
    (forall c, has_component (with_rec v (RecType pk nm pa cs fz false abs cks)) (List.length (recs (v_types v))) c ->
       simplified_name (c_name c) <> simplified_name (tok_text name)) ->
    body_decl v (RecType pk nm pa (cs ++ [Comp (tok_text name) b opt (TRec (List.length (recs (v_types v))))]) fz false abs cks) k2 ts rt' k' ->
    body_decl v (RecType pk nm pa cs fz false abs cks) k (tn ++ to ++ ta ++ tb ++ ts) rt' k'
| bd_freeze pk nm pa cs fz fin abs cks k kw tk eq c x tx ns ts rt' k' :
    word "freeze" kw -> tk_kind tk = IDENTIFIER -> tk_kind eq = ASSIGN ->
    has_component (with_rec v (RecType pk nm pa cs fz fin abs cks)) (List.length (recs (v_types v))) c -> c_name c = tok_text tk ->
    (forall f, ~ freezes (with_rec v (RecType pk nm pa cs fz fin abs cks)) (List.length (recs (v_types v))) (c_name c) f) ->
    value file src (with_rec v (RecType pk nm pa cs fz fin abs cks)) (v_objs v) (names_in v) lax (c_typ c) x tx ns ->
    (lax = false -> not_separator (v_types v) (c_typ c) ts /\ ns = []) ->
    body_decl v (RecType pk nm pa cs (fz ++ [(c_name c, (k, x))]) fin abs cks) (S k) ts rt' k' ->
    body_decl v (RecType pk nm pa cs fz fin abs cks) k (kw :: tk :: eq :: tx ++ ts) rt' k'.
(** ['abstract' | 'final'] *)
Inductive modifier : bool -> bool -> list token -> Prop :=
| mod_none : modifier false false []
| mod_abstract tk : word "abstract" tk -> modifier true false [tk]
| mod_final tk : word "final" tk -> modifier false true [tk].
Inductive extends_part (N : names) : option nat -> list token -> Prop :=
| ep_none : extends_part N None []
| ep_some kw r tk ts : word "extends" kw -> qualified N (N_type (TRec r)) tk ts -> extends_part N (Some r) (kw :: ts).
(** Extensions of final types are final. *)
Inductive starts_final (G : types) : option nat -> bool -> Prop :=
| sfin_none : starts_final G None false
| sfin_some r rt : nth_error (recs G) r = Some rt -> starts_final G (Some r) (r_final rt).
Definition finish (final : bool) (rt : rectype) : rectype :=
  RecType (r_pkg rt) (r_name rt) (r_parent rt) (r_comps rt) (r_frozen rt) (final || r_final rt) (r_abstract rt) (r_checks rt).
Inductive record_decl (v : env) : list token -> env -> Prop :=
| record_declared abs fin tm kw name tn parent te inherited bra rt tb k' ket pkgs :
    modifier abs fin tm -> word "type" kw -> described name tn -> extends_part (names_in v) parent te ->
    starts_final (v_types v) parent inherited -> tk_kind bra = C_BRA -> tk_kind ket = C_KET ->
    entered (v_stab v) (v_pkgs v) p (tok_text name) (N_type (TRec (List.length (recs (v_types v))))) pkgs ->
    body_decl (Env (v_types v) (v_objs v) (v_secs v) (v_stab v) pkgs (v_next v))
      (RecType p (tok_text name) parent [] [] inherited abs []) (v_next v) tb rt k' ->
    record_decl v (tm ++ kw :: tn ++ te ++ bra :: tb ++ [ket])
      (Env (with_rec v (finish fin rt)) (v_objs v) (v_secs v) (v_stab v) pkgs k').

(** ** Check blocks *)

(** The components of a type: own ones first, then those of the types it
    extends. *)
Inductive scope_of (G : types) : ty -> list component -> Prop :=
| so_rec r l : lineage G r l -> scope_of G (TRec r) (flat_map (own_components G) (rev l))
| so_tup u ut : nth_error (tups G) u = Some ut -> scope_of G (TTup u) (u_comps ut).
Inductive severity_part : severity -> list token -> Prop :=
| sv_default : severity_part Sev_error []
| sv_warning tk : word "warning" tk -> severity_part Sev_warning [tk]
| sv_error tk : word "error" tk -> severity_part Sev_error [tk]
| sv_fatal tk : word "fatal" tk -> severity_part Sev_fatal [tk].
(** [',' STRING_details] [',' IDENTIFIER_component_name] *)
Inductive tail_part (cs : list component) : option text -> option text -> list token -> Prop :=
| tl_none : tail_part cs None None []
| tl_details comma tk : tk_kind comma = COMMA -> tk_kind tk = STRING ->
    tail_part cs (Some (tok_text tk)) None [comma; tk]
| tl_anchor comma tk c : tk_kind comma = COMMA -> tk_kind tk = IDENTIFIER -> In c cs -> c_name c = tok_text tk ->
    tail_part cs None (Some (c_name c)) [comma; tk]
| tl_both comma ts comma' tk c : tk_kind comma = COMMA -> tk_kind ts = STRING -> tk_kind comma' = COMMA ->
    tk_kind tk = IDENTIFIER -> In c cs -> c_name c = tok_text tk ->
    tail_part cs (Some (tok_text ts)) (Some (c_name c)) [comma; ts; comma'; tk].
Inductive check_decl (v : env) (a : ty) : check -> list token -> Prop :=
| cd_check cs r te e comma sev tv msg extra anchor ta : scope_of (v_types v) a cs ->
    syn L_expr r te ->
    means file (v_types v) (World (v_objs v) matches) compiles (names_in v)
      [map (fun c => (c_name c, N_comp c)) cs; p_symbols (names_in v) p; v_stab v] r e ->
    wt (v_types v) (World (v_objs v) matches) false (map (fun c => (c_name c, (c_typ c, c_opt c))) cs) e ->
    e_typ e = Some TBool -> tk_kind comma = COMMA -> severity_part sev tv -> tk_kind msg = STRING ->
    (lax = false -> ~ In 10%N (tok_text msg)) ->
    tail_part cs extra anchor ta ->
    check_decl v a (Check sev e anchor (tok_loc file msg) (tok_text msg) extra) (te ++ comma :: tv ++ msg :: ta).
(** A check is added at the end. *)
Inductive checked_type (v : env) (c : check) : ty -> env -> Prop :=
| ct_rec r pk nm pa cs fz fin abs cks l : replaced (recs (v_types v)) r (RecType pk nm pa cs fz fin abs cks)
      (RecType pk nm pa cs fz fin abs (cks ++ [c])) l ->
    checked_type v c (TRec r) (Env (Types l (tups (v_types v)) (enums (v_types v))) (v_objs v) (v_secs v) (v_stab v) (v_pkgs v) (v_next v))
| ct_tup u pk nm cs seps cks l : replaced (tups (v_types v)) u (TupType pk nm cs seps cks) (TupType pk nm cs seps (cks ++ [c])) l ->
    checked_type v c (TTup u) (Env (Types (recs (v_types v)) l (enums (v_types v))) (v_objs v) (v_secs v) (v_stab v) (v_pkgs v) (v_next v)).
Inductive checks_decl (a : ty) : env -> list token -> env -> Prop :=
| cs_none v : checks_decl a v [] v
| cs_more v c tc v1 ts v' : check_decl v a c tc -> checked_type v c a v1 -> checks_decl a v1 ts v' ->
    checks_decl a v (tc ++ ts) v'.
Inductive block_decl (v : env) : list token -> env -> Prop :=
| block_declared kw tk a bra ts v' ket : word "checks" kw -> tk_kind tk = IDENTIFIER ->
    entry (p_symbols (names_in v) p) (tok_text tk) (N_type a) -> tk_kind bra = C_BRA -> tk_kind ket = C_KET ->
    checks_decl a v ts v' -> (exists cs, scope_of (v_types v) a cs) ->
    block_decl v (kw :: tk :: bra :: ts ++ [ket]) v'.

(** ** Files with types *)
Inductive type_item (v : env) : list token -> env -> Prop :=
| ti_enum ts v' : enum_decl v ts v' -> type_item v ts v'
| ti_tuple ts v' : tuple_decl v ts v' -> type_item v ts v'
| ti_record ts v' : record_decl v ts v' -> type_item v ts v'
| ti_block ts v' : block_decl v ts v' -> type_item v ts v'.
Inductive type_items : env -> list token -> env -> Prop :=
| tis_none v : type_items v [] v
| tis_more v ts v1 us v' : type_item v ts v1 -> type_items v1 us v' -> type_items v (ts ++ us) v'.

(** ** Record objects *)

(** What is assigned: component names, with numbers that identify the values *)
Definition given := list (text * field).
(** The components in the order of declaration, inherited ones first *)
Definition components (G : types) (r : nat) (cs : list component) : Prop :=
  exists l, lineage G r l /\ cs = flat_map (own_components G) l.
(** The fields of an object: what is given, else null. *)
Inductive filled (id : nat) (l : loc) (g : given) : list component -> list (text * field) -> Prop :=
| fl_none : filled id l g [] []
| fl_given c cs f fs : In (c_name c, f) g -> filled (S id) l g cs fs -> filled id l g (c :: cs) ((c_name c, f) :: fs)
| fl_null c cs fs : (forall f, ~ In (c_name c, f) g) -> filled (S id) l g cs fs ->
    filled id l g (c :: cs) ((c_name c, (id, XNull l)) :: fs).
(** The assignments; [v] includes the object that they are for, without
    values. *)
Inductive assigns (v : env) (ob : object) (id0 : nat) (cs : list component) : given -> nat -> list token -> given -> nat -> Prop :=
| as_none g k : assigns v ob id0 cs g k [] g k
| as_more g k tk eq c x tx ns ts g' k' fs : tk_kind tk = IDENTIFIER -> tk_kind eq = ASSIGN -> In c cs -> c_name c = tok_text tk ->
    (forall f, ~ In (c_name c, f) g) -> (forall f, ~ freezes (v_types v) (o_typ ob) (c_name c) f) ->
    filled id0 (o_loc ob) g cs fs ->
    value file src (v_types v) (v_objs v ++ [Object (o_pkg ob) (o_name ob) (o_loc ob) (o_typ ob) fs]) (names_in v) lax (c_typ c) x tx ns ->
    (lax = false -> not_separator (v_types v) (c_typ c) ts /\ ns = []) ->
    assigns v ob id0 cs (g ++ [(c_name c, (k, x))]) (S k) ts g' k' ->
    assigns v ob id0 cs g k (tk :: eq :: tx ++ ts) g' k'.
(** The fields at the end: given values, frozen values, null for what is
    optional. *)
Inductive finished (G : types) (r : nat) (id : nat) (l : loc) (g : given) : list component -> list (text * field) -> Prop :=
| fin_none : finished G r id l g [] []
| fin_given c cs f fs : In (c_name c, f) g -> finished G r (S id) l g cs fs -> finished G r id l g (c :: cs) ((c_name c, f) :: fs)
| fin_frozen c cs f fs : (forall f, ~ In (c_name c, f) g) -> freezes G r (c_name c) f -> finished G r (S id) l g cs fs ->
    finished G r id l g (c :: cs) ((c_name c, f) :: fs)
| fin_null c cs fs : (forall f, ~ In (c_name c, f) g) -> (forall f, ~ freezes G r (c_name c) f) -> c_opt c = true ->
    finished G r (S id) l g cs fs -> finished G r id l g (c :: cs) ((c_name c, (id, XNull l)) :: fs).
Inductive object_decl (path : list sect) (v : env) : list token -> env -> Prop :=
| object_declared r rt tk tq name bra cs g ts k' ket fs pkgs :
    qualified (names_in v) (N_type (TRec r)) tk tq -> nth_error (recs (v_types v)) r = Some rt -> r_abstract rt = false ->
    tk_kind name = IDENTIFIER -> tk_kind bra = C_BRA -> tk_kind ket = C_KET -> components (v_types v) r cs ->
    entered (v_stab v) (v_pkgs v) p (tok_text name) (N_obj (List.length (v_objs v))) pkgs ->
    assigns (Env (v_types v) (v_objs v) (v_secs v) (v_stab v) pkgs (v_next v))
      (Object p (tok_text name) (tok_loc file name) r []) (v_next v) cs [] (List.length cs + v_next v) ts g k' ->
    finished (v_types v) r (v_next v) (tok_loc file name) g cs fs ->
    object_decl path v (tq ++ name :: bra :: ts ++ [ket])
      (Env (v_types v) (v_objs v ++ [Object p (tok_text name) (tok_loc file name) r fs]) (v_secs v ++ [path]) (v_stab v) pkgs k').
(** ** Sections and files with objects *)
Inductive object_item : list sect -> env -> list token -> env -> Prop :=
| oi_object path v ts v' : object_decl path v ts v' -> object_item path v ts v'
| oi_section path v kw name bra ts v' ket : word "section" kw -> tk_kind name = STRING -> tk_kind bra = C_BRA ->
    tk_kind ket = C_KET -> object_items (path ++ [(tok_loc file name, tok_text name)]) v ts v' ->
    object_item path v (kw :: name :: bra :: ts ++ [ket]) v'
with object_items : list sect -> env -> list token -> env -> Prop :=
| ois_none path v : object_items path v [] v
| ois_more path v ts v1 us v' : object_item path v ts v1 -> object_items path v1 us v' -> object_items path v (ts ++ us) v'.
End SPEC.
