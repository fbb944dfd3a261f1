(** The syntax of expressions as in the language reference manual (Expression,
    Relation, Simple_Expression, Term, Factor, Primary, Name, ...), as a
    relation between syntax trees and token sequences, and the meaning of a
    syntax tree as an expression of the AST.  This is the specification of the
    parser; it knows nothing about token buffers, lookahead or loops. *)
From Verif Require Import Base Lexer SymTab Ast Eval ParserBase ParserExpr.
Open Scope Z_scope.

(** ** Syntax trees *)

(** Names have selectors: [.field] (a token alone) and [[index]] (the opening
    bracket and the index).  A tree has no brackets around expressions. *)
Inductive raw : Type :=
| R_lit (tk : token)
| R_name (tk : token) (sels : list (token * option raw))
| R_call (pkg : option token) (tk : token) (args : list raw)
| R_unary (tk : token) (op : unop) (a : raw)
| R_binary (tk : token) (op : binop) (a b : raw)
| R_member (neg : option token) (tk : token) (x a : raw)
| R_range (neg : option token) (tk : token) (x a b : raw)
| R_quant (universal : bool) (tq tv ts : token) (body : raw)
| R_cond (tk : token) (c x : raw) (more : list (raw * raw)) (y : raw).

(** ** The grammar *)

Inductive level := L_prim | L_factor | L_term | L_simple | L_rel | L_and | L_or | L_expr.

Definition keyword (w : string) (tk : token) : Prop := tk_kind tk = KEYWORD /\ tk_value tk = VText (t w).
Definition operator (w : string) (tk : token) : Prop := tk_kind tk = OPERATOR /\ tk_value tk = VText (t w).

Inductive literal : token -> Prop :=
| lit_int tk z : tk_kind tk = INTEGER -> tk_value tk = VInt z -> literal tk
| lit_dec tk q : tk_kind tk = DECIMAL -> tk_value tk = VDec q -> literal tk
| lit_str tk s : tk_kind tk = STRING -> tk_value tk = VText s -> literal tk
| lit_true tk : keyword "true" tk -> literal tk
| lit_false tk : keyword "false" tk -> literal tk
| lit_null tk : keyword "null" tk -> literal tk.

Inductive multiplying : token -> binop -> Prop :=
| op_times tk : operator "*" tk -> multiplying tk B_times
| op_div tk : operator "/" tk -> multiplying tk B_div
| op_rem tk : operator "%" tk -> multiplying tk B_rem.
Inductive adding : token -> binop -> Prop :=
| op_plus tk : operator "+" tk -> adding tk B_plus
| op_minus tk : operator "-" tk -> adding tk B_minus.
Inductive sign : token -> unop -> Prop :=
| sign_plus tk : operator "+" tk -> sign tk U_plus
| sign_minus tk : operator "-" tk -> sign tk U_minus.
Inductive comparison : token -> binop -> Prop :=
| op_eq tk : operator "==" tk -> comparison tk B_eq
| op_neq tk : operator "!=" tk -> comparison tk B_neq
| op_lt tk : operator "<" tk -> comparison tk B_lt
| op_leq tk : operator "<=" tk -> comparison tk B_leq
| op_gt tk : operator ">" tk -> comparison tk B_gt
| op_geq tk : operator ">=" tk -> comparison tk B_geq.

Inductive negation : option token -> list token -> Prop :=
| neg_none : negation None []
| neg_some tk : keyword "not" tk -> negation (Some tk) [tk].

Inductive qualifier : option token -> list token -> Prop :=
| qual_none : qualifier None []
| qual_some tk dot : tk_kind tk = IDENTIFIER -> tk_kind dot = DOT -> qualifier (Some tk) [tk; dot].

(** [syn lv r ts]: the tokens [ts] are a phrase of level [lv] for the tree
    [r].  [L_and] and [L_or] are the non-trivial chains of relations. *)
Inductive syn : level -> raw -> list token -> Prop :=
(* expressions *)
| syn_expr_rel r ts : syn L_rel r ts -> syn L_expr r ts
| syn_expr_and r ts : syn L_and r ts -> syn L_expr r ts
| syn_expr_or r ts : syn L_or r ts -> syn L_expr r ts
| syn_expr_xor tk a ta b tb : keyword "xor" tk -> syn L_rel a ta -> syn L_rel b tb ->
    syn L_expr (R_binary tk B_xor a b) (ta ++ tk :: tb)
| syn_expr_implies tk a ta b tb : keyword "implies" tk -> syn L_rel a ta -> syn L_rel b tb ->
    syn L_expr (R_binary tk B_implies a b) (ta ++ tk :: tb)
| syn_and_first tk a ta b tb : keyword "and" tk -> syn L_rel a ta -> syn L_rel b tb ->
    syn L_and (R_binary tk B_and a b) (ta ++ tk :: tb)
| syn_and_next tk a ta b tb : keyword "and" tk -> syn L_and a ta -> syn L_rel b tb ->
    syn L_and (R_binary tk B_and a b) (ta ++ tk :: tb)
| syn_or_first tk a ta b tb : keyword "or" tk -> syn L_rel a ta -> syn L_rel b tb ->
    syn L_or (R_binary tk B_or a b) (ta ++ tk :: tb)
| syn_or_next tk a ta b tb : keyword "or" tk -> syn L_or a ta -> syn L_rel b tb ->
    syn L_or (R_binary tk B_or a b) (ta ++ tk :: tb)
(* relations *)
| syn_rel_simple r ts : syn L_simple r ts -> syn L_rel r ts
| syn_rel_compare tk op a ta b tb : comparison tk op -> syn L_simple a ta -> syn L_simple b tb ->
    syn L_rel (R_binary tk op a b) (ta ++ tk :: tb)
| syn_rel_member neg tn tk x tx a ta : negation neg tn -> keyword "in" tk ->
    syn L_simple x tx -> syn L_simple a ta ->
    syn L_rel (R_member neg tk x a) (tx ++ tn ++ tk :: ta)
| syn_rel_range neg tn tk x tx a ta dots b tb : negation neg tn -> keyword "in" tk -> tk_kind dots = RANGE ->
    syn L_simple x tx -> syn L_simple a ta -> syn L_simple b tb ->
    syn L_rel (R_range neg tk x a b) (tx ++ tn ++ tk :: ta ++ dots :: tb)
(* simple expressions *)
| syn_simple_term r ts : syn L_term r ts -> syn L_simple r ts
| syn_simple_sign tk op a ta : sign tk op -> syn L_term a ta -> syn L_simple (R_unary tk op a) (tk :: ta)
| syn_simple_add tk op a ta b tb : adding tk op -> syn L_simple a ta -> syn L_term b tb ->
    syn L_simple (R_binary tk op a b) (ta ++ tk :: tb)
(* terms *)
| syn_term_factor r ts : syn L_factor r ts -> syn L_term r ts
| syn_term_mul tk op a ta b tb : multiplying tk op -> syn L_term a ta -> syn L_factor b tb ->
    syn L_term (R_binary tk op a b) (ta ++ tk :: tb)
(* factors *)
| syn_factor_prim r ts : syn L_prim r ts -> syn L_factor r ts
| syn_factor_power tk a ta b tb : operator "**" tk -> syn L_prim a ta -> syn L_prim b tb ->
    syn L_factor (R_binary tk B_pow a b) (ta ++ tk :: tb)
| syn_factor_not tk a ta : keyword "not" tk -> syn L_prim a ta -> syn L_factor (R_unary tk U_not a) (tk :: ta)
| syn_factor_abs tk a ta : keyword "abs" tk -> syn L_prim a ta -> syn L_factor (R_unary tk U_abs a) (tk :: ta)
(* primaries *)
| syn_literal tk : literal tk -> syn L_prim (R_lit tk) [tk]
| syn_brackets bra r ts ket : tk_kind bra = BRA -> tk_kind ket = KET -> syn L_expr r ts ->
    syn L_prim r (bra :: ts ++ [ket])
| syn_name tk sels ts : tk_kind tk = IDENTIFIER -> syn_sels sels ts -> syn L_prim (R_name tk sels) (tk :: ts)
| syn_call pkg tp tk bra args ta ket : qualifier pkg tp -> tk_kind tk = IDENTIFIER ->
    tk_kind bra = BRA -> tk_kind ket = KET -> syn_args args ta ->
    syn L_prim (R_call pkg tk args) (tp ++ tk :: bra :: ta ++ [ket])
| syn_quant bra universal tq tv tin ts tar body tb ket : tk_kind bra = BRA -> tk_kind ket = KET ->
    keyword (if universal : bool then "forall" else "exists")%string tq -> tk_kind tv = IDENTIFIER ->
    keyword "in" tin -> tk_kind ts = IDENTIFIER -> tk_kind tar = ARROW -> syn L_expr body tb ->
    syn L_prim (R_quant universal tq tv ts body) (bra :: tq :: tv :: tin :: ts :: tar :: tb ++ [ket])
| syn_cond bra tk c tc th x tx more tm el y ty ket : tk_kind bra = BRA -> tk_kind ket = KET ->
    keyword "if" tk -> keyword "then" th -> keyword "else" el ->
    syn L_expr c tc -> syn L_expr x tx -> syn_more more tm -> syn L_expr y ty ->
    syn L_prim (R_cond tk c x more y) (bra :: tk :: tc ++ th :: tx ++ tm ++ el :: ty ++ [ket])
with syn_sels : list (token * option raw) -> list token -> Prop :=
| sels_nil : syn_sels [] []
| sels_field dot tk l ts : tk_kind dot = DOT -> tk_kind tk = IDENTIFIER -> syn_sels l ts ->
    syn_sels ((tk, None) :: l) (dot :: tk :: ts)
| sels_index bra r tr ket l ts : tk_kind bra = S_BRA -> tk_kind ket = S_KET -> syn L_expr r tr -> syn_sels l ts ->
    syn_sels ((bra, Some r) :: l) (bra :: tr ++ ket :: ts)
with syn_args : list raw -> list token -> Prop :=
| args_nil : syn_args [] []
| args_last r tr : syn L_expr r tr -> syn_args [r] tr
| args_comma r tr comma l ts : tk_kind comma = COMMA -> syn L_expr r tr -> syn_args l ts ->
    syn_args (r :: l) (tr ++ comma :: ts)
with syn_more : list (raw * raw) -> list token -> Prop :=
| more_nil : syn_more [] []
| more_elsif tk c tc th x tx l ts : keyword "elsif" tk -> keyword "then" th ->
    syn L_expr c tc -> syn L_expr x tx -> syn_more l ts ->
    syn_more ((c, x) :: l) (tk :: tc ++ th :: tx ++ ts).

Scheme syn_mut := Minimality for syn Sort Prop
  with syn_sels_mut := Minimality for syn_sels Sort Prop
  with syn_args_mut := Minimality for syn_args Sort Prop
  with syn_more_mut := Minimality for syn_more Sort Prop.
Combined Scheme syn_ind4 from syn_mut, syn_sels_mut, syn_args_mut, syn_more_mut.

(** ** Meaning of a syntax tree *)

Section ELAB.
Variable file : Z.
Variable lint : bool.
Variable G : types.
Variable W : world.
Variable compiles : text -> bool.
Variable N : names.
Notation loc_of := (tok_loc file).

Definition bad {A} : res perr A := Err (E_expected None DOT).

Definition literal_meaning (tk : token) : expr :=
  let l := loc_of tk in
  match tk_kind tk, tk_value tk with
  | INTEGER, VInt z => ELit l (LInt z)
  | DECIMAL, VDec q => ELit l (LDec q)
  | STRING, VText s => ELit l (LStr s false)
  | KEYWORD, VText w => if text_eqb w (t "true") then ELit l (LBool true)
                        else if text_eqb w (t "false") then ELit l (LBool false)
                        else ENull l
  | _, _ => ENull l
  end.

(** The type given to the result of an operator. *)
Definition result_type (op : binop) (a : expr) : option ty :=
  match op with
  | B_plus | B_minus => sum_type a
  | B_times | B_div | B_rem | B_pow => e_typ a
  | _ => Some TBool
  end.
Definition unary_type (op : unop) (a : expr) : option ty :=
  match op with U_not => Some TBool | _ => e_typ a end.

(** Selectors with the meaning of their indices. *)
Definition selector := (token * option (res perr expr))%type.

(** A name with an optional qualifier: what it denotes, the token that names
    it and what is left of the selectors. *)
Definition resolve (sc : nscope) (tk : token) (sels : list selector)
  : res perr (entity * token * list selector) :=
  do sym <- s_lookup file sc tk None ;
  match sym with
  | N_pkg p => if is_visible N p then
                 match sels with
                 | (tk2, None) :: sels' => do e <- e_lookup file (p_symbols N p) tk2 None ; Ok (e, tk2, sels')
                 | _ => bad
                 end
               else hidden N (E_msg (loc_of tk) M_import)
  | _ => Ok (sym, tk, sels)
  end.

Fixpoint select (e : expr) (l : list selector) : res perr expr :=
  match l with
  | [] => Ok e
  | (tk, None) :: l' =>
      do _ <- prefix_ok e ;
      do x <- field_access file lint G e tk ;
      select (fst x) l'
  | (tk, Some r) :: l' =>
      do _ <- array_ok e ;
      do i <- r ;
      do e' <- index_access file G tk e i ;
      select e' l'
  end.

(** A whole name: an enumeration literal, or a component or quantified
    variable with selectors. *)
Definition name_meaning (sc : nscope) (tk : token) (sels : list selector) : res perr expr :=
  do x <- resolve sc tk sels ;
  let '(e, tk, sels) := x in
  do h <- classify file e tk ;
  match h, sels with
  | H_enum i, [(tk, None)] => enum_literal file G i tk
  | H_name e, _ => select e sels
  | _, _ => bad
  end.

Definition callee_meaning (sc : nscope) (pkg : option token) (tk : token) : res perr callee :=
  match pkg with
  | None => builtin_name file N tk
  | Some tp =>
      do x <- resolve sc tp [(tk, None)] ;
      let '(e, tk, sels) := x in
      do h <- classify file e tk ;
      match h, sels with H_call c, [] => Ok c | _, _ => bad end
  end.

Fixpoint all_of {A} (l : list (res perr A)) : res perr (list A) :=
  match l with
  | [] => Ok []
  | r :: l' => do a <- r ; do l <- all_of l' ; Ok (a :: l)
  end.

Definition elsif_meaning (typ : option ty) (cx : res perr expr * res perr expr) : res perr (expr * expr) :=
  do c <- fst cx ; do x <- snd cx ; of_static (mk_elsif typ c x).

Fixpoint elab (sc : nscope) (r : raw) {struct r} : res perr expr :=
  match r with
  | R_lit tk => Ok (literal_meaning tk)
  | R_name tk sels =>
      name_meaning sc tk (map (fun s => (fst s, match snd s with Some i => Some (elab sc i) | None => None end)) sels)
  | R_call pkg tk args =>
      do c <- callee_meaning sc pkg tk ;
      do es <- all_of (map (elab sc) args) ;
      call file G W compiles c tk es
  | R_unary tk op a =>
      do x <- elab sc a ;
      unary (loc_of tk) (unary_type op x) op x
  | R_binary tk op a b =>
      do x <- elab sc a ;
      do y <- elab sc b ;
      match op with
      | B_pow => power G W (loc_of tk) x y
      | _ => binary G (loc_of tk) (result_type op x) op x y
      end
  | R_member neg tk x a =>
      do x <- elab sc x ;
      do a <- elab sc a ;
      do e <- member_test G (loc_of tk) x a ;
      negated file neg e
  | R_range neg tk x a b =>
      do x <- elab sc x ;
      do a <- elab sc a ;
      do b <- elab sc b ;
      do e <- range_test (loc_of tk) x a b ;
      negated file neg e
  | R_quant universal tq tv ts body =>
      do _ <- fresh_variable file sc tv ;
      do s <- quantified_source file sc ts ;
      do b <- elab ([(tok_text tv, N_qv (tok_text tv) (snd s))] :: sc) body ;
      of_static (mk_quant (loc_of tq) universal (tok_text tv) (loc_of ts) (fst s) b)
  | R_cond tk c x more y =>
      do c <- elab sc c ;
      do x <- elab sc x ;
      do a <- first_action c x ;
      do l <- all_of (map (elsif_meaning (e_typ x)) (map (fun p => (elab sc (fst p), elab sc (snd p))) more)) ;
      do y <- elab sc y ;
      do y <- of_static (mk_else (e_typ x) y) ;
      Ok (ECond (loc_of tk) (a :: l) y)
  end.
End ELAB.
