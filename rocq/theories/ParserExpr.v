(** The expression parser: /repo/trlc/parser.py lines 771-1537.  First the
    semantic actions, which do not touch the token buffer, then the functions
    that read tokens.  Syntax highlighting links ([set_ast_link]) are left
    out; they have no influence on the result. *)
From Verif Require Import Base Lexer SymTab Ast Eval ParserBase.
Open Scope Z_scope.

Section EXPR.
Variable file : Z.
Variable lint : bool.
Variable G : types.
Variable W : world.
(** Whether re.compile accepts a pattern. *)
Variable compiles : text -> bool.
Variable N : names.

Notation loc_of := (tok_loc file).

(** ** Semantic actions *)

Definition unary (l : loc) (typ : option ty) (op : unop) (a : expr) : res perr expr :=
  of_static (mk_unary l typ op a).
Definition binary (l : loc) (typ : option ty) (op : binop) (a b : expr) : res perr expr :=
  of_static (mk_binary G l typ op a b).

(** parser.py:872-914: membership tests without range *)
Definition member_test (l : loc) (x a : expr) : res perr expr :=
  match e_typ a with
  | Some (TStr | TMarkup) => binary l (Some TBool) B_contains x a
  | Some (TArr _ _ _ _) => binary l (Some TBool) B_arrcontains x a
  | Some _ => Err (E_msg (e_loc a) M_membership)
  | None => Crash                                                   (* n_a.typ.name *)
  end.
(** parser.py:875-885 and 915-923 *)
Definition range_test (l : loc) (x a b : expr) : res perr expr := of_static (mk_range l x a b).
Definition negated (tk : option token) (r : expr) : res perr expr :=
  match tk with
  | Some tk => unary (loc_of tk) (Some TBool) U_not r
  | None => Ok r
  end.

(** parser.py:963-966 *)
Definition sum_type (a : expr) : option ty :=
  match e_typ a with Some (TStr | TMarkup) => Some TStr | x => x end.

(** parser.py:1043-1058 *)
Definition power (l : loc) (a b : expr) : res perr expr :=
  do v <- of_eval (evaluate W None b) ;
  do e <- binary l (e_typ a) B_pow a b ;
  match v_val v with
  | None => Crash                                                   (* None < 0 *)
  | Some (p, _) =>
      match as_num p with
      | Some n => if num_lt n (NInt 0) then Err (E_msg (e_loc b) M_exponent) else Ok e
      | None => Crash
      end
  end.

(** What the (qualified) name at the start of a name is good for. *)
Inductive callee := C_fun (f : bfun) | C_int | C_dec.
Inductive head := H_enum (e : nat) | H_call (c : callee) | H_name (n : expr).
Definition callee_of (e : entity) : option callee :=
  match e with
  | N_fun f => Some (C_fun f)
  | N_type TInt => Some C_int
  | N_type TDec => Some C_dec
  | _ => None
  end.

(** parser.py:1387-1397 *)
Definition builtin_name (tk : token) : res perr callee :=
  do e <- e_lookup file (n_stab N) tk None ;
  match callee_of e with
  | Some c => Ok c
  | None => Err (E_msg (loc_of tk) M_not_builtin)
  end.
(** parser.py:1402-1449 *)
Definition classify (e : entity) (tk : token) : res perr head :=
  match e with
  | N_type (TEnum i) => Ok (H_enum i)
  | N_comp c => Ok (H_name (EName (loc_of tk) (c_typ c) (c_name c) false (c_opt c)))
  | N_qv n a => Ok (H_name (EName (loc_of tk) a n true false))
  | _ => match callee_of e with
         | Some c => Ok (H_call c)
         | None => Err (E_msg (loc_of tk) M_not_a_name)
         end
  end.

(** parser.py:1404-1416 *)
Definition enum_literals (i : nat) : list (text * text) :=
  match nth_error (enums G) i with Some en => map (fun n => (n, n)) (en_lits en) | None => [] end.
Definition enum_literal (i : nat) (tk : token) : res perr expr :=
  do n <- t_lookup file (fun _ => N_type (TEnum i)) (enum_literals i) tk None ;
  Ok (ELit (loc_of tk) (LEnum i n)).

(** The components of a record or tuple type in the order of the lookup: the
    table of a record has that of its parent as parent. *)
Fixpoint chain_steps (fuel r : nat) : list component :=
  match rec G r with
  | None => []
  | Some rt =>
      r_comps rt ++ match fuel, r_parent rt with
                    | S f, Some p => chain_steps f p
                    | _, _ => []
                    end
  end.
Definition components_of (a : ty) : list (text * component) :=
  map (fun c => (c_name c, c))
      match a with
      | TRec r => chain_steps r r
      | TTup u => match tup G u with Some ut => u_comps ut | None => [] end
      | _ => []
      end.

(** parser.py:1455-1462 *)
Definition has_fields (a : option ty) : bool :=
  match a with Some (TTup _ | TRec _ | TUnion _ _) => true | _ => false end.
Definition prefix_ok (n : expr) : res perr unit :=
  if has_fields (e_typ n) then Ok tt else Err (E_msg (e_loc n) M_no_fields).
(** parser.py:1469-1519: the new expression and the lint message *)
Definition field_access (n : expr) (tk : token) : res perr (expr * list note) :=
  match e_typ n with
  | Some (TUnion _ ms) =>
      match assoc (tok_text tk) (field_map G ms) with
      | None => Err (E_msg (loc_of tk) M_no_member_field)
      | Some info =>
          match fi_typ info with
          | None => Err (E_msg (loc_of tk) M_conflicting_field)
          | Some _ =>
              let universal := fi_count info =? fi_total info in
              do e <- of_static (mk_field (loc_of tk) (fi_comp info) n true universal) ;
              Ok (e, if lint && negb universal then [Note_lint (loc_of tk) L_partial_field] else [])
          end
      end
  | Some a =>
      do c <- t_lookup file N_comp (components_of a) tk None ;
      do e <- of_static (mk_field (loc_of tk) c n false true) ;
      Ok (e, [])
  | None => Crash
  end.

(** parser.py:1521-1526 *)
Definition array_ok (n : expr) : res perr unit :=
  match e_typ n with
  | Some (TArr _ _ _ _) => Ok tt
  | _ => Err (E_msg (e_loc n) M_not_array)
  end.
(** parser.py:1535-1541 *)
Definition index_access (tk : token) (n i : expr) : res perr expr :=
  match e_typ n with
  | Some (TArr _ _ _ el) => binary (loc_of tk) (Some el) B_index n i
  | _ => Crash
  end.

(** parser.py:1261-1357: a call of a predefined function or conversion *)
Definition call (c : callee) (tk : token) (args : list expr) : res perr expr :=
  let l := loc_of tk in
  match c, args with
  | C_fun F_len, [a] =>
      match e_typ a with
      | Some (TStr | TMarkup) => unary l (Some TInt) U_strlen a
      | _ => unary l (Some TInt) U_arrlen a
      end
  | C_fun F_startswith, [a; b] => binary l (Some TBool) B_starts a b
  | C_fun F_endswith, [a; b] => binary l (Some TBool) B_ends a b
  | C_fun F_matches, [a; b] =>
      do _ <- of_static (ensure_class b is_string) ;
      do v <- of_eval (evaluate W None b) ;
      match v_val v with
      | Some (PStr p, (TStr | TMarkup)) =>
          if compiles p then binary l (Some TBool) B_regex a b else Err (E_msg (v_loc v) M_regex)
      | _ => Crash                                                  (* the assertion *)
      end
  | C_fun F_oneof, _ :: _ => of_static (mk_oneof l args)
  | C_fun F_oneof, [] => Err (E_msg l (M_arity_at_least 1))
  | C_fun F_len, _ => Err (E_msg l (M_arity 1))
  | C_fun _, _ => Err (E_msg l (M_arity 2))
  | (C_int | C_dec), [a] =>
      do _ <- of_static (ensure_class a is_numeric) ;
      unary l (Some match c with C_dec => TDec | _ => TInt end)
            match c with C_dec => U_todec | _ => U_toint end a
  | (C_int | C_dec), _ => Crash                                     (* n_name.arity *)
  end.

(** ** Reading tokens *)

(** [pe] parses an expression; [n] bounds the number of rounds of a loop. *)
Section STEP.
Variable n : nat.
Variable pe : nscope -> P expr.

(** parser.py:1451-1543, the loop; [tk] is the token of the first name *)
Fixpoint selectors (m : nat) (sc : nscope) (e : expr) : P expr :=
  match m with
  | O => pfuel
  | S m' =>
      pcond (peek DOT)
        (let* _ := lift (prefix_ok e) in
         let* _ := p_match file DOT in
         let* tk := p_match file IDENTIFIER in
         let* (e', ns) := lift (field_access e tk) in
         let* _ := (match ns with x :: _ => pnote x | [] => pret tt end) in
         selectors m' sc e')
        (pcond (peek S_BRA)
           (let* _ := lift (array_ok e) in
            let* tk := p_match file S_BRA in
            let* i := pe sc in
            let* _ := p_match file S_KET in
            let* e' := lift (index_access tk e i) in
            selectors m' sc e')
           (pret e))
  end.

(** parser.py:1242-1259: the arguments up to the closing bracket *)
Fixpoint arguments (m : nat) (sc : nscope) : P (list expr) :=
  match m with
  | O => pfuel
  | S m' =>
      pcond (peek KET) (pret [])
        (let* a := pe sc in
         pcond (peek COMMA)
           (let* _ := p_match file COMMA in
            let* args := arguments m' sc in
            pret (a :: args))
           (pret [a]))
  end.
(** parser.py:1234-1357 [parse_builtin] *)
Definition parse_builtin (sc : nscope) (c : callee) (tk : token) : P expr :=
  let* _ := p_match file BRA in
  let* args := arguments n sc in
  let* _ := p_match file KET in
  lift (call c tk args).

(** parser.py:1359-1543 [parse_name] *)
Definition parse_name (sc : nscope) : P expr :=
  let* tk := p_match file IDENTIFIER in
  let* (h, tk) :=
    pcond (peek BRA)
      (let* c := lift (builtin_name tk) in pret (H_call c, tk))
      (let* (e, tk) := qualified_rest file N sc tk None in
       let* h := lift (classify e tk) in pret (h, tk)) in
  match h with
  | H_enum i =>
      let* _ := p_match file DOT in
      let* tk := p_match file IDENTIFIER in
      lift (enum_literal i tk)
  | H_call c => parse_builtin sc c tk
  | H_name e => selectors n sc e
  end.

(** parser.py:1115-1192 [parse_quantified_expression] *)
Definition quantified_source (sc : nscope) (tk : token) : res perr (component * ty) :=
  do e <- s_lookup file sc tk (Some (fun e => match e with N_comp _ => true | _ => false end)) ;
  match e with
  | N_comp c => match c_typ c with
                | TArr _ _ _ el => Ok (c, el)
                | _ => Err (E_msg (loc_of tk) M_quantify)
                end
  | _ => Crash
  end.
Definition fresh_variable (sc : nscope) (tk : token) : res perr unit :=
  if s_contains sc (tok_text tk) then
    do _ <- s_lookup file sc tk None ; Err (E_msg (loc_of tk) M_shadows)
  else Ok tt.
Definition parse_quantified_expression (sc : nscope) : P expr :=
  let* (universal, tq) :=
    pcond (peek_kw (t "forall"))
      (let* tq := p_match_kw file (t "forall") in pret (true, tq))
      (let* tq := p_match_kw file (t "exists") in pret (false, tq)) in
  let* tv := p_match file IDENTIFIER in
  let* _ := lift (fresh_variable sc tv) in
  let* _ := p_match_kw file (t "in") in
  let* ts := p_match file IDENTIFIER in
  let* (c, el) := lift (quantified_source sc ts) in
  let* _ := p_match file ARROW in
  let* body := pe ([(tok_text tv, N_qv (tok_text tv) el)] :: sc) in
  lift (of_static (mk_quant (loc_of tq) universal (tok_text tv) (loc_of ts) c body)).

(** parser.py:1194-1232 [parse_conditional_expression] *)
Definition first_action (cond x : expr) : res perr (expr * expr) :=
  match e_typ x with
  | None => Err (E_msg (e_loc x) M_null)
  | Some _ => of_static (mk_action cond x)
  end.
Fixpoint elsifs (m : nat) (sc : nscope) (typ : option ty) : P (list (expr * expr)) :=
  match m with
  | O => pfuel
  | S m' =>
      pcond (peek_kw (t "elsif"))
        (let* _ := p_match_kw file (t "elsif") in
         let* c := pe sc in
         let* _ := p_match_kw file (t "then") in
         let* x := pe sc in
         let* a := lift (of_static (mk_elsif typ c x)) in
         let* l := elsifs m' sc typ in
         pret (a :: l))
        (pret [])
  end.
Definition parse_conditional_expression (sc : nscope) : P expr :=
  let* ti := p_match_kw file (t "if") in
  let* c := pe sc in
  let* _ := p_match_kw file (t "then") in
  let* x := pe sc in
  let* a := lift (first_action c x) in
  let* l := elsifs n sc (e_typ x) in
  let* _ := p_match_kw file (t "else") in
  let* y := pe sc in
  let* y := lift (of_static (mk_else (e_typ x) y)) in
  pret (ECond (loc_of ti) (a :: l) y).

(** parser.py:1060-1113 [parse_primary] *)
Definition parse_primary (sc : nscope) : P expr :=
  pcond (peek INTEGER)
    (let* tk := p_match file INTEGER in
     match tk_value tk with VInt z => pret (ELit (loc_of tk) (LInt z)) | _ => pcrash end)
  (pcond (peek DECIMAL)
    (let* tk := p_match file DECIMAL in
     match tk_value tk with VDec q => pret (ELit (loc_of tk) (LDec q)) | _ => pcrash end)
  (pcond (peek STRING)
    (let* tk := p_match file STRING in
     match tk_value tk with VText s => pret (ELit (loc_of tk) (LStr s false)) | _ => pcrash end)
  (pcond (fun s => peek_kw (t "true") s || peek_kw (t "false") s)
    (let* tk := p_match file KEYWORD in
     pret (ELit (loc_of tk) (LBool (has_text (t "true") tk))))
  (pcond (peek_kw (t "null"))
    (let* tk := p_match_kw file (t "null") in pret (ENull (loc_of tk)))
  (pcond (peek BRA)
    (let* _ := p_match file BRA in
     let* e := pcond (fun s => peek_kw (t "forall") s || peek_kw (t "exists") s)
                 (parse_quantified_expression sc)
                 (pcond (peek_kw (t "if")) (parse_conditional_expression sc) (pe sc)) in
     let* _ := p_match file KET in
     pret e)
  (parse_name sc)))))).

(** parser.py:1011-1058 [parse_factor] *)
Definition parse_factor (sc : nscope) : P expr :=
  pcond (peek_kw (t "not"))
    (let* tk := p_match_kw file (t "not") in
     let* a := parse_primary sc in
     lift (unary (loc_of tk) (Some TBool) U_not a))
  (pcond (peek_kw (t "abs"))
    (let* tk := p_match_kw file (t "abs") in
     let* a := parse_primary sc in
     lift (unary (loc_of tk) (e_typ a) U_abs a))
  (let* a := parse_primary sc in
   pcond (peek_op (t "**"))
     (let* tk := p_match file OPERATOR in
      let* b := parse_primary sc in
      lift (power (loc_of tk) a b))
     (pret a))).

(** parser.py:985-1009 [parse_term] *)
Definition mul_op (tk : token) : option binop :=
  if is_op (t "*") tk then Some B_times
  else if is_op (t "/") tk then Some B_div
  else if is_op (t "%") tk then Some B_rem
  else None.
Definition some_op (f : token -> option binop) (tk : token) : bool :=
  match f tk with Some _ => true | None => false end.
Definition with_op {A} (o : option A) (k : A -> P expr) : P expr :=
  match o with Some op => k op | None => pcrash end.
Fixpoint term_loop (m : nat) (sc : nscope) (a : expr) : P expr :=
  match m with
  | O => pfuel
  | S m' =>
      pcond (next_is (some_op mul_op))
        (let* tk := p_match file OPERATOR in
         with_op (mul_op tk) (fun op =>
         let* b := parse_factor sc in
         let* e := lift (binary (loc_of tk) (e_typ a) op a b) in
         term_loop m' sc e))
        (pret a)
  end.
Definition parse_term (sc : nscope) : P expr :=
  let* a := parse_factor sc in term_loop n sc a.

(** parser.py:928-983 [parse_simple_expression] *)
Definition add_op (tk : token) : option binop :=
  if is_op (t "+") tk then Some B_plus
  else if is_op (t "-") tk then Some B_minus
  else None.
Definition sign_op (tk : token) : option unop :=
  if is_op (t "+") tk then Some U_plus
  else if is_op (t "-") tk then Some U_minus
  else None.
Fixpoint sum_loop (m : nat) (sc : nscope) (rtyp : option ty) (a : expr) : P expr :=
  match m with
  | O => pfuel
  | S m' =>
      pcond (next_is (some_op add_op))
        (let* tk := p_match file OPERATOR in
         with_op (add_op tk) (fun op =>
         let* b := parse_term sc in
         let* e := lift (binary (loc_of tk) rtyp op a b) in
         sum_loop m' sc rtyp e))
        (pret a)
  end.
Definition is_binary (e : expr) : bool := match e with EBinary _ _ _ _ _ => true | _ => false end.
Definition parse_simple_expression (sc : nscope) : P expr :=
  let* a :=
    pcond (next_is (some_op add_op))
      (let* tk := p_match file OPERATOR in
       with_op (sign_op tk) (fun op =>
       fun s => (let brackets := peek BRA s in
       let* a := parse_term sc in
       let* _ := (if lint && is_binary a && negb brackets
                  then pnote (Note_lint (loc_of tk) L_unary_minus) else pret tt) in
       lift (unary (loc_of tk) (e_typ a) op a)) s))
      (parse_term sc) in
  sum_loop n sc (sum_type a) a.

(** parser.py:838-926 [parse_relation] *)
Definition rel_op (tk : token) : option binop :=
  if is_op (t "==") tk then Some B_eq
  else if is_op (t "!=") tk then Some B_neq
  else if is_op (t "<") tk then Some B_lt
  else if is_op (t "<=") tk then Some B_leq
  else if is_op (t ">") tk then Some B_gt
  else if is_op (t ">=") tk then Some B_geq
  else None.
Definition parse_relation (sc : nscope) : P expr :=
  let* x := parse_simple_expression sc in
  pcond (next_is (some_op rel_op))
    (let* tk := p_match file OPERATOR in
     with_op (rel_op tk) (fun op =>
     let* b := parse_simple_expression sc in
     lift (binary (loc_of tk) (Some TBool) op x b)))
  (pcond (fun s => peek_kw (t "not") s || peek_kw (t "in") s)
    (let* tn := pcond (peek_kw (t "not"))
                  (let* tk := p_match_kw file (t "not") in pret (Some tk)) (pret None) in
     let* ti := p_match_kw file (t "in") in
     let* a := parse_simple_expression sc in
     let* r := pcond (peek RANGE)
                 (let* _ := p_match file RANGE in
                  let* b := parse_simple_expression sc in
                  lift (range_test (loc_of ti) x a b))
                 (lift (member_test (loc_of ti) x a)) in
     lift (negated tn r))
    (pret x)).

(** parser.py:771-836 [parse_expression] *)
Fixpoint logic_loop (m : nat) (w : text) (op : binop) (sc : nscope) (a : expr) : P expr :=
  match m with
  | O => pfuel
  | S m' =>
      pcond (peek_kw w)
        (let* tk := p_match_kw file w in
         let* b := parse_relation sc in
         let* e := lift (binary (loc_of tk) (Some TBool) op a b) in
         logic_loop m' w op sc e)
        (pret a)
  end.
Definition logic_once (w : text) (op : binop) (sc : nscope) (a : expr) : P expr :=
  let* tk := p_match_kw file w in
  let* b := parse_relation sc in
  lift (binary (loc_of tk) (Some TBool) op a b).
Definition expression_step (sc : nscope) : P expr :=
  let* a := parse_relation sc in
  pcond (peek_kw (t "and")) (logic_loop n (t "and") B_and sc a)
  (pcond (peek_kw (t "or")) (logic_loop n (t "or") B_or sc a)
  (pcond (peek_kw (t "xor")) (logic_once (t "xor") B_xor sc a)
  (pcond (peek_kw (t "implies")) (logic_once (t "implies") B_implies sc a)
  (pret a)))).
End STEP.

Fixpoint parse_expression (n : nat) (sc : nscope) : P expr :=
  match n with
  | O => pfuel
  | S n' => expression_step n (parse_expression n') sc
  end.
End EXPR.
