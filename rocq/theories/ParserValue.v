(** Values in record objects and frozen components: /repo/trlc/parser.py
    lines 1674-1884, and the resolution of references, /repo/trlc/ast.py
    lines 1152-1178.  Syntax highlighting links are left out. *)
From Verif Require Import Base Lexer SymTab Ast Eval ParserBase ParserExpr Lint.
From Verif Require Markup.
Open Scope Z_scope.

Section VALUE.
Variable file : Z.
(** The content of the file; markup strings are lexed in it again. *)
Variable src : text.
Variable G : types.
(** The objects declared so far. *)
Variable objs : list object.
Variable N : names.

Notation loc_of := (tok_loc file).

(** parser.py:335 and 1991: [default_scope] *)
Definition default_scope : nscope := [p_symbols N (n_current N); n_stab N].

Definition is_type (e : entity) : bool := match e with N_type _ => true | _ => false end.
Definition is_enum_entity (e : entity) : bool := match e with N_type (TEnum _) => true | _ => false end.
Definition is_record_entity (e : entity) : bool := match e with N_type (TRec _) => true | _ => false end.
Definition is_package (e : entity) : bool := match e with N_pkg _ => true | _ => false end.
Definition is_object (e : entity) : bool := match e with N_obj _ => true | _ => false end.

(** ast.py:3595-3679 [lookup_direct] with [simplified=False] *)
Definition lookup_direct (d : ntable) (name : text) (l : loc) (required : entity -> bool) : res perr entity :=
  match t_find d name with
  | None => Err (E_name l (Unknown_symbol entity))
  | Some (k, a) =>
      if text_eqb k name then
        if required a then Ok a else Err (E_name l (Wrong_class entity a))
      else Err (E_name l (Did_you_mean entity a))
  end.

(** ast.py:1152-1178 [Record_Reference.resolve_references]: the type and
    the target afterwards. *)
Definition resolve_ref (l : loc) (typ : option ty) (pkg : nat) (name : text) : res perr (option ty * option nat) :=
  do e <- lookup_direct (p_symbols N pkg) name l is_object ;
  match e with
  | N_obj o =>
      match nth_error objs o with
      | None => Crash
      | Some ob =>
          match typ with
          | None => Ok (Some (TRec (o_typ ob)), Some o)
          | Some (TUnion i ms) =>
              if is_compatible G ms (o_typ ob) then Ok (typ, Some o) else Err (E_msg l M_reference_type)
          | Some (TRec r) =>
              if is_subclass_of G (o_typ ob) r then Ok (typ, Some o) else Err (E_msg l M_reference_type)
          | Some _ => Crash
          end
      end
  | _ => Crash
  end.

(** parser.py:258-266: the package named in a reference of a markup string *)
Definition markup_package (name : text) : option nat :=
  match t_find (n_stab N) name with
  | Some (k, N_pkg p) => if text_eqb k name then Some p else None
  | _ => None
  end.
Definition markup_visible (name : text) : bool :=
  match markup_package name with Some p => is_visible N p | None => false end.
(** parser.py:1878-1884 [parse_markup_string] after the token *)
Definition markup_ref (m : Markup.mref) : vexpr :=
  XRef (Loc file (Markup.mr_loc m)) None
       match Markup.mr_package m with
       | Some name => match markup_package name with Some p => p | None => n_current N end
       | None => n_current N
       end
       (Markup.mr_name m) None.
Definition markup_literal (tk : token) : res perr vexpr :=
  match Markup.markup_references src (l_ref (loc_of tk)) markup_visible with
  | Ok rs => Ok (XLit (loc_of tk) (LStr (tok_text tk) true) (map markup_ref rs))
  | Err (m, l) =>
      match m with
      | Markup.Bad_package name =>
          match markup_package name with
          | Some _ => hidden N (E_markup (Loc file l) m)
          | None => Err (E_markup (Loc file l) m)
          end
      | _ => Err (E_markup (Loc file l) m)
      end
  | Crash => Crash
  | OutOfFuel => OutOfFuel
  end.

(** A non-fatal error at the last token. *)
Definition note_ct (m : pmsg) : P unit :=
  fun s => match ct (at_ s) with
           | Some tk => pnote (Note_error (E_msg (loc_of tk) m)) s
           | None => PCrash
           end.

(** parser.py:1687-1722 *)
Definition adding (s : ps) : bool := peek_op (t "+") s || peek_op (t "-") s.
Definition parse_number (a : ty) : P vexpr :=
  let* sign := pcond adding (let* tk := p_match file OPERATOR in pret (Some tk)) (pret None) in
  let* lit :=
    match a with
    | TDec => let* tk := p_match file DECIMAL in
              match tk_value tk with VDec q => pret (XLit (loc_of tk) (LDec q) []) | _ => pcrash end
    | _ => let* tk := p_match file INTEGER in
           match tk_value tk with VInt z => pret (XLit (loc_of tk) (LInt z) []) | _ => pcrash end
    end in
  pret match sign with
       | Some tk => XUnary (loc_of tk) (x_typ lit) (if has_text (t "+") tk then U_plus else U_minus) lit
       | None => lit
       end.

(** parser.py:1674-1681 [parse_boolean] *)
Definition parse_boolean : P vexpr :=
  let* tk := p_match file KEYWORD in
  if has_text (t "true") tk then pret (XLit (loc_of tk) (LBool true) [])
  else if has_text (t "false") tk then pret (XLit (loc_of tk) (LBool false) [])
  else perror (E_msg (loc_of tk) M_boolean_literal).

(** parser.py:1775-1789 *)
Definition parse_enum_value (e : nat) : P vexpr :=
  let* (en, tk) := parse_qualified_name file N default_scope (Some is_enum_entity) in
  match en with
  | N_type (TEnum i) =>
      if Nat.eqb i e then
        let* _ := p_match file DOT in
        let* tk := p_match file IDENTIFIER in
        let* n := lift (t_lookup file (fun _ => N_type (TEnum i)) (enum_literals G i) tk None) in
        pret (XLit (loc_of tk) (LEnum i n) [])
      else perror (E_msg (loc_of tk) M_other_enum)
  | _ => pcrash
  end.

(** parser.py:1791-1818 *)
Definition reference_to (a : ty) (tk : token) (pkg : nat) : res perr vexpr :=
  if t_contains (p_symbols N pkg) (tok_text tk) then
    do r <- resolve_ref (loc_of tk) (Some a) pkg (tok_text tk) ;
    Ok (XRef (loc_of tk) (fst r) pkg (tok_text tk) (snd r))
  else Ok (XRef (loc_of tk) (Some a) pkg (tok_text tk) None).
Definition parse_reference (a : ty) : P vexpr :=
  let* tk := p_match file IDENTIFIER in
  pcond (peek DOT)
    (let* _ := p_match file DOT in
     let* tk2 := p_match file IDENTIFIER in
     let* e := lift (e_lookup file (n_stab N) tk (Some is_package)) in
     match e with
     | N_pkg p => if is_visible N p then lift (reference_to a tk2 p)
                  else lift (hidden N (E_msg (loc_of tk2) M_import))
     | _ => pcrash
     end)
    (lift (reference_to a tk (n_current N))).

(** parser.py:1756-1772: the bounds of an array, after the closing bracket *)
Definition array_bounds (tk : token) (lo : Z) (hi : option Z) (vs : list vexpr) : P unit :=
  let n := Z.of_nat (List.length vs) in
  let* _ := if n <? lo then pnote (Note_error (E_msg (loc_of tk) (M_too_few lo n))) else pret tt in
  match hi with
  | Some h =>
      if negb (h =? 0) && (h <? n) then
        match nth_error vs (Z.to_nat h) with
        | Some v => pnote (Note_error (E_msg (x_loc v) (M_too_many h n)))
        | None => pcrash
        end
      else pret tt
  | None => pret tt
  end.

(** parser.py:1826-1848: the tests for a separator *)
Definition is_sep (sp : separator) (tk : token) : bool :=
  match sp with
  | Sep_at => is_kind AT tk
  | Sep_colon => is_kind COLON tk
  | Sep_semicolon => is_kind SEMICOLON tk
  | Sep_word w => is_kind IDENTIFIER tk && has_text w tk
  end.
Definition sep_kind (sp : separator) : kind :=
  match sp with Sep_at => AT | Sep_colon => COLON | Sep_semicolon => SEMICOLON | Sep_word _ => IDENTIFIER end.

(** ast.py:1026-1036 [assign]: the components keep their order. *)
Fixpoint put_field (d : list (text * vexpr)) (k : text) (v : vexpr) : list (text * vexpr) :=
  match d with
  | [] => []
  | (k', v') :: d' => if text_eqb k' k then (k', v) :: d' else (k', v') :: put_field d' k v
  end.
(** ast.py:1019-1024: all fields are null at first *)
Definition null_fields (l : loc) (cs : list component) : list (text * vexpr) :=
  map (fun c => (c_name c, XNull l)) cs.

Section STEP.
(** The recursive call, and a bound on the number of array elements. *)
Variable pv : ty -> P vexpr.
Variable n : nat.

(** parser.py:1742-1754 *)
Fixpoint array_elements (n : nat) (el : ty) : P (list vexpr) :=
  match n with
  | O => pfuel
  | S n' =>
      pcond (peek S_KET) (pret [])
        (let* v := pv el in
         pcond (peek COMMA)
           (let* _ := p_match file COMMA in
            let* vs := array_elements n' el in
            pret (v :: vs))
           (pcond (fun s => peek S_KET s || peek_eof s) (pret [v])
              (let* _ := note_ct M_comma in
               let* vs := array_elements n' el in
               pret (v :: vs))))
  end.

(** parser.py:1824-1851; [skip] is [next_is_optional]. *)
Fixpoint sequence (skip : bool) (is : list item) (d : list (text * vexpr)) : P (list (text * vexpr)) :=
  match is with
  | [] => pret d
  | IComp c :: is' =>
      if skip && c_opt c then pret d
      else let* v := pv (c_typ c) in sequence skip is' (put_field d (c_name c) v)
  | ISep sp :: is' =>
      pcond (next_is (is_sep sp))
        (let* _ := p_match file (sep_kind sp) in sequence skip is' d)
        (sequence true is' d)
  end.

(** parser.py:1861-1869 *)
Fixpoint fields (first : bool) (cs : list component) (d : list (text * vexpr)) : P (list (text * vexpr)) :=
  match cs with
  | [] => pret d
  | c :: cs' =>
      let* _ := if first then pret tt else (let* _ := p_match file COMMA in pret tt) in
      let* v := pv (c_typ c) in
      fields false cs' (put_field d (c_name c) v)
  end.

(** The location of the next token, parser.py:1822 *)
Definition next_loc : P loc :=
  fun s => match nt (at_ s) with Some tk => POk (loc_of tk) s | None => PCrash end.

(** parser.py:1683-1876 [parse_value] *)
Definition value_step (a : ty) : P vexpr :=
  match a with
  | TInt | TDec => parse_number a
  | TMarkup => let* tk := p_match file STRING in lift (markup_literal tk)
  | TStr => let* tk := p_match file STRING in pret (XLit (loc_of tk) (LStr (tok_text tk) false) [])
  | TBool => parse_boolean
  | TArr i lo hi el =>
      let* tk := p_match file S_BRA in
      let* vs := array_elements n el in
      let* tk2 := p_match file S_KET in
      let* _ := array_bounds tk2 lo hi vs in
      pret (XArr (loc_of tk) a vs)
  | TEnum e => parse_enum_value e
  | TRec _ | TUnion _ _ => parse_reference a
  | TTup u =>
      match tup G u with
      | None => pcrash
      | Some ut =>
          match u_seps ut with
          | _ :: _ =>
              let* l := next_loc in
              let* d := sequence false (iter_sequence ut) (null_fields l (u_comps ut)) in
              pret (XTup l u d)
          | [] =>
              let* tk := p_match file BRA in
              let* d := fields true (u_comps ut) (null_fields (loc_of tk) (u_comps ut)) in
              let* _ := p_match file KET in
              pret (XTup (loc_of tk) u d)
          end
      end
  end.
End STEP.

(** [d] bounds the nesting of calls, which follows the type. *)
Fixpoint value_at (d n : nat) (a : ty) : P vexpr :=
  match d with
  | O => pfuel
  | S d' => value_step (value_at d' n) n a
  end.
(** Array types contain no array types, and tuple types only earlier ones. *)
Definition value_depth : nat := S (S (S (List.length (tups G)))).
Definition parse_value (n : nat) (a : ty) : P vexpr := value_at value_depth n a.
End VALUE.
