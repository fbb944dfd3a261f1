(** Model of the syntax tree, /repo/trlc/ast.py: types, stored values,
    check expressions, record objects, and the functions on types.

    Python objects that are compared by identity carry an identifier: record,
    tuple and enumeration types are indices into the lists of all such types
    (in order of creation), anonymous array and union types carry a number of
    their own, and every value stored in a record object carries one. *)
From Coq Require Export QArith.
From Verif Require Import Base Lexer.
Open Scope Z_scope.

(** errors.py:27 [Location]; here always a range of some file. *)
Record loc := Loc { l_file : Z; l_ref : sref }.

(** ast.py:2399-2748: the classes of types.  A type is compared with another
    by identity ([!=] in [ensure_type], 542), which is equality here. *)
Inductive ty : Type :=
| TInt | TDec | TBool | TStr | TMarkup                    (* 2687-2748 *)
| TEnum (e : nat)                                          (* 3154 *)
| TTup (u : nat)                                           (* 3026 *)
| TRec (r : nat)                                           (* 2887 *)
| TUnion (i : nat) (ms : list nat)                         (* 2581 *)
| TArr (i : nat) (lo : Z) (hi : option Z) (elem : ty).     (* 2492 *)

Definition oz_eqb (a b : option Z) : bool :=
  match a, b with Some x, Some y => x =? y | None, None => true | _, _ => false end.
Fixpoint nats_eqb (a b : list nat) : bool :=
  match a, b with
  | [], [] => true
  | x :: a', y :: b' => Nat.eqb x y && nats_eqb a' b'
  | _, _ => false
  end.
Fixpoint ty_eqb (a b : ty) : bool :=
  match a, b with
  | TInt, TInt | TDec, TDec | TBool, TBool | TStr, TStr | TMarkup, TMarkup => true
  | TEnum x, TEnum y | TTup x, TTup y | TRec x, TRec y => Nat.eqb x y
  | TUnion i x, TUnion j y => Nat.eqb i j && nats_eqb x y
  | TArr i l h x, TArr j l' h' y => Nat.eqb i j && (l =? l') && oz_eqb h h' && ty_eqb x y
  | _, _ => false
  end.

(** [isinstance] tests on types; [Builtin_Markup_String] is a subclass of
    [Builtin_String] (2735). *)
Definition is_numeric (a : ty) : bool := match a with TInt | TDec => true | _ => false end.
Definition is_integer (a : ty) : bool := match a with TInt => true | _ => false end.
Definition is_boolean (a : ty) : bool := match a with TBool => true | _ => false end.
Definition is_string (a : ty) : bool := match a with TStr | TMarkup => true | _ => false end.
Definition is_array (a : ty) : bool := match a with TArr _ _ _ _ => true | _ => false end.
Definition is_union (a : ty) : bool := match a with TUnion _ _ => true | _ => false end.
Definition is_record (a : ty) : bool := match a with TRec _ => true | _ => false end.

(** [isinstance(a, b.__class__)] *)
Definition same_class (a b : ty) : bool :=
  match b, a with
  | TInt, TInt | TDec, TDec | TBool, TBool | TMarkup, TMarkup => true
  | TStr, (TStr | TMarkup) => true
  | TEnum _, TEnum _ | TTup _, TTup _ | TRec _, TRec _ | TUnion _ _, TUnion _ _ => true
  | TArr _ _ _ _, TArr _ _ _ _ => true
  | _, _ => false
  end.

(** ast.py:2835-2884 [Composite_Component]; [member_of] is a record or tuple
    type.  Descriptions are left out. *)
Record component := Comp {
  c_name : text; c_typ : ty; c_opt : bool; c_of : ty
}.

(** ast.py:439-482 *)
Inductive unop :=
| U_minus | U_plus | U_not | U_abs | U_strlen | U_arrlen | U_toint | U_todec.
Inductive binop :=
| B_and | B_or | B_xor | B_implies
| B_eq | B_neq | B_lt | B_leq | B_gt | B_geq
| B_contains | B_starts | B_ends | B_regex | B_arrcontains
| B_plus | B_minus | B_times | B_div | B_rem | B_pow | B_index.

(** ast.py:654-927: the payload of literals.  An enumeration literal
    specification is named by its type and name (literals of one type have
    distinct names). *)
Inductive lit :=
| LInt (z : Z) | LDec (q : Q) | LStr (s : text) (markup : bool) | LBool (b : bool)
| LEnum (e : nat) (name : text).
Definition lit_typ (k : lit) : ty :=
  match k with
  | LInt _ => TInt
  | LDec _ => TDec
  | LStr _ m => if m then TMarkup else TStr
  | LBool _ => TBool
  | LEnum e _ => TEnum e
  end.

(** Values stored in record objects (3247-3255): literals, signed literals,
    array and tuple aggregates, record references and implicit nulls.  The
    package and name of a reference are kept; [target] is filled in when it
    is resolved (1152-1178).  [refs] are the references of a markup string
    (788). *)
Inductive vexpr : Type :=
| XNull (l : loc)                                                     (* 585 *)
| XLit (l : loc) (k : lit) (refs : list vexpr)
| XUnary (l : loc) (ty : option ty) (op : unop) (v : vexpr)           (* 1242 *)
| XArr (l : loc) (ty : ty) (vs : list vexpr)                          (* 930 *)
| XTup (l : loc) (u : nat) (vs : list (text * vexpr))                 (* 997 *)
| XRef (l : loc) (typ : option ty) (pkg : nat) (name : text) (target : option nat).   (* 1094 *)

Definition x_loc (v : vexpr) : loc :=
  match v with
  | XNull l | XLit l _ _ | XUnary l _ _ _ | XArr l _ _ | XTup l _ _ | XRef l _ _ _ _ => l
  end.
Definition x_typ (v : vexpr) : option ty :=
  match v with
  | XNull _ => None
  | XLit _ k _ => Some (lit_typ k)
  | XUnary _ ty _ _ => ty
  | XArr _ ty _ => Some ty
  | XTup _ u _ => Some (TTup u)
  | XRef _ ty _ _ _ => ty
  end.

(** A stored value with its identity. *)
Definition field := (nat * vexpr)%type.

(** Check expressions.  [EName] is a [Name_Reference] (1186) to a component
    ([opt]: its optional flag) or, with [qv], to a quantified variable. *)
Inductive expr : Type :=
| ENull (l : loc)                                                     (* 654 *)
| ELit (l : loc) (k : lit)
| EName (l : loc) (typ : ty) (name : text) (qv : bool) (opt : bool)
| EUnary (l : loc) (typ : option ty) (op : unop) (a : expr)           (* 1242 *)
| EBinary (l : loc) (typ : option ty) (op : binop) (a b : expr)       (* 1402 *)
| EField (l : loc) (c : component) (prefix : expr) (union universal : bool)  (* 1837 *)
| ERange (l : loc) (a lower upper : expr)                             (* 1922 *)
| EOneof (l : loc) (choices : list expr)                              (* 2011 *)
| ECond (l : loc) (actions : list (expr * expr)) (els : expr)         (* 2118 *)
| EQuant (l : loc) (universal : bool) (var : text) (src_loc : loc) (src : component) (body : expr).
                                                                      (* 2219 *)

Definition e_loc (e : expr) : loc :=
  match e with
  | ENull l | ELit l _ | EName l _ _ _ _ | EUnary l _ _ _ | EBinary l _ _ _ _ | EField l _ _ _ _
  | ERange l _ _ _ | EOneof l _ | ECond l _ _ | EQuant l _ _ _ _ _ => l
  end.

(** The attribute [typ] of an expression; for a conditional it is the type
    of its first dependent expression (2146), for the Boolean operations the
    parser passes [Boolean]. *)
Fixpoint e_typ (e : expr) : option ty :=
  match e with
  | ENull _ => None
  | ELit _ k => Some (lit_typ k)
  | EName _ ty _ _ _ => Some ty
  | EUnary _ ty _ _ => ty
  | EBinary _ ty _ _ _ => ty
  | EField _ c _ _ _ => Some (c_typ c)
  | ERange _ _ _ _ | EOneof _ _ | EQuant _ _ _ _ _ _ => Some TBool
  | ECond _ actions _ => match actions with (_, x) :: _ => e_typ x | [] => None end
  end.

(** ast.py:635, 688, 736, 784, 842, 878, 926, 1232, 1395, 1829, 1909, 2002,
    2059, 2204, 2329 [can_be_null] *)
Fixpoint can_be_null (e : expr) : bool :=
  match e with
  | ENull _ => true
  | EName _ _ _ qv opt => if qv then false else opt
  | EField _ _ _ union universal => union && negb universal
  | ECond _ actions els => can_be_null els || existsb (fun '(_, x) => can_be_null x) actions
  | ELit _ _ | EUnary _ _ _ _ | EBinary _ _ _ _ _ | ERange _ _ _ _ | EOneof _ _
  | EQuant _ _ _ _ _ _ => false
  end.

(** ast.py:292-344 [Check] *)
Inductive severity := Sev_warning | Sev_error | Sev_fatal.
Record check := Check {
  ck_sev : severity; ck_expr : expr; ck_anchor : option text;
  ck_loc : loc; ck_msg : text; ck_extra : option text
}.

(** ast.py:2887-2929 [Record_Type]; [r_comps] are the components declared in
    the type itself, in order. *)
Record rectype := RecType {
  r_pkg : nat; r_name : text;
  r_parent : option nat;
  r_comps : list component;
  r_frozen : list (text * field);
  r_final : bool; r_abstract : bool;
  r_checks : list check
}.

(** ast.py:3123-3151 [Separator] *)
Inductive separator := Sep_at | Sep_colon | Sep_semicolon | Sep_word (s : text).

(** ast.py:3026-3076 [Tuple_Type] *)
Record tuptype := TupType {
  u_pkg : nat; u_name : text;
  u_comps : list component; u_seps : list separator; u_checks : list check
}.

(** ast.py:3154-3174 [Enumeration_Type] *)
Record enumtype := EnumType { en_pkg : nat; en_name : text; en_lits : list text }.

(** All types declared so far. *)
Record types := Types { recs : list rectype; tups : list tuptype; enums : list enumtype }.

(** ast.py:3222-3272 [Record_Object] *)
Record object := Object {
  o_pkg : nat; o_name : text; o_loc : loc; o_typ : nat;
  o_fields : list (text * field)
}.

(** Dictionaries *)
Fixpoint assoc {A} (k : text) (d : list (text * A)) : option A :=
  match d with
  | [] => None
  | (k', x) :: d' => if text_eqb k' k then Some x else assoc k d'
  end.

Section TYPES.
Variable G : types.

Definition rec (r : nat) : option rectype := nth_error (recs G) r.
Definition tup (u : nat) : option tuptype := nth_error (tups G) u.

(** The loops below follow [parent]; a parent is created before its
    extension, so the index of the type bounds the number of steps. *)

(** ast.py:2964-2981 [is_subclass_of] *)
Fixpoint subclass_steps (fuel : nat) (ptr target : nat) : bool :=
  if Nat.eqb ptr target then true
  else match fuel with
       | O => false
       | S f => match rec ptr with
                | Some rt => match r_parent rt with
                             | Some p => subclass_steps f p target
                             | None => false
                             end
                | None => false
                end
       end.
Definition is_subclass_of (r target : nat) : bool := subclass_steps r r target.

(** ast.py:2953-2962 [all_components]: inherited ones first *)
Fixpoint all_components_steps (fuel r : nat) : list component :=
  match rec r with
  | None => []
  | Some rt =>
      match r_parent rt with
      | None => r_comps rt
      | Some p => match fuel with
                  | O => []
                  | S f => all_components_steps f p ++ r_comps rt
                  end
      end
  end.
Definition all_components (r : nat) : list component := all_components_steps r r.

(** ast.py:2931-2936 [iter_checks] *)
Fixpoint iter_checks_steps (fuel r : nat) : list check :=
  match rec r with
  | None => []
  | Some rt =>
      match r_parent rt with
      | None => r_checks rt
      | Some p => match fuel with
                  | O => []
                  | S f => iter_checks_steps f p ++ r_checks rt
                  end
      end
  end.
Definition iter_checks (r : nat) : list check := iter_checks_steps r r.

(** ast.py:2983-3019 [is_frozen] and [get_freezing_expression] in one: the
    first frozen value on the way to the root. *)
Fixpoint freezing_steps (fuel r : nat) (name : text) : option field :=
  match rec r with
  | None => None
  | Some rt =>
      match assoc name (r_frozen rt) with
      | Some f => Some f
      | None => match r_parent rt with
                | None => None
                | Some p => match fuel with
                            | O => None
                            | S n => freezing_steps n p name
                            end
                end
      end
  end.
Definition get_freezing (r : nat) (name : text) : option field := freezing_steps r r name.
Definition is_frozen (r : nat) (name : text) : bool :=
  match get_freezing r name with Some _ => true | None => false end.

(** ast.py:2670-2680 [Union_Type.is_compatible] *)
Definition is_compatible (ms : list nat) (r : nat) : bool :=
  existsb (fun m => is_subclass_of r m) ms.

(** ast.py:2606-2656 [Union_Type.get_field_map]; an entry of the map. *)
Record finfo := Finfo {
  fi_comp : component; fi_typ : option ty; fi_count : Z; fi_total : Z; fi_optional : bool
}.

Fixpoint fm_update (m : list (text * finfo)) (k : text) (f : finfo -> finfo) : list (text * finfo) :=
  match m with
  | [] => []
  | (k', x) :: m' => if text_eqb k' k then (k', f x) :: m' else (k', x) :: fm_update m' k f
  end.

Definition fm_add (total : Z) (m : list (text * finfo)) (c : component) : list (text * finfo) :=
  match assoc (c_name c) m with
  | None => m ++ [(c_name c, Finfo c (Some (c_typ c)) 1 total (c_opt c))]
  | Some _ =>
      fm_update m (c_name c) (fun i =>
        Finfo (fi_comp i)
              (match fi_typ i with
               | Some ty => if ty_eqb ty (c_typ c) then Some ty else None
               | None => None
               end)
              (fi_count i + 1) (fi_total i)
              (if c_opt c then true else fi_optional i))
  end.

(** the loop over the components of one member, with [seen_in_type] *)
Fixpoint fm_member (total : Z) (m : list (text * finfo)) (seen : list text) (cs : list component)
  : list (text * finfo) :=
  match cs with
  | [] => m
  | c :: cs' => if existsb (text_eqb (c_name c)) seen then fm_member total m seen cs'
                else fm_member total (fm_add total m c) (c_name c :: seen) cs'
  end.
Definition field_map (ms : list nat) : list (text * finfo) :=
  fold_left (fun m r => fm_member (Z.of_nat (List.length ms)) m [] (all_components r)) ms [].

(** ** Static rules: the constructors of expressions *)

(** What is wrong with an expression, one constructor per message. *)
Inductive static_error :=
| S_null_not_permitted          (* 536 *)
| S_wrong_class                 (* 539 *)
| S_wrong_type                  (* 544 *)
| S_type_mismatch.              (* 1487, 1505, 1512 *)

Definition sres := res (loc * static_error).

(** ast.py:529-546 [ensure_type] with a class ... *)
Definition ensure_class (e : expr) (isinst : ty -> bool) : sres unit :=
  match e_typ e with
  | None => Err (e_loc e, S_null_not_permitted)
  | Some a => if isinst a then Ok tt else Err (e_loc e, S_wrong_class)
  end.
(** ... and with a type; passing the [typ] None of another expression fails
    the assertion in line 533. *)
Definition ensure_type (e : expr) (b : option ty) : sres unit :=
  match b with
  | None => Crash
  | Some b =>
      match e_typ e with
      | None => Err (e_loc e, S_null_not_permitted)
      | Some a => if ty_eqb a b then Ok tt else Err (e_loc e, S_wrong_type)
      end
  end.

(** ast.py:1265-1295 [Unary_Expression.__init__] *)
Definition mk_unary (l : loc) (typ : option ty) (op : unop) (a : expr) : sres expr :=
  do _ <- ensure_class a (match op with
                          | U_minus | U_plus | U_abs | U_toint | U_todec => is_numeric
                          | U_not => is_boolean
                          | U_strlen => is_string
                          | U_arrlen => is_array
                          end) ;
  Ok (EUnary l typ op a).

Definition members (a : ty) : option (list nat) :=
  match a with TRec r => Some [r] | TUnion _ ms => Some ms | _ => None end.
Definition related (a b : list nat) : bool :=
  existsb (fun lm => existsb (fun rm => is_subclass_of lm rm || is_subclass_of rm lm) b) a.

(** ast.py:1445-1566 [Binary_Expression.__init__] *)
Definition mk_binary (l : loc) (typ : option ty) (op : binop) (a b : expr) : sres expr :=
  do _ <-
    match op with
    | B_and | B_or | B_xor | B_implies =>
        do _ <- ensure_class a is_boolean ; ensure_class b is_boolean
    | B_eq | B_neq =>
        match e_typ a, e_typ b with
        | Some ta, Some tb =>
            if is_union ta || is_union tb then
              match members ta, members tb with
              | Some la, Some lb => if related la lb then Ok tt else Err (l, S_type_mismatch)
              | _, _ => Err (l, S_type_mismatch)
              end
            else if ty_eqb ta tb then Ok tt else Err (l, S_type_mismatch)
        | _, _ => Ok tt
        end
    | B_lt | B_leq | B_gt | B_geq =>
        do _ <- ensure_class a is_numeric ; ensure_type b (e_typ a)
    | B_contains | B_starts | B_ends | B_regex =>
        do _ <- ensure_class a is_string ; ensure_class b is_string
    | B_arrcontains =>
        do _ <- ensure_class b is_array ;
        match e_typ b with
        | Some (TArr _ _ _ el) => ensure_class a (fun x => same_class x el)
        | _ => Crash
        end
    | B_plus =>
        match e_typ a with
        | Some (TInt | TDec) => ensure_type b (e_typ a)
        | _ => do _ <- ensure_class a is_string ; ensure_class b is_string
        end
    | B_minus | B_times | B_div =>
        do _ <- ensure_class a is_numeric ; ensure_type b (e_typ a)
    | B_pow => do _ <- ensure_class a is_numeric ; ensure_class b is_integer
    | B_rem => do _ <- ensure_class a is_integer ; ensure_class b is_integer
    | B_index => do _ <- ensure_class a is_array ; ensure_class b is_integer
    end ;
  Ok (EBinary l typ op a b).

(** ast.py:1859-1875 [Field_Access_Expression.__init__] *)
Definition mk_field (l : loc) (c : component) (prefix : expr) (union universal : bool) : sres expr :=
  do _ <- (if union then Ok tt else ensure_type prefix (Some (c_of c))) ;
  Ok (EField l c prefix union universal).

(** ast.py:1943-1956 [Range_Test.__init__] *)
Definition mk_range (l : loc) (a lower upper : expr) : sres expr :=
  do _ <- ensure_class a is_numeric ;
  do _ <- ensure_type lower (e_typ a) ;
  do _ <- ensure_type upper (e_typ a) ;
  Ok (ERange l a lower upper).

(** ast.py:2022-2034 [OneOf_Expression.__init__] *)
Fixpoint ensure_booleans (es : list expr) : sres unit :=
  match es with
  | [] => Ok tt
  | e :: es' => do _ <- ensure_class e is_boolean ; ensure_booleans es'
  end.
Definition mk_oneof (l : loc) (choices : list expr) : sres expr :=
  do _ <- ensure_booleans choices ; Ok (EOneof l choices).

(** ast.py:2089-2103 [Action.__init__], 2142-2169: first action, further
    actions and the else part.  The parser adds the test of
    parser.py:1205-1207. *)
Definition mk_action (cond x : expr) : sres (expr * expr) :=
  do _ <- ensure_class cond is_boolean ; Ok (cond, x).
Definition mk_elsif (typ : option ty) (cond x : expr) : sres (expr * expr) :=
  do act <- mk_action cond x ; do _ <- ensure_type x typ ; Ok act.
Definition mk_else (typ : option ty) (x : expr) : sres expr :=
  do _ <- ensure_type x typ ; Ok x.

(** ast.py:2245-2263 [Quantified_Expression.__init__] *)
Definition mk_quant (l : loc) (universal : bool) (var : text) (src_loc : loc) (src : component)
           (body : expr) : sres expr :=
  do _ <- ensure_class body is_boolean ; Ok (EQuant l universal var src_loc src body).
End TYPES.
