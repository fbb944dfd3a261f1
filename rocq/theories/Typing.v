(** Static semantics: which stored values belong to a type, and which check
    expressions are accepted in which scope.

    This is a specification, written from the language reference manual and
    independent of the constructors in Ast.v; ExprTyping.v shows that the
    constructors accept nothing else. *)
From Coq Require Import Relations.
From Verif Require Import Base Lexer Ast Eval TypesProofs.
Open Scope Z_scope.

Section TYPING.
Variable G : types.
Variable W : world.

(** Object [ob] may be referenced where [r], or one of [ms], is required. *)
Definition fits_record (ob : object) (r : nat) : Prop := clos_refl_trans nat (extends G) (o_typ ob) r.
Definition fits_union (ob : object) (ms : list nat) : Prop :=
  exists m, In m ms /\ clos_refl_trans nat (extends G) (o_typ ob) m.

(** Values stored in objects after references are resolved. *)
Inductive vt : ty -> vexpr -> Prop :=
| vt_lit l k refs : vt (lit_typ k) (XLit l k refs)
| vt_sign l a op l' k refs : a = TInt \/ a = TDec -> op = U_minus \/ op = U_plus -> lit_typ k = a ->
    vt a (XUnary l (Some a) op (XLit l' k refs))
| vt_arr l i lo hi el vs : (forall v, In v vs -> vt el v) ->
    vt (TArr i lo hi el) (XArr l (TArr i lo hi el) vs)
| vt_tup l u ut vs : nth_error (tups G) u = Some ut ->
    tup_fields (u_comps ut) vs -> vt (TTup u) (XTup l u vs)
| vt_rec l r pkg name o ob : nth_error (w_objs W) o = Some ob -> fits_record ob r ->
    vt (TRec r) (XRef l (Some (TRec r)) pkg name (Some o))
| vt_union l i ms pkg name o ob : nth_error (w_objs W) o = Some ob -> fits_union ob ms ->
    vt (TUnion i ms) (XRef l (Some (TUnion i ms)) pkg name (Some o))
with tup_fields : list component -> list (text * vexpr) -> Prop :=
| tf_nil : tup_fields [] []
| tf_value c cs v vs : vt (c_typ c) v -> tup_fields cs vs -> tup_fields (c :: cs) ((c_name c, v) :: vs)
| tf_null c cs l vs : c_opt c = true -> tup_fields cs vs ->
    tup_fields (c :: cs) ((c_name c, XNull l) :: vs).

(** The content of a component or variable. *)
Definition fits (a : ty) (opt : bool) (v : vexpr) : Prop :=
  vt a v \/ (opt = true /\ exists l, v = XNull l).

(** Record objects that were accepted. *)
Definition wt_object (o : object) : Prop :=
  (o_typ o < List.length (recs G))%nat /\
  (forall c, In c (all_components G (o_typ o)) ->
     exists id v, assoc (c_name c) (o_fields o) = Some (id, v) /\ fits (c_typ c) (c_opt c) v) /\
  (forall k f, assoc k (o_fields o) = Some f ->
     exists c, In c (all_components G (o_typ o)) /\ c_name c = k) /\
  NoDup (map fst (o_fields o)).
Definition wt_world : Prop := forall o ob, nth_error (w_objs W) o = Some ob -> wt_object ob.

(** Scopes: names with their type and whether they may be null. *)
Definition scope := list (text * (ty * bool)).
Definition scope_ok (S : scope) (d : list (text * vexpr)) : Prop :=
  forall n a opt, assoc n S = Some (a, opt) -> exists v, assoc n d = Some v /\ fits a opt v.

(** Operands of an equality. *)
Definition shares_line (la lb : list nat) : Prop :=
  exists x y, In x la /\ In y lb /\
    (clos_refl_trans nat (extends G) x y \/ clos_refl_trans nat (extends G) y x).
Inductive comparable : option ty -> option ty -> Prop :=
| cp_null_l b : comparable None b
| cp_null_r a : comparable a None
| cp_same a : is_union a = false -> comparable (Some a) (Some a)
| cp_union a b la lb : is_union a = true \/ is_union b = true ->
    members a = Some la -> members b = Some lb -> shares_line la lb -> comparable (Some a) (Some b).

(** In all extensions of the members, [k] has type [a].  The parser checks
    this only for the members themselves. *)
Definition coherent (ms : list nat) (k : text) (a : ty) : Prop :=
  forall r c, (r < List.length (recs G))%nat -> (exists m, In m ms /\ clos_refl_trans nat (extends G) r m) ->
    In c (all_components G r) -> c_name c = k -> c_typ c = a.

(** [wt strict S e]: [e] is acceptable in scope [S]; with [strict] unions
    must be coherent. *)
Inductive wt (strict : bool) (S : scope) : expr -> Prop :=
| wt_null l : wt strict S (ENull l)
| wt_lit l k : wt strict S (ELit l k)
| wt_name l a n qv opt : assoc n S = Some (a, opt) -> wt strict S (EName l a n qv opt)
(* unary operators *)
| wt_number l op e a : In op [U_minus; U_plus; U_abs] -> In a [TInt; TDec] ->
    e_typ e = Some a -> wt strict S e -> wt strict S (EUnary l (Some a) op e)
| wt_not l e : e_typ e = Some TBool -> wt strict S e -> wt strict S (EUnary l (Some TBool) U_not e)
| wt_strlen l e a : In a [TStr; TMarkup] -> e_typ e = Some a -> wt strict S e ->
    wt strict S (EUnary l (Some TInt) U_strlen e)
| wt_arrlen l e i lo hi el : e_typ e = Some (TArr i lo hi el) -> wt strict S e ->
    wt strict S (EUnary l (Some TInt) U_arrlen e)
| wt_convert l e a op b : In a [TInt; TDec] -> In (op, b) [(U_toint, TInt); (U_todec, TDec)] ->
    e_typ e = Some a -> wt strict S e -> wt strict S (EUnary l (Some b) op e)
(* binary operators *)
| wt_logic l op a b : In op [B_and; B_or; B_xor; B_implies] ->
    e_typ a = Some TBool -> e_typ b = Some TBool -> wt strict S a -> wt strict S b ->
    wt strict S (EBinary l (Some TBool) op a b)
| wt_equal l op a b : In op [B_eq; B_neq] -> comparable (e_typ a) (e_typ b) ->
    wt strict S a -> wt strict S b -> wt strict S (EBinary l (Some TBool) op a b)
| wt_order l op a b n : In op [B_lt; B_leq; B_gt; B_geq] -> In n [TInt; TDec] ->
    e_typ a = Some n -> e_typ b = Some n -> wt strict S a -> wt strict S b ->
    wt strict S (EBinary l (Some TBool) op a b)
| wt_string l op a b s s' : In op [B_contains; B_starts; B_ends] ->
    In s [TStr; TMarkup] -> In s' [TStr; TMarkup] ->
    e_typ a = Some s -> e_typ b = Some s' -> wt strict S a -> wt strict S b ->
    wt strict S (EBinary l (Some TBool) op a b)
| wt_regex l a b s s' l' p s'' : In s [TStr; TMarkup] -> In s' [TStr; TMarkup] ->
    e_typ a = Some s -> e_typ b = Some s' -> wt strict S a -> wt strict S b ->
    evaluate W None b = Ok (Val l' (Some (PStr p, s''))) -> (forall x, w_match W p x <> None) ->
    wt strict S (EBinary l (Some TBool) B_regex a b)
| wt_member l a b x i lo hi el : e_typ a = Some x -> e_typ b = Some (TArr i lo hi el) ->
    same_class x el = true -> wt strict S a -> wt strict S b ->
    wt strict S (EBinary l (Some TBool) B_arrcontains a b)
| wt_arith l op a b n : In op [B_plus; B_minus; B_times; B_div] -> In n [TInt; TDec] ->
    e_typ a = Some n -> e_typ b = Some n -> wt strict S a -> wt strict S b ->
    wt strict S (EBinary l (Some n) op a b)
| wt_concat l a b s s' : In s [TStr; TMarkup] -> In s' [TStr; TMarkup] ->
    e_typ a = Some s -> e_typ b = Some s' -> wt strict S a -> wt strict S b ->
    wt strict S (EBinary l (Some TStr) B_plus a b)
| wt_rem l a b : e_typ a = Some TInt -> e_typ b = Some TInt -> wt strict S a -> wt strict S b ->
    wt strict S (EBinary l (Some TInt) B_rem a b)
| wt_pow l a b n l' k : In n [TInt; TDec] -> e_typ a = Some n -> e_typ b = Some TInt ->
    wt strict S a -> wt strict S b ->
    evaluate W None b = Ok (Val l' (Some (PInt k, TInt))) -> 0 <= k ->
    wt strict S (EBinary l (Some n) B_pow a b)
| wt_index l a b i lo hi el : e_typ a = Some (TArr i lo hi el) -> e_typ b = Some TInt ->
    wt strict S a -> wt strict S b -> wt strict S (EBinary l (Some el) B_index a b)
(* fields *)
| wt_tup_field l c p u ut un : e_typ p = Some (TTup u) -> nth_error (tups G) u = Some ut ->
    In c (u_comps ut) -> wt strict S p -> wt strict S (EField l c p false un)
| wt_rec_field l c p r un : e_typ p = Some (TRec r) -> In c (own_components G r) -> wt strict S p ->
    wt strict S (EField l c p false un)
| wt_union_field l c p i ms un info : e_typ p = Some (TUnion i ms) ->
    assoc (c_name c) (field_map G ms) = Some info -> fi_typ info = Some (c_typ c) -> fi_comp info = c ->
    un = (fi_count info =? fi_total info) ->
    (strict = true -> coherent ms (c_name c) (c_typ c)) -> wt strict S p ->
    wt strict S (EField l c p true un)
(* the rest *)
| wt_range l a lo hi n : In n [TInt; TDec] -> e_typ a = Some n -> e_typ lo = Some n -> e_typ hi = Some n ->
    wt strict S a -> wt strict S lo -> wt strict S hi -> wt strict S (ERange l a lo hi)
| wt_oneof l es : (forall e, In e es -> e_typ e = Some TBool) -> (forall e, In e es -> wt strict S e) ->
    wt strict S (EOneof l es)
| wt_cond l acts els a : acts <> [] ->
    (forall c x, In (c, x) acts -> e_typ c = Some TBool /\ e_typ x = Some a) -> e_typ els = Some a ->
    (forall c x, In (c, x) acts -> wt strict S c /\ wt strict S x) -> wt strict S els ->
    wt strict S (ECond l acts els)
| wt_quant l un v ls src body i lo hi el opt : c_typ src = TArr i lo hi el ->
    assoc (c_name src) S = Some (c_typ src, opt) ->
    e_typ body = Some TBool -> wt strict ((v, (el, false)) :: S) body ->
    wt strict S (EQuant l un v ls src body).

(** ** Values during evaluation *)
Inductive pt : ty -> pval -> Prop :=
| pt_int z : pt TInt (PInt z)
| pt_dec q : pt TDec (PFrac q)
| pt_str s : pt TStr (PStr s)
| pt_markup s : pt TMarkup (PStr s)
| pt_bool b : pt TBool (PBool b)
| pt_enum e n : pt (TEnum e) (PEnum e n)
| pt_arr i lo hi el vs : (forall v, In v vs -> exists p, v_val v = Some (p, el) /\ pt el p) ->
    pt (TArr i lo hi el) (PList vs)
| pt_tup u ut vs : nth_error (tups G) u = Some ut -> pt_fields (u_comps ut) vs -> pt (TTup u) (PTup vs)
| pt_rec r o ob : nth_error (w_objs W) o = Some ob -> fits_record ob r -> pt (TRec r) (PRec (o_fields ob))
| pt_union i ms o ob : nth_error (w_objs W) o = Some ob -> fits_union ob ms ->
    pt (TUnion i ms) (PRec (o_fields ob))
with pt_fields : list component -> list (text * value) -> Prop :=
| pf_nil : pt_fields [] []
| pf_value c cs v p vs : v_val v = Some (p, c_typ c) -> pt (c_typ c) p -> pt_fields cs vs ->
    pt_fields (c :: cs) ((c_name c, v) :: vs)
| pf_null c cs v vs : c_opt c = true -> v_val v = None -> pt_fields cs vs ->
    pt_fields (c :: cs) ((c_name c, v) :: vs).

(** A value of the static type, or null. *)
Definition of_type (a : option ty) (v : value) : Prop :=
  match v_val v with
  | None => True
  | Some (p, b) => a = Some b /\ pt b p
  end.
End TYPING.
