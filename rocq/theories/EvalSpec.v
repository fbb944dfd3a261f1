(** What check expressions mean, following the language reference manual.
    This file does not mention the evaluator. *)
From Coq Require Import Qabs.
From Verif Require Import Base Lexer MathModel MathProofs Ast Eval TypesProofs.
Open Scope Z_scope.

(** Meanings; null is the [None] of [option sval]. *)
Inductive sval : Type :=
| SInt (z : Z) | SDec (q : Q) | SStr (s : text) | SBool (b : bool)
| SEnum (e : nat) (name : text)
| SArr (xs : list sval)
| STup (xs : list (text * option sval))
| SObj (o : nat).

(** LRM Equality_On_*: null only equals null, tuples and arrays are compared
    by content, references by the object they refer to. *)
Fixpoint same (x y : sval) {struct x} : Prop :=
  match x, y with
  | SInt a, SInt b => a = b
  | SDec a, SDec b => (a == b)%Q
  | SStr a, SStr b => a = b
  | SBool a, SBool b => a = b
  | SEnum e a, SEnum f b => e = f /\ a = b
  | SArr xs, SArr ys =>
      (fix go (xs ys : list sval) : Prop :=
         match xs, ys with
         | [], [] => True
         | x :: xs', y :: ys' => same x y /\ go xs' ys'
         | _, _ => False
         end) xs ys
  | STup xs, STup ys =>
      (fix go (xs ys : list (text * option sval)) : Prop :=
         match xs, ys with
         | [], [] => True
         | (k, x) :: xs', (k', y) :: ys' =>
             k = k' /\
             match x, y with
             | None, None => True
             | Some x, Some y => same x y
             | _, _ => False
             end /\ go xs' ys'
         | _, _ => False
         end) xs ys
  | SObj a, SObj b => a = b
  | _, _ => False
  end.
Definition osame (x y : option sval) : Prop :=
  match x, y with
  | None, None => True
  | Some x, Some y => same x y
  | _, _ => False
  end.

Definition of_lit (k : lit) : sval :=
  match k with
  | LInt z => SInt z
  | LDec q => SDec q
  | LStr s _ => SStr s
  | LBool b => SBool b
  | LEnum e n => SEnum e n
  end.

(** ** Operators on values *)
Inductive op_unary : unop -> sval -> sval -> Prop :=
| ou_minus_int z : op_unary U_minus (SInt z) (SInt (- z))
| ou_minus_dec q : op_unary U_minus (SDec q) (SDec (- q))
| ou_plus_int z : op_unary U_plus (SInt z) (SInt z)
| ou_plus_dec q : op_unary U_plus (SDec q) (SDec q)
| ou_not b : op_unary U_not (SBool b) (SBool (negb b))
| ou_abs_int z : op_unary U_abs (SInt z) (SInt (Z.abs z))
| ou_abs_dec q : op_unary U_abs (SDec q) (SDec (Qabs q))
| ou_strlen s : op_unary U_strlen (SStr s) (SInt (Z.of_nat (List.length s)))
| ou_arrlen xs : op_unary U_arrlen (SArr xs) (SInt (Z.of_nat (List.length xs)))
| ou_toint_int z : op_unary U_toint (SInt z) (SInt z)
| ou_toint_dec q n : nearest_away q n -> op_unary U_toint (SDec q) (SInt n)
| ou_todec_int z : op_unary U_todec (SInt z) (SDec (inject_Z z))
| ou_todec_dec q : op_unary U_todec (SDec q) (SDec q).

(** Order of numbers of the same type. *)
Inductive number : sval -> Q -> Prop :=
| nr_int z : number (SInt z) (inject_Z z)
| nr_dec q : number (SDec q) q.
Definition ordering (op : binop) (x y : Q) : Prop :=
  match op with
  | B_lt => x < y
  | B_leq => x <= y
  | B_gt => y < x
  | B_geq => y <= x
  | _ => False
  end%Q.

Section SEM.
Variable W : world.

(** [a] is the type of the left operand.  An index above the upper bound of
    the array type is an error; arrays within their bounds have no such
    element. *)
Inductive op_binary (a : option ty) : binop -> sval -> sval -> sval -> Prop :=
| ob_xor x y : op_binary a B_xor (SBool x) (SBool y) (SBool (xorb x y))
| ob_order op x y p q r : In op [B_lt; B_leq; B_gt; B_geq] -> number x p -> number y q ->
    (r = true <-> ordering op p q) -> op_binary a op x y (SBool r)
| ob_contains s u r : (r = true <-> exists p q, u = p ++ s ++ q) ->
    op_binary a B_contains (SStr s) (SStr u) (SBool r)
| ob_starts s u r : (r = true <-> exists q, s = u ++ q) -> op_binary a B_starts (SStr s) (SStr u) (SBool r)
| ob_ends s u r : (r = true <-> exists p, s = p ++ u) -> op_binary a B_ends (SStr s) (SStr u) (SBool r)
| ob_regex s p r : w_match W p s = Some r -> op_binary a B_regex (SStr s) (SStr p) (SBool r)
| ob_member x ys r : (r = true <-> exists y, In y ys /\ same y x) ->
    op_binary a B_arrcontains x (SArr ys) (SBool r)
| ob_plus_int x y : op_binary a B_plus (SInt x) (SInt y) (SInt (x + y))
| ob_plus_dec x y : op_binary a B_plus (SDec x) (SDec y) (SDec (x + y))
| ob_plus_str x y : op_binary a B_plus (SStr x) (SStr y) (SStr (x ++ y))
| ob_minus_int x y : op_binary a B_minus (SInt x) (SInt y) (SInt (x - y))
| ob_minus_dec x y : op_binary a B_minus (SDec x) (SDec y) (SDec (x - y))
| ob_times_int x y : op_binary a B_times (SInt x) (SInt y) (SInt (x * y))
| ob_times_dec x y : op_binary a B_times (SDec x) (SDec y) (SDec (x * y))
| ob_div_int x y d : y <> 0 -> is_floor_quotient x y d -> op_binary a B_div (SInt x) (SInt y) (SInt d)
| ob_div_dec x y : ~ (y == 0)%Q -> op_binary a B_div (SDec x) (SDec y) (SDec (x / y))
(* the sign is the one the code uses, see C12 *)
| ob_rem x y r : y <> 0 -> is_remainder x x y r -> op_binary a B_rem (SInt x) (SInt y) (SInt r)
| ob_pow_int x n : 0 <= n -> op_binary a B_pow (SInt x) (SInt n) (SInt (x ^ n))
| ob_pow_dec x n : 0 <= n -> op_binary a B_pow (SDec x) (SInt n) (SDec (Qpower x n))
| ob_index xs n x i lo hi el : a = Some (TArr i lo hi el) ->
    0 <= n -> (forall h, hi = Some h -> n <= h) -> nth_error xs (Z.to_nat n) = Some x ->
    op_binary a B_index (SArr xs) (SInt n) x.

(** ** Stored values *)
Inductive stores : vexpr -> option sval -> Prop :=
| st_null l : stores (XNull l) None
| st_lit l k refs : stores (XLit l k refs) (Some (of_lit k))
| st_sign l a op v x y : stores v (Some x) -> op_unary op x y -> stores (XUnary l a op v) (Some y)
| st_arr l a vs xs : Forall2 (fun v x => stores v (Some x)) vs xs -> stores (XArr l a vs) (Some (SArr xs))
| st_tup l u vs xs : Forall2 (fun v x => fst v = fst x /\ stores (snd v) (snd x)) vs xs ->
    stores (XTup l u vs) (Some (STup xs))
| st_ref l a pkg n o : stores (XRef l a pkg n (Some o)) (Some (SObj o)).

(** ** Expressions.  [d] holds the fields and the quantified variables. *)
Definition strict_op (op : binop) : Prop := ~ In op [B_and; B_or; B_implies; B_eq; B_neq].

Inductive sem : list (text * vexpr) -> expr -> option sval -> Prop :=
| sem_null d l : sem d (ENull l) None
| sem_lit d l k : sem d (ELit l k) (Some (of_lit k))
| sem_name d l a n qv opt v s : assoc n d = Some v -> stores v s -> sem d (EName l a n qv opt) s
| sem_unary d l a op e x y : sem d e (Some x) -> op_unary op x y -> sem d (EUnary l a op e) (Some y)
(* LRM Shortcut_Logical_Operators *)
| sem_and_stop d l a e f : sem d e (Some (SBool false)) -> sem d (EBinary l a B_and e f) (Some (SBool false))
| sem_and_go d l a e f y : sem d e (Some (SBool true)) -> sem d f (Some (SBool y)) ->
    sem d (EBinary l a B_and e f) (Some (SBool y))
| sem_or_stop d l a e f : sem d e (Some (SBool true)) -> sem d (EBinary l a B_or e f) (Some (SBool true))
| sem_or_go d l a e f y : sem d e (Some (SBool false)) -> sem d f (Some (SBool y)) ->
    sem d (EBinary l a B_or e f) (Some (SBool y))
| sem_implies_stop d l a e f : sem d e (Some (SBool false)) ->
    sem d (EBinary l a B_implies e f) (Some (SBool true))
| sem_implies_go d l a e f y : sem d e (Some (SBool true)) -> sem d f (Some (SBool y)) ->
    sem d (EBinary l a B_implies e f) (Some (SBool y))
| sem_eq d l a e f x y r : sem d e x -> sem d f y -> (r = true <-> osame x y) ->
    sem d (EBinary l a B_eq e f) (Some (SBool r))
| sem_neq d l a e f x y r : sem d e x -> sem d f y -> (r = true <-> ~ osame x y) ->
    sem d (EBinary l a B_neq e f) (Some (SBool r))
| sem_binary d l a op e f x y z : strict_op op -> sem d e (Some x) -> sem d f (Some y) ->
    op_binary (e_typ e) op x y z -> sem d (EBinary l a op e f) (Some z)
(* LRM Dereference, Union_Type_Partial_Field_Null *)
| sem_tuple_field d l c p un uv xs s : sem d p (Some (STup xs)) -> assoc (c_name c) xs = Some s ->
    sem d (EField l c p un uv) s
| sem_record_field d l c p un uv o ob id v s : sem d p (Some (SObj o)) -> nth_error (w_objs W) o = Some ob ->
    assoc (c_name c) (o_fields ob) = Some (id, v) -> stores v s -> sem d (EField l c p un uv) s
| sem_union_null d l c p uv o ob : sem d p (Some (SObj o)) -> nth_error (w_objs W) o = Some ob ->
    assoc (c_name c) (o_fields ob) = None -> sem d (EField l c p true uv) None
(* x in a .. b *)
| sem_range d l e lo hi x y z p q r b : sem d e (Some x) -> sem d lo (Some y) -> sem d hi (Some z) ->
    number x p -> number y q -> number z r -> (b = true <-> (q <= p)%Q /\ (p <= r)%Q) ->
    sem d (ERange l e lo hi) (Some (SBool b))
| sem_oneof d l es bs b : Forall2 (fun e x => sem d e (Some (SBool x))) es bs ->
    (b = true <-> exists pre post, bs = pre ++ true :: post /\ ~ In true (pre ++ post)) ->
    sem d (EOneof l es) (Some (SBool b))
| sem_cond_else d l els s : sem d els s -> sem d (ECond l [] els) s
| sem_cond_true d l c x acts els s : sem d c (Some (SBool true)) -> sem d x s ->
    sem d (ECond l ((c, x) :: acts) els) s
| sem_cond_false d l c x acts els s : sem d c (Some (SBool false)) -> sem d (ECond l acts els) s ->
    sem d (ECond l ((c, x) :: acts) els) s
(* the predicate is evaluated in sequence until it decides the result *)
| sem_quant_all d l un var ls src body l' a vs : assoc (c_name src) d = Some (XArr l' a vs) ->
    (forall v, In v vs -> sem ((var, v) :: d) body (Some (SBool un))) ->
    sem d (EQuant l un var ls src body) (Some (SBool un))
| sem_quant_stop d l un var ls src body l' a pre v post :
    assoc (c_name src) d = Some (XArr l' a (pre ++ v :: post)) ->
    (forall v, In v pre -> sem ((var, v) :: d) body (Some (SBool un))) ->
    sem ((var, v) :: d) body (Some (SBool (negb un))) ->
    sem d (EQuant l un var ls src body) (Some (SBool (negb un))).
End SEM.
