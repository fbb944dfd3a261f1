(** Model of [evaluate], /repo/trlc/ast.py: evaluation of stored values and
    of check expressions.

    Messages are represented by what is wrong and where; their text (which
    prints the expression) is not modelled. *)
From Coq Require Import Qabs.
From Verif Require Import Base PyText Lexer MathModel Ast.
Open Scope Z_scope.

(** ast.py:50-98 [Value]: a location and, unless it is null, a Python value
    with its type (the assertion in line 82 says that one is None exactly if
    the other is). *)
Record val_of (P : Type) := Val { v_loc : loc; v_val : option (P * ty) }.
Arguments Val {P} v_loc v_val.
Arguments v_loc {P} v.
Arguments v_val {P} v.

(** Python values.  A record reference evaluates to a copy of the field
    dictionary of its target (1150). *)
Inductive pval : Type :=
| PInt (z : Z) | PFrac (q : Q) | PStr (s : text) | PBool (b : bool)
| PEnum (e : nat) (name : text)
| PList (vs : list (val_of pval))
| PTup (vs : list (text * val_of pval))
| PRec (fs : list (text * field)).
Definition value := val_of pval.

(** The reasons for reporting an error during evaluation. *)
Inductive problem :=
| P_static_context              (* 1227 *)
| P_null_operand                (* 1343 *)
| P_null_lhs                    (* 1632 *)
| P_null_rhs                    (* 1666 *)
| P_division_by_zero            (* 1765, 1784 *)
| P_index_negative              (* 1805 *)
| P_index_too_big               (* 1811 *)
| P_array_too_small             (* 1817 *)
| P_null_dereference            (* 1895 *)
| P_null_range_lhs | P_null_range_lower | P_null_range_upper    (* 1980, 1987, 1994 *)
| P_null_condition              (* 2196 *)
| P_null_quantified             (* 2302 *)
| P_check_null                  (* 411 *)
(* Python exceptions that well-typed checks can run into *)
| P_index_error                 (* IndexError in 1824 *)
| P_assert_bool                 (* AssertionError in 2313 *)
| P_no_context.                 (* TypeError in 2297 *)
Definition internal (p : problem) : bool :=
  match p with P_index_error | P_assert_bool | P_no_context => true | _ => false end.
Definition error := (loc * problem)%type.
Definition eres := res error.

(** ast.py:70-86 [Value.__init__] with a value that is not None. *)
Definition mk_value (l : loc) (p : pval) (typ : option ty) : eres value :=
  match typ with Some a => Ok (Val l (Some (p, a))) | None => Crash end.
Definition null_value (l : loc) : value := Val l None.

(** ** Python operations on values *)

(** [bool] is a subclass of [int] *)
Inductive num := NInt (z : Z) | NFrac (q : Q).
Definition as_num (p : pval) : option num :=
  match p with
  | PInt z => Some (NInt z)
  | PFrac q => Some (NFrac q)
  | PBool b => Some (NInt (if b then 1 else 0))
  | _ => None
  end.
Definition num_q (n : num) : Q := match n with NInt z => inject_Z z | NFrac q => q end.

(** [==].  [Value.__eq__] compares types and values (88); values stored in
    records are compared by identity; dictionaries must have the same keys
    with equal values.  Comparing a null with another value is never true. *)
Section EQ.
Variable eq : pval -> pval -> bool.
Definition value_eq (a b : value) : bool :=
  match v_val a, v_val b with
  | None, None => true
  | Some (x, tx), Some (y, tb) => ty_eqb tx tb && eq x y
  | _, _ => false
  end.
Fixpoint values_eq (a b : list value) : bool :=
  match a, b with
  | [], [] => true
  | x :: a', y :: b' => value_eq x y && values_eq a' b'
  | _, _ => false
  end.
End EQ.

Definition dict_eq {A} (eq : A -> A -> bool) (a b : list (text * A)) : bool :=
  Nat.eqb (List.length a) (List.length b) &&
  forallb (fun '(k, x) => match assoc k b with Some y => eq x y | None => false end) a.

Fixpoint pval_eq (a b : pval) {struct a} : bool :=
  match a, b with
  | PStr x, PStr y => text_eqb x y
  | PEnum e x, PEnum f y => Nat.eqb e f && text_eqb x y
  | PList xs, PList ys =>
      (fix go (xs ys : list value) : bool :=
         match xs, ys with
         | [], [] => true
         | x :: xs', y :: ys' =>
             match v_val x, v_val y with
             | None, None => true
             | Some (p, tx), Some (q, tq) => ty_eqb tx tq && pval_eq p q
             | _, _ => false
             end && go xs' ys'
         | _, _ => false
         end) xs ys
  | PTup xs, PTup ys =>
      Nat.eqb (List.length xs) (List.length ys) &&
      (fix go (xs : list (text * value)) : bool :=
         match xs with
         | [] => true
         | (k, x) :: xs' =>
             match assoc k ys with
             | Some y => match v_val x, v_val y with
                         | None, None => true
                         | Some (p, tx), Some (q, tq) => ty_eqb tx tq && pval_eq p q
                         | _, _ => false
                         end
             | None => false
             end && go xs'
         end) xs
  | PRec xs, PRec ys => dict_eq (fun x y : field => Nat.eqb (fst x) (fst y)) xs ys
  | _, _ => match as_num a, as_num b with
            | Some x, Some y => Qeq_bool (num_q x) (num_q y)
            | _, _ => false
            end
  end.

Definition opt_eq (a b : option (pval * ty)) : bool :=
  match a, b with
  | None, None => true
  | Some (x, _), Some (y, _) => pval_eq x y
  | _, _ => false
  end.

(** [<]: numbers; strings are never compared by well-typed checks *)
Definition num_lt (x y : num) : bool := negb (Qle_bool (num_q y) (num_q x)).
Definition num_le (x y : num) : bool := Qle_bool (num_q x) (num_q y).
Definition compare (f : num -> num -> bool) (a b : pval) : eres bool :=
  match as_num a, as_num b with
  | Some x, Some y => Ok (f x y)
  | _, _ => Crash
  end.

Definition arith (fz : Z -> Z -> Z) (fq : Q -> Q -> Q) (a b : pval) : eres pval :=
  match as_num a, as_num b with
  | Some (NInt x), Some (NInt y) => Ok (PInt (fz x y))
  | Some x, Some y => Ok (PFrac (fq (num_q x) (num_q y)))
  | _, _ => Crash
  end.

(** [**] of a [Fraction] and an [int]; [int ** int] with a negative exponent
    is a float, which the constructor of [Value] refuses. *)
Definition py_power (a : pval) (n : Z) : eres pval :=
  match as_num a with
  | Some (NInt x) => if n <? 0 then Crash else Ok (PInt (x ^ n))
  | Some (NFrac q) => if (n <? 0) && Qeq_bool q 0 then Crash else Ok (PFrac (Qpower q n))
  | None => Crash
  end.

(** [s in t] for strings *)
Fixpoint is_substring (s u : text) : bool :=
  starts_with s u || match u with [] => false | _ :: u' => is_substring s u' end.


(** Truth value of a Python object *)
Definition truthy (p : pval) : bool :=
  match p with
  | PInt z => negb (z =? 0)
  | PFrac q => negb (Qeq_bool q 0)
  | PStr s => match s with [] => false | _ => true end
  | PBool b => b
  | PEnum _ _ => true
  | PList vs => match vs with [] => false | _ => true end
  | PTup vs => match vs with [] => false | _ => true end
  | PRec fs => match fs with [] => false | _ => true end
  end.

Definition py_bool (p : pval) : eres bool := match p with PBool b => Ok b | _ => Crash end.
Definition py_str (p : pval) : eres text := match p with PStr s => Ok s | _ => Crash end.
Definition py_int (p : pval) : eres Z := match as_num p with Some (NInt z) => Ok z | _ => Crash end.

(** What evaluation needs to know about the world: the record objects and the
    regular expression engine ([re.match(p, s) is not None]; None stands for
    [re.error]). *)
Record world := World { w_objs : list object; w_match : text -> text -> option bool }.

Section EVAL.
Variable W : world.

(** ast.py:1328-1384 [Unary_Expression.evaluate] after its operand.
    [Fraction(s)] of a string is not modelled; the static rules exclude it. *)
Definition eval_unary (l : loc) (typ : option ty) (op : unop) (v : value) : eres value :=
  match v_val v with
  | None => Err (v_loc v, P_null_operand)
  | Some (p, _) =>
      match op with
      | U_minus => match as_num p with
                   | Some (NInt z) => mk_value l (PInt (- z)) typ
                   | Some (NFrac q) => mk_value l (PFrac (- q)) typ
                   | None => Crash
                   end
      | U_plus => match as_num p with
                  | Some (NInt z) => mk_value l (PInt z) typ
                  | Some (NFrac q) => mk_value l (PFrac q) typ
                  | None => Crash
                  end
      | U_not => mk_value l (PBool (negb (truthy p))) typ
      | U_abs => match as_num p with
                 | Some (NInt z) => mk_value l (PInt (Z.abs z)) typ
                 | Some (NFrac q) => mk_value l (PFrac (Qabs q)) typ
                 | None => Crash
                 end
      | U_strlen | U_arrlen =>
          match p with
          | PStr s => mk_value l (PInt (Z.of_nat (List.length s))) typ
          | PList vs => mk_value l (PInt (Z.of_nat (List.length vs))) typ
          | PTup vs => mk_value l (PInt (Z.of_nat (List.length vs))) typ
          | PRec fs => mk_value l (PInt (Z.of_nat (List.length fs))) typ
          | _ => Crash
          end
      | U_toint => match p with
                   | PFrac q => mk_value l (PInt (round_nearest_away q)) typ
                   | _ => mk_value l p typ
                   end
      | U_todec => match as_num p with
                   | Some n => mk_value l (PFrac (num_q n)) typ
                   | None => Crash
                   end
      end
  end.

(** [evaluate] of literals (727, 775, 828, 869, 917) *)
Definition eval_lit (l : loc) (k : lit) : value :=
  Val l (Some (match k with
               | LInt z => PInt z
               | LDec q => PFrac q
               | LStr s _ => PStr s
               | LBool b => PBool b
               | LEnum e n => PEnum e n
               end, lit_typ k)).

(** [evaluate] of the values stored in record objects: ast.py:621, 972,
    1067, 1146, 1328 *)
Fixpoint eval_stored (v : vexpr) : eres value :=
  match v with
  | XNull l => Ok (null_value l)
  | XLit l k _ => Ok (eval_lit l k)
  | XUnary l typ op a => do x <- eval_stored a ; eval_unary l typ op x
  | XArr l typ vs =>
      do xs <- (fix go (vs : list vexpr) : eres (list value) :=
                  match vs with
                  | [] => Ok []
                  | a :: vs' => do x <- eval_stored a ; do xs <- go vs' ; Ok (x :: xs)
                  end) vs ;
      Ok (Val l (Some (PList xs, typ)))
  | XTup l u vs =>
      do xs <- (fix go (vs : list (text * vexpr)) : eres (list (text * value)) :=
                  match vs with
                  | [] => Ok []
                  | (k, a) :: vs' => do x <- eval_stored a ; do xs <- go vs' ; Ok ((k, x) :: xs)
                  end) vs ;
      Ok (Val l (Some (PTup xs, TTup u)))
  | XRef l typ _ _ target =>
      match target with
      | None => Crash                                    (* None has no attribute field *)
      | Some o => match nth_error (w_objs W) o with
                  | Some ob => mk_value l (PRec (o_fields ob)) typ
                  | None => Crash
                  end
      end
  end.

(** ast.py:1614-1825 [Binary_Expression.evaluate]: the operators that
    evaluate both sides, after the tests for null. *)
Definition eval_binary (l : loc) (typ : option ty) (op : binop) (vl vr : value) : eres value :=
  match op with
  | B_eq => mk_value l (PBool (opt_eq (v_val vl) (v_val vr))) typ
  | B_neq => mk_value l (PBool (negb (opt_eq (v_val vl) (v_val vr)))) typ
  | _ =>
      match v_val vl, v_val vr with
      | Some (p, tl), Some (q, _) =>
          match op with
          | B_xor => do x <- py_bool p ; do y <- py_bool q ; mk_value l (PBool (xorb x y)) typ
          | B_lt => do r <- compare num_lt p q ; mk_value l (PBool r) typ
          | B_leq => do r <- compare num_le p q ; mk_value l (PBool r) typ
          | B_gt => do r <- compare num_lt q p ; mk_value l (PBool r) typ
          | B_geq => do r <- compare num_le q p ; mk_value l (PBool r) typ
          | B_contains =>
              do s <- py_str p ; do u <- py_str q ; mk_value l (PBool (is_substring s u)) typ
          | B_starts =>
              do s <- py_str p ; do u <- py_str q ; mk_value l (PBool (starts_with u s)) typ
          | B_ends =>
              do s <- py_str p ; do u <- py_str q ; mk_value l (PBool (ends_with u s)) typ
          | B_regex =>
              do s <- py_str p ; do u <- py_str q ;
              match w_match W u s with
              | Some b => mk_value l (PBool b) typ
              | None => Crash                                          (* re.error *)
              end
          | B_arrcontains =>
              match q with
              | PList vs => mk_value l (PBool (existsb (fun x => value_eq pval_eq x vl) vs)) typ
              | _ => Crash
              end
          | B_plus =>
              match p, q with
              | PStr s, PStr u => mk_value l (PStr (s ++ u)) typ
              | _, _ => do r <- arith Z.add Qplus p q ; mk_value l r typ
              end
          | B_minus => do r <- arith Z.sub Qminus p q ; mk_value l r typ
          | B_times => do r <- arith Z.mul Qmult p q ; mk_value l r typ
          | B_div =>
              match as_num p, as_num q with
              | Some x, Some y =>
                  if Qeq_bool (num_q y) 0 then Err (v_loc vr, P_division_by_zero)
                  else match x, y with
                       | NInt a, NInt b =>
                           match int_divide a b with
                           | Some r => mk_value l (PInt r) typ
                           | None => Crash
                           end
                       | NInt a, NFrac b =>
                           mk_value l (PInt (Qround.Qfloor (inject_Z a / b))) typ
                       | NFrac a, _ => mk_value l (PFrac (a / num_q y)) typ
                       end
              | _, _ => Crash
              end
          | B_rem =>
              do x <- py_int p ; do y <- py_int q ;
              if y =? 0 then Err (v_loc vr, P_division_by_zero)
              else match remainder x y with
                   | Some r => mk_value l (PInt r) typ
                   | None => Crash
                   end
          | B_pow => do n <- py_int q ; do r <- py_power p n ; mk_value l r typ
          | B_index =>
              match p with
              | PList vs =>
                  do n <- py_int q ;
                  if n <? 0 then Err (v_loc vr, P_index_negative)
                  else
                    match tl with
                    | TArr _ _ hi _ =>
                        if match hi with Some h => h <? n | None => false end
                        then Err (v_loc vr, P_index_too_big)
                        else if Z.of_nat (List.length vs) <? n
                        then Err (v_loc vl, P_array_too_small)
                        else match nth_error vs (Z.to_nat n) with
                             | None => Err (l, P_index_error)
                             | Some x => match v_val x with
                                         | Some (y, _) => mk_value l y typ
                                         | None => Crash              (* assertion in Value *)
                                         end
                             end
                    | _ => Crash
                    end
              | _ => Crash
              end
          | _ => Crash
          end
      | _, _ => Crash
      end
  end.

Definition is_eq (op : binop) : bool := match op with B_eq | B_neq => true | _ => false end.

(** The context: None for a static evaluation, otherwise a dictionary of
    stored values. *)
Definition context := option (list (text * vexpr)).

(** [v_choices.count(True)] *)
Definition equals_true (v : value) : bool :=
  match v_val v with Some (p, _) => pval_eq p (PBool true) | None => false end.

Fixpoint evaluate (ctx : context) (e : expr) {struct e} : eres value :=
  match e with
  | ENull l => Ok (null_value l)                                       (* 679 *)
  | ELit l k => Ok (eval_lit l k)
  | EName l _ name _ _ =>                                              (* 1220-1230 *)
      match ctx with
      | None => Err (l, P_static_context)
      | Some d => match assoc name d with
                  | Some v => eval_stored v
                  | None => Crash
                  end
      end
  | EUnary l typ op a => do x <- evaluate ctx a ; eval_unary l typ op x
  | EBinary l typ op a b =>                                            (* 1614-1825 *)
      do vl <- evaluate ctx a ;
      if negb (is_eq op) && match v_val vl with None => true | _ => false end
      then Err (v_loc vl, P_null_lhs)
      else
        let strict :=
          do vr <- evaluate ctx b ;
          if negb (is_eq op) && match v_val vr with None => true | _ => false end
          then Err (v_loc vr, P_null_rhs)
          else eval_binary l typ op vl vr in
        match op, v_val vl with
        | B_and, Some (p, _) => do x <- py_bool p ; if x then evaluate ctx b else Ok vl
        | B_or, Some (p, _) => do x <- py_bool p ; if x then Ok vl else evaluate ctx b
        | B_implies, Some (p, _) =>
            do x <- py_bool p ; if x then evaluate ctx b else mk_value l (PBool true) typ
        | (B_and | B_or | B_implies), None => Crash
        | _, _ => strict
        end
  | EField l c prefix _ _ =>                                           (* 1884-1908 *)
      do vp <- evaluate ctx prefix ;
      match v_val vp with
      | None => Err (e_loc prefix, P_null_dereference)
      | Some (PTup vs, _) => match assoc (c_name c) vs with
                             | Some v => Ok v
                             | None => Ok (null_value l)
                             end
      | Some (PRec fs, _) => match assoc (c_name c) fs with
                             | Some (_, v) => eval_stored v
                             | None => Ok (null_value l)
                             end
      | Some _ => Crash
      end
  | ERange l a lower upper =>                                          (* 1971-2002 *)
      do va <- evaluate ctx a ;
      match v_val va with
      | None => Err (v_loc va, P_null_range_lhs)
      | Some (p, _) =>
          do vlo <- evaluate ctx lower ;
          match v_val vlo with
          | None => Err (v_loc vlo, P_null_range_lower)
          | Some (plo, _) =>
              do vup <- evaluate ctx upper ;
              match v_val vup with
              | None => Err (v_loc vup, P_null_range_upper)
              | Some (pup, _) =>
                  do x <- compare num_le plo p ;
                  if x then do y <- compare num_le p pup ; mk_value l (PBool y) (Some TBool)
                  else mk_value l (PBool false) (Some TBool)
              end
          end
      end
  | EOneof l choices =>                                                (* 2046-2057 *)
      do vs <- (fix go (es : list expr) : eres (list value) :=
                  match es with
                  | [] => Ok []
                  | a :: es' => do x <- evaluate ctx a ; do xs <- go es' ; Ok (x :: xs)
                  end) choices ;
      mk_value l (PBool (Nat.eqb (List.length (filter equals_true vs)) 1)) (Some TBool)
  | ECond l actions els =>                                             (* 2184-2202 *)
      (fix go (acts : list (expr * expr)) : eres value :=
         match acts with
         | [] => evaluate ctx els
         | (c, x) :: acts' =>
             do vc <- evaluate ctx c ;
             match v_val vc with
             | None => Err (v_loc vc, P_null_condition)
             | Some (p, _) => if truthy p then evaluate ctx x else go acts'
             end
         end) actions
  | EQuant l universal var _ src body =>                               (* 2282-2326 *)
      match ctx with
      | None => Err (l, P_no_context)
      | Some d =>
          match assoc (c_name src) d with
          | Some (XNull ln) => Err (ln, P_null_quantified)
          | Some (XArr _ _ vs) =>
              (fix go (vs : list vexpr) : eres value :=
                 match vs with
                 | [] => mk_value l (PBool universal) (Some TBool)
                 | b :: vs' =>
                     do r <- evaluate (Some ((var, b) :: d)) body ;
                     match v_val r with
                     | Some (PBool x, _) =>
                         if universal && negb x then mk_value (x_loc b) (PBool false) (Some TBool)
                         else if negb universal && x
                         then mk_value (x_loc b) (PBool true) (Some TBool)
                         else go vs'
                     | _ => Err (l, P_assert_bool)
                     end
                 end) vs
          | _ => Crash
          end
      end
  end.
End EVAL.
