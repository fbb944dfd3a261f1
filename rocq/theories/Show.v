(** How messages show expressions: the methods [to_string] in
    /repo/trlc/ast.py. *)
From Coq Require Import QArith Qreduction.
From Verif Require Import Base Lexer SymTab Ast Eval Counter.
Open Scope Z_scope.

(** 1298-1303 *)
Definition prefix (op : unop) : option text :=
  match op with
  | U_minus => Some (t "-") | U_plus => Some (t "+") | U_abs => Some (t "abs ") | U_not => Some (t "not ")
  | _ => None
  end.
(** 1304-1309 *)
Definition conversion (op : unop) : text :=
  match op with
  | U_strlen | U_arrlen => t "len" | U_toint => t "Integer" | U_todec => t "Decimal"
  | _ => []
  end.
(** 1571-1590 *)
Definition infix (op : binop) : option text :=
  match op with
  | B_and => Some (t "and") | B_or => Some (t "or") | B_xor => Some (t "xor") | B_implies => Some (t "implies")
  | B_eq => Some (t "==") | B_neq => Some (t "!=") | B_lt => Some (t "<") | B_leq => Some (t "<=")
  | B_gt => Some (t ">") | B_geq => Some (t ">=") | B_contains | B_arrcontains => Some (t "in")
  | B_plus => Some (t "+") | B_minus => Some (t "-") | B_times => Some (t "*") | B_div => Some (t "/")
  | B_rem => Some (t "%") | B_pow => Some (t "**")
  | B_starts | B_ends | B_regex | B_index => None
  end.
(** 1591-1595 *)
Definition string_function (op : binop) : option text :=
  match op with
  | B_starts => Some (t "startswith") | B_ends => Some (t "endswith") | B_regex => Some (t "matches")
  | _ => None
  end.
(** Python's [str] for fractions *)
Definition str_fraction (q : Q) : text :=
  let r := Qred q in
  if QDen r =? 1 then str_int (Qnum r) else str_int (Qnum r) ++ t "/" ++ str_int (QDen r).

Section SHOW.
Variable G : types.

(** 676, 724, 772, 825, 866, 914 *)
Definition show_lit (k : lit) : text :=
  match k with
  | LInt z => str_int z
  | LDec q => str_fraction q
  | LStr s _ => s
  | LBool b => if b then t "True" else t "False"
  | LEnum e n => match nth_error (enums G) e with Some en => en_name en | None => [] end ++ t "." ++ n
  end.
(** 676, 1217, 1297, 1570, 1881, 1958, 2035, 2112, 2177, 2274.  The first
    action of a conditional expression has the kind "if", the others "elsif"
    (parser.py 1199-1222). *)
Fixpoint to_string (e : expr) : text :=
  match e with
  | ENull _ => t "null"
  | ELit _ k => show_lit k
  | EName _ _ n _ _ => n
  | EUnary _ _ op a =>
      match prefix op with
      | Some w => w ++ to_string a
      | None => conversion op ++ t "(" ++ to_string a ++ t ")"
      end
  | EBinary _ _ op a b =>
      match infix op, string_function op with
      | Some w, _ => to_string a ++ t " " ++ w ++ t " " ++ to_string b
      | None, Some f => f ++ t "(" ++ to_string a ++ t ", " ++ to_string b ++ t ")"
      | None, None => to_string a ++ t "[" ++ to_string b ++ t "]"
      end
  | EField _ c p _ _ => to_string p ++ t "." ++ c_name c
  | ERange _ a lo hi => to_string a ++ t " in " ++ to_string lo ++ t " .. " ++ to_string hi
  | EOneof _ es => t "oneof(" ++ join (t ", ") (map to_string es) ++ t ")"
  | ECond _ actions y =>
      let action (kind : text) (p : expr * expr) := kind ++ t " " ++ to_string (fst p) ++ t " then " ++ to_string (snd p) in
      t "(" ++ join (t " ") (match actions with
                             | [] => []
                             | p :: l => action (t "if") p :: map (action (t "elsif")) l
                             end) ++ t " else " ++ to_string y ++ t ")"
  | EQuant _ universal var _ src body =>
      t "(" ++ (if universal then t "forall" else t "exists") ++ t " " ++ var ++ t " in " ++ c_name src ++ t " => " ++ to_string body ++ t ")"
  end.
End SHOW.
