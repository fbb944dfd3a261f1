(** Phrases on which the parser fails with a Python exception instead of an
    error message (see C49).  Only the grammar of ExprSyntax.v is used. *)
From Verif Require Import Base Lexer SymTab Ast Eval ParserBase ExprSyntax.
Open Scope Z_scope.

(** [part x l]: [x] occurs in [l] without gaps. *)
Definition part {A} (x l : list A) : Prop := exists a b, l = a ++ x ++ b.

(** Syntax trees within a syntax tree *)
Inductive within (x : raw) : raw -> Prop :=
| in_here : within x x
| in_index tk sels b i : In (b, Some i) sels -> within x i -> within x (R_name tk sels)
| in_argument pkg tk args a : In a args -> within x a -> within x (R_call pkg tk args)
| in_operand tk op a : within x a -> within x (R_unary tk op a)
| in_left tk op a b : within x a -> within x (R_binary tk op a b)
| in_right tk op a b : within x b -> within x (R_binary tk op a b)
| in_element neg tk a b : within x a -> within x (R_member neg tk a b)
| in_list neg tk a b : within x b -> within x (R_member neg tk a b)
| in_tested neg tk a b c : within x a -> within x (R_range neg tk a b c)
| in_lower neg tk a b c : within x b -> within x (R_range neg tk a b c)
| in_upper neg tk a b c : within x c -> within x (R_range neg tk a b c)
| in_predicate u tq tv ts body : within x body -> within x (R_quant u tq tv ts body)
| in_if tk c y more z : within x c -> within x (R_cond tk c y more z)
| in_then tk c y more z : within x y -> within x (R_cond tk c y more z)
| in_elsif tk c y more z c' y' : In (c', y') more -> within x c' \/ within x y' -> within x (R_cond tk c y more z)
| in_else tk c y more z : within x z -> within x (R_cond tk c y more z).
Definition quantified (r : raw) : Prop := exists u tq tv ts body, within (R_quant u tq tv ts body) r.

(** The phrases: a test whether something is in null; a conversion of not
    exactly one value; an exponent or a regular expression that contains a
    quantifier. *)
Inductive unsafe : raw -> Prop :=
| un_null neg tk x tn : keyword "null" tn -> unsafe (R_member neg tk x (R_lit tn))
| un_convert pkg tk args : In (tok_text tk) [t "Integer"; t "Decimal"] -> List.length args <> 1%nat ->
    unsafe (R_call pkg tk args)
| un_exponent tk a b : quantified b -> unsafe (R_binary tk B_pow a b)
| un_pattern pkg tk a b : tok_text tk = t "matches" -> quantified b -> unsafe (R_call pkg tk [a; b]).

(** A sequence of tokens with such a phrase *)
Definition hazardous (ts : list token) : Prop :=
  exists lv r us, syn lv r us /\ unsafe r /\ part us ts.

(** A file that is cut off: its last token is no closing brace. *)
Definition cut_off (ts : list token) : Prop := exists l tk, ts = l ++ [tk] /\ tk_kind tk <> C_KET.

(** The names that the conversions and the regular expressions have *)
Definition reserved (k : text) (e : entity) : Prop :=
  match e with
  | N_type TInt => k = t "Integer"
  | N_type TDec => k = t "Decimal"
  | N_fun F_matches => k = t "matches"
  | _ => True
  end.
(** The value of a token as its kind says *)
Definition valued (tk : token) : Prop :=
  match tk_kind tk with
  | INTEGER => exists z, tk_value tk = VInt z
  | DECIMAL => exists q, tk_value tk = VDec q
  | STRING | IDENTIFIER | KEYWORD => exists s, tk_value tk = VText s
  | _ => True
  end.
