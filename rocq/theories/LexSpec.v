(** Declarative lexical grammar of TRLC as implemented: which texts are
    tokens, what they denote, and where a position is.  Nothing here refers
    to the lexer model; only token kinds and values are shared. *)
From Coq Require Import QArith.
From Verif Require Import Base Lexer.
Open Scope N_scope.

(** ** Positions *)

Definition newline : char := 10.

(** [line] / [col] of position [p] (0-based) in [content]: the lines before
    are counted by their newline characters, the column is one plus the
    length of the current line up to [p]. *)
Definition located (content : text) (p : nat) (line col : Z) : Prop :=
  exists before cur,
    firstn p content = before ++ cur /\
    ~ In newline cur /\
    (before = [] \/ exists b, before = b ++ [newline]) /\
    line = (1 + Z.of_nat (count_occ N.eq_dec before newline))%Z /\
    col = (1 + Z.of_nat (List.length cur))%Z.

(** ** Character classes *)

Definition letter (c : char) : Prop := 97 <= c <= 122 \/ 65 <= c <= 90.
Definition digit (c : char) : Prop := 48 <= c <= 57.
Definition hex_letter (c : char) : Prop := 97 <= c <= 102 \/ 65 <= c <= 70.
Definition ident_char (c : char) : Prop := letter c \/ digit c \/ c = 95.

(** White space: the code points Python's [str.isspace] accepts. *)
Definition white (c : char) : Prop :=
  9 <= c <= 13 \/ 28 <= c <= 32 \/
  In c [133; 160; 5760; 8232; 8233; 8239; 8287; 12288] \/ 8192 <= c <= 8202.

Definition reserved : list text :=
  map t ["abs"; "abstract"; "and"; "checks"; "else"; "elsif"; "enum"; "error";
         "exists"; "extends"; "false"; "fatal"; "final"; "forall"; "freeze"; "if";
         "implies"; "import"; "in"; "not"; "null"; "optional"; "or"; "package";
         "section"; "separator"; "then"; "true"; "tuple"; "type"; "warning";
         "xor"]%string.

(** ** Shapes of tokens

    [contains p s]: [p] occurs in [s]. *)
Definition contains (p s : text) : Prop := exists x y, s = x ++ p ++ y.

(** [first_end p s]: [s] ends with [p], and that is the only occurrence of
    [p] in [s] *)
Definition first_end (p s : text) : Prop :=
  (exists x, s = x ++ p) /\ forall x y, s = x ++ p ++ y -> y = [].

(** Digit groups separated by single underscores. *)
Inductive digit_groups (f : char -> Prop) : text -> Prop :=
| dg_one c : f c -> digit_groups f [c]
| dg_more c r : f c -> digit_groups f r -> digit_groups f (c :: r)
| dg_under c r : f c -> digit_groups f r -> digit_groups f (c :: 95 :: r).

(** What may follow a number: nothing that could continue it. *)
Definition number_ends (f : char -> Prop) (after : text) : Prop :=
  match after with
  | [] => True
  | c :: after' => ~ f c /\ c <> 95 /\ (c = 46 -> exists r, after' = 46 :: r)
  end.

Definition binary (c : char) : Prop := c = 48 \/ c = 49.
Definition hexadecimal (c : char) : Prop := digit c \/ hex_letter c.

(** The inside of a double-quoted string: no newline, each quote is escaped,
    and the closing quote (which follows) is not. *)
Definition string_body (body : text) : Prop :=
  ~ In newline body /\
  (forall x y, body = x ++ 34 :: y -> exists x', x = x' ++ [92]) /\
  (forall x, body <> x ++ [92]).

Inductive delimiter : text -> kind -> Prop :=
| del_bra : delimiter (t "(") BRA
| del_ket : delimiter (t ")") KET
| del_cbra : delimiter (t "{") C_BRA
| del_cket : delimiter (t "}") C_KET
| del_sbra : delimiter (t "[") S_BRA
| del_sket : delimiter (t "]") S_KET
| del_comma : delimiter (t ",") COMMA
| del_at : delimiter (t "@") AT
| del_colon : delimiter (t ":") COLON
| del_semi : delimiter (t ";") SEMICOLON
| del_div : delimiter (t "/") OPERATOR
| del_mod : delimiter (t "%") OPERATOR
| del_plus : delimiter (t "+") OPERATOR
| del_minus : delimiter (t "-") OPERATOR
| del_arrow : delimiter (t "=>") ARROW
| del_eq : delimiter (t "==") OPERATOR
| del_assign : delimiter (t "=") ASSIGN
| del_range : delimiter (t "..") RANGE
| del_dot : delimiter (t ".") DOT
| del_le : delimiter (t "<=") OPERATOR
| del_lt : delimiter (t "<") OPERATOR
| del_ge : delimiter (t ">=") OPERATOR
| del_gt : delimiter (t ">") OPERATOR
| del_neq : delimiter (t "!=") OPERATOR
| del_pow : delimiter (t "**") OPERATOR
| del_mul : delimiter (t "*") OPERATOR.

(** Maximal munch: [d] is read although [d] plus the next character might be
    a delimiter (or a comment opening) too - forbidden. *)
Definition longest_delimiter (d after : text) : Prop :=
  match after with
  | [] => True
  | c :: _ => (forall k, ~ delimiter (d ++ [c]) k) /\
              d ++ [c] <> t "//" /\ d ++ [c] <> t "/*"
  end.

(** [lexeme txt after k]: [txt], followed by [after], is a token of kind [k]. *)
Inductive lexeme : text -> text -> kind -> Prop :=
| lx_line_comment body after :
    ~ In newline body ->
    after = [] \/ (exists r, after = newline :: r) ->
    lexeme (t "//" ++ body) after COMMENT
| lx_block_comment body after :
    (* the opening asterisk may serve as the closing one: see C10 *)
    first_end (t "*/") (t "*" ++ body) ->
    lexeme (t "/*" ++ body) after COMMENT
| lx_block_comment_eof body :
    ~ contains (t "*/") (t "*" ++ body) ->
    lexeme (t "/*" ++ body) [] COMMENT
| lx_word c r after k :
    letter c -> Forall ident_char r ->
    (match after with [] => True | d :: _ => ~ ident_char d end) ->
    (k = KEYWORD /\ In (c :: r) reserved \/ k = IDENTIFIER /\ ~ In (c :: r) reserved) ->
    lexeme (c :: r) after k
| lx_delimiter d after k :
    delimiter d k -> longest_delimiter d after -> lexeme d after k
| lx_string body after :
    string_body body ->
    ~ (body = [] /\ exists r, after = 34 :: r) ->
    lexeme (t """" ++ body ++ t """") after STRING
| lx_triple q body after :
    q = 34 \/ q = 39 ->
    first_end [q; q; q] body ->
    after <> [] ->                                   (* see C08 *)
    lexeme ([q; q; q] ++ body) after STRING
| lx_binary r after :
    digit_groups binary r -> number_ends hexadecimal after ->
    lexeme (t "0b" ++ r) after INTEGER
| lx_hex r after :
    digit_groups hexadecimal r -> number_ends hexadecimal after ->
    lexeme (t "0x" ++ r) after INTEGER
| lx_integer r after :
    digit_groups digit r -> number_ends hexadecimal after ->
    ~ (r = t "0" /\ exists x a, after = x :: a /\ (x = 98 \/ x = 120)) ->
    lexeme r after INTEGER
| lx_decimal r1 r2 after :
    digit_groups digit r1 -> digit_groups digit r2 -> number_ends hexadecimal after ->
    lexeme (r1 ++ t "." ++ r2) after DECIMAL.

(** ** Segmentation: the whole file as white space and tokens

    [segmented off rest ts]: [rest] starts at offset [off] of the file and
    consists of exactly the tokens [ts] separated by white space. *)
Inductive segmented (off : Z) : text -> list token -> Prop :=
| seg_end rest : Forall white rest -> segmented off rest []
| seg_token ws txt after tk ts :
    Forall white ws ->
    lexeme txt after (tk_kind tk) ->
    tk_start tk = (off + Z.of_nat (List.length ws))%Z ->
    tk_end tk = (tk_start tk + Z.of_nat (List.length txt) - 1)%Z ->
    segmented (tk_end tk + 1) after ts ->
    segmented off (ws ++ txt ++ after) (tk :: ts).

(** [tokens_then off rest ts left]: the tokens [ts] are read from [rest], and
    [left] is what follows them. *)
Inductive tokens_then (off : Z) : text -> list token -> text -> Prop :=
| tt_none rest : tokens_then off rest [] rest
| tt_token ws txt after tk ts left :
    Forall white ws ->
    lexeme txt after (tk_kind tk) ->
    tk_start tk = (off + Z.of_nat (List.length ws))%Z ->
    tk_end tk = (tk_start tk + Z.of_nat (List.length txt) - 1)%Z ->
    tokens_then (tk_end tk + 1) after ts left ->
    tokens_then off (ws ++ txt ++ after) (tk :: ts) left.

(** The source text of a token. *)
Definition source_text (content : text) (tk : token) : text :=
  firstn (Z.to_nat (tk_end tk - tk_start tk + 1)) (skipn (Z.to_nat (tk_start tk)) content).

(** ** What tokens denote *)

(** [trimmed s r]: [r] is [s] without surrounding white space. *)
Definition trimmed (s r : text) : Prop :=
  exists a b, s = a ++ r ++ b /\ Forall white a /\ Forall white b /\
              (forall c r', r = c :: r' -> ~ white c) /\
              (forall c r', r = r' ++ [c] -> ~ white c).

(** Replace each backslash-quote pair by a quote. *)
Inductive unescaped : text -> text -> Prop :=
| ue_nil : unescaped [] []
| ue_pair s r : unescaped s r -> unescaped (92 :: 34 :: s) (34 :: r)
| ue_char c s r : ~ (c = 92 /\ exists s', s = 34 :: s') ->
                  unescaped s r -> unescaped (c :: s) (c :: r).

(** Positional value of digits, most significant first; underscores do not
    count. *)
Inductive digit_val : char -> Z -> Prop :=
| dv_09 n : (0 <= n <= 9)%Z -> digit_val (Z.to_N (48 + n)) n
| dv_af n : (10 <= n <= 15)%Z -> digit_val (Z.to_N (97 + (n - 10))) n
| dv_AF n : (10 <= n <= 15)%Z -> digit_val (Z.to_N (65 + (n - 10))) n.

Inductive positional (base : Z) : text -> nat -> Z -> Prop :=
| pos_nil : positional base [] 0 0
| pos_under s n v : positional base s n v -> positional base (95 :: s) n v
| pos_digit c d s n v :
    digit_val c d -> (d < base)%Z -> positional base s n v ->
    positional base (c :: s) (S n) (d * base ^ Z.of_nat n + v).

Inductive int_denotes : text -> Z -> Prop :=
| id_binary r n v : positional 2 r n v -> int_denotes (t "0b" ++ r) v
| id_hex r n v : positional 16 r n v -> int_denotes (t "0x" ++ r) v
| id_dec r n v : positional 10 r n v -> int_denotes r v.

(** [i.f] is the integer part plus the fraction digits over a power of 10 *)
Inductive dec_denotes : text -> Q -> Prop :=
| dec_intro r1 r2 n1 v1 n2 v2 q :
    positional 10 r1 n1 v1 -> positional 10 r2 n2 v2 ->
    (q == inject_Z v1 + inject_Z v2 / inject_Z (10 ^ Z.of_nat n2))%Q ->
    dec_denotes (r1 ++ t "." ++ r2) q.

(** *** Lines and triple-quoted strings *)

(** Characters that end a line for Python's [str.splitlines]. *)
Definition line_end (c : char) : Prop :=
  10 <= c <= 13 \/ 28 <= c <= 30 \/ c = 133 \/ c = 8232 \/ c = 8233.

(** [lines s ls]: [ls] are the lines of [s] without their ends; a carriage
    return followed by a line feed is one end, and a last empty line does not
    count. *)
Inductive lines : text -> list text -> Prop :=
| ln_empty : lines [] []
| ln_last s : s <> [] -> Forall (fun c => ~ line_end c) s -> lines s [s]
| ln_crlf s rest ls :
    Forall (fun c => ~ line_end c) s -> lines rest ls ->
    lines (s ++ 13 :: 10 :: rest) (s :: ls)
| ln_end s c rest ls :
    Forall (fun c => ~ line_end c) s -> line_end c ->
    ~ (c = 13 /\ exists r, rest = 10 :: r) -> lines rest ls ->
    lines (s ++ c :: rest) (s :: ls).

(** [r] is [s] without trailing white space. *)
Definition trimmed_right (s r : text) : Prop :=
  exists b, s = r ++ b /\ Forall white b /\ (forall c r', r = r' ++ [c] -> ~ white c).

Definition blank_or_tab (c : char) : Prop := c = 32 \/ c = 9.

(** [p] is the longest common prefix of blanks and tabs of the lines that are
    not entirely white. *)
Definition common_indent (ls : list text) (p : text) : Prop :=
  Forall blank_or_tab p /\
  (forall l, In l ls -> ~ Forall white l -> exists l', l = p ++ l') /\
  (forall p', Forall blank_or_tab p' ->
     (forall l, In l ls -> ~ Forall white l -> exists l', l = p' ++ l') ->
     (List.length p' <= List.length p)%nat).

(** A continuation line after dedenting and trimming. *)
Definition dedented (p l r : text) : Prop :=
  (Forall white l /\ r = []) \/
  (~ Forall white l /\ exists l', l = p ++ l' /\ trimmed_right l' r).

(** [triple_value body v]: the value of a triple-quoted string with [body]
    between its quotes. *)
Inductive triple_value : text -> text -> Prop :=
| tv_empty body : Forall white body -> triple_value body []
| tv_one body s : trimmed body s -> lines s [s] -> triple_value body s
| tv_many body s first more p rs :
    trimmed body s -> lines s (first :: more) -> more <> [] ->
    common_indent more p -> Forall2 (dedented p) more rs ->
    triple_value body (first ++ concat (map (fun r => newline :: r) rs)).

(** ** The value of a token, by its text *)

Inductive token_denotes : text -> kind -> value -> Prop :=
| td_word txt k : k = IDENTIFIER \/ k = KEYWORD -> token_denotes txt k (VText txt)
| td_operator txt : token_denotes txt OPERATOR (VText txt)
| td_delimiter txt k : delimiter txt k -> k <> OPERATOR -> token_denotes txt k VNone
| td_integer txt v : int_denotes txt v -> token_denotes txt INTEGER (VInt v)
| td_decimal txt q : dec_denotes txt q -> token_denotes txt DECIMAL (VDec q)
| td_string body v : unescaped body v ->
    token_denotes (t """" ++ body ++ t """") STRING (VText v)
| td_triple q body v : q = 34 \/ q = 39 -> triple_value body v ->
    token_denotes ([q; q; q] ++ body ++ [q; q; q]) STRING (VText v)
| td_line_comment body v : trimmed body v -> token_denotes (t "//" ++ body) COMMENT (VText v)
| td_block_comment body v :
    trimmed body v -> token_denotes (t "/*" ++ body ++ t "*/") COMMENT (VText v)
| td_block_comment_open body v :
    trimmed body v -> (forall b, body <> b ++ t "*/") ->
    token_denotes (t "/*" ++ body) COMMENT (VText v).
