(** Model of /repo/trlc/lexer.py. *)
From Coq Require Import QArith.
From Verif Require Import Base PyText.
Open Scope Z_scope.

(** ** Character classes *)

(** /repo/trlc/lexer.py:200-203 [is_alpha] *)
Definition is_alpha (c : char) : bool :=
  ((97 <=? c) && (c <=? 122) || (65 <=? c) && (c <=? 90))%N.
(** /repo/trlc/lexer.py:205-209 [is_numeric] *)
Definition is_numeric (c : char) : bool := ((48 <=? c) && (c <=? 57))%N.
(** /repo/trlc/lexer.py:211-214 [is_alnum] *)
Definition is_alnum (c : char) : bool := is_alpha c || is_numeric c.

(** ** Tokens *)

(** /repo/trlc/lexer.py:134-156 [Token.KIND] plus the "$EOF"-free kinds. *)
Inductive kind :=
| COMMENT | IDENTIFIER | KEYWORD | BRA | KET | S_BRA | S_KET | C_BRA | C_KET
| COMMA | AT | SEMICOLON | COLON | DOT | RANGE | ASSIGN | OPERATOR | ARROW
| INTEGER | DECIMAL | STRING.

Definition kind_eq_dec (a b : kind) : {a = b} + {a <> b}.
Proof. decide equality. Defined.

(** /repo/trlc/lexer.py:158-170: the value of a token. *)
Inductive value :=
| VNone
| VText (s : text)
| VInt (z : Z)
| VDec (q : Q).

(** /repo/trlc/lexer.py:69-83, 124-131: a token with its source range. *)
Record token := Token {
  tk_kind  : kind;
  tk_value : value;
  tk_line  : Z;
  tk_col   : Z;
  tk_start : Z;
  tk_end   : Z
}.

(** Lexical errors, one constructor per message in [TRLC_Lexer.token]. *)
Inductive lex_msg :=
| Malformed_neq                 (* lexer.py:397 *)
| Unterminated_triple           (* lexer.py:422, 474 *)
| Unterminated_string           (* lexer.py:431 *)
| Newline_in_string             (* lexer.py:440 *)
| Malformed_triple              (* lexer.py:457 *)
| Invalid_digit                 (* lexer.py:516 *)
| Digit_required                (* lexer.py:526 *)
| Point_not_allowed             (* lexer.py:551 *)
| Unfinished_number             (* lexer.py:571 *)
| Unexpected_char.              (* lexer.py:580 *)

(** A source range as built by [Source_Reference.__init__]. *)
Record sref := Sref { sr_line : Z; sr_col : Z; sr_start : Z; sr_end : Z }.

Record lex_error := LexError { le_msg : lex_msg; le_loc : sref }.

(** ** Lexer state *)

(** /repo/trlc/lexer.py:181-198 [Lexer_Base.__init__] *)
Record lstate := LState {
  lexpos  : Z;
  line_no : Z;
  col_no  : Z;
  cc      : option char;
  nc      : option char;
  nnc     : option char
}.

Definition ceq (o : option char) (c : char) : bool :=
  match o with Some d => N.eqb d c | None => false end.
Arguments ceq o c%N.

Section LEXER.
Variable content : text.

Definition len : Z := Z.of_nat (List.length content).

(** [self.content[i]], only used with [0 <= i < length]. *)
Definition content_at (i : Z) : option char := nth_error content (Z.to_nat i).

(** /repo/trlc/lexer.py:230-241 [advance] *)
Definition advance (s : lstate) : lstate :=
  let lexpos' := lexpos s + 1 in
  let newline := ceq (cc s) 10%N || (lexpos' =? 0) in
  let line' := if newline then line_no s + 1 else line_no s in
  let col0 := if newline then 0 else col_no s in
  let col' := match nc s with Some _ => col0 + 1 | None => col0 end in
  {| lexpos := lexpos'; line_no := line'; col_no := col';
     cc := nc s; nc := nnc s;
     nnc := if lexpos' + 2 <? len then content_at (lexpos' + 2) else None |}.

(** /repo/trlc/lexer.py:189-198: the state after construction. *)
Definition init : lstate :=
  advance (advance {| lexpos := -3; line_no := 0; col_no := 0;
                      cc := None; nc := None; nnc := None |}).

(** Every [while] loop of the lexer consumes one character per round, so
    this much fuel is never exhausted (see [LexerProofs]). *)
Definition fuel : nat := S (S (S (List.length content))).

(** [while p(): self.advance()] *)
Fixpoint while_adv (n : nat) (p : lstate -> bool) (s : lstate) : option lstate :=
  match n with
  | O => None
  | S n' => if p s then while_adv n' p (advance s) else Some s
  end.

(** /repo/trlc/lexer.py:224-228 [skip_whitespace] *)
Definition skip_whitespace (s : lstate) : option lstate :=
  match while_adv fuel
          (fun s => match nc s with Some c => is_space c | None => false end) s with
  | Some s' => Some (advance s')
  | None => None
  end.

(** /repo/trlc/lexer.py:69-83: the assertion in [Source_Reference.__init__]
    becomes [None] (an AssertionError). *)
Definition mk_sref (line col start stop : Z) : option sref :=
  if (0 <=? start) && (start <=? stop) && (stop <? len)
  then Some {| sr_line := line; sr_col := col; sr_start := start; sr_end := stop |}
  else None.

(** /repo/trlc/lexer.py:85-86 [Source_Reference.text] *)
Definition slice (start stop : Z) : text :=
  firstn (Z.to_nat (stop + 1 - start)) (skipn (Z.to_nat start) content).

(** Outcome of one call of [token]. *)
Inductive lres :=
| LTok (tk : token)
| LEnd
| LErr (e : lex_error)
| LCrash
| LFuel.

Definition raise (m : lex_msg) (o : option sref) : lres :=
  match o with
  | Some r => LErr {| le_msg := m; le_loc := r |}
  | None => LCrash
  end.

(** /repo/trlc/lexer.py:412-430 and 465-482: the loop over the contents of a
    triple-quoted string; [q] is the quote character.  Python checks for the
    end of the file after counting. *)
Fixpoint triple_loop (n : nat) (q : char) (quotes_seen : nat) (s : lstate)
  : lstate * option bool :=                 (* Some true: done, Some false: error *)
  match n with
  | O => (s, None)
  | S n' =>
      if (3 <=? quotes_seen)%nat then (s, Some true)
      else
        let s' := advance s in
        let seen := if ceq (cc s') q then S quotes_seen else O in
        match nc s' with
        | None => (s', Some false)
        | Some _ => triple_loop n' q seen s'
        end
  end.

(** /repo/trlc/lexer.py:432-453: the loop over a double-quoted string. *)
Fixpoint string_loop (n : nat) (s : lstate) : lstate * option (option lex_msg) :=
  match n with
  | O => (s, None)
  | S n' =>
      if ceq (nc s) 34 then (s, Some None)
      else
        match nc s with
        | None => (s, Some (Some Unterminated_string))
        | Some c =>
            if (c =? 10)%N then (s, Some (Some Newline_in_string))
            else
              let s1 := advance s in
              let s2 := if ceq (cc s1) 92 && ceq (nc s1) 34 then advance s1 else s1 in
              string_loop n' s2
        end
  end.

(** Number parsing, /repo/trlc/lexer.py:484-579. *)
Record numcfg := NumCfg {
  allowed   : char -> bool;
  forbidden : char -> bool;
  int_base  : Z
}.

Definition is_09 (c : char) : bool := is_numeric c.
Definition is_af (c : char) : bool :=
  ((97 <=? c) && (c <=? 102) || (65 <=? c) && (c <=? 70))%N.
Definition is_01 (c : char) : bool := ((c =? 48) || (c =? 49))%N.

(** lexer.py:490-509 *)
Definition cfg2  := {| allowed := is_01;
                       forbidden := fun c => (is_09 c && negb (is_01 c)) || is_af c;
                       int_base := 2 |}.
Definition cfg16 := {| allowed := fun c => is_09 c || is_af c;
                       forbidden := fun _ => false;
                       int_base := 16 |}.
Definition cfg10 := {| allowed := is_09; forbidden := is_af; int_base := 10 |}.

(** How the [while self.nc] loop (lexer.py:511-568) can end.  The variables
    are the ones of the Python loop; [dec] is [kind == "DECIMAL"]. *)
Inductive numres :=
| NumDone (require_digit dec : bool)
| NumErr (m : lex_msg) (start : Z)
| NumFuel.

Fixpoint num_loop (n : nat) (cfg : numcfg) (require_digit decimal_allowed dec : bool)
         (s : lstate) : lstate * numres :=
  match n with
  | O => (s, NumFuel)
  | S n' =>
      match nc s with
      | None => (s, NumDone require_digit dec)
      | Some c =>
          if allowed cfg c then
            num_loop n' cfg false decimal_allowed dec (advance s)
          else if forbidden cfg c then (s, NumErr Invalid_digit (lexpos s + 1))
          else if require_digit then (s, NumErr Digit_required (lexpos s + 1))
          else if (c =? 95)%N then
            num_loop n' cfg true decimal_allowed dec (advance s)
          else if (c =? 46)%N && ceq (nnc s) 46 then (s, NumDone require_digit dec)
          else if (c =? 46)%N then
            let s' := advance s in
            if decimal_allowed
            then num_loop n' cfg true false true s'
            else (s', NumErr Point_not_allowed (lexpos s'))
          else (s, NumDone require_digit dec)
      end
  end.

(** /repo/trlc/lexer.py:245-278 [KEYWORDS] *)
Definition keywords : list text :=
  map t ["abs"; "abstract"; "and"; "checks"; "else"; "elsif"; "enum"; "error";
         "exists"; "extends"; "false"; "fatal"; "final"; "forall"; "freeze"; "if";
         "implies"; "import"; "in"; "not"; "null"; "optional"; "or"; "package";
         "section"; "separator"; "then"; "true"; "tuple"; "type"; "warning";
         "xor"]%string.

Definition is_keyword (s : text) : bool := existsb (text_eqb s) keywords.

(** /repo/trlc/lexer.py:280-295 [PUNCTUATION] *)
Definition punctuation_table : list (char * kind) :=
  [(40%N, BRA);        (* ( *)
   (41%N, KET);        (* ) *)
   (123%N, C_BRA);     (* { *)
   (125%N, C_KET);     (* } *)
   (91%N, S_BRA);      (* [ *)
   (93%N, S_KET);      (* ] *)
   (44%N, COMMA);      (* , *)
   (64%N, AT);         (* @ *)
   (58%N, COLON);      (* : *)
   (59%N, SEMICOLON);  (* ; *)
   (47%N, OPERATOR);   (* / *)
   (37%N, OPERATOR);   (* % *)
   (43%N, OPERATOR);   (* + *)
   (45%N, OPERATOR)].  (* - *)

Definition punctuation (c : char) : option kind :=
  match find (fun p => N.eqb c (fst p)) punctuation_table with
  | Some (_, k) => Some k
  | None => None
  end.

(** /repo/trlc/lexer.py:27-66 [triple_quoted_string_value] *)

(** The loop at lexer.py:46-50: leading blanks and tabs. *)
Fixpoint blank_prefix (s : text) : text :=
  match s with
  | c :: s' => if ((c =? 32) || (c =? 9))%N then c :: blank_prefix s' else []
  | [] => []
  end.

(** lexer.py:56-61: the inner loop over [range(common_len)]; it returns the
    new [common_len]. *)
Fixpoint match_prefix (ws line : text) : nat :=
  match ws, line with
  | w :: ws', c :: line' => if (w =? c)%N then S (match_prefix ws' line') else O
  | _, _ => O
  end.

Definition is_blank (line : text) : bool :=
  match strip line with [] => true | _ => false end.

(** lexer.py:53-61 *)
Definition common_len (ws : text) (lines : list text) : nat :=
  fold_left (fun n line => if is_blank line then n
                           else match_prefix (firstn n ws) line)
            lines (List.length ws).

Definition nl : text := [10%N].

Definition triple_quoted_string_value (raw : text) : text :=
  let inner := drop_last 3 (skipn 3 raw) in
  match splitlines (strip inner) with
  | [] => []
  | first :: more =>
      match filter (fun l => negb (is_blank l)) (first :: more) with
      | _ :: second :: _ =>
          let ws := blank_prefix second in
          let n := common_len ws (tl more) in
          first ++ concat (map (fun l => nl ++ rstrip (skipn n l)) more)
      | _ => first
      end
  end.

(** lexer.py:582-633: build the token once its range is known.
    [base] is [int_base] (0 if the token is no number). *)
Definition token_value (k : kind) (base : Z) (txt : text) : kind * value :=
  match k with
  | IDENTIFIER => if is_keyword txt then (KEYWORD, VText txt) else (IDENTIFIER, VText txt)
  | OPERATOR => (OPERATOR, VText txt)
  | STRING =>
      if starts_with (t """""""") txt then (STRING, VText (triple_quoted_string_value txt))
      else if starts_with (t """") txt
      then (STRING, VText (unescape (drop_last 1 (skipn 1 txt))))
      else (STRING, VText (triple_quoted_string_value txt))
  | INTEGER =>
      let base_text := drop_underscores txt in
      if base =? 10 then (INTEGER, VInt (py_int 10 base_text))
      else if base =? 2 then (INTEGER, VInt (py_int 2 (skipn 2 base_text)))
      else (INTEGER, VInt (py_int 16 (skipn 2 base_text)))
  | DECIMAL => (DECIMAL, VDec (py_fraction (drop_underscores txt)))
  | COMMENT =>
      if starts_with (t "//") txt then (COMMENT, VText (strip (skipn 2 txt)))
      else
        let v := skipn 2 txt in
        let v := if ends_with (t "*/") v then drop_last 2 v else v in
        (COMMENT, VText (strip v))
  | k => (k, VNone)
  end.

(** How the big [if] chain (lexer.py:336-581) leaves the lexer: with a token
    kind, with an exception, or out of fuel. *)
Inductive scanres :=
| SDone (k : kind) (base : Z)
| SStop (r : lres).

(** lexer.py:404-481: strings *)
Definition scan_triple (q : char) (line col start : Z) (s : lstate) : lstate * scanres :=
  match triple_loop fuel q 0 s with
  | (s', Some true) => (s', SDone STRING 0)
  | (s', Some false) =>
      (s', SStop (raise Unterminated_triple (mk_sref line col start (lexpos s'))))
  | (s', None) => (s', SStop LFuel)
  end.

Definition scan_dquote (line col start : Z) (s : lstate) : lstate * scanres :=
  if ceq (nc s) 34 && ceq (nnc s) 34 then
    scan_triple 34%N line col start (advance (advance s))
  else
    match string_loop fuel s with
    | (s', Some None) => (advance s', SDone STRING 0)
    | (s', Some (Some m)) => (s', SStop (raise m (mk_sref line col start (lexpos s'))))
    | (s', None) => (s', SStop LFuel)
    end.

Definition scan_squote (line col start : Z) (s : lstate) : lstate * scanres :=
  let s1 := advance s in
  if negb (ceq (cc s1) 39)
  then (s1, SStop (raise Malformed_triple (mk_sref line col start (lexpos s1))))
  else
    let s2 := advance s1 in
    if negb (ceq (cc s2) 39)
    then (s2, SStop (raise Malformed_triple (mk_sref line col start (lexpos s2))))
    else scan_triple 39%N line col start s2.

(** lexer.py:484-579: numbers *)
Definition scan_number (line col start : Z) (s : lstate) : lstate * scanres :=
  let run cfg require_digit decimal_allowed s0 :=
    match num_loop fuel cfg require_digit decimal_allowed false s0 with
    | (s', NumDone true _) =>
        (s', SStop (raise Unfinished_number (mk_sref line col start (lexpos s'))))
    | (s', NumDone false dec) =>
        (s', SDone (if dec then DECIMAL else INTEGER) (int_base cfg))
    | (s', NumErr m p) => (s', SStop (raise m (mk_sref line col p p)))
    | (s', NumFuel) => (s', SStop LFuel)
    end in
  if ceq (cc s) 48 && ceq (nc s) 98 then run cfg2 true false (advance s)
  else if ceq (cc s) 48 && ceq (nc s) 120 then run cfg16 true false (advance s)
  else run cfg10 false true s.

(** lexer.py:336-581; [c] is [self.cc]. *)
Definition scan (c : char) (line col start : Z) (s : lstate) : lstate * scanres :=
  let loop k p s :=
    match while_adv fuel p s with
    | Some s' => (s', SDone k 0)
    | None => (s, SStop LFuel)
    end in
  let here := mk_sref (line_no s) (col_no s) (lexpos s) (lexpos s) in
  if (c =? 47)%N && ceq (nc s) 47 then
    loop COMMENT (fun s => match cc s with None => false | Some _ => negb (ceq (nc s) 10) end) s
  else if (c =? 47)%N && ceq (nc s) 42 then
    match while_adv fuel (fun s => match nc s with
                                   | None => false
                                   | Some _ => negb (ceq (cc s) 42 && ceq (nc s) 47)
                                   end) s with
    | Some s' => (advance s', SDone COMMENT 0)
    | None => (s, SStop LFuel)
    end
  else if is_alpha c then
    loop IDENTIFIER (fun s => match nc s with
                              | None => false
                              | Some d => is_alnum d || (d =? 95)%N
                              end) s
  else match punctuation c with
  | Some k => (s, SDone k 0)
  | None =>
  if (c =? 61)%N then
    if ceq (nc s) 62 then (advance s, SDone ARROW 0)
    else if ceq (nc s) 61 then (advance s, SDone OPERATOR 0)
    else (s, SDone ASSIGN 0)
  else if (c =? 46)%N then
    if ceq (nc s) 46 then (advance s, SDone RANGE 0) else (s, SDone DOT 0)
  else if (c =? 60)%N || (c =? 62)%N then
    if ceq (nc s) 61 then (advance s, SDone OPERATOR 0) else (s, SDone OPERATOR 0)
  else if (c =? 33)%N then
    if ceq (nc s) 61 then (advance s, SDone OPERATOR 0)
    else (s, SStop (raise Malformed_neq here))
  else if (c =? 42)%N then
    if ceq (nc s) 42 then (advance s, SDone OPERATOR 0) else (s, SDone OPERATOR 0)
  else if (c =? 34)%N then scan_dquote line col start s
  else if (c =? 39)%N then scan_squote line col start s
  else if is_numeric c then scan_number line col start s
  else (s, SStop (raise Unexpected_char here))
  end.

(** /repo/trlc/lexer.py:324-633 [TRLC_Lexer.token].  The returned state is
    the one the lexer object is left in (also after an exception). *)
Definition next_token (s0 : lstate) : lstate * lres :=
  match skip_whitespace s0 with
  | None => (s0, LFuel)
  | Some s =>
      match cc s with
      | None => (s, LEnd)
      | Some c =>
          let start := lexpos s in
          let line := line_no s in
          let col := col_no s in
          match scan c line col start s with
          | (s', SStop r) => (s', r)
          | (s', SDone k base) =>
              match mk_sref line col start (Z.min (lexpos s') (len - 1)) with
              | None => (s', LCrash)
              | Some r =>
                  let (k', v) := token_value k base (slice (sr_start r) (sr_end r)) in
                  (s', LTok {| tk_kind := k'; tk_value := v; tk_line := line; tk_col := col;
                               tk_start := sr_start r; tk_end := sr_end r |})
              end
          end
      end
  end.

(** Repeated calls of [token] until the end of the file or the first
    exception (the loop of any user of the lexer; /repo/trlc/lexer.py:636-642
    [Token_Stream] records the tokens). *)
Inductive lex_outcome :=
| Lexed (ts : list token)
| LexFailed (ts : list token) (e : lex_error)    (* tokens before the error *)
| LexCrashed (ts : list token)
| LexStuck.

Fixpoint lex_from (n : nat) (s : lstate) : lex_outcome :=
  match n with
  | O => LexStuck
  | S n' =>
      match next_token s with
      | (_, LEnd) => Lexed []
      | (_, LErr e) => LexFailed [] e
      | (_, LCrash) => LexCrashed []
      | (_, LFuel) => LexStuck
      | (s', LTok tk) =>
          match lex_from n' s' with
          | Lexed ts => Lexed (tk :: ts)
          | LexFailed ts e => LexFailed (tk :: ts) e
          | LexCrashed ts => LexCrashed (tk :: ts)
          | LexStuck => LexStuck
          end
      end
  end.

Definition lex : lex_outcome := lex_from fuel init.

End LEXER.
