(** Model of /repo/trlc/nested.py and of the markup part of
    /repo/trlc/parser.py (lines 29-280). *)
From Verif Require Import Base PyText Lexer.
Open Scope Z_scope.

(** ** Nested_Lexer, /repo/trlc/nested.py:27-81 *)

(** nested.py:28-42.  [ns_file] is the contents of the file of the literal,
    [ns_content] the text the nested lexer works on. *)
Record nested := Nested {
  ns_file    : text;
  ns_multi   : bool;
  ns_base    : Z;
  ns_line    : Z;
  ns_col     : Z;
  ns_start   : Z;
  ns_content : text
}.

Definition nested_of (file : text) (loc : sref) : nested :=
  let raw := slice file (sr_start loc) (sr_end loc) in
  let multi := starts_with (t """""""") raw || starts_with (t "'''") raw in
  {| ns_file := file;
     ns_multi := multi;
     ns_base := if multi then 3 else 1;
     ns_line := sr_line loc; ns_col := sr_col loc; ns_start := sr_start loc;
     ns_content := if multi then drop_last 3 (skipn 3 raw)
                   else unescape (drop_last 1 (skipn 1 raw)) |}.

(** The number of double quotes in [s] (nested.py:64-66). *)
Definition quotes (s : text) : Z := Z.of_nat (count_occ N.eq_dec s 34%N).

(** nested.py:44-81 [source_location]; [None] is an AssertionError (also
    those of the [Source_Reference] constructor, lexer.py:69-83). *)
Definition source_location (n : nested) (start_line start_col start stop : Z) : option sref :=
  if (0 <=? start) && (start <=? stop) && (stop <? len (ns_content n))
     && (1 <=? start_line) && (1 <=? start_col)
  then
    if ns_multi n then
      mk_sref (ns_file n)
              (ns_line n + (start_line - 1))
              (if start_line =? 1 then ns_col n + ns_base n else start_col)
              (ns_start n + ns_base n + start)
              (ns_start n + ns_base n + stop)
    else
      let escapes_to_start := quotes (firstn (Z.to_nat start) (ns_content n)) in
      let escapes_to_end := escapes_to_start + quotes (slice (ns_content n) start stop) in
      if start_line =? 1 then
        mk_sref (ns_file n)
                (ns_line n)
                (ns_col n + ns_base n + start + escapes_to_start)
                (ns_start n + ns_base n + start + escapes_to_start)
                (ns_start n + ns_base n + stop + escapes_to_end)
      else None
  else None.

(** ** Markup_Lexer, /repo/trlc/parser.py:29-124 *)

(** parser.py:29-39 *)
Inductive mkind :=
| CHARACTER | REFLIST_BEGIN | REFLIST_END | REFLIST_COMMA | REFLIST_DOT | REFLIST_IDENTIFIER.

Definition mkind_eqb (a b : mkind) : bool :=
  match a, b with
  | CHARACTER, CHARACTER | REFLIST_BEGIN, REFLIST_BEGIN | REFLIST_END, REFLIST_END
  | REFLIST_COMMA, REFLIST_COMMA | REFLIST_DOT, REFLIST_DOT
  | REFLIST_IDENTIFIER, REFLIST_IDENTIFIER => true
  | _, _ => false
  end.

(** A markup token; the range in the nested text is kept (Python only keeps
    [mt_loc], the range in the file). *)
Record mtok := MTok {
  mt_kind  : mkind;
  mt_text  : text;
  mt_line  : Z;
  mt_col   : Z;
  mt_begin : Z;
  mt_end   : Z;
  mt_loc   : sref
}.

Inductive merr :=
| Cannot_nest                                     (* parser.py:82 *)
| Not_open                                        (* parser.py:95 *)
| Unexpected_markup_char (c : char)               (* parser.py:112 *)
| Expected (k : mkind) (got : option mkind)       (* parser.py:166-181 *)
| Expected_end (got : mkind)                      (* parser.py:186 *)
| Bad_package (name : text).                      (* parser.py:258-266 *)

Inductive mres :=
| MToken (tk : mtok) (in_reflist : bool) (s : lstate)
| MEnd
| MErr (m : merr) (l : sref)
| MCrash
| MFuel.

Section MARKUP.
Variable n : nested.
Notation content := (ns_content n).

(** parser.py:56-124 [Markup_Lexer.token] *)
Definition mtoken (in_reflist : bool) (s0 : lstate) : mres :=
  match (if in_reflist then skip_whitespace content s0 else Some (advance content s0)) with
  | None => MFuel
  | Some s =>
      match cc s with
      | None => MEnd
      | Some c =>
          let start := lexpos s in
          let line := line_no s in
          let col := col_no s in
          let fail m stop :=
            match source_location n line col start stop with
            | Some l => MErr m l
            | None => MCrash
            end in
          let tok k in_ref s' :=
            match source_location n line col start (lexpos s') with
            | Some l => MToken {| mt_kind := k; mt_text := slice content start (lexpos s');
                                  mt_line := line; mt_col := col;
                                  mt_begin := start; mt_end := lexpos s'; mt_loc := l |}
                               in_ref s'
            | None => MCrash
            end in
          if (c =? 91)%N && ceq (nc s) 91 then
            if in_reflist then fail Cannot_nest (start + 1)
            else tok REFLIST_BEGIN true (advance content s)
          else if (c =? 93)%N && ceq (nc s) 93 then
            if in_reflist then tok REFLIST_END false (advance content s)
            else fail Not_open (start + 1)
          else if negb in_reflist then tok CHARACTER in_reflist s
          else if (c =? 44)%N then tok REFLIST_COMMA in_reflist s
          else if (c =? 46)%N then tok REFLIST_DOT in_reflist s
          else if is_alpha c then
            match while_adv content (fuel content)
                    (fun s => match nc s with
                              | None => false
                              | Some d => is_alnum d || (d =? 95)%N
                              end) s with
            | Some s' => tok REFLIST_IDENTIFIER in_reflist s'
            | None => MFuel
            end
          else fail (Unexpected_markup_char c) start
      end
  end.

(** How a sequence of calls of [token] ends. *)
Inductive mterm :=
| TEnd
| TErr (m : merr) (l : sref)
| TCrash
| TFuel.

(** All tokens of the string.  The lexer does not depend on its caller, so
    the tokens are computed up front; what ends the sequence is raised when
    the parser asks for it (see [madvance]). *)
Fixpoint mstream (fl : nat) (in_reflist : bool) (s : lstate) : list mtok * mterm :=
  match fl with
  | O => ([], TFuel)
  | S fl' =>
      match mtoken in_reflist s with
      | MToken tk r s' => let (ts, e) := mstream fl' r s' in (tk :: ts, e)
      | MEnd => ([], TEnd)
      | MErr m l => ([], TErr m l)
      | MCrash => ([], TCrash)
      | MFuel => ([], TFuel)
      end
  end.

Definition mtokens : list mtok * mterm := mstream (fuel content) false (init content).

End MARKUP.

(** ** Markup_Parser, /repo/trlc/parser.py:127-280 *)

(** The parser's current and next token and the tokens to come. *)
Record mstate := MState { ct : option mtok; nt : option mtok; todo : list mtok }.

(** ast.py Record_Reference as built at parser.py:276: [None] stands for the
    package of the compilation unit. *)
Record mref := MRef { mr_package : option text; mr_name : text; mr_loc : sref }.

Section PARSER.
(** How the token sequence ends. *)
Variable last : mterm.
(** The location of the string literal ([file_location]). *)
Variable origin : sref.
(** [qual p]: looking up [p] in the global scope gives a package (parser.py:
    258-262) which is visible (parser.py:263).  Both failures are one error
    here, [Bad_package]. *)
Variable qual : text -> bool.

Notation M := (res (merr * sref)).

(** parser.py:146-152 [advance]; markup has no comments *)
Definition madvance (s : mstate) : M mstate :=
  match todo s with
  | tk :: r => Ok {| ct := nt s; nt := Some tk; todo := r |}
  | [] => match last with
          | TEnd => Ok {| ct := nt s; nt := None; todo := [] |}
          | TErr m l => Err (m, l)
          | TCrash => Crash
          | TFuel => OutOfFuel
          end
  end.

(** parser.py:160-163 [peek] *)
Definition mpeek (k : mkind) (s : mstate) : bool :=
  match nt s with Some tk => mkind_eqb (mt_kind tk) k | None => false end.

(** parser.py:173-191 [match] *)
Definition mmatch (k : mkind) (s : mstate) : M mstate :=
  match nt s with
  | None => Err (Expected k None, match ct s with Some c => mt_loc c | None => origin end)
  | Some tk => if mkind_eqb (mt_kind tk) k then madvance s
               else Err (Expected k (Some (mt_kind tk)), mt_loc tk)
  end.

(** [self.ct.value] right after a successful [match]; [ct] is never None *)
Definition current (s : mstate) : M mtok :=
  match ct s with Some c => Ok c | None => Crash end.

(** parser.py:253-280 [parse_qualified_name] *)
Definition parse_qualified_name (s : mstate) : M (mref * mstate) :=
  do s <- mmatch REFLIST_IDENTIFIER s ;
  do c <- current s ;
  if mpeek REFLIST_DOT s then
    if qual (mt_text c) then
      do s <- mmatch REFLIST_DOT s ;
      do s <- mmatch REFLIST_IDENTIFIER s ;
      do c2 <- current s ;
      Ok ({| mr_package := Some (mt_text c); mr_name := mt_text c2; mr_loc := mt_loc c2 |}, s)
    else Err (Bad_package (mt_text c), mt_loc c)
  else Ok ({| mr_package := None; mr_name := mt_text c; mr_loc := mt_loc c |}, s).

(** parser.py:248-250: [while self.peek("REFLIST_COMMA")] *)
Fixpoint parse_more_names (fl : nat) (s : mstate) : M (list mref * mstate) :=
  match fl with
  | O => OutOfFuel
  | S fl' =>
      if mpeek REFLIST_COMMA s then
        do s <- mmatch REFLIST_COMMA s ;
        do rs <- parse_qualified_name s ;
        do rest <- parse_more_names fl' (snd rs) ;
        Ok (fst rs :: fst rest, snd rest)
      else Ok ([], s)
  end.

(** parser.py:245-251 [parse_ref_list] *)
Definition parse_ref_list (fl : nat) (s : mstate) : M (list mref * mstate) :=
  do s <- mmatch REFLIST_BEGIN s ;
  do rs <- parse_qualified_name s ;
  do rest <- parse_more_names fl (snd rs) ;
  do s <- mmatch REFLIST_END (snd rest) ;
  Ok (fst rs :: fst rest, s).

(** parser.py:236-243 [parse_all_references]; when the loop ends [nt] is
    None, so [match_eof] does nothing *)
Fixpoint parse_all_references (fl : nat) (s : mstate) : M (list mref) :=
  match fl with
  | O => OutOfFuel
  | S fl' =>
      match nt s with
      | None => Ok []
      | Some _ =>
          if mpeek CHARACTER s then
            do s <- madvance s ;
            parse_all_references fl' s
          else
            do rs <- parse_ref_list fl s ;
            do rest <- parse_all_references fl' (snd rs) ;
            Ok (fst rs ++ rest)
      end
  end.

(** parser.py:128-144 and 226-234: the constructor reads the first token. *)
Definition parse_tokens (ts : list mtok) : M (list mref) :=
  do s <- madvance {| ct := None; nt := None; todo := ts |} ;
  parse_all_references (S (S (List.length ts))) s.

End PARSER.

(** parser.py:1878-1884: the references of the string literal at [loc]. *)
Definition markup_references (file : text) (loc : sref) (qual : text -> bool)
  : res (merr * sref) (list mref) :=
  let (ts, e) := mtokens (nested_of file loc) in
  parse_tokens e loc qual ts.
