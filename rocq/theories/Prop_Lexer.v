(** Property theorems C01 - C11 and C43: the lexer.

    [lex content] is the run of the lexer model over a file; [produced
    content] are the tokens it hands out before it ends or raises.  The
    vocabulary of the statements is in [LexSpec]. *)
From Coq Require Import QArith.
From Verif Require Import Base PyText Lexer LexSpec LexerCorrect LexerThm LexerValues LexerProps
                          SrcRef SrcRefProofs.
Open Scope Z_scope.

(** A file used in several examples. *)
Definition sample : text :=
  t "package p // c" ++ [10%N] ++ t " a <= 0x1_f ""x\""y"" 2.50 '''l'''; ".

(** ** C01 *)

(** The lexer always comes to an end (the model never runs out of fuel). *)
Theorem C01_terminates : forall content, lex content <> LexStuck.
Proof.
  intros content E. pose proof (lex_spec content) as O. rewrite E in O. exact O.
Qed.
Print Assumptions C01_terminates.

(** Without an error the file is exactly its tokens separated by white space. *)
Theorem C01_lossless :
  forall content ts, lex content = Lexed ts -> segmented 0 content ts.
Proof.
  intros content ts E. pose proof (lex_spec content) as O. rewrite E in O. apply O.
Qed.
Print Assumptions C01_lossless.
Example C01_lossless_ex :
  exists ts, lex sample = Lexed ts /\ map tk_kind ts =
    [KEYWORD; IDENTIFIER; COMMENT; IDENTIFIER; OPERATOR; INTEGER; STRING; DECIMAL; STRING; SEMICOLON].
Proof. eexists. split; vm_compute; reflexivity. Qed.

(** Conversely every file that is a sequence of tokens of the lexical grammar
    is accepted with those tokens. *)
Theorem C01_complete :
  forall content ts, segmented 0 content ts ->
    exists ts', lex content = Lexed ts' /\
      map (fun tk => (tk_kind tk, tk_start tk, tk_end tk)) ts' =
      map (fun tk => (tk_kind tk, tk_start tk, tk_end tk)) ts.
Proof. exact lex_accepts. Qed.
Print Assumptions C01_complete.
Example C01_complete_ex :
  segmented 0 (t " (") [Token BRA VNone 1 2 1 1].
Proof.
  apply (seg_token 0 (t " ") (t "(") []); cbn; auto.
  - constructor; [|constructor]. right. left. lia.
  - apply lx_delimiter; [constructor|exact I].
  - constructor. constructor.
Qed.

(** If it raises an error, it has read a sequence of tokens, and at the place
    of the error the file has no token of the grammar. *)
Theorem C01_errors_justified :
  forall content ts e, lex content = LexFailed ts e ->
    exists ws bad, tokens_then 0 content ts (ws ++ bad) /\ Forall white ws /\ bad <> [] /\
      (forall x y k, bad = x ++ y -> ~ lexeme x y k).
Proof.
  intros content ts e E. pose proof (lex_spec content) as O. rewrite E in O.
  destruct O as (_ & ws & bad & H1 & H2 & H3 & H4 & _). exists ws, bad.
  repeat split; auto. intros ->. exact H3.
Qed.
Print Assumptions C01_errors_justified.
Example C01_errors_justified_ex :
  exists ts e, lex (t "a ! b") = LexFailed ts e /\ le_msg e = Malformed_neq /\ List.length ts = 1%nat.
Proof. do 2 eexists. vm_compute. repeat split; reflexivity. Qed.

(** The lexer is not free of crashes: a file that ends in an unfinished
    opening of a triple-quoted string violates an assertion. *)
Theorem C01_no_crash_refuted : exists content ts, lex content = LexCrashed ts.
Proof. exists (t "'"), []. vm_compute. reflexivity. Qed.
Print Assumptions C01_no_crash_refuted.

(** ... and these are the only files on which it crashes. *)
Theorem C01_crashes_exactly :
  forall content, (exists ts, lex content = LexCrashed ts) <->
    exists ts ws bad, tokens_then 0 content ts (ws ++ bad) /\ Forall white ws /\
                      In bad [t "'"; t "''"; t "'''"; t """"""""].
Proof. exact lex_crashes. Qed.
Print Assumptions C01_crashes_exactly.
Example C01_crashes_exactly_ex : exists ts, lex (t "a ''") = LexCrashed ts.
Proof. eexists. vm_compute. reflexivity. Qed.

(** The token found at a place is the only one the grammar allows there. *)
Theorem C01_unambiguous :
  forall content tk (pre x y : text) k,
    In tk (produced content) -> content = pre ++ x ++ y -> Z.of_nat (List.length pre) = tk_start tk ->
    lexeme x y k -> source_text content tk = x /\ tk_kind tk = k.
Proof.
  intros content tk pre x y k I E L X. destruct (produced_unique content tk pre x y k I E L X) as (A & B & _). auto.
Qed.
Print Assumptions C01_unambiguous.

(** ** C02 *)

Theorem C02_token_locations :
  forall content tk, In tk (produced content) ->
    0 <= tk_start tk <= tk_end tk /\ tk_end tk < Z.of_nat (List.length content) /\
    located content (Z.to_nat (tk_start tk)) (tk_line tk) (tk_col tk).
Proof.
  intros content tk I. pose proof (produced_ok content) as O. rewrite Forall_forall in O.
  destruct (O tk I) as (H1 & H2 & H3 & _). exact (conj H1 (conj H2 H3)).
Qed.
Print Assumptions C02_token_locations.
Example C02_token_locations_ex :
  map (fun tk => (tk_line tk, tk_col tk)) (produced sample) =
  [(1, 1); (1, 9); (1, 11); (2, 2); (2, 4); (2, 7); (2, 13); (2, 20); (2, 25); (2, 32)].
Proof. vm_compute. reflexivity. Qed.

(** Line and column of a position are determined. *)
Theorem C02_locations_unique :
  forall content p l c l' c', located content p l c -> located content p l' c' -> l = l' /\ c = c'.
Proof. exact located_unique. Qed.
Print Assumptions C02_locations_unique.

(** Lexical errors carry the line and column of the first character that
    could not be read, and their range starts there or later. *)
Theorem C02_error_locations :
  forall content ts e, lex content = LexFailed ts e ->
    exists ws bad, tokens_then 0 content ts (ws ++ bad) /\ Forall white ws /\ bad <> [] /\
      located content (List.length content - List.length bad) (sr_line (le_loc e)) (sr_col (le_loc e)) /\
      Z.of_nat (List.length content) - Z.of_nat (List.length bad) <= sr_start (le_loc e) <= sr_end (le_loc e) /\
      sr_end (le_loc e) < Z.of_nat (List.length content).
Proof.
  intros content ts e E. pose proof (lex_spec content) as O. rewrite E in O.
  destruct O as (_ & ws & bad & H1 & H2 & H3 & _ & _ & H4 & H5 & H6). exists ws, bad.
  unfold len in *.
  replace (Z.to_nat (Z.of_nat (List.length content) - Z.of_nat (List.length bad)))
    with (List.length content - List.length bad)%nat in H4 by lia.
  repeat split; auto; try apply H5. intros ->. exact H3.
Qed.
Print Assumptions C02_error_locations.

(** The position of a number error is not where its line and column point. *)
Theorem C02_error_range_refuted :
  exists content ts e, lex content = LexFailed ts e /\
    ~ located content (Z.to_nat (sr_start (le_loc e))) (sr_line (le_loc e)) (sr_col (le_loc e)).
Proof.
  exists (t "12a"), []. eexists. split; [vm_compute; reflexivity|].
  cbn. intros (b & c & E1 & E2 & E3 & E4 & E5).
  destruct E3 as [->|(x & ->)].
  - cbn in E1. subst c. cbn in E5. discriminate.
  - assert (I : In newline (firstn (Z.to_nat 2) [49; 50; 97]%N)).
    { rewrite E1. apply in_or_app. left. apply in_or_app. right. left; auto. }
    cbn in I. destruct I as [I|[I|[]]]; discriminate I.
Qed.
Print Assumptions C02_error_range_refuted.

(** ** C03 *)

(** A token that begins with a letter is the longest run of identifier
    characters there, and is a keyword exactly if it is reserved. *)
Theorem C03_words :
  forall content tk c r pre after,
    In tk (produced content) -> token_at content tk pre after ->
    source_text content tk = c :: r -> letter c ->
    Forall ident_char r /\
    (match after with [] => True | d :: _ => ~ ident_char d end) /\
    (tk_kind tk = KEYWORD /\ In (c :: r) reserved \/ tk_kind tk = IDENTIFIER /\ ~ In (c :: r) reserved) /\
    tk_value tk = VText (c :: r).
Proof.
  intros content tk c r pre after I A S L.
  destruct (token_at_unique _ _ _ _ _ _ A (produced_at _ _ I)) as [_ ->].
  pose proof (produced_lexeme _ _ I) as X. pose proof (produced_denotes _ _ I) as D. rewrite S in X, D.
  destruct (lexeme_word _ _ _ _ L X) as (H1 & H2 & H3). repeat split; auto.
  apply (word_value _ _ _ D). destruct H3 as [[H3 _]|[H3 _]]; auto.
Qed.
Print Assumptions C03_words.
Example C03_words_ex :
  map (fun tk => (tk_kind tk, tk_value tk)) (produced (t "if ifx x_1if")) =
  [(KEYWORD, VText (t "if")); (IDENTIFIER, VText (t "ifx")); (IDENTIFIER, VText (t "x_1if"))].
Proof. vm_compute. reflexivity. Qed.

(** No other tokens are identifiers or keywords. *)
Theorem C03_only_words :
  forall content tk, In tk (produced content) -> tk_kind tk = IDENTIFIER \/ tk_kind tk = KEYWORD ->
    exists c r, source_text content tk = c :: r /\ letter c.
Proof.
  intros content tk I K. exact (word_kind_letter _ _ _ (produced_lexeme _ _ I) K).
Qed.
Print Assumptions C03_only_words.

(** ** C04 *)

Theorem C04_two_characters :
  forall content tk d k (pre after : text),
    In tk (produced content) -> content = pre ++ d ++ after -> Z.of_nat (List.length pre) = tk_start tk ->
    In (d, k) [(t "==", OPERATOR); (t "=>", ARROW); (t "!=", OPERATOR); (t "<=", OPERATOR);
               (t ">=", OPERATOR); (t "**", OPERATOR); (t "..", RANGE)] ->
    source_text content tk = d /\ tk_kind tk = k.
Proof.
  intros content tk d k pre after I E L D.
  destruct (produced_unique content tk pre d after k I E L (two_char_lexeme d k after D)) as (A & B & _). auto.
Qed.
Print Assumptions C04_two_characters.
Example C04_two_characters_ex :
  map (fun tk => (tk_kind tk, tk_start tk)) (produced (t "a=>b===1...2")) =
  [(IDENTIFIER, 0); (ARROW, 1); (IDENTIFIER, 3); (OPERATOR, 4); (ASSIGN, 6); (INTEGER, 7); (RANGE, 8); (DOT, 10); (INTEGER, 11)].
Proof. vm_compute. reflexivity. Qed.

(** A lone exclamation mark where a token should start is an error. *)
Theorem C04_bang :
  forall content ts (ws r : text),
    tokens_then 0 content ts (ws ++ 33%N :: r) -> Forall white ws -> (forall r', r <> 61%N :: r') ->
    exists ts' e, lex content = LexFailed ts' e /\
      located content (List.length content - List.length (33%N :: r)) (sr_line (le_loc e)) (sr_col (le_loc e)).
Proof.
  intros content ts ws r H W N. eapply lex_fails; eauto.
  - apply dark_ascii. split; discriminate.
  - apply no_bang; auto.
  - intros I. cbn in I. repeat (destruct I as [I|I]; [discriminate I|]). contradiction.
Qed.
Print Assumptions C04_bang.
Example C04_bang_ex : exists e, lex (t " !1") = LexFailed [] e. Proof. eexists. vm_compute. reflexivity. Qed.

(** Digits followed by [..] are an integer. *)
Theorem C04_range_after_number :
  forall content tk (pre r after : text),
    In tk (produced content) -> content = pre ++ r ++ (t ".." ++ after) ->
    Z.of_nat (List.length pre) = tk_start tk -> digit_groups digit r ->
    source_text content tk = r /\ tk_kind tk = INTEGER.
Proof.
  intros content tk pre r after I E L D.
  destruct (produced_unique content tk pre r (t ".." ++ after) INTEGER I E L) as (A & B & _); auto.
  apply lx_integer; auto.
  - cbn. repeat split; try discriminate; [|eauto].
    unfold hexadecimal, digit, hex_letter. intros H. lia.
  - intros (_ & x & a & F & X). injection F as <- _. destruct X; discriminate.
Qed.
Print Assumptions C04_range_after_number.

(** ** C05 *)

Theorem C05_value :
  forall content tk, In tk (produced content) -> tk_kind tk = INTEGER ->
    exists v, tk_value tk = VInt v /\ int_denotes (source_text content tk) v /\
              forall v', int_denotes (source_text content tk) v' -> v' = v.
Proof.
  intros content tk I K. pose proof (produced_denotes _ _ I) as D. rewrite K in D.
  destruct (td_integer_inv _ _ D) as (v & -> & H).
  exists v. repeat split; auto. intros v' H'. exact (int_denotes_unique _ _ _ H' H).
Qed.
Print Assumptions C05_value.
Example C05_value_ex :
  map tk_value (produced (t "1_000 0b1_01 0xfF 007")) = [VInt 1000; VInt 5; VInt 255; VInt 7].
Proof. vm_compute. reflexivity. Qed.

(** Every literal of the grammar is accepted with its value. *)
Theorem C05_literals :
  forall txt v, integer_literal txt -> int_denotes txt v ->
    lex txt = Lexed [Token INTEGER (VInt v) 1 1 0 (Z.of_nat (List.length txt) - 1)].
Proof. exact integer_roundtrip. Qed.
Print Assumptions C05_literals.

(** Every natural number can be written in each of the three bases. *)
Theorem C05_all_numbers :
  forall v, 0 <= v ->
    (exists s, digit_groups digit s /\ int_denotes s v) /\
    (exists s, digit_groups binary s /\ int_denotes (t "0b" ++ s) v) /\
    (exists s, digit_groups hexadecimal s /\ int_denotes (t "0x" ++ s) v).
Proof. exact all_numbers. Qed.
Print Assumptions C05_all_numbers.

(** ** C06 *)

Theorem C06_value :
  forall content tk, In tk (produced content) -> tk_kind tk = DECIMAL ->
    exists q, tk_value tk = VDec q /\ dec_denotes (source_text content tk) q /\
              forall q', dec_denotes (source_text content tk) q' -> (q' == q)%Q.
Proof.
  intros content tk I K. pose proof (produced_denotes _ _ I) as D. rewrite K in D.
  destruct (td_decimal_inv _ _ D) as (q & -> & H).
  exists q. repeat split; auto. intros q' H'. exact (dec_denotes_unique _ _ _ H' H).
Qed.
Print Assumptions C06_value.
Example C06_value_ex : map tk_value (produced (t "1_0.2_5")) = [VDec (41 # 4)].
Proof. vm_compute. reflexivity. Qed.

Theorem C06_literals :
  forall (r1 r2 : text) q, digit_groups digit r1 -> digit_groups digit r2 ->
    dec_denotes (r1 ++ t "." ++ r2) q ->
    exists q', (q' == q)%Q /\
      lex (r1 ++ t "." ++ r2) =
      Lexed [Token DECIMAL (VDec q') 1 1 0 (Z.of_nat (List.length (r1 ++ t "." ++ r2)) - 1)].
Proof. exact decimal_roundtrip. Qed.
Print Assumptions C06_literals.

(** ** C07 *)

Theorem C07_round_trip :
  forall s, ~ In newline s -> (forall x, s <> x ++ [92%N]) ->
    lex (t """" ++ escape s ++ t """") =
    Lexed [Token STRING (VText s) 1 1 0 (Z.of_nat (List.length (t """" ++ escape s ++ t """")) - 1)].
Proof. exact string_roundtrip. Qed.
Print Assumptions C07_round_trip.
Example C07_round_trip_ex :
  lex (t """a\\""b""") = Lexed [Token STRING (VText (t "a\""b")) 1 1 0 6].
Proof. vm_compute. reflexivity. Qed.

(** The value of any string token. *)
Theorem C07_value :
  forall content tk, In tk (produced content) -> tk_kind tk = STRING ->
    (exists body s, source_text content tk = t """" ++ body ++ t """" /\ unescaped body s /\ tk_value tk = VText s) \/
    (exists q body s, (q = 34 \/ q = 39)%N /\ source_text content tk = [q; q; q] ++ body ++ [q; q; q] /\
                      triple_value body s /\ tk_value tk = VText s).
Proof.
  intros content tk I K. pose proof (produced_denotes _ _ I) as D. rewrite K in D. exact (td_string_value _ _ D).
Qed.
Print Assumptions C07_value.

(** ** C08 *)

(** Missing for the full property: closing quotes that are the last
    characters of the file (see below). *)
Theorem C08_first_closing_partial :
  forall content tk q (pre body after : text),
    In tk (produced content) -> (q = 34 \/ q = 39)%N ->
    content = pre ++ ([q; q; q] ++ body) ++ after -> Z.of_nat (List.length pre) = tk_start tk ->
    first_end [q; q; q] body -> after <> [] ->
    source_text content tk = [q; q; q] ++ body /\ tk_kind tk = STRING.
Proof.
  intros content tk q pre body after I Q E L F A.
  destruct (produced_unique content tk pre ([q; q; q] ++ body) after STRING I E L) as (X & Y & _); auto.
  apply lx_triple; auto.
Qed.
Print Assumptions C08_first_closing_partial.
Example C08_first_closing_ex :
  exists tk, lex (t "'''a''b''' ") = Lexed [tk] /\ tk_value tk = VText (t "a''b").
Proof. eexists. vm_compute. split; reflexivity. Qed.

(** Closing quotes at the very end of the file are never accepted. *)
Theorem C08_end_of_file_refuted :
  forall content ts (ws body : text) q,
    (q = 34 \/ q = 39)%N -> first_end [q; q; q] body ->
    tokens_then 0 content ts (ws ++ [q; q; q] ++ body) -> Forall white ws ->
    exists ts' e, lex content = LexFailed ts' e.
Proof.
  intros content ts ws body q Q F H W.
  destruct (lex_fails content ts ws ([q; q; q] ++ body)) as (ts' & e & E & _); eauto.
  - apply dark_quote; auto.
  - apply triple_at_end; auto.
  - apply triple_not_crashing; auto.
Qed.
Print Assumptions C08_end_of_file_refuted.
Example C08_end_of_file_ex : exists e, lex (t "'''a'''") = LexFailed [] e /\ le_msg e = Unterminated_triple.
Proof. eexists. vm_compute. split; reflexivity. Qed.

(** ** C09 *)

(** Missing for the full property: the first of several lines keeps its
    trailing white space (see below). *)
Theorem C09_value_partial :
  forall q body, (q = 34 \/ q = 39)%N ->
    triple_value body (triple_quoted_string_value ([q; q; q] ++ body ++ [q; q; q])).
Proof. intros q body Q. apply triple_value_spec. exact Q. Qed.
Print Assumptions C09_value_partial.
Example C09_value_ex :
  triple_quoted_string_value (t "'''" ++ t " a" ++ [10%N] ++ t "    b " ++ [10%N; 10%N] ++ t "     c" ++ t "'''")
  = t "a" ++ [10%N] ++ t "b" ++ [10%N; 10%N] ++ t " c".
Proof. vm_compute. reflexivity. Qed.

(** The manual: "trailing whitespace is removed from every line". *)
Theorem C09_every_line_trimmed_refuted :
  exists body ls l, lines (triple_quoted_string_value (t "'''" ++ body ++ t "'''")) ls /\
    In l ls /\ ~ trimmed_right l l.
Proof.
  exists (t "a " ++ [10%N] ++ t "b"), [t "a "; t "b"], (t "a ").
  assert (Nl : forall c, (32 <= c <= 126)%N -> ~ line_end c).
  { intros c Hc H. unfold line_end in H. lia. }
  repeat split.
  - replace (triple_quoted_string_value _) with (t "a " ++ 10%N :: t "b") by (vm_compute; reflexivity).
    apply ln_end.
    + repeat constructor; apply Nl; cbn; lia.
    + unfold line_end. left. split; discriminate.
    + intros (H & _). discriminate.
    + apply ln_last; [discriminate|]. repeat constructor. apply Nl. cbn. lia.
  - left. reflexivity.
  - intros (b & E & F & N).
    apply (N 32%N (t "a")); [reflexivity|]. right. left. split; discriminate.
Qed.
Print Assumptions C09_every_line_trimmed_refuted.

(** ** C10 *)

Theorem C10_line_comment :
  forall content tk (pre after r : text),
    In tk (produced content) -> token_at content tk pre after ->
    source_text content tk = t "//" ++ r ->
    tk_kind tk = COMMENT /\ ~ In newline r /\ (after = [] \/ exists a, after = newline :: a).
Proof.
  intros content tk pre after r I A S.
  destruct (token_at_unique _ _ _ _ _ _ A (produced_at _ _ I)) as [_ ->].
  pose proof (produced_lexeme _ _ I) as X. rewrite S in X. exact (lexeme_line_comment _ _ _ X).
Qed.
Print Assumptions C10_line_comment.
Example C10_line_comment_ex :
  exists tk tk2, lex (t "// a */ ""b" ++ [10%N] ++ t "x") = Lexed [tk; tk2] /\
    source_text (t "// a */ ""b" ++ [10%N] ++ t "x") tk = t "// a */ ""b".
Proof. do 2 eexists. vm_compute. split; reflexivity. Qed.

(** A block comment ends at the first [*/] (where the opening asterisk counts
    as a possible closing one), or at the end of the file if there is none. *)
Theorem C10_block_comment_partial :
  forall content tk (pre after r : text),
    In tk (produced content) -> token_at content tk pre after ->
    source_text content tk = t "/*" ++ r ->
    tk_kind tk = COMMENT /\
    (first_end (t "*/") (t "*" ++ r) \/ after = [] /\ ~ contains (t "*/") (t "*" ++ r)).
Proof.
  intros content tk pre after r I A S.
  destruct (token_at_unique _ _ _ _ _ _ A (produced_at _ _ I)) as [_ ->].
  pose proof (produced_lexeme _ _ I) as X. rewrite S in X. exact (lexeme_block_comment _ _ _ X).
Qed.
Print Assumptions C10_block_comment_partial.
Example C10_block_comment_ex :
  exists tk tk2, lex (t "/* a // **/ b") = Lexed [tk; tk2] /\
    source_text (t "/* a // **/ b") tk = t "/* a // **/".
Proof. do 2 eexists. vm_compute. split; reflexivity. Qed.

(** Every comment token begins with one of the two openings. *)
Theorem C10_only_comments :
  forall content tk, In tk (produced content) -> tk_kind tk = COMMENT ->
    exists r, source_text content tk = t "//" ++ r \/ source_text content tk = t "/*" ++ r.
Proof.
  intros content tk I K. pose proof (produced_lexeme _ _ I) as X. rewrite K in X. exact (comment_shape _ _ X).
Qed.
Print Assumptions C10_only_comments.

(** The closing [*/] should come after the opening [/*]: it need not. *)
Theorem C10_block_comment_refuted :
  exists content tk tk2 (r : text),
    lex content = Lexed [tk; tk2] /\ source_text content tk = t "/*" ++ r /\ ~ contains (t "*/") r.
Proof.
  exists (t "/*/ x"). do 2 eexists. exists (t "/"). split; [vm_compute; reflexivity|].
  split; [vm_compute; reflexivity|]. intros (x & y & E).
  apply (f_equal (@List.length _)) in E. rewrite !app_length in E. cbn in E. lia.
Qed.
Print Assumptions C10_block_comment_refuted.

(** ** C11 *)

(** Missing for the full property: ranges that end in a newline, and ranges
    on line 2 or 3 when a newline is among the first two characters. *)
Theorem C11_end_location_partial :
  forall content r,
    0 <= sr_start r <= sr_end r -> sr_end r < Z.of_nat (List.length content) ->
    located content (Z.to_nat (sr_start r)) (sr_line r) (sr_col r) ->
    char_in content (sr_end r) <> Some newline ->
    (exists n, 2 <= n <= sr_end r /\ char_in content n = Some newline) \/
    (char_in content 0 <> Some newline /\ char_in content 1 <> Some newline) ->
    located content (Z.to_nat (sr_end r)) (fst (get_end_location content r)) (snd (get_end_location content r)).
Proof. exact end_location_right. Qed.
Print Assumptions C11_end_location_partial.
Example C11_end_location_ex :
  get_end_location (t "ab" ++ [10%N] ++ t "cde") (Sref 1 2 1 5) = (2, 3).
Proof. vm_compute. reflexivity. Qed.

Theorem C11_end_location_refuted :
  exists content r, 0 <= sr_start r <= sr_end r /\ sr_end r < Z.of_nat (List.length content) /\
    located content (Z.to_nat (sr_start r)) (sr_line r) (sr_col r) /\
    ~ located content (Z.to_nat (sr_end r)) (fst (get_end_location content r)) (snd (get_end_location content r)).
Proof.
  exists ([10%N] ++ t "ab"), (Sref 2 1 1 2). cbn [sr_start sr_end sr_line sr_col].
  split; [lia|]. split; [cbn; lia|]. split.
  - exists [10%N], []. repeat split; auto. right. exists []. reflexivity.
  - intros H.
    assert (L : located ([10%N] ++ t "ab") (Z.to_nat 2) 2 2).
    { exists [10%N], [97%N]. repeat split; auto; [|right; exists []; reflexivity].
      intros [I|[]]. discriminate. }
    destruct (located_unique _ _ _ _ _ _ H L) as [_ C]. vm_compute in C. discriminate.
Qed.
Print Assumptions C11_end_location_refuted.

(** ** C43 *)

(** The excerpt shown with a message is the line on which the location starts,
    without its indentation, and the carets stand exactly under the part of
    the location on that line. *)
Theorem C43_excerpt :
  forall content r c,
    0 <= sr_start r <= sr_end r -> sr_end r < Z.of_nat (List.length content) ->
    char_in content (sr_start r) = Some c -> ~ white c ->
    exists pre post indent a m b rest,
      line_around content (Z.to_nat (sr_start r)) pre post /\
      pre = indent ++ a /\ Forall white indent /\ starts_dark (a ++ post) /\
      post = m ++ b /\
      slice content (sr_start r) (sr_end r) = m ++ rest /\ (rest = [] \/ exists x, rest = newline :: x) /\
      context_lines content r = (a ++ m ++ b, repeat 32%N (List.length a) ++ repeat 94%N (List.length m)).
Proof. exact context_lines_right. Qed.
Print Assumptions C43_excerpt.
Example C43_excerpt_ex :
  context_lines (t "x" ++ [10%N] ++ t "  a + bcd e" ++ [10%N]) (Sref 2 7 8 10) = (t "a + bcd e", t "    ^^^").
Proof. vm_compute. reflexivity. Qed.

(** All tokens meet the hypotheses of C43. *)
Theorem C43_tokens :
  forall content tk, In tk (produced content) ->
    exists c, char_in content (tk_start tk) = Some c /\ ~ white c.
Proof.
  intros content tk I. pose proof (produced_at _ _ I) as (A1 & A2 & A3).
  pose proof (produced_lexeme _ _ I) as X.
  destruct (source_text content tk) as [|c r] eqn:S.
  - exfalso. exact (lexeme_nonempty _ _ _ X eq_refl).
  - exists c. split; [|exact (lexeme_not_white _ _ _ _ X)].
    unfold char_in. rewrite A1. rewrite nth_error_app2 by lia.
    replace (Z.to_nat (tk_start tk) - List.length (firstn (Z.to_nat (tk_start tk)) content))%nat with 0%nat by lia.
    reflexivity.
Qed.
Print Assumptions C43_tokens.
