(** Counterexamples can be read back: rendered values are the notation of the
    value. *)
From Coq Require Import QArith Qreduction Lia ZifyBool ZifyNat ZifyN.
From Verif Require Import Base Lexer SymTab Ast Eval LexSpec LexerValues LexerThm LexerProps ParserBase ParserExpr ParserValue ParserProofs ValueSyntax Counter CounterProofs.
Open Scope Z_scope.

(** ** Reading text in context

    [pieces after txt xs]: [txt], followed by [after], consists of the tokens
    [xs]. *)
Inductive pieces (after : text) : text -> list (text * kind) -> Prop :=
| pc_none : pieces after [] []
| pc_token ws x k rest xs : Forall white ws -> lexeme x (rest ++ after) k -> pieces after rest xs -> pieces after (ws ++ x ++ rest) ((x, k) :: xs).

Lemma pieces_app after x y xs ys : pieces (y ++ after) x xs -> pieces after y ys -> pieces after (x ++ y) (xs ++ ys).
Proof.
  induction 1; intros Y; cbn; auto. rewrite <- !app_assoc. apply pc_token; auto. rewrite <- app_assoc. auto.
Qed.
Lemma piece_one after x k : lexeme x after k -> pieces after x [(x, k)].
Proof. intros L. rewrite <- (app_nil_r x) at 1. apply (pc_token after [] x k [] []); auto. apply pc_none. Qed.

(** A token that is read from a piece. *)
Definition reads (x : text * kind) (tk : token) : Prop := tk_kind tk = snd x /\ token_denotes (fst x) (snd x) (tk_value tk).

Lemma pieces_segmented content xs : forall txt pre, content = pre ++ txt -> pieces [] txt xs ->
  exists toks, segmented (Z.of_nat (List.length pre)) txt toks /\ Forall2 (fun x tk => tk_kind tk = snd x /\ source_text content tk = fst x) xs toks.
Proof.
  induction xs as [|[x k] xs IH]; intros txt pre E P; inversion P; subst.
  - exists []. split; constructor. constructor.
  - match goal with H : lexeme _ _ _ |- _ => rewrite app_nil_r in H end. destruct (IH rest (pre ++ ws ++ x)) as (toks & S & F); auto; [rewrite <- !app_assoc; auto|].
    set (s := Z.of_nat (List.length pre) + Z.of_nat (List.length ws)). exists (Token k VNone 1 1 s (s + Z.of_nat (List.length x) - 1) :: toks). split.
    + apply seg_token; cbn; auto. replace (s + Z.of_nat (List.length x) - 1 + 1) with (Z.of_nat (List.length (pre ++ ws ++ x))); auto.
      unfold s. rewrite !app_length. lia.
    + constructor; auto. cbn. split; auto. unfold source_text. cbn.
      replace (Z.to_nat (s + Z.of_nat (List.length x) - 1 - s + 1)) with (List.length x + 0)%nat by lia.
      replace (Z.to_nat s) with (List.length (pre ++ ws) + 0)%nat by (unfold s; rewrite app_length; lia).
      rewrite app_assoc, skipn_app, skipn_all2 by lia. cbn. replace (_ + 0 - _)%nat with 0%nat by lia. cbn.
      rewrite firstn_app_2. cbn. apply app_nil_r.
Qed.
Lemma pieces_lexed txt xs : pieces [] txt xs -> exists toks, lex txt = Lexed toks /\ Forall2 reads xs toks.
Proof.
  intros P. destruct (pieces_segmented txt xs txt [] eq_refl P) as (ts & S & F). destruct (lex_accepts _ _ S) as (toks & L & M).
  exists toks. split; auto. assert (I : forall tk, In tk toks -> token_denotes (source_text txt tk) (tk_kind tk) (tk_value tk)).
  { intros tk I. apply produced_denotes. unfold produced. rewrite L. auto. }
  clear - F M I. revert toks M I. induction F as [|x tk xs ts [K S] F IH]; intros [|tk' toks] M I; try discriminate; constructor.
  - cbn in M. injection M as M1 M2 M3 M. unfold reads. rewrite <- K, <- M1. split; auto. specialize (I tk' (or_introl eq_refl)).
    unfold source_text in *. rewrite M2, M3 in I. rewrite S in I. auto.
  - cbn in M. injection M as M1 M2 M3 M. apply IH; auto. intros; apply I; cbn; auto.
Qed.

(** What follows a value: nothing, or a delimiter. *)
Definition closes (after : text) : Prop := match after with [] => True | c :: _ => In c (t ",)]@:;") end.
Lemma closes_number after : closes after -> number_ends hexadecimal after.
Proof. destruct after as [|c a]; cbn; auto. intros H. unfold hexadecimal, digit, hex_letter. intuition; subst; cbn in *; lia. Qed.
Lemma closes_word after : closes after -> match after with [] => True | d :: _ => ~ ident_char d end.
Proof. destruct after as [|c a]; cbn; auto. intros H. unfold ident_char, letter, digit. intuition; subst; cbn in *; lia. Qed.
Definition plain_delimiters : list text := [t "("; t ")"; t "["; t "]"; t ","; t "@"; t ":"; t ";"].
Lemma plain_longest d after : In d plain_delimiters -> longest_delimiter d after.
Proof.
  intros I. destruct after as [|c a]; cbn; auto. split; [|split].
  - intros k H. cbn in I. decompose [or] I; subst; cbn in H; try contradiction; inversion H.
  - cbn in I. decompose [or] I; subst; cbn; try contradiction; discriminate.
  - cbn in I. decompose [or] I; subst; cbn; try contradiction; discriminate.
Qed.
Lemma piece_plain d k after : In d plain_delimiters -> delimiter d k -> pieces after d [(d, k)].
Proof. intros I D. apply piece_one. apply lx_delimiter; auto. apply plain_longest; auto. Qed.
Lemma white_32 : white 32%N.
Proof. unfold white. lia. Qed.

Lemma reads_integer x tk z : reads (x, INTEGER) tk -> int_denotes x z -> tk_kind tk = INTEGER /\ tk_value tk = VInt z.
Proof. intros [K D] I. cbn in *. destruct (td_integer_inv _ _ D) as (z' & E & I'). split; auto. rewrite E. f_equal. eapply int_denotes_unique; eauto. Qed.
Lemma reads_decimal x tk q : reads (x, DECIMAL) tk -> dec_denotes x q -> tk_kind tk = DECIMAL /\ exists q', tk_value tk = VDec q' /\ (q' == q)%Q.
Proof. intros [K D] I. cbn in *. destruct (td_decimal_inv _ _ D) as (q' & E & I'). split; auto. exists q'. split; auto. eapply dec_denotes_unique; eauto. Qed.
Lemma reads_word x k tk : reads (x, k) tk -> k = IDENTIFIER \/ k = KEYWORD -> tk_kind tk = k /\ tk_value tk = VText x.
Proof. intros [K D] I. cbn in *. split; auto. eapply word_value; eauto. Qed.
Lemma reads_minus tk : reads (t "-", OPERATOR) tk -> sign tk U_minus.
Proof. intros [K D]. cbn in *. apply sign_minus; auto. inversion D; subst; auto; congruence. Qed.
Lemma quote_body s : ~ In newline s -> ~ In 34%N s -> (forall x, s <> x ++ [92%N]) -> string_body s.
Proof. intros A B C. repeat split; auto. intros x y ->. exfalso. apply B. apply in_app_iff. cbn. auto. Qed.
Lemma quote_unescaped s : ~ In 34%N s -> unescaped s s.
Proof.
  induction s as [|c s IH]; intros N; constructor.
  - intros [-> (s' & ->)]. apply N. cbn. auto.
  - apply IH. intros I. apply N. cbn. auto.
Qed.
Lemma reads_string s after tk : string_body s -> ~ In 34%N s -> closes after -> reads (t """" ++ s ++ t """", STRING) tk -> lexeme (t """" ++ s ++ t """") after STRING ->
  tk_kind tk = STRING /\ tk_value tk = VText s.
Proof.
  intros B N C [K D] L. cbn [fst snd] in *. split; auto. destruct (string_token_value s after STRING B) with (v := tk_value tk) as (s' & U & E); auto.
  - intros (_ & r & ->). cbn in C. intuition discriminate.
  - rewrite E. f_equal. eapply unescaped_unique; eauto. apply quote_unescaped; auto.
Qed.
Definition word (s : text) : Prop := (exists c r, s = c :: r /\ letter c /\ Forall ident_char r) /\ ~ In s reserved.
Lemma word_lexeme s after : word s -> match after with [] => True | d :: _ => ~ ident_char d end -> lexeme s after IDENTIFIER.
Proof. intros [(c & r & -> & L & F) R] A. apply lx_word; auto. Qed.

Section READ.
Variable file : Z.
Variable src : text.
Variable G : types.
Variable objs : list object.
Variable N : names.
Variable package_name : nat -> text.
Variable own : nat.
Notation value := (ValueSyntax.value file src G objs N false).
Notation listed := (ValueSyntax.listed file src G objs N false).
Notation elements := (ValueSyntax.elements file src G objs N false).
Notation separated := (ValueSyntax.separated file src G objs N false).

(** An optional field that has no value. *)
Definition missing (d : list (text * (bool * sval))) (c : component) : Prop := c_opt c = true /\ exists x, assoc (c_name c) d = Some (false, x).
Definition symbol (s : separator) : Prop := match s with Sep_word _ => False | _ => True end.

(** The values of the solver for which the notation is exact. *)
Inductive readable : ty -> sval -> Prop :=
| rd_int z : readable TInt (S_int z)
| rd_frac q : finite_decimal (QDen (Qred q)) -> readable TDec (S_frac q)
| rd_bool b : readable TBool (S_bool b)
| rd_str s : ~ In newline s -> ~ In 34%N s -> (forall x, s <> x ++ [92%N]) -> readable TStr (S_text s)
| rd_enum e en s : nth_error (enums G) e = Some en -> word (en_name en) -> word s ->
    t_find (enum_literals G e) s = Some (s, s) ->
    (* the name of the type alone denotes it *)
    (forall tk, tk_kind tk = IDENTIFIER -> tk_value tk = VText (en_name en) -> s_lookup file (default_scope N) tk None = Ok (N_type (TEnum e))) ->
    readable (TEnum e) (S_text s)
| rd_arr i lo hi el vs : (forall v, In v vs -> readable el v) -> lo <= Z.of_nat (List.length vs) ->
    (forall h, hi = Some h -> Z.of_nat (List.length vs) <= h) -> readable (TArr i lo hi el) (S_list vs)
| rd_tup u ut d : tup G u = Some ut -> (forall s, In s (u_seps ut) -> symbol s) ->
    (forall c, In c (u_comps ut) -> exists valid x, assoc (c_name c) d = Some (valid, x) /\ (c_opt c = false \/ valid = true -> readable (c_typ c) x)) ->
    (forall cs c cs' c' cs'', u_comps ut = cs ++ c :: cs' ++ c' :: cs'' -> missing d c -> missing d c') ->
    readable (TTup u) (S_dict d).

(** A value of the language is the value of the solver. *)
Inductive shows : vexpr -> sval -> Prop :=
| sw_int l z : shows (XLit l (LInt z) []) (S_int z)
| sw_minus_int l l' a z : shows (XUnary l a U_minus (XLit l' (LInt z) [])) (S_int (- z))
| sw_dec l q q' : (q == q')%Q -> shows (XLit l (LDec q) []) (S_frac q')
| sw_minus_dec l l' a q q' : (- q == q')%Q -> shows (XUnary l a U_minus (XLit l' (LDec q) [])) (S_frac q')
| sw_bool l b : shows (XLit l (LBool b) []) (S_bool b)
| sw_str l s : shows (XLit l (LStr s false) []) (S_text s)
| sw_enum l e s : shows (XLit l (LEnum e s) []) (S_text s)
| sw_arr l a xs vs : Forall2 shows xs vs -> shows (XArr l a xs) (S_list vs)
| sw_tup l u fs d : (forall n x, In (n, x) fs -> exists valid v, assoc n d = Some (valid, v) /\ (shows x v \/ valid = false /\ exists l', x = XNull l')) ->
    shows (XTup l u fs) (S_dict d).
Definition fields_show (fs : list (text * vexpr)) (d : list (text * (bool * sval))) : Prop :=
  forall n x, In (n, x) fs -> exists valid v, assoc n d = Some (valid, v) /\ (shows x v \/ valid = false /\ exists l', x = XNull l').

(** The text [s] is notation for [v]. *)
Definition notation_for (a : ty) (v : sval) (s : text) : Prop :=
  exists xs, xs <> [] /\ (forall after, closes after -> pieces after s xs) /\
    forall toks, Forall2 reads xs toks -> exists x, value a x toks [] /\ shows x v.

Lemma signed_notation (a : ty) v (neg : bool) lit k (lit_of : token -> Ast.lit) :
  (a = TInt \/ a = TDec) -> (forall after, closes after -> lexeme lit after k) -> (exists c r, lit = c :: r /\ digit c) ->
  (forall tk, reads (lit, k) tk -> value a (XLit (tok_loc file tk) (lit_of tk) []) [tk] [] /\
     forall l l', shows (if neg then XUnary l' (Some a) U_minus (XLit l (lit_of tk) []) else XLit l (lit_of tk) []) v) ->
  notation_for a v (minus_if neg ++ lit).
Proof.
  intros A L (c & r & E & Dc) V. destruct neg; cbn [minus_if].
  - exists [(t "-", OPERATOR); (lit, k)]. split; [discriminate|]. split.
    + intros after C. apply (pieces_app after (t "-") lit [_] [_]); [|apply piece_one; auto].
      apply piece_one. apply lx_delimiter; [constructor|]. subst lit. cbn. unfold digit in Dc. split; [|split].
      * intros k' H. inversion H.
      * discriminate.
      * discriminate.
    + intros toks F. inversion F as [|? tm ? ? R1 F1]; subst. inversion F1 as [|? tk ? ? R2 F2]; subst. inversion F2; subst.
      destruct (V tk R2) as [X Y]. eexists. split; [apply v_sign; eauto; apply reads_minus; auto|]. apply Y.
  - exists [(lit, k)]. split; [discriminate|]. split; [intros; apply piece_one; auto|].
    intros toks F. inversion F as [|? tk ? ? R1 F1]; subst. inversion F1; subst. destruct (V tk R1) as [X Y]. eexists. split; [exact X|]. apply (Y _ (tok_loc file tk)).
Qed.
Lemma groups_head r : digit_groups digit r -> exists c r', r = c :: r' /\ digit c.
Proof. destruct 1; eauto. Qed.
Lemma integer_notation z : notation_for TInt (S_int z) (str_int z).
Proof.
  destruct (integer_ok z) as (lit & -> & D & I). apply (signed_notation TInt _ _ lit INTEGER (fun tk => LInt (match tk_value tk with VInt z => z | _ => 0 end))); auto.
  - intros after C. apply lx_integer; auto; [apply closes_number; auto|]. intros (_ & x & y & -> & X). cbn in C. intuition; subst; discriminate.
  - apply groups_head; auto.
  - intros tk R. destruct (reads_integer _ _ _ R I) as [K V]. rewrite V. split; [apply v_int; auto|]. intros l l'.
    destruct (z <? 0) eqn:E; [|rewrite Z.abs_eq by lia; constructor]. replace z with (- Z.abs z) at 2 by lia. constructor.
Qed.
Lemma decimal_notation q : finite_decimal (QDen (Qred q)) ->
  exists s, fraction_to_decimal_string (Qnum (Qred q)) (QDen (Qred q)) = Ok s /\ notation_for TDec (S_frac q) s.
Proof.
  intros F. destruct (fraction_ok (Qnum (Qred q)) (QDen (Qred q)) ltac:(lia)) as [(_ & lit & E & r1 & r2 & L & D1 & D2 & I)|(X & _)]; [|contradiction].
  exists (minus_if (Qnum (Qred q) <? 0) ++ lit). split; auto.
  apply (signed_notation TDec _ _ lit DECIMAL (fun tk => LDec (match tk_value tk with VDec z => z | _ => 0%Q end))); auto.
  - intros after C. rewrite L. apply lx_decimal; auto. apply closes_number; auto.
  - destruct (groups_head _ D1) as (c & r' & -> & Dc). rewrite L. cbn. eauto.
  - intros tk R. destruct (reads_decimal _ _ _ R I) as [K (q' & V & Q)]. rewrite V. split; [apply v_dec; auto|]. intros l l'.
    assert (Y : (q == Qred q)%Q) by (symmetry; apply Qred_correct). destruct (Qred q) as [n d]. cbn [Qnum Qden] in *.
    assert (Z : (inject_Z (Z.abs n) / inject_Z (Zpos d) == Z.abs n # d)%Q) by (unfold Qeq, Qdiv, Qmult, Qinv, inject_Z; cbn; lia).
    destruct (n <? 0) eqn:S; constructor; rewrite Q, Z, Y; unfold Qeq; cbn; lia.
Qed.
Lemma string_notation s : ~ In newline s -> ~ In 34%N s -> (forall x, s <> x ++ [92%N]) -> notation_for TStr (S_text s) (t """" ++ s ++ t """").
Proof.
  intros A B C. pose proof (quote_body s A B C) as Y. assert (L : forall after, closes after -> lexeme (t """" ++ s ++ t """") after STRING).
  { intros after H. apply lx_string; auto. intros (_ & r & ->). cbn in H. intuition discriminate. }
  exists [(t """" ++ s ++ t """", STRING)]. split; [discriminate|]. split; [intros; apply piece_one; auto|].
  intros toks F. inversion F as [|? tk ? ? R F1]; subst. inversion F1; subst. destruct (reads_string s [] tk Y B I R (L [] I)) as [K V].
  eexists. split; [apply v_str; auto|]. unfold tok_text. rewrite V. constructor.
Qed.
Lemma bool_notation b : notation_for TBool (S_bool b) (if b then t "true" else t "false").
Proof.
  exists [((if b then t "true" else t "false"), KEYWORD)]. split; [discriminate|]. split.
  - intros after C. apply piece_one. apply closes_word in C. destruct b; apply lx_word; auto; try (unfold letter; cbn; lia);
      try (repeat constructor; unfold ident_char, letter; cbn; lia); left; split; auto; cbn; tauto.
  - intros toks F. inversion F as [|? tk ? ? R F1]; subst. inversion F1; subst. destruct (reads_word _ _ _ R (or_intror eq_refl)) as [K V].
    eexists. split; [apply (v_bool _ _ _ _ _ _ tk b); auto|]. constructor.
Qed.
Lemma enum_notation e en s : nth_error (enums G) e = Some en -> word (en_name en) -> word s -> t_find (enum_literals G e) s = Some (s, s) ->
  (forall tk, tk_kind tk = IDENTIFIER -> tk_value tk = VText (en_name en) -> s_lookup file (default_scope N) tk None = Ok (N_type (TEnum e))) ->
  notation_for (TEnum e) (S_text s) (en_name en ++ t "." ++ s).
Proof.
  intros E W1 W2 T L. exists [(en_name en, IDENTIFIER); (t ".", DOT); (s, IDENTIFIER)]. split; [discriminate|]. split.
  - intros after C. apply (pieces_app after (en_name en) _ [_] [_; _]).
    + apply piece_one. apply word_lexeme; auto. cbn. unfold ident_char, letter, digit. lia.
    + apply (pieces_app after (t ".") s [_] [_]).
      * apply piece_one. apply lx_delimiter; [constructor|]. destruct W2 as [(c & r & -> & Lc & _) _]. cbn. unfold letter in Lc. split; [|split; discriminate].
        intros k H. inversion H; subst; lia.
      * apply piece_one. apply word_lexeme; auto. apply closes_word; auto.
  - intros toks F. inversion F as [|? t1 ? ? R1 F1]; subst. inversion F1 as [|? t2 ? ? R2 F2]; subst. inversion F2 as [|? t3 ? ? R3 F3]; subst. inversion F3; subst.
    destruct (reads_word _ _ _ R1 (or_introl eq_refl)) as [K1 V1]. destruct (reads_word _ _ _ R3 (or_introl eq_refl)) as [K3 V3]. destruct R2 as [K2 _].
    assert (X : tok_text t3 = s) by (unfold tok_text; rewrite V3; auto).
    eexists. split; [apply (v_enum _ _ _ _ _ _ e [t1] t2 t3); auto; [constructor; auto|rewrite X; auto]|]. rewrite X. constructor.
Qed.

Lemma comma_pieces x after xs : xs <> [] -> pieces after x xs -> pieces after (t ", " ++ x) ((t ",", COMMA) :: xs).
Proof.
  intros X P. apply (pieces_app after (t ",") (t " " ++ x) [_] xs); [apply piece_plain; [cbn; tauto|constructor]|].
  inversion P; subst; [contradiction|]. rewrite app_assoc. apply pc_token; auto. apply Forall_app. split; auto. constructor; auto. apply white_32.
Qed.
(** Between brackets. *)
Lemma bracket_pieces bra kb ket kk x xs after : In bra plain_delimiters -> delimiter bra kb -> In ket plain_delimiters -> delimiter ket kk -> closes (ket ++ after) ->
  (forall after, closes after -> pieces after x xs) -> pieces after (bra ++ x ++ ket) ((bra, kb) :: xs ++ [(ket, kk)]).
Proof.
  intros A B C D E P. apply (pieces_app after bra (x ++ ket) [_] (xs ++ [_])); [apply piece_plain; auto|].
  apply pieces_app; [auto|apply piece_plain; auto].
Qed.
Lemma elements_notation el vs : forall ss, Forall2 (notation_for el) vs ss ->
  exists xs, (vs <> [] -> xs <> []) /\ (forall after, closes after -> pieces after (join (t ", ") ss) xs) /\
    forall toks, Forall2 reads xs toks -> exists ys, elements el ys toks [] /\ Forall2 shows ys vs.
Proof.
  induction vs as [|v vs IH]; intros ss F; inversion F as [|? s ? ss' (xs & NE & P & V) F']; subst.
  - exists []. split; auto. split; [intros; apply pc_none|]. intros toks R. inversion R; subst. exists []. split; constructor.
  - destruct vs as [|v2 vs].
    + inversion F'; subst. exists xs. split; auto. split; auto. intros toks R. destruct (V toks R) as (x & X & Y). exists [x]. split; [constructor; auto|repeat constructor; auto].
    + destruct (IH _ F') as (ys & NE' & P' & V'). specialize (NE' ltac:(discriminate)). exists (xs ++ (t ",", COMMA) :: ys). split; [destruct xs; discriminate|]. split.
      * intros after C. inversion F'; subst. cbn [join]. apply pieces_app; [apply P; cbn; auto|]. apply comma_pieces; auto.
      * intros toks R. apply Forall2_app_inv_l in R as (t1 & t2 & R1 & R2 & ->). inversion R2 as [|? tc ? t3 Rc R3]; subst.
        destruct (V _ R1) as (x & X & Y). destruct (V' _ R3) as (zs & X' & Y'). exists (x :: zs). split; [|constructor; auto].
        apply (el_more _ _ _ _ _ _ el x t1 [] tc zs t3 []); auto; [apply Rc|]. intros _ ->. inversion Y'.
Qed.
Lemma listed_notation d cs : forall ss, cs <> [] ->
  Forall2 (fun c s => exists valid v, assoc (c_name c) d = Some (valid, v) /\ notation_for (c_typ c) v s) cs ss ->
  exists xs, xs <> [] /\ (forall after, closes after -> pieces after (join (t ", ") ss) xs) /\
    forall toks, Forall2 reads xs toks -> exists fs, listed cs fs toks [] /\ fields_show fs d.
Proof.
  induction cs as [|c cs IH]; intros ss NE0 F; [contradiction|]. inversion F as [|? s ? ss' (valid & v & A & xs & NE & P & V) F']; subst. destruct cs as [|c2 cs].
  - inversion F'; subst. exists xs. split; auto. split; auto. intros toks R. destruct (V toks R) as (x & X & Y). exists [(c_name c, x)]. split; [constructor; auto|].
    intros n y [E|[]]. injection E as <- <-. eauto 10.
  - destruct (IH _ ltac:(discriminate) F') as (ys & NE' & P' & V'). exists (xs ++ (t ",", COMMA) :: ys). split; [destruct xs; discriminate|]. split.
    + intros after C. inversion F'; subst. cbn [join]. apply pieces_app; [apply P; cbn; auto|]. apply comma_pieces; auto.
    + intros toks R. apply Forall2_app_inv_l in R as (t1 & t2 & R1 & R2 & ->). inversion R2 as [|? tc ? t3 Rc R3]; subst.
      destruct (V _ R1) as (x & X & Y). destruct (V' _ R3) as (fs & X' & Y'). exists ((c_name c, x) :: fs). split.
      * apply (ls_more _ _ _ _ _ _ c (c2 :: cs) x t1 [] tc fs t3 []); auto. apply Rc.
      * intros n y [E|I]; [injection E as <- <-; eauto 10|auto].
Qed.
Definition sep_kind (s : separator) : kind := match s with Sep_at => AT | Sep_colon => COLON | Sep_semicolon => SEMICOLON | Sep_word _ => IDENTIFIER end.
Lemma symbol_plain s : symbol s -> In (sep_text s) plain_delimiters /\ delimiter (sep_text s) (sep_kind s) /\ forall x, closes (sep_text s ++ x).
Proof. destruct s; cbn; intros H; try contradiction; (split; [cbn; tauto|split; [constructor|intros; cbn; tauto]]). Qed.
Lemma symbol_separates s tk : symbol s -> tk_kind tk = sep_kind s -> separates s tk.
Proof. destruct s; cbn; intros H K; try contradiction; constructor; auto. Qed.
Lemma join_none l : join [] l = concat l.
Proof. induction l as [|x [|y l] IH]; cbn in *; auto; [rewrite app_nil_r; auto|]. rewrite IH. auto. Qed.
Lemma missing_all d cs : (forall a c b c' e, cs = a ++ c :: b ++ c' :: e -> missing d c -> missing d c') -> forall c cs', cs = c :: cs' -> missing d c -> forall c', In c' cs -> missing d c'.
Proof.
  intros H c cs' -> M c' [<-|I]; auto. apply in_split in I as (b & e & ->). apply (H [] c b c' e); auto.
Qed.
Lemma nulls_show d l cs : (forall c, In c cs -> missing d c) -> fields_show (nulls l cs) d.
Proof.
  intros M n x I. apply in_map_iff in I as (c & E & I). injection E as <- <-. destruct (M c I) as [_ (v & A)]. exists false, v. split; auto. right. eauto.
Qed.
Lemma separated_notation (show : ty -> sval -> res unit text) d cs : forall seps acc ps,
  List.length cs = S (List.length seps) -> (forall s, In s seps -> symbol s) ->
  (forall c, In c cs -> exists valid x, assoc (c_name c) d = Some (valid, x) /\
     (c_opt c = false \/ valid = true -> forall s, show (c_typ c) x = Ok s -> notation_for (c_typ c) x s)) ->
  (forall a c b c' e, cs = a ++ c :: b ++ c' :: e -> missing d c -> missing d c') ->
  (forall c cs', cs = c :: cs' -> ~ missing d c) ->
  tuple_parts show (sequence_from cs seps) d acc = Ok ps ->
  exists qs xs, ps = acc ++ qs /\ xs <> [] /\ (forall after, closes after -> pieces after (concat qs) xs) /\
    forall l toks, Forall2 reads xs toks -> exists fs, separated false l cs seps fs toks [] /\ fields_show fs d.
Proof.
  induction cs as [|c cs IH]; intros seps acc ps L S H Mi F T; [discriminate|].
  destruct (H c (or_introl eq_refl)) as (valid & x & A & Sh). cbn in T. rewrite A in T. specialize (F c cs eq_refl).
  assert (E : c_opt c && negb valid = false) by (destruct (c_opt c) eqn:O, valid; auto; exfalso; apply F; split; eauto).
  rewrite E in T. apply bind_ok in T as (s & Es & T). destruct (Sh ltac:(destruct (c_opt c), valid; auto; discriminate) s Es) as (xs & NE & P & V).
  destruct cs as [|c2 cs].
  - destruct seps; [|discriminate]. cbn in T. injection T as <-. exists [s], xs. split; auto. split; auto. cbn [concat]. rewrite app_nil_r. split; auto.
    intros l toks R. destruct (V toks R) as (y & Y & Z). exists [(c_name c, y)]. split; [constructor; auto|]. intros n w [I|[]]. injection I as <- <-. eauto 10.
  - destruct seps as [|sp seps]; [discriminate|]. cbn [sequence_from tuple_parts] in T.
    assert (Mi' : forall a c b c' e, c2 :: cs = a ++ c :: b ++ c' :: e -> missing d c -> missing d c') by (intros a c0 b c' e X; apply (Mi (c :: a) c0 b c' e); cbn; congruence).
    destruct (H c2 (or_intror (or_introl eq_refl))) as (valid2 & x2 & A2 & _).
    destruct (c_opt c2 && negb valid2) eqn:E2.
    + rewrite A2, E2 in T. assert (M2 : missing d c2) by (destruct (c_opt c2) eqn:O, valid2; try discriminate; split; eauto).
      assert (All : forall c', In c' (c2 :: cs) -> missing d c') by (eapply missing_all; eauto).
      unfold pop in T. assert (ps = acc ++ [s]) as ->.
      { rewrite removelast_last in T. destruct ((acc ++ [s]) ++ [sep_text sp]) eqn:Z; [destruct (acc ++ [s]); discriminate|congruence]. }
      exists [s], xs. split; auto. split; auto. cbn [concat]. rewrite app_nil_r. split; auto.
      intros l toks R. destruct (V toks R) as (y & Y & Z). exists ((c_name c, y) :: nulls l (c2 :: cs)). split.
      * apply sq_omitted; auto. intros c' I. apply (All c' I).
      * intros n w [I|I]; [injection I as <- <-; eauto 10|]. eapply nulls_show; eauto.
    + assert (T' : tuple_parts show (sequence_from (c2 :: cs) seps) d ((acc ++ [s]) ++ [sep_text sp]) = Ok ps).
      { cbn [sequence_from tuple_parts]. exact T. }
      apply IH in T' as (qs & ys & -> & NE' & P' & V').
      * destruct (symbol_plain sp (S sp (or_introl eq_refl))) as (S1 & S2 & S3).
        exists (s :: sep_text sp :: qs), (xs ++ (sep_text sp, sep_kind sp) :: ys). split; [rewrite <- !app_assoc; auto|]. split; [destruct xs; discriminate|]. split.
        -- intros after C. cbn [concat]. apply pieces_app; [rewrite <- app_assoc; apply P; apply S3|]. apply (pieces_app after _ _ [_] ys); [apply piece_plain; auto|auto].
        -- intros l toks R. apply Forall2_app_inv_l in R as (t1 & t2 & R1 & R2 & ->). inversion R2 as [|? tc ? t3 Rc R3]; subst.
           destruct (V _ R1) as (y & Y & Z). destruct (V' l _ R3) as (fs & Y' & Z'). exists ((c_name c, y) :: fs). split.
           ++ apply (sq_more _ _ _ _ _ _ false l c (c2 :: cs) sp seps y t1 [] tc fs t3 []); auto. apply symbol_separates; [apply S; cbn; auto|apply Rc].
           ++ intros n w [I|I]; [injection I as <- <-; eauto 10|auto].
      * cbn in L |- *. lia.
      * intros; apply S; cbn; auto.
      * intros; apply H; cbn; auto.
      * auto.
      * intros c' cs' X. injection X as <- <-. intros (O & z & Az). rewrite A2 in Az. injection Az as -> ->. rewrite O in E2. discriminate.
Qed.
Lemma generic_parts (show : ty -> sval -> res unit text) d cs : forall acc ps,
  (forall c, In c cs -> c_opt c = false /\ exists valid x, assoc (c_name c) d = Some (valid, x) /\ forall s, show (c_typ c) x = Ok s -> notation_for (c_typ c) x s) ->
  tuple_parts show (sequence_from cs []) d acc = Ok ps ->
  exists qs, ps = acc ++ qs /\ Forall2 (fun c s => exists valid v, assoc (c_name c) d = Some (valid, v) /\ notation_for (c_typ c) v s) cs qs.
Proof.
  induction cs as [|c cs IH]; intros acc ps H T; cbn in T.
  - injection T as <-. exists []. rewrite app_nil_r. split; auto.
  - destruct (H c (or_introl eq_refl)) as (O & valid & x & A & Sh). rewrite A, O in T. cbn in T. apply bind_ok in T as (s & Es & T).
    apply IH in T as (qs & -> & F); [|intros; apply H; cbn; auto]. exists (s :: qs). rewrite <- app_assoc. split; auto. constructor; eauto 10.
Qed.
Lemma show_all_each (show : sval -> res unit text) (P : sval -> text -> Prop) vs : forall ss, (forall v s, In v vs -> show v = Ok s -> P v s) -> show_all show vs = Ok ss -> Forall2 P vs ss.
Proof.
  induction vs as [|v vs IH]; intros ss H E; cbn in E; [injection E as <-; constructor|].
  apply bind_ok in E as (s & E1 & E). apply bind_ok in E as (ss' & E2 & E). injection E as <-. constructor; [apply H; cbn; auto|]. apply IH; auto. intros; apply H; cbn; auto.
Qed.
Lemma first_of xs toks : xs <> [] -> Forall2 reads xs toks -> exists l, first_loc file toks l.
Proof. intros NE F. destruct F; [contradiction|]. eexists. red. eauto. Qed.

Lemma value_notation (T : tuples_ok G) fuel : forall a v s, readable a v -> value_to_trlc G package_name own fuel a v = Ok s -> notation_for a v s.
Proof.
  induction fuel as [|fuel IH]; intros a v s R E; [discriminate|]. cbn [value_to_trlc] in E. inversion R; subst.
  - injection E as <-. apply integer_notation.
  - destruct (decimal_notation q H) as (s' & E' & X). rewrite E' in E. injection E as <-. auto.
  - injection E as <-. apply bool_notation.
  - replace (existsb (N.eqb 10) s0) with false in E.
    + injection E as <-. apply string_notation; auto.
    + symmetry. apply Bool.not_true_is_false. intros X. apply existsb_exists in X as (c & I & X). apply N.eqb_eq in X. subst. auto.
  - rewrite H in E. injection E as <-. eapply enum_notation; eauto.
  - apply bind_ok in E as (ss & E1 & E). injection E as <-.
    assert (F : Forall2 (notation_for el) vs ss) by (eapply show_all_each; [|exact E1]; intros; eapply IH; eauto).
    destruct (elements_notation el vs ss F) as (xs & _ & P & V). exists ((t "[", S_BRA) :: xs ++ [(t "]", S_KET)]). split; [discriminate|]. split.
    + intros after C. apply (bracket_pieces (t "[") S_BRA (t "]") S_KET); auto; try constructor; cbn; tauto.
    + intros toks Rd. inversion Rd as [|? tb ? t1 Rb R1]; subst. apply Forall2_app_inv_l in R1 as (t2 & t3 & R2 & R3 & ->).
      inversion R3 as [|? tk ? ? Rk R4]; subst. inversion R4; subst. destruct (V _ R2) as (ys & Y & Z). assert (LY : List.length ys = List.length vs) by (clear - Z; induction Z; cbn; auto).
      eexists. split; [|apply sw_arr; exact Z].
      apply (v_arr _ _ _ _ _ _ i lo hi el tb ys t2 tk [] [] []); auto; [apply Rb|apply Rk|]. constructor.
      * rewrite LY. replace (_ <? lo) with false by lia. auto.
      * destruct hi as [h|]; auto. rewrite LY. specialize (H1 h eq_refl). replace (h <? _) with false by lia. rewrite andb_false_r. auto.
  - rewrite H in E. apply bind_ok in E as (ps & E1 & E). pose proof (T u ut H) as K. unfold iter_sequence in E1. destruct (u_seps ut) as [|sp seps] eqn:Sp.
    + injection E as <-. apply generic_parts in E1 as (qs & -> & F).
      * destruct (listed_notation d (u_comps ut) qs (to_some _ _ _ K) F) as (xs & _ & P & V). exists ((t "(", BRA) :: xs ++ [(t ")", KET)]). split; [discriminate|]. split.
        -- intros after C. apply (bracket_pieces (t "(") BRA (t ")") KET); auto; try constructor; cbn; tauto.
        -- intros toks Rd. inversion Rd as [|? tb ? t1 Rb R1]; subst. apply Forall2_app_inv_l in R1 as (t2 & t3 & R2 & R3 & ->).
           inversion R3 as [|? tk ? ? Rk R4]; subst. inversion R4; subst. destruct (V _ R2) as (fs & Y & Z).
           eexists. split; [|apply sw_tup; exact Z]. eapply v_generic; eauto; [apply Rb|apply Rk].
      * intros c I. pose proof (to_form _ _ _ K Sp c I) as O. split; auto. destruct (H1 c I) as (valid & x & A & X). exists valid, x. split; eauto.
    + injection E as <-. rewrite join_none. destruct (to_seps _ _ _ K) as [Z|LS]; [congruence|]. rewrite Sp in LS.
      apply separated_notation in E1 as (qs & xs & -> & NE & P & V); auto.
      * exists xs. split; auto. split; auto. intros toks Rd. destruct (first_of xs toks NE Rd) as (l & Fl). destruct (V l toks Rd) as (fs & Y & Z).
        eexists. split; [|apply sw_tup; exact Z]. eapply v_separated; eauto; rewrite Sp; auto. discriminate.
      * intros c I. destruct (H1 c I) as (valid & x & A & X). exists valid, x. split; eauto.
      * intros c cs' X (O & _). rewrite (to_first _ _ _ K c cs' X) in O. discriminate.
Qed.
End READ.
