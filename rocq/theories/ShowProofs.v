(** Expressions in messages: what can be read back. *)
From Coq Require Import Lia ZifyBool ZifyNat ZifyN.
From Verif Require Import Base Lexer SymTab Ast Eval LexSpec LexerValues LexerThm LexerProps ParserBase ParserExpr ExprSyntax ParserProofs ValueSyntax Counter CounterProofs CounterRead Show.
Open Scope Z_scope.

Section TEXT.
Variable G : types.
Notation to_string := (to_string G).

(** ** The same expression

    [same r e]: the tree [r] is that of [e].  Locations and types are not
    part of a tree. *)
Definition named (n : text) (tk : token) : Prop := tk_value tk = VText n.
Inductive same : raw -> expr -> Prop :=
| s_null tk l : keyword "null" tk -> same (R_lit tk) (ENull l)
| s_int tk l z : tk_value tk = VInt z -> same (R_lit tk) (ELit l (LInt z))
| s_enum tk tl l e en n : nth_error (enums G) e = Some en -> named (en_name en) tk -> named n tl -> same (R_name tk [(tl, None)]) (ELit l (LEnum e n))
| s_name tk l a n qv opt : named n tk -> same (R_name tk []) (EName l a n qv opt)
| s_field tk sels tf l c p b u : same (R_name tk sels) p -> named (c_name c) tf -> same (R_name tk (sels ++ [(tf, None)])) (EField l c p b u)
| s_index tk sels bra r l a p i : same (R_name tk sels) p -> same r i -> same (R_name tk (sels ++ [(bra, Some r)])) (EBinary l a B_index p i)
| s_unary tk op r l a e : same r e -> same (R_unary tk op r) (EUnary l a op e)
| s_len tk op r l a e : In op [U_strlen; U_arrlen] -> named (t "len") tk -> same r e -> same (R_call None tk [r]) (EUnary l a op e)
| s_integer tk r l a e : named (t "Integer") tk -> same r e -> same (R_call None tk [r]) (EUnary l a U_toint e)
| s_decimal tk r l a e : named (t "Decimal") tk -> same r e -> same (R_call None tk [r]) (EUnary l a U_todec e)
| s_starts tk r1 r2 l a x y : named (t "startswith") tk -> same r1 x -> same r2 y -> same (R_call None tk [r1; r2]) (EBinary l a B_starts x y)
| s_ends tk r1 r2 l a x y : named (t "endswith") tk -> same r1 x -> same r2 y -> same (R_call None tk [r1; r2]) (EBinary l a B_ends x y)
| s_matches tk r1 r2 l a x y : named (t "matches") tk -> same r1 x -> same r2 y -> same (R_call None tk [r1; r2]) (EBinary l a B_regex x y)
| s_binary tk op r1 r2 l a x y : same r1 x -> same r2 y -> same (R_binary tk op r1 r2) (EBinary l a op x y)
| s_member tk op r1 r2 l a x y : In op [B_contains; B_arrcontains] -> same r1 x -> same r2 y -> same (R_member None tk r1 r2) (EBinary l a op x y)
| s_range tk r1 r2 r3 l x lo hi : same r1 x -> same r2 lo -> same r3 hi -> same (R_range None tk r1 r2 r3) (ERange l x lo hi)
| s_oneof tk rs l es : named (t "oneof") tk -> Forall2 same rs es -> same (R_call None tk rs) (EOneof l es)
| s_cond tk rc rx more ry l c x actions y : same rc c -> same rx x ->
    Forall2 (fun p q => same (fst p) (fst q) /\ same (snd p) (snd q)) more actions -> same ry y ->
    same (R_cond tk rc rx more ry) (ECond l ((c, x) :: actions) y)
| s_quant tq tv ts rb l universal var sl src body : named var tv -> named (c_name src) ts -> same rb body ->
    same (R_quant universal tq tv ts rb) (EQuant l universal var sl src body).

(** ** Expressions that need no brackets

    [faithful lv e]: without brackets around operands, [e] is a phrase of
    level [lv].  Its literals are integers, null and those of
    enumerations. *)
Inductive levels : binop -> level -> level -> level -> Prop :=
| lv_xor : levels B_xor L_expr L_rel L_rel
| lv_implies : levels B_implies L_expr L_rel L_rel
| lv_and1 : levels B_and L_and L_rel L_rel
| lv_and2 : levels B_and L_and L_and L_rel
| lv_or1 : levels B_or L_or L_rel L_rel
| lv_or2 : levels B_or L_or L_or L_rel
| lv_compare op : In op [B_eq; B_neq; B_lt; B_leq; B_gt; B_geq; B_contains; B_arrcontains] -> levels op L_rel L_simple L_simple
| lv_add op : In op [B_plus; B_minus] -> levels op L_simple L_simple L_term
| lv_mul op : In op [B_times; B_div; B_rem] -> levels op L_term L_term L_factor
| lv_pow : levels B_pow L_factor L_prim L_prim.
(** One level is part of another. *)
Inductive part_of : level -> level -> Prop :=
| po_factor : part_of L_prim L_factor
| po_term : part_of L_factor L_term
| po_simple : part_of L_term L_simple
| po_rel : part_of L_simple L_rel
| po_expr : part_of L_rel L_expr
| po_and : part_of L_and L_expr
| po_or : part_of L_or L_expr.

Inductive faithful : level -> expr -> Prop :=
| f_null l : faithful L_prim (ENull l)
| f_int l z : 0 <= z -> faithful L_prim (ELit l (LInt z))
| f_enum l e en n : nth_error (enums G) e = Some en -> word (en_name en) -> word n -> faithful L_prim (ELit l (LEnum e n))
| f_name e : chain e -> faithful L_prim e
| f_sign l a op e : In op [U_minus; U_plus] -> faithful L_term e -> faithful L_simple (EUnary l a op e)
| f_not l a op e : In op [U_not; U_abs] -> faithful L_prim e -> faithful L_factor (EUnary l a op e)
| f_call l a op e : In op [U_strlen; U_arrlen; U_toint; U_todec] -> faithful L_expr e -> faithful L_prim (EUnary l a op e)
| f_call2 l a op x y : In op [B_starts; B_ends; B_regex] -> faithful L_expr x -> faithful L_expr y -> faithful L_prim (EBinary l a op x y)
| f_binary l a op lv la lb x y : levels op lv la lb -> faithful la x -> faithful lb y -> faithful lv (EBinary l a op x y)
| f_range l x lo hi : faithful L_simple x -> faithful L_simple lo -> faithful L_simple hi -> faithful L_rel (ERange l x lo hi)
| f_oneof l es : faithfuls es -> faithful L_prim (EOneof l es)
| f_cond l c x more y : faithful L_expr c -> faithful L_expr x -> faithful_more more -> faithful L_expr y -> faithful L_prim (ECond l ((c, x) :: more) y)
| f_quant l universal var sl src body : word var -> word (c_name src) -> faithful L_expr body -> faithful L_prim (EQuant l universal var sl src body)
| f_part la lb e : part_of la lb -> faithful la e -> faithful lb e
(* names with selectors *)
with chain : expr -> Prop :=
| c_name_ l a n qv opt : word n -> chain (EName l a n qv opt)
| c_field l c p b u : chain p -> word (c_name c) -> chain (EField l c p b u)
| c_index l a p i : chain p -> faithful L_expr i -> chain (EBinary l a B_index p i)
with faithfuls : list expr -> Prop :=
| fs_one e : faithful L_expr e -> faithfuls [e]
| fs_more e es : faithful L_expr e -> faithfuls es -> faithfuls (e :: es)
with faithful_more : list (expr * expr) -> Prop :=
| fm_none : faithful_more []
| fm_more c x l : faithful L_expr c -> faithful L_expr x -> faithful_more l -> faithful_more ((c, x) :: l).
Scheme faithful_mut := Minimality for faithful Sort Prop
  with chain_mut := Minimality for chain Sort Prop
  with faithfuls_mut := Minimality for faithfuls Sort Prop
  with faithful_more_mut := Minimality for faithful_more Sort Prop.
Combined Scheme faithful_ind4 from faithful_mut, chain_mut, faithfuls_mut, faithful_more_mut.

(** ** Tokens in context *)
(** What follows an expression, and a name. *)
Definition ends (after : text) : Prop := match after with [] => True | c :: _ => In c (t " ,)]") end.
Definition name_ends (after : text) : Prop := match after with [] => True | c :: _ => In c (t " ,)].[(") end.
Lemma ends_name after : ends after -> name_ends after.
Proof. destruct after; cbn; tauto. Qed.
Lemma name_ends_word after : name_ends after -> match after with [] => True | d :: _ => ~ ident_char d end.
Proof. destruct after as [|c a]; cbn; auto. intros H. unfold ident_char, letter, digit. intuition; subst; cbn in *; lia. Qed.
Lemma ends_number after : ends after -> number_ends hexadecimal after.
Proof. destruct after as [|c a]; cbn; auto. intros H. unfold hexadecimal, digit, hex_letter. intuition; subst; cbn in *; lia. Qed.
Lemma space_pieces after x xs : xs <> [] -> pieces after x xs -> pieces after (t " " ++ x) xs.
Proof. intros X P. inversion P; subst; [contradiction|]. rewrite app_assoc. apply pc_token; auto. apply Forall_app. split; auto. constructor; auto. apply white_32. Qed.
Lemma list_pieces x after xs : xs <> [] -> pieces after x xs -> pieces after (t ", " ++ x) ((t ",", COMMA) :: xs).
Proof. intros X P. apply (pieces_app after (t ",") (t " " ++ x) [_] xs); [apply piece_plain; [cbn; tauto|constructor]|apply space_pieces; auto]. Qed.
Lemma word_piece after x : word x -> name_ends after -> pieces after x [(x, IDENTIFIER)].
Proof. intros W E. apply piece_one, word_lexeme; auto. apply name_ends_word; auto. Qed.

Definition keywords : list string := ["and"; "or"; "xor"; "implies"; "in"; "not"; "abs"; "if"; "then"; "elsif"; "else"; "forall"; "exists"; "null"]%string.
Ltac each H := cbn in H; repeat (destruct H as [<-|H]); try contradiction.
Lemma keyword_lexeme after w : In w keywords -> name_ends after -> lexeme (t w) after KEYWORD.
Proof.
  intros I E. apply name_ends_word in E.
  each I; match goal with |- lexeme ?x _ _ => let y := eval vm_compute in x in change x with y end;
    (apply lx_word; [unfold letter; lia | repeat constructor; unfold ident_char, letter, digit; lia | exact E | left; split; auto; vm_compute; tauto]).
Qed.
Lemma keyword_piece after w : In w keywords -> name_ends after -> pieces after (t w) [(t w, KEYWORD)].
Proof. intros. apply piece_one, keyword_lexeme; auto. Qed.
Lemma reads_keyword w tk : reads (t w, KEYWORD) tk -> keyword w tk.
Proof. intros R. apply reads_word in R; auto. Qed.
Lemma reads_operator w tk : reads (t w, OPERATOR) tk -> operator w tk.
Proof. intros [K D]. cbn in *. split; auto. inversion D; subst; auto; congruence. Qed.
Lemma reads_kind x k tk : reads (x, k) tk -> tk_kind tk = k.
Proof. intros [K D]. auto. Qed.
Lemma reads_named x tk : reads (x, IDENTIFIER) tk -> tk_kind tk = IDENTIFIER /\ named x tk.
Proof. intros R. apply reads_word in R; auto. Qed.

(** Operators, with a space on both sides. *)
Lemma infix_ok op lv la lb w : levels op lv la lb -> infix op = Some w -> exists k, (forall rest, lexeme w (t " " ++ rest) k) /\
  forall tk a ta b tb, reads (w, k) tk -> syn la a ta -> syn lb b tb ->
    exists r, syn lv r (ta ++ tk :: tb) /\ forall ea eb l ty, same a ea -> same b eb -> same r (EBinary l ty op ea eb).
Proof.
  intros L E.
  assert (KW : forall s, In s keywords -> forall rest, lexeme (t s) (t " " ++ rest) KEYWORD).
  { intros s I rest. apply keyword_lexeme; cbn; auto. }
  assert (OP : forall s, In s ["=="; "!="; "<"; "<="; ">"; ">="; "+"; "-"; "*"; "/"; "%"; "**"]%string -> forall rest, lexeme (t s) (t " " ++ rest) OPERATOR).
  { intros s I rest. apply lx_delimiter; [each I; constructor|]. cbn. each I; repeat split; try discriminate; intros k H; inversion H. }
  inversion L; subst; try match goal with H : In op _ |- _ => each H end; cbv beta iota delta [infix] in E; apply (f_equal (fun o => match o with Some x => x | None => w end)) in E; cbv beta iota in E; subst w;
  first [exists KEYWORD; split; [apply KW; cbn; tauto|] | exists OPERATOR; split; [apply OP; cbn; tauto|]];
  intros tk a ta b tb R A B;
  first [apply reads_keyword in R | apply reads_operator in R].
  all: try (eexists; split; [|intros; apply s_binary; eassumption];
       first [solve [apply syn_expr_xor; auto; constructor; auto] | solve [apply syn_expr_implies; auto; constructor; auto] | solve [apply syn_and_first; auto; constructor; auto] | solve [apply syn_and_next; auto; constructor; auto] | solve [apply syn_or_first; auto; constructor; auto] | solve [apply syn_or_next; auto; constructor; auto] | solve [apply syn_rel_compare; auto; constructor; auto] | solve [apply syn_simple_add; auto; constructor; auto] | solve [apply syn_term_mul; auto; constructor; auto] | solve [apply syn_factor_power; auto; constructor; auto]]).
  all: exists (R_member None tk a b); split; [apply (syn_rel_member None [] tk a ta b tb); auto; constructor|intros; apply s_member; auto; cbn; tauto].
Qed.
Lemma part_syn a b r ts : part_of a b -> syn a r ts -> syn b r ts.
Proof.
  intros P S. destruct P; [apply syn_factor_prim|apply syn_term_factor|apply syn_simple_term|apply syn_rel_simple|apply syn_expr_rel|apply syn_expr_and|apply syn_expr_or]; auto.
Qed.
Lemma sels_app l1 l2 : forall t1 t2, syn_sels l1 t1 -> syn_sels l2 t2 -> syn_sels (l1 ++ l2) (t1 ++ t2).
Proof.
  induction l1 as [|x l1 IH]; intros t1 t2 S1 S2; inversion S1; subst; auto; cbn.
  - apply sels_field; auto.
  - rewrite <- app_assoc. cbn. apply sels_index; auto.
Qed.

(** ** Reading back *)

Definition text_for (lv : level) (e : expr) : Prop :=
  exists xs, xs <> [] /\ (forall after, ends after -> pieces after (to_string e) xs) /\
    forall toks, Forall2 reads xs toks -> exists r, syn lv r toks /\ same r e.
Definition name_for (e : expr) : Prop :=
  exists xs, xs <> [] /\ (forall after, name_ends after -> pieces after (to_string e) xs) /\
    forall toks, Forall2 reads xs toks -> exists tk ts sels, toks = tk :: ts /\ tk_kind tk = IDENTIFIER /\ syn_sels sels ts /\ same (R_name tk sels) e.
Definition list_for (es : list expr) : Prop :=
  exists xs, xs <> [] /\ (forall after, ends after -> pieces after (join (t ", ") (map to_string es)) xs) /\
    forall toks, Forall2 reads xs toks -> exists rs, syn_args rs toks /\ Forall2 same rs es.
Definition action (kind : text) (p : expr * expr) : text := kind ++ t " " ++ to_string (fst p) ++ t " then " ++ to_string (snd p).
Definition more_for (l : list (expr * expr)) : Prop :=
  exists xs, (forall after, ends after -> pieces after (concat (map (fun p => t " " ++ action (t "elsif") p) l)) xs) /\
    forall toks, Forall2 reads xs toks -> exists more, syn_more more toks /\ Forall2 (fun p q => same (fst p) (fst q) /\ same (snd p) (snd q)) more l.

Lemma join_spaces x l : join (t " ") (x :: l) = x ++ concat (map (fun y => t " " ++ y) l).
Proof. revert x. induction l as [|y l IH]; intros x; [cbn; rewrite app_nil_r; auto|]. change (join (t " ") (x :: y :: l)) with (x ++ t " " ++ join (t " ") (y :: l)). rewrite IH. cbn [map concat]. rewrite <- app_assoc. auto. Qed.

Ltac cons R tk := let R1 := fresh "R" in inversion R as [|? tk ? ? R1 ?]; subst; clear R.
Ltac split_toks R t1 t2 := let R1 := fresh "R" in let R2 := fresh "R" in apply Forall2_app_inv_l in R as (t1 & t2 & R1 & R2 & ->).

(** A word in brackets: [f(...)]. *)
Lemma call_pieces f x xs after : word f -> (forall after, ends after -> pieces after x xs) ->
  pieces after (f ++ t "(" ++ x ++ t ")") ((f, IDENTIFIER) :: (t "(", BRA) :: xs ++ [(t ")", KET)]).
Proof.
  intros W P. apply (pieces_app after f (t "(" ++ x ++ t ")") [_] (_ :: xs ++ [_])); [apply word_piece; auto; cbn; tauto|].
  apply (pieces_app after (t "(") (x ++ t ")") [_] (xs ++ [_])); [apply piece_plain; [cbn; tauto|constructor]|].
  apply pieces_app; [apply P; cbn; tauto|apply piece_plain; [cbn; tauto|constructor]].
Qed.
Lemma call_read f xs toks : Forall2 reads ((f, IDENTIFIER) :: (t "(", BRA) :: xs ++ [(t ")", KET)]) toks ->
  exists tk bra ts ket, toks = tk :: bra :: ts ++ [ket] /\ tk_kind tk = IDENTIFIER /\ named f tk /\ tk_kind bra = BRA /\ tk_kind ket = KET /\ Forall2 reads xs ts.
Proof.
  intros F. inversion F as [|? tk ? ? R1 F1]; subst. inversion F1 as [|? bra ? ? R2 F2]; subst. apply Forall2_app_inv_l in F2 as (ts & t2 & R3 & R4 & ->).
  inversion R4 as [|? ket ? ? R5 F5]; subst. inversion F5; subst. apply reads_named in R1 as [A B]. apply reads_kind in R2, R5.
  exists tk, bra, ts, ket. auto 10.
Qed.
Lemma function_words : Forall word [t "len"; t "Integer"; t "Decimal"; t "startswith"; t "endswith"; t "matches"; t "oneof"].
Proof.
  repeat constructor; try (do 2 eexists; split; [vm_compute; reflexivity|split; [unfold letter; lia|repeat constructor; unfold ident_char, letter, digit; lia]]);
  intros I; vm_compute in I; intuition discriminate.
Qed.
Lemma sign_piece op w after : In op [U_minus; U_plus] -> prefix op = Some w -> pieces after w [(w, OPERATOR)] /\ forall tk, reads (w, OPERATOR) tk -> ExprSyntax.sign tk op.
Proof.
  intros I E. split.
  - apply piece_one. each I; injection E as <-; (apply lx_delimiter; [constructor|]; destruct after as [|c a]; cbn; auto; split; [intros k H; inversion H|split; discriminate]).
  - intros tk R. each I; cbv beta iota delta [prefix] in E; apply (f_equal (fun o => match o with Some x => x | None => w end)) in E; cbv beta iota in E; subst w; apply reads_operator in R; constructor; apply R.
Qed.
(** A keyword between spaces. *)
Lemma between after w x xs : In w keywords -> xs <> [] -> pieces after x xs -> pieces after (t " " ++ t w ++ t " " ++ x) ((t w, KEYWORD) :: xs).
Proof.
  intros I X P. apply space_pieces; [discriminate|]. apply (pieces_app after (t w) (t " " ++ x) [_] xs); [apply keyword_piece; auto; cbn; auto|]. apply space_pieces; auto.
Qed.
Lemma first_keyword after w x xs : In w keywords -> xs <> [] -> pieces after x xs -> pieces after (t w ++ t " " ++ x) ((t w, KEYWORD) :: xs).
Proof.
  intros I X P. apply (pieces_app after (t w) (t " " ++ x) [_] xs); [apply keyword_piece; auto; cbn; auto|]. apply space_pieces; auto.
Qed.
Lemma action_pieces w c x xc xx after : In w keywords -> xc <> [] -> xx <> [] -> ends after ->
  (forall after, ends after -> pieces after (to_string c) xc) -> (forall after, ends after -> pieces after (to_string x) xx) ->
  pieces after (action (t w) (c, x)) ((t w, KEYWORD) :: xc ++ (t "then", KEYWORD) :: xx).
Proof.
  intros I X1 X2 E P1 P2. unfold action. cbn [fst snd]. apply first_keyword; auto; [destruct xc; discriminate|].
  apply pieces_app; [apply P1; cbn; auto|]. apply (between after "then" (to_string x) xx); auto. cbn; tauto.
Qed.
Lemma dot_piece n after : word n -> pieces (n ++ after) (t ".") [(t ".", DOT)].
Proof.
  intros W. apply piece_one, lx_delimiter; [constructor|]. destruct W as [(h & r & -> & L & _) _]. cbn. unfold letter in L. repeat split; try discriminate. intros k H. inversion H; subst; lia.
Qed.

Theorem reading_back :
  (forall lv e, faithful lv e -> text_for lv e) /\ (forall e, chain e -> name_for e) /\ (forall es, faithfuls es -> list_for es) /\ (forall l, faithful_more l -> more_for l).
Proof.
  pose proof function_words as FW. rewrite Forall_forall in FW.
  apply faithful_ind4.
  - intros l. exists [(t "null", KEYWORD)]. split; [discriminate|]. split.
    + intros after E. apply (keyword_piece after "null"); [cbn; tauto|apply ends_name; auto].
    + intros toks R. inversion R as [|? tk ? ? R1 F1]; subst. inversion F1; subst. apply reads_keyword in R1. exists (R_lit tk). split; [apply syn_literal, lit_null; auto|constructor; auto].
  - intros l z Z. destruct (integer_ok z) as (lit & Et & D & I). replace (z <? 0) with false in Et by lia. cbn [minus_if app] in Et. rewrite Z.abs_eq in I by auto.
    exists [(lit, INTEGER)]. split; [discriminate|]. split.
    + intros after E. cbn. rewrite Et. apply piece_one, lx_integer; auto; [apply ends_number; auto|]. intros (_ & x & y & -> & X). cbn in E. intuition; subst; discriminate.
    + intros toks R. inversion R as [|? tk ? ? R1 F1]; subst. inversion F1; subst. destruct (reads_integer _ _ _ R1 I) as [K V]. exists (R_lit tk). split; [apply syn_literal; eapply lit_int; eauto|constructor; auto].
  - intros l e en n En W1 W2. exists [(en_name en, IDENTIFIER); (t ".", DOT); (n, IDENTIFIER)]. split; [discriminate|]. split.
    + intros after E. cbn [Show.to_string show_lit]. rewrite En. apply (pieces_app after (en_name en) (t "." ++ n) [_] [_; _]); [apply word_piece; auto; cbn; tauto|].
      apply (pieces_app after (t ".") n [_] [_]); [apply dot_piece; auto|apply word_piece; auto; apply ends_name; auto].
    + intros toks F. inversion F as [|? tk ? t1 R1 F1]; subst. inversion F1 as [|? td ? t2 R2 F2]; subst. inversion F2 as [|? tl ? t3 R3 F3]; subst. inversion F3; subst.
      apply reads_named in R1 as [K1 N1]. apply reads_kind in R2. apply reads_named in R3 as [K3 N3]. exists (R_name tk [(tl, None)]).
      split; [apply syn_name; auto; apply sels_field; auto; constructor|econstructor; eauto].
  - intros e _ (xs & X & P & R). exists xs. split; auto. split; [intros; apply P, ends_name; auto|].
    intros toks F. destruct (R toks F) as (tk & ts & sels & -> & K & S & M). exists (R_name tk sels). split; auto. apply syn_name; auto.
  - intros l a op e I _ (xs & X & P & R). destruct (prefix op) as [w|] eqn:W; [|each I; discriminate]. exists ((w, OPERATOR) :: xs). split; [discriminate|]. split.
    + intros after E. cbn. rewrite W. apply (pieces_app after w _ [_] xs); [apply (sign_piece op); auto|auto].
    + intros toks F. inversion F as [|? tk ? ts R1 F1]; subst. destruct (R ts F1) as (r & S & M). exists (R_unary tk op r). split; [|constructor; auto].
      apply syn_simple_sign; auto. eapply (proj2 (sign_piece op w [] I W)); auto.
  - intros l a op e I _ (xs & X & P & R). assert (exists w, In w keywords /\ prefix op = Some (t w ++ t " ") /\ forall tk r ts, keyword w tk -> syn L_prim r ts -> syn L_factor (R_unary tk op r) (tk :: ts)) as (w & Iw & W & S).
    { each I; [exists "not"%string|exists "abs"%string]; (split; [cbn; tauto|split; [reflexivity|]]); intros; [apply syn_factor_not|apply syn_factor_abs]; auto. }
    exists ((t w, KEYWORD) :: xs). split; [discriminate|]. split.
    + intros after E. cbn. rewrite W, <- app_assoc. apply first_keyword; auto.
    + intros toks F. inversion F as [|? tk ? ts R1 F1]; subst. destruct (R ts F1) as (r & S' & M). exists (R_unary tk op r). split; [|constructor; auto]. apply S; auto. apply reads_keyword; auto.
  - intros l a op e I _ (xs & X & P & R). exists ((conversion op, IDENTIFIER) :: (t "(", BRA) :: xs ++ [(t ")", KET)]). split; [discriminate|]. split.
    + intros after E. cbn [Show.to_string]. replace (prefix op) with (@None text) by (each I; reflexivity). apply call_pieces; auto. apply FW. each I; cbn; tauto.
    + intros toks F. apply call_read in F as (tk & bra & ts & ket & -> & K & N & B & KE & F). destruct (R ts F) as (r & S & M). exists (R_call None tk [r]). split.
      * apply (syn_call None [] tk bra [r] ts ket); auto; constructor; auto.
      * each I; [apply s_len| apply s_len|apply s_integer|apply s_decimal]; auto; cbn; tauto.
  - intros l a op x y I _ (xs & X & P & R) _ (ys & Y & P' & R').
    destruct (string_function op) as [f|] eqn:W; [|each I; discriminate]. exists ((f, IDENTIFIER) :: (t "(", BRA) :: (xs ++ (t ",", COMMA) :: ys) ++ [(t ")", KET)]). split; [discriminate|]. split.
    + intros after E. cbn [Show.to_string]. replace (infix op) with (@None text) by (each I; reflexivity). rewrite W.
      replace (f ++ t "(" ++ to_string x ++ t ", " ++ to_string y ++ t ")") with (f ++ t "(" ++ (to_string x ++ t ", " ++ to_string y) ++ t ")") by (rewrite <- !app_assoc; auto).
      apply call_pieces; [apply FW; each I; injection W as <-; cbn; tauto|]. intros after' E'. apply pieces_app; [apply P; cbn; auto|]. apply list_pieces; auto.
    + intros toks F. apply call_read in F as (tk & bra & ts & ket & -> & K & N & B & KE & F). apply Forall2_app_inv_l in F as (t1 & t2 & F1 & F2 & ->). inversion F2 as [|? tc ? t3 Rc F3]; subst.
      destruct (R _ F1) as (r & S & M). destruct (R' _ F3) as (r' & S' & M'). apply reads_kind in Rc. exists (R_call None tk [r; r']). split.
      * apply (syn_call None [] tk bra [r; r'] (t1 ++ tc :: t3) ket); auto; constructor; auto. constructor; auto.
      * each I; cbv beta iota delta [string_function] in W; apply (f_equal (fun o => match o with Some x => x | None => f end)) in W; cbv beta iota in W; subst f; constructor; auto.
  - intros l a op lv la lb x y L _ (xs & X & P & R) _ (ys & Y & P' & R').
    destruct (infix op) as [w|] eqn:W; [|inversion L; subst; try discriminate; match goal with H : In op _ |- _ => each H; discriminate end].
    destruct (infix_ok op lv la lb w L W) as (k & Lx & Sy). exists (xs ++ (w, k) :: ys). split; [destruct xs; discriminate|]. split.
    + intros after E. cbn [Show.to_string]. rewrite W. apply pieces_app; [apply P; cbn; auto|]. apply space_pieces; [discriminate|].
      apply (pieces_app after w (t " " ++ to_string y) [_] ys); [apply piece_one; rewrite <- app_assoc; apply Lx|apply space_pieces; auto].
    + intros toks F. apply Forall2_app_inv_l in F as (t1 & t2 & F1 & F2 & ->). inversion F2 as [|? tk ? t3 Rc F3]; subst.
      destruct (R _ F1) as (r & S & M). destruct (R' _ F3) as (r' & S' & M'). destruct (Sy tk r t1 r' t3 Rc S S') as (r0 & S0 & M0). exists r0. auto.
  - intros l x lo hi _ (xs & X & P & R) _ (ys & Y & P' & R') _ (zs & Z & P2 & R2). exists (xs ++ (t "in", KEYWORD) :: ys ++ (t "..", RANGE) :: zs). split; [destruct xs; discriminate|]. split.
    + intros after E. cbn [Show.to_string]. apply pieces_app; [apply P; cbn; auto|].
      apply (between after "in" (to_string lo ++ t " .. " ++ to_string hi) (ys ++ (t "..", RANGE) :: zs)); [cbn; tauto|destruct ys; discriminate|].
      apply pieces_app; [apply P'; cbn; auto|]. apply (space_pieces after (t ".." ++ t " " ++ to_string hi)); [discriminate|].
      apply (pieces_app after (t "..") (t " " ++ to_string hi) [_] zs); [|apply space_pieces; auto].
      apply piece_one, lx_delimiter; [constructor|]. cbn. repeat split; try discriminate. intros k H; inversion H.
    + intros toks F. apply Forall2_app_inv_l in F as (t1 & t2 & F1 & F2 & ->). inversion F2 as [|? tk ? t3 Rc F3]; subst. apply Forall2_app_inv_l in F3 as (t4 & t5 & F4 & F5 & ->). inversion F5 as [|? td ? t6 Rd F6]; subst.
      destruct (R _ F1) as (r & S & M). destruct (R' _ F4) as (r' & S' & M'). destruct (R2 _ F6) as (r2 & S2 & M2). apply reads_kind in Rd. apply (reads_keyword "in") in Rc.
      exists (R_range None tk r r' r2). split; [apply (syn_rel_range None [] tk r t1 r' t4 td r2 t6); auto; constructor|constructor; auto].
  - intros l es _ (xs & X & P & R). exists ((t "oneof", IDENTIFIER) :: (t "(", BRA) :: xs ++ [(t ")", KET)]). split; [discriminate|]. split.
    + intros after E. apply (call_pieces (t "oneof") (join (t ", ") (map to_string es)) xs); auto. apply FW. cbn; tauto.
    + intros toks F. apply call_read in F as (tk & bra & ts & ket & -> & K & N & B & KE & F). destruct (R ts F) as (rs & S & M). exists (R_call None tk rs). split.
      * apply (syn_call None [] tk bra rs ts ket); auto; constructor.
      * constructor; auto.
  - intros l c x more y _ (xc & X1 & P1 & R1) _ (xx & X2 & P2 & R2) _ (xm & P3 & R3) _ (xy & X4 & P4 & R4).
    exists ((t "(", BRA) :: ((t "if", KEYWORD) :: xc ++ (t "then", KEYWORD) :: xx) ++ xm ++ ((t "else", KEYWORD) :: xy) ++ [(t ")", KET)]). split; [discriminate|]. split.
    + intros after E. cbn [Show.to_string]. fold to_string. change (fun kind p => kind ++ t " " ++ to_string (fst p) ++ t " then " ++ to_string (snd p)) with action.
      rewrite join_spaces, map_map, <- app_assoc.
      apply (pieces_app after (t "(") _ [_] _); [apply piece_plain; [cbn; tauto|constructor]|].
      assert (EN : ends ((concat (map (fun p => t " " ++ action (t "elsif") p) more) ++ t " else " ++ to_string y ++ t ")") ++ after)).
      { destruct more; cbn; auto. }
      apply pieces_app; [apply action_pieces; auto; cbn; tauto|]. apply pieces_app; [apply P3; cbn; auto|].
      change (t " else " ++ to_string y ++ t ")") with ((t " " ++ t "else" ++ t " " ++ to_string y) ++ t ")").
      apply pieces_app; [apply between; auto; [cbn; tauto|apply P4; cbn; auto]|apply piece_plain; [cbn; tauto|constructor]].
    + intros toks F. inversion F as [|? bra ? t0 Rb F0]; subst. inversion F0 as [|? ti ? t1 Ri F1]; subst. apply Forall2_app_inv_l in F1 as (ta & t2 & Fa & F2 & ->). apply Forall2_app_inv_l in F2 as (tm & t3 & Fm & F3 & ->).
      inversion F3 as [|? tl ? t4 Rl F4]; subst. apply Forall2_app_inv_l in F4 as (ty & t5 & Fy & F5 & ->). inversion F5 as [|? ket ? t6 Rk F6]; subst. inversion F6; subst.
      apply Forall2_app_inv_l in Fa as (tc & t7 & Fc & F7 & ->). inversion F7 as [|? tt ? tx Rt Fx]; subst.
      destruct (R1 _ Fc) as (rc & S1 & M1). destruct (R2 _ Fx) as (rx & S2 & M2). destruct (R3 _ Fm) as (rm & S3 & M3). destruct (R4 _ Fy) as (ry & S4 & M4).
      apply reads_kind in Rb, Rk. apply (reads_keyword "if") in Ri. apply (reads_keyword "then") in Rt. apply (reads_keyword "else") in Rl.
      exists (R_cond ti rc rx rm ry). split; [|constructor; auto].
      rewrite <- app_assoc. cbn [app]. apply syn_cond; auto.
  - intros l universal var sl src body Wv Ws _ (xs & X & P & R).
    set (q := if universal : bool then "forall"%string else "exists"%string). assert (Iq : In q keywords) by (subst q; destruct universal; cbn; tauto).
    exists ((t "(", BRA) :: (t q, KEYWORD) :: (var, IDENTIFIER) :: (t "in", KEYWORD) :: (c_name src, IDENTIFIER) :: (t "=>", ARROW) :: xs ++ [(t ")", KET)]). split; [discriminate|]. split.
    + intros after E. cbn [Show.to_string]. replace (if universal then t "forall" else t "exists") with (t q) by (subst q; destruct universal; auto).
      apply (pieces_app after (t "(") _ [_] _); [apply piece_plain; [cbn; tauto|constructor]|].
      apply first_keyword; auto; [discriminate|]. apply (pieces_app after var _ [_] _); [apply word_piece; auto; cbn; auto|].
      apply (between after "in"); [cbn; tauto|discriminate|]. apply (pieces_app after (c_name src) _ [_] _); [apply word_piece; auto; cbn; auto|].
      apply (space_pieces after (t "=>" ++ t " " ++ to_string body ++ t ")")); [discriminate|].
      apply (pieces_app after (t "=>") _ [_] _); [apply piece_one, lx_delimiter; [constructor|]; cbn; repeat split; try discriminate; intros k H; inversion H|].
      apply space_pieces; [destruct xs; discriminate|]. apply pieces_app; [apply P; cbn; auto|apply piece_plain; [cbn; tauto|constructor]].
    + intros toks F. inversion F as [|? bra ? t0 Rb F0]; subst. inversion F0 as [|? tq ? t1 Rq F1]; subst. inversion F1 as [|? tv ? t2 Rv F2]; subst. inversion F2 as [|? ti ? t3 Ri F3]; subst.
      inversion F3 as [|? ts ? t4 Rs F4]; subst. inversion F4 as [|? ta ? t5 Ra F5]; subst. apply Forall2_app_inv_l in F5 as (tb & t6 & Fb & F6 & ->). inversion F6 as [|? ket ? t7 Rk F7]; subst. inversion F7; subst.
      destruct (R _ Fb) as (r & S & M). apply reads_kind in Rb, Ra, Rk. apply reads_keyword in Rq. apply (reads_keyword "in") in Ri. apply reads_named in Rv as [Kv Nv]. apply reads_named in Rs as [Ks Ns].
      exists (R_quant universal tq tv ts r). split; [apply syn_quant; auto|constructor; auto].
  - intros la lb e L _ (xs & X & P & R). exists xs. split; auto. split; auto. intros toks F. destruct (R toks F) as (r & S & M). exists r. split; auto. eapply part_syn; eauto.
  - intros l a n qv opt W. exists [(n, IDENTIFIER)]. split; [discriminate|]. split; [intros; apply word_piece; auto|].
    intros toks F. inversion F as [|? tk ? ? R1 F1]; subst. inversion F1; subst. apply reads_named in R1 as [K V]. exists tk, [], []. repeat split; auto; constructor; auto.
  - intros l c p b u _ (xs & X & P & R) W. exists (xs ++ [(t ".", DOT); (c_name c, IDENTIFIER)]). split; [destruct xs; discriminate|]. split.
    + intros after E. cbn [Show.to_string]. apply pieces_app; [apply P; cbn; tauto|]. apply (pieces_app after (t ".") (c_name c) [_] [_]); [|apply word_piece; auto].
      apply dot_piece; auto.
    + intros toks F. apply Forall2_app_inv_l in F as (t1 & t2 & F1 & F2 & ->). inversion F2 as [|? td ? t3 Rd F3]; subst. inversion F3 as [|? tf ? t4 Rf F4]; subst. inversion F4; subst.
      destruct (R _ F1) as (tk & ts & sels & -> & K & S & M). apply reads_kind in Rd. apply reads_named in Rf as [Kf Nf].
      exists tk, (ts ++ [td; tf]), (sels ++ [(tf, None)]). repeat split; auto; [|constructor; auto]. apply sels_app; auto. apply sels_field; auto. constructor.
  - intros l a p i _ (xs & X & P & R) _ (ys & Y & P' & R'). exists (xs ++ (t "[", S_BRA) :: ys ++ [(t "]", S_KET)]). split; [destruct xs; discriminate|]. split.
    + intros after E. cbn [Show.to_string infix string_function]. apply pieces_app; [apply P; cbn; tauto|].
      apply (pieces_app after (t "[") _ [_] _); [apply piece_plain; [cbn; tauto|constructor]|]. apply pieces_app; [apply P'; cbn; tauto|apply piece_plain; [cbn; tauto|constructor]].
    + intros toks F. apply Forall2_app_inv_l in F as (t1 & t2 & F1 & F2 & ->). inversion F2 as [|? bra ? t3 Rb F3]; subst. apply Forall2_app_inv_l in F3 as (ti & t4 & Fi & F4 & ->). inversion F4 as [|? ket ? t5 Rk F5]; subst. inversion F5; subst.
      destruct (R _ F1) as (tk & ts & sels & -> & K & S & M). destruct (R' _ Fi) as (r & S' & M'). apply reads_kind in Rb, Rk.
      exists tk, (ts ++ bra :: ti ++ [ket]), (sels ++ [(bra, Some r)]). repeat split; auto; [|constructor; auto]. apply sels_app; auto. apply sels_index; auto. constructor.
  - intros e _ (xs & X & P & R). exists xs. split; auto. split; [intros; cbn; auto|]. intros toks F. destruct (R toks F) as (r & S & M). exists [r]. split; [constructor; auto|auto].
  - intros e es _ (xs & X & P & R) HF (ys & Y & P' & R'). exists (xs ++ (t ",", COMMA) :: ys). split; [destruct xs; discriminate|]. split.
    + intros after E. assert (exists e' es', es = e' :: es') as (e' & es' & ->) by (inversion HF; eauto).
      change (join (t ", ") (map to_string (e :: e' :: es'))) with (to_string e ++ t ", " ++ join (t ", ") (map to_string (e' :: es'))).
      apply pieces_app; [apply P; cbn; auto|]. apply list_pieces; auto.
    + intros toks F. apply Forall2_app_inv_l in F as (t1 & t2 & F1 & F2 & ->). inversion F2 as [|? tc ? t3 Rc F3]; subst. apply reads_kind in Rc.
      destruct (R _ F1) as (r & S & M). destruct (R' _ F3) as (rs & S' & M'). exists (r :: rs). split; [constructor; auto|auto].
  - exists []. split; [intros; apply pc_none|]. intros toks F. inversion F; subst. exists []. split; constructor.
  - intros c x l _ (xc & X1 & P1 & R1) _ (xx & X2 & P2 & R2) _ (xm & P3 & R3). exists (((t "elsif", KEYWORD) :: xc ++ (t "then", KEYWORD) :: xx) ++ xm). split.
    + intros after E. cbn [map concat]. apply pieces_app; [|auto]. apply space_pieces; [discriminate|]. apply action_pieces; auto; [cbn; tauto|]. destruct l; cbn; auto.
    + intros toks F. apply Forall2_app_inv_l in F as (ta & tm & Fa & Fm & ->). inversion Fa as [|? ti ? t5 Ri F5]; subst. apply Forall2_app_inv_l in F5 as (tc & t6 & Fc & F6 & ->). inversion F6 as [|? tt ? tx Rt Fx]; subst.
      destruct (R1 _ Fc) as (rc & S1 & M1). destruct (R2 _ Fx) as (rx & S2 & M2). destruct (R3 _ Fm) as (rm & S3 & M3). apply (reads_keyword "elsif") in Ri. apply (reads_keyword "then") in Rt.
      exists ((rc, rx) :: rm). split; [|constructor; auto]. cbn. rewrite <- app_assoc. cbn. constructor; auto.
Qed.
End TEXT.
