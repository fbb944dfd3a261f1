(** The expression parser: C41 (precedence and association), C48 (accepted
    expressions are well typed) and C49 (no exceptions). *)
From Verif Require Import Base Lexer SymTab Ast Eval Typing ParserBase ParserExpr ExprSyntax ParserProofs ExprParserSound
  ExprParserComplete EvalFuel ParserFuel ExprPrint ExprTyping ExprMeaning ExprMeaningProofs Prop_Eval.
From Coq Require Import QArith ZifyBool ZifyNat ZifyN.
Open Scope Z_scope.

Section PARSER.
Variable file : Z.
Variable lint : bool.
Variable G : types.
Variable W : world.
Variable compiles : text -> bool.
Variable N : names.
Notation elab := (elab file lint G W compiles N).

(** The result of the parser on a sequence of tokens: the expression and the
    first token behind it. *)
Definition outcome (sc : nscope) (ts : list token) : pres expr :=
  parse_expression file lint G W compiles N (S (List.length ts)) sc (input ts).
Definition parses (sc : nscope) (ts : list token) (e : expr) (next : option token) : Prop :=
  exists s, outcome sc ts = POk e s /\ nt (at_ s) = next.

Lemma rem_input ts : (rem (at_ (input ts)) <= List.length ts)%nat.
Proof. destruct ts as [|tk ts]; unfold rem; simpl; [lia|]. rewrite map_length. lia. Qed.
Lemma whole sc r ts e : syn L_expr r ts -> elab sc r = Ok e -> parses sc ts e None.
Proof.
  intros S E. pose proof (reads_input None ts []) as R. rewrite app_nil_r in R.
  specialize (R (syn_plain _ _ _ S)). cbn [hd_error tl map] in R.
  destruct (parse_expression_complete file lint G W compiles N (Datatypes.S (List.length ts)) sc r ts (input ts) _ e
              S R E) as (s & H & A); [reflexivity | pose proof (rem_input ts); lia |].
  exists s. split; auto. rewrite A. auto.
Qed.
Lemma parses_det sc ts e f a b : parses sc ts e a -> parses sc ts f b -> e = f /\ a = b.
Proof. intros (s & H1 & <-) (s' & H2 & <-). rewrite H1 in H2. inversion H2. auto. Qed.

(** Every tree, printed with the brackets that the levels of the grammar
    require, is read as that tree. *)
Theorem C41_round_trip sc r e : printable r = true -> elab sc r = Ok e -> parses sc (print r) e None.
Proof. intros P E. eapply whole; eauto. apply print_syn; auto. Qed.

(** What is accepted, in whatever state of the parser, is a phrase of the
    grammar and gets the meaning of its tree. *)
Theorem C41_accepts_phrases n sc s e s' :
  parse_expression file lint G W compiles N n sc s = POk e s' ->
  exists r ts, syn L_expr r ts /\ reads (at_ s) ts (at_ s') /\ elab sc r = Ok e.
Proof. apply parse_expression_sound. Qed.

(** Every phrase with a meaning is accepted, if the next token does not
    continue it. *)
Theorem C41_accepts_all_phrases n sc r ts s p e :
  syn L_expr r ts -> elab sc r = Ok e -> reads (at_ s) ts p -> follow L_expr (nt p) = true ->
  (rem (at_ s) < n)%nat ->
  exists s', parse_expression file lint G W compiles N n sc s = POk e s' /\ at_ s' = p.
Proof. intros. eapply parse_expression_complete; eauto. Qed.

(** A token sequence has at most one meaning. *)
Theorem C41_unambiguous sc r1 r2 ts e1 e2 : syn L_expr r1 ts -> syn L_expr r2 ts ->
  elab sc r1 = Ok e1 -> elab sc r2 = Ok e2 -> e1 = e2.
Proof. intros S1 S2 E1 E2. exact (proj1 (parses_det _ _ _ _ _ _ (whole _ _ _ _ S1 E1) (whole _ _ _ _ S2 E2))). Qed.

(** Chains [a op b op c ...] of one category of operators, for any number of
    operands. *)
Inductive category : level -> (token -> binop -> Prop) -> level -> Prop :=
| additive : category L_simple adding L_term
| multiplicative : category L_term multiplying L_factor
| conjunction : category L_rel (fun tk op => keyword "and" tk /\ op = B_and) L_rel
| disjunction : category L_rel (fun tk op => keyword "or" tk /\ op = B_or) L_rel.
Record link := Link { k_tok : token; k_op : binop; k_arg : raw; k_arg_toks : list token }.
Definition left_tree (a : raw) (l : list link) : raw :=
  fold_left (fun x k => R_binary (k_tok k) (k_op k) x (k_arg k)) l a.
Definition chain_tokens (ta : list token) (l : list link) : list token :=
  ta ++ concat (map (fun k => k_tok k :: k_arg_toks k) l).

Lemma chain_step (lv : level) (a : raw) (l : list link) ta :
  (forall k x tx, In k l -> syn lv x tx -> syn lv (R_binary (k_tok k) (k_op k) x (k_arg k)) (tx ++ k_tok k :: k_arg_toks k)) ->
  syn lv a ta -> syn lv (left_tree a l) (chain_tokens ta l).
Proof.
  revert a ta. induction l as [|k l IH]; intros a ta F S; unfold chain_tokens; simpl.
  - rewrite app_nil_r. auto.
  - replace (ta ++ k_tok k :: k_arg_toks k ++ concat (map (fun k0 => k_tok k0 :: k_arg_toks k0) l))
      with (chain_tokens (ta ++ k_tok k :: k_arg_toks k) l)
      by (unfold chain_tokens; rewrite <- app_assoc; reflexivity).
    apply IH; [intros; apply F; auto; right; auto|]. apply F; auto. left; auto.
Qed.
Theorem C41_left_association lv ops ol sc a ta l e : category lv ops ol -> syn lv a ta ->
  (forall k, In k l -> ops (k_tok k) (k_op k) /\ syn ol (k_arg k) (k_arg_toks k)) ->
  elab sc (left_tree a l) = Ok e ->
  parses sc (chain_tokens ta l) e None.
Proof.
  intros C S F E. eapply whole; eauto. destruct C.
  - apply syn_expr_rel, syn_rel_simple. apply chain_step; auto.
    intros k x tx I Sx. destruct (F k I). apply syn_simple_add; auto.
  - apply syn_expr_rel, syn_rel_simple, syn_simple_term. apply chain_step; auto.
    intros k x tx I Sx. destruct (F k I). apply syn_term_mul; auto.
  - destruct l as [|[k op b tb] l]; [unfold chain_tokens; simpl; rewrite app_nil_r; apply syn_expr_rel; auto|].
    apply syn_expr_and. destruct (F _ (or_introl eq_refl)) as ((K & O) & Sb). simpl in *. subst op.
    replace (chain_tokens ta (Link k B_and b tb :: l)) with (chain_tokens (ta ++ k :: tb) l)
      by (unfold chain_tokens; simpl; rewrite <- app_assoc; reflexivity).
    apply chain_step; [|apply syn_and_first; auto].
    intros k' x tx I Sx. destruct (F k' (or_intror I)) as ((K' & ->) & Sb'). apply syn_and_next; auto.
  - destruct l as [|[k op b tb] l]; [unfold chain_tokens; simpl; rewrite app_nil_r; apply syn_expr_rel; auto|].
    apply syn_expr_or. destruct (F _ (or_introl eq_refl)) as ((K & O) & Sb). simpl in *. subst op.
    replace (chain_tokens ta (Link k B_or b tb :: l)) with (chain_tokens (ta ++ k :: tb) l)
      by (unfold chain_tokens; simpl; rewrite <- app_assoc; reflexivity).
    apply chain_step; [|apply syn_or_first; auto].
    intros k' x tx I Sx. destruct (F k' (or_intror I)) as ((K' & ->) & Sb'). apply syn_or_next; auto.
Qed.

(** A chain of a logical operator is not continued by another one: the
    expression ends before it, and the longer token sequence has no meaning. *)
Theorem C41_mixing_rejected sc op r ts tk us e : chain op r ts -> ends_chain op tk -> Forall plain us ->
  elab sc r = Ok e ->
  parses sc (ts ++ tk :: us) e (Some tk) /\
  (forall r' e', syn L_expr r' (ts ++ tk :: us) -> elab sc r' = Ok e' -> False).
Proof.
  intros C O P E.
  assert (R : parses sc (ts ++ tk :: us) e (Some tk)).
  { assert (A : Forall plain (ts ++ tk :: us)).
    { apply Forall_app. split.
      - assert (S : syn L_expr r ts).
        { destruct C; [apply syn_expr_and | apply syn_expr_or | apply syn_expr_xor | apply syn_expr_implies]; auto. }
        eapply syn_plain; eauto.
      - constructor; auto. unfold plain. destruct op; simpl in O; decompose [or] O; try contradiction;
        match goal with K : keyword _ _ |- _ => destruct K; congruence end. }
    pose proof (reads_input None ts (tk :: us) A) as R. cbn [hd_error tl] in R.
    destruct (parse_expression_stops file lint G W compiles N (Datatypes.S (List.length (ts ++ tk :: us))) sc op r ts
                (input (ts ++ tk :: us)) _ e tk C O R E eq_refl) as (s & H & B).
    { pose proof (rem_input (ts ++ tk :: us)). lia. }
    exists s. split; auto. rewrite B. auto. }
  split; auto. intros r' e' S' E'. pose proof (whole _ _ _ _ S' E') as R'.
  destruct (parses_det _ _ _ _ _ _ R R'). discriminate.
Qed.

(** A sign belongs to the whole product that follows it. *)
Theorem C41_sign sc tk op a ta e : sign tk op -> syn L_term a ta ->
  elab sc (R_unary tk op a) = Ok e -> parses sc (tk :: ta) e None.
Proof. intros S A E. eapply whole; eauto. apply syn_expr_rel, syn_rel_simple, syn_simple_sign; auto. Qed.

(** Enough fuel exists: the parser comes to an end on every input, including
    comments and lexing errors. *)
Theorem C41_terminates sc s n : (rem (at_ s) < n)%nat ->
  parse_expression file lint G W compiles N n sc s <> PFuel.
Proof.
  intros L H. pose proof (expression_spends (fun _ => True) file lint G W compiles N n (rem (at_ s)) sc L s ltac:(split; auto) (Nat.le_refl _)) as S.
  rewrite H in S. exact S.
Qed.

(** ** C48 *)

(** [declared]: the types, objects and names are as left by the parser for
    earlier declarations.  A check of type [a] is read in [check_scope a]; its
    names have the types of the components of [a]. *)
Theorem C48_accepted_well_typed a n s e s' : declared G W compiles N ->
  parse_expression file lint G W compiles N n (check_scope G N a) s = POk e s' ->
  wt G W false (type_scope G a) e.
Proof. intros D. apply (parsed_typed file lint G W compiles N D). apply agree_check with (W := W) (compiles := compiles). auto. Qed.

(** ** The relational meaning *)

(** The expression is made of the operators, names and literals that were
    read. *)
Theorem C41_meaning n sc s e s' : declared G W compiles N ->
  parse_expression file lint G W compiles N n sc s = POk e s' ->
  exists r ts, syn L_expr r ts /\ reads (at_ s) ts (at_ s') /\ means file G W compiles N sc r e.
Proof.
  intros D H. apply parse_expression_sound in H as (r & ts & S & R & E). exists r, ts. split; auto. split; auto.
  eapply elab_means; eauto.
Qed.

(** Every phrase that has a well-typed meaning is accepted and gets this
    meaning. *)
Theorem C48_well_typed_accepted n sc r ts s p e S : declared G W compiles N -> distinct_names G ->
  syn L_expr r ts -> means file G W compiles N sc r e -> wt G W false S e ->
  reads (at_ s) ts p -> follow L_expr (nt p) = true -> (rem (at_ s) < n)%nat ->
  exists s', parse_expression file lint G W compiles N n sc s = POk e s' /\ at_ s' = p.
Proof. intros D DN Sy M Wt R F L. eapply parse_expression_complete; eauto. eapply means_elab; eauto. Qed.

Lemma reads_all p ts q us r : reads p ts q -> reads p us r -> nt q = None -> nt r = None -> ts = us.
Proof.
  intros H. revert us r. induction H as [p|p tk n l ts q E F H IH]; intros us r R Q Z.
  - inversion R; subst; auto. congruence.
  - inversion R as [|? tk' n' l' us' ? E' F']; subst; [congruence|]. rewrite E' in E. injection E as ->.
    rewrite F' in F. injection F as -> ->. f_equal. eapply IH; eauto.
Qed.

(** As check of type [a], a sequence of tokens is accepted as [e] just if it
    is a phrase with meaning [e] and [e] is well typed. *)
Theorem C48_exactly a ts e : declared G W compiles N -> distinct_names G -> Forall plain ts ->
  (parses (check_scope G N a) ts e None <->
   exists r, syn L_expr r ts /\ means file G W compiles N (check_scope G N a) r e /\ wt G W false (type_scope G a) e).
Proof.
  intros D DN P. split.
  - intros (s & H & E). pose proof (C48_accepted_well_typed _ _ _ _ _ D H) as Wt.
    apply C41_meaning in H as (r & ts' & S & R & M); auto.
    pose proof (reads_input None ts []) as R'. rewrite app_nil_r in R'. specialize (R' P). cbn [hd_error tl map] in R'.
    assert (ts' = ts) as -> by (eapply reads_all; [exact R|exact R'|exact E|reflexivity]). eauto.
  - intros (r & S & M & Wt). eapply whole; eauto. eapply means_elab; eauto.
Qed.

End PARSER.
Print Assumptions C41_meaning.
Print Assumptions C48_well_typed_accepted.
Print Assumptions C48_exactly.
Print Assumptions C41_round_trip.
Print Assumptions C41_accepts_phrases.
Print Assumptions C41_accepts_all_phrases.
Print Assumptions C41_unambiguous.
Print Assumptions C41_left_association.
Print Assumptions C41_mixing_rejected.
Print Assumptions C41_sign.
Print Assumptions C41_terminates.
Print Assumptions C48_accepted_well_typed.

(** *** Examples *)
Definition pN : names := Names (builtin_table ++ [(t "P", N_pkg 0)])
  [[(t "R", N_type (TRec 0)); (t "E", N_type (TRec 1)); (t "B", N_type (TRec 2)); (t "E1", N_type (TRec 3))]] 0 (Some []).
Definition p_scope : nscope := check_scope pG pN (TRec 0).
Definition p_world : world := World [] rx.
(** The tokens of a text. *)
Definition toks (s : string) : list token :=
  match items (t s) with
  | Some l => concat (map (fun i => match i with ITok tk => [tk] | _ => [] end) l)
  | None => []
  end.
Definition p_elab := elab 0 false pG p_world (fun _ => true) pN p_scope.
Definition p_parse (s : string) : pres expr := outcome 0 false pG p_world (fun _ => true) pN p_scope (toks s).
(** Syntax without locations. *)
Definition shape (ts : list token) : list (kind * Lexer.value) := map (fun tk => (tk_kind tk, tk_value tk)) ts.
Definition int_tok (z : Z) : token := Token INTEGER (VInt z) 1 1 0 0.
Definition id_tok (s : string) : token := Token IDENTIFIER (VText (t s)) 1 1 0 0.
Definition op_tok (s : string) : token := Token OPERATOR (VText (t s)) 1 1 0 0.
Definition kw_tok (s : string) : token := Token KEYWORD (VText (t s)) 1 1 0 0.
Definition r_int (z : Z) : raw := R_lit (int_tok z).
Definition r_id (s : string) : raw := R_name (id_tok s) [].
Definition r_op (s : string) (op : binop) (a b : raw) : raw := R_binary (op_tok s) op a b.
Definition r_kw (s : string) (op : binop) (a b : raw) : raw := R_binary (kw_tok s) op a b.
(** Needs brackets in three places. *)
Definition r_ex : raw :=
  r_kw "and" B_and
    (r_kw "and" B_and
       (r_op "<" B_lt (r_op "*" B_times (r_op "+" B_plus (r_id "n") (r_int 1)) (r_int 2)) (r_int 3))
       (r_kw "or" B_or (r_id "flag") (R_unary (kw_tok "not") U_not (r_id "flag"))))
    (r_op "==" B_eq (r_op "-" B_minus (r_op "-" B_minus (r_id "n") (r_int 1)) (r_op "-" B_minus (r_int 2) (r_int 1)))
       (R_name (id_tok "arr") [(punct S_BRA, Some (r_int 0))])).
Definition r_text : string := "(n + 1) * 2 < 3 and (flag or not flag) and n - 1 - (2 - 1) == arr[0]".
Example C41_round_trip_ex :
  printable r_ex = true /\ shape (print r_ex) = shape (toks r_text) /\
  match p_elab r_ex with
  | Ok e => exists s, outcome 0 false pG p_world (fun _ => true) pN p_scope (print r_ex) = POk e s /\ nt (at_ s) = None
  | _ => False
  end.
Proof. vm_compute. repeat split; auto. eexists; split; reflexivity. Qed.

(** [n / 2 * 2 % 3] as a chain *)
Definition div_links : list link :=
  [Link (op_tok "/") B_div (r_int 2) [int_tok 2]; Link (op_tok "*") B_times (r_int 2) [int_tok 2];
   Link (op_tok "%") B_rem (r_int 3) [int_tok 3]].
Example C41_left_association_ex :
  category L_term multiplying L_factor /\ syn L_term (r_id "n") [id_tok "n"] /\
  (forall k, In k div_links -> multiplying (k_tok k) (k_op k) /\ syn L_factor (k_arg k) (k_arg_toks k)) /\
  shape (chain_tokens [id_tok "n"] div_links) = shape (toks "n / 2 * 2 % 3") /\
  (exists e, p_elab (left_tree (r_id "n") div_links) = Ok e).
Proof.
  assert (I : forall z, syn L_factor (r_int z) [int_tok z])
    by (intros; apply syn_factor_prim, syn_literal; eapply lit_int; reflexivity).
  split; [constructor|]. split.
  { apply syn_term_factor, syn_factor_prim, syn_name; [reflexivity | constructor]. }
  split; [|split; [reflexivity | eexists; vm_compute; reflexivity]].
  intros k [<-|[<-|[<-|[]]]]; cbn [k_tok k_op k_arg k_arg_toks]; split; try apply I.
  - apply op_div; split; reflexivity.
  - apply op_times; split; reflexivity.
  - apply op_rem; split; reflexivity.
Qed.

Example C41_mixing_rejected_ex :
  chain B_and (r_kw "and" B_and (r_id "flag") (r_id "flag")) [id_tok "flag"; kw_tok "and"; id_tok "flag"] /\
  ends_chain B_and (kw_tok "or") /\
  (exists e, p_elab (r_kw "and" B_and (r_id "flag") (r_id "flag")) = Ok e).
Proof.
  assert (F : syn L_rel (r_id "flag") [id_tok "flag"])
    by (apply syn_rel_simple, syn_simple_term, syn_term_factor, syn_factor_prim, syn_name; [reflexivity | constructor]).
  split; [|split].
  - constructor. apply (syn_and_first (kw_tok "and") _ [id_tok "flag"] _ [id_tok "flag"]); auto. split; reflexivity.
  - left. split; reflexivity.
  - eexists. vm_compute. reflexivity.
Qed.
(** The same with text. *)
Definition rest_of (r : pres expr) : option (list (kind * Lexer.value)) :=
  match r with
  | POk _ s => Some (shape (match nt (at_ s) with Some tk => [tk] | None => [] end))
  | _ => None
  end.
Example C41_mixing_text :
  rest_of (p_parse "flag and flag or flag") = Some [(KEYWORD, VText (t "or"))] /\
  rest_of (p_parse "flag implies flag implies flag") = Some [(KEYWORD, VText (t "implies"))] /\
  rest_of (p_parse "flag and (flag or flag)") = Some [] /\
  rest_of (p_parse "n ** 2 ** 2 == 1") = Some [(OPERATOR, VText (t "**"))].
Proof. vm_compute. repeat split. Qed.

(** Other parts of the grammar. *)
Example C41_texts :
  map rest_of [p_parse "(forall i in arr => i > 0 and tup.a == i)"; p_parse "(if n < 3 then 1 elsif flag then 2 else 3) == 2";
               p_parse "len(strs) + P.len(strs[0],) not in 1 .. 3"; p_parse "abs n >= 2 xor un.k == 7"]
  = [Some []; Some []; Some []; Some []].
Proof. vm_compute. reflexivity. Qed.

Example C48_ex : declared pG p_world (fun _ => true) pN /\
  (exists e s, p_parse "(forall i in arr => i > 0 and tup.a ** 2 == i and matches(strs[0], ""a"" + ""b""))" = POk e s).
Proof.
  split; [|eexists _, _; vm_compute; reflexivity].
  constructor.
  - intros r p (rt & E & P). destruct r as [|[|[|[|[|r]]]]]; cbn in E; inversion E; subst; cbn in P; inversion P; subst; lia.
  - intros o ob E. destruct o; discriminate.
  - intros r. destruct r as [|[|[|[|r]]]].
    + cbn. repeat constructor; cbn; intros H; repeat destruct H as [H|H]; try discriminate; auto.
    + cbn. constructor.
    + cbn. repeat constructor; auto.
    + cbn. repeat constructor; auto.
    + unfold all_components. cbn. unfold rec. cbn. destruct r; constructor.
  - intros u ut E. destruct u as [|u]; cbn in E; [|destruct u; discriminate]. inversion E; subst. cbn.
    repeat constructor; cbn; intros H; repeat destruct H as [H|H]; try discriminate; auto.
  - intros r rt c E I. destruct r as [|[|[|[|r]]]]; cbn in E; [| | | |destruct r; discriminate]; inversion E; subst; cbn in I;
      repeat destruct I as [I|I]; subst; try reflexivity; contradiction.
  - intros. discriminate.
  - intros k e I. cbn in I. repeat destruct I as [I|I]; try contradiction; inversion I; reflexivity.
  - intros d k e [<-|[]] I. cbn in I. repeat destruct I as [I|I]; try contradiction; inversion I; reflexivity.
Qed.

(** The hypotheses of [C48_exactly], and both of its sides. *)
Lemma p_distinct : distinct_names pG.
Proof.
  constructor.
  - intros i en E. destruct i as [|[|i]]; cbn in E; try discriminate; injection E as <-; vm_compute;
      repeat constructor; cbn; intros H; repeat destruct H as [H|H]; try discriminate; auto.
  - intros u ut E. destruct u as [|[|u]]; cbn in E; try discriminate. injection E as <-. vm_compute.
    repeat constructor; cbn; intros H; repeat destruct H as [H|H]; try discriminate; auto.
  - intros u ut c E I. destruct u as [|[|u]]; cbn in E; try discriminate. injection E as <-. cbn in I.
    repeat destruct I as [<-|I]; try reflexivity; contradiction.
  - intros r. destruct r as [|[|[|[|r]]]]; try (vm_compute; repeat constructor; cbn; intros H; repeat destruct H as [H|H]; try discriminate; auto).
    unfold all_components. cbn. unfold rec. cbn. destruct r; constructor.
Qed.
Definition wrong_text : string := "tup.a + flag == 1".
Example C48_exactly_ex : declared pG p_world (fun _ => true) pN /\ distinct_names pG /\
  forallb (fun s => forallb (fun tk => if kind_eq_dec (tk_kind tk) COMMENT then false else true) (toks s)) [r_text; wrong_text] = true /\
  (exists e, parses 0 false pG p_world (fun _ => true) pN p_scope (toks r_text) e None) /\
  (forall e, ~ parses 0 false pG p_world (fun _ => true) pN p_scope (toks wrong_text) e None).
Proof.
  split; [apply C48_ex|]. split; [apply p_distinct|]. split; [vm_compute; reflexivity|]. split.
  - eexists _, _. split; [vm_compute; reflexivity|reflexivity].
  - intros e (s & H & _). vm_compute in H. discriminate.
Qed.

(** ** C49 *)

(** A membership test of null, a conversion with two parameters: the parser
    raises an AttributeError. *)
Theorem C49_exceptions_refuted : exists G W compiles N a ts,
  declared G W compiles N /\ Forall plain ts /\
  outcome 0 false G W compiles N (check_scope G N a) ts = PCrash.
Proof.
  exists pG, p_world, (fun _ => true), pN, (TRec 0), (toks "n in null").
  split; [apply C48_ex|]. split; [|vm_compute; reflexivity].
  vm_compute. repeat constructor; discriminate.
Qed.
Print Assumptions C49_exceptions_refuted.
Example C49_conversion : p_parse "Integer(1, 2) == 1" = PCrash /\ p_parse "Decimal() == 1.0" = PCrash.
Proof. vm_compute. auto. Qed.

(** ** C50 *)

(** [-a / b] for integer literals: the parser builds the negation of the
    quotient. *)
Definition neg_div (lm ld la lb : Z * Z * Z * Z) (a b : Z) : list token :=
  let tok k v (l : Z * Z * Z * Z) := let '(x, y, z, w) := l in Token k v x y z w in
  [tok OPERATOR (VText (t "-")) lm; tok INTEGER (VInt a) la; tok OPERATOR (VText (t "/")) ld; tok INTEGER (VInt b) lb].
Theorem C50_sign_and_division file lint G W compiles N sc lm ld la lb a b : b <> 0 ->
  exists e, parses file lint G W compiles N sc (neg_div lm ld la lb a b) e None /\
    match evaluate W None e with
    | Ok v => v_val v = Some (PInt (- (a / b)), TInt)
    | _ => False
    end.
Proof.
  intros B. destruct lm as [[[m1 m2] m3] m4], ld as [[[d1 d2] d3] d4], la as [[[a1 a2] a3] a4], lb as [[[b1 b2] b3] b4].
  pose (tm := Token OPERATOR (VText (t "-")) m1 m2 m3 m4). pose (td := Token OPERATOR (VText (t "/")) d1 d2 d3 d4).
  pose (ta := Token INTEGER (VInt a) a1 a2 a3 a4). pose (tb := Token INTEGER (VInt b) b1 b2 b3 b4).
  pose (r := R_binary td B_div (R_lit ta) (R_lit tb)).
  assert (S : syn L_term r [ta; td; tb]).
  { apply (syn_term_mul td B_div _ [ta] _ [tb]).
    - apply op_div. split; reflexivity.
    - apply syn_term_factor, syn_factor_prim, syn_literal. eapply lit_int; reflexivity.
    - apply syn_factor_prim, syn_literal. eapply lit_int; reflexivity. }
  assert (M : sign tm U_minus) by (apply sign_minus; split; reflexivity).
  destruct (elab file lint G W compiles N sc (R_unary tm U_minus r)) as [e| | |] eqn:E; try (vm_compute in E; discriminate).
  exists e. split; [apply (C41_sign file lint G W compiles N sc tm U_minus r [ta; td; tb]); auto|].
  cbn in E. unfold unary, binary in E. cbn in E. inversion E; subst e. clear E. cbn. unfold eval_binary. cbn.
  destruct (Qeq_bool (inject_Z b) 0) eqn:Z.
  { apply Qeq_bool_iff in Z. unfold Qeq in Z. cbn in Z. lia. }
  unfold MathModel.int_divide. rewrite (proj2 (Z.eqb_neq b 0) B). cbn. reflexivity.
Qed.
Print Assumptions C50_sign_and_division.
(** This is not the floor division of [-a] by [b], as in the manual's example
    of [-5 / 2]: the two agree only for multiples of [b]. *)
Theorem C50_floor_of_negative_refuted : exists lm ld la lb a b e,
  parses 0 false pG p_world (fun _ => true) pN p_scope (neg_div lm ld la lb a b) e None /\
  b <> 0 /\
  match evaluate p_world None e with
  | Ok v => v_val v <> Some (PInt ((- a) / b), TInt)
  | _ => False
  end.
Proof.
  exists (1, 1, 0, 0), (1, 1, 0, 0), (1, 1, 0, 0), (1, 1, 0, 0), 5, 2.
  destruct (C50_sign_and_division 0 false pG p_world (fun _ => true) pN p_scope (1, 1, 0, 0) (1, 1, 0, 0) (1, 1, 0, 0)
              (1, 1, 0, 0) 5 2 ltac:(discriminate)) as (e & P & V).
  exists e. split; auto. split; [discriminate|]. revert V. destruct (evaluate p_world None e) as [v| | |]; auto. intros ->. discriminate.
Qed.
Print Assumptions C50_floor_of_negative_refuted.
Theorem C50_agreement a b : b <> 0 -> (- (a / b) = (- a) / b <-> (b | a)).
Proof.
  intros B. split.
  - intros E. destruct (Z.eq_dec (a mod b) 0) as [M|M]; [apply Z.mod_divide; auto|].
    pose proof (Z.div_opp_l_nz a b B M). lia.
  - intros (k & ->). rewrite <- Z.mul_opp_l, !Z.div_mul by auto; reflexivity.
Qed.
Print Assumptions C50_agreement.
Example C50_ex : rest_of (p_parse "-5 / 2 == n") = Some [].
Proof. vm_compute. reflexivity. Qed.
