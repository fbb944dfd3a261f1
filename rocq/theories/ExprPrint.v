(** Printing a syntax tree with the brackets the grammar requires, and reading
    token sequences that are nothing but an expression. *)
From Verif Require Import Base Lexer SymTab Ast Eval ParserBase ParserExpr ExprSyntax ParserProofs ExprParserSound
  ExprParserComplete.
From Coq Require Import ZifyBool ZifyNat ZifyN.
Open Scope Z_scope.

(** ** A token sequence as input of the parser *)
Definition input (ts : list token) : ps :=
  PS (Pos None (hd_error ts) (map ITok (tl ts))) [].
Definition at_end (last : option token) : pos := Pos last None [].
Definition plain (tk : token) : Prop := tk_kind tk <> COMMENT.

Lemma reads_input c ts us : Forall plain (ts ++ us) ->
  reads (Pos c (hd_error (ts ++ us)) (map ITok (tl (ts ++ us)))) ts
        (Pos (match rev ts with tk :: _ => Some tk | [] => c end) (hd_error us) (map ITok (tl us))).
Proof.
  revert c. induction ts as [|tk ts IH]; intros c P.
  - simpl. apply reads_nil.
  - cbn [app] in P. inversion P; subst. cbn [app hd_error tl].
    assert (F : fetch (Some tk) (map ITok (ts ++ us)) = Got (hd_error (ts ++ us), map ITok (tl (ts ++ us)))).
    { destruct (ts ++ us) as [|t1 l]; auto. simpl. destruct (kind_eq_dec (tk_kind t1) COMMENT) as [K|K]; auto.
      inversion H2; subst. contradiction. }
    eapply reads_cons; [reflexivity | exact F|].
    replace (match rev (tk :: ts) with tk :: _ => Some tk | [] => c end)
      with (match rev ts with tk :: _ => Some tk | [] => Some tk end); [apply IH; auto|].
    simpl. destruct (rev ts); auto.
Qed.

(** ** Tokens that carry no information *)
Definition punct (k : kind) : token := Token k VNone 0 0 0 0.
Definition word (w : string) : token := Token KEYWORD (VText (t w)) 0 0 0 0.

(** ** The printer *)
Definition nat_level (lv : level) : nat :=
  match lv with
  | L_prim => 0 | L_factor => 1 | L_term => 2 | L_simple => 3 | L_rel => 4 | L_and => 5 | L_or => 6 | L_expr => 7
  end%nat.
(** A phrase of level [a] is one of level [b]. *)
Definition fits (a b : level) : bool :=
  match a, b with
  | L_and, L_or => false
  | _, L_and | _, L_or => Nat.eqb (nat_level a) (nat_level b)
  | _, _ => Nat.leb (nat_level a) (nat_level b)
  end.
Definition bracketed (ts : list token) : list token := punct BRA :: ts ++ [punct KET].
Definition fit (lv : level) (p : level * list token) : list token :=
  if fits (fst p) lv then snd p else bracketed (snd p).
(** The left operand of [and] and [or]. *)
Definition fit_chain (lv : level) (p : level * list token) : list token :=
  if Nat.eqb (nat_level (fst p)) (nat_level lv) then snd p else fit L_rel p.

Fixpoint commas (l : list (list token)) : list token :=
  match l with
  | [] => []
  | [ts] => ts
  | ts :: l' => ts ++ punct COMMA :: commas l'
  end.

(** The level of a tree and its tokens. *)
Fixpoint bare (r : raw) : level * list token :=
  match r with
  | R_lit tk => (L_prim, [tk])
  | R_name tk sels =>
      (L_prim, tk :: concat (map (fun s => match snd s with
                                           | None => [punct DOT; fst s]
                                           | Some i => fst s :: snd (bare i) ++ [punct S_KET]
                                           end) sels))
  | R_call pkg tk args =>
      (L_prim, match pkg with Some tp => [tp; punct DOT] | None => [] end ++ tk ::
               punct BRA :: commas (map (fun a => snd (bare a)) args) ++ [punct KET])
  | R_unary tk op a =>
      match op with
      | U_plus | U_minus => (L_simple, tk :: fit L_term (bare a))
      | _ => (L_factor, tk :: fit L_prim (bare a))
      end
  | R_binary tk op a b =>
      match op with
      | B_and => (L_and, fit_chain L_and (bare a) ++ tk :: fit L_rel (bare b))
      | B_or => (L_or, fit_chain L_or (bare a) ++ tk :: fit L_rel (bare b))
      | B_xor | B_implies => (L_expr, fit L_rel (bare a) ++ tk :: fit L_rel (bare b))
      | B_plus | B_minus => (L_simple, fit L_simple (bare a) ++ tk :: fit L_term (bare b))
      | B_times | B_div | B_rem => (L_term, fit L_term (bare a) ++ tk :: fit L_factor (bare b))
      | B_pow => (L_factor, fit L_prim (bare a) ++ tk :: fit L_prim (bare b))
      | _ => (L_rel, fit L_simple (bare a) ++ tk :: fit L_simple (bare b))
      end
  | R_member neg tk x a =>
      (L_rel, fit L_simple (bare x) ++ match neg with Some tn => [tn] | None => [] end ++ tk ::
              fit L_simple (bare a))
  | R_range neg tk x a b =>
      (L_rel, fit L_simple (bare x) ++ match neg with Some tn => [tn] | None => [] end ++ tk ::
              fit L_simple (bare a) ++ punct RANGE :: fit L_simple (bare b))
  | R_quant universal tq tv ts body =>
      (L_prim, bracketed (tq :: tv :: word "in" :: ts :: punct ARROW :: snd (bare body)))
  | R_cond tk c x more y =>
      (L_prim, bracketed (tk :: snd (bare c) ++ word "then" :: snd (bare x) ++
                          concat (map (fun p => word "elsif" :: snd (bare (fst p)) ++ word "then" ::
                                                snd (bare (snd p))) more) ++
                          word "else" :: snd (bare y)))
  end.
Definition print (r : raw) : list token := snd (bare r).

(** Trees whose tokens are what their node says. *)
Definition op_word (op : binop) : option (kind * string) :=
  match op with
  | B_and => Some (KEYWORD, "and"%string) | B_or => Some (KEYWORD, "or"%string)
  | B_xor => Some (KEYWORD, "xor"%string) | B_implies => Some (KEYWORD, "implies"%string)
  | B_eq => Some (OPERATOR, "=="%string) | B_neq => Some (OPERATOR, "!="%string)
  | B_lt => Some (OPERATOR, "<"%string) | B_leq => Some (OPERATOR, "<="%string)
  | B_gt => Some (OPERATOR, ">"%string) | B_geq => Some (OPERATOR, ">="%string)
  | B_plus => Some (OPERATOR, "+"%string) | B_minus => Some (OPERATOR, "-"%string)
  | B_times => Some (OPERATOR, "*"%string) | B_div => Some (OPERATOR, "/"%string)
  | B_rem => Some (OPERATOR, "%"%string) | B_pow => Some (OPERATOR, "**"%string)
  | _ => None
  end.
Definition un_word (op : unop) : option (kind * string) :=
  match op with
  | U_plus => Some (OPERATOR, "+"%string) | U_minus => Some (OPERATOR, "-"%string)
  | U_not => Some (KEYWORD, "not"%string) | U_abs => Some (KEYWORD, "abs"%string)
  | _ => None
  end.
Definition spelled (o : option (kind * string)) (tk : token) : bool :=
  match o with Some (k, w) => is_kind k tk && has_text (t w) tk | None => false end.
Definition lit_token (tk : token) : bool :=
  match tk_kind tk, tk_value tk with
  | INTEGER, VInt _ | DECIMAL, VDec _ | STRING, VText _ => true
  | KEYWORD, VText w => text_eqb w (t "true") || text_eqb w (t "false") || text_eqb w (t "null")
  | _, _ => false
  end.
Definition opt_ok (f : token -> bool) (o : option token) : bool := match o with Some tk => f tk | None => true end.

Fixpoint printable (r : raw) : bool :=
  match r with
  | R_lit tk => lit_token tk
  | R_name tk sels =>
      is_kind IDENTIFIER tk &&
      forallb (fun s => match snd s with
                        | None => is_kind IDENTIFIER (fst s)
                        | Some i => is_kind S_BRA (fst s) && printable i
                        end) sels
  | R_call pkg tk args => opt_ok (is_kind IDENTIFIER) pkg && is_kind IDENTIFIER tk && forallb printable args
  | R_unary tk op a => spelled (un_word op) tk && printable a
  | R_binary tk op a b => spelled (op_word op) tk && printable a && printable b
  | R_member neg tk x a => opt_ok (is_kw (t "not")) neg && is_kw (t "in") tk && printable x && printable a
  | R_range neg tk x a b =>
      opt_ok (is_kw (t "not")) neg && is_kw (t "in") tk && printable x && printable a && printable b
  | R_quant universal tq tv ts body =>
      is_kw (t (if universal : bool then "forall" else "exists")) tq && is_kind IDENTIFIER tv &&
      is_kind IDENTIFIER ts && printable body
  | R_cond tk c x more y =>
      is_kw (t "if") tk && printable c && printable x &&
      forallb (fun p => printable (fst p) && printable (snd p)) more && printable y
  end.

(** ** What is printed is a phrase *)
Lemma syn_up a b r ts : fits a b = true -> syn a r ts -> syn b r ts.
Proof.
  intros F S. destruct a, b; simpl in F; try discriminate; auto;
  repeat first [ exact S
    | apply syn_expr_and; exact S | apply syn_expr_or; exact S
    | match goal with
      | |- syn L_expr _ _ => apply syn_expr_rel
      | |- syn L_rel _ _ => apply syn_rel_simple
      | |- syn L_simple _ _ => apply syn_simple_term
      | |- syn L_term _ _ => apply syn_term_factor
      | |- syn L_factor _ _ => apply syn_factor_prim
      end ].
Qed.
Lemma syn_expr_any a r ts : syn a r ts -> syn L_expr r ts.
Proof. intros S. eapply syn_up; [|eauto]. destruct a; reflexivity. Qed.
Lemma bracketed_syn a r ts : syn a r ts -> syn L_prim r (bracketed ts).
Proof. intros S. unfold bracketed. apply syn_brackets; auto. eapply syn_expr_any; eauto. Qed.
Definition proper (lv : level) : Prop := lv <> L_and /\ lv <> L_or.
Lemma fit_syn lv r : proper lv -> syn (fst (bare r)) r (snd (bare r)) -> syn lv r (fit lv (bare r)).
Proof.
  intros (A & B) S. unfold fit. destruct (fits (fst (bare r)) lv) eqn:F.
  - eapply syn_up; eauto.
  - apply bracketed_syn in S. eapply syn_up; [|exact S]. destruct lv; simpl; congruence.
Qed.

Section INDUCTION.
Variable Q : raw -> Prop.
Hypothesis H_lit : forall tk, Q (R_lit tk).
Hypothesis H_name : forall tk sels, Forall (fun s => forall i, snd s = Some i -> Q i) sels -> Q (R_name tk sels).
Hypothesis H_call : forall pkg tk args, Forall Q args -> Q (R_call pkg tk args).
Hypothesis H_unary : forall tk op a, Q a -> Q (R_unary tk op a).
Hypothesis H_binary : forall tk op a b, Q a -> Q b -> Q (R_binary tk op a b).
Hypothesis H_member : forall neg tk x a, Q x -> Q a -> Q (R_member neg tk x a).
Hypothesis H_range : forall neg tk x a b, Q x -> Q a -> Q b -> Q (R_range neg tk x a b).
Hypothesis H_quant : forall u tq tv ts b, Q b -> Q (R_quant u tq tv ts b).
Hypothesis H_cond : forall tk c x more y, Q c -> Q x -> Forall (fun p => Q (fst p) /\ Q (snd p)) more -> Q y ->
  Q (R_cond tk c x more y).
Fixpoint raw_nested (r : raw) : Q r :=
  match r with
  | R_lit tk => H_lit tk
  | R_name tk sels => H_name tk sels
      ((fix go (l : list (token * option raw)) : Forall (fun s => forall i, snd s = Some i -> Q i) l :=
          match l with
          | [] => Forall_nil _
          | (k, Some i) :: l' => Forall_cons (P := fun s => forall i, snd s = Some i -> Q i) (k, Some i)
              (fun j (H : Some i = Some j) => eq_ind i Q (raw_nested i) j (f_equal (fun o => match o with Some x => x | None => i end) H)) (go l')
          | (k, None) :: l' => Forall_cons (P := fun s => forall i, snd s = Some i -> Q i) (k, None)
              (fun j (H : None = Some j) => False_ind _ (eq_ind None (fun o => match o with None => True | _ => False end) I _ H)) (go l')
          end) sels)
  | R_call pkg tk args => H_call pkg tk args
      ((fix go (l : list raw) : Forall Q l :=
          match l with [] => Forall_nil _ | a :: l' => Forall_cons a (raw_nested a) (go l') end) args)
  | R_unary tk op a => H_unary tk op a (raw_nested a)
  | R_binary tk op a b => H_binary tk op a b (raw_nested a) (raw_nested b)
  | R_member neg tk x a => H_member neg tk x a (raw_nested x) (raw_nested a)
  | R_range neg tk x a b => H_range neg tk x a b (raw_nested x) (raw_nested a) (raw_nested b)
  | R_quant u tq tv ts b => H_quant u tq tv ts b (raw_nested b)
  | R_cond tk c x more y => H_cond tk c x more y (raw_nested c) (raw_nested x)
      ((fix go (l : list (raw * raw)) : Forall (fun p => Q (fst p) /\ Q (snd p)) l :=
          match l with
          | [] => Forall_nil _
          | (c, x) :: l' => Forall_cons (P := fun p => Q (fst p) /\ Q (snd p)) (c, x) (conj (raw_nested c) (raw_nested x)) (go l')
          end) more) (raw_nested y)
  end.
End INDUCTION.

Lemma spelled_kw o w tk : o = Some (KEYWORD, w) -> spelled o tk = true -> keyword w tk.
Proof. intros -> H. simpl in H. apply andb_true_iff in H as (A & B). split; [apply is_kind_true | apply has_text_true]; auto. Qed.
Lemma spelled_op o w tk : o = Some (OPERATOR, w) -> spelled o tk = true -> operator w tk.
Proof. intros -> H. simpl in H. apply andb_true_iff in H as (A & B). split; [apply is_kind_true | apply has_text_true]; auto. Qed.
Lemma lit_token_spec tk : lit_token tk = true -> literal tk.
Proof.
  unfold lit_token. destruct (tk_kind tk) eqn:K, (tk_value tk) eqn:V; try discriminate; intros H;
    try (econstructor; eassumption).
  - apply orb_true_iff in H as [H|H]; [apply orb_true_iff in H as [H|H]|]; apply text_eqb_eq in H; subst.
    + apply lit_true. split; auto.
    + apply lit_false. split; auto.
    + apply lit_null. split; auto.
Qed.
Lemma word_keyword w : keyword w (word w).
Proof. split; reflexivity. Qed.

Lemma commas_syn l : (forall a, In a l -> syn L_expr a (snd (bare a))) ->
  syn_args l (commas (map (fun a => snd (bare a)) l)).
Proof.
  induction l as [|a l IH]; intros H; [constructor|]. simpl. destruct l as [|b l].
  - simpl. apply args_last. apply H. left; auto.
  - change (syn_args (a :: b :: l)
      (snd (bare a) ++ punct COMMA :: commas (map (fun r => snd (bare r)) (b :: l)))).
    apply args_comma; auto. { apply H; left; auto. } apply IH. intros; apply H; right; auto.
Qed.

Ltac band H := repeat match type of H with (_ && _)%bool = true =>
  let H2 := fresh "P" in apply andb_true_iff in H as (H & H2); try band H2 end.
Ltac bands := repeat match goal with H : (_ && _)%bool = true |- _ =>
  let H2 := fresh "P" in apply andb_true_iff in H as (H & H2) end.

Lemma bare_syn r : printable r = true -> syn (fst (bare r)) r (snd (bare r)).
Proof.
  induction r using raw_nested; cbn [printable bare fst snd]; intros PR; bands.
  - apply syn_literal, lit_token_spec; auto.
  - apply syn_name; [apply is_kind_true; auto|].
    induction sels as [|[k [i|]] l IH]; simpl in *; [constructor| |]; bands; inversion H as [|? ? HH Ht]; subst; simpl in HH.
    + rewrite <- app_assoc. simpl.
      apply sels_index; [apply is_kind_true; auto | reflexivity | |].
      * eapply syn_expr_any, HH; eauto.
      * apply IH; auto.
    + apply sels_field; [reflexivity | apply is_kind_true; auto |]. apply IH; auto.
  - apply syn_call; try reflexivity; [| apply is_kind_true; auto |].
    + destruct pkg; simpl in *; constructor; auto. apply is_kind_true; auto.
    + apply commas_syn. intros a Ha. rewrite Forall_forall in H. eapply syn_expr_any, H; auto.
      match goal with P : forallb _ _ = true |- _ => rewrite forallb_forall in P; auto end.
  - destruct op; try discriminate PR; cbn [fst snd].
    + apply syn_simple_sign; [constructor; eapply spelled_op; eauto; reflexivity|]. apply fit_syn; auto. split; discriminate.
    + apply syn_simple_sign; [constructor; eapply spelled_op; eauto; reflexivity|]. apply fit_syn; auto. split; discriminate.
    + apply syn_factor_not; [eapply spelled_kw; eauto; reflexivity|]. apply fit_syn; auto. split; discriminate.
    + apply syn_factor_abs; [eapply spelled_kw; eauto; reflexivity|]. apply fit_syn; auto. split; discriminate.
  - assert (F : forall lv r, proper lv -> syn (fst (bare r)) r (snd (bare r)) -> syn lv r (fit lv (bare r)))
      by (intros; apply fit_syn; auto).
    destruct op; try discriminate PR; cbn [fst snd];
    try (first [apply syn_rel_compare | apply syn_simple_add | apply syn_term_mul];
         [constructor; eapply spelled_op; eauto; reflexivity
         | apply F; [split; discriminate | auto] | apply F; [split; discriminate | auto]]).
    + unfold fit_chain. destruct (Nat.eqb (nat_level (fst (bare r1))) (nat_level L_and)) eqn:E.
      * apply syn_and_next; [eapply spelled_kw; eauto; reflexivity | | apply F; [split; discriminate | auto]].
        replace L_and with (fst (bare r1)); [auto|]. destruct (fst (bare r1)); auto; discriminate.
      * apply syn_and_first; [eapply spelled_kw; eauto; reflexivity | | ]; apply F; try (split; discriminate); auto.
    + unfold fit_chain. destruct (Nat.eqb (nat_level (fst (bare r1))) (nat_level L_or)) eqn:E.
      * apply syn_or_next; [eapply spelled_kw; eauto; reflexivity | | apply F; [split; discriminate | auto]].
        replace L_or with (fst (bare r1)); [auto|]. destruct (fst (bare r1)); auto; discriminate.
      * apply syn_or_first; [eapply spelled_kw; eauto; reflexivity | | ]; apply F; try (split; discriminate); auto.
    + apply syn_expr_xor; [eapply spelled_kw; eauto; reflexivity | | ]; apply F; try (split; discriminate); auto.
    + apply syn_expr_implies; [eapply spelled_kw; eauto; reflexivity | | ]; apply F; try (split; discriminate); auto.
    + apply syn_factor_power; [eapply spelled_op; eauto; reflexivity | | ]; apply F; try (split; discriminate); auto.
  - apply syn_rel_member; [| apply is_kw_true; auto | |]; try (apply fit_syn; [split; discriminate | auto]).
    destruct neg; simpl in *; constructor; apply is_kw_true; auto.
  - apply syn_rel_range; [| apply is_kw_true; auto | reflexivity | | |]; try (apply fit_syn; [split; discriminate | auto]).
    destruct neg; simpl in *; constructor; apply is_kw_true; auto.
  - unfold bracketed. cbn [app]. apply syn_quant; try reflexivity; try (apply is_kind_true; auto; fail).
    + apply is_kw_true; auto.
    + apply word_keyword.
    + eapply syn_expr_any; auto.
  - unfold bracketed. repeat (cbn [app]; rewrite <- ?app_assoc).
    apply syn_cond; try reflexivity; try apply word_keyword.
    + apply is_kw_true; auto.
    + eapply syn_expr_any; auto.
    + eapply syn_expr_any; auto.
    + induction more as [|[c x] l IH]; simpl in *; [constructor|]. bands.
      inversion H as [|? ? (Q1 & Q2) Ht]; subst. simpl in Q1, Q2.
      rewrite <- app_assoc. cbn [app]. apply more_elsif; try apply word_keyword.
      * eapply syn_expr_any; auto.
      * eapply syn_expr_any; auto.
      * apply IH; auto.
    + eapply syn_expr_any; auto.
Qed.
Theorem print_syn r : printable r = true -> syn L_expr r (print r).
Proof. intros H. eapply syn_expr_any, bare_syn; auto. Qed.

(** ** Phrases have no comments *)
Ltac pl := intros; repeat match goal with
  | H : keyword _ _ |- _ => destruct H as (? & ?)
  | H : operator _ _ |- _ => destruct H as (? & ?)
  end;
  repeat first [apply Forall_nil | apply Forall_cons | (apply Forall_app; split)]; auto; try (unfold plain; congruence).
Lemma plain_all : (forall lv r ts, syn lv r ts -> Forall plain ts) /\ (forall l ts, syn_sels l ts -> Forall plain ts) /\
  (forall l ts, syn_args l ts -> Forall plain ts) /\ (forall l ts, syn_more l ts -> Forall plain ts).
Proof.
  apply syn_ind4; pl;
  repeat match goal with
  | H : comparison _ _ |- _ => destruct H; pl
  | H : adding _ _ |- _ => destruct H; pl
  | H : multiplying _ _ |- _ => destruct H; pl
  | H : sign _ _ |- _ => destruct H; pl
  | H : negation _ _ |- _ => destruct H; pl
  | H : qualifier _ _ |- _ => destruct H; pl
  | H : literal _ |- _ => destruct H; pl
  end.
Qed.
Lemma syn_plain lv r ts : syn lv r ts -> Forall plain ts.
Proof. apply plain_all. Qed.
