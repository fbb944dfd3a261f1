(** C49: which texts make the parser of expressions raise an exception
    that is not an error message.  [Hazards.hazardous] is the whole list. *)
From Verif Require Import Base Lexer SymTab Ast Eval Typing ParserBase ParserExpr ExprSyntax ParserProofs ExprMeaning ExprPrint
  ExprTyping ParserValue RunSyntax Hazards ParserCrash Prop_Eval Prop_Parser.
From Verif Require ParserDecl.
Open Scope Z_scope.

Lemma plain_filter l : Forall plain l -> filter not_comment l = l.
Proof.
  induction 1 as [|tk l P _ IH]; cbn [filter]; auto. rewrite IH. unfold not_comment.
  destruct (kind_eq_dec (tk_kind tk) COMMENT); [contradiction|auto].
Qed.

Theorem C49_crashes_only file lint G W compiles N a ts :
  declared G W compiles N -> n_imports N <> None ->
  (forall d k e, In d (n_stab N :: n_pkgs N) -> In (k, e) d -> reserved k e) ->
  Forall plain ts -> Forall valued ts ->
  outcome file lint G W compiles N (check_scope G N a) ts = PCrash -> hazardous ts.
Proof.
  intros D I R P V H. rewrite Forall_forall in V.
  assert (Sf : safe (T := ts) (hz := hazardous ts) (parse_expression file lint G W compiles N (Datatypes.S (List.length ts)) (check_scope G N a)) (input ts)).
  { eapply expression_safe; eauto; [eapply agree_check; eauto|discriminate|]. exists []. unfold place.
    destruct ts as [|tk ts]; cbn.
    - exists []. auto.
    - exists ts. repeat split; auto; [|discriminate]. f_equal. symmetry. apply plain_filter. inversion P; auto. }
  unfold outcome in H. unfold safe in Sf. rewrite H in Sf. exact Sf.
Qed.
Print Assumptions C49_crashes_only.

(** Each of the phrases needs one of five words, so texts without them are
    safe. *)
Definition risky : list text := [t "null"; t "Integer"; t "Decimal"; t "**"; t "matches"].
Definition word_of (r : raw) : option token :=
  match r with
  | R_lit tk => Some tk
  | R_binary tk B_pow _ _ => Some tk
  | R_call _ tk _ => Some tk
  | R_member _ _ _ (R_lit tn) => Some tn
  | _ => None
  end.
Lemma word_in lv r us : syn lv r us -> forall tk, word_of r = Some tk ->
  In tk us /\ match r with R_binary _ B_pow _ _ => tok_text tk = t "**" | _ => True end.
Proof.
  intros H. pattern lv, r, us.
  apply (syn_mut _ (fun _ _ => True) (fun _ _ => True) (fun _ _ => True)) with (l := lv) (r := r) (l0 := us); auto; cbn [word_of]; try discriminate;
    intros.
  all: try match goal with o : binop |- _ => destruct o; try discriminate end.
  all: try (match goal with h : Some _ = Some _ |- _ => injection h as <- end).
  all: try (split; [rewrite ?in_app_iff; cbn; auto; fail|auto]).
  - inversion H0.
  - destruct a; try discriminate. edestruct H5 as [I _]; [eassumption|]. split; auto. rewrite !in_app_iff. cbn. auto.
  - inversion H0.
  - inversion H0.
  - destruct H0 as [_ K]. unfold tok_text. rewrite K. auto.
  - destruct (H3 _ H4). split; auto. right. apply in_or_app. auto.
Qed.

Theorem C49_safe_words file lint G W compiles N a ts :
  declared G W compiles N -> n_imports N <> None ->
  (forall d k e, In d (n_stab N :: n_pkgs N) -> In (k, e) d -> reserved k e) ->
  Forall plain ts -> Forall valued ts ->
  (forall tk, In tk ts -> ~ In (tok_text tk) risky) ->
  outcome file lint G W compiles N (check_scope G N a) ts <> PCrash.
Proof.
  intros D I R P V S H. apply C49_crashes_only in H as (lv & r & us & Sy & U & b & c & ->); auto.
  assert (E : exists tk, word_of r = Some tk /\ (match r with R_binary _ B_pow _ _ => True | _ => In (tok_text tk) risky end)).
  { destruct U as [? ? ? tn [_ K]|? tk ? K|tk|? tk ? ? K]; cbn [word_of]; eexists; split; eauto; unfold risky.
    - unfold tok_text. rewrite K. cbn. auto.
    - cbn in K |- *. tauto.
    - cbn. rewrite K. auto 8. }
  destruct E as (tk & E & Q). destruct (word_in _ _ _ Sy _ E) as [M X].
  apply (S tk); [rewrite !in_app_iff; auto|].
  destruct r; auto. destruct op; auto. rewrite X. unfold risky. cbn. auto 8.
Qed.
Print Assumptions C49_safe_words.

(** The hypotheses, and a crash of each kind. *)
Definition word_valued (tk : token) : bool :=
  match tk_kind tk, tk_value tk with
  | COMMENT, _ => false
  | INTEGER, VInt _ | DECIMAL, VDec _ | (STRING | IDENTIFIER | KEYWORD), VText _ => true
  | (INTEGER | DECIMAL | STRING | IDENTIFIER | KEYWORD), _ => false
  | _, _ => true
  end.
Lemma word_valued_ok ts : forallb word_valued ts = true -> Forall plain ts /\ Forall valued ts.
Proof.
  rewrite forallb_forall, !Forall_forall. intros H. split; intros tk I; specialize (H tk I); unfold word_valued, plain, valued in *.
  - intros E. rewrite E in H. discriminate.
  - destruct (tk_kind tk); auto; destruct (tk_value tk); try discriminate; eauto.
Qed.
Definition crash_texts : list string :=
  ["n in null"; "Integer(1, 2) == 1"; "P.Decimal() == 1.0"; "2 ** (1 - (if (exists i in arr => i == n) then 1 else 2)) == n";
   "matches(strs[0], (if (forall i in arr => i > 0) then ""a"" else ""b""))"]%string.
Example C49_crashes_ex :
  declared pG p_world (fun _ => true) pN /\ n_imports pN <> None /\
  (forall d k e, In d (n_stab pN :: n_pkgs pN) -> In (k, e) d -> reserved k e) /\
  (forall s, In s (r_text :: crash_texts) -> Forall plain (toks s) /\ Forall valued (toks s)) /\
  (forall tk, In tk (toks r_text) -> ~ In (tok_text tk) risky) /\
  map p_parse crash_texts = map (fun _ => PCrash) crash_texts.
Proof.
  split; [apply C48_ex|]. split; [discriminate|]. split.
  - intros d k e [<-|[<-|[]]] I; cbn in I; repeat destruct I as [I|I]; try contradiction; injection I as <- <-; cbn; auto.
  - split; [|split; [|vm_compute; reflexivity]].
    + assert (A : forallb (fun s => forallb word_valued (toks s)) (r_text :: crash_texts) = true) by (vm_compute; reflexivity).
      rewrite forallb_forall in A. intros s I. apply word_valued_ok. exact (A s I).
    + assert (A : forallb (fun tk => negb (existsb (text_eqb (tok_text tk)) risky)) (toks r_text) = true) by (vm_compute; reflexivity).
      rewrite forallb_forall in A. intros tk I J. specialize (A tk I). apply negb_true_iff in A.
      assert (B : existsb (text_eqb (tok_text tk)) risky = true) by (apply existsb_exists; exists (tok_text tk); split; [exact J|apply text_eqb_refl]).
      rewrite A in B. discriminate B.
Qed.
