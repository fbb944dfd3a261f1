(** Names of objects are unique in an accepted run. *)
From Verif Require Import Base Lexer LexSpec SymTab Ast Eval Typing TypesProofs ParserBase ParserProofs ParserDecl ParserFile DeclInv Process ProcessInv
  ProcessRun RunSyntax RunGraph Imports ImportRun Api ApiProofs Prop_Process.
From Verif Require SourceMan LexerThm FileFuel.
From Coq Require Import ZifyBool ZifyNat ZifyN.
Open Scope Z_scope.

Lemma identifier_no_dot src l tk : items src = Some l -> In (ITok tk) l -> tk_kind tk = IDENTIFIER -> ~ In 46%N (tok_text tk).
Proof.
  intros E I K. pose proof (identifier_value _ _ _ E I K) as Vt. destruct (FileFuel.items_ok src) as (l' & E' & H). assert (l' = l) as -> by congruence.
  destruct (H _ I) as (_ & _ & _ & Lx & k & base & _ & T). rewrite K in *. rewrite Vt in T.
  assert (X : tok_text tk = LexSpec.source_text src tk).
  { unfold token_value in T. destruct k; try congruence; repeat (match type of T with (if ?c then _ else _) = _ => destruct c end); try discriminate; injection T as T; auto. }
  rewrite X. inversion Lx; subst; try discriminate.
  - intros [D|D].
    + subst c. unfold letter in *. lia.
    + match goal with F : Forall ident_char _ |- _ => rewrite Forall_forall in F; apply F in D end. unfold ident_char, letter, digit in D. lia.
  - exfalso. match goal with D : delimiter _ _ |- _ => inversion D end.
Qed.
Lemma name_tokens name l ts : preamble_part name l ts -> In name ts /\ tk_kind name = IDENTIFIER.
Proof. intros P. destruct P as [kw name l ts Kw Kn P _]. cbn. auto. Qed.

Lemma split_dot (a b c d : text) : ~ In 46%N a -> ~ In 46%N b -> a ++ t "." ++ c = b ++ t "." ++ d -> a = b /\ c = d.
Proof.
  change (t ".") with [46%N]. revert b. induction a as [|x a IH]; intros [|y b] A B E; cbn in *; injection E.
  - auto.
  - intros _ <-. exfalso. auto.
  - intros _ ->. exfalso. auto.
  - intros E' ->. destruct (IH b) as [-> ->]; auto.
Qed.

Section RUN.
Variable compiles : text -> bool.
Variable matches : text -> text -> option bool.
Variable pick : list SourceMan.node -> nat.
Variable lint recovery : bool.
Hypothesis regex : forall p x, compiles p = true -> matches p x <> None.
Notation process := (process compiles matches pick lint recovery).

Lemma package_no_dot fs v ms k p : process fs = Ok (Some v, ms) -> In (k, N_pkg p) (v_stab v) -> ~ In 46%N k.
Proof.
  intros H I. rewrite process_split in H. apply bind_ok in H as (gr & Eg & H).
  destruct (run_facts _ _ _ _ _ regex _ _ _ _ Eg H) as (names & required & Sv & Pr & Nn & Of & Fa). rewrite Sv in I. apply table_in in I.
  apply nth_error_In in I. destruct (Of _ I) as (pa & Ip & Ek). destruct (Fa pa Ip) as (_ & ns & Pn & (name & im & ts & raw & q & ps & B & _) & _).
  unfold parsed_of in Ek. cbn in Ek. rewrite (be_cu _ _ _ _ _ _ _ _ B) in Ek. cbn in Ek. injection Ek as <-.
  destruct (name_tokens _ _ _ (be_syntax _ _ _ _ _ _ _ _ B)) as [In Kn].
  destruct (be_read _ _ _ _ _ _ _ _ B) as (li & all & E & Ets & El & _). subst ts. apply filter_In in In as [Ia _].
  eapply identifier_no_dot; eauto. rewrite El. apply in_or_app. left. apply in_map. auto.
Qed.
Lemma object_package fs v ms o ob : process fs = Ok (Some v, ms) -> nth_error (v_objs v) o = Some ob -> exists k, In (k, N_pkg (o_pkg ob)) (v_stab v).
Proof.
  intros H E. destruct (C17_accepted_run _ _ _ _ _ regex _ _ _ H) as (_ & _ & Ob). destruct (Ob _ _ E) as (d & Ed & _).
  apply process_result in H as [Ty Of Rd Se Tb Ck]; auto. apply (no_named _ (of_names _ _ Of)). apply nth_error_Some. congruence.
Qed.
Lemma distinct_entry (d : ntable) k a b : NoDup (simple_names d) -> In (k, a) d -> In (k, b) d -> a = b.
Proof.
  induction d as [|[k' e] d IH]; intros N A B; [contradiction|]. cbn in N. inversion N as [|? ? Nk N']; subst.
  assert (X : forall c, In (k, c) d -> k = k' -> False).
  { intros c I ->. apply Nk. unfold simple_names. apply in_map_iff. exists (k', c). auto. }
  destruct A as [A|A], B as [B|B]; try congruence.
  - injection A as -> _. exfalso. eauto.
  - injection B as -> _. exfalso. eauto.
  - auto.
Qed.
Lemma full_name_unique fs v ms o o' s : process fs = Ok (Some v, ms) -> full_name v o s -> full_name v o' s -> o = o'.
Proof.
  intros H (ob & k & E & I & ->) (ob' & k' & E' & I' & Es).
  destruct (split_dot k k' (o_name ob) (o_name ob')) as [<- En]; eauto using package_no_dot.
  destruct (C17_accepted_run _ _ _ _ _ regex _ _ _ H) as (Ns & Np & Ob).
  assert (P : N_pkg (o_pkg ob) = N_pkg (o_pkg ob')) by (eapply distinct_entry; eauto). injection P as P.
  destruct (Ob _ _ E) as (d & Ed & Id). destruct (Ob _ _ E') as (d' & Ed' & Id'). rewrite <- P in Ed'. assert (d' = d) by congruence. subst d'. rewrite <- En in Id'.
  assert (X : N_obj o = N_obj o'); [|congruence]. eapply distinct_entry; [apply (Np _ _ Ed)| |]; apply in_or_app; left; eauto.
Qed.
End RUN.
