(** [parse_value] comes to an end. *)
From Coq Require Import Relations.
From Verif Require Import Base Lexer LexerProps SymTab Ast Eval ParserBase ParserExpr ParserProofs EvalFuel ParserFuel
  ExprParserComplete ParserValue Lint ValueSyntax ValueParserComplete.
From Verif Require LexerThm Markup NestedProofs Prop_Markup.
From Coq Require Import ZifyBool ZifyNat ZifyN.
Open Scope nat_scope.

(** The string literals to come are tokens of the file. *)
Definition of_file (src : text) (tk : token) : Prop := tk_kind tk = STRING -> LexerThm.token_ok src tk.

Section VALUE.
Variable file : Z.
Variable src : text.
Variable G : types.
Variable objs : list object.
Variable N : names.
Hypothesis tuples : tuples_ok G.
Notation spends := (spends_ (of_file src)).
Notation value_at := (value_at file src G objs N).

Lemma markup_fuel tk : LexerThm.token_ok src tk -> tk_kind tk = STRING ->
  markup_literal file src N tk <> OutOfFuel /\ (n_imports N <> None -> markup_literal file src N tk <> Crash).
Proof.
  intros I K. unfold markup_literal.
  destruct (NestedProofs.literal_shape src tk I K) as (d & body & post & multi & content & D & S1 & _ & W & _ & B & _).
  assert (L : NestedProofs.string_literal src tk multi content).
  { split; auto. split; auto. exists d, body. auto. }
  assert (R := Prop_Markup.literal_references src tk multi content (markup_visible N) L).
  replace (l_ref (tok_loc file tk)) with (NestedProofs.token_sref tk) by reflexivity.
  destruct (Markup.markup_references _ _ _) as [|[m l]| |]; try contradiction; [split; discriminate|].
  assert (H : forall e, @hidden N vexpr e <> OutOfFuel /\ (n_imports N <> None -> @hidden N vexpr e <> Crash)).
  { intros e. split; [apply hidden_fuel|]. unfold hidden. destruct (n_imports N); [discriminate|contradiction]. }
  destruct m; try (split; discriminate). destruct (markup_package N _); [apply H|split; discriminate].
Qed.

Ltac wk t := match goal with |- spends_ _ ?c _ _ => eapply (spends_weaken _ c); [t | lia | lia] end.
Ltac nest k := eapply spends_bind with (k1 := k%nat).

Lemma number_spends b a : spends b 1 (parse_number file a).
Proof.
  unfold parse_number. nest 0; [sp|]. intros. nest 1; [|sp]. destruct a; sp.
Qed.
Lemma boolean_spends b : spends b 1 (parse_boolean file).
Proof. unfold parse_boolean. sp. repeat match goal with |- context [if ?x then _ else _] => destruct x end; sp. Qed.
Lemma qualified_name_spends b sc r : spends b 1 (parse_qualified_name file N sc r).
Proof. unfold parse_qualified_name. sp. wk ltac:(apply (qualified_spends _ _ (fun _ => true))). Qed.
Lemma enum_value_spends b e : spends b 1 (parse_enum_value file G N e).
Proof.
  unfold parse_enum_value. nest 1; [apply qualified_name_spends|]. intros [en tk].
  destruct en as [[]| | | | |]; sp. match goal with |- context [if ?x then _ else _] => destruct x end; sp.
Qed.
Lemma resolve_fuel l a p name : resolve_ref G objs N l a p name <> OutOfFuel.
Proof.
  unfold resolve_ref, lookup_direct. apply bind_fuel.
  - destruct (t_find _ _) as [[k e]|]; [|discriminate]. destruct (text_eqb k name); [|discriminate]. destruct (is_object e); discriminate.
  - intros [| | | | |o]; try discriminate. destruct (nth_error objs o); [|discriminate].
    destruct a as [[]|]; try discriminate; match goal with |- context [if ?x then _ else _] => destruct x end; discriminate.
Qed.
Lemma reference_to_fuel a tk p : reference_to file G objs N a tk p <> OutOfFuel.
Proof.
  unfold reference_to. destruct (t_contains _ _); [|discriminate]. apply bind_fuel; [apply resolve_fuel|discriminate].
Qed.
Hint Resolve reference_to_fuel hidden_fuel : fuel.
Lemma reference_spends b a : spends b 1 (parse_reference file G objs N a).
Proof.
  unfold parse_reference. sp. match goal with e : entity |- _ => destruct e as [| |p| | |] end; sp. destruct (is_visible N p); sp.
Qed.
Lemma bounds_spends b tk lo hi vs : spends b 0 (array_bounds file tk lo hi vs).
Proof.
  unfold array_bounds. cbv zeta. nest 0.
  - destruct (_ <? _)%Z; sp.
  - sp. destruct hi; [|sp]. destruct (_ && _)%bool; [|sp]. destruct (nth_error _ _); sp.
Qed.
Lemma note_ct_spends b m : spends b 0 (note_ct file m).
Proof.
  intros s I L. unfold note_ct. destruct (ct (at_ s)); auto. cbn. split; auto. lia.
Qed.
Lemma next_loc_spends b : spends b 0 (next_loc file).
Proof. intros s I L. unfold next_loc. destruct (nt (at_ s)); auto. split; auto. lia. Qed.

Section STEP.
Variable n : nat.
Variable pv : ty -> P vexpr.
Variable can : ty -> Prop.
Hypothesis pv_spends : forall b a, can a -> b < n -> spends b 1 (pv a).

Lemma elements_spends m b el : can el -> b < n -> b < m -> spends b 0 (array_elements file pv m el).
Proof.
  intros Ca. revert b. induction m as [|m IH]; intros b L1 L; [lia|]. cbn [array_elements].
  apply spends_cond; [sp|]. nest 1; [apply pv_spends; auto|]. intros v.
  assert (Z : b = 0 \/ 0 < b) by lia. destruct Z as [->|Z].
  { intros s I R. unfold pcond, peek, next_is. unfold rem in R. destruct (nt (at_ s)) eqn:E; [cbn in R; lia|].
    unfold peek_eof. rewrite E. cbn. split; auto. lia. }
  apply spends_cond; [|apply spends_cond].
  - sp. nest 0; [apply IH; lia|]. sp.
  - sp.
  - nest 0; [apply note_ct_spends|]. intros. nest 0; [eapply spends_weaken; [apply (IH (b - 1))| |]; lia|]. sp.
Qed.
Lemma fields_spends b first cs d : (forall c, In c cs -> can (c_typ c)) -> b < n -> spends b 0 (fields file pv first cs d).
Proof.
  revert b first d. induction cs as [|c cs IH]; intros b first d H L; cbn [fields]; [sp|].
  nest 0; [destruct first; sp|]. intros. nest 1; [apply pv_spends; [apply H; cbn; auto|lia]|]. intros.
  eapply spends_weaken; [apply (IH b)| |]; auto; try lia. intros; apply H; cbn; auto.
Qed.
Lemma sequence_spends b skip is d : (forall c, In (IComp c) is -> can (c_typ c)) -> b < n ->
  spends b 0 (sequence file pv skip is d).
Proof.
  revert b skip d. induction is as [|[c|sep] is IH]; intros b skip d H L; cbn [sequence]; [sp| |].
  - destruct (skip && c_opt c); [sp|]. nest 1; [apply pv_spends; [apply H; cbn; auto|lia]|]. intros.
    eapply spends_weaken; [apply (IH b)| |]; auto; try lia. intros; apply H; cbn; auto.
  - apply spends_cond; sp; match goal with |- spends_ _ ?c _ _ => eapply (spends_weaken _ c); [apply (IH c)| |] end; auto; try lia;
      intros; apply H; cbn; auto.
Qed.
End STEP.

Lemma interleave_in cs seps c : In (IComp c) (interleave cs seps) -> In c cs.
Proof.
  revert seps. induction cs as [|c' cs IH]; intros seps H; [destruct seps; cbn in H; contradiction|].
  destruct seps as [|sep seps]; cbn in H.
  - destruct H as [H|H]; [injection H as ->; cbn; auto|]. right. apply (IH []). destruct cs; auto.
  - destruct H as [H|[H|H]]; [injection H as ->; cbn; auto|discriminate|]. right. eauto.
Qed.

Lemma value_at_spends d n b a : ty_depth a <= d -> b < n -> spends b 1 (value_at d n a).
Proof.
  revert b a. induction d as [|d IH]; intros b a Dp L; [destruct a; cbn in Dp; lia|].
  cbn [ParserValue.value_at]. unfold value_step. 
  set (can := fun a => ty_depth a <= d).
  assert (Pv : forall b a, can a -> b < n -> spends b 1 (value_at d n a)) by (intros; apply IH; auto).
  destruct a as [| | | | |e|u|r|i ms|i lo hi el]; cbn in Dp;
    try apply boolean_spends; try apply number_spends; try apply enum_value_spends; try apply reference_spends.
  - sp.
  - apply take_bind_in. intros tk b' -> F K. apply is_kind_true in K. wk ltac:(apply spends_lift; apply markup_fuel; auto).
  - destruct (tup G u) as [ut|] eqn:U; [|sp]. assert (Ok := tuples _ _ U).
    assert (Ca : forall c, In c (u_comps ut) -> can (c_typ c)).
    { intros c I. unfold can. assert (Q := fields_type_depth G tuples _ _ _ U I). lia. }
    destruct (u_seps ut) as [|sep seps] eqn:Sp.
    + sp. nest 0; [apply (fields_spends n _ can); auto; lia|]. sp.
    + nest 0; [apply next_loc_spends|]. intros. nest 1; [|sp].
      unfold iter_sequence. rewrite Sp. destruct (u_comps ut) as [|c cs] eqn:Uc; [exfalso; apply (to_some _ _ _ Ok); auto|].
      cbn [interleave sequence andb]. nest 1; [apply Pv; [apply Ca; cbn; auto|lia]|]. intros.
      apply spends_cond; sp; wk ltac:(apply (sequence_spends n _ can); auto; [|lia]);
        intros c' I; apply Ca; right; eapply interleave_in; eauto.
  - sp. nest 0; [apply (elements_spends n _ can); auto; unfold can; lia|]. sp. nest 0; [apply bounds_spends|]. sp.
Qed.
Theorem value_spends n b a : complete_type G a -> b < n -> spends b 1 (parse_value file src G objs N n a).
Proof. intros Ct L. apply value_at_spends; auto. apply depth_enough. auto. Qed.
End VALUE.
