(** What holds when a run returns a symbol table. *)
From Coq Require Import Relations.
From Verif Require Import Base Lexer SymTab Ast Eval Typing TypesProofs ParserBase ParserExpr ParserProofs ParserValue Lint ParserDecl ParserFile
  Resolve ExprTyping ValueSyntax ValueTyping Growth DeclInv DeclRsl DeclTrlc DeclFrame Process ProcessInv.
From Verif Require Checks ChecksProofs SourceMan SourceManProofs.
Import SourceMan (fkind, RSL, TRLC).
From Coq Require Import ZifyBool ZifyNat ZifyN.
Open Scope Z_scope.

Section RUN.
Variable compiles : text -> bool.
Variable matches : text -> text -> option bool.
Variable pick : list SourceMan.node -> nat.
Variable lint recovery : bool.
Hypothesis regex : forall p x, compiles p = true -> matches p x <> None.
Notation process := (process compiles matches pick lint recovery).

Record run_result (v : env) : Prop := RunResult {
  rr_types : types_ok matches (v_types v);
  rr_objects : objects_fine (v_types v) v;
  rr_ready : forall o ob, nth_error (v_objs v) o = Some ob -> ready (v_types v) (v_objs v) ob;
  rr_settled : forall o ob, nth_error (v_objs v) o = Some ob -> settled matches (v_types v) (v_objs v) ob;
  rr_tables : distinct_tables v;
  rr_checks : forall o ob s, nth_error (v_objs v) o = Some ob -> In s (ChecksProofs.object_sites (v_types v) ob) ->
    fine_site (World (v_objs v) matches) s
}.
(** Before the checks *)
Record unchecked (v : env) : Prop := Unchecked {
  un_types : types_ok matches (v_types v);
  un_objects : objects_fine (v_types v) v;
  un_ready : forall o ob, nth_error (v_objs v) o = Some ob -> ready (v_types v) (v_objs v) ob;
  un_settled : forall o ob, nth_error (v_objs v) o = Some ob -> settled matches (v_types v) (v_objs v) ob;
  un_tables : distinct_tables v
}.
Lemma no_objects_fine v : no_objects matches v -> types_ok matches (v_types v) /\ objects_fine (v_types v) v.
Proof.
  intros [Ob [Ty Nm]]. split; auto. constructor; auto; rewrite Ob.
  - intros [|o] ob Q; discriminate.
  - intros q d k o Eq I. apply nth_error_In in Eq. destruct (no_pkgs _ Nm _ _ _ Eq I) as [V _]. assert (L := ev_obj _ _ _ _ V o eq_refl).
    rewrite Ob in L. cbn in L. lia.
Qed.
Lemma objects_result gr sel v1 ok2 v2 ms2 : (forall pa, In pa (gr_trlc gr) -> parser_ok v1 pa) -> no_objects matches v1 ->
  parse_trlc_files recovery (filter (fun pa => pa_ok pa && sel pa) (gr_trlc gr)) v1 true = Ok (ok2, v2, ms2) ->
  objects_fine (v_types v1) v2 /\ tabled v1 v2 /\ (ok2 = true -> all_complete (v_types v1) v2).
Proof.
  intros Pk N1 E2. destruct (no_objects_fine _ N1) as [Ty F1].
  eapply objects_files in E2 as (F2 & T2 & C2); eauto.
  2:{ intros pa I. apply filter_In in I as [I X]. apply Bool.andb_true_iff in X as [X _]. split; auto. }
  split; auto. split; auto. intros Ok. destruct (C2 Ok) as [_ C2']. apply C2'. intros o ob E. destruct N1 as [Ob _]. rewrite Ob in E. destruct o; discriminate.
Qed.
Lemma unchecked_result fs gr order ok0 ok1 v1 ms1 sel v2 ms2 v3 ms3 : build_graph fs = Ok gr ->
  parse_rsl_files compiles matches lint recovery (gr_rsl gr) order (gr_env gr) ok0 = Ok (ok1, v1, ms1) ->
  parse_trlc_files recovery (filter (fun pa => pa_ok pa && sel pa) (gr_trlc gr)) v1 true = Ok (true, v2, ms2) ->
  resolve_references (all_objects v2) v2 true = Ok (true, v3, ms3) -> unchecked v3.
Proof.
  intros Eg E1 E2 E3. apply build_ok in Eg as [Bl Pk]. apply types_files in E1 as [N1 T1]; auto using blank_decl.
  destruct (no_objects_fine _ N1) as [Ty F1].
  apply objects_result in E2 as (F2 & T2 & Ac); auto.
  2:{ intros pa I. eapply parser_tabled; eauto. }
  eapply references in E3 as (F3 & T3 & S3 & X3 & P3 & R3 & D3 & _); eauto using complete_ready.
  assert (Tp := of_types _ _ F3).
  assert (St : forall o ob, nth_error (v_objs v3) o = Some ob -> settled matches (v_types v1) (v_objs v3) ob).
  { intros o ob E. eapply D3; eauto. destruct S3 as [L3 S3]. destruct (nth_error (v_objs v2) o) as [ob2|] eqn:E2.
    - eapply all_listed; eauto.
    - apply nth_error_None in E2. assert (o < List.length (v_objs v3))%nat by (apply nth_error_Some; congruence). lia. }
  constructor; try (rewrite Tp; auto; fail).
  apply (tb_distinct _ _ T3). apply (tb_distinct _ _ T2). apply (tb_distinct _ _ T1). apply blank_tables. auto.
Qed.
Theorem process_result fs v ms : process fs = Ok (Some v, ms) -> run_result v.
Proof.
  intros H. unfold Process.process in H. apply bind_ok in H as (gr & Eg & H).
  destruct (SourceMan.closure _ _ _ _ _) as [required|]; [|discriminate].
  destruct (SourceMan.waves _ _ _ _) as [[order cyc]|]; [|discriminate].
  apply bind_ok in H as ([[ok1 v1] ms1] & E1 & H). cbv zeta in H.
  destruct (negb recovery && negb _); [discriminate|].
  apply bind_ok in H as (lm & _ & H). apply bind_ok in H as ([[ok2 v2] ms2] & E2 & H).
  destruct ok2; [|discriminate]. cbn [negb] in H.
  apply bind_ok in H as ([[ok3 v3] ms3] & E3 & H). destruct ok3; [|discriminate]. cbn [negb] in H.
  destruct (unchecked_result _ _ _ _ _ _ _ _ _ _ _ _ Eg E1 E2 E3) as [Ty Ob Rd Se Tb].
  destruct (negb _); [discriminate|]. apply bind_ok in H as ([ok4 ms4] & E4 & H). destruct ok4; [|discriminate]. injection H as <- <-.
  unfold run_checks in E4. destruct (Checks.perform_all _ _ _ _) as [cm [b| |]] eqn:Pa; try discriminate. injection E4 as -> <-.
  constructor; auto.
  assert (Pt : snd (Checks.perform_all (World (v_objs v3) matches) (v_types v3) (listed_objects v3) true) = Checks.Returned true) by (rewrite Pa; auto).
  apply all_fine in Pt as [_ Pt]. intros o ob s E I. apply (Pt ob s); auto.
  unfold listed_objects. apply in_flat_map. exists o. split; [eapply all_listed; eauto|]. rewrite E. cbn. auto.
Qed.
End RUN.
