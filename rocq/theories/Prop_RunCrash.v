(** Property C52: which runs end with an exception that is not an error
    message. *)
From Verif Require Import Base Lexer SymTab Ast TypesProofs Eval ParserBase ExprSyntax ValueSyntax ParserDecl DeclSyntax Process RunSyntax
  Hazards RunHazards ProcessCrash LintRun Prop_Crash Prop_Process Prop_LintRun.
From Verif Require ChecksProofs SourceMan.
Import SourceMan (fkind, RSL, TRLC).
Open Scope Z_scope.

(** *** Declarations without certain words *)
Section WORDS.
Variables (file : Z) (src : text) (compiles : text -> bool) (matches : text -> text -> option bool).
Lemma body_checks p imports lax v rt k ts rt' k' : body_decl file src p imports lax v rt k ts rt' k' -> r_checks rt' = r_checks rt.
Proof. induction 1; auto. Qed.
Definition unchecked (G : types) : Prop := (forall rt, In rt (recs G) -> r_checks rt = []) /\ (forall ut, In ut (tups G) -> u_checks ut = []).
Lemma item_unchecked p imports lax v ts v' : type_item file src compiles matches p imports lax v ts v' ->
  (forall tk, In tk ts -> ~ word "checks" tk) -> unchecked (v_types v) -> unchecked (v_types v').
Proof.
  intros H N [Ur Uu]. destruct H as [ts v' D|ts v' D|ts v' D|ts v' D]; destruct D; cbn.
  - split; auto.
  - split; auto. cbn. intros ut I. apply in_app_iff in I as [I|[<-|[]]]; auto.
  - split; auto. cbn. intros rt' I. apply in_app_iff in I as [I|[<-|[]]]; auto. cbn.
    match goal with B : body_decl _ _ _ _ _ _ _ _ _ _ _ |- _ => apply body_checks in B end. auto.
  - exfalso. eapply N; [left; reflexivity|auto].
Qed.
Lemma item_tuples p imports lax v ts v' : type_item file src compiles matches p imports lax v ts v' ->
  (forall tk, In tk ts -> ~ word "tuple" tk) -> (forall tk, In tk ts -> ~ word "checks" tk) -> tups (v_types v') = tups (v_types v).
Proof.
  intros H N N'. destruct H as [ts v' D|ts v' D|ts v' D|ts v' D]; destruct D; cbn; auto.
  - exfalso. eapply N; [left; reflexivity|auto].
  - exfalso. eapply N'; [left; reflexivity|auto].
Qed.
End WORDS.
(** A word does not occur in a file. *)
Definition without (w : string) (f : input_file) : Prop := forall ts tk, tokens_of (i_src f) ts -> In tk ts -> ~ word w tk.
Lemma items_without file src compiles matches p imports lax v ts v' : type_items file src compiles matches p imports lax v ts v' ->
  (forall tk, In tk ts -> ~ word "checks" tk) ->
  (unchecked (v_types v) -> unchecked (v_types v')) /\ ((forall tk, In tk ts -> ~ word "tuple" tk) -> tups (v_types v') = tups (v_types v)).
Proof.
  induction 1 as [v|v ts v1 us v' I _ IH]; auto. intros N. destruct IH as [A B]; [intros; apply N, in_or_app; auto|]. split.
  - intros U. apply A. eapply item_unchecked; eauto. intros; apply N, in_or_app; auto.
  - intros Nt. rewrite B by (intros; apply Nt, in_or_app; auto).
    eapply item_tuples; eauto; intros; [apply Nt|apply N]; apply in_or_app; auto.
Qed.
Lemma types_without compiles matches lax names rsl v v' : types_of compiles matches lax names rsl v v' -> Forall (without "checks") rsl ->
  (unchecked (v_types v) -> unchecked (v_types v')) /\ (Forall (without "tuple") rsl -> tups (v_types v') = tups (v_types v)).
Proof.
  induction 1 as [v|f fs name l body p ps v v1 v' _ Fi _ _ I _ IH]; auto. intros F. inversion F as [|? ? Ff Fr]; subst.
  destruct (IH Fr) as [A B]. destruct Fi as (ts & _ & Tk).
  destruct (items_without _ _ _ _ _ _ _ _ _ _ I) as [A' B']; [intros tk Ik; apply (Ff _ _ Tk), in_or_app; auto|]. split; auto.
  intros Ft. inversion Ft as [|? ? Ff' Fr']; subst. rewrite (B Fr'). apply B'. intros tk Ik. apply (Ff' _ _ Tk), in_or_app; auto.
Qed.
Lemma no_sites G ob : unchecked G -> ChecksProofs.object_sites G ob = [].
Proof.
  intros [Ur Uu]. unfold ChecksProofs.object_sites. replace (ChecksProofs.record_sites G ob) with (@nil ChecksProofs.site).
  - rewrite app_nil_r. assert (K : forall a v, ChecksProofs.value_sites G a v = []).
    { induction a as [| | | | | | | | |i lo hi el IH]; intros []; auto; cbn [ChecksProofs.value_sites].
      - destruct (nth_error (tups G) u) eqn:E; auto. rewrite (Uu _ (nth_error_In _ _ E)). auto.
      - match goal with |- flat_map _ ?l = _ => induction l as [|x l IHl]; cbn; auto end. rewrite IH. auto. }
    induction (all_components G (o_typ ob)) as [|c cs IH]; auto. cbn. rewrite IH. unfold ChecksProofs.component_sites.
    destruct (assoc _ _); auto. rewrite K. auto.
  - unfold ChecksProofs.record_sites, iter_checks.
    assert (K : forall n r, iter_checks_steps G n r = []); [|rewrite K; auto].
    induction n as [|n IH]; intros r; cbn; unfold rec; destruct (nth_error (recs G) r) as [rt|] eqn:E; auto;
      assert (C := Ur _ (nth_error_In _ _ E)); destruct (r_parent rt); auto. rewrite IH, C. auto.
Qed.

Section RUN.
Variable compiles : text -> bool.
Variable matches : text -> text -> option bool.
Variable pick : list SourceMan.node -> nat.
Variable lint recovery : bool.
(** A regular expression that compiles can be matched with any string. *)
Hypothesis regex : forall p x, compiles p = true -> matches p x <> None.
Notation process := (process compiles matches pick lint recovery).

(** If all files are complete and free of the phrases of Hazards.v, then only
    two things raise an exception: the linter, on a tuple type that is declared
    in the files; and a check on an object of the files, if it contains an
    index, a quantifier with a condition that can be null, or a component that
    an extension of a member of a union declares with another type. *)
Theorem C52_crashes_only fs :
  (forall f, In f fs -> exists ts, harmless f ts) ->
  process fs = Crash ->
  (lint = true /\ exists rsl names all_names v, incl rsl fs /\
     types_of compiles matches true (package_table names) rsl (start_env all_names) v /\
     exists u ut, nth_error (tups (v_types v)) u = Some ut /\ stuck (v_types v) ut) \/
  (exists v bad idle rsl trlc rsl_names more v1 v2 ob s,
     accepted compiles matches true fs v bad idle rsl trlc rsl_names more v1 v2 /\
     In ob (v_objs v) /\ In s (ChecksProofs.object_sites (v_types v) ob) /\
     fragile (v_types v) (ck_expr (ChecksProofs.s_check s)) /\
     ~ exists r, ChecksProofs.outcome (World (v_objs v) matches) s r).
Proof. apply process_crash. exact regex. Qed.

(** So without checks and tuples there is no exception. *)
Theorem C52_no_exception fs :
  (forall f, In f fs -> exists ts, harmless f ts) ->
  (forall f, In f fs -> without "checks" f) -> (lint = true -> forall f, In f fs -> without "tuple" f) ->
  process fs <> Crash.
Proof.
  intros Hf Nc Nt H. apply C52_crashes_only in H; auto. destruct H as [(L & rsl & names & all_names & v & Inc & T & u & ut & U & _)|H].
  - destruct (types_without _ _ _ _ _ _ _ T) as [_ B]; [apply Forall_forall; auto|]. rewrite B in U; [destruct u; discriminate|apply Forall_forall; auto].
  - destruct H as (v & bad & idle & rsl & trlc & rsl_names & more & v1 & v2 & ob & s & A & _ & I & _).
    assert (Ty := RunLint.accepted_types _ _ _ _ _ _ _ _ _ _ _ _ _ A).
    destruct (types_without _ _ _ _ _ _ _ (ac_types _ _ _ _ _ _ _ _ _ _ _ _ _ A)) as [B _].
    { apply Forall_forall. intros f If. apply Nc. eapply Permutation.Permutation_in; [symmetry; apply (ac_files _ _ _ _ _ _ _ _ _ _ _ _ _ A)|]. rewrite !in_app_iff. auto. }
    rewrite Ty, no_sites in I; auto. apply B. split; intros ? [].
Qed.
End RUN.
Print Assumptions C52_crashes_only.
Print Assumptions C52_no_exception.

(** *** Harmless files *)

(** None of the words null, ** and matches, and no conversion *)
Fixpoint calm_words (ts : list token) : bool :=
  match ts with
  | [] => true
  | tk :: l =>
      negb (existsb (text_eqb (tok_text tk)) (map t ["null"; "**"; "matches"]%string)) &&
      negb (existsb (text_eqb (tok_text tk)) (map t ["Integer"; "Decimal"]%string) &&
            match l with b :: _ => if kind_eq_dec (tk_kind b) BRA then true else false | [] => false end) &&
      calm_words l
  end.
Lemma calm_suffix a b : calm_words (a ++ b) = true -> calm_words b = true.
Proof. induction a as [|tk a IH]; auto. cbn [app calm_words]. intros H. apply andb_true_iff in H as [_ H]. auto. Qed.
Lemma call_part lv r us : syn lv r us -> forall pkg tk args, r = R_call pkg tk args -> exists bra, part [tk; bra] us /\ tk_kind bra = BRA.
Proof.
  intros H. pattern lv, r, us.
  apply (syn_mut _ (fun _ _ => True) (fun _ _ => True) (fun _ _ => True)) with (l := lv) (r := r) (l0 := us); auto; try discriminate;
    clear; intros; try discriminate; try (subst; inversion H; fail).
  - edestruct H2 as (b & (x & y & ->) & K); [eassumption|]. exists b. split; auto. exists (bra :: x), (y ++ [ket]). cbn. rewrite <- !app_assoc. auto.
  - match goal with E : R_call _ _ _ = _ |- _ => injection E as <- <- <- end. exists bra. split; auto. exists tp, (ta ++ [ket]). auto.
Qed.
Lemma calm_safe ts : calm_words ts = true -> ~ hazardous ts.
Proof.
  intros C (lv & r & us & Sy & U & b & c & ->).
  assert (K : forall tk, In tk us -> ~ In (tok_text tk) (map t ["null"; "**"; "matches"]%string)).
  { intros tk I J. apply in_split in I as (x & y & ->). rewrite <- app_assoc in C. apply calm_suffix in C. apply calm_suffix in C.
    cbn [app calm_words] in C. apply andb_true_iff in C as [C _]. apply andb_true_iff in C as [C _]. apply negb_true_iff in C.
    assert (X : existsb (text_eqb (tok_text tk)) (map t ["null"; "**"; "matches"]%string) = true)
      by (apply existsb_exists; exists (tok_text tk); split; [exact J|apply text_eqb_refl]). congruence. }
  destruct U as [neg tk x tn Kn|pkg tk args W _|tk x y _|pkg tk x y W _].
  - destruct (word_in _ _ _ Sy _ eq_refl) as [I _]. apply (K _ I). left. unfold tok_text. destruct Kn as [_ ->]. auto.
  - destruct (call_part _ _ _ Sy _ _ _ eq_refl) as (bra & (x & y & ->) & Kb). rewrite <- !app_assoc in C. apply calm_suffix in C. apply calm_suffix in C.
    cbn [app calm_words] in C. apply andb_true_iff in C as [C _]. apply andb_true_iff in C as [_ C]. apply negb_true_iff in C. rewrite Kb in C.
    assert (X : existsb (text_eqb (tok_text tk)) (map t ["Integer"; "Decimal"]%string) = true)
      by (apply existsb_exists; exists (tok_text tk); split; [exact W|apply text_eqb_refl]).
    rewrite X in C. discriminate.
  - destruct (word_in _ _ _ Sy _ eq_refl) as [I E]. apply (K _ I). right. left. auto.
  - destruct (word_in _ _ _ Sy _ eq_refl) as [I _]. apply (K _ I). right. right. left. auto.
Qed.
Definition ends_well (ts : list token) : bool := match rev ts with tk :: _ => if kind_eq_dec (tk_kind tk) C_KET then true else false | [] => true end.
Lemma ends_safe ts : ends_well ts = true -> ~ cut_off ts.
Proof. intros E (l & tk & -> & K). unfold ends_well in E. rewrite rev_app_distr in E. cbn in E. destruct (kind_eq_dec (tk_kind tk) C_KET); [auto|discriminate]. Qed.
Definition word_free (w : string) (ts : list token) : bool :=
  forallb (fun tk => negb (text_eqb (tok_text tk) (t w))) ts.
Lemma free_safe w ts tk : word_free w ts = true -> In tk ts -> ~ word w tk.
Proof.
  intros F I [_ V]. unfold word_free in F. rewrite forallb_forall in F. specialize (F tk I). unfold tok_text in F. rewrite V, text_eqb_refl in F. discriminate.
Qed.
(** The tokens of a file *)
Definition file_tokens (src : text) : list token := match lex src with Lexed l => filter not_comment l | _ => [] end.
Definition calm_text (src : text) : bool :=
  match lex src with Lexed _ => calm_words (file_tokens src) && ends_well (file_tokens src) && word_free "import" (file_tokens src) | _ => false end.
Lemma calm_file f : calm_text (i_src f) = true -> harmless f (file_tokens (i_src f)).
Proof.
  unfold calm_text, file_tokens. destruct (lex (i_src f)) as [l| | |] eqn:E; try discriminate. intros H.
  apply andb_true_iff in H as [H Wi]. apply andb_true_iff in H as [C W]. constructor.
  - exists l. auto.
  - apply calm_safe. auto.
  - intros X. destruct (ends_safe _ W X).
  - intros _ (kw & name & imports & us & more & Et & _ & _ & Ip & X). rewrite Et in Wi. destruct X as [(tk & I & _)|(imp & Wm & X)].
    + destruct Ip as [|kw' tk' l' ts' Wk _ _]; [destruct I|]. eapply (free_safe "import" _ kw' Wi); [cbn; auto|auto].
    + eapply (free_safe "import" _ imp Wi); auto. right. right. apply in_or_app. right. destruct X as [-> |(? & ? & -> & _)]; cbn; auto.
Qed.
Lemma lex_unique src ts ts' : tokens_of src ts -> tokens_of src ts' -> ts = ts'.
Proof. intros (a & E & ->) (b & E' & ->). congruence. Qed.

(** Files without checks and tuples; files on which the linter stops; and
    files with a check that stops: the index is not less than the length of
    the array. *)
Definition plain_rsl : text := t "package P enum C { red green } abstract type Q { note optional Markup_String }
  type R extends Q { x Integer c optional C ar optional Integer [1 .. 3] next optional R }".
Definition plain_trlc : text := t "package P R a { x = 5 c = C.red ar = [1, 2] next = b } section ""foo"" { R b { x = -1 note = ""see [[a]]"" } }".
Definition index_rsl : text := t "package P type R { ar Integer [0 .. 3] } checks R { ar[1] > 0, ""no"" }".
Definition index_trlc : text := t "package P R a { ar = [7] }".
Definition all_texts : list (fkind * text) :=
  [(RSL, plain_rsl); (TRLC, plain_trlc); (RSL, index_rsl); (TRLC, index_trlc); (RSL, stuck_text); (RSL, stuck_enum)].
Example C52_crash_example :
  (forall l f, incl l all_texts -> In f (files l) -> exists ts, harmless f ts) /\
  run_of [(RSL, index_rsl); (TRLC, index_trlc)] = Crash /\ unlinted [(RSL, index_rsl); (TRLC, index_trlc)] = Crash /\
  run_of [(RSL, stuck_text)] = Crash.
Proof.
  split; [|repeat split; vm_compute; reflexivity].
  intros l f Inc I. eexists. apply calm_file. unfold files in I. apply in_map_iff in I as ([i [k s]] & <- & I). apply in_combine_r in I. apply Inc in I. cbn [i_src].
  assert (A : forallb (fun x => calm_text (snd x)) all_texts = true) by (vm_compute; reflexivity).
  rewrite forallb_forall in A. exact (A _ I).
Qed.
Example C52_no_exception_example :
  (forall f, In f (files [(RSL, plain_rsl); (TRLC, plain_trlc)]) ->
     (exists ts, harmless f ts) /\ without "checks" f /\ without "tuple" f) /\
  exists v ms, run_of [(RSL, plain_rsl); (TRLC, plain_trlc)] = Ok (Some v, ms) /\ List.length (v_objs v) = 2%nat.
Proof.
  split; [|do 2 eexists; split; vm_compute; reflexivity].
  intros f I. split; [apply (proj1 C52_crash_example) with (2 := I); intros x [<-|[<-|[]]]; cbn; auto|].
  assert (A : forallb (fun f => word_free "checks" (file_tokens (i_src f)) && word_free "tuple" (file_tokens (i_src f)) &&
    match lex (i_src f) with Lexed _ => true | _ => false end) (files [(RSL, plain_rsl); (TRLC, plain_trlc)]) = true) by (vm_compute; reflexivity).
  rewrite forallb_forall in A. specialize (A _ I). apply andb_true_iff in A as [A L]. apply andb_true_iff in A as [A B].
  unfold file_tokens in A, B. destruct (lex (i_src f)) as [l| | |] eqn:E; try discriminate.
  split; intros ts tk (l' & E' & ->) Ik; assert (l' = l) as -> by congruence; eapply free_safe; eauto.
Qed.
