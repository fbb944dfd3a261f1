(** The messages of the linter in a run. *)
From Coq Require Import Relations Permutation Sorted.
From Verif Require Import Base Lexer SymTab Ast Eval ParserBase ExprSyntax ParserValue ValueSyntax ParserDecl DeclSyntax ParserFile ParserProofs DeclInv DeclRsl DeclSound
  Process RunSyntax RunValid ProcessInv ProcessRun RunSound RunComplete Lint LintProofs Prop_Lint LintRun.
From Verif Require SourceMan Checks.
Open Scope Z_scope.

Lemma items_types_same file src p imports lax :
  (forall path v ts v', object_item file src p imports lax path v ts v' -> v_types v' = v_types v) /\
  (forall path v ts v', object_items file src p imports lax path v ts v' -> v_types v' = v_types v).
Proof.
  split.
  - apply (oi_mind _ _ _ _ _ (fun _ v _ v' => v_types v' = v_types v) (fun _ v _ v' => v_types v' = v_types v)); intros; auto; try congruence.
    inversion H; subst; auto.
  - apply (ois_mind _ _ _ _ _ (fun _ v _ v' => v_types v' = v_types v) (fun _ v _ v' => v_types v' = v_types v)); intros; auto; try congruence.
    inversion H; subst; auto.
Qed.
Lemma objects_types_same lax names fs v v' : objects_of lax names fs v v' -> v_types v' = v_types v.
Proof.
  induction 1 as [v|f fs name l body p ps v v1 v' _ _ _ _ I _ IH]; auto. apply items_types_same in I. congruence.
Qed.
Lemma accepted_types compiles matches lax fs v bad idle rsl trlc names more v1 v2 :
  accepted compiles matches lax fs v bad idle rsl trlc names more v1 v2 -> v_types v = v_types v1.
Proof.
  intros A. destruct (ac_linked _ _ _ _ _ _ _ _ _ _ _ _ _ A) as [-> _]. apply (objects_types_same _ _ _ _ _ (ac_objects _ _ _ _ _ _ _ _ _ _ _ _ _ A)).
Qed.

(** ** No other message is one of the linter *)
Definition of_linter (m : msg) : bool := match m with Msg_lint _ => true | _ => false end.
Definition quiet (ms : list msg) : Prop := forall m, In m ms -> of_linter m = false.
Lemma quiet_app a b : quiet a -> quiet b -> quiet (a ++ b).
Proof. intros A B m I. apply in_app_or in I as [I|I]; auto. Qed.
Lemma quiet_map {A} (f : A -> msg) l : (forall x, of_linter (f x) = false) -> quiet (map f l).
Proof. intros F m I. apply in_map_iff in I as (x & <- & _). auto. Qed.
Lemma quiet_nil : quiet [].
Proof. intros m []. Qed.
Lemma quiet_cons m l : of_linter m = false -> quiet l -> quiet (m :: l).
Proof. intros A B x [<-|I]; auto. Qed.
Local Hint Resolve quiet_app quiet_nil quiet_cons : core.

Lemma open_quiet fs : forall l ms, open_all fs = Ok (l, ms) -> quiet ms.
Proof.
  induction fs as [|f fs IH]; cbn [open_all]; intros l ms H; [injection H as _ <-; auto|].
  apply bind_ok in H as ([o m] & E & H). apply bind_ok in H as ([l2 m2] & E2 & H). injection H as _ <-. cbn. apply quiet_app; eauto.
  unfold open_file in E. destruct (items (i_src f)); [|discriminate]. destruct (p_advance _); try discriminate; injection E as _ <-; auto.
Qed.
Lemma preambles_quiet l : forall v l' v' ms, preambles l v = Ok (l', v', ms) -> quiet ms.
Proof.
  induction l as [|pa l IH]; cbn [preambles]; intros v l' v' ms H; [injection H as _ _ <-; auto|].
  apply bind_ok in H as ([[pa1 v1] m1] & E1 & H). apply bind_ok in H as ([[l2 v2] m2] & E2 & H). injection H as _ _ <-. apply quiet_app; eauto.
  unfold parser_preamble in E1. apply bind_ok in E1 as ([a s|s] & _ & E1); injection E1 as _ _ <-; apply quiet_map; auto.
Qed.
Lemma resolve_quiet l : forall v g l' g' ms, resolve_all l v g = (l', g', ms) -> quiet ms.
Proof.
  induction l as [|pa l IH]; cbn [resolve_all]; intros v g l' g' ms H; [injection H as _ _ <-; auto|].
  destruct (import_names v pa) as [[pa1 names] ms1] eqn:E1. destruct (resolve_all l v _) as [[l2 g2] ms2] eqn:E2. injection H as _ _ <-.
  apply quiet_app; eauto. unfold import_names in E1. destruct (pa_ok pa).
  - destruct (imported _ _ _) as [ps es]. injection E1 as _ _ <-. apply quiet_map; auto.
  - injection E1 as _ _ <-. auto.
Qed.
Lemma build_quiet fs gr : build_graph fs = Ok gr -> quiet (gr_msgs gr).
Proof.
  intros H. unfold build_graph in H. apply bind_ok in H as ([l ms0] & E0 & H).
  assert (C : forall l v g l' v' g' ms, container l v g = Ok (l', v', g', ms) -> quiet ms).
  { intros l' v g l2 v' g' ms E. unfold container in E. apply bind_ok in E as ([[l1 v1] m1] & E1 & E).
    destruct (resolve_all l1 v1 _) as [[l3 g3] m3] eqn:E2. injection E as _ _ _ <-. eauto using preambles_quiet, resolve_quiet. }
  apply bind_ok in H as ([[[rsl v1] g1] m1] & E1 & H). apply bind_ok in H as ([[[trlc v2] g2] m2] & E2 & H). injection H as <-. cbn. eauto 10 using open_quiet.
Qed.
Section RUN.
Variable compiles : text -> bool.
Variable matches : text -> text -> option bool.
Variable pick : list SourceMan.node -> nat.
Variable lint recovery : bool.
Hypothesis regex : forall p x, compiles p = true -> matches p x <> None.
Lemma types_quiet l order : forall v ok ok' v' ms, parse_rsl_files compiles matches lint recovery l order v ok = Ok (ok', v', ms) -> quiet ms.
Proof.
  induction order as [|nd order IH]; cbn [parse_rsl_files]; intros v ok ok' v' ms H; [injection H as _ _ <-; auto|].
  destruct (find (has_node nd) l); [|discriminate]. apply bind_ok in H as ([[ok1 v1] ms1] & E1 & H). apply bind_ok in H as ([[ok2 v2] ms2] & E2 & H).
  injection H as _ _ <-. apply quiet_app; eauto. unfold parse_types in E1. apply bind_ok in E1 as ([a s|s] & _ & E1); injection E1 as _ _ <-; apply quiet_map; auto.
Qed.
Lemma objects_quiet l : forall v ok ok' v' ms, parse_trlc_files recovery l v ok = Ok (ok', v', ms) -> quiet ms.
Proof.
  induction l as [|pa l IH]; cbn [parse_trlc_files]; intros v ok ok' v' ms H; [injection H as _ _ <-; auto|].
  apply bind_ok in H as ([[ok1 v1] ms1] & E1 & H). apply bind_ok in H as ([[ok2 v2] ms2] & E2 & H).
  injection H as _ _ <-. apply quiet_app; eauto. unfold parse_objects in E1. apply bind_ok in E1 as ([a s|s] & _ & E1); injection E1 as _ _ <-; apply quiet_map; auto.
Qed.
Lemma references_quiet os : forall v ok ok' v' ms, resolve_references os v ok = Ok (ok', v', ms) -> quiet ms.
Proof.
  induction os as [|o os IH]; cbn [resolve_references]; intros v ok ok' v' ms H; [injection H as _ _ <-; auto|].
  destruct (nth_error (v_objs v) o); [|discriminate]. match goal with |- context [match ?r with Ok _ => _ | _ => _ end] => idtac | H : match ?r with Ok _ => _ | _ => _ end = _ |- _ => destruct r end; try discriminate; eauto.
  apply bind_ok in H as ([[ok2 v2] ms2] & E2 & H). injection H as _ _ <-. eauto.
Qed.
Lemma checks_quiet v ok ms : run_checks matches v = Ok (ok, ms) -> quiet ms.
Proof.
  unfold run_checks. destruct (Checks.perform_all _ _ _ _) as [l []]; intros H; try discriminate; injection H as _ <-; apply quiet_map; auto.
Qed.

(** The messages of the linter are about the types of the result. *)
Theorem run_findings fs v ms : process compiles matches pick lint recovery fs = Ok (Some v, ms) ->
  if lint then exists order s, program (v_types v) order /\ perform_sanity_checks (v_types v) order = Ok s /\
    (forall u ut, nth_error (tups (v_types v)) u = Some ut -> ~ stuck (v_types v) ut) /\
    forall f, In (Msg_lint f) ms <-> In f (found s)
  else forall f, ~ In (Msg_lint f) ms.
Proof.
  intros H. assert (R := process_result _ _ _ _ _ regex _ _ _ H). unfold Process.process in H. apply bind_ok in H as (gr & Eg & H).
  destruct (SourceMan.closure _ _ _ _ _) as [required|] eqn:Cl; [|discriminate].
  destruct (SourceMan.waves _ _ _ _) as [[order cyc]|] eqn:Wv; [|discriminate].
  apply bind_ok in H as ([[ok1 v1] ms1] & E1 & H). cbv zeta in H.
  destruct (forallb pa_ok (gr_rsl gr ++ gr_trlc gr) && ok1 && negb cyc) eqn:Oks.
  2:{ exfalso. rewrite Bool.andb_true_r in H. destruct (negb recovery) eqn:Rc; [discriminate|]. cbn [negb] in H. rewrite Bool.andb_false_r in H. cbn [bind] in H.
      apply bind_ok in H as ([[ok2 v2] ms2] & E2 & H). destruct ok2; [|discriminate]. cbn [negb] in H.
      apply bind_ok in H as ([[ok3 v3] ms3] & E3 & H). destruct ok3; discriminate. }
  apply Bool.andb_true_iff in Oks as [Oks Cy]. apply Bool.andb_true_iff in Oks as [Okp ->]. apply Bool.negb_true_iff in Cy. subst cyc.
  cbn [negb] in H. rewrite Bool.andb_false_r, Bool.andb_true_r in H.
  apply bind_ok in H as (lm & El & H). apply bind_ok in H as ([[ok2 v2] ms2] & E2 & H). destruct ok2; [|discriminate]. cbn [negb] in H.
  apply bind_ok in H as ([[ok3 v3] ms3] & E3 & H). destruct ok3; [|discriminate]. cbn [negb] in H.
  apply bind_ok in H as ([ok4 ms4] & E4 & H). destruct ok4; [|discriminate]. injection H as <- <-.
  destruct (steps_accepted compiles matches pick lint recovery regex _ _ _ _ _ _ _ _ _ _ Eg Cl Wv E1 Okp E2 E3) as (bad & idle & rsl & trlc & names & more & A).
  assert (Q : quiet (gr_msgs gr) /\ quiet ms1 /\ quiet ms2 /\ quiet ms3 /\ quiet ms4)
    by eauto 10 using build_quiet, types_quiet, objects_quiet, references_quiet, checks_quiet.
  destruct Q as (Q0 & Q1 & Q2 & Q3 & Q4).
  assert (Only : forall f, In (Msg_lint f) (((gr_msgs gr ++ ms1 ++ []) ++ lm ++ ms2) ++ ms3 ++ ms4) <-> In (Msg_lint f) lm).
  { intros f. rewrite !in_app_iff. split; [|tauto].
    intros X. assert (N : forall l, quiet l -> ~ In (Msg_lint f) l) by (intros l Q I; discriminate (Q _ I)).
    destruct X as [[[X|[X|[]]]|[X|X]]|[X|X]]; auto; exfalso; match goal with Q : quiet ?l, I : In (Msg_lint f) ?l |- _ => exact (N l Q I) end. }
  assert (Ty := accepted_types _ _ _ _ _ _ _ _ _ _ _ _ _ A).
  destruct lint.
  - exists (all_types v1). unfold run_linter in El.
    destruct (run_linted _ _ _ _ _ _ _ (ac_types _ _ _ _ _ _ _ _ _ _ _ _ _ A)) as [P D]; [rewrite <- Ty; exact (rr_types _ _ R)|].
    rewrite <- Ty in *. destruct D as [[D _]|(s & D & N)]; rewrite D in El; [discriminate|]. injection El as <-. exists s. split; auto. split; auto. split; auto.
    intros f. rewrite <- !app_assoc in *. rewrite Only. rewrite in_map_iff. split; [intros (x & [= <-] & I); auto|eauto].
  - injection El as <-. intros f I. apply (Only f). rewrite <- !app_assoc in *. exact I.
Qed.
End RUN.

(** ** Valid files *)
Section VALID.
Variable compiles : text -> bool.
Variable matches : text -> text -> option bool.
Variable pick : list SourceMan.node -> nat.
Variable recovery : bool.
Hypothesis regex : forall p x, compiles p = true -> matches p x <> None.
Lemma valid_chain names fs v v' : valid_types compiles matches names fs v v' -> chain compiles matches false v v'.
Proof. induction 1; econstructor; eauto. Qed.
Lemma valid_types_same names fs v v' : valid_objects names fs v v' -> v_types v' = v_types v.
Proof. induction 1 as [v|f fs name l body p ps v v1 v' _ _ _ I _ IH]; auto. apply items_types_same in I. congruence. Qed.
Theorem laid_linted fs rsl trlc names more v1 v2 v : RunValid.laid_out compiles matches fs rsl trlc names more v1 v2 v ->
  (process compiles matches pick true recovery fs = Crash /\ exists u ut, nth_error (tups (v_types v)) u = Some ut /\ stuck (v_types v) ut) \/
  ((forall u ut, nth_error (tups (v_types v)) u = Some ut -> ~ stuck (v_types v) ut) /\ unchecked matches v /\
   exists ms, (forall m, In m ms -> is_error m = true -> RunMessages.overlooked fs m) /\
     process compiles matches pick true recovery fs = bind (run_checks matches v) (fun '(ok, ms') => Ok (if ok then Some v else None, ms ++ ms'))).
Proof.
  intros V. assert (T : v_types v = v_types v1).
  { destruct (va_linked _ _ _ _ _ _ _ _ _ _ V) as [-> _]. apply (valid_types_same _ _ _ _ (va_objects _ _ _ _ _ _ _ _ _ _ V)). }
  destruct (run_laid compiles matches pick false recovery regex _ _ _ _ _ _ _ _ V _ eq_refl) as (Un & _).
  destruct (chain_linted _ _ _ _ _ (valid_chain _ _ _ _ (va_types _ _ _ _ _ _ _ _ _ _ V))) as [_ D]; [rewrite <- T; apply (un_types _ _ Un)|].
  assert (K := run_laid compiles matches pick true recovery regex _ _ _ _ _ _ _ _ V _ eq_refl). cbv iota in K. unfold run_linter in K.
  destruct D as [[D X]|(s & D & X)]; rewrite D in K; [left; rewrite T; auto|right]. split; [rewrite T; auto|]. exact K.
Qed.
(** With the linter and without *)
Theorem laid_run lint fs rsl trlc names more v1 v2 v : RunValid.laid_out compiles matches fs rsl trlc names more v1 v2 v ->
  (lint = true -> forall u ut, nth_error (tups (v_types v)) u = Some ut -> ~ stuck (v_types v) ut) ->
  unchecked matches v /\ exists ms, (forall m, In m ms -> is_error m = true -> RunMessages.overlooked fs m) /\
     process compiles matches pick lint recovery fs = bind (run_checks matches v) (fun '(ok, ms') => Ok (if ok then Some v else None, ms ++ ms')).
Proof.
  intros V L. destruct lint.
  - destruct (laid_linted _ _ _ _ _ _ _ _ V) as [[_ (u & ut & U & X)]|(_ & K)]; auto. destruct (L eq_refl _ _ U X).
  - exact (run_laid compiles matches pick false recovery regex _ _ _ _ _ _ _ _ V _ eq_refl).
Qed.
Theorem valid_linted fs rsl trlc names more v1 v2 v : RunValid.valid compiles matches fs rsl trlc names more v1 v2 v ->
  (process compiles matches pick true recovery fs = Crash /\ exists u ut, nth_error (tups (v_types v)) u = Some ut /\ stuck (v_types v) ut) \/
  (exists ms, process compiles matches pick true recovery fs = Ok (Some v, ms) /\ (forall m, In m ms -> is_error m = true -> RunMessages.overlooked fs m) /\ forall u ut, nth_error (tups (v_types v)) u = Some ut -> ~ stuck (v_types v) ut).
Proof.
  intros V. destruct (laid_linted _ _ _ _ _ _ _ _ V) as [K|(N & Un & ms & Ov & E)]; auto. right.
  destruct (checks_do matches v (un_types _ _ Un) (un_ready _ _ Un) (un_settled _ _ Un) (va_checks _ _ _ _ _ _ _ _ _ _ V)) as (ms4 & E4). rewrite E, E4.
  exists (ms ++ ms4). split; [reflexivity|]. split; auto. apply RunMessages.check_messages in E4. intros m I Er. apply in_app_or in I as [I|I]; auto.
  exfalso. assert (X : false = true); [|discriminate]. symmetry. apply E4. apply existsb_exists. eauto.
Qed.
End VALID.
