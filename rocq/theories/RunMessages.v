(** What a run reports: an error whenever there is no result, and with a result
    only errors of known kinds. *)
From Coq Require Import Permutation.
From Verif Require Import Base Lexer SymTab Ast Eval Typing TypesProofs ParserBase ParserExpr ParserProofs ParserValue Lint ParserDecl ParserFile Resolve Growth DeclInv DeclRsl DeclSyntax DeclSound Process ProcessInv RunSyntax RunGraph RunSound.
From Verif Require Checks Notes SourceMan SourceManProofs.
Import SourceMan (fkind, RSL, TRLC).
Open Scope Z_scope.

(** The errors that are reported although the run returns a table: a mistake
    that is tolerated; a file that cannot be read and is ignored; the import of
    a package that no file declares, where files with types see only the
    packages of files with types. *)
Definition overlooked (fs : list input_file) (m : msg) : Prop :=
  (exists f e, In f fs /\ unreadable f e /\ m = Msg_note (Note_error (E_lex e))) \/
  (exists f name l tk e, In f fs /\ starts f name l /\ In tk l /\
     (forall g, In g fs -> (i_kind f = RSL -> i_kind g = RSL) -> ~ declares g (tok_text tk)) /\
     m = Msg_note (Note_error (E_name (tok_loc (i_id f) tk) e))).
Definition excused (fs : list input_file) (m : msg) : Prop :=
  (exists e, m = Msg_note (Note_error e) /\ Notes.tolerated e) \/ overlooked fs m.

(** ** Checks *)
Definition worse (m : Checks.cmsg) : bool := is_error (Msg_check m).
Definition tells (ok : bool) (r : Checks.run bool) : Prop :=
  match snd r with
  | Checks.Returned true => ok = true /\ existsb worse (fst r) = false
  | Checks.Returned false => ok = false \/ existsb worse (fst r) = true
  | Checks.Raised => existsb worse (fst r) = true
  | Checks.Broken => True
  end.
Lemma tells_seq ok r k : tells true r -> (forall b, tells (ok && b) (k b)) -> tells ok (Checks.seq r k).
Proof.
  intros H K. destruct r as [ms [b| |]]; cbn in *; auto. specialize (K b). destruct (k b) as [ms' e]. cbn in *.
  unfold tells in *. cbn in *. rewrite existsb_app. destruct e as [[]| |]; auto.
  - destruct K as [Ob K]. apply andb_prop in Ob as [-> ->]. destruct H as [_ ->]. auto.
  - destruct K as [Ob| ->]; [|rewrite Bool.orb_true_r; auto]. apply andb_false_iff in Ob as [-> | ->]; auto. destruct H as [X| ->]; [discriminate|auto].
  - rewrite K, Bool.orb_true_r. auto.
Qed.
Lemma tells_ret ok : tells ok (Checks.ret ok).
Proof. destruct ok; cbn; auto. Qed.
Lemma tells_perform W c l fs : tells true (Checks.perform W c l fs).
Proof.
  unfold Checks.perform. destruct (evaluate _ _ _) as [v|e| |]; cbn; auto.
  - destruct (v_val v) as [[[] ?]|]; cbn; auto.
    + destruct b; cbn; auto. destruct (Checks.get_real_location _ _ _); cbn; auto. destruct (ck_sev c); cbn; auto.
    + destruct (Checks.get_real_location _ _ _); cbn; auto.
  - destruct (internal _); cbn; auto.
Qed.
Lemma tells_list W cs l fs : forall ok, tells ok (Checks.perform_list W cs l fs ok).
Proof. induction cs as [|c cs IH]; intros ok; cbn [Checks.perform_list]; [apply tells_ret|]. apply tells_seq; auto. apply tells_perform. Qed.
Lemma tells_type W G a v : tells true (Checks.perform_type_checks W G a v).
Proof.
  revert v. induction a as [| | | | |e|u|r|i ms|i lo hi el IH]; intros v; try apply (tells_ret true).
  - cbn [Checks.perform_type_checks]. destruct v; try exact I; try apply (tells_ret true). destruct (tup G u); [apply tells_list|exact I].
  - cbn [Checks.perform_type_checks]. destruct v as [| |l t0 vs| | |]; try exact I; try apply (tells_ret true). 
    induction vs as [|x vs IHv]; [apply (tells_ret true)|]. apply tells_seq; auto. intros []; [exact IHv|]. apply (tells_ret false).
Qed.
Lemma tells_components W G cs fs : forall ok, tells ok (Checks.component_checks W G cs fs ok).
Proof.
  induction cs as [|c cs IH]; intros ok; cbn [Checks.component_checks]; [apply tells_ret|]. destruct (assoc _ _); [|exact I].
  apply tells_seq; auto. apply tells_type.
Qed.
Lemma tells_object W G o : tells true (Checks.perform_checks W G o).
Proof. apply tells_seq; [apply tells_components|]. intros b. apply tells_list. Qed.
Lemma tells_all W G os : forall ok, tells ok (Checks.perform_all W G os ok).
Proof.
  induction os as [|o os IH]; intros ok; cbn [Checks.perform_all]; [apply tells_ret|].
  assert (T := tells_object W G o). destruct (Checks.perform_checks W G o) as [ms [b| |]]; [| |exact I].
  - specialize (IH (ok && b)). cbn [Checks.seq]. destruct (Checks.perform_all W G os (ok && b)) as [ms' e].
    unfold tells in *. cbn in *. rewrite existsb_app. destruct e as [[]| |]; auto.
    + destruct IH as [Ob K]. apply andb_prop in Ob as [-> ->]. destruct T as [_ ->]. auto.
    + destruct IH as [Ob| ->]; [|rewrite Bool.orb_true_r; auto]. apply andb_false_iff in Ob as [-> | ->]; auto. destruct T as [X| ->]; [discriminate|auto].
    + rewrite IH, Bool.orb_true_r. auto.
  - specialize (IH false). cbn [Checks.seq]. destruct (Checks.perform_all W G os false) as [ms' e]. cbn in T.
    unfold tells in *. cbn in *. rewrite existsb_app, T. destruct e as [[]| |]; auto. destruct IH; discriminate.
Qed.

(** ** Files *)
Lemma soft_error m : soft_msg m -> is_error m = true -> exists e, m = Msg_note (Note_error e) /\ Notes.tolerated e.
Proof. intros ([e|l n] & -> & S) E; cbn in *; [eauto|discriminate]. Qed.
Definition shows (ms : list msg) : Prop := existsb is_error ms = true.
Lemma shows_app a b : shows (a ++ b) <-> shows a \/ shows b.
Proof. unfold shows. rewrite existsb_app, Bool.orb_true_iff. tauto. Qed.
Lemma shows_in e ms : In (Msg_note (Note_error e)) ms -> shows ms.
Proof. intros I. apply existsb_exists. eexists. split; [exact I|]. auto. Qed.
(** The result of a phase and its messages *)
Definition faithful (ok0 ok : bool) (ms : list msg) : Prop :=
  (ok = true -> ok0 = true /\ Forall soft_msg ms) /\ (ok = false -> ok0 = false \/ shows ms).
Lemma faithful_step ok0 ok1 ok2 ms1 ms2 : faithful true ok1 ms1 -> faithful (ok0 && ok1) ok2 ms2 -> faithful ok0 ok2 (ms1 ++ ms2).
Proof.
  intros [T1 F1] [T2 F2]. split.
  - intros ->. destruct (T2 eq_refl) as [Ob F]. apply andb_prop in Ob as [-> ->]. split; auto. apply Forall_app. split; auto. apply T1; auto.
  - intros ->. rewrite shows_app. destruct (F2 eq_refl) as [Ob|F]; auto. apply andb_false_iff in Ob as [-> | ->]; auto. destruct (F1 eq_refl) as [X|X]; [discriminate|auto].
Qed.
Lemma honest_launch m pa v o : Notes.honest true m -> launch m pa v = Ok o ->
  faithful true (match o with Fine _ b _ => b | Failed _ _ => false end) (messages (after o)).
Proof.
  intros Hm H. unfold launch in H. match type of H with context [m ?s] => specialize (Hm s); destruct (m s) as [b s1|e s1| |] end; try discriminate; injection H as <-; cbn [after].
  - destruct Hm as (l & E & T & F). cbn in E. split.
    + intros ->. split; auto. apply soft_messages. rewrite E. apply T; auto.
    + intros ->. right. destruct (F eq_refl) as [X|(e & I)]; [discriminate|]. apply (shows_in e). unfold messages. rewrite E. apply in_map. auto.
  - split; [discriminate|]. intros _. right. apply (shows_in e). unfold messages. cbn. rewrite map_app. apply in_or_app. right. left. auto.
Qed.
Section RUN.
Variable compiles : text -> bool.
Variable matches : text -> text -> option bool.
Variable pick : list SourceMan.node -> nat.
Variable lint recovery : bool.
Lemma rsl_messages l order : forall v ok ok' v' ms, parse_rsl_files compiles matches lint recovery l order v ok = Ok (ok', v', ms) -> faithful ok ok' ms.
Proof.
  induction order as [|nd order IH]; cbn [parse_rsl_files]; intros v ok ok' v' ms H.
  - injection H as <- <- <-. split; auto.
  - destruct (find _ l) as [pa|]; [|discriminate]. apply bind_ok in H as ([[ok1 v1] ms1] & E1 & H). apply bind_ok in H as ([[ok2 v2] ms2] & E2 & H).
    injection H as <- <- <-. apply IH in E2. eapply faithful_step; eauto. unfold parse_types in E1. apply bind_ok in E1 as (o & E1 & H).
    apply honest_launch in E1; [|apply Notes.honest_rsl]. destruct o; injection H as <- <- <-; auto.
Qed.
Lemma trlc_messages l : forall v ok ok' v' ms, parse_trlc_files recovery l v ok = Ok (ok', v', ms) -> faithful ok ok' ms.
Proof.
  induction l as [|pa l IH]; cbn [parse_trlc_files]; intros v ok ok' v' ms H.
  - injection H as <- <- <-. split; auto.
  - apply bind_ok in H as ([[ok1 v1] ms1] & E1 & H). apply bind_ok in H as ([[ok2 v2] ms2] & E2 & H).
    injection H as <- <- <-. apply IH in E2. eapply faithful_step; eauto. unfold parse_objects in E1. apply bind_ok in E1 as (o & E1 & H).
    apply honest_launch in E1; [|apply Notes.honest_trlc]. destruct o; injection H as <- <- <-; auto.
Qed.
Lemma reference_messages os : forall v ok ok' v' ms, resolve_references os v ok = Ok (ok', v', ms) -> faithful ok ok' ms.
Proof.
  induction os as [|o os IH]; cbn [resolve_references]; intros v ok ok' v' ms H.
  - injection H as <- <- <-. split; auto.
  - destruct (nth_error _ _) as [ob|]; [|discriminate]. destruct (resolve_object _ _ _ _) as [ob'|e| |]; try discriminate; [eauto|].
    apply bind_ok in H as ([[ok2 v2] ms2] & E2 & H). injection H as <- <- <-. apply IH in E2 as [T F]. split.
    + intros ->. destruct (T eq_refl); discriminate.
    + intros _. right. reflexivity.
Qed.
Lemma check_messages v ok ms : run_checks matches v = Ok (ok, ms) -> shows ms <-> ok = false.
Proof.
  unfold run_checks. match goal with |- context [Checks.perform_all ?W ?G ?os true] => pose proof (tells_all W G os true) as T; destruct (Checks.perform_all W G os true) as [cs [b| |]] end;
    intros H; try discriminate; injection H as <- <-; unfold shows; replace (existsb is_error (map Msg_check cs)) with (existsb worse cs) by (clear; induction cs as [|c cs IHc]; cbn [existsb map]; rewrite ?IHc; auto); unfold tells in T; cbn in T.
  - destruct b; [destruct T as [_ ->]|destruct T as [X| ->]; [discriminate|]]; split; auto; discriminate.
  - rewrite T. split; auto.
Qed.
Lemma lint_messages v ms : run_linter v = Ok ms -> ~ shows ms.
Proof.
  unfold run_linter. destruct (perform_sanity_checks _ _); try discriminate. injection 1 as <-. unfold shows. induction (found _); cbn; auto; discriminate.
Qed.

(** ** The preambles *)
Lemma preamble_messages l : forall v l' v' ms, preambles l v = Ok (l', v', ms) -> forallb pa_ok l' = false -> shows ms.
Proof.
  induction l as [|pa l IH]; cbn [preambles]; intros v l' v' ms H Nk.
  - injection H as <- <- <-. discriminate.
  - apply bind_ok in H as ([[pa1 v1] ms1] & E1 & H). apply bind_ok in H as ([[l2 v2] ms2] & E2 & H). injection H as <- <- <-. cbn in Nk.
    apply shows_app. apply andb_false_iff in Nk as [Nk|Nk]; [left|right; eauto]. unfold parser_preamble in E1. apply bind_ok in E1 as (o & E1 & H).
    destruct o as [a s|s]; injection H as <- <- <-; [discriminate|]. unfold launch in E1. destruct (parse_preamble _ _ _ _) as [? ?|e s1| |]; try discriminate.
    injection E1 as <-. apply (shows_in e). unfold messages. cbn. rewrite map_app. apply in_or_app. right. left. auto.
Qed.
Lemma graph_messages fs gr : build_graph fs = Ok gr -> forallb pa_ok (gr_rsl gr ++ gr_trlc gr) = false -> shows (gr_msgs gr).
Proof.
  intros H Nk. unfold build_graph in H. apply bind_ok in H as ([l ms0] & E0 & H).
  apply bind_ok in H as ([[[rsl v1] g1] ms1] & E1 & H). apply bind_ok in H as ([[[trlc v2] g2] ms2] & E2 & H). injection H as <-. cbn [gr_rsl gr_trlc gr_msgs] in *.
  rewrite forallb_app in Nk.
  assert (X : forall l v g l' v' g' ms, container l v g = Ok (l', v', g', ms) -> forallb pa_ok l' = false -> shows ms).
  { clear. intros l v g l' v' g' ms H Nk. unfold container in H. apply bind_ok in H as ([[l1 v1] ms1] & E1 & H).
    destruct (resolve_all _ _ _) as [[l2 g2] ms2] eqn:R. injection H as <- <- <- <-. apply shows_app. left. eapply preamble_messages; eauto.
    rewrite <- Nk. clear - R. revert R. generalize (fold_left add_node (map parsed_of l1) g). revert l2 ms2. induction l1 as [|pa l1 IH]; cbn [resolve_all]; intros l2 ms2 g0 R; [injection R as <- <- <-; auto|].
    destruct (import_names v1 pa) as [[pa' nm] m1] eqn:E. destruct (resolve_all l1 v1 _) as [[l3 g3] m3] eqn:R3. injection R as <- <- <-. cbn. f_equal; [|eauto].
    unfold import_names in E. destruct (pa_ok pa) eqn:Ok; [destruct (imported _ _ _)|]; injection E as <- <- <-; auto. }
  rewrite !shows_app. apply andb_false_iff in Nk as [Nk|Nk]; eauto.
Qed.

(** ** Runs *)
Theorem no_table_error fs ms : process compiles matches pick lint recovery fs = Ok (None, ms) -> shows ms.
Proof.
  intros H. unfold Process.process in H. apply bind_ok in H as (gr & Eg & H).
  destruct (SourceMan.closure _ _ _ _ _) as [required|] eqn:Cl; [|discriminate].
  destruct (SourceMan.waves _ _ _ _) as [[order cyc]|] eqn:Wv; [|discriminate].
  apply bind_ok in H as ([[ok1 v1] ms1] & E1 & H). cbv zeta in H. apply rsl_messages in E1 as [_ F1].
  assert (N : forallb pa_ok (gr_rsl gr ++ gr_trlc gr) && ok1 && negb cyc = false -> shows (gr_msgs gr ++ ms1 ++ (if cyc then [Msg_cycle] else []))).
  { intros N. rewrite !shows_app. apply andb_false_iff in N as [N|N]; [apply andb_false_iff in N as [N|N]|].
    - left. eapply graph_messages; eauto.
    - destruct (F1 N) as [X|X]; [discriminate|auto].
    - destruct cyc; [|discriminate]. right. right. reflexivity. }
  destruct (negb recovery && _) eqn:Early.
  { injection H as <-. apply N. apply andb_prop in Early as [_ Early]. apply Bool.negb_true_iff in Early. auto. }
  apply bind_ok in H as (lm & El & H). apply bind_ok in H as ([[ok2 v2] ms2] & E2 & H). apply trlc_messages in E2 as [_ F2].
  destruct ok2; cbn [negb] in H.
  2:{ injection H as <-. destruct (F2 eq_refl) as [X|X]; [discriminate|]. rewrite !shows_app. auto. }
  apply bind_ok in H as ([[ok3 v3] ms3] & E3 & H). apply reference_messages in E3 as [_ F3]. destruct ok3; cbn [negb] in H.
  2:{ injection H as <-. destruct (F3 eq_refl) as [X|X]; [discriminate|]. rewrite !shows_app. auto. }
  destruct (forallb pa_ok _ && ok1 && negb cyc) eqn:Oks; cbn [negb] in H.
  2:{ injection H as <-. rewrite !shows_app in *. destruct (N eq_refl) as [X|[X|X]]; auto. }
  apply bind_ok in H as ([ok4 ms4] & E4 & H). apply check_messages in E4. destruct ok4; [discriminate|]. injection H as <-. rewrite !shows_app. right. apply E4. auto.
Qed.
Section NAMES.
Variable fs : list input_file.
Variable gr : graph_result.
Variables rns more : list text.
Hypothesis bt : built fs gr rns more.
Lemma names_rsl f P : In f fs -> i_kind f = RSL -> declares f P -> In P rns.
Proof.
  intros I K D. destruct (declares_from _ _ _ _ bt _ _ I D) as (pa & Iq & <- & _). apply (file_kind _ _ _ _ bt) in Iq. cbn in K. rewrite K in Iq.
  assert (Rd := proj1 (bt_rsl _ _ _ _ bt _ Iq)). destruct (ready_in _ _ Rd) as (P' & D' & J). apply (ready_pkg _ _ Rd) in D, D'. congruence.
Qed.
Lemma names_all f P : In f fs -> declares f P -> In P (rns ++ more).
Proof.
  intros I D. destruct (declares_from _ _ _ _ bt _ _ I D) as (pa & Iq & <- & _). apply in_app_or in Iq as [Iq|Iq].
  - assert (Rd := proj1 (bt_rsl _ _ _ _ bt _ Iq)). destruct (ready_in _ _ Rd) as (P' & D' & J). apply (ready_pkg _ _ Rd) in D, D'. apply in_or_app. left. congruence.
  - assert (Rd := proj1 (bt_trlc _ _ _ _ bt _ Iq)). destruct (ready_in _ _ Rd) as (P' & D' & J). apply (ready_pkg _ _ Rd) in D, D'. congruence.
Qed.
Lemma unknown_excused ns l m : (forall pa, In pa l -> ready_file ns pa /\ In pa (gr_rsl gr ++ gr_trlc gr)) ->
  (forall pa g, In pa l -> In g fs -> (pa_kind pa = RSL -> i_kind g = RSL) -> forall P, declares g P -> In P ns) -> unknown_import ns l m -> overlooked fs m.
Proof.
  intros R D (pa & tk & e & I & It & N & ->). destruct (R _ I) as [(name & im & ts & raw & p & ps & [Sy Rd Ec On Np Okp En] & Ia) Iu]. rewrite Ec in It. cbn in It.
  right. exists (input_of pa), name, im, tk, e. split; [apply (used_in _ _ _ _ bt); auto|]. split; [exists ts; split; auto; eapply read_begins; eauto|].
  split; [apply On; auto|]. split; auto. intros g Ig K Dg. apply N. eapply D; eauto.
Qed.
Lemma graph_overlooked m : In m (gr_msgs gr) -> is_error m = true -> overlooked fs m.
Proof.
  intros I E. apply (bt_msgs _ _ _ _ bt) in I as [(f & e & I & U & ->)|[S|[S|S]]].
  - left. eauto.
  - destruct S as ([] & -> & []). discriminate.
  - eapply unknown_excused in S; auto.
    + intros pa Ip. split; [apply (bt_rsl _ _ _ _ bt); auto|]. apply in_or_app; auto.
    + intros pa g Ip Ig K P D. eapply names_rsl; eauto. apply K. apply (bt_rsl _ _ _ _ bt _ Ip).
  - eapply unknown_excused in S; auto.
    + intros pa Ip. split; [apply (bt_trlc _ _ _ _ bt); auto|]. apply in_or_app; auto.
    + intros pa g Ip Ig K P D. eapply names_all; eauto.
Qed.
End NAMES.
Theorem table_excused fs v ms : process compiles matches pick lint recovery fs = Ok (Some v, ms) ->
  forall m, In m ms -> is_error m = true -> excused fs m.
Proof.
  intros H. unfold Process.process in H. apply bind_ok in H as (gr & Eg & H).
  destruct (SourceMan.closure _ _ _ _ _) as [required|] eqn:Cl; [|discriminate].
  destruct (SourceMan.waves _ _ _ _) as [[order cyc]|] eqn:Wv; [|discriminate].
  apply bind_ok in H as ([[ok1 v1] ms1] & E1 & H). cbv zeta in H. apply rsl_messages in E1 as [T1 _].
  destruct (negb recovery && _) eqn:Early; [discriminate|].
  apply bind_ok in H as (lm & El & H). apply bind_ok in H as ([[ok2 v2] ms2] & E2 & H). apply trlc_messages in E2 as [T2 _]. destruct ok2; [|discriminate]. cbn [negb] in H.
  apply bind_ok in H as ([[ok3 v3] ms3] & E3 & H). apply reference_messages in E3 as [T3 _]. destruct ok3; [|discriminate]. cbn [negb] in H.
  destruct (forallb pa_ok _ && ok1 && negb cyc) eqn:Oks; [|discriminate]. cbn [negb] in H.
  apply andb_prop in Oks as [Oks Cy]. apply andb_prop in Oks as [Okp ->]. apply Bool.negb_true_iff in Cy. subst cyc.
  apply bind_ok in H as ([ok4 ms4] & E4 & H). apply check_messages in E4. destruct ok4; [|discriminate]. injection H as _ <-.
  destruct (build_refine _ _ Eg Okp) as (rns & more & bt).
  destruct (T1 eq_refl) as [_ S1]. destruct (T2 eq_refl) as [_ S2]. destruct (T3 eq_refl) as [_ S3]. rewrite Forall_forall in S1, S2, S3.
  assert (L : ~ shows lm) by (destruct lint; cbn in El; [apply lint_messages in El; auto|injection El as <-; discriminate]).
  assert (No : forall ms m, ~ shows ms -> In m ms -> is_error m = true -> False).
  { clear. intros ms m N I E. apply N. apply existsb_exists. eauto. }
  assert (So : forall m, soft_msg m -> is_error m = true -> excused fs m) by (intros; left; apply soft_error; auto).
  intros m I E. rewrite app_nil_r in I. repeat rewrite in_app_iff in I. destruct I as [[[[I|I]|[I|I]]|I]|I]; eauto.
  - right. eapply graph_overlooked; eauto.
  - destruct (No _ _ L I E).
  - destruct (No ms4 m); auto. intros X. apply E4 in X. discriminate.
Qed.
End RUN.
