(** A run comes to an end: the steps that the model counts are enough for
    every file, every set of files and every declaration. *)
From Coq Require Import Relations.
From Verif Require Import Base Lexer SymTab Ast Eval Typing TypesProofs ParserBase ParserExpr ParserProofs ParserFuel ParserValue Lint LintProofs
  ParserDecl ParserFile Resolve ExprTyping ValueSyntax ValueTyping ValueFuel Growth DeclInv DeclRsl DeclTrlc DeclFrame DeclFuel FileFuel
  Process ProcessInv ProcessRun.
From Verif Require LexerThm Checks SourceMan SourceManProofs.
Import SourceMan (fkind, RSL, TRLC).
From Coq Require Import ZifyBool ZifyNat ZifyN.
Open Scope Z_scope.

(** ** The linter *)
Section LINT.
Variable G : types.
Hypothesis tuples : tuples_ok G.

Local Arguments example _ !fuel !a.
Definition cost (a : ty) : nat :=
  match a with TTup u => S (u + u) | _ => 0%nat end.
Definition flat (a : ty) : Prop := match a with TArr _ _ _ _ => False | _ => True end.
Lemma example_fuel_enough n : forall a, flat a -> (cost a < n)%nat -> example G n a <> OutOfFuel.
Proof.
  induction n as [|n IH]; intros a F L; [lia|]. destruct a as [| | | | |e|u|r|i ms|i lo hi el]; cbn [example]; try discriminate.
  - destruct (nth_error (enums G) e) as [en|]; [|discriminate]. destruct (en_lits en); discriminate.
  - destruct (tup G u) as [ut|] eqn:U; [|discriminate]. assert (T := to_types _ _ _ (tuples _ _ U)).
    assert (H : forall c, In c (u_comps ut) -> example G n (c_typ c) <> OutOfFuel).
    { intros c I. specialize (T c I). apply IH; [destruct (c_typ c); cbn; auto|]. cbn in L. destruct (c_typ c); cbn; try lia. }
    clear U T. induction (u_comps ut) as [|c cs IHc]; [discriminate|]. assert (Hc := H c (or_introl eq_refl)).
    destruct (example G n (c_typ c)); cbn [bind]; try discriminate; [|destruct (Hc eq_refl)]. apply IHc. intros. apply H. cbn. auto.
  - destruct ms; discriminate.
  - destruct F.
Qed.
Lemma items_fuel u l : (forall c, In (IComp c) l -> flat (c_typ c) /\ (cost (c_typ c) < example_fuel G)%nat) ->
  forall w bad s, tuple_items G u l w bad s <> OutOfFuel.
Proof.
  induction l as [|it l IH]; intros H w bad s; cbn [tuple_items]; [discriminate|].
  assert (H' : forall c, In (IComp c) l -> flat (c_typ c) /\ (cost (c_typ c) < example_fuel G)%nat) by (intros; apply H; cbn; auto).
  destruct bad as [sep|].
  - destruct it as [c|sp]; [|discriminate]. destruct (H c (or_introl eq_refl)) as [F L].
    destruct (is_integer (c_typ c)); cbn [bind]; [apply IH; auto|]. assert (X := example_fuel_enough _ _ F L).
    destruct (example G _ _); cbn [bind]; try discriminate; [apply IH; auto|congruence].
  - destruct it as [c|sp].
    + destruct (is_integer (c_typ c)); apply IH; auto.
    + destruct (w && bad_sep sp)%bool; apply IH; auto.
Qed.
Lemma interleave_in c cs : forall ss, In (IComp c) (interleave cs ss) -> In c cs.
Proof.
  induction cs as [|x cs IH]; cbn; [tauto|]. intros [|sp ss]; cbn.
  - intros [E|I]; [injection E as ->; auto|eauto].
  - intros [E|[E|I]]; [injection E as ->; auto|discriminate|eauto].
Qed.
Lemma sequence_fuel u ut s : tup G u = Some ut -> tuple_items G u (iter_sequence ut) false None s <> OutOfFuel.
Proof.
  intros U. apply items_fuel. intros c I. apply interleave_in in I. assert (T := to_types _ _ _ (tuples _ _ U) c I).
  assert (Lu : (u < List.length (tups G))%nat) by (apply nth_error_Some; unfold tup in U; congruence).
  unfold example_fuel. destruct (c_typ c); cbn; try tauto; split; auto; lia.
Qed.
Lemma all_fuel U n : (forall a s, In a U -> (todo U s < n)%nat -> verify_type G n a s <> OutOfFuel) ->
  forall l s, incl l U -> (todo U s < n)%nat -> all_of G n l s <> OutOfFuel.
Proof.
  intros H. induction l as [|a l IH]; cbn; intros s Sub Lt; [discriminate|].
  assert (Ha := H a s ltac:(apply Sub; cbn; auto) Lt). destruct (verify_type G n a s) as [s1| | |] eqn:E1; cbn [bind]; try discriminate; [|congruence].
  apply IH; [intros x I; apply Sub; right; auto|]. pose proof (todo_le U s s1 (visits_sub _ _ _ _ (verify_visits _ _ _ _ _ E1))). lia.
Qed.
Lemma verify_fuel U : (forall a b, In a U -> In b (children G a) -> In b U) ->
  forall n a s, In a U -> (todo U s < n)%nat -> verify_type G n a s <> OutOfFuel.
Proof.
  intros Cl. induction n as [|n IH]; intros a s I Lt; [lia|]. rewrite verify_type_S.
  destruct (ty_in a (checked s)) eqn:Ch; [discriminate|]. apply ty_in_false in Ch. cbn zeta.
  assert (Step : forall s1 l, checked s1 = a :: checked s -> l = children G a -> all_of G n l s1 <> OutOfFuel).
  { intros s1 l C ->. apply (all_fuel U n); auto.
    - intros b Ib. eapply Cl; eauto.
    - assert ((todo U s1 < todo U s)%nat); [|lia].
      apply todo_lt with a; auto; rewrite C; [left; auto|intros x J; right; auto]. }
  destruct a as [ | | | | |e|u|r|i ms|i lo hi el]; try discriminate.
  - destruct (tup G u) as [ut|] eqn:Ut; [|discriminate].
    assert (Q := sequence_fuel u ut (LState (TTup u :: checked s) (exts s) (found s)) Ut).
    destruct (tuple_items _ _ _ _ _ _) as [s1| | |] eqn:E1; cbn [bind]; try discriminate; [|congruence].
    destruct (tuple_items_found _ _ _ _ _ _ _ E1) as (C & _). apply Step; auto. cbn. rewrite Ut. auto.
  - destruct (rec G r) as [rt|] eqn:R; [|discriminate]. apply Step; auto.
  - apply Step; auto. destruct (Nat.eqb (List.length ms) 1); auto.
Qed.
Theorem linter_fuel order : perform_sanity_checks G order <> OutOfFuel.
Proof.
  unfold perform_sanity_checks. set (U := universe G order). rewrite verify_all_eq.
  assert (H : all_of G (S (List.length U)) order (LState [] [] []) <> OutOfFuel).
  { apply (all_fuel U).
    - apply verify_fuel. intros a b. apply universe_closed.
    - intros a I. subst U. unfold universe. apply in_app_iff. left. apply in_app_iff. auto.
    - unfold todo. pose proof (filter_less (fun a => negb (ty_in a (checked (LState [] [] [])))) (fun _ => true) U) as F.
      specialize (F (fun _ _ => eq_refl)). assert (E : filter (fun _ : ty => true) U = U) by (clear; induction U; cbn; congruence).
      rewrite E in F. lia. }
  destruct (all_of _ _ _ _) as [s| | |]; cbn [bind]; try discriminate; [|congruence]. clear H.
  assert (K : forall s, abstract_leaves G order s <> OutOfFuel); [|apply K]. clear.
  induction order as [|a l IH]; intros s; cbn [abstract_leaves]; [discriminate|].
  destruct a; auto. destruct (rec G r) as [rt|]; [|discriminate]. destruct (r_abstract rt); auto.
  destruct (find _ _) as [[k [|x y]]|]; auto. discriminate.
Qed.
End LINT.

(** ** Opening files *)
Definition ready_file (pa : parser) : Prop := stocked (of_file (pa_src pa)) (pa_pos pa).
Lemma fetch_stock (Q : token -> Prop) prev l : (forall tk, In (ITok tk) l -> Q tk) ->
  match fetch prev l with
  | Got (nx, l') => (forall tk, nx = Some tk -> Q tk) /\ forall tk, In (ITok tk) l' -> Q tk
  | _ => True
  end.
Proof.
  revert prev. induction l as [|[tk|e|] l IH]; intros prev H; cbn; auto.
  - split; [discriminate|tauto].
  - destruct (kind_eq_dec (tk_kind tk) COMMENT).
    + apply IH. intros. apply H. cbn. auto.
    + split; [intros tk' E; injection E as <-|]; intros; apply H; cbn; auto.
Qed.
Lemma open_fuel f : match open_file f with
  | Ok (Some pa, _) => ready_file pa
  | OutOfFuel => False
  | _ => True
  end.
Proof.
  unfold open_file. destruct (items_ok (i_src f)) as (l & -> & T). unfold p_advance. cbn [at_ rest nt].
  assert (F := fetch_stock (LexerThm.token_ok (i_src f)) None l T). destruct (fetch None l) as [[nx l']|e [nx l']|]; cbn; auto.
  destruct F as [A B]. split; cbn; intros tk H K; auto.
Qed.
Lemma open_all_fuel fs : match open_all fs with
  | Ok (l, _) => forall pa, In pa l -> ready_file pa
  | OutOfFuel => False
  | _ => True
  end.
Proof.
  induction fs as [|f fs IH]; cbn [open_all]; [intros pa []|]. assert (F := open_fuel f).
  destruct (open_file f) as [[[pa|] m]| | |]; cbn [bind]; auto; destruct (open_all fs) as [[l m']| | |]; cbn; auto.
  intros pa' [<-|I]; auto.
Qed.

(** ** References *)
Lemma bind_fuel {E A B} (m : res E A) (f : A -> res E B) : m <> OutOfFuel -> (forall a, f a <> OutOfFuel) -> bind m f <> OutOfFuel.
Proof. destruct m; cbn; auto; discriminate. Qed.
Lemma each_fuel {E A B} (f : A -> res E B) l : (forall x, In x l -> f x <> OutOfFuel) -> each f l <> OutOfFuel.
Proof.
  induction l as [|x l IH]; cbn; intros H; [discriminate|]. apply bind_fuel; auto. intros y. apply bind_fuel; [auto|discriminate].
Qed.
Section REFERENCES.
Variable G : types.
Variable objs : list object.
Variable N : names.
Lemma ref_fuel l a pkg name : resolve_ref G objs N l a pkg name <> OutOfFuel.
Proof.
  unfold resolve_ref. apply bind_fuel.
  - unfold lookup_direct. destruct (t_find _ _) as [[k e]|]; [|discriminate]. repeat (destruct (_ : bool)); try discriminate.
  - intros []; try discriminate. destruct (nth_error objs o); [|discriminate]. destruct a as [[]|]; try discriminate.
    + destruct (is_subclass_of _ _ _); discriminate.
    + destruct (is_compatible _ _ _); discriminate.
Qed.
Lemma resolve_fuel v : resolve_value G objs N v <> OutOfFuel.
Proof.
  induction v using vexpr_ind3; try discriminate.
  - rewrite resolve_lit. apply bind_fuel; [apply each_fuel; auto|discriminate].
  - rewrite resolve_arr. apply bind_fuel; [apply each_fuel; auto|discriminate].
  - rewrite resolve_tup. apply bind_fuel; [apply each_fuel|discriminate]. intros [k x] I. unfold on_field. apply bind_fuel; [eauto|discriminate].
  - cbn. apply bind_fuel; [apply ref_fuel|discriminate].
Qed.
Lemma object_fuel ob : resolve_object G objs N ob <> OutOfFuel.
Proof.
  unfold resolve_object. apply bind_fuel; [|discriminate]. apply each_fuel. intros [k [id v]] _. apply bind_fuel; [apply resolve_fuel|discriminate].
Qed.
End REFERENCES.
Lemma references_fuel os : forall v ok, resolve_references os v ok <> OutOfFuel.
Proof.
  induction os as [|o os IH]; intros v ok; cbn [resolve_references]; [discriminate|]. destruct (nth_error _ _) as [ob|]; [|discriminate].
  assert (F := object_fuel (v_types v) (v_objs v) (final_names v) ob). destruct (resolve_object _ _ _ _); auto; try discriminate.
  apply bind_fuel; auto. intros [[? ?] ?]. discriminate.
Qed.

Section RUN.
Variable compiles : text -> bool.
Variable matches : text -> text -> option bool.
Variable pick : list SourceMan.node -> nat.
Variable lint recovery : bool.
Hypothesis regex : forall p x, compiles p = true -> matches p x <> None.

(** ** Preambles *)
Lemma file_rem pa : (rem (pa_pos pa) < fuel_for pa)%nat.
Proof. unfold fuel_for, rem. destruct (nt (pa_pos pa)); cbn; lia. Qed.
Lemma preamble_fuel pa v : ready_file pa ->
  match parser_preamble pa v with
  | Ok (pa', _, _) => ready_file pa' /\ pa_src pa' = pa_src pa
  | OutOfFuel => False
  | _ => True
  end.
Proof.
  intros R. unfold parser_preamble, launch.
  assert (H := preamble_ds (pa_id pa) (pa_src pa) compiles matches regex (fuel_for pa) (pa_kind pa) (rem (pa_pos pa))
    ltac:(assert (L := file_rem pa); lia) (pa_cu pa) v (St v (pa_cu pa) [] (PS (pa_pos pa) [])) eq_refl eq_refl R (Nat.le_refl _)).
  destruct (parse_preamble _ _ _ _) as [a s|e s| |]; cbn [bind]; auto; destruct H as [H _]; split; auto.
Qed.
Lemma preambles_fuel l : forall v, (forall pa, In pa l -> ready_file pa) ->
  match preambles l v with
  | Ok (l', _, _) => forall pa, In pa l' -> ready_file pa
  | OutOfFuel => False
  | _ => True
  end.
Proof.
  induction l as [|pa l IH]; intros v H; cbn [preambles]; [intros pa []|].
  assert (F := preamble_fuel pa v (H pa (or_introl eq_refl))). destruct (parser_preamble pa v) as [[[pa1 v1] m1]| | |]; cbn [bind]; auto.
  specialize (IH v1 ltac:(intros; apply H; cbn; auto)). destruct (preambles l v1) as [[[l2 v2] m2]| | |]; cbn [bind]; auto.
  destruct F as [F _]. intros pa' [<-|I]; auto.
Qed.
Lemma resolve_ready l : forall v g l' g' ms, (forall pa, In pa l -> ready_file pa) -> resolve_all l v g = (l', g', ms) ->
  forall pa, In pa l' -> ready_file pa.
Proof.
  induction l as [|pa l IH]; cbn [resolve_all]; intros v g l' g' ms H E q I.
  - injection E as <- <- <-. destruct I.
  - destruct (import_names v pa) as [[pa1 names] ms1] eqn:E1. destruct (resolve_all l v _) as [[l2 g2] ms2] eqn:E2.
    injection E as <- <- <-. destruct I as [<-|I]; [|eapply IH; eauto; intros; apply H; cbn; auto].
    unfold import_names in E1. assert (P := H pa (or_introl eq_refl)). destruct (pa_ok pa).
    + destruct (imported _ _ _) as [ps es]. injection E1 as <- <- <-. exact P.
    + injection E1 as <- <- <-. auto.
Qed.
Lemma container_fuel l v g : (forall pa, In pa l -> ready_file pa) ->
  match container l v g with
  | Ok (l', _, _, _) => forall pa, In pa l' -> ready_file pa
  | OutOfFuel => False
  | _ => True
  end.
Proof.
  intros H. unfold container. assert (F := preambles_fuel l v H). destruct (preambles l v) as [[[l1 v1] m1]| | |]; cbn [bind]; auto.
  destruct (resolve_all l1 v1 _) as [[l2 g2] m2] eqn:E. eapply resolve_ready; eauto.
Qed.
Lemma build_fuel fs : match build_graph fs with
  | Ok gr => forall pa, In pa (gr_rsl gr) \/ In pa (gr_trlc gr) -> ready_file pa
  | OutOfFuel => False
  | _ => True
  end.
Proof.
  unfold build_graph. assert (F := open_all_fuel fs). destruct (open_all fs) as [[l m]| | |]; cbn [bind]; auto.
  assert (K : forall k pa, In pa (by_name (of_kind k l)) -> ready_file pa).
  { intros k pa I. apply (proj1 (by_name_in _ _)) in I. apply filter_In in I as [I _]. auto. }
  assert (F1 := container_fuel (by_name (of_kind RSL l)) env0 [] (K RSL)).
  destruct (container _ _ _) as [[[[rsl v1] g1] m1]| | |]; cbn [bind]; auto.
  assert (F2 := container_fuel (by_name (of_kind TRLC l)) v1 g1 (K TRLC)).
  destruct (container _ _ _) as [[[[trlc v2] g2] m2]| | |]; cbn [bind]; auto. cbn. intros pa [I|I]; auto.
Qed.

(** ** Types and objects *)
Lemma types_fuel pa v c : no_objects matches v -> cu_pkg (pa_cu pa) = Some c -> ready_file pa ->
  parse_types compiles matches lint recovery pa v <> OutOfFuel.
Proof.
  intros O Ep R. unfold parse_types, launch.
  assert (H := rsl_file_ds (pa_id pa) (pa_src pa) lint compiles matches regex (fuel_for pa) (pa_cu pa) c Ep recovery v (rem (pa_pos pa))
    O (file_rem pa) (St v (pa_cu pa) [] (PS (pa_pos pa) [])) eq_refl eq_refl R (Nat.le_refl _)).
  destruct (parse_rsl_file _ _ _ _ _ _ _ _); cbn [bind]; try discriminate. destruct H.
Qed.
Lemma types_files_fuel l order : (forall pa, In pa l -> ready_file pa) -> forall v ok, no_objects matches v ->
  parse_rsl_files compiles matches lint recovery l order v ok <> OutOfFuel.
Proof.
  intros R. induction order as [|nd order IH]; intros v ok O; cbn [parse_rsl_files]; [discriminate|].
  destruct (find (has_node nd) l) as [pa|] eqn:F; [|discriminate].
  apply find_some in F as [I F]. unfold has_node, node_of in F. destruct (cu_pkg (pa_cu pa)) as [c|] eqn:Ep; [|discriminate].
  assert (T := types_fuel pa v c O Ep (R _ I)). destruct (parse_types _ _ _ _ _ _) as [[[ok1 v1] m1]| | |] eqn:E1; cbn [bind]; try discriminate; [|congruence].
  eapply types_file in E1 as [O1 _]; eauto. specialize (IH v1 (ok && ok1)%bool O1).
  destruct (parse_rsl_files _ _ _ _ _ _ _ _) as [[[ok2 v2] m2]| | |]; cbn [bind]; try discriminate. congruence.
Qed.
Lemma objects_fuel pa v : types_ok matches (v_types v) -> ready_file pa -> parse_objects recovery pa v <> OutOfFuel.
Proof.
  intros T R. unfold parse_objects, launch.
  assert (H := trlc_file_ds (pa_id pa) (pa_src pa) compiles matches regex (fuel_for pa) (v_types v) T recovery (pa_cu pa) v (rem (pa_pos pa))
    eq_refl (file_rem pa) (St v (pa_cu pa) [] (PS (pa_pos pa) [])) eq_refl eq_refl R (Nat.le_refl _)).
  destruct (parse_trlc_file _ _ _ _ _); cbn [bind]; try discriminate. destruct H.
Qed.
Lemma objects_files_fuel G l : types_ok matches G -> (forall pa, In pa l -> ready_file pa) -> forall v ok, objects_fine G v ->
  (forall pa, In pa l -> parser_ok v pa /\ pa_ok pa = true) -> parse_trlc_files recovery l v ok <> OutOfFuel.
Proof.
  intros T R. induction l as [|pa l IH]; intros v ok O P; cbn [parse_trlc_files]; [discriminate|].
  destruct (P pa (or_introl eq_refl)) as [P1 P2].
  assert (F := objects_fuel pa v ltac:(rewrite (of_types _ _ O); auto) (R _ (or_introl eq_refl))).
  destruct (parse_objects recovery pa v) as [[[ok1 v1] m1]| | |] eqn:E1; cbn [bind]; try discriminate; [|congruence].
  eapply objects_file in E1 as (O1 & T1 & _); eauto.
  assert (K : parse_trlc_files recovery l v1 (ok && ok1) <> OutOfFuel).
  { apply IH; auto; [intros; apply R; cbn; auto|]. intros pa' I. destruct (P pa' (or_intror I)). split; auto. eapply parser_tabled; eauto. }
  destruct (parse_trlc_files _ _ _ _) as [[[ok2 v2] m2]| | |]; cbn [bind]; try discriminate. congruence.
Qed.

(** ** The whole run *)
Theorem process_fuel fs : process compiles matches pick lint recovery fs <> OutOfFuel.
Proof.
  unfold process. assert (B := build_fuel fs). destruct (build_graph fs) as [gr| | |] eqn:Eg; cbn [bind]; try discriminate; [|destruct B].
  apply build_ok in Eg as [Bl Pk].
  destruct (SourceManProofs.closure_total pick (gr_state gr)) as [required ->].
  { unfold SourceMan.initial_work. apply NoDup_filter, SourceManProofs.add_set_NoDup. constructor. }
  { intros x I. unfold SourceMan.initial_work in I. apply filter_In in I as [_ I]. apply SourceManProofs.mem_In. auto. }
  cbv zeta. set (work := SourceMan.rsl_work (gr_state gr) required).
  assert (Nw : NoDup work) by (apply SourceManProofs.add_set_NoDup; constructor).
  destruct (SourceManProofs.waves_spec (SourceMan.b_graph (gr_state gr)) (S (List.length work)) work [] Nw (Nat.lt_succ_diag_r _))
    as (order & cyc & -> & _).
  assert (T1 := types_files_fuel (gr_rsl gr) order ltac:(intros; apply B; auto) (gr_env gr) true (blank_decl _ _ Bl)).
  destruct (parse_rsl_files _ _ _ _ _ _ _ _) as [[[ok1 v1] ms1]| | |] eqn:E1; cbn [bind]; try discriminate; [|congruence].
  apply types_files in E1 as [N1 Tb1]; auto using blank_decl. destruct N1 as [Ob [Ty Nm]].
  destruct (negb recovery && negb _)%bool; [discriminate|].
  match goal with |- context [if (lint && ?o)%bool then _ else _] => generalize o; intros good end.
  apply bind_fuel.
  { destruct (lint && good)%bool; [|discriminate]. unfold run_linter. assert (L := linter_fuel (v_types v1) (ok_tuples _ _ Ty) (all_types v1)).
    destruct (perform_sanity_checks _ _); try discriminate. congruence. }
  intros lm.
  assert (F1 : objects_fine (v_types v1) v1).
  { constructor; auto; rewrite Ob.
    - intros [|o] ob Q; discriminate.
    - intros q d k o Eq I. apply nth_error_In in Eq. destruct (no_pkgs _ Nm _ _ _ Eq I) as [V _]. assert (L := ev_obj _ _ _ _ V o eq_refl).
      rewrite Ob in L. cbn in L. lia. }
  apply bind_fuel.
  { eapply objects_files_fuel; eauto.
    - intros pa I. apply filter_In in I as [I _]. auto.
    - intros pa I. apply filter_In in I as [I X]. apply Bool.andb_true_iff in X as [X _]. split; auto. eapply parser_tabled; eauto. }
  intros [[ok2 v2] ms2]. destruct (negb ok2); [discriminate|]. apply bind_fuel; [apply references_fuel|].
  intros [[ok3 v3] ms3]. destruct (negb ok3); [discriminate|]. destruct (negb _); [discriminate|]. apply bind_fuel.
  - unfold run_checks. destruct (Checks.perform_all _ _ _ _) as [? []]; discriminate.
  - intros [ok4 ms4]. destruct ok4; discriminate.
Qed.
End RUN.
