(** Runs raise no Python exception on harmless files, apart from the linter
    and the evaluation of checks. *)
From Verif Require Import Base Lexer SymTab Ast Eval Typing TypesProofs ParserBase ParserProofs ParserExpr ParserValue ExprTyping
  ValueSyntax ValueTyping DeclSyntax Lint ParserDecl ParserFile Resolve RunSyntax Hazards RunHazards Growth DeclInv DeclRsl DeclTrlc DeclFrame
  ParserCrash ValueCrash DeclCrash Process ProcessInv FileFuel RunGraph ProcessRun RunSound RunComplete CheckCrash.
From Verif Require LintRun LexerThm Checks ChecksProofs SourceMan SourceManProofs.
Import SourceMan (fkind, RSL, TRLC).
From Coq Require Import ZifyBool ZifyNat ZifyN.
Open Scope Z_scope.

(** ** Preambles *)
Section PREAMBLE.
Variable T : list token.
Notation place := (place T).
Notation fine := (fine T).

Lemma take_place file f e s pre : place (at_ s) pre ->
  match p_take file f e s with
  | POk tk s' => f tk = true /\ nt (at_ s) = Some tk /\ place (at_ s') (pre ++ [tk])
  | PErr _ s' => s' = s /\ forall tk, nt (at_ s) = Some tk -> f tk = false
  | PCrash | PFuel => False
  end.
Proof.
  intros (all & Er & Et & Nn & Ct). unfold p_take. destruct (nt (at_ s)) as [tk|] eqn:Nt; [|split; auto; discriminate].
  destruct (f tk) eqn:F; [|split; auto; intros ? [= <-]; auto]. unfold pbind, p_advance. rewrite Er.
  destruct (fetch_all all (nt (at_ s))) as (n & all' & -> & S & K). cbn. split; auto. split; auto. exists all'. cbn. split; auto. split.
  - rewrite Et, S. rewrite <- !app_assoc. reflexivity.
  - rewrite Nt. eauto.
Qed.
Lemma imports_snoc l us kw tk : imports_part l us -> word "import" kw -> tk_kind tk = IDENTIFIER -> imports_part (l ++ [tk]) (us ++ [kw; tk]).
Proof. intros I W K. induction I; cbn; constructor; auto. constructor. Qed.
Lemma place_next q pre : place q pre -> match nt q with Some tk => exists more, T = pre ++ tk :: more | None => T = pre end.
Proof.
  intros (all & _ & E & N & _). destruct (nt q); cbn in E; eauto. rewrite N in E by auto. cbn in E. rewrite app_nil_r in E. auto.
Qed.

Lemma imports_place file m kw name : word "package" kw -> tk_kind name = IDENTIFIER ->
  forall v c sec q l us, place (at_ q) (kw :: name :: us) -> imports_part l us -> cu_name c = tok_text name ->
  (forall tk, In tk l -> tok_text tk <> tok_text name) ->
  match imports_loop file m (St v c sec q) with
  | DOk _ s' => s_env s' = v /\ cu_pkg (s_cu s') = cu_pkg c /\ cu_imports (s_cu s') = cu_imports c /\
      exists l' us', place (at_ (s_ps s')) (kw :: name :: us') /\ imports_part l' us' /\
        (forall tk, In tk l' -> tok_text tk <> tok_text name) /\ peek_kw (t "import") (s_ps s') = false
  | DErr _ s' => s_env s' = v /\ fine (at_ (s_ps s')) /\ bad_imports T
  | DCrash => False
  | DFuel => True
  end.
Proof.
  intros Wp Kn. induction m as [|m IH]; intros v c sec q l us P Ip Cn Ne; cbn [imports_loop]; [exact I|].
  unfold dcond. cbn [s_ps]. destruct (peek_kw (t "import") q) eqn:Pk.
  2:{ cbn. split; auto. split; auto. split; auto. exists l, us. auto. }
  unfold dbind at 1, dp, with_names. cbn [s_ps s_env s_cu s_sec].
  assert (K1 := take_place file (is_kw (t "import")) (fun l => E_expected_kw l (t "import")) q _ P).
  unfold p_match_kw. destruct (p_take _ _ _ q) as [imp q1|e q1| |]; try contradiction.
  2:{ destruct K1 as [_ K1]. unfold peek_kw, next_is in Pk. destruct (nt (at_ q)) as [tk|]; [|discriminate]. rewrite (K1 _ eq_refl) in Pk. discriminate. }
  destruct K1 as (Ki & Ni & P1). apply is_kw_true in Ki.
  unfold dbind at 1. cbn [s_ps s_env s_cu s_sec].
  assert (K2 := take_place file (is_kind IDENTIFIER) (fun l => E_expected l IDENTIFIER) q1 _ P1).
  unfold p_match. destruct (p_take _ _ _ q1) as [tk q2|e q2| |]; try contradiction.
  2:{ destruct K2 as [-> K2]. cbn. split; auto. split; [eexists; eauto|]. exists kw, name, l, us.
      assert (X := place_next _ _ P1). destruct (nt (at_ q1)) as [tk|].
      - destruct X as (more & ->). exists (imp :: tk :: more). split; [cbn; rewrite <- app_assoc; auto|]. split; auto. split; auto. split; auto.
        right. exists imp. split; auto. right. exists tk, more. split; auto. intros E. specialize (K2 _ eq_refl). unfold is_kind in K2.
        destruct (kind_eq_dec (tk_kind tk) IDENTIFIER); congruence.
      - exists [imp]. split; auto. split; auto. split; auto. split; auto. right. exists imp. auto. }
  destruct K2 as (Kk & Nk & P2). apply is_kind_true in Kk.
  assert (Ip' := imports_snoc _ _ _ _ Ip Ki Kk).
  assert (P2' : place (at_ q2) (kw :: name :: us ++ [imp; tk])). { cbn in P2. rewrite <- app_assoc in P2. exact P2. }
  unfold dbind at 1. unfold add_import, dcu. unfold dbind at 1. cbn [s_cu].
  destruct (text_eqb (tok_text tk) (cu_name c)) eqn:Es.
  { cbn. split; auto. split; [eexists; eauto|]. apply text_eqb_eq in Es. exists kw, name, (l ++ [tk]), (us ++ [imp; tk]).
    assert (X := place_next _ _ P2'). exists (match nt (at_ q2) with Some x => skipn (List.length (kw :: name :: us ++ [imp; tk])) T | None => [] end).
    split.
    - destruct (nt (at_ q2)) as [x|]; [|rewrite app_nil_r; auto]. destruct X as (more & X). rewrite X at 2. rewrite skipn_app, skipn_all, Nat.sub_diag. exact X.
    - split; auto. split; auto. split; auto. left. exists tk. split; [apply in_or_app; cbn; auto|congruence]. }
  assert (Nt : tok_text tk <> tok_text name). { intros X. rewrite X, Cn, text_eqb_refl in Es. discriminate. }
  assert (Ne' : forall x, In x (l ++ [tk]) -> tok_text x <> tok_text name). { intros x J. apply in_app_or in J as [J|[<-|[]]]; auto. }
  destruct (existsb _ _).
  - unfold dp, with_names, pnote. cbn [s_ps s_env s_cu s_sec].
    specialize (IH v c sec (PS (at_ q2) (out q2 ++ [Note_lint (tok_loc file tk) L_duplicate_import])) _ _ P2' Ip' Cn Ne'). cbn [at_ out] in *. exact IH.
  - unfold set_cu. cbn [s_ps s_env s_cu s_sec].
    specialize (IH v (CU (cu_pkg c) (cu_name c) (cu_raw c ++ [tk]) (cu_imports c)) sec q2 _ _ P2' Ip' Cn Ne'). cbn in IH. exact IH.
Qed.

Definition calm (v : env) : Prop := forall k e, In (k, e) (v_stab v) -> reserved k e.
Lemma preamble_place file n k v q : place (at_ q) [] -> calm v ->
  match parse_preamble file n k (St v no_unit [] q) with
  | DOk _ s' => calm (s_env s') /\ cu_pkg (s_cu s') <> None /\ cu_imports (s_cu s') = None /\
      exists name l us, place (at_ (s_ps s')) us /\ preamble_part name l us /\ peek_kw (t "import") (s_ps s') = false
  | DErr _ s' => calm (s_env s') /\ fine (at_ (s_ps s')) /\ (cu_pkg (s_cu s') = None \/ bad_imports T)
  | DCrash => False
  | DFuel => True
  end.
Proof.
  intros P Ca. unfold parse_preamble. unfold dbind at 1, dp, with_names. cbn [s_ps s_env s_cu s_sec].
  assert (K1 := take_place file (is_kw (t "package")) (fun l => E_expected_kw l (t "package")) q _ P).
  unfold p_match_kw. destruct (p_take _ _ _ q) as [kw q1|e q1| |]; try contradiction.
  2:{ destruct K1 as [-> _]. cbn. split; auto. split; [eexists; eauto|auto]. }
  destruct K1 as (Kw & _ & P1). apply is_kw_true in Kw. unfold dbind at 1. cbn [s_ps s_env s_cu s_sec].
  assert (K2 := take_place file (is_kind IDENTIFIER) (fun l => E_expected l IDENTIFIER) q1 _ P1).
  unfold p_match. destruct (p_take _ _ _ q1) as [name q2|e q2| |]; try contradiction.
  2:{ destruct K2 as [-> _]. cbn. split; auto. split; [eexists; eauto|auto]. }
  destruct K2 as (Kn & _ & P2). apply is_kind_true in Kn. cbn [app] in P2.
  unfold dbind at 1, dget. cbn [s_ps s_env s_cu s_sec].
  set (dec := match k with RSL => true | TRLC => negb (t_contains (v_stab v) (tok_text name)) end). cbv zeta.
  assert (D : match (if dec then declare_package file name else find_package file name) (St v no_unit [] q2) with
    | DOk p s' => calm (s_env s') /\ s_cu s' = no_unit /\ s_ps s' = q2
    | DErr _ s' => calm (s_env s') /\ s_cu s' = no_unit /\ s_ps s' = q2
    | DCrash => False | DFuel => True end).
  { destruct dec.
    - unfold declare_package, dbind, dget, dlift, dp, with_names, registrable. cbn [s_env s_ps s_cu s_sec].
      destruct (t_find (v_stab v) (tok_text name)) as [[k' a]|]; cbn; auto. split; auto. intros k0 e I.
      apply in_app_or in I as [I|[I|[]]]; [apply (Ca _ _ I)|]. injection I as <- <-. exact Logic.I.
    - unfold find_package, dbind, with_names, e_lookup. cbn [n_stab names_of s_env s_ps s_cu s_sec].
      assert (Nc := ncr_lookup file (fun e : entity => e) (v_stab v) name (Some is_package)).
      destruct (t_lookup _ _ _ _ _) as [e|e| |] eqn:L; cbn; auto.
      unfold t_lookup in L. destruct (t_find _ _) as [[k' a]|]; [|discriminate]. destruct (text_eqb _ _); [|discriminate].
      destruct (is_package a) eqn:Ip; [|discriminate]. injection L as <-. destruct a; try discriminate. cbn. auto. }
  unfold dbind at 1. destruct ((if dec then declare_package file name else find_package file name) (St v no_unit [] q2)) as [p s1|e s1| |]; auto.
  - destruct D as (Ca1 & Ec & Eq). unfold dbind, set_cu. rewrite Ec, Eq. cbn [cu_raw cu_imports no_unit].
    assert (K3 := imports_place file n kw name Kw Kn (s_env s1) (CU (Some p) (tok_text name) [] None) (s_sec s1) q2 [] [] P2 ltac:(constructor) eq_refl ltac:(intros ? [])).
    destruct (imports_loop _ _ _) as [u s2|e s2| |]; auto.
    + destruct K3 as (-> & Ep & Ei & l & us & P3 & Ip & Ne & Pk). split; auto. cbn in Ep, Ei. split; [congruence|]. split; auto.
      exists name, l, (kw :: name :: us). split; auto. split; auto. constructor; auto.
    + destruct K3 as (-> & F & B). auto.
  - destruct D as (Ca1 & -> & ->). split; auto. split; [eexists; eauto|auto].
Qed.
End PREAMBLE.

(** ** Files *)
Lemma open_harmless f T : tokens_of (i_src f) T -> exists pa, open_file f = Ok (Some pa, []) /\ place T (pa_pos pa) [] /\
  pa_src pa = i_src f /\ pa_kind pa = i_kind f /\ pa_cu pa = no_unit.
Proof.
  intros (all & El & ->). unfold lex in El. apply lex_items in El. unfold open_file. fold (items (i_src f)) in El. rewrite El.
  unfold p_advance. cbn [at_ rest nt]. destruct (fetch_all all None) as (n & all' & -> & S & K). eexists. split; [reflexivity|]. cbn. split; auto.
  exists all'. cbn. auto.
Qed.
Lemma tokens_fine src T : tokens_of src T -> forall tk, In tk T -> LexerThm.token_ok src tk.
Proof.
  intros (all & El & ->) tk I. apply filter_In in I as [I _]. unfold lex in El. apply lex_items in El. fold (items src) in El.
  destruct (items_ok src) as (l & E & H). rewrite El in E. injection E as <-. apply H. apply in_map. auto.
Qed.

(** A file after its preamble *)
Definition gentle (pa : parser) : Prop :=
  exists f T, harmless f T /\ pa_src pa = i_src f /\ fine T (pa_pos pa) /\
    (pa_ok pa = true -> cut_off T -> nt (pa_pos pa) = None) /\
    (pa_kind pa = RSL -> cu_pkg (pa_cu pa) <> None -> pa_ok pa = true).
Definition fresh (pa : parser) : Prop :=
  exists f T, harmless f T /\ pa_src pa = i_src f /\ pa_kind pa = i_kind f /\ place T (pa_pos pa) [] /\ pa_cu pa = no_unit.
Lemma open_all_harmless fs : (forall f, In f fs -> exists T, harmless f T) ->
  exists l, open_all fs = Ok (l, []) /\ forall pa, In pa l -> fresh pa.
Proof.
  induction fs as [|f fs IH]; cbn [open_all]; intros H; [exists []; split; auto; intros pa []|].
  destruct IH as (l & E & F); [intros; apply H; cbn; auto|]. destruct (H f (or_introl eq_refl)) as (T & Hf).
  destruct (open_harmless _ _ (hl_tokens _ _ Hf)) as (pa & -> & P & E1 & E2 & E3). cbn [bind]. rewrite E. cbn. eexists. split; [reflexivity|].
  intros q [<-|I]; auto. exists f, T. auto.
Qed.
Lemma preamble_gentle pa v : fresh pa -> calm v ->
  match parser_preamble pa v with
  | Ok (pa', v', _) => gentle pa' /\ calm v'
  | Crash => False
  | _ => True
  end.
Proof.
  intros (f & T & Hf & Es & Ek & P & Ec) C. unfold parser_preamble, launch. rewrite Ec.
  assert (K := preamble_place T (pa_id pa) (fuel_for pa) (pa_kind pa) v (PS (pa_pos pa) []) P C).
  destruct (parse_preamble _ _ _ _) as [a s|e s| |]; cbn [bind]; auto.
  - destruct K as (C' & Np & Ni & name & l & us & Pl & Pp & Pk). split; [|auto]. exists f, T. cbn. split; auto. split; auto. split; [eexists; eauto|]. split; auto.
    intros _ Cu. destruct (hl_complete _ _ Hf Cu) as (name2 & l2 & Pp2).
    assert (X := place_next _ _ _ Pl). destruct (nt (at_ (s_ps s))) as [tk|] eqn:Nt; auto. exfalso. destruct X as (more & X).
    destruct (preamble_exact _ _ _ _ _ _ (tk :: more) [] Pp Pp2) as (_ & _ & E).
    + rewrite app_nil_r. auto.
    + intros tk' z [= <- <-] W. unfold peek_kw, next_is in Pk. rewrite Nt in Pk. apply is_kw_true in W. congruence.
    + discriminate.
    + rewrite E in X. rewrite <- (app_nil_r T) in X at 1. apply app_inv_head in X. discriminate.
  - destruct K as (C' & F & B). split; [|auto]. exists f, T. cbn. split; auto. split; auto. split; auto. split; [discriminate|].
    intros Kr Np. destruct B as [B|B]; [contradiction|]. destruct (hl_imports _ _ Hf); auto. congruence.
Qed.
Lemma preambles_gentle l : forall v, (forall pa, In pa l -> fresh pa) -> calm v ->
  match preambles l v with
  | Ok (l', v', _) => (forall pa, In pa l' -> gentle pa) /\ calm v'
  | Crash => False
  | _ => True
  end.
Proof.
  induction l as [|pa l IH]; intros v H C; cbn [preambles]; [split; auto; intros pa []|].
  assert (F := preamble_gentle pa v (H pa (or_introl eq_refl)) C). destruct (parser_preamble pa v) as [[[pa1 v1] m1]| | |]; cbn [bind]; auto.
  destruct F as [F C1]. specialize (IH v1 ltac:(intros; apply H; cbn; auto) C1). destruct (preambles l v1) as [[[l2 v2] m2]| | |]; cbn [bind]; auto.
  destruct IH as [IH C2]. split; auto. intros pa' [<-|I]; auto.
Qed.
Definition useful (pa : parser) : Prop := gentle pa /\ (pa_ok pa = true -> cu_imports (pa_cu pa) <> None).
Lemma resolve_useful l : forall v g l' g' ms, (forall pa, In pa l -> gentle pa) -> resolve_all l v g = (l', g', ms) ->
  forall pa, In pa l' -> useful pa.
Proof.
  induction l as [|pa l IH]; cbn [resolve_all]; intros v g l' g' ms H E q I.
  - injection E as <- <- <-. destruct I.
  - destruct (import_names v pa) as [[pa1 names] ms1] eqn:E1. destruct (resolve_all l v _) as [[l2 g2] ms2] eqn:E2.
    injection E as <- <- <-. destruct I as [<-|I]; [|eapply IH; eauto; intros; apply H; cbn; auto].
    unfold import_names in E1. assert (P := H pa (or_introl eq_refl)). destruct (pa_ok pa) eqn:Ok.
    + destruct (imported _ _ _) as [ps es]. injection E1 as <- <- <-. split; [|discriminate].
      destruct P as (f & T & Hf & Es & F & Cu & _). exists f, T. cbn. rewrite Ok in Cu. auto 10.
    + injection E1 as <- <- <-. split; auto. congruence.
Qed.
Lemma container_useful l v g : (forall pa, In pa l -> fresh pa) -> calm v ->
  match container l v g with
  | Ok (l', v', _, _) => (forall pa, In pa l' -> useful pa) /\ calm v'
  | Crash => False
  | _ => True
  end.
Proof.
  intros H C. unfold container. assert (F := preambles_gentle l v H C). destruct (preambles l v) as [[[l1 v1] m1]| | |]; cbn [bind]; auto.
  destruct F as [F C1]. destruct (resolve_all l1 v1 _) as [[l2 g2] m2] eqn:E. split; auto. eapply resolve_useful; eauto.
Qed.
Lemma preambles_inputs l : forall v l' v' ms, preambles l v = Ok (l', v', ms) -> map input_of l' = map input_of l.
Proof.
  induction l as [|pa l IH]; cbn [preambles]; intros v l' v' ms H; [injection H as <- _ _; auto|].
  apply bind_ok in H as ([[pa1 v1] m1] & E1 & H). apply bind_ok in H as ([[l2 v2] m2] & E2 & H). injection H as <- _ _. cbn [map]. rewrite (IH _ _ _ _ E2). f_equal.
  unfold parser_preamble in E1. apply bind_ok in E1 as ([a s|s] & _ & E1); injection E1 as <- _ _; auto.
Qed.
Lemma resolve_inputs l : forall v g l' g' ms, resolve_all l v g = (l', g', ms) -> map input_of l' = map input_of l.
Proof.
  induction l as [|pa l IH]; cbn [resolve_all]; intros v g l' g' ms E; [injection E as <- _ _; auto|].
  destruct (import_names v pa) as [[pa1 names] ms1] eqn:E1. destruct (resolve_all l v _) as [[l2 g2] ms2] eqn:E2.
  injection E as <- _ _. cbn [map]. rewrite (IH _ _ _ _ _ E2). f_equal. unfold import_names in E1. destruct (pa_ok pa).
  - destruct (imported _ _ _) as [ps es]. injection E1 as <- _ _. auto.
  - injection E1 as <- _ _. auto.
Qed.
Lemma build_kinds fs gr : build_graph fs = Ok gr ->
  (forall pa, In pa (gr_rsl gr) -> pa_kind pa = RSL) /\ (forall pa, In pa (gr_trlc gr) -> pa_kind pa = TRLC) /\
  SourceMan.b_files (gr_state gr) = map parsed_of (gr_rsl gr ++ gr_trlc gr).
Proof.
  intros H. unfold build_graph in H. apply bind_ok in H as ([l ms0] & _ & H).
  assert (C : forall k v g l' v' g' ms, container (by_name (of_kind k l)) v g = Ok (l', v', g', ms) -> forall pa, In pa l' -> pa_kind pa = k).
  { intros k v g l' v' g' ms E. unfold container in E. apply bind_ok in E as ([[l1 v1] m1] & E1 & E).
    destruct (resolve_all l1 v1 _) as [[l2 g2] m2] eqn:E2. injection E as <- _ _ _. apply preambles_inputs in E1. apply resolve_inputs in E2.
    rewrite E1 in E2. intros pa I. eapply (inputs_kind k _ _ E2); auto. intros q J. apply (proj1 (by_name_in _ _)) in J. apply filter_In in J as [_ J].
    destruct (pa_kind q), k; auto; discriminate. }
  apply bind_ok in H as ([[[rsl v1] g1] m1] & E1 & H). apply bind_ok in H as ([[[trlc v2] g2] m2] & E2 & H). injection H as <-. cbn. eauto.
Qed.
Lemma calm_start : calm env0.
Proof. intros k e I. cbn in I. repeat destruct I as [I|I]; try contradiction; injection I as <- <-; cbn; auto. Qed.
Lemma build_useful fs : (forall f, In f fs -> exists T, harmless f T) ->
  match build_graph fs with
  | Ok gr => (forall pa, In pa (gr_rsl gr ++ gr_trlc gr) -> useful pa) /\ calm (gr_env gr)
  | Crash => False
  | _ => True
  end.
Proof.
  intros H. unfold build_graph. destruct (open_all_harmless _ H) as (l & -> & F). cbn [bind].
  assert (K : forall k pa, In pa (by_name (of_kind k l)) -> fresh pa).
  { intros k pa I. apply (proj1 (by_name_in _ _)) in I. apply filter_In in I as [I _]. auto. }
  assert (F1 := container_useful (by_name (of_kind RSL l)) env0 [] (K RSL) calm_start).
  destruct (container _ _ _) as [[[[rsl v1] g1] m1]| | |]; cbn [bind]; auto. destruct F1 as [F1 C1].
  assert (F2 := container_useful (by_name (of_kind TRLC l)) v1 g1 (K TRLC) C1).
  destruct (container _ _ _) as [[[[trlc v2] g2] m2]| | |]; cbn [bind]; auto. cbn. destruct F2 as [F2 C2]. split; auto.
  intros pa I. apply in_app_or in I as [I|I]; auto.
Qed.
Lemma calm_sane v : blank v -> calm v -> sane v.
Proof.
  intros [B1 B2 B3 B4 B5 B6] C. constructor; auto.
  - intros d k e Id I. rewrite (B3 _ Id) in I. destruct I.
  - rewrite B1. intros rt x [].
Qed.

Section RUN.
Variable compiles : text -> bool.
Variable matches : text -> text -> option bool.
Variable pick : list SourceMan.node -> nat.
Variable lint recovery : bool.
Hypothesis regex : forall p x, compiles p = true -> matches p x <> None.

(** ** Types and objects *)
Lemma nothing_rsl file src n s : nt (at_ (s_ps s)) = None ->
  parse_rsl_file file src lint compiles matches (S n) recovery s = DOk true s.
Proof.
  intros E. unfold parse_rsl_file, dbind. cbn [rsl_loop]. unfold dcond, peek_eof. rewrite E. cbn.
  unfold dp, with_names, p_match_eof. rewrite E. destruct s; auto.
Qed.
Lemma nothing_trlc file src n s : nt (at_ (s_ps s)) = None -> parse_trlc_file file src (S n) recovery s = DOk true s.
Proof.
  intros E. unfold parse_trlc_file, dbind. cbn [trlc_loop]. unfold dcond, peek_kw, peek, next_is. rewrite E. cbn.
  unfold dp, with_names, p_match_eof. rewrite E. destruct s; auto.
Qed.
Lemma types_safe pa v c : no_objects matches v -> sane v -> useful pa -> pa_ok pa = true -> cu_pkg (pa_cu pa) = Some c ->
  match parse_types compiles matches lint recovery pa v with
  | Ok (_, v', _) => sane v'
  | Crash => False
  | _ => True
  end.
Proof.
  intros O Sa [(f & T & Hf & Es & F & Cu & _) Im] Ok Ep. unfold parse_types, launch.
  destruct (nt (pa_pos pa)) as [tk|] eqn:Nt.
  2:{ unfold fuel_for. cbn [Nat.add]. rewrite nothing_rsl by auto. cbn. auto. }
  assert (H := rsl_file_safe (pa_id pa) (pa_src pa) lint compiles matches (fuel_for pa) (pa_cu pa) c T False recovery v regex Ep (Im Ok)
    ltac:(intros X; specialize (Cu Ok X); discriminate) (hl_phrases _ _ Hf) ltac:(rewrite Es; apply tokens_fine, Hf) O Sa
    (St v (pa_cu pa) [] (PS (pa_pos pa) [])) eq_refl eq_refl F).
  destruct (parse_rsl_file _ _ _ _ _ _ _ _) as [a s|e s| |]; cbn [bind]; auto; apply H.
Qed.
Lemma types_files_safe l order : (forall pa, In pa l -> useful pa /\ pa_kind pa = RSL) ->
  (forall nd, In nd order -> exists pa, In pa l /\ has_node nd pa = true) -> forall v ok, no_objects matches v -> sane v ->
  match parse_rsl_files compiles matches lint recovery l order v ok with
  | Ok (_, v', _) => sane v'
  | Crash => False
  | _ => True
  end.
Proof.
  intros U. induction order as [|nd order IH]; intros Fi v ok O Sa; cbn [parse_rsl_files]; auto.
  destruct (find (has_node nd) l) as [pa|] eqn:F.
  2:{ destruct (Fi nd (or_introl eq_refl)) as (pa & I & X). rewrite (List.find_none _ _ F _ I) in X. discriminate. }
  apply find_some in F as [I F]. unfold has_node, node_of in F. destruct (cu_pkg (pa_cu pa)) as [c|] eqn:Ep; [|discriminate].
  destruct (U _ I) as [Up Kp]. assert (Ok : pa_ok pa = true).
  { destruct Up as [(f & T & _ & _ & _ & _ & X) _]. apply X; auto. congruence. }
  assert (T := types_safe pa v c O Sa Up Ok Ep). destruct (parse_types _ _ _ _ _ _) as [[[ok1 v1] m1]| | |] eqn:E1; cbn [bind]; auto.
  eapply types_file in E1 as [O1 _]; eauto. specialize (IH ltac:(intros; apply Fi; cbn; auto) v1 (ok && ok1)%bool O1 T).
  destruct (parse_rsl_files _ _ _ _ _ _ _ _) as [[[ok2 v2] m2]| | |]; cbn [bind]; auto.
Qed.
Lemma objects_safe G pa v : types_ok matches G -> objects_fine G v -> parser_ok v pa -> pa_ok pa = true -> sane v -> useful pa ->
  match parse_objects recovery pa v with
  | Ok (_, v', _) => sane v'
  | Crash => False
  | _ => True
  end.
Proof.
  intros Ty O P Ok Sa [(f & T & Hf & Es & F & Cu & _) Im]. unfold parse_objects, launch.
  destruct (cu_pkg (pa_cu pa)) as [c|] eqn:Ep; [|destruct (pk_ok _ _ P Ok Ep)].
  destruct (nt (pa_pos pa)) as [tk|] eqn:Nt.
  2:{ unfold fuel_for. cbn [Nat.add]. rewrite nothing_trlc by auto. cbn. auto. }
  assert (H := trlc_file_safe (pa_id pa) (pa_src pa) matches (fuel_for pa) G (pa_cu pa) c T False recovery v Ty Ep (Im Ok)
    ltac:(intros X; specialize (Cu Ok X); discriminate) (hl_phrases _ _ Hf) ltac:(rewrite Es; apply tokens_fine, Hf)
    (objects_here _ _ _ O (pk_range _ _ P _ Ep)) Sa (St v (pa_cu pa) [] (PS (pa_pos pa) [])) eq_refl eq_refl F).
  destruct (parse_trlc_file _ _ _ _ _) as [a s|e s| |]; cbn [bind]; auto; apply H.
Qed.
Lemma objects_files_safe G l : types_ok matches G -> (forall pa, In pa l -> useful pa) -> forall v ok, objects_fine G v -> sane v ->
  (forall pa, In pa l -> parser_ok v pa /\ pa_ok pa = true) -> parse_trlc_files recovery l v ok <> Crash.
Proof.
  intros T R. induction l as [|pa l IH]; intros v ok O Sa P; cbn [parse_trlc_files]; [discriminate|].
  destruct (P pa (or_introl eq_refl)) as [P1 P2].
  assert (F := objects_safe G pa v T O P1 P2 Sa (R _ (or_introl eq_refl))).
  destruct (parse_objects recovery pa v) as [[[ok1 v1] m1]| | |] eqn:E1; cbn [bind]; try discriminate; [|destruct F].
  eapply objects_file in E1 as (O1 & T1 & _); eauto.
  assert (K : parse_trlc_files recovery l v1 (ok && ok1) <> Crash).
  { apply IH; auto; [intros; apply R; cbn; auto|]. intros pa' I. destruct (P pa' (or_intror I)). split; auto. eapply parser_tabled; eauto. }
  destruct (parse_trlc_files _ _ _ _) as [[[ok2 v2] m2]| | |]; cbn [bind]; try discriminate. congruence.
Qed.

(** ** References *)
Lemma vt0_link G objs : (forall a x, vt0 G objs a x -> forall l b p n tgt, has_ref x l b p n tgt -> linkable b) /\
  (forall cs d, tup_fields0 G objs cs d -> forall k x l b p n tgt, In (k, x) d -> has_ref x l b p n tgt -> linkable b).
Proof.
  apply vt0_all.
  - intros l k refs H l' b p n tgt Hr. inversion Hr; subst. eauto.
  - intros l a op l1 k refs _ _ _ l' b p n tgt Hr. inversion Hr.
  - intros l i lo hi el vs _ IH l' b p n tgt Hr. inversion Hr; subst. eauto.
  - intros l u ut vs _ _ IH l' b p n tgt Hr. inversion Hr; subst. eauto.
  - intros l a pkg name tgt H _ l' b p n tgt' Hr. inversion Hr; subst. intros a' [= <-]. auto.
  - intros k x l b p n tgt [].
  - intros c cs x vs _ IHx _ IH k y l b p n tgt [[= <- <-]|I] Hr; eauto.
  - intros c cs l vs _ _ IH k y l' b p n tgt [[= <- <-]|I] Hr; eauto. inversion Hr.
Qed.
Lemma in_assoc {A} k (x : A) d : NoDup (map fst d) -> In (k, x) d -> assoc k d = Some x.
Proof.
  induction d as [|[k' y] d IH]; [intros _ []|]. cbn. intros N I. inversion N as [|? ? Ni Nd]; subst. destruct I as [[= <- <-]|I].
  - rewrite text_eqb_refl. auto.
  - destruct (text_eqb k' k) eqn:E; auto. apply text_eqb_eq in E. subst k'. destruct Ni. apply in_map_iff. exists (k, x). auto.
Qed.
Lemma resolve_safe G v ob : types_ok matches G -> objects_fine G v -> ready G (v_objs v) ob ->
  resolve_object G (v_objs v) (final_names v) ob <> Crash.
Proof.
  intros Ty O [_ Rk Rf]. unfold resolve_object.
  assert (K : known_objects (v_objs v) (final_names v)).
  { intros p n k o H. apply t_find_in in H. unfold p_symbols in H. cbn in H. apply in_app_or in H as [H|H].
    - destruct (nth_error (v_pkgs v) p) as [d|] eqn:Ep.
      + rewrite (nth_error_nth _ _ _ Ep) in H. destruct (of_entries _ _ O _ _ _ _ Ep H) as (ob3 & E3 & _). eauto.
      + apply nth_error_None in Ep. rewrite nth_overflow in H by auto. destruct H.
    - destruct (no_stab _ (of_names _ _ O) _ _ H) as [_ Nn]. destruct (Nn o eq_refl). }
  match goal with |- bind (each ?f _) _ <> _ => destruct (each_bad f (o_fields ob)) as [B _] end.
  - intros [k [id x]] I. assert (Ik : In k (map fst (o_fields ob))) by (apply in_map_iff; exists (k, (id, x)); auto).
    rewrite Rk in Ik. apply in_map_iff in Ik as (c & <- & Ic). destruct (Rf c Ic) as (f & Ef & Ft & _).
    assert (Nd : NoDup (map fst (o_fields ob))) by (rewrite Rk; apply (ok_distinct _ _ Ty)).
    rewrite (in_assoc _ _ _ Nd I) in Ef. injection Ef as <-. cbn in Ft.
    destruct (resolve_total G (v_objs v) (final_names v) x K) as [R1 R2].
    { intros l a p n tgt Hr. destruct Ft as [V|(_ & l0 & ->)]; [|inversion Hr]. apply (proj1 (vt0_link _ _) _ _ V) in Hr.
      destruct a as [a|]; cbn; auto. }
    destruct (resolve_value _ _ _ x); cbn; split; try discriminate; congruence.
  - destruct (each _ (o_fields ob)); cbn; congruence.
Qed.
Lemma references_safe G os v ok : types_ok matches G -> objects_fine G v -> (forall o ob, nth_error (v_objs v) o = Some ob -> ready G (v_objs v) ob) ->
  (forall o, In o os -> exists ob, nth_error (v_objs v) o = Some ob) -> resolve_references os v ok <> Crash.
Proof.
  intros Ty. revert v ok. induction os as [|o os IH]; intros v ok O R K; cbn [resolve_references]; [discriminate|].
  destruct (K o (or_introl eq_refl)) as (ob & E). rewrite E, (of_types _ _ O).
  assert (Sf := resolve_safe G v ob Ty O (R _ _ E)). destruct (resolve_object G (v_objs v) (final_names v) ob) as [ob1|e| |] eqn:Re; try discriminate.
  - assert (Hd : same_head ob ob1) by (eapply resolve_fields; eauto).
    assert (S1 := change_heads _ _ _ _ E Hd).
    destruct (resolve_settles matches G v ob ob1 (change (v_objs v) o (fun _ => ob1)) Ty O (R _ _ E) Re S1) as [Rd Se].
    assert (O1 := fine_change G _ _ _ _ O E Hd Rd). apply IH; auto.
    + intros i x Ei. cbn in Ei. destruct (Nat.eq_dec o i) as [<-|N].
      * rewrite change_same, E in Ei. cbn in Ei. injection Ei as <-. exact Rd.
      * rewrite change_other in Ei by auto. cbn. eapply ready_mono; eauto.
    + intros i I. destruct (K i (or_intror I)) as (x & Ex). destruct S1 as [_ S1]. destruct (S1 _ _ Ex) as (y & Ey & _). cbn. eauto.
  - assert (H := IH v false O R ltac:(intros; apply K; cbn; auto)). destruct (resolve_references os v false) as [[[? ?] ?]| | |]; cbn; try discriminate. congruence.
  - congruence.
Qed.
Lemma objects_known G v : objects_fine G v -> forall o, In o (all_objects v) -> exists ob, nth_error (v_objs v) o = Some ob.
Proof.
  intros O o I. unfold all_objects in I. apply in_flat_map in I as (e & I & J). destruct e; cbn in J; try contradiction. destruct J as [->|[]].
  unfold all_values in I. apply in_flat_map in I as (p & _ & I). apply in_map_iff in I as ([k e] & Ee & I). cbn in Ee. subst e.
  apply (proj1 (table_values_in _ _)) in I. destruct (nth_error (v_pkgs v) p) as [d|] eqn:Ep.
  - rewrite (nth_error_nth _ _ _ Ep) in I. destruct (of_entries _ _ O _ _ _ _ Ep I) as (ob & E & _). eauto.
  - apply nth_error_None in Ep. rewrite nth_overflow in I by auto. destruct I.
Qed.

(** ** Checks *)
Lemma list_decide {A} (P Q : A -> Prop) l : (forall x, In x l -> P x \/ Q x) -> (forall x, In x l -> P x) \/ exists x, In x l /\ Q x.
Proof.
  induction l as [|x l IH]; intros H; [left; intros x []|]. destruct (H x (or_introl eq_refl)) as [Px|]; [|right; exists x; cbn; auto].
  destruct IH as [IH|(y & I & Y)]; [intros; apply H; cbn; auto| |right; exists y; cbn; auto]. left. intros y [<-|I]; auto.
Qed.
Lemma checks_crash v : unchecked matches v -> run_checks matches v = Crash ->
  exists ob s, In ob (v_objs v) /\ In s (ChecksProofs.object_sites (v_types v) ob) /\ fragile (v_types v) (ck_expr (ChecksProofs.s_check s)) /\
    ~ exists r, ChecksProofs.outcome (World (v_objs v) matches) s r.
Proof.
  intros Un H. assert (Ty := un_types _ _ Un).
  assert (Li : forall ob, In ob (listed_objects v) -> exists o, nth_error (v_objs v) o = Some ob).
  { intros ob I. unfold listed_objects in I. apply in_flat_map in I as (o & _ & I). destruct (nth_error (v_objs v) o) as [x|] eqn:E; [|destruct I]. destruct I as [<-|[]]. eauto. }
  destruct (list_decide (ChecksProofs.decided_object (World (v_objs v) matches) (v_types v))
    (fun ob => exists s, In ob (v_objs v) /\ In s (ChecksProofs.object_sites (v_types v) ob) /\ fragile (v_types v) (ck_expr (ChecksProofs.s_check s)) /\
      ~ exists r, ChecksProofs.outcome (World (v_objs v) matches) s r) (listed_objects v)) as [D|(ob & _ & s & X)].
  - intros ob I. apply Li in I as (o & E). destruct (object_placed matches v Ty ob (un_ready _ _ Un _ _ E) (un_settled _ _ Un _ _ E)) as [Sh Pl].
    apply nth_error_In in E. destruct (list_decide (ChecksProofs.decided_site (World (v_objs v) matches))
      (fun s => fragile (v_types v) (ck_expr (ChecksProofs.s_check s)) /\ ~ exists r, ChecksProofs.outcome (World (v_objs v) matches) s r)
      (ChecksProofs.object_sites (v_types v) ob)) as [D|(s & I & F)].
    + intros s I. destruct (site_decided matches v Un s (site_scope _ _ Un _ _ E I) (Pl _ I)); auto. left. split; auto.
    + left. split; auto.
    + right. exists s. tauto.
  - exfalso. destruct (ChecksProofs.perform_all_spec _ (v_types v) (listed_objects v) true D) as (_ & b & Sb & _).
    unfold run_checks in H. destruct (Checks.perform_all _ _ _ _) as [ms e]. cbn in Sb. subst e. discriminate.
  - exists ob, s. auto.
Qed.

(** ** The whole run *)
Lemma bind_crash {E A B} (m : res E A) (f : A -> res E B) : bind m f = Crash -> m <> Crash -> exists a, m = Ok a /\ f a = Crash.
Proof. destruct m; cbn; try discriminate; try congruence. eauto. Qed.
Theorem process_crash fs : (forall f, In f fs -> exists ts, harmless f ts) -> process compiles matches pick lint recovery fs = Crash ->
  (lint = true /\ exists rsl names all_names v, incl rsl fs /\
     types_of compiles matches true (package_table names) rsl (start_env all_names) v /\
     exists u ut, nth_error (tups (v_types v)) u = Some ut /\ LintRun.stuck (v_types v) ut) \/
  (exists v bad idle rsl trlc rsl_names more v1 v2 ob s, accepted compiles matches true fs v bad idle rsl trlc rsl_names more v1 v2 /\
     In ob (v_objs v) /\ In s (ChecksProofs.object_sites (v_types v) ob) /\ fragile (v_types v) (ck_expr (ChecksProofs.s_check s)) /\
     ~ exists r, ChecksProofs.outcome (World (v_objs v) matches) s r).
Proof.
  intros Hs H. unfold process in H. assert (Bu := build_useful fs Hs).
  apply bind_crash in H as (gr & Eg & H); [|destruct (build_graph fs); congruence || (intros; destruct Bu)]. rewrite Eg in Bu. destruct Bu as [Us Ca].
  destruct (build_ok _ _ Eg) as [Bl Pk]. assert (Sa := calm_sane _ Bl Ca).
  destruct (SourceMan.closure _ _ _ _ _) as [required|] eqn:Cl; [|discriminate]. cbv zeta in H.
  set (work := SourceMan.rsl_work (gr_state gr) required) in *.
  assert (Nw : NoDup work) by (apply SourceManProofs.add_set_NoDup; constructor).
  destruct (SourceManProofs.waves_spec (SourceMan.b_graph (gr_state gr)) (Datatypes.S (List.length work)) work [] Nw (Nat.lt_succ_diag_r _))
    as (order & cyc & Wv & _ & Inc & _). rewrite Wv in H.
  destruct (build_kinds _ _ Eg) as (Kr & Kt & Bf).
  assert (Fi : forall nd, In nd order -> exists pa, In pa (gr_rsl gr) /\ has_node nd pa = true).
  { intros nd I. apply Inc in I. unfold work, SourceMan.rsl_work in I. apply SourceManProofs.add_set_In in I as [[]|I].
    unfold SourceMan.nodes_of in I. apply in_flat_map in I as (p & I & N). apply filter_In in I as [I _]. apply filter_In in I as [I Kp].
    rewrite Bf in I. apply in_map_iff in I as (pa & <- & I). assert (pa_kind pa = RSL) as Kd by (cbn in Kp; destruct (pa_kind pa); auto; discriminate).
    exists pa. split.
    - apply in_app_or in I as [I|I]; auto. apply Kt in I. congruence.
    - unfold has_node, node_of. unfold SourceMan.p_node, parsed_of in N. cbn in N. destruct (cu_pkg (pa_cu pa)); [|destruct N].
      destruct N as [<-|[]]. apply SourceManProofs.node_eqb_eq; auto. }
  assert (Ku : forall pa, In pa (gr_rsl gr) -> useful pa /\ pa_kind pa = RSL) by (intros pa I; split; [apply Us, in_or_app|]; auto).
  assert (T1 := types_files_safe (gr_rsl gr) order Ku Fi (gr_env gr) true (blank_decl _ _ Bl) Sa).
  apply bind_crash in H as ([[ok1 v1] ms1] & E1 & H); [|intros X; rewrite X in T1; destruct T1]. rewrite E1 in T1.
  destruct (types_files _ _ _ _ regex _ _ _ _ _ _ _ (blank_decl matches _ Bl) E1) as [N1 Tb1].
  destruct (no_objects_fine compiles matches regex _ N1) as [Ty F1].
  assert (Pk1 : forall pa, In pa (gr_trlc gr) -> parser_ok v1 pa) by (intros pa I; eapply parser_tabled; eauto).
  destruct (negb recovery && negb _)%bool; [discriminate|].
  set (good := (forallb pa_ok (gr_rsl gr ++ gr_trlc gr) && ok1 && negb cyc)%bool) in *.
  assert (L : (lint && good = true /\ run_linter v1 = Crash)%bool \/ (if (lint && good)%bool then run_linter v1 else Ok []) <> Crash).
  { destruct (lint && good)%bool; [|right; discriminate]. destruct (run_linter v1); auto; right; discriminate. }
  destruct L as [[Lg El]|El].
  - left. apply Bool.andb_true_iff in Lg as [Ln Gd]. split; auto. unfold good in Gd. apply Bool.andb_true_iff in Gd as [Gd _].
    apply Bool.andb_true_iff in Gd as [Okp ->]. destruct (build_refine _ _ Eg Okp) as (rns & more & bt). destruct (bt_proper _ _ _ _ bt) as [Pr _].
    assert (Le : (List.length (rns ++ more) <= List.length (v_pkgs (gr_env gr)))%nat) by (rewrite (bt_env _ _ _ _ bt); cbn; rewrite map_length; auto).
    apply (types_files_sound _ _ _ _ regex rns) in E1 as (pas & F2 & Ts); auto using blank_decl.
    2:{ intros pa I. apply (bt_rsl _ _ _ _ bt); auto. }
    2:{ rewrite app_length in Le. lia. }
    rewrite (bt_env _ _ _ _ bt) in Ts. exists (map input_of pas), rns, (rns ++ more), v1. split; [|split; auto].
    + intros f I. apply in_map_iff in I as (pa & <- & I). apply (used_in _ _ _ _ bt), in_or_app. left. clear - F2 I. induction F2 as [|nd x o l F]; [destruct I|].
      destruct I as [<-|I]; auto. apply find_some in F. tauto.
    + destruct (LintRun.run_linted _ _ _ _ _ _ _ Ts Ty) as [_ [[_ X]|(s & E & _)]]; auto. unfold run_linter in El. rewrite E in El. discriminate.
  - apply bind_crash in H as (lm & _ & H); auto.
    apply bind_crash in H as ([[ok2 v2] ms2] & E2 & H).
    2:{ eapply objects_files_safe; eauto.
      - intros pa I. apply filter_In in I as [I _]. apply Us, in_or_app. auto.
      - intros pa I. apply filter_In in I as [I X]. apply Bool.andb_true_iff in X as [X _]. split; auto. }
    destruct ok2; [|discriminate]. cbn [negb] in H.
    destruct (objects_result compiles matches recovery regex _ _ _ _ _ _ Pk1 N1 E2) as (F2 & T2 & Ac).
    apply bind_crash in H as ([[ok3 v3] ms3] & E3 & H).
    2:{ eapply references_safe; eauto using complete_ready, objects_known. }
    destruct ok3; [|discriminate]. cbn [negb] in H. destruct good eqn:Gd; [|discriminate]. cbn [negb] in H.
    right. assert (Un : unchecked matches v3) by (eapply (unchecked_result compiles matches pick lint recovery regex); eauto).
    unfold good in Gd. apply Bool.andb_true_iff in Gd as [Gd Cy]. apply Bool.andb_true_iff in Gd as [Okp ->]. destruct cyc; [discriminate|].
    edestruct (steps_accepted compiles matches pick lint recovery regex) with (gr := gr) (v3 := v3) as (bad & idle & rsl & trlc & rsl_names & more & Acc); eauto.
    destruct (checks_crash _ Un) as (ob & s & X).
    { destruct (run_checks matches v3) as [[ok4 ms4]| | |]; cbn [bind] in H; auto; try discriminate. destruct ok4; discriminate. }
    exists v3, bad, idle, rsl, trlc, rsl_names, more, v1, v2, ob, s. tauto.
Qed.
End RUN.
