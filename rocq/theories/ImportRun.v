(** A run does not change if an unused import is dropped. *)
From Verif Require Import Base Lexer SymTab Ast Eval Typing TypesProofs ParserBase ParserExpr ParserProofs ParserValue Lint ParserDecl ParserFile Resolve Growth DeclInv DeclRsl Process ProcessInv
  ProcessRun RunSyntax RunGraph RunSound Imports ImportFrame.
From Verif Require SourceMan LexerThm FileFuel.
Import SourceMan (fkind, RSL, TRLC).
From Coq Require Import ZifyBool ZifyNat ZifyN.
Open Scope Z_scope.

(** ** Tokens *)
Lemma identifier_value src l tk : items src = Some l -> In (ITok tk) l -> tk_kind tk = IDENTIFIER -> tk_value tk = VText (tok_text tk).
Proof.
  intros E I K. destruct (FileFuel.items_ok src) as (l' & E' & H). assert (l' = l) as -> by congruence.
  destruct (H _ I) as (_ & _ & _ & _ & k & base & _ & T). rewrite K in T. unfold tok_text.
  unfold token_value in T. destruct k; try congruence; repeat (match type of T with (if ?c then _ else _) = _ => destruct c end); try discriminate; injection T as T; rewrite <- T; auto.
Qed.
Lemma lexed_split (all : list token) (more : list ParserBase.item) :
  flat_map (fun i => match i with ITok tk => [tk] | _ => [] end) (map ITok all ++ more) =
  all ++ flat_map (fun i => match i with ITok tk => [tk] | _ => [] end) more.
Proof. rewrite flat_map_app. f_equal. induction all as [|x all IH]; cbn; congruence. Qed.

(** No string of the file mentions the package in markup. *)
Definition silent (src : text) (file : Z) (name : text) : Prop :=
  forall tk, In tk (lexed src) -> tk_kind tk = STRING -> markup_silent src name file tk.

Lemma preamble_tokens name l ts tk : preamble_part name l ts -> In tk l -> In tk ts /\ tk_kind tk = IDENTIFIER.
Proof.
  intros P I. destruct P as [kw name l ts Kw Kn P _]. enough (In tk ts /\ tk_kind tk = IDENTIFIER) by (cbn; tauto).
  induction P as [|kw' tk' l ts W K P IH]; [contradiction|]. destruct I as [<-|I]; cbn; [auto|]. apply IH in I. tauto.
Qed.

(** The import itself *)
Lemma import_found ns pa k p ps : proper ns -> ready_file ns pa -> nth_error ns p = Some k -> cu_imports (pa_cu pa) = Some ps -> In p ps ->
  exists tk, In tk (lexed (pa_src pa)) /\ has_text k tk = true.
Proof.
  intros Pr (name & l & ts & raw & q & ps' & B & Im) En Ec Ip.
  rewrite (be_cu _ _ _ _ _ _ _ _ B) in Ec. cbn in Ec. injection Ec as ->.
  apply Im in Ip as (tk & It & Et). apply package_entry in Et; auto. assert (tok_text tk = k) by congruence.
  destruct (preamble_tokens _ _ _ _ (be_syntax _ _ _ _ _ _ _ _ B) It) as [Its Kt].
  destruct (be_read _ _ _ _ _ _ _ _ B) as (li & all & E & Ets & El & _). subst ts. apply filter_In in Its as [Ia _].
  assert (I : In (ITok tk) li) by (subst li; apply in_or_app; left; apply in_map; auto).
  exists tk. split.
  - unfold lexed. rewrite E. apply in_flat_map. exists (ITok tk). cbn. auto.
  - unfold has_text. rewrite (identifier_value _ _ _ E I Kt). apply text_eqb_eq. auto.
Qed.
(** If the name of an imported package is found once in the file, then that is
    in the import, and the rest of the file does not name the package. *)
Lemma unused_clean ns pa k p ps u : proper ns -> ready_file ns pa -> nth_error ns p = Some k -> cu_imports (pa_cu pa) = Some ps -> In p ps ->
  filter (has_text k) (lexed (pa_src pa)) = [u] -> silent (pa_src pa) (pa_id pa) k ->
  clean (pa_id pa) (pa_src pa) k (PS (pa_pos pa) []).
Proof.
  intros Pr (name & l & ts & raw & q & ps' & B & Im) En Ec Ip Fu Si.
  rewrite (be_cu _ _ _ _ _ _ _ _ B) in Ec. cbn in Ec. injection Ec as ->.
  apply Im in Ip as (tk & It & Et). apply package_entry in Et; auto. assert (tok_text tk = k) by congruence.
  destruct (preamble_tokens _ _ _ _ (be_syntax _ _ _ _ _ _ _ _ B) It) as [Its Kt].
  destruct (be_read _ _ _ _ _ _ _ _ B) as (li & all & E & Ets & El & _). subst ts. apply filter_In in Its as [Ia _].
  assert (Hv : forall x, In (ITok x) li -> tk_kind x = IDENTIFIER -> tk_value x = VText (tok_text x)) by (intros; eapply identifier_value; eauto).
  unfold silent, lexed in *. rewrite E in *. subst li. rewrite lexed_split in *. rewrite filter_app in Fu.
  assert (Ht : has_text k tk = true).
  { unfold has_text. rewrite Hv; auto; [apply text_eqb_eq; auto|]. apply in_or_app. left. apply in_map. auto. }
  assert (X : filter (has_text k) (flat_map (fun i => match i with ITok tk => [tk] | _ => [] end) match nt (pa_pos pa) with Some tk => ITok tk :: rest (pa_pos pa) | None => [] end) = []).
  { assert (In tk (filter (has_text k) all)) by (apply filter_In; auto). destruct (filter (has_text k) all) as [|a [|]]; [contradiction| |discriminate].
    cbn in Fu. injection Fu as _ Fu. exact Fu. }
  assert (Y : forall x, In (ITok x) match nt (pa_pos pa) with Some tk => ITok tk :: rest (pa_pos pa) | None => [] end -> fine (pa_id pa) (pa_src pa) k x).
  { intros x I. assert (Ix : In x (flat_map (fun i => match i with ITok tk => [tk] | _ => [] end) match nt (pa_pos pa) with Some tk => ITok tk :: rest (pa_pos pa) | None => [] end)).
    { apply in_flat_map. exists (ITok x). cbn. auto. }
    split; [|intros Kx; apply Si; auto; apply in_or_app; auto]. intros Kx Tx. assert (F : In x []); [|contradiction]. rewrite <- X. apply filter_In. split; auto.
    unfold has_text. rewrite Hv; auto; [apply text_eqb_eq; auto|]. apply in_or_app. auto. }
  destruct (be_read _ _ _ _ _ _ _ _ B) as (_ & _ & _ & _ & _ & Ee). unfold clean. cbn [at_]. destruct (nt (pa_pos pa)) as [x|].
  - split; [intros y Hy; injection Hy as <-; apply Y; cbn; auto|]. apply Forall_forall. intros [y| |] I; cbn; auto. apply Y. cbn. auto.
  - rewrite Ee. split; [discriminate|constructor].
Qed.

(** ** One file *)
Definition reimport (l : list nat) (pa : parser) : parser :=
  Parser (pa_id pa) (pa_kind pa) (pa_primary pa) (pa_src pa) (pa_ok pa) (with_imports l (pa_cu pa)) (pa_pos pa).
Lemma reimport_same pa ps : cu_imports (pa_cu pa) = Some ps -> reimport ps pa = pa.
Proof. destruct pa as [a b c d e [f g h i] j]. cbn. intros ->. auto. Qed.

Section RUN.
Variable compiles : text -> bool.
Variable matches : text -> text -> option bool.
Variable pick : list SourceMan.node -> nat.
Variable lint recovery : bool.
Hypothesis regex : forall p x, compiles p = true -> matches p x <> None.

Section FILE.
Variable pa : parser.
Variable v : env.
Variables imps imps' : list nat.
Variable p : nat.
Variable k : text.
Hypothesis here : cu_imports (pa_cu pa) = Some imps.
Hypothesis off : forall q, q <> p -> existsb (Nat.eqb q) imps = existsb (Nat.eqb q) imps'.
Hypothesis good : good_env p k v.
Hypothesis cl : clean (pa_id pa) (pa_src pa) k (PS (pa_pos pa) []).
Lemma twin_here : twin (pa_id pa) (pa_src pa) p k imps imps' (St v (pa_cu pa) [] (PS (pa_pos pa) [])) (St v (pa_cu (reimport imps' pa)) [] (PS (pa_pos (reimport imps' pa)) [])).
Proof. split; [reflexivity|]. auto. Qed.
Lemma types_twin : parse_types compiles matches lint recovery (reimport imps' pa) v = parse_types compiles matches lint recovery pa v.
Proof.
  unfold parse_types, launch. change (pa_id (reimport imps' pa)) with (pa_id pa). change (pa_src (reimport imps' pa)) with (pa_src pa).
  change (fuel_for (reimport imps' pa)) with (fuel_for pa).
  pose proof (steady_rsl (pa_id pa) (pa_src pa) p k imps imps' off lint compiles matches (fuel_for pa) recovery _ _ twin_here) as S.
  destruct (parse_rsl_file _ _ _ _ _ _ _ _) as [a q|e q| |], (parse_rsl_file _ _ _ _ _ _ _ _) as [a' q'|e' q'| |]; try contradiction; auto.
  - destruct S as (-> & _ & -> & _). auto.
  - destruct S as (-> & -> & _). auto.
Qed.
Lemma objects_twin : parse_objects recovery (reimport imps' pa) v = parse_objects recovery pa v.
Proof.
  unfold parse_objects, launch. change (pa_id (reimport imps' pa)) with (pa_id pa). change (pa_src (reimport imps' pa)) with (pa_src pa).
  change (fuel_for (reimport imps' pa)) with (fuel_for pa).
  pose proof (steady_trlc (pa_id pa) (pa_src pa) p k imps imps' off (fuel_for pa) recovery _ _ twin_here) as S.
  destruct (parse_trlc_file _ _ _ _ _) as [a q|e q| |], (parse_trlc_file _ _ _ _ _) as [a' q'|e' q'| |]; try contradiction; auto.
  - destruct S as (-> & _ & -> & _). auto.
  - destruct S as (-> & -> & _). auto.
Qed.
End FILE.

(** Several imports at once *)
Definition without (ds ps : list nat) : list nat := filter (fun q => negb (existsb (Nat.eqb q) ds)) ps.
Lemma existsb_filter q f ps : existsb (Nat.eqb q) (filter f ps) = existsb (Nat.eqb q) ps && f q.
Proof.
  induction ps as [|x ps IH]; cbn; auto. destruct (f x) eqn:Fx; cbn; rewrite IH.
  - destruct (Nat.eqb_spec q x) as [->|_]; cbn; [rewrite Fx; auto|auto].
  - destruct (Nat.eqb_spec q x) as [->|_]; cbn; [rewrite Fx, Bool.andb_false_r; auto|auto].
Qed.
Lemma without_nil ps : without [] ps = ps.
Proof. unfold without. cbn. induction ps as [|x ps IH]; cbn; congruence. Qed.
Lemma without_off d ds ps q : q <> d -> existsb (Nat.eqb q) (without ds ps) = existsb (Nat.eqb q) (without (d :: ds) ps).
Proof. intros N. unfold without. rewrite !existsb_filter. cbn. destruct (Nat.eqb_spec q d); [contradiction|]. auto. Qed.
(** What is needed to drop the import of [p] *)
Definition loose (v : env) (pa : parser) (p : nat) : Prop :=
  exists k, good_env p k v /\ clean (pa_id pa) (pa_src pa) k (PS (pa_pos pa) []).
Lemma types_without pa v ps ds : cu_imports (pa_cu pa) = Some ps -> (forall d, In d ds -> loose v pa d) ->
  parse_types compiles matches lint recovery (reimport (without ds ps) pa) v = parse_types compiles matches lint recovery pa v.
Proof.
  intros E. induction ds as [|d ds IH]; intros H; [rewrite without_nil, reimport_same; auto|].
  rewrite <- IH by (intros; apply H; cbn; auto). destruct (H d (or_introl eq_refl)) as (k & Gd & C).
  apply (types_twin (reimport (without ds ps) pa) v (without ds ps) (without (d :: ds) ps) d k eq_refl); auto. intros q N. apply without_off. auto.
Qed.
Lemma objects_without pa v ps ds : cu_imports (pa_cu pa) = Some ps -> (forall d, In d ds -> loose v pa d) ->
  parse_objects recovery (reimport (without ds ps) pa) v = parse_objects recovery pa v.
Proof.
  intros E. induction ds as [|d ds IH]; intros H; [rewrite without_nil, reimport_same; auto|].
  rewrite <- IH by (intros; apply H; cbn; auto). destruct (H d (or_introl eq_refl)) as (k & Gd & C).
  apply (objects_twin (reimport (without ds ps) pa) v (without ds ps) (without (d :: ds) ps) d k eq_refl); auto. intros q N. apply without_off. auto.
Qed.

(** ** All files *)
Variable f : parser -> nat -> bool.
(** The parser without the imports chosen by [f] *)
Definition drop (pa : parser) : parser :=
  match cu_imports (pa_cu pa) with
  | Some ps => reimport (filter (fun p => negb (f pa p)) ps) pa
  | None => pa
  end.
Definition drop_all (gr : graph_result) : graph_result :=
  GR (map drop (gr_rsl gr)) (map drop (gr_trlc gr)) (gr_env gr) (gr_state gr) (gr_msgs gr).
Lemma drop_without pa ps : cu_imports (pa_cu pa) = Some ps -> drop pa = reimport (without (filter (f pa) ps) ps) pa.
Proof.
  unfold drop, without. intros ->. f_equal. apply filter_ext_in. intros q I. f_equal. rewrite existsb_filter.
  assert (X : existsb (Nat.eqb q) ps = true); [|rewrite X; auto]. apply existsb_exists. exists q. split; auto. apply Nat.eqb_refl.
Qed.
Lemma drop_ok pa : pa_ok (drop pa) = pa_ok pa. Proof. unfold drop. destruct (cu_imports _); auto. Qed.
Lemma drop_node nd pa : has_node nd (drop pa) = has_node nd pa. Proof. unfold drop. destruct (cu_imports _); auto. Qed.
Lemma drop_selected required pa : selected required (drop pa) = selected required pa. Proof. unfold drop. destruct (cu_imports _); auto. Qed.
Definition loosely (v : env) (pa : parser) : Prop :=
  forall ps p, cu_imports (pa_cu pa) = Some ps -> In p ps -> f pa p = true -> loose v pa p.
Lemma types_drop pa v : loosely v pa -> parse_types compiles matches lint recovery (drop pa) v = parse_types compiles matches lint recovery pa v.
Proof.
  intros H. destruct (cu_imports (pa_cu pa)) as [ps|] eqn:E; [|unfold drop; rewrite E; auto]. rewrite (drop_without _ _ E). apply types_without; auto.
  intros d I. apply filter_In in I as [I F]. eapply H; eauto.
Qed.
Lemma objects_drop pa v : loosely v pa -> parse_objects recovery (drop pa) v = parse_objects recovery pa v.
Proof.
  intros H. destruct (cu_imports (pa_cu pa)) as [ps|] eqn:E; [|unfold drop; rewrite E; auto]. rewrite (drop_without _ _ E). apply objects_without; auto.
  intros d I. apply filter_In in I as [I F]. eapply H; eauto.
Qed.

(** The same in terms of the names of the packages only *)
Definition calm (d : ntable) (pa : parser) : Prop :=
  forall ps p, cu_imports (pa_cu pa) = Some ps -> In p ps -> f pa p = true ->
  exists k, only p k d /\ clean (pa_id pa) (pa_src pa) k (PS (pa_pos pa) []).
Lemma calm_loosely d v pa : v_stab v = d -> names_ok v -> calm d pa -> loosely v pa.
Proof.
  intros <- N C ps p E I F. destruct (C _ _ E I F) as (k & O & Cl). exists k. split; auto. split; auto.
  intros t It k' Ik. destruct (no_pkgs _ N _ _ _ It Ik) as [_ X]. destruct (X p eq_refl).
Qed.
Lemma types_files_drop l order : forall v ok, no_objects matches v -> (forall pa, In pa l -> calm (v_stab v) pa) ->
  parse_rsl_files compiles matches lint recovery (map drop l) order v ok = parse_rsl_files compiles matches lint recovery l order v ok.
Proof.
  induction order as [|nd order IH]; intros v ok N C; cbn [parse_rsl_files]; auto.
  assert (X : find (has_node nd) (map drop l) = option_map drop (find (has_node nd) l)).
  { clear. induction l as [|pa l IH]; cbn; auto. rewrite drop_node. destruct (has_node nd pa); auto. }
  rewrite X. destruct (find (has_node nd) l) as [pa|] eqn:Fi; cbn [option_map]; auto. apply find_some in Fi as [I Hn].
  rewrite types_drop by (eapply calm_loosely; eauto; apply N).
  destruct (parse_types compiles matches lint recovery pa v) as [[[ok1 v1] ms1]| | |] eqn:E; cbn [bind]; auto.
  unfold has_node, node_of in Hn. destruct (cu_pkg (pa_cu pa)) as [c|] eqn:Ep; [|discriminate].
  eapply types_file in E as [N1 T1]; eauto. rewrite IH; auto. rewrite (tb_stab _ _ T1). auto.
Qed.
Lemma objects_files_drop G l : types_ok matches G -> forall v ok, objects_fine G v -> (forall pa, In pa l -> parser_ok v pa /\ pa_ok pa = true /\ calm (v_stab v) pa) ->
  parse_trlc_files recovery (map drop l) v ok = parse_trlc_files recovery l v ok.
Proof.
  intros Ty. induction l as [|pa l IH]; intros v ok O C; cbn [parse_trlc_files map]; auto.
  destruct (C pa (or_introl eq_refl)) as (P1 & P2 & P3).
  rewrite objects_drop by (eapply calm_loosely; eauto; apply (of_names _ _ O)).
  destruct (parse_objects recovery pa v) as [[[ok1 v1] ms1]| | |] eqn:E; cbn [bind]; auto.
  eapply objects_file in E as (O1 & T1 & _); eauto. rewrite IH; auto.
  intros pa' I. destruct (C pa' (or_intror I)) as (A & B & D). rewrite (tb_stab _ _ T1). split; [eapply parser_tabled; eauto|auto].
Qed.

(** ** The run *)
Lemma filter_drop (g : parser -> bool) l : (forall pa, g (drop pa) = g pa) -> filter g (map drop l) = map drop (filter g l).
Proof. intros H. induction l as [|pa l IH]; cbn; auto. rewrite H, IH. destruct (g pa); auto. Qed.
Lemma all_ok l : forallb pa_ok (map drop l) = forallb pa_ok l.
Proof. induction l as [|pa l IH]; cbn; auto. rewrite drop_ok, IH. auto. Qed.
Theorem run_drop fs gr v ms : build_graph fs = Ok gr -> process_from compiles matches pick lint recovery gr = Ok (Some v, ms) ->
  (forall pa p ps, In pa (gr_rsl gr ++ gr_trlc gr) -> cu_imports (pa_cu pa) = Some ps -> In p ps -> f pa p = true ->
     unused_import v pa p <> [] /\ silent (pa_src pa) (pa_id pa) (package_name (v_stab v) p)) ->
  process_from compiles matches pick lint recovery (drop_all gr) = Ok (Some v, ms).
Proof.
  intros Eg H U. pose proof (build_ok _ _ Eg) as [Bl Pk].
  rewrite <- H. unfold process_from in *. change (needed_nodes pick (drop_all gr)) with (needed_nodes pick gr). cbn [drop_all gr_state gr_env gr_rsl gr_trlc gr_msgs].
  destruct (needed_nodes pick gr) as [required|]; auto. cbv zeta in H |- *.
  destruct (SourceMan.waves _ _ _ _) as [[order cyc]|]; auto.
  replace (forallb pa_ok (map drop (gr_rsl gr) ++ map drop (gr_trlc gr))) with (forallb pa_ok (gr_rsl gr ++ gr_trlc gr)).
  2:{ rewrite <- map_app, all_ok. auto. }
  apply bind_ok in H as ([[ok1 v1] ms1] & E1 & H).
  pose proof E1 as E1'. apply types_files in E1' as [N1 T1]; auto using blank_decl.
  destruct (no_objects_fine compiles matches regex _ N1) as [Ty F1].
  destruct (negb recovery && _) eqn:Rec; [discriminate|].
  apply bind_ok in H as (lm & El & H). apply bind_ok in H as ([[ok2 v2] ms2] & E2 & H).
  destruct (negb ok2) eqn:O2; [discriminate|]. apply bind_ok in H as ([[ok3 v3] ms3] & E3 & H).
  destruct (negb ok3) eqn:O3; [discriminate|]. destruct (negb (forallb _ _ && _ && _)) eqn:Oa; [discriminate|].
  apply bind_ok in H as ([ok4 ms4] & E4 & H). destruct ok4; [|discriminate]. injection H as Hv _.
  assert (Ok0 : forallb pa_ok (gr_rsl gr ++ gr_trlc gr) = true) by (destruct (forallb _ _); [auto|discriminate]).
  destruct (build_refine _ _ Eg Ok0) as (rns & more & bt).
  pose proof E2 as E2'. eapply objects_result in E2' as (F2 & T2 & Ac); eauto.
  2:{ intros pa I. eapply parser_tabled; eauto. }
  apply Bool.negb_false_iff in O2. apply Bool.negb_false_iff in O3. subst ok2 ok3.
  pose proof E3 as E3'. eapply references in E3' as (F3 & T3 & _); eauto using complete_ready.
  assert (Sv : v_stab v = package_table (rns ++ more)).
  { subst v. rewrite (tb_stab _ _ T3), (tb_stab _ _ T2), (tb_stab _ _ T1), (bt_env _ _ _ _ bt). auto. }
  destruct (bt_proper _ _ _ _ bt) as [Pr1 Pr2].
  assert (Cm : forall ns pa, In pa (gr_rsl gr ++ gr_trlc gr) -> (ns = rns \/ ns = rns ++ more) -> ready_file ns pa -> calm (package_table (rns ++ more)) pa).
  { intros ns pa I Hn R ps p Ec Ip Fp. destruct (U pa p ps I Ec Ip Fp) as [U1 U2]. rewrite Sv in *.
    assert (En : exists k, nth_error ns p = Some k).
    { destruct R as (name & l & ts & raw & q & ps' & B & Im). rewrite (be_cu _ _ _ _ _ _ _ _ B) in Ec. injection Ec as ->.
      apply Im in Ip as (tk & _ & Et). apply package_entry in Et; [eauto|]. destruct Hn; subst; auto. }
    destruct En as (k & En).
    assert (En' : nth_error (rns ++ more) p = Some k).
    { destruct Hn as [->| ->]; auto. rewrite nth_error_app1; auto. apply nth_error_Some. congruence. }
    assert (Nm := package_named _ _ _ En'). exists k. split.
    - intros k' I'. apply table_in in I'. congruence.
    - unfold unused_import, import_uses in U1. rewrite Sv, Nm in *.
      assert (Fu : exists u, filter (has_text k) (lexed (pa_src pa)) = [u]).
      { assert (Z : filter (has_text k) (lexed (pa_src pa)) <> []).
        { intros Z. destruct (import_found ns pa k p ps) as (tk & I1 & I2); auto; [destruct Hn; subst; auto|].
          assert (X : In tk (filter (has_text k) (lexed (pa_src pa)))) by (apply filter_In; auto). rewrite Z in X. contradiction. }
        destruct (filter (has_text k) (lexed (pa_src pa))) as [|u [|]]; [contradiction|eauto|]. cbn in U1. contradiction. }
      destruct Fu as (u & Fu). apply (unused_clean ns pa k p ps u); auto. destruct Hn; subst; auto. }
  assert (S0 : v_stab (gr_env gr) = package_table (rns ++ more)) by (rewrite (bt_env _ _ _ _ bt); auto).
  rewrite types_files_drop; auto using blank_decl.
  2:{ intros pa I. rewrite S0. apply (Cm rns); auto; [apply in_or_app; auto|]. apply (bt_rsl _ _ _ _ bt). auto. }
  rewrite E1. cbn [bind].
  rewrite filter_drop by (intros; rewrite drop_ok, drop_selected; auto).
  rewrite (objects_files_drop (v_types v1)); auto.
  intros pa I. apply filter_In in I as [I X]. apply Bool.andb_true_iff in X as [X _].
  split; [eapply parser_tabled; eauto|]. split; auto. rewrite (tb_stab _ _ T1), S0. apply (Cm (rns ++ more)); auto; [apply in_or_app; auto|].
  apply (bt_trlc _ _ _ _ bt). auto.
Qed.

(** ** The reports *)

(** [tk] is the only token of the file with the text [k]. *)
Definition named_once (src : text) (k : text) (tk : token) : Prop :=
  tk_value tk = VText k /\ exists a b, lexed src = a ++ tk :: b /\ forall x, In x (a ++ b) -> tk_value x <> VText k.
(** A component of an object or a frozen component, whose value is markup from
    the file, refers to an object of a package with the name [k]. *)
Definition component_value (v : env) (x : vexpr) : Prop :=
  (exists ob c i, In ob (v_objs v) /\ In (c, (i, x)) (o_fields ob)) \/
  (exists rt c i, In rt (recs (v_types v)) /\ In (c, (i, x)) (r_frozen rt)).
Definition markup_use (v : env) (file : Z) (k : text) : Prop :=
  exists l s refs l' a q n tgt, component_value v (XLit l (LStr s true) refs) /\ l_file l = file /\
    In (XRef l' a q n tgt) refs /\ package_name (v_stab v) q = k.

Lemma once_filter src k tk : named_once src k tk <-> filter (has_text k) (lexed src) = [tk].
Proof.
  unfold named_once. assert (N : forall l, (forall x, In x l -> tk_value x <> VText k) <-> filter (has_text k) l = []).
  { clear. induction l as [|y l IH]; cbn; [split; [auto|intros _ x []]|]. destruct (has_text k y) eqn:H.
    - split; [|discriminate]. intros X. destruct (X y (or_introl eq_refl)). apply has_text_true. auto.
    - rewrite <- IH. split; [firstorder|]. intros X x [<-|I]; [|auto]. intros E. apply has_text_true in E. congruence. }
  split.
  - intros (V & a & b & -> & X). apply has_text_true in V. rewrite filter_app. cbn. rewrite V.
    rewrite (proj1 (N a)) by (intros; apply X; apply in_or_app; auto). rewrite (proj1 (N b)) by (intros; apply X; apply in_or_app; auto). auto.
  - generalize (lexed src). intros l. induction l as [|y l IH]; cbn; [discriminate|]. destruct (has_text k y) eqn:H.
    + intros E. injection E as -> E. split; [apply has_text_true; auto|]. exists [], l. split; auto. apply N. auto.
    + intros E. destruct (IH E) as (V & a & b & -> & X). split; auto. exists (y :: a), b. split; auto. intros x [<-|I]; auto.
      intros V'. apply has_text_true in V'. congruence.
Qed.
Lemma markup_none v file k : markup_ref v file k = None <-> ~ markup_use v file k.
Proof.
  assert (L : forall l s refs, In (l, s, refs) (linked_literals v file) <-> component_value v (XLit l (LStr s true) refs) /\ l_file l = file).
  { intros l s refs. unfold linked_literals. rewrite in_app_iff, !in_flat_map.
    assert (Y : forall kf : text * field, In (l, s, refs) (linked_literal file (snd kf)) <-> snd (snd kf) = XLit l (LStr s true) refs /\ l_file l = file).
    { intros [c [i x]]. unfold linked_literal. cbn. split.
      - destruct x as [|l0 [| |s0 [|]| |] refs0| | | |]; cbn; try contradiction. destruct (Z.eqb_spec (l_file l0) file); [|contradiction]. intros [E|[]]. injection E as -> -> ->. auto.
      - intros [-> E]. rewrite (proj2 (Z.eqb_eq _ _) E). cbn. auto. }
    unfold component_value. split.
    - intros [(rt & I & J)|(ob & I & J)]; apply in_flat_map in J as ([c [i x]] & J & K); apply Y in K as [K0 K]; cbn in K0; subst x; split; eauto 8.
    - intros [[(ob & c & i & I & J)|(rt & c & i & I & J)] E]; [right; exists ob|left; exists rt]; (split; [auto|]); apply in_flat_map; exists (c, (i, XLit l (LStr s true) refs)); (split; [auto|]); apply Y; auto. }
  unfold markup_ref. split.
  - destruct (find _ _) as [[[l s] refs]|] eqn:F; [discriminate|]. intros _ (l & s & refs & l' & a & q & n & tgt & C & E & I & Q).
    eapply List.find_none in F; [|apply L; eauto]. cbn in F. rewrite <- Bool.not_true_iff_false, existsb_exists in F. apply F. exists (XRef l' a q n tgt). split; auto. cbn. apply text_eqb_eq. auto.
  - intros M. destruct (find _ _) as [[[l s] refs]|] eqn:F; auto. destruct M. apply find_some in F as [I F]. apply L in I as [C E]. cbn in F. apply existsb_exists in F as (x & Ix & Rx).
    destruct x; try discriminate. cbn in Rx. apply text_eqb_eq in Rx. unfold markup_use. do 8 eexists. split; [eauto|]. split; [eauto|]. split; [eauto|auto].
Qed.

Lemma run_facts fs gr v ms : build_graph fs = Ok gr -> process_from compiles matches pick lint recovery gr = Ok (Some v, ms) ->
  exists names required, v_stab v = package_table names /\ proper names /\ needed_nodes pick gr = Some required /\
    (forall k, In k names -> exists pa, In pa (gr_rsl gr ++ gr_trlc gr) /\ SourceMan.p_pkg (parsed_of pa) = Some k) /\
    forall pa, In pa (gr_rsl gr ++ gr_trlc gr) -> (selected required pa = true <-> file_needed fs (input_of pa)) /\
      exists ns, proper ns /\ ready_file ns pa /\ forall p k, nth_error ns p = Some k -> nth_error names p = Some k.
Proof.
  intros Eg H. pose proof (build_ok _ _ Eg) as [Bl Pk]. unfold process_from in H.
  destruct (needed_nodes pick gr) as [required|] eqn:Nn; [|discriminate]. cbv zeta in H.
  destruct (SourceMan.waves _ _ _ _) as [[order cyc]|]; [|discriminate].
  apply bind_ok in H as ([[ok1 v1] ms1] & E1 & H).
  pose proof E1 as E1'. apply types_files in E1' as [N1 T1]; auto using blank_decl.
  destruct (no_objects_fine compiles matches regex _ N1) as [Ty F1].
  destruct (negb recovery && _); [discriminate|].
  apply bind_ok in H as (lm & El & H). apply bind_ok in H as ([[ok2 v2] ms2] & E2 & H).
  destruct (negb ok2) eqn:O2; [discriminate|]. apply bind_ok in H as ([[ok3 v3] ms3] & E3 & H).
  destruct (negb ok3) eqn:O3; [discriminate|]. destruct (negb (forallb _ _ && _ && _)) eqn:Oa; [discriminate|].
  apply bind_ok in H as ([ok4 ms4] & E4 & H). destruct ok4; [|discriminate]. injection H as Hv _.
  assert (Ok0 : forallb pa_ok (gr_rsl gr ++ gr_trlc gr) = true) by (destruct (forallb _ _); [auto|discriminate]).
  destruct (build_refine _ _ Eg Ok0) as (rns & more & bt).
  pose proof E2 as E2'. eapply objects_result in E2' as (F2 & T2 & Ac); eauto.
  2:{ intros pa I. eapply parser_tabled; eauto. }
  apply Bool.negb_false_iff in O2. apply Bool.negb_false_iff in O3. subst ok2 ok3.
  pose proof E3 as E3'. eapply references in E3' as (F3 & T3 & _); eauto using complete_ready.
  destruct (bt_proper _ _ _ _ bt) as [Pr1 Pr2].
  exists (rns ++ more), required. split; [subst v; rewrite (tb_stab _ _ T3), (tb_stab _ _ T2), (tb_stab _ _ T1), (bt_env _ _ _ _ bt); auto|].
  split; auto. split; auto. split.
  { intros k I. apply in_app_iff in I as [I|I]; [apply (bt_rns _ _ _ _ bt) in I as (pa & I & E)|apply (bt_more _ _ _ _ bt) in I as (pa & I & E)]; exists pa; (split; [apply in_app_iff|]; auto). }
  set (rsl := map file_of (gr_rsl gr)) in *. set (trlc := map file_of (gr_trlc gr)) in *.
  assert (kr := kinds_rsl _ _ _ _ bt). assert (kt := kinds_trlc _ _ _ _ bt). assert (Fn := fine_files _ _ _ _ bt). fold rsl trlc in kr, kt, Fn.
  assert (Rq : forall n, In n required <-> SourceManProofs.needed rsl trlc n).
  { destruct (SourceManProofs.closure_needed rsl trlc kr kt Fn pick) as (rq & E & Rq). unfold needed_nodes in Nn. unfold SourceMan.initial_work in Nn, E.
    rewrite (bt_graph _ _ _ _ bt), (bt_files _ _ _ _ bt) in Nn. fold rsl trlc in Nn. rewrite Nn in E. injection E as <-. auto. }
  intros pa I. split; [apply (selected_needed _ _ _ _ bt); auto|]. apply in_app_iff in I as [I|I].
  - exists rns. split; auto. split; [apply (bt_rsl _ _ _ _ bt); auto|]. intros p k E. rewrite nth_error_app1; auto. apply nth_error_Some. congruence.
  - exists (rns ++ more). split; auto. split; [apply (bt_trlc _ _ _ _ bt); auto|auto].
Qed.
Theorem run_reports fs gr v ms l k : build_graph fs = Ok gr -> process_from compiles matches pick lint recovery gr = Ok (Some v, ms) ->
  In (l, k) (verify_imports pick gr v) <->
  exists pa ps p tk, In pa (gr_rsl gr ++ gr_trlc gr) /\ file_needed fs (input_of pa) /\ cu_imports (pa_cu pa) = Some ps /\ In p ps /\
    In (k, N_pkg p) (v_stab v) /\ named_once (pa_src pa) k tk /\ l = tok_loc (pa_id pa) tk /\ ~ markup_use v (pa_id pa) k.
Proof.
  intros Eg H. destruct (run_facts _ _ _ _ Eg H) as (names & required & Sv & Pr & Nn & _ & Fa). unfold verify_imports. rewrite Nn, in_flat_map.
  assert (Nm : forall pa ps p, In pa (gr_rsl gr ++ gr_trlc gr) -> cu_imports (pa_cu pa) = Some ps -> In p ps ->
    exists k', nth_error names p = Some k' /\ package_name (v_stab v) p = k' /\ exists tk, In tk (lexed (pa_src pa)) /\ has_text k' tk = true).
  { intros pa ps p I Ec Ip. destruct (Fa pa I) as (_ & ns & Pn & R & Hn). pose proof R as (name & im & ts & raw & q & ps' & B & Im).
    rewrite (be_cu _ _ _ _ _ _ _ _ B) in Ec. cbn in Ec. injection Ec as ->. destruct (proj1 (Im p) Ip) as (tk & _ & Et). apply package_entry in Et; auto.
    exists (tok_text tk). rewrite Sv. split; auto. split; [apply package_named; auto|]. eapply import_found; eauto. rewrite (be_cu _ _ _ _ _ _ _ _ B). auto. }
  split.
  - intros (pa & I & J). unfold verify_file in J. destruct (selected required pa) eqn:S; [|contradiction]. apply (Fa pa I) in S.
    destruct (cu_imports (pa_cu pa)) as [ps|] eqn:Ec; [|contradiction]. apply in_flat_map in J as (p & Ip & J).
    destruct (Nm pa ps p I Ec Ip) as (k' & E' & Np & tk & It & Ht). unfold unused_import, import_uses in J. rewrite Np in J.
    assert (X : In tk (filter (has_text k') (lexed (pa_src pa)))) by (apply filter_In; auto).
    destruct (filter (has_text k') (lexed (pa_src pa))) as [|tk' more] eqn:Fi; [contradiction|]. cbn [map app] in J.
    destruct (map _ more ++ _) as [|u us] eqn:Mo; [|contradiction]. apply app_eq_nil in Mo as [M1 M2]. destruct more; [|discriminate]. destruct X as [->|[]].
    destruct J as [J|[]]. injection J as <- Ek. destruct (markup_ref v (pa_id pa) k') eqn:Mk; [discriminate|].
    assert (tok_text tk = k'). { apply has_text_true in Ht. unfold tok_text. rewrite Ht. auto. }
    assert (k = k') by congruence. subst k. exists pa, ps, p, tk. split; auto. split; auto. split; auto. split; auto.
    split; [rewrite Sv; apply table_in; congruence|]. split; [apply once_filter; congruence|]. split; auto. apply markup_none. congruence.
  - intros (pa & ps & p & tk & I & Fn & Ec & Ip & Ik & On & -> & Mk). exists pa. split; auto. unfold verify_file. rewrite (proj2 (proj1 (Fa pa I)) Fn), Ec.
    apply in_flat_map. exists p. split; auto. destruct (Nm pa ps p I Ec Ip) as (k' & E' & Np & _).
    rewrite Sv in Ik. apply table_in in Ik. assert (Kk : k' = k) by congruence. rewrite Kk in Np. unfold unused_import, import_uses. rewrite Np.
    pose proof (proj1 On) as Vt. apply once_filter in On. rewrite On. apply markup_none in Mk. rewrite Mk. cbn. left. f_equal. unfold tok_text. rewrite Vt. auto.
Qed.
End RUN.
