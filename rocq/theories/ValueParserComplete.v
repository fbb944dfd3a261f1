(** [parse_value] accepts every notation of the manual, and makes progress. *)
From Coq Require Import Relations.
From Verif Require Import Base Lexer SymTab Ast Eval TypesProofs ParserBase ParserExpr ParserProofs EvalFuel ParserFuel ExprTyping
  ExprParserComplete ParserValue Lint ValueSyntax ValueParserSound.
From Verif Require Markup.
From Coq Require Import ZifyBool ZifyNat ZifyN.
Open Scope Z_scope.

(** How deep the values of a type are nested. *)
Fixpoint ty_depth (a : ty) : nat :=
  match a with
  | TArr _ _ _ el => Datatypes.S (ty_depth el)
  | TTup u => Datatypes.S (Datatypes.S u)
  | _ => 1
  end.
Definition complete_type (G : types) (a : ty) : Prop :=
  match a with
  | TTup u => (u < List.length (tups G))%nat
  | TArr _ _ _ (TTup u) => (u < List.length (tups G))%nat
  | TArr _ _ _ (TArr _ _ _ _) => False
  | _ => True
  end.
Lemma depth_enough G a : complete_type G a -> (ty_depth a <= value_depth G)%nat.
Proof. unfold complete_type, value_depth. destruct a as [| | | | | | | | |i lo hi []]; cbn; intros; try lia; try contradiction. Qed.

Section COMPLETE.
Variable file : Z.
Variable src : text.
Variable G : types.
Variable objs : list object.
Variable N : names.
Hypothesis order : wf_types G.
Hypothesis tuples : tuples_ok G.
Notation value := (value file src G objs N false).
Notation elements := (elements file src G objs N false).
Notation listed := (listed file src G objs N false).
Notation separated := (separated file src G objs N false).
Notation loc_of := (tok_loc file).
Notation value_at := (value_at file src G objs N).

(** The token after a value must not continue it. *)
Definition ends (a : ty) (o : option token) : Prop :=
  match a with
  | TRec _ | TUnion _ _ => forall tk, o = Some tk -> tk_kind tk <> DOT
  | TTup u => forall ut, tup G u = Some ut -> u_seps ut <> [] -> forall tk, o = Some tk ->
      tk_kind tk <> DOT /\ forall sep, In sep (u_seps ut) -> ~ separates sep tk
  | _ => True
  end.
Lemma ends_kind a tk : In (tk_kind tk) [COMMA; S_KET; KET] -> ends a (Some tk).
Proof.
  intros I. assert (K : tk_kind tk <> DOT /\ forall sep, ~ separates sep tk).
  { split; [intros E; rewrite E in I; cbn in I; intuition discriminate|].
    intros sep H. destruct H as [tk E|tk E|tk E|tk w E _]; rewrite E in I; cbn in I; intuition discriminate. }
  destruct K as [K1 K2]. destruct a; cbn; auto; intros.
  - match goal with H : Some _ = Some _ |- _ => injection H as <- end. auto.
  - match goal with H : Some _ = Some _ |- _ => injection H as <- end. auto.
  - match goal with H : Some _ = Some _ |- _ => injection H as <- end. auto.
Qed.

Definition goes {A} (m : P A) (s : ps) (a : A) (p' : pos) (ns : list note) : Prop :=
  exists s', m s = POk a s' /\ at_ s' = p' /\ out s' = out s ++ ns.

Lemma match_go k s tk ts p' : reads (at_ s) (tk :: ts) p' -> tk_kind tk = k ->
  exists s1, p_match file k s = POk tk s1 /\ reads (at_ s1) ts p' /\ (rem (at_ s1) < rem (at_ s))%nat /\ out s1 = out s.
Proof.
  intros R K. destruct (match_do file k s tk ts p' R K) as (s1 & E & R1 & M). exists s1. split; auto. split; auto. split; auto.
  apply match_ok in E as (_ & _ & O). auto.
Qed.
Ltac go R := let s1 := fresh "s" in let E := fresh "E" in let R' := fresh "R" in let M := fresh "M" in let O := fresh "O" in
  match type of R with reads (at_ ?s) (?tk :: ?ts) ?p =>
    destruct (match_go _ s tk ts p R ltac:(eauto)) as (s1 & E & R' & M & O); rewrite (pbind_do _ _ _ _ _ E); clear E
  end.
Ltac fin R := inversion R; subst; clear R; eexists; split; [reflexivity|]; split; [auto|]; try (rewrite app_nil_r; congruence).

Lemma is_kind_false k tk : tk_kind tk <> k -> is_kind k tk = false.
Proof. unfold is_kind. destruct (kind_eq_dec (tk_kind tk) k); auto. contradiction. Qed.
Lemma peek_reads k s tk ts p : reads (at_ s) (tk :: ts) p -> peek k s = is_kind k tk.
Proof. intros R. unfold peek. eapply next_reads; eauto. Qed.
Lemma peek_not k s : (forall tk, nt (at_ s) = Some tk -> tk_kind tk <> k) -> peek k s = false.
Proof. unfold peek, next_is. intros H. destruct (nt (at_ s)); auto. apply is_kind_false. auto. Qed.

Lemma number_go a tk l k s p' : a = TInt \/ a = TDec -> value a (XLit l k []) [tk] [] -> reads (at_ s) [tk] p' ->
  goes (parse_number file a) s (XLit l k []) p' [].
Proof.
  intros Ka V R. assert (R0 := R). unfold goes, parse_number.
  assert (C : adding s = false).
  { unfold adding, peek_op. erewrite !next_reads by eauto. unfold is_op.
    rewrite is_kind_false; [auto|]. inversion V; subst; try congruence; destruct Ka; discriminate. }
  rewrite (pbind_do _ _ _ None s) by (rewrite pcond_false; auto; reflexivity).
  inversion V; subst; try (destruct Ka; discriminate).
  - unfold pbind at 1 2. destruct (match_go INTEGER s tk [] p' R ltac:(auto)) as (s1 & E & R1 & M & O). rewrite E. cbv beta.
    match goal with H : tk_value _ = _ |- _ => rewrite H end. cbn. fin R1.
  - unfold pbind at 1 2. destruct (match_go DECIMAL s tk [] p' R ltac:(auto)) as (s1 & E & R1 & M & O). rewrite E. cbv beta.
    match goal with H : tk_value _ = _ |- _ => rewrite H end. cbn. fin R1.
Qed.
Lemma literal_one a l k ts : a = TInt \/ a = TDec -> value a (XLit l k []) ts [] ->
  exists tk, ts = [tk] /\ tk_kind tk <> OPERATOR.
Proof. intros Ka V. inversion V; subst; try (destruct Ka; discriminate); eexists; split; eauto; congruence. Qed.
Lemma signed_go a tk op l k ts s p' : a = TInt \/ a = TDec -> sign tk op -> value a (XLit l k []) ts [] ->
  reads (at_ s) (tk :: ts) p' -> goes (parse_number file a) s (XUnary (loc_of tk) (Some a) op (XLit l k [])) p' [].
Proof.
  intros Ka Sg V R. destruct (literal_one _ _ _ _ Ka V) as (tk2 & -> & _). unfold goes, parse_number.
  assert (C : adding s = true).
  { unfold adding, peek_op. erewrite !next_reads by eauto. unfold is_op. destruct Sg as [tk K E|tk K E].
    - replace (is_kind OPERATOR tk) with true by (symmetry; apply is_kind_true; auto).
      replace (has_text (t "+") tk) with true by (symmetry; apply has_text_true; auto). auto.
    - replace (is_kind OPERATOR tk) with true by (symmetry; apply is_kind_true; auto).
      replace (has_text (t "-") tk) with true by (symmetry; apply has_text_true; auto). apply orb_true_r. }
  assert (K : tk_kind tk = OPERATOR) by (destruct Sg; auto).
  destruct (match_go OPERATOR s tk [tk2] p' R K) as (s1 & E & R1 & M & O).
  rewrite (pbind_do _ _ _ (Some tk) s1) by (rewrite pcond_true; auto; rewrite (pbind_do _ _ _ _ _ E); reflexivity).
  assert (Op : (if has_text (t "+") tk then U_plus else U_minus) = op).
  { destruct Sg as [tk K1 E1|tk K1 E1].
    - replace (has_text (t "+") tk) with true by (symmetry; apply has_text_true; auto). auto.
    - unfold has_text. rewrite E1. reflexivity. }
  rewrite Op. inversion V; subst; try (destruct Ka; discriminate).
  - unfold pbind at 1 2. destruct (match_go INTEGER s1 tk2 [] p' R1 ltac:(auto)) as (s2 & E2 & R2 & M2 & O2). rewrite E2. cbv beta.
    match goal with H : tk_value tk2 = _ |- _ => rewrite H end. cbn. fin R2.
  - unfold pbind at 1 2. destruct (match_go DECIMAL s1 tk2 [] p' R1 ltac:(auto)) as (s2 & E2 & R2 & M2 & O2). rewrite E2. cbv beta.
    match goal with H : tk_value tk2 = _ |- _ => rewrite H end. cbn. fin R2.
Qed.

Lemma s_lookup_required sc tk e (r : entity -> bool) : s_lookup file sc tk None = Ok e -> r e = true -> s_lookup file sc tk (Some r) = Ok e.
Proof.
  intros H Re. revert H.
  assert (L : forall d, e_lookup file d tk None = Ok e -> e_lookup file d tk (Some r) = Ok e).
  { intros d E. apply t_lookup_entry in E as [E _]. unfold entry in E. unfold e_lookup, t_lookup. rewrite E, text_eqb_refl, Re. auto. }
  induction sc as [|d sc IH]; cbn; [discriminate|]. destruct sc as [|d' sc]; [apply L|].
  destruct (t_contains d (tok_text tk)); [apply L|apply IH].
Qed.
Lemma entry_lookup d tk e (r : option (entity -> bool)) : entry d (tok_text tk) e -> match r with Some c => c e = true | None => True end ->
  e_lookup file d tk r = Ok e.
Proof.
  unfold entry, e_lookup, t_lookup. intros -> H. rewrite text_eqb_refl. destruct r; auto. rewrite H. auto.
Qed.
Lemma enum_name_go e ts us s p' : enum_name file N e ts -> reads (at_ s) (ts ++ us) p' ->
  exists s' tk, parse_qualified_name file N (default_scope N) (Some is_enum_entity) s = POk (N_type (TEnum e), tk) s' /\
    reads (at_ s') us p' /\ out s' = out s.
Proof.
  intros H R. unfold parse_qualified_name, qualified_rest. destruct H as [tk K L|tp dot tk p K Kd Kt L V En]; cbn [app] in R.
  - go R. rewrite (lift_do _ _ _ _ L). cbv beta iota. rewrite (lift_do _ _ _ _ (s_lookup_required _ _ _ is_enum_entity L eq_refl)).
    exists s0, tk. split; auto.
  - go R. rewrite (lift_do _ _ _ _ L), V. go R0. go R1.
    rewrite (lift_do _ _ _ _ (entry_lookup _ tk _ (Some is_enum_entity) En eq_refl)). exists s2, tk. split; auto. split; auto. congruence.
Qed.

Lemma target_go a tk pkg tgt : target G objs N a pkg (tok_text tk) tgt ->
  reference_to file G objs N a tk pkg = Ok (XRef (loc_of tk) (Some a) pkg (tok_text tk) tgt).
Proof.
  intros H. unfold reference_to. destruct H as [o ob En O F|C].
  - assert (C : t_contains (p_symbols N pkg) (tok_text tk) = true).
    { unfold t_contains. rewrite En. apply text_eqb_refl. }
    rewrite C. unfold resolve_ref, lookup_direct. rewrite En, text_eqb_refl. cbn [is_object bind]. rewrite O.
    destruct a; cbn in F; try contradiction.
    + apply (subclass_spec G order) in F. rewrite F. auto.
    + apply (is_compatible_spec G order) in F. rewrite F. auto.
  - rewrite C. auto.
Qed.
Lemma reference_go a pkg tk ts tgt s p' : object_name N pkg tk ts -> target G objs N a pkg (tok_text tk) tgt ->
  reads (at_ s) ts p' -> (forall t', nt p' = Some t' -> tk_kind t' <> DOT) ->
  goes (parse_reference file G objs N a) s (XRef (loc_of tk) (Some a) pkg (tok_text tk) tgt) p' [].
Proof.
  intros Nm T R Nd. apply target_go in T. unfold goes, parse_reference. destruct Nm as [tk K|tp dot tk p K Kd Kt En V].
  - go R. inversion R0; subst. rewrite pcond_false by (apply peek_not; auto). rewrite T. cbn. exists s0. rewrite app_nil_r. auto.
  - go R. rewrite pcond_true by (erewrite peek_reads by eauto; apply is_kind_true; auto). go R0. go R1.
    rewrite (lift_do _ _ _ _ (entry_lookup _ tp _ (Some is_package) En eq_refl)), V, T. cbn. inversion R2; subst.
    exists s2. rewrite app_nil_r. split; auto. split; auto. congruence.
Qed.

Lemma bounds_go ket lo hi vs few many s : size_errors file lo hi vs ket few many ->
  goes (array_bounds file ket lo hi vs) s tt (at_ s) (few ++ many).
Proof.
  intros [few' many' Ef Em]. unfold goes, array_bounds.
  assert (F : exists s1, (if Z.of_nat (List.length vs) <? lo
             then pnote (Note_error (E_msg (loc_of ket) (M_too_few lo (Z.of_nat (List.length vs))))) else pret tt) s = POk tt s1 /\
             at_ s1 = at_ s /\ out s1 = out s ++ few').
  { subst few'. destruct (_ <? lo); eexists; split; try reflexivity; split; cbn; auto. rewrite app_nil_r. auto. }
  destruct F as (s1 & E & A & O). cbv zeta. rewrite (pbind_do _ _ _ _ _ E).
  destruct hi as [h|].
  - destruct (negb (h =? 0) && (h <? Z.of_nat (List.length vs))).
    + destruct Em as (v & -> & ->). eexists. split; [reflexivity|]. cbn. split; auto. rewrite O, app_assoc. auto.
    + subst. eexists. split; [reflexivity|]. rewrite app_nil_r. auto.
  - subst. eexists. split; [reflexivity|]. rewrite app_nil_r. auto.
Qed.

(** Separators and other tokens. *)
Lemma is_sep_true sep tk : separates sep tk -> is_sep sep tk = true /\ tk_kind tk = sep_kind sep.
Proof.
  intros [tk' K|tk' K|tk' K|tk' w K V]; cbn; split; auto; try (apply is_kind_true; auto).
  apply andb_true_iff. split; [apply is_kind_true; auto | apply has_text_true; auto].
Qed.
Lemma next_sep_false sep s : (forall tk, nt (at_ s) = Some tk -> ~ separates sep tk) -> next_is (is_sep sep) s = false.
Proof.
  unfold next_is. intros H. destruct (nt (at_ s)) as [tk|]; auto. destruct (is_sep sep tk) eqn:E; auto.
  apply sep_true in E. exfalso. eapply H; eauto.
Qed.
Lemma separates_ends a sep tk : separates sep tk ->
  match a with TTup u => forall ut, tup G u = Some ut -> u_seps ut = [] | _ => True end -> ends a (Some tk).
Proof.
  intros Sp H. assert (D : tk_kind tk <> DOT) by (destruct Sp; congruence).
  destruct a; cbn; auto; intros; try solve [match goal with H : Some _ = Some _ |- _ => injection H as <- end; auto].
Qed.

(** What a component of a tuple with separators may be. *)
Definition plain_comp (c : component) : Prop :=
  match c_typ c with TTup u => forall ut, tup G u = Some ut -> u_seps ut = [] | _ => True end.
Lemma plain_ends c o : plain_comp c -> (forall tk, o = Some tk -> tk_kind tk <> DOT) -> ends (c_typ c) o.
Proof. unfold plain_comp. intros H D. destruct (c_typ c); cbn; auto. Qed.

Lemma value_nonempty a v ts ns : value a v ts ns -> ts <> [].
Proof. intros V. destruct (value_first _ _ _ _ _ _ _ _ _ _ V) as (x & ts' & ->). discriminate. Qed.
Lemma value_not k a v ts ns us s p' : In k [COMMA; S_KET; KET] -> value a v ts ns -> reads (at_ s) (ts ++ us) p' -> peek k s = false.
Proof.
  intros Ik V R. destruct (value_first _ _ _ _ _ _ _ _ _ _ V) as (x & ts' & E). subst ts. cbn in R. erewrite peek_reads by eauto.
  apply is_kind_false.
  assert (F : forall a v ts ns, value a v ts ns -> forall tk ts', ts = tk :: ts' -> ~ In (tk_kind tk) [COMMA; S_KET; KET]).
  { clear. intros a v ts ns H.
    assert (Q : forall tk k, tk_kind tk = k -> ~ In k [COMMA; S_KET; KET] -> ~ In (tk_kind tk) [COMMA; S_KET; KET]) by (intros; congruence).
    induction H using value_mind with
      (P0 := fun el vs ts ns => True)
      (P1 := fun _ _ ts _ => True)
      (P2 := fun _ _ _ _ _ ts _ => forall tk ts', ts = tk :: ts' -> ~ In (tk_kind tk) [COMMA; S_KET; KET]); auto;
    try (intros tk0 ts0 E0; injection E0 as <- <-; eapply Q; eauto; cbn; intuition discriminate).
    - intros tk0 ts0 E0. injection E0 as <- <-. eapply Q; [destruct H0; eauto|]. cbn; intuition discriminate.
    - intros tk0 ts0 E0. destruct H; cbn in E0; injection E0 as <- <-; eapply Q; eauto; cbn; intuition discriminate.
    - intros tk0 ts0 E0. destruct H0; injection E0 as <- <-; eapply Q; eauto; cbn; intuition discriminate.
    - intros tk0 ts0 E0. destruct (value_first _ _ _ _ _ _ _ _ _ _ H) as (x & l' & ->). cbn in E0. injection E0 as <- <-. eauto.
    - intros tk0 ts0 E0. discriminate.
    - intros tk0 ts0 E0. discriminate. }
  intros E. apply (F _ _ _ _ V x ts' eq_refl). rewrite E. auto.
Qed.

Lemma fields_type_depth u ut c : tup G u = Some ut -> In c (u_comps ut) -> (ty_depth (c_typ c) <= Datatypes.S u)%nat.
Proof.
  intros U I. assert (H := to_types _ _ _ (tuples _ _ U) c I). destruct (c_typ c); cbn in *; try lia.
Qed.

Lemma null_fields_eq l cs : null_fields l cs = nulls l cs. Proof. reflexivity. Qed.

Theorem value_complete_all :
  (forall a v ts ns, value a v ts ns -> forall d n s p', (ty_depth a <= d)%nat -> (rem (at_ s) < n)%nat ->
     reads (at_ s) ts p' -> ends a (nt p') -> goes (value_at d n a) s v p' ns) /\
  (forall el vs ts ns, elements el vs ts ns -> forall d n m s p', (ty_depth el <= d)%nat -> (rem (at_ s) < n)%nat ->
     (rem (at_ s) < m)%nat -> reads (at_ s) ts p' -> (exists ket, nt p' = Some ket /\ tk_kind ket = S_KET) ->
     goes (array_elements file (value_at d n) m el) s vs p' ns) /\
  (forall cs fs ts ns, listed cs fs ts ns -> forall d n l done s p', (forall c, In c cs -> ty_depth (c_typ c) <= d)%nat ->
     (rem (at_ s) < n)%nat -> NoDup (map fst done ++ map c_name cs) -> (exists ket, nt p' = Some ket /\ tk_kind ket = KET) ->
     (reads (at_ s) ts p' -> goes (fields file (value_at d n) true cs (done ++ null_fields l cs)) s (done ++ fs) p' ns) /\
     (forall comma, tk_kind comma = COMMA -> reads (at_ s) (comma :: ts) p' ->
        goes (fields file (value_at d n) false cs (done ++ null_fields l cs)) s (done ++ fs) p' ns)) /\
  (forall gap l cs seps fs ts ns, separated gap l cs seps fs ts ns -> forall d n done s p',
     (forall c, In c cs -> ty_depth (c_typ c) <= d)%nat -> (rem (at_ s) < n)%nat ->
     NoDup (map fst done ++ map c_name cs) -> (forall c, In c cs -> plain_comp c) ->
     (forall tk, nt p' = Some tk -> tk_kind tk <> DOT /\ forall sep, In sep seps -> ~ separates sep tk) ->
     reads (at_ s) ts p' -> gap = false ->
     goes (sequence file (value_at d n) false (interleave cs seps) (done ++ null_fields l cs)) s (done ++ fs) p' ns).
Proof.
  assert (Dp : forall a d, (ty_depth a <= d)%nat -> exists d', d = Datatypes.S d').
  { intros a d L. destruct d; [destruct a; cbn in L; lia|eauto]. }
  assert (Nin : forall (done : list (text * vexpr)) c cs, NoDup (map fst done ++ map c_name (c :: cs)) -> ~ In (c_name c) (map fst done)).
  { intros done c cs ND. cbn in ND. apply NoDup_remove_2 in ND. intros I. apply ND. apply in_or_app. auto. }
  assert (ND' : forall (done : list (text * vexpr)) c cs (v : vexpr), NoDup (map fst done ++ map c_name (c :: cs)) ->
     NoDup (map fst (done ++ [(c_name c, v)]) ++ map c_name cs)).
  { intros done c cs v ND. rewrite map_app. cbn. rewrite <- app_assoc. auto. }
  apply value_all; intros.
  - destruct (Dp _ _ H1) as (d' & ->). apply (number_go TInt tk); auto. constructor; auto.
  - destruct (Dp _ _ H1) as (d' & ->). apply (number_go TDec tk); auto. constructor; auto.
  - destruct (Dp _ _ H3) as (d' & ->).
    assert (Goal : goes (parse_number file a) s (XUnary (loc_of tk) (Some a) op (XLit l k [])) p' []) by (eapply signed_go; eauto).
    destruct H; subst a; exact Goal.
  - destruct (Dp _ _ H0) as (d' & ->). unfold goes. cbn [ParserValue.value_at value_step]. go H2. fin R.
  - destruct (Dp _ _ H1) as (d' & ->). unfold goes. cbn [ParserValue.value_at value_step]. go H3. unfold markup_literal. rewrite H0. cbn. fin R.
  - destruct (Dp _ _ H1) as (d' & ->). unfold goes. cbn [ParserValue.value_at value_step]. unfold parse_boolean. go H3.
    destruct b.
    + replace (has_text (t "true") tk) with true by (symmetry; apply has_text_true; auto). fin R.
    + replace (has_text (t "true") tk) with false by (unfold has_text; rewrite H0; reflexivity).
      replace (has_text (t "false") tk) with true by (symmetry; apply has_text_true; auto). fin R.
  - destruct (Dp _ _ H3) as (d' & ->). unfold goes. cbn [ParserValue.value_at value_step]. unfold parse_enum_value.
    destruct (enum_name_go e ts [dot; tk] s p' H ltac:(auto)) as (s1 & tk' & E & R & O). rewrite (pbind_do _ _ _ _ _ E).
    rewrite Nat.eqb_refl. go R. go R0.
    rewrite (lift_do _ _ _ (tok_text tk)) by (unfold t_lookup; rewrite H2, text_eqb_refl; auto). fin R1.
  - destruct (Dp _ _ H2) as (d' & ->). cbn [ParserValue.value_at].
    assert (Goal : goes (parse_reference file G objs N a) s (XRef (loc_of tk) (Some a) pkg (tok_text tk) tgt) p' []).
    { eapply reference_go; eauto. destruct a; destruct H; try discriminate; auto. }
    destruct a; destruct H; try discriminate; exact Goal.
  - (* arrays *)
    destruct (Dp _ _ H4) as (d' & ->). cbn in H4. unfold goes. cbn [ParserValue.value_at value_step]. go H6.
    apply reads_split in R as (q & R1 & R2).
    destruct (H2 d' n n s0 q) as (s1 & E1 & A1 & O1); auto; try lia.
    { exists ket. split; auto. apply reads_first in R2. auto. }
    rewrite (pbind_do _ _ _ _ _ E1). rewrite <- A1 in R2. go R2.
    destruct (bounds_go ket lo hi vs few many s2 H3) as (s3 & E3 & A3 & O3). rewrite (pbind_do _ _ _ _ _ E3).
    inversion R; subst. eexists. split; [reflexivity|]. split; [auto|]. rewrite O3, O0, O1, O. rewrite <- !app_assoc. auto.
  - (* generic form *)
    destruct (Dp _ _ H5) as (d' & ->). cbn in H5. assert (Ok := tuples _ _ H). unfold goes. cbn [ParserValue.value_at value_step].
    rewrite H, H0. go H7. apply reads_split in R as (q & R1 & R2).
    destruct (H4 d' n (loc_of bra) [] s0 q) as [Fs _].
    + intros c I. assert (Q := fields_type_depth _ _ _ H I). lia.
    + lia.
    + cbn. apply (to_names _ _ _ Ok).
    + exists ket. split; auto. apply reads_first in R2. auto.
    + destruct (Fs R1) as (s1 & E1 & A1 & O1). cbn [app] in E1. rewrite (pbind_do _ _ _ _ _ E1). rewrite <- A1 in R2. go R2.
      inversion R; subst. eexists. split; [reflexivity|]. split; [auto|]. congruence.
  - (* separators *)
    destruct (Dp _ _ H4) as (d' & ->). cbn in H4. assert (Ok := tuples _ _ H). unfold goes. cbn [ParserValue.value_at value_step].
    rewrite H. destruct (u_seps ut) as [|sp sps] eqn:Sp; [congruence|]. rewrite <- Sp in *.
    destruct H1 as (tk & ts' & -> & ->). assert (Nt := reads_first _ _ _ _ H6).
    assert (L : next_loc file s = POk (loc_of tk) s) by (unfold next_loc; rewrite Nt; auto).
    rewrite (pbind_do _ _ _ _ _ L). unfold iter_sequence.
    destruct (H3 d' n [] s p') as (s1 & E1 & A1 & O1); auto.
    + intros c I. assert (Q := fields_type_depth _ _ _ H I). lia.
    + cbn. apply (to_names _ _ _ Ok).
    + intros c I. unfold plain_comp. destruct (c_typ c) eqn:T; auto. intros wt U. eapply (to_nesting _ _ _ Ok); eauto.
    + cbn [app] in E1. rewrite (pbind_do _ _ _ _ _ E1). eexists. split; [reflexivity|]. auto.
  - (* no elements *)
    destruct m as [|m]; [lia|]. inversion H2; subst. unfold goes. cbn [array_elements]. destruct H3 as (ket & Nt & K).
    rewrite pcond_true by (unfold peek, next_is; rewrite Nt; apply is_kind_true; auto).
    eexists. split; [reflexivity|]. rewrite app_nil_r. auto.
  - (* one element *)
    destruct m as [|m]; [lia|]. unfold goes. cbn [array_elements]. destruct H5 as (ket & Nt & K).
    rewrite pcond_false by (eapply (value_not S_KET _ _ ts _ []); eauto; [cbn; auto|rewrite app_nil_r; eauto]).
    destruct (H0 d n s p') as (s1 & E1 & A1 & O1); auto.
    { rewrite Nt. apply ends_kind. rewrite K. cbn; auto. }
    rewrite (pbind_do _ _ _ _ _ E1).
    rewrite pcond_false by (unfold peek, next_is; rewrite A1, Nt; apply is_kind_false; congruence).
    rewrite pcond_true by (unfold peek, next_is; rewrite A1, Nt; apply orb_true_iff; left; apply is_kind_true; auto).
    eexists. split; [reflexivity|]. auto.
  - (* more elements *)
    destruct m as [|m]; [lia|]. unfold goes. cbn [array_elements].
    rewrite pcond_false by (eapply (value_not S_KET); eauto; cbn; auto).
    apply reads_split in H8 as (q & R1 & R2). assert (Nt := reads_first _ _ _ _ R2).
    destruct (H0 d n s q) as (s1 & E1 & A1 & O1); auto.
    { rewrite Nt. apply ends_kind. rewrite H1. cbn; auto. }
    rewrite (pbind_do _ _ _ _ _ E1). rewrite <- A1 in R2.
    rewrite pcond_true by (erewrite peek_reads by eauto; apply is_kind_true; auto).
    assert (Q : (rem (at_ s1) <= rem (at_ s))%nat) by (subst q; apply reads_rem in R1; lia).
    go R2. destruct (H3 d n m s0 p') as (s2 & E2 & A2 & O2); auto; try lia.
    rewrite (pbind_do _ _ _ _ _ E2). eexists. split; [reflexivity|]. split; auto. rewrite O2, O, O1, app_assoc. auto.
  - discriminate.
  - (* one field *)
    assert (Last : forall s1, reads (at_ s1) ts p' -> (rem (at_ s1) < n)%nat -> 
       goes (let* v := value_at d n (c_typ c) in fields file (value_at d n) false [] (put_field (done ++ null_fields l [c]) (c_name c) v))
         s1 (done ++ [(c_name c, v)]) p' ns).
    { intros s1 R L. destruct H4 as (ket & Nt & K). destruct (H0 d n s1 p') as (s2 & E2 & A2 & O2); auto.
      - apply H1. cbn; auto.
      - rewrite Nt. apply ends_kind. rewrite K. cbn; auto.
      - unfold goes. rewrite (pbind_do _ _ _ _ _ E2). cbn [null_fields map fields]. rewrite put_field_here by (eapply Nin; eauto).
        rewrite app_nil_r. eexists. split; [reflexivity|]. auto. }
    split.
    + intros R. unfold goes. cbn [fields]. rewrite (pbind_do _ _ _ tt s) by reflexivity. apply Last; auto.
    + intros comma Kc R. destruct (match_go COMMA s comma ts p' R Kc) as (s1 & E1 & R1 & M1 & O1). unfold goes. cbn [fields].
      rewrite (pbind_do _ _ _ tt s1) by (rewrite (pbind_do _ _ _ _ _ E1); reflexivity).
      destruct (Last s1 R1 ltac:(lia)) as (s2 & E2 & A2 & O2). exists s2. split; auto. split; auto. congruence.
  - (* more fields *)
    assert (Last : forall s1, reads (at_ s1) (ts ++ comma :: us) p' -> (rem (at_ s1) < n)%nat ->
       goes (let* v := value_at d0 n (c_typ c) in fields file (value_at d0 n) false cs (put_field (done ++ null_fields l (c :: cs)) (c_name c) v))
         s1 (done ++ (c_name c, v) :: d) p' (ns ++ ms)).
    { intros s1 R L. apply reads_split in R as (q & R1 & R2). assert (Nt := reads_first _ _ _ _ R2).
      assert (Q := reads_rem _ _ _ R1). destruct (H0 d0 n s1 q) as (s2 & E2 & A2 & O2); auto.
      - apply H4. cbn; auto.
      - rewrite Nt. apply ends_kind. rewrite H1. cbn; auto.
      - unfold goes. rewrite (pbind_do _ _ _ _ _ E2). cbn [null_fields map]. rewrite put_field_here by (eapply Nin; eauto).
        destruct (H3 d0 n l (done ++ [(c_name c, v)]) s2 p') as [_ F]; auto.
        + intros c' I. apply H4. cbn; auto.
        + rewrite A2. lia.
        + rewrite <- A2 in R2. destruct (F comma H1 R2) as (s3 & E3 & A3 & O3). exists s3. split; [|split; auto].
          * rewrite <- !app_assoc in E3. rewrite <- ?app_assoc. exact E3.
          * rewrite O3, O2, app_assoc. auto. }
    split.
    + intros R. unfold goes. cbn [fields]. rewrite (pbind_do _ _ _ tt s) by reflexivity. apply Last; auto.
    + intros comma' Kc R. destruct (match_go COMMA s comma' _ p' R Kc) as (s1 & E1 & R1 & M1 & O1). unfold goes. cbn [fields].
      rewrite (pbind_do _ _ _ tt s1) by (rewrite (pbind_do _ _ _ _ _ E1); reflexivity).
      destruct (Last s1 R1 ltac:(lia)) as (s2 & E2 & A2 & O2). exists s2. split; auto. split; auto. congruence.
  - (* last field *)
    unfold goes. cbn [interleave sequence andb]. destruct (H0 d n s p') as (s1 & E1 & A1 & O1); auto.
    + apply H1. cbn; auto.
    + apply plain_ends; [apply H4; cbn; auto|]. intros tk Nt. apply (H5 tk Nt).
    + rewrite (pbind_do _ _ _ _ _ E1). cbn [null_fields map]. rewrite put_field_here by (eapply Nin; eauto).
      rewrite app_nil_r. eexists. split; [reflexivity|]. auto.
  - (* separator *)
    unfold goes. cbn [interleave sequence andb]. apply reads_split in H9 as (q & R1 & R2). assert (Nt := reads_first _ _ _ _ R2).
    assert (Q := reads_rem _ _ _ R1). destruct (H0 d0 n s q) as (s1 & E1 & A1 & O1); auto.
    + apply H4. cbn; auto.
    + rewrite Nt. eapply separates_ends; eauto. apply (H7 c). cbn; auto.
    + rewrite (pbind_do _ _ _ _ _ E1). cbn [null_fields map]. rewrite put_field_here by (eapply Nin; eauto).
      destruct (is_sep_true _ _ H1) as [Is Ks]. rewrite <- A1 in R2.
      rewrite pcond_true by (erewrite next_reads by eauto; auto). go R2.
      destruct (H3 d0 n (done ++ [(c_name c, v)]) s0 p') as (s2 & E2 & A2 & O2); auto.
      * intros c' I. apply H4. cbn; auto.
      * rewrite A1 in M. lia.
      * intros c' I. apply H7. cbn; auto.
      * intros tk' Nt'. destruct (H8 tk' Nt') as [D F]. split; auto. intros sep' I. apply F. cbn; auto.
      * exists s2. split; [|split; auto].
        -- rewrite <- !app_assoc in E2. rewrite <- ?app_assoc. exact E2.
        -- rewrite O2, O, O1, app_assoc. auto.
  - (* omitted *)
    unfold goes. cbn [interleave sequence andb]. destruct (H0 d n s p') as (s1 & E1 & A1 & O1); auto.
    + apply H3. cbn; auto.
    + apply plain_ends; [apply H6; cbn; auto|]. intros tk Nt. apply (H7 tk Nt).
    + rewrite (pbind_do _ _ _ _ _ E1). cbn [null_fields map]. rewrite put_field_here by (eapply Nin; eauto).
      rewrite pcond_false.
      2:{ apply next_sep_false. intros tk Nt. rewrite A1 in Nt. apply (H7 tk Nt). cbn; auto. }
      destruct cs as [|c' cs]; [discriminate|].
      assert (Int : exists is, interleave (c' :: cs) seps = IComp c' :: is) by (destruct seps; cbn; eauto).
      destruct Int as (is & ->). cbn [sequence]. rewrite (H1 c') by (cbn; auto). cbn [andb].
      exists s1. split; [|auto]. rewrite <- app_assoc. reflexivity.
  - discriminate.
  - discriminate.
Qed.
Theorem value_complete a v ts ns n s p' : value a v ts ns -> complete_type G a -> (rem (at_ s) < n)%nat ->
  reads (at_ s) ts p' -> ends a (nt p') ->
  exists s', parse_value file src G objs N n a s = POk v s' /\ at_ s' = p' /\ out s' = out s ++ ns.
Proof.
  intros V Ct L R E. destruct value_complete_all as [A _]. apply (A a v ts ns V); auto. apply depth_enough; auto.
Qed.
End COMPLETE.
