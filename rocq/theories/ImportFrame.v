(** A file that never names a package is parsed in the same way whether or
    not the package is imported. *)
From Verif Require Import Base Lexer SymTab Ast Eval ParserBase ParserExpr ParserValue Lint ParserDecl ParserFile.
From Verif Require Markup SourceMan.
Open Scope Z_scope.

(** ** Markup *)
Section MARKUP.
Variable name : text.
Variable last : Markup.mterm.
Variable origin : sref.
Variable q q' : text -> bool.
Hypothesis off : forall x, x <> name -> q x = q' x.

Definition unnamed (m : Markup.mtok) : Prop := Markup.mt_text m <> name.
Definition mclean (s : Markup.mstate) : Prop :=
  (forall m, Markup.ct s = Some m -> unnamed m) /\ (forall m, Markup.nt s = Some m -> unnamed m) /\ Forall unnamed (Markup.todo s).
Definition mpost {A} (f : A -> Markup.mstate) (r : res (Markup.merr * sref) A) : Prop :=
  match r with Ok a => mclean (f a) | _ => True end.
Lemma madvance_clean s : mclean s -> mpost (fun x => x) (Markup.madvance last s).
Proof.
  intros (C & N & T). unfold Markup.madvance. destruct (Markup.todo s) as [|tk r] eqn:E.
  - destruct last; cbn; auto. repeat split; cbn; auto. discriminate.
  - inversion T; subst. cbn. repeat split; cbn; auto. intros m H. injection H as <-. auto.
Qed.
Lemma mmatch_clean k s : mclean s -> mpost (fun x => x) (Markup.mmatch last origin k s).
Proof.
  intros H. unfold Markup.mmatch. destruct (Markup.nt s) eqn:E; cbn; auto. destruct (Markup.mkind_eqb _ _); cbn; auto. apply madvance_clean. auto.
Qed.
Ltac mm := match goal with
  | |- context [Markup.mmatch last origin ?k ?s] =>
      let H := fresh "C" in
      assert (H : mpost (fun x => x) (Markup.mmatch last origin k s)) by (apply mmatch_clean; assumption);
      destruct (Markup.mmatch last origin k s); cbn [bind mpost] in *; auto
  end.
Lemma mqualified s : mclean s ->
  Markup.parse_qualified_name last origin q s = Markup.parse_qualified_name last origin q' s /\
  mpost snd (Markup.parse_qualified_name last origin q s).
Proof.
  intros H. unfold Markup.parse_qualified_name. mm. unfold Markup.current at 1 3 5. destruct (Markup.ct a) as [c|] eqn:Ec; cbn [bind]; [|cbn; auto].
  destruct (Markup.mpeek _ _); [|cbn; auto].
  rewrite (off (Markup.mt_text c)) by (exact (proj1 C c Ec)). split; auto.
  destruct (q' _); [|cbn; auto]. mm; cbn; auto. mm; cbn; auto. unfold Markup.current. destruct (Markup.ct a1); cbn; auto.
Qed.
Lemma mmore fl : forall s, mclean s ->
  Markup.parse_more_names last origin q fl s = Markup.parse_more_names last origin q' fl s /\
  mpost snd (Markup.parse_more_names last origin q fl s).
Proof.
  induction fl as [|fl IH]; intros s H; cbn [Markup.parse_more_names]; [cbn; auto|].
  destruct (Markup.mpeek _ _); [|cbn; auto]. mm. destruct (mqualified _ C) as [E P]. rewrite E in *.
  destruct (Markup.parse_qualified_name last origin q' a) as [[x b]| | |]; cbn [bind snd fst]; cbn; auto. cbn in P.
  destruct (IH b P) as [E2 P2]. rewrite E2 in *. destruct (Markup.parse_more_names last origin q' fl b); cbn; auto.
Qed.
Lemma mref_list fl s : mclean s ->
  Markup.parse_ref_list last origin q fl s = Markup.parse_ref_list last origin q' fl s /\
  mpost snd (Markup.parse_ref_list last origin q fl s).
Proof.
  intros H. unfold Markup.parse_ref_list. mm. destruct (mqualified _ C) as [E P]. rewrite E in *.
  destruct (Markup.parse_qualified_name last origin q' a) as [[x b]| | |]; cbn [bind snd fst]; cbn; auto. cbn in P.
  destruct (mmore fl b P) as [E2 P2]. rewrite E2 in *. destruct (Markup.parse_more_names last origin q' fl b) as [[xs c]| | |]; cbn [bind snd fst]; cbn; auto.
  cbn in P2. mm.
Qed.
Lemma mall fl : forall s, mclean s ->
  Markup.parse_all_references last origin q fl s = Markup.parse_all_references last origin q' fl s.
Proof.
  induction fl as [|fl IH]; intros s H; cbn [Markup.parse_all_references]; auto.
  destruct (Markup.nt s) eqn:E; auto. destruct (Markup.mpeek _ _).
  - pose proof (madvance_clean _ H) as C. destruct (Markup.madvance last s); cbn [bind mpost] in *; auto.
  - destruct (mref_list (S fl) s H) as [E2 P2]. rewrite E2 in *.
    destruct (Markup.parse_ref_list last origin q' (S fl) s) as [[xs c]| | |]; cbn [bind snd fst]; auto. cbn in P2. rewrite (IH _ P2). auto.
Qed.
Lemma mtokens_same ts : Forall unnamed ts -> Markup.parse_tokens last origin q ts = Markup.parse_tokens last origin q' ts.
Proof.
  intros F. unfold Markup.parse_tokens.
  assert (C : mclean {| Markup.ct := None; Markup.nt := None; Markup.todo := ts |}) by (repeat split; cbn; auto; discriminate).
  pose proof (madvance_clean _ C) as C'. destruct (Markup.madvance last _); cbn [bind mpost] in *; auto. apply mall. auto.
Qed.
End MARKUP.

(** The tokens inside of the string do not name the package. *)
Definition markup_silent (src name : text) (file : Z) (tk : token) : Prop :=
  Forall (unnamed name) (fst (Markup.mtokens (Markup.nested_of src (l_ref (tok_loc file tk))))).
Lemma references_same src name file tk q q' : markup_silent src name file tk -> (forall x, x <> name -> q x = q' x) ->
  Markup.markup_references src (l_ref (tok_loc file tk)) q = Markup.markup_references src (l_ref (tok_loc file tk)) q'.
Proof.
  unfold markup_silent, Markup.markup_references. destruct (Markup.mtokens _) as [ts e]. cbn. intros F O. apply mtokens_same with name; auto.
Qed.

Section FRAME.
Variable file : Z.
Variable src : text.
(** The package and its name *)
Variable p0 : nat.
Variable name : text.

(** A token that does not name the package *)
Definition fine (tk : token) : Prop :=
  (tk_kind tk = IDENTIFIER -> tok_text tk <> name) /\ (tk_kind tk = STRING -> markup_silent src name file tk).
Definition fine_item (i : ParserBase.item) : Prop := match i with ITok tk => fine tk | _ => True end.
Definition clean (s : ps) : Prop := (forall tk, nt (at_ s) = Some tk -> fine tk) /\ Forall fine_item (rest (at_ s)).

(** The two runs; the results satisfy [Q]. *)
Definition agree {A} (Q : A -> Prop) (m m' : P A) : Prop :=
  forall s, clean s -> m s = m' s /\ match m s with POk a s' => Q a /\ clean s' | PErr _ s' => clean s' | _ => True end.
Definition any {A} (_ : A) : Prop := True.

Lemma agree_bind {A B} (Q : A -> Prop) (R : B -> Prop) m m' k k' : agree Q m m' -> (forall a, Q a -> agree R (k a) (k' a)) ->
  agree R (pbind m k) (pbind m' k').
Proof.
  intros H K s C. destruct (H s C) as [E P]. unfold pbind. rewrite <- E. destruct (m s); auto. destruct P. apply K; auto.
Qed.
Lemma agree_weak {A} (Q R : A -> Prop) m m' : agree Q m m' -> (forall a, Q a -> R a) -> agree R m m'.
Proof. intros H I s C. destruct (H s C) as [E P]. split; auto. destruct (m s); auto. destruct P. auto. Qed.
Lemma agree_cond {A} (Q : A -> Prop) c a a' b b' : agree Q a a' -> agree Q b b' -> agree Q (pcond c a b) (pcond c a' b').
Proof. intros Ha Hb s C. unfold pcond. destruct (c s); [apply Ha|apply Hb]; auto. Qed.
Lemma agree_ret {A} (Q : A -> Prop) a : Q a -> agree Q (pret a) (pret a). Proof. intros H s C. cbn. auto. Qed.
Lemma agree_error {A} (Q : A -> Prop) e : agree Q (perror e) (perror e). Proof. intros s C. cbn. auto. Qed.
Lemma agree_crash {A} (Q : A -> Prop) : agree Q pcrash pcrash. Proof. intros s C. cbn. auto. Qed.
Lemma agree_fuel {A} (Q : A -> Prop) : agree Q pfuel pfuel. Proof. intros s C. cbn. auto. Qed.
Lemma agree_lift {A} (Q : A -> Prop) (r : res perr A) : (forall a, r = Ok a -> Q a) -> agree Q (lift r) (lift r).
Proof. intros H. destruct r; [apply agree_ret; auto|apply agree_error|apply agree_crash|apply agree_fuel]. Qed.
Lemma agree_lift_any {A} (r : res perr A) : agree any (lift r) (lift r).
Proof. apply agree_lift. intros; exact I. Qed.
Lemma agree_note x : agree any (pnote x) (pnote x). Proof. intros s C. cbn. split; auto. split; [exact I|auto]. Qed.
Lemma fetch_clean prev l : (forall tk, prev = Some tk -> fine tk) -> Forall fine_item l ->
  match fetch prev l with Got (n, l') | ParserBase.Failed _ (n, l') => (forall tk, n = Some tk -> fine tk) /\ Forall fine_item l' | Broke => True end.
Proof.
  revert prev. induction l as [|[tk|e|] l IH]; intros prev H F; cbn; auto; inversion F; subst.
  - split; auto. discriminate.
  - destruct (kind_eq_dec _ _); [apply IH; auto; intros x Hx; injection Hx as <-; auto|]. split; auto. intros x Hx. injection Hx as <-. auto.
  - auto.
Qed.
Lemma agree_advance : agree any p_advance p_advance.
Proof.
  intros s [C R]. split; auto. unfold p_advance. pose proof (fetch_clean _ _ C R) as F. destruct (fetch _ _) as [[x l]|e [x l]|]; auto.
  split; [exact I|exact F].
Qed.
Lemma agree_take f e : agree fine (p_take file f e) (p_take file f e).
Proof.
  intros s C. split; auto. unfold p_take. destruct (nt (at_ s)) as [tk|] eqn:E; auto. destruct (f tk); auto.
  assert (X : fine tk) by (apply C; auto). destruct (agree_advance s C) as [_ P]. unfold pbind. destruct (p_advance s); auto. cbn. destruct P; auto.
Qed.
Lemma agree_match k : agree fine (p_match file k) (p_match file k). Proof. apply agree_take. Qed.
(** Matching an identifier or a string *)
Lemma agree_match_kind k : agree (fun tk => fine tk /\ tk_kind tk = k) (p_match file k) (p_match file k).
Proof.
  intros s C. destruct (agree_match k s C) as [_ H]. split; auto. unfold p_match, p_take in *. destruct (nt (at_ s)) as [tk|]; auto.
  unfold is_kind in *. destruct (kind_eq_dec _ _); auto. unfold pbind, pret in *. destruct (p_advance s); auto. destruct H; auto.
Qed.
Lemma agree_match_kw k : agree fine (p_match_kw file k) (p_match_kw file k). Proof. apply agree_take. Qed.
Lemma agree_eof : agree any (p_match_eof file) (p_match_eof file).
Proof. intros s C. split; auto. unfold p_match_eof. destruct (nt _); auto. split; [exact I|auto]. Qed.
(** A parser that does not depend on names *)
Lemma agree_same {A} (m : P A) : agree any m m -> forall Q : A -> Prop, (forall a, Q a) -> agree Q m m.
Proof. intros H Q T. eapply agree_weak; eauto. Qed.

(** ** Names *)
Definition only (d : ntable) : Prop := forall k, In (k, N_pkg p0) d -> k = name.
Definition scoped (sc : nscope) : Prop := Forall only sc.
Record sibling (N N' : names) : Prop := {
  sb_stab : n_stab N' = n_stab N; sb_pkgs : n_pkgs N' = n_pkgs N; sb_current : n_current N' = n_current N;
  sb_resolved : exists l l', n_imports N = Some l /\ n_imports N' = Some l' /\ (forall q, q <> p0 -> existsb (Nat.eqb q) l = existsb (Nat.eqb q) l');
  sb_only : only (n_stab N); sb_none : forall d, In d (n_pkgs N) -> only d
}.
Lemma t_find_in {A} (d : list (text * A)) k x : t_find d k = Some x -> In x d.
Proof. induction d as [|[k' a] d IH]; cbn; [discriminate|]. destruct (text_eqb _ _); [intros H; injection H as <-; auto|auto]. Qed.
Lemma lookup_only d tk r : only d -> e_lookup file d tk r = Ok (N_pkg p0) -> tok_text tk = name.
Proof.
  intros O. unfold e_lookup, t_lookup. destruct (t_find d (tok_text tk)) as [[k a]|] eqn:F; [|discriminate].
  destruct (text_eqb k (tok_text tk)) eqn:E; [|discriminate]. apply text_eqb_eq in E. subst. apply t_find_in in F.
  destruct r as [c|]; [destruct (c a)|]; try discriminate; intros H; injection H as ->; auto.
Qed.
Lemma scope_only sc tk r : scoped sc -> s_lookup file sc tk r = Ok (N_pkg p0) -> tok_text tk = name.
Proof.
  induction 1 as [|d sc O F IH]; cbn; [discriminate|]. destruct sc as [|d' sc]; [apply lookup_only; auto|].
  destruct (t_contains _ _); [apply lookup_only; auto|auto].
Qed.
Section NAMES.
Variables N N' : names.
Hypothesis SB : sibling N N'.
Lemma same_symbols p : p_symbols N' p = p_symbols N p.
Proof. unfold p_symbols. rewrite (sb_stab _ _ SB), (sb_pkgs _ _ SB). auto. Qed.
Lemma same_visible p : p <> p0 -> is_visible N' p = is_visible N p.
Proof.
  intros H. unfold is_visible. destruct (sb_resolved _ _ SB) as (l & l' & -> & -> & E). rewrite (sb_current _ _ SB), (E _ H). auto.
Qed.
Lemma same_hidden {A} e : @hidden N' A e = hidden N e.
Proof. unfold hidden. destruct (sb_resolved _ _ SB) as (l & l' & -> & -> & E). auto. Qed.
Lemma symbols_only p : only (p_symbols N p).
Proof.
  intros k H. unfold p_symbols in H. apply in_app_or in H as [H|H]; [|eapply sb_only; eauto].
  destruct (nth_in_or_default p (n_pkgs N) []) as [I|E]; [eapply sb_none; eauto|rewrite E in H; destruct H].
Qed.
Lemma same_scope : default_scope N' = default_scope N.
Proof. unfold default_scope. rewrite same_symbols, (sb_current _ _ SB), (sb_stab _ _ SB). auto. Qed.
Lemma default_only : scoped (default_scope N).
Proof. repeat constructor; [apply symbols_only|eapply sb_only; eauto]. Qed.
End NAMES.

Create HintDb agree.
Lemma any_I {A} (a : A) : any a. Proof. exact I. Qed.
Hint Resolve agree_error agree_crash agree_fuel agree_lift_any agree_advance agree_match agree_match_kw agree_eof agree_take agree_note any_I : agree.
Hint Extern 1 (agree _ (pret _) (pret _)) => apply agree_ret; solve [auto with agree] : agree.

Ltac ag := repeat first
  [ progress intros
  | solve [eauto with agree]
  | match goal with
    | |- agree _ (pbind (p_match _ IDENTIFIER) _) _ => eapply agree_bind; [apply agree_match_kind|]
    | |- agree _ (pbind (p_match _ STRING) _) _ => eapply agree_bind; [apply agree_match_kind|]
    | |- agree _ (pbind (p_match _ _) _) _ => eapply agree_bind; [apply agree_match|]
    | |- agree _ (pbind (p_match_kw _ _) _) _ => eapply agree_bind; [apply agree_match_kw|]
    | |- agree _ (pbind (lift ?r) _) _ => eapply agree_bind; [apply (agree_lift_any r)|]
    | |- agree _ (pbind (pnote _) _) _ => eapply agree_bind; [apply agree_note|]
    | |- agree _ (pbind _ _) _ => eapply (agree_bind any)
    | |- agree _ (pcond _ _ _) _ => apply agree_cond
    | |- agree _ (let '(_, _) := ?x in _) _ => destruct x
    | |- agree _ (if ?x then _ else _) _ => destruct x
    | |- agree _ (with_op ?x _) _ => destruct x; cbn [with_op]
    | |- agree _ (match ?x with _ => _ end) _ => destruct x
    end ].

Section QUALIFIED.
Variables N N' : names.
Hypothesis SB : sibling N N'.
Lemma agree_qualified sc tk r : scoped sc -> fine tk -> tk_kind tk = IDENTIFIER ->
  agree any (qualified_rest file N sc tk r) (qualified_rest file N' sc tk r).
Proof.
  intros S F K. unfold qualified_rest. eapply agree_bind; [apply (agree_lift (fun e => e <> N_pkg p0))|].
  { intros a L ->. apply (proj1 F K). eapply scope_only; eauto. }
  intros e Ne. destruct e; try solve [ag]. rewrite (same_visible _ _ SB) by congruence. rewrite (same_symbols _ _ SB), (same_hidden _ _ SB). ag.
Qed.
Lemma agree_qualified_name sc r : scoped sc -> agree any (parse_qualified_name file N sc r) (parse_qualified_name file N' sc r).
Proof. intros S. unfold parse_qualified_name. ag. destruct H. apply agree_qualified; auto. Qed.

Section EXPR.
Variable lint : bool.
Variable G : types.
Variable W : world.
Variable compiles : text -> bool.
Section STEP.
Variable n : nat.
Variable pe pe' : nscope -> P expr.
Hypothesis Qpe : forall sc, scoped sc -> agree any (pe sc) (pe' sc).
Hint Resolve Qpe : agree.

Lemma agree_selectors m sc e : scoped sc -> agree any (selectors file lint G pe m sc e) (selectors file lint G pe' m sc e).
Proof. intros S. revert e. induction m as [|m IH]; intros e; cbn [selectors]; ag. Qed.
Hint Resolve agree_selectors : agree.
Lemma agree_arguments m sc : scoped sc -> agree any (arguments file pe m sc) (arguments file pe' m sc).
Proof. intros S. induction m as [|m IH]; cbn [arguments]; ag. Qed.
Hint Resolve agree_arguments : agree.
Lemma agree_builtin sc c tk : scoped sc -> agree any (parse_builtin file G W compiles n pe sc c tk) (parse_builtin file G W compiles n pe' sc c tk).
Proof. intros S. unfold parse_builtin. ag. Qed.
Hint Resolve agree_builtin agree_qualified : agree.
Lemma same_builtin tk : builtin_name file N' tk = builtin_name file N tk.
Proof. unfold builtin_name. rewrite (sb_stab _ _ SB). auto. Qed.
Lemma agree_name sc : scoped sc -> agree any (parse_name file lint G W compiles N n pe sc) (parse_name file lint G W compiles N' n pe' sc).
Proof. intros S. unfold parse_name. ag; try rewrite same_builtin; ag. destruct H. ag. Qed.
Hint Resolve agree_name : agree.
Lemma agree_quantified sc : scoped sc -> agree any (parse_quantified_expression file pe sc) (parse_quantified_expression file pe' sc).
Proof.
  intros S. unfold parse_quantified_expression. ag. apply Qpe. constructor; auto. intros k [E|[]]. discriminate.
Qed.
Hint Resolve agree_quantified : agree.
Lemma agree_elsifs m sc typ : scoped sc -> agree any (elsifs file pe m sc typ) (elsifs file pe' m sc typ).
Proof. intros S. induction m as [|m IH]; cbn [elsifs]; ag. Qed.
Hint Resolve agree_elsifs : agree.
Lemma agree_conditional sc : scoped sc -> agree any (parse_conditional_expression file n pe sc) (parse_conditional_expression file n pe' sc).
Proof. intros S. unfold parse_conditional_expression. ag. Qed.
Hint Resolve agree_conditional : agree.
Lemma agree_primary sc : scoped sc -> agree any (parse_primary file lint G W compiles N n pe sc) (parse_primary file lint G W compiles N' n pe' sc).
Proof. intros S. unfold parse_primary. ag. Qed.
Hint Resolve agree_primary : agree.
Lemma agree_factor sc : scoped sc -> agree any (parse_factor file lint G W compiles N n pe sc) (parse_factor file lint G W compiles N' n pe' sc).
Proof. intros S. unfold parse_factor. ag. Qed.
Hint Resolve agree_factor : agree.
Lemma agree_term_loop m sc a : scoped sc -> agree any (term_loop file lint G W compiles N n pe m sc a) (term_loop file lint G W compiles N' n pe' m sc a).
Proof. intros S. revert a. induction m as [|m IH]; intros a; cbn [term_loop]; ag. Qed.
Hint Resolve agree_term_loop : agree.
Lemma agree_term sc : scoped sc -> agree any (parse_term file lint G W compiles N n pe sc) (parse_term file lint G W compiles N' n pe' sc).
Proof. intros S. unfold parse_term. ag. Qed.
Hint Resolve agree_term : agree.
Lemma agree_sum_loop m sc ty a : scoped sc -> agree any (sum_loop file lint G W compiles N n pe m sc ty a) (sum_loop file lint G W compiles N' n pe' m sc ty a).
Proof. intros S. revert a. induction m as [|m IH]; intros a; cbn [sum_loop]; ag. Qed.
Hint Resolve agree_sum_loop : agree.
Lemma agree_simple sc : scoped sc -> agree any (parse_simple_expression file lint G W compiles N n pe sc) (parse_simple_expression file lint G W compiles N' n pe' sc).
Proof.
  intros S. unfold parse_simple_expression. ag. intros s.
  match goal with |- context [pbind ?m ?k s = pbind ?m' ?k' s] => assert (Q : agree any (pbind m k) (pbind m' k')) by ag; exact (Q s) end.
Qed.
Hint Resolve agree_simple : agree.
Lemma agree_relation sc : scoped sc -> agree any (parse_relation file lint G W compiles N n pe sc) (parse_relation file lint G W compiles N' n pe' sc).
Proof. intros S. unfold parse_relation. ag. Qed.
Hint Resolve agree_relation : agree.
Lemma agree_logic_loop m w op sc a : scoped sc -> agree any (logic_loop file lint G W compiles N n pe m w op sc a) (logic_loop file lint G W compiles N' n pe' m w op sc a).
Proof. intros S. revert a. induction m as [|m IH]; intros a; cbn [logic_loop]; ag. Qed.
Hint Resolve agree_logic_loop : agree.
Lemma agree_expression_step sc : scoped sc -> agree any (expression_step file lint G W compiles N n pe sc) (expression_step file lint G W compiles N' n pe' sc).
Proof. intros S. unfold expression_step, logic_once. ag. Qed.
End STEP.
Lemma agree_expression n sc : scoped sc -> agree any (parse_expression file lint G W compiles N n sc) (parse_expression file lint G W compiles N' n sc).
Proof. revert sc. induction n as [|n IH]; intros sc S; cbn [parse_expression]; [ag|]. apply agree_expression_step; auto. Qed.
End EXPR.

(** ** Values *)
Section VALUE.
Variable G : types.
Variable objs : list object.
Lemma same_package x : markup_package N' x = markup_package N x.
Proof. unfold markup_package. rewrite (sb_stab _ _ SB). auto. Qed.
Lemma same_markup tk : fine tk -> tk_kind tk = STRING -> markup_literal file src N' tk = markup_literal file src N tk.
Proof.
  intros F K. unfold markup_literal. rewrite (references_same src name file tk (markup_visible N') (markup_visible N)).
  - destruct (Markup.markup_references _ _ _) as [rs|[m l]| |]; auto.
    + f_equal. f_equal. apply map_ext. intros r. unfold markup_ref. rewrite (sb_current _ _ SB). destruct (Markup.mr_package r); auto. rewrite same_package. auto.
    + destruct m; auto. rewrite same_package, (same_hidden _ _ SB). auto.
  - apply F. auto.
  - intros x Hx. unfold markup_visible. rewrite same_package. unfold markup_package. destruct (t_find (n_stab N) x) as [[k e]|] eqn:E; auto. destruct e; auto.
    destruct (text_eqb k x) eqn:T; auto. apply text_eqb_eq in T. subst. apply same_visible; auto. intros ->. apply Hx. apply (sb_only _ _ SB). eapply t_find_in; eauto.
Qed.
Lemma agree_note_ct m : agree any (note_ct file m) (note_ct file m).
Proof. intros s C. split; auto. unfold note_ct. destruct (ct (at_ s)); auto. cbn. split; [exact I|auto]. Qed.
Lemma agree_number a : agree any (parse_number file a) (parse_number file a). Proof. unfold parse_number. ag. Qed.
Lemma agree_boolean : agree any (parse_boolean file) (parse_boolean file). Proof. unfold parse_boolean. ag. Qed.
Lemma agree_enum_value e : agree any (parse_enum_value file G N e) (parse_enum_value file G N' e).
Proof.
  unfold parse_enum_value. eapply (agree_bind any); [rewrite (same_scope _ _ SB); apply agree_qualified_name; apply (default_only _ _ SB)|]. ag.
Qed.
Lemma same_resolve l typ pkg x : resolve_ref G objs N' l typ pkg x = resolve_ref G objs N l typ pkg x.
Proof. unfold resolve_ref. rewrite (same_symbols _ _ SB). auto. Qed.
Lemma same_reference a tk pkg : reference_to file G objs N' a tk pkg = reference_to file G objs N a tk pkg.
Proof. unfold reference_to. rewrite (same_symbols _ _ SB), same_resolve. auto. Qed.
Lemma agree_reference a : agree any (parse_reference file G objs N a) (parse_reference file G objs N' a).
Proof.
  unfold parse_reference. rewrite (sb_stab _ _ SB), (sb_current _ _ SB).
  eapply agree_bind; [apply agree_match_kind|]. intros tk [F K]. apply agree_cond; [|rewrite same_reference; ag].
  eapply agree_bind; [apply agree_match|intros _ _]. eapply agree_bind; [apply agree_match|intros tk2 _].
  eapply agree_bind; [apply (agree_lift (fun e => e <> N_pkg p0))|].
  { intros e L ->. apply (proj1 F K). eapply lookup_only; eauto. eapply sb_only; eauto. }
  intros e Ne. destruct e; try solve [ag]. rewrite (same_visible _ _ SB) by congruence. rewrite same_reference, (same_hidden _ _ SB). ag.
Qed.
Lemma agree_bounds tk lo hi vs : agree any (array_bounds file tk lo hi vs) (array_bounds file tk lo hi vs). Proof. unfold array_bounds. ag. Qed.
Lemma agree_next_loc : agree any (next_loc file) (next_loc file).
Proof. intros s C. split; auto. unfold next_loc. destruct (nt (at_ s)); auto. split; [exact I|auto]. Qed.
Hint Resolve agree_note_ct agree_number agree_boolean agree_enum_value agree_reference agree_bounds agree_next_loc : agree.
Section STEP.
Variable pv pv' : ty -> P vexpr.
Variable n : nat.
Hypothesis Qpv : forall a, agree any (pv a) (pv' a).
Hint Resolve Qpv : agree.
Lemma agree_elements m el : agree any (array_elements file pv m el) (array_elements file pv' m el).
Proof. induction m as [|m IH]; cbn [array_elements]; ag. Qed.
Lemma agree_sequence is : forall skip d, agree any (sequence file pv skip is d) (sequence file pv' skip is d).
Proof. induction is as [|[c|sp] is IH]; intros skip d; cbn [sequence]; ag. Qed.
Lemma agree_fields cs : forall first d, agree any (fields file pv first cs d) (fields file pv' first cs d).
Proof. induction cs as [|c cs IH]; intros first d; cbn [fields]; ag. Qed.
Hint Resolve agree_elements agree_sequence agree_fields : agree.
Lemma agree_value_step a : agree any (value_step file src G objs N pv n a) (value_step file src G objs N' pv' n a).
Proof. unfold value_step. ag. destruct H. rewrite (same_markup a); auto. ag. Qed.
End STEP.
Lemma agree_value n a : agree any (parse_value file src G objs N n a) (parse_value file src G objs N' n a).
Proof. unfold parse_value. revert a. induction (value_depth G) as [|d IH]; intros a; cbn [value_at]; [ag|]. apply agree_value_step. exact IH. Qed.
End VALUE.
End QUALIFIED.

(** ** Declarations *)
Variables imps imps' : list nat.
Hypothesis imps_off : forall q, q <> p0 -> existsb (Nat.eqb q) imps = existsb (Nat.eqb q) imps'.
Definition with_imports (l : list nat) (c : cunit) : cunit := CU (cu_pkg c) (cu_name c) (cu_raw c) (Some l).
Definition good_env (v : env) : Prop := only (v_stab v) /\ (forall d, In d (v_pkgs v) -> only d).
(** The second run differs in the imports. *)
Definition twin (s s' : st) : Prop :=
  s' = St (s_env s) (with_imports imps' (s_cu s)) (s_sec s) (s_ps s) /\ cu_imports (s_cu s) = Some imps /\ good_env (s_env s) /\ clean (s_ps s).
Definition steady {A} (Q : A -> Prop) (m : D A) : Prop :=
  forall s s', twin s s' ->
  match m s, m s' with
  | DOk a q, DOk a' q' => a' = a /\ Q a /\ twin q q'
  | DErr e q, DErr e' q' => e' = e /\ twin q q'
  | DCrash, DCrash => True
  | DFuel, DFuel => True
  | _, _ => False
  end.
Lemma twin_step s v sec q : cu_imports (s_cu s) = Some imps -> good_env v -> clean q ->
  twin (St v (s_cu s) sec q) (St v (with_imports imps' (s_cu s)) sec q).
Proof. intros E Gd C. split; auto. Qed.
Hint Resolve twin_step any_I : twins.
Lemma steady_bind {A B} (Q : A -> Prop) (R : B -> Prop) m k : steady Q m -> (forall a, Q a -> steady R (k a)) -> steady R (dbind m k).
Proof.
  intros H K s s' T. specialize (H s s' T). unfold dbind. destruct (m s) as [a q|e q| |], (m s') as [a' q'|e' q'| |]; auto; try contradiction.
  destruct H as (-> & Qa & T'). apply K; auto.
Qed.
Lemma steady_weak {A} (Q R : A -> Prop) m : steady Q m -> (forall a, Q a -> R a) -> steady R m.
Proof. intros H I s s' T. specialize (H s s' T). destruct (m s), (m s'); auto. intuition. Qed.
Lemma steady_cond {A} (Q : A -> Prop) c a b : steady Q a -> steady Q b -> steady Q (dcond c a b).
Proof. intros Ha Hb s s' T. unfold dcond. pose proof T as (-> & _). cbn [s_ps]. destruct (c _); [apply Ha|apply Hb]; auto. Qed.
Lemma steady_ret {A} (Q : A -> Prop) a : Q a -> steady Q (dret a). Proof. intros H s s' T. cbn. auto. Qed.
Lemma steady_error {A} (Q : A -> Prop) e : steady Q (derror e). Proof. intros s s' T. cbn. auto. Qed.
Lemma steady_crash {A} (Q : A -> Prop) : steady Q dcrash. Proof. intros s s' T. exact I. Qed.
Lemma steady_fuel {A} (Q : A -> Prop) : steady Q dfuel. Proof. intros s s' T. exact I. Qed.
Lemma steady_get : steady good_env dget. Proof. intros s s' T. pose proof T as (-> & _ & Gd & _). cbn. auto. Qed.
Lemma steady_set f : (forall v, good_env v -> good_env (f v)) -> steady any (dset f).
Proof. intros H s s' (-> & E & Gd & C). cbn. auto with twins. Qed.
Lemma steady_fresh : steady any fresh. Proof. intros s s' (-> & E & Gd & C). cbn. auto with twins. Qed.
Lemma steady_current : steady any current.
Proof. intros s s' T. pose proof T as (-> & _). unfold current. cbn. destruct (cu_pkg _); auto. split; auto. split; [exact I|auto]. Qed.
Lemma steady_sections : steady any sections. Proof. intros s s' T. pose proof T as (-> & _). cbn. split; auto. split; [exact I|auto]. Qed.
Lemma steady_enter x : steady any (enter x). Proof. intros s s' (-> & E & Gd & C). cbn. auto with twins. Qed.
Lemma steady_leave : steady any leave.
Proof. intros s s' (-> & E & Gd & C). unfold leave. cbn. destruct (s_sec s); auto with twins. Qed.
Lemma twin_names v c : good_env v -> cu_imports c = Some imps -> sibling (names_of v c) (names_of v (with_imports imps' c)).
Proof. intros [A B] E. constructor; cbn; auto. exists imps, imps'. auto. Qed.
Lemma steady_names {A} (Q : A -> Prop) (m : env -> names -> P A) :
  (forall v N N', good_env v -> n_stab N = v_stab v -> n_pkgs N = v_pkgs v -> sibling N N' -> agree Q (m v N) (m v N')) -> steady Q (with_names m).
Proof.
  intros H s s' (-> & E & Gd & C). unfold with_names. cbn [s_env s_cu s_sec s_ps].
  destruct (H (s_env s) (names_of (s_env s) (s_cu s)) (names_of (s_env s) (with_imports imps' (s_cu s))) Gd eq_refl eq_refl (twin_names _ _ Gd E) (s_ps s) C) as [X P].
  rewrite <- X.
  destruct (m _ _ _); auto; [destruct P|]; auto with twins.
Qed.
Lemma steady_dp {A} (Q : A -> Prop) (m : P A) : agree Q m m -> steady Q (dp m).
Proof. intros H. apply steady_names. auto. Qed.
Lemma steady_lift {A} (r : res perr A) : steady any (dlift r).
Proof. apply steady_dp. apply agree_lift_any. Qed.

Hint Resolve steady_error steady_crash steady_fuel steady_fresh steady_current steady_sections steady_enter steady_leave steady_lift : agree.
Hint Extern 1 (steady _ (dret _)) => apply steady_ret; solve [auto with agree] : agree.
Ltac sd := repeat first
  [ progress intros
  | solve [eauto with agree]
  | match goal with
    | |- steady _ (dbind (dp (p_match _ IDENTIFIER)) _) => eapply steady_bind; [apply steady_dp; apply agree_match_kind|]
    | |- steady _ (dbind (dp (p_match _ STRING)) _) => eapply steady_bind; [apply steady_dp; apply agree_match_kind|]
    | |- steady _ (dbind (dp (p_match _ _)) _) => eapply steady_bind; [apply steady_dp; apply agree_match|]
    | |- steady _ (dbind (dp (p_match_kw _ _)) _) => eapply steady_bind; [apply steady_dp; apply agree_match_kw|]
    | |- steady _ (dbind dget _) => eapply steady_bind; [apply steady_get|]
    | |- steady _ (dbind _ _) => eapply (steady_bind any)
    | |- steady _ (dcond _ _ _) => apply steady_cond
    | |- steady _ (dp _) => apply steady_dp
    | |- steady _ (dset _) => apply steady_set
    | |- steady _ (let '(_, _) := ?x in _) => destruct x
    | |- steady _ (if ?x then _ else _) => destruct x
    | |- steady _ (match ?x with _ => _ end) => destruct x
    | |- agree _ _ _ => progress ag
    | |- good_env _ => solve [auto with agree]
    end ].

Section DECL.
Variable lint : bool.
Variable compiles : text -> bool.
Variable matches : text -> text -> option bool.
Variable n : nat.

Lemma good_types (f : types -> types) v : good_env v -> good_env (set_types (f (v_types v)) v). Proof. auto. Qed.
Lemma good_entry p k e v : e <> N_pkg p0 -> good_env v -> good_env (add_entry p k e v).
Proof.
  intros Ne [A B]. split; auto. unfold add_entry. cbn [v_pkgs]. intros d.
  assert (X : forall l i, (forall d, In d l -> only d) -> forall d, In d (change l i (fun d => d ++ [(k, e)])) -> only d).
  { clear d A B. induction l as [|x l IH]; intros [|i] H d; cbn; auto; intros [<-|I]; auto.
    - intros k' J. apply in_app_or in J as [J|[J|[]]]; [eapply H; cbn; eauto|]. injection J as _ J. contradiction.
    - apply H. cbn. auto.
    - apply H. cbn. auto.
    - eapply IH; eauto. intros. apply H. cbn. auto. }
  apply X. auto.
Qed.
Lemma good_rec r f v : good_env v -> good_env (change_rec r f v). Proof. auto. Qed.
Lemma good_tup r f v : good_env v -> good_env (change_tup r f v). Proof. auto. Qed.
Lemma good_enum r f v : good_env v -> good_env (change_enum r f v). Proof. auto. Qed.
Lemma good_add_rec x v : good_env v -> good_env (add_rec x v). Proof. auto. Qed.
Lemma good_add_tup x v : good_env v -> good_env (add_tup x v). Proof. auto. Qed.
Lemma good_add_enum x v : good_env v -> good_env (add_enum x v). Proof. auto. Qed.
Lemma good_object o f v : good_env v -> good_env (change_object o f v). Proof. auto. Qed.
Lemma good_add_object o f v : good_env v -> good_env (add_object o f v). Proof. auto. Qed.
Lemma good_check a c v : good_env v -> good_env (add_check a c v). Proof. destruct a; auto. Qed.
Hint Resolve good_rec good_tup good_enum good_add_rec good_add_tup good_add_enum good_object good_add_object good_check : agree.

Lemma agree_described : agree any (parse_described_name file) (parse_described_name file). Proof. unfold parse_described_name. ag. Qed.
Hint Resolve agree_described : agree.
Lemma steady_register p k l e : e <> N_pkg p0 -> steady any (register p k l e).
Proof.
  intros Ne. unfold register, may_register. eapply (steady_bind any).
  - apply steady_names. intros v N N' Gd Es Ep SB. rewrite (same_symbols _ _ SB). ag.
  - intros _ _. apply steady_set. intros. apply good_entry; auto.
Qed.
Hint Extern 1 (steady any (register _ _ _ _)) => apply steady_register; discriminate : agree.
Lemma steady_literals m e b : steady any (enum_literals_loop file m e b).
Proof. revert b. induction m as [|m IH]; intros b; cbn [enum_literals_loop]; sd. Qed.
Hint Resolve steady_literals : agree.
Lemma steady_enum : steady any (parse_enum_declaration file n). Proof. unfold parse_enum_declaration. sd. Qed.
Lemma steady_qualified r : steady any (with_names (fun _ N => parse_qualified_name file N (default_scope N) r)).
Proof. apply steady_names. intros v N N' Gd Es Ep SB. rewrite (same_scope _ _ SB). apply agree_qualified_name; auto. apply (default_only _ _ SB). Qed.
Hint Resolve steady_qualified : agree.
Lemma steady_member : steady any (member file). Proof. unfold member. sd. Qed.
Hint Resolve steady_member : agree.
Lemma steady_members m : steady any (union_members file m). Proof. induction m as [|m IH]; cbn [union_members]; sd. Qed.
Lemma agree_duplicates G l : forall seen, agree any (duplicates file G seen l) (duplicates file G seen l).
Proof. induction l as [|[r tk] l IH]; intros seen; cbn [duplicates]; ag. Qed.
Hint Resolve steady_members agree_duplicates : agree.
Lemma steady_union : steady any (parse_union_type file n). Proof. unfold parse_union_type. sd. Qed.
Hint Resolve steady_union : agree.
Lemma steady_component_type : steady any (parse_component_type file n). Proof. unfold parse_component_type. sd. Qed.
Hint Resolve steady_component_type : agree.
Lemma steady_tuple_field u a m r : steady any (parse_tuple_field file n u a m r). Proof. unfold parse_tuple_field. sd. Qed.
Lemma steady_register_field cs c : steady any (register_field cs c). Proof. unfold register_field. sd. Qed.
Lemma agree_separator : agree any parse_separator parse_separator.
Proof.
  intros s C. split; auto. unfold parse_separator. destruct (nt _) as [tk|]; [|split; [exact I|auto]]. destruct (sep_of tk) as [sep|]; [|split; [exact I|auto]].
  apply (agree_bind any any p_advance p_advance (fun _ => pret [sep]) (fun _ => pret [sep])); auto; ag.
Qed.
Lemma steady_add_separator cs a b : steady any (add_separator cs a b). Proof. unfold add_separator. sd. Qed.
Hint Resolve steady_tuple_field steady_register_field agree_separator steady_add_separator : agree.
Lemma steady_fields m : forall u a b c cs seps, steady any (tuple_fields file n m u a b c cs seps).
Proof. induction m as [|m IH]; intros; cbn [tuple_fields]; sd. Qed.
Hint Resolve steady_fields : agree.
Lemma steady_tuple : steady any (parse_tuple_declaration file n). Proof. unfold parse_tuple_declaration. sd. Qed.
Lemma agree_int tk : agree any (int_of tk) (int_of tk). Proof. unfold int_of. ag. Qed.
Hint Resolve agree_int : agree.
Lemma agree_upper : agree any (upper_bound file) (upper_bound file).
Proof.
  unfold upper_bound. apply agree_cond; [ag|]. apply agree_cond; [ag|]. intros s C. split; auto. destruct (nt _); auto.
Qed.
Hint Resolve agree_upper : agree.
Lemma steady_array a : steady any (parse_array_part file a). Proof. unfold parse_array_part. sd. Qed.
Hint Resolve steady_array : agree.
Lemma steady_component r : steady any (parse_record_component file n r). Proof. unfold parse_record_component. sd. Qed.
Lemma steady_value a : steady any (value_of file src n a). Proof. unfold value_of. apply steady_names. intros. apply agree_value. auto. Qed.
Hint Resolve steady_component steady_value : agree.
Lemma steady_freeze r : steady any (parse_freeze file src n r). Proof. unfold parse_freeze. sd. Qed.
Lemma steady_declare r : steady any (declare_component file n r). Proof. unfold declare_component. sd. Qed.
Hint Resolve steady_freeze steady_declare : agree.
Lemma steady_body m r : steady any (record_body file src n m r). Proof. induction m as [|m IH]; cbn [record_body]; sd. Qed.
Lemma steady_extends : steady any (parse_extends file). Proof. unfold parse_extends. sd. Qed.
Hint Resolve steady_body steady_extends : agree.
Lemma steady_record : steady any (parse_record_declaration file src lint n). Proof. unfold parse_record_declaration. sd. Qed.
Hint Resolve steady_enum steady_tuple steady_record : agree.
Lemma steady_type : steady any (parse_type_declaration file src lint n). Proof. unfold parse_type_declaration. sd. Qed.

Lemma agree_severity : agree any (parse_severity file) (parse_severity file). Proof. unfold parse_severity. ag. Qed.
Lemma agree_message : agree any (parse_message file) (parse_message file). Proof. unfold parse_message. ag. Qed.
Lemma agree_tail : agree any (check_tail file) (check_tail file).
Proof.
  unfold check_tail, details. apply agree_cond; [|ag]. eapply agree_bind; [apply agree_match|intros _ _]. apply agree_cond; [ag|].
  apply agree_cond; [ag|]. intros s C. split; auto. destruct (nt _); auto.
Qed.
Lemma agree_anchor G a h : agree any (parse_anchor file G a h) (parse_anchor file G a h). Proof. unfold parse_anchor. ag. Qed.
Hint Resolve agree_severity agree_message agree_tail agree_anchor : agree.
Lemma agree_check v N N' a : sibling N N' -> agree any (parse_check file lint compiles matches n v N a) (parse_check file lint compiles matches n v N' a).
Proof.
  intros SB. unfold parse_check. eapply (agree_bind any).
  - replace (check_scope (v_types v) N' a) with (check_scope (v_types v) N a).
    + apply agree_expression; auto. unfold check_scope. repeat constructor; [|apply (symbols_only _ _ SB)|eapply sb_only; eauto].
      intros k I. apply in_map_iff in I as (x & E & _). discriminate.
    + unfold check_scope. rewrite (same_symbols _ _ SB), (sb_stab _ _ SB), (sb_current _ _ SB). auto.
  - ag.
Qed.
Lemma steady_check_loop m a : steady any (check_loop file lint compiles matches n m a).
Proof.
  induction m as [|m IH]; cbn [check_loop]; [sd|]. apply steady_cond; [sd|]. eapply (steady_bind any); [|sd].
  apply steady_names. intros. apply agree_check. auto.
Qed.
Hint Resolve steady_check_loop : agree.
Lemma steady_block : steady any (parse_check_block file lint compiles matches n).
Proof.
  unfold parse_check_block. eapply steady_bind; [apply steady_dp; apply agree_match_kw|intros _ _].
  eapply steady_bind; [apply steady_dp; apply agree_match|intros tk _]. eapply (steady_bind any); [sd|intros p _].
  eapply (steady_bind any); [|sd]. apply steady_names. intros v N N' Gd Es Ep SB. rewrite (same_symbols _ _ SB). ag.
Qed.
Hint Resolve steady_block steady_type : agree.

Lemma steady_field_of o k : steady any (field_of o k). Proof. unfold field_of. sd. Qed.
Hint Resolve steady_field_of : agree.
Lemma steady_assign o k f : steady any (assign o k f). Proof. unfold assign. sd. Qed.
Hint Resolve steady_assign : agree.
Lemma steady_assignment r o : steady any (assignment file src n r o). Proof. unfold assignment. sd. Qed.
Hint Resolve steady_assignment : agree.
Lemma steady_assignments m r o : steady any (assignments file src n m r o). Proof. induction m as [|m IH]; cbn [assignments]; sd. Qed.
Lemma steady_complete l r o cs : steady any (complete l r o cs). Proof. induction cs as [|c cs IH]; cbn [complete]; sd. Qed.
Hint Resolve steady_assignments steady_complete : agree.
Lemma steady_object : steady any (parse_object file src n). Proof. unfold parse_object. sd. Qed.
Hint Resolve steady_object : agree.
Lemma steady_entry m : steady any (parse_entry file src n m) /\ steady any (entries_loop file src n m).
Proof. induction m as [|m [IH1 IH2]]; cbn [parse_entry entries_loop]; split; sd. Qed.

(** ** Files *)
Lemma agree_skip_line m l : agree any (skip_line m l) (skip_line m l). Proof. induction m as [|m IH]; cbn [skip_line]; ag. Qed.
Lemma agree_skip : agree any (skip_until_newline n) (skip_until_newline n).
Proof. intros s C. unfold skip_until_newline. destruct (ct _); [apply agree_skip_line; auto|]. cbn. split; auto. split; [exact I|auto]. Qed.
Hint Resolve agree_skip : agree.
Lemma agree_skip_to m f f' : (forall s, f' s = f s) -> agree any (skip_to n m f) (skip_to n m f').
Proof.
  intros E. induction m as [|m IH]; cbn [skip_to]; [ag|]. apply agree_cond; [ag|]. intros s C. unfold pcond. rewrite E. destruct (f s); [apply agree_ret; auto; exact I|].
  assert (X : agree any (let* _ := p_advance in let* _ := skip_until_newline n in skip_to n m f) (let* _ := p_advance in let* _ := skip_until_newline n in skip_to n m f')) by ag.
  apply X. auto.
Qed.
Lemma agree_recover f f' : (forall s, f' s = f s) -> agree any (recover n f) (recover n f').
Proof. intros E. unfold recover. eapply (agree_bind any); [ag|]. intros _ _. apply agree_skip_to. auto. Qed.
Lemma steady_attempt rec m r : steady any m -> (forall v N N', good_env v -> sibling N N' -> agree any (r v N) (r v N')) -> steady any (attempt rec m r).
Proof.
  intros H R s s' T. unfold attempt. specialize (H s s' T). destruct (m s) as [a q|e q| |], (m s') as [a' q'|e' q'| |]; auto; try contradiction.
  - destruct H as (_ & _ & H). split; auto. split; [exact I|auto].
  - destruct H as [-> H]. destruct rec; auto.
    assert (X : steady any (let# _ := dp (pnote (Note_error e)) in with_names r)).
    { eapply (steady_bind any); [sd|]. intros _ _. apply steady_names. auto. }
    specialize (X q q' H). set (k := let# _ := dp (pnote (Note_error e)) in with_names r) in *.
    destruct (k q), (k q'); auto; try contradiction. destruct X as (_ & _ & X). split; auto. split; [exact I|auto].
Qed.
Lemma steady_rsl_loop m rec : forall ok, steady any (rsl_loop file src lint compiles matches n m rec ok).
Proof.
  induction m as [|m IH]; intros ok; cbn [rsl_loop]; [sd|]. apply steady_cond; [sd|]. eapply (steady_bind any); [|intros; apply IH].
  apply steady_attempt; [unfold rsl_item; sd|]. intros. apply agree_recover. auto.
Qed.
Lemma steady_trlc_loop m rec : forall ok, steady any (trlc_loop file src n m rec ok).
Proof.
  induction m as [|m IH]; intros ok; cbn [trlc_loop]; [sd|]. apply steady_cond; [|sd]. eapply (steady_bind any); [|intros; apply IH].
  apply steady_attempt; [apply steady_entry|]. intros v N N' Gd SB. apply agree_recover. intros s. unfold trlc_restart.
  rewrite (sb_stab _ _ SB), (sb_current _ _ SB), (same_symbols _ _ SB). auto.
Qed.
Theorem steady_rsl rec : steady any (parse_rsl_file file src lint compiles matches n rec).
Proof. unfold parse_rsl_file. eapply (steady_bind any); [apply steady_rsl_loop|]. sd. Qed.
Theorem steady_trlc rec : steady any (parse_trlc_file file src n rec).
Proof. unfold parse_trlc_file. eapply (steady_bind any); [apply steady_trlc_loop|]. sd. Qed.
End DECL.
End FRAME.
