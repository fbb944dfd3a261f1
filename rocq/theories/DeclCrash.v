(** The parsers of declarations and objects raise no Python exception unless a
    phrase of Hazards.v occurs or the file is cut off. *)
From Verif Require Import Base Lexer SymTab Ast Eval Typing TypesProofs ParserBase ParserProofs ParserExpr ParserValue ExprTyping
  ValueSyntax ValueTyping Lint ParserDecl ParserFile RunSyntax Hazards Growth DeclInv DeclRsl DeclTrlc ParserCrash ValueCrash.
From Verif Require LexerThm.
From Coq Require Import ZifyBool ZifyNat ZifyN.
Open Scope Z_scope.

(** ** Declarations *)

(** No declared name is that of a conversion, and arrays have no negative
    bounds. *)
Record sane (v : env) : Prop := Sane {
  sn_stab : forall k e, In (k, e) (v_stab v) -> reserved k e;
  sn_pkgs : forall d k e, In d (v_pkgs v) -> In (k, e) d -> reserved k e;
  sn_recs : forall rt x, In rt (recs (v_types v)) -> In x (r_comps rt) -> bounded (c_typ x)
}.
Lemma sane_alike v v' : alike v v' -> sane v -> sane v'.
Proof. intros [A B C F] [S1 S2 S3]. constructor; rewrite ?A, ?C, ?F; auto. Qed.
Lemma change_in {A} (l : list A) i f x : In x (change l i f) -> In x l \/ exists y, In y l /\ x = f y.
Proof.
  revert i. induction l as [|y l IH]; intros [|i]; cbn; auto.
  - intros [<-|I]; eauto.
  - intros [<-|I]; auto. apply IH in I as [I|(z & I & E)]; eauto.
Qed.
Lemma sane_entry q name e v : reserved name e -> sane v -> sane (add_entry q name e v).
Proof.
  intros R [S1 S2 S3]. constructor; cbn; auto. intros d k e' I J. apply change_in in I as [I|(d' & I & ->)]; [eapply S2; eauto|].
  apply in_app_or in J as [J|[J|[]]]; [eapply S2; eauto|]. injection J as <- <-. auto.
Qed.
Lemma sane_types G v : (forall rt x, In rt (recs G) -> In x (r_comps rt) -> bounded (c_typ x)) -> sane v -> sane (set_types G v).
Proof. intros H [S1 S2 S3]. constructor; auto. Qed.
Lemma sane_change r f v : (forall rt x, In x (r_comps (f rt)) -> In x (r_comps rt) \/ bounded (c_typ x)) -> sane v -> sane (change_rec r f v).
Proof.
  intros H O. apply sane_types; auto. cbn. intros rt x I J. apply change_in in I as [I|(rt' & I & ->)]; [eapply sn_recs; eauto|].
  apply H in J as [J|J]; auto. eapply sn_recs; eauto.
Qed.
Lemma component_of G r x : In x (all_components G r) -> exists r' rt, rec G r' = Some rt /\ In x (r_comps rt).
Proof.
  unfold all_components. generalize r at 1. intros f. revert r. induction f as [|f IH]; intros r; cbn;
    (destruct (rec G r) as [rt|] eqn:R; [|intros []]); destruct (r_parent rt); eauto; [intros []|].
  intros I. apply in_app_or in I as [I|I]; eauto.
Qed.
Lemma component_usable matches v r x : decl_ok matches v -> sane v -> In x (all_components (v_types v) r) -> usable (v_types v) (c_typ x).
Proof.
  intros [O _] S I. apply component_of in I as (r' & rt & R & I). assert (Ro := ty_recs _ _ O _ _ R).
  split; [eapply ro_valid; eauto|]. split; [eapply ro_simple; eauto|]. eapply sn_recs; eauto. eapply nth_error_In; eauto.
Qed.

Section RULES.
Variable T : list token.
Variable hz : Prop.
Variable c : cunit.
Notation fine := (fine T).
Notation safe := (@safe T hz _).
Notation vok := (vok T).

(** Started in the text with declarations [v], [m] stays in the text, and leaves
    the last [j] sections. *)
Definition dsafe {A} (j : nat) (v : env) (m : D A) (Q : A -> Prop) : Prop :=
  sane v -> forall s, s_env s = v -> s_cu s = c -> fine (at_ (s_ps s)) -> (j <= List.length (s_sec s))%nat ->
  match m s with
  | DOk a s' => fine (at_ (s_ps s')) /\ sane (s_env s') /\ s_cu s' = c /\ s_sec s' = skipn j (s_sec s) /\ Q a
  | DErr _ s' => fine (at_ (s_ps s')) /\ sane (s_env s') /\ s_cu s' = c
  | DCrash => hz
  | DFuel => True
  end.

Lemma ds_bind {A B} j v (m : D A) (k : A -> D B) Q Q' E R : run_ c v m Q E -> dsafe 0 v m Q' ->
  (forall a v', Q a v' -> Q' a -> dsafe j v' (k a) R) -> dsafe j v (dbind m k) R.
Proof.
  intros H S K O s Es Ec F L. unfold dbind. specialize (H s Es Ec). specialize (S O s Es Ec F ltac:(lia)).
  destruct (m s) as [a s'|e s'| |]; auto. destruct H as [H _]. destruct S as (F' & O' & Ec' & L' & Qa).
  specialize (K a _ H Qa O' s' eq_refl Ec' F'). rewrite L' in K. apply K. exact L.
Qed.
Lemma ds_then {A B} j v (m : D A) (k : A -> D B) Q' R : dsafe 0 v m Q' ->
  (forall a v', Q' a -> dsafe j v' (k a) R) -> dsafe j v (dbind m k) R.
Proof.
  intros S K O s Es Ec F L. unfold dbind. specialize (S O s Es Ec F ltac:(lia)).
  destruct (m s) as [a s'|e s'| |]; auto. destruct S as (F' & O' & Ec' & L' & Qa).
  specialize (K a _ Qa O' s' eq_refl Ec' F'). rewrite L' in K. apply K. exact L.
Qed.
Lemma ds_ret {A} v (a : A) (Q : A -> Prop) : Q a -> dsafe 0 v (dret a) Q.
Proof. intros H O s <- Ec F L. cbn. auto. Qed.
Lemma ds_error {A} j v e (Q : A -> Prop) : dsafe j v (derror e) Q.
Proof. intros O s <- Ec F L. cbn. auto. Qed.
Lemma ds_crash {A} j v (Q : A -> Prop) : hz -> dsafe j v dcrash Q.
Proof. intros H O s <- Ec F L. exact H. Qed.
Lemma ds_fuel {A} j v (Q : A -> Prop) : dsafe j v dfuel Q.
Proof. intros O s <- Ec F L. exact I. Qed.
Lemma ds_cond {A} j v b (x y : D A) Q : dsafe j v x Q -> dsafe j v y Q -> dsafe j v (dcond b x y) Q.
Proof. intros H K O s Es Ec F L. unfold dcond. destruct (b (s_ps s)); [apply H|apply K]; auto. Qed.
Lemma ds_weaken {A} j v (m : D A) (Q Q' : A -> Prop) : dsafe j v m Q -> (forall a, Q a -> Q' a) -> dsafe j v m Q'.
Proof. intros H K O s Es Ec F L. specialize (H O s Es Ec F L). destruct (m s); auto. intuition. Qed.
Lemma ds_sane {A} j v (m : D A) Q : (sane v -> dsafe j v m Q) -> dsafe j v m Q.
Proof. intros H O. exact (H O O). Qed.
Lemma ds_get {B} j v (k : env -> D B) R : dsafe j v (k v) R -> dsafe j v (dbind dget k) R.
Proof. intros H O s <- Ec F L. exact (H O s eq_refl Ec F L). Qed.
Lemma ds_set_last v f : (sane v -> sane (f v)) -> dsafe 0 v (dset f) (fun _ => True).
Proof. intros H O s <- Ec F L. cbn. auto. Qed.
Lemma ds_set {B} j v f (k : unit -> D B) R : (sane v -> sane (f v)) -> dsafe j (f v) (k tt) R -> dsafe j v (dbind (dset f) k) R.
Proof. intros H K O s <- Ec F L. exact (K (H O) (St (f (s_env s)) (s_cu s) (s_sec s) (s_ps s)) eq_refl Ec F L). Qed.
Lemma ds_fresh {B} j v (k : nat -> D B) R : (forall v', alike v v' -> dsafe j v' (k (v_next v)) R) -> dsafe j v (dbind fresh k) R.
Proof.
  intros K O s <- Ec F L. assert (A := alike_next (s_env s) (Datatypes.S (v_next (s_env s)))).
  exact (K _ A (sane_alike _ _ A O) (St _ (s_cu s) (s_sec s) (s_ps s)) eq_refl Ec F L).
Qed.
Lemma ds_current {B} j v p (k : nat -> D B) R : cu_pkg c = Some p -> dsafe j v (k p) R -> dsafe j v (dbind current k) R.
Proof. intros Ep H O s <- Ec F L. unfold dbind, current. rewrite Ec, Ep. exact (H O s eq_refl Ec F L). Qed.
Lemma ds_sections {B} j v (k : list sect -> D B) R : (forall l, dsafe j v (k l) R) -> dsafe j v (dbind sections k) R.
Proof. intros H O s <- Ec F L. exact (H _ O s eq_refl Ec F L). Qed.
Lemma ds_enter {B} j v x (k : unit -> D B) R : dsafe (Datatypes.S j) v (k tt) R -> dsafe j v (dbind (enter x) k) R.
Proof. intros H O s <- Ec F L. exact (H O (St (s_env s) (s_cu s) (x :: s_sec s) (s_ps s)) eq_refl Ec F ltac:(cbn; lia)). Qed.
Lemma ds_leave v : dsafe 1 v leave (fun _ => True).
Proof. intros O s <- Ec F L. unfold leave. destruct (s_sec s); cbn in *; [lia|auto]. Qed.

Lemma ds_names {A B} j v (m : env -> names -> P A) (k : A -> D B) R :
  (sane v -> forall s, fine (at_ s) -> safe (m v (names_of v c)) s) ->
  (forall a s s', fine (at_ s) -> m v (names_of v c) s = POk a s' -> dsafe j v (k a) R) -> dsafe j v (dbind (with_names m) k) R.
Proof.
  intros H K O s Es Ec F L. unfold dbind, with_names. rewrite Es, Ec. specialize (H O (s_ps s) F). unfold ParserCrash.safe in H.
  destruct (m v (names_of v c) (s_ps s)) as [a q|e q| |] eqn:Em; cbn; auto.
  exact (K a _ _ F Em O (St v c (s_sec s) q) eq_refl eq_refl H L).
Qed.
Lemma ds_names_last {A} v (m : env -> names -> P A) : (sane v -> forall s, fine (at_ s) -> safe (m v (names_of v c)) s) ->
  dsafe 0 v (with_names m) (fun _ => True).
Proof.
  intros H O s Es Ec F L. unfold with_names. rewrite Es, Ec. specialize (H O (s_ps s) F). unfold ParserCrash.safe in H.
  destruct (m v (names_of v c) (s_ps s)) as [a q|e q| |] eqn:Em; cbn; auto.
Qed.
Lemma ds_dp {A B} j v (m : P A) (k : A -> D B) R : (forall s, fine (at_ s) -> safe m s) ->
  (forall a s s', fine (at_ s) -> m s = POk a s' -> dsafe j v (k a) R) -> dsafe j v (dbind (dp m) k) R.
Proof. intros H K. unfold dp. apply ds_names; auto. Qed.
Lemma ds_lift {A B} j v (r : res perr A) (k : A -> D B) R : r <> Crash -> (forall a, r = Ok a -> dsafe j v (k a) R) ->
  dsafe j v (dbind (dlift r) k) R.
Proof.
  intros H K. unfold dlift. apply ds_dp; [intros s F; apply safe_lift; auto; contradiction|].
  intros a s s' _ E. apply K. eapply lift_pok; eauto.
Qed.
Lemma match_safe file w s : fine (at_ s) -> safe (p_match file w) s.
Proof.
  intros F. assert (X : safe (pbind (p_match file w) pret) s) by (apply safe_match; auto).
  unfold ParserCrash.safe, pbind in *. destruct (p_match file w s); auto.
Qed.
Lemma match_kw_safe file w s : fine (at_ s) -> safe (p_match_kw file w) s.
Proof.
  intros F. assert (X : safe (pbind (p_match_kw file w) pret) s) by (apply safe_kw; auto).
  unfold ParserCrash.safe, pbind in *. destruct (p_match_kw file w s); auto.
Qed.
Lemma ds_match {B} file w j v (k : token -> D B) R : (forall tk, tk_kind tk = w -> In tk T -> dsafe j v (k tk) R) ->
  dsafe j v (dbind (dp (p_match file w)) k) R.
Proof.
  intros K. apply ds_dp; [intros; apply match_safe; auto|]. intros tk s s' F E. apply match_ok in E as (Kd & Rd & _).
  apply K; auto. exact (fine_in T _ _ _ F Rd).
Qed.
Lemma ds_kw {B} file w j v (k : token -> D B) R : (forall tk, dsafe j v (k tk) R) -> dsafe j v (dbind (dp (p_match_kw file w)) k) R.
Proof. intros K. apply ds_dp; [intros; apply match_kw_safe; auto|]. auto. Qed.
(** After a token that is no closing brace *)
Lemma ds_after {A B} file w j v (m : env -> names -> P A) (k : A -> D B) R : w <> C_KET ->
  (sane v -> forall s, vok s -> safe (m v (names_of v c)) s) ->
  (forall a s s', vok s -> m v (names_of v c) s = POk a s' -> dsafe j v (k a) R) ->
  dsafe j v (let# _ := dp (p_match file w) in let# x := with_names m in k x) R.
Proof.
  intros Nw H K O s Es Ec F L. unfold dbind, dp, with_names. rewrite Es, Ec. cbn.
  assert (M := match_safe file w (s_ps s) F). unfold ParserCrash.safe in M.
  destruct (p_match file w (s_ps s)) as [tk q|e q| |] eqn:Em; cbn; auto.
  assert (V : vok q).
  { split; auto. apply match_ok in Em as (Kd & Rd & _). eapply reads_inner; eauto. congruence. }
  specialize (H O q V). unfold ParserCrash.safe in H. destruct (m v (names_of v c) q) as [a q'|e q'| |] eqn:Ea; cbn; auto.
  exact (K a _ _ V Ea O (St v c (s_sec s) q') eq_refl eq_refl H L).
Qed.
Lemma safe_weaken {A} (hz' : Prop) (m : P A) s : ParserCrash.safe (T := T) (hz := hz') m s -> (hz' -> hz) -> safe m s.
Proof. unfold ParserCrash.safe. destruct (m s); auto. Qed.
End RULES.

Ltac ds :=
  repeat first
    [ match goal with
      | |- dsafe _ _ _ _ _ (dbind (dp (p_match _ _)) _) _ => apply ds_match; intros ? ? ?
      | |- dsafe _ _ _ _ _ (dbind (dp (p_match_kw _ _)) _) _ => apply ds_kw; intros ?
      | |- dsafe _ _ _ _ _ (dbind dget _) _ => apply ds_get
      | |- dsafe _ _ _ _ _ (dcond _ _ _) _ => apply ds_cond
      | |- dsafe _ _ _ _ _ (dret _) _ => apply ds_ret; auto; fail
      | |- dsafe _ _ _ _ _ dfuel _ => apply ds_fuel
      | |- dsafe _ _ _ _ _ (derror _) _ => apply ds_error
      | |- dsafe _ _ _ _ _ (let '(_, _) := ?x in _) _ => destruct x
      end ].

Section RSL.
Variable file : Z.
Variable src : text.
Variable lint : bool.
Variable compiles : text -> bool.
Variable matches : text -> text -> option bool.
Hypothesis regex : forall p x, compiles p = true -> matches p x <> None.
Variable n : nat.
Variable c : cunit.
Variable p : nat.
Hypothesis pkg : cu_pkg c = Some p.
Hypothesis imports : cu_imports c <> None.
Variable T : list token.
Variable hz : Prop.
Hypothesis cut : cut_off T -> hz.
Hypothesis haz : hazardous T -> hz.
Hypothesis tok : forall tk, In tk T -> LexerThm.token_ok src tk.
Notation fine := (fine T).
Notation safe := (@safe T hz _).
Notation vok := (vok T).
Notation dsafe := (dsafe T hz c).
Notation any := (fun _ => True).
Notation no_objects := (no_objects matches).

Lemma im v : n_imports (names_of v c) <> None.
Proof. exact imports. Qed.
Lemma qualified_name_safe v f s : fine (at_ s) -> safe (parse_qualified_name file (names_of v c) (default_scope (names_of v c)) f) s.
Proof.
  intros F. unfold parse_qualified_name. apply safe_match; auto. intros tk s' _ _ _ F'. eapply safe_weaken; [|exact haz].
  apply qualified_safe; auto using im. discriminate.
Qed.
Lemma described_safe s : fine (at_ s) -> safe (parse_described_name file) s.
Proof. intros F. unfold parse_described_name. sf. Qed.
Lemma ds_described {B} j v (k : token -> D B) R : (forall tk, dsafe j v (k tk) R) -> dsafe j v (dbind (dp (parse_described_name file)) k) R.
Proof. intros K. apply ds_dp; [apply described_safe|auto]. Qed.
Lemma registrable_nc {A} (f : A -> entity) d name l : registrable f d name l <> Crash.
Proof. unfold registrable. destruct (t_find d name) as [[]|]; discriminate. Qed.
Lemma ds_register {B} j v q name l e (k : unit -> D B) R : reserved name e -> dsafe j (add_entry q name e v) (k tt) R ->
  dsafe j v (dbind (register q name l e) k) R.
Proof.
  intros Re K. eapply ds_bind with (Q := fun _ v' => v' = add_entry q name e v) (Q' := any) (E := fun _ => True).
  - apply run_register. auto.
  - unfold register. apply ds_names.
    + intros _ s F. apply safe_lift; auto. intros X. destruct (registrable_nc _ _ _ _ X).
    + intros _ _ _ _ _. apply ds_set_last. apply sane_entry. auto.
  - intros [] ? -> _. auto.
Qed.

(** *** Enumerations *)
Lemma literals_safe m e empty v : dsafe 0 v (enum_literals_loop file m e empty) any.
Proof.
  revert empty v. induction m as [|m IH]; intros empty v; cbn; ds. apply ds_described. intros tk. ds.
  apply ds_lift; [apply registrable_nc|]. intros _ _. apply ds_set; auto. intros O. apply sane_types; auto. apply O.
Qed.
Lemma enum_safe v : no_objects v -> dsafe 0 v (parse_enum_declaration file n) any.
Proof.
  intros O. unfold parse_enum_declaration. ds. apply ds_described. intros name. apply (ds_current _ _ _ _ _ p); auto. ds.
  apply ds_register; [exact I|]. apply ds_set; [intros S; apply sane_types; auto; apply S|]. ds.
  eapply ds_then; [apply literals_safe|]. intros e v' _. ds. destruct e; ds.
Qed.

(** *** Types of components *)
Lemma member_safe v : dsafe 0 v (member file) any.
Proof.
  unfold member. apply ds_names; [intros; apply qualified_name_safe; auto|]. intros [e tk] s s' F H.
  unfold parse_qualified_name in H. apply pbind_ok in H as (tk0 & s1 & _ & H). apply qualified_in in H as [H _].
  destruct e as [[]| | | | |]; try discriminate. ds.
Qed.
Lemma members_safe m v : dsafe 0 v (union_members file m) any.
Proof.
  revert v. induction m as [|m IH]; intros v; cbn; ds. eapply ds_then; [apply member_safe|]. intros x v1 _.
  eapply ds_then; [apply IH|]. intros l v2 _. ds.
Qed.
Lemma duplicates_safe G seen l s : fine (at_ s) -> safe (duplicates file G seen l) s.
Proof.
  revert seen s. induction l as [|[r tk] l IH]; intros seen s F; cbn [duplicates]; [sf|]. destruct (existsb _ _); [|apply IH; auto].
  apply safe_bind; [apply safe_note; auto|]. intros _ s' _ F'. apply IH; auto.
Qed.
Lemma union_safe v : dsafe 0 v (parse_union_type file n) any.
Proof.
  unfold parse_union_type. ds. eapply ds_then; [apply member_safe|]. intros x v1 _.
  eapply ds_then; [apply members_safe|]. intros l v2 _. ds. apply ds_dp; [intros; apply duplicates_safe; auto|]. intros _ _ _ _ _.
  apply ds_fresh. intros v3 _. ds.
Qed.
Lemma component_type_safe v : dsafe 0 v (parse_component_type file n) any.
Proof.
  unfold parse_component_type. ds; [apply union_safe|]. apply ds_names; [intros; apply qualified_name_safe; auto|]. intros [e tk] s s' F H.
  unfold parse_qualified_name in H. apply pbind_ok in H as (tk0 & s1 & _ & H). apply qualified_in in H as [H _].
  destruct e; try discriminate. ds.
Qed.

(** *** Tuples *)
Lemma tuple_field_safe v u al reason req : dsafe 0 v (parse_tuple_field file n u al reason req) any.
Proof.
  unfold parse_tuple_field. apply ds_described. intros name. eapply ds_then with (Q' := any).
  - ds. destruct al; ds.
  - intros opt v1 _. eapply ds_then; [apply component_type_safe|]. intros a v2 _. ds.
Qed.
Lemma register_field_safe v cs x : dsafe 0 v (register_field cs x) (fun y => y = cs ++ [x]).
Proof. unfold register_field. apply ds_lift; [apply registrable_nc|]. intros _ _. ds. Qed.
Lemma parse_separator_safe s : fine (at_ s) -> safe parse_separator s.
Proof.
  intros F. unfold parse_separator. unfold ParserCrash.safe. destruct (nt (at_ s)) as [tk|] eqn:Nt; [|exact F].
  destruct (sep_of tk); [|exact F].
  enough (X : safe (let* _ := p_advance in pret [s0]) s) by exact X.
  apply safe_bind; [apply safe_advance; eauto|]. intros. sf.
Qed.
Lemma separator_safe a0 v G hs req al cs seps : fields_ok a0 G hs req al (map fst cs) seps -> dsafe 0 v (separator_step file hs al cs seps) any.
Proof.
  intros Fo. unfold separator_step. ds. destruct al; ds. apply ds_dp; [apply parse_separator_safe|]. intros sep s s' F _.
  eapply ds_then with (Q' := any); [|intros; ds]. unfold add_separator. destruct sep; ds.
  assert (L : S (List.length seps) = List.length cs).
  { rewrite <- (map_length fst cs). destruct (fo_seps _ _ _ _ _ _ _ Fo) as [(_ & _ & _ & L)|(_ & -> & L)]; auto. rewrite L; auto. }
  rewrite L, Nat.eqb_refl. ds.
Qed.
Lemma tuple_fields_safe m v u hs req al cs seps : no_objects v -> fields_ok (TTup u) (v_types v) hs req al (map fst cs) seps ->
  dsafe 0 v (tuple_fields file n m u hs req al cs seps) any.
Proof.
  revert v hs req al cs seps. induction m as [|m IH]; intros v hs req al cs seps O F; cbn [tuple_fields]; ds.
  intros Sn s Es Ec Fs Ls. pose proof (run_separator file src compiles matches regex c p pkg (TTup u) v _ hs req al cs seps s Es Ec F) as Sp.
  pose proof (separator_safe _ v _ _ _ _ _ _ F Sn s Es Ec Fs Ls) as Ss. unfold separator_step in Sp, Ss.
  unfold dbind at 1.
  destruct (dcond _ _ _ s) as [[[hs' al'] seps'] s1|e s1| |]; auto.
  destruct Sp as (E1 & C1 & Sp). destruct Ss as (F1 & S1 & _ & L1 & _). cbn [skipn] in L1.
  assert (K : (hs' = true /\ al' = true /\ List.length seps' = List.length cs) \/ (hs' = false /\ hs = false /\ al' = false /\ seps' = []) ->
    dsafe 0 v (let# c0 := parse_tuple_field file n u hs' M_optional_separators req in
              let# cs' := register_field cs c0 in tuple_fields file n m u hs' (req || c_opt (fst c0)) al' cs' seps') any).
  { clear s s1 Es Ec Fs Ls E1 C1 Sp F1 S1 L1 Sn. intros Sp.
    eapply ds_bind; [apply run_tuple_field with (E := no_objects); [apply O|intros; eapply alike_no_objects; eauto]|apply tuple_field_safe|].
    intros x v1 (A1 & V1 & N1 & Oo & Ho & Hr) _.
    eapply ds_bind with (Q := fun y v' => y = cs ++ [x] /\ v' = v1 /\ ~ In (simplified_name (c_name (fst x))) (map (fun c => simplified_name (c_name c)) (map fst cs))) (E := no_objects); [|apply register_field_safe|].
    { unfold register_field. eapply run_bind; [apply run_dlift with (Q := fun _ v' => v' = v1 /\ ~ In (simplified_name (c_name (fst x))) (map (fun c => simplified_name (c_name c)) (map fst cs)))|].
      - intros ? E. split; auto. apply registrable_fresh in E. unfold comp_table in E. rewrite map_map in *. exact E.
      - eapply alike_no_objects; eauto.
      - intros ? ? [-> Fr]. apply run_ret. auto. }
    intros ? ? (-> & -> & Fr) _.
    apply IH; [eapply alike_no_objects; eauto|].
    rewrite (al_types _ _ A1), map_app. eapply fields_snoc; eauto. rewrite map_length. auto. }
  destruct Sp as [Sp|[Sp|Sp]].
  - specialize (K (or_introl Sp) ltac:(rewrite <- E1; auto) s1 E1 C1 F1 ltac:(lia)). rewrite L1 in K. exact K.
  - specialize (K (or_intror Sp) ltac:(rewrite <- E1; auto) s1 E1 C1 F1 ltac:(lia)). rewrite L1 in K. exact K.
  - unfold dbind at 1. destruct (no_field file n u hs' M_optional_separators req s1 Sp) as (e & ->). auto.
Qed.
Lemma nesting_nc G cs : nesting G cs <> Crash.
Proof. unfold nesting. destruct (find _ _); discriminate. Qed.
Lemma tuple_safe v : no_objects v -> dsafe 0 v (parse_tuple_declaration file n) any.
Proof.
  intros O. unfold parse_tuple_declaration. ds. apply ds_described. intros name. ds.
  set (u := List.length (tups (v_types v))).
  eapply ds_bind; [apply run_tuple_field with (E := no_objects); [apply O|intros; eapply alike_no_objects; eauto]|apply tuple_field_safe|].
  intros x v1 (A1 & V1 & N1 & Oo & Ho & Hr) _. assert (O1 := alike_no_objects _ _ _ A1 O).
  assert (Nopt : c_opt (fst x) = false) by (destruct (c_opt (fst x)); auto; specialize (Ho eq_refl); discriminate).
  eapply ds_bind with (Q := fun y v' => y = [x] /\ v' = v1) (E := fun _ => True); [|apply register_field_safe|].
  { unfold register_field. eapply run_bind; [apply run_dlift with (Q := fun _ v' => v' = v1); auto|]. intros ? ? ->. apply run_ret. auto. }
  intros ? ? [-> ->] _. eapply ds_then; [apply tuple_fields_safe; auto|].
  { constructor; cbn; auto.
    - discriminate.
    - repeat constructor. intros [].
    - intros y [<-|[]]. auto.
    - intros y [<-|[]]. rewrite (al_types _ _ A1). auto.
    - intros y ys E. injection E as <- _. auto.
    - intros l a m b r E. exfalso. apply (f_equal (@List.length _)) in E. rewrite app_length in E. cbn in E. rewrite app_length in E. cbn in E. lia.
    - rewrite Nopt. auto.
    - intros _ y [<-|[]]. auto. }
  intros [[hs cs] seps] v2 _. ds. eapply ds_then with (Q' := any).
  { destruct hs; ds. unfold dlift, dp. apply ds_names_last. intros _ s F. apply safe_lift; auto. intros X. destruct (nesting_nc _ _ X). }
  intros _ v3 _. apply (ds_current _ _ _ _ _ p); auto. apply ds_register; [exact I|]. apply ds_set_last.
  intros S. apply sane_types; auto. apply S.
Qed.

(** *** Records *)
Lemma int_of_safe tk s : tk_kind tk = INTEGER -> In tk T -> fine (at_ s) -> safe (int_of tk) s.
Proof. intros K I F. unfold int_of. destruct (token_int src T tok tk I K) as [z ->]. sf. Qed.
Lemma int_nonneg tk s z s' : tk_kind tk = INTEGER -> In tk T -> int_of tk s = POk z s' -> 0 <= z.
Proof.
  intros K I H. unfold int_of in H. destruct (tk_value tk) eqn:V; try discriminate. injection H as <- _. eapply token_nonneg; eauto.
Qed.
Lemma upper_safe s : vok s -> safe (upper_bound file) s.
Proof.
  intros [F I]. unfold upper_bound. apply safe_cond; intros _.
  - apply safe_match; auto. intros tk s' K _ Ti F'. apply safe_bind; [apply int_of_safe; auto|]. intros. sf.
  - apply safe_cond; intros _; [sf|]. unfold ParserCrash.safe. destruct (nt (at_ s)) eqn:Nt; auto. eapply fine_cut; eauto.
Qed.
Lemma upper_nonneg s h s' : fine (at_ s) -> upper_bound file s = POk (Some h) s' -> 0 <= h.
Proof.
  intros F. unfold upper_bound. unfold pcond. destruct (peek INTEGER s).
  - intros H. apply pbind_ok in H as (tk & s1 & M & H). apply pbind_ok in H as (z & s2 & Z & H). injection H as <- _.
    apply match_ok in M as (K & R & _). eapply int_nonneg; eauto. exact (fine_in T _ _ _ F R).
  - destruct (peek_op (t "*") s); [|destruct (nt (at_ s)); discriminate]. intros H. apply pbind_ok in H as (tk & s1 & M & H). discriminate.
Qed.
Lemma array_safe v a : is_array a = false -> dsafe 0 v (parse_array_part file a) bounded.
Proof.
  intros Na. unfold parse_array_part. apply ds_cond; [|apply ds_ret; destruct a; cbn; auto; discriminate].
  ds. apply ds_dp; [intros; apply int_of_safe; auto|]. intros lo _ _ _ _.
  apply (ds_after T hz c file RANGE 0 v (fun _ _ => upper_bound file)); [discriminate|intros _; apply upper_safe|].
  intros hi s s' Vs E. ds. apply ds_fresh. intros v' _. apply ds_ret. cbn. destruct hi; auto. eapply upper_nonneg; eauto. apply Vs.
Qed.
Lemma record_component_safe v r : names_ok v -> dsafe 0 v (parse_record_component file n r) (fun x => bounded (c_typ (fst x))).
Proof.
  intros O. unfold parse_record_component. apply ds_described. intros tk.
  eapply ds_bind with (Q := fun _ v' => v' = v) (E := fun _ => True) (Q' := any).
  { apply run_cond; [|apply run_ret; auto]. eapply run_bind; [apply run_dp_any with (Q := fun _ v' => v' = v); auto|]. intros ? ? ->. apply run_ret; auto. }
  { ds. }
  intros opt ? -> _. eapply ds_bind; [apply run_component_type with (E := fun _ => True); auto|apply component_type_safe|].
  intros a v1 (A1 & V1 & N1) _. eapply ds_then; [apply array_safe; auto|]. intros b v2 B. ds.
Qed.
Lemma ds_value {B} j v a (k : vexpr -> D B) R : decl_ok matches v -> (sane v -> usable (v_types v) a) ->
  (forall x, vt0 (v_types v) (v_objs v) a x -> dsafe j v (k x) R) ->
  dsafe j v (let# _ := dp (p_match file ASSIGN) in let# x := value_of file src n a in k x) R.
Proof.
  intros O U K. unfold value_of. apply ds_after; [discriminate| |].
  - intros S s V. apply vsafe_safe. unfold parse_value. apply value_vsafe; auto using im.
    + intros q key o I. destruct (symbols_valid v (names_of v c) q key (N_obj o)) as [_ H _ _]; auto; try reflexivity. apply O.
    + eapply ok_tuples. apply O.
    + eapply ok_components. apply O.
  - intros x s s' _ H. apply K. destruct O as [Ot _].
    destruct (ValueParserSound.value_sound file src (v_types v) (v_objs v) (names_of v c) (ok_order _ _ Ot) (ok_tuples _ _ Ot) _ _ _ _ _ _ H) as (ts & ns & V & _).
    exact (proj1 (value_typed _ _ _ _ _ _) _ _ _ _ V).
Qed.
Lemma lookup_component v r tk x : wf_types (v_types v) -> t_lookup file N_comp (components_of (v_types v) (TRec r)) tk None = Ok x ->
  In x (all_components (v_types v) r).
Proof.
  intros Or E. apply t_lookup_in in E. unfold components_of in E. apply in_map_iff in E as (y & Ey & I). injection Ey as _ <-.
  apply chain_components in I; auto.
Qed.
Lemma freeze_safe v r : decl_ok matches v -> dsafe 0 v (parse_freeze file src n r) any.
Proof.
  intros O. unfold parse_freeze. ds. apply ds_lift; [apply ncr_lookup|]. intros x E.
  apply lookup_component in E; [|apply (ok_order matches); apply O]. destruct (is_frozen _ _ _); [ds|].
  apply ds_value; auto; [intros S; eapply component_usable; eauto|]. intros y _. apply ds_fresh. intros v' _.
  apply ds_set_last. apply sane_change. auto.
Qed.
Lemma declare_safe v0 name v rt : no_objects v0 -> body matches p v0 name v rt ->
  dsafe 0 v (declare_component file n (List.length (recs (v_types v0)))) any.
Proof.
  intros O Bd. assert (Ov : no_objects v) by (eapply body_ok; eauto). unfold declare_component.
  eapply ds_bind; [apply run_record_component with (E := fun _ => True); auto; apply Ov|apply record_component_safe; apply Ov|].
  intros [x l] v1 (A1 & _) B. cbn [fst] in B. ds. rewrite (al_types _ _ A1), (bd_types _ _ _ _ _ _ Bd). unfold rec at 1. cbn [recs]. rewrite nth_last.
  destruct (r_final rt); ds. apply ds_lift; [apply registrable_nc|]. intros _ _. apply ds_set_last. apply sane_change.
  intros rt' y I. cbn in I. apply in_app_or in I as [I|[<-|[]]]; auto.
Qed.
Lemma body_safe m v0 name v rt : no_objects v0 -> body matches p v0 name v rt ->
  dsafe 0 v (record_body file src n m (List.length (recs (v_types v0)))) any.
Proof.
  intros O. revert v rt. induction m as [|m IH]; intros v rt Bd; cbn; ds.
  assert (Ov : no_objects v) by (eapply body_ok; eauto).
  eapply ds_bind; [apply run_cond; [eapply run_freeze|eapply run_declare]; eauto|apply ds_cond; [apply freeze_safe; apply Ov|eapply declare_safe; eauto]|].
  intros ? v' (rt' & Bd') _. eauto.
Qed.
Lemma extends_safe v : dsafe 0 v (parse_extends file) any.
Proof. unfold parse_extends. ds. eapply ds_then; [apply member_safe|]. intros [r tk'] v' _. ds. Qed.
Lemma record_safe v : no_objects v -> dsafe 0 v (parse_record_declaration file src lint n) any.
Proof.
  intros O. unfold parse_record_declaration.
  eapply ds_bind with (Q := fun _ v' => v' = v) (E := fun _ => True) (Q' := any).
  { apply run_cond; [|apply run_cond; [|apply run_ret; auto]];
      (eapply run_bind; [apply run_dp_any with (Q := fun _ v' => v' = v); auto|]; intros _ ? ->; apply run_ret; auto). }
  { ds. }
  intros [ab fi] ? -> _. ds. apply ds_described. intros name.
  eapply ds_bind; [apply run_extends with (E := fun _ => True); auto; apply O|apply extends_safe|]. intros q ? [-> Hq] _. ds.
  eapply ds_bind with (Q := fun _ v' => v' = v) (E := fun _ => True) (Q' := any).
  { destruct (_ && _); [apply run_dp_any; auto|apply run_ret; auto]. }
  { destruct (_ && _); ds. unfold dp. apply ds_names_last. intros _ s F. apply safe_note; auto. }
  intros _ ? -> _. apply (ds_current _ _ _ _ _ p); auto. apply ds_register; [exact I|].
  apply ds_set; [intros S; apply sane_types; auto; cbn; intros rt x I J; apply in_app_or in I as [I|[<-|[]]]; [eapply sn_recs; eauto|destruct J]|].
  ds. eapply ds_then; [eapply body_safe; [exact O|eapply body_start; eauto]|]. intros _ v1 _. ds. destruct fi; ds.
  apply ds_set_last. apply sane_change. auto.
Qed.
Lemma type_safe v : no_objects v -> dsafe 0 v (parse_type_declaration file src lint n) any.
Proof. intros O. unfold parse_type_declaration. ds; [apply enum_safe|apply tuple_safe|apply record_safe]; auto. Qed.

(** *** Checks *)
Lemma severity_safe s : fine (at_ s) -> safe (parse_severity file) s.
Proof. intros F. unfold parse_severity. sf. repeat match goal with |- context [if ?b then _ else _] => destruct b end; sf. Qed.
Lemma message_safe s : fine (at_ s) -> safe (parse_message file) s.
Proof. intros F. unfold parse_message. sf. apply safe_bind; [destruct (existsb _ _); [apply safe_note; auto|sf]|]. intros; sf. Qed.
Lemma tail_safe s : fine (at_ s) -> safe (check_tail file) s.
Proof.
  intros F. unfold check_tail. apply safe_cond; intros _; [|sf]. apply safe_match; auto. intros tk s' K R _ F'.
  apply safe_cond; intros _; [sf|]. apply safe_cond; intros _; [unfold details; sf|].
  unfold ParserCrash.safe. destruct (nt (at_ s')) eqn:Nt; auto. eapply fine_cut; eauto. eapply reads_inner; eauto. rewrite K. discriminate.
Qed.
Lemma anchor_safe G a b s : fine (at_ s) -> safe (parse_anchor file G a b) s.
Proof. intros F. unfold parse_anchor. destruct b; sf. apply safe_lift_bind; auto. intros X; destruct (ncr_lookup _ _ _ _ _ X). Qed.
Lemma check_safe v a s : no_objects v -> sane v -> fine (at_ s) -> safe (parse_check file lint compiles matches n v (names_of v c) a) s.
Proof.
  intros O S F. unfold parse_check. assert (Dc := declared_here compiles matches regex c v O). apply safe_bind.
  - eapply safe_weaken; [|exact haz]. eapply expression_safe; eauto using im.
    + intros d k e [<-|I]; [apply S|apply S; auto].
    + intros tk I. eapply token_valued; eauto.
    + apply agree_check with (W := World (v_objs v) matches) (compiles := compiles). auto.
    + discriminate.
  - intros e s1 _ F1. destruct (e_typ e) as [[]|]; sf.
    apply safe_bind; [apply severity_safe; auto|]. intros sev s3 _ F3. apply safe_bind; [apply message_safe; auto|]. intros msg s4 _ F4.
    apply safe_bind; [apply tail_safe; auto|]. intros [ex has] s5 _ F5. apply safe_bind; [apply anchor_safe; auto|]. intros; sf.
Qed.
Lemma sane_check a x v : sane v -> sane (add_check a x v).
Proof. intros S. destruct a; auto; [apply sane_types; auto; apply S|apply sane_change; auto]. Qed.
Lemma check_loop_safe m v a : no_objects v -> valid (v_types v) a -> dsafe 0 v (check_loop file lint compiles matches n m a) any.
Proof.
  revert v. induction m as [|m IH]; intros v O V; cbn [check_loop]; ds.
  apply ds_names; [intros; apply check_safe; auto|]. intros x s s' _ H. eapply check_parsed in H; eauto.
  apply ds_set; [apply sane_check|]. apply IH; [eapply add_check_ok; eauto|eapply add_check_valid; eauto].
Qed.
Lemma checks_safe v : no_objects v -> dsafe 0 v (parse_check_block file lint compiles matches n) any.
Proof.
  intros O. unfold parse_check_block. ds. apply (ds_current _ _ _ _ _ p); auto.
  apply ds_names; [intros; apply safe_lift; auto; intros X; destruct (ncr_lookup _ _ _ _ _ X)|]. intros e s s' _ Hl.
  apply lift_pok in Hl. assert (K := lookup_kind _ _ _ _ _ Hl). apply t_lookup_in in Hl.
  assert (V : entry_valid (v_types v) (v_objs v) (v_pkgs v) e) by (eapply (symbols_valid v (names_of v c)); [reflexivity|reflexivity|apply O|exact Hl]).
  destruct e; try discriminate. ds. eapply ds_then; [apply check_loop_safe; auto; apply (ev_type _ _ _ _ V _ eq_refl)|]. intros _ v' _. ds.
Qed.
End RSL.

(** ** Objects *)
Lemma sane_same v v' : v_types v' = v_types v -> v_stab v' = v_stab v -> v_pkgs v' = v_pkgs v -> sane v -> sane v'.
Proof. intros A B C [S1 S2 S3]. constructor; rewrite ?A, ?B, ?C; auto. Qed.
Section TRLC.
Variable file : Z.
Variable src : text.
Variable matches : text -> text -> option bool.
Variable n : nat.
Variable G : types.
Hypothesis types : types_ok matches G.
Variable c : cunit.
Variable p : nat.
Hypothesis pkg : cu_pkg c = Some p.
Hypothesis imports : cu_imports c <> None.
Variable T : list token.
Variable hz : Prop.
Hypothesis cut : cut_off T -> hz.
Hypothesis haz : hazardous T -> hz.
Hypothesis tok : forall tk, In tk T -> LexerThm.token_ok src tk.
Notation fine := (fine T).
Notation safe := (@safe T hz _).
Notation dsafe := (dsafe T hz c).
Notation any := (fun _ => True).
Notation objects_ok := (objects_ok G p).
Notation object_body := (object_body G p).

Lemma field_safe v o k ob f : nth_error (v_objs v) o = Some ob -> assoc k (o_fields ob) = Some f ->
  dsafe 0 v (field_of o k) (fun g => g = f).
Proof. intros E A. unfold field_of. ds. rewrite E, A. ds. Qed.
Lemma assign_safe v o k ob f g : nth_error (v_objs v) o = Some ob -> assoc k (o_fields ob) = Some f -> is_null (snd f) = true ->
  dsafe 0 v (assign o k g) any.
Proof.
  intros E A N. unfold assign. eapply ds_bind; [apply run_field with (E := fun _ => True)|eapply field_safe; eauto|].
  intros g' ? [-> _] ->. rewrite N. apply ds_set_last. apply sane_same; auto.
Qed.
Lemma body_field v0 r v ob x : object_body v0 r v ob -> In x (all_components G r) -> exists f, assoc (c_name x) (o_fields ob) = Some f.
Proof.
  intros B I. destruct (ob_all _ _ _ (eb_ok _ _ _ _ _ _ B) _ _ (eb_last _ _ _ _ _ _ B)) as [O _]. apply assoc_key.
  rewrite (oo_keys _ _ _ O), (eb_type _ _ _ _ _ _ B). apply in_map. auto.
Qed.
Lemma assignment_safe v0 r v ob : object_body v0 r v ob -> dsafe 0 v (assignment file src n r (List.length (v_objs v0))) any.
Proof.
  intros B. assert (O := eb_ok _ _ _ _ _ _ B). unfold assignment. ds. apply ds_lift; [apply ncr_lookup|]. intros x E.
  rewrite (ob_types _ _ _ O) in E. assert (I := E). apply t_lookup_in in I. unfold components_of in I. apply in_map_iff in I as (y & Ey & I). injection Ey as _ <-.
  apply chain_components in I; auto; [|eapply ok_order; eauto].
  destruct (body_field _ _ _ _ _ B I) as (f & A).
  eapply ds_bind; [apply run_field with (E := fun _ => True)|eapply field_safe; [apply (eb_last _ _ _ _ _ _ B)|exact A]|].
  intros g ? [-> _] ->. destruct (is_null (snd f)) eqn:Nu; cbn [negb]; [|ds]. destruct (is_frozen _ _ _); [ds|].
  eapply ds_value; eauto; [eapply objects_decl; eauto|intros S; eapply component_usable; eauto; [eapply objects_decl; eauto|]|].
  { rewrite (ob_types _ _ _ O). exact I. }
  intros w _. apply ds_fresh. intros v' Al. eapply assign_safe; eauto. rewrite (al_objs _ _ Al). apply (eb_last _ _ _ _ _ _ B).
Qed.
Lemma assignments_safe m v0 r v ob : object_body v0 r v ob -> frozen_null G r ob ->
  dsafe 0 v (assignments file src n m r (List.length (v_objs v0))) any.
Proof.
  revert v ob. induction m as [|m IH]; intros v ob B Fn; cbn [assignments]; ds.
  eapply ds_bind; [eapply run_assignment; eauto|eapply assignment_safe; eauto|]. intros ? v1 (ob1 & B1 & F1) _. eauto.
Qed.
Lemma complete_safe v0 r l cs : forall v ob, object_body v0 r v ob -> (forall x, In x cs -> In x (all_components G r)) ->
  dsafe 0 v (complete l r (List.length (v_objs v0)) cs) any.
Proof.
  induction cs as [|x cs IH]; intros v ob B Hs; cbn [complete]; ds.
  assert (O := eb_ok _ _ _ _ _ _ B). assert (Ix := Hs x (or_introl eq_refl)). destruct (body_field _ _ _ _ _ B Ix) as (f & A).
  eapply ds_bind; [apply run_field with (E := fun _ => True)|eapply field_safe; [apply (eb_last _ _ _ _ _ _ B)|exact A]|].
  intros g ? [-> _] ->.
  eapply ds_bind with (Q := fun _ v' => exists ob', object_body v0 r v' ob') (Q' := any) (E := fun _ => True).
  - destruct (is_null (snd f)); [|apply run_ret; eauto].
    eapply run_bind; [apply run_get with (Q := fun x v' => x = v /\ v' = v); auto|]. intros ? ? [-> ->]. rewrite (ob_types _ _ _ O).
    destruct (get_freezing G r (c_name x)) as [g|] eqn:Fz; [|destruct (c_opt x); [apply run_ret; eauto|apply run_error; auto]].
    destruct (frozen_typed _ _ types r (c_name x) g (v_objs v) Fz) as (y & Iy & En & Vy).
    assert (y = x) as -> by (eapply same_component; eauto; eapply ok_distinct; eauto).
    eapply run_weaken; [eapply run_assign with (E := fun _ => True); eauto| |auto]. intros ? v1 (B1 & _). eauto.
  - destruct (is_null (snd f)) eqn:Nu; ds. destruct (get_freezing _ _ _); [|destruct (c_opt x); ds].
    eapply assign_safe; eauto. apply (eb_last _ _ _ _ _ _ B).
  - intros _ v1 (ob1 & B1) _. eapply IH; eauto. intros; apply Hs; cbn; auto.
Qed.
Lemma object_safe v : objects_ok v -> dsafe 0 v (parse_object file src n) any.
Proof.
  intros O. unfold parse_object.
  eapply ds_bind; [eapply run_member with (E := fun _ => True); eauto; apply O|eapply member_safe; eauto|].
  intros [r tk] ? [-> L] _. cbn [fst] in L. ds.
  destruct (rec (v_types v) r) as [rt|] eqn:R; [|unfold rec in R; apply nth_error_None in R; lia].
  destruct (r_abstract rt) eqn:Ab; ds. apply (ds_current _ _ _ _ _ p); auto. apply ds_sections. intros sec.
  apply ds_register; [exact I|].
  destruct (object_start matches G p v r rt (tok_text tk0) (tok_loc file tk0) sec O R Ab) as (B & F & _).
  apply ds_set; [apply sane_same; auto|]. ds.
  eapply ds_bind; [eapply run_assignments; eauto|eapply assignments_safe; eauto|]. intros _ v1 (ob1 & B1 & F1) _.
  eapply ds_then; [eapply complete_safe; eauto; rewrite (ob_types _ _ _ O); auto|]. intros _ v2 _. ds.
Qed.
Lemma entry_safe m : (forall v, objects_ok v -> dsafe 0 v (parse_entry file src n m) any) /\
  (forall v, objects_ok v -> dsafe 0 v (entries_loop file src n m) any).
Proof.
  induction m as [|m [IH1 IH2]]; (split; intros v O; cbn [parse_entry entries_loop]; ds).
  - apply ds_enter. ds. eapply ds_then; [apply IH2; auto|]. intros _ v1 _. ds. apply ds_leave.
  - apply object_safe. auto.
  - eapply ds_bind; [eapply run_entry; eauto|apply IH1; auto|]. intros _ v1 [O1 _] _. apply IH2. auto.
Qed.
End TRLC.

(** ** Files *)
Section FILES.
Variable T : list token.
Variable hz : Prop.
Variable c : cunit.
Notation fine := (fine T).
Notation safe := (@safe T hz _).
Notation any := (fun _ => True).

Lemma next_some s f : next_is f s = true -> exists tk, nt (at_ s) = Some tk.
Proof. unfold next_is. destruct (nt (at_ s)); [eauto|discriminate]. Qed.
Lemma skip_line_safe m line s : fine (at_ s) -> safe (skip_line m line) s.
Proof.
  revert s. induction m as [|m IH]; intros s F; cbn [skip_line]; [apply safe_fuel|]. apply safe_cond; intros E; [|sf].
  apply safe_bind; [apply safe_advance; auto; eapply next_some; eauto|]. intros; auto.
Qed.
Lemma newline_safe m s : fine (at_ s) -> safe (skip_until_newline m) s.
Proof. intros F. unfold skip_until_newline, ParserCrash.safe. destruct (ct (at_ s)); [|exact F]. apply skip_line_safe. auto. Qed.
Lemma skip_to_safe n m stop s : fine (at_ s) -> safe (skip_to n m stop) s.
Proof.
  revert s. induction m as [|m IH]; intros s F; cbn [skip_to]; [apply safe_fuel|]. apply safe_cond; intros E; [sf|].
  apply safe_cond; intros _; [sf|]. apply safe_bind.
  - apply safe_advance; auto. unfold peek_eof in E. destruct (nt (at_ s)); [eauto|discriminate].
  - intros _ s1 _ F1. apply safe_bind; [apply newline_safe; auto|]. intros; auto.
Qed.
Lemma recover_safe n stop s : fine (at_ s) -> safe (recover n stop) s.
Proof. intros F. unfold recover. apply safe_bind; [apply newline_safe; auto|]. intros. apply skip_to_safe; auto. Qed.

(** After an error there may be more sections. *)
Definition fsafe {A} (v : env) (m : D A) : Prop :=
  sane v -> forall s, s_env s = v -> s_cu s = c -> fine (at_ (s_ps s)) ->
  match m s with
  | DOk _ s' | DErr _ s' => fine (at_ (s_ps s')) /\ sane (s_env s') /\ s_cu s' = c
  | DCrash => hz
  | DFuel => True
  end.
Lemma fs_bind {A B} v (m : D A) (k : A -> D B) Q E : run_ c v m Q E -> fsafe v m ->
  (forall a v', Q a v' -> fsafe v' (k a)) -> fsafe v (dbind m k).
Proof.
  intros H S K O s Es Ec F. unfold dbind. specialize (H s Es Ec). specialize (S O s Es Ec F).
  destruct (m s) as [a s'|e s'| |]; auto. destruct H as [H _]. destruct S as (F' & O' & Ec'). exact (K a _ H O' s' eq_refl Ec' F').
Qed.
Lemma fs_ret {A} v (a : A) : fsafe v (dret a).
Proof. intros O s <- Ec F. cbn. auto. Qed.
Lemma fs_fuel {A} v : fsafe v (dfuel : D A).
Proof. intros O s <- Ec F. exact I. Qed.
Lemma fs_cond {A} v b (x y : D A) : fsafe v x -> fsafe v y -> fsafe v (dcond b x y).
Proof. intros H K O s Es Ec F. unfold dcond. destruct (b (s_ps s)); [apply H|apply K]; auto. Qed.
Lemma fs_attempt v rec m f : dsafe T hz c 0 v m any -> (forall v' s, fine (at_ s) -> safe (f v' (names_of v' c)) s) -> fsafe v (attempt rec m f).
Proof.
  intros H K O s Es Ec F. specialize (H O s Es Ec F ltac:(lia)). unfold attempt. destruct (m s) as [a s1|e s1| |]; auto; [tauto|].
  destruct H as (F1 & S1 & C1). destruct rec; auto. unfold dbind, dp, with_names. cbn.
  match goal with |- context [f _ _ ?q] => specialize (K (s_env s1) q F1) end. unfold ParserCrash.safe in K. rewrite C1.
  destruct (f _ _ _); cbn; auto.
Qed.
Lemma fs_eof {A} v file (a : A) : fsafe v (let# _ := dp (p_match_eof file) in dret a).
Proof. intros O s <- Ec F. unfold dbind, dp, with_names, p_match_eof. destruct (nt (at_ (s_ps s))); cbn; auto. Qed.
End FILES.

Theorem rsl_file_safe file src lint compiles matches n c p T (hz : Prop) rec v :
  (forall p x, compiles p = true -> matches p x <> None) -> cu_pkg c = Some p -> cu_imports c <> None ->
  (cut_off T -> hz) -> (hazardous T -> hz) -> (forall tk, In tk T -> LexerThm.token_ok src tk) -> no_objects matches v ->
  fsafe T hz c v (parse_rsl_file file src lint compiles matches n rec).
Proof.
  intros Rx Pk Im Cut Hz Tok O.
  assert (L : forall m ok v, no_objects matches v -> fsafe T hz c v (rsl_loop file src lint compiles matches n m rec ok)).
  { induction m as [|m IH]; intros ok v' O'; cbn [rsl_loop]; [apply fs_fuel|]. apply fs_cond; [apply fs_ret|].
    eapply fs_bind with (Q := fun _ => no_objects matches) (E := no_objects matches); [| |intros; apply IH; auto].
    - apply run_attempt. unfold rsl_item. apply run_cond; [eapply run_checks; eauto|eapply run_type; eauto].
    - apply fs_attempt; [|intros; apply recover_safe; auto]. unfold rsl_item. ds; [eapply checks_safe; eauto|eapply type_safe; eauto]. }
  unfold parse_rsl_file. eapply fs_bind; [eapply run_rsl_loop; eauto|apply L; auto|]. intros b v' _. apply fs_eof.
Qed.
Theorem trlc_file_safe file src matches n G c p T (hz : Prop) rec v :
  types_ok matches G -> cu_pkg c = Some p -> cu_imports c <> None ->
  (cut_off T -> hz) -> (hazardous T -> hz) -> (forall tk, In tk T -> LexerThm.token_ok src tk) -> objects_ok G p v ->
  fsafe T hz c v (parse_trlc_file file src n rec).
Proof.
  intros Ty Pk Im Cut Hz Tok O.
  assert (L : forall m ok v, objects_ok G p v -> fsafe T hz c v (trlc_loop file src n m rec ok)).
  { induction m as [|m IH]; intros ok v' O'; cbn [trlc_loop]; [apply fs_fuel|]. apply fs_cond; [|apply fs_ret].
    eapply fs_bind with (Q := fun _ => objects_ok G p) (E := objects_ok G p); [| |intros; apply IH; auto].
    - apply run_attempt. eapply run_weaken; [eapply run_entry; eauto|cbn; tauto|auto].
    - apply fs_attempt; [|intros; apply recover_safe; auto]. eapply entry_safe; eauto. }
  unfold parse_trlc_file. eapply fs_bind; [eapply run_trlc_loop with (v0 := v); eauto; split; auto|apply L; auto|]. intros b v' _. apply fs_eof.
Qed.
