(** What the parsers report without failing: only messages of a few kinds, and
    nothing reported is forgotten. *)
From Verif Require Import Base Lexer SymTab Ast Eval ParserBase ParserExpr ParserValue Lint ParserDecl ParserFile.
From Verif Require SourceMan.
Open Scope Z_scope.

Definition more (q : note -> Prop) (s s' : ps) : Prop := exists l, out s' = out s ++ l /\ Forall q l.
(** All that is reported is of kind [q]. *)
Definition gives (q : note -> Prop) {A} (m : P A) : Prop :=
  forall s, match m s with POk _ s' | PErr _ s' => more q s s' | _ => True end.

Definition dgives (q : note -> Prop) {A} (m : D A) : Prop :=
  forall s, match m s with DOk _ s' | DErr _ s' => more q (s_ps s) (s_ps s') | _ => True end.

Lemma more_refl q s : more q s s.
Proof. exists []. rewrite app_nil_r. auto. Qed.
Lemma more_same q s s' : out s' = out s -> more q s s'.
Proof. intros E. exists []. rewrite app_nil_r. auto. Qed.
Lemma more_trans q a b c : more q a b -> more q b c -> more q a c.
Proof. intros (l & E & F) (l' & E' & F'). exists (l ++ l'). rewrite E', E, app_assoc. split; auto. apply Forall_app; auto. Qed.


(** ** Expressions: only hints *)
Section HINTS.
Variable kind : note -> Prop.
Hypothesis hints : forall l x, kind (Note_lint l x).
Notation quiet := (gives kind).

Lemma quiet_bind {A B} (m : P A) (k : A -> P B) : quiet m -> (forall a, quiet (k a)) -> quiet (pbind m k).
Proof.
  intros H K s. specialize (H s). unfold pbind. destruct (m s) as [a s1| | |]; auto. specialize (K a s1).
  destruct (k a s1); auto; eapply more_trans; eauto.
Qed.
Lemma quiet_cond {A} c (a b : P A) : quiet a -> quiet b -> quiet (pcond c a b).
Proof. intros Ha Hb s. unfold pcond. destruct (c s); [apply Ha|apply Hb]. Qed.
Lemma quiet_ret {A} (a : A) : quiet (pret a). Proof. intros s. apply more_refl. Qed.
Lemma quiet_error {A} e : quiet (perror e : P A). Proof. intros s. apply more_refl. Qed.
Lemma quiet_crash {A} : quiet (pcrash : P A). Proof. intros s. exact I. Qed.
Lemma quiet_fuel {A} : quiet (pfuel : P A). Proof. intros s. exact I. Qed.
Lemma quiet_lift {A} (r : res perr A) : quiet (lift r).
Proof. destruct r; [apply quiet_ret|apply quiet_error|apply quiet_crash|apply quiet_fuel]. Qed.
Lemma quiet_note x : kind x -> quiet (pnote x).
Proof. intros S s. exists [x]. cbn. auto. Qed.
Lemma quiet_advance : quiet p_advance.
Proof. intros s. unfold p_advance. destruct (fetch _ _) as [[n l]|e [n l]|]; auto; apply more_same; auto. Qed.
Lemma quiet_take file f e : quiet (p_take file f e).
Proof.
  intros s. unfold p_take. destruct (nt (at_ s)) as [tk|]; [|apply more_refl]. destruct (f tk); [|apply more_refl].
  apply (quiet_bind p_advance (fun _ => pret tk)); [apply quiet_advance|intros; apply quiet_ret].
Qed.
Lemma quiet_match file k : quiet (p_match file k). Proof. apply quiet_take. Qed.
Lemma quiet_match_kw file k : quiet (p_match_kw file k). Proof. apply quiet_take. Qed.
Lemma quiet_eof file : quiet (p_match_eof file).
Proof. intros s. unfold p_match_eof. destruct (nt (at_ s)); apply more_refl. Qed.

Create HintDb quiet.
Hint Resolve quiet_ret quiet_error quiet_crash quiet_fuel quiet_lift quiet_advance quiet_match quiet_match_kw quiet_eof quiet_take : quiet.

Ltac qt := repeat first
  [ progress intros
  | solve [auto with quiet]
  | match goal with
    | |- quiet (pbind _ _) => apply quiet_bind
    | |- quiet (pcond _ _ _) => apply quiet_cond
    | |- quiet (pnote _) => apply quiet_note; apply hints
    | |- quiet (let '(_, _) := ?x in _) => destruct x
    | |- quiet (if ?x then _ else _) => destruct x
    | |- quiet (with_op ?x _) => destruct x; cbn [with_op]
    | |- quiet (match ?x with _ => _ end) => destruct x
    end ].

Lemma quiet_qualified file N sc tk r : quiet (qualified_rest file N sc tk r).
Proof. unfold qualified_rest. qt. Qed.
Hint Resolve quiet_qualified : quiet.
Lemma quiet_qualified_name file N sc r : quiet (parse_qualified_name file N sc r).
Proof. unfold parse_qualified_name. qt. Qed.
Hint Resolve quiet_qualified_name : quiet.

Section EXPR.
Variable file : Z.
Variable lint : bool.
Variable G : types.
Variable W : world.
Variable compiles : text -> bool.
Variable N : names.

Lemma access_kind e tk : match field_access file lint G e tk with Ok (_, ns) => Forall kind ns | _ => True end.
Proof.
  assert (L : forall b l m, Forall kind (if b : bool then [Note_lint l m] else [])) by (intros [] l m; repeat constructor; apply hints).
  unfold field_access. destruct (e_typ e) as [[]|]; auto;
    repeat match goal with
    | |- match bind ?x _ with _ => _ end => destruct x; cbn [bind]; auto
    | |- match (match ?x with _ => _ end) with _ => _ end => destruct x; auto
    | |- match (let '(_, _) := ?x in _) with _ => _ end => destruct x; auto
    end.
Qed.
Section STEP.
Variable n : nat.
Variable pe : nscope -> P expr.
Hypothesis Qpe : forall sc, quiet (pe sc).
Local Hint Resolve Qpe : quiet.

Lemma quiet_selectors m sc e : quiet (selectors file lint G pe m sc e).
Proof.
  revert e. induction m as [|m IH]; intros e; cbn [selectors]; [qt|]. apply quiet_cond; [|qt].
  apply quiet_bind; [qt|intros _]. apply quiet_bind; [qt|intros _]. apply quiet_bind; [qt|intros tk].
  intros s. pose proof (access_kind e tk) as F. unfold pbind at 1. destruct (field_access file lint G e tk) as [[e' ns]| | |]; cbn; auto; [|apply more_refl].
  apply (quiet_bind (match ns with [] => pret tt | x :: _ => pnote x end) (fun _ => selectors file lint G pe m sc e')); auto.
  destruct F; [qt|apply quiet_note; auto].
Qed.
Local Hint Resolve quiet_selectors : quiet.
Lemma quiet_arguments m sc : quiet (arguments file pe m sc).
Proof. induction m as [|m IH]; cbn [arguments]; qt. Qed.
Local Hint Resolve quiet_arguments : quiet.
Lemma quiet_builtin sc c tk : quiet (parse_builtin file G W compiles n pe sc c tk).
Proof. unfold parse_builtin. qt. Qed.
Local Hint Resolve quiet_builtin : quiet.
Lemma quiet_name sc : quiet (parse_name file lint G W compiles N n pe sc).
Proof. unfold parse_name. qt. Qed.
Local Hint Resolve quiet_name : quiet.
Lemma quiet_quantified sc : quiet (parse_quantified_expression file pe sc).
Proof. unfold parse_quantified_expression. qt. Qed.
Local Hint Resolve quiet_quantified : quiet.
Lemma quiet_elsifs m sc typ : quiet (elsifs file pe m sc typ).
Proof. induction m as [|m IH]; cbn [elsifs]; qt. Qed.
Local Hint Resolve quiet_elsifs : quiet.
Lemma quiet_conditional sc : quiet (parse_conditional_expression file n pe sc).
Proof. unfold parse_conditional_expression. qt. Qed.
Local Hint Resolve quiet_conditional : quiet.
Lemma quiet_primary sc : quiet (parse_primary file lint G W compiles N n pe sc).
Proof. unfold parse_primary. qt. Qed.
Local Hint Resolve quiet_primary : quiet.
Lemma quiet_factor sc : quiet (parse_factor file lint G W compiles N n pe sc).
Proof. unfold parse_factor. qt. Qed.
Local Hint Resolve quiet_factor : quiet.
Lemma quiet_term_loop m sc a : quiet (term_loop file lint G W compiles N n pe m sc a).
Proof. revert a. induction m as [|m IH]; intros a; cbn [term_loop]; qt. Qed.
Local Hint Resolve quiet_term_loop : quiet.
Lemma quiet_term sc : quiet (parse_term file lint G W compiles N n pe sc).
Proof. unfold parse_term. qt. Qed.
Local Hint Resolve quiet_term : quiet.
Lemma quiet_sum_loop m sc ty a : quiet (sum_loop file lint G W compiles N n pe m sc ty a).
Proof. revert a. induction m as [|m IH]; intros a; cbn [sum_loop]; qt. Qed.
Local Hint Resolve quiet_sum_loop : quiet.
Lemma quiet_simple sc : quiet (parse_simple_expression file lint G W compiles N n pe sc).
Proof.
  unfold parse_simple_expression. qt. intros s.
  match goal with |- context [pbind ?m ?k s] => assert (Q : quiet (pbind m k)) by qt; exact (Q s) end.
Qed.
Local Hint Resolve quiet_simple : quiet.
Lemma quiet_relation sc : quiet (parse_relation file lint G W compiles N n pe sc).
Proof. unfold parse_relation. qt. Qed.
Local Hint Resolve quiet_relation : quiet.
Lemma quiet_logic_loop m w op sc a : quiet (logic_loop file lint G W compiles N n pe m w op sc a).
Proof. revert a. induction m as [|m IH]; intros a; cbn [logic_loop]; qt. Qed.
Local Hint Resolve quiet_logic_loop : quiet.
Lemma quiet_expression_step sc : quiet (expression_step file lint G W compiles N n pe sc).
Proof. unfold expression_step, logic_once. qt. Qed.
End STEP.
Lemma quiet_expression n sc : quiet (parse_expression file lint G W compiles N n sc).
Proof. revert sc. induction n as [|n IH]; intros sc; cbn [parse_expression]; [qt|]. apply quiet_expression_step. exact IH. Qed.
End EXPR.

(** *** Preambles *)
Notation dquiet := (dgives kind).
Lemma dquiet_bind {A B} (m : D A) (k : A -> D B) : dquiet m -> (forall a, dquiet (k a)) -> dquiet (dbind m k).
Proof.
  intros H K s. specialize (H s). unfold dbind. destruct (m s) as [a s1| | |]; auto. specialize (K a s1).
  destruct (k a s1); auto; eapply more_trans; eauto.
Qed.
Lemma dquiet_cond {A} c (a b : D A) : dquiet a -> dquiet b -> dquiet (dcond c a b).
Proof. intros Ha Hb s. unfold dcond. destruct (c _); [apply Ha|apply Hb]. Qed.
Lemma dquiet_ret {A} (a : A) : dquiet (dret a). Proof. intros s. apply more_refl. Qed.
Lemma dquiet_error {A} e : dquiet (derror e : D A). Proof. intros s. apply more_refl. Qed.
Lemma dquiet_crash {A} : dquiet (dcrash : D A). Proof. intros s. exact I. Qed.
Lemma dquiet_fuel {A} : dquiet (dfuel : D A). Proof. intros s. exact I. Qed.
Lemma dquiet_get : dquiet dget. Proof. intros s. apply more_refl. Qed.
Lemma dquiet_set f : dquiet (dset f). Proof. intros s. apply more_refl. Qed.
Lemma dquiet_set_cu f : dquiet (set_cu f). Proof. intros s. apply more_refl. Qed.
Lemma dquiet_cu : dquiet dcu. Proof. intros s. apply more_refl. Qed.
Lemma dquiet_fresh : dquiet fresh. Proof. intros s. apply more_refl. Qed.
Lemma dquiet_current : dquiet current. Proof. intros s. unfold current. destruct (cu_pkg _); auto. apply more_refl. Qed.
Lemma dquiet_sections : dquiet sections. Proof. intros s. apply more_refl. Qed.
Lemma dquiet_enter n : dquiet (enter n). Proof. intros s. apply more_refl. Qed.
Lemma dquiet_leave : dquiet leave. Proof. intros s. unfold leave. destruct (s_sec s); auto. apply more_refl. Qed.
Lemma dquiet_names {A} (m : env -> names -> P A) : (forall v N, quiet (m v N)) -> dquiet (with_names m).
Proof. intros H s. unfold with_names. specialize (H (s_env s) (names_of (s_env s) (s_cu s)) (s_ps s)). destruct (m _ _ _); auto. Qed.
Lemma dquiet_dp {A} (m : P A) : quiet m -> dquiet (dp m).
Proof. intros H. apply dquiet_names. auto. Qed.
Lemma dquiet_lift {A} (r : res perr A) : dquiet (dlift r).
Proof. apply dquiet_dp. apply quiet_lift. Qed.
Hint Resolve dquiet_ret dquiet_error dquiet_crash dquiet_fuel dquiet_get dquiet_set dquiet_set_cu dquiet_cu dquiet_fresh dquiet_current
  dquiet_sections dquiet_enter dquiet_leave dquiet_lift : quiet.
Ltac dq := repeat first
  [ progress intros
  | solve [auto with quiet]
  | match goal with
    | |- dquiet (dbind _ _) => apply dquiet_bind
    | |- dquiet (dcond _ _ _) => apply dquiet_cond
    | |- dquiet (with_names _) => apply dquiet_names
    | |- dquiet (dp _) => apply dquiet_dp
    | |- dquiet (let '(_, _) := ?x in _) => destruct x
    | |- dquiet (if ?x then _ else _) => destruct x
    | |- dquiet (match ?x with _ => _ end) => destruct x
    | |- quiet _ => progress qt
    end ].

Section PREAMBLE.
Variable file : Z.
Variable n : nat.
Lemma dquiet_add_import tk : dquiet (add_import file tk). Proof. unfold add_import. dq. Qed.
Hint Resolve dquiet_add_import : quiet.
Lemma dquiet_imports m : dquiet (imports_loop file m). Proof. induction m as [|m IH]; cbn [imports_loop]; dq. Qed.
Lemma dquiet_declare_package tk : dquiet (declare_package file tk). Proof. unfold declare_package. dq. Qed.
Lemma dquiet_find_package tk : dquiet (find_package file tk). Proof. unfold find_package. dq. Qed.
Hint Resolve dquiet_imports dquiet_declare_package dquiet_find_package : quiet.
Lemma dquiet_preamble k : dquiet (parse_preamble file n k). Proof. unfold parse_preamble. dq. Qed.
End PREAMBLE.
End HINTS.

(** ** Tolerated mistakes *)

(** The mistakes that are reported and do not end the parsing: a comma is
    missing in an array, an array has too few or too many elements, a union
    type lists a type twice, the text of a check spans lines. *)
Definition tolerated (e : perr) : Prop :=
  match e with
  | E_msg _ (M_comma | M_too_few _ _ | M_too_many _ _ | M_duplicate_member | M_newline) => True
  | _ => False
  end.
Definition soft (x : note) : Prop := match x with Note_lint _ _ => True | Note_error e => tolerated e end.

Notation quiet := (gives soft).
Notation dquiet := (dgives soft).
Lemma soft_hints l x : soft (Note_lint l x). Proof. exact I. Qed.
Definition quiet_expression_soft := fun file lint G W compiles N n sc => quiet_expression soft soft_hints file lint G W compiles N n sc.
#[export] Hint Resolve quiet_ret quiet_error quiet_crash quiet_fuel quiet_lift quiet_advance quiet_match quiet_match_kw quiet_eof quiet_take quiet_qualified quiet_qualified_name quiet_expression_soft : quiet.

Ltac qt := repeat first
  [ progress intros
  | solve [auto with quiet]
  | match goal with
    | |- quiet (pbind _ _) => apply quiet_bind
    | |- quiet (pcond _ _ _) => apply quiet_cond
    | |- quiet (pnote _) => apply quiet_note; exact I
    | |- quiet (let '(_, _) := ?x in _) => destruct x
    | |- quiet (if ?x then _ else _) => destruct x
    | |- quiet (with_op ?x _) => destruct x; cbn [with_op]
    | |- quiet (match ?x with _ => _ end) => destruct x
    end ].

Section VALUE.
Variable file : Z.
Variable src : text.
Variable G : types.
Variable objs : list object.
Variable N : names.

Lemma quiet_note_ct m : tolerated (E_msg (Loc 0 (Sref 0 0 0 0)) m) -> quiet (note_ct file m).
Proof. intros H s. unfold note_ct. destruct (ct (at_ s)); auto. apply quiet_note. exact H. Qed.
Lemma quiet_comma : quiet (note_ct file M_comma). Proof. apply quiet_note_ct. exact I. Qed.
Lemma quiet_number a : quiet (parse_number file a). Proof. unfold parse_number. qt. Qed.
Lemma quiet_boolean : quiet (parse_boolean file). Proof. unfold parse_boolean. qt. Qed.
Lemma quiet_enum_value e : quiet (parse_enum_value file G N e). Proof. unfold parse_enum_value. qt. Qed.
Lemma quiet_reference a : quiet (parse_reference file G objs N a). Proof. unfold parse_reference. qt. Qed.
Lemma quiet_bounds tk lo hi vs : quiet (array_bounds file tk lo hi vs). Proof. unfold array_bounds. qt. Qed.
Lemma quiet_next_loc : quiet (next_loc file).
Proof. intros s. unfold next_loc. destruct (nt (at_ s)); auto. apply more_refl. Qed.
Hint Resolve quiet_comma quiet_number quiet_boolean quiet_enum_value quiet_reference quiet_bounds quiet_next_loc : quiet.
Section STEP.
Variable pv : ty -> P vexpr.
Variable n : nat.
Hypothesis Qpv : forall a, quiet (pv a).
Hint Resolve Qpv : quiet.
Lemma quiet_elements m el : quiet (array_elements file pv m el).
Proof. induction m as [|m IH]; cbn [array_elements]; qt. Qed.
Lemma quiet_sequence is : forall skip d, quiet (sequence file pv skip is d).
Proof. induction is as [|[c|sp] is IH]; intros skip d; cbn [sequence]; qt. Qed.
Lemma quiet_fields cs : forall first d, quiet (fields file pv first cs d).
Proof. induction cs as [|c cs IH]; intros first d; cbn [fields]; qt. Qed.
Hint Resolve quiet_elements quiet_sequence quiet_fields : quiet.
Lemma quiet_value_step a : quiet (value_step file src G objs N pv n a).
Proof. unfold value_step. qt. Qed.
End STEP.
Lemma quiet_value n a : quiet (parse_value file src G objs N n a).
Proof.
  unfold parse_value. revert a. induction (value_depth G) as [|d IH]; intros a; cbn [value_at]; [qt|]. apply quiet_value_step. exact IH.
Qed.
End VALUE.
#[export] Hint Resolve quiet_value : quiet.

(** ** Declarations *)

#[export] Hint Resolve dquiet_ret dquiet_error dquiet_crash dquiet_fuel dquiet_get dquiet_set dquiet_set_cu dquiet_cu dquiet_fresh dquiet_current
  dquiet_sections dquiet_enter dquiet_leave dquiet_lift : quiet.

Ltac dq := repeat first
  [ progress intros
  | solve [auto with quiet]
  | match goal with
    | |- dquiet (dbind _ _) => apply dquiet_bind
    | |- dquiet (dcond _ _ _) => apply dquiet_cond
    | |- dquiet (with_names _) => apply dquiet_names
    | |- dquiet (dp _) => apply dquiet_dp
    | |- dquiet (let '(_, _) := ?x in _) => destruct x
    | |- dquiet (if ?x then _ else _) => destruct x
    | |- dquiet (match ?x with _ => _ end) => destruct x
    | |- quiet _ => progress qt
    end ].

Section DECL.
Variable file : Z.
Variable src : text.
Variable lint : bool.
Variable compiles : text -> bool.
Variable matches : text -> text -> option bool.
Variable n : nat.

Lemma quiet_described : quiet (parse_described_name file). Proof. unfold parse_described_name. qt. Qed.
Hint Resolve quiet_described : quiet.
Lemma dquiet_register p k l e : dquiet (register p k l e). Proof. unfold register, may_register. dq. Qed.
Hint Resolve dquiet_register : quiet.
Lemma dquiet_literals m e b : dquiet (enum_literals_loop file m e b).
Proof. revert b. induction m as [|m IH]; intros b; cbn [enum_literals_loop]; dq. Qed.
Hint Resolve dquiet_literals : quiet.
Lemma dquiet_enum : dquiet (parse_enum_declaration file n). Proof. unfold parse_enum_declaration. dq. Qed.
Lemma dquiet_member : dquiet (member file). Proof. unfold member. dq. Qed.
Hint Resolve dquiet_member : quiet.
Lemma dquiet_members m : dquiet (union_members file m). Proof. induction m as [|m IH]; cbn [union_members]; dq. Qed.
Lemma quiet_duplicates G l : forall seen, quiet (duplicates file G seen l).
Proof. induction l as [|[r tk] l IH]; intros seen; cbn [duplicates]; qt. Qed.
Hint Resolve dquiet_members quiet_duplicates : quiet.
Lemma dquiet_union : dquiet (parse_union_type file n). Proof. unfold parse_union_type. dq. Qed.
Hint Resolve dquiet_union : quiet.
Lemma dquiet_component_type : dquiet (parse_component_type file n). Proof. unfold parse_component_type. dq. Qed.
Hint Resolve dquiet_component_type : quiet.
Lemma dquiet_tuple_field u a m r : dquiet (parse_tuple_field file n u a m r). Proof. unfold parse_tuple_field. dq. Qed.
Lemma dquiet_register_field cs c : dquiet (register_field cs c). Proof. unfold register_field. dq. Qed.
Lemma quiet_separator : quiet parse_separator.
Proof.
  intros s. unfold parse_separator. destruct (nt _) as [tk|]; [|apply more_refl]. destruct (sep_of tk) as [sep|]; [|apply more_refl].
  apply (quiet_bind soft p_advance (fun _ => pret [sep])); qt.
Qed.
Lemma dquiet_add_separator cs a b : dquiet (add_separator cs a b). Proof. unfold add_separator. dq. Qed.
Hint Resolve dquiet_tuple_field dquiet_register_field quiet_separator dquiet_add_separator : quiet.
Lemma dquiet_fields m : forall u a b c cs seps, dquiet (tuple_fields file n m u a b c cs seps).
Proof. induction m as [|m IH]; intros; cbn [tuple_fields]; dq. Qed.
Hint Resolve dquiet_fields : quiet.
Lemma dquiet_tuple : dquiet (parse_tuple_declaration file n). Proof. unfold parse_tuple_declaration. dq. Qed.
Lemma quiet_int tk : quiet (int_of tk). Proof. unfold int_of. qt. Qed.
Hint Resolve quiet_int : quiet.
Lemma quiet_upper : quiet (upper_bound file).
Proof.
  unfold upper_bound. apply quiet_cond; [qt|]. apply quiet_cond; [qt|]. intros s. destruct (nt _); auto. apply more_refl.
Qed.
Hint Resolve quiet_upper : quiet.
Lemma dquiet_array a : dquiet (parse_array_part file a). Proof. unfold parse_array_part. dq. Qed.
Hint Resolve dquiet_array : quiet.
Lemma dquiet_component r : dquiet (parse_record_component file n r). Proof. unfold parse_record_component. dq. Qed.
Lemma dquiet_value a : dquiet (value_of file src n a). Proof. unfold value_of. dq. Qed.
Hint Resolve dquiet_component dquiet_value : quiet.
Lemma dquiet_freeze r : dquiet (parse_freeze file src n r). Proof. unfold parse_freeze. dq. Qed.
Lemma dquiet_declare r : dquiet (declare_component file n r). Proof. unfold declare_component. dq. Qed.
Hint Resolve dquiet_freeze dquiet_declare : quiet.
Lemma dquiet_body m r : dquiet (record_body file src n m r). Proof. induction m as [|m IH]; cbn [record_body]; dq. Qed.
Lemma dquiet_extends : dquiet (parse_extends file). Proof. unfold parse_extends. dq. Qed.
Hint Resolve dquiet_body dquiet_extends : quiet.
Lemma dquiet_record : dquiet (parse_record_declaration file src lint n). Proof. unfold parse_record_declaration. dq. Qed.
Hint Resolve dquiet_enum dquiet_tuple dquiet_record : quiet.
Lemma dquiet_type : dquiet (parse_type_declaration file src lint n). Proof. unfold parse_type_declaration. dq. Qed.

Lemma quiet_severity : quiet (parse_severity file). Proof. unfold parse_severity. qt. Qed.
Lemma quiet_message : quiet (parse_message file). Proof. unfold parse_message. qt. Qed.
Lemma quiet_tail : quiet (check_tail file).
Proof.
  unfold check_tail, details. apply quiet_cond; [|qt]. apply quiet_bind; [qt|intros _]. apply quiet_cond; [qt|].
  apply quiet_cond; [qt|]. intros s. destruct (nt _); auto. apply more_refl.
Qed.
Lemma quiet_anchor G a h : quiet (parse_anchor file G a h). Proof. unfold parse_anchor. qt. Qed.
Hint Resolve quiet_severity quiet_message quiet_tail quiet_anchor : quiet.
Lemma quiet_check v N a : quiet (parse_check file lint compiles matches n v N a). Proof. unfold parse_check. qt. Qed.
Hint Resolve quiet_check : quiet.
Lemma dquiet_check_loop m a : dquiet (check_loop file lint compiles matches n m a).
Proof. induction m as [|m IH]; cbn [check_loop]; dq. Qed.
Hint Resolve dquiet_check_loop : quiet.
Lemma dquiet_block : dquiet (parse_check_block file lint compiles matches n). Proof. unfold parse_check_block. dq. Qed.
Hint Resolve dquiet_block dquiet_type : quiet.

Lemma dquiet_field_of o k : dquiet (field_of o k). Proof. unfold field_of. dq. Qed.
Hint Resolve dquiet_field_of : quiet.
Lemma dquiet_assign o k f : dquiet (assign o k f). Proof. unfold assign. dq. Qed.
Hint Resolve dquiet_assign : quiet.
Lemma dquiet_assignment r o : dquiet (assignment file src n r o). Proof. unfold assignment. dq. Qed.
Hint Resolve dquiet_assignment : quiet.
Lemma dquiet_assignments m r o : dquiet (assignments file src n m r o). Proof. induction m as [|m IH]; cbn [assignments]; dq. Qed.
Lemma dquiet_complete l r o cs : dquiet (complete l r o cs). Proof. induction cs as [|c cs IH]; cbn [complete]; dq. Qed.
Hint Resolve dquiet_assignments dquiet_complete : quiet.
Lemma dquiet_object : dquiet (parse_object file src n). Proof. unfold parse_object. dq. Qed.
Hint Resolve dquiet_object : quiet.
Lemma dquiet_entry m : dquiet (parse_entry file src n m) /\ dquiet (entries_loop file src n m).
Proof. induction m as [|m [IH1 IH2]]; cbn [parse_entry entries_loop]; split; dq. Qed.

(** ** Files *)

Lemma quiet_skip_line m l : quiet (skip_line m l). Proof. induction m as [|m IH]; cbn [skip_line]; qt. Qed.
Lemma quiet_skip : quiet (skip_until_newline n).
Proof. intros s. unfold skip_until_newline. destruct (ct _); [apply quiet_skip_line|apply more_refl]. Qed.
Hint Resolve quiet_skip : quiet.
Lemma quiet_skip_to m f : quiet (skip_to n m f). Proof. induction m as [|m IH]; cbn [skip_to]; qt. Qed.
Hint Resolve quiet_skip_to : quiet.
Lemma quiet_recover f : quiet (recover n f). Proof. unfold recover. qt. Qed.

(** A parser of a whole file returns [true] only if it reported nothing but
    tolerated mistakes; if it returns [false], it reported an error. *)
Definition honest (ok : bool) (m : D bool) : Prop :=
  forall s, match m s with
  | DOk b s' => exists l, out (s_ps s') = out (s_ps s) ++ l /\
      (b = true -> ok = true /\ Forall soft l) /\ (b = false -> ok = false \/ exists e, In (Note_error e) l)
  | _ => True
  end.
Lemma honest_attempt rec m r : dquiet m -> (forall v N, quiet (r v N)) -> honest true (attempt rec m r).
Proof.
  intros Qm Qr s. unfold attempt. specialize (Qm s). destruct (m s) as [[] s1|e s1| |]; auto.
  - destruct Qm as (l & E & F). exists l. repeat split; auto; discriminate.
  - destruct rec; auto. unfold dbind, dp, with_names, pnote.
    match goal with |- context [r ?v ?N ?q] => pose proof (Qr v N q) as Q; destruct (r v N q) as [a q2| | |] end; auto.
    destruct Qm as (l & E & F). destruct Q as (l' & E' & F'). cbn in *. exists (l ++ Note_error e :: l').
    split; [rewrite E', E, <- !app_assoc; auto|]. split; [discriminate|]. intros _. right. exists e. apply in_or_app. right. left. auto.
Qed.
Lemma honest_ret ok : honest ok (dret ok).
Proof. intros s. cbn. exists []. rewrite app_nil_r. auto. Qed.
Lemma honest_cond ok c a b : honest ok a -> honest ok b -> honest ok (dcond c a b).
Proof. intros Ha Hb s. unfold dcond. destruct (c _); [apply Ha|apply Hb]. Qed.
Lemma honest_seq ok m k : honest true m -> (forall b, honest (ok && b) (k b)) -> honest ok (let# b := m in k b).
Proof.
  intros Hm Hk s. specialize (Hm s). unfold dbind. destruct (m s) as [b s1| | |]; auto. destruct Hm as (l & E & T & F).
  specialize (Hk b s1). destruct (k b s1) as [b2 s2| | |]; auto. destruct Hk as (l2 & E2 & T2 & F2).
  exists (l ++ l2). split; [rewrite E2, E, app_assoc; auto|]. split.
  - intros ->. destruct (T2 eq_refl) as [Ob Fl]. apply andb_prop in Ob as [-> ->]. split; auto. apply Forall_app. split; auto. apply T; auto.
  - intros ->. destruct (F2 eq_refl) as [Ob|(e & I)].
    + apply andb_false_iff in Ob as [-> | ->]; auto. destruct (F eq_refl) as [X|(e & I)]; [discriminate|]. right. exists e. apply in_or_app. auto.
    + right. exists e. apply in_or_app. auto.
Qed.
Lemma honest_rsl_loop m rec : forall ok, honest ok (rsl_loop file src lint compiles matches n m rec ok).
Proof.
  induction m as [|m IH]; intros ok; cbn [rsl_loop]; [intros s; exact I|].
  apply honest_cond; [apply honest_ret|]. apply honest_seq; [|intros b; apply IH].
  apply honest_attempt; [unfold rsl_item; dq|]. intros. apply quiet_recover.
Qed.
Lemma honest_trlc_loop m rec : forall ok, honest ok (trlc_loop file src n m rec ok).
Proof.
  induction m as [|m IH]; intros ok; cbn [trlc_loop]; [intros s; exact I|].
  apply honest_cond; [|apply honest_ret]. apply honest_seq; [|intros b; apply IH].
  apply honest_attempt; [apply dquiet_entry|]. intros. apply quiet_recover.
Qed.
Lemma honest_eof ok m : honest ok m -> honest ok (let# b := m in let# _ := dp (p_match_eof file) in dret b).
Proof.
  intros H s. specialize (H s). unfold dbind. destruct (m s) as [b s1| | |]; auto.
  unfold dp, with_names, p_match_eof. destruct (nt _); auto.
Qed.
Lemma honest_rsl rec : honest true (parse_rsl_file file src lint compiles matches n rec).
Proof. apply honest_eof. apply honest_rsl_loop. Qed.
Lemma honest_trlc rec : honest true (parse_trlc_file file src n rec).
Proof. apply honest_eof. apply honest_trlc_loop. Qed.
End DECL.
