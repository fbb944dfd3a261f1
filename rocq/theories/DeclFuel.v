(** Parsing a file comes to an end: declarations consume tokens, and so does
    the recovery after an error. *)
From Coq Require Import Relations.
From Verif Require Import Base Lexer LexerProps SymTab Ast Eval TypesProofs ParserBase ParserExpr ParserProofs EvalFuel ParserFuel ExprTyping
  ParserValue Lint ValueSyntax ValueTyping ValueParserComplete ValueFuel ParserDecl ParserFile Growth DeclInv DeclRsl DeclTrlc.
From Verif Require SourceMan.
From Coq Require Import ZifyBool ZifyNat ZifyN.
Open Scope nat_scope.

(** Started with the declarations [v] of unit [c] and at most [b] tokens to
    come, [m] does not run out of fuel and consumes [k] tokens if it succeeds. *)
Definition dsp_ {A} (src : text) (c : cunit) (v : env) (b k : nat) (m : D A) : Prop :=
  forall s, s_env s = v -> s_cu s = c -> stocked (of_file src) (at_ (s_ps s)) -> rem (at_ (s_ps s)) <= b ->
    match m s with
    | DOk _ s' => stocked (of_file src) (at_ (s_ps s')) /\ rem (at_ (s_ps s')) + k <= rem (at_ (s_ps s))
    | DErr _ s' => stocked (of_file src) (at_ (s_ps s')) /\ rem (at_ (s_ps s')) <= rem (at_ (s_ps s))
    | DCrash => True
    | DFuel => False
    end.
(** For all declarations *)
Definition dsa_ {A} (src : text) (b k : nat) (m : D A) : Prop := forall c v, dsp_ src c v b k m.

Section RULES.
Variable src : text.
Notation dsp := (dsp_ src).
Notation dsa := (dsa_ src).
Notation spends := (spends_ (of_file src)).

Lemma dsp_weaken {A} c v b k b' k' (m : D A) : dsp c v b k m -> b' <= b -> k' <= k -> dsp c v b' k' m.
Proof. intros H L1 L2 s Ev Ec I L. specialize (H s Ev Ec I ltac:(lia)). destruct (m s); auto. destruct H. split; auto. lia. Qed.
Lemma dsa_weaken {A} b k b' k' (m : D A) : dsa b k m -> b' <= b -> k' <= k -> dsa b' k' m.
Proof. intros H L1 L2 c v. eapply dsp_weaken; eauto. Qed.
Lemma dsa_bind {A B} b k1 k (m : D A) (f : A -> D B) :
  dsa b k1 m -> (forall a, dsa (b - k1) (k - k1) (f a)) -> dsa b k (dbind m f).
Proof.
  intros H1 H2 c v s Ev Ec I L. specialize (H1 c v s Ev Ec I L). unfold dbind. destruct (m s) as [a s1| | |]; auto.
  destruct H1 as [I1 L1]. specialize (H2 a _ _ s1 eq_refl eq_refl I1 ltac:(lia)). destruct (f a s1); auto; destruct H2; split; auto; lia.
Qed.
Lemma dsa_bind1 {A B} b k (m : D A) (f : A -> D B) :
  dsa b 1 m -> (forall a b', b = Datatypes.S b' -> dsa b' (k - 1) (f a)) -> dsa b k (dbind m f).
Proof.
  intros H1 H2 c v s Ev Ec I L. specialize (H1 c v s Ev Ec I L). unfold dbind. destruct (m s) as [a s1| | |]; auto.
  destruct H1 as [I1 L1]. destruct b as [|b]; [lia|]. specialize (H2 a b eq_refl _ _ s1 eq_refl eq_refl I1 ltac:(lia)).
  destruct (f a s1); auto; destruct H2; split; auto; lia.
Qed.
(** With a postcondition known otherwise *)
Lemma dsp_bind {A B} c v b k1 k (m : D A) (f : A -> D B) Q E :
  run_ c v m Q E -> dsp c v b k1 m -> (forall a v', Q a v' -> dsp c v' (b - k1) (k - k1) (f a)) -> dsp c v b k (dbind m f).
Proof.
  intros R H1 H2 s Ev Ec I L. specialize (H1 s Ev Ec I L). specialize (R s Ev Ec). unfold dbind. destruct (m s) as [a s1| | |]; auto.
  destruct H1 as [I1 L1], R as [R Ec1]. specialize (H2 a _ R s1 eq_refl Ec1 I1 ltac:(lia)). destruct (f a s1); auto; destruct H2; split; auto; lia.
Qed.
Lemma dsp_bind1 {A B} c v b k (m : D A) (f : A -> D B) Q E :
  run_ c v m Q E -> dsp c v b 1 m -> (forall a v' b', Q a v' -> b = Datatypes.S b' -> dsp c v' b' (k - 1) (f a)) -> dsp c v b k (dbind m f).
Proof.
  intros R H1 H2 s Ev Ec I L. specialize (H1 s Ev Ec I L). specialize (R s Ev Ec). unfold dbind. destruct (m s) as [a s1| | |]; auto.
  destruct H1 as [I1 L1], R as [R Ec1]. destruct b as [|b]; [lia|]. specialize (H2 a _ b R eq_refl s1 eq_refl Ec1 I1 ltac:(lia)).
  destruct (f a s1); auto; destruct H2; split; auto; lia.
Qed.
Lemma dsa_ret {A} b (a : A) : dsa b 0 (dret a).
Proof. intros c v s Ev Ec I L. simpl. split; auto. lia. Qed.
Lemma dsa_error {A} b k e : dsa b k (derror e : D A).
Proof. intros c v s Ev Ec I L. simpl. auto. Qed.
Lemma dsa_crash {A} b k : dsa b k (dcrash : D A).
Proof. intros c v s Ev Ec I L. simpl. auto. Qed.
Lemma dsa_get b : dsa b 0 dget.
Proof. intros c v s Ev Ec I L. simpl. split; auto. lia. Qed.
Lemma dsa_set b f : dsa b 0 (dset f).
Proof. intros c v s Ev Ec I L. simpl. split; auto. lia. Qed.
Lemma dsa_fresh b : dsa b 0 fresh.
Proof. intros c v s Ev Ec I L. simpl. split; auto. lia. Qed.
Lemma dsa_current b : dsa b 0 current.
Proof. intros c v s Ev Ec I L. unfold current. destruct (cu_pkg (s_cu s)); auto. split; auto. lia. Qed.
Lemma dsa_sections b : dsa b 0 sections.
Proof. intros c v s Ev Ec I L. simpl. split; auto. lia. Qed.
Lemma dsa_enter b name : dsa b 0 (enter name).
Proof. intros c v s Ev Ec I L. simpl. split; auto. lia. Qed.
Lemma dsa_leave b : dsa b 0 leave.
Proof. intros c v s Ev Ec I L. unfold leave. destruct (s_sec s); auto. simpl. split; auto. lia. Qed.
Lemma dsa_cu b : dsa b 0 dcu.
Proof. intros c v s Ev Ec I L. simpl. split; auto. lia. Qed.
Lemma dsa_set_cu b f : dsa b 0 (set_cu f).
Proof. intros c v s Ev Ec I L. simpl. split; auto. lia. Qed.
Lemma dsp_names {A} c v b k (m : env -> names -> P A) : spends b k (m v (names_of v c)) -> dsp c v b k (with_names m).
Proof.
  intros H s Ev Ec I L. specialize (H (s_ps s) I L). unfold with_names. rewrite Ev, Ec. destruct (m v _ (s_ps s)); auto.
Qed.
Lemma dsa_names {A} b k (m : env -> names -> P A) : (forall v N, spends b k (m v N)) -> dsa b k (with_names m).
Proof. intros H c v. apply dsp_names. auto. Qed.
Lemma dsa_dp {A} b k (m : P A) : spends b k m -> dsa b k (dp m).
Proof. intros H. apply dsa_names. auto. Qed.
Lemma dsa_lift {A} b (r : res perr A) : r <> OutOfFuel -> dsa b 0 (dlift r).
Proof. intros H. apply dsa_dp. apply spends_lift. auto. Qed.
Lemma dsp_cond {A} c v b k x (m1 m2 : D A) : dsp c v b k m1 -> dsp c v b k m2 -> dsp c v b k (dcond x m1 m2).
Proof. intros H1 H2 s Ev Ec I L. unfold dcond. destruct (x (s_ps s)); [apply (H1 s)|apply (H2 s)]; auto. Qed.
Lemma dsa_cond {A} b k x (m1 m2 : D A) : dsa b k m1 -> dsa b k m2 -> dsa b k (dcond x m1 m2).
Proof. intros H1 H2 c v. apply dsp_cond; auto. Qed.
Lemma dsa_if {A} b k (x : bool) (m1 m2 : D A) : dsa b k m1 -> dsa b k m2 -> dsa b k (if x then m1 else m2).
Proof. destruct x; auto. Qed.
Lemma registrable_fuel {A} (f : A -> entity) d name l : registrable f d name l <> OutOfFuel.
Proof. unfold registrable. destruct (t_find d name) as [[k a]|]; discriminate. Qed.
End RULES.
#[export] Hint Resolve registrable_fuel : fuel.

Ltac ds_atom :=
  first
    [ apply dsa_dp; solve [sp] | apply dsa_ret | apply dsa_get | apply dsa_set | apply dsa_fresh | apply dsa_current | apply dsa_sections
    | apply dsa_enter | apply dsa_leave | apply dsa_cu | apply dsa_set_cu | apply dsa_lift; solve [auto with fuel] ].
Ltac ds_leaf :=
  first [ apply dsa_error | apply dsa_crash
        | match goal with |- dsa_ _ ?b _ _ => eapply (dsa_weaken _ b _ b _); [ds_atom | lia | lia] end ].
Ltac ds :=
  repeat first
    [ match goal with |- forall _, _ => intro end
    | ds_leaf
    | match goal with
      | |- dsa_ _ _ _ (dbind (dp (p_match _ _)) _) => apply dsa_bind1; [apply dsa_dp; apply match_spends|]
      | |- dsa_ _ _ _ (dbind (dp (p_match_kw _ _)) _) => apply dsa_bind1; [apply dsa_dp; apply match_kw_spends|]
      | |- dsa_ _ _ _ (dbind _ _) => eapply dsa_bind; [solve [ds_atom | apply dsa_crash | apply dsa_error]|]
      | |- dsa_ _ _ _ (dcond _ _ _) => apply dsa_cond
      | |- dsa_ _ _ _ (let '(_, _) := ?x in _) => destruct x
      | |- dsa_ _ _ _ (if _ then _ else _) => apply dsa_if
      end ].
Ltac dwk t := eapply dsa_weaken; [t | lia | lia].
Ltac dnest k := eapply dsa_bind with (k1 := k%nat).

Section DECL.
Variable file : Z.
Variable src : text.
Variable lint : bool.
Variable compiles : text -> bool.
Variable matches : text -> text -> option bool.
Variable n : nat.
Notation dsp := (dsp_ src).
Notation dsa := (dsa_ src).
Notation spends := (spends_ (of_file src)).

Lemma described_spends b : spends b 1 (parse_described_name file).
Proof. unfold parse_described_name. sp. Qed.
Hint Resolve described_spends : fuel.
Lemma described_ds b : dsa b 1 (dp (parse_described_name file)).
Proof. apply dsa_dp, described_spends. Qed.
Lemma register_ds b p name l e : dsa b 0 (register p name l e).
Proof.
  unfold register. dnest 0; [|ds]. unfold may_register. apply dsa_names. intros. apply spends_lift. auto with fuel.
Qed.

Lemma literals_ds m b e empty : b < m -> dsa b 0 (enum_literals_loop file m e empty).
Proof.
  revert b empty. induction m as [|m IH]; intros b empty L; [lia|]. cbn [enum_literals_loop]. apply dsa_cond; [ds|].
  apply dsa_bind1; [apply described_ds|]. ds. dwk ltac:(apply (IH b'); lia).
Qed.
Lemma enum_ds b : b <= n -> dsa b 1 (parse_enum_declaration file n).
Proof.
  intros L. unfold parse_enum_declaration. ds. apply dsa_bind1; [apply described_ds|]. ds. dnest 0; [apply register_ds|].
  ds. dnest 0; [apply literals_ds; lia|]. ds.
Qed.
Lemma member_ds b : dsa b 1 (member file).
Proof.
  unfold member. apply dsa_bind1; [apply dsa_names; intros; apply qualified_name_spends|]. intros [e tk] b' ->. cbn.
  destruct e as [[]| | | | |]; ds.
Qed.
Lemma members_ds m b : b < m -> dsa b 0 (union_members file m).
Proof.
  revert b. induction m as [|m IH]; intros b L; [lia|]. cbn [union_members]. apply dsa_cond; [|ds].
  ds. apply dsa_bind1; [apply member_ds|]. intros x b'' ->. dnest 0; [dwk ltac:(apply (IH b''); lia)|]. ds.
Qed.
Lemma duplicates_spends b G seen l : spends b 0 (duplicates file G seen l).
Proof.
  revert seen. induction l as [|[r tk] l IH]; intros seen; cbn [duplicates]; [sp|]. destruct (existsb _ _); [|apply IH].
  eapply spends_bind; [apply spends_note|]. intros. eapply spends_weaken; [apply IH|lia|lia].
Qed.
Lemma union_ds b : b <= n -> dsa b 1 (parse_union_type file n).
Proof.
  intros L. unfold parse_union_type. ds. apply dsa_bind1; [apply member_ds|]. intros x b'' ->.
  dnest 0; [apply members_ds; lia|]. ds. dnest 0; [apply dsa_dp, duplicates_spends|]. ds.
Qed.
Lemma component_type_ds b : b <= n -> dsa b 1 (parse_component_type file n).
Proof.
  intros L. unfold parse_component_type. apply dsa_cond; [apply union_ds; auto|].
  apply dsa_bind1; [apply dsa_names; intros; apply qualified_name_spends|]. intros [e tk] b' ->. destruct e; ds.
Qed.
Lemma tuple_field_ds b u allowed reason required : b <= n -> dsa b 2 (parse_tuple_field file n u allowed reason required).
Proof.
  intros L. unfold parse_tuple_field. apply dsa_bind1; [apply described_ds|]. intros x b' ->.
  dnest 0; [ds|]. intros. apply dsa_bind1; [apply component_type_ds; lia|]. ds.
Qed.
Lemma register_field_ds b cs c : dsa b 0 (register_field cs c).
Proof. unfold register_field. ds. Qed.
Lemma separator_spends b : spends b 0 parse_separator.
Proof.
  intros s I L. unfold parse_separator. destruct (nt (at_ s)) as [tk|]; [|split; auto; lia]. destruct (sep_of tk); [|split; auto; lia].
  assert (H := advance_spends (of_file src) b s I L). unfold pbind. destruct (p_advance s); auto.
Qed.
Lemma add_separator_ds b cs seps sep : dsa b 0 (add_separator cs seps sep).
Proof. unfold add_separator. destruct sep; ds. Qed.
Lemma tuple_fields_ds m b u hs req al cs seps : b < m -> b <= n -> dsa b 0 (tuple_fields file n m u hs req al cs seps).
Proof.
  revert b hs req al cs seps. induction m as [|m IH]; intros b hs req al cs seps L Ln; [lia|]. cbn [tuple_fields].
  apply dsa_cond; [|ds]. dnest 0.
  - ds. dnest 0; [apply dsa_dp, separator_spends|]. intros. dnest 0; [apply add_separator_ds|]. ds.
  - intros [[hs' al'] seps']. apply dsa_bind1; [eapply dsa_weaken; [apply tuple_field_ds| |]; try reflexivity; lia|]. intros x b' E.
    dnest 0; [apply register_field_ds|]. intros. dwk ltac:(apply (IH b'); lia).
Qed.
Lemma nesting_fuel G cs : nesting G cs <> OutOfFuel.
Proof. unfold nesting. destruct (find _ _); discriminate. Qed.
Hint Resolve nesting_fuel : fuel.
Lemma tuple_ds b : b <= n -> dsa b 1 (parse_tuple_declaration file n).
Proof.
  intros L. unfold parse_tuple_declaration. ds. apply dsa_bind1; [apply described_ds|]. intros x b'' ->. ds.
  dnest 2; [apply tuple_field_ds; lia|]. intros. dnest 0; [apply register_field_ds|]. intros.
  dnest 0; [apply tuple_fields_ds; lia|]. intros [[hs cs] seps]. ds. dnest 0; [apply dsa_if; ds|]. ds.
  dnest 0; [apply register_ds|]. ds.
Qed.

Lemma int_of_spends b tk : spends b 0 (int_of tk).
Proof. unfold int_of. destruct (tk_value tk); sp. Qed.
Lemma upper_spends b : spends b 0 (upper_bound file).
Proof.
  unfold upper_bound. apply spends_cond; [|apply spends_cond].
  - sp. eapply spends_bind; [apply int_of_spends|]. sp.
  - sp.
  - intros s I L. destruct (nt (at_ s)) eqn:E; auto.
Qed.
Lemma array_ds b a : dsa b 0 (parse_array_part file a).
Proof.
  unfold parse_array_part. apply dsa_cond; [|ds]. ds. dnest 0; [apply dsa_dp, int_of_spends|]. ds.
  dnest 0; [apply dsa_dp, upper_spends|]. ds.
Qed.
Lemma record_component_ds b r : b <= n -> dsa b 2 (parse_record_component file n r).
Proof.
  intros L. unfold parse_record_component. apply dsa_bind1; [apply described_ds|]. intros x b' ->. dnest 0; [ds|]. intros.
  apply dsa_bind1; [apply component_type_ds; lia|]. intros y b'' E. dnest 0; [apply array_ds|]. ds.
Qed.
Lemma declare_ds b r : b <= n -> dsa b 2 (declare_component file n r).
Proof.
  intros L. unfold declare_component. dnest 2; [apply record_component_ds; auto|]. intros [c l]. ds. destruct (rec _ _); ds.
Qed.
Lemma value_ds c v b a : types_ok matches (v_types v) -> complete_type (v_types v) a -> b < n -> dsp c v b 1 (value_of file src n a).
Proof. intros O Ct L. unfold value_of. apply dsp_names. apply value_spends; auto. apply (ok_tuples _ _ O). Qed.

Lemma dsp_dp c v b k {A} (m : P A) : spends b k m -> dsp c v b k (dp m).
Proof. intros H. apply dsp_names. auto. Qed.
(** A part that neither reads nor changes declarations *)
Lemma dsp_then {A B} c v b k (m : P A) (f : A -> D B) :
  spends b 0 m -> (forall a, dsp c v b k (f a)) -> dsp c v b k (dbind (dp m) f).
Proof.
  intros H1 H2. eapply (dsp_bind src c v b 0 k (dp m) f (fun _ v' => v' = v) (fun _ => True)).
  - apply run_dp_any; auto.
  - apply dsp_dp. auto.
  - intros a ? ->. rewrite !Nat.sub_0_r. auto.
Qed.
Lemma dsp_take {A B} c v b k (m : P A) (f : A -> D B) :
  spends b 1 m -> (forall a b', b = Datatypes.S b' -> dsp c v b' (k - 1) (f a)) -> dsp c v b k (dbind (dp m) f).
Proof.
  intros H1 H2. eapply (dsp_bind1 src c v b k (dp m) f (fun _ v' => v' = v) (fun _ => True)).
  - apply run_dp_any; auto.
  - apply dsp_dp. auto.
  - intros a ? b' -> E. auto.
Qed.
Lemma dsp_get {B} c v b k (f : env -> D B) : dsp c v b k (f v) -> dsp c v b k (dbind dget f).
Proof. intros H s Ev Ec I L. unfold dbind, dget. rewrite Ev. apply (H s); auto. Qed.
Lemma dsp_lift {A B} c v b k (r : res perr A) (f : A -> D B) :
  r <> OutOfFuel -> (forall a, r = Ok a -> dsp c v b k (f a)) -> dsp c v b k (dbind (dlift r) f).
Proof.
  intros H1 H2. eapply (dsp_bind src c v b 0 k _ f (fun a v' => r = Ok a /\ v' = v) (fun _ => True)).
  - apply run_dlift; auto.
  - apply dsa_lift. auto.
  - intros a ? [E ->]. rewrite !Nat.sub_0_r. auto.
Qed.
Lemma dsp_ext {A} c v b k (m m' : D A) : (forall s, m s = m' s) -> dsp c v b k m' -> dsp c v b k m.
Proof. intros E H s. rewrite E. apply H. Qed.

Lemma component_complete G r x : types_ok matches G -> In x (all_components G r) -> complete_type G (c_typ x).
Proof.
  intros O. unfold all_components. generalize r at 1 as f. intros f. revert r.
  assert (C : forall r rt, rec G r = Some rt -> In x (r_comps rt) -> complete_type G (c_typ x)).
  { intros r rt R I. destruct (ty_recs _ _ O _ _ R) as [_ V S _ _ _ _]. specialize (V _ I). specialize (S _ I).
    destruct (c_typ x) as [| | | | | | | | |? ? ? []]; cbn in *; auto. }
  induction f as [|f IH]; intros r; cbn [all_components_steps]; destruct (rec G r) as [rt|] eqn:R; try contradiction;
    destruct (r_parent rt) as [q|]; try contradiction; eauto.
  intros I. apply in_app_or in I as [I|I]; eauto.
Qed.

(** *** Records *)
Hypothesis regex : forall p x, compiles p = true -> matches p x <> None.

Lemma freeze_ds c v b r : types_ok matches (v_types v) -> b <= n -> dsp c v b 2 (parse_freeze file src n r).
Proof.
  intros O L. unfold parse_freeze. apply dsp_take; [apply match_kw_spends|]. intros _ b1 ->.
  apply dsp_take; [apply match_spends|]. intros tk b2 ->. apply dsp_get. apply dsp_lift; [auto with fuel|]. intros x E.
  destruct (is_frozen _ _ _); [apply dsa_error|].
  apply dsp_take; [apply match_spends|]. intros _ b3 ->.
  assert (Ix : In x (all_components (v_types v) r)).
  { apply t_lookup_in in E. unfold components_of in E. apply in_map_iff in E as (y & Ey & I). injection Ey as _ <-.
    apply chain_components in I; auto. eapply ok_order; eauto. }
  eapply dsp_bind1 with (Q := fun _ _ => True) (E := fun _ => True).
  - intros s _ Ec. destruct (value_of file src n (c_typ x) s) eqn:Ev; auto; split; auto.
    all: unfold value_of, with_names in Ev; destruct (parse_value _ _ _ _ _ _ _ _) in Ev; inversion Ev; subst; auto.
  - apply value_ds; auto; [eapply component_complete; eauto|lia].
  - intros y v' b4 _ ->. eapply dsp_weaken; [|apply Nat.le_refl|]. { apply (dsa_bind src b4 0 0 fresh); ds. } lia.
Qed.

(** The rules of [run_] need the package of the unit. *)
Section UNIT.
Variable c : cunit.
Variable p : nat.
Hypothesis pkg : cu_pkg c = Some p.
Notation no_objects := (no_objects matches).
Notation body := (body matches p).

Lemma body_ds m v0 name v rt b : no_objects v0 -> body v0 name v rt -> b < m -> b <= n ->
  dsp c v b 0 (record_body file src n m (List.length (recs (v_types v0)))).
Proof.
  intros O. revert v rt b. induction m as [|m IH]; intros v rt b B L Ln; [lia|]. cbn [record_body].
  assert (Ov := body_ok _ _ regex _ _ _ _ _ O B).
  apply dsp_cond; [apply dsa_ret|]. eapply dsp_bind1 with (Q := fun _ v' => exists rt', body v0 name v' rt').
  - apply run_cond; [eapply run_freeze|eapply run_declare]; eauto.
  - apply dsp_cond; (eapply dsp_weaken; [|apply Nat.le_refl|]); [apply freeze_ds; auto; apply Ov|lia|apply declare_ds; auto|lia].
  - intros _ v' b' (rt' & B') ->. eapply IH; eauto; lia.
Qed.
Lemma extends_ds b : dsa b 0 (parse_extends file).
Proof.
  unfold parse_extends. apply dsa_cond; [|ds]. ds. apply dsa_bind1; [apply member_ds|]. intros [r tk] b'' E. ds.
Qed.
(** What follows the keyword [type] *)
Definition record_rest (abstract final : bool) : D unit :=
  let# name := dp (parse_described_name file) in
  let# parent := parse_extends file in
  let# v := dget in
  let inherited := is_final_type (v_types v) parent in
  let# _ := if lint && inherited && negb final then dp (pnote (Note_lint (tok_loc file name) L_clarify_final)) else dret tt in
  let# p := current in
  let r := List.length (recs (v_types v)) in
  let# _ := register p (tok_text name) (tok_loc file name) (N_type (TRec r)) in
  let# _ := dset (add_rec (RecType p (tok_text name) parent [] [] inherited abstract [])) in
  let# _ := dp (p_match file C_BRA) in
  let# _ := record_body file src n n r in
  let# _ := dp (p_match file C_KET) in
  if final then dset (change_rec r set_final) else dret tt.
Lemma record_rest_ds v b ab fi : no_objects v -> b < n -> dsp c v b 0 (record_rest ab fi).
Proof.
  intros O L. unfold record_rest. apply dsp_take; [apply described_spends|]. intros tk b1 ->.
  eapply dsp_bind; [apply run_extends with (E := fun _ => True); auto; apply O|apply extends_ds|]. intros q ? [-> Hq]. cbn [Nat.sub]. rewrite Nat.sub_0_r.
  apply dsp_get.
  eapply dsp_bind with (k1 := 0) (Q := fun _ v' => v' = v) (E := fun _ => True).
  { destruct (_ && _); [apply run_dp_any; auto|apply run_ret; auto]. }
  { destruct (_ && _); [apply dsp_dp; apply spends_note|apply dsa_ret]. }
  intros _ ? ->. rewrite Nat.sub_0_r.
  eapply dsp_bind with (k1 := 0) (E := fun _ => True); [apply (run_current c _ p) with (Q := fun x v' => x = p /\ v' = v); auto|apply dsa_current|]. intros x ? [-> ->].
  eapply dsp_bind with (k1 := 0) (E := fun _ => True); [apply run_register; auto|apply register_ds|]. intros _ ? ->. rewrite !Nat.sub_0_r.
  set (rt := RecType p (tok_text tk) q [] [] (is_final_type (v_types v) q) ab []).
  eapply dsp_bind with (k1 := 0) (E := fun _ => True); [apply run_set with (Q := fun _ v' => exists rt, body v (tok_text tk) v' rt)|apply dsa_set|].
  - exists rt. eapply body_start; eauto.
  - intros _ v1 (rt1 & B1). assert (O1 := body_ok _ _ regex _ _ _ _ _ O B1). rewrite !Nat.sub_0_r.
    apply dsp_take; [apply match_spends|]. intros _ b2 ->.
    eapply dsp_bind with (k1 := 0); [eapply run_body; eauto|eapply body_ds; eauto; lia|]. intros _ v2 (rt2 & B2).
    apply dsp_take; [apply match_spends|]. intros _ b3 E. destruct fi; (eapply dsp_weaken; [ds_atom|apply Nat.le_refl|lia]).
Qed.
End UNIT.

(** *** Checks *)
Lemma severity_spends b : spends b 0 (parse_severity file).
Proof. unfold parse_severity. sp. destruct (has_text _ _); sp. destruct (has_text _ _); sp. destruct (has_text _ _); sp. Qed.
Lemma message_spends b : spends b 1 (parse_message file).
Proof. unfold parse_message. sp. eapply spends_bind with (k1 := 0); [destruct (existsb _ _); sp|]. sp. Qed.
Lemma tail_spends b : spends b 0 (check_tail file).
Proof.
  unfold check_tail, details. sp. intros s I L. destruct (nt (at_ s)) eqn:E; auto.
Qed.
Lemma anchor_spends b G a has : spends b 0 (parse_anchor file G a has).
Proof. unfold parse_anchor. destruct has; sp. Qed.
Lemma check_spends b v N a : b < n -> spends b 1 (parse_check file lint compiles matches n v N a).
Proof.
  intros L. unfold parse_check. eapply spends_bind with (k1 := 1); [apply expression_spends; auto|]. intros e.
  destruct (e_typ e) as [[]|]; sp. eapply spends_bind; [apply severity_spends|]. intros.
  eapply spends_bind; [apply message_spends|]. intros. eapply spends_bind; [apply tail_spends|]. intros [x h].
  eapply spends_bind; [apply anchor_spends|]. sp.
Qed.
Lemma check_loop_ds m b a : b < m -> b < n -> dsa b 0 (check_loop file lint compiles matches n m a).
Proof.
  revert b. induction m as [|m IH]; intros b L Ln; [lia|]. cbn [check_loop]. apply dsa_cond; [ds|].
  apply dsa_bind1; [apply dsa_names; intros; apply check_spends; lia|]. intros x b' ->. ds. dwk ltac:(apply (IH b'); lia).
Qed.
Definition check_rest : D unit :=
  let# tk := dp (p_match file IDENTIFIER) in
  let# p := current in
  let# e := with_names (fun v N => lift (e_lookup file (p_symbols N p) tk (Some is_composite))) in
  match e with
  | N_type a =>
      let# _ := dp (p_match file C_BRA) in
      let# _ := check_loop file lint compiles matches n n a in
      let# _ := dp (p_match file C_KET) in
      dret tt
  | _ => dcrash
  end.
Lemma check_rest_ds b : b < n -> dsa b 0 check_rest.
Proof.
  intros L. unfold check_rest. ds. dnest 0; [apply dsa_names; intros; apply spends_lift; auto with fuel|].
  intros []; ds. dnest 0; [apply check_loop_ds; lia|]. ds.
Qed.

(** All declarations but those of records start with a keyword. *)
Lemma enum_starts : exists f, parse_enum_declaration file n = dbind (dp (p_match_kw file (t "enum"))) f /\ forall a b, b < n -> dsa b 0 (f a).
Proof.
  eexists. split; [reflexivity|]. intros a b L. cbv beta. apply dsa_bind1; [apply described_ds|]. intros x b'' ->. ds.
  dnest 0; [apply register_ds|]. ds. dnest 0; [apply literals_ds; lia|]. ds.
Qed.
Lemma tuple_starts : exists f, parse_tuple_declaration file n = dbind (dp (p_match_kw file (t "tuple"))) f /\ forall a b, b < n -> dsa b 0 (f a).
Proof.
  eexists. split; [reflexivity|]. intros a b L. cbv beta. apply dsa_bind1; [apply described_ds|]. intros x b'' ->. ds.
  dnest 2; [apply tuple_field_ds; lia|]. intros. dnest 0; [apply register_field_ds|]. intros.
  dnest 0; [apply tuple_fields_ds; lia|]. intros [[hs cs] seps]. ds. dnest 0; [apply dsa_if; ds|]. ds.
  dnest 0; [apply register_ds|]. ds.
Qed.
Lemma check_starts : exists f, parse_check_block file lint compiles matches n = dbind (dp (p_match_kw file (t "checks"))) f /\ forall a b, b < n -> dsa b 0 (f a).
Proof. exists (fun _ => check_rest). split; [reflexivity|]. intros. apply check_rest_ds; auto. Qed.

(** *** Objects *)
Lemma field_ds b o k : dsa b 0 (field_of o k).
Proof. unfold field_of. ds. destruct (nth_error _ _); [destruct (assoc _ _)|]; ds. Qed.
Lemma assign_ds b o k f : dsa b 0 (assign o k f).
Proof. unfold assign. dnest 0; [apply field_ds|]. ds. Qed.
Lemma complete_ds b l r o cs : dsa b 0 (complete l r o cs).
Proof.
  induction cs as [|x cs IH]; cbn [complete]; [ds|]. dnest 0; [apply field_ds|]. intros old. dnest 0.
  - ds. destruct (get_freezing _ _ _); [|ds]. eapply dsa_weaken; [apply assign_ds|apply Nat.le_refl|lia].
  - intros. dwk ltac:(apply IH).
Qed.

(** The declarations keep the types. *)
Definition typed_ (G : types) {A} (m : D A) : Prop :=
  forall s, v_types (s_env s) = G -> match m s with DOk _ s' | DErr _ s' => v_types (s_env s') = G | _ => True end.
Lemma typed_bind G {A B} (m : D A) (f : A -> D B) : typed_ G m -> (forall a, typed_ G (f a)) -> typed_ G (dbind m f).
Proof. intros H1 H2 s E. specialize (H1 s E). unfold dbind. destruct (m s) as [a s1| | |]; auto. apply (H2 a s1). auto. Qed.
Lemma typed_names G {A} (m : env -> names -> P A) : typed_ G (with_names m).
Proof. intros s E. unfold with_names. destruct (m _ _ _); auto. Qed.
Lemma typed_cond G {A} x (m1 m2 : D A) : typed_ G m1 -> typed_ G m2 -> typed_ G (dcond x m1 m2).
Proof. intros H1 H2 s E. unfold dcond. destruct (x _); [apply (H1 s)|apply (H2 s)]; auto. Qed.
Lemma typed_dp G {A} (m : P A) : typed_ G (dp m).
Proof. apply typed_names. Qed.
Lemma typed_simple G : typed_ G dget /\ typed_ G fresh /\ typed_ G current /\ typed_ G sections /\ typed_ G leave /\ (forall x, typed_ G (enter x)) /\
  (forall A (x : A), typed_ G (dret x)) /\ (forall A e, typed_ G (derror e : D A)) /\ (forall A, typed_ G (dcrash : D A)) /\ (forall A, typed_ G (dfuel : D A)).
Proof.
  repeat split; intros; intros s E; cbn; auto; [unfold current; destruct (cu_pkg _)|unfold leave; destruct (s_sec s)]; auto.
Qed.
Lemma typed_member G : typed_ G (member file).
Proof. unfold member. apply typed_bind; [apply typed_names|]. intros [e tk]. destruct e as [[]| | | | |]; apply typed_simple. Qed.
Lemma typed_register G p name l e : typed_ G (register p name l e).
Proof. unfold register. apply typed_bind; [apply typed_names|]. intros _ s E. exact E. Qed.
Lemma typed_field G o k : typed_ G (field_of o k).
Proof.
  unfold field_of. apply typed_bind; [apply typed_simple|]. intros v. destruct (nth_error _ _); [destruct (assoc _ _)|]; apply typed_simple.
Qed.
Lemma typed_assign G o k f : typed_ G (assign o k f).
Proof. unfold assign. apply typed_bind; [apply typed_field|]. intros x. destruct (is_null _); [intros s E; exact E|apply typed_simple]. Qed.
Ltac ty := repeat first
  [ apply typed_field | apply typed_assign | apply typed_register | apply typed_member | apply typed_dp | apply typed_names | apply typed_simple
  | match goal with
    | |- forall _, _ => intro
    | |- typed_ _ (dbind _ _) => apply typed_bind
    | |- typed_ _ (dcond _ _ _) => apply typed_cond
    | |- typed_ _ (if ?x then _ else _) => destruct x
    | |- typed_ _ (match ?x with Some _ => _ | None => _ end) => destruct x
    | |- typed_ _ (let '(_, _) := ?x in _) => destruct x
    end ].
Lemma typed_assignments G m r o : typed_ G (assignments file src n m r o).
Proof. induction m as [|m IH]; cbn [assignments]; [ty|]. unfold assignment. ty. apply IH. Qed.
Lemma typed_complete G l r o cs : typed_ G (complete l r o cs).
Proof. induction cs as [|x cs IH]; cbn [complete]; ty. apply IH. Qed.
Lemma typed_object G : typed_ G (parse_object file src n).
Proof.
  unfold parse_object. ty.
  - apply typed_assignments.
  - apply typed_complete.
Qed.
Lemma typed_entry G m : typed_ G (parse_entry file src n m) with typed_entries G m : typed_ G (entries_loop file src n m).
Proof.
  - destruct m as [|m]; cbn [parse_entry]; [apply typed_simple|]. clear typed_entry. ty; [apply typed_entries|clear typed_entries; apply typed_object].
  - destruct m as [|m]; cbn [entries_loop]; [apply typed_simple|]. apply typed_cond; [apply typed_simple|].
    apply typed_bind; [apply typed_entry|]. intros _. apply typed_entries.
Qed.

(** All states with the types [G] *)
Section TYPES.
Variable G : types.
Hypothesis types : types_ok matches G.
Definition dst_ {A} (b k : nat) (m : D A) : Prop := forall c v, v_types v = G -> dsp c v b k m.
Lemma dst_bind {A B} b k1 k (m : D A) (f : A -> D B) :
  typed_ G m -> dst_ b k1 m -> (forall a, dst_ (b - k1) (k - k1) (f a)) -> dst_ b k (dbind m f).
Proof.
  intros T H1 H2 c v Ty s Ev Ec I L. subst v. specialize (H1 _ _ Ty s eq_refl Ec I L). specialize (T s Ty). unfold dbind.
  destruct (m s) as [a s1| | |]; auto. destruct H1 as [I1 L1].
  specialize (H2 a _ _ T s1 eq_refl eq_refl I1 ltac:(lia)). destruct (f a s1); auto; destruct H2; split; auto; lia.
Qed.
Lemma dst_bind1 {A B} b k (m : D A) (f : A -> D B) :
  typed_ G m -> dst_ b 1 m -> (forall a b', b = Datatypes.S b' -> dst_ b' (k - 1) (f a)) -> dst_ b k (dbind m f).
Proof.
  intros T H1 H2 c v Ty s Ev Ec I L. subst v. specialize (H1 _ _ Ty s eq_refl Ec I L). specialize (T s Ty). unfold dbind.
  destruct (m s) as [a s1| | |]; auto. destruct H1 as [I1 L1]. destruct b as [|b]; [lia|].
  specialize (H2 a b eq_refl _ _ T s1 eq_refl eq_refl I1 ltac:(lia)). destruct (f a s1); auto; destruct H2; split; auto; lia.
Qed.
Lemma dst_any {A} b k (m : D A) : dsa b k m -> dst_ b k m.
Proof. intros H c v _. apply H. Qed.
Lemma dst_weaken {A} b k b' k' (m : D A) : dst_ b k m -> b' <= b -> k' <= k -> dst_ b' k' m.
Proof. intros H L1 L2 c v T. eapply dsp_weaken; eauto. Qed.

Lemma assignment_ds b r o : b <= n -> dst_ b 1 (assignment file src n r o).
Proof.
  intros L. unfold assignment. apply dst_bind1; [ty|apply dst_any, dsa_dp; apply take_spends|]. intros tk b1 ->.
  intros c v Ty. apply dsp_get. apply dsp_lift; [auto with fuel|]. intros x E.
  eapply dsp_bind with (k1 := 0) (E := fun _ => True) (Q := fun _ v' => v' = v); [|apply field_ds|].
  { intros s Ev Ec. unfold field_of, dbind, dget. destruct (nth_error _ _) as [ob|]; [|exact I]. destruct (assoc _ _); cbn; auto. }
  intros old ? ->. destruct (negb _); [apply dsa_error|]. destruct (is_frozen _ _ _); [apply dsa_error|].
  apply dsp_take; [apply match_spends|]. intros _ b3 Eb.
  assert (Ix : In x (all_components (v_types v) r)).
  { apply t_lookup_in in E. unfold components_of in E. apply in_map_iff in E as (y & Ey & I). injection Ey as _ <-.
    apply chain_components in I; auto. eapply ok_order; rewrite Ty; eauto. }
  eapply dsp_bind1 with (Q := fun _ _ => True) (E := fun _ => True).
  - intros s _ Ec. destruct (value_of file src n (c_typ x) s) eqn:Ev; auto; split; auto.
    all: unfold value_of, with_names in Ev; destruct (parse_value _ _ _ _ _ _ _ _) in Ev; inversion Ev; subst; auto.
  - apply value_ds; [rewrite Ty; auto| |lia]. eapply component_complete; eauto. rewrite Ty. auto.
  - intros y v' b4 _ Eb4. eapply dsp_weaken; [|apply Nat.le_refl|]. { apply (dsa_bind src b4 0 0 fresh); [ds|]. intros. eapply dsa_weaken; [apply assign_ds|apply Nat.le_refl|lia]. } lia.
Qed.
Lemma assignments_ds m b r o : b < m -> b <= n -> dst_ b 0 (assignments file src n m r o).
Proof.
  revert b. induction m as [|m IH]; intros b L Ln; [lia|]. cbn [assignments]. intros c v T. apply dsp_cond; [apply dsa_ret|]. revert c v T.
  apply dst_bind1; [unfold assignment; ty|apply assignment_ds; auto|]. intros _ b' ->. apply (dst_weaken b' 0); auto. apply IH; lia.
Qed.
(** What follows the type of an object *)
Definition object_rest (r : nat) (tk : token) : D unit :=
  let# v := dget in
  match rec (v_types v) r with
  | None => dcrash
  | Some rt =>
      if r_abstract rt then derror (E_msg (tok_loc file tk) M_abstract)
      else
        let# name := dp (p_match file IDENTIFIER) in
        let# p := current in
        let# sec := sections in
        let o := List.length (v_objs v) in
        let l := tok_loc file name in
        let# _ := register p (tok_text name) l (N_obj o) in
        let# _ := dset (add_object (Object p (tok_text name) l r
                                      (null_components (v_next v) l (all_components (v_types v) r))) sec) in
        let# _ := dp (p_match file C_BRA) in
        let# _ := assignments file src n n r o in
        let# _ := complete l r o (all_components (v_types v) r) in
        let# _ := dp (p_match file C_KET) in
        dret tt
  end.
Lemma object_rest_ds b r tk : b < n -> dst_ b 0 (object_rest r tk).
Proof.
  intros L. unfold object_rest. apply (dst_bind b 0 0); [ty|apply dst_any; ds|]. intros v. rewrite Nat.sub_0_r.
  destruct (rec _ _) as [rt|]; [|apply dst_any; ds]. destruct (r_abstract rt); [apply dst_any; ds|].
  apply dst_bind1; [ty|apply dst_any, dsa_dp; apply take_spends|]. intros name b1 ->.
  apply (dst_bind b1 0 _); [ty|apply dst_any; ds|]. intros p. apply (dst_bind _ 0 _); [ty|apply dst_any; ds|]. intros sec.
  apply (dst_bind _ 0 _); [ty|apply dst_any, register_ds|]. intros _.
  apply (dst_bind _ 0 _); [intros s E; exact E|apply dst_any; ds|]. intros _. cbn [Nat.sub]. rewrite !Nat.sub_0_r.
  apply dst_bind1; [ty|apply dst_any, dsa_dp; apply take_spends|]. intros _ b2 ->.
  apply (dst_bind _ 0 _); [apply typed_assignments|apply assignments_ds; lia|]. intros _.
  apply dst_any. dnest 0; [apply complete_ds|]. ds.
Qed.
Lemma object_eq : parse_object file src n = (let# (r, tk) := member file in object_rest r tk).
Proof. reflexivity. Qed.
Lemma object_ds b : b <= n -> dst_ b 1 (parse_object file src n).
Proof.
  intros L. rewrite object_eq. apply dst_bind1; [ty|apply dst_any, member_ds|]. intros [r tk] b' ->.
  eapply dst_weaken; [apply (object_rest_ds b')|lia|lia]. lia.
Qed.

(** *** Sections *)
Definition section_rest (m : nat) : D unit :=
  let# name := dp (p_match file STRING) in
  let# _ := enter (tok_loc file name, tok_text name) in
  let# _ := dp (p_match file C_BRA) in
  let# _ := entries_loop file src n m in
  let# _ := dp (p_match file C_KET) in
  leave.
Lemma entry_eq m : parse_entry file src n (Datatypes.S m) =
  dcond (peek_kw (t "section")) (let# _ := dp (p_match_kw file (t "section")) in section_rest m) (parse_object file src n).
Proof. reflexivity. Qed.
Lemma entry_ds_both m : (forall b, b < m -> b <= n -> dst_ b 1 (parse_entry file src n m)) /\
  (forall b, b + 1 < m -> b <= n -> dst_ b 0 (entries_loop file src n m)).
Proof.
  induction m as [|m [IH1 IH2]]; [split; intros; lia|]. split; intros b L Ln.
  - rewrite entry_eq. intros c v T. apply dsp_cond; [|apply object_ds; auto]. revert c v T.
    apply dst_bind1; [ty|apply dst_any, dsa_dp; apply take_spends|]. intros _ b1 ->. unfold section_rest.
    apply dst_bind1; [ty|apply dst_any, dsa_dp; apply take_spends|]. intros name b2 ->.
    apply (dst_bind _ 0 _); [ty|apply dst_any; ds|]. intros _.
    apply dst_bind1; [ty|apply dst_any, dsa_dp; apply take_spends|]. intros _ b3 E.
    apply (dst_bind _ 0 _); [apply typed_entries|apply IH2; lia|]. intros _. apply dst_any. ds.
  - cbn [entries_loop]. intros c v T. apply dsp_cond; [apply dsa_ret|]. revert c v T.
    apply dst_bind1; [apply typed_entry|apply IH1; lia|]. intros _ b' ->. apply (dst_weaken b' 0); auto. apply IH2; lia.
Qed.
Lemma section_rest_ds m b : b <= m -> b <= n -> dst_ b 0 (section_rest m).
Proof.
  intros L Ln. unfold section_rest. 
  apply dst_bind1; [ty|apply dst_any, dsa_dp; apply take_spends|]. intros name b2 ->.
  apply (dst_bind _ 0 _); [ty|apply dst_any; ds|]. intros _.
  apply dst_bind1; [ty|apply dst_any, dsa_dp; apply take_spends|]. intros _ b3 E.
  apply (dst_bind _ 0 _); [apply typed_entries|apply (entry_ds_both m); lia|]. intros _. apply dst_any. ds.
Qed.
End TYPES.
End DECL.
