(** The declarations of types and checks keep the tables consistent. *)
From Coq Require Import Relations.
From Verif Require Import Base Lexer SymTab Ast Eval Typing TypesProofs ParserBase ParserProofs ParserExpr ParserValue ExprTyping
  ValueSyntax ValueParserSound ValueTyping Lint ParserDecl ParserFile Growth DeclInv.
From Verif Require SourceManProofs.
From Coq Require Import ZifyBool ZifyNat ZifyN.
Open Scope Z_scope.

(** ** Rules *)

(** Started with the declarations [v] of unit [c], [m] delivers a result and
    declarations in [Q], or fails with declarations in [E]. *)
Definition run_ {A} (c : cunit) (v : env) (m : D A) (Q : A -> env -> Prop) (E : env -> Prop) : Prop :=
  forall s, s_env s = v -> s_cu s = c ->
    match m s with
    | DOk a s' => Q a (s_env s') /\ s_cu s' = c
    | DErr _ s' => E (s_env s') /\ s_cu s' = c
    | DCrash | DFuel => True
    end.

Section RULES.
Variable c : cunit.
Lemma run_bind {A B} v (m : D A) (k : A -> D B) Q Q' E :
  run_ c v m Q' E -> (forall a v', Q' a v' -> run_ c v' (k a) Q E) -> run_ c v (dbind m k) Q E.
Proof.
  intros H K s Es Ec. unfold dbind. specialize (H s Es Ec). destruct (m s) as [a s'|e s'| |]; auto.
  destruct H as [H Ec']. exact (K a _ H s' eq_refl Ec').
Qed.
Lemma run_ret {A} v (a : A) (Q : A -> env -> Prop) E : Q a v -> run_ c v (dret a) Q E.
Proof. intros H s <- Ec. cbn. auto. Qed.
Lemma run_error {A} v e (Q : A -> env -> Prop) (E : env -> Prop) : E v -> run_ c v (derror e) Q E.
Proof. intros H s <- Ec. cbn. auto. Qed.
Lemma run_crash {A} v (Q : A -> env -> Prop) E : run_ c v dcrash Q E.
Proof. intros s _ _. exact I. Qed.
Lemma run_fuel {A} v (Q : A -> env -> Prop) E : run_ c v dfuel Q E.
Proof. intros s _ _. exact I. Qed.
Lemma run_cond {A} v b (x y : D A) Q E : run_ c v x Q E -> run_ c v y Q E -> run_ c v (dcond b x y) Q E.
Proof. intros H K s Es Ec. unfold dcond. destruct (b (s_ps s)); [exact (H s Es Ec)|exact (K s Es Ec)]. Qed.
Lemma run_get v (Q : env -> env -> Prop) E : Q v v -> run_ c v dget Q E.
Proof. intros H s <- Ec. cbn. auto. Qed.
Lemma run_set v f (Q : unit -> env -> Prop) E : Q tt (f v) -> run_ c v (dset f) Q E.
Proof. intros H s <- Ec. cbn. auto. Qed.
Lemma run_names {A} v (m : env -> names -> P A) (Q : A -> env -> Prop) (E : env -> Prop) :
  (forall a p s', m v (names_of v c) p = POk a s' -> Q a v) -> E v -> run_ c v (with_names m) Q E.
Proof.
  intros H K s <- <-. unfold with_names. destruct (m _ _ _) as [a p|e p| |] eqn:Em; cbn; eauto.
Qed.
Lemma run_dp {A} v (m : P A) (Q : A -> env -> Prop) (E : env -> Prop) :
  (forall a p s', m p = POk a s' -> Q a v) -> E v -> run_ c v (dp m) Q E.
Proof. intros H K. apply run_names; auto. Qed.
Lemma run_dp_any {A} v (m : P A) (Q : A -> env -> Prop) (E : env -> Prop) :
  (forall a, Q a v) -> E v -> run_ c v (dp m) Q E.
Proof. intros H K. apply run_names; auto. Qed.
Lemma lift_pok {A} (r : res perr A) p a s' : lift r p = POk a s' -> r = Ok a.
Proof. destruct r; cbn; try discriminate. intros H. injection H as <- _. auto. Qed.
Lemma run_dlift {A} v (r : res perr A) (Q : A -> env -> Prop) (E : env -> Prop) :
  (forall a, r = Ok a -> Q a v) -> E v -> run_ c v (dlift r) Q E.
Proof. intros H K. apply run_dp; auto. intros a p s' X. apply H. eapply lift_pok; eauto. Qed.
Lemma run_fresh v (Q : nat -> env -> Prop) E :
  Q (v_next v) (Env (v_types v) (v_objs v) (v_secs v) (v_stab v) (v_pkgs v) (S (v_next v))) -> run_ c v fresh Q E.
Proof. intros H s <- Ec. cbn. auto. Qed.
Lemma run_current v p (Q : nat -> env -> Prop) E : cu_pkg c = Some p -> Q p v -> run_ c v current Q E.
Proof. intros Ep H s <- Ec. unfold current. rewrite Ec, Ep. auto. Qed.
Lemma run_weaken {A} v (m : D A) (Q Q' : A -> env -> Prop) (E E' : env -> Prop) :
  run_ c v m Q E -> (forall a v', Q a v' -> Q' a v') -> (forall v', E v' -> E' v') -> run_ c v m Q' E'.
Proof. intros H K1 K2 s Es Ec. specialize (H s Es Ec). destruct (m s); auto; destruct H; split; auto. Qed.
Lemma run_if {A} v (b : bool) (x y : D A) Q E : (b = true -> run_ c v x Q E) -> (b = false -> run_ c v y Q E) ->
  run_ c v (if b then x else y) Q E.
Proof. destruct b; auto. Qed.
End RULES.

(** ** Types *)
Lemma chain_components G f r x : wf_types G -> (r <= f)%nat -> In x (chain_steps G f r) <-> In x (all_components_steps G f r).
Proof.
  intros O. revert r. induction f as [|f IH]; intros r L; cbn; destruct (rec G r) as [rt|] eqn:E; try tauto.
  - destruct (r_parent rt) as [q|] eqn:P; [|rewrite app_nil_r; tauto].
    assert (q < r)%nat by (apply O; exists rt; auto). lia.
  - destruct (r_parent rt) as [q|] eqn:P; [|rewrite app_nil_r; tauto].
    assert (q < r)%nat by (apply O; exists rt; auto). rewrite !in_app_iff, IH by lia. tauto.
Qed.

Section RSL.
Variable file : Z.
Variable src : text.
Variable lint : bool.
Variable compiles : text -> bool.
Variable matches : text -> text -> option bool.
Hypothesis regex : forall p x, compiles p = true -> matches p x <> None.
Variable n : nat.
Variable c : cunit.
Variable p : nat.
Hypothesis pkg : cu_pkg c = Some p.

Notation loc_of := (tok_loc file).
Notation types_ok := (types_ok matches).
Notation decl_ok := (decl_ok matches).
Notation rec_ok := (rec_ok matches).

(** While types are declared there are no objects. *)
Record no_objects (v : env) : Prop := NoObjects { nb_objs : v_objs v = []; nb_ok : decl_ok v }.

Ltac step := intros; first
  [ apply run_ret | apply run_error | apply run_crash | apply run_fuel | apply run_get | apply run_set | apply run_fresh
  | apply (run_current c _ p); [exact pkg|] ].

(** *** Names *)
Lemma qualified_in N sc f tk s e tk' s' :
  qualified_rest file N sc tk (Some f) s = POk (e, tk') s' ->
  f e = true /\ ((exists k d, In d sc /\ In (k, e) d) \/ exists k q, In (k, e) (p_symbols N q)).
Proof.
  assert (L1 : forall d tk e, e_lookup file d tk (Some f) = Ok e -> f e = true /\ exists k, In (k, e) d).
  { intros d tk0 e0 H. pose proof (t_lookup_in file _ _ _ _ _ H) as I. split; eauto.
    unfold e_lookup, t_lookup in H. destruct (t_find d (tok_text tk0)) as [[k a']|]; [|discriminate].
    destruct (text_eqb k (tok_text tk0)); [|discriminate]. destruct (f a') eqn:F; [|discriminate]. injection H as <-. auto. }
  assert (L2 : forall tk e, s_lookup file sc tk (Some f) = Ok e -> f e = true /\ exists k d, In d sc /\ In (k, e) d).
  { clear -L1. intros tk e. induction sc as [|d sc IH]; cbn; [discriminate|]. intros H. destruct sc as [|d' sc].
    - apply L1 in H as [F (k & I)]. split; auto. exists k, d. auto.
    - destruct (t_contains d (tok_text tk)).
      + apply L1 in H as [F (k & I)]. split; auto. exists k, d. auto.
      + destruct (IH H) as [F (k & d0 & I & J)]. split; auto. exists k, d0. auto. }
  unfold qualified_rest. intros H. apply pbind_ok in H as (sym & s1 & H1 & H). apply lift_pok in H1.
  assert (Simple : (let* e0 := lift (s_lookup file sc tk (Some f)) in pret (e0, tk)) s1 = POk (e, tk') s' ->
     f e = true /\ ((exists k d, In d sc /\ In (k, e) d) \/ exists k q, In (k, e) (p_symbols N q))).
  { intros H'. apply pbind_ok in H' as (e0 & s2 & H2 & H'). injection H' as -> _ _. apply lift_pok in H2.
    apply L2 in H2 as [F X]. auto. }
  destruct sym; auto. destruct (is_visible N p0).
  - apply pbind_ok in H as (x & s2 & _ & H). apply pbind_ok in H as (x2 & s3 & _ & H). apply pbind_ok in H as (e0 & s4 & H3 & H).
    injection H as -> _ _. apply lift_pok in H3. apply L1 in H3 as [F (k & I)]. split; auto. right. eauto.
  - unfold hidden in H. destruct (n_imports N); discriminate.
Qed.
Lemma symbols_valid v N q k e : n_stab N = v_stab v -> n_pkgs N = v_pkgs v -> names_ok v -> In (k, e) (p_symbols N q) ->
  entry_valid (v_types v) (v_objs v) (v_pkgs v) e.
Proof.
  intros E1 E2 O I. unfold p_symbols in I. rewrite E1, E2 in I. apply in_app_or in I as [I|I]; [|eapply no_stab; eauto].
  destruct (nth_in_or_default q (v_pkgs v) []) as [J|J]; [eapply no_pkgs; eauto|]. rewrite J in I. contradiction.
Qed.
Lemma name_valid v N f s e tk' s' : n_stab N = v_stab v -> n_pkgs N = v_pkgs v -> names_ok v ->
  parse_qualified_name file N (default_scope N) (Some f) s = POk (e, tk') s' ->
  f e = true /\ entry_valid (v_types v) (v_objs v) (v_pkgs v) e.
Proof.
  intros E1 E2 O H. unfold parse_qualified_name in H. apply pbind_ok in H as (x & s2 & _ & H).
  apply qualified_in in H as [F [(k & d & Id & I)|(k & q & I)]]; split; auto.
  - unfold default_scope in Id. destruct Id as [<-|[<-|[]]]; [|rewrite E1 in I; eapply no_stab; eauto].
    eapply symbols_valid; eauto.
  - eapply symbols_valid; eauto.
Qed.

Lemma run_member v E : names_ok v -> (E v : Prop) ->
  run_ c v (member file) (fun x v' => v' = v /\ (fst x < List.length (recs (v_types v)))%nat) E.
Proof.
  intros O Ev. unfold member. eapply run_bind.
  - apply run_names with (Q := fun x v' => v' = v /\ is_record_entity (fst x) = true /\ entry_valid (v_types v) (v_objs v) (v_pkgs v) (fst x)); auto.
    intros [e tk] q s' H. apply name_valid with (v := v) in H as [F V]; auto.
  - intros [e tk] v' (-> & F & V). cbn in *. destruct e as [a| | | | |]; try apply run_crash. destruct a; try apply run_crash.
    step. split; auto. cbn. apply (ev_type _ _ _ _ V _ eq_refl).
Qed.

(** *** Registration *)
Lemma run_register v q name l e E : (E v : Prop) ->
  run_ c v (register q name l e) (fun _ v' => v' = add_entry q name e v) E.
Proof. intros Ev. unfold register. eapply run_bind; [apply run_names with (Q := fun _ v' => v' = v); auto|]. intros _ v' ->. step. auto. Qed.

(** Only [v_next] and [v_secs] differ. *)
Record alike (v v' : env) : Prop := Alike {
  al_types : v_types v' = v_types v; al_objs : v_objs v' = v_objs v; al_stab : v_stab v' = v_stab v; al_pkgs : v_pkgs v' = v_pkgs v
}.
Lemma alike_refl v : alike v v. Proof. constructor; auto. Qed.
Lemma alike_trans v1 v2 v3 : alike v1 v2 -> alike v2 v3 -> alike v1 v3.
Proof. intros [A B C F] [A' B' C' F']. constructor; congruence. Qed.
Lemma alike_names v v' : alike v v' -> names_ok v -> names_ok v'.
Proof. intros [A B C F] O. apply (names_grow v); auto; rewrite ?A, ?B; auto using keeps_refl. Qed.
Lemma alike_ok v v' : alike v v' -> decl_ok v -> decl_ok v'.
Proof. intros H O. constructor; [destruct H as [-> _ _ _]; apply O|eapply alike_names; eauto; apply O]. Qed.
Lemma alike_no_objects v v' : alike v v' -> no_objects v -> no_objects v'.
Proof. intros H [O1 O2]. constructor; [destruct H as [_ -> _ _]; auto|eapply alike_ok; eauto]. Qed.
Lemma alike_next v k : alike v (Env (v_types v) (v_objs v) (v_secs v) (v_stab v) (v_pkgs v) k).
Proof. constructor; auto. Qed.

(** New types *)
Definition enums_ok (es : list enumtype) : Prop := forall i en, nth_error es i = Some en -> NoDup (map simplified_name (en_lits en)).
Lemma types_enums G es : types_ok G -> enums_ok es -> types_ok (Types (recs G) (tups G) es).
Proof.
  intros O Oe. apply (types_grow matches G); [auto|apply keeps_enums| | |exact Oe].
  - intros r rt R. right. exists rt. split; auto.
  - intros u ut U. right. exists ut. split; auto.
Qed.
Lemma no_objects_enums v es : no_objects v -> enums_ok es -> no_objects (set_types (Types (recs (v_types v)) (tups (v_types v)) es) v).
Proof.
  intros [O1 [O2 O3]] Oe. constructor; auto. constructor; [apply types_enums; auto|]. eapply names_grow; eauto; apply keeps_enums.
Qed.

(** *** Enumerations *)
Lemma registrable_fresh {A} (f : A -> entity) d name l u : registrable f d name l = Ok u ->
  ~ In (simplified_name name) (map (fun x => simplified_name (fst x)) d).
Proof.
  unfold registrable. destruct (t_find d name) as [[k a]|] eqn:F; [discriminate|]. intros _ I. clear u.
  induction d as [|[k a] d IH]; [destruct I|]. cbn [t_find map fst In] in *. destruct (text_eqb (simplified_name k) (simplified_name name)) eqn:E; [discriminate|].
  destruct I as [E2|I]; auto. rewrite E2, text_eqb_refl in E. discriminate.
Qed.
Lemma enums_lit G e name : enums_ok (enums G) ->
  ~ In (simplified_name name) (map (fun x => simplified_name (fst x)) (enum_literals G e)) -> enums_ok (change (enums G) e (add_lit name)).
Proof.
  intros O Fr i en E. destruct (Nat.eq_dec e i) as [<-|Ne]; [|rewrite change_other in E by auto; eauto].
  rewrite change_same in E. destruct (nth_error (enums G) e) as [en'|] eqn:E'; [|discriminate]. injection E as <-. cbn.
  rewrite map_app. apply SourceManProofs.NoDup_snoc; [eauto|]. unfold enum_literals in Fr. rewrite E', map_map in Fr. exact Fr.
Qed.
Lemma run_literals m e empty v : no_objects v -> run_ c v (enum_literals_loop file m e empty) (fun _ => no_objects) no_objects.
Proof.
  revert empty v. induction m as [|m IH]; intros empty v O; cbn; [step|].
  apply run_cond; [step; auto|]. eapply run_bind; [apply run_dp_any with (Q := fun _ v' => v' = v); auto|]. intros tk v' ->.
  eapply run_bind; [apply run_get with (Q := fun x v' => x = v /\ v' = v); auto|]. intros x v' [-> ->].
  eapply run_bind; [apply run_dlift with (Q := fun _ v' => v' = v /\
    ~ In (simplified_name (tok_text tk)) (map (fun x => simplified_name (fst x)) (enum_literals (v_types v) e))); auto|].
  { intros u E. split; auto. eapply registrable_fresh; eauto. }
  intros _ v' [-> Fr].
  eapply run_bind; [apply run_set with (Q := fun _ v' => v' = change_enum e (add_lit (tok_text tk)) v); auto|]. intros _ v' ->.
  apply IH. apply no_objects_enums; auto. apply enums_lit; auto. exact (ty_enums _ _ (do_types _ _ (nb_ok _ O))).
Qed.
Lemma run_enum v : no_objects v -> run_ c v (parse_enum_declaration file n) (fun _ => no_objects) no_objects.
Proof.
  intros O. unfold parse_enum_declaration.
  eapply run_bind; [apply run_dp_any with (Q := fun _ v' => v' = v); auto|]. intros _ v' ->.
  eapply run_bind; [apply run_dp_any with (Q := fun _ v' => v' = v); auto|]. intros tk v' ->.
  eapply run_bind; [apply (run_current c _ p) with (Q := fun x v' => x = p /\ v' = v); auto|]. intros x v' [-> ->].
  eapply run_bind; [apply run_get with (Q := fun x v' => x = v /\ v' = v); auto|]. intros x v' [-> ->].
  eapply run_bind; [apply run_register; auto|]. intros _ v' ->.
  eapply run_bind; [apply run_set with (Q := fun _ => no_objects); auto|].
  - destruct O as [O1 [O2 O3]]. constructor; auto. constructor; [apply types_enums; auto|].
    { intros i en E. apply nth_extended in E as [E|[_ ->]]; [eapply ty_enums; eauto|constructor]. }
    eapply names_register with (v := v); eauto; cbn; try lia; try reflexivity; [apply keeps_enums| |discriminate].
    constructor; try discriminate; auto. intros a E. injection E as <-. split; [reflexivity|exact I].
  - intros ? v' O'.
    eapply run_bind; [apply run_dp_any with (Q := fun _ => no_objects); auto|]. intros ? v2 O2.
    eapply run_bind; [apply run_literals; auto|]. intros b v3 O3.
    eapply run_bind; [apply run_dp_any with (Q := fun _ => no_objects); auto|]. intros ? v4 O4.
    destruct b; step; auto.
Qed.

(** *** Types of components *)
Lemma run_members m v (E : env -> Prop) : names_ok v -> E v ->
  run_ c v (union_members file m) (fun l v' => v' = v /\ forall x, In x l -> (fst x < List.length (recs (v_types v)))%nat) E.
Proof.
  revert v. induction m as [|m IH]; intros v O Ev; cbn; [step|].
  apply run_cond; [|step; split; auto; intros x []].
  eapply run_bind; [apply run_dp_any with (Q := fun _ v' => v' = v); auto|]. intros _ v' ->.
  eapply run_bind; [apply run_member; auto|]. intros x v' [-> Hx].
  eapply run_bind; [apply IH; auto|]. intros l v' [-> Hl].
  step. split; auto. intros y [<-|I]; auto.
Qed.
Lemma run_union v (E : env -> Prop) : names_ok v -> E v ->
  run_ c v (parse_union_type file n) (fun a v' => alike v v' /\ valid (v_types v) a /\ is_array a = false) E.
Proof.
  intros O Ev. unfold parse_union_type.
  eapply run_bind; [apply run_dp_any with (Q := fun _ v' => v' = v); auto|]. intros _ v' ->.
  eapply run_bind; [apply run_member; auto|]. intros x v' [-> Hx].
  eapply run_bind; [apply run_members; auto|]. intros l v' [-> Hl].
  eapply run_bind; [apply run_dp_any with (Q := fun _ v' => v' = v); auto|]. intros _ v' ->.
  eapply run_bind; [apply run_get with (Q := fun x v' => x = v /\ v' = v); auto|]. intros x' v' [-> ->].
  eapply run_bind; [apply run_dp_any with (Q := fun _ v' => v' = v); auto|]. intros _ v' ->.
  eapply run_bind; [apply run_fresh with (Q := fun _ v' => alike v v'); apply alike_next|]. intros i v' A.
  step. split; auto. split; auto. cbn [valid map]. intros m [<-|I]; auto. apply in_map_iff in I as (y & <- & I). auto.
Qed.
Lemma run_component_type v (E : env -> Prop) : names_ok v -> E v ->
  run_ c v (parse_component_type file n) (fun a v' => alike v v' /\ valid (v_types v) a /\ is_array a = false) E.
Proof.
  intros O Ev. unfold parse_component_type. apply run_cond; [apply run_union; auto|].
  eapply run_bind.
  - apply run_names with (Q := fun x v' => v' = v /\ is_type (fst x) = true /\ entry_valid (v_types v) (v_objs v) (v_pkgs v) (fst x)); auto.
    intros [e tk] q s' H. apply name_valid with (v := v) in H as [F V]; auto.
  - intros [e tk] v' (-> & F & V). cbn in *. destruct e as [a| | | | |]; try apply run_crash.
    step. split; [apply alike_refl|]. destruct (ev_type _ _ _ _ V _ eq_refl) as [Nt Va]. split; auto. destruct a; auto; discriminate.
Qed.

(** *** Records *)
Lemma run_array v a (E : env -> Prop) : E v -> valid (v_types v) a -> is_array a = false ->
  run_ c v (parse_array_part file a) (fun b v' => alike v v' /\ valid (v_types v) b /\ simple_array b) E.
Proof.
  intros Ev V Na. unfold parse_array_part. apply run_cond.
  2:{ step. split; [apply alike_refl|]. split; auto. destruct a; cbn; auto. discriminate. }
  do 6 (eapply run_bind; [apply run_dp_any with (Q := fun _ v' => v' = v); auto|]; intros ? ? ->).
  eapply run_bind; [apply run_fresh with (Q := fun _ v' => alike v v'); apply alike_next|]. intros i v' A.
  step. split; auto. split; [exact V|]. destruct a; cbn; auto. discriminate.
Qed.
Lemma run_record_component v r (E : env -> Prop) : names_ok v -> (forall v', alike v v' -> E v') ->
  run_ c v (parse_record_component file n r)
    (fun x v' => alike v v' /\ valid (v_types v) (c_typ (fst x)) /\ simple_array (c_typ (fst x)) /\ c_of (fst x) = TRec r) E.
Proof.
  intros O Ev. unfold parse_record_component. assert (E v) by (apply Ev; apply alike_refl).
  eapply run_bind; [apply run_dp_any with (Q := fun _ v' => v' = v); auto|]. intros tk ? ->.
  eapply run_bind with (Q' := fun _ v' => v' = v).
  { apply run_cond; [|step; auto]. eapply run_bind; [apply run_dp_any with (Q := fun _ v' => v' = v); auto|]. intros ? ? ->. step; auto. }
  intros opt ? ->.
  eapply run_bind; [apply run_component_type; auto|]. intros a v1 (A1 & V1 & N1).
  eapply run_bind; [apply run_array; auto; rewrite (al_types _ _ A1); auto|]. intros b v2 (A2 & V2 & S2).
  step. cbn. split; [eapply alike_trans; eauto|]. rewrite (al_types _ _ A1) in V2. auto.
Qed.

(** While record type [r], the last one, is declared. *)
Record body (v0 : env) (name : text) (v : env) (rt : rectype) : Prop := Body {
  bd_types : v_types v = Types (recs (v_types v0) ++ [rt]) (tups (v_types v0)) (enums (v_types v0));
  bd_objs : v_objs v = [];
  bd_stab : v_stab v = v_stab v0;
  bd_pkgs : v_pkgs v = change (v_pkgs v0) p (fun d => d ++ [(name, N_type (TRec (List.length (recs (v_types v0)))))]);
  bd_rec : rec_ok (v_types v) (List.length (recs (v_types v0))) rt;
  bd_checks : r_checks rt = []
}.
Lemma body_ok v0 name v rt : no_objects v0 -> body v0 name v rt -> no_objects v.
Proof.
  intros [O1 [O2 O3]] [A B C F R _]. constructor; auto.
  assert (K : keeps (v_types v0) (v_types v)) by (rewrite A; apply keeps_add_rec).
  constructor.
  - eapply types_grow; eauto.
    + intros r rt' Er. rewrite A in Er. unfold rec in Er. cbn in Er. apply nth_extended in Er as [Er|[-> ->]]; auto.
      right. exists rt'. auto.
    + intros u ut' U. rewrite A in U. right. exists ut'. auto.
    + rewrite A. apply O2.
  - eapply names_register with (v := v0); eauto; [rewrite B, O1; auto| |discriminate].
    constructor; try discriminate; auto. intros a E. injection E as <-. split; auto. rewrite A. cbn. rewrite app_length. cbn. lia.
Qed.
Lemma body_alike v0 name v v' rt : body v0 name v rt -> alike v v' -> body v0 name v' rt.
Proof. intros [A B C F R Ck] [A' B' C' F']. constructor; rewrite ?A', ?B', ?C', ?F'; auto. Qed.

Lemma valid_length G G' a : (List.length (recs G) <= List.length (recs G'))%nat -> (List.length (tups G) <= List.length (tups G'))%nat ->
  valid G a -> valid G' a.
Proof. intros L1 L2. induction a; cbn; auto; try lia. intros H m I. specialize (H m I). lia. Qed.

(** Both versions of the last type have the same parent. *)
Section LAST.
Variables (G0 : types) (rt rt' : rectype).
Hypothesis order0 : wf_types G0.
Let G := Types (recs G0 ++ [rt]) (tups G0) (enums G0).
Let G' := Types (recs G0 ++ [rt']) (tups G0) (enums G0).
Let r := List.length (recs G0).
Hypothesis parent : r_parent rt' = r_parent rt.
Hypothesis below : forall q, r_parent rt = Some q -> (q < r)%nat.

Lemma last_components : all_components G' r = match r_parent rt with Some q => all_components G0 q | None => [] end ++ r_comps rt'.
Proof.
  unfold all_components. assert (E : rec G' r = Some rt') by (unfold rec, G'; apply nth_last).
  destruct (r_parent rt) as [q|] eqn:Pq.
  - assert (Lq := below q eq_refl).
    assert (X : forall f, (q <= f)%nat -> all_components_steps G' f q = all_components_steps G0 q q).
    { intros f Lf. rewrite (keeps_components_steps G0 G' (keeps_add_rec _ _) order0) by auto.
      destruct (Nat.le_exists_sub q f Lf) as (k & -> & _). clear - order0.
      enough (H : forall q f, (q <= f)%nat -> all_components_steps G0 f q = all_components_steps G0 q q) by (apply H; lia).
      clear q k. induction q as [q IH] using lt_wf_ind. intros f L.
      destruct f as [|f]; [assert (q = 0)%nat as -> by lia; auto|]. destruct q as [|q]; cbn [all_components_steps].
      - destruct (rec G0 0) as [rt|] eqn:R; auto. destruct (r_parent rt) as [w|] eqn:P; auto.
        assert (w < 0)%nat by (apply order0; exists rt; auto). lia.
      - destruct (rec G0 (S q)) as [rt|] eqn:R; auto. destruct (r_parent rt) as [w|] eqn:P; auto.
        assert (w < S q)%nat by (apply order0; exists rt; auto). rewrite (IH w ltac:(lia) f), (IH w ltac:(lia) q) by lia. auto. }
    enough (H : forall f, f = r -> all_components_steps G' f r = all_components_steps G0 q q ++ r_comps rt') by auto.
    intros [|f] Ef; [lia|]. cbn [all_components_steps]. rewrite E, parent, X by lia. auto.
  - enough (H : forall f, all_components_steps G' f r = r_comps rt') by (apply H).
    intros [|f]; cbn [all_components_steps]; rewrite E, parent; auto.
Qed.
End LAST.

Lemma components_names G r : wf_types G -> forall k, In k (map (fun x => simplified_name (fst x)) (components_of G (TRec r))) <->
  In k (map (fun c => simplified_name (c_name c)) (all_components G r)).
Proof.
  intros O k. unfold components_of. rewrite map_map. cbn [fst]. rewrite !in_map_iff.
  split; intros (x & E & I); exists x; (split; [exact E|]); apply (chain_components G r r x O); auto.
Qed.

Lemma body_change v0 name v rt f : no_objects v0 -> body v0 name v rt ->
  rec_ok (Types (recs (v_types v0) ++ [f rt]) (tups (v_types v0)) (enums (v_types v0))) (List.length (recs (v_types v0))) (f rt) ->
  r_checks (f rt) = [] ->
  body v0 name (change_rec (List.length (recs (v_types v0))) f v) (f rt).
Proof.
  intros O [A B C F R Ck] R' Ck'.
  assert (E : v_types (change_rec (List.length (recs (v_types v0))) f v) =
              Types (recs (v_types v0) ++ [f rt]) (tups (v_types v0)) (enums (v_types v0))).
  { unfold change_rec, set_types. cbn. rewrite A. cbn. rewrite change_last. auto. }
  constructor; auto. rewrite E. auto.
Qed.
Lemma extends_last G0 rt rt' : r_parent rt' = r_parent rt ->
  grows (Types (recs G0 ++ [rt]) (tups G0) (enums G0)) (Types (recs G0 ++ [rt']) (tups G0) (enums G0)).
Proof.
  intros P. split.
  - unfold tup. cbn. eauto.
  - intros x y (xt & R & Q). unfold extends. cbn in *. apply nth_extended in R as [R|[-> ->]].
    + exists xt. rewrite nth_before; auto. apply nth_error_Some. congruence.
    + exists rt'. rewrite nth_last. split; auto. congruence.
Qed.

Lemma last_ok G0 rt rt' cs fs :
  let G := Types (recs G0 ++ [rt]) (tups G0) (enums G0) in
  let G' := Types (recs G0 ++ [rt']) (tups G0) (enums G0) in
  let r := List.length (recs G0) in
  wf_types G0 -> rec_ok G r rt ->
  r_parent rt' = r_parent rt -> r_comps rt' = r_comps rt ++ cs -> r_frozen rt' = r_frozen rt ++ fs -> r_checks rt' = [] ->
  (forall x, In x cs -> valid G (c_typ x) /\ simple_array (c_typ x) /\ c_of x = TRec r) ->
  NoDup (map (fun c => simplified_name (c_name c)) (all_components G r ++ cs)) ->
  (forall k f, In (k, f) fs -> exists x, In x (all_components G r) /\ c_name x = k /\ vt0 G [] (c_typ x) (snd f)) ->
  rec_ok G' r rt'.
Proof.
  intros G G' r Or [Rp Rv Rs Ro Rn Rf Rc] Ep Ec Ef Ek Hc Hn Hf.
  assert (All : all_components G' r = all_components G r ++ cs).
  { unfold G, G', r. rewrite (last_components G0 rt rt' Or Ep Rp), (last_components G0 rt rt Or eq_refl Rp), Ec, app_assoc. auto. }
  assert (Lv : forall a, valid G a -> valid G' a).
  { intros a. apply valid_length; cbn; rewrite ?app_length; auto. }
  assert (Gr : grows G G') by (apply extends_last; auto).
  constructor; rewrite ?Ep, ?Ec, ?Ef, ?Ek, ?All; auto.
  - intros x I. apply in_app_or in I as [I|I]; auto. apply Lv, Hc, I.
  - intros x I. apply in_app_or in I as [I|I]; auto. apply Hc, I.
  - intros x I. apply in_app_or in I as [I|I]; auto. apply Hc, I.
  - intros k f I. assert (X : exists x, In x (all_components G r) /\ c_name x = k /\ vt0 G [] (c_typ x) (snd f)).
    { apply in_app_or in I as [I|I]; auto. }
    destruct X as (x & Ix & En & Vt). exists x. split; [apply in_or_app; auto|]. split; auto.
    eapply (vt0_mono G G' [] []); eauto. intros o ob Q. eauto.
  - intros x [].
Qed.

Lemma run_declare v0 name v rt : no_objects v0 -> body v0 name v rt ->
  run_ c v (declare_component file n (List.length (recs (v_types v0)))) (fun _ v' => exists rt', body v0 name v' rt') no_objects.
Proof.
  intros O Bd. assert (Ov := body_ok _ _ _ _ O Bd). unfold declare_component.
  eapply run_bind; [apply run_record_component with (E := no_objects); [apply Ov|intros; eapply alike_no_objects; eauto]|].
  intros [x l] v1 (A1 & V1 & S1 & Ow). cbn [fst] in *. assert (Bd1 := body_alike _ _ _ _ _ Bd A1).
  assert (O1 := body_ok _ _ _ _ O Bd1).
  eapply run_bind; [apply run_get with (Q := fun x v' => x = v1 /\ v' = v1); auto|]. intros ? ? [-> ->].
  destruct (rec (v_types v1) (List.length (recs (v_types v0)))) as [rt1|] eqn:R1; [|step].
  destruct (r_final rt1); [step; auto|].
  eapply run_bind; [apply run_dlift with (Q := fun _ v' => v' = v1 /\ ~ In (simplified_name (c_name x)) (map (fun x => simplified_name (fst x)) (components_of (v_types v1) (TRec (List.length (recs (v_types v0)))))));
    [intros u E; split; auto; eapply registrable_fresh; eauto|auto]|].
  intros ? ? [-> Fr]. step. exists (add_comp x rt).
  assert (Or1 : wf_types (v_types v1)) by (apply (ok_order matches); apply O1).
  rewrite (components_names _ _ Or1) in Fr.
  assert (T1 := bd_types _ _ _ _ Bd1). assert (R := bd_rec _ _ _ _ Bd1). rewrite <- (al_types _ _ A1) in V1.
  rewrite T1 in R, Fr, V1.
  apply body_change; auto; [|apply (bd_checks _ _ _ _ Bd1)].
  eapply last_ok with (rt := rt) (cs := [x]) (fs := []); auto.
  - apply (ok_order matches). apply O.
  - cbn. rewrite app_nil_r. auto.
  - apply (bd_checks _ _ _ _ Bd1).
  - intros y [<-|[]]. auto.
  - rewrite map_app. cbn. apply SourceManProofs.NoDup_snoc; auto. apply (ro_names _ _ _ _ R).
  - intros k f [].
Qed.

Lemma run_value v a (E : env -> Prop) : decl_ok v -> E v ->
  run_ c v (value_of file src n a) (fun x v' => v' = v /\ vt0 (v_types v) (v_objs v) a x) E.
Proof.
  intros [Ot _] Ev. apply run_names; auto. intros x q s' H. split; auto.
  destruct (value_sound file src (v_types v) (v_objs v) (names_of v c) (ok_order _ _ Ot) (ok_tuples _ _ Ot) _ _ _ _ _ _ H) as (ts & ns & V & _).
  exact (proj1 (value_typed _ _ _ _ _ _) _ _ _ _ V).
Qed.
Lemma run_freeze v0 name v rt : no_objects v0 -> body v0 name v rt ->
  run_ c v (parse_freeze file src n (List.length (recs (v_types v0)))) (fun _ v' => exists rt', body v0 name v' rt') no_objects.
Proof.
  intros O Bd. assert (Ov := body_ok _ _ _ _ O Bd). unfold parse_freeze.
  eapply run_bind; [apply run_dp_any with (Q := fun _ v' => v' = v); auto|]. intros _ ? ->.
  eapply run_bind; [apply run_dp_any with (Q := fun _ v' => v' = v); auto|]. intros tk ? ->.
  eapply run_bind; [apply run_get with (Q := fun x v' => x = v /\ v' = v); auto|]. intros ? ? [-> ->].
  assert (Or : wf_types (v_types v)) by (apply (ok_order matches); apply Ov).
  eapply run_bind; [apply run_dlift with (Q := fun x v' => v' = v /\ In x (all_components (v_types v) (List.length (recs (v_types v0)))));
    [intros x E; split; auto|auto]|].
  { apply t_lookup_in in E. unfold components_of in E. apply in_map_iff in E as (y & Ey & I). injection Ey as _ <-.
    apply chain_components in I; auto. }
  intros x ? [-> Ix]. destruct (is_frozen _ _ _); [step; auto|].
  eapply run_bind; [apply run_dp_any with (Q := fun _ v' => v' = v); auto|]. intros ? ? ->.
  eapply run_bind; [apply run_value; auto; apply Ov|]. intros y ? [-> Vy].
  eapply run_bind; [apply run_fresh with (Q := fun _ v' => alike v v'); apply alike_next|]. intros id v1 A1.
  step. exists (add_frozen (c_name x) (id, y) rt). assert (Bd1 := body_alike _ _ _ _ _ Bd A1).
  assert (T := bd_types _ _ _ _ Bd). assert (R := bd_rec _ _ _ _ Bd). rewrite (bd_objs _ _ _ _ Bd) in Vy. rewrite T in R, Ix, Vy.
  apply body_change; auto; [|apply (bd_checks _ _ _ _ Bd1)].
  eapply last_ok with (rt := rt) (cs := []) (fs := [(c_name x, (id, y))]); auto.
  - apply (ok_order matches). apply O.
  - cbn. rewrite app_nil_r. auto.
  - apply (bd_checks _ _ _ _ Bd1).
  - intros z [].
  - rewrite app_nil_r. apply (ro_names _ _ _ _ R).
  - intros k f [I|[]]. injection I as <- <-. exists x. auto.
Qed.
Lemma run_body m v0 name v rt : no_objects v0 -> body v0 name v rt ->
  run_ c v (record_body file src n m (List.length (recs (v_types v0)))) (fun _ v' => exists rt', body v0 name v' rt') no_objects.
Proof.
  intros O. revert v rt. induction m as [|m IH]; intros v rt Bd; cbn; [step|].
  apply run_cond; [step; eauto|].
  eapply run_bind; [apply run_cond; [eapply run_freeze|eapply run_declare]; eauto|]. intros ? v' (rt' & Bd'). eauto.
Qed.

Lemma run_extends v (E : env -> Prop) : names_ok v -> E v ->
  run_ c v (parse_extends file) (fun q v' => v' = v /\ forall r, q = Some r -> (r < List.length (recs (v_types v)))%nat) E.
Proof.
  intros O Ev. unfold parse_extends. apply run_cond; [|step; split; auto; discriminate].
  eapply run_bind; [apply run_dp_any with (Q := fun _ v' => v' = v); auto|]. intros _ ? ->.
  eapply run_bind; [apply run_member; auto|]. intros [r tk] ? [-> L]. step. split; auto. intros r' E'. injection E' as <-. auto.
Qed.
Lemma body_start v name q fi ab : no_objects v -> (forall r, q = Some r -> (r < List.length (recs (v_types v)))%nat) ->
  let rt := RecType p name q [] [] fi ab [] in
  body v name (add_rec rt (add_entry p name (N_type (TRec (List.length (recs (v_types v))))) v)) rt.
Proof.
  intros O Hq rt. constructor; auto; [apply O|]. cbn.
  assert (A : all_components (Types (recs (v_types v) ++ [rt]) (tups (v_types v)) (enums (v_types v))) (List.length (recs (v_types v))) =
     match q with Some q => all_components (v_types v) q | None => [] end ++ []).
  { apply (last_components (v_types v) rt rt); auto. apply (ok_order matches). apply O. }
  constructor; cbn; try contradiction; auto. rewrite A, app_nil_r. destruct q; [apply (ok_similar matches); apply O|constructor].
Qed.
Lemma run_record v : no_objects v -> run_ c v (parse_record_declaration file src lint n) (fun _ => no_objects) no_objects.
Proof.
  intros O. unfold parse_record_declaration.
  eapply run_bind with (Q' := fun _ v' => v' = v).
  { apply run_cond; [|apply run_cond; [|step; auto]];
      (eapply run_bind; [apply run_dp_any with (Q := fun _ v' => v' = v); auto|]; intros _ ? ->; step; auto). }
  intros [ab fi] ? ->.
  eapply run_bind; [apply run_dp_any with (Q := fun _ v' => v' = v); auto|]. intros _ ? ->.
  eapply run_bind; [apply run_dp_any with (Q := fun _ v' => v' = v); auto|]. intros tk ? ->.
  eapply run_bind; [apply run_extends; auto; apply O|]. intros q ? [-> Hq].
  eapply run_bind; [apply run_get with (Q := fun x v' => x = v /\ v' = v); auto|]. intros ? ? [-> ->].
  eapply run_bind with (Q' := fun _ v' => v' = v).
  { destruct (_ && _); [apply run_dp_any; auto|step; auto]. }
  intros _ ? ->.
  eapply run_bind; [apply (run_current c _ p) with (Q := fun x v' => x = p /\ v' = v); auto|]. intros x ? [-> ->].
  eapply run_bind; [apply run_register; auto|]. intros _ ? ->.
  set (rt := RecType p (tok_text tk) q [] [] (is_final_type (v_types v) q) ab []).
  eapply run_bind; [apply run_set with (Q := fun _ v' => exists rt, body v (tok_text tk) v' rt)|].
  - exists rt. apply body_start; auto.
  - intros _ v1 (rt1 & Bd1). assert (O1 := body_ok _ _ _ _ O Bd1).
    eapply run_bind; [apply run_dp_any with (Q := fun _ v' => v' = v1); auto|]. intros _ ? ->.
    eapply run_bind; [eapply run_body; eauto|]. intros _ v2 (rt2 & Bd2). assert (O2 := body_ok _ _ _ _ O Bd2).
    eapply run_bind; [apply run_dp_any with (Q := fun _ v' => v' = v2); auto|]. intros _ ? ->.
    destruct fi; step; auto. apply (body_ok v (tok_text tk) _ (set_final rt2)); auto. apply (body_change v (tok_text tk) v2 rt2 set_final); auto; [|apply (bd_checks _ _ _ _ Bd2)].
    assert (R := bd_rec _ _ _ _ Bd2). rewrite (bd_types _ _ _ _ Bd2) in R.
    eapply last_ok with (rt := rt2) (cs := []) (fs := []); cbn; rewrite ?app_nil_r; auto.
    + apply (ok_order matches). apply O.
    + apply (bd_checks _ _ _ _ Bd2).
    + intros ? [].
    + apply (ro_names _ _ _ _ R).
    + intros ? ? [].
Qed.

(** *** Tuples *)
Lemma run_cond_true {A} v b (x y : D A) Q E : (forall s, b s = true) -> run_ c v x Q E -> run_ c v (dcond b x y) Q E.
Proof. intros B H s Es Ec. unfold dcond. rewrite B. apply H; auto. Qed.

Lemma run_tuple_field v u allowed reason required (E : env -> Prop) : names_ok v -> (forall v', alike v v' -> E v') ->
  run_ c v (parse_tuple_field file n u allowed reason required)
    (fun x v' => alike v v' /\ valid (v_types v) (c_typ (fst x)) /\ is_array (c_typ (fst x)) = false /\
                 c_of (fst x) = TTup u /\
                 (c_opt (fst x) = true -> allowed = true) /\ (required = true -> c_opt (fst x) = true)) E.
Proof.
  intros O Ev. assert (E v) by (apply Ev; apply alike_refl). unfold parse_tuple_field.
  eapply run_bind; [apply run_dp_any with (Q := fun _ v' => v' = v); auto|]. intros tk ? ->.
  eapply run_bind with (Q' := fun opt v' => v' = v /\ (opt = true -> allowed = true) /\ (required = true -> opt = true)).
  { assert (X : run_ c v (let# tk := dp (p_match_kw file (t "optional")) in
                  if allowed then dret true else derror (E_msg (loc_of tk) reason))
              (fun opt v' => v' = v /\ (opt = true -> allowed = true) /\ (required = true -> opt = true)) E).
    { eapply run_bind; [apply run_dp_any with (Q := fun _ v' => v' = v); auto|]. intros ? ? ->. destruct allowed; step; auto. }
    destruct required; [apply run_cond_true; auto|]. apply run_cond; auto. step. split; auto. split; discriminate. }
  intros opt ? (-> & Ha & Hr).
  eapply run_bind; [apply run_component_type; auto|]. intros a v1 (A1 & V1 & N1). step. cbn. auto 8.
Qed.

Record fields_ok (a : ty) (G : types) (hs req allowed : bool) (cs : list component) (seps : list separator) : Prop := FieldsOk {
  fo_some : cs <> [];
  fo_names : NoDup (map (fun c => simplified_name (c_name c)) cs);
  fo_own : forall x, In x cs -> c_of x = a;
  fo_types : forall x, In x cs -> valid G (c_typ x) /\ is_array (c_typ x) = false;
  fo_seps : (hs = true /\ allowed = true /\ seps <> [] /\ List.length cs = S (List.length seps)) \/
            (hs = false /\ seps = [] /\ (allowed = true -> List.length cs = 1%nat));
  fo_first : forall x xs, cs = x :: xs -> c_opt x = false;
  fo_opt : forall l x m y r, cs = l ++ x :: m ++ y :: r -> c_opt x = true -> c_opt y = true;
  fo_req : req = existsb c_opt cs;
  fo_form : hs = false -> forall x, In x cs -> c_opt x = false
}.
Lemma fields_alike a0 v v' hs req al cs seps : alike v v' -> fields_ok a0 (v_types v) hs req al cs seps -> fields_ok a0 (v_types v') hs req al cs seps.
Proof. intros [-> _ _ _]. auto. Qed.

Lemma fields_snoc a0 G hs req al cs seps x hs' al' seps' : fields_ok a0 G hs req al cs seps ->
  valid G (c_typ x) -> is_array (c_typ x) = false -> c_of x = a0 -> (c_opt x = true -> hs' = true) -> (req = true -> c_opt x = true) ->
  ~ In (simplified_name (c_name x)) (map (fun c => simplified_name (c_name c)) cs) ->
  (hs' = true /\ al' = true /\ List.length seps' = List.length cs) \/ (hs' = false /\ hs = false /\ al' = false /\ seps' = []) ->
  fields_ok a0 G hs' (req || c_opt x) al' (cs ++ [x]) seps'.
Proof.
  intros [A B Ow C F H I J K] Va Na Ea Ho Hr Fr Hs. constructor.
  - destruct cs; discriminate.
  - rewrite map_app. apply SourceManProofs.NoDup_snoc; auto.
  - intros y Iy. apply in_app_or in Iy as [Iy|[<-|[]]]; auto.
  - intros y Iy. apply in_app_or in Iy as [Iy|[<-|[]]]; auto.
  - rewrite app_length. cbn. destruct Hs as [(-> & -> & L)|(-> & _ & -> & ->)]; [left|right].
    + split; auto. split; auto. split; [|lia]. intros ->. cbn in L. destruct cs; [congruence|discriminate].
    + split; auto. split; auto. discriminate.
  - intros y ys E. destruct cs as [|z cs]; [congruence|]. injection E as <- _. eauto.
  - intros l a m b r E Oa. destruct r as [|r0 r] using rev_ind.
    + replace (l ++ a :: m ++ [b]) with ((l ++ a :: m) ++ [b]) in E by (rewrite <- app_assoc; auto).
      apply app_inj_tail in E as [-> ->]. apply Hr. rewrite J. apply existsb_exists. exists a. split; auto. apply in_or_app. right; left; auto.
    + clear IHr. replace (l ++ a :: m ++ b :: r ++ [r0]) with ((l ++ a :: m ++ b :: r) ++ [r0]) in E
        by (rewrite <- app_assoc; cbn; rewrite <- app_assoc; auto).
      apply app_inj_tail in E as [-> ->]. eapply I; eauto.
  - rewrite existsb_app, J. cbn. rewrite orb_false_r. auto.
  - intros Hf y Iy. destruct Hs as [(-> & _)|(_ & Hh & _)]; [discriminate|]. apply in_app_or in Iy as [Iy|[<-|[]]]; auto.
    destruct (c_opt x); auto. specialize (Ho eq_refl). congruence.
Qed.

(** The separator; without one, no field follows. *)
Lemma separator_ok s l s' : parse_separator s = POk l s' -> (List.length l = 1)%nat \/ (l = [] /\ peek IDENTIFIER s' = false).
Proof.
  unfold parse_separator. destruct (nt (at_ s)) as [tk|] eqn:Nt.
  - destruct (sep_of tk) as [sep|] eqn:Sp.
    + intros H. apply pbind_ok in H as (x & s1 & _ & H). injection H as <- _. auto.
    + intros H. injection H as <- <-. right. split; auto. unfold peek, next_is. rewrite Nt. unfold sep_of in Sp.
      destruct (is_kind IDENTIFIER tk); auto. discriminate.
  - intros H. injection H as <- <-. right. split; auto. unfold peek, next_is. rewrite Nt. auto.
Qed.
Lemma no_field u allowed reason required s : peek IDENTIFIER (s_ps s) = false ->
  exists e, parse_tuple_field file n u allowed reason required s = DErr e s.
Proof.
  intros Pk. unfold parse_tuple_field, dbind, dp, with_names, parse_described_name, pbind, p_match, p_take.
  unfold peek, next_is in Pk. destruct s as [v cu sec [[ct0 nt0 rest0] out0]]. cbn in *.
  destruct nt0 as [tk|]; [rewrite Pk|]; eauto.
Qed.

Definition separator_step (hs allowed : bool) (cs : list (component * loc)) (seps : list separator) :=
  dcond (fun s => hs || peek_kw (t "separator") s)
    (let# tk := dp (p_match_kw file (t "separator")) in
     if allowed then
       let# sep := dp parse_separator in
       let# _ := add_separator cs seps sep in
       dret (true, allowed, seps ++ sep)
     else derror (E_msg (loc_of tk) M_separators))
    (dret (hs, false, seps)).
Lemma run_separator a0 v G hs req al cs seps s : s_env s = v -> s_cu s = c -> fields_ok a0 G hs req al (map fst cs) seps ->
  match separator_step hs al cs seps s with
  | DOk (hs', al', seps') s' => s_env s' = v /\ s_cu s' = c /\
      ((hs' = true /\ al' = true /\ List.length seps' = List.length cs) \/ (hs' = false /\ hs = false /\ al' = false /\ seps' = []) \/
       peek IDENTIFIER (s_ps s') = false)
  | DErr _ s' => s_env s' = v /\ s_cu s' = c
  | _ => True
  end.
Proof.
  intros <- <- F. unfold separator_step, dcond. destruct (hs || peek_kw (t "separator") (s_ps s)) eqn:Cd.
  - unfold dbind at 1. unfold dp at 1, with_names at 1. destruct (p_match_kw file (t "separator") (s_ps s)) as [tk q|e q| |]; cbn; auto.
    destruct al; cbn; auto. unfold dbind at 1. unfold dp at 1, with_names at 1. cbn.
    destruct (parse_separator q) as [sep q'|e q'| |] eqn:Sp; cbn; auto.
    unfold dbind, add_separator. destruct (separator_ok _ _ _ Sp) as [L|[-> Pk]].
    + destruct sep as [|x [|]]; try discriminate. destruct (Nat.eqb (S (List.length seps)) (List.length cs)) eqn:Q; cbn; auto.
      split; auto. split; auto. left. split; auto. split; auto. rewrite app_length. cbn. lia.
    + cbn. auto 8.
  - apply orb_false_iff in Cd as [-> _]. cbn. split; auto. split; auto. right. left. split; auto. split; auto. split; auto.
    destruct (fo_seps _ _ _ _ _ _ _ F) as [(Q & _)|(_ & Q & _)]; [discriminate|auto].
Qed.

Lemma run_tuple_fields m v u hs req al cs seps : no_objects v -> fields_ok (TTup u) (v_types v) hs req al (map fst cs) seps ->
  run_ c v (tuple_fields file n m u hs req al cs seps)
    (fun x v' => let '(hs', cs', seps') := x in alike v v' /\ exists req' al', fields_ok (TTup u) (v_types v) hs' req' al' (map fst cs') seps') no_objects.
Proof.
  revert v hs req al cs seps. induction m as [|m IH]; intros v hs req al cs seps O F; cbn [tuple_fields]; [step|].
  apply run_cond; [|step; split; [apply alike_refl|eauto]].
  intros s Es Ec. pose proof (run_separator (TTup u) v _ hs req al cs seps s Es Ec F) as Sp. unfold separator_step in Sp.
  unfold dbind at 1.
  destruct (dcond _ _ _ s) as [[[hs' al'] seps'] s1|e s1| |]; auto.
  2:{ destruct Sp as [-> ->]. auto. }
  destruct Sp as (E1 & C1 & Sp).
  assert (K : (hs' = true /\ al' = true /\ List.length seps' = List.length cs) \/ (hs' = false /\ hs = false /\ al' = false /\ seps' = []) ->
    run_ c v (let# c0 := parse_tuple_field file n u hs' M_optional_separators req in
              let# cs' := register_field cs c0 in tuple_fields file n m u hs' (req || c_opt (fst c0)) al' cs' seps')
      (fun x v' => let '(hs', cs', seps') := x in alike v v' /\ exists req' al', fields_ok (TTup u) (v_types v) hs' req' al' (map fst cs') seps') no_objects).
  { clear s s1 Es Ec E1 C1 Sp. intros Sp.
    eapply run_bind; [apply run_tuple_field with (E := no_objects); [apply O|intros; eapply alike_no_objects; eauto]|].
    intros x v1 (A1 & V1 & N1 & Oo & Ho & Hr).
    eapply run_bind with (Q' := fun y v' => y = cs ++ [x] /\ v' = v1 /\ ~ In (simplified_name (c_name (fst x))) (map (fun c => simplified_name (c_name c)) (map fst cs))).
    { unfold register_field. eapply run_bind; [apply run_dlift with (Q := fun _ v' => v' = v1 /\ ~ In (simplified_name (c_name (fst x))) (map (fun c => simplified_name (c_name c)) (map fst cs)))|].
      - intros ? E. split; auto. apply registrable_fresh in E. unfold comp_table in E. rewrite map_map in *. exact E.
      - eapply alike_no_objects; eauto.
      - intros ? ? [-> Fr]. step. auto. }
    intros ? ? (-> & -> & Fr).
    eapply run_weaken; [apply IH; [eapply alike_no_objects; eauto|]| |auto].
    - rewrite (al_types _ _ A1), map_app. eapply fields_snoc; eauto. rewrite map_length. auto.
    - intros [[h2 c2] s2] v2 [A2 (rq & al2 & F2)]. split; [eapply alike_trans; eauto|]. exists rq, al2. rewrite <- (al_types _ _ A1). auto. }
  destruct Sp as [Sp|[Sp|Sp]]; [exact (K (or_introl Sp) s1 E1 C1)|exact (K (or_intror Sp) s1 E1 C1)|].
  unfold dbind at 1. destruct (no_field u hs' M_optional_separators req s1 Sp) as (e & ->). rewrite E1, C1. auto.
Qed.

Lemma sorted_in x l : In x l -> In x (sorted_fields l).
Proof.
  assert (Ins : forall y l, In x (insert_field y l) <-> x = y \/ In x l).
  { intros y l0. induction l0 as [|z l0 IH]; cbn; [intuition|]. destruct (SourceMan.text_leb _ _); cbn; [intuition|]. rewrite IH. intuition. }
  induction l as [|y l IH]; cbn; auto. intros [->|I]; apply Ins; auto.
Qed.
Lemma nesting_ok G cs u x w wt : nesting G cs = Ok u -> In x (map fst cs) -> c_typ x = TTup w -> tup G w = Some wt -> u_seps wt = [].
Proof.
  unfold nesting. destruct (find _ _) eqn:Fd; [discriminate|]. intros _ I Et U. apply in_map_iff in I as (y & <- & I).
  apply sorted_in in I. pose proof (find_none _ _ Fd _ I) as H. unfold has_separators in H. rewrite Et, U in H.
  destruct (u_seps wt); auto. discriminate.
Qed.
Lemma fields_tuple G hs req al cs seps q name : fields_ok (TTup (List.length (tups G))) G hs req al cs seps ->
  (hs = true -> forall x w wt, In x cs -> c_typ x = TTup w -> tup G w = Some wt -> u_seps wt = []) ->
  let ut := TupType q name cs seps [] in
  tup_ok matches (Types (recs G) (tups G ++ [ut]) (enums G)) (List.length (tups G)) ut.
Proof.
  intros [A B Ow C F H I J K] Ns ut. constructor; [constructor|..]; cbn; auto; try contradiction.
  - apply (NoDup_map_inv simplified_name). rewrite map_map. auto.
  - intros x Ix. destruct (C x Ix) as [V N]. destruct (c_typ x); auto. discriminate.
  - destruct F as [(_ & _ & _ & L)|(_ & -> & _)]; auto.
  - intros Sn x w wt Ix Et U. destruct F as [(Hs & _)|(_ & Q & _)]; [|congruence].
    destruct (C x Ix) as [V N]. rewrite Et in V. cbn in V. unfold tup in U. cbn in U. rewrite nth_before in U by auto. eapply Ns; eauto.
  - intros -> x Ix. apply K; auto. destruct F as [(_ & _ & Q & _)|(Q & _)]; auto. congruence.
  - intros x Ix. eapply keeps_valid; [apply keeps_add_tup|]. apply C; auto.
Qed.

Lemma run_tuple v : no_objects v -> run_ c v (parse_tuple_declaration file n) (fun _ => no_objects) no_objects.
Proof.
  intros O. unfold parse_tuple_declaration.
  eapply run_bind; [apply run_dp_any with (Q := fun _ v' => v' = v); auto|]. intros _ ? ->.
  eapply run_bind; [apply run_dp_any with (Q := fun _ v' => v' = v); auto|]. intros tk ? ->.
  eapply run_bind; [apply run_dp_any with (Q := fun _ v' => v' = v); auto|]. intros _ ? ->.
  eapply run_bind; [apply run_get with (Q := fun x v' => x = v /\ v' = v); auto|]. intros ? ? [-> ->].
  set (u := List.length (tups (v_types v))).
  eapply run_bind; [apply run_tuple_field with (E := no_objects); [apply O|intros; eapply alike_no_objects; eauto]|].
  intros x v1 (A1 & V1 & N1 & Oo & Ho & Hr). assert (O1 := alike_no_objects _ _ A1 O).
  assert (Nopt : c_opt (fst x) = false) by (destruct (c_opt (fst x)); auto; specialize (Ho eq_refl); discriminate).
  eapply run_bind with (Q' := fun y v' => y = [x] /\ v' = v1).
  { unfold register_field. eapply run_bind; [apply run_dlift with (Q := fun _ v' => v' = v1); auto|]. intros ? ? ->. step. auto. }
  intros ? ? [-> ->].
  eapply run_bind; [apply run_tuple_fields with (v := v1); auto|].
  { constructor; cbn; auto.
    - discriminate.
    - repeat constructor. intros [].
    - intros y [<-|[]]. auto.
    - intros y [<-|[]]. rewrite (al_types _ _ A1). auto.
    - intros y ys E. injection E as <- _. auto.
    - intros l a m b r E. exfalso. apply (f_equal (@List.length _)) in E. rewrite app_length in E. cbn in E. rewrite app_length in E. cbn in E. lia.
    - rewrite Nopt. auto.
    - intros _ y [<-|[]]. auto. }
  intros [[hs cs] seps] v2 [A2 (rq & al2 & F2)]. assert (O2 := alike_no_objects _ _ A2 O1).
  eapply run_bind; [apply run_dp_any with (Q := fun _ v' => v' = v2); auto|]. intros _ ? ->.
  eapply run_bind; [apply run_get with (Q := fun x v' => x = v2 /\ v' = v2); auto|]. intros ? ? [-> ->].
  eapply run_bind with (Q' := fun _ v' => v' = v2 /\ (hs = true -> exists i, nesting (v_types v2) cs = Ok i)).
  { destruct hs; [apply run_dlift; eauto|step; split; auto; discriminate]. }
  intros ? ? [-> Ns].
  eapply run_bind; [apply (run_current c _ p) with (Q := fun x v' => x = p /\ v' = v2); auto|]. intros ? ? [-> ->].
  eapply run_bind; [apply run_register; auto|]. intros _ ? ->. step.
  assert (A3 := alike_trans _ _ _ A1 A2). assert (Et : v_types v2 = v_types v) by apply A3.
  destruct O2 as [Ob [Ot On]]. rewrite <- (al_types _ _ A2) in F2.
  assert (T : tup_ok matches (Types (recs (v_types v2)) (tups (v_types v2) ++ [TupType p (tok_text tk) (map fst cs) seps []]) (enums (v_types v2)))
     u (TupType p (tok_text tk) (map fst cs) seps [])).
  { unfold u in *. rewrite <- Et in *. eapply fields_tuple; eauto. intros Hs y w wt Iy Ey U. destruct (Ns Hs) as (i & Ei). eapply nesting_ok; eauto. }
  constructor; auto. constructor.
  - apply (types_grow matches (v_types v2)); [auto|apply keeps_add_tup| | |apply Ot].
    + intros r rt R. right. exists rt. auto.
    + intros w wt U. unfold tup in U. cbn in U. apply nth_extended in U as [U|[-> ->]]; [right; exists wt; auto|].
      left. unfold u in T. rewrite <- Et in T. exact T.
  - eapply names_register with (v := v2); eauto; cbn; try lia; try reflexivity; [apply keeps_add_tup| |discriminate].
    constructor; try discriminate; auto. intros b E. injection E as <-. split; [reflexivity|]. cbn. rewrite app_length. cbn. unfold u. rewrite Et. lia.
Qed.
Lemma run_type v : no_objects v -> run_ c v (parse_type_declaration file src lint n) (fun _ => no_objects) no_objects.
Proof.
  intros O. unfold parse_type_declaration. apply run_cond; [apply run_enum; auto|]. apply run_cond; [apply run_tuple; auto|apply run_record; auto].
Qed.

(** *** Checks *)
Lemma declared_here v : no_objects v -> declared (v_types v) (World (v_objs v) matches) compiles (names_of v c).
Proof.
  intros [Ob [Ot On]]. constructor.
  - apply (ok_order matches); auto.
  - intros o ob. cbn. rewrite Ob. destruct o; discriminate.
  - apply (ok_distinct matches). auto.
  - apply (ok_tup matches). auto.
  - apply (ok_own matches). auto.
  - exact regex.
  - intros k e I. eapply ev_global. eapply no_stab; eauto.
  - intros d k e I J. eapply ev_global. eapply no_pkgs; eauto.
Qed.
Lemma check_parsed v a q x s' : no_objects v -> parse_check file lint compiles matches n v (names_of v c) a q = POk x s' ->
  check_ok matches (v_types v) a x.
Proof.
  intros O H. assert (Dc := declared_here v O). destruct O as [Ob [Ot On]]. unfold parse_check in H.
  apply pbind_ok in H as (e & s1 & H1 & H).
  assert (We : wt (v_types v) (World (v_objs v) matches) false (type_scope (v_types v) a) e).
  { eapply (parsed_typed file lint _ _ compiles _ Dc); [|exact H1]. apply agree_check with (W := World (v_objs v) matches) (compiles := compiles). auto. }
  destruct (e_typ e) as [b|] eqn:Et; [|discriminate]. destruct b; try discriminate.
  apply pbind_ok in H as (? & s2 & _ & H). apply pbind_ok in H as (sev & s3 & _ & H). apply pbind_ok in H as (msg & s4 & _ & H).
  apply pbind_ok in H as ([ex has] & s5 & _ & H). apply pbind_ok in H as (an & s6 & Ha & H). injection H as <- _.
  rewrite Ob in We. constructor; cbn; auto.
  intros k ->. unfold parse_anchor in Ha. destruct has; [|discriminate].
  apply pbind_ok in Ha as (tk & s7 & _ & Ha). apply pbind_ok in Ha as (y & s8 & Hy & Ha). injection Ha as <- _.
  apply lift_pok in Hy. apply t_lookup_in in Hy. unfold components_of in Hy. apply in_map_iff in Hy as (z & Ez & Iz).
  injection Ez as _ <-. exists z. split; auto. destruct a; try contradiction; cbn; auto.
  apply chain_components in Iz; auto. apply (ok_order matches); auto.
Qed.
Lemma add_check_ok v a x : no_objects v -> valid (v_types v) a -> check_ok matches (v_types v) a x -> no_objects (add_check a x v).
Proof.
  intros [Ob [Ot On]] V Ck. destruct a; try (constructor; auto; constructor; auto; fail); cbn.
  - assert (K : keeps (v_types v) (Types (recs (v_types v)) (change (tups (v_types v)) u (add_tup_check x)) (enums (v_types v))))
      by (apply keeps_change_tup; auto).
    constructor; auto. constructor; [|eapply names_grow; eauto; auto].
    apply (types_grow matches (v_types v)); auto; [| |apply Ot].
    + intros r rt R. right. exists rt. auto.
    + intros w wt U. right. unfold tup in U. cbn in U. destruct (Nat.eq_dec u w) as [<-|Ne].
      * rewrite change_same in U. destruct (nth_error (tups (v_types v)) u) as [ut|] eqn:U0; [|discriminate]. injection U as <-.
        exists ut. split; auto. cbn. intros y I. apply in_app_or in I as [I|[<-|[]]]; auto.
      * rewrite change_other in U by auto. exists wt. auto.
  - assert (K : keeps (v_types v) (Types (change (recs (v_types v)) r (add_rec_check x)) (tups (v_types v)) (enums (v_types v))))
      by (apply keeps_change_rec; auto).
    constructor; auto. constructor; [|eapply names_grow; eauto; auto].
    apply (types_grow matches (v_types v)); auto; [| |apply Ot].
    + intros w wt U. right. unfold rec in U. cbn in U. destruct (Nat.eq_dec r w) as [<-|Ne].
      * rewrite change_same in U. destruct (nth_error (recs (v_types v)) r) as [ut|] eqn:U0; [|discriminate]. injection U as <-.
        exists ut. split; auto. cbn. intros y I. apply in_app_or in I as [I|[<-|[]]]; auto.
      * rewrite change_other in U by auto. exists wt. auto.
    + intros w wt U. right. exists wt. auto.
Qed.
Lemma add_check_valid v a b x : valid (v_types v) b -> valid (v_types (add_check a x v)) b.
Proof. apply valid_length; destruct a; cbn; rewrite ?change_length; auto. Qed.
Lemma run_check_loop m v a : no_objects v -> valid (v_types v) a ->
  run_ c v (check_loop file lint compiles matches n m a) (fun _ => no_objects) no_objects.
Proof.
  revert v. induction m as [|m IH]; intros v O V; cbn; [step|]. apply run_cond; [step; auto|].
  eapply run_bind; [apply run_names with (Q := fun x v' => v' = v /\ check_ok matches (v_types v) a x); [|auto]|].
  { intros x q s' H. split; auto. eapply check_parsed; eauto. }
  intros x ? [-> Ck]. eapply run_bind; [apply run_set with (Q := fun _ v' => v' = add_check a x v); auto|]. intros ? ? ->.
  apply IH; [apply add_check_ok; auto|apply add_check_valid; auto].
Qed.
Lemma run_checks v : no_objects v -> run_ c v (parse_check_block file lint compiles matches n) (fun _ => no_objects) no_objects.
Proof.
  intros O. unfold parse_check_block.
  eapply run_bind; [apply run_dp_any with (Q := fun _ v' => v' = v); auto|]. intros _ ? ->.
  eapply run_bind; [apply run_dp_any with (Q := fun _ v' => v' = v); auto|]. intros tk ? ->.
  eapply run_bind; [apply (run_current c _ p) with (Q := fun x v' => x = p /\ v' = v); auto|]. intros x ? [-> ->].
  eapply run_bind; [apply run_names with (Q := fun e v' => v' = v /\ entry_valid (v_types v) (v_objs v) (v_pkgs v) e); [|auto]|].
  { intros e q s' H. split; auto. apply lift_pok in H. apply t_lookup_in in H. eapply (symbols_valid v (names_of v c)); [reflexivity|reflexivity|apply O|exact H]. }
  intros e ? [-> V]. destruct e as [a| | | | |]; try apply run_crash.
  eapply run_bind; [apply run_dp_any with (Q := fun _ v' => v' = v); auto|]. intros _ ? ->.
  eapply run_bind; [apply run_check_loop; auto; apply (ev_type _ _ _ _ V _ eq_refl)|]. intros ? v1 O1.
  eapply run_bind; [apply run_dp_any with (Q := fun _ v' => v' = v1); auto|]. intros _ ? ->. step. auto.
Qed.

(** *** Files *)
Lemma run_attempt v rec m f (Q : env -> Prop) : run_ c v m (fun _ => Q) Q -> run_ c v (attempt rec m f) (fun _ => Q) Q.
Proof.
  intros H s Es Ec. specialize (H s Es Ec). unfold attempt. destruct (m s) as [a s1|e s1| |]; auto.
  destruct H as [H Ec1]. destruct rec; auto. unfold dbind, dp, with_names. cbn.
  destruct (f (s_env s1) (names_of (s_env s1) (s_cu s1)) _); cbn; auto.
Qed.
Lemma run_rsl_loop m rec ok v : no_objects v ->
  run_ c v (rsl_loop file src lint compiles matches n m rec ok) (fun _ => no_objects) no_objects.
Proof.
  revert v ok. induction m as [|m IH]; intros v ok O; cbn; [step|]. apply run_cond; [step; auto|].
  eapply run_bind; [apply run_attempt with (Q := no_objects)|].
  - unfold rsl_item. apply run_cond; [apply run_checks; auto|apply run_type; auto].
  - intros b v1 O1. apply IH. auto.
Qed.
Theorem run_rsl_file rec v : no_objects v ->
  run_ c v (parse_rsl_file file src lint compiles matches n rec) (fun _ => no_objects) no_objects.
Proof.
  intros O. unfold parse_rsl_file. eapply run_bind; [apply run_rsl_loop; auto|]. intros b v1 O1.
  eapply run_bind; [apply run_dp_any with (Q := fun _ v' => v' = v1); auto|]. intros _ ? ->. step. auto.
Qed.
End RSL.
