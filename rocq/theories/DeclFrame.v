(** What declarations do to the tables: a relation that holds between the
    declarations before and after each elementary update holds for a file. *)
From Verif Require Import Base Lexer SymTab Ast Eval ParserBase ParserExpr ParserValue Lint ParserDecl ParserFile.
Open Scope Z_scope.

Section FRAME.
Variable R : env -> env -> Prop.
Hypothesis R_refl : forall v, R v v.
Hypothesis R_trans : forall a b c, R a b -> R b c -> R a c.
Hypothesis R_next : forall v n, R v (Env (v_types v) (v_objs v) (v_secs v) (v_stab v) (v_pkgs v) n).
Hypothesis R_types : forall v G, R v (set_types G v).
Hypothesis R_object : forall v ob sec, R v (add_object ob sec v).
Hypothesis R_change : forall v o f, R v (change_object o f v).
Hypothesis R_entry : forall v p name e, t_find (nth p (v_pkgs v) [] ++ v_stab v) name = None -> R v (add_entry p name e v).

Definition framed {A} (m : D A) : Prop :=
  forall s, match m s with
            | DOk _ s' | DErr _ s' => R (s_env s) (s_env s') /\ s_cu s' = s_cu s
            | DCrash | DFuel => True
            end.

Lemma fr_bind {A B} (m : D A) (k : A -> D B) : framed m -> (forall a, framed (k a)) -> framed (dbind m k).
Proof.
  intros H K s. unfold dbind. specialize (H s). destruct (m s) as [a s1|e s1| |]; auto. destruct H as [H E].
  specialize (K a s1). destruct (k a s1) as [b s2|e s2| |]; auto; destruct K; split; eauto; congruence.
Qed.
Lemma fr_ret {A} (a : A) : framed (dret a). Proof. intros s. cbn. auto. Qed.
Lemma fr_error {A} e : framed (@derror A e). Proof. intros s. cbn. auto. Qed.
Lemma fr_crash {A} : framed (@dcrash A). Proof. intros s. cbn. auto. Qed.
Lemma fr_fuel {A} : framed (@dfuel A). Proof. intros s. cbn. auto. Qed.
Lemma fr_cond {A} c (x y : D A) : framed x -> framed y -> framed (dcond c x y).
Proof. intros H K s. unfold dcond. destruct (c (s_ps s)); [exact (H s)|exact (K s)]. Qed.
Lemma fr_get : framed dget. Proof. intros s. cbn. auto. Qed.
Lemma fr_names {A} (m : env -> names -> P A) : framed (with_names m).
Proof. intros s. unfold with_names. destruct (m _ _ _); cbn; auto. Qed.
Lemma fr_fresh : framed fresh. Proof. intros s. cbn. auto. Qed.
Lemma fr_set f : (forall v, R v (f v)) -> framed (dset f). Proof. intros H s. cbn. auto. Qed.
Lemma fr_current : framed current. Proof. intros s. unfold current. destruct (cu_pkg _); auto. Qed.
Lemma fr_register p name l e : framed (register p name l e).
Proof.
  intros s. unfold register, dbind, may_register, with_names, lift, registrable, names_of, p_symbols. cbn [v_stab v_pkgs n_pkgs n_stab].
  destruct (t_find (nth p (v_pkgs (s_env s)) [] ++ v_stab (s_env s)) name) as [[k a]|] eqn:F; cbn; auto.
Qed.
Lemma fr_pair {A B C} (x : A * B) (k : A -> B -> D C) : (forall a b, framed (k a b)) -> framed (let (a, b) := x in k a b).
Proof. destruct x; auto. Qed.

Ltac frame := intros; repeat first
  [ progress intros
  | match goal with
    | H : framed _ |- framed _ => exact H
    | H : forall _, _ |- framed _ => solve [apply H]
    end
  | apply fr_register | apply fr_bind | apply fr_ret | apply fr_error | apply fr_crash | apply fr_fuel | apply fr_cond | apply fr_get | apply fr_names
  | apply fr_fresh | apply fr_current | apply fr_register
  | match goal with
    | |- framed (dset _) => apply fr_set; intros; first [apply R_types | apply R_object | apply R_change | apply R_next]
    | |- framed (match ?x with _ => _ end) => destruct x
    end
  | solve [eauto] ].

Section FILE.
Variable file : Z.
Variable src : text.
Variable lint : bool.
Variable compiles : text -> bool.
Variable matches : text -> text -> option bool.
Variable n : nat.

Lemma fr_literals m e b : framed (enum_literals_loop file m e b).
Proof. revert b. induction m as [|m IH]; intros b; cbn; frame. Qed.
Lemma fr_enum : framed (parse_enum_declaration file n).
Proof. pose proof fr_literals. unfold parse_enum_declaration. frame. Qed.
Lemma fr_member : framed (member file). Proof. unfold member. frame. Qed.
Lemma fr_members m : framed (union_members file m).
Proof. pose proof fr_member. induction m as [|m IH]; cbn; frame. Qed.
Lemma fr_union : framed (parse_union_type file n).
Proof. pose proof fr_member. pose proof fr_members. unfold parse_union_type. frame. Qed.
Lemma fr_component_type : framed (parse_component_type file n).
Proof. pose proof fr_union. unfold parse_component_type. frame. Qed.
Lemma fr_tuple_field u a r q : framed (parse_tuple_field file n u a r q).
Proof. pose proof fr_component_type. unfold parse_tuple_field. frame. Qed.
Lemma fr_register_field cs c : framed (register_field cs c). Proof. unfold register_field. frame. Qed.
Lemma fr_add_separator cs s t : framed (add_separator cs s t). Proof. unfold add_separator. frame. Qed.
Lemma fr_tuple_fields m u a b c cs seps : framed (tuple_fields file n m u a b c cs seps).
Proof.
  pose proof fr_tuple_field. pose proof fr_register_field. pose proof fr_add_separator.
  revert a b c cs seps. induction m as [|m IH]; intros; cbn; frame.
Qed.
Lemma fr_tuple : framed (parse_tuple_declaration file n).
Proof.
  pose proof fr_tuple_field. pose proof fr_register_field. pose proof fr_tuple_fields. unfold parse_tuple_declaration. frame.
Qed.
Lemma fr_array a : framed (parse_array_part file a). Proof. unfold parse_array_part. frame. Qed.
Lemma fr_component r : framed (parse_record_component file n r).
Proof. pose proof fr_component_type. pose proof fr_array. unfold parse_record_component. frame. Qed.
Lemma fr_value a : framed (value_of file src n a). Proof. unfold value_of. frame. Qed.
Lemma fr_freeze r : framed (parse_freeze file src n r).
Proof. pose proof fr_value. unfold parse_freeze. frame. Qed.
Lemma fr_declare r : framed (declare_component file n r).
Proof. pose proof fr_component. unfold declare_component. frame. Qed.
Lemma fr_body m r : framed (record_body file src n m r).
Proof. pose proof fr_freeze. pose proof fr_declare. induction m as [|m IH]; cbn; frame. Qed.
Lemma fr_extends : framed (parse_extends file). Proof. pose proof fr_member. unfold parse_extends. frame. Qed.
Lemma fr_record : framed (parse_record_declaration file src lint n).
Proof. pose proof fr_extends. pose proof fr_body. unfold parse_record_declaration. frame. Qed.
Lemma fr_type : framed (parse_type_declaration file src lint n).
Proof. pose proof fr_enum. pose proof fr_tuple. pose proof fr_record. unfold parse_type_declaration. frame. Qed.
Lemma fr_check_loop m a : framed (check_loop file lint compiles matches n m a).
Proof.
  induction m as [|m IH]; cbn; frame. apply fr_set. intros v. unfold add_check, change_rec, change_tup. destruct a; auto.
Qed.
Lemma fr_checks : framed (parse_check_block file lint compiles matches n).
Proof. pose proof fr_check_loop. unfold parse_check_block. frame. Qed.

Lemma fr_field o k : framed (field_of o k). Proof. unfold field_of. frame. Qed.
Lemma fr_assign o k f : framed (assign o k f). Proof. pose proof fr_field. unfold assign. frame. Qed.
Lemma fr_assignment r o : framed (assignment file src n r o).
Proof. pose proof fr_field. pose proof fr_assign. pose proof fr_value. unfold assignment. frame. Qed.
Lemma fr_assignments m r o : framed (assignments file src n m r o).
Proof. pose proof fr_assignment. induction m as [|m IH]; cbn; frame. Qed.
Lemma fr_complete l r o cs : framed (complete l r o cs).
Proof. pose proof fr_field. pose proof fr_assign. induction cs as [|c cs IH]; cbn; frame. Qed.
Lemma fr_sections : framed sections. Proof. intros s. cbn. auto. Qed.
Lemma fr_enter name : framed (enter name). Proof. intros s. cbn. auto. Qed.
Lemma fr_leave : framed leave. Proof. intros s. unfold leave. destruct (s_sec s); cbn; auto. Qed.
Lemma fr_object : framed (parse_object file src n).
Proof.
  pose proof fr_member. pose proof fr_sections. pose proof fr_assignments. pose proof fr_complete. unfold parse_object. frame.
Qed.
Lemma fr_entries m : framed (parse_entry file src n m) /\ framed (entries_loop file src n m).
Proof.
  pose proof fr_object. pose proof fr_enter. pose proof fr_leave.
  induction m as [|m [I1 I2]]; split; cbn; frame.
Qed.

Lemma fr_attempt rec m f : framed m -> framed (attempt rec m f).
Proof.
  intros H s. unfold attempt. specialize (H s). destruct (m s) as [a s1|e s1| |]; auto.
  destruct H as [H E]. destruct rec; auto. unfold dbind, dp, with_names. cbn.
  destruct (f _ _ _); cbn; auto.
Qed.
Lemma fr_rsl_loop m rec ok : framed (rsl_loop file src lint compiles matches n m rec ok).
Proof.
  pose proof fr_checks. pose proof fr_type. revert ok. induction m as [|m IH]; intros; cbn; frame. apply fr_attempt. unfold rsl_item. frame.
Qed.
Theorem fr_rsl_file rec : framed (parse_rsl_file file src lint compiles matches n rec).
Proof. pose proof fr_rsl_loop. unfold parse_rsl_file. frame. Qed.
Lemma fr_trlc_loop m rec ok : framed (trlc_loop file src n m rec ok).
Proof.
  revert ok. induction m as [|m IH]; intros; cbn; frame. apply fr_attempt. apply fr_entries.
Qed.
Theorem fr_trlc_file rec : framed (parse_trlc_file file src n rec).
Proof. pose proof fr_trlc_loop. unfold parse_trlc_file. frame. Qed.
End FILE.
End FRAME.
