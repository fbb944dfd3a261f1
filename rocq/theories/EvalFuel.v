(** Evaluation and the semantic actions of the expression parser never run
    out of fuel: they have no loop that could. *)
From Verif Require Import Base Lexer SymTab Ast Eval Soundness EvalSpecProofs ParserBase ParserExpr.
Open Scope Z_scope.

Lemma bind_fuel {E A B} (r : res E A) (k : A -> res E B) :
  r <> OutOfFuel -> (forall a, k a <> OutOfFuel) -> bind r k <> OutOfFuel.
Proof. destruct r; cbn; auto; discriminate. Qed.

Ltac nf :=
  repeat first
    [ discriminate
    | assumption
    | apply bind_fuel; [|intro]
    | match goal with |- context [match ?x with _ => _ end] => destruct x end ].

Lemma mk_value_fuel l p a : mk_value l p a <> OutOfFuel. Proof. unfold mk_value. nf. Qed.
Lemma py_bool_fuel p : py_bool p <> OutOfFuel. Proof. unfold py_bool. nf. Qed.
Lemma py_int_fuel p : py_int p <> OutOfFuel. Proof. unfold py_int. nf. Qed.
Lemma py_str_fuel p : py_str p <> OutOfFuel. Proof. unfold py_str. nf. Qed.
Lemma compare_fuel f p q : compare f p q <> OutOfFuel. Proof. unfold compare. nf. Qed.
Lemma arith_fuel f g p q : arith f g p q <> OutOfFuel. Proof. unfold arith. nf. Qed.
Lemma py_power_fuel p n : py_power p n <> OutOfFuel. Proof. unfold py_power. nf. Qed.
#[global] Hint Resolve mk_value_fuel py_bool_fuel py_int_fuel py_str_fuel compare_fuel arith_fuel py_power_fuel : fuel.

Ltac nf' :=
  repeat first
    [ discriminate
    | assumption
    | solve [auto with fuel]
    | apply bind_fuel; [|intro]
    | match goal with |- context [match ?x with _ => _ end] => destruct x end ].

Lemma unary_fuel l a op v : eval_unary l a op v <> OutOfFuel.
Proof. unfold eval_unary. nf'. Qed.
#[global] Hint Resolve unary_fuel : fuel.

Section WORLD.
Variable W : world.

Lemma binary_fuel l a op v w : eval_binary W l a op v w <> OutOfFuel.
Proof. unfold eval_binary. destruct op; nf'. Qed.
Hint Resolve binary_fuel : fuel.

Lemma stored_fuel v : eval_stored W v <> OutOfFuel.
Proof.
  induction v using vexpr_ind2; cbn [eval_stored]; nf'.
  - induction vs as [|v vs IH]; [discriminate|].
    apply bind_fuel; [apply H; left; auto|intro]. apply bind_fuel; [|discriminate].
    apply IH. intros. apply H. right; auto.
  - induction vs as [|[k v] vs IH]; [discriminate|].
    apply bind_fuel; [eapply H; left; eauto|intro]. apply bind_fuel; [|discriminate].
    apply IH. intros. eapply H. right; eauto.
Qed.
Hint Resolve stored_fuel : fuel.

Theorem evaluate_fuel e : forall ctx, evaluate W ctx e <> OutOfFuel.
Proof.
  induction e using expr_ind2; intros ctx; cbn [evaluate]; try solve [nf'].
  - apply bind_fuel; auto with fuel.
    induction es as [|v vs IH]; [discriminate|].
    apply bind_fuel; [apply H; left; auto|intro]. apply bind_fuel; [|discriminate].
    apply IH. intros. apply H; auto. right; auto.
  - induction acts as [|[c x] acts IH]; auto. destruct (H c x (or_introl eq_refl)) as [Hc Hx].
    apply bind_fuel; auto. intro. destruct (v_val _) as [[? ?]|]; try discriminate.
    destruct (truthy _); auto. apply IH. intros. apply H. right; auto.
  - destruct ctx as [d|]; [|discriminate]. destruct (assoc (c_name src) d) as [v'|]; [|discriminate].
    destruct v' as [| | |? ? vs| | ]; try discriminate.
    induction vs as [|b vs IH]; auto with fuel. apply bind_fuel; auto. intro. nf'.
Qed.
End WORLD.
#[global] Hint Resolve evaluate_fuel : fuel.

(** ** Semantic actions *)
Lemma of_static_fuel {A} (r : sres A) : r <> OutOfFuel -> of_static r <> OutOfFuel.
Proof. destruct r as [|[? ?]| |]; cbn; auto; discriminate. Qed.
Lemma of_eval_fuel {A} (r : eres A) : r <> OutOfFuel -> of_eval r <> OutOfFuel.
Proof. destruct r as [|[? p]| |]; cbn; auto; try discriminate. destruct (internal p); discriminate. Qed.
#[global] Hint Resolve of_static_fuel of_eval_fuel : fuel.

Lemma ensure_class_fuel e f : ensure_class e f <> OutOfFuel. Proof. unfold ensure_class. nf. Qed.
Lemma ensure_type_fuel e f : ensure_type e f <> OutOfFuel. Proof. unfold ensure_type. nf. Qed.
#[global] Hint Resolve ensure_class_fuel ensure_type_fuel : fuel.
Lemma ensure_booleans_fuel es : ensure_booleans es <> OutOfFuel.
Proof. induction es; cbn; nf'. Qed.
#[global] Hint Resolve ensure_booleans_fuel : fuel.

Section ACTIONS.
Variable file : Z.
Variable lint : bool.
Variable G : types.
Variable W : world.
Variable compiles : text -> bool.
Variable N : names.

Lemma act_unary l a op e : unary l a op e <> OutOfFuel.
Proof. apply of_static_fuel. unfold mk_unary. nf'. Qed.
Lemma act_binary l a op e f : binary G l a op e f <> OutOfFuel.
Proof. apply of_static_fuel. unfold mk_binary. nf'. Qed.
Hint Resolve act_unary act_binary : fuel.
Lemma act_power l e f : power G W l e f <> OutOfFuel.
Proof. unfold power. apply bind_fuel; auto with fuel. intro. nf'. Qed.
Lemma act_member l e f : member_test G l e f <> OutOfFuel.
Proof. unfold member_test. nf'. Qed.
Lemma act_range l e f g : range_test l e f g <> OutOfFuel.
Proof. apply of_static_fuel. unfold mk_range. nf'. Qed.
Lemma act_negated tk e : negated file tk e <> OutOfFuel.
Proof. unfold negated. nf'. Qed.
Lemma act_t_lookup {A} f (d : list (text * A)) tk r : t_lookup file f d tk r <> OutOfFuel.
Proof. unfold t_lookup. nf'. Qed.
Hint Resolve act_power act_member act_range act_negated act_t_lookup : fuel.
Lemma act_e_lookup d tk r : e_lookup file d tk r <> OutOfFuel.
Proof. apply act_t_lookup. Qed.
Hint Resolve act_e_lookup : fuel.
Lemma act_s_lookup sc tk r : s_lookup file sc tk r <> OutOfFuel.
Proof. induction sc as [|d [|d' sc] IH]; try discriminate; cbn [s_lookup]; auto with fuel. nf'. Qed.
Hint Resolve act_s_lookup : fuel.
Lemma act_builtin_name tk : builtin_name file N tk <> OutOfFuel.
Proof. unfold builtin_name. nf'. Qed.
Lemma act_classify e tk : classify file e tk <> OutOfFuel.
Proof. unfold classify. nf'. Qed.
Lemma act_enum_literal i tk : enum_literal file G i tk <> OutOfFuel.
Proof. unfold enum_literal. nf'. Qed.
Lemma act_prefix_ok e : prefix_ok e <> OutOfFuel.
Proof. unfold prefix_ok. nf'. Qed.
Lemma act_mk_field l c p u v : of_static (mk_field l c p u v) <> OutOfFuel.
Proof. apply of_static_fuel. unfold mk_field. nf'. Qed.
Hint Resolve act_mk_field : fuel.
Lemma act_field_access e tk : field_access file lint G e tk <> OutOfFuel.
Proof. unfold field_access. nf'. Qed.
Lemma act_array_ok e : array_ok e <> OutOfFuel.
Proof. unfold array_ok. nf'. Qed.
Lemma act_index e tk i : index_access file G tk e i <> OutOfFuel.
Proof. unfold index_access. nf'. Qed.
Lemma act_oneof l es : of_static (mk_oneof l es) <> OutOfFuel.
Proof. apply of_static_fuel. unfold mk_oneof. nf'. Qed.
Hint Resolve act_oneof : fuel.
Lemma act_call c tk es : call file G W compiles c tk es <> OutOfFuel.
Proof.
  unfold call. destruct c as [[]| | ]; destruct es as [|a [|b [|]]]; try discriminate; auto with fuel; nf'.
Qed.
Lemma act_fresh sc tk : fresh_variable file sc tk <> OutOfFuel.
Proof. unfold fresh_variable. nf'. Qed.
Lemma act_source sc tk : quantified_source file sc tk <> OutOfFuel.
Proof. unfold quantified_source. nf'. Qed.
Lemma act_quant l un v ls c b : of_static (mk_quant l un v ls c b) <> OutOfFuel.
Proof. apply of_static_fuel. unfold mk_quant. nf'. Qed.
Lemma act_action c x : first_action c x <> OutOfFuel.
Proof. unfold first_action. destruct (e_typ x); [|discriminate]. apply of_static_fuel. unfold mk_action. nf'. Qed.
Lemma act_elsif a c x : of_static (mk_elsif a c x) <> OutOfFuel.
Proof. apply of_static_fuel. unfold mk_elsif, mk_action. nf'. Qed.
Lemma act_else a x : of_static (mk_else a x) <> OutOfFuel.
Proof. apply of_static_fuel. unfold mk_else. nf'. Qed.
End ACTIONS.
#[global] Hint Resolve act_unary act_binary act_power act_member act_range act_negated act_t_lookup act_e_lookup
  act_s_lookup act_builtin_name act_classify act_enum_literal act_prefix_ok act_field_access act_array_ok act_index
  act_oneof act_call act_fresh act_source act_quant act_action act_elsif act_else act_mk_field : fuel.
