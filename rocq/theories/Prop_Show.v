(** Property theorems C62: expressions in messages. *)
From Coq Require Import QArith Lia ZifyBool ZifyNat ZifyN.
From Verif Require Import Base Lexer SymTab Ast Eval LexSpec ParserBase ParserExpr ExprSyntax CounterRead Show ShowProofs Prop_Eval Prop_Parser.
Open Scope Z_scope.

(** Operands are shown without brackets.  If an expression needs none, and
    its literals are integers, null and those of enumerations, what is shown is
    a phrase of the language for the same expression. *)
Theorem C62_read_back G e : faithful G L_expr e ->
  exists toks r, lex (to_string G e) = Lexed toks /\ syn L_expr r toks /\ same G r e.
Proof.
  intros F. destruct (proj1 (reading_back G) _ _ F) as (xs & _ & P & R).
  destruct (pieces_lexed _ _ (P [] I)) as (toks & L & T). destruct (R toks T) as (r & S & M). eauto.
Qed.
Print Assumptions C62_read_back.

(** ... and the parser makes of the text what this tree means: if the tree has
    a meaning in the scope, the whole text is accepted with this meaning. *)
Theorem C62_parsed G e : faithful G L_expr e ->
  exists toks r, lex (to_string G e) = Lexed toks /\ same G r e /\
    forall file lint W compiles N sc e', elab file lint G W compiles N sc r = Ok e' -> parses file lint G W compiles N sc toks e' None.
Proof.
  intros F. destruct (C62_read_back G e F) as (toks & r & L & S & M). exists toks, r. split; auto. split; auto.
  intros. apply (whole file lint G W compiles N sc r); auto.
Qed.
Print Assumptions C62_parsed.

(** What the parser makes of a whole text, and what is shown of that. *)
Definition read_whole (s : string) : option expr :=
  match p_parse s with
  | POk e st => match nt (at_ st) with None => Some e | Some _ => None end
  | _ => None
  end.
Definition shown (s : string) : option text := option_map (to_string pG) (read_whole s).

Definition long_text : string := "(forall i in arr => i > 0 and tup.a ** 2 == i and arr[n + 1] in 1 .. len(strs) - n * 2 and (if not flag then abs n elsif oneof(flag, e1 == null) then 1 else -n) <= 3)".
Definition l_ := ql.
Definition nm (s : string) : expr := EName l_ TInt (t s) false false.
Definition nu (z : Z) : expr := ELit l_ (LInt z).
Definition bin (op : binop) (a b : expr) : expr := EBinary l_ None op a b.
Definition long_expr : expr :=
  EQuant l_ true (t "i") l_ (rc (t "arr") int_arr false)
    (bin B_and (bin B_and (bin B_and (bin B_gt (nm "i") (nu 0))
       (bin B_eq (bin B_pow (EField l_ (Comp (t "a") TInt false (TTup 0)) (nm "tup") false false) (nu 2)) (nm "i")))
       (ERange l_ (bin B_index (nm "arr") (bin B_plus (nm "n") (nu 1))) (nu 1)
          (bin B_minus (EUnary l_ None U_arrlen (nm "strs")) (bin B_times (nm "n") (nu 2)))))
       (bin B_leq (ECond l_ [(EUnary l_ None U_not (nm "flag"), EUnary l_ None U_abs (nm "n"));
                             (EOneof l_ [nm "flag"; bin B_eq (nm "e1") (ENull l_)], nu 1)]
                          (EUnary l_ None U_minus (nm "n"))) (nu 3))).
Lemma plain_word s : match t s with c :: r => andb ((97 <=? c) && (c <=? 122))%N (forallb (fun d => ((97 <=? d) && (d <=? 122)) || ((48 <=? d) && (d <=? 57)))%N r) | [] => false end = true ->
  existsb (text_eqb (t s)) reserved = false -> word (t s).
Proof.
  intros H R. split.
  - destruct (t s) as [|c r]; [discriminate|]. apply andb_true_iff in H as [H1 H2]. exists c, r. split; auto. split; [unfold letter; lia|].
    rewrite forallb_forall in H2. apply Forall_forall. intros d D. specialize (H2 d D). unfold ident_char, letter, digit. lia.
  - intros I. assert (existsb (text_eqb (t s)) reserved = true); [|congruence]. apply existsb_exists. exists (t s). split; auto. apply text_eqb_eq. auto.
Qed.
Example C62_read_back_example : faithful pG L_expr long_expr /\ to_string pG long_expr = t long_text /\ shown long_text = Some (t long_text).
Proof.
  split; [|split; vm_compute; reflexivity].
  assert (W : Forall (fun s => word (t s)) ["i"; "arr"; "a"; "tup"; "n"; "strs"; "flag"; "e1"]%string)
    by (repeat constructor; apply plain_word; vm_compute; reflexivity).
  assert (N : forall s, In s ["i"; "arr"; "a"; "tup"; "n"; "strs"; "flag"; "e1"]%string -> faithful pG L_prim (nm s)).
  { intros s I. rewrite Forall_forall in W. apply f_name. constructor. auto. }
  assert (C : forall s, In s ["i"; "arr"; "a"; "tup"; "n"; "strs"; "flag"; "e1"]%string -> chain pG (nm s)).
  { intros s I. rewrite Forall_forall in W. constructor. auto. }
  rewrite Forall_forall in W.
  assert (U1 : forall e, faithful pG L_prim e -> faithful pG L_factor e) by (intros; eapply f_part; eauto; constructor).
  assert (U2 : forall e, faithful pG L_prim e -> faithful pG L_term e) by (intros; eapply f_part; [apply po_term|]; auto).
  assert (U3 : forall e, faithful pG L_term e -> faithful pG L_simple e) by (intros; eapply f_part; [apply po_simple|]; auto).
  assert (U4 : forall e, faithful pG L_simple e -> faithful pG L_rel e) by (intros; eapply f_part; [apply po_rel|]; auto).
  assert (U5 : forall e, faithful pG L_rel e -> faithful pG L_expr e) by (intros; eapply f_part; [apply po_expr|]; auto).
  assert (Z : forall z, 0 <= z -> faithful pG L_prim (nu z)) by (intros; constructor; auto).
  unfold long_expr, bin. apply U5, U4, U3, U2. apply f_quant; [apply (W "i"%string); cbn; tauto|apply (W "arr"%string); cbn; tauto|].
  eapply f_part; [apply po_and|]. eapply f_binary; [apply lv_and2| |].
  - eapply f_binary; [apply lv_and2| |].
    + eapply f_binary; [apply lv_and1| |].
      * eapply f_binary; [apply lv_compare; cbn; tauto| |]; apply U3, U2; [apply N; cbn; tauto|apply Z; lia].
      * eapply f_binary; [apply lv_compare; cbn; tauto| |]; apply U3; [|apply U2, N; cbn; tauto].
        eapply f_part; [apply po_term|]. eapply f_binary; [apply lv_pow| |apply Z; lia]. apply f_name. constructor; [apply C; cbn; tauto|apply (W "a"%string); cbn; tauto].
    + apply f_range.
      * apply U3, U2, f_name. constructor; [apply C; cbn; tauto|]. apply U5, U4. eapply f_binary; [apply lv_add; cbn; tauto|apply U3, U2, N; cbn; tauto|apply U2, Z; lia].
      * apply U3, U2, Z; lia.
      * eapply f_binary; [apply lv_add; cbn; tauto|apply U3, U2|].
        -- apply f_call; [cbn; tauto|]. apply U5, U4, U3, U2, N; cbn; tauto.
        -- eapply f_binary; [apply lv_mul; cbn; tauto|apply U2, N; cbn; tauto|apply U1, Z; lia].
  - eapply f_binary; [apply lv_compare; cbn; tauto|apply U3, U2|apply U3, U2, Z; lia].
    apply f_cond.
    + apply U5, U4, U3. eapply f_part; [apply po_term|]. apply f_not; [cbn; tauto|apply N; cbn; tauto].
    + apply U5, U4, U3. eapply f_part; [apply po_term|]. apply f_not; [cbn; tauto|apply N; cbn; tauto].
    + constructor; [|apply U5, U4, U3, U2, Z; lia|constructor].
      apply U5, U4, U3, U2. apply f_oneof. apply fs_more; [apply U5, U4, U3, U2, N; cbn; tauto|]. apply fs_one. apply U5.
      eapply f_binary; [apply lv_compare; cbn; tauto| |]; apply U3, U2; [apply N; cbn; tauto|constructor].
    + apply U5, U4. apply f_sign; [cbn; tauto|]. apply U2, N; cbn; tauto.
Qed.

Definition colours : types := Types [] [] [EnumType 0 (t "Colour") [t "red"; t "green"]].
Example C62_enumeration_example :
  let e := bin B_neq (nm "n") (ELit l_ (LEnum 0 (t "green"))) in faithful colours L_expr e /\ to_string colours e = t "n != Colour.green".
Proof.
  assert (W : word (t "n") /\ word (t "green")) by (split; apply plain_word; vm_compute; reflexivity). destruct W as [W1 W2].
  assert (W3 : word (t "Colour")).
  { split; [|intros I; vm_compute in I; intuition discriminate]. do 2 eexists. split; [vm_compute; reflexivity|]. split; [unfold letter; lia|repeat constructor; unfold ident_char, letter, digit; lia]. }
  split; [|vm_compute; reflexivity]. apply (f_part _ L_rel); [constructor|]. eapply f_binary; [apply lv_compare; cbn; tauto| |].
  all: apply (f_part _ L_term); [constructor|]; apply (f_part _ L_factor); [constructor|]; apply (f_part _ L_prim); [constructor|].
  - apply f_name. constructor. auto.
  - eapply f_enum; [reflexivity| |]; auto.
Qed.

(** ** What is lost *)

(** Expressions that the parser accepts may look the same and have different
    values: without the brackets, without the quotes of strings, and with
    decimals shown as fractions. *)
Definition some_strings : list (text * vexpr) := [(t "strs", XArr ql str_arr [xstr (t "a"); xstr (t "a")])].
Definition value_in (d : list (text * vexpr)) (e : expr) : option pval :=
  match evaluate p_world (Some d) e with Ok v => option_map fst (v_val v) | _ => None end.
Definition confused (s s' : string) (d : list (text * vexpr)) : Prop :=
  exists e e' b b', read_whole s = Some e /\ read_whole s' = Some e' /\ to_string pG e = to_string pG e' /\
    value_in d e = Some b /\ value_in d e' = Some b' /\ b <> b'.
Definition get (s : string) : expr := match read_whole s with Some e => e | None => ENull ql end.
Lemma confuse s s' d b b' : read_whole s = Some (get s) -> read_whole s' = Some (get s') -> to_string pG (get s) = to_string pG (get s') ->
  value_in d (get s) = Some b -> value_in d (get s') = Some b' -> b <> b' -> confused s s' d.
Proof. intros. exists (get s), (get s'), b, b'. auto 10. Qed.
Theorem C62_same_text_refuted :
  confused "(1 + 2) * 2 == 6" "1 + 2 * 2 == 6" [] /\
  confused "(true or false) and false" "true or (false and false)" [] /\
  confused "10 - (3 - 2)" "10 - 3 - 2" [] /\
  confused "strs[0] == strs[1]" "strs[0] == ""strs[1]""" some_strings.
Proof.
  split; [|split; [|split]].
  - apply (confuse _ _ _ (PBool true) (PBool false)); try (vm_compute; reflexivity). discriminate.
  - apply (confuse _ _ _ (PBool false) (PBool true)); try (vm_compute; reflexivity). discriminate.
  - apply (confuse _ _ _ (PInt 9) (PInt 5)); try (vm_compute; reflexivity). discriminate.
  - apply (confuse _ _ _ (PBool true) (PBool false)); try (vm_compute; reflexivity). discriminate.
Qed.
Print Assumptions C62_same_text_refuted.

(** ... and what is shown may be no expression at all: [n not in 1 .. 3] is
    shown as [not n in 1 .. 3], [flag == true] as [flag == True]; and a
    decimal may turn into a quotient of integers. *)
Theorem C62_unreadable_refuted :
  (shown "n not in 1 .. 3" = Some (t "not n in 1 .. 3") /\ read_whole "not n in 1 .. 3" = None) /\
  (shown "flag == true" = Some (t "flag == True") /\ read_whole "flag == True" = None) /\
  (shown "0.75" = Some (t "3/4") /\ exists e, read_whole "3/4" = Some e /\ e_typ e = Some TInt /\ value_in [] e = Some (PInt 0)).
Proof.
  split; [|split].
  - split; vm_compute; reflexivity.
  - split; vm_compute; reflexivity.
  - split; [vm_compute; reflexivity|]. exists (get "3/4"). split; [vm_compute; reflexivity|]. split; vm_compute; reflexivity.
Qed.
Print Assumptions C62_unreadable_refuted.
