(** Property theorems: C61 (values in counterexamples). *)
From Coq Require Import QArith Qreduction Lia.
From Verif Require Import Base Lexer SymTab Ast Eval LexSpec LexerProps ParserBase ParserExpr ParserValue ParserProofs ValueSyntax ParserDecl DeclInv Process ProcessInv ProcessRun
  Counter CounterProofs CounterRead Prop_Process Prop_Api.
From Verif Require SourceMan.
Import SourceMan (fkind, RSL, TRLC).
Open Scope Z_scope.

(** Every fraction is shown.  If it has finitely many decimal places, the text
    is a decimal literal for exactly this number, after a minus sign if the
    number is negative, and the literal is one token.  Otherwise numerator and
    denominator are shown. *)
Theorem C61_fractions num den : 1 <= den ->
  (finite_decimal den /\ exists lit q tk, fraction_to_decimal_string num den = Ok (minus_if (num <? 0) ++ lit) /\
     decimal_literal lit q /\ (q == inject_Z (Z.abs num) / inject_Z den)%Q /\
     lex lit = Lexed [tk] /\ tk_kind tk = DECIMAL /\ exists q', tk_value tk = VDec q' /\ (q' == q)%Q) \/
  (~ finite_decimal den /\ exists n d, fraction_to_decimal_string num den = Ok (minus_if (num <? 0) ++ n ++ t " / " ++ d) /\
     digit_groups digit n /\ int_denotes n (Z.abs num) /\ digit_groups digit d /\ int_denotes d den).
Proof.
  intros H. destruct (fraction_ok num den H) as [(F & lit & E & D)|(F & E)]; [left|right]; split; auto.
  - destruct D as (r1 & r2 & -> & D1 & D2 & D). destruct (decimal_roundtrip r1 r2 _ D1 D2 D) as (q' & Q & L).
    do 3 eexists. split; [exact E|]. split; [exists r1, r2; eauto|]. split; [reflexivity|]. split; [exact L|]. cbn. eauto.
  - destruct (integer_ok num) as (n & En & Dn & In). destruct (integer_ok den) as (d & Ed & Dd & Id). exists n, d.
    replace (den <? 0) with false in Ed by lia. rewrite Z.abs_eq in Id by lia. cbn in Ed. rewrite E, En, Ed, <- app_assoc. auto.
Qed.
Print Assumptions C61_fractions.
Example C61_fractions_example :
  (finite_decimal 40 /\ fraction_to_decimal_string (-7) 40 = Ok (t "-0.175")) /\ (~ finite_decimal 6 /\ fraction_to_decimal_string (-7) 6 = Ok (t "-7 / 6")) /\
  fraction_to_decimal_string 5 1 = Ok (t "5.0") /\ fraction_to_decimal_string (-1) 1024 = Ok (t "-0.0009765625").
Proof.
  split; [split; [exists 3; split; [lia|exists 25; reflexivity]|vm_compute; reflexivity]|].
  split; [split; [|vm_compute; reflexivity]|split; vm_compute; reflexivity].
  intros F. destruct (C61_fractions (-7) 6 ltac:(lia)) as [(_ & lit & q & tk & E & (r1 & r2 & -> & D1 & D2 & _) & _)|(N & _)]; [|auto].
  vm_compute in E. injection E as E. destruct D1; destruct D2; cbn in E; repeat (destruct r; try discriminate); try discriminate.
Qed.

Section RUN.
Variable compiles : text -> bool.
Variable matches : text -> text -> option bool.
Variable pick : list SourceMan.node -> nat.
Variable lint recovery : bool.
(** A regular expression that compiles can be matched with any string. *)
Hypothesis regex : forall p x, compiles p = true -> matches p x <> None.
Notation process := (process compiles matches pick lint recovery).

(** A component of a record or tuple type. *)
Definition component_of (G : types) (c : component) : Prop :=
  (exists r, In c (all_components G r)) \/ exists u ut, tup G u = Some ut /\ In c (u_comps ut).
Lemma component_simple G c : types_ok matches G -> component_of G c -> simple_array (c_typ c).
Proof.
  intros O [(r & I)|(u & ut & U & I)].
  - revert I. unfold all_components. generalize r at 1 as f. intros f. revert r.
    assert (C : forall r rt, rec G r = Some rt -> In c (r_comps rt) -> simple_array (c_typ c)) by (intros r rt R; apply (ro_simple _ _ _ _ (ty_recs _ _ O _ _ R))).
    induction f as [|f IH]; intros r; cbn [all_components_steps]; destruct (rec G r) as [rt|] eqn:R; try contradiction; destruct (r_parent rt) as [q|]; try contradiction; eauto.
    intros I. apply in_app_or in I as [I|I]; eauto.
  - pose proof (to_types _ _ _ (uo_tuple _ _ _ _ (ty_tups _ _ O _ _ U)) c I) as X. destruct (c_typ c); cbn in *; auto; contradiction.
Qed.

(** Whatever the solver gives for a component is shown. *)
Theorem C61_total fs v ms : process fs = Ok (Some v, ms) -> forall package_name own c x, component_of (v_types v) c -> shaped (v_types v) (c_typ c) x ->
  exists s, rendered (v_types v) package_name own (c_typ c) x = Ok s.
Proof.
  intros H package_name own c x C S. apply process_result in H as [Ty Ob Rd Se Tb Ck]; auto.
  apply rendered_total; auto; [apply (ok_tuples _ _ Ty)|apply (component_simple (v_types v)); auto].
Qed.

(** What is shown is notation of the language for the same value, provided
    that the value is [readable]: fractions have finitely many decimal places,
    strings have no quotes and newlines and no backslash at the end, the name
    of an enumeration is visible, and tuples have no words as separators. *)
Theorem C61_read_back fs v ms : process fs = Ok (Some v, ms) -> forall package_name own file src N a x s,
  readable file (v_types v) N a x -> rendered (v_types v) package_name own a x = Ok s ->
  exists toks y, lex s = Lexed toks /\ value file src (v_types v) (v_objs v) N false a y toks [] /\ shows y x.
Proof.
  intros H package_name own file src N a x s R E. apply process_result in H as [Ty Ob Rd Se Tb Ck]; auto.
  destruct (value_notation file src (v_types v) (v_objs v) N package_name own (ok_tuples _ _ Ty) _ _ _ _ R E) as (xs & _ & P & V).
  destruct (pieces_lexed s xs (P [] I)) as (toks & L & F). destruct (V toks F) as (y & Y & S). eauto.
Qed.
End RUN.
Print Assumptions C61_total.
Print Assumptions C61_read_back.

(** Different references are shown as different names. *)
Lemma str_int_inj a b : str_int a = str_int b -> a = b.
Proof.
  intros E. destruct (integer_ok a) as (x & Ea & Da & Ia). destruct (integer_ok b) as (y & Eb & Db & Ib). rewrite Ea, Eb in E.
  assert (N : forall r s, digit_groups digit r -> t "-" ++ s <> r) by (intros r s D X; destruct D as [c Dc|c r Dc|c r Dc]; cbn in X; injection X as X _; subst; unfold digit in Dc; lia).
  destruct (a <? 0) eqn:A, (b <? 0) eqn:B; cbn [minus_if app] in E.
  - injection E as <-. pose proof (LexerValues.int_denotes_unique _ _ _ Ia Ib). lia.
  - exfalso. eapply N; eauto.
  - exfalso. apply (N x y); auto.
  - subst y. pose proof (LexerValues.int_denotes_unique _ _ _ Ia Ib). lia.
Qed.
Theorem C61_references G package_name own a z z' s : (exists r, a = TRec r) \/ (exists i ms, a = TUnion i ms) ->
  rendered G package_name own a (S_int z) = Ok s -> rendered G package_name own a (S_int z') = Ok s -> z = z'.
Proof.
  intros A E E'. assert (I : instance_id z = instance_id z' -> z = z') by (unfold instance_id; destruct (z <? 0) eqn:?, (z' <? 0) eqn:?; lia).
  apply I, str_int_inj. unfold rendered in *. destruct A as [(r & ->)|(i & ms & ->)]; cbn [value_to_trlc] in *.
  - destruct (rec G r); [|discriminate]. assert (X := eq_trans E (eq_sym E')). injection X as X. apply app_inv_head in X. apply app_inv_head in X. injection X. auto.
  - assert (X := eq_trans E (eq_sym E')). injection X. auto.
Qed.
Print Assumptions C61_references.

(** Types with a tuple, an enumeration and an array, and values for them. *)
Definition shop : res unit (option env * list msg) := run_of [(RSL, t "package Q  enum Colour { red green }");
  (RSL, t "package P  import Q  enum Size { small large }  tuple Pair { a Integer  b Decimal }  tuple Range { a Integer  separator :  b optional Integer  separator @  c optional Pair }  tuple Score { a Integer  separator of  b Integer } type R { xs Range [1 .. 3]  size Size  colour Q.Colour  score Score  text String  other R }"); (TRLC, t "package P")].
Definition shopG : types := v_types (env_of shop).
Definition some_pair : sval := S_dict [(t "a", (true, S_int (-3))); (t "b", (true, S_frac (-7 # 40)))].
Definition some_ranges : sval :=
  S_list [S_dict [(t "a", (true, S_int 1)); (t "b", (true, S_int (-20))); (t "c", (true, some_pair))];
          S_dict [(t "a", (true, S_int 5)); (t "b", (false, S_int 0)); (t "c", (false, some_pair))]].
Definition type_of (k : nat) : ty := match nth_error (all_components shopG 0) k with Some c => c_typ c | None => TInt end.
Definition pack (p : nat) : text := if Nat.eqb p 0 then t "Q" else t "P".
Definition shown_as (k : nat) (x : sval) : res unit text := rendered shopG pack 1 (type_of k) x.
Example C61_example : shop = Ok (Some (env_of shop), msgs_of shop) /\
  shown_as 0 some_ranges = Ok (t "[1:-20@(-3, -0.175), 5]") /\ shown_as 1 (S_text (t "large")) = Ok (t "Size.large") /\
  shown_as 4 (S_text (t "hello")) = Ok (t """hello""") /\ shown_as 5 (S_int (-2)) = Ok (t "R_instance_3").
Proof. repeat apply conj; vm_compute; reflexivity. Qed.
Definition tuple_nr (u : nat) : tuptype := nth u (tups shopG) (TupType 0 [] [] [] []).
Lemma tuple_0 : tup shopG 0 = Some (tuple_nr 0) /\ u_seps (tuple_nr 0) = [] /\
  map (fun c => (c_name c, c_typ c, c_opt c)) (u_comps (tuple_nr 0)) = [(t "a", TInt, false); (t "b", TDec, false)].
Proof. repeat apply conj; vm_compute; reflexivity. Qed.
Lemma tuple_1 : tup shopG 1 = Some (tuple_nr 1) /\ u_seps (tuple_nr 1) = [Sep_colon; Sep_at] /\
  map (fun c => (c_name c, c_typ c, c_opt c)) (u_comps (tuple_nr 1)) = [(t "a", TInt, false); (t "b", TInt, true); (t "c", TTup 0, true)].
Proof. repeat apply conj; vm_compute; reflexivity. Qed.
Lemma tuple_2 : tup shopG 2 = Some (tuple_nr 2) /\ u_seps (tuple_nr 2) = [Sep_word (t "of")] /\
  map (fun c => (c_name c, c_typ c, c_opt c)) (u_comps (tuple_nr 2)) = [(t "a", TInt, false); (t "b", TInt, false)].
Proof. repeat apply conj; vm_compute; reflexivity. Qed.
Definition array_id : nat := match type_of 0 with TArr i _ _ _ => i | _ => 0%nat end.
Lemma type_0 : type_of 0 = TArr array_id 1 (Some 3) (TTup 1).
Proof. vm_compute. reflexivity. Qed.
Lemma type_3 : type_of 3 = TTup 2.
Proof. vm_compute. reflexivity. Qed.
Lemma ranges_readable G ut ut0 i file N : 
  tup G 1 = Some ut -> u_seps ut = [Sep_colon; Sep_at] ->
  map (fun c => (c_name c, c_typ c, c_opt c)) (u_comps ut) = [(t "a", TInt, false); (t "b", TInt, true); (t "c", TTup 0, true)] ->
  tup G 0 = Some ut0 -> u_seps ut0 = [] ->
  map (fun c => (c_name c, c_typ c, c_opt c)) (u_comps ut0) = [(t "a", TInt, false); (t "b", TDec, false)] ->
  readable file G N (TArr i 1 (Some 3) (TTup 1)) some_ranges.
Proof.
  intros T1 S1 C1 T0 S0 C0.
  destruct (u_comps ut) as [|a [|b [|c [|]]]] eqn:C1'; try discriminate. destruct (u_comps ut0) as [|a0 [|b0 [|]]] eqn:C0'; try discriminate.
  cbn in C1, C0. injection C1 as Na Ya Oa Nb Yb Ob Nc Yc Oc. injection C0 as Na0 Ya0 Oa0 Nb0 Yb0 Ob0. rename C1' into C1. rename C0' into C0.
  assert (P : readable file G N (TTup 0) some_pair).
  { apply rd_tup with (ut := ut0); auto.
    - rewrite S0. intros s [].
    - rewrite C0. intros x [<-|[<-|[]]]; [rewrite Na0, Ya0|rewrite Nb0, Yb0]; do 2 eexists; (split; [reflexivity|]); intros _; constructor.
      exists 3. split; [lia|]. exists 25. reflexivity.
    - rewrite C0. intros cs x cs' y cs'' X [M _]. exfalso. assert (I : In x [a0; b0]) by (rewrite X; apply in_app_iff; cbn; auto).
      destruct I as [<-|[<-|[]]]; congruence. }
  assert (Ord : forall d, (missing d b -> missing d c) -> forall cs x cs' y cs'', u_comps ut = cs ++ x :: cs' ++ y :: cs'' -> missing d x -> missing d y).
  { intros d M cs x cs' y cs'' X. rewrite C1 in X. destruct cs as [|x0 cs]; [injection X as <- X; intros [Z _]; congruence|]. injection X as <- X.
    destruct cs as [|x1 cs]; [injection X as <- X; destruct cs' as [|z cs']; injection X as <- X; auto; destruct cs'; discriminate|].
    injection X as <- X. destruct cs as [|x2 cs]; injection X as _ X; [destruct cs'; discriminate|destruct cs; discriminate]. }
  apply rd_arr; cbn; [|lia|intros h E; injection E as <-; lia].
  intros x [<-|[<-|[]]]; apply rd_tup with (ut := ut); auto; try (rewrite S1; intros s [<-|[<-|[]]]; cbn; auto).
  - rewrite C1. intros x [<-|[<-|[<-|[]]]]; [rewrite Na, Ya|rewrite Nb, Yb|rewrite Nc, Yc]; do 2 eexists; (split; [reflexivity|]); intros _; auto; constructor.
  - apply Ord. intros [_ (x & Z)]. rewrite Nb in Z. discriminate.
  - rewrite C1. intros x [<-|[<-|[<-|[]]]]; [rewrite Na, Ya|rewrite Nb, Yb|rewrite Nc, Yc]; do 2 eexists; (split; [reflexivity|]); intros _; auto; constructor.
  - apply Ord. intros _. split; auto. rewrite Nc. eexists. reflexivity.
Qed.

Example C61_readable_example : forall file N, readable file shopG N (type_of 0) some_ranges.
Proof.
  intros file N. rewrite type_0. destruct tuple_1 as (T1 & S1 & C1). destruct tuple_0 as (T0 & S0 & C0). exact (ranges_readable _ _ _ _ _ _ T1 S1 C1 T0 S0 C0).
Qed.

(** Without these restrictions, what is shown may be another value or no value
    at all.  Strings: quotes are not escaped. *)
Theorem C61_strings_refuted :
  (exists x s tk y, shown_as 4 (S_text x) = Ok s /\ lex s = Lexed [tk] /\ tk_kind tk = STRING /\ tk_value tk = VText y /\ y <> x) /\
  (exists x s, shown_as 4 (S_text x) = Ok s /\ forall toks, lex s <> Lexed toks).
Proof.
  split.
  - exists (t "a\""b"), (t """a\""b"""), (Token STRING (VText (t "a""b")) 1 1 0 5), (t "a""b"). repeat apply conj; try (vm_compute; reflexivity). discriminate.
  - exists (t "a""b"), (t """a""b"""). split; [vm_compute; reflexivity|]. intros toks. vm_compute. discriminate.
Qed.
Print Assumptions C61_strings_refuted.

(** Tuples: words that separate fields run into the next field. *)
Definition half_score : sval := S_dict [(t "a", (true, S_int 1)); (t "b", (true, S_int 2))].
Lemma no_score G ut : tup G 2 = Some ut -> u_seps ut = [Sep_word (t "of")] ->
  map (fun c => (c_name c, c_typ c, c_opt c)) (u_comps ut) = [(t "a", TInt, false); (t "b", TInt, false)] ->
  shaped G (TTup 2) half_score /\ forall file src objs N y ns,
    ~ value file src G objs N false (TTup 2) y [Token INTEGER (VInt 1) 1 1 0 0; Token IDENTIFIER (VText (t "of2")) 1 2 1 3] ns.
Proof.
  intros T S C.
  destruct (u_comps ut) as [|a [|b [|]]] eqn:C'; try discriminate. cbn in C. injection C as Na Ya Oa Nb Yb Ob. rename C' into C. split.
  - apply sh_tup with (ut := ut); auto. rewrite C. intros c [<-|[<-|[]]]; [rewrite Na, Ya|rewrite Nb, Yb]; do 2 eexists; (split; [reflexivity|]); intros; constructor.
  - intros file src objs N y ns V. inversion V; subst; try discriminate; try (match goal with X : _ \/ _ |- _ => destruct X; discriminate end).
    match goal with X : tup G 2 = Some _ |- _ => rewrite T in X; injection X as <- end.
    match goal with X : separated _ _ _ _ _ _ _ _ _ _ _ _ _ |- _ => rewrite C, S in X; inversion X; subst; clear X end; try discriminate.
    + match goal with X : separates _ _ |- _ => inversion X; subst end.
      match goal with X : value _ _ _ _ _ _ (c_typ a) _ _ _ |- _ => rewrite Ya in X; inversion X; subst; clear X end;
        try (match goal with X : _ \/ _ |- _ => destruct X; discriminate end); cbn in *; try congruence.
      all: match goal with X : _ :: _ = _ :: _ |- _ => injection X as X1 X2 end; subst; cbn in *; try congruence.
      match goal with X : sign _ _ |- _ => inversion X; subst; discriminate end.
    + match goal with X : forall c', In c' [b] -> _ |- _ => specialize (X b (or_introl eq_refl)); congruence end.
Qed.
Theorem C61_separators_refuted : exists s toks, shown_as 3 half_score = Ok s /\ lex s = Lexed toks /\ shaped shopG (type_of 3) half_score /\
  forall file src objs N y ns, ~ value file src shopG objs N false (type_of 3) y toks ns.
Proof.
  exists (t "1of2"), [Token INTEGER (VInt 1) 1 1 0 0; Token IDENTIFIER (VText (t "of2")) 1 2 1 3].
  split; [vm_compute; reflexivity|]. split; [vm_compute; reflexivity|].
  rewrite type_3. destruct tuple_2 as (T & S & C). exact (no_score _ _ T S C).
Qed.
Print Assumptions C61_separators_refuted.

(** Enumerations of other packages are shown without their package. *)
Theorem C61_enums_refuted : shown_as 2 (S_text (t "red")) = Ok (t "Colour.red") /\
  t_contains (nth 1 (v_pkgs (env_of shop)) []) (t "R") = true /\
  t_contains (nth 1 (v_pkgs (env_of shop)) []) (t "Colour") = false /\ t_contains (v_stab (env_of shop)) (t "Colour") = false.
Proof. repeat apply conj; vm_compute; reflexivity. Qed.
Print Assumptions C61_enums_refuted.
