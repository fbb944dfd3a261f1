(** The parser of values raises no Python exception unless the file is cut
    off within the value. *)
From Verif Require Import Base Lexer SymTab Ast Eval Typing TypesProofs ParserBase ParserProofs ParserExpr ParserValue ExprTyping
  ValueSyntax ValueParserComplete ValueFuel Lint LexSpec LexerValues RunSyntax Hazards Growth ParserCrash.
From Verif Require LexerThm DeclRsl ProcessFuel.
From Coq Require Import ZifyBool ZifyNat ZifyN.
Open Scope Z_scope.

(** ** Tokens of a file *)
Lemma positional_nonneg base r n v : 0 <= base -> positional base r n v -> 0 <= v.
Proof.
  intros B. induction 1; try lia. assert (0 <= d) by (match goal with h : digit_val _ _ |- _ => destruct h; lia end).
  assert (0 <= base ^ Z.of_nat n) by (apply Z.pow_nonneg; lia). nia.
Qed.
Lemma token_denotes_ok src tk : LexerThm.token_ok src tk -> token_denotes (source_text src tk) (tk_kind tk) (tk_value tk).
Proof. intros (_ & _ & _ & L & k & base & B & E). eapply token_value_denotes; eauto. Qed.
Lemma token_valued src tk : LexerThm.token_ok src tk -> valued tk.
Proof.
  intros H. apply token_denotes_ok in H. unfold valued. remember (tk_kind tk) as k. remember (tk_value tk) as v.
  destruct H as [? ? [-> | ->]| |? ? D| | | | | | |]; eauto. destruct D; cbn; auto.
Qed.
Lemma token_nonneg src tk z : LexerThm.token_ok src tk -> tk_kind tk = INTEGER -> tk_value tk = VInt z -> 0 <= z.
Proof.
  intros H K V. apply token_denotes_ok in H. rewrite K, V in H. inversion H; subst.
  match goal with h : int_denotes _ _ |- _ => inversion h; subst end;
    match goal with h : positional ?b _ _ _ |- _ => apply (positional_nonneg b) in h; lia end.
Qed.

(** ** Rules *)

(** The last token is not a closing brace. *)
Definition inner (q : pos) : Prop := match ct q with Some tk => tk_kind tk <> C_KET | None => False end.
Section RULES.
Variable T : list token.
Variable hz : Prop.
Hypothesis cut : cut_off T -> hz.
Notation fine := (fine T).

Lemma fine_cut q : fine q -> nt q = None -> inner q -> hz.
Proof.
  intros (pre & all & _ & E & A & Ct) Nt I. apply cut. unfold inner in I. destruct (ct q) as [tk|]; [|contradiction].
  destruct Ct as (l & ->). rewrite (A Nt), Nt in E. cbn in E. rewrite app_nil_r in E. exists l, tk. auto.
Qed.
Lemma reads_inner q tk q' : reads q [tk] q' -> tk_kind tk <> C_KET -> inner q'.
Proof. intros R K. inversion R; subst. match goal with h : reads _ [] _ |- _ => inversion h; subst end. exact K. Qed.

Definition vsafe {A} (m : P A) (s : ps) : Prop :=
  match m s with
  | POk _ s' => fine (at_ s') /\ inner (at_ s')
  | PErr _ s' => fine (at_ s')
  | PCrash => hz
  | PFuel => True
  end.
Definition vok (s : ps) : Prop := fine (at_ s) /\ inner (at_ s).
Lemma vsafe_safe {A} (m : P A) s : vsafe m s -> safe (T := T) (hz := hz) m s.
Proof. unfold vsafe, safe. destruct (m s); auto. tauto. Qed.
Lemma vsafe_bind {A B} (m : P A) (k : A -> P B) s : vsafe m s ->
  (forall a s', m s = POk a s' -> vok s' -> vsafe (k a) s') -> vsafe (pbind m k) s.
Proof. unfold vsafe, pbind. intros H K. destruct (m s) as [a s'| | |] eqn:E; auto. apply (K a s' eq_refl H). Qed.
Lemma vsafe_ret {A} (a : A) s : vok s -> vsafe (pret a) s.
Proof. intros F. exact F. Qed.
Lemma vsafe_error {A} e s : vok s -> vsafe (perror e : P A) s.
Proof. intros F. apply F. Qed.
Lemma vsafe_fuel {A} s : vsafe (pfuel : P A) s.
Proof. exact I. Qed.
Lemma vsafe_note n s : vok s -> vsafe (pnote n) s.
Proof. intros F. exact F. Qed.
Lemma vsafe_cond {A} c (m1 m2 : P A) s : (c s = true -> vsafe m1 s) -> (c s = false -> vsafe m2 s) -> vsafe (pcond c m1 m2) s.
Proof. unfold vsafe, pcond. intros H1 H2. destruct (c s); [apply (H1 eq_refl)|apply (H2 eq_refl)]. Qed.
Lemma vsafe_lift {A} (r : res perr A) s : vok s -> (r = Crash -> hz) -> vsafe (lift r) s.
Proof. intros F N. destruct r; cbn; auto; apply F. Qed.
Lemma vsafe_lift_bind {A B} (r : res perr A) (k : A -> P B) s : vok s -> (r = Crash -> hz) ->
  (forall a, r = Ok a -> vsafe (k a) s) -> vsafe (pbind (lift r) k) s.
Proof.
  intros F N K. apply vsafe_bind; [apply vsafe_lift; auto|]. intros a s' E _. apply lift_ok in E as [E ->]. auto.
Qed.
Lemma vsafe_match {B} file w (k : token -> P B) s : w <> C_KET -> vok s ->
  (forall tk s', tk_kind tk = w -> reads (at_ s) [tk] (at_ s') -> In tk T -> vok s' -> vsafe (k tk) s') ->
  vsafe (pbind (p_match file w) k) s.
Proof.
  intros Nw [F Nk] K. assert (X : safe (T := T) (hz := hz) (pbind (p_match file w) pret) s).
  { apply safe_match; auto. }
  unfold vsafe, safe, pbind in *. destruct (p_match file w s) as [tk s'| | |] eqn:E; auto. cbn in X.
  apply match_ok in E as (Kd & R & _). apply (K tk s'); auto; [exact (fine_in T _ _ _ F R)|]. split; auto.
  eapply reads_inner; eauto. congruence.
Qed.
Lemma vsafe_match_last {B} file w (x : token -> B) s : w <> C_KET -> vok s -> vsafe (let* tk := p_match file w in pret (x tk)) s.
Proof. intros. apply vsafe_match; auto. Qed.
Lemma note_ct_vsafe file m s : vok s -> vsafe (note_ct file m) s.
Proof. intros [F I]. unfold vsafe, note_ct. unfold inner in I. destruct (ct (at_ s)) eqn:E; [|contradiction]. cbn. split; auto. unfold inner. rewrite E. auto. Qed.
Lemma next_loc_vsafe file s : vok s -> vsafe (next_loc file) s.
Proof. intros [F I]. unfold vsafe, next_loc. destruct (nt (at_ s)) eqn:E; [split; auto|]. eapply fine_cut; eauto. Qed.

End RULES.
Ltac vf :=
  repeat first
    [ match goal with
      | |- vsafe _ _ (pbind (p_match _ _) _) _ => apply vsafe_match; [discriminate|assumption|]; intros ? ? ? ? ? ?
      | |- vsafe _ _ (pcond _ _ _) _ => apply vsafe_cond; intros ?
      | |- vsafe _ _ (pret _) _ => apply vsafe_ret; assumption
      | |- vsafe _ _ pfuel _ => apply vsafe_fuel
      | |- vsafe _ _ (perror _) _ => apply vsafe_error; assumption
      | |- vsafe _ _ (let '(_, _) := ?x in _) _ => destruct x
      end ].
Ltac vl := match goal with
  | |- vsafe _ _ (lift _) _ => apply vsafe_lift; [assumption|]
  | |- vsafe _ _ (pbind (lift _) _) _ => apply vsafe_lift_bind; [assumption| |intros ? ?]
  end.
Ltac nc L := let X := fresh "X" in intros X; exfalso; eapply L; [..|exact X]; eauto.

Section VALUE.
Variable file : Z.
Variable src : text.
Variable G : types.
Variable objs : list object.
Variable N : names.
Variable T : list token.
Variable hz : Prop.
Hypothesis cut : cut_off T -> hz.
Hypothesis tok : forall tk, In tk T -> LexerThm.token_ok src tk.
Hypothesis im : n_imports N <> None.
Hypothesis known : forall q k o, In (k, N_obj o) (p_symbols N q) -> (o < List.length objs)%nat.
Hypothesis tuples : tuples_ok G.
Hypothesis comps : components_valid G.
Notation vsafe := (vsafe T hz).
Notation vok := (vok T).

Lemma ncr_hidden {A} e : @hidden N A e <> Crash.
Proof. unfold hidden. destruct (n_imports N); [discriminate|contradiction]. Qed.
Lemma ncr_direct d name l r : lookup_direct d name l r <> Crash.
Proof.
  unfold lookup_direct. destruct (t_find d name) as [[k a]|]; [|discriminate]. destruct (text_eqb k name); [|discriminate]. destruct (r a); discriminate.
Qed.
Lemma direct_in d name l r e : lookup_direct d name l r = Ok e -> In (name, e) d /\ r e = true.
Proof.
  unfold lookup_direct. destruct (t_find d name) as [[k a]|] eqn:F; [|discriminate]. destruct (text_eqb k name) eqn:E; [|discriminate].
  destruct (r a) eqn:Ra; [|discriminate]. intros X. injection X as <-. apply text_eqb_eq in E as ->. split; auto. eapply t_find_in; eauto.
Qed.
Lemma ncr_ref l a pkg name : match a with Some (TRec _ | TUnion _ _) | None => True | _ => False end -> resolve_ref G objs N l a pkg name <> Crash.
Proof.
  intros A. unfold resolve_ref. apply ncr_bind; [apply ncr_direct|]. intros e E. apply direct_in in E as [I O].
  destruct e as [| | |o| |]; try discriminate. apply known in I. destruct (nth_error objs o) as [ob|] eqn:Eo; [|apply nth_error_None in Eo; lia].
  destruct a as [[]|]; try contradiction; try discriminate; match goal with |- context [if ?b then _ else _] => destruct b end; discriminate.
Qed.
Lemma ncr_reference a tk pkg : match a with TRec _ | TUnion _ _ => True | _ => False end -> reference_to file G objs N a tk pkg <> Crash.
Proof.
  intros A. unfold reference_to. destruct (t_contains _ _); [|discriminate]. apply ncr_bind; [|discriminate]. apply ncr_ref. auto.
Qed.
Lemma lookup_kind d tk r e : e_lookup file d tk (Some r) = Ok e -> r e = true.
Proof.
  unfold e_lookup, t_lookup. destruct (t_find d (tok_text tk)) as [[k a]|]; [|discriminate]. destruct (text_eqb k (tok_text tk)); [|discriminate].
  destruct (r a) eqn:E; [|discriminate]. intros X. injection X as <-. auto.
Qed.
Lemma qualified_name_vsafe sc r s : sc <> [] -> vok s -> vsafe (parse_qualified_name file N sc r) s.
Proof.
  intros Ne F. unfold parse_qualified_name. vf. unfold qualified_rest. vl; [nc ncr_scope|].
  assert (K : vsafe (let* e := lift (s_lookup file sc tk r) in pret (e, tk)) s').
  { vl; [nc ncr_scope|]. vf. }
  destruct a as [| |p| | |]; auto. destruct (is_visible N p).
  - vf. vl; [nc (@ncr_lookup file)|]. vf.
  - vl. nc @ncr_hidden.
Qed.
Lemma token_int tk : In tk T -> tk_kind tk = INTEGER -> exists z, tk_value tk = VInt z.
Proof. intros I K. assert (V := token_valued _ _ (tok _ I)). unfold valued in V. rewrite K in V. auto. Qed.
Lemma token_dec tk : In tk T -> tk_kind tk = DECIMAL -> exists z, tk_value tk = VDec z.
Proof. intros I K. assert (V := token_valued _ _ (tok _ I)). unfold valued in V. rewrite K in V. auto. Qed.
Lemma number_vsafe a s : vok s -> vsafe (parse_number file a) s.
Proof.
  intros F. unfold parse_number. apply vsafe_bind; [vf|]. intros sg s1 _ F1. apply vsafe_bind; [|intros; vf].
  assert (X : vsafe (let* tk := p_match file INTEGER in match tk_value tk with VInt z => pret (XLit (tok_loc file tk) (LInt z) []) | _ => pcrash end) s1).
  { vf. destruct (token_int tk) as [z ->]; auto. }
  destruct a; auto. vf. destruct (token_dec tk) as [z ->]; auto.
Qed.
Lemma boolean_vsafe s : vok s -> vsafe (parse_boolean file) s.
Proof. intros F. unfold parse_boolean. vf. destruct (has_text _ _); vf. destruct (has_text _ _); vf. Qed.
Lemma enum_value_vsafe e s : vok s -> vsafe (parse_enum_value file G N e) s.
Proof.
  intros F. unfold parse_enum_value. apply vsafe_bind; [apply qualified_name_vsafe; auto; discriminate|]. intros [en tk] s1 E F1.
  unfold parse_qualified_name in E. apply pbind_ok in E as (tk0 & s2 & _ & E). apply DeclRsl.qualified_in in E as [E _].
  destruct en as [[]| | | | |]; try discriminate. destruct (Nat.eqb _ _); vf. vl; [nc (@ncr_lookup file)|]. vf.
Qed.
Lemma reference_vsafe a s : match a with TRec _ | TUnion _ _ => True | _ => False end -> vok s -> vsafe (parse_reference file G objs N a) s.
Proof.
  intros A F. unfold parse_reference. vf.
  - vl; [nc (@ncr_lookup file)|]. match goal with h : e_lookup _ _ _ _ = Ok _ |- _ => apply lookup_kind in h end. destruct a0 as [| |p| | |]; try discriminate. destruct (is_visible N p); vl; [nc ncr_reference|nc @ncr_hidden].
  - vl. nc ncr_reference.
Qed.
Lemma bounds_vsafe tk lo hi vs s : match hi with Some h => 0 <= h | None => True end -> vok s -> vsafe (array_bounds file tk lo hi vs) s.
Proof.
  intros H F. unfold array_bounds. apply vsafe_bind; [destruct (_ <? _); [apply vsafe_note; auto|vf]|]. intros _ s1 _ F1.
  destruct hi as [h|]; [|vf]. destruct (negb (h =? 0) && (h <? Z.of_nat (List.length vs))) eqn:E; [|vf].
  destruct (nth_error vs (Z.to_nat h)) eqn:En; [apply vsafe_note; auto|]. apply nth_error_None in En. lia.
Qed.
(** The types of components *)
Definition bounded (a : ty) : Prop := match a with TArr _ _ (Some h) _ => 0 <= h | _ => True end.
Definition usable (a : ty) : Prop := valid G a /\ simple_array a /\ bounded a.
Section STEP.
Variable n : nat.
Variable pv : ty -> P vexpr.
Hypothesis pv_vsafe : forall a s, usable a -> vok s -> vsafe (pv a) s.

Lemma elements_vsafe m el : usable el -> forall s, vok s -> vsafe (array_elements file pv m el) s.
Proof.
  intros U. induction m as [|m IH]; intros s F; cbn [array_elements]; vf. apply vsafe_bind; [auto|]. intros v s1 _ F1. vf.
  - apply vsafe_bind; [auto|]. intros; vf.
  - apply vsafe_bind; [apply note_ct_vsafe; auto|]. intros _ s2 _ F2. apply vsafe_bind; [auto|]. intros; vf.
Qed.
Lemma sequence_vsafe is : (forall c, In (IComp c) is -> usable (c_typ c)) -> forall skip d s, vok s -> vsafe (sequence file pv skip is d) s.
Proof.
  induction is as [|[c|sep] is IH]; intros U skip d s F; cbn [sequence]; [vf| |].
  - destruct (skip && c_opt c); [vf|]. apply vsafe_bind; [apply pv_vsafe; auto; apply U; cbn; auto|]. intros. apply IH; auto. intros; apply U; cbn; auto.
  - apply vsafe_cond; intros _; [|apply IH; auto; intros; apply U; cbn; auto].
    apply vsafe_match; [destruct sep; discriminate|auto|]. intros. apply IH; auto. intros; apply U; cbn; auto.
Qed.
Lemma fields_vsafe cs : (forall c, In c cs -> usable (c_typ c)) -> forall first d s, vok s -> vsafe (fields file pv first cs d) s.
Proof.
  induction cs as [|c cs IH]; intros U first d s F; cbn [fields]; [vf|]. apply vsafe_bind; [destruct first; vf|]. intros _ s1 _ F1.
  apply vsafe_bind; [apply pv_vsafe; auto; apply U; cbn; auto|]. intros. apply IH; auto. intros; apply U; cbn; auto.
Qed.
Lemma step_vsafe a s : usable a -> vok s -> vsafe (value_step file src G objs N pv n a) s.
Proof.
  intros (V & Sa & B) F. destruct a as [| | | | |e|u|r|i ms|i lo hi el]; cbn [value_step].
  - apply number_vsafe; auto.
  - apply number_vsafe; auto.
  - apply boolean_vsafe; auto.
  - vf.
  - vf. vl. intros X. destruct (markup_fuel file src N tk) as [_ K]; auto. destruct (K im X).
  - apply enum_value_vsafe; auto.
  - cbn in V. destruct (tup G u) as [ut|] eqn:U; [|unfold tup in U; apply nth_error_None in U; lia].
    assert (Uc : forall c, In c (u_comps ut) -> usable (c_typ c)).
    { intros c I. split; [eapply (proj2 comps); eauto|]. assert (X := to_types _ _ _ (tuples _ _ U) c I). destruct (c_typ c); cbn; auto. contradiction. }
    destruct (u_seps ut) eqn:Es.
    + vf. apply vsafe_bind; [apply fields_vsafe; auto|]. intros d s2 _ F2. vf.
    + apply vsafe_bind; [apply next_loc_vsafe; auto|]. intros l0 s1 _ F1. apply vsafe_bind; [|intros; vf].
      apply sequence_vsafe; auto. intros c I. apply Uc. unfold iter_sequence in I. eapply ProcessFuel.interleave_in; eauto.
  - apply reference_vsafe; auto.
  - apply reference_vsafe; auto.
  - vf. apply vsafe_bind; [apply elements_vsafe; auto|]. { cbn in V, Sa. split; auto. destruct el; cbn; auto; contradiction. }
    intros vs s2 _ F2. vf. apply vsafe_bind; [apply bounds_vsafe; auto|]. intros; vf.
Qed.
End STEP.
Theorem value_vsafe n d : forall a s, usable a -> vok s -> vsafe (value_at file src G objs N d n a) s.
Proof. induction d as [|d IH]; intros a s U F; cbn [value_at]; [vf|]. apply step_vsafe; auto. Qed.
End VALUE.
