(** The functional meaning of ExprSyntax.v against the relations of
    ExprMeaning.v and Typing.v. *)
From Verif Require Import Base Lexer SymTab Ast Eval Typing Soundness TypesProofs ParserBase ParserExpr ExprSyntax ValueSyntax
  ValueParserSound ParserProofs ExprTyping ExprMeaning.
From Coq Require Import Relations Permutation QArith_base ZifyBool ZifyNat ZifyN.
Open Scope Z_scope.

(** A larger scope does no harm. *)
Ltac ty := try match goal with |- e_typ _ = Some _ => eassumption end.
Lemma wt_scope G W k e : forall S S' : scope, (forall n x, assoc n S = Some x -> assoc n S' = Some x) ->
  wt G W k S e -> wt G W k S' e.
Proof.
  induction e using expr_ind2; intros S S' F T; inversion T; subst;
    try solve [eapply wt_null; ty; eauto | eapply wt_lit; ty; eauto | eapply wt_name; ty; eauto | eapply wt_number; ty; eauto | eapply wt_not; ty; eauto | eapply wt_strlen; ty; eauto | eapply wt_arrlen; ty; eauto | eapply wt_convert; ty; eauto | eapply wt_logic; ty; eauto | eapply wt_equal; ty; eauto |
      eapply wt_order; ty; eauto | eapply wt_string; ty; eauto | eapply wt_regex; ty; eauto | eapply wt_member; ty; eauto |
      eapply wt_arith; ty; eauto | eapply wt_concat; ty; eauto | eapply wt_rem; ty; eauto | eapply wt_pow; ty; eauto | eapply wt_index; ty; eauto | eapply wt_tup_field; ty; eauto | eapply wt_rec_field; ty; eauto | eapply wt_union_field; ty; eauto | eapply wt_range; ty; eauto].
  - (* one of *)
    constructor; auto. intros x I. match goal with H : forall e, In e _ -> forall S S', _ |- _ => eapply (H x I); eauto end.
  - (* conditions *)
    econstructor; eauto. intros c x I.
    match goal with H : forall c x, In (c, x) _ -> (forall S S', _) /\ _ |- _ => destruct (H _ _ I) end.
    match goal with H : forall c x, In (c, x) _ -> wt _ _ _ _ c /\ _ |- _ => destruct (H _ _ I) end. split; eauto.
  - (* quantifiers *)
    econstructor; eauto. eapply IHe; [|eassumption]. intros n x. cbn. destruct (text_eqb _ n); auto.
Qed.
Lemma assoc_same {A} (l l' : list (text * A)) : NoDup (map fst l') -> (forall x, In x l -> In x l') ->
  forall n x, assoc n l = Some x -> assoc n l' = Some x.
Proof. intros D I n x E. apply in_assoc; auto. apply I. apply assoc_in. auto. Qed.

Section PROOFS.
Variable file : Z.
Variable lint : bool.
Variable G : types.
Variable W : world.
Variable compiles : text -> bool.
Variable N : names.
Hypothesis dc : declared G W compiles N.
Notation elab := (elab file lint G W compiles N).
Notation means := (means file G W compiles N).
Notation selected := (selected file G W compiles N).
Notation each := (each file G W compiles N).
Notation each_pair := (each_pair file G W compiles N).
Notation loc_of := (tok_loc file).

(** ** Names *)

Lemma contains_entry (d : ntable) k : t_contains d k = true <-> exists e, entry d k e.
Proof.
  unfold t_contains, entry. destruct (t_find d k) as [[k' e]|]; split.
  - intros E. apply text_eqb_eq in E. subst. eauto.
  - intros (e' & E). injection E as -> ->. apply text_eqb_refl.
  - discriminate.
  - intros (e' & E). discriminate.
Qed.
Lemma lookup_entry (d : ntable) tk e : e_lookup file d tk None = Ok e <-> entry d (tok_text tk) e.
Proof.
  unfold e_lookup, t_lookup, entry. destruct (t_find d (tok_text tk)) as [[k e']|]; [|split; discriminate].
  destruct (text_eqb k (tok_text tk)) eqn:K.
  - apply text_eqb_eq in K. subst. split; intros H; injection H as ->; auto.
  - split; [discriminate|]. intros H. injection H as -> ->. rewrite text_eqb_refl in K. discriminate.
Qed.
Lemma lookup_scope sc tk e : s_lookup file sc tk None = Ok e <-> in_scope sc (tok_text tk) e.
Proof.
  induction sc as [|d sc IH]; [split; [discriminate|intros H; inversion H]|].
  assert (X : s_lookup file (d :: sc) tk None = Ok e <->
              e_lookup file d tk None = Ok e \/ (t_contains d (tok_text tk) = false /\ s_lookup file sc tk None = Ok e)).
  { destruct sc as [|d' sc].
    - cbn [s_lookup]. split; auto. intros [H|(_ & H)]; auto. discriminate.
    - change (s_lookup file (d :: d' :: sc) tk None) with
        (if t_contains d (tok_text tk) then e_lookup file d tk None else s_lookup file (d' :: sc) tk None).
      destruct (t_contains d (tok_text tk)) eqn:C.
      + split; auto. intros [H|(H & _)]; auto. discriminate.
      + split; auto. intros [H|(_ & H)]; auto. apply lookup_entry in H.
        assert (F : t_contains d (tok_text tk) = true) by (apply contains_entry; eauto). congruence. }
  rewrite X, lookup_entry, IH. split.
  - intros [H|(C & H)]; [left; auto|right; auto]. intros e' E.
    assert (F : t_contains d (tok_text tk) = true) by (apply contains_entry; eauto). congruence.
  - intros H. inversion H as [|? ? ? ? H2]; subst; auto. right. split; auto.
    destruct (t_contains d (tok_text tk)) eqn:C; auto. apply contains_entry in C as (e' & C). destruct (H2 _ C).
Qed.
Lemma lookup_class sc tk f e : s_lookup file sc tk (Some f) = Ok e <-> s_lookup file sc tk None = Ok e /\ f e = true.
Proof.
  assert (T : forall d : ntable, e_lookup file d tk (Some f) = Ok e <-> e_lookup file d tk None = Ok e /\ f e = true).
  { intros d. unfold e_lookup, t_lookup. destruct (t_find d (tok_text tk)) as [[k e']|]; [|split; [discriminate|intros (X & _); discriminate]].
    destruct (text_eqb k (tok_text tk)); [|split; [discriminate|intros (X & _); discriminate]].
    destruct (f e') eqn:F; split.
    - intros H. injection H as ->. auto.
    - intros (H & _). auto.
    - discriminate.
    - intros (H & X). injection H as ->. congruence. }
  induction sc as [|d [|d' sc] IH]; cbn [s_lookup].
  - split; [discriminate|intros (X & _); discriminate].
  - apply T.
  - destruct (t_contains d (tok_text tk)); [apply T|apply IH].
Qed.
Lemma visible_usable p : is_visible N p = true <-> usable N p.
Proof.
  unfold is_visible, usable. destruct (n_imports N) as [l|].
  - rewrite orb_true_iff, existsb_exists, Nat.eqb_eq. split.
    + intros [H|(x & I & E)]; exists l; split; auto. apply Nat.eqb_eq in E. subst. auto.
    + intros (l' & [= <-] & [H|H]); auto. right. exists p. split; auto. apply Nat.eqb_refl.
  - split; [discriminate|]. intros (l & E & _). discriminate.
Qed.
Lemma contains_unused sc k : s_contains sc k = false <-> unused sc k.
Proof.
  unfold unused. induction sc as [|d sc IH]; cbn; [split; auto; intros _ d e []|].
  rewrite orb_false_iff, IH. split.
  - intros (C & H) d' e [<-|I] E; [|eapply H; eauto].
    assert (F : t_contains d k = true) by (apply contains_entry; eauto). congruence.
  - intros H. split; [|intros; eapply H; eauto].
    destruct (t_contains d k) eqn:C; auto. apply contains_entry in C as (e & C). exfalso. eapply H; eauto.
Qed.

(** ** Every meaning is one of the relation *)

Definition sem (sc : nscope) (sels : list (token * option raw)) : list selector :=
  map (fun s => (fst s, match snd s with Some i => Some (elab sc i) | None => None end)) sels.
Definition sound (r : raw) : Prop := forall sc e, elab sc r = Ok e -> means sc r e.

Lemma resolve_refers sc tk sels e tk' l : resolve file N sc tk (sem sc sels) = Ok (e, tk', l) ->
  exists sels', l = sem sc sels' /\ incl sels' sels /\ refers N sc tk sels e tk' sels'.
Proof.
  unfold resolve. intros H. apply bind_ok in H as (sym & L & H). apply lookup_scope in L.
  assert (Q : (exists p, sym = N_pkg p) \/ (forall p, sym <> N_pkg p)) by (destruct sym; eauto; right; discriminate).
  destruct Q as [(p & ->)|NP].
  - destruct (is_visible N p) eqn:V; [|unfold hidden in H; destruct (n_imports N); discriminate].
    destruct sels as [|[tk2 [i|]] sels]; try discriminate. cbn in H. apply bind_ok in H as (x & X & H).
    injection H as <- <- <-. exists sels. split; auto. split; [intros y I; right; auto|].
    apply lookup_entry in X. apply visible_usable in V. eapply den_package; eauto.
  - assert (X : e = sym /\ tk' = tk /\ l = sem sc sels) by (destruct sym; try (injection H as <- <- <-; auto); destruct (NP p); auto).
    destruct X as (-> & -> & ->). exists sels. split; auto. split; [apply incl_refl|]. constructor; auto.
Qed.
Lemma select_selected sc sels : (forall tk i, In (tk, Some i) sels -> sound i) ->
  forall e e', select file lint G e (sem sc sels) = Ok e' -> selected sc e sels e'.
Proof.
  induction sels as [|[tk [r|]] sels IH]; intros F e e' H; cbn in H.
  - injection H as <-. constructor.
  - apply bind_ok in H as (u & A & H). apply bind_ok in H as (i & I & H). apply bind_ok in H as (x & X & H).
    unfold index_access in X. destruct (e_typ e) as [[]|]; try discriminate.
    apply of_static_ok in X. unfold mk_binary in X. apply bind_ok in X as (v & _ & X). injection X as <-.
    assert (M : means sc r i) by (apply (F tk r); [left|]; auto).
    eapply sel_index; [exact M|]. apply IH; [intros tk' i' I'; apply (F tk' i'); right; auto|exact H].
  - apply bind_ok in H as (u & A & H). apply bind_ok in H as ([x ns] & X & H). cbn in H.
    assert (IH' := IH ltac:(intros; eapply F; right; eauto) _ _ H). clear IH H.
    unfold field_access in X.
    assert (Y : (exists c, c_name c = tok_text tk /\ x = EField (loc_of tk) c e false true) \/
                (exists c un, c_name c = tok_text tk /\ x = EField (loc_of tk) c e true un)).
    { destruct (e_typ e) as [a|]; [|discriminate].
      assert (P : (do c <- t_lookup file N_comp (components_of G a) tk None ;
                   do x <- of_static (mk_field (tok_loc file tk) c e false true) ; Ok (x, [])) = Ok (x, ns) ->
                  exists c, c_name c = tok_text tk /\ x = EField (loc_of tk) c e false true).
      { intros Z. apply bind_ok in Z as (c & C & Z). apply bind_ok in Z as (y & Y & Z). injection Z as <- <-.
        apply of_static_ok in Y. unfold mk_field in Y. apply bind_ok in Y as (w & _ & Y). injection Y as <-.
        exists c. split; auto. apply t_lookup_in in C. apply in_map_iff in C as (c' & E & _). injection E as E <-. auto. }
      destruct a as [| | | | | | | |r|i ms]; try (left; apply P; exact X).
      right. destruct (assoc (tok_text tk) (field_map G ms)) as [info|] eqn:E; [|discriminate].
      destruct (fi_typ info); [|discriminate]. apply bind_ok in X as (y & Y & X). injection X as <- <-.
      apply of_static_ok in Y. cbn in Y. injection Y as <-.
      exists (fi_comp info). eexists. split; [|reflexivity].
      rewrite (field_map_flat G) in E by (exact (dc_rec _ _ _ _ dc)). rewrite fm_fold in E.
      destruct (filter (named (tok_text tk)) _) as [|c cs] eqn:Fi; [discriminate|]. cbn in E. injection E as <-. cbn.
      assert (I : In c (filter (named (tok_text tk)) (flat_map (all_components G) ms))) by (rewrite Fi; left; auto).
      apply filter_In in I as [_ I]. apply text_eqb_eq in I. auto. }
    destruct Y as [(c & E & ->)|(c & un & E & ->)]; [eapply sel_field|eapply sel_union]; eauto.
Qed.

Lemma name_sound tk sels : (forall tk i, In (tk, Some i) sels -> sound i) -> sound (R_name tk sels).
Proof.
  intros F sc e H. cbn [ExprSyntax.elab] in H. fold (sem sc sels) in H. unfold name_meaning in H.
  apply bind_ok in H as ([[ent tk'] l] & R & H). apply resolve_refers in R as (sels' & -> & I & R).
  assert (F' : forall tk i, In (tk, Some i) sels' -> sound i) by eauto.
  apply bind_ok in H as (h & C & H). unfold classify in C.
  destruct ent as [[]| | | |c|n a]; try discriminate; cbn in C; injection C as <-;
    try (destruct (sem sc sels') as [|[? []] [|]]; discriminate).
  - destruct sels' as [|[tk2 [r|]] [|]]; try discriminate. cbn in H. unfold enum_literal in H.
    apply bind_ok in H as (n & L & H). injection H as <-.
    apply t_lookup_in in L. unfold enum_literals in L. destruct (nth_error (enums G) e0) as [en|] eqn:En; [|contradiction].
    apply in_map_iff in L as (x & E & L). injection E as E1 E2. subst x n. eapply m_enum; eauto.
  - eapply m_component; eauto. apply select_selected; auto.
  - eapply m_variable; eauto. apply select_selected; auto.
Qed.
Lemma callee_callable sc pkg tk c : callee_meaning file N sc pkg tk = Ok c ->
  exists e, callee_of e = Some c /\ callable N sc pkg tk e.
Proof.
  unfold callee_meaning. destruct pkg as [tp|]; intros H.
  - apply bind_ok in H as ([[ent tk'] l] & R & H). change [(tk, None)] with (sem sc [(tk, None)]) in R.
    apply resolve_refers in R as (sels' & -> & I & R). apply bind_ok in H as (h & C & H).
    destruct h as [|c'|]; try discriminate. destruct sels' as [|]; [|discriminate]. injection H as ->.
    exists ent. unfold classify in C.
    assert (X : callee_of ent = Some c).
    { destruct ent as [[]| | | |c'|n a]; try discriminate; cbn in *; injection C as <-; auto. }
    split; auto. inversion R; subst. constructor. auto.
  - unfold builtin_name in H. apply bind_ok in H as (e & L & H). exists e. apply lookup_entry in L.
    destruct (callee_of e); [|discriminate]. injection H as ->. split; auto. constructor; auto.
Qed.
Lemma all_each sc rs : (forall r, In r rs -> sound r) -> forall xs, all_of (map (elab sc) rs) = Ok xs -> each sc rs xs.
Proof.
  induction rs as [|r rs IH]; intros F xs H; cbn in H; [injection H as <-; constructor|].
  apply bind_ok in H as (x & X & H). apply bind_ok in H as (l & L & H). injection H as <-.
  constructor; [apply F; [left|]; auto|]. apply IH; auto. intros; apply F; right; auto.
Qed.
Lemma static_binary l a op x y e : binary G l a op x y = Ok e -> e = EBinary l a op x y.
Proof. intros H. apply of_static_ok in H. unfold mk_binary in H. apply bind_ok in H as (u & _ & H). injection H as <-. auto. Qed.
Lemma static_unary l a op x e : unary l a op x = Ok e -> e = EUnary l a op x.
Proof. intros H. apply of_static_ok in H. unfold mk_unary in H. apply bind_ok in H as (u & _ & H). injection H as <-. auto. Qed.
Lemma call_sound pkg tk args : (forall r, In r args -> sound r) -> sound (R_call pkg tk args).
Proof.
  intros F sc e H. cbn [ExprSyntax.elab] in H. apply bind_ok in H as (c & C & H). apply bind_ok in H as (es & A & H).
  apply callee_callable in C as (ent & C & D). apply all_each in A; auto.
  destruct ent as [[]|f| | | |]; cbn in C; try discriminate; injection C as <-.
  - (* Integer *)
    destruct A as [|r x ? ? M [|]]; try discriminate. cbn in H. apply bind_ok in H as (? & _ & H).
    apply static_unary in H. subst. apply m_integer; auto.
  - destruct A as [|r x ? ? M [|]]; try discriminate. cbn in H. apply bind_ok in H as (? & _ & H).
    apply static_unary in H. subst. apply m_decimal; auto.
  - destruct f; cbn in H.
    + destruct A as [|r x ? ? M [|]]; try discriminate.
      assert (X : exists op, In op [U_strlen; U_arrlen] /\ unary (tok_loc file tk) (Some TInt) op x = Ok e)
        by (destruct (e_typ x) as [[]|]; eexists; (split; [|exact H]); cbn; auto).
      destruct X as (op & O & X). apply static_unary in X. subst. apply m_len; auto.
    + destruct A as [|r x ? ? M [|r' x' ? ? M' [|]]]; try discriminate. apply static_binary in H. subst. apply m_starts; auto.
    + destruct A as [|r x ? ? M [|r' x' ? ? M' [|]]]; try discriminate. apply static_binary in H. subst. apply m_ends; auto.
    + destruct A as [|r x ? ? M [|r' x' ? ? M' [|]]]; try discriminate.
      apply bind_ok in H as (? & _ & H). apply bind_ok in H as ([lv v] & V & H). cbn in H.
      destruct v as [[[] b]|]; try discriminate.
      assert (X : exists p, s = p /\ compiles p = true /\ binary G (tok_loc file tk) (Some TBool) B_regex x x' = Ok e).
      { exists s. destruct b; try discriminate; destruct (compiles s) eqn:K; try discriminate; auto. }
      destruct X as (p & -> & K & X). apply static_binary in X. subst.
      eapply m_matches; eauto. unfold of_eval in V. destruct (evaluate W None x') as [|[? []]| |]; try discriminate; injection V as ->; eauto.
    + destruct A as [|r x ? ? M A]; try discriminate. apply of_static_ok in H. unfold mk_oneof in H.
      apply bind_ok in H as (? & _ & H). injection H as <-. apply m_oneof; auto; [discriminate|]. constructor; auto.
Qed.
Lemma negated_not neg x e : negated file neg x = Ok e -> apply_not file neg x e.
Proof.
  destruct neg as [tk|]; cbn; intros H; [|injection H as <-; constructor]. apply static_unary in H. subst. constructor.
Qed.
Lemma more_sound sc a more : (forall c x, In (c, x) more -> sound c /\ sound x) -> forall l,
  all_of (map (elsif_meaning a) (map (fun p => (elab sc (fst p), elab sc (snd p))) more)) = Ok l -> each_pair sc more l.
Proof.
  induction more as [|[c x] more IH]; intros F l H; cbn in H; [injection H as <-; constructor|].
  apply bind_ok in H as ([c' x'] & X & H). apply bind_ok in H as (l' & L & H). injection H as <-.
  unfold elsif_meaning in X. apply bind_ok in X as (c2 & C & X). apply bind_ok in X as (x2 & X2 & X).
  apply of_static_ok in X. unfold mk_elsif, mk_action in X. apply bind_ok in X as (? & X & Y).
  apply bind_ok in X as (? & _ & X). injection X as <-. apply bind_ok in Y as (? & _ & Y). injection Y as <- <-.
  destruct (F c x (or_introl eq_refl)). constructor; auto. apply IH; auto. intros; apply F; right; auto.
Qed.

Theorem elab_means_all :
  (forall lv r ts, syn lv r ts -> sound r) /\
  (forall sels ts, syn_sels sels ts -> forall tk i, In (tk, Some i) sels -> sound i) /\
  (forall args ts, syn_args args ts -> forall r, In r args -> sound r) /\
  (forall more ts, syn_more more ts -> forall c x, In (c, x) more -> sound c /\ sound x).
Proof.
  assert (Bin : forall tk op a b, sound a -> sound b ->
    In op [B_and; B_or; B_xor; B_implies; B_eq; B_neq; B_lt; B_leq; B_gt; B_geq; B_plus; B_minus; B_times; B_div;
           B_rem; B_pow] -> sound (R_binary tk op a b)).
  { intros tk op a b Ha Hb O sc e H. cbn [ExprSyntax.elab] in H.
    apply bind_ok in H as (x & X & H). apply bind_ok in H as (y & Y & H). apply Ha in X. apply Hb in Y.
    assert (Z : exists a, e = EBinary (loc_of tk) a op x y).
    { destruct op; try (apply static_binary in H; eauto). unfold power in H. apply bind_ok in H as (v & _ & H).
      apply bind_ok in H as (e' & E & H). apply static_binary in E. destruct (v_val v) as [[p ?]|]; [|discriminate].
      destruct (as_num p) as [n|]; [|discriminate]. destruct (num_lt n (NInt 0)); [discriminate|]. injection H as <-. eauto. }
    destruct Z as (a' & ->). apply m_binary; auto. }
  assert (Un : forall tk op a, sound a -> In op [U_minus; U_plus; U_abs; U_not] -> sound (R_unary tk op a)).
  { intros tk op a Ha O sc e H. cbn [ExprSyntax.elab] in H. apply bind_ok in H as (x & X & H).
    apply static_unary in H. subst. apply m_unary; auto. }
  apply syn_ind4; intros; eauto;
    try (apply Bin; auto; try match goal with H : comparison _ _ |- _ => destruct H end;
          try match goal with H : adding _ _ |- _ => destruct H end;
          try match goal with H : multiplying _ _ |- _ => destruct H end; cbn; tauto);
    try (apply Un; auto; try match goal with H : ExprSyntax.sign _ _ |- _ => destruct H end; cbn; tauto).
  - (* member *)
    intros sc e HH. cbn [ExprSyntax.elab] in HH. apply bind_ok in HH as (x' & X & HH). apply bind_ok in HH as (y & Y & HH).
    apply bind_ok in HH as (m & M & HH). apply negated_not in HH.
    assert (Z : exists op, In op [B_contains; B_arrcontains] /\ m = EBinary (loc_of tk) (Some TBool) op x' y).
    { unfold member_test in M. destruct (e_typ y) as [[]|]; try discriminate; apply static_binary in M; subst;
        eexists; (split; [|reflexivity]); cbn; auto. }
    destruct Z as (op & O & ->). eapply m_member; eauto.
  - (* range *)
    intros sc e HH. cbn [ExprSyntax.elab] in HH. apply bind_ok in HH as (x' & X & HH). apply bind_ok in HH as (l & Y & HH).
    apply bind_ok in HH as (h & Z & HH). apply bind_ok in HH as (m & M & HH). apply negated_not in HH.
    unfold range_test in M. apply of_static_ok in M. unfold mk_range in M. apply bind_ok in M as (? & _ & M).
    apply bind_ok in M as (? & _ & M). apply bind_ok in M as (? & _ & M). injection M as <-. eapply m_range; eauto.
  - (* literal *)
    intros sc e HH. cbn [ExprSyntax.elab] in HH. injection HH as <-. constructor. unfold literal_meaning.
    match goal with H : literal _ |- _ => destruct H as [tk z K V|tk z K V|tk z K V|tk [K V]|tk [K V]|tk [K V]] end;
      rewrite K, V; constructor; auto; split; auto.
  - apply name_sound; auto.
  - apply call_sound; auto.
  - (* quantifier *)
    intros sc e HH. cbn [ExprSyntax.elab] in HH. apply bind_ok in HH as (? & U & HH). apply bind_ok in HH as ([c el] & S & HH).
    apply bind_ok in HH as (b & B & HH). cbn [fst snd] in *. apply of_static_ok in HH. unfold mk_quant in HH.
    apply bind_ok in HH as (? & _ & HH). injection HH as <-.
    unfold fresh_variable in U. destruct (s_contains sc (tok_text tv)) eqn:Cn; [apply bind_ok in U as (? & _ & U); discriminate|].
    unfold quantified_source in S. apply bind_ok in S as (ent & L & S). apply lookup_class in L as (L & Cl).
    destruct ent as [| | | |c'|]; try discriminate. apply lookup_scope in L.
    destruct (c_typ c') eqn:T; try discriminate. injection S as -> ->.
    eapply m_quant; eauto. apply contains_unused; auto.
  - (* condition *)
    intros sc e HH. cbn [ExprSyntax.elab] in HH. apply bind_ok in HH as (c' & C & HH). apply bind_ok in HH as (x' & X & HH).
    apply bind_ok in HH as (a & A & HH). apply bind_ok in HH as (l & L & HH). apply bind_ok in HH as (y' & Y & HH).
    apply bind_ok in HH as (y2 & Y2 & HH). injection HH as <-.
    apply of_static_ok in Y2. unfold mk_else in Y2. apply bind_ok in Y2 as (? & _ & Y2). injection Y2 as <-.
    unfold first_action in A. destruct (e_typ x') as [tx'|]; [|discriminate]. apply of_static_ok in A. unfold mk_action in A.
    apply bind_ok in A as (? & _ & A). injection A as <-. constructor; auto. eapply more_sound; eauto.
  - contradiction.
  - destruct H3 as [H3|H3]; [discriminate|eauto].
  - destruct H5 as [H5|H5]; [injection H5 as <- <-; auto|eauto].
  - contradiction.
  - destruct H1 as [<-|[]]; auto.
  - destruct H4 as [<-|H4]; auto.
  - contradiction.
  - destruct H7 as [H7|H7]; [injection H7 as <- <-; auto|auto].
Qed.
Theorem elab_means lv r ts sc e : syn lv r ts -> elab sc r = Ok e -> means sc r e.
Proof. intros S. apply (proj1 elab_means_all lv r ts S). Qed.

(** ** Every well-typed meaning is found *)

Record distinct_names : Prop := DistinctNames {
  dn_enum : forall i en, nth_error (enums G) i = Some en -> NoDup (map simplified_name (en_lits en));
  dn_tup : forall u ut, nth_error (tups G) u = Some ut -> NoDup (map (fun c => simplified_name (c_name c)) (u_comps ut));
  dn_own : forall u ut c, nth_error (tups G) u = Some ut -> In c (u_comps ut) -> c_of c = TTup u;
  dn_rec : forall r, NoDup (map (fun c => simplified_name (c_name c)) (all_components G r))
}.
Hypothesis dn : distinct_names.
Notation wt := (wt G W false).

Lemma find_distinct {A} (f : A -> text) (l : list A) a : NoDup (map (fun x => simplified_name (f x)) l) -> In a l ->
  t_find (map (fun x => (f x, x)) l) (f a) = Some (f a, a).
Proof.
  induction l as [|b l IH]; intros D I; [contradiction|]. cbn. inversion D as [|? ? Nb D']; subst.
  destruct I as [->|I]; [rewrite text_eqb_refl; auto|].
  destruct (text_eqb (simplified_name (f b)) (simplified_name (f a))) eqn:E; auto.
  apply text_eqb_eq in E. exfalso. apply Nb. rewrite E. apply (in_map (fun x => simplified_name (f x)) l a I).
Qed.
Lemma lookup_distinct {A} (f : A -> text) g (l : list A) a tk : NoDup (map (fun x => simplified_name (f x)) l) -> In a l ->
  f a = tok_text tk -> t_lookup file g (map (fun x => (f x, x)) l) tk None = Ok a.
Proof.
  intros D I E. unfold t_lookup. rewrite <- E, (find_distinct f l a D I), text_eqb_refl. auto.
Qed.
Lemma chain_perm f r : (r <= f)%nat -> Permutation (chain_steps G f r) (all_components_steps G f r).
Proof.
  revert r. induction f as [|f IH]; intros r L; cbn; destruct (rec G r) as [rt|] eqn:R; auto.
  - destruct (r_parent rt) as [p|] eqn:P; rewrite app_nil_r; auto.
    exfalso. assert (p < r)%nat by (apply (dc_order _ _ _ _ dc); exists rt; auto). lia.
  - destruct (r_parent rt) as [p|] eqn:P; [|rewrite app_nil_r; auto].
    assert (p < r)%nat by (apply (dc_order _ _ _ _ dc); exists rt; auto).
    rewrite Permutation_app_comm. apply Permutation_app_tail. apply IH. lia.
Qed.

Lemma class_true e f a : e_typ e = Some a -> f a = true -> ensure_class e f = Ok tt.
Proof. intros E F. unfold ensure_class. rewrite E, F. auto. Qed.
Lemma type_true e a : e_typ e = Some a -> ensure_type e (Some a) = Ok tt.
Proof. intros E. unfold ensure_type. rewrite E, ty_eqb_refl. auto. Qed.
Lemma in_numeric a : In a [TInt; TDec] -> is_numeric a = true. Proof. intros [<-|[<-|[]]]; auto. Qed.
Lemma in_string a : In a [TStr; TMarkup] -> is_string a = true. Proof. intros [<-|[<-|[]]]; auto. Qed.

Lemma related_true la lb : shares_line G la lb -> related G la lb = true.
Proof.
  intros (x & y & Ix & Iy & R). unfold related. apply existsb_exists. exists x. split; auto. apply existsb_exists.
  exists y. split; auto. rewrite !orb_true_iff, !(subclass_spec G (dc_order _ _ _ _ dc)). tauto.
Qed.
Lemma comparable_true (l : loc) x y : comparable G (e_typ x) (e_typ y) ->
  match e_typ x, e_typ y with
  | Some ta, Some tb =>
      if is_union ta || is_union tb then
        match members ta, members tb with
        | Some la, Some lb => if related G la lb then Ok tt else Err (l, S_type_mismatch)
        | _, _ => Err (l, S_type_mismatch)
        end
      else if ty_eqb ta tb then Ok tt else Err (l, S_type_mismatch)
  | _, _ => Ok tt
  end = (Ok tt : sres unit).
Proof.
  intros H. destruct H as [b|a|a U|a b la lb U A B R]; auto.
  - destruct a; auto.
  - rewrite U. cbn. rewrite ty_eqb_refl. auto.
  - rewrite (proj2 (orb_true_iff _ _) U), A, B, (related_true _ _ R). auto.
Qed.

Lemma unary_true S l a op x : wt S (EUnary l a op x) -> unary l a op x = Ok (EUnary l a op x) /\ wt S x.
Proof.
  intros H. unfold unary, mk_unary. inversion H; subst; (split; [|assumption]);
    repeat match goal with I : In _ (_ :: _) |- _ => destruct I as [I|I]; [try injection I as <- <-; subst|] | I : In _ [] |- _ => destruct I end;
    (erewrite class_true; [reflexivity|eassumption|reflexivity]).
Qed.
Lemma binary_true S l a op x y : wt S (EBinary l a op x y) ->
  binary G l a op x y = Ok (EBinary l a op x y) /\ wt S x /\ wt S y.
Proof.
  intros H. unfold binary, mk_binary. inversion H; subst; (split; [|split; assumption]);
    repeat match goal with I : In _ (_ :: _) |- _ => destruct I as [I|I]; [subst|] | I : In _ [] |- _ => destruct I end;
    try (rewrite comparable_true by assumption; reflexivity);
    repeat match goal with
           | E : e_typ x = Some ?a |- context [ensure_class x ?f] => rewrite (class_true x f a E) by (cbn; auto)
           | E : e_typ y = Some ?a |- context [ensure_class y ?f] => rewrite (class_true y f a E) by (cbn; auto)
           | E : e_typ x = Some ?a |- context [e_typ x] => rewrite E
           | E : e_typ y = Some ?a |- context [ensure_type y (Some ?a)] => rewrite (type_true y a E)
           | E : e_typ y = Some ?a |- context [e_typ y] => rewrite E
           end; cbn [bind of_static]; try reflexivity.
Qed.

Lemma refers_resolve sc tk sels e tk' sels' : refers N sc tk sels e tk' sels' ->
  resolve file N sc tk (sem sc sels) = Ok (e, tk', sem sc sels').
Proof.
  intros H. unfold resolve. destruct H as [tk sels e L NP|tk p tk2 sels e L U E].
  - rewrite (proj2 (lookup_scope sc tk e) L). cbn [bind]. destruct e; auto. destruct (NP p). auto.
  - rewrite (proj2 (lookup_scope sc tk _) L). cbn [bind]. rewrite (proj2 (visible_usable p) U). cbn [sem map fst snd].
    rewrite (proj2 (lookup_entry _ tk2 e) E). auto.
Qed.
Lemma callable_callee sc pkg tk e c : callable N sc pkg tk e -> callee_of e = Some c ->
  callee_meaning file N sc pkg tk = Ok c.
Proof.
  intros H C. unfold callee_meaning. destruct H as [tk e E|tp tk e R].
  - unfold builtin_name. rewrite (proj2 (lookup_entry _ tk e) E). cbn [bind]. rewrite C. auto.
  - change [(tk, None)] with (sem sc [(tk, None)]). rewrite (refers_resolve _ _ _ _ _ _ R). cbn [bind].
    assert (K : classify file e tk = Ok (H_call c)).
    { unfold classify. destruct e as [[]| | | | |]; cbn in C; try discriminate; cbn; congruence. }
    rewrite K. auto.
Qed.
Lemma not_true S neg x e : apply_not file neg x e -> wt S e -> negated file neg x = Ok e /\ wt S x.
Proof.
  intros H Wt. destruct H as [x|tk a x]; cbn; auto. inversion Wt; subst.
  - exfalso. repeat match goal with I : In _ (_ :: _) |- _ => destruct I as [I|I]; [discriminate|] | I : In _ [] |- _ => destruct I end.
  - apply unary_true in Wt. auto.
  - exfalso. repeat match goal with I : In _ (_ :: _) |- _ => destruct I as [I|I]; [discriminate|] | I : In _ [] |- _ => destruct I end.
Qed.
Lemma field_true S tk c e : c_name c = tok_text tk -> wt S (EField (loc_of tk) c e false true) ->
  prefix_ok e = Ok tt /\ field_access file lint G e tk = Ok (EField (loc_of tk) c e false true, []) /\ wt S e.
Proof.
  intros E H. unfold prefix_ok, field_access. inversion H; subst.
  - match goal with T : e_typ e = _ |- _ => rewrite T; cbn [has_fields]; rename T into Te end.
    match goal with T : nth_error (tups G) _ = _ |- _ => rename T into U end.
    match goal with T : In c _ |- _ => rename T into I end.
    split; auto. split; auto. unfold components_of, tup. rewrite U.
    rewrite (lookup_distinct c_name N_comp _ c tk (dn_tup dn _ _ U) I E). cbn [bind].
    unfold mk_field. rewrite (dn_own dn _ _ _ U I), (type_true _ _ Te). auto.
  - match goal with T : e_typ e = _ |- _ => rewrite T; cbn [has_fields]; rename T into Te end.
    match goal with T : In c _ |- _ => rename T into I end.
    split; auto. split; auto. unfold components_of.
    unfold own_components in I. destruct (nth_error (recs G) r) as [rt|] eqn:R; [|contradiction].
    assert (I' : In c (chain_steps G r r)) by (change (nth_error (recs G) r) with (rec G r) in R; destruct r; cbn [chain_steps]; rewrite R; apply in_or_app; auto).
    assert (D : NoDup (map (fun c => simplified_name (c_name c)) (chain_steps G r r))).
    { eapply Permutation_NoDup; [|apply (dn_rec dn r)]. apply Permutation_map. symmetry. apply chain_perm. lia. }
    rewrite (lookup_distinct c_name N_comp _ c tk D I' E). cbn [bind].
    unfold mk_field. rewrite (dc_own _ _ _ _ dc _ _ _ R I), (type_true _ _ Te). auto.
Qed.
Lemma union_true S tk c e u : c_name c = tok_text tk -> wt S (EField (loc_of tk) c e true u) ->
  prefix_ok e = Ok tt /\ (exists ns, field_access file lint G e tk = Ok (EField (loc_of tk) c e true u, ns)) /\ wt S e.
Proof.
  intros E H. unfold prefix_ok, field_access. inversion H; subst.
  match goal with T : e_typ e = _ |- _ => rewrite T; cbn [has_fields]; rename T into Te end.
  split; auto. split; auto. rewrite <- E.
  match goal with T : assoc _ _ = _ |- _ => rewrite T end. match goal with T : fi_typ _ = _ |- _ => rewrite T end.
  cbn. eexists. reflexivity.
Qed.
Lemma booleans_true es : (forall e, In e es -> e_typ e = Some TBool) -> ensure_booleans es = Ok tt.
Proof.
  induction es as [|e es IH]; intros F; auto. cbn. rewrite (class_true e is_boolean TBool (F e (or_introl eq_refl)) eq_refl).
  cbn. apply IH. intros; apply F; right; auto.
Qed.

Theorem means_elab_all : forall sc,
  (forall r e, means sc r e -> forall S, wt S e -> elab sc r = Ok e) /\
  (forall e sels e', selected sc e sels e' -> forall S, wt S e' -> select file lint G e (sem sc sels) = Ok e' /\ wt S e) /\
  (forall rs xs, each sc rs xs -> forall S, (forall x, In x xs -> wt S x) -> all_of (map (elab sc) rs) = Ok xs) /\
  (forall rs xs, each_pair sc rs xs -> forall S a,
     (forall c x, In (c, x) xs -> e_typ c = Some TBool /\ e_typ x = Some a) -> (forall c x, In (c, x) xs -> wt S c /\ wt S x) ->
     all_of (map (elsif_meaning (Some a)) (map (fun p => (elab sc (fst p), elab sc (snd p))) rs)) = Ok xs).
Proof.
  apply means_ind4.
  - (* literals *)
    intros sc tk e L S _. cbn. unfold literal_meaning.
    destruct L as [tk z K V|tk z K V|tk z K V|tk [K V]|tk [K V]|tk [K V]]; rewrite K, V; reflexivity.
  - (* names *)
    intros sc tk sels i tk' tk2 en R En I S _. cbn [ExprSyntax.elab]. fold (sem sc sels). unfold name_meaning.
    rewrite (refers_resolve _ _ _ _ _ _ R). cbn. unfold enum_literal.
    assert (L : t_lookup file (fun _ : text => N_type (TEnum i)) (enum_literals G i) tk2 None = Ok (tok_text tk2)).
    { unfold enum_literals. rewrite En. apply (lookup_distinct (fun x => x)); auto. apply (dn_enum dn _ _ En). }
    rewrite L. auto.
  - intros sc tk sels c tk' sels' e R Sl IH S Wt. cbn [ExprSyntax.elab]. fold (sem sc sels). unfold name_meaning.
    rewrite (refers_resolve _ _ _ _ _ _ R). cbn [bind classify]. apply (IH S Wt).
  - intros sc tk sels n a tk' sels' e R Sl IH S Wt. cbn [ExprSyntax.elab]. fold (sem sc sels). unfold name_meaning.
    rewrite (refers_resolve _ _ _ _ _ _ R). cbn [bind classify]. apply (IH S Wt).
  - (* len *)
    intros sc pkg tk r a x op C M IH O S Wt. cbn [ExprSyntax.elab]. rewrite (callable_callee _ _ _ _ _ C eq_refl).
    pose proof (unary_true _ _ _ _ _ Wt) as (U & Wx). cbn [bind map all_of]. rewrite (IH S Wx). cbn [bind call].
    destruct O as [<-|[<-|[]]]; inversion Wt; subst;
      repeat match goal with I : In _ (_ :: _) |- _ => destruct I as [I|I]; [try discriminate; subst|] | I : In _ [] |- _ => destruct I end;
      match goal with T : e_typ x = _ |- _ => rewrite T end; auto.
  - intros sc pkg tk r r' a x y C M IH M' IH' S Wt. cbn [ExprSyntax.elab]. rewrite (callable_callee _ _ _ _ _ C eq_refl).
    pose proof (binary_true _ _ _ _ _ _ Wt) as (B & Wx & Wy). cbn [bind map all_of]. rewrite (IH S Wx). cbn [bind].
    rewrite (IH' S Wy). cbn [bind call].
    assert (a = Some TBool) as -> by (inversion Wt; subst; auto; exfalso; repeat match goal with I : In _ (_ :: _) |- _ => destruct I as [I|I]; [discriminate|] | I : In _ [] |- _ => destruct I end).
    auto.
  - intros sc pkg tk r r' a x y C M IH M' IH' S Wt. cbn [ExprSyntax.elab]. rewrite (callable_callee _ _ _ _ _ C eq_refl).
    pose proof (binary_true _ _ _ _ _ _ Wt) as (B & Wx & Wy). cbn [bind map all_of]. rewrite (IH S Wx). cbn [bind].
    rewrite (IH' S Wy). cbn [bind call].
    assert (a = Some TBool) as -> by (inversion Wt; subst; auto; exfalso; repeat match goal with I : In _ (_ :: _) |- _ => destruct I as [I|I]; [discriminate|] | I : In _ [] |- _ => destruct I end).
    auto.
  - (* matches *)
    intros sc pkg tk r r' a x y l p b C M IH M' IH' V K S Wt. cbn [ExprSyntax.elab]. rewrite (callable_callee _ _ _ _ _ C eq_refl).
    pose proof (binary_true _ _ _ _ _ _ Wt) as (B & Wx & Wy). cbn [bind map all_of]. rewrite (IH S Wx). cbn [bind].
    rewrite (IH' S Wy). cbn [bind call].
    inversion Wt; subst;
      try (exfalso; repeat match goal with I : In B_regex (_ :: _) |- _ => destruct I as [I|I]; [discriminate|] | I : In B_regex [] |- _ => destruct I end; fail).
    match goal with T : e_typ y = Some ?s, I : In ?s _ |- _ => rewrite (class_true y is_string s T (in_string _ I)); cbn [of_static bind];
       rename T into Ty; rename I into Iy end.
    rewrite V. cbn [of_eval bind v_val].
    destruct (static_soundness G W y S Wy) as [Sg _].
    rewrite V in Sg. assert (Eb : e_typ y = Some b) by (apply Sg).
    rewrite Eb in Ty. injection Ty as ->. rewrite K. destruct Iy as [<-|[<-|[]]]; auto.
  - (* oneof *)
    intros sc pkg tk rs xs C NE E IH S Wt. cbn [ExprSyntax.elab]. rewrite (callable_callee _ _ _ _ _ C eq_refl).
    inversion Wt; subst. cbn [bind]. rewrite (IH S) by auto. cbn [bind call].
    destruct xs as [|x xs]; [inversion E; subst; congruence|]. unfold mk_oneof. rewrite booleans_true by auto. auto.
  - (* conversions *)
    intros sc pkg tk r a x C M IH S Wt. cbn [ExprSyntax.elab]. rewrite (callable_callee _ _ _ _ _ C eq_refl).
    pose proof (unary_true _ _ _ _ _ Wt) as (U & Wx). cbn [bind map all_of]. rewrite (IH S Wx). cbn [bind call].
    inversion Wt; subst; try (exfalso; repeat match goal with I : In U_toint (_ :: _) |- _ => destruct I as [I|I]; [discriminate|] | I : In U_toint [] |- _ => destruct I end; fail).
    match goal with T : e_typ x = Some ?s, I : In ?s _ |- _ => rewrite (class_true x is_numeric s T (in_numeric _ I)) end.
    match goal with I : In (U_toint, _) _ |- _ => destruct I as [I|[I|[]]]; [injection I as <-|discriminate] end. exact U.
  - intros sc pkg tk r a x C M IH S Wt. cbn [ExprSyntax.elab]. rewrite (callable_callee _ _ _ _ _ C eq_refl).
    pose proof (unary_true _ _ _ _ _ Wt) as (U & Wx). cbn [bind map all_of]. rewrite (IH S Wx). cbn [bind call].
    inversion Wt; subst; try (exfalso; repeat match goal with I : In U_todec (_ :: _) |- _ => destruct I as [I|I]; [discriminate|] | I : In U_todec [] |- _ => destruct I end; fail).
    match goal with T : e_typ x = Some ?s, I : In ?s _ |- _ => rewrite (class_true x is_numeric s T (in_numeric _ I)) end.
    match goal with I : In (U_todec, _) _ |- _ => destruct I as [I|[I|[]]]; [discriminate|injection I as <-] end. exact U.
  - (* operators *)
    intros sc tk op r a x O M IH S Wt. cbn [ExprSyntax.elab]. pose proof (unary_true _ _ _ _ _ Wt) as (U & Wx).
    rewrite (IH S Wx). cbn [bind].
    assert (a = unary_type op x) as ->; [|exact U].
    inversion Wt; subst; auto;
      repeat match goal with I : In _ (_ :: _) |- _ => destruct I as [I|I]; [try discriminate; try injection I as <- <-; subst|] | I : In _ [] |- _ => destruct I end; auto; discriminate.
  - intros sc tk op r r' a x y O M IH M' IH' S Wt. cbn [ExprSyntax.elab].
    pose proof (binary_true _ _ _ _ _ _ Wt) as (B & Wx & Wy). rewrite (IH S Wx). cbn [bind]. rewrite (IH' S Wy). cbn [bind].
    assert (A : a = result_type op x /\ (op = B_pow -> exists l k, evaluate W None y = Ok (Val l (Some (PInt k, TInt))) /\ 0 <= k)).
    { unfold result_type, sum_type. inversion Wt; subst;
        repeat match goal with I : In _ (_ :: _) |- _ => destruct I as [I|I]; [try discriminate; subst|] | I : In _ [] |- _ => destruct I end;
        try match goal with T : e_typ x = _ |- _ => rewrite T end; (split; [auto|intros E; try discriminate E; eauto]). }
    destruct A as (-> & Pw). destruct op; try exact B.
    unfold power. destruct (Pw eq_refl) as (l & k & V & K). rewrite V. cbn [of_eval bind v_val as_num].
    change (e_typ x) with (result_type B_pow x). rewrite B. cbn [bind].
    assert (X : Qle_bool (inject_Z 0) (inject_Z k) = true) by (apply Qle_bool_iff; unfold Qle; cbn; rewrite !Z.mul_1_r; exact K).
    unfold num_lt. cbn -[Qle_bool]. rewrite X. auto.
  - (* membership *)
    intros sc neg tk r r' a op x y e O M IH M' IH' An S Wt. cbn [ExprSyntax.elab].
    destruct (not_true _ _ _ _ An Wt) as (Ng & Wb). pose proof (binary_true _ _ _ _ _ _ Wb) as (B & Wx & Wy).
    rewrite (IH S Wx). cbn [bind]. rewrite (IH' S Wy). cbn [bind].
    assert (K : member_test G (loc_of tk) x y = Ok (EBinary (loc_of tk) a op x y)).
    { unfold member_test. destruct O as [<-|[<-|[]]]; inversion Wb; subst;
        repeat match goal with I : In _ (_ :: _) |- _ => destruct I as [I|I]; [try discriminate; subst|] | I : In _ [] |- _ => destruct I end;
        match goal with T : e_typ y = _ |- _ => rewrite T end; auto. }
    rewrite K. cbn [bind]. exact Ng.
  - (* range *)
    intros sc neg tk r lo hi x l h e M IH M' IH' M'' IH'' An S Wt. cbn [ExprSyntax.elab].
    destruct (not_true _ _ _ _ An Wt) as (Ng & Wb). inversion Wb; subst.
    rewrite (IH S) by auto. cbn [bind]. rewrite (IH' S) by auto. cbn [bind]. rewrite (IH'' S) by auto. cbn [bind].
    unfold range_test, mk_range.
    match goal with T : e_typ x = Some ?s, I : In ?s _ |- _ => rewrite (class_true x is_numeric s T (in_numeric _ I)), T end.
    cbn [bind]. rewrite !type_true by assumption. cbn [bind of_static]. exact Ng.
  - (* quantifiers *)
    intros sc universal tq tv ts body c i lo hi el x U L T M IH S Wt. cbn [ExprSyntax.elab]. unfold fresh_variable.
    rewrite (proj2 (contains_unused sc _) U). cbn [bind]. unfold quantified_source.
    assert (K : s_lookup file sc ts (Some (fun e => match e with N_comp _ => true | _ => false end)) = Ok (N_comp c)).
    { apply lookup_class. split; auto. apply lookup_scope. auto. }
    rewrite K. cbn [bind]. rewrite T. cbn [bind fst snd]. inversion Wt; subst.
    erewrite IH by eassumption. cbn [bind].
    unfold mk_quant. erewrite class_true by (eassumption || reflexivity). reflexivity.
  - (* conditions *)
    intros sc tk c x more y c' x' more' y' Mc Hc Mx Hx Mm Hm My Hy S Wt. cbn [ExprSyntax.elab]. inversion Wt as [| | | | | | | | | | | | | | | | | | | | | | | |l acts els a NE Ts Te Ws We|]; subst.
    destruct (Ws c' x' (or_introl eq_refl)) as (Wc & Wx). destruct (Ts c' x' (or_introl eq_refl)) as (Tc & Tx).
    rewrite (Hc S Wc). cbn [bind]. rewrite (Hx S Wx). cbn [bind]. unfold first_action. rewrite Tx. unfold mk_action.
    rewrite (class_true c' is_boolean TBool Tc eq_refl). cbn [of_static bind].
    rewrite (Hm S a) by (intros; (apply Ts || apply Ws); right; auto). cbn [bind]. rewrite (Hy S We). cbn [bind].
    unfold mk_else. rewrite (type_true _ _ Te). reflexivity.
  - intros sc e S Wt. split; auto.
  - intros sc e tk c l e' E Sl IH S Wt. destruct (IH S Wt) as (H & We).
    destruct (field_true _ _ _ _ E We) as (P & F & We'). cbn [sem map fst snd select]. rewrite P. cbn [bind]. rewrite F. cbn [bind fst]. auto.
  - intros sc e tk c u l e' E Sl IH S Wt. destruct (IH S Wt) as (H & We).
    destruct (union_true _ _ _ _ _ E We) as (P & (ns & F) & We'). cbn [sem map fst snd select]. rewrite P. cbn [bind]. rewrite F. cbn [bind fst]. auto.
  - intros sc e tk r x a l e' M IHx Sl IH S Wt. destruct (IH S Wt) as (H & We).
    pose proof (binary_true _ _ _ _ _ _ We) as (B & Wa & Wi). split; auto.
    cbn [sem map fst snd select]. unfold array_ok, index_access.
    inversion We; subst; try (exfalso; repeat match goal with I : In B_index (_ :: _) |- _ => destruct I as [I|I]; [discriminate|] | I : In B_index [] |- _ => destruct I end; fail).
    match goal with T : e_typ e = _ |- _ => rewrite T end. cbn [bind]. rewrite (IHx S Wi). cbn [bind]. rewrite B. cbn [bind]. exact H.
  - intros sc S _. reflexivity.
  - intros sc r x rs xs M IH E IHs S F. cbn. rewrite (IH S) by (apply F; left; auto). cbn.
    rewrite (IHs S) by (intros; apply F; right; auto). reflexivity.
  - intros sc S a _ _. reflexivity.
  - intros sc r r' x x' rs xs M IH M' IH' E IHs S a T F. cbn [map all_of fst snd].
    destruct (F x x' (or_introl eq_refl)) as (Wx & Wx'). destruct (T x x' (or_introl eq_refl)) as (Tx & Tx').
    unfold elsif_meaning at 1. cbn [fst snd]. rewrite (IH S Wx). cbn [bind]. rewrite (IH' S Wx'). cbn [bind].
    unfold mk_elsif, mk_action. rewrite (class_true x is_boolean TBool Tx eq_refl). cbn [bind]. rewrite (type_true _ _ Tx'). cbn [bind of_static].
    rewrite (IHs S a) by (intros; (apply T || apply F); right; auto). reflexivity.
Qed.
Theorem means_elab sc r e S : means sc r e -> wt S e -> elab sc r = Ok e.
Proof. intros M Wt. eapply (proj1 (means_elab_all sc)); eauto. Qed.

End PROOFS.
