(** Every phrase of the grammar that has a meaning and is not continued by
    the next token is accepted by the expression parser, with that meaning. *)
From Verif Require Import Base Lexer SymTab Ast Eval ParserBase ParserExpr ExprSyntax ParserProofs ExprParserSound.
From Coq Require Import ZifyBool ZifyNat ZifyN.
Open Scope Z_scope.

(** Tokens that would continue a phrase of a level. *)
Definition continues (lv : level) (tk : token) : bool :=
  let p := is_kind DOT tk || is_kind S_BRA tk || is_kind BRA tk in
  let f := p || is_op (t "**") tk in
  let m := f || some_op mul_op tk in
  let a := m || some_op add_op tk in
  let r := a || some_op rel_op tk || is_kw (t "not") tk || is_kw (t "in") tk || is_kind RANGE tk in
  let e := r || is_kw (t "and") tk || is_kw (t "or") tk || is_kw (t "xor") tk || is_kw (t "implies") tk in
  match lv with
  | L_prim => p | L_factor => f | L_term => m | L_simple => a | L_rel => r | _ => e
  end.
Definition follow (lv : level) (o : option token) : bool :=
  match o with None => true | Some tk => negb (continues lv tk) end.

Lemma pcond_true {A} c (a b : P A) s : c s = true -> pcond c a b s = a s.
Proof. unfold pcond. intros ->. auto. Qed.
Lemma pcond_false {A} c (a b : P A) s : c s = false -> pcond c a b s = b s.
Proof. unfold pcond. intros ->. auto. Qed.

(** Computing the lookahead tests from what is known of the next token. *)
Ltac kws := repeat match goal with
  | H : keyword _ _ |- _ => let K := fresh "K" in let V := fresh "V" in destruct H as (K & V)
  | H : operator _ _ |- _ => let K := fresh "K" in let V := fresh "V" in destruct H as (K & V)
  | H : literal _ |- _ => inversion H; clear H; subst
  end.
Ltac tokb :=
  kws; cbv beta iota zeta delta [peek peek_kw peek_op next_is some_op is_kw is_op mul_op add_op rel_op sign_op
       is_kind has_text continues follow negb orb andb];
  repeat match goal with
  | H : nt (at_ ?s) = Some _ |- context [nt (at_ ?s)] => rewrite H
  | H : nt ?s = Some _ |- context [nt ?s] => rewrite H
  | K : tk_kind ?x = _ |- context [tk_kind ?x] => rewrite K
  | V : tk_value ?x = _ |- context [tk_value ?x] => rewrite V
  end; vm_compute; reflexivity.
Ltac pT := cbv beta iota; match goal with |- context [pcond ?c ?a ?b ?s] => rewrite (pcond_true c a b s) by tokb end.
Ltac pF := cbv beta iota; match goal with |- context [pcond ?c ?a ?b ?s] => rewrite (pcond_false c a b s) by tokb end.

(** ** First tokens *)
Definition prim_start (tk : token) : Prop := literal tk \/ tk_kind tk = BRA \/ tk_kind tk = IDENTIFIER.
Definition factor_start (tk : token) : Prop := prim_start tk \/ keyword "not" tk \/ keyword "abs" tk.
Definition start (tk : token) : Prop := factor_start tk \/ operator "+" tk \/ operator "-" tk.
Definition starts (lv : level) : token -> Prop :=
  match lv with L_prim => prim_start | L_factor | L_term => factor_start | _ => start end.
Lemma syn_starts lv r ts : syn lv r ts -> exists tk ts', ts = tk :: ts' /\ starts lv tk.
Proof.
  induction 1;
    repeat match goal with H : exists _ _, _ /\ _ |- _ => destruct H as (? & ? & -> & ?) end;
    try (eexists _, _; split; [reflexivity|]; simpl in *; unfold start, factor_start, prim_start in *; tauto).
  - (* sign *) eexists _, _. split; [reflexivity|]. destruct H; unfold starts, start; auto.
  - destruct H; (eexists _, _; split; [reflexivity|]); simpl; unfold prim_start; auto.
Qed.

(** Expressions with a logical operator outside of brackets, and the logical
    operators that cannot follow. *)
Inductive chain : binop -> raw -> list token -> Prop :=
| chain_and r ts : syn L_and r ts -> chain B_and r ts
| chain_or r ts : syn L_or r ts -> chain B_or r ts
| chain_xor tk a ta b tb : keyword "xor" tk -> syn L_rel a ta -> syn L_rel b tb ->
    chain B_xor (R_binary tk B_xor a b) (ta ++ tk :: tb)
| chain_implies tk a ta b tb : keyword "implies" tk -> syn L_rel a ta -> syn L_rel b tb ->
    chain B_implies (R_binary tk B_implies a b) (ta ++ tk :: tb).
Definition ends_chain (op : binop) (tk : token) : Prop :=
  match op with
  | B_and => keyword "or" tk \/ keyword "xor" tk \/ keyword "implies" tk
  | B_or => keyword "and" tk \/ keyword "xor" tk \/ keyword "implies" tk
  | B_xor | B_implies => keyword "and" tk \/ keyword "or" tk \/ keyword "xor" tk \/ keyword "implies" tk
  | _ => False
  end.

Section COMPLETE.
Variable file : Z.
Variable lint : bool.
Variable G : types.
Variable W : world.
Variable compiles : text -> bool.
Variable N : names.
Notation elab := (elab file lint G W compiles N).
Notation meanings sc := (map (fun s : token * option raw =>
  (fst s, match snd s with Some i => Some (elab sc i) | None => None end))).

Definition complete (n : nat) (m : P expr) (sc : nscope) (lv : level) : Prop :=
  forall r ts s p' e, syn lv r ts -> reads (at_ s) ts p' -> elab sc r = Ok e -> follow lv (nt p') = true ->
    (rem (at_ s) < n)%nat -> exists s', m s = POk e s' /\ at_ s' = p'.

(** Forward steps. *)
Ltac dm R := (* the next token is matched *)
  let s1 := fresh "s" in let E := fresh "E" in let M := fresh "M" in
  cbv beta iota;
  match type of R with reads (at_ ?s) (?tk :: ?ts) ?p =>
    match goal with
    | |- context [pbind (p_match ?f ?k) _ s] =>
        let Q := fresh "Q" in
        assert (Q := match_do f k s tk ts p R ltac:(kws; auto)); clear R;
        destruct Q as (s1 & E & R & M); rewrite (pbind_do _ _ _ _ _ E)
    | |- context [pbind (p_match_kw ?f ?w) _ s] =>
        let Q := fresh "Q" in
        assert (Q := match_kw_do f w s tk ts p R ltac:(auto)); clear R;
        destruct Q as (s1 & E & R & M); rewrite (pbind_do _ _ _ _ _ E)
    end end.
Ltac nx R := let NT := fresh "NT" in assert (NT := reads_first _ _ _ _ R).
Ltac dl H := rewrite (pbind_do (lift _) _ _ _ _ (f_equal (fun r => lift r _) H)).

Lemma lift_do {A B} (r : res perr A) (k : A -> P B) s a : r = Ok a -> pbind (lift r) k s = k a s.
Proof. intros ->. reflexivity. Qed.

Section STEP.
Variable n : nat.
Variable pe : nscope -> P expr.
Hypothesis pe_complete : forall sc, complete n (pe sc) sc L_expr.

Lemma stop lv k : follow lv (Some k) = true -> continues lv k = false.
Proof. simpl. destruct (continues lv k); auto. Qed.
Lemma follow_tests s f lv : follow lv (nt (at_ s)) = true -> (forall tk, f tk = true -> continues lv tk = true) ->
  next_is f s = false.
Proof.
  unfold next_is. intros F H. destruct (nt (at_ s)) as [tk|]; auto. destruct (f tk) eqn:E; auto.
  apply H in E. apply stop in F. congruence.
Qed.
Ltac orbs := repeat rewrite orb_true_iff; auto 20.
Ltac pFf F := (* the test fails by the follow condition F *)
  cbv beta iota; match goal with |- context [pcond (next_is ?f) ?a ?b ?s] =>
    rewrite (pcond_false (next_is f) a b s) by (apply (follow_tests s f _ F); intros; unfold continues; orbs)
  | |- context [pcond (peek ?k) ?a ?b ?s] =>
    rewrite (pcond_false (peek k) a b s) by (apply (follow_tests s (is_kind k) _ F); intros; unfold continues; orbs)
  | |- context [pcond (peek_kw ?w) ?a ?b ?s] =>
    rewrite (pcond_false (peek_kw w) a b s) by (apply (follow_tests s (is_kw w) _ F); intros; unfold continues; orbs)
  | |- context [pcond (peek_op ?w) ?a ?b ?s] =>
    rewrite (pcond_false (peek_op w) a b s) by (apply (follow_tests s (is_op w) _ F); intros; unfold continues; orbs)
  end.

Lemma selectors_complete sc sels ts : syn_sels sels ts ->
  forall m e x s p', reads (at_ s) ts p' -> select file lint G e (meanings sc sels) = Ok x ->
    follow L_prim (nt p') = true -> (rem (at_ s) < m)%nat -> (rem (at_ s) <= n)%nat ->
    exists s', selectors file lint G pe m sc e s = POk x s' /\ at_ s' = p'.
Proof.
  induction 1; intros m e x s p' R S F M L; (destruct m as [|m]; [lia|]); simpl.
  - inversion R; subst. simpl in S. inversion S; subst.
    exists s. split; auto. pFf F. pFf F. reflexivity.
  - simpl in S. apply bind_ok in S as (u & P1 & S). apply bind_ok in S as ((e' & ns) & P2 & S). simpl in S.
    nx R. pT. rewrite (lift_do _ _ _ _ P1). dm R. dm R.
    rewrite (lift_do _ _ _ _ P2).
    destruct ns as [|nn ns].
    + unfold pbind at 1. simpl. eapply IHsyn_sels; eauto; lia.
    + unfold pbind at 1, pnote. eapply IHsyn_sels; eauto; simpl; lia.
  - simpl in S. apply bind_ok in S as (u & P1 & S). apply bind_ok in S as (i & P2 & S).
    apply bind_ok in S as (e' & P3 & S).
    nx R. pF. pT. rewrite (lift_do _ _ _ _ P1). dm R.
    apply reads_split in R as (q & R1 & R2).
    assert (F' : follow L_expr (nt q) = true).
    { assert (Z := reads_first _ _ _ _ R2). tokb. }
    destruct (pe_complete sc r tr s0 q i H1 R1 P2 F' ltac:(lia)) as (s1 & E1 & Q1). subst q.
    rewrite (pbind_do _ _ _ _ _ E1).
    assert (M2 := reads_rem _ _ _ R1). dm R2.
    rewrite (lift_do _ _ _ _ P3). eapply IHsyn_sels; eauto; lia.
Qed.

Lemma arguments_complete sc rs ts : syn_args rs ts ->
  forall m es s p', reads (at_ s) ts p' -> all_of (map (elab sc) rs) = Ok es ->
    (exists ket, nt p' = Some ket /\ tk_kind ket = KET) -> (rem (at_ s) < m)%nat -> (rem (at_ s) < n)%nat ->
    exists s', arguments file pe m sc s = POk es s' /\ at_ s' = p'.
Proof.
  assert (NK : forall r tr s p, syn L_expr r tr -> reads (at_ s) tr p -> peek KET s = false).
  { intros r tr s p S R. apply syn_starts in S as (tk & ts' & -> & S). simpl in S.
    nx R. destruct S as [[[S | [S|S]] | [S | S]] | [S | S]]; kws; unfold peek, next_is, is_kind; rewrite NT;
      match goal with K : tk_kind tk = _ |- _ => rewrite K end; reflexivity. }
  induction 1; intros m es s p' R S (ket & Kt & Kk) M L; (destruct m as [|m]; [lia|]); simpl.
  - inversion R; subst. inversion S; subst. pT. exists s. auto.
  - simpl in S. apply bind_ok in S as (e & P1 & S). inversion S; subst.
    rewrite pcond_false by (eapply NK; eauto).
    destruct (pe_complete sc r tr s p' e H R P1 ltac:(tokb) L) as (s1 & E1 & <-).
    rewrite (pbind_do _ _ _ _ _ E1). pF. exists s1. auto.
  - simpl in S. apply bind_ok in S as (e & P1 & S). apply bind_ok in S as (es' & P2 & S). inversion S; subst.
    apply reads_split in R as (q & R1 & R2).
    rewrite pcond_false by (eapply NK; eauto). assert (Z := reads_first _ _ _ _ R2).
    destruct (pe_complete sc r tr s q e H0 R1 P1 ltac:(tokb) L) as (s1 & E1 & <-).
    rewrite (pbind_do _ _ _ _ _ E1). pT. assert (M2 := reads_rem _ _ _ R1). dm R2.
    destruct (IHsyn_args m es' s0 p' R2 P2 ltac:(eauto) ltac:(lia) ltac:(lia)) as (s2 & E2 & <-).
    rewrite (pbind_do _ _ _ _ _ E2). exists s2. auto.
Qed.

Lemma builtin_complete sc c tk bra rs ta ket s p' e es :
  tk_kind bra = BRA -> tk_kind ket = KET -> syn_args rs ta -> reads (at_ s) (bra :: ta ++ [ket]) p' ->
  all_of (map (elab sc) rs) = Ok es -> call file G W compiles c tk es = Ok e -> (rem (at_ s) <= n)%nat ->
  exists s', parse_builtin file G W compiles (S n) pe sc c tk s = POk e s' /\ at_ s' = p'.
Proof.
  intros Kb Kk S R A C L. unfold parse_builtin. dm R. apply reads_split in R as (q & R1 & R2).
  assert (Z := reads_first _ _ _ _ R2).
  destruct (arguments_complete sc rs ta S (Datatypes.S n) es s0 q R1 A ltac:(eauto) ltac:(lia) ltac:(lia)) as (s1 & E1 & <-).
  rewrite (pbind_do _ _ _ _ _ E1). dm R2. inversion R2; subst. rewrite C. exists s2. split; auto.
Qed.

(** Lookups of names that are not packages. *)
Lemma not_pkg_rest sc tk ent s : s_lookup file sc tk None = Ok ent -> (forall p, ent <> N_pkg p) ->
  qualified_rest file N sc tk None s = POk (ent, tk) s.
Proof.
  intros H NP. unfold qualified_rest. rewrite (lift_do _ _ _ _ H).
  destruct ent; try (exfalso; eapply NP; reflexivity); rewrite (lift_do _ _ _ _ H); reflexivity.
Qed.
Lemma pkg_rest sc tk p dot tk2 ent s ts p' : s_lookup file sc tk None = Ok (N_pkg p) -> is_visible N p = true ->
  tk_kind dot = DOT -> tk_kind tk2 = IDENTIFIER -> e_lookup file (p_symbols N p) tk2 None = Ok ent ->
  reads (at_ s) (dot :: tk2 :: ts) p' ->
  exists s1, qualified_rest file N sc tk None s = POk (ent, tk2) s1 /\ reads (at_ s1) ts p' /\
    (rem (at_ s1) < rem (at_ s))%nat.
Proof.
  intros H V Kd Kt L R. unfold qualified_rest. rewrite (lift_do _ _ _ _ H), V. dm R. dm R.
  rewrite (lift_do _ _ _ _ L). exists s1. split; auto. split; auto. lia.
Qed.

(** The end of [parse_name]. *)
Lemma name_complete sc tk sels ts s p' e :
  tk_kind tk = IDENTIFIER -> syn_sels sels ts -> reads (at_ s) (tk :: ts) p' ->
  elab sc (R_name tk sels) = Ok e -> follow L_prim (nt p') = true -> (rem (at_ s) <= n)%nat ->
  exists s', parse_name file lint G W compiles N (S n) pe sc s = POk e s' /\ at_ s' = p'.
Proof.
  intros K S R E F L. cbn [ExprSyntax.elab] in E. unfold name_meaning in E.
  apply bind_ok in E as (((ent & tk') & sels') & E1 & E). apply bind_ok in E as (h & E2 & E).
  unfold resolve in E1. apply bind_ok in E1 as (sym & E1 & E3).
  unfold parse_name. dm R.
  assert (NB : peek BRA s0 = false).
  { inversion S; subst.
    - inversion R; subst. apply (follow_tests s0 (is_kind BRA) _ F). intros. unfold continues. orbs.
    - nx R. tokb.
    - nx R. tokb. }
  (* after the qualified name the parser is at s1, with selectors left *)
  assert (Q : exists s1 sl ts1, syn_sels sl ts1 /\ reads (at_ s1) ts1 p' /\ sels' = meanings sc sl /\
                (rem (at_ s1) <= rem (at_ s0))%nat /\
                qualified_rest file N sc tk None s0 = POk (ent, tk') s1).
  { destruct sym as [x|f|p|o|c|v x];
      try (inversion E3; subst; exists s0, sels, ts; split; [auto|split; [auto|split; [auto|split; [lia|]]]];
           apply not_pkg_rest; auto; intros ? ?; discriminate).
    destruct (is_visible N p) eqn:V; [|destruct (hidden_not _ _ _ E3)].
    inversion S; subst; simpl in E3; try discriminate.
    apply bind_ok in E3 as (ent' & E3 & E4). inversion E4; subst.
    destruct (pkg_rest sc tk p dot tk' ent s0 ts0 p' E1 V H H0 E3 R) as (s1 & A & B & C).
    exists s1, l, ts0. repeat (split; auto). lia. }
  destruct Q as (s1 & sl & ts1 & S1 & R1 & -> & L1 & Q).
  unfold pbind at 1. rewrite (pcond_false _ _ _ _ NB). rewrite (pbind_do _ _ _ _ _ Q).
  rewrite (lift_do _ _ _ _ E2). cbn [pret].
  destruct h as [i|c|x].
  - inversion S1; subst; simpl in E; try discriminate.
    inversion H1; subst; simpl in E; try discriminate.
    dm R1. dm R1. inversion R1; subst. rewrite E. exists s3. auto.
  - destruct (meanings sc sl) as [|[? [|]] [|]]; discriminate.
  - assert (E' : select file lint G x (meanings sc sl) = Ok e).
    { destruct (meanings sc sl) as [|[? [|]] [|]]; auto. }
    eapply selectors_complete; eauto; lia.
Qed.

Lemma call_complete sc pkg tp tk bra args ta ket s p' e :
  qualifier pkg tp -> tk_kind tk = IDENTIFIER -> tk_kind bra = BRA -> tk_kind ket = KET -> syn_args args ta ->
  reads (at_ s) (tp ++ tk :: bra :: ta ++ [ket]) p' -> elab sc (R_call pkg tk args) = Ok e ->
  (rem (at_ s) <= n)%nat ->
  exists s', parse_name file lint G W compiles N (S n) pe sc s = POk e s' /\ at_ s' = p'.
Proof.
  intros Q K Kb Kk S R E L. cbn [ExprSyntax.elab] in E.
  apply bind_ok in E as (c & E1 & E). apply bind_ok in E as (es & E2 & E).
  unfold parse_name. destruct Q as [|tq dot Kq Kd].
  - simpl in R. dm R. unfold pbind at 1. nx R. pT. simpl in E1. rewrite (lift_do _ _ _ _ E1). cbn [pret].
    eapply builtin_complete; eauto. lia.
  - simpl in R. dm R. unfold pbind at 1. nx R. pF.
    cbn [callee_meaning] in E1. apply bind_ok in E1 as (((ent & tk') & sels') & E1 & E3).
    apply bind_ok in E3 as (h & E3 & E4).
    unfold resolve in E1. apply bind_ok in E1 as (sym & E1 & E5).
    assert (X : forall q, sym = N_pkg q -> is_visible N q = true /\ e_lookup file (p_symbols N q) tk None = Ok ent
                       /\ tk' = tk).
    { intros q ->. destruct (is_visible N q); [|destruct (hidden_not _ _ _ E5)]. apply bind_ok in E5 as (ent' & E5 & E6).
      inversion E6; subst. auto. }
    destruct sym as [x|f|p|o|cc|v x];
      try (inversion E5; subst; destruct h; discriminate).
    destruct (X p eq_refl) as (V & L' & ->).
    destruct (pkg_rest sc tq p dot tk ent s0 _ p' E1 V Kd K L' R) as (s1 & A & B & C).
    rewrite (pbind_do _ _ _ _ _ A). rewrite (lift_do _ _ _ _ E3). cbn [pret].
    destruct h as [i|c'|x]; try discriminate. destruct sels'; [|discriminate]. inversion E4; subst.
    eapply builtin_complete; eauto. lia.
Qed.

(** ** Primaries *)
Lemma elsifs_complete sc typ rs ts : syn_more rs ts ->
  forall m l s p', reads (at_ s) ts p' ->
    all_of (map (elsif_meaning typ) (map (fun p => (elab sc (fst p), elab sc (snd p))) rs)) = Ok l ->
    (exists tk, nt p' = Some tk /\ keyword "else" tk) -> (rem (at_ s) < m)%nat -> (rem (at_ s) < n)%nat ->
    exists s', elsifs file pe m sc typ s = POk l s' /\ at_ s' = p'.
Proof.
  induction 1; intros m l' s p' R S (tk' & Kt & Kk) M L; (destruct m as [|m]; [lia|]); simpl.
  - inversion R; subst. inversion S; subst. pF. exists s. auto.
  - simpl in S. apply bind_ok in S as (a & P1 & S). apply bind_ok in S as (l2 & P2 & S). inversion S; subst.
    unfold elsif_meaning in P1. simpl in P1. apply bind_ok in P1 as (ec & P3 & P1).
    apply bind_ok in P1 as (ex & P4 & P1).
    nx R. pT. dm R. apply reads_split in R as (q & R1 & R2).
    assert (Z := reads_first _ _ _ _ R2). assert (M2 := reads_rem _ _ _ R1).
    destruct (pe_complete sc c tc s0 q ec H1 R1 P3 ltac:(tokb) ltac:(lia)) as (s1 & E1 & <-).
    rewrite (pbind_do _ _ _ _ _ E1). dm R2. apply reads_split in R2 as (q & R3 & R4).
    assert (F : follow L_expr (nt q) = true).
    { inversion H3; subst.
      - inversion R4; subst. tokb.
      - assert (Y := reads_first _ _ _ _ R4). tokb. }
    assert (M3 := reads_rem _ _ _ R3).
    destruct (pe_complete sc x tx s2 q ex H2 R3 P4 F ltac:(lia)) as (s3 & E3 & <-).
    rewrite (pbind_do _ _ _ _ _ E3). rewrite (lift_do _ _ _ _ P1).
    destruct (IHsyn_more m l2 s3 p' R4 P2 ltac:(eauto) ltac:(lia) ltac:(lia)) as (s4 & E4 & <-).
    rewrite (pbind_do _ _ _ _ _ E4). exists s4. auto.
Qed.

Lemma quantified_complete sc u tq tv tin ts tar body tb s p' e ket us :
  keyword (if u : bool then "forall" else "exists")%string tq -> tk_kind tv = IDENTIFIER ->
  keyword "in" tin -> tk_kind ts = IDENTIFIER -> tk_kind tar = ARROW -> syn L_expr body tb ->
  reads (at_ s) ((tq :: tv :: tin :: ts :: tar :: tb) ++ ket :: us) p' -> tk_kind ket = KET ->
  elab sc (R_quant u tq tv ts body) = Ok e -> (rem (at_ s) < n)%nat ->
  exists s', parse_quantified_expression file pe sc s = POk e s' /\ reads (at_ s') (ket :: us) p'.
Proof.
  intros Kq Kv Ki Ks Ka S R Kk E L. simpl in R. cbn [ExprSyntax.elab] in E.
  apply bind_ok in E as (? & E1 & E). apply bind_ok in E as ((c & el) & E2 & E). apply bind_ok in E as (b & E3 & E).
  simpl in E3, E. unfold parse_quantified_expression.
  assert (Q : exists s1, pcond (peek_kw (t "forall"))
       (let* tq := p_match_kw file (t "forall") in pret (true, tq))
       (let* tq := p_match_kw file (t "exists") in pret (false, tq)) s = POk (u, tq) s1 /\
       reads (at_ s1) (tv :: tin :: ts :: tar :: tb ++ ket :: us) p' /\ (rem (at_ s1) < rem (at_ s))%nat).
  { nx R. destruct u.
    - pT. dm R. exists s0. auto.
    - pF. dm R. exists s0. auto. }
  destruct Q as (s1 & Q & R1 & M1). rewrite (pbind_do _ _ _ _ _ Q). clear R.
  dm R1. rewrite (lift_do _ _ _ _ E1). dm R1. dm R1. rewrite (lift_do _ _ _ _ E2). dm R1.
  apply reads_split in R1 as (q & R1 & R2). assert (Z := reads_first _ _ _ _ R2).
  destruct (pe_complete _ body tb s4 q b S R1 E3 ltac:(tokb) ltac:(lia)) as (s5 & EE & <-).
  rewrite (pbind_do _ _ _ _ _ EE). rewrite E. exists s5. auto.
Qed.

Lemma conditional_complete sc tk c tc th x tx more tm el y ty s p' e ket us :
  keyword "if" tk -> keyword "then" th -> keyword "else" el ->
  syn L_expr c tc -> syn L_expr x tx -> syn_more more tm -> syn L_expr y ty ->
  reads (at_ s) (tk :: tc ++ th :: tx ++ tm ++ el :: ty ++ ket :: us) p' -> tk_kind ket = KET ->
  elab sc (R_cond tk c x more y) = Ok e -> (rem (at_ s) < n)%nat ->
  exists s', parse_conditional_expression file (S n) pe sc s = POk e s' /\ reads (at_ s') (ket :: us) p'.
Proof.
  intros Ki Kt Ke Sc Sx Sm Sy R Kk E L. cbn [ExprSyntax.elab] in E.
  apply bind_ok in E as (ec & E1 & E). apply bind_ok in E as (ex & E2 & E). apply bind_ok in E as (a & E3 & E).
  apply bind_ok in E as (l & E4 & E). apply bind_ok in E as (ey & E5 & E). apply bind_ok in E as (ey' & E6 & E).
  inversion E; subst. unfold parse_conditional_expression. dm R.
  apply reads_split in R as (q & R1 & R2). assert (Z := reads_first _ _ _ _ R2). assert (M1 := reads_rem _ _ _ R1).
  destruct (pe_complete _ c tc s0 q ec Sc R1 E1 ltac:(tokb) ltac:(lia)) as (s1 & P1 & <-).
  rewrite (pbind_do _ _ _ _ _ P1). dm R2.
  apply reads_split in R2 as (q & R3 & R4). apply reads_split in R4 as (q' & R4 & R5).
  assert (Y := reads_first _ _ _ _ R5).
  assert (F : follow L_expr (nt q) = true).
  { inversion Sm; subst.
    - inversion R4; subst. tokb.
    - assert (X := reads_first _ _ _ _ R4). tokb. }
  assert (M3 := reads_rem _ _ _ R3). assert (M4 := reads_rem _ _ _ R4).
  destruct (pe_complete _ x tx s2 q ex Sx R3 E2 F ltac:(lia)) as (s3 & P3 & <-).
  rewrite (pbind_do _ _ _ _ _ P3). rewrite (lift_do _ _ _ _ E3).
  destruct (elsifs_complete sc (e_typ ex) more tm Sm (Datatypes.S n) l s3 q' R4 E4 ltac:(eauto) ltac:(lia) ltac:(lia))
    as (s4 & P4 & <-).
  rewrite (pbind_do _ _ _ _ _ P4). dm R5. apply reads_split in R5 as (q & R6 & R7).
  assert (X := reads_first _ _ _ _ R7).
  destruct (pe_complete _ y ty s5 q ey Sy R6 E5 ltac:(tokb) ltac:(lia)) as (s6 & P6 & <-).
  rewrite (pbind_do _ _ _ _ _ P6). rewrite (lift_do _ _ _ _ E6). exists s6. auto.
Qed.

Lemma primary_complete sc : complete (S n) (parse_primary file lint G W compiles N (S n) pe sc) sc L_prim.
Proof.
  intros r ts s p' e S R E F L. unfold parse_primary. inversion S; subst.
  - (* literals *)
    nx R. simpl in E. inversion E; subst. clear E. unfold literal_meaning.
    inversion H; clear H; subst.
    + pT. dm R. rewrite H0, H1. inversion R; subst. exists s0. auto.
    + pF. pT. dm R. rewrite H0, H1. inversion R; subst. exists s0. auto.
    + pF. pF. pT. dm R. rewrite H0, H1. inversion R; subst. exists s1. auto.
    + do 3 pF. pT. destruct H0 as (K & V). dm R. inversion R; subst. exists s0. rewrite K, V.
      rewrite (proj2 (has_text_true _ _) V). split; auto.
    + do 3 pF. pT. destruct H0 as (K & V). dm R. inversion R; subst. exists s0. rewrite K, V.
      unfold has_text. rewrite V. split; auto.
    + do 4 pF. pT. dm R. inversion R; subst. exists s0. destruct H0 as (K & V). rewrite K, V. split; auto.
  - (* brackets *)
    nx R. do 5 pF. pT. dm R. apply reads_split in R as (q & R1 & R2).
    assert (Z := reads_first _ _ _ _ R2).
    assert (NX : exists tk, nt (at_ s0) = Some tk /\ start tk).
    { destruct (syn_starts _ _ _ H1) as (tk & ts' & -> & St). exists tk. split; auto. eapply reads_first; eauto. }
    destruct NX as (tk & NT2 & St).
    assert (P1 : (peek_kw (t "forall") s0 || peek_kw (t "exists") s0) = false).
    { destruct St as [[[St | [St|St]] | [St | St]] | [St | St]]; kws; tokb. }
    assert (P2 : peek_kw (t "if") s0 = false).
    { destruct St as [[[St | [St|St]] | [St | St]] | [St | St]]; kws; tokb. }
    unfold pbind at 1. rewrite (pcond_false _ _ _ _ P1), (pcond_false _ _ _ _ P2).
    destruct (pe_complete sc r ts0 s0 q e H1 R1 E ltac:(tokb) ltac:(lia)) as (s1 & E1 & <-).
    rewrite E1. dm R2. inversion R2; subst. exists s2. auto.
  - (* names *)
    nx R. do 6 pF. eapply name_complete; eauto. lia.
  - (* calls *)
    assert (NX : exists k, nt (at_ s) = Some k /\ tk_kind k = IDENTIFIER).
    { destruct H; simpl in R; nx R; eauto. }
    destruct NX as (k & NT & Kk). do 6 pF. eapply (call_complete sc pkg tp tk); eauto. lia.
  - (* quantified expressions *)
    nx R. do 5 pF. pT. dm R. nx R. unfold pbind at 1. pose proof H1 as Kq.
    rewrite pcond_true by (destruct universal; tokb).
    destruct (quantified_complete sc universal tq tv tin ts0 tar body tb s0 p' e ket [] H1 H2 H3 H4 H5 H6 R H0 E ltac:(lia))
      as (s1 & E1 & R1).
    rewrite E1. dm R1. inversion R1; subst. exists s2. auto.
  - (* conditional expressions *)
    nx R. do 5 pF. pT. dm R. nx R. unfold pbind at 1. do 1 pF. pT.
    destruct (conditional_complete sc tk c tc th x tx more tm el y ty s0 p' e ket [] H1 H2 H3 H4 H5 H6 H7 R H0 E ltac:(lia))
      as (s1 & E1 & R1).
    rewrite E1. dm R1. inversion R1; subst. exists s2. auto.
Qed.

Lemma factor_complete sc : complete (S n) (parse_factor file lint G W compiles N (S n) pe sc) sc L_factor.
Proof.
  intros r ts s p' e S R E F L. unfold parse_factor.
  assert (F2 : follow L_prim (nt p') = true).
  { destruct (nt p') as [k|]; auto. simpl in *. rewrite negb_true_iff in *. rewrite orb_false_iff in F. tauto. }
  inversion S; subst.
  - (* a primary alone *)
    destruct (syn_starts _ _ _ H) as (tk & ts' & -> & St). nx R.
    rewrite pcond_false by (destruct St as [St|[St|St]]; kws; tokb).
    rewrite pcond_false by (destruct St as [St|[St|St]]; kws; tokb).
    destruct (primary_complete sc r (tk :: ts') s p' e H R E F2 L) as (s1 & E1 & <-).
    rewrite (pbind_do _ _ _ _ _ E1). pFf F. exists s1. auto.
  - (* power *)
    cbn [ExprSyntax.elab] in E. apply bind_ok in E as (x & E1 & E). apply bind_ok in E as (y & E2 & E).
    apply reads_split in R as (q & R1 & R2).
    destruct (syn_starts _ _ _ H0) as (k & ts' & -> & St). nx R1.
    rewrite pcond_false by (destruct St as [St|[St|St]]; kws; tokb).
    rewrite pcond_false by (destruct St as [St|[St|St]]; kws; tokb).
    assert (Z := reads_first _ _ _ _ R2). assert (M := reads_rem _ _ _ R1).
    destruct (primary_complete sc a (k :: ts') s q x H0 R1 E1 ltac:(tokb) L) as (s1 & P1 & <-).
    rewrite (pbind_do _ _ _ _ _ P1). pT. dm R2.
    destruct (primary_complete sc b tb s0 p' y H1 R2 E2 F2 ltac:(lia)) as (s2 & P2 & <-).
    rewrite (pbind_do _ _ _ _ _ P2). rewrite E. exists s2. auto.
  - cbn [ExprSyntax.elab] in E. apply bind_ok in E as (x & E1 & E). nx R. pT. dm R.
    destruct (primary_complete sc a ta s0 p' x H0 R E1 F2 ltac:(lia)) as (s1 & P1 & <-).
    rewrite (pbind_do _ _ _ _ _ P1). simpl in E. rewrite E. exists s1. auto.
  - cbn [ExprSyntax.elab] in E. apply bind_ok in E as (x & E1 & E). nx R. pF. pT. dm R.
    destruct (primary_complete sc a ta s0 p' x H0 R E1 F2 ltac:(lia)) as (s1 & P1 & <-).
    rewrite (pbind_do _ _ _ _ _ P1). simpl in E. rewrite E. exists s1. auto.
Qed.

(** ** Chains *)
Lemma multiplying_op tk op : multiplying tk op -> tk_kind tk = OPERATOR /\ mul_op tk = Some op.
Proof. intros []; destruct H as (K & V); split; auto; tokb. Qed.
Lemma adding_op tk op : adding tk op -> tk_kind tk = OPERATOR /\ add_op tk = Some op.
Proof. intros []; destruct H as (K & V); split; auto; tokb. Qed.
Lemma sign_is_op tk op : sign tk op -> tk_kind tk = OPERATOR /\ sign_op tk = Some op /\ some_op add_op tk = true.
Proof. intros []; destruct H as (K & V); repeat split; auto; tokb. Qed.
Lemma comparison_op tk op : comparison tk op -> tk_kind tk = OPERATOR /\ rel_op tk = Some op.
Proof. intros []; destruct H as (K & V); split; auto; tokb. Qed.
Lemma follow_weaken lv lv' o : (forall tk, continues lv' tk = true -> continues lv tk = true) ->
  follow lv o = true -> follow lv' o = true.
Proof.
  intros H. destruct o as [tk|]; auto. simpl. intros F. destruct (continues lv' tk) eqn:E; auto.
  rewrite (H _ E) in F. auto.
Qed.
Ltac weaken F := eapply follow_weaken; [|exact F]; intros; unfold continues in *; repeat rewrite orb_true_iff in *; tauto.

Lemma term_prefix sc r ts : syn L_term r ts -> forall m s p' e, reads (at_ s) ts p' -> elab sc r = Ok e ->
  follow L_factor (nt p') = true -> (rem (at_ s) < S n)%nat -> (rem (at_ s) < m)%nat ->
  exists s' m', (let* a := parse_factor file lint G W compiles N (S n) pe sc in
                 term_loop file lint G W compiles N (S n) pe m sc a) s
              = term_loop file lint G W compiles N (S n) pe m' sc e s' /\ at_ s' = p' /\ (rem p' < m')%nat.
Proof.
  remember L_term as lv eqn:LV. intros S. revert LV.
  induction S; intros LV; try discriminate; intros m s p' e R E F L M.
  - destruct (factor_complete sc r ts s p' e S R E F L) as (s1 & P1 & <-).
    exists s1, m. rewrite (pbind_do _ _ _ _ _ P1). repeat split; auto.
    assert (M1 := reads_rem _ _ _ R). lia.
  - cbn [ExprSyntax.elab] in E. apply bind_ok in E as (x & E1 & E). apply bind_ok in E as (y & E2 & E).
    apply reads_split in R as (q & R1 & R2). assert (Z := reads_first _ _ _ _ R2).
    destruct (multiplying_op _ _ H) as (K & O).
    assert (F1 : follow L_factor (nt q) = true) by (destruct H; destruct H; tokb).
    destruct (IHS1 eq_refl m s q x R1 E1 F1 L M) as (s1 & m1 & P1 & Q & M1). subst q.
    rewrite P1. destruct m1 as [|m1]; [lia|]. simpl.
    rewrite pcond_true by (unfold next_is, some_op; rewrite Z, O; auto).
    assert (L1 := reads_rem _ _ _ R1). dm R2. rewrite O. simpl.
    destruct (factor_complete sc b tb s0 p' y S2 R2 E2 F ltac:(lia)) as (s2 & P2 & <-).
    rewrite (pbind_do _ _ _ _ _ P2).
    assert (B : binary G (tok_loc file tk) (e_typ x) op x y = Ok e) by (destruct H; auto).
    rewrite (lift_do _ _ _ _ B). exists s2, m1. repeat split; auto.
    assert (M2 := reads_rem _ _ _ R2). lia.
Qed.
Lemma term_complete sc : complete (S n) (parse_term file lint G W compiles N (S n) pe sc) sc L_term.
Proof.
  intros r ts s p' e S R E F L. unfold parse_term.
  destruct (term_prefix sc r ts S (Datatypes.S n) s p' e R E ltac:(weaken F) L L) as (s1 & m & P1 & <- & M).
  rewrite P1. destruct m as [|m]; [lia|]. simpl. pFf F. exists s1. auto.
Qed.

(** A simple expression before its loop. *)
Definition simple_first (sc : nscope) : P expr :=
  pcond (next_is (some_op add_op))
    (let* tk := p_match file OPERATOR in
     with_op (sign_op tk) (fun op =>
     fun s => (let brackets := peek BRA s in
     let* a := parse_term file lint G W compiles N (S n) pe sc in
     let* _ := (if lint && is_binary a && negb brackets
                then pnote (Note_lint (tok_loc file tk) L_unary_minus) else pret tt) in
     lift (unary (tok_loc file tk) (e_typ a) op a)) s))
    (parse_term file lint G W compiles N (S n) pe sc).
Lemma simple_prefix sc r ts : syn L_simple r ts -> forall m s p' e, reads (at_ s) ts p' -> elab sc r = Ok e ->
  follow L_term (nt p') = true -> (rem (at_ s) < S n)%nat -> (rem (at_ s) < m)%nat ->
  exists s' m' rt, (let* a := simple_first sc in sum_loop file lint G W compiles N (S n) pe m sc (sum_type a) a) s
              = sum_loop file lint G W compiles N (S n) pe m' sc rt e s' /\ rt = sum_type e /\
              at_ s' = p' /\ (rem p' < m')%nat.
Proof.
  remember L_simple as lv eqn:LV. intros S. revert LV.
  induction S; intros LV; try discriminate; intros m s p' e R E F L M.
  - destruct (syn_starts _ _ _ S) as (k & ts' & -> & St). nx R. unfold simple_first.
    unfold pbind at 1. rewrite pcond_false by (destruct St as [[St|[St|St]]|[St|St]]; kws; tokb).
    destruct (term_complete sc r _ s p' e S R E F L) as (s1 & P1 & <-). rewrite P1.
    exists s1, m, (sum_type e). repeat split; auto. assert (M1 := reads_rem _ _ _ R). lia.
  - cbn [ExprSyntax.elab] in E. apply bind_ok in E as (x & E1 & E). nx R.
    destruct (sign_is_op _ _ H) as (K & O & A). unfold simple_first. unfold pbind at 1.
    rewrite pcond_true by (unfold next_is; rewrite NT; auto).
    assert (L0 := reads_rem _ _ _ R). dm R. rewrite O. simpl.
    destruct (term_complete sc a ta s0 p' x S R E1 F ltac:(lia)) as (s1 & P1 & <-).
    rewrite (pbind_do _ _ _ _ _ P1).
    assert (E' : unary (tok_loc file tk) (e_typ x) op x = Ok e) by (destruct H; auto).
    assert (Q : exists s2, pbind (if lint && is_binary x && negb (peek BRA s0)
                  then pnote (Note_lint (tok_loc file tk) L_unary_minus) else pret tt)
                  (fun _ => lift (unary (tok_loc file tk) (e_typ x) op x)) s1 = POk e s2 /\ at_ s2 = at_ s1).
    { rewrite E'. destruct (lint && is_binary x && negb (peek BRA s0)); unfold pbind, pnote, pret; simpl; eexists; split;
        try reflexivity. }
    destruct Q as (s2 & Q & A2). rewrite Q. exists s2, m, (sum_type e). repeat split; auto. simpl in *. lia.
  - cbn [ExprSyntax.elab] in E. apply bind_ok in E as (x & E1 & E). apply bind_ok in E as (y & E2 & E).
    apply reads_split in R as (q & R1 & R2). assert (Z := reads_first _ _ _ _ R2).
    destruct (adding_op _ _ H) as (K & O).
    assert (F1 : follow L_term (nt q) = true) by (destruct H; destruct H; tokb).
    destruct (IHS1 eq_refl m s q x R1 E1 F1 L M) as (s1 & m1 & rt & P1 & RT & Q & M1). subst q.
    rewrite P1. destruct m1 as [|m1]; [lia|]. simpl.
    rewrite pcond_true by (unfold next_is, some_op; rewrite Z, O; auto).
    assert (L1 := reads_rem _ _ _ R1). dm R2. rewrite O. simpl.
    destruct (term_complete sc b tb s0 p' y S2 R2 E2 F ltac:(lia)) as (s2 & P2 & <-).
    rewrite (pbind_do _ _ _ _ _ P2).
    assert (B : binary G (tok_loc file tk) (sum_type x) op x y = Ok e) by (destruct H; auto).
    subst rt. rewrite (lift_do _ _ _ _ B). exists s2, m1, (sum_type x). split; auto. split.
    + apply binary_shape in B. subst e. rewrite sum_type_idem. auto.
    + split; auto. assert (M2 := reads_rem _ _ _ R2). lia.
Qed.
Lemma simple_complete sc : complete (S n) (parse_simple_expression file lint G W compiles N (S n) pe sc) sc L_simple.
Proof.
  intros r ts s p' e S R E F L. unfold parse_simple_expression.
  destruct (simple_prefix sc r ts S (Datatypes.S n) s p' e R E ltac:(weaken F) L L) as (s1 & m & rt & P1 & _ & <- & M).
  unfold simple_first in P1. rewrite P1. destruct m as [|m]; [lia|]. simpl. pFf F. exists s1. auto.
Qed.

Lemma not_operator tk : tk_kind tk <> OPERATOR -> some_op rel_op tk = false.
Proof.
  intros H. unfold some_op, rel_op, is_op, is_kind. destruct (kind_eq_dec (tk_kind tk) OPERATOR); auto. contradiction.
Qed.
Lemma relation_complete sc : complete (S n) (parse_relation file lint G W compiles N (S n) pe sc) sc L_rel.
Proof.
  intros r ts s p' e S R E F L. unfold parse_relation.
  assert (F2 : follow L_simple (nt p') = true) by (weaken F).
  inversion S; subst.
  - destruct (simple_complete sc r ts s p' e H R E F2 L) as (s1 & P1 & <-).
    rewrite (pbind_do _ _ _ _ _ P1). pFf F.
    rewrite pcond_false; [exists s1; auto|].
    apply orb_false_iff. split.
    + apply (follow_tests s1 (is_kw (t "not")) _ F). intros. unfold continues. orbs.
    + apply (follow_tests s1 (is_kw (t "in")) _ F). intros. unfold continues. orbs.
  - cbn [ExprSyntax.elab] in E. apply bind_ok in E as (x & E1 & E). apply bind_ok in E as (y & E2 & E).
    apply reads_split in R as (q & R1 & R2). assert (Z := reads_first _ _ _ _ R2).
    destruct (comparison_op _ _ H) as (K & O).
    assert (F1 : follow L_simple (nt q) = true) by (destruct H; destruct H; tokb).
    assert (L1 := reads_rem _ _ _ R1).
    destruct (simple_complete sc a ta s q x H0 R1 E1 F1 L) as (s1 & P1 & <-).
    rewrite (pbind_do _ _ _ _ _ P1).
    rewrite pcond_true by (unfold next_is, some_op; rewrite Z, O; auto).
    dm R2. rewrite O. simpl.
    destruct (simple_complete sc b tb s0 p' y H1 R2 E2 F2 ltac:(lia)) as (s2 & P2 & <-).
    rewrite (pbind_do _ _ _ _ _ P2). exists s2. split; auto.
    replace (binary G (tok_loc file tk) (Some TBool) op x y) with (@Ok perr expr e); auto.
    destruct H; auto.
  - cbn [ExprSyntax.elab] in E. apply bind_ok in E as (x' & E1 & E). apply bind_ok in E as (a' & E2 & E).
    apply bind_ok in E as (e' & E3 & E).
    apply reads_split in R as (q & R1 & R2). assert (L1 := reads_rem _ _ _ R1).
    assert (NX : exists k, nt q = Some k /\ (keyword "not" k \/ keyword "in" k)).
    { destruct H; simpl in R2; apply reads_first in R2; eauto. }
    destruct NX as (k & NT & NK).
    assert (F1 : follow L_simple (nt q) = true) by (destruct NK; tokb).
    destruct (simple_complete sc x tx s q x' H1 R1 E1 F1 L) as (s1 & P1 & <-).
    rewrite (pbind_do _ _ _ _ _ P1).
    rewrite pcond_false by (unfold next_is; rewrite NT; apply not_operator; destruct NK as [NK|NK]; destruct NK; congruence).
    rewrite pcond_true by (destruct NK; tokb).
    assert (Q : exists s2, pcond (peek_kw (t "not")) (let* tk := p_match_kw file (t "not") in pret (Some tk)) (pret None) s1
                = POk neg s2 /\ reads (at_ s2) (tk :: ta) p' /\ (rem (at_ s2) <= rem (at_ s1))%nat).
    { destruct H.
      - simpl in R2. nx R2. exists s1. pF. auto.
      - simpl in R2. nx R2. pT. dm R2. exists s0. split; auto. split; auto. lia. }
    destruct Q as (s2 & Q & R3 & L3). rewrite (pbind_do _ _ _ _ _ Q). dm R3.
    destruct (simple_complete sc a ta s0 p' a' H2 R3 E2 F2 ltac:(lia)) as (s3 & P3 & <-).
    rewrite (pbind_do _ _ _ _ _ P3). unfold pbind at 1. pFf F. rewrite E3. simpl. rewrite E. exists s3. auto.
  - cbn [ExprSyntax.elab] in E. apply bind_ok in E as (x' & E1 & E). apply bind_ok in E as (a' & E2 & E).
    apply bind_ok in E as (b' & E3 & E). apply bind_ok in E as (e' & E4 & E).
    apply reads_split in R as (q & R1 & R2). assert (L1 := reads_rem _ _ _ R1).
    assert (NX : exists k, nt q = Some k /\ (keyword "not" k \/ keyword "in" k)).
    { destruct H; simpl in R2; apply reads_first in R2; eauto. }
    destruct NX as (k & NT & NK).
    assert (F1 : follow L_simple (nt q) = true) by (destruct NK; tokb).
    destruct (simple_complete sc x tx s q x' H2 R1 E1 F1 L) as (s1 & P1 & <-).
    rewrite (pbind_do _ _ _ _ _ P1).
    rewrite pcond_false by (unfold next_is; rewrite NT; apply not_operator; destruct NK as [NK|NK]; destruct NK; congruence).
    rewrite pcond_true by (destruct NK; tokb).
    assert (Q : exists s2, pcond (peek_kw (t "not")) (let* tk := p_match_kw file (t "not") in pret (Some tk)) (pret None) s1
                = POk neg s2 /\ reads (at_ s2) (tk :: ta ++ dots :: tb) p' /\ (rem (at_ s2) <= rem (at_ s1))%nat).
    { destruct H.
      - simpl in R2. nx R2. exists s1. pF. auto.
      - simpl in R2. nx R2. pT. dm R2. exists s0. split; auto. split; auto. lia. }
    destruct Q as (s2 & Q & R3 & L3). rewrite (pbind_do _ _ _ _ _ Q). dm R3.
    apply reads_split in R3 as (q & R4 & R5). assert (Z := reads_first _ _ _ _ R5). assert (L4 := reads_rem _ _ _ R4).
    destruct (simple_complete sc a ta s0 q a' H3 R4 E2 ltac:(tokb) ltac:(lia)) as (s3 & P3 & <-).
    rewrite (pbind_do _ _ _ _ _ P3). unfold pbind at 1. pT. dm R5.
    destruct (simple_complete sc b tb s4 p' b' H4 R5 E3 F2 ltac:(lia)) as (s5 & P5 & <-).
    rewrite (pbind_do _ _ _ _ _ P5). rewrite E4. simpl. rewrite E. exists s5. auto.
Qed.

Lemma logic_prefix sc lv op w r ts :
  (op = B_and /\ w = "and"%string /\ lv = L_and) \/ (op = B_or /\ w = "or"%string /\ lv = L_or) ->
  syn lv r ts -> forall m s p' e, reads (at_ s) ts p' -> elab sc r = Ok e ->
  follow L_rel (nt p') = true -> (rem (at_ s) < S n)%nat -> (rem (at_ s) < m)%nat ->
  exists s0 s' m' tk x,
    parse_relation file lint G W compiles N (S n) pe sc s = POk x s0 /\ nt (at_ s0) = Some tk /\ keyword w tk /\
    logic_loop file lint G W compiles N (S n) pe m (t w) op sc x s0
    = logic_loop file lint G W compiles N (S n) pe m' (t w) op sc e s' /\ at_ s' = p' /\ (rem p' < m')%nat.
Proof.
  intros O S.
  assert (STEP : forall b tb tk, syn L_rel b tb -> keyword w tk -> forall m s p' x y e,
     reads (at_ s) (tk :: tb) p' -> elab sc b = Ok y -> binary G (tok_loc file tk) (Some TBool) op x y = Ok e ->
     follow L_rel (nt p') = true -> (rem (at_ s) < Datatypes.S n)%nat -> (rem (at_ s) < m)%nat ->
     exists s' m', logic_loop file lint G W compiles N (Datatypes.S n) pe m (t w) op sc x s
     = logic_loop file lint G W compiles N (Datatypes.S n) pe m' (t w) op sc e s' /\ at_ s' = p' /\ (rem p' < m')%nat).
  { intros b tb tk Sb Kw m s p' x y e R Ey B F L M. destruct m as [|m]; [lia|]. simpl.
    assert (M0 := reads_rem _ _ _ R). nx R.
    rewrite pcond_true by (unfold peek_kw, next_is; rewrite NT; apply is_kw_true; exact Kw).
    dm R. destruct (relation_complete sc b tb s0 p' y Sb R Ey F ltac:(lia)) as (s2 & P2 & <-).
    rewrite (pbind_do _ _ _ _ _ P2). rewrite (lift_do _ _ _ _ B). exists s2, m. repeat split; auto.
    simpl in M0. lia. }
  assert (FK : forall p tk, nt p = Some tk -> keyword w tk -> follow L_rel (nt p) = true).
  { intros p tk H K. destruct O as [(-> & -> & ->) | (-> & -> & ->)]; tokb. }
  assert (BASE : forall tk a ta b tb, syn L_rel a ta -> syn L_rel b tb -> keyword w tk ->
     forall m s p' e, reads (at_ s) (ta ++ tk :: tb) p' -> elab sc (R_binary tk op a b) = Ok e ->
       follow L_rel (nt p') = true -> (rem (at_ s) < Datatypes.S n)%nat -> (rem (at_ s) < m)%nat ->
       exists s0 s' m' tk x,
         parse_relation file lint G W compiles N (Datatypes.S n) pe sc s = POk x s0 /\ nt (at_ s0) = Some tk /\ keyword w tk /\
         logic_loop file lint G W compiles N (Datatypes.S n) pe m (t w) op sc x s0
         = logic_loop file lint G W compiles N (Datatypes.S n) pe m' (t w) op sc e s' /\ at_ s' = p' /\ (rem p' < m')%nat).
  { intros tk a ta b tb Sa Sb Kw m s p' e R E F L M.
    cbn [ExprSyntax.elab] in E. apply bind_ok in E as (x & E1 & E). apply bind_ok in E as (y & E2 & E).
    assert (B : binary G (tok_loc file tk) (Some TBool) op x y = Ok e)
      by (destruct O as [(-> & -> & ->) | (-> & -> & ->)]; auto).
    apply reads_split in R as (q & R1 & R2). assert (Z := reads_first _ _ _ _ R2). assert (L1 := reads_rem _ _ _ R1).
    destruct (relation_complete sc a ta s q x Sa R1 E1 (FK _ _ Z Kw) L) as (s1 & P1 & <-).
    destruct (STEP b tb tk Sb Kw m s1 p' x y e R2 E2 B F ltac:(lia) ltac:(lia)) as (s2 & m2 & P2 & A2 & M2).
    exists s1, s2, m2, tk, x. repeat (split; auto). }
  induction S; try (destruct O as [(? & ? & ?) | (? & ? & ?)]; discriminate).
  - assert (X : op = B_and /\ w = "and"%string) by (destruct O as [(-> & -> & LV) | (-> & -> & LV)]; [auto | discriminate]).
    destruct X as (-> & ->). clear IHS1 IHS2. intros m s p' e. eapply BASE; eauto.
  - assert (X : op = B_and /\ w = "and"%string) by (destruct O as [(-> & -> & LV) | (-> & -> & LV)]; [auto | discriminate]).
    destruct X as (-> & ->). intros m s p' e R E F L M.
    cbn [ExprSyntax.elab] in E. apply bind_ok in E as (x & E1 & E). apply bind_ok in E as (y & E2 & E).
    apply reads_split in R as (q & R1 & R2). assert (Z := reads_first _ _ _ _ R2). assert (L1 := reads_rem _ _ _ R1).
    destruct (IHS1 O m s q x R1 E1 (FK _ _ Z H) L M) as (s0 & s1 & m1 & k & z & P1 & N1 & K1 & P2 & A & M1). subst q.
    destruct (STEP b tb tk S2 H m1 s1 p' x y e R2 E2 E F ltac:(lia) ltac:(lia)) as (s2 & m2 & P3 & A2 & M2).
    exists s0, s2, m2, k, z. rewrite P2. repeat (split; auto).
  - assert (X : op = B_or /\ w = "or"%string) by (destruct O as [(-> & -> & LV) | (-> & -> & LV)]; [discriminate | auto]).
    destruct X as (-> & ->). clear IHS1 IHS2. intros m s p' e. eapply BASE; eauto.
  - assert (X : op = B_or /\ w = "or"%string) by (destruct O as [(-> & -> & LV) | (-> & -> & LV)]; [discriminate | auto]).
    destruct X as (-> & ->). intros m s p' e R E F L M.
    cbn [ExprSyntax.elab] in E. apply bind_ok in E as (x & E1 & E). apply bind_ok in E as (y & E2 & E).
    apply reads_split in R as (q & R1 & R2). assert (Z := reads_first _ _ _ _ R2). assert (L1 := reads_rem _ _ _ R1).
    destruct (IHS1 O m s q x R1 E1 (FK _ _ Z H) L M) as (s0 & s1 & m1 & k & z & P1 & N1 & K1 & P2 & A & M1). subst q.
    destruct (STEP b tb tk S2 H m1 s1 p' x y e R2 E2 E F ltac:(lia) ltac:(lia)) as (s2 & m2 & P3 & A2 & M2).
    exists s0, s2, m2, k, z. rewrite P2. repeat (split; auto).
Qed.

Lemma expression_complete sc : complete (S n) (expression_step file lint G W compiles N (S n) pe sc) sc L_expr.
Proof.
  intros r ts s p' e S R E F L. unfold expression_step.
  assert (F2 : follow L_rel (nt p') = true) by (weaken F).
  inversion S; subst.
  - destruct (relation_complete sc r ts s p' e H R E F2 L) as (s1 & P1 & <-).
    rewrite (pbind_do _ _ _ _ _ P1). do 4 pFf F. exists s1. auto.
  - destruct (logic_prefix sc L_and B_and "and" r ts ltac:(auto) H (Datatypes.S n) s p' e R E F2 L L)
      as (s0 & s1 & m & tk & x & P1 & N1 & K1 & P2 & <- & M).
    rewrite (pbind_do _ _ _ _ _ P1). pT. rewrite P2. destruct m as [|m]; [lia|]. simpl. pFf F. exists s1. auto.
  - destruct (logic_prefix sc L_or B_or "or" r ts ltac:(auto) H (Datatypes.S n) s p' e R E F2 L L)
      as (s0 & s1 & m & tk & x & P1 & N1 & K1 & P2 & <- & M).
    rewrite (pbind_do _ _ _ _ _ P1). pF. pT. rewrite P2. destruct m as [|m]; [lia|]. simpl. pFf F. exists s1. auto.
  - cbn [ExprSyntax.elab] in E. apply bind_ok in E as (x & E1 & E). apply bind_ok in E as (y & E2 & E).
    apply reads_split in R as (q & R1 & R2). assert (Z := reads_first _ _ _ _ R2). assert (L1 := reads_rem _ _ _ R1).
    destruct (relation_complete sc a ta s q x H0 R1 E1 ltac:(tokb) L) as (s1 & P1 & <-).
    rewrite (pbind_do _ _ _ _ _ P1). pF. pF. pT. unfold logic_once. dm R2.
    destruct (relation_complete sc b tb s0 p' y H1 R2 E2 F2 ltac:(lia)) as (s2 & P2 & <-).
    rewrite (pbind_do _ _ _ _ _ P2). simpl in E. rewrite E. exists s2. auto.
  - cbn [ExprSyntax.elab] in E. apply bind_ok in E as (x & E1 & E). apply bind_ok in E as (y & E2 & E).
    apply reads_split in R as (q & R1 & R2). assert (Z := reads_first _ _ _ _ R2). assert (L1 := reads_rem _ _ _ R1).
    destruct (relation_complete sc a ta s q x H0 R1 E1 ltac:(tokb) L) as (s1 & P1 & <-).
    rewrite (pbind_do _ _ _ _ _ P1). pF. pF. pF. pT. unfold logic_once. dm R2.
    destruct (relation_complete sc b tb s0 p' y H1 R2 E2 F2 ltac:(lia)) as (s2 & P2 & <-).
    rewrite (pbind_do _ _ _ _ _ P2). simpl in E. rewrite E. exists s2. auto.
Qed.

(** A chain of logical operators ends at a different logical operator. *)
Lemma expression_stops sc op r ts s p' e tk : chain op r ts -> ends_chain op tk -> reads (at_ s) ts p' ->
  elab sc r = Ok e -> nt p' = Some tk -> (rem (at_ s) < S n)%nat ->
  exists s', expression_step file lint G W compiles N (S n) pe sc s = POk e s' /\ at_ s' = p'.
Proof.
  intros C O R E NT L. unfold expression_step.
  assert (F2 : follow L_rel (nt p') = true)
    by (destruct op; cbn in O; decompose [or] O; try contradiction; tokb).
  destruct C; cbn in O.
  - destruct (logic_prefix sc L_and B_and "and" r ts ltac:(auto) H (Datatypes.S n) s p' e R E F2 L L)
      as (s0 & s1 & m & tk' & x & P1 & N1 & K1 & P2 & <- & M).
    rewrite (pbind_do _ _ _ _ _ P1). pT. rewrite P2. destruct m as [|m]; [lia|]. simpl.
    rewrite pcond_false by (decompose [or] O; tokb). exists s1. auto.
  - destruct (logic_prefix sc L_or B_or "or" r ts ltac:(auto) H (Datatypes.S n) s p' e R E F2 L L)
      as (s0 & s1 & m & tk' & x & P1 & N1 & K1 & P2 & <- & M).
    rewrite (pbind_do _ _ _ _ _ P1). pF. pT. rewrite P2. destruct m as [|m]; [lia|]. simpl.
    rewrite pcond_false by (decompose [or] O; tokb). exists s1. auto.
  - cbn [ExprSyntax.elab] in E. apply bind_ok in E as (x & E1 & E). apply bind_ok in E as (y & E2 & E).
    apply reads_split in R as (q & R1 & R2). assert (Z := reads_first _ _ _ _ R2). assert (L1 := reads_rem _ _ _ R1).
    destruct (relation_complete sc a ta s q x H0 R1 E1 ltac:(tokb) L) as (s1 & P1 & <-).
    rewrite (pbind_do _ _ _ _ _ P1). pF. pF. pT. unfold logic_once. dm R2.
    destruct (relation_complete sc b tb s0 p' y H1 R2 E2 F2 ltac:(lia)) as (s2 & P2 & <-).
    rewrite (pbind_do _ _ _ _ _ P2). simpl in E. rewrite E. exists s2. auto.
  - cbn [ExprSyntax.elab] in E. apply bind_ok in E as (x & E1 & E). apply bind_ok in E as (y & E2 & E).
    apply reads_split in R as (q & R1 & R2). assert (Z := reads_first _ _ _ _ R2). assert (L1 := reads_rem _ _ _ R1).
    destruct (relation_complete sc a ta s q x H0 R1 E1 ltac:(tokb) L) as (s1 & P1 & <-).
    rewrite (pbind_do _ _ _ _ _ P1). pF. pF. pF. pT. unfold logic_once. dm R2.
    destruct (relation_complete sc b tb s0 p' y H1 R2 E2 F2 ltac:(lia)) as (s2 & P2 & <-).
    rewrite (pbind_do _ _ _ _ _ P2). simpl in E. rewrite E. exists s2. auto.
Qed.
End STEP.

Theorem parse_expression_complete n sc : complete n (parse_expression file lint G W compiles N n sc) sc L_expr.
Proof.
  revert sc. induction n as [|n IH]; intros sc.
  - intros r ts s p' e S R E F L. lia.
  - simpl. apply expression_complete. auto.
Qed.

Theorem parse_expression_stops n sc op r ts s p' e tk : chain op r ts -> ends_chain op tk -> reads (at_ s) ts p' ->
  elab sc r = Ok e -> nt p' = Some tk -> (rem (at_ s) < n)%nat ->
  exists s', parse_expression file lint G W compiles N n sc s = POk e s' /\ at_ s' = p'.
Proof.
  intros C O R E NT L. destruct n as [|n]; [lia|]. simpl. eapply expression_stops; eauto.
  apply parse_expression_complete.
Qed.
End COMPLETE.
