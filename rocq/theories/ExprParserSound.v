(** What the expression parser accepts is a phrase of the grammar, and what it
    returns is the meaning of that phrase. *)
From Verif Require Import Base Lexer SymTab Ast Eval ParserBase ParserExpr ExprSyntax ParserProofs.
From Coq Require Import ZifyBool ZifyNat ZifyN.
Open Scope Z_scope.

Section SOUND.
Variable file : Z.
Variable lint : bool.
Variable G : types.
Variable W : world.
Variable compiles : text -> bool.
Variable N : names.
Notation elab := (elab file lint G W compiles N).

Definition sound (m : P expr) (sc : nscope) (lv : level) : Prop :=
  forall s e s', m s = POk e s' ->
    exists r ts, syn lv r ts /\ reads (at_ s) ts (at_ s') /\ elab sc r = Ok e.

(** ** Operators *)
Lemma op_cases w tk : is_op (t w) tk = true -> operator w tk.
Proof. intros H. apply is_op_true in H. auto. Qed.
Ltac ops := repeat match goal with |- context [is_op ?w ?k] => destruct (is_op w k) eqn:? end.
Lemma mul_op_spec tk op : mul_op tk = Some op -> multiplying tk op.
Proof.
  unfold mul_op. ops; intros H; inversion H; subst; constructor; apply op_cases; auto.
Qed.
Lemma add_op_spec tk op : add_op tk = Some op -> adding tk op.
Proof.
  unfold add_op. ops; intros H; inversion H; subst; constructor; apply op_cases; auto.
Qed.
Lemma sign_op_spec tk op : sign_op tk = Some op -> sign tk op.
Proof.
  unfold sign_op. ops; intros H; inversion H; subst; constructor; apply op_cases; auto.
Qed.
Lemma rel_op_spec tk op : rel_op tk = Some op -> comparison tk op.
Proof.
  unfold rel_op. ops; intros H; inversion H; subst; constructor; apply op_cases; auto.
Qed.
Lemma with_op_ok {A} (o : option A) k s e s' : with_op o k s = POk e s' -> exists op, o = Some op /\ k op s = POk e s'.
Proof. destruct o; simpl; intros H; [eauto | discriminate]. Qed.

Ltac pm H := let K := fresh "K" in let R := fresh "R" in
  first [apply match_kw_ok in H as (K & R & _) | apply match_ok in H as (K & R & _)].
Ltac pc H := let Q := fresh "Heqb" in apply pcond_cases in H as [(Q & H) | (Q & H)].
Ltac go H := repeat (first [pinv H | pm H | pc H]).
Ltac rd := repeat (eapply reads_app; [eassumption|]); eassumption.

(** ** Names *)
Section STEP.
Variable n : nat.
Variable pe : nscope -> P expr.
Hypothesis pe_sound : forall sc, sound (pe sc) sc L_expr.

(** Selectors and the meaning of their indices. *)
Notation meanings sc := (map (fun s : token * option raw =>
  (fst s, match snd s with Some i => Some (elab sc i) | None => None end))).

Lemma selectors_sound m sc e s x s' : selectors file lint G pe m sc e s = POk x s' ->
  exists sels ts, syn_sels sels ts /\ reads (at_ s) ts (at_ s') /\
    select file lint G e (meanings sc sels) = Ok x.
Proof.
  revert e s. induction m as [|m IH]; simpl; intros e s H; [discriminate|].
  pc H; [|pc H].
  - pinv H. pinv H0. pinv H. pm H1. pinv H. pm H1. pinv H. pinv H1. destruct a1 as [e' ns].
    pinv H. assert (A : at_ s2 = at_ s1).
    { destruct ns; inversion H2; auto. }
    apply IH in H as (sels & ts & S & R' & E). rewrite A in R'.
    exists ((a0, None) :: sels), (a :: a0 :: ts). split; [constructor; auto|]. split.
    + change (a :: a0 :: ts) with ([a] ++ [a0] ++ ts). rd.
    + simpl. rewrite H0. simpl. rewrite H1. simpl. auto.
  - pinv H. pinv H0. pinv H. pm H1. pinv H. apply pe_sound in H1 as (r & tr & Sr & Rr & Er).
    pinv H. pm H1. pinv H. pinv H1. apply IH in H as (sels & ts & S & R' & E).
    exists ((a, Some r) :: sels), (a :: tr ++ a1 :: ts). split; [constructor; auto|]. split.
    + change (a :: tr ++ a1 :: ts) with ([a] ++ tr ++ [a1] ++ ts). rd.
    + simpl. rewrite H0. simpl. rewrite Er. simpl. rewrite H1. simpl. auto.
  - pinv H. exists [], []. repeat split; constructor.
Qed.

Lemma arguments_sound m sc s es s' : arguments file pe m sc s = POk es s' ->
  exists rs ts, syn_args rs ts /\ reads (at_ s) ts (at_ s') /\ all_of (map (elab sc) rs) = Ok es.
Proof.
  revert s es s'. induction m as [|m IH]; simpl; intros s es s' H; [discriminate|].
  pc H.
  - pinv H. exists [], []. repeat split; constructor.
  - pinv H. apply pe_sound in H0 as (r & tr & Sr & Rr & Er). pc H.
    + pinv H. pm H0. pinv H. apply IH in H0 as (rs & ts & S & R' & E). pinv H.
      exists (r :: rs), (tr ++ a0 :: ts). split; [constructor; auto|]. split.
      * change (tr ++ a0 :: ts) with (tr ++ [a0] ++ ts). rd.
      * simpl. rewrite Er. simpl. rewrite E. auto.
    + pinv H. exists [r], tr. split; [constructor; auto|]. split; auto. simpl. rewrite Er. auto.
Qed.

Lemma builtin_sound sc c tk s e s' : parse_builtin file G W compiles n pe sc c tk s = POk e s' ->
  exists bra ket rs ts, tk_kind bra = BRA /\ tk_kind ket = KET /\ syn_args rs ts /\
    reads (at_ s) (bra :: ts ++ [ket]) (at_ s') /\
    (do es <- all_of (map (elab sc) rs) ; call file G W compiles c tk es) = Ok e.
Proof.
  unfold parse_builtin. intros H. pinv H. pm H0. pinv H. apply arguments_sound in H0 as (rs & ts & S & R' & E).
  pinv H. pm H0. pinv H. exists a, a1, rs, ts. repeat split; auto.
  - change (a :: ts ++ [a1]) with ([a] ++ ts ++ [a1]). rd.
  - rewrite E. auto.
Qed.

Lemma name_sound sc : sound (parse_name file lint G W compiles N n pe sc) sc L_prim.
Proof.
  intros s e s' H. unfold parse_name in H. pinv H. pm H0. pinv H. destruct a0 as [h tk].
  pc H0.
  - (* a call *)
    pinv H0. pinv H1. pinv H0. try (inversion H0; subst; clear H0). simpl in H.
    apply builtin_sound in H as (bra & ket & rs & ts & Kb & Kk & S & R' & E).
    exists (R_call None tk rs), ([] ++ tk :: bra :: ts ++ [ket]).
    split; [constructor; auto; constructor|]. split.
    + change ([] ++ tk :: bra :: ts ++ [ket]) with ([tk] ++ bra :: ts ++ [ket]). rd.
    + simpl. rewrite H1. simpl. auto.
  - pinv H0. rename tk into tk'. destruct a0 as [ent tk]. pinv H0. pinv H2. pinv H0.
    unfold qualified_rest in H1. pinv H1. pinv H0.
    assert (Q : (exists p, a0 = N_pkg p /\ is_visible N p = true /\ exists dot,
                  tk_kind dot = DOT /\ tk_kind tk' = IDENTIFIER /\
                  reads (at_ s0) [dot; tk'] (at_ s1) /\ e_lookup file (p_symbols N p) tk' None = Ok ent) \/
                ((forall p, a0 <> N_pkg p) /\ ent = a0 /\ tk' = a /\ s1 = s0)).
    { destruct a0 as [x|f|p|o|c|v x];
        try (right; pinv H1; pinv H3; pinv H1; try (inversion H1; subst; clear H1);
             rewrite H0 in H3; inversion H3; subst; repeat split; auto; intros p E'; discriminate).
      left. exists p. split; auto. destruct (is_visible N p) eqn:V; [|destruct (hidden_no _ _ _ _ _ H1)]. split; auto.
      pinv H1. pm H3. pinv H1. pm H3. pinv H1. pinv H3. pinv H1. try (inversion H1; subst; clear H1).
      exists a0. repeat split; auto. change [a0; tk'] with ([a0] ++ [tk']). rd. }
    clear H1.
    destruct h as [i|c|x].
    + (* an enumeration literal *)
      pinv H. pm H1. pinv H. pm H1. pinv H.
      destruct Q as [(p & -> & V & dot & Kd & Kt & R' & L) | (NP & -> & -> & ->)].
      * exists (R_name a [(tk', None); (a2, None)]), (a :: dot :: tk' :: a1 :: a2 :: []).
        split; [repeat (constructor; auto)|]. split.
        -- change [a; dot; tk'; a1; a2] with ([a] ++ [dot; tk'] ++ [a1] ++ [a2]). rd.
        -- simpl. unfold name_meaning, resolve. rewrite H0. simpl. rewrite V. simpl. rewrite L. simpl.
           rewrite H2. simpl. auto.
      * exists (R_name a [(a2, None)]), [a; a1; a2].
        split; [repeat (constructor; auto)|]. split.
        -- change [a; a1; a2] with ([a] ++ [a1] ++ [a2]). rd.
        -- simpl. unfold name_meaning, resolve. rewrite H0. simpl.
           destruct a0; try (exfalso; eapply NP; reflexivity); cbn [bind]; rewrite H2; cbn [bind]; auto.
    + (* a call with a package name *)
      apply builtin_sound in H as (bra & ket & rs & ts & Kb & Kk & S & R' & E).
      destruct Q as [(p & -> & V & dot & Kd & Kt & R2 & L) | (NP & -> & -> & ->)].
      * exists (R_call (Some a) tk' rs), ([a; dot] ++ tk' :: bra :: ts ++ [ket]).
        split; [constructor; auto; constructor; auto|]. split.
        -- change ([a; dot] ++ tk' :: bra :: ts ++ [ket]) with ([a] ++ [dot; tk'] ++ bra :: ts ++ [ket]). rd.
        -- simpl. unfold resolve. rewrite H0. simpl. rewrite V. simpl. rewrite L. simpl. rewrite H2. simpl. auto.
      * (* the next token is not a bracket *)
        exfalso. assert (F : nt (at_ s0) = Some bra) by (eapply reads_first; eauto).
        unfold peek, next_is in Heqb. rewrite F in Heqb.
        assert (T : is_kind BRA bra = true) by (apply is_kind_true; auto). congruence.
    + apply selectors_sound in H as (sels & ts & S & R' & E).
      destruct Q as [(p & -> & V & dot & Kd & Kt & R2 & L) | (NP & -> & -> & ->)].
      * exists (R_name a ((tk', None) :: sels)), (a :: dot :: tk' :: ts).
        split; [repeat (constructor; auto)|]. split.
        -- change (a :: dot :: tk' :: ts) with ([a] ++ [dot; tk'] ++ ts). rd.
        -- simpl. unfold name_meaning, resolve. rewrite H0. simpl. rewrite V. simpl. rewrite L. simpl.
           rewrite H2. simpl. auto.
      * exists (R_name a sels), (a :: ts). split; [constructor; auto|]. split.
        -- change (a :: ts) with ([a] ++ ts). rd.
        -- simpl. unfold name_meaning, resolve. rewrite H0. simpl.
           destruct a0; try (exfalso; eapply NP; reflexivity); cbn [bind]; rewrite H2; cbn [bind]; auto.
Qed.

(** ** Primaries *)
Lemma quantified_sound sc s e s' : parse_quantified_expression file pe sc s = POk e s' ->
  exists u tq tv tin ts tar body tb,
    keyword (if u : bool then "forall" else "exists")%string tq /\ tk_kind tv = IDENTIFIER /\
    keyword "in" tin /\ tk_kind ts = IDENTIFIER /\ tk_kind tar = ARROW /\ syn L_expr body tb /\
    reads (at_ s) (tq :: tv :: tin :: ts :: tar :: tb) (at_ s') /\ elab sc (R_quant u tq tv ts body) = Ok e.
Proof.
  unfold parse_quantified_expression. intros H. pinv H. destruct a as [u tq].
  assert (Q : keyword (if u then "forall" else "exists")%string tq /\ reads (at_ s) [tq] (at_ s0)).
  { pc H0; pinv H0; pm H1; pinv H0; try (inversion H0; subst); auto. }
  destruct Q as (Q & R). clear H0.
  pinv H. pm H0. pinv H. pinv H0. pinv H. pm H1. pinv H. pm H1. pinv H. pinv H1. destruct a2 as [c el].
  pinv H. pm H2. pinv H. apply pe_sound in H2 as (body & tb & Sb & Rb & Eb). pinv H.
  exists u, tq, a, a0, a1, a2, body, tb. repeat (split; auto).
  - change (tq :: a :: a0 :: a1 :: a2 :: tb) with ([tq] ++ [a] ++ [a0] ++ [a1] ++ [a2] ++ tb). rd.
  - simpl. rewrite H0. simpl. rewrite H1. simpl. rewrite Eb. simpl. auto.
Qed.

Lemma elsifs_sound m sc typ s l s' : elsifs file pe m sc typ s = POk l s' ->
  exists rs ts, syn_more rs ts /\ reads (at_ s) ts (at_ s') /\
    all_of (map (elsif_meaning typ) (map (fun p => (elab sc (fst p), elab sc (snd p))) rs)) = Ok l.
Proof.
  revert s l s'. induction m as [|m IH]; simpl; intros s l s' H; [discriminate|]. pc H.
  - pinv H. pm H0. pinv H. apply pe_sound in H0 as (c & tc & Sc & Rc & Ec).
    pinv H. pm H0. pinv H. apply pe_sound in H0 as (x & tx & Sx & Rx & Ex).
    pinv H. pinv H0. pinv H. apply IH in H1 as (rs & ts & S & R' & E). pinv H.
    exists ((c, x) :: rs), (a :: tc ++ a1 :: tx ++ ts). split; [constructor; auto|]. split.
    + change (a :: tc ++ a1 :: tx ++ ts) with ([a] ++ tc ++ [a1] ++ tx ++ ts). rd.
    + simpl. unfold elsif_meaning at 1. simpl. rewrite Ec. simpl. rewrite Ex. simpl. rewrite H0. simpl.
      rewrite E. auto.
  - pinv H. exists [], []. repeat split; constructor.
Qed.

Lemma conditional_sound sc s e s' : parse_conditional_expression file n pe sc s = POk e s' ->
  exists tk c tc th x tx more tm el y ty, keyword "if" tk /\ keyword "then" th /\ keyword "else" el /\
    syn L_expr c tc /\ syn L_expr x tx /\ syn_more more tm /\ syn L_expr y ty /\
    reads (at_ s) (tk :: tc ++ th :: tx ++ tm ++ el :: ty) (at_ s') /\ elab sc (R_cond tk c x more y) = Ok e.
Proof.
  unfold parse_conditional_expression. intros H.
  pinv H. pm H0. pinv H. apply pe_sound in H0 as (c & tc & Sc & Rc & Ec).
  pinv H. pm H0. pinv H. apply pe_sound in H0 as (x & tx & Sx & Rx & Ex).
  pinv H. pinv H0. pinv H. apply elsifs_sound in H1 as (rs & ts & S & R' & E).
  pinv H. pm H1. pinv H. apply pe_sound in H1 as (y & ty & Sy & Ry & Ey). pinv H. pinv H1. pinv H.
  exists a, c, tc, a1, x, tx, rs, ts, a5, y, ty. repeat (split; auto).
  - change (a :: tc ++ a1 :: tx ++ ts ++ a5 :: ty) with ([a] ++ tc ++ [a1] ++ tx ++ ts ++ [a5] ++ ty). rd.
  - simpl. rewrite Ec. simpl. rewrite Ex. simpl. rewrite H0. simpl. rewrite E. simpl. rewrite Ey. simpl.
    rewrite H1. auto.
Qed.

Lemma primary_sound sc : sound (parse_primary file lint G W compiles N n pe sc) sc L_prim.
Proof.
  intros s e s' H. unfold parse_primary in H. pc H.
  { pinv H. pm H0. destruct (tk_value a) eqn:V; try discriminate. pinv H.
    exists (R_lit a), [a]. split; [repeat econstructor; eauto|]. split; auto.
    simpl. unfold literal_meaning. rewrite K, V. auto. }
  clear Heqb. pc H.
  { pinv H. pm H0. destruct (tk_value a) eqn:V; try discriminate. pinv H.
    exists (R_lit a), [a]. split; [constructor; eapply lit_dec; eauto|]. split; auto.
    simpl. unfold literal_meaning. rewrite K, V. auto. }
  clear Heqb. pc H.
  { pinv H. pm H0. destruct (tk_value a) eqn:V; try discriminate. pinv H.
    exists (R_lit a), [a]. split; [constructor; eapply lit_str; eauto|]. split; auto.
    simpl. unfold literal_meaning. rewrite K, V. auto. }
  clear Heqb. pc H.
  { pinv H. pm H0. pinv H. unfold peek_kw, next_is in Heqb. rewrite (reads_first _ _ _ _ R) in Heqb.
    apply orb_true_iff in Heqb. exists (R_lit a), [a]. rewrite !is_kw_true in Heqb.
    destruct Heqb as [(_ & V) | (_ & V)].
    - split; [constructor; apply lit_true; split; auto|]. split; auto.
      simpl. unfold literal_meaning. rewrite K, V. rewrite text_eqb_refl.
      rewrite (proj2 (has_text_true _ _) V). auto.
    - split; [constructor; apply lit_false; split; auto|]. split; auto.
      simpl. unfold literal_meaning, has_text. rewrite K, V. rewrite text_eqb_refl.
      replace (text_eqb (t "false") (t "true")) with false by reflexivity. auto. }
  clear Heqb. pc H.
  { pinv H. pm H0. pinv H. exists (R_lit a), [a]. split; [constructor; apply lit_null; auto|]. split; auto.
    simpl. unfold literal_meaning. destruct K as (-> & ->).
    replace (text_eqb (t "null") (t "true")) with false by reflexivity.
    replace (text_eqb (t "null") (t "false")) with false by reflexivity. auto. }
  clear Heqb. pc H; [|eapply name_sound; eauto].
  pinv H. pm H0. pinv H. pinv H. pm H1. pinv H.
  pc H0; [|pc H0].
  - apply quantified_sound in H0 as (u & tq & tv & tin & ts & tar & body & tb & Q).
    destruct Q as (Q1 & Q2 & Q3 & Q4 & Q5 & Q6 & Q7 & Q8).
    exists (R_quant u tq tv ts body), (a :: tq :: tv :: tin :: ts :: tar :: tb ++ [a1]).
    split; [econstructor; eauto|]. split; auto.
    change (a :: tq :: tv :: tin :: ts :: tar :: tb ++ [a1])
      with ([a] ++ (tq :: tv :: tin :: ts :: tar :: tb) ++ [a1]). rd.
  - apply conditional_sound in H0 as (tk & c & tc & th & x & tx & more & tm & el & y & ty & Q).
    destruct Q as (Q1 & Q2 & Q3 & Q4 & Q5 & Q6 & Q7 & Q8 & Q9).
    exists (R_cond tk c x more y), (a :: tk :: tc ++ th :: tx ++ tm ++ el :: ty ++ [a1]).
    split; [econstructor; eauto|]. split; auto.
    replace (a :: tk :: tc ++ th :: tx ++ tm ++ el :: ty ++ [a1])
      with ([a] ++ (tk :: tc ++ th :: tx ++ tm ++ el :: ty) ++ [a1]).
    + rd.
    + simpl. rewrite <- !app_assoc. simpl. rewrite <- !app_assoc. reflexivity.
  - apply pe_sound in H0 as (r & ts & S & R' & E).
    exists r, (a :: ts ++ [a1]). split; [constructor; auto|]. split; auto.
    change (a :: ts ++ [a1]) with ([a] ++ ts ++ [a1]). rd.
Qed.

Lemma factor_sound sc : sound (parse_factor file lint G W compiles N n pe sc) sc L_factor.
Proof.
  intros s e s' H. unfold parse_factor in H. pc H; [|pc H].
  - pinv H. pm H0. pinv H. apply primary_sound in H0 as (r & ts & S & R' & E). pinv H.
    exists (R_unary a U_not r), (a :: ts). split; [apply syn_factor_not; auto|]. split.
    + change (a :: ts) with ([a] ++ ts). rd.
    + simpl. rewrite E. simpl. auto.
  - pinv H. pm H0. pinv H. apply primary_sound in H0 as (r & ts & S & R' & E). pinv H.
    exists (R_unary a U_abs r), (a :: ts). split; [apply syn_factor_abs; auto|]. split.
    + change (a :: ts) with ([a] ++ ts). rd.
    + simpl. rewrite E. simpl. auto.
  - pinv H. apply primary_sound in H0 as (r & ts & S & R' & E). pc H.
    + pinv H. pm H0. pinv H. apply primary_sound in H0 as (r2 & ts2 & S2 & R2 & E2). pinv H.
      exists (R_binary a0 B_pow r r2), (ts ++ a0 :: ts2). split; [|split].
      * apply syn_factor_power; auto. unfold peek_op, next_is in Heqb1. rewrite (reads_first _ _ _ _ R) in Heqb1.
        apply op_cases; auto.
      * change (ts ++ a0 :: ts2) with (ts ++ [a0] ++ ts2). rd.
      * simpl. rewrite E. simpl. rewrite E2. simpl. auto.
    + pinv H. exists r, ts. split; auto. constructor; auto.
Qed.

(** ** The chains *)
Lemma mul_type tk op x : multiplying tk op -> result_type op x = e_typ x.
Proof. intros []; reflexivity. Qed.
Lemma term_loop_sound m sc p0 ra ta a s e s' :
  syn L_term ra ta -> reads p0 ta (at_ s) -> elab sc ra = Ok a ->
  term_loop file lint G W compiles N n pe m sc a s = POk e s' ->
  exists r ts, syn L_term r ts /\ reads p0 ts (at_ s') /\ elab sc r = Ok e.
Proof.
  revert ra ta a s. induction m as [|m IH]; simpl; intros ra ta a s S R E H; [discriminate|]. pc H.
  - pinv H. pm H0. apply with_op_ok in H as (op & O & H). apply mul_op_spec in O.
    pinv H. apply factor_sound in H0 as (rb & tb & Sb & Rb & Eb). pinv H. pinv H0.
    eapply (IH (R_binary a0 op ra rb) (ta ++ a0 :: tb)); eauto.
    + apply syn_term_mul; auto.
    + change (ta ++ a0 :: tb) with (ta ++ [a0] ++ tb). rd.
    + simpl. rewrite E. simpl. rewrite Eb. simpl. rewrite (mul_type _ _ _ O). destruct O; auto.
  - pinv H. eauto.
Qed.
Lemma term_sound sc : sound (parse_term file lint G W compiles N n pe sc) sc L_term.
Proof.
  intros s e s' H. unfold parse_term in H. pinv H. apply factor_sound in H0 as (r & ts & S & R & E).
  eapply term_loop_sound; eauto. constructor; auto.
Qed.

Lemma sum_type_idem a l op x b : sum_type (EBinary l (sum_type a) op x b) = sum_type a.
Proof. unfold sum_type at 1. simpl. unfold sum_type. destruct (e_typ a) as [[]|]; reflexivity. Qed.
Lemma binary_shape l ty op a b e : binary G l ty op a b = Ok e -> e = EBinary l ty op a b.
Proof.
  unfold binary, of_static, mk_binary. intros H.
  match type of H with match bind ?x _ with _ => _ end = _ => destruct x as [|[] | |]; simpl in H; inversion H end. auto.
Qed.
Lemma sum_loop_sound m sc p0 ra ta a rt s e s' :
  syn L_simple ra ta -> reads p0 ta (at_ s) -> elab sc ra = Ok a -> rt = sum_type a ->
  sum_loop file lint G W compiles N n pe m sc rt a s = POk e s' ->
  exists r ts, syn L_simple r ts /\ reads p0 ts (at_ s') /\ elab sc r = Ok e.
Proof.
  revert ra ta a s. induction m as [|m IH]; simpl; intros ra ta a s S R E RT H; [discriminate|]. pc H.
  - pinv H. pm H0. apply with_op_ok in H as (op & O & H). apply add_op_spec in O.
    pinv H. apply term_sound in H0 as (rb & tb & Sb & Rb & Eb). pinv H. pinv H0.
    eapply (IH (R_binary a0 op ra rb) (ta ++ a0 :: tb) a2); [| | | |exact H].
    + apply syn_simple_add; auto.
    + change (ta ++ a0 :: tb) with (ta ++ [a0] ++ tb). rd.
    + simpl. rewrite E. simpl. rewrite Eb. simpl. subst rt. destruct O; auto.
    + apply binary_shape in H0. subst. rewrite sum_type_idem. auto.
  - pinv H. eauto.
Qed.
Lemma simple_sound sc : sound (parse_simple_expression file lint G W compiles N n pe sc) sc L_simple.
Proof.
  intros s e s' H. unfold parse_simple_expression in H. pinv H.
  assert (Q : exists r ts, syn L_simple r ts /\ reads (at_ s) ts (at_ s0) /\ elab sc r = Ok a).
  { clear H. pc H0.
    - pinv H0. pm H. apply with_op_ok in H0 as (op & O & H0). apply sign_op_spec in O.
      pinv H0. apply term_sound in H as (r & ts & S & R' & E). pinv H0. pinv H0.
      assert (A : at_ s3 = at_ s2).
      { destruct (lint && is_binary a1 && negb (peek BRA s1)); inversion H; auto. }
      exists (R_unary a0 op r), (a0 :: ts). split; [apply syn_simple_sign; auto|]. split.
      + rewrite A. change (a0 :: ts) with ([a0] ++ ts). rd.
      + simpl. rewrite E. simpl. destruct O; auto.
    - apply term_sound in H0 as (r & ts & S & R & E). exists r, ts. split; auto. constructor; auto. }
  destruct Q as (r & ts & S & R & E). eapply sum_loop_sound; eauto.
Qed.

Lemma relation_sound sc : sound (parse_relation file lint G W compiles N n pe sc) sc L_rel.
Proof.
  intros s e s' H. unfold parse_relation in H. pinv H.
  apply simple_sound in H0 as (rx & tx & Sx & Rx & Ex). pc H; [|pc H].
  - pinv H. pm H0. apply with_op_ok in H as (op & O & H). apply rel_op_spec in O.
    pinv H. apply simple_sound in H0 as (rb & tb & Sb & Rb & Eb). pinv H.
    exists (R_binary a0 op rx rb), (tx ++ a0 :: tb). split; [apply syn_rel_compare; auto|]. split.
    + change (tx ++ a0 :: tb) with (tx ++ [a0] ++ tb). rd.
    + simpl. rewrite Ex. simpl. rewrite Eb. simpl. destruct O; auto.
  - pinv H. assert (Q : exists tn, negation a0 tn /\ reads (at_ s0) tn (at_ s1)).
    { pc H0.
      - pinv H0. pm H1. pinv H0. exists [a1]. split; auto. constructor; auto.
      - pinv H0. exists []. split; constructor. }
    destruct Q as (tn & Sn & Rn). clear H0.
    pinv H. pm H0. pinv H. apply simple_sound in H0 as (ra & ta & Sa & Ra & Ea).
    pinv H. pinv H. pc H0.
    + pinv H0. pm H1. pinv H0. apply simple_sound in H1 as (rb & tb & Sb & Rb & Eb). pinv H0.
      exists (R_range a0 a1 rx ra rb), (tx ++ tn ++ a1 :: ta ++ a4 :: tb).
      split; [apply syn_rel_range; auto|]. split.
      * change (tx ++ tn ++ a1 :: ta ++ a4 :: tb) with (tx ++ tn ++ [a1] ++ ta ++ [a4] ++ tb). rd.
      * simpl. rewrite Ex. simpl. rewrite Ea. simpl. rewrite Eb. simpl. rewrite H0. simpl. auto.
    + pinv H0. exists (R_member a0 a1 rx ra), (tx ++ tn ++ a1 :: ta).
      split; [apply syn_rel_member; auto|]. split.
      * change (tx ++ tn ++ a1 :: ta) with (tx ++ tn ++ [a1] ++ ta). rd.
      * simpl. rewrite Ex. simpl. rewrite Ea. simpl. rewrite H0. simpl. auto.
  - pinv H. exists rx, tx. split; auto. constructor; auto.
Qed.

Lemma logic_loop_sound m sc w op lv p0 ra ta a s e s' :
  (op = B_and /\ w = t "and" /\ lv = L_and) \/ (op = B_or /\ w = t "or" /\ lv = L_or) ->
  (syn lv ra ta \/ syn L_rel ra ta) -> reads p0 ta (at_ s) -> elab sc ra = Ok a ->
  logic_loop file lint G W compiles N n pe m w op sc a s = POk e s' ->
  exists r ts, (syn lv r ts \/ syn L_rel r ts) /\ reads p0 ts (at_ s') /\ elab sc r = Ok e.
Proof.
  intros O. revert ra ta a s. induction m as [|m IH]; simpl; intros ra ta a s S R E H; [discriminate|]. pc H.
  - pinv H. pm H0. pinv H. apply relation_sound in H0 as (rb & tb & Sb & Rb & Eb). pinv H. pinv H0.
    eapply (IH (R_binary a0 op ra rb) (ta ++ a0 :: tb)); eauto.
    + left. destruct O as [(-> & -> & ->) | (-> & -> & ->)]; destruct S;
        (first [solve [apply syn_and_first; auto] | solve [apply syn_and_next; auto]
               | solve [apply syn_or_first; auto] | solve [apply syn_or_next; auto]]).
    + change (ta ++ a0 :: tb) with (ta ++ [a0] ++ tb). rd.
    + simpl. rewrite E. simpl. rewrite Eb. simpl. destruct O as [(-> & -> & ->) | (-> & -> & ->)]; auto.
  - pinv H. eauto.
Qed.
Lemma expression_sound sc : sound (expression_step file lint G W compiles N n pe sc) sc L_expr.
Proof.
  intros s e s' H. unfold expression_step in H. pinv H.
  apply relation_sound in H0 as (ra & ta & Sa & Ra & Ea). pc H; [|pc H; [|pc H; [|pc H]]].
  - eapply logic_loop_sound with (lv := L_and) in H as (r & ts & S & R & E); [|left; auto|right; eauto|eauto|eauto].
    exists r, ts. split; auto. destruct S; [apply syn_expr_and | apply syn_expr_rel]; auto.
  - eapply logic_loop_sound with (lv := L_or) in H as (r & ts & S & R & E); [|right; auto|right; eauto|eauto|eauto].
    exists r, ts. split; auto. destruct S; [apply syn_expr_or | apply syn_expr_rel]; auto.
  - unfold logic_once in H. pinv H. pm H0. pinv H. apply relation_sound in H0 as (rb & tb & Sb & Rb & Eb). pinv H.
    exists (R_binary a0 B_xor ra rb), (ta ++ a0 :: tb). split; [apply syn_expr_xor; auto|]. split.
    + change (ta ++ a0 :: tb) with (ta ++ [a0] ++ tb). rd.
    + simpl. rewrite Ea. simpl. rewrite Eb. simpl. auto.
  - unfold logic_once in H. pinv H. pm H0. pinv H. apply relation_sound in H0 as (rb & tb & Sb & Rb & Eb). pinv H.
    exists (R_binary a0 B_implies ra rb), (ta ++ a0 :: tb). split; [apply syn_expr_implies; auto|]. split.
    + change (ta ++ a0 :: tb) with (ta ++ [a0] ++ tb). rd.
    + simpl. rewrite Ea. simpl. rewrite Eb. simpl. auto.
  - pinv H. exists ra, ta. split; auto. apply syn_expr_rel; auto.
Qed.
End STEP.

Theorem parse_expression_sound n sc : sound (parse_expression file lint G W compiles N n sc) sc L_expr.
Proof.
  revert sc. induction n as [|n IH]; intros sc.
  - intros s e s' H. discriminate.
  - simpl. apply expression_sound. auto.
Qed.
End SOUND.
