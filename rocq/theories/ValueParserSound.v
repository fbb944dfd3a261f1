(** What [parse_value] returns is denoted by the tokens it has read. *)
From Coq Require Import Relations.
From Verif Require Import Base Lexer SymTab Ast Eval TypesProofs ParserBase ParserExpr ParserProofs ExprTyping ParserValue Lint ValueSyntax.
From Verif Require Markup.
From Coq Require Import ZifyBool ZifyNat ZifyN.
Open Scope Z_scope.

Section SOUND.
Variable file : Z.
Variable src : text.
Variable G : types.
Variable objs : list object.
Variable N : names.
Hypothesis order : wf_types G.
Hypothesis tuples : tuples_ok G.
Notation value := (value file src G objs N).
Notation elements := (elements file src G objs N).
Notation listed := (listed file src G objs N).
Notation separated := (separated file src G objs N).
Notation loc_of := (tok_loc file).

Lemma value_first lax a v ts ns : value lax a v ts ns -> exists tk ts', ts = tk :: ts'.
Proof.
  intros H.
  induction H using value_mind with
    (P0 := fun el vs ts ns => vs <> [] -> exists tk ts', ts = tk :: ts')
    (P1 := fun _ _ ts _ => exists tk ts', ts = tk :: ts')
    (P2 := fun _ _ _ _ _ ts _ => exists tk ts', ts = tk :: ts'); eauto.
  - match goal with H : enum_name _ _ _ _ |- _ => destruct H; cbn; eauto end.
  - match goal with H : object_name _ _ _ _ |- _ => destruct H; cbn; eauto end.
  - congruence.
  - destruct IHvalue as (tk & ts' & ->). cbn. eauto.
  - destruct IHvalue as (tk & ts' & ->). cbn. eauto.
  - destruct IHvalue as (tk & ts' & ->). cbn. eauto.
  - destruct IHvalue as (tk' & ts' & ->). cbn. eauto.
  - destruct IHvalue as (tk' & ts' & ->). cbn. eauto.
  - destruct IHvalue as (tk' & ts' & ->). cbn. eauto.
Qed.
Lemma last_token {A} (l : list A) : l <> [] -> exists l' x, l = l' ++ [x].
Proof. intros H. destruct (exists_last H) as (l' & x & ->). eauto. Qed.
Lemma reads_ct p ts tk q : reads p (ts ++ [tk]) q -> ct q = Some tk.
Proof.
  intros H. apply reads_split in H as (r & _ & H). inversion H; subst. inversion H6; subst. auto.
Qed.

Lemma t_lookup_entry (d : ntable) tk r e : e_lookup file d tk r = Ok e ->
  entry d (tok_text tk) e /\ match r with Some c => c e = true | None => True end.
Proof.
  unfold e_lookup, t_lookup, entry. destruct (t_find d (tok_text tk)) as [[k a]|]; [|discriminate].
  destruct (text_eqb k (tok_text tk)) eqn:E; [|discriminate]. apply text_eqb_eq in E. subst k.
  destruct r as [c|]; [destruct (c a) eqn:C|]; intros H; inversion H; subst; auto.
Qed.
Lemma lookup_direct_entry d name l r e : lookup_direct d name l r = Ok e -> entry d name e /\ r e = true.
Proof.
  unfold lookup_direct, entry. destruct (t_find d name) as [[k a]|]; [|discriminate].
  destruct (text_eqb k name) eqn:E; [|discriminate]. apply text_eqb_eq in E. subst k.
  destruct (r a) eqn:R; intros H; inversion H; subst; auto.
Qed.
Lemma s_lookup_none sc tk r e : s_lookup file sc tk r = Ok e -> s_lookup file sc tk None = Ok e.
Proof.
  assert (L : forall d, e_lookup file d tk r = Ok e -> e_lookup file d tk None = Ok e).
  { intros d H. apply t_lookup_entry in H as [H _]. unfold entry in H. unfold e_lookup, t_lookup. rewrite H.
    rewrite text_eqb_refl. auto. }
  induction sc as [|d sc IH]; cbn; [discriminate|]. destruct sc as [|d' sc]; [apply L|].
  destruct (t_contains d (tok_text tk)); [apply L|apply IH].
Qed.

Lemma resolve_target l a pkg name typ tgt : is_record a = true \/ is_union a = true ->
  resolve_ref G objs N l (Some a) pkg name = Ok (typ, tgt) -> typ = Some a /\ target G objs N a pkg name tgt.
Proof.
  unfold resolve_ref. intros K H. apply bind_ok in H as (e & L & H). apply lookup_direct_entry in L as [L _].
  destruct e as [| | |o| |]; try discriminate. destruct (nth_error objs o) as [ob|] eqn:O; [|discriminate].
  destruct a; destruct K; try discriminate.
  - destruct (is_subclass_of G (o_typ ob) r) eqn:S; inversion H; subst. split; auto. econstructor; eauto.
    cbn. apply subclass_spec; auto.
  - destruct (is_compatible G ms (o_typ ob)) eqn:S; inversion H; subst. split; auto. econstructor; eauto.
    cbn. apply is_compatible_spec; auto.
Qed.
Lemma reference_sound a tk pkg v : is_record a = true \/ is_union a = true ->
  reference_to file G objs N a tk pkg = Ok v ->
  exists tgt, v = XRef (loc_of tk) (Some a) pkg (tok_text tk) tgt /\ target G objs N a pkg (tok_text tk) tgt.
Proof.
  unfold reference_to. intros K. destruct (t_contains _ _) eqn:C; intros H.
  - apply bind_ok in H as ([ty' tgt] & R & H). cbn in H. inversion H; subst. apply resolve_target in R as [-> T]; eauto.
  - inversion H; subst. eexists. split; eauto. constructor; auto.
Qed.

Definition vsound (m : P vexpr) (a : ty) : Prop :=
  forall s v s', m s = POk v s' ->
    exists ts ns, value true a v ts ns /\ reads (at_ s) ts (at_ s') /\ out s' = out s ++ ns.

Lemma number_sound a : a = TInt \/ a = TDec -> vsound (parse_number file a) a.
Proof.
  intros Ka s v s' H. unfold parse_number in H. pinv H. pinv H.
  assert (L : exists tk, value true a a1 [tk] [] /\ reads (at_ s0) [tk] (at_ s1) /\ out s1 = out s0 /\
                         x_typ a1 = Some a /\ exists l k, a1 = XLit l k []).
  { destruct Ka; subst a.
    - pinv H1. apply match_ok in H2 as (K & R & O). destruct (tk_value a) eqn:V; try discriminate. pinv H1.
      exists a. split; [constructor; auto|]. cbn; eauto 6.
    - pinv H1. apply match_ok in H2 as (K & R & O). destruct (tk_value a) eqn:V; try discriminate. pinv H1.
      exists a. split; [constructor; auto|]. cbn; eauto 6. }
  destruct L as (tk & Vl & R & O & T & l & k & ->). pinv H.
  apply pcond_cases in H0 as [[C H0]|[C H0]]; pinv H0.
  - pinv H0. apply match_ok in H as (K & R1 & O1). exists [a1; tk], [].
    assert (Sg : sign a1 (if has_text (t "+") a1 then U_plus else U_minus)).
    { destruct (has_text (t "+") a1) eqn:Hp; [apply has_text_true in Hp; constructor; auto|].
      apply sign_minus; auto. apply reads_first in R1. unfold adding, peek_op, next_is in C. rewrite R1 in C.
      unfold is_op in C. rewrite Hp in C. rewrite andb_false_r in C. cbn in C. apply andb_true_iff in C as [_ C].
      apply has_text_true in C. auto. }
    split; [|split; [eapply (reads_app _ [a1]); eauto | rewrite O, O1, app_nil_r; auto]].
    rewrite T. apply v_sign; auto.
  - exists [tk], []. rewrite app_nil_r. auto.
Qed.

Lemma boolean_sound : vsound (parse_boolean file) TBool.
Proof.
  intros s v s' H. unfold parse_boolean in H. pinv H. apply match_ok in H0 as (K & R & O).
  destruct (has_text (t "true") a) eqn:T1; [|destruct (has_text (t "false") a) eqn:T2; [|discriminate]]; pinv H;
    exists [a], []; rewrite app_nil_r; split; auto; apply v_bool; auto; apply has_text_true; auto.
Qed.

Lemma qualified_name_sound r s e tk s' : parse_qualified_name file N (default_scope N) (Some r) s = POk (e, tk) s' ->
  r e = true /\ out s' = out s /\
  exists ts, reads (at_ s) ts (at_ s') /\ last ts tk = tk /\
   ((ts = [tk] /\ tk_kind tk = IDENTIFIER /\ s_lookup file (default_scope N) tk None = Ok e) \/
    (exists tp dot p, ts = [tp; dot; tk] /\ tk_kind tp = IDENTIFIER /\ tk_kind dot = DOT /\ tk_kind tk = IDENTIFIER /\
       s_lookup file (default_scope N) tp None = Ok (N_pkg p) /\ is_visible N p = true /\ entry (p_symbols N p) (tok_text tk) e)).
Proof.
  unfold parse_qualified_name, qualified_rest. intros H. pinv H. apply match_ok in H0 as (K & R & O).
  pinv H. apply lift_ok in H0 as (L & ->).
  assert (Plain : (let* e := lift (s_lookup file (default_scope N) a (Some r)) in pret (e, a)) s0 = POk (e, tk) s' -> 
     a = tk /\ s' = s0 /\ s_lookup file (default_scope N) tk (Some r) = Ok e).
  { intros P. pinv P. apply lift_ok in H0 as (E & ->). pinv P. auto. }
  destruct a0 as [x|f|p|o|c|n x].
  3:{ destruct (is_visible N p) eqn:V; [|destruct (hidden_no _ _ _ _ _ H)]. pinv H. apply match_ok in H0 as (K1 & R1 & O1).
      pinv H. apply match_ok in H0 as (K2 & R2 & O2). pinv H. apply lift_ok in H0 as (E & ->). pinv H.
      apply t_lookup_entry in E as [E Re]. split; auto. split; [congruence|]. exists [a; a0; tk].
      split; [|split; auto].
      - eapply (reads_app _ [a]); eauto. eapply (reads_app _ [a0]); eauto.
      - right. exists a, a0, p. auto 8. }
  all: apply Plain in H as (-> & -> & E); split;
    [clear - E; cbn [s_lookup default_scope] in E; unfold default_scope in E; cbn [s_lookup] in E;
     destruct (t_contains _ _); apply t_lookup_entry in E as [_ E]; auto|].
  all: split; auto; exists [tk]; split; auto; split; auto; left; split; auto; split; auto; eapply s_lookup_none; eauto.
Qed.

Lemma enum_sound e : vsound (parse_enum_value file G N e) (TEnum e).
Proof.
  intros s v s' H. unfold parse_enum_value in H. apply pbind_ok in H as ([en tk] & s1 & Q & H).
  apply qualified_name_sound in Q as (_ & O & ts & R & _ & Q). destruct en as [[| | | | |i| | | |]| | | | |]; try discriminate.
  destruct (Nat.eqb i e) eqn:E; [|discriminate]. apply Nat.eqb_eq in E. subst i.
  pinv H. apply match_ok in H0 as (K1 & R1 & O1). pinv H. apply match_ok in H0 as (K2 & R2 & O2).
  pinv H. apply lift_ok in H0 as (L & ->). pinv H.
  unfold t_lookup in L. destruct (t_find _ _) as [[k n]|] eqn:F; [|discriminate].
  destruct (text_eqb k (tok_text a0)) eqn:E; [|discriminate]. apply text_eqb_eq in E. subst k. inversion L; subst n.
  assert (Same : a1 = tok_text a0).
  { apply t_find_in in F. unfold enum_literals in F. destruct (nth_error (enums G) e); [|contradiction].
    apply in_map_iff in F as (x & X & _). inversion X; congruence. }
  subst a1. exists (ts ++ [a; a0]), []. split.
  - apply v_enum; auto. destruct Q as [(-> & K & S)|(tp & dot & p & -> & K & Kd & Kt & S & V & En)].
    + apply en_here; auto.
    + eapply en_package; eauto.
  - split; [|rewrite O2, O1, O, app_nil_r; auto]. eapply reads_app; eauto. eapply (reads_app _ [a]); eauto.
Qed.

Lemma ref_sound a : is_record a = true \/ is_union a = true -> vsound (parse_reference file G objs N a) a.
Proof.
  intros Ka s v s' H. unfold parse_reference in H. pinv H. apply match_ok in H0 as (K & R & O).
  apply pcond_cases in H as [[C H]|[C H]].
  - pinv H. apply match_ok in H0 as (K1 & R1 & O1). pinv H. apply match_ok in H0 as (K2 & R2 & O2).
    pinv H. apply lift_ok in H0 as (L & ->). apply t_lookup_entry in L as [L P]. destruct a3; try discriminate.
    destruct (is_visible N p) eqn:V; [|destruct (hidden_no _ _ _ _ _ H)]. pinv H. apply reference_sound in H as (tgt & -> & T); auto.
    exists [a0; a1; a2], []. split; [|split].
    + apply v_ref; auto. apply on_package; auto.
    + eapply (reads_app _ [a0]); eauto. eapply (reads_app _ [a1]); eauto.
    + rewrite O2, O1, O, app_nil_r. auto.
  - pinv H. apply reference_sound in H as (tgt & -> & T); auto. exists [a0], []. rewrite app_nil_r.
    split; auto. apply v_ref; auto. constructor; auto.
Qed.

Section STEP.
Variable pv : ty -> P vexpr.
Hypothesis pv_sound : forall a, vsound (pv a) a.

Lemma elements_sound n el s vs s' : array_elements file pv n el s = POk vs s' ->
  exists ts ns, elements true el vs ts ns /\ reads (at_ s) ts (at_ s') /\ out s' = out s ++ ns /\
    (vs = [] -> peek S_KET s = true).
Proof.
  revert s vs s'. induction n as [|n IH]; intros s vs s' H; [discriminate|]. cbn [array_elements] in H.
  apply pcond_cases in H as [[C H]|[C H]].
  - pinv H. exists [], []. rewrite app_nil_r. repeat split; auto; constructor.
  - pinv H. apply pv_sound in H0 as (ts & ns & V & R & O).
    apply pcond_cases in H as [[C1 H]|[C1 H]]; [|apply pcond_cases in H as [[C2 H]|[C2 H]]].
    + pinv H. apply match_ok in H0 as (K & R1 & O1). pinv H. apply IH in H0 as (us & ms & E & R2 & O2 & _). pinv H.
      exists (ts ++ a0 :: us), (ns ++ ms). split; [|split; [|split]].
      * eapply el_more; eauto. discriminate.
      * eapply reads_app; eauto. eapply (reads_app _ [a0]); eauto.
      * rewrite O2, O1, O, app_assoc. auto.
      * discriminate.
    + pinv H. exists ts, ns. split; [constructor; auto|]. repeat split; auto. discriminate.
    + pinv H. pinv H. apply IH in H1 as (us & ms & E & R2 & O2 & Em). pinv H.
      unfold note_ct in H0. destruct (ct (at_ s0)) as [tk|] eqn:Ct; [|discriminate]. inversion H0; subst s1.
      cbn in R2, O2. exists (ts ++ us), (ns ++ error_at (loc_of tk) M_comma :: ms). split; [|split; [|split]].
      * eapply el_gap; eauto.
        -- destruct (value_first _ _ _ _ _ V) as (x & ts' & ->). destruct (last_token (x :: ts') ltac:(discriminate)) as (l' & y & Y).
           rewrite Y in *. exists l', y. split; auto. apply reads_ct in R. congruence.
        -- intros ->. specialize (Em eq_refl). unfold peek, next_is in Em, C2. cbn in Em, C2. rewrite Em in C2. discriminate.
      * eapply reads_app; eauto.
      * rewrite O2, O. rewrite <- !app_assoc. auto.
      * discriminate.
Qed.

Lemma bounds_sound tk lo hi vs s u s' : array_bounds file tk lo hi vs s = POk u s' ->
  at_ s' = at_ s /\ exists few many, size_errors file lo hi vs tk few many /\ out s' = out s ++ few ++ many.
Proof.
  unfold array_bounds. intros H. pinv H.
  set (few := if Z.of_nat (List.length vs) <? lo then [error_at (loc_of tk) (M_too_few lo (Z.of_nat (List.length vs)))] else []).
  assert (F : at_ s0 = at_ s /\ out s0 = out s ++ few).
  { unfold few. destruct (_ <? lo); inversion H0; subst; cbn; auto. rewrite app_nil_r. auto. }
  destruct F as [F1 F2].
  assert (Fin : forall many, out s' = out s0 ++ many -> out s' = out s ++ few ++ many).
  { intros many ->. rewrite F2, app_assoc. auto. }
  destruct hi as [h|].
  - destruct (negb (h =? 0) && (h <? Z.of_nat (List.length vs))) eqn:B.
    + destruct (nth_error vs (Z.to_nat h)) as [v|] eqn:E; [|discriminate]. inversion H; subst. cbn in *. split; auto.
      exists few, [error_at (x_loc v) (M_too_many h (Z.of_nat (List.length vs)))]. split; [|apply Fin; auto].
      constructor; [reflexivity|]. rewrite B. eauto.
    + pinv H. split; auto. exists few, []. split; [|apply Fin; rewrite app_nil_r; auto].
      constructor; [reflexivity|]. rewrite B. auto.
  - pinv H. split; auto. exists few, []. split; [|apply Fin; rewrite app_nil_r; auto]. constructor; auto.
Qed.

Lemma put_field_here (d : list (text * vexpr)) k v v' d' : ~ In k (map fst d) ->
  put_field (d ++ (k, v') :: d') k v = (d ++ [(k, v)]) ++ d'.
Proof.
  induction d as [|[k0 v0] d IH]; cbn; intros H.
  - rewrite text_eqb_refl. auto.
  - destruct (text_eqb k0 k) eqn:E; [apply text_eqb_eq in E; subst; tauto|]. rewrite IH; auto.
Qed.

Lemma fields_sound cs l : forall done first s d s', cs <> [] -> NoDup (map fst done ++ map c_name cs) ->
  fields file pv first cs (done ++ null_fields l cs) s = POk d s' ->
  exists d' ts ns, d = done ++ d' /\ listed true cs d' ts ns /\
    match first with
    | true => reads (at_ s) ts (at_ s')
    | false => exists comma, tk_kind comma = COMMA /\ reads (at_ s) (comma :: ts) (at_ s')
    end /\ out s' = out s ++ ns.
Proof.
  induction cs as [|c cs IH]; intros done first s d s' Ne ND H; [congruence|]. cbn [fields] in H. pinv H. pinv H.
  apply pv_sound in H1 as (ts & ns & V & R & O).
  assert (Nin : ~ In (c_name c) (map fst done)).
  { cbn in ND. apply NoDup_remove_2 in ND. intros I. apply ND. apply in_or_app. auto. }
  cbn [null_fields map] in H. rewrite put_field_here in H by auto.
  assert (First : out s0 = out s /\ match first with true => s0 = s | false => exists comma, tk_kind comma = COMMA /\ reads (at_ s) [comma] (at_ s0) end).
  { destruct first; [inversion H0; auto|]. pinv H0. apply match_ok in H1 as (K & R1 & O1). pinv H0. eauto. }
  destruct First as [O0 First].
  assert (Join : forall us, reads (at_ s1) us (at_ s') ->
     match first with
    | true => reads (at_ s) (ts ++ us) (at_ s')
    | false => exists comma, tk_kind comma = COMMA /\ reads (at_ s) (comma :: ts ++ us) (at_ s')
    end).
  { intros us Ru. destruct first; [subst s0; eapply reads_app; eauto|]. destruct First as (comma & K & R0).
    exists comma. split; auto. eapply (reads_app _ [comma]); eauto. eapply reads_app; eauto. }
  destruct cs as [|c' cs].
  - cbn [fields map] in H. pinv H. exists [(c_name c, a)], ts, ns. rewrite app_nil_r. split; auto. split; [constructor; auto|].
    split; [|congruence]. specialize (Join [] (reads_nil _)). rewrite app_nil_r in Join. auto.
  - apply IH in H as (d' & us & ms & -> & L & (comma & K & R2) & O2).
    + exists ((c_name c, a) :: d'), (ts ++ comma :: us), (ns ++ ms). split; [rewrite <- app_assoc; auto|].
      split; [apply ls_more; auto|]. split; [apply Join; auto|]. rewrite O2, O, O0, app_assoc. auto.
    + discriminate.
    + rewrite map_app. cbn. rewrite <- app_assoc. cbn. auto.
Qed.

Lemma sep_true sep tk : is_sep sep tk = true -> separates sep tk.
Proof.
  destruct sep; cbn; intros H; try (apply is_kind_true in H; constructor; auto).
  apply andb_true_iff in H as [H1 H2]. apply is_kind_true in H1. apply has_text_true in H2. constructor; auto.
Qed.

Definition optional_last (cs : list component) : Prop :=
  forall p c q c' r, cs = p ++ c :: q ++ c' :: r -> c_opt c = true -> c_opt c' = true.
Lemma optional_rest c cs : optional_last (c :: cs) -> c_opt c = true -> forall c', In c' (c :: cs) -> c_opt c' = true.
Proof.
  intros O K c' [<-|I]; auto. apply in_split in I as (q & r & ->). apply (O [] c q c' r); auto.
Qed.
Lemma optional_tail c cs : optional_last (c :: cs) -> optional_last cs.
Proof. intros O p x q x' r E. apply (O (c :: p) x q x' r). rewrite E. auto. Qed.

Lemma sequence_sound cs : forall seps l done skip s d s',
  List.length cs = Datatypes.S (List.length seps) -> optional_last cs ->
  NoDup (map fst done ++ map c_name cs) ->
  (forall c, hd_error cs = Some c -> skip && c_opt c = false) ->
  sequence file pv skip (interleave cs seps) (done ++ null_fields l cs) s = POk d s' ->
  exists d' ts ns, d = done ++ d' /\ separated true skip l cs seps d' ts ns /\ reads (at_ s) ts (at_ s') /\ out s' = out s ++ ns.
Proof.
  induction cs as [|c cs IH]; intros seps l done skip s d s' Len Opt ND Sk H; [discriminate|].
  assert (Nin : ~ In (c_name c) (map fst done)).
  { cbn in ND. apply NoDup_remove_2 in ND. intros I. apply ND. apply in_or_app. auto. }
  assert (Step : forall is, sequence file pv skip (IComp c :: is) (done ++ null_fields l (c :: cs)) s = POk d s' ->
     exists v ts ns s1, value true (c_typ c) v ts ns /\ reads (at_ s) ts (at_ s1) /\ out s1 = out s ++ ns /\
       sequence file pv skip is ((done ++ [(c_name c, v)]) ++ null_fields l cs) s1 = POk d s').
  { intros is E. cbn [sequence] in E. rewrite (Sk c eq_refl) in E. pinv E. apply pv_sound in H0 as (ts & ns & V & R & O).
    cbn [null_fields map] in E. rewrite put_field_here in E by auto. eauto 8. }
  destruct seps as [|sep seps].
  - destruct cs; [|discriminate]. cbn [interleave] in H. apply Step in H as (v & ts & ns & s1 & V & R & O & H).
    cbn in H. pinv H. rewrite app_nil_r. exists [(c_name c, v)], ts, ns. split; auto. split; [constructor; auto|]. auto.
  - cbn [interleave] in H. apply Step in H as (v & ts & ns & s1 & V & R & O & H). cbn in Len.
    destruct cs as [|c' cs]; [discriminate|].
    assert (ND' : NoDup (map fst (done ++ [(c_name c, v)]) ++ map c_name (c' :: cs))).
    { rewrite map_app. cbn. rewrite <- app_assoc. auto. }
    assert (Opt' := optional_tail _ _ Opt).
    assert (Len' : List.length (c' :: cs) = Datatypes.S (List.length seps)) by lia.
    assert (Int : exists is, interleave (c' :: cs) seps = IComp c' :: is) by (destruct seps; cbn; eauto).
    destruct Int as (is & Int).
    cbn [sequence] in H. apply pcond_cases in H as [[C H]|[C H]].
    + pinv H. apply match_ok in H0 as (K & R1 & O1).
      assert (Sp : separates sep a).
      { apply reads_first in R1. unfold next_is in C. rewrite R1 in C. apply sep_true. auto. }
      destruct (skip && c_opt c') eqn:St.
      * rewrite Int in H. cbn [sequence] in H. rewrite St in H. pinv H. apply andb_true_iff in St as [-> St].
        exists ((c_name c, v) :: nulls l (c' :: cs)), (ts ++ [a]), ns. split; [rewrite <- app_assoc; auto|].
        split; [apply sq_stuck; auto; apply optional_rest; auto|]. split; [eapply reads_app; eauto|]. congruence.
      * apply IH in H as (d' & us & ms & -> & Sq & R2 & O2); auto.
        2:{ cbn. intros x X. inversion X; subst. auto. }
        exists ((c_name c, v) :: d'), (ts ++ a :: us), (ns ++ ms). split; [rewrite <- app_assoc; auto|].
        split; [apply sq_more; auto|]. split.
        -- eapply reads_app; eauto. eapply (reads_app _ [a]); eauto.
        -- rewrite O2, O1, O, app_assoc. auto.
    + destruct (c_opt c') eqn:St.
      * rewrite Int in H. cbn [sequence] in H. rewrite St in H. cbn in H. pinv H.
        exists ((c_name c, v) :: nulls l (c' :: cs)), ts, ns. split; [rewrite <- app_assoc; auto|].
        split; [apply sq_omitted; auto; apply optional_rest; auto|]. auto.
      * apply IH in H as (d' & us & ms & -> & Sq & R2 & O2); auto.
        2:{ cbn. intros x X. inversion X; subst. rewrite St. auto. }
        exists ((c_name c, v) :: d'), (ts ++ us), (ns ++ ms). split; [rewrite <- app_assoc; auto|].
        split; [apply sq_gap; auto|]. split; [eapply reads_app; eauto|]. rewrite O2, O, app_assoc. auto.
Qed.

Lemma step_sound n a : vsound (value_step file src G objs N pv n a) a.
Proof.
  destruct a; try (apply number_sound; auto; fail); try (apply ref_sound; auto; fail).
  - apply boolean_sound.
  - intros s v s' H. cbn [value_step] in H. pinv H. apply match_ok in H0 as (K & R & O). pinv H.
    exists [a], []. rewrite app_nil_r. split; auto. constructor; auto.
  - intros s v s' H. cbn [value_step] in H. pinv H. apply match_ok in H0 as (K & R & O). pinv H.
    unfold markup_literal in H. destruct (Markup.markup_references _ _ _) as [rs|[m l]| |] eqn:M; try discriminate;
      [|exfalso; destruct m; try discriminate; destruct (markup_package N _); [exact (hidden_not _ _ _ H)|discriminate]].
    inversion H; subst. exists [a], []. rewrite app_nil_r. split; auto. constructor; auto.
  - apply enum_sound.
  - intros s v s' H. cbn [value_step] in H. destruct (tup G u) as [ut|] eqn:U; [|discriminate].
    assert (Ok := tuples _ _ U). destruct (u_seps ut) as [|sp sps] eqn:Sp.
    + pinv H. apply match_ok in H0 as (K & R & O). pinv H. pinv H. apply match_ok in H1 as (K1 & R1 & O1). pinv H.
      apply (fields_sound (u_comps ut) (loc_of a) [] true) in H0 as (d' & ts & ns & -> & L & R2 & O2).
      * cbn [app]. exists (a :: ts ++ [a1]), ns. split; [eapply v_generic; eauto|]. split; [|congruence].
        eapply (reads_app _ [a]); eauto. eapply reads_app; eauto.
      * apply to_some with (1 := Ok).
      * cbn. apply to_names with (1 := Ok).
    + pinv H. unfold next_loc in H0. destruct (nt (at_ s)) as [tk|] eqn:Nt; [|discriminate].
      inversion H0; subst a s0. pinv H. pinv H. unfold iter_sequence in H1.
      apply (sequence_sound _ _ (loc_of tk) []) in H1 as (d' & ts & ns & -> & Sq & R & O).
      * cbn [app]. exists ts, ns. split; [|auto]. eapply v_separated; eauto; [congruence|].
        assert (V : exists x ts', ts = x :: ts').
        { clear - Sq. inversion Sq; subst;
            match goal with H : value _ _ _ _ _ |- _ => destruct (value_first _ _ _ _ _ H) as (x & ts' & ->); cbn; eauto end. }
        destruct V as (x & ts' & ->). apply reads_first in R. exists x, ts'. split; auto. congruence.
      * destruct (to_seps _ _ _ Ok) as [E|E]; [congruence|auto].
      * intros p c q c' r. apply (to_optional _ _ _ Ok).
      * cbn. apply to_names with (1 := Ok).
      * auto.
  - intros s v s' H. cbn [value_step] in H. pinv H. apply match_ok in H0 as (K & R & O). pinv H.
    apply elements_sound in H0 as (ts & ns & E & R1 & O1 & _). pinv H. apply match_ok in H0 as (K2 & R2 & O2). pinv H.
    apply bounds_sound in H0 as (At & few & many & B & O3). pinv H.
    exists (a0 :: ts ++ [a2]), (ns ++ few ++ many). split; [eapply v_arr; eauto|]. split.
    + rewrite At. eapply (reads_app _ [a0]); eauto. eapply reads_app; eauto.
    + rewrite O3, O2, O1, O. rewrite <- !app_assoc. auto.
Qed.
End STEP.

Theorem value_sound d n a : vsound (value_at file src G objs N d n a) a.
Proof.
  revert a. induction d as [|d IH]; intros a; [intros s v s' H; discriminate|]. cbn [value_at]. apply step_sound. auto.
Qed.
End SOUND.
