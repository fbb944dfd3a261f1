(** A whole file is read in finitely many steps. *)
From Coq Require Import Relations.
From Verif Require Import Base PyText Lexer LexSpec LexerProofs LexerScan LexerCorrect LexerThm LexerProps SymTab Ast Eval TypesProofs ParserBase ParserExpr ParserProofs EvalFuel
  ParserFuel ExprTyping ParserValue Lint ValueSyntax ValueTyping ValueParserComplete ValueFuel ParserDecl ParserFile Growth DeclInv DeclRsl DeclTrlc DeclFuel.
From Verif Require SourceMan.
From Coq Require Import ZifyBool ZifyNat ZifyN.
Open Scope nat_scope.

(** ** The tokens of a file *)
Lemma next_shorter content s s' r : wf content s -> next_token content s = (s', r) -> r <> LEnd ->
  wf content s' /\ List.length (R content s') < List.length (R content s).
Proof.
  intros W E Ne. destruct (span is_space (R content s)) as [ws b] eqn:S.
  destruct (skip_whitespace_spec content s ws b W S) as (s1 & E1 & W1 & E2 & E3 & E4).
  apply (span_spec _ LexSpec.white) in S as (S1 & S2 & S3); [|apply is_space_white].
  unfold next_token in E. rewrite E1 in E. destruct b as [|c r']; cbn [hd_error tl] in *.
  { rewrite E2 in E. injection E as <- <-. contradiction. }
  rewrite E2 in E.
  destruct (scan_post content (line_no s1) (col_no s1) s1 c W1 E2 eq_refl eq_refl) as (W' & L & a & A1 & A2).
  destruct (scan content c (line_no s1) (col_no s1) (lexpos s1) s1) as [s2 res] eqn:SC. cbn [fst snd] in *.
  assert (s2 = s') as ->.
  { destruct res; [|congruence]. destruct (mk_sref _ _ _ _ _); [|congruence]. destruct (token_value _ _ _). congruence. }
  split; auto. rewrite S1, app_length. cbn [List.length]. rewrite E3 in A1. rewrite A1, app_length. lia.
Qed.
Lemma items_from_ok content n s : wf content s -> List.length (R content s) < n ->
  exists l, items_from content n s = Some l /\ forall tk, In (ITok tk) l -> token_ok content tk.
Proof.
  revert s. induction n as [|n IH]; intros s W L; [lia|]. cbn [items_from].
  destruct (next_token_spec content s W) as (ws & b & E1 & E2 & H).
  destruct (next_token content s) as [s' r] eqn:E.
  destruct r as [tk| |e| |].
  - destruct (next_shorter _ _ _ _ W E ltac:(discriminate)) as [W' L']. destruct (IH s' W' ltac:(lia)) as (l & El & Il). rewrite El.
    eexists. split; [reflexivity|]. intros tk' [I|I]; auto. injection I as <-.
    destruct b as [|c r]; [destruct H as (s2 & H & _); discriminate|]. destruct H as (_ & s2 & res & H & _ & H'). injection H as <- <-.
    cbn in H'. destruct H' as (a & H'). tauto.
  - eexists. split; [reflexivity|]. intros tk [].
  - destruct (next_shorter _ _ _ _ W E ltac:(discriminate)) as [W' L']. destruct (IH s' W' ltac:(lia)) as (l & El & Il). rewrite El.
    eexists. split; [reflexivity|]. intros tk [I|I]; [discriminate|auto].
  - eexists. split; [reflexivity|]. intros tk [I|[]]. discriminate.
  - exfalso. destruct b as [|c r]; [destruct H as (s2 & H & _); discriminate|]. destruct H as (_ & s2 & res & H & _ & H'). injection H as <- <-. auto.
Qed.
(** The lexer reads any text to its end, also after errors; all tokens are
    lexemes of the text. *)
Theorem items_ok content : exists l, items content = Some l /\ forall tk, In (ITok tk) l -> token_ok content tk.
Proof.
  unfold items. apply items_from_ok; [apply wf_init|]. rewrite R_init. unfold fuel. lia.
Qed.

(** ** Recovery *)
Section FILE.
Variable file : Z.
Variable src : text.
Variable lint : bool.
Variable compiles : text -> bool.
Variable matches : text -> text -> option bool.
Hypothesis regex : forall p x, compiles p = true -> matches p x <> None.
Variable n : nat.
Notation dsp := (dsp_ src).
Notation dsa := (dsa_ src).
Notation spends := (spends_ (of_file src)).

(** [m] does not move, or consumes tokens. *)
Definition moves {A} (m : P A) : Prop :=
  forall s, match m s with POk _ s' => at_ s' = at_ s \/ rem (at_ s') < rem (at_ s) | _ => True end.
Lemma advance_eats s : nt (at_ s) <> None -> match p_advance s with POk _ s' | PErr _ s' => rem (at_ s') < rem (at_ s) | _ => True end.
Proof.
  unfold p_advance, rem. intros H. destruct (fetch _ _) as [[k l]|e [k l]|] eqn:E; auto; cbn.
  - apply fetch_length in E. destruct (nt (at_ s)); [|contradiction]. cbn in *. lia.
  - apply (fetch_fail_le (fun _ => True)) in E. destruct (nt (at_ s)); [|contradiction]. cbn in *. lia.
Qed.
Lemma next_some f s : next_is f s = true -> nt (at_ s) <> None.
Proof. unfold next_is. destruct (nt (at_ s)); [discriminate|intros; discriminate]. Qed.
Lemma skip_line_spends m b line : b < m -> spends b 0 (skip_line m line).
Proof.
  revert b. induction m as [|m IH]; intros b L; [lia|]. cbn [skip_line]. intros s I Ls. unfold pcond.
  destruct (next_is _ s) eqn:E; [|split; auto; lia].
  assert (A := advance_spends (of_file src) b s I Ls). assert (B := advance_eats s (next_some _ _ E)). unfold pbind.
  destruct (p_advance s) as [a s1| | |]; auto. destruct A as [I1 L1]. destruct b as [|b]; [lia|].
  specialize (IH b ltac:(lia) s1 I1 ltac:(lia)). destruct (skip_line m line s1); auto; destruct IH; split; auto; lia.
Qed.
Lemma skip_line_moves m line : moves (skip_line m line).
Proof.
  induction m as [|m IH]; intros s; cbn [skip_line]; [exact I|]. unfold pcond. destruct (next_is _ s) eqn:E; [|left; auto].
  assert (B := advance_eats s (next_some _ _ E)). unfold pbind. destruct (p_advance s) as [a s1| | |]; auto.
  specialize (IH s1). destruct (skip_line m line s1); auto. destruct IH as [->|L]; right; lia.
Qed.
Lemma skip_newline_spends b : b < n -> spends b 0 (skip_until_newline n).
Proof.
  intros L s I Ls. unfold skip_until_newline. destruct (ct (at_ s)) as [tk|]; [|split; auto; lia]. apply (skip_line_spends n b (tk_line tk) L s I Ls).
Qed.
Lemma skip_newline_moves : moves (skip_until_newline n).
Proof. intros s. unfold skip_until_newline. destruct (ct (at_ s)) as [tk|]; [|left; auto]. apply (skip_line_moves n (tk_line tk) s). Qed.
Lemma eof_none s : peek_eof s = false -> nt (at_ s) <> None.
Proof. unfold peek_eof. destruct (nt (at_ s)); [discriminate|intros; discriminate]. Qed.
Lemma skip_to_spends m b stop : b < m -> b < n -> spends b 0 (skip_to n m stop).
Proof.
  revert b. induction m as [|m IH]; intros b L Ln; [lia|]. cbn [skip_to]. intros s I Ls. unfold pcond.
  destruct (peek_eof s) eqn:E; [split; auto; lia|]. destruct (stop s); [split; auto; lia|].
  assert (A := advance_spends (of_file src) b s I Ls). assert (B := advance_eats s (eof_none _ E)). unfold pbind.
  destruct (p_advance s) as [a s1| | |]; auto. destruct A as [I1 L1]. destruct b as [|b]; [lia|].
  assert (K := skip_newline_spends b ltac:(lia) s1 I1 ltac:(lia)). destruct (skip_until_newline n s1) as [a2 s2| | |]; auto; [|destruct K; split; auto; lia].
  destruct K as [I2 L2]. specialize (IH b ltac:(lia) ltac:(lia) s2 I2 ltac:(lia)). destruct (skip_to n m stop s2); auto; destruct IH; split; auto; lia.
Qed.
(** It stops at the end or where it is told to. *)
Lemma skip_to_stops m stop s : match skip_to n m stop s with
  | POk _ s' => (peek_eof s' = true \/ stop s' = true) /\ (at_ s' = at_ s \/ rem (at_ s') < rem (at_ s)) /\ (peek_eof s = false -> stop s = false -> rem (at_ s') < rem (at_ s))
  | _ => True end.
Proof.
  revert s. induction m as [|m IH]; intros s; cbn [skip_to]; [exact I|]. unfold pcond.
  destruct (peek_eof s) eqn:E. { split; auto. split; auto. discriminate. }
  destruct (stop s) eqn:E2. { split; auto. split; auto. discriminate. }
  assert (B := advance_eats s (eof_none _ E)). unfold pbind. destruct (p_advance s) as [a s1| | |]; auto.
  assert (K := skip_newline_moves s1). destruct (skip_until_newline n s1) as [a2 s2| | |]; auto. specialize (IH s2).
  destruct (skip_to n m stop s2); auto. destruct IH as (H & H1 & _). destruct K as [K|K], H1 as [H1|H1]; try rewrite K in *; try rewrite H1 in *; split; auto; split; auto; try right; lia.
Qed.
(** The test for a restart looks at the next tokens only. *)
Definition looks (stop : ps -> bool) : Prop := forall s s', at_ s = at_ s' -> stop s = stop s'.
Lemma recover_spends b stop : b < n -> spends b 0 (recover n stop).
Proof.
  intros L. unfold recover. eapply spends_bind; [apply skip_newline_spends; auto|]. intros. eapply spends_weaken; [apply (skip_to_spends n b); lia|lia|lia].
Qed.
Lemma recover_moves stop s : looks stop -> match recover n stop s with
  | POk _ s' => peek_eof s = false -> stop s = false -> rem (at_ s') < rem (at_ s)
  | _ => True end.
Proof.
  intros Lk. unfold recover, pbind. assert (K := skip_newline_moves s). destruct (skip_until_newline n s) as [a s1| | |]; auto.
  assert (H := skip_to_stops n stop s1). destruct (skip_to n n stop s1) as [a2 s2| | |]; auto. destruct H as (_ & H1 & H2).
  intros E1 E2. destruct K as [K|K]; [|destruct H1 as [->|H1]; lia]. rewrite <- K. apply H2.
  - unfold peek_eof in *. rewrite K. auto.
  - rewrite (Lk s1 s); auto.
Qed.

(** ** A declaration consumes tokens even if it fails *)
Definition bites_ (P : ps -> Prop) {A} (c : cunit) (v : env) (b : nat) (m : D A) : Prop :=
  forall s, s_env s = v -> s_cu s = c -> stocked (of_file src) (at_ (s_ps s)) -> rem (at_ (s_ps s)) <= b -> P (s_ps s) ->
    match m s with
    | DOk _ s' | DErr _ s' => stocked (of_file src) (at_ (s_ps s')) /\ rem (at_ (s_ps s')) < rem (at_ (s_ps s))
    | DCrash => True
    | DFuel => False
    end.
Lemma take_bites b f e s tk : stocked (of_file src) (at_ s) -> rem (at_ s) <= b -> nt (at_ s) = Some tk -> f tk = true ->
  match p_take file f e s with
  | POk _ s' | PErr _ s' => stocked (of_file src) (at_ s') /\ rem (at_ s') < rem (at_ s)
  | PCrash => True
  | PFuel => False
  end.
Proof.
  intros I L E F. assert (H := take_stocked (of_file src) file b f e s I L). unfold p_take in *. rewrite E, F in *.
  assert (A := advance_eats s ltac:(congruence)). unfold pbind in *. destruct (p_advance s) as [a s1|er s1| |] eqn:Ea; auto.
  - cbn in *. tauto.
  - destruct H. auto.
Qed.
Definition next_kw (w : text) (s : ps) : Prop := peek_kw w s = true.
Lemma kw_next w s : peek_kw w s = true -> exists tk, nt (at_ s) = Some tk /\ is_kw w tk = true.
Proof. unfold peek_kw, next_is. destruct (nt (at_ s)) as [tk|]; [eauto|discriminate]. Qed.
Lemma bites_kw w {A} c v b (f : token -> D A) :
  (forall a b', b = Datatypes.S b' -> dsp c v b' 0 (f a)) -> bites_ (next_kw w) c v b (dbind (dp (p_match_kw file w)) f).
Proof.
  intros H s Ev Ec I L K. destruct (kw_next _ _ K) as (tk & E & F). unfold dbind, dp, with_names.
  assert (T := take_bites b _ (fun l => E_expected_kw l w) (s_ps s) tk I L E F). unfold p_match_kw.
  destruct (p_take file _ _ (s_ps s)) as [a s1| | |] eqn:Et; auto. destruct T as [I1 L1].
  destruct b as [|b]; [lia|]. specialize (H a b eq_refl). 
  match goal with |- context [f a ?x] => specialize (H x) end. cbn [s_env s_cu s_ps] in H.
  specialize (H Ev Ec I1 ltac:(lia)). destruct (f a _) as [? ?|? ?| |]; auto; destruct H; split; auto; lia.
Qed.

(** What a record declaration starts with *)
Definition record_head : D (bool * bool) :=
  dcond (peek_kw (t "abstract")) (let# _ := dp (p_match_kw file (t "abstract")) in dret (true, false))
    (dcond (peek_kw (t "final")) (let# _ := dp (p_match_kw file (t "final")) in dret (false, true))
       (dret (false, false))).
Lemma record_eq : parse_record_declaration file src lint n =
  (let# (ab, fi) := record_head in let# _ := dp (p_match_kw file (t "type")) in record_rest file src lint n ab fi).
Proof. reflexivity. Qed.

Section UNIT.
Variable c : cunit.
Variable p : nat.
Hypothesis pkg : cu_pkg c = Some p.
Notation no_objects := (no_objects matches).

Lemma record_bites v b : no_objects v -> b <= n ->
  bites_ (fun s => next_kw (t "abstract") s \/ next_kw (t "final") s \/ next_kw (t "type") s) c v b (parse_record_declaration file src lint n).
Proof.
  intros O L s Ev Ec I Ls K. rewrite record_eq. unfold record_head, next_kw in *.
  assert (T : forall ab fi b', b' < n -> dsp c v b' 0 (let# _ := dp (p_match_kw file (t "type")) in record_rest file src lint n ab fi)).
  { intros ab fi b' Lb. eapply dsp_take; [apply match_kw_spends|]. intros _ b2 ->.
    eapply dsp_weaken; [apply (record_rest_ds file src lint compiles matches n regex c p pkg v b2); auto; lia|lia|lia]. }
  assert (Q : forall w (x : bool * bool), bites_ (next_kw w) c v b
     (let# (ab, fi) := (let# _ := dp (p_match_kw file w) in dret x) in let# _ := dp (p_match_kw file (t "type")) in record_rest file src lint n ab fi)).
  { intros w x. assert (B := bites_kw w c v b (fun _ => let (ab, fi) := x in let# _ := dp (p_match_kw file (t "type")) in record_rest file src lint n ab fi)).
    intros s' Ev' Ec' I' L' K'. destruct x as [ab fi]. specialize (B ltac:(intros; apply T; lia) s' Ev' Ec' I' L' K'). revert B. unfold dbind, dret.
    destruct (dp _ s'); auto. }
  unfold dcond, dbind at 1. destruct (peek_kw (t "abstract") (s_ps s)) eqn:E1; [apply (Q (t "abstract") (true, false) s); auto|].
  destruct (peek_kw (t "final") (s_ps s)) eqn:E2; [apply (Q (t "final") (false, true) s); auto|].
  destruct K as [K|[K|K]]; try congruence. cbn [dret].
  apply (bites_kw (t "type") c v b (fun _ => record_rest file src lint n false false)); auto. intros _ b' ->.
  apply (record_rest_ds file src lint compiles matches n regex c p pkg v b'); auto; lia.
Qed.
Lemma starts_bites w (m : D unit) v b : (exists f, m = dbind (dp (p_match_kw file w)) f /\ forall a b, b < n -> dsa b 0 (f a)) -> b <= n ->
  bites_ (next_kw w) c v b m.
Proof. intros (f & -> & H) L. apply bites_kw. intros a b' ->. apply H. lia. Qed.
Definition item_start (s : ps) : Prop := rsl_restart s = true.
Lemma item_bites v b : no_objects v -> b <= n -> bites_ (fun s => rsl_restart s = true) c v b (rsl_item file src lint compiles matches n).
Proof.
  intros O L s Ev Ec I Ls K. unfold rsl_item, parse_type_declaration, dcond, rsl_restart in *.
  destruct (peek_kw (t "checks") (s_ps s)) eqn:E1; [apply (starts_bites _ _ v b (check_starts file src lint compiles matches n regex) L s); auto|].
  destruct (peek_kw (t "enum") (s_ps s)) eqn:E2; [apply (starts_bites _ _ v b (enum_starts file src compiles matches n regex) L s); auto|].
  destruct (peek_kw (t "tuple") (s_ps s)) eqn:E3; [apply (starts_bites _ _ v b (tuple_starts file src compiles matches n regex) L s); auto|].
  apply (record_bites v b O L s); auto. unfold next_kw. rewrite !Bool.orb_false_r in K. cbn [orb] in K.
  apply Bool.orb_prop in K as [K|K]; auto. apply Bool.orb_prop in K as [K|K]; auto.
Qed.
(** Any other token is not accepted. *)
Lemma item_fails s tk : nt (at_ (s_ps s)) = Some tk -> rsl_restart (s_ps s) = false ->
  exists e, rsl_item file src lint compiles matches n s = DErr e s.
Proof.
  intros E K. unfold rsl_restart in K. repeat (apply Bool.orb_false_elim in K as [K ?]).
  unfold rsl_item, parse_type_declaration, dcond. rewrite K, H, H0.
  rewrite record_eq. unfold record_head, dcond, dbind at 1. rewrite H2, H1. cbn [dret].
  unfold dbind, dp, with_names, p_match_kw, p_take. rewrite E. unfold peek_kw, next_is in H3. rewrite E in H3. rewrite H3.
  eexists. destruct s as [v u sec q]. reflexivity.
Qed.
(** One round of the loop over a file *)
Definition round_ (m : D bool) (s : st) : Prop :=
  match m s with
  | DOk _ s' => stocked (of_file src) (at_ (s_ps s')) /\ rem (at_ (s_ps s')) < rem (at_ (s_ps s))
  | DErr _ s' => stocked (of_file src) (at_ (s_ps s')) /\ rem (at_ (s_ps s')) <= rem (at_ (s_ps s))
  | DCrash => True
  | DFuel => False
  end.
(** After an error that consumed tokens *)
Lemma recovered rec m (stop : env -> names -> ps -> bool) s b : b < n -> rem (at_ (s_ps s)) <= b ->
  match m s with
  | DOk _ s' => stocked (of_file src) (at_ (s_ps s')) /\ rem (at_ (s_ps s')) < rem (at_ (s_ps s))
  | DErr _ s' => stocked (of_file src) (at_ (s_ps s')) /\ rem (at_ (s_ps s')) < rem (at_ (s_ps s))
  | DCrash => True
  | DFuel => False
  end -> round_ (attempt rec m (fun v N => recover n (stop v N))) s.
Proof.
  intros L Ls H. unfold round_, attempt. destruct (m s) as [a s1|e s1| |]; auto. destruct H as [I1 L1].
  destruct rec; [|split; auto; lia]. unfold dbind, dp, with_names, pnote. cbn [s_env s_cu s_ps s_sec].
  match goal with |- context [recover n ?f ?x] => assert (S := recover_spends (rem (at_ (s_ps s1))) f ltac:(lia) x I1 (Nat.le_refl _)); destruct (recover n f x) end;
    auto; cbn [at_ s_ps] in *; destruct S; split; auto; lia.
Qed.
Lemma rsl_round rec v b s : no_objects v -> b < n -> s_env s = v -> s_cu s = c -> stocked (of_file src) (at_ (s_ps s)) -> rem (at_ (s_ps s)) <= b ->
  peek_eof (s_ps s) = false -> round_ (attempt rec (rsl_item file src lint compiles matches n) (fun _ _ => recover n rsl_restart)) s.
Proof.
  intros O L Ev Ec I Ls E. destruct (rsl_restart (s_ps s)) eqn:R.
  - apply (recovered rec _ (fun _ _ => rsl_restart) s b); auto. apply (item_bites v b); auto; lia.
  - unfold round_, attempt. unfold peek_eof in E. destruct (nt (at_ (s_ps s))) as [tk|] eqn:Et; [|discriminate].
    destruct (item_fails s tk Et R) as (e & ->). destruct rec; [|auto].
    unfold dbind, dp, with_names, pnote. cbn [s_env s_cu s_ps s_sec].
    match goal with |- context [recover n ?f ?x] => assert (S := recover_spends (rem (at_ (s_ps s))) f ltac:(lia) x I (Nat.le_refl _));
      assert (M := recover_moves f x ltac:(intros ? ? Q; unfold rsl_restart, peek_kw, next_is; rewrite Q; reflexivity)); destruct (recover n f x) end;
      auto; cbn [at_ s_ps] in *.
    destruct S as [S1 S2]. split; auto. apply M; [unfold peek_eof; cbn; rewrite Et; auto|]. exact R.
Qed.
Lemma rsl_loop_ds m rec ok v b : no_objects v -> b < m -> b < n -> dsp c v b 0 (rsl_loop file src lint compiles matches n m rec ok).
Proof.
  revert ok v b. induction m as [|m IH]; intros ok v b O Lm L; [lia|]. cbn [rsl_loop]. intros s Ev Ec I Ls. unfold dcond.
  destruct (peek_eof (s_ps s)) eqn:E; [cbn; split; auto; lia|].
  assert (Rd := rsl_round rec v b s O L Ev Ec I Ls E).
  assert (Rn := run_attempt c v rec (rsl_item file src lint compiles matches n) (fun _ _ => recover n rsl_restart) no_objects).
  specialize (Rn ltac:(unfold rsl_item; apply run_cond; [eapply run_checks; eauto|eapply run_type; eauto]) s Ev Ec). unfold round_, dbind in *. destruct (attempt _ _ _ s) as [good s1| | |]; auto.
  destruct Rd as [I1 L1], Rn as [O1 Ec1]. destruct b as [|b]; [lia|].
  specialize (IH (ok && good)%bool _ b O1 ltac:(lia) ltac:(lia) s1 eq_refl Ec1 I1 ltac:(lia)).
  destruct (rsl_loop _ _ _ _ _ _ _ _ _ _); auto; destruct IH; split; auto; lia.
Qed.
Lemma eof_spends b : spends b 0 (p_match_eof file).
Proof. intros s I L. unfold p_match_eof. destruct (nt (at_ s)); split; auto; lia. Qed.
Theorem rsl_file_ds rec v b : no_objects v -> b < n -> dsp c v b 0 (parse_rsl_file file src lint compiles matches n rec).
Proof.
  intros O L. unfold parse_rsl_file. eapply (dsp_bind src c v b 0 0); [eapply run_rsl_loop; eauto|apply rsl_loop_ds; auto|].
  intros ok v1 _. cbn [Nat.sub]. rewrite Nat.sub_0_r. assert (H : dsa b 0 (let# _ := dp (p_match_eof file) in dret ok)); [|apply H].
  dnest 0; [apply dsa_dp, eof_spends|]. ds.
Qed.
End UNIT.

(** *** Objects *)
Section OBJECTS.
Variable G : types.
Hypothesis types : types_ok matches G.
Lemma qualified_bites b N sc r s tk : stocked (of_file src) (at_ s) -> rem (at_ s) <= b -> nt (at_ s) = Some tk -> is_kind IDENTIFIER tk = true ->
  match parse_qualified_name file N sc r s with
  | POk _ s' | PErr _ s' => stocked (of_file src) (at_ s') /\ rem (at_ s') < rem (at_ s)
  | PCrash => True
  | PFuel => False
  end.
Proof.
  intros I L E F. unfold parse_qualified_name. assert (T := take_bites b (is_kind IDENTIFIER) (fun l => E_expected l IDENTIFIER) s tk I L E F).
  unfold pbind at 1, p_match at 1. destruct (p_take file _ _ s) as [a s1| | |]; auto. destruct T as [I1 L1].
  assert (Q := qualified_spends (of_file src) file compiles N b).
  assert (S := Q sc a r). cbv beta.
  specialize (S s1 I1 ltac:(lia)). match goal with |- match ?m with _ => _ end => destruct m end; auto; destruct S; split; auto; lia.
Qed.
Lemma entry_bites c v b m : v_types v = G -> b <= n -> b < m ->
  bites_ (fun s => (peek_kw (t "section") s || peek IDENTIFIER s)%bool = true) c v b (parse_entry file src n m).
Proof.
  intros Ty L Lm s Ev Ec I Ls K. destruct m as [|m]; [lia|]. rewrite entry_eq. unfold dcond.
  destruct (peek_kw (t "section") (s_ps s)) eqn:E.
  - apply (bites_kw (t "section") c v b (fun _ => section_rest file src n m)); auto. intros _ b' ->.
    apply (section_rest_ds file src compiles matches n regex G types); auto; lia.
  - cbn in K. unfold peek, next_is in K. destruct (nt (at_ (s_ps s))) as [tk|] eqn:Et; [|discriminate].
    rewrite object_eq. unfold member, dbind, with_names.
    assert (Q := qualified_bites b (names_of (s_env s) (s_cu s)) (default_scope (names_of (s_env s) (s_cu s))) (Some is_record_entity) (s_ps s) tk I Ls Et K).
    destruct (parse_qualified_name _ _ _ _ _) as [[e tk'] s1| | |]; auto. cbn [s_ps]. destruct Q as [I1 L1].
    destruct e as [a| | | | |]; try exact Logic.I. destruct a as [| | | | | | |r| |]; try exact Logic.I. cbn [dret].
    assert (H := object_rest_ds file src compiles matches n regex G types (b - 1) r tk' ltac:(lia) c v Ty).
    match goal with |- context [object_rest _ _ _ _ _ ?x] => specialize (H x) end. cbn [s_env s_cu s_ps] in H.
    specialize (H Ev Ec I1 ltac:(lia)). destruct (object_rest _ _ _ _ _ _) as [? ?|? ?| |]; auto; destruct H; split; auto; lia.
Qed.
Lemma trlc_loop_ds m rec ok c v b : v_types v = G -> b < m -> b < n -> dsp c v b 0 (trlc_loop file src n m rec ok).
Proof.
  revert ok c v b. induction m as [|m IH]; intros ok c v b Ty Lm L; [lia|]. cbn [trlc_loop]. intros s Ev Ec I Ls. unfold dcond.
  destruct (peek_kw (t "section") (s_ps s) || peek IDENTIFIER (s_ps s))%bool eqn:E; [|cbn; split; auto; lia].
  assert (Rd : round_ (attempt rec (parse_entry file src n n) (fun _ N => recover n (trlc_restart N))) s).
  { apply (recovered rec _ (fun _ N => trlc_restart N) s b); auto. apply (entry_bites c v b); auto; lia. }
  assert (Rn : match attempt rec (parse_entry file src n n) (fun _ N => recover n (trlc_restart N)) s with
     | DOk _ s' => v_types (s_env s') = G | _ => True end).
  { assert (T := typed_entry file src n G n s ltac:(congruence)).
    unfold attempt. destruct (parse_entry file src n n s) as [a s1|e s1| |]; auto.
    destruct rec; auto. unfold dbind, dp, with_names, pnote. cbn [s_env s_cu s_ps s_sec].
    match goal with |- context [recover n ?f ?x] => destruct (recover n f x) end; auto. }
  unfold round_, dbind in *. destruct (attempt _ _ _ s) as [good s1| | |]; auto.
  destruct Rd as [I1 L1]. rename Rn into O1. destruct b as [|b]; [lia|].
  specialize (IH (ok && good)%bool _ _ b O1 ltac:(lia) ltac:(lia) s1 eq_refl eq_refl I1 ltac:(lia)).
  destruct (trlc_loop _ _ _ _ _ _ _); auto; destruct IH; split; auto; lia.
Qed.
Theorem trlc_file_ds rec c v b : v_types v = G -> b < n -> dsp c v b 0 (parse_trlc_file file src n rec).
Proof.
  intros Ty L. unfold parse_trlc_file. intros s Ev Ec I Ls. assert (H := trlc_loop_ds n rec true c v b Ty L L s Ev Ec I Ls). unfold dbind at 1.
  destruct (trlc_loop _ _ _ _ _ _ s) as [ok s1| | |]; auto. destruct H as [I1 L1].
  assert (H : dsa b 0 (let# _ := dp (p_match_eof file) in dret ok)). { dnest 0; [apply dsa_dp, eof_spends|]. ds. }
  specialize (H _ _ s1 eq_refl eq_refl I1 ltac:(lia)). destruct (dbind _ _ s1); auto; destruct H; split; auto; lia.
Qed.
End OBJECTS.

(** *** Preambles *)
Lemma import_ds b tk : dsa b 0 (add_import file tk).
Proof. unfold add_import. ds. Qed.
Lemma imports_ds m b : b < m -> dsa b 0 (imports_loop file m).
Proof.
  revert b. induction m as [|m IH]; intros b L; [lia|]. cbn [imports_loop]. apply dsa_cond; [|ds]. ds.
  dnest 0; [apply import_ds|]. intros. eapply dsa_weaken; [apply (IH (b - 1)); lia|lia|lia].
Qed.
Theorem preamble_ds k b : b <= n -> dsa b 2 (parse_preamble file n k).
Proof.
  intros L. unfold parse_preamble. ds.
  match goal with |- context [if ?x then _ else _] => generalize x as declare end. intros declare. dnest 0.
  - destruct declare.
    + unfold declare_package. ds.
    + unfold find_package. dnest 0; [apply dsa_names; intros; apply spends_lift; auto with fuel|]. intros []; ds.
  - ds. eapply dsa_weaken; [apply (imports_ds n (b' - 0)); lia|lia|lia].
Qed.
End FILE.
