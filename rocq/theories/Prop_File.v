(** Property theorems about files: C42, the restart after an error. *)
From Verif Require Import Base Lexer SymTab Ast Eval Typing TypesProofs ParserBase ParserExpr ParserProofs ParserFuel ParserValue Lint ParserDecl ParserFile
  ValueFuel DeclInv DeclRsl DeclTrlc DeclFuel FileFuel Process ProcessInv ProcessFuel Prop_Process.
From Verif Require LexerThm SourceMan EvalFuel.
Import SourceMan (fkind, RSL, TRLC).
From Coq Require Import ZifyBool ZifyNat ZifyN.
Open Scope Z_scope.

(** ** C42 *)

(** A token starts a line if the token before it is on another line. *)
Definition starts_line (prev : option token) (tk : token) : Prop :=
  match prev with Some p => tk_line p <> tk_line tk | None => True end.
(** [passes stop prev ts]: none of the tokens [ts], which come after [prev],
    is at the start of a line and one where parsing can start again. *)
Inductive passes (stop : token -> Prop) : option token -> list token -> Prop :=
| passes_nil prev : passes stop prev []
| passes_cons prev tk ts : ~ (starts_line prev tk /\ stop tk) -> passes stop (Some tk) ts -> passes stop prev (tk :: ts).

(** From [p] the tokens are skipped up to the first one at the start of a
    line where parsing can start again, or to the end. *)
Definition restarts (stop : token -> Prop) (p q : pos) : Prop :=
  exists ts, reads p ts q /\ passes stop (ct p) ts /\
    (nt q = None \/ exists tk, nt q = Some tk /\ stop tk /\ starts_line (ct q) tk).
Definition last_of (prev : option token) (ts : list token) : option token := last (map Some ts) prev.
Lemma passes_app stop prev ts us : passes stop prev ts -> passes stop (last_of prev ts) us -> passes stop prev (ts ++ us).
Proof.
  intros H. revert us. induction H; cbn; intros us K; auto. constructor; auto. apply IHpasses.
  unfold last_of in *. cbn [map last] in K. destruct ts; cbn in *; auto.
  assert (E : forall d d' (l : list (option token)) x, last (x :: l) d = last (x :: l) d').
  { clear. intros d d' l. induction l as [|y l IH]; intros x; [reflexivity|]. change (last (y :: l) d = last (y :: l) d'). apply IH. }
  destruct (map Some ts) as [|y l] eqn:Em; auto. erewrite (E (Some tk) prev). exact K.
Qed.
Lemma reads_last p ts q : reads p ts q -> ct q = last_of (ct p) ts.
Proof.
  induction 1 as [p|p tk nx l ts q E F R IH]; [reflexivity|]. cbn [ct] in IH. rewrite IH. unfold last_of. cbn [map].
  destruct ts as [|t0 ts]; [reflexivity|]. cbn [map].
  assert (X : forall d d' (l : list (option token)) x, last (x :: l) d = last (x :: l) d').
  { clear. intros d d' l. induction l as [|y l IH]; intros x; [reflexivity|]. change (last (y :: l) d = last (y :: l) d'). apply IH. }
  change (last (Some tk :: Some t0 :: map Some ts) (ct p)) with (last (Some t0 :: map Some ts) (ct p)). apply X.
Qed.
Lemma advance_reads s s' tk : nt (at_ s) = Some tk -> p_advance s = POk tt s' -> reads (at_ s) [tk] (at_ s') /\ ct (at_ s') = Some tk.
Proof.
  unfold p_advance. intros E H. rewrite E in H. destruct (fetch (Some tk) (rest (at_ s))) as [[nx l]|? [? ?]|] eqn:F; try discriminate.
  injection H as <-. cbn. split; auto. econstructor; eauto. constructor.
Qed.
Lemma skip_line_passes stop m : forall line s s', skip_line m line s = POk tt s' ->
  (exists c, ct (at_ s) = Some c /\ tk_line c = line) ->
  exists ts, reads (at_ s) ts (at_ s') /\ passes stop (ct (at_ s)) ts /\ forall tk, nt (at_ s') = Some tk -> starts_line (ct (at_ s')) tk.
Proof.
  induction m as [|m IH]; intros line s s' H (c & Ec & El); cbn [skip_line] in H; [discriminate|]. unfold pcond in H.
  destruct (next_is _ s) eqn:N.
  - unfold pbind in H. destruct (p_advance s) as [[] s1| | |] eqn:A; try discriminate.
    unfold next_is in N. destruct (nt (at_ s)) as [tk|] eqn:Et; [|discriminate]. apply Z.eqb_eq in N.
    destruct (advance_reads _ _ _ Et A) as [R C1]. apply IH in H as (ts & R2 & P2 & S2); [|exists tk; auto]. exists (tk :: ts).
    split; [apply (reads_app _ [tk] _ ts _ R R2)|]. split; auto. constructor; [|rewrite <- C1; auto].
    rewrite Ec. cbn. intros [X _]. congruence.
  - injection H as <-. exists []. split; [constructor|]. split; [constructor|]. intros tk E. unfold next_is in N. rewrite E in N.
    rewrite Ec. cbn. apply Z.eqb_neq in N. congruence.
Qed.
Lemma newline_passes stop n s s' : skip_until_newline n s = POk tt s' ->
  exists ts, reads (at_ s) ts (at_ s') /\ passes stop (ct (at_ s)) ts /\ forall tk, nt (at_ s') = Some tk -> starts_line (ct (at_ s')) tk.
Proof.
  unfold skip_until_newline. destruct (ct (at_ s)) as [c|] eqn:E; intros H.
  - rewrite <- E. eapply skip_line_passes; eauto.
  - injection H as <-. exists []. split; [constructor|]. split; [constructor|]. intros. rewrite E. exact I.
Qed.
(** [f] looks at the next token. *)
Definition looks_for (f : ps -> bool) (stop : token -> Prop) : Prop :=
  forall s, f s = true <-> exists tk, nt (at_ s) = Some tk /\ stop tk.
Lemma skip_to_restarts n f stop m : looks_for f stop -> forall s s', skip_to n m f s = POk tt s' ->
  (forall tk, nt (at_ s) = Some tk -> starts_line (ct (at_ s)) tk) -> restarts stop (at_ s) (at_ s').
Proof.
  intros Sf. induction m as [|m IH]; intros s s' H L; cbn [skip_to] in H; [discriminate|]. unfold pcond in H.
  destruct (peek_eof s) eqn:E; [|destruct (f s) eqn:N].
  - injection H as <-. exists []. split; [constructor|]. split; [constructor|]. left. unfold peek_eof in E. destruct (nt (at_ s)); congruence.
  - injection H as <-. exists []. split; [constructor|]. split; [constructor|]. right. apply Sf in N as (tk & Et & X). exists tk. auto.
  - unfold pbind in H. destruct (p_advance s) as [[] s1| | |] eqn:A; try discriminate.
    destruct (skip_until_newline n s1) as [[] s2| | |] eqn:B; try discriminate.
    unfold peek_eof in E. destruct (nt (at_ s)) as [tk|] eqn:Et; [|discriminate].
    destruct (advance_reads _ _ _ Et A) as [R1 C1]. apply (newline_passes stop) in B as (ts & R2 & P2 & S2).
    apply IH in H as (us & R3 & P3 & D); auto. assert (R12 := reads_app _ [tk] _ ts _ R1 R2). cbn [app] in R12.
    exists ((tk :: ts) ++ us). split; [|split; auto].
    + eapply reads_app; [|exact R3]. exact R12.
    + apply passes_app; [constructor; [|rewrite <- C1; auto]|].
      * intros [_ X]. assert (Y : f s = true) by (apply Sf; eauto). congruence.
      * rewrite <- (reads_last _ _ _ R12). exact P3.
Qed.
Lemma recover_restarts n f stop s s' : looks_for f stop -> recover n f s = POk tt s' -> restarts stop (at_ s) (at_ s').
Proof.
  intros Sf H. unfold recover, pbind in H. destruct (skip_until_newline n s) as [[] s1| | |] eqn:B; try discriminate.
  apply (newline_passes stop) in B as (ts & R2 & P2 & S2). apply (skip_to_restarts n f stop) in H as (us & R3 & P3 & D); auto.
  exists (ts ++ us). split; [eapply reads_app; eauto|]. split; auto. apply passes_app; auto. rewrite <- (reads_last _ _ _ R2). exact P3.
Qed.

(** Skipping reports nothing. *)
Lemma advance_quiet s : match p_advance s with POk _ s' => out s' = out s | _ => True end.
Proof. unfold p_advance. destruct (fetch _ _) as [[? ?]|? [? ?]|]; cbn; auto. Qed.
Lemma skip_line_quiet m line : forall s, match skip_line m line s with POk _ s' => out s' = out s | _ => True end.
Proof.
  induction m as [|m IH]; intros s; cbn [skip_line]; [exact I|]. unfold pcond. destruct (next_is _ s); [|reflexivity].
  unfold pbind. assert (A := advance_quiet s). destruct (p_advance s) as [a s1| | |]; auto.
  specialize (IH s1). destruct (skip_line m line s1); auto. congruence.
Qed.
Lemma newline_quiet n s : match skip_until_newline n s with POk _ s' => out s' = out s | _ => True end.
Proof. unfold skip_until_newline. destruct (ct (at_ s)); [apply skip_line_quiet|reflexivity]. Qed.
Lemma skip_to_quiet n f m : forall s, match skip_to n m f s with POk _ s' => out s' = out s | _ => True end.
Proof.
  induction m as [|m IH]; intros s; cbn [skip_to]; [exact I|]. unfold pcond. destruct (peek_eof s); [reflexivity|]. destruct (f s); [reflexivity|].
  unfold pbind. assert (A := advance_quiet s). destruct (p_advance s) as [a s1| | |]; auto.
  assert (B := newline_quiet n s1). destruct (skip_until_newline n s1) as [b s2| | |]; auto.
  specialize (IH s2). destruct (skip_to n m f s2); auto. congruence.
Qed.
Lemma recover_quiet n f s : match recover n f s with POk _ s' => out s' = out s | _ => True end.
Proof.
  unfold recover, pbind. assert (B := newline_quiet n s). destruct (skip_until_newline n s) as [b s2| | |]; auto.
  assert (C := skip_to_quiet n f n s2). destruct (skip_to n n f s2); auto. congruence.
Qed.

(** Where parsing can start again: at a keyword of a declaration ... *)
Definition declares (tk : token) : Prop :=
  tk_kind tk = KEYWORD /\ In (tk_value tk) (map VText [t "checks"; t "type"; t "abstract"; t "final"; t "tuple"; t "enum"]).
(** ... and in a file with objects at the keyword [section], at the name of a
    package, and at the name of a type of the package of the file unless the
    global names contain it. *)
Definition enters (N : names) (tk : token) : Prop :=
  tk_kind tk = KEYWORD /\ tk_value tk = VText (t "section") \/
  tk_kind tk = IDENTIFIER /\
    ((exists p, t_find (n_stab N) (tok_text tk) = Some (tok_text tk, N_pkg p)) \/
     t_contains (n_stab N) (tok_text tk) = false /\
     exists r, t_find (p_symbols N (n_current N)) (tok_text tk) = Some (tok_text tk, N_type (TRec r))).
Lemma kw_spec w s : peek_kw w s = true <-> exists tk, nt (at_ s) = Some tk /\ tk_kind tk = KEYWORD /\ tk_value tk = VText w.
Proof.
  unfold peek_kw, next_is. destruct (nt (at_ s)) as [tk|].
  - unfold is_kw, is_kind, has_text. destruct (kind_eq_dec (tk_kind tk) KEYWORD); cbn.
    + destruct (tk_value tk) eqn:V; try (split; [discriminate|intros (? & [= <-] & ? & ?); congruence]).
      rewrite text_eqb_eq. split; [intros ->; eauto|]. intros (? & [= <-] & _ & E). congruence.
    + split; [discriminate|intros (? & [= <-] & ? & ?); congruence].
  - split; [discriminate|intros (? & ? & _); discriminate].
Qed.
Lemma rsl_looks : looks_for rsl_restart declares.
Proof.
  intros s. unfold rsl_restart. rewrite !Bool.orb_true_iff, !kw_spec. unfold declares. cbn [In map]. split.
  - intros [[[[[H|H]|H]|H]|H]|H]; destruct H as (tk & E & K & V); exists tk; rewrite V; intuition.
  - intros (tk & E & K & [V|[V|[V|[V|[V|[V|[]]]]]]]); symmetry in V; eauto 20.
Qed.
Lemma trlc_looks N : looks_for (trlc_restart N) (enters N).
Proof.
  intros s. unfold trlc_restart. rewrite Bool.orb_true_iff, kw_spec. unfold enters, next_is. split.
  - intros [(tk & E & K)|H]; [exists tk; auto|]. destruct (nt (at_ s)) as [tk|]; [|discriminate]. exists tk. split; auto. right.
    apply Bool.andb_true_iff in H as [K H]. unfold is_kind in K. destruct (kind_eq_dec _ _); [|discriminate]. split; auto.
    destruct (t_contains _ _) eqn:C; [left|right].
    + unfold is_package_name in H. destruct (t_find _ _) as [[k []]|]; try discriminate. apply text_eqb_eq in H. subst k. eauto.
    + split; auto. unfold is_record_name in H. destruct (t_find _ _) as [[k [[]| | | | |]]|]; try discriminate. apply text_eqb_eq in H. subst k. eauto.
  - intros (tk & E & [K|[K H]]); [left; eauto|]. right. rewrite E. unfold is_kind. destruct (kind_eq_dec _ _); [|congruence]. cbn [andb].
    destruct H as [(p & F)|(C & r & F)].
    + unfold t_contains, is_package_name. rewrite F, text_eqb_refl. reflexivity.
    + rewrite C. unfold is_record_name. rewrite F. apply text_eqb_refl.
Qed.

(** The attempt [m] fails in the state [s1] with the error [e], which is
    reported; parsing goes on in the state [s']. *)
Definition goes_on (m : D unit) (stop : st -> token -> Prop) (s s' : st) : Prop :=
  exists e s1, m s = DErr e s1 /\ restarts (stop s1) (at_ (s_ps s1)) (at_ (s_ps s')) /\
    out (s_ps s') = out (s_ps s1) ++ [Note_error e] /\ s_env s' = s_env s1.
Lemma attempt_restarts m (f : names -> ps -> bool) stop n s s' : (forall N, looks_for (f N) (stop N)) ->
  attempt true m (fun _ N => recover n (f N)) s = DOk false s' -> goes_on m (fun s1 => stop (names_of (s_env s1) (s_cu s1))) s s'.
Proof.
  intros Lf. unfold attempt. destruct (m s) as [a s1|e s1| |] eqn:Em; try discriminate.
  unfold dbind, dp, with_names, pnote. cbn [s_env s_cu s_ps s_sec].
  match goal with |- context [recover n ?g ?x] => assert (O := recover_quiet n g x); destruct (recover n g x) as [[] p2| | |] eqn:R end; try discriminate.
  intros H. injection H as <-. exists e, s1. split; auto. cbn [s_ps s_env out] in *. split; [|auto].
  apply (recover_restarts _ _ _ _ _ (Lf _)) in R. auto.
Qed.

Section FILES.
Variable compiles : text -> bool.
Variable matches : text -> text -> option bool.
Variable lint : bool.
Hypothesis regex : forall p x, compiles p = true -> matches p x <> None.
Variable file : Z.
Variable src : text.

(** After a declaration with an error the tokens are skipped up to the next
    keyword of a declaration at the start of a line, or to the end; likewise
    for objects. *)
Theorem C42_restart n s s' :
  (attempt true (rsl_item file src lint compiles matches n) (fun _ _ => recover n rsl_restart) s = DOk false s' ->
   goes_on (rsl_item file src lint compiles matches n) (fun _ => declares) s s') /\
  (attempt true (parse_entry file src n n) (fun _ N => recover n (trlc_restart N)) s = DOk false s' ->
   goes_on (parse_entry file src n n) (fun s1 => enters (names_of (s_env s1) (s_cu s1))) s s').
Proof.
  split; intros H.
  - apply (attempt_restarts _ (fun _ => rsl_restart) (fun _ => declares)) in H; auto using rsl_looks.
  - apply (attempt_restarts _ trlc_restart enters) in H; auto using trlc_looks.
Qed.

(** Every attempt, whether it fails or not, consumes a token, so that no
    token starts two attempts: tokens are never given back. *)
Theorem C42_progress n recovery s s' good :
  (exists p, cu_pkg (s_cu s) = Some p) ->
  (rem (at_ (s_ps s)) < n)%nat -> stocked (of_file src) (at_ (s_ps s)) ->
  (no_objects matches (s_env s) -> nt (at_ (s_ps s)) <> None ->
   attempt recovery (rsl_item file src lint compiles matches n) (fun _ _ => recover n rsl_restart) s = DOk good s' ->
   (rem (at_ (s_ps s')) < rem (at_ (s_ps s)))%nat) /\
  (types_ok matches (v_types (s_env s)) ->
   (peek_kw (t "section") (s_ps s) || peek IDENTIFIER (s_ps s))%bool = true ->
   attempt recovery (parse_entry file src n n) (fun _ N => recover n (trlc_restart N)) s = DOk good s' ->
   (rem (at_ (s_ps s')) < rem (at_ (s_ps s)))%nat).
Proof.
  intros (p & Ep) L I. split.
  - intros O E H.
    assert (R := rsl_round file src lint compiles matches regex n (s_cu s) p Ep recovery (s_env s) (rem (at_ (s_ps s))) s O L eq_refl eq_refl I (Nat.le_refl _)).
    unfold round_ in R. rewrite H in R. apply R. unfold peek_eof. destruct (nt (at_ (s_ps s))); congruence.
  - intros T E H.
    assert (R := recovered src compiles matches regex n recovery (parse_entry file src n n) (fun _ N => trlc_restart N) s (rem (at_ (s_ps s))) L (Nat.le_refl _)).
    unfold round_ in R. rewrite H in R. apply R.
    apply (entry_bites file src compiles matches regex n (v_types (s_env s)) T (s_cu s) (s_env s) (rem (at_ (s_ps s))) n); auto. lia.
Qed.
End FILES.

(** The analysis of any files comes to an end: the steps that the model
    allows for lexing, for each file as many as it has tokens, for the
    dependencies, and for the linter are enough.  The evaluation of checks
    never needs them. *)
Theorem C42_run_ends : forall compiles matches, (forall p x, compiles p = true -> matches p x <> None) ->
  (forall pick lint recovery fs, process compiles matches pick lint recovery fs <> OutOfFuel) /\
  (forall objs ctx e, evaluate (World objs matches) ctx e <> OutOfFuel).
Proof. intros compiles matches R. split; intros; [apply process_fuel; auto|apply EvalFuel.evaluate_fuel]. Qed.

Print Assumptions C42_restart.
Print Assumptions C42_progress.
Print Assumptions C42_run_ends.

(** Two errors in one file: a duplicate literal and an unknown type.  [type S]
    is on the line of an error and therefore skipped; [T] is declared. *)
Definition bad_rsl : text := t "package P enum E { a a }
type R { x Bogus } type S { }
}
 type T { y Integer }".
Definition bad_state : st :=
  match build_graph (files [(RSL, bad_rsl)]) with
  | Ok gr => match gr_rsl gr with pa :: _ => St (gr_env gr) (pa_cu pa) [] (PS (pa_pos pa) []) | [] => St env0 no_unit [] (PS (Pos None None []) []) end
  | _ => St env0 no_unit [] (PS (Pos None None []) [])
  end.
(** It meets the hypotheses of [C42_restart] and [C42_progress]: the first
    declaration fails, and parsing goes on at the one in the second line. *)
Example C42_example : forall matches,
  (exists p, cu_pkg (s_cu bad_state) = Some p) /\ (rem (at_ (s_ps bad_state)) < 40)%nat /\
  stocked (of_file bad_rsl) (at_ (s_ps bad_state)) /\ no_objects matches (s_env bad_state) /\ nt (at_ (s_ps bad_state)) <> None /\
  match attempt true (rsl_item 0 bad_rsl true (fun _ => true) (fun a b => Some (text_eqb a b)) 40) (fun _ _ => recover 40 rsl_restart) bad_state with
  | DOk false s' => option_map (fun tk => (tk_value tk, tk_line tk)) (nt (at_ (s_ps s'))) = Some (VText (t "type"), 2)
  | _ => False
  end.
Proof.
  intros matches. assert (B := build_fuel (fun _ => true) (fun a b => Some (text_eqb a b)) ltac:(discriminate) (files [(RSL, bad_rsl)])).
  assert (E : exists gr pa l, build_graph (files [(RSL, bad_rsl)]) = Ok gr /\ gr_rsl gr = pa :: l /\ pa_src pa = bad_rsl).
  { do 3 eexists. split; [vm_compute; reflexivity|]. split; reflexivity. }
  destruct E as (gr & pa & l & E & El & Es). rewrite E in B.
  assert (Eb : bad_state = St (gr_env gr) (pa_cu pa) [] (PS (pa_pos pa) [])) by (unfold bad_state; rewrite E, El; reflexivity).
  split; [exists 0%nat; vm_compute; reflexivity|]. split; [vm_compute; lia|]. split; [|split; [|split]].
  - rewrite Eb, <- Es. apply (B pa). left. rewrite El. left. reflexivity.
  - rewrite Eb. apply blank_decl. apply build_ok in E as [Bl _]. exact Bl.
  - vm_compute. discriminate.
  - vm_compute. reflexivity.
Qed.
Example C42_run_example :
  match run_of [(RSL, bad_rsl)] with
  | Ok (None, ms) => map is_error ms = [true; true]
  | _ => False
  end.
Proof. vm_compute. reflexivity. Qed.
