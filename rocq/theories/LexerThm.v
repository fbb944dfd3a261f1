(** Properties of whole runs of the lexer. *)
From Coq Require Import QArith ZifyBool ZifyN ZifyNat.
From Verif Require Import Base PyText Lexer LexSpec LexerProofs LexerScan LexerCorrect.
Open Scope Z_scope.

Section RUN.
Variable content : text.
Notation len := (Lexer.len content).
Notation fuel := (Lexer.fuel content).
Notation wf := (wf content).
Notation R := (R content).

(** What a token carries besides its extent. *)
Definition token_ok (tk : token) : Prop :=
  0 <= tk_start tk <= tk_end tk /\ tk_end tk < len /\
  located content (Z.to_nat (tk_start tk)) (tk_line tk) (tk_col tk) /\
  lexeme (source_text content tk) (skipn (Z.to_nat (tk_end tk + 1)) content) (tk_kind tk) /\
  exists k base, base_ok k base (source_text content tk) /\
    token_value k base (source_text content tk) = (tk_kind tk, tk_value tk).

Definition no_lexeme (rest : text) : Prop := forall x y k, rest = x ++ y -> ~ lexeme x y k.

Definition error_ok (p : Z) (r : sref) : Prop :=
  located content (Z.to_nat p) (sr_line r) (sr_col r) /\
  p <= sr_start r <= sr_end r /\ sr_end r < len.

Lemma lexeme_nonempty a b k : lexeme a b k -> a <> [].
Proof.
  intros H E. destruct H; subst; try discriminate.
  - apply delimiter_table in H. cbn in H. repeat (destruct H as [H|H]; [discriminate|]). contradiction.
  - inversion H.
  - destruct r1; discriminate.
Qed.

Lemma no_lexeme_nil (ws txt after : text) k : ws ++ txt ++ after = [] -> lexeme txt after k -> False.
Proof.
  intros H L. apply app_eq_nil in H as [_ H]. apply app_eq_nil in H as [H _].
  eapply lexeme_nonempty; eauto.
Qed.

Lemma tokens_then_nil off ts left : tokens_then off [] ts left -> left = [].
Proof.
  intros H. inversion H; auto. exfalso. eapply no_lexeme_nil; eauto.
Qed.

Lemma slice_source tk : 0 <= tk_start tk -> slice content (tk_start tk) (tk_end tk) = source_text content tk.
Proof. intros H. unfold slice, source_text. f_equal. f_equal. lia. Qed.

Lemma next_token_spec s :
  wf s ->
  exists ws b, R s = ws ++ b /\ Forall white ws /\
  match b with
  | [] => exists s', next_token content s = (s', LEnd) /\ wf s' /\ R s' = []
  | c :: r =>
      ~ white c /\
      exists s' res, next_token content s = (s', res) /\ wf s' /\
      let start := lexpos s + 1 + Z.of_nat (length ws) in
      match res with
      | LTok tk =>
          exists a, r = a ++ R s' /\ lexeme (c :: a) (R s') (tk_kind tk) /\
            tk_start tk = start /\ tk_end tk = start + Z.of_nat (length a) /\
            (R s' <> [] -> lexpos s' = tk_end tk) /\ source_text content tk = c :: a /\
            token_ok tk
      | LErr e => error_ok start (le_loc e) /\ no_lexeme (c :: r) /\ ~ In (c :: r) crashing
      | LCrash => In (c :: r) crashing
      | _ => False
      end
  end.
Proof.
  intros W. destruct (span is_space (R s)) as [ws b] eqn:S.
  destruct (skip_whitespace_spec content s ws b W S) as (s1 & E1 & W1 & E2 & E3 & E4).
  apply (span_spec _ white) in S as (S1 & S2 & S3); [|apply is_space_white].
  exists ws, b. sp; auto. unfold next_token. rewrite E1.
  destruct b as [|c r]; cbn [hd_error tl] in *.
  { rewrite E2. eauto. }
  split; auto. rewrite E2.
  pose proof (wf_cc_some _ _ _ W1 E2) as PC.
  destruct (scan_post content (line_no s1) (col_no s1) s1 c W1 E2 eq_refl eq_refl) as (W' & L & a & A1 & A2).
  destruct (scan content c (line_no s1) (col_no s1) (lexpos s1) s1) as [s' res] eqn:SC.
  cbn [fst snd] in *.
  assert (LOC : located content (Z.to_nat (lexpos s1)) (line_no s1) (col_no s1)).
  { destruct W1 as (_ & _ & _ & _ & _ & W6). apply W6; auto. }
  destruct res as [k base|res].
  - destruct A2 as [A2 A3].
    pose proof (pos_of_R content s1 s' c a W1 W' E2 A1) as PE.
    assert (PL : lexpos s1 + Z.of_nat (length a) < len).
    { rewrite <- PE. lia. }
    rewrite PE. rewrite mk_sref_ok by lia. cbn [sr_start sr_end].
    rewrite (slice_from content s1 c a (R s')) by auto.
    destruct (token_value k base (c :: a)) as [k' v] eqn:TV. cbn [fst] in A2.
    eexists s', _. split; [reflexivity|]. split; auto. cbn zeta.
    exists a. cbn [tk_kind tk_start tk_end]. rewrite E3 in A1. sp; auto; try lia.
    + intros NR. pose proof (R_length content s' (wf_pos _ s' W')) as LR'.
      destruct (R s') as [|x y]; [contradiction|]. cbn [length] in LR'. lia.
    + rewrite <- slice_source by (cbn; lia). cbn [tk_start tk_end].
      apply (slice_from content s1 c a (R s')); auto. congruence.
    + unfold token_ok. cbn [tk_kind tk_start tk_end tk_line tk_col tk_value]. sp; auto; try lia.
      { replace (skipn (Z.to_nat (lexpos s1 + Z.of_nat (length a) + 1)) content) with (R s').
        - rewrite <- slice_source by (cbn; lia). cbn [tk_start tk_end].
          rewrite (slice_from content s1 c a (R s')) by (auto; congruence). auto.
        - pose proof (R_length content s' (wf_pos _ s' W')) as LR'.
          destruct (R s') as [|x y] eqn:ER'.
          + symmetry. apply skipn_all2. cbn [length] in LR'. unfold Lexer.len in *. lia.
          + rewrite <- ER'. unfold LexerProofs.R. do 2 f_equal. cbn [length] in LR'. lia. }
      exists k, base. rewrite <- slice_source by (cbn; lia). cbn [tk_start tk_end].
      rewrite (slice_from content s1 c a (R s')) by (auto; congruence). auto.
  - eexists s', res. split; auto. split; auto. cbn zeta.
    destruct res; try contradiction; rewrite E3 in *; auto.
    sp.
    + unfold error_ok. destruct A2 as (A2 & A3 & A4 & A5).
      replace (lexpos s + 1 + Z.of_nat (length ws)) with (lexpos s1) by lia. rewrite A2, A3. auto.
    + intros x y k Exy Lx. destruct x as [|c' x]; [eapply lexeme_nonempty; eauto|].
      injection Exy as <- Exy.
      destruct (scan_complete content (line_no s1) (col_no s1) s1 c x y k) as (s2 & k2 & b2 & F1 & _); auto.
      { congruence. }
      congruence.
    + intros Ic. pose proof (scan_crash content (line_no s1) (col_no s1) s1 c W1 E2) as P.
      rewrite E3 in P. specialize (P Ic). rewrite SC in P. discriminate.
Qed.

(** The outcome of the whole run. *)
Definition outcome_ok (off : Z) (rest : text) (o : lex_outcome) : Prop :=
  match o with
  | Lexed ts => segmented off rest ts /\ Forall token_ok ts
  | LexFailed ts e =>
      Forall token_ok ts /\
      exists ws bad, tokens_then off rest ts (ws ++ bad) /\ Forall white ws /\
        (match bad with [] => False | c :: _ => ~ white c end) /\ no_lexeme bad /\
        ~ In bad crashing /\
        error_ok (len - Z.of_nat (length bad)) (le_loc e)
  | LexCrashed ts =>
      Forall token_ok ts /\
      exists ws bad, tokens_then off rest ts (ws ++ bad) /\ Forall white ws /\ In bad crashing
  | LexStuck => False
  end.

Lemma lex_from_spec n s :
  wf s -> (length (R s) < n)%nat -> outcome_ok (lexpos s + 1) (R s) (lex_from content n s).
Proof.
  revert s. induction n as [|n IH]; intros s W Hn; [lia|]. cbn [lex_from].
  destruct (next_token_spec s W) as (ws & b & E1 & E2 & H).
  destruct b as [|c r].
  - destruct H as (s' & H & W' & H'). rewrite H. cbn. split; auto. rewrite E1, app_nil_r. apply seg_end; auto.
  - destruct H as (NW & s' & res & H & W' & H'). rewrite H. cbn zeta in H'.
    pose proof (R_length content s (wf_pos _ s W)) as LR.
    rewrite E1, app_length in LR. cbn [length] in LR. 
    destruct res as [tk| |e| |]; try contradiction.
    + destruct H' as (a & A1 & A2 & A3 & A4 & A5 & A6 & A7).
      assert (LN : (length (R s') < n)%nat).
      { rewrite E1, app_length in Hn. cbn [length] in Hn. subst r. rewrite app_length in Hn. lia. }
      specialize (IH s' W' LN).
      assert (Off : lexpos s' + 1 = tk_end tk + 1 \/ R s' = []).
      { destruct (R s') as [|x y] eqn:E; auto. left. rewrite A5 by discriminate. auto. }
      assert (Seg : forall ts, segmented (lexpos s' + 1) (R s') ts -> segmented (lexpos s + 1) (R s) (tk :: ts)).
      { intros ts Hs. rewrite E1, A1. change (c :: a ++ R s') with ((c :: a) ++ R s').
        apply seg_token; auto.
        - cbn [length]. lia.
        - destruct Off as [<-|Off]; auto. rewrite Off in *. inversion Hs; subst.
          + constructor; auto.
          + exfalso. eapply no_lexeme_nil; eauto. }
      assert (Then : forall ts ws' bad, bad <> [] -> tokens_then (lexpos s' + 1) (R s') ts (ws' ++ bad) ->
                                        tokens_then (lexpos s + 1) (R s) (tk :: ts) (ws' ++ bad)).
      { intros ts ws' bad NB Hs. rewrite E1, A1. change (c :: a ++ R s') with ((c :: a) ++ R s').
        apply tt_token; auto.
        - cbn [length]. lia.
        - destruct Off as [<-|Off]; auto. exfalso. rewrite Off in *.
          apply tokens_then_nil in Hs. apply app_eq_nil in Hs as [_ Hs]. auto. }
      destruct (lex_from content n s') as [ts|ts e|ts|]; cbn in *; auto.
      * destruct IH as [I1 I2]. split; auto.
      * destruct IH as (I1 & ws' & bad & I2 & I3 & I4 & I5). split; auto. exists ws', bad. sp; auto; try tauto.
        apply Then; auto. intros ->; auto.
      * destruct IH as (I1 & ws' & bad & I2 & I3 & I4). split; auto. exists ws', bad. sp; auto.
        apply Then; auto. intros ->. cbn in I4. intuition discriminate.
    + cbn. split; auto. exists ws, (c :: r). rewrite <- E1. destruct H' as (H1 & H2 & H3). sp; auto.
      * constructor.
      * replace (len - Z.of_nat (length (c :: r))) with (lexpos s + 1 + Z.of_nat (length ws)); auto.
        cbn [length]. lia.
    + cbn. split; auto. exists ws, (c :: r). rewrite <- E1. sp; auto. constructor.
Qed.

Theorem lex_spec : outcome_ok 0 content (lex content).
Proof.
  pose proof (lex_from_spec fuel (init content) (wf_init content)) as H.
  rewrite lexpos_init, R_init in H. apply H. unfold Lexer.fuel. lia.
Qed.
End RUN.

(** ** The grammar is unambiguous, and the lexer accepts all of it *)

Lemma first_state (c : char) (r : text) :
  exists s, wf (c :: r) s /\ cc s = Some c /\ R (c :: r) s = r.
Proof.
  exists (advance (c :: r) (init (c :: r))).
  pose proof (wf_init (c :: r)) as W. pose proof (R_init (c :: r)) as E.
  split; [apply wf_advance; auto|]. split.
  - rewrite cc_advance, (wf_nc _ _ W), E. auto.
  - rewrite (R_advance (c :: r)) by (eapply wf_pos; eauto). rewrite E. auto.
Qed.

Lemma lexeme_unique (x y x' y' : text) k k' :
  lexeme x y k -> lexeme x' y' k' -> x ++ y = x' ++ y' -> x = x' /\ y = y' /\ k = k'.
Proof.
  intros L L' E.
  destruct x as [|c x]; [exfalso; exact (lexeme_nonempty _ _ _ L eq_refl)|].
  destruct x' as [|c' x']; [exfalso; exact (lexeme_nonempty _ _ _ L' eq_refl)|].
  cbn [app] in E. injection E as <- E.
  destruct (first_state c (x ++ y)) as (s & W & C & ER).
  destruct (scan_complete _ 1 1 s c x y k W C ER L) as (s1 & k1 & b1 & S1 & E1 & K1).
  rewrite E in ER at 2.
  destruct (scan_complete _ 1 1 s c x' y' k' W C ER L') as (s2 & k2 & b2 & S2 & E2 & K2).
  rewrite S1 in S2. injection S2 as <- <- <-.
  assert (Y : y = y') by congruence. rewrite <- Y in E. apply app_inv_tail in E.
  subst x'. sp; auto. congruence.
Qed.

Lemma crashing_no_lexeme bad : In bad crashing -> no_lexeme bad.
Proof.
  intros H x y k E L.
  destruct x as [|c x]; [exfalso; exact (lexeme_nonempty _ _ _ L eq_refl)|]. subst bad.
  destruct (first_state c (x ++ y)) as (s & W & C & ER).
  destruct (scan_complete _ 1 1 s c x y k W C ER L) as (s1 & k1 & b1 & S1 & E1 & K1).
  pose proof (scan_crash _ 1 1 s c W C) as P. rewrite ER in P. specialize (P H).
  rewrite S1 in P. discriminate.
Qed.

Lemma dark_ascii x : (33 <= x <= 126)%N -> ~ white x.
Proof. intros Hx. rewrite <- is_space_white. unfold is_space. lia. Qed.

Lemma lexeme_not_white c (a b : text) k : lexeme (c :: a) b k -> ~ white c.
Proof.
  intros L W.
  pose proof dark_ascii as D.
  remember (c :: a) as x eqn:X. destruct L; cbn [t map list_ascii_of_string app] in X;
    try (injection X as <- _; revert W; apply D; cbv; split; discriminate).
  - injection X as -> _. revert W; apply D. unfold letter in H. lia.
  - subst d. apply delimiter_table in H. cbn in H.
    repeat (destruct H as [H|H]; [try discriminate H; injection H; intros; subst; revert W; apply D; cbv; split; discriminate|]).
    contradiction.
  - injection X as <- _. revert W; apply D. lia.
  - subst r. revert W; apply D. inversion H; subst; unfold digit in *; lia.
  - destruct r1 as [|c0 r1]; [inversion H|]. injection X as -> _.
    revert W; apply D. inversion H; subst; unfold digit in *; lia.
Qed.

Definition starts_dark (r : text) : Prop := match r with [] => False | c :: _ => ~ white c end.

Lemma lexeme_dark (a b : text) k : lexeme a b k -> starts_dark (a ++ b).
Proof.
  intros L. destruct a as [|c a]; [exfalso; exact (lexeme_nonempty _ _ _ L eq_refl)|]. eapply lexeme_not_white; eauto.
Qed.

Lemma white_dark (ws r ws' r' : text) :
  Forall white ws -> Forall white ws' -> starts_dark r -> starts_dark r' ->
  ws ++ r = ws' ++ r' -> ws = ws' /\ r = r'.
Proof.
  revert ws'. induction ws as [|w ws IH]; intros ws' H1 H2 D1 D2 E.
  - destruct ws' as [|w' ws']; auto. cbn in E. subst r. inversion H2; subst. contradiction.
  - destruct ws' as [|w' ws']; cbn in E.
    + subst r'. inversion H1; subst. contradiction.
    + injection E as <- E. inversion H1; inversion H2; subst.
      destruct (IH ws') as [-> ->]; auto.
Qed.

Lemma all_white_dark (ws r : text) : Forall white (ws ++ r) -> starts_dark r -> False.
Proof.
  intros H D. apply Forall_app in H as [_ H]. destruct r; auto. inversion H; subst. contradiction.
Qed.

Lemma segmented_no_error off rest ts ws bad ts' :
  tokens_then off rest ts (ws ++ bad) -> Forall white ws -> starts_dark bad -> no_lexeme bad ->
  segmented off rest ts' -> False.
Proof.
  intros H. remember (ws ++ bad) as left eqn:EL. revert ts'.
  induction H as [off rest|off ws1 txt after tk ts left F L S E H IH]; intros ts' HW HD HN HS; inversion HS; subst.
  - eapply all_white_dark; eauto.
  - destruct (white_dark ws0 (txt ++ after) ws bad) as [-> <-]; auto.
    + eapply lexeme_dark; eauto.
    + eapply HN; eauto.
  - eapply all_white_dark; eauto. eapply lexeme_dark; eauto.
  - destruct (white_dark ws0 (txt0 ++ after0) ws1 (txt ++ after)) as [-> E']; auto; try (eapply lexeme_dark; eauto).
    destruct (lexeme_unique _ _ _ _ _ _ H2 L E') as (-> & -> & K).
    apply (IH eq_refl ts0); auto. congruence.
Qed.

Lemma segmented_unique off rest ts ts' :
  segmented off rest ts -> segmented off rest ts' ->
  map (fun tk => (tk_kind tk, tk_start tk, tk_end tk)) ts =
  map (fun tk => (tk_kind tk, tk_start tk, tk_end tk)) ts'.
Proof.
  intros H. revert ts'. induction H as [off rest F|off ws1 txt after tk ts F L S E H IH]; intros ts' HS; inversion HS; subst; auto.
  - exfalso. eapply all_white_dark; eauto. eapply lexeme_dark; eauto.
  - exfalso. eapply all_white_dark; eauto. eapply lexeme_dark; eauto.
  - destruct (white_dark ws (txt0 ++ after0) ws1 (txt ++ after)) as [-> E']; auto; try (eapply lexeme_dark; eauto).
    destruct (lexeme_unique _ _ _ _ _ _ H2 L E') as (-> & -> & K).
    cbn. f_equal.
    + rewrite S, E, H3, H4, K. rewrite S, H3. auto.
    + apply IH; auto. rewrite E, S. rewrite H4, H3 in H5. auto.
Qed.

Lemma crashing_dark bad : In bad crashing -> starts_dark bad.
Proof.
  pose proof dark_ascii as D.
  cbn. intros [<-|[<-|[<-|[<-|[]]]]]; apply D; cbv; split; discriminate.
Qed.

Theorem lex_accepts content ts :
  segmented 0 content ts ->
  exists ts', lex content = Lexed ts' /\
    map (fun tk => (tk_kind tk, tk_start tk, tk_end tk)) ts' =
    map (fun tk => (tk_kind tk, tk_start tk, tk_end tk)) ts.
Proof.
  intros H. pose proof (lex_spec content) as O.
  destruct (lex content) as [ts'|ts' e|ts'|]; cbn in O.
  - exists ts'. split; auto. eapply segmented_unique; eauto. apply O.
  - exfalso. destruct O as (_ & ws & bad & O1 & O2 & O3 & O4 & _). eapply segmented_no_error; eauto.
  - exfalso. destruct O as (_ & ws & bad & O1 & O2 & O3).
    eapply segmented_no_error; eauto; [apply crashing_dark; auto|apply crashing_no_lexeme; auto].
  - contradiction.
Qed.

(** Two readings of a prefix agree. *)
Lemma tokens_then_error_unique off rest ts ts' ws bad ws' bad' :
  tokens_then off rest ts (ws ++ bad) -> tokens_then off rest ts' (ws' ++ bad') ->
  Forall white ws -> Forall white ws' -> starts_dark bad -> starts_dark bad' ->
  no_lexeme bad -> no_lexeme bad' -> bad = bad'.
Proof.
  intros H. remember (ws ++ bad) as left eqn:EL. revert ts'.
  induction H as [off rest|off ws1 txt after tk ts left F L S E H IH]; intros ts' HS HW HW' HD HD' HN HN';
    remember (ws' ++ bad') as left' eqn:EL'; inversion HS; subst.
  - match goal with H : _ ++ bad = _ ++ bad' |- _ =>
      apply (white_dark ws bad ws' bad') in H as [_ <-]; auto end.
  - exfalso. destruct (white_dark ws0 (txt ++ after) ws bad) as [-> <-]; auto.
    + eapply lexeme_dark; eauto.
    + eapply HN; eauto.
  - exfalso. destruct (white_dark ws' bad' ws1 (txt ++ after)) as [-> ->]; auto.
    + eapply lexeme_dark; eauto.
    + eapply HN'; eauto.
  - destruct (white_dark ws0 (txt0 ++ after0) ws1 (txt ++ after)) as [-> E']; auto; try (eapply lexeme_dark; eauto).
    destruct (lexeme_unique _ _ _ _ _ _ H2 L E') as (-> & -> & K).
    apply (IH eq_refl ts0); auto. rewrite E, S. rewrite H4, H3 in H5. auto.
Qed.

Theorem lex_crashes content :
  (exists ts, lex content = LexCrashed ts) <->
  exists ts ws bad, tokens_then 0 content ts (ws ++ bad) /\ Forall white ws /\ In bad crashing.
Proof.
  pose proof (lex_spec content) as O. split.
  - intros (ts & E). rewrite E in O. destruct O as (_ & ws & bad & H). eauto.
  - intros (ts & ws & bad & H1 & H2 & H3).
    assert (D := crashing_dark _ H3). assert (N := crashing_no_lexeme _ H3).
    destruct (lex content) as [ts'|ts' e|ts'|]; cbn in O; eauto; try contradiction.
    + exfalso. eapply segmented_no_error; eauto. apply O.
    + exfalso. destruct O as (_ & ws' & bad' & O1 & O2 & O3 & O4 & O5 & _).
      assert (bad = bad') by (eapply tokens_then_error_unique; [exact H1|exact O1|..]; auto).
      subst; auto.
Qed.
