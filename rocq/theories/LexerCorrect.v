(** The scanner recognises exactly the lexemes of [LexSpec]. *)
From Coq Require Import QArith ZifyBool ZifyN ZifyNat.
From Verif Require Import Base PyText Lexer LexSpec LexerProofs LexerScan.
Open Scope Z_scope.

(** ** Character classes *)

Lemma is_alpha_letter c : is_alpha c = true <-> letter c.
Proof. unfold is_alpha, letter. lia. Qed.

Lemma is_numeric_digit c : is_numeric c = true <-> digit c.
Proof. unfold is_numeric, digit. lia. Qed.

Lemma is_ident_char c : is_alnum c || (c =? 95)%N = true <-> ident_char c.
Proof. unfold is_alnum, ident_char, is_alpha, is_numeric, letter, digit. lia. Qed.

Lemma is_space_white c : is_space c = true <-> white c.
Proof. unfold is_space, white. cbn [In]. lia. Qed.

Lemma is_af_hex c : is_af c = true <-> hex_letter c.
Proof. unfold is_af, hex_letter. lia. Qed.

Lemma forallb_Forall f (P : char -> Prop) (l : text) :
  (forall c, f c = true <-> P c) -> (forallb f l = true <-> Forall P l).
Proof.
  intros H. rewrite forallb_forall, Forall_forall. split; intros G x Hx; apply H; auto.
Qed.

Lemma span_spec f (P : char -> Prop) (s a b : text) :
  (forall c, f c = true <-> P c) -> span f s = (a, b) ->
  s = a ++ b /\ Forall P a /\ match b with [] => True | c :: _ => ~ P c end.
Proof.
  intros H E. split; [eapply span_app; eauto|]. split.
  - apply (forallb_Forall f); auto. eapply span_all; eauto.
  - apply span_stop in E. destruct b; auto. rewrite <- H. congruence.
Qed.

Lemma span_spec_complete f (P : char -> Prop) (a b : text) :
  (forall c, f c = true <-> P c) -> Forall P a ->
  match b with [] => True | c :: _ => ~ P c end -> span f (a ++ b) = (a, b).
Proof.
  intros H A B. apply span_unique.
  - apply (forallb_Forall f P); auto.
  - destruct b; auto. rewrite <- H in B. destruct (f n); congruence.
Qed.

(** ** Delimiters *)

Definition delims2 : list (text * kind) :=
  [([61; 62]%N, ARROW); ([61; 61]%N, OPERATOR); ([46; 46]%N, RANGE);
   ([60; 61]%N, OPERATOR); ([62; 61]%N, OPERATOR); ([33; 61]%N, OPERATOR); ([42; 42]%N, OPERATOR)].
Definition delims1 : list (text * kind) :=
  [([40]%N, BRA); ([41]%N, KET); ([123]%N, C_BRA); ([125]%N, C_KET); ([91]%N, S_BRA);
   ([93]%N, S_KET); ([44]%N, COMMA); ([64]%N, AT); ([58]%N, COLON); ([59]%N, SEMICOLON);
   ([47]%N, OPERATOR); ([37]%N, OPERATOR); ([43]%N, OPERATOR); ([45]%N, OPERATOR);
   ([61]%N, ASSIGN); ([46]%N, DOT); ([60]%N, OPERATOR); ([62]%N, OPERATOR); ([42]%N, OPERATOR)].

Lemma delimiter_table d k : delimiter d k <-> In (d, k) (delims1 ++ delims2).
Proof.
  split.
  - intros H; inversion H; subst; cbn; auto 30.
  - cbn. intros H.
    repeat (destruct H as [H|H]; [injection H as <- <-; constructor|]). contradiction.
Qed.

Lemma delimiter2 x y k :
  delimiter [x; y] k <->
  (x = 61 /\ y = 62 /\ k = ARROW \/ x = 61 /\ y = 61 /\ k = OPERATOR \/
   x = 46 /\ y = 46 /\ k = RANGE \/ x = 60 /\ y = 61 /\ k = OPERATOR \/
   x = 62 /\ y = 61 /\ k = OPERATOR \/ x = 33 /\ y = 61 /\ k = OPERATOR \/
   x = 42 /\ y = 42 /\ k = OPERATOR)%N.
Proof.
  rewrite delimiter_table. cbn. split.
  - intros H. repeat (destruct H as [H|H]; [try discriminate H; injection H as <- <- <-; auto 20|]). contradiction.
  - intros H. repeat (destruct H as [H|H]; [destruct H as (-> & -> & ->); auto 40|]).
    destruct H as (-> & -> & ->); auto 40.
Qed.

Lemma punctuation_some c k :
  punctuation c = Some k -> delimiter [c] k /\
  c <> 61%N /\ c <> 46%N /\ c <> 60%N /\ c <> 62%N /\ c <> 33%N /\ c <> 42%N /\
  token_value k 0 [c] = (k, if kind_eq_dec k OPERATOR then VText [c] else VNone) .
Proof.
  unfold punctuation, punctuation_table. intros H. rewrite delimiter_table.
  cbn [find fst snd] in H.
  repeat match type of H with
  | context [(?x =? ?y)%N] => destruct (N.eqb_spec x y); [subst; injection H as <-; cbn; repeat split; auto 40; discriminate|]
  end. discriminate.
Qed.

Lemma punctuation_none c k :
  punctuation c = None -> delimiter [c] k ->
  (c = 61%N /\ k = ASSIGN) \/ (c = 46%N /\ k = DOT) \/ (c = 60%N /\ k = OPERATOR) \/
  (c = 62%N /\ k = OPERATOR) \/ (c = 42%N /\ k = OPERATOR).
Proof.
  rewrite delimiter_table. cbn. intros P H.
  repeat (destruct H as [H|H]; [try discriminate H; injection H as <- <-; try discriminate P; auto 20|]).
  contradiction.
Qed.

Lemma delimiter_shape d k : delimiter d k -> exists c, d = [c] \/ exists e, d = [c; e].
Proof. intros H; inversion H; subst; cbn; eauto. Qed.

(** ** Numbers *)

Definition base_ok (k : kind) (base : Z) (txt : text) : Prop :=
  match k with
  | INTEGER =>
      (base = 2 /\ exists r, txt = t "0b" ++ r /\ digit_groups binary r) \/
      (base = 16 /\ exists r, txt = t "0x" ++ r /\ digit_groups hexadecimal r) \/
      (base = 10 /\ digit_groups digit txt)
  | DECIMAL => exists r1 r2, txt = r1 ++ t "." ++ r2 /\
                             digit_groups digit r1 /\ digit_groups digit r2
  | KEYWORD => False
  | _ => True
  end.

Lemma digit_groups_iff (f g : char -> Prop) (s : text) :
  (forall c, f c <-> g c) -> digit_groups f s <-> digit_groups g s.
Proof.
  intros H; split; induction 1; constructor; auto; apply H; auto.
Qed.

Lemma allowed2 c : allowed cfg2 c = true <-> binary c.
Proof. unfold binary; cbn; unfold is_01; lia. Qed.
Lemma allowed16 c : allowed cfg16 c = true <-> hexadecimal c.
Proof. unfold hexadecimal, digit, hex_letter; cbn; unfold is_09, is_af, is_numeric; lia. Qed.
Lemma allowed10 c : allowed cfg10 c = true <-> digit c.
Proof. unfold digit; cbn; unfold is_09, is_numeric; lia. Qed.

Definition a_cfg cfg := cfg = cfg2 \/ cfg = cfg16 \/ cfg = cfg10.

Lemma a_cfg_ok cfg : a_cfg cfg -> cfg_ok cfg.
Proof. intros [->|[->| ->]]; cbv; auto. Qed.

Lemma num_stops_ends cfg b : a_cfg cfg -> num_stops cfg b <-> number_ends hexadecimal b.
Proof.
  intros H. destruct b as [|c b]; cbn [num_stops number_ends]; [tauto|].
  assert (E : (allowed cfg c = false /\ forbidden cfg c = false) <-> ~ hexadecimal c).
  { unfold hexadecimal, digit, hex_letter.
    destruct H as [->|[->| ->]]; cbn; unfold is_09, is_af, is_01, is_numeric; lia. }
  tauto.
Qed.

(** ** The scanner *)

(** The texts at the end of a file that make the lexer crash: an opening of a
    (triple-quoted) string immediately followed by the end of the file. *)
Definition crashing : list text := [t "'"; t "''"; t "'''"; t """"""""].

Section CORRECT.
Variable content : text.
Notation len := (Lexer.len content).
Notation advance := (Lexer.advance content).
Notation fuel := (Lexer.fuel content).
Notation wf := (wf content).
Notation R := (R content).

(** The location of an error raised while scanning the token that starts at
    [start] in line [line] and column [col]. *)
Definition good_loc (line col start : Z) (r : sref) : Prop :=
  sr_line r = line /\ sr_col r = col /\ start <= sr_start r <= sr_end r /\ sr_end r < len.

Definition post (line col : Z) (s : lstate) (c : char) (p : lstate * scanres) : Prop :=
  wf (fst p) /\ lexpos s <= lexpos (fst p) /\ exists a, R s = a ++ R (fst p) /\
  match snd p with
  | SDone k base =>
      lexeme (c :: a) (R (fst p)) (fst (token_value k base (c :: a))) /\
      base_ok k base (c :: a)
  | SStop (LErr e) => good_loc line col (lexpos s) (le_loc e)
  | SStop LCrash => In (c :: R s) crashing
  | SStop _ => False
  end.

Lemma R_adv1 s d r : wf s -> R s = d :: r -> R (advance s) = r.
Proof. intros W H. rewrite (R_advance content), H by (eapply wf_pos; eauto). auto. Qed.

Lemma pos_of_R s s' c a : wf s -> wf s' -> cc s = Some c -> R s = a ++ R s' ->
  Z.min (lexpos s') (len - 1) = lexpos s + Z.of_nat (length a).
Proof.
  intros W W' C H. pose proof (wf_cc_some _ s _ W C).
  pose proof (R_length content s (wf_pos _ s W)) as L1.
  pose proof (R_length content s' (wf_pos _ s' W')) as L2.
  rewrite H, app_length in L1. lia.
Qed.

Lemma in_range s s' c a : wf s -> cc s = Some c -> R s = a ++ R s' ->
  lexpos s' = lexpos s + Z.of_nat (length a) -> 0 <= lexpos s <= lexpos s' /\ lexpos s' < len.
Proof.
  intros W C H E. pose proof (wf_cc_some _ s _ W C).
  pose proof (R_length content s (wf_pos _ s W)) as L1.
  rewrite H, app_length in L1. lia.
Qed.

Lemma mk_sref_ok line col a b : 0 <= a <= b -> b < len ->
  mk_sref content line col a b = Some {| sr_line := line; sr_col := col; sr_start := a; sr_end := b |}.
Proof. intros H1 H2. unfold mk_sref. replace ((0 <=? a) && (a <=? b) && (b <? len)) with true by lia. auto. Qed.

Definition run cfg req da line col start s0 : lstate * scanres :=
  match num_loop content fuel cfg req da false s0 with
  | (s', NumDone true _) =>
      (s', SStop (raise Unfinished_number (mk_sref content line col start (lexpos s'))))
  | (s', NumDone false dec) =>
      (s', SDone (if dec then DECIMAL else INTEGER) (int_base cfg))
  | (s', NumErr m p) => (s', SStop (raise m (mk_sref content line col p p)))
  | (s', NumFuel) => (s', SStop LFuel)
  end.

Lemma run_spec cfg req da line col start s0 c a b e :
  wf s0 -> cc s0 = Some c -> 0 <= start <= lexpos s0 ->
  num_list cfg req da false (R s0) = (a, b, e) ->
  exists s', wf s' /\ R s' = b /\ R s0 = a ++ b /\ lexpos s0 <= lexpos s' /\
    match e with
    | NDone false dec =>
        run cfg req da line col start s0 = (s', SDone (if dec then DECIMAL else INTEGER) (int_base cfg))
    | _ => exists err, run cfg req da line col start s0 = (s', SStop (LErr err)) /\ good_loc line col start (le_loc err)
    end.
Proof.
  intros W C S H.
  destruct (num_loop_spec content cfg fuel req da false s0 a b e W H) as (s' & W' & E1 & E2 & E3 & E4).
  { pose proof (R_fuel content s0 (wf_pos _ _ W)). lia. }
  exists s'. sp; auto; try lia.
  assert (P := in_range s0 s' c a W C). rewrite E1 in P. specialize (P E2 E3).
  destruct e as [[|] dec|m].
  - unfold run. rewrite E4. rewrite mk_sref_ok by lia. eexists. split; [reflexivity|].
    unfold good_loc; cbn. sp; auto; lia.
  - unfold run. rewrite E4. auto.
  - destruct E4 as (p & E4 & E5). unfold run. rewrite E4. rewrite mk_sref_ok by lia.
    eexists. split; [reflexivity|]. unfold good_loc; cbn. sp; auto; lia.
Qed.

Lemma scan_number_run line col start s :
  scan_number content line col start s =
  if ceq (cc s) 48 && ceq (nc s) 98 then run cfg2 true false line col start (advance s)
  else if ceq (cc s) 48 && ceq (nc s) 120 then run cfg16 true false line col start (advance s)
  else run cfg10 false true line col start s.
Proof. reflexivity. Qed.

Lemma ceq_some o c : ceq o c = true <-> o = Some c.
Proof. destruct o; simpl; [rewrite N.eqb_eq|]; split; congruence. Qed.

Lemma based_post cfg line col s c d r k0 :
  wf s -> cc s = Some c -> R s = d :: r -> a_cfg cfg -> 
  (forall a b, digit_groups (fun x => allowed cfg x = true) a -> number_ends hexadecimal b ->
     lexeme (c :: d :: a) b INTEGER /\ base_ok INTEGER (int_base cfg) (c :: d :: a)) ->
  k0 = run cfg true false line col (lexpos s) (advance s) ->
  post line col s c k0.
Proof.
  intros W C HR A H ->.
  assert (W1 := wf_advance _ s W).
  assert (C1 : cc (advance s) = Some d) by (rewrite cc_advance, (wf_nc _ s W), HR; auto).
  assert (R1 := R_adv1 s d r W HR).
  pose proof (wf_cc_some _ _ _ W C).
  destruct (num_list cfg true false false r) as [[a b] e] eqn:N.
  assert (P1 : lexpos (advance s) = lexpos s + 1) by reflexivity.
  destruct (run_spec cfg true false line col (lexpos s) (advance s) d a b e) as (s' & W' & E1 & E2 & E3 & E4);
    auto; try lia; [rewrite R1; auto|].
  assert (ER : R s = (d :: a) ++ R s') by (rewrite HR, E1; simpl; congruence).
  destruct e as [[|] dec|m].
  - destruct E4 as (err & E4 & E5). rewrite E4. split; auto. split; [simpl; lia|].
    exists (d :: a). cbn [fst snd]. auto.
  - rewrite E4. split; auto. split; [simpl; lia|]. exists (d :: a). cbn [fst snd].
    split; auto. apply num_sound in N as (N1 & a1 & N2 & [[-> ->]|N3]).
    + assert (X : fst (token_value INTEGER (int_base cfg) (c :: d :: a1)) = INTEGER).
      { unfold token_value. destruct A as [->|[->| ->]]; reflexivity. }
      rewrite X. rewrite E1. apply H; auto. apply num_stops_ends in N1; auto.
    + destruct N3 as [N3 _]. discriminate.
  - destruct E4 as (err & E4 & E5). rewrite E4. split; auto. split; [simpl; lia|].
    exists (d :: a). cbn [fst snd]. auto.
Qed.

Lemma scan_number_post line col s c :
  wf s -> cc s = Some c -> digit c -> post line col s c (scan_number content line col (lexpos s) s).
Proof.
  intros W C D. rewrite scan_number_run. rewrite C, (wf_nc _ s W).
  pose proof (wf_cc_some _ _ _ W C).
  destruct (ceq (Some c) 48 && ceq (hd_error (R s)) 98) eqn:B2.
  { apply andb_true_iff in B2 as [B2 B3]. apply ceq_some in B2. inv B2.
    apply ceq_some in B3. destruct (R s) as [|d r] eqn:HR; [discriminate|]. inv B3.
    eapply (based_post cfg2); eauto; [left; auto|]. intros a b Ha Hb.
    rewrite (digit_groups_iff _ binary) in Ha by apply allowed2. split.
    - apply (lx_binary a b); auto.
    - left. split; auto. exists a. auto. }
  destruct (ceq (Some c) 48 && ceq (hd_error (R s)) 120) eqn:B16.
  { apply andb_true_iff in B16 as [B2' B3]. apply ceq_some in B2'. inv B2'.
    apply ceq_some in B3. destruct (R s) as [|d r] eqn:HR; [discriminate|]. inv B3.
    eapply (based_post cfg16); eauto; [right; left; auto|]. intros a b Ha Hb.
    rewrite (digit_groups_iff _ hexadecimal) in Ha by apply allowed16. split.
    - apply (lx_hex a b); auto.
    - right; left. split; auto. exists a. auto. }
  destruct (num_list cfg10 false true false (R s)) as [[a b] e] eqn:N.
  destruct (run_spec cfg10 false true line col (lexpos s) s c a b e) as (s' & W' & E1 & E2 & E3 & E4);
    auto; try lia.
  assert (ER : R s = a ++ R s') by (rewrite E1; auto).
  destruct e as [[|] dec|m].
  - destruct E4 as (err & E4 & E5). rewrite E4. split; auto. split; [simpl; lia|]. eauto.
  - rewrite E4. split; auto. split; [simpl; lia|]. exists a. cbn [fst snd].
    split; auto. apply num_sound in N as (N1 & a1 & N2 & N3).
    apply num_stops_ends in N1; [|right; right; auto].
    assert (G : digit_groups digit (c :: a1)).
    { apply digit_groups_more. exists c, a1. sp; auto.
      clear - N2. induction N2; constructor; auto; apply allowed10; auto. }
    rewrite E1. destruct N3 as [[-> ->]|(_ & -> & a2 & -> & N4)].
    + split.
      * apply lx_integer; auto. intros (X & x & y & -> & X2). injection X as -> ->.
        rewrite E2 in B2, B16. cbn in B2, B16. lia.
      * right; right. split; auto.
    + unfold dgroups in N4. rewrite (digit_groups_iff _ digit) in N4 by apply allowed10. split.
      * cbn [fst token_value]. change (c :: a1 ++ 46%N :: a2) with ((c :: a1) ++ t "." ++ a2).
        apply lx_decimal; auto.
      * exists (c :: a1), a2. auto.
  - destruct E4 as (err & E4 & E5). rewrite E4. split; auto. split; [simpl; lia|]. eauto.
Qed.

Lemma in_crash_sq (r : text) : r = [] \/ r = t "'" \/ r = t "''" -> In (39%N :: r) crashing.
Proof. intros [->|[->| ->]]; cbn; auto. Qed.

(** [s2] is the state after the three opening quotes. *)
Lemma scan_triple_post line col s q s2 :
  wf s -> cc s = Some q -> q = 34%N \/ q = 39%N ->
  wf s2 -> R s = q :: q :: R s2 -> lexpos s2 = lexpos s + 2 ->
  post line col s q (scan_triple content q line col (lexpos s) s2) /\
  (forall a b, R s2 = a ++ b -> first_end [q; q; q] a -> b <> [] ->
     exists s', scan_triple content q line col (lexpos s) s2 = (s', SDone STRING 0) /\ R s' = b) /\
  (R s2 = [] -> snd (scan_triple content q line col (lexpos s) s2) = SStop LCrash).
Proof.
  intros W C Q W2 HR P2.
  destruct (triple_loop_spec content q fuel 0 s2) as (s' & W' & L1 & L2 & H); auto; try lia.
  { pose proof (R_fuel content s2 (wf_pos _ _ W2)). lia. }
  pose proof (wf_cc_some _ _ _ W C) as PC.
  pose proof (R_length content s (wf_pos _ s W)) as LR. rewrite HR in LR. cbn [length] in LR.
  pose proof (R_length content s' (wf_pos _ s' W')) as LR'.
  pose proof (R_length content s2 (wf_pos _ s2 W2)) as LR2.
  unfold scan_triple.
  assert (Bad : find_triple q 0 (R s2) = None \/ (exists a, find_triple q 0 (R s2) = Some (a, [])) ->
    triple_loop content fuel q 0 s2 = (s', Some false) -> R s' = [] ->
    post line col s q (s', SStop (raise Unterminated_triple (mk_sref content line col (lexpos s) (lexpos s'))))).
  { intros _ E ER. split; [auto|]. cbn [fst snd].
    destruct (R s2) as [|d r] eqn:R2.
    - specialize (L2 eq_refl). split; [lia|]. exists [q; q]. rewrite ER. split; auto.
      unfold mk_sref. replace (lexpos s' <? len) with false.
      + rewrite andb_false_r. cbn. rewrite HR. destruct Q as [->| ->]; cbn; auto.
      + cbn [length] in LR2. lia.
    - specialize (L1 ltac:(discriminate)). rewrite ER in L1, LR'. cbn [length] in *. split; [lia|].
      exists (q :: q :: d :: r). rewrite ER, app_nil_r. split; auto.
      rewrite mk_sref_ok by lia. cbn. unfold good_loc; cbn; sp; auto; lia. }
  destruct (find_triple q 0 (R s2)) as [[a b]|] eqn:F.
  - destruct H as [ER H]. apply find_triple_some in F as F'; [|lia]. destruct F' as [F1 F2].
    cbn [repeat app] in F2.
    assert (U : forall a' b', R s2 = a' ++ b' -> first_end [q; q; q] a' -> b' = b).
    { intros a' b' E1 E2. destruct (first_end_unique [q;q;q] a b a' b'); auto; try discriminate. congruence. }
    destruct b as [|d b]; rewrite H.
    + split; [apply Bad; eauto|]. split.
      * intros a' b' E1 E2 E3. exfalso. apply E3. eapply U; eauto.
      * intros X. rewrite X in F. discriminate.
    + split; [|split].
      * split; [auto|]. cbn [fst snd].
        assert (R s2 <> []) by (intros X; rewrite X in F; discriminate).
        rewrite (L1 H0). rewrite F1, ER, app_length. split; [lia|].
        exists (q :: q :: a). rewrite HR, F1. cbn [app]. split; auto.
        assert (X : fst (token_value STRING 0 (q :: q :: q :: a)) = STRING).
        { destruct Q as [->| ->]; reflexivity. }
        rewrite X. split; [|exact I]. apply (lx_triple q a (d :: b)); auto. discriminate.
      * intros a' b' E1 E2 E3. exists s'. rewrite ER. rewrite (U _ _ E1 E2). auto.
      * intros X. rewrite X in F. discriminate.
  - destruct H as [ER H]. rewrite H. split; [apply Bad; auto|]. split.
    + intros a' b' E1 E2 E3. exfalso. apply find_triple_none in F; [|lia].
      apply F. cbn [repeat app]. destruct E2 as [(x & ->) _]. exists x, b'. rewrite E1, <- app_assoc. auto.
    + intros X. specialize (L2 X). unfold mk_sref. replace (lexpos s' <? len) with false.
      * rewrite andb_false_r. auto.
      * rewrite X in LR2. cbn [length] in LR2. lia.
Qed.

Lemma string_body_head (r : text) : ~ string_body (34%N :: r).
Proof.
  intros (_ & H & _). destruct (H [] r eq_refl) as (x & E). destruct x; discriminate.
Qed.

Lemma scan_dquote_post line col s :
  wf s -> cc s = Some 34%N ->
  post line col s 34 (scan_dquote content line col (lexpos s) s).
Proof.
  intros W C. unfold scan_dquote. rewrite (wf_nc _ s W), (wf_nnc _ s W).
  pose proof (wf_cc_some _ _ _ W C) as PC.
  destruct (ceq (hd_error (R s)) 34 && ceq (hd_error (tl (R s))) 34) eqn:Q.
  - apply andb_true_iff in Q as [Q1 Q2]. apply ceq_some in Q1, Q2.
    destruct (R s) as [|c1 [|c2 r]] eqn:HR; try discriminate. cbn in Q1, Q2. inv Q1. inv Q2.
    assert (W1 := wf_advance _ s W). assert (W2 := wf_advance _ _ W1).
    assert (R1 := R_adv1 s _ _ W HR). assert (R2 := R_adv1 _ _ _ W1 R1).
    destruct (scan_triple_post line col s 34 (advance (advance s))) as (P & _); auto.
    + rewrite R2; auto.
    + cbn [lexpos Lexer.advance]. lia.
  - destruct (find_quote (R s)) as [a e] eqn:F.
    destruct (string_loop_spec content fuel s a e) as (s' & E1 & W' & E2 & E3); auto.
    { pose proof (R_fuel content s (wf_pos _ _ W)). lia. }
    rewrite E1. assert (P := in_range s s' _ a W C E2 E3).
    apply find_quote_sound in F as (b & F1 & F2).
    destruct e as [m|].
    + split; auto. cbn [fst snd]. split; [lia|]. exists a. split; auto.
      rewrite mk_sref_ok by lia. cbn. unfold good_loc; cbn; sp; auto; lia.
    + destruct F2 as ((b' & ->) & F2).
      assert (E4 : R s' = 34%N :: b') by (rewrite E2 in F1; apply app_inv_head in F1; auto).
      assert (R1 := R_adv1 s' _ _ W' E4).
      split; [apply wf_advance; auto|]. split; [cbn [fst lexpos Lexer.advance]; lia|]. exists (a ++ [34%N]). cbn [fst snd].
      rewrite R1, <- app_assoc. split; [auto|].
      rewrite F1 in Q.
      assert (NT : ~ (a = [] /\ exists r, b' = 34%N :: r)).
      { intros (-> & r & ->). discriminate. }
      split; [|exact I].
      assert (X : fst (token_value STRING 0 (34%N :: a ++ [34%N])) = STRING).
      { cbn. destruct (match a ++ [34%N] with [] => false | _ => _ end); auto. }
      rewrite X. apply (lx_string a b'); auto.
Qed.

Lemma scan_dquote_complete line col s a b k :
  wf s -> cc s = Some 34%N -> R s = a ++ b -> lexeme (34%N :: a) b k ->
  exists s', scan_dquote content line col (lexpos s) s = (s', SDone STRING 0) /\ R s' = b /\ k = STRING.
Proof.
  intros W C HR L. unfold scan_dquote. rewrite (wf_nc _ s W), (wf_nnc _ s W).
  pose proof (wf_cc_some _ _ _ W C) as PC.
  remember (34%N :: a) as x eqn:X. destruct L; try discriminate X; cbn [t map list_ascii_of_string app] in X.
  - injection X as -> _. exfalso. unfold letter in H. lia.
  - apply delimiter_table in H. cbn in H. subst d.
    repeat (destruct H as [H|H]; [discriminate H|]). contradiction.
  - injection X as X. subst a. rewrite <- app_assoc in HR. cbn in HR.
    assert (Q : ceq (hd_error (R s)) 34 && ceq (hd_error (tl (R s))) 34 = false).
    { rewrite HR. destruct body as [|d body]; cbn.
      - destruct after as [|e after]; cbn; auto. apply N.eqb_neq. intros ->. apply H0; eauto.
      - destruct (N.eqb_spec d 34); auto. subst. exfalso. eapply string_body_head; eauto. }
    rewrite Q.
    destruct (string_loop_spec content fuel s body None) as (s' & E1 & W' & E2 & E3); auto.
    { rewrite HR. apply find_quote_complete; auto. }
    { pose proof (R_fuel content s (wf_pos _ _ W)). lia. }
    rewrite E1. eexists; split; [reflexivity|]. split; auto.
    rewrite HR in E2. apply app_inv_head in E2. eapply R_adv1; eauto.
  - injection X as -> <-. cbn in HR.
    assert (W1 := wf_advance _ s W). assert (W2 := wf_advance _ _ W1).
    assert (R1 := R_adv1 s _ _ W HR). assert (R2 := R_adv1 _ _ _ W1 R1).
    destruct (scan_triple_post line col s 34 (advance (advance s))) as (_ & P & _); auto.
    + rewrite R2; auto.
    + cbn [lexpos Lexer.advance]. lia.
    + destruct (P body after R2 H0 H1) as (s' & E1 & E2). exists s'. rewrite HR. cbn. auto.
  - exfalso. subst r. inversion H; subst; unfold digit in *; lia.
  - exfalso. destruct r1; inversion H; subst; cbn in X; injection X as -> ; unfold digit in *; lia.
Qed.

Lemma raise_crash m line col start p : len <= p ->
  raise m (mk_sref content line col start p) = LCrash.
Proof. intros H. unfold mk_sref. replace (p <? len) with false by lia. rewrite andb_false_r. auto. Qed.

Lemma scan_squote_post line col s :
  wf s -> cc s = Some 39%N ->
  post line col s 39 (scan_squote content line col (lexpos s) s).
Proof.
  intros W C. unfold scan_squote. rewrite !cc_advance.
  pose proof (wf_cc_some _ _ _ W C) as PC.
  assert (W1 := wf_advance _ s W). assert (W2 := wf_advance _ _ W1).
  rewrite (wf_nc _ s W), (wf_nc _ _ W1).
  pose proof (R_length content s (wf_pos _ s W)) as LR.
  assert (RA := R_advance content s (wf_pos _ s W)).
  assert (RA2 := R_advance content _ (wf_pos _ _ W1)).
  assert (P1 : lexpos (advance s) = lexpos s + 1) by reflexivity.
  assert (P2 : lexpos (advance (advance s)) = lexpos s + 2) by (cbn [lexpos Lexer.advance]; lia).
  rewrite RA in *. destruct (R s) as [|c1 r] eqn:HR; cbn [hd_error tl ceq negb length] in *.
  { split; auto. cbn [fst snd]. split; [lia|]. exists []. rewrite HR, RA. split; auto.
    rewrite raise_crash by lia. cbn; auto. }
  destruct (c1 =? 39)%N eqn:Q1; cbn [negb].
  2:{ split; auto. cbn [fst snd]. split; [lia|]. exists [c1]. rewrite HR, RA. split; auto.
      rewrite mk_sref_ok by lia. cbn. unfold good_loc; cbn; sp; auto; lia. }
  apply N.eqb_eq in Q1. subst c1.
  destruct r as [|c2 r]; cbn [hd_error tl ceq negb length] in *.
  { split; auto. cbn [fst snd]. split; [lia|]. exists [39%N]. rewrite HR, RA2. split; auto.
    rewrite raise_crash by lia. cbn; auto. }
  destruct (c2 =? 39)%N eqn:Q2; cbn [negb].
  2:{ split; auto. cbn [fst snd]. split; [lia|]. exists [39%N; c2]. rewrite HR, RA2. split; auto.
      rewrite mk_sref_ok by lia. cbn. unfold good_loc; cbn; sp; auto; lia. }
  apply N.eqb_eq in Q2. subst c2.
  apply scan_triple_post; auto. rewrite RA2. auto.
Qed.

Lemma scan_squote_complete line col s a b k :
  wf s -> cc s = Some 39%N -> R s = a ++ b -> lexeme (39%N :: a) b k ->
  exists s', scan_squote content line col (lexpos s) s = (s', SDone STRING 0) /\ R s' = b /\ k = STRING.
Proof.
  intros W C HR L. unfold scan_squote. rewrite !cc_advance.
  pose proof (wf_cc_some _ _ _ W C) as PC.
  assert (W1 := wf_advance _ s W). assert (W2 := wf_advance _ _ W1).
  rewrite (wf_nc _ s W), (wf_nc _ _ W1).
  remember (39%N :: a) as x eqn:X. destruct L; try discriminate X; cbn [t map list_ascii_of_string app] in X.
  - injection X as -> _. exfalso. unfold letter in H. lia.
  - apply delimiter_table in H. cbn in H. subst d.
    repeat (destruct H as [H|H]; [discriminate H|]). contradiction.
  - injection X as -> <-. cbn in HR.
    assert (R1 := R_adv1 s _ _ W HR). assert (R2 := R_adv1 _ _ _ W1 R1).
    destruct (scan_triple_post line col s 39 (advance (advance s))) as (_ & P & _); auto.
    + rewrite R2; auto.
    + cbn [lexpos Lexer.advance]. lia.
    + destruct (P body after R2 H0 H1) as (s' & E1 & E2). exists s'. rewrite HR, R1. cbn. auto.
  - exfalso. subst r. inversion H; subst; unfold digit in *; lia.
  - exfalso. destruct r1; inversion H; subst; cbn in X; injection X as -> ; unfold digit in *; lia.
Qed.

(** *** The whole scanner *)

Lemma mono s s' c a : wf s -> wf s' -> cc s = Some c -> R s = a ++ R s' -> lexpos s <= lexpos s'.
Proof. intros W W' C H. pose proof (pos_of_R s s' c a W W' C H). lia. Qed.

Lemma word_kind txt : fst (token_value IDENTIFIER 0 txt) = KEYWORD /\ In txt reserved \/
                      fst (token_value IDENTIFIER 0 txt) = IDENTIFIER /\ ~ In txt reserved.
Proof.
  unfold token_value. change keywords with reserved.
  assert (E : is_keyword txt = true <-> In txt reserved).
  { unfold is_keyword. rewrite existsb_exists. change keywords with reserved. split.
    - intros (x & H1 & H2). apply text_eqb_eq in H2. subst; auto.
    - intros H. exists txt. split; auto. apply text_eqb_refl. }
  destruct (is_keyword txt); cbn; [left|right]; split; auto; [tauto|intros H; apply E in H; discriminate].
Qed.

Lemma comment_kind txt : fst (token_value COMMENT 0 txt) = COMMENT.
Proof. unfold token_value. destruct (starts_with _ txt); auto. Qed.

Lemma not_nl_spec c : not_nl c = true <-> c <> newline.
Proof. unfold not_nl, newline. lia. Qed.

Lemma Forall_not_nl (a : text) : Forall (fun c => c <> newline) a <-> ~ In newline a.
Proof.
  rewrite Forall_forall. split.
  - intros H I. apply (H _ I); auto.
  - intros H x I E. subst; auto.
Qed.

(** One-character and two-character delimiters in the scanner. *)
Lemma post_one line col s c k :
  wf s -> delimiter [c] k -> fst (token_value k 0 [c]) = k -> k <> INTEGER -> k <> DECIMAL -> k <> KEYWORD ->
  longest_delimiter [c] (R s) ->
  post line col s c (s, SDone k 0).
Proof.
  intros W D K K1 K2 K3 L. split; auto. cbn [fst snd]. split; [lia|]. exists []. split; auto.
  rewrite K. split; [apply lx_delimiter; auto|]. destruct k; cbn; auto; contradiction.
Qed.

Lemma post_two line col s c d r k :
  wf s -> R s = d :: r -> delimiter [c; d] k -> fst (token_value k 0 [c; d]) = k ->
  k <> INTEGER -> k <> DECIMAL -> k <> KEYWORD ->
  post line col s c (advance s, SDone k 0).
Proof.
  intros W HR D K K1 K2 K3. assert (R1 := R_adv1 s d r W HR).
  split; [apply wf_advance; auto|]. cbn [fst snd]. split; [cbn [lexpos Lexer.advance]; lia|].
  exists [d]. rewrite R1. split; auto.
  rewrite K. split; [|destruct k; cbn; auto; contradiction].
  apply lx_delimiter; auto. destruct r as [|e r]; cbn; auto. split; [|split; discriminate].
  intros k' D'. apply delimiter_shape in D' as (x & [E|(y & E)]); discriminate.
Qed.

Lemma longest_one c r :
  (forall d, hd_error r = Some d ->
     (forall k, ~ delimiter [c; d] k) /\ ~ (c = 47%N /\ d = 47%N) /\ ~ (c = 47%N /\ d = 42%N)) ->
  longest_delimiter [c] r.
Proof.
  destruct r as [|d r]; cbn; auto. intros H. destruct (H d eq_refl) as (H1 & H2 & H3).
  split; auto. split; intros E; injection E as -> ->; tauto.
Qed.

Ltac one := apply post_one; auto; try discriminate;
  [ apply delimiter_table; cbn; auto 40
  | apply longest_one; intros d' Hd; rewrite ?Hd in *;
    split; [intros k' Hk'; apply delimiter2 in Hk'|]; cbn [ceq] in *; lia ].
Ltac two := match goal with
  | H : ceq (hd_error ?r) _ = true |- _ =>
      apply ceq_some in H; destruct r as [|d' r'] eqn:HR; [discriminate|]; injection H as ->;
      eapply post_two; eauto; try discriminate; apply delimiter_table; cbn; auto 40
  end.

Lemma scan_post line col s c :
  wf s -> cc s = Some c -> line = line_no s -> col = col_no s ->
  post line col s c (scan content c line col (lexpos s) s).
Proof.
  intros W C Eline Ecol. unfold scan. rewrite (wf_nc _ s W).
  pose proof (wf_cc_some _ _ _ W C) as PC.
  pose proof (R_fuel content s (wf_pos _ _ W)) as HF.
  destruct ((c =? 47)%N && ceq (hd_error (R s)) 47) eqn:LC.
  { apply andb_true_iff in LC as [L1 L2]. apply N.eqb_eq in L1. subst c.
    apply ceq_some in L2. destruct (R s) as [|d r] eqn:HR; [discriminate|]. injection L2 as ->.
    destruct (span not_nl (R s)) as [a b] eqn:S.
    destruct (while_line_comment content fuel s a b 47%N W C S) as (s' & E1 & W' & E2); [rewrite HR; lia|].
    rewrite E1.
    apply (span_spec _ (fun c => c <> newline)) in S as (S1 & S2 & S3); [|apply not_nl_spec].
    split; auto. cbn [fst snd]. split; [eapply mono; eauto; rewrite E2; eauto|].
    exists a. rewrite E2, <- S1. split; auto.
    rewrite comment_kind. split; [|exact I].
    destruct a as [|d' a].
    - cbn in S1. rewrite <- S1, HR in S3. exfalso. apply S3. discriminate.
    - rewrite HR in S1. injection S1 as <- ->. apply (lx_line_comment a b).
      + apply Forall_not_nl. inversion S2; auto.
      + destruct b as [|e b]; auto. right. exists b. f_equal.
        destruct (N.eq_dec e newline); auto. contradiction. }
  destruct ((c =? 47)%N && ceq (hd_error (R s)) 42) eqn:BC.
  { apply andb_true_iff in BC as [L1 L2]. apply N.eqb_eq in L1. subst c.
    apply ceq_some in L2. destruct (R s) as [|d r] eqn:HR; [discriminate|]. injection L2 as ->.
    destruct (while_block_comment content fuel s 47%N W C) as (s' & E1 & W' & E2); [rewrite HR; lia|].
    rewrite E1. assert (W1 := wf_advance _ _ W').
    assert (RA := R_advance content _ (wf_pos _ _ W')).
    assert (G : exists a, R s = (42%N :: a) ++ R (advance s') /\
                lexeme (47%N :: 42%N :: a) (R (advance s')) COMMENT).
    { rewrite HR in E2. cbn [find_close] in E2.
      replace ((47 =? 42) && (42 =? 47))%N with false in E2 by reflexivity.
      destruct (find_close 42 r) as [[a b]|] eqn:F.
      - apply find_close_some in F as (b' & F1 & F2 & F3). subst b.
        rewrite RA, E2, HR, F1. cbn [tl]. exists (a ++ [47%N]). split.
        + cbn [app]. rewrite <- app_assoc. auto.
        + apply (lx_block_comment (a ++ [47%N]) b'). auto.
      - apply find_close_none in F. rewrite RA, E2, HR. cbn [tl]. exists r. rewrite app_nil_r.
        split; auto. apply (lx_block_comment_eof r). auto. }
    destruct G as (a & G1 & G2).
    split; auto. cbn [fst snd]. split; [eapply mono; eauto|].
    exists (42%N :: a). rewrite comment_kind. split; [|split; [auto|exact I]]. congruence. }
  destruct (is_alpha c) eqn:A.
  { destruct (span (fun d => is_alnum d || (d =? 95)%N) (R s)) as [a b] eqn:S.
    destruct (while_nc content _ fuel s a b W S) as (s' & E1 & W' & E2 & E3 & _); [lia|]. rewrite E1.
    apply (span_spec _ ident_char) in S as (S1 & S2 & S3); [|apply is_ident_char].
    split; auto. cbn [fst snd]. split; [lia|]. exists a. rewrite E2. split; auto. split; [|exact I].
    apply lx_word; auto. apply is_alpha_letter; auto. apply word_kind. }
  destruct (punctuation c) as [k|] eqn:P.
  { apply punctuation_some in P as (P1 & P2 & P3 & P4 & P5 & P6 & P7 & P8).
    apply post_one; auto.
    - rewrite P8. auto.
    - intros ->. apply delimiter_table in P1. cbn in P1. intuition discriminate.
    - intros ->. apply delimiter_table in P1. cbn in P1. intuition discriminate.
    - intros ->. apply delimiter_table in P1. cbn in P1. intuition discriminate.
    - apply longest_one. intros d Hd. rewrite Hd in LC, BC. cbn [ceq] in LC, BC.
      split; [intros k' Hk'; apply delimiter2 in Hk'|]; lia. }
  destruct (N.eqb_spec c 61); [subst c|].
  { destruct (ceq (hd_error (R s)) 62) eqn:N1; [two|].
    destruct (ceq (hd_error (R s)) 61) eqn:N2; [two|one]. }
  destruct (N.eqb_spec c 46); [subst c|].
  { destruct (ceq (hd_error (R s)) 46) eqn:N1; [two|one]. }
  destruct ((c =? 60)%N || (c =? 62)%N) eqn:N0.
  { apply orb_true_iff in N0 as [N0|N0]; apply N.eqb_eq in N0; subst c;
    (destruct (ceq (hd_error (R s)) 61) eqn:N1; [two|one]). }
  destruct (N.eqb_spec c 33); [subst c|].
  { destruct (ceq (hd_error (R s)) 61) eqn:N1; [two|].
    split; auto. cbn [fst snd]. split; [lia|]. exists []. split; auto.
    rewrite mk_sref_ok by lia. unfold good_loc; cbn; sp; auto; lia. }
  destruct (N.eqb_spec c 42); [subst c|].
  { destruct (ceq (hd_error (R s)) 42) eqn:N1; [two|one]. }
  destruct (N.eqb_spec c 34); [subst c; apply scan_dquote_post; auto|].
  destruct (N.eqb_spec c 39); [subst c; apply scan_squote_post; auto|].
  destruct (is_numeric c) eqn:D; [apply scan_number_post; auto; apply is_numeric_digit; auto|].
  split; auto. cbn [fst snd]. split; [lia|]. exists []. split; auto.
  rewrite mk_sref_ok by lia. unfold good_loc; cbn; sp; auto; lia.
Qed.

(** *** Completeness *)

Lemma scan_digit c line col start s :
  digit c -> scan content c line col start s = scan_number content line col start s.
Proof.
  intros D. assert (E : (c = 48 \/ c = 49 \/ c = 50 \/ c = 51 \/ c = 52 \/ c = 53 \/ c = 54 \/ c = 55 \/ c = 56 \/ c = 57)%N)
    by (unfold digit in D; lia).
  repeat (destruct E as [->|E]; [reflexivity|]). subst; reflexivity.
Qed.

Lemma run_complete cfg req da line col start s0 c a b dec :
  wf s0 -> cc s0 = Some c -> 0 <= start <= lexpos s0 ->
  num_list cfg req da false (R s0) = (a, b, NDone false dec) ->
  exists s', run cfg req da line col start s0 = (s', SDone (if dec then DECIMAL else INTEGER) (int_base cfg)) /\ R s' = b.
Proof.
  intros W C P H. destruct (run_spec cfg req da line col start s0 c a b _ W C P H) as (s' & _ & E & _ & _ & E').
  eauto.
Qed.

Lemma dgroups_intro cfg (P : char -> Prop) (a : text) :
  (forall c, allowed cfg c = true <-> P c) -> digit_groups P a -> dgroups cfg a.
Proof. intros H D. unfold dgroups. rewrite (digit_groups_iff _ P); auto. Qed.

Lemma num_tail_int cfg da (c : char) (a b : text) :
  a_cfg cfg -> dgroups cfg (c :: a) -> num_stops cfg b ->
  num_list cfg false da false (a ++ b) = (a, b, NDone false false).
Proof.
  intros A D S. pose proof (num_complete_int cfg false da false (c :: a) b (a_cfg_ok _ A) D S) as H.
  cbn [app num_list] in H. assert (F : allowed cfg c = true) by (inversion D; auto). rewrite F in H.
  destruct (num_list cfg false da false (a ++ b)) as [[x y] e]. injection H as -> -> ->. auto.
Qed.

Lemma num_tail_dec cfg (c : char) (a1 a2 b : text) :
  a_cfg cfg -> dgroups cfg (c :: a1) -> dgroups cfg a2 -> num_stops cfg b ->
  num_list cfg false true false (a1 ++ 46%N :: a2 ++ b) = (a1 ++ 46%N :: a2, b, NDone false true).
Proof.
  intros A D1 D2 S. pose proof (num_complete_dec cfg false false (c :: a1) a2 b (a_cfg_ok _ A) D1 D2 S) as H.
  cbn [app num_list] in H. assert (F : allowed cfg c = true) by (inversion D1; auto). rewrite F in H.
  destruct (num_list cfg false true false (a1 ++ 46%N :: a2 ++ b)) as [[x y] e]. injection H as -> -> ->. auto.
Qed.

Lemma digit_not_under c : digit c -> c <> 95%N /\ c <> 46%N.
Proof. unfold digit; lia. Qed.

Lemma digit_groups_char f (r : text) x : digit_groups f r -> In x r -> f x \/ x = 95%N.
Proof.
  induction 1; cbn; intros I.
  - destruct I as [<-|[]]; auto.
  - destruct I as [<-|I]; auto.
  - destruct I as [<-|[<-|I]]; auto.
Qed.

Lemma scan_number_complete line col s c a b k :
  wf s -> cc s = Some c -> digit c -> R s = a ++ b -> lexeme (c :: a) b k ->
  exists s' k0 base, scan_number content line col (lexpos s) s = (s', SDone k0 base) /\ R s' = b /\
                     fst (token_value k0 base (c :: a)) = k.
Proof.
  intros W C D HR L. rewrite scan_number_run. rewrite C, (wf_nc _ s W).
  pose proof (wf_cc_some _ _ _ W C) as PC.
  assert (W1 := wf_advance _ s W).
  assert (P1 : lexpos (advance s) = lexpos s + 1) by reflexivity.
  remember (c :: a) as x eqn:X. destruct L; cbn [t map list_ascii_of_string app] in X.
  - exfalso. injection X as <- _. apply (proj1 D); reflexivity.
  - exfalso. injection X as <- _. apply (proj1 D); reflexivity.
  - exfalso. injection X as <- _. apply (proj1 D); reflexivity.
  - exfalso. injection X as -> _. unfold digit, letter in *; lia.
  - exfalso. subst d. apply delimiter_table in H. cbn in H.
    repeat (destruct H as [H|H]; [try discriminate H; injection H; intros; subst; cbn in D; unfold digit in D; lia|]). contradiction.
  - exfalso. injection X as <- _. apply (proj1 D); reflexivity.
  - exfalso. injection X as <- _. unfold digit in D; lia.
  - injection X as <- <-. cbn in HR. rewrite HR. cbn [hd_error].
    change (ceq (Some (N_of_ascii "0")) 48 && ceq (Some 98%N) 98) with true. cbn iota.
    assert (R1 := R_adv1 s _ _ W HR).
    assert (C1 : cc (advance s) = Some 98%N) by (rewrite cc_advance, (wf_nc _ s W), HR; auto).
    destruct (run_complete cfg2 true false line col (lexpos s) (advance s) 98%N r after false) as (s' & E1 & E2); auto; try lia.
    { rewrite R1. apply num_complete_int; [apply a_cfg_ok; left; auto| |apply num_stops_ends; auto; left; auto].
      eapply dgroups_intro; eauto. apply allowed2. }
    exists s', INTEGER, 2. auto.
  - injection X as <- <-. cbn in HR. rewrite HR. cbn [hd_error].
    change (ceq (Some (N_of_ascii "0")) 48 && ceq (Some 120%N) 98) with false.
    change (ceq (Some (N_of_ascii "0")) 48 && ceq (Some 120%N) 120) with true. cbn iota.
    assert (R1 := R_adv1 s _ _ W HR).
    assert (C1 : cc (advance s) = Some 120%N) by (rewrite cc_advance, (wf_nc _ s W), HR; auto).
    destruct (run_complete cfg16 true false line col (lexpos s) (advance s) 120%N r after false) as (s' & E1 & E2); auto; try lia.
    { rewrite R1. apply num_complete_int; [apply a_cfg_ok; right; left; auto| |apply num_stops_ends; auto; right; left; auto].
      eapply dgroups_intro; eauto. apply allowed16. }
    exists s', INTEGER, 16. auto.
  - subst r.
    assert (Hd : forall e, hd_error (a ++ after) = Some e -> e = 98%N \/ e = 120%N -> c <> 48%N).
    { intros e He Hbx ->. destruct a as [|a0 a]; cbn in He.
      - destruct after as [|f after]; [discriminate|]. injection He as ->. apply H1. split; eauto.
      - injection He as ->. apply (digit_groups_char digit _ e) in H; [|right; left; auto].
        unfold digit in H; lia. }
    assert (B2 : ceq (Some c) 48 && ceq (hd_error (a ++ after)) 98 = false).
    { apply not_true_iff_false. intros B. apply andb_true_iff in B as [B3 B4]. apply ceq_some in B3, B4.
      injection B3 as ->. eapply (Hd _ B4); auto. }
    assert (B16 : ceq (Some c) 48 && ceq (hd_error (a ++ after)) 120 = false).
    { apply not_true_iff_false. intros B. apply andb_true_iff in B as [B3 B4]. apply ceq_some in B3, B4.
      injection B3 as ->. eapply (Hd _ B4); auto. }
    rewrite HR, B2, B16.
    destruct (run_complete cfg10 false true line col (lexpos s) s c a after false) as (s' & E1 & E2); auto; try lia.
    { rewrite HR. eapply num_tail_int; [right; right; auto| |apply num_stops_ends; auto; right; right; auto].
      eapply dgroups_intro; eauto. apply allowed10. }
    exists s', INTEGER, 10. auto.
  - destruct r1 as [|c0 r1]; [inversion H|]. cbn in X. injection X as -> <-.
    cbn [app] in HR. rewrite <- app_assoc in HR. cbn [app] in HR.
    assert (Hd : forall e, hd_error (r1 ++ 46%N :: r2 ++ after) = Some e -> e = 98%N \/ e = 120%N -> False).
    { intros e He Hbx. destruct r1 as [|a0 a]; cbn in He.
      - injection He as <-. lia.
      - injection He as ->. apply (digit_groups_char digit _ e) in H; [|right; left; auto].
        unfold digit in H; lia. }
    assert (B2 : ceq (Some c) 48 && ceq (hd_error (r1 ++ 46%N :: r2 ++ after)) 98 = false).
    { apply not_true_iff_false. intros B. apply andb_true_iff in B as [B3 B4]. apply ceq_some in B4. eapply Hd; eauto. }
    assert (B16 : ceq (Some c) 48 && ceq (hd_error (r1 ++ 46%N :: r2 ++ after)) 120 = false).
    { apply not_true_iff_false. intros B. apply andb_true_iff in B as [B3 B4]. apply ceq_some in B4. eapply Hd; eauto. }
    rewrite HR, B2, B16.
    destruct (run_complete cfg10 false true line col (lexpos s) s c (r1 ++ 46%N :: r2) after true) as (s' & E1 & E2); auto; try lia.
    { rewrite HR. eapply num_tail_dec; [right; right; auto| | |apply num_stops_ends; auto; right; right; auto];
      eapply dgroups_intro; eauto; apply allowed10. }
    exists s', DECIMAL, 10. auto.
Qed.

Lemma letter_not c : letter c -> is_alpha c = true /\ c <> 47%N.
Proof. intros H. split; [apply is_alpha_letter; auto|unfold letter in H; lia]. Qed.

Lemma scan_complete line col s c a b k :
  wf s -> cc s = Some c -> R s = a ++ b -> lexeme (c :: a) b k ->
  exists s' k0 base, scan content c line col (lexpos s) s = (s', SDone k0 base) /\ R s' = b /\
                     fst (token_value k0 base (c :: a)) = k.
Proof.
  intros W C HR L.
  destruct (N.eq_dec c 34).
  { subst c. destruct (scan_dquote_complete line col s a b k) as (s' & E1 & E2 & E3); auto.
    exists s', STRING, 0. split; [exact E1|]. split; auto. subst k. cbn.
    destruct (match a with [] => false | _ => _ end); auto. }
  destruct (N.eq_dec c 39).
  { subst c. destruct (scan_squote_complete line col s a b k) as (s' & E1 & E2 & E3); auto.
    exists s', STRING, 0. split; [exact E1|]. split; auto. }
  destruct (is_numeric c) eqn:D.
  { apply is_numeric_digit in D. rewrite scan_digit by auto. apply scan_number_complete; auto. }
  pose proof (R_fuel content s (wf_pos _ _ W)) as HF.
  assert (W1 := wf_advance _ s W).
  unfold scan. rewrite (wf_nc _ s W).
  remember (c :: a) as x eqn:X. destruct L; cbn [t map list_ascii_of_string app] in X.
  - injection X as <- <-. rewrite HR. cbn [app hd_error].
    change ((N_of_ascii "/" =? 47)%N && ceq (Some (N_of_ascii "/")) 47) with true. cbn iota.
    destruct (while_line_comment content fuel s (47%N :: body) after 47%N W C) as (s' & E1 & W' & E2); [|lia|].
    { rewrite HR. apply (span_spec_complete _ (fun c => c <> newline)); [apply not_nl_spec| |].
      - constructor; [discriminate|]. apply Forall_not_nl; auto.
      - destruct H0 as [->|(r & ->)]; auto. }
    rewrite E1. exists s', COMMENT, 0. auto.
  - injection X as <- <-. rewrite HR. cbn [app hd_error].
    change ((N_of_ascii "/" =? 47)%N && ceq (Some (N_of_ascii "*")) 47) with false.
    change ((N_of_ascii "/" =? 47)%N && ceq (Some (N_of_ascii "*")) 42) with true. cbn iota.
    destruct (while_block_comment content fuel s 47%N W C) as (s' & E1 & W' & E2); [lia|].
    rewrite E1. apply (find_close_complete body after) in H as (a' & H1 & H2).
    rewrite HR in E2. cbn in E2. rewrite H2 in E2. cbn in E2.
    exists (advance s'), COMMENT, 0. sp; auto. eapply R_adv1; eauto.
  - injection X as <- <-. rewrite HR. cbn [app hd_error].
    change ((N_of_ascii "/" =? 47)%N && ceq (Some (N_of_ascii "*")) 47) with false.
    change ((N_of_ascii "/" =? 47)%N && ceq (Some (N_of_ascii "*")) 42) with true. cbn iota.
    destruct (while_block_comment content fuel s 47%N W C) as (s' & E1 & W' & E2); [lia|].
    rewrite E1. exists (advance s'), COMMENT, 0. sp; auto.
    rewrite (R_advance content) by (eapply wf_pos; eauto).
    rewrite HR in E2. cbn in E2. rewrite app_nil_r in E2.
    destruct (find_close 42 body) as [[a' b']|] eqn:F.
    + exfalso. apply find_close_some in F as (b'' & F1 & F2 & F3). apply H.
      destruct F3 as [(x & F3) _]. exists x, b''. subst b'. rewrite F1.
      change (t "*" ++ a' ++ 47%N :: b'') with (42%N :: a' ++ [47%N] ++ b'').
      rewrite app_assoc. change (42%N :: (a' ++ [47%N]) ++ b'') with ((42%N :: a' ++ [47%N]) ++ b'').
      rewrite F3. rewrite <- app_assoc. auto.
    + rewrite E2. auto.
  - injection X as -> ->. destruct (letter_not c H) as (A & N47).
    replace (c =? 47)%N with false by lia. cbn [andb]. rewrite A.
    destruct (while_nc content (fun d => is_alnum d || (d =? 95)%N) fuel s a after W) as (s' & E1 & W' & E2 & E3 & _); [|lia|].
    { rewrite HR. apply (span_spec_complete _ ident_char); auto. apply is_ident_char. }
    rewrite E1. exists s', IDENTIFIER, 0. sp; auto.
    destruct (word_kind (c :: a)) as [[K1 K2]|[K1 K2]], H2 as [[K3 K4]|[K3 K4]]; try congruence; contradiction.
  - subst d.
    assert (LC : forall e, In e [47%N; 42%N] -> (c =? 47)%N && ceq (hd_error (R s)) e = false).
    { intros e Ie. apply not_true_iff_false. intros B. apply andb_true_iff in B as [B1 B2].
      apply N.eqb_eq in B1. subst c. apply ceq_some in B2. rewrite HR in B2.
      destruct a as [|a0 a].
      - destruct after as [|f after]; [discriminate|]. cbn in B2. injection B2 as ->.
        destruct H0 as (_ & H1 & H2). destruct Ie as [<-|[<-|[]]]; [apply H1|apply H2]; reflexivity.
      - destruct (delimiter_shape _ _ H) as (z & [E|(z' & E)]); [discriminate|].
        injection E as <- -> ->. apply delimiter2 in H. lia. }
    rewrite (LC 47%N), (LC 42%N) by (cbn; auto).
    assert (A : is_alpha c = false).
    { destruct (is_alpha c) eqn:A; auto. apply is_alpha_letter in A. exfalso.
      apply delimiter_table in H. cbn in H.
      repeat (destruct H as [H|H]; [try discriminate H; injection H; intros; subst; unfold letter in A; lia|]). contradiction. }
    rewrite A.
    destruct a as [|a0 a].
    + cbn [app] in HR.
      assert (K1 : k <> INTEGER /\ k <> DECIMAL /\ k <> IDENTIFIER /\ k <> STRING /\ k <> COMMENT).
      { apply delimiter_table in H. cbn in H. 
        repeat (destruct H as [H|H]; [try discriminate H; injection H; intros; subst; sp; discriminate|]). contradiction. }
      assert (K2 : fst (token_value k 0 [c]) = k) by (destruct k; auto; intuition congruence).
      assert (ND : forall e k', hd_error (R s) = Some e -> ~ delimiter [c; e] k').
      { intros e k' He. rewrite HR in He. destruct after as [|f after]; [discriminate|]. injection He as ->.
        apply H0. }
      destruct (punctuation c) as [k'|] eqn:P.
      * exists s, k', 0. sp; auto. apply punctuation_some in P as (P1 & P2 & P3 & P4 & P5 & P6 & P7 & P8).
        rewrite P8. cbn. apply delimiter_table in P1, H. cbn in P1, H.
        clear - P1 H. repeat (destruct H as [H|H]; [try discriminate H; injection H; intros; subst; clear H;
          repeat (destruct P1 as [P1|P1]; [try discriminate P1; injection P1; intros; subst; auto|]); contradiction|]). contradiction.
      * assert (NC : forall e k', delimiter [c; e] k' -> ceq (hd_error (R s)) e = false).
        { intros e k' He. apply not_true_iff_false. intros B. apply ceq_some in B. eapply ND; eauto. }
        exists s, k, 0.
        destruct (punctuation_none c k P H) as [(-> & ->)|[(-> & ->)|[(-> & ->)|[(-> & ->)|(-> & ->)]]]]; cbn [N.eqb Pos.eqb orb].
        -- rewrite (NC 62%N ARROW) by (apply delimiter2; lia || auto 20).
           rewrite (NC 61%N OPERATOR) by (apply delimiter2; auto 20). auto.
        -- rewrite (NC 46%N RANGE) by (apply delimiter2; auto 20). auto.
        -- rewrite (NC 61%N OPERATOR) by (apply delimiter2; auto 20). auto.
        -- rewrite (NC 61%N OPERATOR) by (apply delimiter2; auto 20). auto.
        -- rewrite (NC 42%N OPERATOR) by (apply delimiter2; auto 20). auto.
    + assert (E : a = []).
      { destruct (delimiter_shape _ _ H) as (z & [E|(z' & E)]); [discriminate|]. congruence. }
      subst a. cbn [app] in HR. rewrite HR. cbn [hd_error ceq].
      assert (R1 := R_adv1 s _ _ W HR).
      exists (advance s), k, 0. rewrite R1.
      assert (P : punctuation c = None).
      { destruct (punctuation c) as [k'|] eqn:P; auto. apply punctuation_some in P as (P1 & P2 & P3 & P4 & P5 & P6 & P7 & P8).
        apply delimiter2 in H. lia. }
      rewrite P. apply delimiter2 in H.
      repeat (destruct H as [H|H]; [destruct H as (-> & -> & ->); auto|]).
      destruct H as (-> & -> & ->); auto.
  - exfalso. injection X as <- _. apply n; reflexivity.
  - exfalso. injection X as <- _. lia.
  - exfalso. injection X as <- _. discriminate.
  - exfalso. injection X as <- _. discriminate.
  - exfalso. subst r. assert (digit c) by (inversion H; auto). apply is_numeric_digit in H2. congruence.
  - exfalso. destruct r1 as [|c0 r1]; [inversion H|]. injection X as -> _.
    assert (digit c) by (inversion H; auto). apply is_numeric_digit in H2. congruence.
Qed.

Lemma scan_crash line col s c :
  wf s -> cc s = Some c -> In (c :: R s) crashing ->
  snd (scan content c line col (lexpos s) s) = SStop LCrash.
Proof.
  intros W C H. pose proof (wf_cc_some _ _ _ W C) as PC.
  assert (W1 := wf_advance _ s W). assert (W2 := wf_advance _ _ W1).
  pose proof (R_length content s (wf_pos _ s W)) as LR.
  assert (RA := R_advance content s (wf_pos _ s W)).
  assert (RA2 := R_advance content _ (wf_pos _ _ W1)).
  assert (P1 : lexpos (advance s) = lexpos s + 1) by reflexivity.
  assert (P2 : lexpos (advance (advance s)) = lexpos s + 2) by (cbn [lexpos Lexer.advance]; lia).
  unfold crashing in H. destruct H as [H|[H|[H|[H|[]]]]]; injection H as <- H; rewrite <- H in *; cbn [length tl] in *.
  - change (snd (scan_squote content line col (lexpos s) s) = SStop LCrash). unfold scan_squote.
    rewrite cc_advance, (wf_nc _ s W), <- H. cbn [hd_error ceq negb]. rewrite raise_crash by lia. auto.
  - change (snd (scan_squote content line col (lexpos s) s) = SStop LCrash). unfold scan_squote.
    rewrite !cc_advance, (wf_nc _ s W), <- H, (wf_nc _ _ W1), RA. cbn [hd_error ceq negb N_of_ascii].
    cbn. rewrite raise_crash by lia. auto.
  - change (snd (scan_squote content line col (lexpos s) s) = SStop LCrash). unfold scan_squote.
    rewrite !cc_advance, (wf_nc _ s W), <- H, (wf_nc _ _ W1), RA. cbn [hd_error].
    change (negb (ceq (Some (N_of_ascii "'")) 39)) with false. cbn iota.
    rewrite RA in RA2. cbn [tl] in RA2.
    apply (scan_triple_post line col s 39 (advance (advance s))); auto. rewrite <- H, RA2. auto.
  - change (snd (scan_dquote content line col (lexpos s) s) = SStop LCrash). unfold scan_dquote.
    rewrite (wf_nc _ s W), (wf_nnc _ s W), <- H. cbn [hd_error tl].
    change (ceq (Some (N_of_ascii """")) 34 && ceq (Some (N_of_ascii """")) 34) with true. cbn iota.
    rewrite RA in RA2. cbn [tl] in RA2.
    apply (scan_triple_post line col s 34 (advance (advance s))); auto. rewrite <- H, RA2. auto.
Qed.
End CORRECT.
