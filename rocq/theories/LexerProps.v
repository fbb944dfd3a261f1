(** Consequences of the lexer results, in the form the properties use. *)
From Coq Require Import QArith ZifyBool ZifyN ZifyNat.
From Verif Require Import Base PyText Lexer LexSpec LexerProofs LexerScan LexerCorrect LexerThm LexerValues.
Open Scope Z_scope.

Lemma skipn_add {A} n m (l : list A) : skipn n (skipn m l) = skipn (n + m) l.
Proof.
  revert l. induction m as [|m IH]; intros l; [rewrite Nat.add_0_r; auto|].
  rewrite Nat.add_succ_r. destruct l; cbn [skipn]; [apply skipn_nil|auto].
Qed.

Lemma app_eq_length {A} (a b c d : list A) :
  a ++ b = c ++ d -> length a = length c -> a = c /\ b = d.
Proof.
  revert c. induction a as [|x a IH]; intros [|y c]; cbn; intros E L; try discriminate; auto.
  injection E as <- E. destruct (IH c E) as [-> ->]; auto.
Qed.

(** The tokens a run of the lexer produces, up to its end or to an error. *)
Definition produced (content : text) : list token :=
  match lex content with
  | Lexed ts | LexFailed ts _ | LexCrashed ts => ts
  | LexStuck => []
  end.

Lemma produced_ok content : Forall (token_ok content) (produced content).
Proof.
  pose proof (lex_spec content) as O. unfold produced.
  destruct (lex content); cbn in O; try apply O; constructor.
Qed.

Lemma produced_denotes content tk :
  In tk (produced content) -> token_denotes (source_text content tk) (tk_kind tk) (tk_value tk).
Proof.
  intros I. pose proof (produced_ok content) as O. rewrite Forall_forall in O.
  destruct (O tk I) as (_ & _ & _ & L & k & base & B & T). eapply token_value_denotes; eauto.
Qed.

Lemma produced_lexeme content tk :
  In tk (produced content) ->
  lexeme (source_text content tk) (skipn (Z.to_nat (tk_end tk + 1)) content) (tk_kind tk).
Proof.
  intros I. pose proof (produced_ok content) as O. rewrite Forall_forall in O. apply (O tk I).
Qed.

(** [token_at content tk pre after]: the text around the token. *)
Definition token_at (content : text) (tk : token) (pre after : text) : Prop :=
  content = pre ++ source_text content tk ++ after /\
  Z.of_nat (length pre) = tk_start tk /\
  Z.of_nat (length (source_text content tk)) = tk_end tk - tk_start tk + 1.

Lemma token_range_around content tk :
  0 <= tk_start tk <= tk_end tk -> tk_end tk < len content ->
  token_at content tk (firstn (Z.to_nat (tk_start tk)) content) (skipn (Z.to_nat (tk_end tk + 1)) content).
Proof.
  intros H1 H2. unfold len in H2. unfold token_at, source_text.
  assert (E : skipn (Z.to_nat (tk_end tk + 1)) content =
              skipn (Z.to_nat (tk_end tk - tk_start tk + 1)) (skipn (Z.to_nat (tk_start tk)) content)).
  { rewrite skipn_add. f_equal. lia. }
  rewrite E. sp.
  - rewrite firstn_skipn, firstn_skipn. auto.
  - rewrite firstn_length_le; lia.
  - rewrite firstn_length_le; [lia|]. rewrite skipn_length. lia.
Qed.

Lemma produced_at content tk : In tk (produced content) ->
  token_at content tk (firstn (Z.to_nat (tk_start tk)) content) (skipn (Z.to_nat (tk_end tk + 1)) content).
Proof.
  intros I. pose proof (produced_ok content) as O. rewrite Forall_forall in O.
  destruct (O tk I) as (H1 & H2 & _). apply token_range_around; auto.
Qed.

Lemma ok_at content tk : token_ok content tk ->
  token_at content tk (firstn (Z.to_nat (tk_start tk)) content) (skipn (Z.to_nat (tk_end tk + 1)) content).
Proof. intros (H1 & H2 & _). apply token_range_around; auto. Qed.
Lemma ok_lexeme content tk : token_ok content tk ->
  lexeme (source_text content tk) (skipn (Z.to_nat (tk_end tk + 1)) content) (tk_kind tk).
Proof. intros (_ & _ & _ & H & _). auto. Qed.
Lemma in_produced content tk : In tk (produced content) -> token_ok content tk.
Proof. pose proof (produced_ok content) as O. rewrite Forall_forall in O. auto. Qed.

Lemma token_at_unique content tk pre after pre' after' :
  token_at content tk pre after -> token_at content tk pre' after' -> pre = pre' /\ after = after'.
Proof.
  intros (E1 & E2 & _) (F1 & F2 & _).
  assert (L : length pre = length pre') by lia.
  rewrite E1 in F1 at 1. 
  destruct (app_eq_length _ _ _ _ F1 L) as [-> E3]. split; auto.
  apply app_inv_head in E3. auto.
Qed.

(** Wherever a token starts, it is the only lexeme possible there. *)
Lemma produced_unique content tk (pre x y : text) k :
  In tk (produced content) -> content = pre ++ x ++ y -> Z.of_nat (length pre) = tk_start tk ->
  lexeme x y k ->
  source_text content tk = x /\ tk_kind tk = k /\ y = skipn (Z.to_nat (tk_end tk + 1)) content.
Proof.
  intros I E L X. pose proof (produced_lexeme _ _ I) as T. pose proof (produced_at _ _ I) as (A1 & A2 & A3).
  rewrite E in A1 at 1.
  destruct (app_eq_length _ _ _ _ A1) as [_ A]; [lia|].
  destruct (lexeme_unique _ _ _ _ _ _ X T A) as (-> & -> & ->). auto.
Qed.

(** A file that is a single token and white space. *)
Lemma lex_one (txt ws : text) k :
  lexeme txt ws k -> Forall white ws ->
  exists v, lex (txt ++ ws) = Lexed [Token k v 1 1 0 (Z.of_nat (length txt) - 1)] /\ token_denotes txt k v.
Proof.
  intros L W.
  assert (NE : txt <> []) by (eapply lexeme_nonempty; eauto).
  assert (S : segmented 0 (txt ++ ws) [Token k VNone 1 1 0 (Z.of_nat (length txt) - 1)]).
  { apply (seg_token 0 [] txt ws); cbn; auto; try lia. apply seg_end; auto. }
  destruct (lex_accepts _ _ S) as (ts & E & M).
  destruct ts as [|tk [|tk' ts]]; try discriminate M. cbn in M. injection M as M1 M2 M3.
  assert (I : In tk (produced (txt ++ ws))). { unfold produced. rewrite E. left; auto. }
  pose proof (produced_ok (txt ++ ws)) as O. rewrite Forall_forall in O.
  destruct (O tk I) as (_ & _ & LOC & _).
  pose proof (produced_denotes _ _ I) as D.
  assert (ST : source_text (txt ++ ws) tk = txt).
  { unfold source_text. rewrite M2, M3. replace (Z.to_nat (Z.of_nat (length txt) - 1 - 0 + 1)) with (length txt + 0)%nat by lia.
    change (Z.to_nat 0) with 0%nat. cbn [skipn]. rewrite firstn_app_2. cbn. apply app_nil_r. }
  rewrite ST in D. exists (tk_value tk). rewrite M1 in D. split; auto. rewrite E. do 2 f_equal.
  destruct tk as [k' v' l c s e]; cbn in *. subst.
  destruct LOC as (b & cur & F1 & F2 & F3 & F4 & F5). cbn in F1. symmetry in F1. apply app_eq_nil in F1 as [-> ->].
  subst. cbn. auto.
Qed.

(** A lexical error, characterised by the text. *)
Lemma lex_fails content ts (ws bad : text) :
  tokens_then 0 content ts (ws ++ bad) -> Forall white ws -> starts_dark bad -> no_lexeme bad ->
  ~ In bad crashing ->
  exists ts' e, lex content = LexFailed ts' e /\
    located content (length content - length bad) (sr_line (le_loc e)) (sr_col (le_loc e)).
Proof.
  intros H W D N C. pose proof (lex_spec content) as O.
  destruct (lex content) as [ts'|ts' e|ts'|]; cbn in O.
  - exfalso. eapply segmented_no_error; eauto. apply O.
  - destruct O as (_ & ws' & bad' & O1 & O2 & O3 & O4 & O5 & O6).
    assert (bad = bad') by (eapply tokens_then_error_unique; [exact H|exact O1|..]; auto). subst bad'.
    exists ts', e. split; auto. destruct O6 as [O6 _]. unfold len in O6.
    replace (length content - length bad)%nat with (Z.to_nat (Z.of_nat (length content) - Z.of_nat (length bad))) by lia.
    auto.
  - exfalso. destruct O as (_ & ws' & bad' & O1 & O2 & O3).
    assert (bad = bad').
    { eapply tokens_then_error_unique; [exact H|exact O1|..]; auto; [apply crashing_dark; auto|apply crashing_no_lexeme; auto]. }
    subst; auto.
  - contradiction.
Qed.

(** ** Words *)

Lemma lexeme_word c (r after : text) k :
  letter c -> lexeme (c :: r) after k ->
  Forall ident_char r /\ (match after with [] => True | d :: _ => ~ ident_char d end) /\
  (k = KEYWORD /\ In (c :: r) reserved \/ k = IDENTIFIER /\ ~ In (c :: r) reserved).
Proof.
  intros H L. unfold letter in H. remember (c :: r) as x eqn:X.
  destruct L; cbn [t map list_ascii_of_string app] in X;
    try (injection X as <- _; cbn in H; lia).
  - injection X as -> ->. auto.
  - subst d. apply delimiter_table in H0. cbn in H0. exfalso.
    repeat (destruct H0 as [H0|H0]; [try discriminate H0; injection H0; intros; subst; cbn in H; lia|]). contradiction.
  - subst r0. exfalso. inversion H0; subst; unfold digit in *; lia.
  - destruct r1 as [|c0 r1]; [inversion H0|]. injection X as -> _. exfalso. inversion H0; subst; unfold digit in *; lia.
Qed.

Lemma word_kind_letter (x after : text) k :
  lexeme x after k -> k = IDENTIFIER \/ k = KEYWORD -> exists c r, x = c :: r /\ letter c.
Proof.
  intros L K. destruct L; try (destruct K; discriminate); eauto.
  exfalso. apply delimiter_not in H. destruct K; subst; tauto.
Qed.

Lemma word_value txt k v : token_denotes txt k v -> k = IDENTIFIER \/ k = KEYWORD -> v = VText txt.
Proof.
  intros D K. destruct D; auto; try (destruct K; discriminate).
  exfalso. apply delimiter_not in H. destruct K; tauto.
Qed.

Lemma td_integer_inv txt v : token_denotes txt INTEGER v -> exists z, v = VInt z /\ int_denotes txt z.
Proof.
  intros D. remember INTEGER as k eqn:K. destruct D; try discriminate; eauto.
  - subst. destruct H; discriminate.
  - subst. exfalso. apply delimiter_not in H. tauto.
Qed.

Lemma td_decimal_inv txt v : token_denotes txt DECIMAL v -> exists q, v = VDec q /\ dec_denotes txt q.
Proof.
  intros D. remember DECIMAL as k eqn:K. destruct D; try discriminate; eauto.
  - subst. destruct H; discriminate.
  - subst. exfalso. apply delimiter_not in H. tauto.
Qed.

(** ** Delimiters *)

Definition two_char_delimiters : list (text * kind) :=
  [(t "==", OPERATOR); (t "=>", ARROW); (t "!=", OPERATOR); (t "<=", OPERATOR); (t ">=", OPERATOR);
   (t "**", OPERATOR); (t "..", RANGE)].

Lemma two_char_lexeme d k (after : text) : In (d, k) two_char_delimiters -> lexeme d after k.
Proof.
  intros I. apply lx_delimiter.
  - apply delimiter_table. cbn in *.
    repeat (destruct I as [I|I]; [injection I as <- <-; tauto|]). contradiction.
  - destruct after as [|c after]; cbn; auto.
    assert (L : length d = 2%nat).
    { cbn in I. repeat (destruct I as [I|I]; [injection I as <- <-; auto|]). contradiction. }
    sp.
    + intros k' H. apply delimiter_shape in H as (x & [H|(e & H)]);
        apply (f_equal (@length _)) in H; rewrite app_length, L in H; discriminate.
    + intros H; apply (f_equal (@length _)) in H; rewrite app_length, L in H; discriminate.
    + intros H; apply (f_equal (@length _)) in H; rewrite app_length, L in H; discriminate.
Qed.

Lemma no_bang (r : text) : (forall r', r <> 61%N :: r') -> no_lexeme (33%N :: r).
Proof.
  intros N x y k E L. destruct x as [|c x]; [eapply lexeme_nonempty; eauto|]. injection E as <- E.
  remember (33%N :: x) as z eqn:Z. destruct L; cbn [t map list_ascii_of_string app] in Z; try discriminate.
  - injection Z as -> _. unfold letter in H. lia.
  - subst d. apply delimiter_table in H. cbn in H.
    repeat (destruct H as [H|H]; [try discriminate H; injection H; intros; subst|]); try contradiction.
    eapply N; reflexivity.
  - injection Z as -> _. lia.
  - subst. inversion H; subst; unfold digit in *; lia.
  - destruct r1 as [|c0 r1]; [inversion H|]. injection Z as -> _. inversion H; subst; unfold digit in *; lia.
Qed.

(** ** Numbers *)

Definition integer_literal (txt : text) : Prop :=
  (exists r, txt = t "0b" ++ r /\ digit_groups binary r) \/
  (exists r, txt = t "0x" ++ r /\ digit_groups hexadecimal r) \/
  digit_groups digit txt.

Lemma integer_lexeme txt : integer_literal txt -> lexeme txt [] INTEGER.
Proof.
  intros [(r & -> & D)|[(r & -> & D)|D]].
  - apply lx_binary; cbn; auto.
  - apply lx_hex; cbn; auto.
  - apply lx_integer; cbn; auto. intros (_ & x & a & E & _). discriminate.
Qed.

Lemma integer_roundtrip txt v :
  integer_literal txt -> int_denotes txt v ->
  lex txt = Lexed [Token INTEGER (VInt v) 1 1 0 (Z.of_nat (length txt) - 1)].
Proof.
  intros L D. destruct (lex_one txt [] INTEGER) as (v' & E & D'); auto; [apply integer_lexeme; auto|].
  rewrite app_nil_r in E. rewrite E. do 3 f_equal.
  inversion D'; subst; try (destruct H; discriminate); try contradiction.
  - exfalso. apply delimiter_not in H. tauto.
  - f_equal. eapply int_denotes_unique; eauto.
Qed.

Lemma positional_app base (a b : text) n m v w :
  0 <= base -> positional base a n v -> positional base b m w ->
  positional base (a ++ b) (n + m) (v * base ^ Z.of_nat m + w).
Proof.
  intros B H. induction H; intros P; cbn [app].
  - exact P.
  - apply pos_under; auto.
  - replace ((d * base ^ Z.of_nat n + v) * base ^ Z.of_nat m + w)
      with (d * base ^ Z.of_nat (n + m) + (v * base ^ Z.of_nat m + w)).
    + cbn [Nat.add]. apply pos_digit; auto.
    + rewrite Nat2Z.inj_add, Z.pow_add_r by lia. lia.
Qed.

Definition base_digit (base : Z) (c : char) : Prop := exists d, digit_val c d /\ d < base.

Lemma digit_exists base d : 0 <= d < base -> base <= 16 -> exists c, digit_val c d.
Proof.
  intros H1 H2. destruct (Z_le_gt_dec d 9).
  - eexists. apply dv_09. lia.
  - eexists. apply dv_af. lia.
Qed.

(** Every natural number can be written in every base. *)
Lemma positional_exists base v : 2 <= base <= 16 -> 0 <= v ->
  exists s n, s <> [] /\ Forall (base_digit base) s /\ positional base s n v.
Proof.
  intros B. revert v. refine (Zlt_0_ind _ _). intros v IH V.
  assert (M : 0 <= v mod base < base) by (apply Z.mod_pos_bound; lia).
  destruct (digit_exists base (v mod base)) as (c & C); try lia.
  assert (One : positional base [c] 1 (v mod base)).
  { replace (v mod base) with (v mod base * base ^ Z.of_nat 0 + 0) by (cbn; lia).
    apply pos_digit; try lia; auto. constructor. }
  destruct (Z_lt_ge_dec v base) as [Sm|Bg].
  - rewrite Z.mod_small in * by lia. exists [c], 1%nat. sp; auto; [discriminate|].
    repeat constructor. exists v. auto with zarith.
  - destruct (IH (v / base)) as (s & n & N & F & P).
    { split; [apply Z.div_pos; lia|]. apply Z.div_lt; lia. }
    exists (s ++ [c]), (n + 1)%nat. sp.
    + destruct s; discriminate.
    + apply Forall_app. split; auto. repeat constructor. exists (v mod base). split; auto; lia.
    + pose proof (positional_app base s [c] n 1 _ _ ltac:(lia) P One) as Q.
      replace (v / base * base ^ Z.of_nat 1 + v mod base) with v in Q; auto.
      change (Z.of_nat 1) with 1. rewrite Z.pow_1_r. pose proof (Z.div_mod v base). lia.
Qed.

Lemma groups_of_digits (f : char -> Prop) (s : text) : s <> [] -> Forall f s -> digit_groups f s.
Proof.
  induction s as [|c s IH]; intros N F; [contradiction|]. inversion F; subst.
  destruct s; [apply dg_one; auto|]. apply dg_more; auto. apply IH; auto. discriminate.
Qed.

Lemma base_digit_2 c : base_digit 2 c -> binary c.
Proof. intros (d & V & L). unfold binary. inversion V; subst; lia. Qed.
Lemma base_digit_10 c : base_digit 10 c -> digit c.
Proof. intros (d & V & L). unfold digit. inversion V; subst; lia. Qed.
Lemma base_digit_16 c : base_digit 16 c -> hexadecimal c.
Proof. intros (d & V & L). unfold hexadecimal, digit, hex_letter. inversion V; subst; lia. Qed.

Lemma all_numbers v : 0 <= v ->
  (exists s, digit_groups digit s /\ int_denotes s v) /\
  (exists s, digit_groups binary s /\ int_denotes (t "0b" ++ s) v) /\
  (exists s, digit_groups hexadecimal s /\ int_denotes (t "0x" ++ s) v).
Proof.
  intros V. sp.
  - destruct (positional_exists 10 v) as (s & n & N & F & P); try lia. exists s. split.
    + apply groups_of_digits; auto. eapply Forall_impl; [|exact F]. exact base_digit_10.
    + eapply id_dec; eauto.
  - destruct (positional_exists 2 v) as (s & n & N & F & P); try lia. exists s. split.
    + apply groups_of_digits; auto. eapply Forall_impl; [|exact F]. exact base_digit_2.
    + eapply id_binary; eauto.
  - destruct (positional_exists 16 v) as (s & n & N & F & P); try lia. exists s. split.
    + apply groups_of_digits; auto. eapply Forall_impl; [|exact F]. exact base_digit_16.
    + eapply id_hex; eauto.
Qed.

Lemma decimal_roundtrip (r1 r2 : text) q :
  digit_groups digit r1 -> digit_groups digit r2 -> dec_denotes (r1 ++ t "." ++ r2) q ->
  exists q', (q' == q)%Q /\
  lex (r1 ++ t "." ++ r2) =
    Lexed [Token DECIMAL (VDec q') 1 1 0 (Z.of_nat (length (r1 ++ t "." ++ r2)) - 1)].
Proof.
  intros D1 D2 D. destruct (lex_one (r1 ++ t "." ++ r2) [] DECIMAL) as (v & E & D'); auto.
  { apply lx_decimal; cbn; auto. }
  rewrite app_nil_r in E.
  inversion D'; subst; try (destruct H; discriminate); try contradiction.
  - exfalso. apply delimiter_not in H. tauto.
  - exists q0. split; auto. eapply dec_denotes_unique; eauto.
Qed.

(** ** Strings *)

(** How to write a string between double quotes. *)
Fixpoint escape (s : text) : text :=
  match s with
  | [] => []
  | c :: s' => if N.eqb c 34 then 92%N :: 34%N :: escape s' else c :: escape s'
  end.

Lemma escape_nil s : escape s = [] -> s = [].
Proof. destruct s as [|c s]; cbn; auto. destruct (N.eqb c 34); discriminate. Qed.

Lemma escape_last (s b : text) x : escape s = b ++ [x] -> exists s', s = s' ++ [x].
Proof.
  revert b. induction s as [|c s IH]; cbn [escape]; intros b E; [destruct b; discriminate|].
  destruct (N.eqb_spec c 34).
  - subst c. destruct b as [|b0 [|b1 b]]; cbn [app] in E; try discriminate.
    + injection E as _ <- E. apply escape_nil in E. subst s. exists []. auto.
    + injection E as _ _ E. destruct (IH b E) as (s' & ->). exists (34%N :: s'). auto.
  - destruct b as [|b0 b]; cbn [app] in E.
    + injection E as -> E. apply escape_nil in E. subst s. exists []. auto.
    + injection E as _ E. destruct (IH b E) as (s' & ->). exists (c :: s'). auto.
Qed.

Lemma escape_in x s : In x (escape s) -> In x s \/ x = 92%N.
Proof.
  induction s as [|c s IH]; cbn [escape]; auto. destruct (N.eqb_spec c 34); cbn [In]; intuition congruence.
Qed.

Lemma escape_quote (s x y : text) : escape s = x ++ 34%N :: y -> exists x', x = x' ++ [92%N].
Proof.
  revert x. induction s as [|c s IH]; cbn; intros x E; [destruct x; discriminate|].
  destruct (N.eqb_spec c 34).
  - destruct x as [|x0 x]; cbn in E; [discriminate|]. injection E as <- E.
    destruct x as [|x1 x]; cbn in E.
    + exists []. auto.
    + injection E as <- E. destruct (IH x E) as (x' & ->). exists (92%N :: 34%N :: x'). auto.
  - destruct x as [|x0 x]; cbn in E.
    + injection E as -> _. contradiction.
    + injection E as <- E. destruct (IH x E) as (x' & ->). exists (c :: x'). auto.
Qed.

Lemma escape_head s r : escape s <> 34%N :: r.
Proof. destruct s as [|c s]; cbn; [discriminate|]. destruct (N.eqb_spec c 34); congruence. Qed.

Lemma unescaped_escape s : unescaped (escape s) s.
Proof.
  induction s as [|c s IH]; cbn; [constructor|].
  destruct (N.eqb_spec c 34).
  - subst. apply ue_pair; auto.
  - apply ue_char; auto. intros (_ & s' & E). exact (escape_head _ _ E).
Qed.

Lemma escape_body s : ~ In newline s -> (forall x, s <> x ++ [92%N]) -> string_body (escape s).
Proof.
  intros N L. repeat split.
  - intros I. apply escape_in in I as [I|I]; auto. discriminate.
  - apply escape_quote.
  - intros x E. apply escape_last in E as (s' & E). exact (L _ E).
Qed.

Lemma td_string_value txt v :
  token_denotes txt STRING v -> 
  (exists body s, txt = t """" ++ body ++ t """" /\ unescaped body s /\ v = VText s) \/
  (exists q body s, (q = 34 \/ q = 39)%N /\ txt = [q; q; q] ++ body ++ [q; q; q] /\ triple_value body s /\ v = VText s).
Proof.
  intros H. inversion H; subst; try (destruct H0; discriminate).
  - exfalso. apply delimiter_not in H0. tauto.
  - left. eauto 10.
  - right. eauto 10.
Qed.

(** The value of a double-quoted string token. *)
Lemma string_token_value (body : text) after k :
  string_body body -> ~ (body = [] /\ exists r, after = 34%N :: r) -> forall v,
  token_denotes (t """" ++ body ++ t """") STRING v -> lexeme (t """" ++ body ++ t """") after k ->
  exists s, unescaped body s /\ v = VText s.
Proof.
  intros B A v D L. apply td_string_value in D as [(b & s & E & U & V)|(q & b & s & Q & E & T & V)].
  - apply app_inv_head in E. apply app_inj_tail in E as [-> _]. eauto.
  - exfalso. cbn in E. injection E as <- E. destruct body as [|c body]; cbn in E.
    + injection E as E. destruct b; discriminate.
    + injection E as -> E. eapply string_body_head; eauto.
Qed.

Lemma string_roundtrip s :
  ~ In newline s -> (forall x, s <> x ++ [92%N]) ->
  lex (t """" ++ escape s ++ t """") =
  Lexed [Token STRING (VText s) 1 1 0 (Z.of_nat (length (t """" ++ escape s ++ t """")) - 1)].
Proof.
  intros N L. pose proof (escape_body s N L) as B.
  assert (X : lexeme (t """" ++ escape s ++ t """") [] STRING).
  { apply lx_string; auto. intros (_ & r & E); discriminate. }
  destruct (lex_one _ [] STRING X) as (v & E & D); auto.
  rewrite app_nil_r in E. rewrite E. do 3 f_equal.
  destruct (string_token_value (escape s) [] STRING B) with (v := v) as (s' & U & ->); auto.
  { intros (_ & r & E'); discriminate. }
  f_equal. eapply unescaped_unique; eauto. apply unescaped_escape.
Qed.

(** ** Triple-quoted strings *)

Lemma triple_at_end q (body : text) :
  (q = 34 \/ q = 39)%N -> first_end [q; q; q] body -> no_lexeme ([q; q; q] ++ body).
Proof.
  intros Q (F1 & F2) x y k E L.
  remember ([q; q; q] ++ body) as z eqn:Z.
  destruct L; subst z; cbn [t map list_ascii_of_string app] in *; try (destruct Q; subst q; discriminate Z).
  - destruct Q; subst q; discriminate.
  - destruct Q; subst q; discriminate.
  - destruct Q; subst q; discriminate.
  - injection E as <- E. destruct Q; subst; unfold letter in H; lia.
  - destruct (delimiter_shape _ _ H) as (c & [->|(e & ->)]); apply delimiter_table in H; cbn in *;
      injection E as <- E; destruct Q; subst;
      repeat (destruct H as [H|H]; [discriminate H|]); contradiction.
  - (* string: it must be empty *)
    injection E as -> E. destruct body0 as [|c b]; cbn in E.
    + injection E as E. apply H0. split; auto. exists body. auto.
    + injection E as <- E. eapply string_body_head; eauto.
  - injection E. intros H3 _ _ <-. 
    destruct H0 as ((w & ->) & G). rewrite <- app_assoc in H3.
    apply H1. eapply F2. exact H3.
  - destruct Q; subst q; discriminate.
  - destruct Q; subst q; discriminate.
  - destruct r as [|c r]; [inversion H|]. injection E as <- _. destruct Q; subst; inversion H; subst; unfold digit in *; lia.
  - destruct r1 as [|c r1]; [inversion H|]. injection E as <- _. destruct Q; subst; inversion H; subst; unfold digit in *; lia.
Qed.

Lemma triple_not_crashing q (body : text) :
  (q = 34 \/ q = 39)%N -> first_end [q; q; q] body -> ~ In ([q; q; q] ++ body) crashing.
Proof.
  intros Q ((x & ->) & _) I. cbn in I.
  repeat (destruct I as [I|I]; [apply (f_equal (@length _)) in I; cbn in I; rewrite app_length in I; cbn in I; lia|]).
  contradiction.
Qed.

Lemma dark_quote q (r : text) : (q = 34 \/ q = 39)%N -> starts_dark (q :: r).
Proof. intros [-> | ->]; apply dark_ascii; lia. Qed.

(** ** Comments *)

Lemma lexeme_line_comment (r after : text) k :
  lexeme (47%N :: 47%N :: r) after k ->
  k = COMMENT /\ ~ In newline r /\ (after = [] \/ exists a, after = newline :: a).
Proof.
  intros L. remember (47%N :: 47%N :: r) as z eqn:Z.
  destruct L; cbn [t map list_ascii_of_string app] in Z; try discriminate.
  - injection Z as ->. auto.
  - injection Z as -> _. unfold letter in H; lia.
  - subst d. exfalso. apply delimiter_table in H. cbn in H.
    repeat (destruct H as [H|H]; [discriminate H|]). contradiction.
  - injection Z as Z _. lia.
  - subst. inversion H; subst; unfold digit in *; lia.
  - destruct r1 as [|c0 r1]; [inversion H|]. injection Z as -> _. inversion H; subst; unfold digit in *; lia.
Qed.

Lemma lexeme_block_comment (r after : text) k :
  lexeme (47%N :: 42%N :: r) after k ->
  k = COMMENT /\ (first_end (t "*/") (t "*" ++ r) \/ after = [] /\ ~ contains (t "*/") (t "*" ++ r)).
Proof.
  intros L. remember (47%N :: 42%N :: r) as z eqn:Z.
  destruct L; cbn [t map list_ascii_of_string app] in Z; try discriminate.
  - injection Z as ->. auto.
  - injection Z as ->. auto.
  - injection Z as -> _. unfold letter in H; lia.
  - subst d. exfalso. apply delimiter_table in H. cbn in H.
    repeat (destruct H as [H|H]; [discriminate H|]). contradiction.
  - injection Z as Z _. lia.
  - subst. inversion H; subst; unfold digit in *; lia.
  - destruct r1 as [|c0 r1]; [inversion H|]. injection Z as -> _. inversion H; subst; unfold digit in *; lia.
Qed.

Lemma comment_shape (x after : text) :
  lexeme x after COMMENT -> exists r, x = t "//" ++ r \/ x = t "/*" ++ r.
Proof.
  intros L. inversion L; subst; eauto.
  - destruct H2 as [[H2 _]|[H2 _]]; discriminate.
  - exfalso. apply delimiter_not in H. tauto.
Qed.
