(** Positions inside string literals (nested.py). *)
From Coq Require Import ZifyBool ZifyN ZifyNat.
From Verif Require Import Base PyText Lexer LexSpec LexerProofs LexerScan LexerCorrect LexerThm LexerValues LexerProps Markup.
Open Scope Z_scope.

(** ** Specification: what a part of a literal's contents was written as *)

(** [written_as multi w s]: in the source, [s] is written [w]. *)
Definition written_as (multi : bool) (w s : text) : Prop :=
  if multi then w = s else unescaped w s.

(** The characters from position [a] to [b] (inclusive). *)
Definition sub (s : text) (a b : Z) : text :=
  firstn (Z.to_nat (b + 1 - a)) (skipn (Z.to_nat a) s).

(** [string_literal file tk multi content]: token [tk] is a string literal of
    [file] with contents [content], read verbatim if it is triple-quoted. *)
Definition delim (multi : bool) (d : text) : Prop :=
  if multi then d = t """""""" \/ d = t "'''" else d = t """".

Definition string_literal (file : text) (tk : token) (multi : bool) (content : text) : Prop :=
  token_ok file tk /\ tk_kind tk = STRING /\
  exists d body, delim multi d /\ source_text file tk = d ++ body ++ d /\
                 (multi = false -> string_body body) /\ written_as multi body content.

Definition token_sref (tk : token) : sref :=
  {| sr_line := tk_line tk; sr_col := tk_col tk; sr_start := tk_start tk; sr_end := tk_end tk |}.

(** ** Escapes *)

Lemma unescaped_is_escape w r :
  unescaped w r -> (forall x y, w = x ++ 34%N :: y -> exists x', x = x' ++ [92%N]) -> w = escape r.
Proof.
  induction 1 as [|s r U IH|c s r NP U IH]; intros Q; cbn [escape]; auto.
  - change (N.eqb 34 34) with true. cbn iota. do 2 f_equal. apply IH. intros x y E.
    destruct (Q (92%N :: 34%N :: x) y) as (x' & E'); [rewrite E; auto|].
    destruct x as [|x0 x] using rev_ind; [|clear IHx].
    + destruct x' as [|? [|? ?]]; inv E'. destruct l; discriminate.
    + change (92%N :: 34%N :: x ++ [x0]) with ((92%N :: 34%N :: x) ++ [x0]) in E'.
      apply app_inj_tail in E' as [_ ->]. eauto.
  - destruct (N.eqb_spec c 34) as [->|NE].
    + destruct (Q [] s eq_refl) as (x' & E). destruct x'; discriminate.
    + f_equal. apply IH. intros x y E.
      destruct (Q (c :: x) y) as (x' & E'); [rewrite E; auto|].
      destruct x as [|x0 x] using rev_ind; [|clear IHx].
      * exfalso. apply NP. destruct x' as [|? ?]; inv E'. { split; [auto|]. exists y. auto. }
        destruct x'; discriminate.
      * change (c :: x ++ [x0]) with ((c :: x) ++ [x0]) in E'. apply app_inj_tail in E' as [_ ->]. eauto.
Qed.

Lemma escape_app (a b : text) : escape (a ++ b) = escape a ++ escape b.
Proof.
  induction a as [|c a IH]; cbn [escape app]; auto. destruct (N.eqb c 34); cbn [app]; rewrite IH; auto.
Qed.

Lemma escape_length (s : text) : Z.of_nat (length (escape s)) = Z.of_nat (length s) + quotes s.
Proof.
  unfold quotes. induction s as [|c s IH]; cbn [escape count_occ length]; auto.
  destruct (N.eqb_spec c 34), (N.eq_dec c 34); try congruence; cbn [length]; lia.
Qed.

Lemma unescape_escape s : unescape (escape s) = s.
Proof.
  induction s as [|c s IH]; cbn [escape unescape]; auto.
  destruct (N.eqb_spec c 34) as [->|NE].
  - cbn. f_equal. auto.
  - cbn [unescape]. destruct (escape s) as [|d r] eqn:E.
    + apply escape_nil in E. subst. auto.
    + destruct (N.eqb_spec d 34) as [->|].
      * exfalso. apply (escape_head _ _ E).
      * rewrite andb_false_r. f_equal. auto.
Qed.

Lemma quotes_app (a b : text) : quotes (a ++ b) = quotes a + quotes b.
Proof. unfold quotes. rewrite count_occ_app. lia. Qed.

(** ** Positions in a part of a text *)

Lemma located_part (pre mid after : text) l c b line col :
  located (pre ++ mid ++ after) (length pre) l c -> located mid b line col -> (b <= length mid)%nat ->
  located (pre ++ mid ++ after) (length pre + b) (l + line - 1) (if line =? 1 then c + col - 1 else col).
Proof.
  intros (b1 & c1 & E1 & N1 & B1 & L1 & C1) (b2 & c2 & E2 & N2 & B2 & L2 & C2) Hb.
  rewrite firstn_app, firstn_all, Nat.sub_diag in E1. cbn [firstn] in E1. rewrite app_nil_r in E1.
  assert (F : firstn (length pre + b) (pre ++ mid ++ after) = b1 ++ c1 ++ b2 ++ c2).
  { rewrite firstn_app, firstn_all2 by lia. replace (length pre + b - length pre)%nat with b by lia.
    rewrite firstn_app. replace (b - length mid)%nat with 0%nat by lia. cbn [firstn].
    rewrite app_nil_r, E1, E2, <- app_assoc. auto. }
  destruct (line =? 1) eqn:EL.
  - assert (b2 = []) as ->.
    { destruct B2 as [?|(b' & ->)]; auto. rewrite count_occ_app in L2. cbn in L2. lia. }
    exists b1, (c1 ++ c2). rewrite F, app_length. cbn [app]. split; [auto|]. split.
    { rewrite in_app_iff. tauto. }
    split; [auto|]. split; cbn in L2; lia.
  - destruct B2 as [->|(b' & ->)]; [cbn in L2; lia|].
    exists (b1 ++ c1 ++ b' ++ [newline]), c2. rewrite F, <- !app_assoc. split; [auto|]. split; [auto|]. split.
    { right. exists (b1 ++ c1 ++ b'). rewrite <- !app_assoc. auto. }
    split; [|lia].
    pose proof (proj1 (count_occ_not_In N.eq_dec c1 newline) N1) as H0.
    rewrite L1, L2, !count_occ_app, H0. lia.
Qed.

Lemma located_inline (mid : text) b line col :
  ~ In newline mid -> located mid b line col -> (b <= length mid)%nat -> line = 1 /\ col = 1 + Z.of_nat b.
Proof.
  intros NL (b2 & c2 & E2 & N2 & B2 & L2 & C2) Hb.
  assert (I : ~ In newline (b2 ++ c2)).
  { rewrite <- E2. intros I. apply NL. rewrite <- (firstn_skipn b mid). apply in_app_iff. auto. }
  destruct B2 as [->|(b' & ->)].
  - cbn in *. split; [lia|]. rewrite C2, <- E2, firstn_length_le by lia. lia.
  - exfalso. apply I. rewrite !in_app_iff. cbn. auto.
Qed.

Lemma located_zero (mid : text) : located mid 0 1 1.
Proof. exists [], []. cbn. repeat split; auto. Qed.

Lemma inline_located (mid : text) b :
  ~ In newline mid -> (b <= length mid)%nat -> located mid b 1 (1 + Z.of_nat b).
Proof.
  intros NL H. exists [], (firstn b mid). cbn [app]. split; [auto|]. split.
  - intros I. apply NL. rewrite <- (firstn_skipn b mid). apply in_app_iff. auto.
  - split; [auto|]. cbn. rewrite firstn_length_le by lia. split; lia.
Qed.

(** ** String tokens *)

Lemma drop_last_app {A} (a b : list A) n : length b = n -> firstn (length (a ++ b) - n) (a ++ b) = a.
Proof.
  intros L. rewrite app_length, L. replace (length a + n - n)%nat with (length a) by lia.
  rewrite firstn_app, firstn_all, Nat.sub_diag. cbn. apply app_nil_r.
Qed.

Lemma slice_source file tk : slice file (tk_start tk) (tk_end tk) = source_text file tk.
Proof. unfold slice, source_text. do 2 f_equal. lia. Qed.

(** The contents of a literal and the text around it. *)
Lemma literal_shape file tk : token_ok file tk -> tk_kind tk = STRING ->
  exists d body after multi content,
    delim multi d /\ source_text file tk = d ++ body ++ d /\
    file = firstn (Z.to_nat (tk_start tk)) file ++ (d ++ body ++ d) ++ after /\
    written_as multi body content /\
    body = (if multi then content else escape content) /\
    (multi = false -> string_body body) /\
    (multi = false -> ~ In newline content) /\
    nested_of file (token_sref tk) =
      {| ns_file := file; ns_multi := multi; ns_base := Z.of_nat (length d);
         ns_line := tk_line tk; ns_col := tk_col tk; ns_start := tk_start tk;
         ns_content := content |}.
Proof.
  intros I K. pose proof (ok_at _ _ I) as (A1 & A2 & A3).
  pose proof (ok_lexeme _ _ I) as L. rewrite K in L.
  unfold nested_of, token_sref. cbn [sr_line sr_col sr_start sr_end]. rewrite slice_source.
  remember (source_text file tk) as raw. clear Heqraw.
  inversion L; subst; try discriminate.
  - match goal with H : _ \/ _ |- _ => destruct H as [[? _]|[? _]]; discriminate end.
  - match goal with H : delimiter _ _ |- _ => apply delimiter_not in H; tauto end.
  - (* double-quoted *)
    match goal with H : string_body _ |- _ => rename H into B end.
    remember (skipn (Z.to_nat (tk_end tk + 1)) file) as after.
    pose proof (unescape_spec body) as U.
    assert (E : body = escape (unescape body)).
    { apply unescaped_is_escape; auto. apply B. }
    assert (M : starts_with (t """""""") (t """" ++ body ++ t """") = false).
    { destruct body as [|c body]; [reflexivity|].
      change ((34 =? c)%N && starts_with [34%N] (body ++ t """") = false).
      destruct (N.eqb_spec 34 c) as [EC|]; [|reflexivity].
      exfalso. apply (string_body_head body). rewrite EC. exact B. }
    exists (t """"), body, after, false, (unescape body). split; [reflexivity|]. split; [auto|].
    split; [auto|]. split; [exact U|]. split; [auto|]. split; [auto|]. split.
    + intros _ N. destruct B as (B & _). apply B. clear -N.
      pose proof (unescape_spec body) as U. revert N. induction U; cbn; auto.
      * intros [N|N]; [discriminate|]. auto.
      * intros [N|N]; auto.
    + rewrite M. change (starts_with (t "'''") (t """" ++ body ++ t """")) with false. cbn [orb].
      f_equal. unfold drop_last. change (skipn 1 (t """" ++ body ++ t """")) with (body ++ t """").
      f_equal. apply drop_last_app. reflexivity.
  - (* triple-quoted *)
    match goal with H : first_end _ _ |- _ => rename H into F end.
    match goal with H : q = _ \/ _ |- _ => rename H into Q end.
    destruct F as ((inner & ->) & F).
    exists [q; q; q], inner, (skipn (Z.to_nat (tk_end tk + 1)) file), true, inner.
    split; [destruct Q; subst q; [left|right]; reflexivity|]. split; [auto|].
    split; [auto|]. split; [reflexivity|]. split; [auto|]. split; [discriminate|]. split; [discriminate|].
    assert (M : starts_with (t """""""") ([q; q; q] ++ inner ++ [q; q; q])
                || starts_with (t "'''") ([q; q; q] ++ inner ++ [q; q; q]) = true)
      by (destruct Q; subst q; reflexivity).
    rewrite M. f_equal.
    unfold drop_last. change (skipn 3 ([q; q; q] ++ inner ++ [q; q; q])) with (inner ++ [q; q; q]).
    apply drop_last_app. reflexivity.
Qed.

Lemma literal_unique m m' (d d' body body' : text) content content' :
  delim m d -> delim m' d' -> d ++ body ++ d = d' ++ body' ++ d' ->
  (m = false -> string_body body) -> (m' = false -> string_body body') ->
  written_as m body content -> written_as m' body' content' -> m = m' /\ content = content'.
Proof.
  assert (X : forall (d d' body body' : text), delim true d -> delim false d' ->
              d ++ body ++ d = d' ++ body' ++ d' -> string_body body' -> False).
  { intros e e' b b' D D' E B. cbn in D'. subst e'. destruct D as [-> | ->]; cbn in E; [|discriminate].
    injection E as E. destruct b' as [|c b']; cbn in E; [destruct b; discriminate|].
    injection E as <- E. eapply string_body_head; eauto. }
  intros D D' E B B' W W'. destruct m, m'.
  - assert (d = d') as <-.
    { destruct D as [-> | ->], D' as [-> | ->]; auto; discriminate. }
    apply app_inv_head, app_inv_tail in E. cbn in W, W'. subst. auto.
  - exfalso. eauto.
  - exfalso. symmetry in E. eauto.
  - cbn in D, D'. subst. apply app_inv_head, app_inv_tail in E. subst. split; auto.
    eapply unescaped_unique; eauto.
Qed.

Lemma firstn_skipn_three {A} (s : list A) b e : 0 <= b <= e -> e < Z.of_nat (length s) ->
  s = firstn (Z.to_nat b) s ++ firstn (Z.to_nat (e + 1 - b)) (skipn (Z.to_nat b) s) ++ skipn (Z.to_nat (e + 1)) s.
Proof.
  intros H1 H2. replace (skipn (Z.to_nat (e + 1)) s) with (skipn (Z.to_nat (e + 1 - b)) (skipn (Z.to_nat b) s)).
  - rewrite firstn_skipn, firstn_skipn. auto.
  - rewrite skipn_add. f_equal. lia.
Qed.

Definition write (multi : bool) (s : text) : text := if multi then s else escape s.

Lemma write_length multi s :
  Z.of_nat (length (write multi s)) = Z.of_nat (length s) + (if multi then 0 else quotes s).
Proof. destruct multi; cbn [write]; [lia|apply escape_length]. Qed.

Lemma write_app multi a b : write multi (a ++ b) = write multi a ++ write multi b.
Proof. destruct multi; cbn [write]; auto. apply escape_app. Qed.

Lemma write_as multi s : written_as multi (write multi s) s.
Proof. destruct multi; cbn; auto. apply unescaped_escape. Qed.

Lemma write_inline s : ~ In newline s -> ~ In newline (escape s).
Proof. intros H I. apply escape_in in I as [I|I]; auto. discriminate. Qed.

Lemma delim_length multi d : delim multi d -> length d = if multi then 3%nat else 1%nat.
Proof. destruct multi; [intros [-> | ->]; auto|intros ->; auto]. Qed.

Lemma delim_inline multi d : delim multi d -> ~ In newline d.
Proof. destruct multi; [intros [-> | ->]|intros ->]; cbn; intuition discriminate. Qed.

(** ** The main result: a range of the contents maps to the characters it was
    written as, and to their line; the column is right too, unless the range
    is on the first line of a triple-quoted string, not at its beginning. *)
Lemma source_location_spec file tk multi content b e line col :
  string_literal file tk multi content -> 0 <= b <= e -> e < Z.of_nat (length content) ->
  located content (Z.to_nat b) line col ->
  exists l w1 w2 w3 d pre post,
    source_location (nested_of file (token_sref tk)) line col b e = Some l /\
    delim multi d /\
    source_text file tk = d ++ w1 ++ w2 ++ w3 ++ d /\
    file = pre ++ (d ++ w1 ++ w2 ++ w3 ++ d) ++ post /\
    Z.of_nat (length pre) = tk_start tk /\
    written_as multi w1 (sub content 0 (b - 1)) /\
    written_as multi w2 (sub content b e) /\
    written_as multi w3 (sub content (e + 1) (Z.of_nat (length content) - 1)) /\
    Z.of_nat (length (pre ++ d ++ w1)) = sr_start l /\
    Z.of_nat (length (pre ++ d ++ w1 ++ w2)) = sr_end l + 1 /\
    exists c, located file (Z.to_nat (sr_start l)) (sr_line l) c /\
      sr_col l = (if multi && (line =? 1) then c - col + 1 else c).
Proof.
  intros (I & K & d0 & body0 & D0 & S0 & B0 & W0) Hb He Hl.
  destruct (literal_shape file tk I K) as (d & body & post & m & content' & D & S & F & W & E & B & NL & N).
  assert (m = multi /\ content' = content) as [-> ->].
  { rewrite S in S0. eapply literal_unique; eauto. }
  clear d0 body0 D0 S0 B0 W0.
  fold (write multi content) in E.
  destruct I as (P1 & P2 & P3 & _).
  set (pre := firstn (Z.to_nat (tk_start tk)) file) in *.
  assert (LP : Z.of_nat (length pre) = tk_start tk).
  { subst pre. rewrite firstn_length_le; unfold len in P2; lia. }
  set (s1 := firstn (Z.to_nat b) content).
  set (s2 := firstn (Z.to_nat (e + 1 - b)) (skipn (Z.to_nat b) content)).
  set (s3 := skipn (Z.to_nat (e + 1)) content).
  assert (C : content = s1 ++ s2 ++ s3) by (apply firstn_skipn_three; auto).
  assert (L1 : Z.of_nat (length s1) = b) by (subst s1; rewrite firstn_length_le; lia).
  assert (L2 : Z.of_nat (length s2) = e + 1 - b).
  { subst s2. rewrite firstn_length_le; [lia|]. rewrite skipn_length. lia. }
  rewrite C, !write_app in E.
  assert (LB : 1 <= line /\ 1 <= col).
  { destruct Hl as (? & ? & _ & _ & _ & -> & ->). lia. }
  assert (SL : slice content b e = s2) by reflexivity.
  pose proof (write_length multi s1) as W1. pose proof (write_length multi s2) as W2.
  pose proof (delim_length _ _ D) as LD.
  set (q1 := if multi then 0 else quotes s1) in *. set (q2 := if multi then 0 else quotes s2) in *.
  assert (Q1 : 0 <= q1) by (subst q1; unfold quotes; destruct multi; lia).
  assert (Q2 : 0 <= q2) by (subst q2; unfold quotes; destruct multi; lia).
  set (st := tk_start tk + Z.of_nat (length d) + b + q1).
  set (en := tk_start tk + Z.of_nat (length d) + e + q1 + q2).
  assert (LEN : en < len file).
  { unfold len. rewrite F, E, !app_length. subst en. lia. }
  (* the true position *)
  assert (LOC : located file (Z.to_nat st) (tk_line tk + line - 1)
                  (if line =? 1 then tk_col tk + Z.of_nat (length d) + Z.of_nat (length (write multi s1)) else col)).
  { assert (F' : file = pre ++ d ++ (write multi content ++ d ++ post)).
    { rewrite F at 1. rewrite C, !write_app, E, <- !app_assoc. auto. }
    assert (LD' : located file (length (pre ++ d)) (tk_line tk) (tk_col tk + Z.of_nat (length d))).
    { rewrite app_length. rewrite F'. 
      pose proof (located_part pre d (write multi content ++ d ++ post) (tk_line tk) (tk_col tk) (length d)
                  1 (1 + Z.of_nat (length d))) as LL.
      replace (tk_line tk + 1 - 1) with (tk_line tk) in LL by lia.
      change (1 =? 1) with true in LL. cbn iota in LL.
      replace (tk_col tk + (1 + Z.of_nat (length d)) - 1) with (tk_col tk + Z.of_nat (length d)) in LL by lia.
      apply LL; [|apply inline_located; auto; eapply delim_inline; eauto|lia].
      rewrite <- F'. replace (length pre) with (Z.to_nat (tk_start tk)) by lia. auto. }
    assert (F2 : file = (pre ++ d) ++ write multi content ++ (d ++ post)) by (rewrite F' at 1; rewrite <- !app_assoc; auto).
    assert (LW : located (write multi content) (length (write multi s1)) line
                   (if line =? 1 then 1 + Z.of_nat (length (write multi s1)) else col)).
    { destruct multi; cbn [write].
      - destruct (line =? 1) eqn:EL.
        + replace (1 + Z.of_nat (length s1)) with col.
          * replace (length s1) with (Z.to_nat b) by lia. auto.
          * destruct Hl as (b2 & c2 & X1 & X2 & X3 & X4 & X5).
            destruct X3 as [->|(b' & ->)]; [|rewrite count_occ_app in X4; cbn in X4; lia].
            cbn in X1. rewrite <- X1 in X5. exact X5.
        + replace (length s1) with (Z.to_nat b) by lia. auto.
      - destruct (located_inline content (Z.to_nat b) line col) as [-> ->]; auto. lia.
        change (1 =? 1) with true. cbn iota. apply inline_located.
        + apply write_inline; auto.
        + rewrite C, !escape_app, app_length. lia. }
    replace (Z.to_nat st) with (length (pre ++ d) + length (write multi s1))%nat
      by (rewrite app_length; subst st; lia).
    rewrite F2 at 1. replace (if line =? 1 then _ else col) with
      (if line =? 1 then tk_col tk + Z.of_nat (length d) + (if line =? 1 then 1 + Z.of_nat (length (write multi s1)) else col) - 1
       else if line =? 1 then 1 + Z.of_nat (length (write multi s1)) else col)
      by (destruct (line =? 1); lia).
    apply located_part; auto.
    - rewrite <- F2. auto.
    - rewrite C, !write_app, app_length. lia. }
  exists {| sr_line := tk_line tk + line - 1;
            sr_col := if multi && (line =? 1) then tk_col tk + Z.of_nat (length d)
                      else if line =? 1 then tk_col tk + Z.of_nat (length d) + Z.of_nat (length (write multi s1)) else col;
            sr_start := st; sr_end := en |}.
  exists (write multi s1), (write multi s2), (write multi s3), d, pre, post. cbn [sr_line sr_col sr_start sr_end].
  split.
  { rewrite N. unfold source_location, token_sref. cbn [ns_content ns_multi ns_file ns_line ns_col ns_start ns_base].
    rewrite SL. fold s1.
    replace ((0 <=? b) && (b <=? e) && (e <? len content) && (1 <=? line) && (1 <=? col)) with true
      by (unfold len; lia).
    destruct multi; cbn [andb].
    - unfold mk_sref. fold (len file).
      replace (tk_start tk + Z.of_nat (length d) + b) with st by (subst st q1; lia).
      replace (tk_start tk + Z.of_nat (length d) + e) with en by (subst en q1 q2; lia).
      replace ((0 <=? st) && (st <=? en) && (en <? len file)) with true by (subst st en; lia).
      do 2 f_equal. + lia. + destruct (line =? 1); auto.
    - destruct (located_inline content (Z.to_nat b) line col) as [EL EC]; auto; [lia|].
      rewrite EL. change (1 =? 1) with true. cbn iota. unfold mk_sref.
      replace (tk_start tk + Z.of_nat (length d) + b + quotes s1) with st by (subst st q1; lia).
      replace (tk_start tk + Z.of_nat (length d) + e + (quotes s1 + quotes s2)) with en by (subst en q1 q2; lia).
      replace ((0 <=? st) && (st <=? en) && (en <? len file)) with true by (subst st en; lia).
      do 2 f_equal; lia. }
  split; [auto|]. split.
  { rewrite S, E, <- !app_assoc. auto. }
  split.
  { rewrite F at 1. rewrite E, <- !app_assoc. auto. }
  split; [auto|]. split.
  { unfold sub. replace (Z.to_nat (b - 1 + 1 - 0)) with (Z.to_nat b) by lia. apply write_as. }
  split; [apply write_as|]. split.
  { unfold sub. rewrite firstn_all2; [apply write_as|]. rewrite skipn_length. lia. }
  rewrite !app_length. split; [lia|]. split; [lia|].
  eexists. split; [exact LOC|].
  destruct multi; cbn [andb]; auto. destruct (line =? 1) eqn:EL; auto.
  destruct Hl as (b2 & c2 & X1 & X2 & X3 & X4 & X5).
  destruct X3 as [->|(b' & ->)]; [|rewrite count_occ_app in X4; cbn in X4; lia].
  cbn in X1. rewrite <- X1 in X5. fold s1 in X5. cbn [write]. lia.
Qed.
