(** End locations and source excerpts. *)
From Coq Require Import ZifyBool ZifyN ZifyNat.
From Verif Require Import Base PyText Lexer LexSpec SrcRef LexerProofs LexerCorrect LexerThm LexerValues.
Open Scope Z_scope.

Definition char_in (content : text) (p : Z) : option char := nth_error content (Z.to_nat p).

(** ** Locations are unique *)

Lemma last_line_unique (b c b' c' : text) :
  ~ In newline c -> ~ In newline c' ->
  (b = [] \/ exists x, b = x ++ [newline]) -> (b' = [] \/ exists x, b' = x ++ [newline]) ->
  b ++ c = b' ++ c' -> b = b' /\ c = c'.
Proof.
  intros N N' B B' E. apply app_cmp in E as (x & [[-> ->]|[-> ->]]).
  - destruct x as [|y x]; [rewrite app_nil_r; auto|]. exfalso.
    destruct B as [B|(z & B)]; [destruct b'; discriminate|].
    destruct (exists_last (l := y :: x)) as (l & a & E); [discriminate|]. rewrite E in *.
    rewrite app_assoc in B. apply app_inj_tail in B as [_ ->]. apply N'. apply in_or_app. left. apply in_or_app. right. left; auto.
  - destruct x as [|y x]; [rewrite app_nil_r; auto|]. exfalso.
    destruct B' as [B2|(z & B2)]; [destruct b; discriminate|].
    destruct (exists_last (l := y :: x)) as (l & a & E); [discriminate|]. rewrite E in *.
    rewrite app_assoc in B2. apply app_inj_tail in B2 as [_ ->]. apply N. apply in_or_app. left. apply in_or_app. right. left; auto.
Qed.

Lemma located_unique content p l c l' c' :
  located content p l c -> located content p l' c' -> l = l' /\ c = c'.
Proof.
  intros (b & cur & E1 & E2 & E3 & E4 & E5) (b' & cur' & F1 & F2 & F3 & F4 & F5).
  rewrite E1 in F1. destruct (last_line_unique b cur b' cur') as [-> ->]; auto. subst; auto.
Qed.

(** ** End locations *)

Section END.
Variable content : text.

Lemma end_col_loop_none k e :
  (forall n, (2 <= n <= S k)%nat -> nth_error content n <> Some newline) ->
  end_col_loop content e k = e + 1.
Proof.
  induction k as [|k IH]; cbn [end_col_loop]; intros H; auto.
  destruct (is_nl_at content (S (S k))) eqn:E.
  - exfalso. unfold is_nl_at in E. apply ceq_some in E. apply (H (S (S k))); [lia|auto].
  - apply IH. intros n Hn. apply H. lia.
Qed.

Lemma end_col_loop_some k e n :
  (2 <= n <= S k)%nat -> nth_error content n = Some newline ->
  (forall m, (n < m <= S k)%nat -> nth_error content m <> Some newline) ->
  end_col_loop content e k = Z.max (e - Z.of_nat n) 1.
Proof.
  induction k as [|k IH]; cbn [end_col_loop]; intros Hn En H; [lia|].
  destruct (is_nl_at content (S (S k))) eqn:E.
  - unfold is_nl_at in E. apply ceq_some in E. destruct (Nat.eq_dec n (S (S k))); [subst; auto|].
    exfalso. apply (H (S (S k))); auto. lia.
  - assert (n <> S (S k)). { intros ->. unfold is_nl_at in E. rewrite En in E. discriminate. }
    apply IH; auto; [lia|]. intros m Hm. apply H. lia.
Qed.

Lemma no_nl_suffix p n (cur before : text) :
  firstn p content = before ++ cur -> ~ In newline cur -> (length before <= n < p)%nat ->
  nth_error content n <> Some newline.
Proof.
  intros E N H X. apply N.
  assert (Y : nth_error (firstn p content) n = Some newline).
  { rewrite <- (firstn_skipn p content) in X. rewrite nth_error_app1 in X; auto.
    rewrite firstn_length. assert (nth_error content n <> None).
    { rewrite <- (firstn_skipn p content). congruence. }
    apply nth_error_Some in H0. lia. }
  rewrite E, nth_error_app2 in Y by lia. apply nth_error_In in Y. auto.
Qed.

Lemma count_slice start stop : 0 <= start <= stop -> stop < Lexer.len content ->
  count_occ N.eq_dec (firstn (S (Z.to_nat stop)) content) newline =
  (count_occ N.eq_dec (firstn (Z.to_nat start) content) newline +
   count_occ N.eq_dec (slice content start stop) newline)%nat.
Proof.
  intros H1 H2. rewrite <- count_occ_app. f_equal. unfold slice.
  replace (S (Z.to_nat stop)) with (Z.to_nat start + Z.to_nat (stop + 1 - start))%nat by lia.
  rewrite <- (firstn_skipn (Z.to_nat start) content) at 1.
  assert (L : length (firstn (Z.to_nat start) content) = Z.to_nat start).
  { apply firstn_length_le. unfold Lexer.len in H2. lia. }
  rewrite <- L at 1. rewrite firstn_app_2. auto.
Qed.

Lemma count_none (l : text) : ~ In newline l -> count_occ N.eq_dec l newline = O.
Proof. apply count_occ_not_In. Qed.

(** [located] in terms of the last newline *)
Lemma located_count p line col :
  located content p line col -> line = 1 + Z.of_nat (count_occ N.eq_dec (firstn p content) newline).
Proof.
  intros (b & cur & E1 & E2 & E3 & E4 & E5). rewrite E1, count_occ_app, (count_none cur) by auto. lia.
Qed.

Lemma split_line (l : text) : exists b cur, l = b ++ cur /\ ~ In newline cur /\
  (b = [] \/ exists x, b = x ++ [newline]).
Proof.
  induction l as [|c l (b & cur & E & N & B)].
  - exists [], []. auto.
  - destruct B as [->|(x & ->)].
    + cbn in E. subst cur. destruct (N.eq_dec c newline).
      * subst c. exists [newline], l. split; auto. split; auto. right. exists []. auto.
      * exists [], (c :: l). split; auto. split; auto. intros [X|X]; auto.
    + exists (c :: x ++ [newline]), cur. subst l. split; auto. split; auto. right. exists (c :: x). auto.
Qed.

Lemma located_exists p : (p <= length content)%nat -> exists line col, located content p line col.
Proof.
  intros H. destruct (split_line (firstn p content)) as (b & cur & E & N & B).
  exists (1 + Z.of_nat (count_occ N.eq_dec b newline)), (1 + Z.of_nat (length cur)), b, cur. auto.
Qed.

Theorem end_location_right r :
  0 <= sr_start r <= sr_end r -> sr_end r < Lexer.len content ->
  located content (Z.to_nat (sr_start r)) (sr_line r) (sr_col r) ->
  char_in content (sr_end r) <> Some newline ->
  (exists n, 2 <= n <= sr_end r /\ char_in content n = Some newline) \/
  (char_in content 0 <> Some newline /\ char_in content 1 <> Some newline) ->
  located content (Z.to_nat (sr_end r)) (fst (get_end_location content r)) (snd (get_end_location content r)).
Proof.
  intros H1 H2 L NE NL. apply located_count in L.
  pose proof H2 as H2'. unfold Lexer.len in H2'.
  destruct (located_exists (Z.to_nat (sr_end r))) as (line & col & L'); [lia|].
  unfold get_end_location. cbn [fst snd].
  pose proof (located_count _ _ _ L') as EL.
  assert (E1 : line = sr_line r + Z.of_nat (count_occ N.eq_dec (slice content (sr_start r) (sr_end r)) 10%N)).
  { rewrite L, EL. pose proof (count_slice _ _ H1 H2) as C. 
    destruct (nth_error content (Z.to_nat (sr_end r))) as [c|] eqn:EC.
    2:{ apply nth_error_None in EC. lia. }
    destruct (skipn (Z.to_nat (sr_end r)) content) as [|c' rest] eqn:SK.
    { apply (f_equal (@length _)) in SK. rewrite skipn_length in SK. cbn in SK. lia. }
    destruct (skipn_cons_nth _ _ _ _ SK) as [SK1 SK2].
    rewrite (firstn_snoc _ _ _ _ SK), count_occ_app in C. cbn in C.
    destruct (N.eq_dec c' newline); [subst; contradiction|]. unfold newline in *. lia. }
  rewrite <- E1. destruct L' as (b & cur & F1 & F2 & F3 & F4 & F5).
  exists b, cur. sp; auto.
  assert (LB : (length b + length cur = Z.to_nat (sr_end r))%nat).
  { rewrite <- app_length, <- F1. apply firstn_length_le. lia. }
  assert (NoNl : forall n, (length b <= n <= Z.to_nat (sr_end r))%nat -> nth_error content n <> Some newline).
  { intros n Hn. destruct (Nat.eq_dec n (Z.to_nat (sr_end r))); [subst; auto|].
    eapply (no_nl_suffix (Z.to_nat (sr_end r))); eauto. lia. }
  destruct F3 as [->|(x & ->)].
  - cbn [length] in *. rewrite end_col_loop_none; [lia|].
    intros n Hn. apply NoNl. lia.
  - rewrite app_length in *. cbn [length] in *.
    assert (X : nth_error content (length x) = Some newline).
    { rewrite <- (firstn_skipn (Z.to_nat (sr_end r)) content), F1.
      rewrite <- !app_assoc. rewrite nth_error_app2 by lia. rewrite Nat.sub_diag. auto. }
    assert (2 <= length x)%nat.
    { destruct NL as [(n & Hn & En)|[A B]].
      - destruct (Nat.le_gt_cases 2 (length x)); auto. exfalso.
        apply (NoNl (Z.to_nat n)); auto. lia.
      - destruct (length x) as [|[|k]]; [elim A; auto|elim B; auto|lia]. }
    rewrite (end_col_loop_some _ _ (length x)); auto; try lia.
    intros m Hm. apply NoNl. lia.
Qed.

(** ** Source excerpts *)

(** [line_around p pre post]: [pre] is the line up to (not including) position
    [p], [post] the line from there on. *)
Definition line_around (p : nat) (pre post : text) : Prop :=
  exists before after,
    firstn p content = before ++ pre /\ ~ In newline pre /\
    (before = [] \/ exists b, before = b ++ [newline]) /\
    skipn p content = post ++ after /\ ~ In newline post /\
    (after = [] \/ exists a, after = newline :: a).

Lemma back_spec k line before cur :
  (k <= length content)%nat ->
  firstn k content = before ++ cur -> ~ In newline cur ->
  (before = [] \/ exists b, before = b ++ [newline]) ->
  back content k line = (cur ++ line, Z.of_nat (length before) - 1).
Proof.
  revert line before cur. induction k as [|k IH]; intros line before cur K E N B.
  - cbn in E. symmetry in E. apply app_eq_nil in E as [-> ->]. reflexivity.
  - destruct (skipn k content) as [|c rest] eqn:SK.
    { apply (f_equal (@length _)) in SK. rewrite skipn_length in SK. cbn in SK. lia. }
    destruct (skipn_cons_nth _ _ _ _ SK) as [SK1 SK2].
    rewrite (firstn_snoc _ _ _ _ SK) in E. cbn [back]. rewrite SK1.
    destruct (N.eqb_spec c 10).
    + subst c. destruct cur as [|c' cur] using rev_ind.
      * rewrite app_nil_r in E. rewrite <- E. cbn [app]. f_equal.
        rewrite app_length, firstn_length_le by lia. cbn. lia.
      * exfalso. rewrite app_assoc in E. apply app_inj_tail in E as [_ <-]. apply N.
        apply in_or_app. right. left. auto.
    + destruct cur as [|c' cur _] using rev_ind.
      * exfalso. rewrite app_nil_r in E. destruct B as [->|(b & ->)].
        -- destruct (firstn k content); discriminate.
        -- apply app_inj_tail in E as [_ ->]. auto.
      * rewrite app_assoc in E. apply app_inj_tail in E as [E ->].
        rewrite (IH (c' :: line) before cur); auto; [rewrite <- app_assoc; auto|lia|].
        intros I. apply N. apply in_or_app; auto.
Qed.

Lemma forth_spec (post after : text) :
  ~ In newline post -> (after = [] \/ exists a, after = newline :: a) -> forth (post ++ after) = post.
Proof.
  induction post as [|c post IH]; cbn; intros N A.
  - destruct A as [->|(a & ->)]; auto.
  - destruct (N.eqb_spec c 10).
    + exfalso. apply N. left; auto.
    + f_equal; auto.
Qed.

Lemma lstrip_app_dark (a b : text) : starts_dark b -> exists i a', a = i ++ a' /\ Forall white i /\
  lstrip (a ++ b) = a' ++ b /\ (match a' with [] => True | c :: _ => ~ white c end).
Proof.
  intros D. induction a as [|c a (i & a' & E & F & S & H)]; cbn.
  - exists [], []. cbn. sp; auto. destruct b as [|c b]; auto. cbn.
    destruct (is_space c) eqn:X; auto. apply is_space_white in X. contradiction.
  - destruct (is_space c) eqn:X.
    + exists (c :: i), a'. sp; auto.
      * cbn; congruence.
      * constructor; auto. apply is_space_white; auto.
    + exists [], (c :: a). sp; auto. rewrite <- is_space_white. congruence.
Qed.

Lemma times_nonneg c (l : text) n : n = Z.of_nat (length l) -> times c n = repeat c (length l).
Proof. intros ->. unfold times. rewrite Nat2Z.id. auto. Qed.

(** The excerpt is the line of the first character without its indentation,
    and the carets stand exactly under the part of the range in that line. *)
Theorem context_lines_right r c :
  0 <= sr_start r <= sr_end r -> sr_end r < Lexer.len content ->
  char_in content (sr_start r) = Some c -> ~ white c ->
  exists pre post indent a m b rest,
    line_around (Z.to_nat (sr_start r)) pre post /\
    pre = indent ++ a /\ Forall white indent /\ starts_dark (a ++ post) /\
    post = m ++ b /\
    slice content (sr_start r) (sr_end r) = m ++ rest /\ (rest = [] \/ exists x, rest = newline :: x) /\
    context_lines content r = (a ++ m ++ b, repeat 32%N (length a) ++ repeat 94%N (length m)).
Proof.
  intros H1 H2 C W. pose proof H2 as H2'. unfold Lexer.len in H2'. unfold char_in in C.
  set (p := Z.to_nat (sr_start r)) in *.
  destruct (skipn p content) as [|c' rest0] eqn:SK.
  { apply (f_equal (@length _)) in SK. rewrite skipn_length in SK. cbn in SK. lia. }
  destruct (skipn_cons_nth _ _ _ _ SK) as [SK1 SK2]. rewrite C in SK1. injection SK1 as <-.
  assert (NC : c <> newline).
  { intros ->. apply W. apply line_end_white. unfold line_end, newline. lia. }
  destruct (split_line (firstn p content)) as (before & pre & E1 & N1 & B1).
  destruct (span not_nl rest0) as [post after] eqn:S.
  apply (span_spec _ (fun c => c <> newline)) in S as (S1 & S2 & S3); [|apply not_nl_spec].
  apply Forall_not_nl in S2.
  assert (A1 : after = [] \/ exists a, after = newline :: a).
  { destruct after as [|x after]; auto. right. destruct (N.eq_dec x newline); [subst; eauto|contradiction]. }
  destruct (lstrip_app_dark pre (c :: post)) as (indent & a & F1 & F2 & F3 & F4); [exact W|].
  set (n := Z.to_nat (sr_end r + 1 - sr_start r)).
  exists pre, (c :: post), indent, a, (firstn n (c :: post)), (skipn n (c :: post)), (firstn (n - length (c :: post)) after).
  sp; auto.
  - exists before, after. sp; auto.
    + rewrite SK, S1. auto.
    + intros [X|X]; auto.
  - destruct a; cbn; auto.
  - symmetry. apply firstn_skipn.
  - unfold slice. fold p n. rewrite SK, S1. change (c :: post ++ after) with ((c :: post) ++ after).
    apply firstn_app.
  - destruct A1 as [->|(x & ->)]; [left; apply firstn_nil|].
    destruct (n - length (c :: post))%nat; [left; auto|right; cbn; eauto].
  - unfold context_lines. fold p.
    rewrite (back_spec (S p) [] before (pre ++ [c])); auto.
    2:{ lia. }
    2:{ rewrite (firstn_snoc _ _ _ _ SK), E1, <- app_assoc. auto. }
    2:{ intros I. apply in_app_or in I as [I|[I|[]]]; auto. }
    replace (Z.to_nat (sr_start r + 1)) with (S p) by lia. rewrite SK2, S1.
    rewrite forth_spec by auto. rewrite app_nil_r.
    replace ((pre ++ [c]) ++ post) with (pre ++ c :: post) by (rewrite <- app_assoc; auto).
    rewrite F3. f_equal; [rewrite firstn_skipn; auto|]. f_equal.
    + apply times_nonneg. rewrite F1, !app_length. cbn [length].
      assert (L : (length before + length pre = p)%nat).
      { rewrite <- app_length, <- E1. apply firstn_length_le. lia. }
      rewrite F1, app_length in L. lia.
    + apply times_nonneg. rewrite firstn_length. cbn [length]. lia.
Qed.
End END.
