(** C37 and C38: positions inside string literals, markup references. *)
From Coq Require Import ZifyBool ZifyN ZifyNat.
From Verif Require Import Base PyText Lexer LexSpec LexerProofs LexerCorrect LexerThm LexerProps Markup NestedProofs MarkupSpec MarkupProofs.
Open Scope Z_scope.

(** Two literals for the examples: a double-quoted one
    with an escaped quote) and a triple-quoted one of two lines. *)
Definition file1 : text := t "x = ""a\"" [[p.q, r]] b"" ".
Definition lit1 : token := nth 2 (produced file1) (Token STRING VNone 0 0 0 0).
Definition file2 : text := t "'''a [[b]]" ++ [10%N] ++ t "c [[d]]''' ".
Definition lit2 : token := nth 0 (produced file2) (Token STRING VNone 0 0 0 0).

Example lit1_ok : string_literal file1 lit1 false (t "a"" [[p.q, r]] b").
Proof.
  split; [apply in_produced; vm_compute; auto|]. split; [reflexivity|].
  exists (t """"), (t "a\"" [[p.q, r]] b"). split; [reflexivity|]. split; [vm_compute; reflexivity|].
  split; [|exact (unescaped_escape (t "a"" [[p.q, r]] b"))].
  intros _. apply (escape_body (t "a"" [[p.q, r]] b")).
  - vm_compute. intuition discriminate.
  - intros x E. apply (f_equal (@rev N)) in E. rewrite rev_app_distr in E. discriminate.
Qed.

Example lit2_ok : string_literal file2 lit2 true (t "a [[b]]" ++ [10%N] ++ t "c [[d]]").
Proof.
  split; [apply in_produced; vm_compute; auto|]. split; [reflexivity|].
  exists (t "'''"), (t "a [[b]]" ++ [10%N] ++ t "c [[d]]"). split; [right; reflexivity|].
  split; [vm_compute; reflexivity|]. split; [discriminate|reflexivity].
Qed.

(** ** C37 *)

(** The location of characters [b..e] of the contents of a literal is exactly
    the range of the file in which these characters are written (between the
    opening delimiter and what was written for the characters before, and
    what was written for the characters after and the closing delimiter);
    its line is the line of the first of them. *)
Theorem C37_range file tk multi content b e line col :
  string_literal file tk multi content -> 0 <= b <= e -> e < Z.of_nat (length content) ->
  located content (Z.to_nat b) line col ->
  exists l w1 w2 w3 d pre post c,
    source_location (nested_of file (token_sref tk)) line col b e = Some l /\
    delim multi d /\ source_text file tk = d ++ w1 ++ w2 ++ w3 ++ d /\
    file = pre ++ (d ++ w1 ++ w2 ++ w3 ++ d) ++ post /\
    Z.of_nat (length pre) = tk_start tk /\
    written_as multi w1 (sub content 0 (b - 1)) /\
    written_as multi w2 (sub content b e) /\
    written_as multi w3 (sub content (e + 1) (Z.of_nat (length content) - 1)) /\
    Z.of_nat (length (pre ++ d ++ w1)) = sr_start l /\
    Z.of_nat (length (pre ++ d ++ w1 ++ w2)) = sr_end l + 1 /\
    located file (Z.to_nat (sr_start l)) (sr_line l) c.
Proof.
  intros S B E L. destruct (source_location_spec _ _ _ _ _ _ _ _ S B E L)
    as (l & w1 & w2 & w3 & d & pre & post & H1 & H2 & H3 & H4 & H5 & H6 & H7 & H8 & H9 & HS & c & H10 & _).
  exists l, w1, w2, w3, d, pre, post, c. repeat split; auto.
Qed.

(** [[p.q, r]] in the first literal: 9..20 in the file, with the escape. *)
Example C37_range_ex :
  located (t "a"" [[p.q, r]] b") (Z.to_nat 3) 1 4 /\
  source_location (nested_of file1 (token_sref lit1)) 1 4 3 13 = Some (Sref 1 10 9 19) /\
  slice file1 9 19 = t "[[p.q, r]] ".
Proof.
  split; [exists [], (t "a"" "); repeat split; auto; vm_compute; intuition discriminate|].
  split; vm_compute; reflexivity.
Qed.

(** The column of the location is right for double-quoted literals and, in
    triple-quoted ones, for everything that starts on a later line or at the
    very beginning of the contents.  Missing for the full claim: ranges that
    start further right on the first line of a triple-quoted literal, see
    [C37_column_refuted]. *)
Theorem C37_column_partial file tk multi content b e line col :
  string_literal file tk multi content -> 0 <= b <= e -> e < Z.of_nat (length content) ->
  located content (Z.to_nat b) line col ->
  multi = false \/ line <> 1 \/ col = 1 ->
  exists l, source_location (nested_of file (token_sref tk)) line col b e = Some l /\
            located file (Z.to_nat (sr_start l)) (sr_line l) (sr_col l).
Proof.
  intros S B E L H. destruct (source_location_spec _ _ _ _ _ _ _ _ S B E L)
    as (l & w1 & w2 & w3 & d & pre & post & H1 & _ & _ & _ & _ & _ & _ & _ & _ & _ & c & H10 & H11).
  exists l. split; [auto|]. replace (sr_col l) with c; [auto|].
  rewrite H11. destruct multi; cbn [andb]; auto. destruct (line =? 1) eqn:EL; auto.
  destruct H as [H|[H|H]]; [discriminate|lia|lia].
Qed.

Example C37_column_ex :
  located (t "a [[b]]" ++ [10%N] ++ t "c [[d]]") (Z.to_nat 10) 2 3 /\
  source_location (nested_of file2 (token_sref lit2)) 2 3 10 11 = Some (Sref 2 3 13 14) /\
  located file2 (Z.to_nat 13) 2 3.
Proof.
  split; [|split; [vm_compute; reflexivity|]].
  - exists (t "a [[b]]" ++ [10%N]), (t "c "). split; [reflexivity|]. split; [vm_compute; intuition discriminate|].
    split; [right; eauto|]. split; reflexivity.
  - exists (t "'''a [[b]]" ++ [10%N]), (t "c "). split; [reflexivity|]. split; [vm_compute; intuition discriminate|].
    split; [right; eauto|]. split; reflexivity.
Qed.

(** On the first line of a triple-quoted literal the reported column is that
    of the beginning of the contents, not of the characters meant. *)
Theorem C37_column_refuted :
  exists file tk content b e line col l,
    string_literal file tk true content /\ 0 <= b <= e /\ e < Z.of_nat (length content) /\
    located content (Z.to_nat b) line col /\
    source_location (nested_of file (token_sref tk)) line col b e = Some l /\
    ~ located file (Z.to_nat (sr_start l)) (sr_line l) (sr_col l).
Proof.
  exists file2, lit2, (t "a [[b]]" ++ [10%N] ++ t "c [[d]]"), 2, 3, 1, 3, (Sref 1 4 5 6).
  split; [exact lit2_ok|]. split; [lia|]. split; [vm_compute; reflexivity|]. split.
  { exists [], (t "a "). split; [reflexivity|]. split; [vm_compute; intuition discriminate|]. split; [auto|]. split; reflexivity. }
  split; [vm_compute; reflexivity|].
  intros (b & c & E1 & E2 & E3 & E4 & E5). cbn [sr_line sr_col] in *.
  destruct E3 as [->|(b' & ->)].
  - cbn [app] in E1. rewrite <- E1 in E5. vm_compute in E5. discriminate.
  - rewrite count_occ_app in E4. change (count_occ N.eq_dec [newline] newline) with 1%nat in E4. lia.
Qed.

(** ** C38 *)

(** The names of the references, as text. *)
Definition names (rs : list mref) : list mname := map (fun r => (mr_package r, mr_name r)) rs.

(** All packages named in qualified names are known and imported. *)
Definition packages_ok (qual : text -> bool) (xs : list mname) : Prop :=
  forall p n, In (Some p, n) xs -> qual p = true.

Lemma packages_ok_forall qual xs : packages_ok qual xs <-> Forall (qual_ok qual) xs.
Proof.
  rewrite Forall_forall. unfold packages_ok, qual_ok. split.
  - intros H [[p|] n] I; cbn; eauto.
  - intros H p n I. exact (H _ I).
Qed.

(** [inside tk l]: location [l] lies within token [tk]. *)
Definition inside (tk : token) (l : sref) : Prop :=
  tk_start tk <= sr_start l <= sr_end l /\ sr_end l <= tk_end tk.

Lemma literal_references file tk multi content qual :
  string_literal file tk multi content ->
  match markup_references file (token_sref tk) qual with
  | Ok rs => Forall (fun r => inside tk (mr_loc r)) rs /\ markup content (names rs) /\ packages_ok qual (names rs)
  | Err (_, l) => inside tk l /\ forall xs, markup content xs -> ~ packages_ok qual xs
  | Crash | OutOfFuel => False
  end.
Proof.
  intros S. pose proof S as (I & K & d0 & body0 & D0 & S0 & B0 & W0).
  destruct (literal_shape file tk I K) as (d & body & post & m & content' & D & S1 & F & W & E & B & NL & N).
  assert (m = multi /\ content' = content) as [-> ->].
  { rewrite S1 in S0. eapply literal_unique; eauto. }
  assert (C : ns_content (nested_of file (token_sref tk)) = content) by (rewrite N; auto).
  pose proof I as (P1 & P2 & P3 & _).
  pose proof (ok_at _ _ I) as (A1 & A2 & A3).
  pose proof (references_spec (nested_of file (token_sref tk)) (token_sref tk) qual (inside tk)) as R.
  rewrite C in R. unfold markup_references.
  match type of R with ?A -> ?B -> ?G => assert (X : G) end.
  { apply R.
    - intros b e line col Hb He Hl.
      destruct (source_location_spec _ _ _ _ _ _ _ _ S Hb He Hl)
        as (l & w1 & w2 & w3 & d' & pre & post' & H1 & H2 & H3 & H4 & H5 & H6 & HT & H7 & H8 & H9 & _).
      exists l. split; [auto|]. unfold inside. rewrite !app_length in *.
      assert (LW : (1 <= length w2)%nat).
      { assert (sub content b e <> []) as NE.
        { unfold sub. intros X. apply (f_equal (@length _)) in X. rewrite firstn_length_le in X; [cbn in X; lia|].
          rewrite skipn_length. lia. }
        destruct multi; cbn in HT; [rewrite HT; destruct (sub content b e); cbn; [contradiction|lia]|].
        destruct w2; cbn; [inversion HT; congruence|lia]. }
      rewrite H3, !app_length in A3. lia.
    - unfold inside, token_sref. cbn. lia. }
  cbn zeta in X. destruct (mtokens (nested_of file (token_sref tk))) as [ts e].
  destruct (parse_tokens e (token_sref tk) qual ts) as [rs|[ms l]| |]; auto.
  - destruct X as (X1 & X2 & X3). split; [auto|]. split; [exact X2|]. apply packages_ok_forall. exact X3.
  - destruct X as (X1 & X2). split; [auto|]. intros xs MU PO. apply packages_ok_forall in PO. exact (X2 xs MU PO).
Qed.

(** A markup string is accepted with exactly the references its text denotes:
    if its contents are well-formed markup for the names [xs] and all packages
    mentioned are available, the references are [xs], in order; otherwise a
    message located inside the literal is produced.  The tool never fails
    internally. *)
Theorem C38_references file tk multi content qual :
  string_literal file tk multi content ->
  (forall xs, (exists rs, markup_references file (token_sref tk) qual = Ok rs /\ names rs = xs) <->
              markup content xs /\ packages_ok qual xs) /\
  ((exists xs, markup content xs /\ packages_ok qual xs) \/
   exists m l, markup_references file (token_sref tk) qual = Err (m, l) /\ inside tk l).
Proof.
  intros S. pose proof (literal_references file tk multi content qual S) as L.
  destruct (markup_references file (token_sref tk) qual) as [rs|[m l]| |]; try contradiction.
  - destruct L as (L1 & L2 & L3). split; [|left; eauto]. intros xs. split.
    + intros (rs' & [= <-] & <-). auto.
    + intros (M & _). exists rs. split; auto. eapply markup_unique; eauto.
  - destruct L as (L1 & L2). split; [|right; eauto 10]. intros xs. split.
    + intros (rs' & [=] & _).
    + intros (M & P). exfalso. exact (L2 xs M P).
Qed.

Definition only_p (x : text) : bool := text_eqb x (t "p").

Example C38_references_ex :
  markup (t "a"" [[p.q, r]] b") [(Some (t "p"), t "q"); (None, t "r")] /\
  packages_ok only_p [(Some (t "p"), t "q"); (None, t "r")] /\
  markup_references file1 (token_sref lit1) only_p =
    Ok [MRef (Some (t "p")) (t "q") (Sref 1 14 13 13); MRef None (t "r") (Sref 1 17 16 16)].
Proof.
  assert (W1 : Forall white (t " ")) by (constructor; [change (white 32%N); unfold white; lia|constructor]).
  assert (ID : forall c, letter c -> mident [c]) by (intros c H; exists c, []; auto).
  split; [|split; [|vm_compute; reflexivity]].
  - do 3 (apply mu_char; [intros (r & [=])|intros (r & [=])|]).
    apply (mu_list (t "p.q, r") (t " b") [(Some (t "p"), t "q"); (None, t "r")] []).
    + apply (nl_more (t "p.q") _ (t " r")).
      * apply (q_dotted [] (t "p") [] [] (t "q") []); auto; apply ID; apply is_alpha_letter; reflexivity.
      * apply nl_one. apply (q_plain (t " ") (t "r") []); auto. apply ID; apply is_alpha_letter; reflexivity.
    + do 2 (apply mu_char; [intros (r & [=])|intros (r & [=])|]). constructor.
  - intros p n [[= <- <-]|[[=]|[]]]. reflexivity.
Qed.

(** Each text denotes at most one list of names. *)
Theorem C38_unambiguous s xs ys : markup s xs -> markup s ys -> xs = ys.
Proof. exact (markup_unique s xs ys). Qed.

(** The references point into the literal. *)
Theorem C38_located file tk multi content qual rs :
  string_literal file tk multi content ->
  markup_references file (token_sref tk) qual = Ok rs -> Forall (fun r => inside tk (mr_loc r)) rs.
Proof.
  intros S E. pose proof (literal_references file tk multi content qual S) as L. rewrite E in L. apply L.
Qed.

(** Unbalanced and nested brackets are errors. *)
Definition outcome (s : string) : option merr :=
  let file := t """" ++ t s ++ t """ " in
  match markup_references file (token_sref (nth 0 (produced file) (Token STRING VNone 0 0 0 0))) only_p with
  | Err (m, _) => Some m
  | _ => None
  end.

Example C38_errors_ex :
  outcome "a ]] b" = Some Not_open /\ outcome "[[a" = Some (Expected REFLIST_END None) /\
  outcome "[[a [[" = Some Cannot_nest /\ outcome "[[]]" = Some (Expected REFLIST_IDENTIFIER (Some REFLIST_END)) /\
  outcome "[[q.a]]" = Some (Bad_package (t "q")) /\ outcome "[a] [[b]]" = None.
Proof. vm_compute. repeat split. Qed.

Print Assumptions C37_range.
Print Assumptions C37_column_partial.
Print Assumptions C37_column_refuted.
Print Assumptions C38_references.
Print Assumptions C38_unambiguous.
Print Assumptions C38_located.
