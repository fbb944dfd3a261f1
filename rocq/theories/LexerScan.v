(** The scanner of the lexer accepts exactly the declarative grammar. *)
From Coq Require Import QArith ZifyBool ZifyN ZifyNat.
From Verif Require Import Base PyText Lexer LexSpec LexerProofs.
Open Scope Z_scope.

(** ** Triple quotes *)

Lemma triple_reset (q : char) k (c : char) (a x y : text) :
  (k < 3)%nat -> c <> q ->
  repeat q k ++ c :: a = x ++ [q; q; q] ++ y ->
  exists x', x = repeat q k ++ c :: x' /\ a = x' ++ [q; q; q] ++ y.
Proof.
  intros Hk Hc E.
  destruct k as [|[|[|k]]]; try lia; simpl in *.
  - destruct x as [|x0 x]; simpl in E; inv E; try congruence. exists x; auto.
  - destruct x as [|x0 [|x1 x]]; simpl in E; inv E; try congruence. exists x; auto.
  - destruct x as [|x0 [|x1 [|x2 x]]]; simpl in E; inv E; try congruence. exists x; auto.
Qed.

Lemma repeat_snoc {A} (q : A) k r : repeat q (S k) ++ r = repeat q k ++ q :: r.
Proof. induction k as [|k IH]; simpl in *; auto. rewrite IH. auto. Qed.

Lemma find_triple_some q k r a b :
  (k < 3)%nat -> find_triple q k r = Some (a, b) ->
  r = a ++ b /\ first_end [q; q; q] (repeat q k ++ a).
Proof.
  revert k a b; induction r as [|c r IH]; cbn [find_triple]; intros k a b Hk H; [discriminate|].
  destruct (c =? q)%N eqn:Q.
  - apply N.eqb_eq in Q; subst c.
    destruct (2 <=? k)%nat eqn:K.
    + inv H. split; auto. assert (k = 2)%nat by lia. subst k. simpl. split; [exists []; auto|].
      intros x y E. destruct x as [|x0 x]; simpl in E; inv E; auto.
      destruct x as [|x1 x]; simpl in H1; inv H1; auto.
      destruct x as [|x2 x]; simpl in H2; inv H2; auto. destruct x; discriminate.
    + destruct (find_triple q (S k) r) as [[a' b']|] eqn:E; [|discriminate]. inv H.
      apply IH in E as [E1 E2]; [|lia]. subst r. split; auto.
      rewrite repeat_snoc in E2. exact E2.
  - apply N.eqb_neq in Q.
    destruct (find_triple q 0 r) as [[a' b']|] eqn:E; [|discriminate]. inv H.
    apply IH in E as [E1 ((x & E2) & E3)]; [|lia]. subst r. split; auto. simpl in *. split.
    + exists (repeat q k ++ c :: x). rewrite E2, <- app_assoc. auto.
    + intros x' y' E4. apply triple_reset in E4 as (x2 & _ & E5); auto. eapply E3; eauto.
Qed.

Lemma find_triple_none q k r :
  (k < 3)%nat -> find_triple q k r = None -> ~ contains [q; q; q] (repeat q k ++ r).
Proof.
  revert k; induction r as [|c r IH]; cbn [find_triple]; intros k Hk H (x & y & E).
  - rewrite app_nil_r in E. apply (f_equal (@length N)) in E.
    rewrite repeat_length, !app_length in E. simpl in E. lia.
  - destruct (c =? q)%N eqn:Q.
    + apply N.eqb_eq in Q; subst c. destruct (2 <=? k)%nat eqn:K; [discriminate|].
      destruct (find_triple q (S k) r) as [[a' b']|] eqn:F; [discriminate|].
      apply IH in F; [|lia]. apply F. exists x, y. rewrite repeat_snoc. auto.
    + apply N.eqb_neq in Q.
      destruct (find_triple q 0 r) as [[a' b']|] eqn:F; [discriminate|].
      apply IH in F; [|lia]. apply triple_reset in E as (x' & _ & E'); auto.
      apply F. exists x', y. auto.
Qed.

Lemma find_triple_complete q a b :
  first_end [q; q; q] a -> find_triple q 0 (a ++ b) = Some (a, b).
Proof.
  intros F. destruct (find_triple q 0 (a ++ b)) as [[a' b']|] eqn:E.
  - apply find_triple_some in E as [E1 E2]; [|lia]. simpl in E2.
    destruct (first_end_unique [q;q;q] a b a' b') as [-> ->]; auto. discriminate.
  - apply find_triple_none in E; [|lia]. simpl in E. destruct F as [(x & ->) _].
    exfalso. apply E. exists x, b. rewrite <- app_assoc. auto.
Qed.

Lemma find_close_complete (a b : text) :
  first_end [42%N; 47%N] (42%N :: a) ->
  exists a', a = a' ++ [47%N] /\ find_close 42 (a ++ b) = Some (a', 47%N :: b).
Proof.
  intros F. pose proof F as [(x & Ex) _].
  destruct (find_close 42 (a ++ b)) as [[a' b']|] eqn:E.
  - apply find_close_some in E as (b0 & E1 & E2 & E3). subst b'.
    assert (E4 : (42%N :: a) ++ b = (42%N :: a' ++ [47%N]) ++ b0).
    { simpl. rewrite E1, <- app_assoc. auto. }
    destruct (first_end_unique [42%N; 47%N] _ _ _ _ ltac:(discriminate) F E3 E4) as [E5 ->].
    inv E5. exists a'. auto.
  - apply find_close_none in E. exfalso. apply E. exists x, b.
    change (42%N :: a ++ b) with ((42%N :: a) ++ b). rewrite Ex, <- app_assoc. auto.
Qed.

(** ** Double-quoted strings *)

Definition cons_fst {B} (c : char) (p : text * B) : text * B := (c :: fst p, snd p).

Fixpoint find_quote (r : text) : text * option lex_msg :=
  match r with
  | [] => ([], Some Unterminated_string)
  | c :: r' =>
      if (c =? 34)%N then ([], None)
      else if (c =? 10)%N then ([], Some Newline_in_string)
      else match r' with
           | d :: r'' =>
               if ((c =? 92) && (d =? 34))%N
               then let (a, e) := find_quote r'' in (c :: d :: a, e)
               else let (a, e) := find_quote r' in (c :: a, e)
           | [] => let (a, e) := find_quote r' in (c :: a, e)
           end
  end.

Lemma strong_length_ind (P : text -> Prop) :
  (forall r, (forall r', (length r' < length r)%nat -> P r') -> P r) -> forall r, P r.
Proof.
  intros H r. remember (length r) as n eqn:E.
  revert r E. induction n as [n IH] using lt_wf_ind. intros r ->.
  apply H. intros r' L. eapply IH; eauto.
Qed.

Lemma find_quote_sound r a e :
  find_quote r = (a, e) ->
  exists b, r = a ++ b /\
    match e with
    | None => (exists b', b = 34%N :: b') /\ string_body a
    | Some _ => forall x y, r = x ++ 34%N :: y -> ~ string_body x
    end.
Proof.
  revert a e; induction r as [r IH] using strong_length_ind; intros a e H.
  destruct r as [|c r]; simpl in H.
  - inv H. exists []. split; auto. intros [|? ?] y E; discriminate.
  - destruct (c =? 34)%N eqn:C1.
    { apply N.eqb_eq in C1. subst. inv H. exists (34%N :: r). sp; auto.
      - exists r; auto.
      - unfold string_body; sp; [intros []| |]; intros [|? ?]; discriminate. }
    apply N.eqb_neq in C1.
    destruct (c =? 10)%N eqn:C2.
    { apply N.eqb_eq in C2. subst. inv H. exists (10%N :: r). split; auto.
      intros x y E (N & _). destruct x as [|x0 x]; simpl in E; inv E; try congruence.
      apply N. left; auto. }
    apply N.eqb_neq in C2.
    assert (Step : forall a0 e0, find_quote r = (a0, e0) -> (c <> 92%N \/ hd_error r <> Some 34%N) ->
              exists b, c :: r = (c :: a0) ++ b /\
              match e0 with
              | None => (exists b', b = 34%N :: b') /\ string_body (c :: a0)
              | Some _ => forall x y, c :: r = x ++ 34%N :: y -> ~ string_body x
              end).
    { intros a0 e0 H0 Hc. destruct (IH r ltac:(simpl; lia) _ _ H0) as (b & E & P).
      exists b. split; [simpl; f_equal; auto|]. destruct e0 as [m|].
      - intros x y E1 (S1 & S2 & S3). destruct x as [|x0 x]; simpl in E1; inv E1; [congruence|].
        eapply P; [eassumption|]. unfold string_body; sp.
        + intros X. apply S1. right; auto.
        + intros x1 y1 E2. subst x. destruct (S2 (x0 :: x1) y1 eq_refl) as ([|z x'] & E3); simpl in E3; inv E3.
          * exfalso. destruct Hc as [Hc|Hc]; [congruence|]. apply Hc. rewrite H3. auto.
          * exists x'; auto.
        + intros x1 E2. subst. eapply (S3 (x0 :: x1)); auto.
      - destruct P as ((b' & ->) & S1 & S2 & S3). split; [eauto|]. unfold string_body; sp.
        + intros [X|X]; auto.
        + intros x y E2. destruct x as [|x0 x]; simpl in E2; inv E2; [congruence|].
          destruct (S2 x y eq_refl) as (x' & ->). exists (x0 :: x'). auto.
        + intros x E2. destruct x as [|x0 x]; simpl in E2; inv E2.
          * destruct Hc as [Hc|Hc]; [congruence|]. apply Hc. auto.
          * eapply S3; eauto. }
    destruct r as [|d r'].
    + simpl in H. inv H. apply (Step [] (Some Unterminated_string)); auto. right; discriminate.
    + destruct ((c =? 92) && (d =? 34))%N eqn:C3.
      * apply andb_true_iff in C3 as [Ca Cb]. apply N.eqb_eq in Ca, Cb. subst c d.
        destruct (find_quote r') as [a0 e0] eqn:H0. inv H. clear Step.
        destruct (IH r' ltac:(simpl; lia) _ _ H0) as (b & E & P).
        exists b. split; [simpl; do 2 f_equal; auto|]. destruct e as [m|].
        -- intros x y E1 (S1 & S2 & S3). destruct x as [|x0 [|x1 x]]; simpl in E1; inv E1.
           ++ eapply (S3 []). reflexivity.
           ++ eapply P; [eassumption|]. unfold string_body; sp.
              ** intros X. apply S1. right; right; auto.
              ** intros x2 y2 E2. subst x. destruct (S2 (92%N :: 34%N :: x2) y2 eq_refl) as (x' & E3).
                 destruct x' as [|z1 [|z2 x']]; simpl in E3; inv E3; eauto. 
              ** intros x2 E2. subst. eapply (S3 (92%N :: 34%N :: x2)); auto.
        -- destruct P as ((b' & ->) & S1 & S2 & S3). split; [eauto|]. unfold string_body; sp.
           ++ intros [X|[X|X]]; auto; discriminate.
           ++ intros x y E2. destruct x as [|x0 [|x1 x]]; simpl in E2; inv E2.
              ** exists []; auto.
              ** destruct (S2 x y eq_refl) as (x' & ->). exists (92%N :: 34%N :: x'). auto.
           ++ intros x E2. destruct x as [|x0 [|x1 x]]; simpl in E2; inv E2.
              ** eapply S3; eauto. 
      * destruct (find_quote (d :: r')) as [a0 e0] eqn:H0. inv H. apply Step; auto.
        apply andb_false_iff in C3. destruct C3 as [C3|C3]; apply N.eqb_neq in C3; auto.
        right. simpl. congruence.
Qed.

Lemma string_body_unique (a b c d : text) :
  string_body a -> string_body c -> a ++ 34%N :: b = c ++ 34%N :: d -> a = c /\ b = d.
Proof.
  intros (A1 & A2 & A3) (C1 & C2 & C3) E.
  destruct (app_cmp _ _ _ _ E) as (x & [[E1 E2]|[E1 E2]]).
  - destruct x as [|x0 x]; [rewrite app_nil_r in E1; inv E2; auto|]. inv E2.
    destruct (A2 c x eq_refl) as (x' & ->). exfalso. eapply C3; eauto.
  - destruct x as [|x0 x]; [rewrite app_nil_r in E1; inv E2; auto|]. inv E2.
    destruct (C2 a x eq_refl) as (x' & ->). exfalso. eapply A3; eauto.
Qed.

Lemma find_quote_complete a b :
  string_body a -> find_quote (a ++ 34%N :: b) = (a, None).
Proof.
  intros S. destruct (find_quote (a ++ 34%N :: b)) as [a' e] eqn:E.
  apply find_quote_sound in E as (b0 & E1 & E2). destruct e as [m|].
  - exfalso. eapply E2; eauto.
  - destruct E2 as ((b' & ->) & S'). destruct (string_body_unique _ _ _ _ S S' E1) as [-> _]. auto.
Qed.

Section SCAN.
Variable content : text.
Notation len := (Lexer.len content).
Notation advance := (Lexer.advance content).
Notation fuel := (Lexer.fuel content).
Notation wf := (wf content).
Notation R := (R content).

Lemma string_loop_spec n s a e :
  wf s -> find_quote (R s) = (a, e) -> (length (R s) < n)%nat ->
  exists s', string_loop content n s = (s', Some e) /\ wf s' /\ R s = a ++ R s' /\
             lexpos s' = lexpos s + Z.of_nat (length a).
Proof.
  revert s a e. induction n as [|n IH]; intros s a e W H Hn; [lia|].
    cbn [string_loop]. rewrite (wf_nc _ s W).
    assert (W1 := wf_advance _ s W). assert (RA := R_advance content s (wf_pos _ s W)).
    assert (W2 := wf_advance _ _ W1). assert (RA2 := R_advance content _ (wf_pos _ _ W1)).
    assert (Hcc : cc (advance s) = hd_error (R s)) by (rewrite cc_advance; apply wf_nc; auto).
    assert (Hnc : nc (advance s) = hd_error (tl (R s))) by (rewrite (wf_nc _ _ W1), RA; auto).
    destruct (R s) as [|c r] eqn:ER; cbn [hd_error ceq find_quote tl] in *.
    - inv H. exists s. rewrite ER. sp; auto. simpl; lia.
    - destruct (c =? 34)%N eqn:C1.
      { inv H. exists s. rewrite ER. sp; auto. simpl; lia. }
      destruct (c =? 10)%N eqn:C2.
      { inv H. exists s. rewrite ER. sp; auto. simpl; lia. }
      cbv zeta. rewrite Hcc, Hnc. cbn [ceq].
      destruct r as [|d r]; cbn [hd_error ceq tl] in *.
      + rewrite andb_false_r. simpl in H. inv H.
        destruct (IH (advance s) [] (Some Unterminated_string)) as (s' & E1 & W' & E2 & E3); auto.
        * rewrite RA. auto.
        * rewrite RA; simpl in *; lia.
        * exists s'. rewrite E1. sp; auto; [rewrite RA in E2; simpl in *; congruence|rewrite E3; simpl; lia].
      + destruct ((c =? 92) && (d =? 34))%N eqn:C3.
        * destruct (find_quote r) as [a0 e0] eqn:F. inv H.
          destruct (IH (advance (advance s)) a0 e) as (s' & E1 & W' & E2 & E3); auto.
          -- rewrite RA2, RA. auto.
          -- rewrite RA2, RA; simpl in *; lia.
          -- exists s'. rewrite E1. sp; auto.
             ++ rewrite RA2, RA in E2. simpl in *. congruence.
             ++ rewrite E3. simpl. lia.
        * destruct (find_quote (d :: r)) as [a0 e0] eqn:F. inv H.
          destruct (IH (advance s) a0 e) as (s' & E1 & W' & E2 & E3); auto.
          -- rewrite RA. auto.
          -- rewrite RA; simpl in *; lia.
          -- exists s'. rewrite E1. sp; auto.
             ++ rewrite RA in E2. simpl in *. congruence.
             ++ rewrite E3. simpl. lia.
Qed.

(** ** Numbers *)

Inductive numend := NDone (require_digit dec : bool) | NErr (m : lex_msg).

Fixpoint num_list (cfg : numcfg) (req da dec : bool) (r : text) : text * text * numend :=
  let cons c p := match p with (a, b, e) => (c :: a, b, e) end in
  match r with
  | [] => ([], [], NDone req dec)
  | c :: r' =>
      if allowed cfg c then cons c (num_list cfg false da dec r')
      else if forbidden cfg c then ([], r, NErr Invalid_digit)
      else if req then ([], r, NErr Digit_required)
      else if (c =? 95)%N then cons c (num_list cfg true da dec r')
      else if (c =? 46)%N && ceq (hd_error r') 46 then ([], r, NDone req dec)
      else if (c =? 46)%N then
        if da then cons c (num_list cfg true false true r') else ([c], r', NErr Point_not_allowed)
      else ([], r, NDone req dec)
  end.

Lemma num_loop_spec cfg n req da dec s a b e :
  wf s -> num_list cfg req da dec (R s) = (a, b, e) -> (length (R s) < n)%nat ->
  exists s', wf s' /\ R s' = b /\ R s = a ++ b /\ lexpos s' = lexpos s + Z.of_nat (length a) /\
    match e with
    | NDone r d => num_loop content n cfg req da dec s = (s', NumDone r d)
    | NErr m => exists p, num_loop content n cfg req da dec s = (s', NumErr m p) /\ lexpos s < p < len
    end.
Proof.
  revert req da dec s a b e. induction n as [|n IH]; intros req da dec s a b e W H Hn; [lia|].
  cbn [num_loop]. rewrite (wf_nc _ s W), (wf_nnc _ s W).
  assert (W1 := wf_advance _ s W). assert (RA := R_advance content s (wf_pos _ s W)).
  assert (P1 : lexpos (advance s) = lexpos s + 1) by reflexivity.
  pose proof (R_length content s (wf_pos _ s W)) as L. pose proof (wf_pos _ s W) as P0.
  destruct (R s) as [|c r] eqn:ER; cbn [hd_error ceq num_list tl] in *.
  - inv H. exists s. sp; auto. simpl; lia.
  - assert (IHs : forall req' da' dec' a0 b0 e0, num_list cfg req' da' dec' r = (a0, b0, e0) ->
       exists s', wf s' /\ R s' = b0 /\ c :: r = (c :: a0) ++ b0 /\ lexpos s' = lexpos s + Z.of_nat (length (c :: a0)) /\
       match e0 with
       | NDone r0 d => num_loop content n cfg req' da' dec' (advance s) = (s', NumDone r0 d)
       | NErr m => exists p, num_loop content n cfg req' da' dec' (advance s) = (s', NumErr m p) /\ lexpos s < p < len
       end).
    { intros req' da' dec' a0 b0 e0 H0.
      destruct (IH req' da' dec' (advance s) a0 b0 e0) as (s' & A & B & C & D & E); auto.
      - rewrite RA; auto.
      - rewrite RA; simpl in *; lia.
      - exists s'. rewrite RA in C. sp; auto.
        + simpl. congruence.
        + rewrite D, P1. simpl length. lia.
        + destruct e0; auto. destruct E as (p & E & E'). exists p. split; auto. lia. }
    destruct (allowed cfg c).
    { destruct (num_list cfg false da dec r) as [[a0 b0] e0] eqn:F. inv H. apply IHs; auto. }
    destruct (forbidden cfg c).
    { inv H. exists s. sp; auto; [simpl; lia|]. exists (lexpos s + 1). split; auto. simpl in L. lia. }
    destruct req.
    { inv H. exists s. sp; auto; [simpl; lia|]. exists (lexpos s + 1). split; auto. simpl in L. lia. }
    destruct (c =? 95)%N.
    { destruct (num_list cfg true da dec r) as [[a0 b0] e0] eqn:F. inv H. apply IHs; auto. }
    destruct (c =? 46)%N; cbn [andb].
    + destruct (ceq (hd_error r) 46).
      { inv H. exists s. sp; auto. simpl; lia. }
      destruct da.
      * destruct (num_list cfg true false true r) as [[a0 b0] e0] eqn:F. inv H. apply IHs; auto.
      * inv H. exists (advance s). sp; auto.
        exists (lexpos (advance s)). split; auto. rewrite P1. simpl in L. lia.
    + inv H. exists s. sp; auto. simpl; lia.
Qed.

End SCAN.

(** The regular expression behind [num_list]. *)

Definition num_stops (cfg : numcfg) (b : text) : Prop :=
  match b with
  | [] => True
  | c :: b' => allowed cfg c = false /\ forbidden cfg c = false /\ c <> 95%N /\
               (c = 46%N -> exists r, b' = 46%N :: r)
  end.

Definition dgroups (cfg : numcfg) := digit_groups (fun c => allowed cfg c = true).

(** After a digit has been read. *)
Inductive more_digits (f : char -> Prop) : text -> Prop :=
| md_nil : more_digits f []
| md_cons c r : f c -> more_digits f r -> more_digits f (c :: r)
| md_under c r : f c -> more_digits f r -> more_digits f (95%N :: c :: r).

Lemma digit_groups_more f r : digit_groups f r <-> exists c r', r = c :: r' /\ f c /\ more_digits f r'.
Proof.
  split.
  - induction 1 as [c H|c r H _ (d & r' & -> & Hd & Hr)|c r H _ (d & r' & -> & Hd & Hr)].
    + exists c, []. sp; auto. constructor.
    + exists c, (d :: r'). sp; auto. constructor; auto.
    + exists c, (95%N :: d :: r'). sp; auto. apply md_under; auto.
  - intros (c & r' & -> & Hc & Hm). revert c Hc. induction Hm as [|d r Hd Hm IH|d r Hd Hm IH]; intros c Hc.
    + constructor; auto.
    + apply dg_more; auto.
    + apply dg_under; auto.
Qed.

Lemma num_sound cfg r : forall req da dec a b dec',
  num_list cfg req da dec r = (a, b, NDone false dec') ->
  num_stops cfg b /\
  exists a1, (if req then dgroups cfg a1 else more_digits (fun c => allowed cfg c = true) a1) /\
    ((a = a1 /\ dec' = dec) \/
     (da = true /\ dec' = true /\ exists a2, a = a1 ++ 46%N :: a2 /\ dgroups cfg a2)).
Proof.
  induction r as [|c r IH]; intros req da dec a b dec' H; cbn [num_list] in H.
  - inv H. split; [simpl; auto|]. exists []. split; [constructor|]. auto.
  - destruct (allowed cfg c) eqn:A.
    { destruct (num_list cfg false da dec r) as [[a0 b0] e0] eqn:F. inv H.
      apply IH in F as (S & a1 & M & D). split; auto. exists (c :: a1). split.
      - destruct req.
        + apply digit_groups_more. exists c, a1; auto.
        + constructor; auto.
      - destruct D as [[-> ->]|(-> & -> & a2 & -> & D)]; [left; auto|right; sp; auto].
        exists a2; auto. }
    destruct (forbidden cfg c) eqn:B; [discriminate|].
    destruct req; [discriminate|].
    destruct (c =? 95)%N eqn:U.
    { apply N.eqb_eq in U. subst c.
      destruct (num_list cfg true da dec r) as [[a0 b0] e0] eqn:F. inv H.
      apply IH in F as (S & a1 & M & D). split; auto. exists (95%N :: a1). split.
      - apply digit_groups_more in M as (d & r' & -> & Hd & Hm). apply md_under; auto.
      - destruct D as [[-> ->]|(-> & -> & a2 & -> & D)]; [left; auto|right; sp; auto].
        exists a2; auto. }
    apply N.eqb_neq in U.
    destruct (c =? 46)%N eqn:P; cbn [andb] in H.
    + apply N.eqb_eq in P. subst c.
      destruct (ceq (hd_error r) 46) eqn:C.
      { inv H. split.
        - simpl. sp; auto. intros _. destruct r as [|d r]; simpl in C; [discriminate|].
          apply N.eqb_eq in C. subst; eauto.
        - exists []. split; [constructor|auto]. }
      destruct da; [|discriminate].
      destruct (num_list cfg true false true r) as [[a0 b0] e0] eqn:F. inv H.
      apply IH in F as (S & a1 & M & D). split; auto. exists []. split; [constructor|].
      right. destruct D as [[-> ->]|(X & _)]; [|discriminate]. sp; auto. exists a1. auto.
    + apply N.eqb_neq in P. inv H. split.
      * simpl. sp; auto. intros; contradiction.
      * exists []. split; [constructor|auto].
Qed.

Definition cfg_ok (cfg : numcfg) : Prop :=
  allowed cfg 95 = false /\ forbidden cfg 95 = false /\
  allowed cfg 46 = false /\ forbidden cfg 46 = false.

Lemma num_stop_now cfg da dec b :
  num_stops cfg b -> num_list cfg false da dec b = ([], b, NDone false dec).
Proof.
  intros S. destruct b as [|c b]; simpl in *; auto. destruct S as (A & B & C & D).
  rewrite A, B. apply N.eqb_neq in C. rewrite C.
  destruct (c =? 46)%N eqn:P; auto. apply N.eqb_eq in P. destruct (D P) as (r & ->). auto.
Qed.

Lemma num_more cfg da dec a1 rest x y e :
  cfg_ok cfg -> more_digits (fun c => allowed cfg c = true) a1 ->
  num_list cfg false da dec rest = (x, y, e) ->
  num_list cfg false da dec (a1 ++ rest) = (a1 ++ x, y, e).
Proof.
  intros (K1 & K2 & _ & _) M H. induction M as [|c r Hc M IH|c r Hc M IH]; simpl; auto.
  - rewrite Hc, IH. auto.
  - rewrite K1, K2, Hc, IH. auto.
Qed.

Lemma num_groups cfg req da dec a1 rest x y e :
  cfg_ok cfg -> dgroups cfg a1 ->
  num_list cfg false da dec rest = (x, y, e) ->
  num_list cfg req da dec (a1 ++ rest) = (a1 ++ x, y, e).
Proof.
  intros K G H. apply digit_groups_more in G as (c & r & -> & Hc & M). simpl.
  rewrite Hc, (num_more _ _ _ _ _ _ _ _ K M H). auto.
Qed.

Lemma num_complete_int cfg req da dec a b :
  cfg_ok cfg -> dgroups cfg a -> num_stops cfg b ->
  num_list cfg req da dec (a ++ b) = (a, b, NDone false dec).
Proof.
  intros K G S. rewrite (num_groups _ _ _ _ _ _ _ _ _ K G (num_stop_now _ _ _ _ S)).
  rewrite app_nil_r. auto.
Qed.

Lemma num_complete_dec cfg req dec a1 a2 b :
  cfg_ok cfg -> dgroups cfg a1 -> dgroups cfg a2 -> num_stops cfg b ->
  num_list cfg req true dec (a1 ++ 46%N :: a2 ++ b) = (a1 ++ 46%N :: a2, b, NDone false true).
Proof.
  intros K G1 G2 S. erewrite num_groups; eauto.
  cbn [num_list]. pose proof K as (_ & _ & K3 & K4). rewrite K3, K4. cbn [N.eqb Pos.eqb andb].
  assert (ceq (hd_error (a2 ++ b)) 46 = false) as ->.
  { pose proof G2 as G. apply digit_groups_more in G as (c & r & -> & Hc & _). simpl.
    apply N.eqb_neq. intros ->. congruence. }
  erewrite num_complete_int; eauto.
Qed.
