(** Facts about the token buffer and the monad of the parser. *)
From Verif Require Import Base Lexer SymTab Ast Eval ParserBase.
From Coq Require Import ZifyBool ZifyNat ZifyN.
Open Scope Z_scope.

(** [reads p ts p']: from [p] the tokens [ts] (without comments) can be read
    and then the parser is at [p']. *)
Inductive reads : pos -> list token -> pos -> Prop :=
| reads_nil p : reads p [] p
| reads_cons p tk n l ts p' : nt p = Some tk -> fetch (Some tk) (rest p) = Got (n, l) ->
    reads (Pos (Some tk) n l) ts p' -> reads p (tk :: ts) p'.

Lemma reads_app p ts q us r : reads p ts q -> reads q us r -> reads p (ts ++ us) r.
Proof. induction 1; intros H2; simpl; auto. econstructor; eauto. Qed.
Lemma reads_split p ts us r : reads p (ts ++ us) r -> exists q, reads p ts q /\ reads q us r.
Proof.
  revert p. induction ts as [|tk ts IH]; simpl; intros p H.
  - exists p. split; [constructor | auto].
  - inversion H; subst. destruct (IH _ H6) as (q & A & B). exists q. split; auto. econstructor; eauto.
Qed.
Lemma reads_first p tk ts r : reads p (tk :: ts) r -> nt p = Some tk.
Proof. intros H. inversion H; auto. Qed.
Lemma reads_det p ts q r : reads p ts q -> reads p ts r -> q = r.
Proof.
  intros H. revert r. induction H; intros r H2; inversion H2; subst; auto.
  assert (E : Got (n, l) = Got (n0, l0)) by congruence. inversion E; subst. auto.
Qed.

(** ** Progress *)
Definition opt1 {A} (o : option A) : nat := match o with Some _ => 1%nat | None => 0%nat end.
Definition rem (p : pos) : nat := (opt1 (nt p) + List.length (rest p))%nat.
Lemma fetch_length prev l n l' : fetch prev l = Got (n, l') -> (opt1 n + List.length l' <= List.length l)%nat.
Proof.
  revert prev. induction l as [|[tk|e|] l IH]; simpl; intros prev H; try discriminate.
  - inversion H; subst. simpl. lia.
  - destruct (kind_eq_dec (tk_kind tk) COMMENT).
    + apply IH in H. lia.
    + inversion H; subst. simpl. lia.
Qed.
Lemma reads_rem p ts q : reads p ts q -> (rem q + List.length ts <= rem p)%nat.
Proof.
  induction 1 as [p|p tk n l ts p' H H0 H1 IH]; simpl; [lia|].
  unfold rem at 2. rewrite H. apply fetch_length in H0. unfold rem in IH at 2. simpl in *. lia.
Qed.

(** ** Inversion of monadic code *)
Lemma pbind_ok {A B} (m : P A) (k : A -> P B) s b s' :
  pbind m k s = POk b s' -> exists a s1, m s = POk a s1 /\ k a s1 = POk b s'.
Proof. unfold pbind. destruct (m s); intros H; try discriminate. eauto. Qed.
Lemma pbind_do {A B} (m : P A) (k : A -> P B) s a s1 : m s = POk a s1 -> pbind m k s = k a s1.
Proof. unfold pbind. intros ->. auto. Qed.
Lemma lift_ok {A} (r : res perr A) s a s' : lift r s = POk a s' -> r = Ok a /\ s' = s.
Proof. destruct r; simpl; intros H; inversion H; auto. Qed.
(** A package that is not visible is never used. *)
Lemma hidden_not {A} N e (a : A) : hidden N e = Ok a -> False.
Proof. unfold hidden. destruct (n_imports N); discriminate. Qed.
Lemma hidden_no {A} N e s (a : A) s' : lift (hidden N e) s = POk a s' -> False.
Proof. intros H. apply lift_ok in H as (H & _). exact (hidden_not _ _ _ H). Qed.
Lemma hidden_fuel {A} N e : @hidden N A e <> OutOfFuel.
Proof. unfold hidden. destruct (n_imports N); discriminate. Qed.
Lemma pret_ok {A} (a b : A) s s' : pret a s = POk b s' -> b = a /\ s' = s.
Proof. intros H. inversion H; auto. Qed.
Lemma pnote_ok n s (a : unit) s' : pnote n s = POk a s' -> at_ s' = at_ s.
Proof. intros H. inversion H; auto. Qed.
Lemma pcond_cases {A} c (a b : P A) s r : pcond c a b s = r -> (c s = true /\ a s = r) \/ (c s = false /\ b s = r).
Proof. unfold pcond. destruct (c s); auto. Qed.
Lemma bind_ok {E A B} (r : res E A) (k : A -> res E B) b : bind r k = Ok b -> exists a, r = Ok a /\ k a = Ok b.
Proof. destruct r; simpl; intros H; try discriminate. eauto. Qed.

Section FILE.
Variable file : Z.

Lemma take_ok f e s tk s' : p_take file f e s = POk tk s' ->
  f tk = true /\ reads (at_ s) [tk] (at_ s') /\ out s' = out s.
Proof.
  unfold p_take. destruct (nt (at_ s)) as [tk'|] eqn:N; try discriminate.
  destruct (f tk') eqn:F; try discriminate. unfold pbind, p_advance. rewrite N.
  destruct (fetch (Some tk') (rest (at_ s))) as [[n l]|x [n l]|] eqn:E; try discriminate.
  intros H. inversion H; subst. simpl. split; auto. split; auto.
  econstructor; eauto. constructor.
Qed.
Lemma take_do f e s tk ts p' : reads (at_ s) (tk :: ts) p' -> f tk = true ->
  exists s1, p_take file f e s = POk tk s1 /\ reads (at_ s1) ts p' /\ (rem (at_ s1) < rem (at_ s))%nat.
Proof.
  intros H F. inversion H; subst. unfold p_take. rewrite H2, F. unfold pbind, p_advance. rewrite H2, H4.
  eexists. split; [reflexivity|]. simpl. split; auto.
  unfold rem. rewrite H2. simpl. apply fetch_length in H4. lia.
Qed.

Lemma is_kind_true k tk : is_kind k tk = true <-> tk_kind tk = k.
Proof. unfold is_kind. destruct (kind_eq_dec (tk_kind tk) k); split; intros; auto; try discriminate; contradiction. Qed.
Lemma has_text_true w tk : has_text w tk = true <-> tk_value tk = VText w.
Proof.
  unfold has_text. destruct (tk_value tk); split; intros H; try discriminate.
  - apply text_eqb_eq in H. subst; auto.
  - inversion H. apply text_eqb_refl.
Qed.
Lemma is_kw_true w tk : is_kw w tk = true <-> tk_kind tk = KEYWORD /\ tk_value tk = VText w.
Proof. unfold is_kw. rewrite andb_true_iff, is_kind_true, has_text_true. tauto. Qed.
Lemma is_op_true w tk : is_op w tk = true <-> tk_kind tk = OPERATOR /\ tk_value tk = VText w.
Proof. unfold is_op. rewrite andb_true_iff, is_kind_true, has_text_true. tauto. Qed.

Lemma match_ok k s tk s' : p_match file k s = POk tk s' ->
  tk_kind tk = k /\ reads (at_ s) [tk] (at_ s') /\ out s' = out s.
Proof. intros H. apply take_ok in H as (F & H). apply is_kind_true in F. auto. Qed.
Lemma match_kw_ok w s tk s' : p_match_kw file w s = POk tk s' ->
  (tk_kind tk = KEYWORD /\ tk_value tk = VText w) /\ reads (at_ s) [tk] (at_ s') /\ out s' = out s.
Proof. intros H. apply take_ok in H as (F & H). apply is_kw_true in F. auto. Qed.
Lemma match_do k s tk ts p' : reads (at_ s) (tk :: ts) p' -> tk_kind tk = k ->
  exists s1, p_match file k s = POk tk s1 /\ reads (at_ s1) ts p' /\ (rem (at_ s1) < rem (at_ s))%nat.
Proof. intros H F. eapply take_do; eauto. apply is_kind_true; auto. Qed.
Lemma match_kw_do w s tk ts p' : reads (at_ s) (tk :: ts) p' -> tk_kind tk = KEYWORD /\ tk_value tk = VText w ->
  exists s1, p_match_kw file w s = POk tk s1 /\ reads (at_ s1) ts p' /\ (rem (at_ s1) < rem (at_ s))%nat.
Proof. intros H F. eapply take_do; eauto. apply is_kw_true; auto. Qed.

Lemma next_reads f s tk ts p' : reads (at_ s) (tk :: ts) p' -> next_is f s = f tk.
Proof. intros H. apply reads_first in H. unfold next_is. rewrite H. auto. Qed.
Lemma peek_match k s tk s' : peek k s = true -> p_match file k s = POk tk s' -> nt (at_ s) = Some tk.
Proof. intros _ H. apply match_ok in H as (_ & H & _). eapply reads_first; eauto. Qed.
End FILE.

(** Stepping through a successful run. *)
Ltac pinv H :=
  cbv beta iota in H;
  match type of H with
  | pbind _ _ _ = POk _ _ =>
      let a := fresh "a" in let s := fresh "s" in let H1 := fresh "H" in
      apply pbind_ok in H as (a & s & H1 & H);
      try (match type of a with unit => destruct a end)
  | lift _ _ = POk _ _ => apply lift_ok in H as (H & ->)
  | pret _ _ = POk _ _ => first [apply pret_ok in H as (-> & ->) | inversion H; subst; clear H]
  end.
