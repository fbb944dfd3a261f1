(** The meaning of an expression is unique. *)
From Coq Require Import Qabs Qround.
From Verif Require Import Base Lexer PyText MathModel MathProofs Ast Eval TypesProofs Typing Soundness EvalSpec.
Open Scope Z_scope.

Lemma sval_ind2 (P : sval -> Prop) :
  (forall z, P (SInt z)) -> (forall q, P (SDec q)) -> (forall s, P (SStr s)) -> (forall b, P (SBool b)) ->
  (forall e n, P (SEnum e n)) -> (forall xs, (forall x, In x xs -> P x) -> P (SArr xs)) ->
  (forall xs, (forall k x, In (k, Some x) xs -> P x) -> P (STup xs)) -> (forall o, P (SObj o)) ->
  forall x, P x.
Proof.
  intros H1 H2 H3 H4 H5 H6 H7 H8. fix IH 1. intros [ | | | | |xs|xs| ]; [apply H1|apply H2|apply H3|apply H4|apply H5| | |apply H8].
  - apply H6. revert xs. fix IHl 1. intros [|y xs] x I; [contradiction|].
    destruct I as [<-|I]; [apply IH|apply (IHl xs x I)].
  - apply H7. revert xs. fix IHl 1. intros [|[k y] xs] k' x I; [contradiction|].
    destruct I as [E|I]; [destruct y as [y|]; [injection E as <- <-; apply IH|discriminate]|apply (IHl xs k' x I)].
Qed.

(** Lists of meanings *)
Lemma same_arr xs ys : same (SArr xs) (SArr ys) <-> Forall2 same xs ys.
Proof.
  revert ys; induction xs as [|x xs IH]; intros [|y ys]; cbn.
  - split; auto.
  - split; [contradiction|]. intros H; inversion H.
  - split; [contradiction|]. intros H; inversion H.
  - specialize (IH ys). cbn in IH. split.
    + intros [A B]. constructor; auto. apply IH; auto.
    + intros H; inversion H; subst. split; auto. apply IH; auto.
Qed.
Definition fsame (x y : text * option sval) : Prop := fst x = fst y /\ osame (snd x) (snd y).
Lemma same_tup xs ys : same (STup xs) (STup ys) <-> Forall2 fsame xs ys.
Proof.
  revert ys; induction xs as [|[k x] xs IH]; intros [|[k' y] ys]; cbn.
  - split; auto.
  - split; [contradiction|]. intros H; inversion H.
  - split; [contradiction|]. intros H; inversion H.
  - specialize (IH ys). cbn in IH. split.
    + intros (A & B & C). constructor; [split; auto|]. apply IH; auto.
    + intros H; inversion H as [|? ? ? ? [A B] C]; subst. split; auto. split; auto. apply IH; auto.
Qed.

Lemma Forall2_length {A B} (R : A -> B -> Prop) xs ys : Forall2 R xs ys -> List.length xs = List.length ys.
Proof. induction 1; cbn; congruence. Qed.
Lemma Forall2_in {A B} (R : A -> B -> Prop) xs ys x : Forall2 R xs ys -> In x xs -> exists y, In y ys /\ R x y.
Proof. induction 1; intros []; [subst; eauto using in_eq|]. destruct IHForall2 as (? & ? & ?); eauto using in_cons. Qed.
Lemma Forall2_in_r {A B} (R : A -> B -> Prop) xs ys y : Forall2 R xs ys -> In y ys -> exists x, In x xs /\ R x y.
Proof. induction 1; intros []; [subst; eauto using in_eq|]. destruct IHForall2 as (? & ? & ?); eauto using in_cons. Qed.

Lemma same_refl x : same x x.
Proof.
  induction x using sval_ind2; cbn; auto; try reflexivity.
  - apply same_arr. induction xs; constructor; auto with datatypes.
  - apply same_tup. induction xs as [|[k [x|]] xs IH]; constructor.
    + split; cbn; auto. eapply H. left; eauto.
    + apply IH. intros; eapply H; right; eauto.
    + split; cbn; auto.
    + apply IH. intros; eapply H; right; eauto.
Qed.
Lemma same_sym x : forall y, same x y -> same y x.
Proof.
  induction x using sval_ind2; intros [ | | | | |ys|ys| ]; try (cbn; intuition auto; fail).
  - cbn. intros E. rewrite E. reflexivity.
  - rewrite !same_arr. revert ys. induction xs; intros ys F; inversion F; subst; constructor; auto with datatypes.
  - rewrite !same_tup. revert ys. induction xs as [|[k x] xs IH]; intros ys F; inversion F as [|? [k' y] ? ? [A B] C]; subst; constructor.
    + split; cbn in *; auto. destruct x, y; cbn in *; auto. eapply H; eauto.
    + apply IH; auto. intros; eapply H; eauto using in_cons.
Qed.
Lemma same_trans x : forall y z, same x y -> same y z -> same x z.
Proof.
  induction x using sval_ind2; intros [ | | | | |ys|ys| ] [ | | | | |zs|zs| ]; try (cbn; intuition congruence; fail).
  - cbn. intros A B. rewrite A. exact B.
  - rewrite !same_arr. revert ys zs. induction xs; intros ys zs F G; inversion F; subst; inversion G; subst; constructor; eauto with datatypes.
  - rewrite !same_tup. revert ys zs.
    induction xs as [|[k x] xs IH]; intros ys zs F G; inversion F as [|? [k' y] ? ? [A B] C]; subst;
      inversion G as [|? [k'' z] ? ? [A' B'] C']; subst; constructor.
    + split; cbn in *; [congruence|]. destruct x, y, z; cbn in *; auto; try contradiction. eapply H; eauto.
    + eapply IH; eauto. intros k1 x1 I1. eapply (H k1); eauto with datatypes.
Qed.
Lemma osame_refl x : osame x x.
Proof. destruct x; cbn; auto using same_refl. Qed.
Lemma osame_sym x y : osame x y -> osame y x.
Proof. destruct x, y; cbn; auto using same_sym. Qed.
Lemma osame_trans x y z : osame x y -> osame y z -> osame x z.
Proof. destruct x, y, z; cbn; eauto using same_trans; contradiction. Qed.

Lemma osame_comp x y x' y' : osame x x' -> osame y y' -> (osame x y <-> osame x' y').
Proof.
  intros A B. split; intros H.
  - eapply osame_trans; [apply osame_sym; exact A|]. eapply osame_trans; [exact H|exact B].
  - eapply osame_trans; [exact A|]. eapply osame_trans; [exact H|apply osame_sym; exact B].
Qed.

Lemma bool_iff (r r' : bool) (P P' : Prop) : (r = true <-> P) -> (r' = true <-> P') -> (P <-> P') -> r = r'.
Proof. destruct r, r'; intros; auto; exfalso; intuition congruence. Qed.

Ltac same_cases :=
  repeat match goal with
  | H : same ?x ?y |- _ => is_var x; destruct x; try contradiction H
  | H : same ?x ?y |- _ => is_var y; destruct y; try contradiction H
  end.

Lemma nearest_away_comp q q' n : (q == q')%Q -> nearest_away q n -> nearest_away q' n.
Proof. intros E H m. specialize (H m). rewrite E in H. exact H. Qed.

Lemma op_unary_same op x y x' y' : op_unary op x y -> op_unary op x' y' -> same x x' -> same y y'.
Proof.
  intros A B S. destruct A; inversion B; subst; cbn in S; try contradiction; subst; cbn; auto;
    try (rewrite S; reflexivity).
  - apply same_arr in S. apply Forall2_length in S. congruence.
  - apply (nearest_away_unique q0); auto. apply (nearest_away_comp q); auto.
  - reflexivity.
Qed.

Lemma number_same x y p q : number x p -> number y q -> same x y -> (p == q)%Q.
Proof. intros A B S. destruct A; inversion B; subst; cbn in S; try contradiction; subst; auto; reflexivity. Qed.

Lemma ordering_comp op p q p' q' : (p == p')%Q -> (q == q')%Q -> ordering op p q <-> ordering op p' q'.
Proof. intros A B. destruct op; cbn; try tauto; rewrite A, B; tauto. Qed.

Section SEM.
Variable W : world.

Lemma op_binary_same a op x y z x' y' z' : op_binary W a op x y z -> op_binary W a op x' y' z' ->
  same x x' -> same y y' -> same z z'.
Proof.
  intros A B S T. destruct A; inversion B; subst;
    try (match goal with H : In _ _ |- _ => cbn in H; decompose [or] H; solve [discriminate|contradiction] end);
    cbn in S, T; try contradiction; subst; auto; cbn; auto;
    try (rewrite ?S, ?T; reflexivity).
  - eapply bool_iff; eauto. apply ordering_comp; eapply number_same; eauto.
  - eapply bool_iff; eauto. tauto.
  - eapply bool_iff; eauto. tauto.
  - eapply bool_iff; eauto. tauto.
  - congruence.
  - eapply bool_iff; eauto. change (same (SArr ys) (SArr ys0)) in T. apply same_arr in T. split; intros (u & I & E).
    + destruct (Forall2_in _ _ _ _ T I) as (v & J & F). exists v. split; auto.
      apply (same_trans v u); [apply same_sym; auto|]. eapply (same_trans u); [exact E|]; auto.
    + destruct (Forall2_in_r _ _ _ _ T I) as (v & J & F). exists v. split; auto.
      apply (same_trans v u); [auto|]. eapply (same_trans u); [exact E|]. apply same_sym; auto.
  - eapply is_floor_quotient_unique; eauto.
  - eapply is_remainder_unique; eauto.
  - change (same (SArr xs) (SArr xs0)) in S. apply same_arr in S.
    match goal with H : nth_error xs ?n = Some x, H' : nth_error xs0 ?n = Some z' |- _ => revert H H'; clear - S; generalize n end.
    induction S; intros [|n]; cbn; try discriminate; [congruence|eauto].
Qed.

Lemma vexpr_ind2 (P : vexpr -> Prop) :
  (forall l, P (XNull l)) -> (forall l k refs, P (XLit l k refs)) -> (forall l a op v, P v -> P (XUnary l a op v)) ->
  (forall l a vs, (forall v, In v vs -> P v) -> P (XArr l a vs)) ->
  (forall l u vs, (forall k v, In (k, v) vs -> P v) -> P (XTup l u vs)) ->
  (forall l a p n o, P (XRef l a p n o)) -> forall v, P v.
Proof.
  intros H1 H2 H3 H4 H5 H6. fix IH 1. intros [ | | |l a vs|l u vs| ]; [apply H1|apply H2|apply H3; apply IH| | |apply H6].
  - apply H4. revert vs. fix IHl 1. intros [|y vs] x I; [contradiction|].
    destruct I as [<-|I]; [apply IH|apply (IHl vs x I)].
  - apply H5. revert vs. fix IHl 1. intros [|[k y] vs] k' x I; [contradiction|].
    destruct I as [E|I]; [injection E as <- <-; apply IH|apply (IHl vs k' x I)].
Qed.

Lemma stores_same v : forall s s', stores v s -> stores v s' -> osame s s'.
Proof.
  induction v using vexpr_ind2; intros s s' A B; inversion A; subst; inversion B; subst; cbn [osame]; auto using same_refl.
  - eapply op_unary_same; eauto. apply (IHv (Some _) (Some _)); auto.
  - apply same_arr. clear A B.
    match goal with F : Forall2 _ vs ?xs, G : Forall2 _ vs ?ys |- _ => revert xs ys F G end.
    induction vs as [|v vs IH]; intros xs ys F G; inversion F; subst; inversion G; subst; constructor.
    + apply (H v (or_introl eq_refl) (Some _) (Some _)); auto.
    + apply IH; auto. intros; eapply H; eauto using in_cons.
  - apply same_tup. clear A B.
    match goal with F : Forall2 _ vs ?xs, G : Forall2 _ vs ?ys |- _ => revert xs ys F G end.
    induction vs as [|[k v] vs IH]; intros xs ys F G; inversion F as [|? ? ? ? [K1 V1]]; subst; inversion G as [|? ? ? ? [K2 V2]]; subst; constructor.
    + split; [congruence|]. cbn in *. eapply H; eauto.
    + apply IH; auto. intros; eapply H; eauto using in_cons.
Qed.

Lemma assoc_same k xs ys s s' : same (STup xs) (STup ys) -> assoc k xs = Some s -> assoc k ys = Some s' -> osame s s'.
Proof.
  rewrite same_tup. induction 1 as [|[a x] [b y] xs ys [A B] F IH]; cbn in *; try discriminate. subst b.
  destruct (text_eqb a k); auto. congruence.
Qed.

Ltac sb := match goal with H : same (SBool _) (SBool _) |- _ => cbn in H; discriminate H end.

Theorem sem_unique e : forall d s s', sem W d e s -> sem W d e s' -> osame s s'.
Proof.
  induction e using expr_ind2; intros d s s' A B.
  - inversion A; inversion B; subst; exact Logic.I.
  - inversion A; inversion B; subst; apply osame_refl.
  - inversion A; inversion B; subst. assert (v = v0) as <- by congruence. eapply stores_same; eauto.
  - inversion A; subst; inversion B; subst. eapply (op_unary_same op x y x0 y0); eauto. apply (IHe d (Some _) (Some _)); auto.
  - assert (H1 : forall x y, sem W d e1 (Some x) -> sem W d e1 (Some y) -> same x y) by (intros x y; apply (IHe1 d (Some x) (Some y))).
    assert (H2 : forall x y, sem W d e2 (Some x) -> sem W d e2 (Some y) -> same x y) by (intros x y; apply (IHe2 d (Some x) (Some y))).
    inversion A; subst; inversion B; subst; cbn [osame];
      try (match goal with H : strict_op _ |- _ => exfalso; apply H; cbn; tauto end);
      try (match goal with E : sem W d e1 (Some (SBool true)), F : sem W d e1 (Some (SBool false)) |- _ => discriminate (H1 _ _ E F) end);
      auto using same_refl.
    + cbn. eapply bool_iff; eauto. apply osame_comp; eauto.
    + cbn. eapply bool_iff; eauto. apply not_iff_compat. apply osame_comp; eauto.
    + eapply op_binary_same; eauto.
  - inversion A; subst; inversion B; subst; 
      match goal with E : sem W d e (Some ?x), F : sem W d e (Some ?y) |- _ => pose proof (IHe d _ _ E F) as Q end; cbn [osame] in Q; try contradiction.
    + eapply assoc_same; eauto.
    + cbn in Q; subst. assert (ob = ob0) as <- by congruence. assert (v = v0) as <- by congruence. eapply stores_same; eauto.
    + cbn in Q; subst. congruence.
    + cbn in Q; subst. congruence.
    + exact Logic.I.
  - inversion A; subst; inversion B; subst. cbn. 
    assert (S1 : same x x0) by (apply (IHe1 d (Some _) (Some _)); auto).
    assert (S2 : same y y0) by (apply (IHe2 d (Some _) (Some _)); auto).
    assert (S3 : same z z0) by (apply (IHe3 d (Some _) (Some _)); auto).
    assert (E1 : (p == p0)%Q) by (eapply number_same; eauto).
    assert (E2 : (q == q0)%Q) by (eapply number_same; eauto).
    assert (E3 : (r == r0)%Q) by (eapply number_same; eauto).
    eapply bool_iff; eauto. rewrite E1, E2, E3. tauto.
  - inversion A; subst. inversion B; subst. cbn.
    match goal with H1 : Forall2 _ es ?x, H2 : Forall2 _ es ?y |- _ => rename x into bs, y into bs', H1 into F, H2 into F' end.
    assert (bs = bs') as <-; [|eapply bool_iff; eauto; tauto]. 
    assert (H' := H). clear - F F' H'. rename H' into H.
    revert bs bs' F F'. induction es as [|e es IH]; intros bs bs' F F'; inversion F; subst; inversion F'; subst; auto.
    f_equal; [|apply IH; auto; intros; eapply H; eauto using in_cons].
    apply (H e (or_introl eq_refl) d (Some (SBool y)) (Some (SBool y0))); auto.
  - revert A B. induction acts as [|[c x] acts IH]; intros A B; inversion A; subst; inversion B; subst; eauto.
    + eapply (H c x (or_introl eq_refl)); eauto.
    + destruct (H c x (or_introl eq_refl)) as [Hc _].
      match goal with E : sem W d c (Some _), F : sem W d c (Some _) |- _ => discriminate (Hc d _ _ E F) end.
    + destruct (H c x (or_introl eq_refl)) as [Hc _].
      match goal with E : sem W d c (Some _), F : sem W d c (Some _) |- _ => discriminate (Hc d _ _ F E) end.
    + apply IH; auto. intros; eapply H; eauto using in_cons.
  - assert (X : forall w b b', sem W ((v, w) :: d) e (Some (SBool b)) -> sem W ((v, w) :: d) e (Some (SBool b')) -> b = b').
    { intros w b b' P Q. apply (IHe _ _ _ P Q). }
    inversion A; subst; inversion B; subst; cbn; auto;
      match goal with P : assoc _ d = Some _, Q : assoc _ d = Some _ |- _ => rewrite P in Q; injection Q; intros; subst end.
    + match goal with P : forall w, In w (_ ++ ?w0 :: _) -> _, Q : sem W ((v, ?w0) :: d) e _ |- _ =>
        pose proof (X _ _ _ (P w0 ltac:(auto with datatypes)) Q) end. destruct un; discriminate.
    + match goal with P : forall w, In w (_ ++ ?w0 :: _) -> _, Q : sem W ((v, ?w0) :: d) e _ |- _ =>
        pose proof (X _ _ _ (P w0 ltac:(auto with datatypes)) Q) end. destruct un; discriminate.
Qed.
End SEM.
