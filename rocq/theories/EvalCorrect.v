(** The evaluator computes the meaning of an expression. *)
From Coq Require Import Relations Qabs Qround.
From Verif Require Import Base Lexer PyText MathModel MathProofs Ast Eval TypesProofs Typing Soundness EvalSpec EvalSpecProofs.
From Verif Require LexerValues.
Open Scope Z_scope.

Lemma pval_ind2 (P : pval -> Prop) :
  (forall z, P (PInt z)) -> (forall q, P (PFrac q)) -> (forall s, P (PStr s)) -> (forall b, P (PBool b)) ->
  (forall e n, P (PEnum e n)) ->
  (forall vs, (forall v p a, In v vs -> v_val v = Some (p, a) -> P p) -> P (PList vs)) ->
  (forall vs, (forall k v p a, In (k, v) vs -> v_val v = Some (p, a) -> P p) -> P (PTup vs)) ->
  (forall fs, P (PRec fs)) -> forall p, P p.
Proof.
  intros H1 H2 H3 H4 H5 H6 H7 H8. fix IH 1.
  intros [ | | | | |vs|vs| ]; [apply H1|apply H2|apply H3|apply H4|apply H5| | |apply H8].
  - apply H6. revert vs. fix IHl 1. intros [|[l o] vs] v p a I E; [contradiction|].
    destruct I as [<-|I]; [|apply (IHl vs v p a I E)].
    cbn in E. destruct o as [[q b]|]; [|discriminate]. injection E as <- <-. apply IH.
  - apply H7. revert vs. fix IHl 1. intros [|[k0 [l o]] vs] k v p a I E; [contradiction|].
    destruct I as [Ek|I]; [|apply (IHl vs k v p a I E)]. injection Ek as <- <-.
    cbn in E. destruct o as [[q b]|]; [|discriminate]. injection E as <- <-. apply IH.
Qed.

Section CORRECT.
Variable G : types.
Variable W : world.
Hypothesis wf : wf_types G.
Hypothesis ww : wt_world G W.
Hypothesis names_rec : forall r, NoDup (map c_name (all_components G r)).
Hypothesis names_tup : forall u ut, nth_error (tups G) u = Some ut -> NoDup (map c_name (u_comps ut)).

(** ** Values of the evaluator and their meaning *)
Fixpoint den (p : pval) (s : sval) {struct p} : Prop :=
  match p, s with
  | PInt a, SInt b => a = b
  | PFrac a, SDec b => (a == b)%Q
  | PStr a, SStr b => a = b
  | PBool a, SBool b => a = b
  | PEnum e a, SEnum f b => e = f /\ a = b
  | PList vs, SArr xs =>
      (fix go (vs : list value) (xs : list sval) : Prop :=
         match vs, xs with
         | [], [] => True
         | v :: vs', x :: xs' => match v_val v with Some (p, _) => den p x | None => False end /\ go vs' xs'
         | _, _ => False
         end) vs xs
  | PTup vs, STup xs =>
      (fix go (vs : list (text * value)) (xs : list (text * option sval)) : Prop :=
         match vs, xs with
         | [], [] => True
         | (k, v) :: vs', (k', x) :: xs' =>
             k = k' /\ match v_val v, x with
                       | Some (p, _), Some x => den p x
                       | None, None => True
                       | _, _ => False
                       end /\ go vs' xs'
         | _, _ => False
         end) vs xs
  | PRec fs, SObj o => exists ob, nth_error (w_objs W) o = Some ob /\ o_fields ob = fs
  | _, _ => False
  end.
Definition oden (v : value) (s : option sval) : Prop :=
  match v_val v, s with
  | Some (p, _), Some x => den p x
  | None, None => True
  | _, _ => False
  end.

Lemma den_arr vs xs : den (PList vs) (SArr xs) <-> Forall2 (fun v x => oden v (Some x)) vs xs.
Proof.
  revert xs; induction vs as [|v vs IH]; intros [|x xs]; cbn.
  - split; auto.
  - split; [contradiction|]. intros H; inversion H.
  - split; [contradiction|]. intros H; inversion H.
  - specialize (IH xs). cbn in IH. split.
    + intros [A B]. constructor; [|apply IH; auto]. unfold oden. destruct (v_val v) as [[p a]|]; auto.
    + intros H; inversion H; subst. split; [|apply IH; auto]. unfold oden in H3. destruct (v_val v) as [[p a]|]; auto.
Qed.
Lemma den_tup vs xs : den (PTup vs) (STup xs) <-> Forall2 (fun v x => fst v = fst x /\ oden (snd v) (snd x)) vs xs.
Proof.
  revert xs; induction vs as [|[k v] vs IH]; intros [|[k' x] xs]; cbn.
  - split; auto.
  - split; [contradiction|]. intros H; inversion H.
  - split; [contradiction|]. intros H; inversion H.
  - specialize (IH xs). cbn in IH. split.
    + intros (K & A & B). constructor; [|apply IH; auto]. cbn. split; auto.
    + intros H; inversion H as [|? ? ? ? [K A] B]; subst. cbn in *. split; auto. split; auto. apply IH; auto.
Qed.

(** ** Equality *)

(** No two objects hold the same stored values.  The evaluator identifies an
    object by the values it stores. *)
Definition distinct_objects : Prop :=
  forall o o' ob ob', nth_error (w_objs W) o = Some ob -> nth_error (w_objs W) o' = Some ob' ->
    (forall k, option_map fst (assoc k (o_fields ob)) = option_map fst (assoc k (o_fields ob'))) -> o = o'.

Lemma dict_eq_same {A} (R : A -> A -> Prop) eq (a b : list (text * A)) :
  NoDup (map fst a) -> NoDup (map fst b) ->
  (forall k x y, In (k, x) a -> In (k, y) b -> (eq x y = true <-> R x y)) ->
  dict_eq eq a b = true <->
  (forall k, match assoc k a, assoc k b with Some x, Some y => R x y | None, None => True | _, _ => False end).
Proof.
  intros Na Nb E. unfold dict_eq. rewrite andb_true_iff, Nat.eqb_eq, forallb_forall. split.
  - intros [L F] k. destruct (assoc k a) as [x|] eqn:Ea.
    + apply assoc_in in Ea. specialize (F _ Ea). cbn in F. destruct (assoc k b) as [y|] eqn:Eb; [|discriminate].
      apply (E k); auto. apply assoc_in; auto.
    + destruct (assoc k b) as [y|] eqn:Eb; auto.
      assert (Inc : incl (map fst a) (map fst b)).
      { intros k' I. apply in_map_iff in I as ((k1, x) & <- & I). specialize (F _ I). cbn in *.
        destruct (assoc k1 b) as [z|] eqn:Ez; [|discriminate]. apply assoc_in in Ez. apply in_map_iff. exists (k1, z); auto. }
      apply NoDup_length_incl in Inc; auto; [|rewrite !map_length; lia].
      apply assoc_none in Ea. apply Ea. apply Inc. apply assoc_in in Eb. apply in_map_iff. exists (k, y); auto.
  - intros H. split.
    + apply Nat.le_antisymm; rewrite <- (map_length fst a), <- (map_length fst b); apply NoDup_incl_length; auto.
      * intros k I. destruct (assoc k b) as [y|] eqn:Eb; [apply assoc_in in Eb; apply in_map_iff; exists (k, y); auto|].
        specialize (H k). rewrite Eb in H. destruct (assoc k a) eqn:Ea; [contradiction|]. apply assoc_none in Ea. contradiction.
      * intros k I. destruct (assoc k a) as [y|] eqn:Ea; [apply assoc_in in Ea; apply in_map_iff; exists (k, y); auto|].
        specialize (H k). rewrite Ea in H. destruct (assoc k b) eqn:Eb; [contradiction|]. apply assoc_none in Eb. contradiction.
    + intros (k, x) I. specialize (H k). rewrite (in_assoc _ _ _ Na I) in H. destruct (assoc k b) as [y|] eqn:Eb; [|contradiction].
      apply (E k); auto. apply assoc_in; auto.
Qed.

Lemma dict_eq_pointwise {A} (eq : A -> A -> bool) (a b : list (text * A)) :
  NoDup (map fst a) -> map fst a = map fst b ->
  dict_eq eq a b = true <-> Forall2 (fun x y => eq (snd x) (snd y) = true) a b.
Proof.
  intros N E. assert (L : List.length a = List.length b) by (rewrite <- (map_length fst a), E; apply map_length).
  unfold dict_eq. rewrite (proj2 (Nat.eqb_eq _ _) L). cbn [andb]. clear L. revert b N E.
  induction a as [|[k x] a IH]; intros [|[k' y] b] N E; try discriminate; cbn.
  - split; auto.
  - cbn in E. injection E as <- E. inversion N as [|? ? N1 N2]; subst. rewrite text_eqb_refl, andb_true_iff.
    assert (X : forallb (fun '(k0, x0) => match (if text_eqb k k0 then Some y else assoc k0 b) with Some y0 => eq x0 y0 | None => false end) a
              = forallb (fun '(k0, x0) => match assoc k0 b with Some y0 => eq x0 y0 | None => false end) a).
    { clear - N1. induction a as [|[k0 x0] a IH]; auto. cbn in *. rewrite IH by tauto.
      destruct (text_eqb k k0) eqn:Ek; auto. exfalso. apply text_eqb_eq in Ek. subst. tauto. }
    rewrite X, IH; auto. split.
    + intros [A' B]. constructor; auto.
    + intros H. inversion H; subst. auto.
Qed.

Lemma pval_eq_list xs ys : pval_eq (PList xs) (PList ys) = values_eq pval_eq xs ys.
Proof. destruct xs, ys; reflexivity. Qed.
Lemma pval_eq_tup xs ys : pval_eq (PTup xs) (PTup ys) = dict_eq (value_eq pval_eq) xs ys.
Proof.
  cbn. unfold dict_eq. f_equal. induction xs as [|[k x] xs IH]; auto. cbn. f_equal. apply IH.
Qed.

Lemma pt_fields_keys cs vs : pt_fields G W cs vs -> map fst vs = map c_name cs.
Proof. induction 1; cbn; congruence. Qed.

Hypothesis distinct : distinct_objects.

Definition compat (a b : ty) : Prop := a = b \/ (members a <> None /\ members b <> None).

Lemma value_eq_spec (v w : value) a s s' :
  (forall p t, v_val v = Some (p, t) -> forall a b q s s', pt G W a p -> pt G W b q -> compat a b -> den p s -> den q s' ->
     (pval_eq p q = true <-> same s s')) ->
  of_type G W (Some a) v -> of_type G W (Some a) w -> oden v s -> oden w s' ->
  (value_eq pval_eq v w = true <-> osame s s').
Proof.
  intros IH T T' D D'. unfold of_type, oden, value_eq in *.
  destruct (v_val v) as [[p b]|], (v_val w) as [[q c]|], s as [s|], s' as [s'|]; try contradiction; cbn;
    try (split; [discriminate|contradiction]); try tauto.
  destruct T as [[= <-] P], T' as [[= <-] Q]. rewrite ty_eqb_refl. cbn. eapply IH; eauto. left; auto.
Qed.

Lemma rec_eq o o' ob ob' fs fs' : nth_error (w_objs W) o = Some ob -> nth_error (w_objs W) o' = Some ob' ->
  o_fields ob = fs -> o_fields ob' = fs' ->
  (pval_eq (PRec fs) (PRec fs') = true <-> same (SObj o) (SObj o')).
Proof.
  intros E E' <- <-.
  change (dict_eq (fun x y : field => Nat.eqb (fst x) (fst y)) (o_fields ob) (o_fields ob') = true <-> o = o'). destruct (ww _ _ E) as (_ & _ & _ & N). destruct (ww _ _ E') as (_ & _ & _ & N').
  rewrite (dict_eq_same (fun x y : field => fst x = fst y)); auto; [|intros; apply Nat.eqb_eq]. split.
  - intros H. apply (distinct _ _ _ _ E E'). intros k. specialize (H k).
    destruct (assoc k (o_fields ob)), (assoc k (o_fields ob')); cbn; try contradiction; congruence.
  - intros ->. rewrite E in E'. injection E' as <-. intros k. destruct (assoc k (o_fields ob)); auto.
Qed.

Ltac rec_case D D' :=
  cbn in D, D'; let b1 := fresh in let b2 := fresh in let E1 := fresh in let E2 := fresh in
  let F1 := fresh in let F2 := fresh in
  destruct D as (b1 & E1 & F1), D' as (b2 & E2 & F2); apply (rec_eq _ _ _ _ _ _ E1 E2); auto.

Lemma pval_eq_spec p : forall a b q s s', pt G W a p -> pt G W b q -> compat a b -> den p s -> den q s' ->
  (pval_eq p q = true <-> same s s').
Proof.
  induction p using pval_ind2; intros ta tb r s1 s2 P Q C D D';
    inversion P; subst; inversion Q; subst; destruct C as [C|[C1 C2]]; try discriminate C; try (destruct (C1 eq_refl)); try (destruct (C2 eq_refl));
    destruct s1; try contradiction; destruct s2; try contradiction.
  all: try (cbn in D, D'; subst; cbn; rewrite ?text_eqb_eq; tauto).
  - cbn in D, D'. subst. cbn. unfold Qeq_bool, inject_Z. cbn. rewrite <- Zeq_is_eq_bool. lia.
  - cbn in D, D'. cbn [pval_eq as_num num_q]. rewrite Qeq_bool_iff. cbn. rewrite D, D'. tauto.
  - cbn in D, D'. subst. cbn. repeat match goal with b : bool |- _ => destruct b end; cbn; split; auto; try discriminate.
  - cbn in D, D'. destruct D as [-> ->], D' as [-> ->]. cbn. rewrite andb_true_iff, Nat.eqb_eq, text_eqb_eq. tauto.
  - rewrite pval_eq_list. rewrite same_arr. apply den_arr in D. apply den_arr in D'.
    injection C as -> -> -> ->.
    match goal with A : forall v, In v vs -> _, B : forall v, In v vs0 -> _ |- _ => rename A into T1, B into T2 end.
    clear P Q. revert vs0 xs xs0 D D' T2. induction vs as [|v vs IH]; intros ws xs ys D D' T2;
      inversion D; subst; inversion D'; subst; cbn; try (split; [discriminate|intros F; inversion F]; fail).
    + split; auto.
    + rewrite andb_true_iff. rewrite IH; eauto.
      2:{ intros; eapply H; eauto using in_cons. }
      2:{ auto using in_cons. }
      2:{ auto using in_cons. }
      destruct (T1 v (or_introl eq_refl)) as (p1 & V1 & P1). destruct (T2 _ (or_introl eq_refl)) as (p2 & V2 & P2).
      rewrite (value_eq_spec v _ el0 (Some y) (Some y0)); auto.
      * cbn. split; [intros [? ?]; constructor; auto|intros F; inversion F; auto].
      * intros; eapply H; eauto using in_eq.
      * unfold of_type. rewrite V1. auto.
      * unfold of_type. rewrite V2. auto.
  - injection C as ->. rewrite pval_eq_tup. rewrite same_tup. apply den_tup in D. apply den_tup in D'.
    match goal with A : nth_error (tups G) _ = Some _, B : nth_error (tups G) _ = Some _ |- _ => rewrite A in B; injection B as <-; pose proof (names_tup _ _ A) as Nd end.
    match goal with A : pt_fields G W _ vs, B : pt_fields G W _ vs0 |- _ =>
      rename A into T1, B into T2; pose proof (pt_fields_keys _ _ T1) as K1; pose proof (pt_fields_keys _ _ T2) as K2 end.
    rewrite dict_eq_pointwise by (try rewrite K1; auto; congruence). clear P Q K1 K2 Nd.
    revert vs0 xs xs0 D D' T2. induction T1 as [|c cs v p vs V P F IH|c cs v vs O N F IH]; intros ws xs ys D D' T2;
      inversion T2 as [|? ? w p' ws' V' P' F'|? ? w ws' O' N' F']; subst; inversion D as [|? [k x] ? ? [K1 D1] DT]; subst; inversion D' as [|? [k' y] ? ? [K2 D2] DT']; subst; try (cbn in K1, K2; subst).
    all: try (split; intros; constructor; fail).
    all: assert (X : value_eq pval_eq v w = true <-> osame x y)
           by (apply (value_eq_spec v w (c_typ c)); auto;
               [intros; eapply H; eauto using in_eq| |];
               unfold of_type; rewrite ?V, ?V', ?N, ?N'; auto).
    all: pose proof (IH (fun k v p a I => H k v p a (in_cons _ _ _ I)) _ _ _ DT DT' F') as Y.
    all: split; intros FF; inversion FF as [|? ? ? ? A B]; subst; (constructor; [|apply Y; exact B]).
    all: first [split; [reflexivity|apply X; exact A] | apply X; apply A].
  - rec_case D D'.
  - rec_case D D'.
  - rec_case D D'.
  - rec_case D D'.
  - rec_case D D'.
  - rec_case D D'.
Qed.

(** ** Stored values *)
Lemma stored_den a v : vt G W a v -> exists w s, eval_stored W v = Ok w /\ stores v (Some s) /\ oden w (Some s).
Proof.
  revert a v. apply (vt_mut G W
    (fun a v => exists w s, eval_stored W v = Ok w /\ stores v (Some s) /\ oden w (Some s))
    (fun cs vs => exists ws xs, (fix go (vs : list (text * vexpr)) : eres (list (text * value)) :=
                  match vs with
                  | [] => Ok []
                  | (k, a) :: vs' => do x <- eval_stored W a ; do xs <- go vs' ; Ok ((k, x) :: xs)
                  end) vs = Ok ws /\
       Forall2 (fun v x => fst v = fst x /\ stores (snd v) (snd x)) vs xs /\
       Forall2 (fun v x => fst v = fst x /\ oden (snd v) (snd x)) ws xs)).
  - intros l k refs. exists (eval_lit l k), (of_lit k). split; auto. split; [constructor|].
    destruct k; cbn; auto; reflexivity.
  - intros l a op l' k refs A O K. subst a.
    destruct A as [A|A], O as [-> | ->], k as [z|q|s [|]|b|e n]; try discriminate; cbn;
      do 2 eexists; (split; [reflexivity|split; [econstructor; [constructor|cbn; constructor]|cbn; reflexivity]]).
  - intros l i lo hi el vs _ IH. cbn.
    assert (X : exists ws xs, (fix go (vs : list vexpr) : eres (list value) :=
                  match vs with
                  | [] => Ok []
                  | a :: vs' => do x <- eval_stored W a ; do xs <- go vs' ; Ok (x :: xs)
                  end) vs = Ok ws /\ Forall2 (fun v x => stores v (Some x)) vs xs /\ Forall2 (fun v x => oden v (Some x)) ws xs).
    { induction vs as [|v vs IHvs].
      - exists [], []. auto.
      - destruct (IH v (or_introl eq_refl)) as (w & s & E & V & P).
        destruct IHvs as (ws & xs & E' & F & F'); [intros; apply IH; right; auto|].
        exists (w :: ws), (s :: xs). rewrite E. cbn. rewrite E'. auto. }
    destruct X as (ws & xs & E & F & F'). rewrite E. cbn [bind]. do 2 eexists. split; [reflexivity|].
    split; [constructor; eauto|]. unfold oden. cbn [v_val]. apply den_arr; auto.
  - intros l u ut vs E _ (ws & xs & Eg & F & F'). cbn. rewrite Eg. cbn [bind]. do 2 eexists. split; [reflexivity|].
    split; [constructor; eauto|]. unfold oden. cbn [v_val]. apply den_tup; auto.
  - intros l r pkg name o ob E F. cbn. rewrite E. do 2 eexists. split; [reflexivity|]. split; [constructor|]. cbn. eauto.
  - intros l i ms pkg name o ob E F. cbn. rewrite E. do 2 eexists. split; [reflexivity|]. split; [constructor|]. cbn. eauto.
  - exists [], []. auto.
  - intros c cs v vs _ (w & s & E & V & P) _ (ws & xs & Eg & F & F'). exists ((c_name c, w) :: ws), ((c_name c, Some s) :: xs).
    rewrite E. cbn. rewrite Eg. cbn. auto.
  - intros c cs l vs O _ (ws & xs & Eg & F & F'). exists ((c_name c, null_value l) :: ws), ((c_name c, None) :: xs).
    cbn. rewrite Eg. cbn. split; auto. split; constructor; auto; cbn; split; auto. constructor.
Qed.
Lemma fits_den a opt v : fits G W a opt v -> exists w s, eval_stored W v = Ok w /\ stores v s /\ oden w s.
Proof.
  intros [V|(O & l & ->)].
  - destruct (stored_den _ _ V) as (w & s & ?). exists w, (Some s). auto.
  - exists (null_value l), None. cbn. repeat split; auto. constructor.
Qed.

(** ** Expressions *)

(** Where the evaluator follows the manual. *)
Definition regular_at (e : expr) : Prop :=
  match e with
  | EBinary _ _ (B_and | B_or | B_implies) _ b => maybe_null b = false
  | EBinary _ _ B_arrcontains a b =>
      match e_typ b with Some (TArr _ _ _ el) => e_typ a = Some el | _ => False end
  | EOneof _ es => forall e, In e es -> maybe_null e = false
  | _ => True
  end.
Definition regular (e : expr) : Prop := forall x, sub x e -> regular_at x.

Definition correct (d : list (text * vexpr)) (e : expr) : Prop :=
  match evaluate W (Some d) e with
  | Ok v => exists s, sem W d e s /\ oden v s
  | Err _ => forall s, ~ sem W d e s
  | _ => False
  end.

Lemma num_den a p s : pt G W a p -> In a [TInt; TDec] -> den p s ->
  exists n x, as_num p = Some n /\ number s x /\ (num_q n == x)%Q.
Proof.
  intros P I D. destruct (pt_num _ _ _ _ P I) as [(-> & z & ->)|(-> & q & ->)]; destruct s; try contradiction; cbn in D.
  - subst. do 2 eexists. split; [reflexivity|]. split; [constructor|]. reflexivity.
  - do 2 eexists. split; [reflexivity|]. split; [constructor|]. exact D.
Qed.

Lemma unary_correct S l a op e p b v s : wt G W true S (EUnary l a op e) ->
  e_typ e = Some b -> pt G W b p -> den p s -> v_val v = Some (p, b) ->
  exists w y, eval_unary l a op v = Ok w /\ op_unary op s y /\ oden w (Some y).
Proof.
  intros T Et P D V. unfold eval_unary. rewrite V.
  inversion T; subst; clear T; match goal with H : e_typ e = Some _ |- _ => rewrite H in Et; injection Et as <- end.
  - match goal with H : In _ [TInt; TDec] |- _ => destruct (pt_num _ _ _ _ P H) as [(-> & z & ->)|(-> & q & ->)] end;
      match goal with H : In op _ |- _ => destruct H as [<-|[<-|[<-|[]]]] end; destruct s; try contradiction; cbn in D; subst;
      do 2 eexists; (split; [reflexivity|]); (split; [constructor|]); cbn; try rewrite D; reflexivity.
  - destruct (pt_boolean _ _ _ P) as (z & ->). destruct s; try contradiction; cbn in D; subst.
    do 2 eexists; (split; [reflexivity|]); (split; [constructor|]);reflexivity.
  - match goal with H : In _ [TStr; TMarkup] |- _ => destruct (pt_string _ _ _ _ P H) as (z & ->) end.
    destruct s; try contradiction; cbn in D; subst.
    do 2 eexists; (split; [reflexivity|]); (split; [constructor|]);reflexivity.
  - inversion P; subst. destruct s; try contradiction. apply den_arr in D. apply Forall2_length in D.
    do 2 eexists; (split; [reflexivity|]); (split; [constructor|]). cbn. apply f_equal. exact D.
  - match goal with H : In _ [TInt; TDec] |- _ => destruct (pt_num _ _ _ _ P H) as [(-> & z & ->)|(-> & q & ->)] end;
      match goal with H : In (op, _) _ |- _ => destruct H as [E|[E|[]]]; injection E as <- <- end; destruct s; try contradiction; cbn in D; subst;
      do 2 eexists; (split; [reflexivity|]); (split; [constructor|]); try (cbn; try rewrite D; reflexivity).
    apply (nearest_away_comp q); auto. apply round_nearest_away_spec.
Qed.

Lemma nth_error_Some_lt {A} (l : list A) n x : nth_error l n = Some x -> (n < List.length l)%nat.
Proof. intros E. apply nth_error_Some. congruence. Qed.

Lemma substring_spec (s u : text) : is_substring s u = true <-> exists p q, u = p ++ s ++ q.
Proof.
  induction u as [|c u IH]; cbn.
  - rewrite orb_false_r. rewrite LexerValues.starts_with_spec. split.
    + intros (q & E). exists [], q. auto.
    + intros (p & q & E). symmetry in E. apply app_eq_nil in E as [-> E]. exists q. auto.
  - rewrite orb_true_iff, IH. change (starts_with s (c :: u) = true \/ (exists p q, u = p ++ s ++ q) <-> exists p q, c :: u = p ++ s ++ q).
    rewrite LexerValues.starts_with_spec. split.
    + intros [(q & E)|(p & q & E)]; [exists [], q; auto|]. exists (c :: p), q. cbn. congruence.
    + intros ([|c' p] & q & E); [left; exists q; auto|]. right. exists p, q. cbn in E. congruence.
Qed.

Ltac not_order := match goal with H : In _ [B_lt; B_leq; B_gt; B_geq] |- _ => cbn in H; exfalso; intuition discriminate end.

Lemma Qpower_comp x y n : (x == y)%Q -> (Qpower x n == Qpower y n)%Q.
Proof. intros E. rewrite E. reflexivity. Qed.

Lemma binary_correct S d l o op a b p q ta tb v w s u :
  wt G W true S (EBinary l o op a b) -> strict_op op -> regular_at (EBinary l o op a b) ->
  e_typ a = Some ta -> pt G W ta p -> den p s -> v_val v = Some (p, ta) ->
  e_typ b = Some tb -> pt G W tb q -> den q u -> v_val w = Some (q, tb) -> evaluate W (Some d) b = Ok w ->
  match eval_binary W l o op v w with
  | Ok r => exists z, op_binary W (Some ta) op s u z /\ oden r (Some z)
  | Err _ => forall z, ~ op_binary W (Some ta) op s u z
  | _ => False
  end.
Proof.
  intros T St Rg Et P D V Et0 P0 D0 V0 Ev0. unfold eval_binary. rewrite V, V0.
  inversion T; subst; clear T;
    repeat match goal with
    | H : e_typ a = Some _ |- _ => rewrite H in Et; injection Et as <-
    | H : e_typ b = Some _ |- _ => rewrite H in Et0; injection Et0 as <-
    end.
  - (* logic *)
    destruct (pt_boolean _ _ _ P) as (x & ->). destruct (pt_boolean _ _ _ P0) as (y & ->).
    match goal with H : In op _ |- _ => destruct H as [<-|[<-|[<-|[<-|[]]]]] end;
      try (exfalso; apply St; cbn; tauto).
    destruct s, u; try contradiction. cbn in D, D0. subst. eexists. split; [constructor|reflexivity].
  - exfalso. apply St. cbn in *. tauto.
  - match goal with H : In _ [TInt; TDec] |- _ =>
      destruct (num_den _ _ _ P H D) as (m & x & Em & Nx & Ex); destruct (num_den _ _ _ P0 H D0) as (m' & y & Em' & Ny & Ey)
    end.
    match goal with H : In op _ |- _ => pose proof H as Io; destruct H as [<-|[<-|[<-|[<-|[]]]]] end;
      unfold compare; rewrite Em, Em'; cbn [bind mk_value]; eexists; (split; [eapply ob_order; eauto|unfold oden; cbn; reflexivity]);
      cbn [ordering]; unfold num_lt, num_le; rewrite ?negb_true_iff, ?Qle_bool_iff, <- Ex, <- Ey;
      try (split; auto; fail); rewrite <- not_true_iff_false, Qle_bool_iff; (split; [apply Qnot_le_lt|apply Qlt_not_le]).
  - match goal with H : In s0 _, H' : In s' _ |- _ => destruct (pt_string _ _ _ _ P H) as (x & ->); destruct (pt_string _ _ _ _ P0 H') as (y & ->) end.
    destruct s, u; try contradiction. cbn in D, D0. subst.
    match goal with H : In op _ |- _ => destruct H as [<-|[<-|[<-|[]]]] end; cbn [py_str bind mk_value]; eexists; (split; [constructor|reflexivity]).
    + apply substring_spec.
    + apply LexerValues.starts_with_spec.
    + apply LexerValues.ends_with_spec.
  - match goal with H : In s0 _, H' : In s' _ |- _ => destruct (pt_string _ _ _ _ P H) as (x & ->) end.
    match goal with H : evaluate W None b = _ |- _ => rewrite (static_eval _ _ _ H d) in Ev0; injection Ev0 as <- end.
    cbn in V0. injection V0 as <- <-. cbn. destruct s, u; try contradiction. cbn in D, D0. subst.
    match goal with H : forall x, w_match W _ x <> None |- _ => specialize (H s) end.
    destruct (w_match W _ s) eqn:Em; [|congruence]. eexists. split; [constructor; eauto|reflexivity].
  - cbn in Rg. match goal with H : e_typ b = _ |- _ => rewrite H in Rg end.
    assert (x = el) as -> by congruence. inversion P0 as [ | | | | | |? ? ? ? vs F| | | ]; subst. destruct u; try contradiction. apply den_arr in D0.
    eexists. split; [constructor|reflexivity]. rewrite existsb_exists. 
    assert (X : forall r y, In r vs -> oden r (Some y) -> (value_eq pval_eq r v = true <-> same y s)).
    { intros r y Ir Dr. destruct (F r Ir) as (pr & Vr & Pr). unfold value_eq, oden in *. rewrite Vr in *. rewrite V.
      rewrite ty_eqb_refl. cbn. eapply pval_eq_spec; eauto. left; auto. }
    split.
    + intros (r & Ir & E). destruct (Forall2_in _ _ _ _ D0 Ir) as (y & Iy & Dy). exists y. split; auto. apply (X r y); auto.
    + intros (y & Iy & E). destruct (Forall2_in_r _ _ _ _ D0 Iy) as (r & Ir & Dy). exists r. split; auto. apply (X r y); auto.
  - match goal with H : In _ [TInt; TDec] |- _ =>
      destruct (pt_num _ _ _ _ P H) as [(En & z & ->)|(En & z & ->)]; destruct (pt_num _ _ _ _ P0 H) as [(En' & z' & ->)|(En' & z' & ->)]
    end; subst; try discriminate; destruct s, u; try contradiction; cbn in D, D0; subst;
    match goal with H : In op _ |- _ => destruct H as [<-|[<-|[<-|[<-|[]]]]] end; cbn [arith as_num bind mk_value num_q];
    try (eexists; split; [constructor|cbn; rewrite ?D, ?D0; reflexivity]; fail).
    + rewrite Qeq_bool_inject. destruct (z1 =? 0) eqn:Z0.
      * intros r X. inversion X; subst; try lia. not_order.
      * destruct (int_divide_spec z0 z1) as (r & Er & Fr); [lia|]. rewrite Er. eexists. split; [constructor; [lia|eauto]|reflexivity].
    + destruct (Qeq_bool z' 0) eqn:Z0.
      * apply Qeq_bool_iff in Z0. intros r X. inversion X; subst; try (not_order).
        match goal with H : ~ (_ == 0)%Q |- _ => apply H; rewrite <- D0; auto end.
      * eexists. split; [constructor|cbn; rewrite D, D0; reflexivity]. intros X. rewrite <- D0 in X. apply Qeq_bool_iff in X. congruence.
  - match goal with H : In s0 _, H' : In s' _ |- _ => destruct (pt_string _ _ _ _ P H) as (x & ->); destruct (pt_string _ _ _ _ P0 H') as (y & ->) end.
    destruct s, u; try contradiction. cbn in D, D0. subst. eexists. split; [constructor|reflexivity].
  - destruct (pt_integer _ _ _ P) as (x & ->). destruct (pt_integer _ _ _ P0) as (y & ->).
    destruct s, u; try contradiction. cbn in D, D0. subst. cbn.
    destruct (z0 =? 0) eqn:Z0.
    + intros r X. inversion X; subst; try lia. not_order.
    + destruct (remainder_spec z z0) as (r & Er & Fr); [lia|]. rewrite Er. eexists. split; [constructor; [lia|eauto]|reflexivity].
  - match goal with H : evaluate W None b = _ |- _ => rewrite (static_eval _ _ _ H d) in Ev0; injection Ev0 as <- end.
    cbn in V0. injection V0 as <-. cbn. destruct u; try contradiction. cbn in D0. subst.
    assert (z <? 0 = false) as K by lia.
    match goal with H : In _ [TInt; TDec] |- _ => destruct (pt_num _ _ _ _ P H) as [(-> & y & ->)|(-> & y & ->)] end;
      cbn; rewrite K; cbn; destruct s; try contradiction; cbn in D; subst; eexists; (split; [constructor; auto|]); cbn; auto.
    rewrite D. reflexivity.
  - destruct (pt_integer _ _ _ P0) as (y & ->). inversion P as [ | | | | | |? ? ? ? vs F| | | ]; subst. cbn [py_int as_num bind].
    destruct s, u; try contradiction. cbn in D0. subst. apply den_arr in D.
    assert (No : ~ (0 <= z /\ (forall h, hi = Some h -> z <= h) /\ z < Z.of_nat (List.length xs)) ->
                 forall r, ~ op_binary W (Some (TArr i lo hi el)) B_index (SArr xs) (SInt z) r).
    { intros Nn r X. inversion X; subst; try (not_order).
      match goal with H : Some _ = Some _ |- _ => injection H; intros; subst end. apply Nn. split; auto. split; auto.
      match goal with H : nth_error _ _ = Some _ |- _ => apply nth_error_Some_lt in H end. lia. }
    assert (Le := Forall2_length _ _ _ D). unfold value in Le.
    destruct (z <? 0) eqn:E1; [apply No; lia|].
    destruct (match hi with Some h => h <? z | None => false end) eqn:E2.
    { apply No. intros (_ & H & _). destruct hi as [h|]; [|discriminate]. specialize (H h eq_refl). lia. }
    destruct (Z.of_nat (List.length vs) <? z) eqn:E3; [apply No; lia|].
    destruct (nth_error vs (Z.to_nat z)) as [x|] eqn:N.
    + destruct (F x (nth_error_In _ _ N)) as (r & Vx & Q). rewrite Vx. cbn.
      destruct (nth_error xs (Z.to_nat z)) as [y|] eqn:M.
      * exists y. split; [eapply ob_index; eauto; [lia|]|].
        { intros h ->. lia. }
        assert (oden x (Some y)) as Ox.
        { clear - D N M. revert N M. generalize (Z.to_nat z). induction D; intros [|n]; cbn; try discriminate; eauto. congruence. }
        unfold oden in Ox. rewrite Vx in Ox. exact Ox.
      * apply nth_error_None in M. apply nth_error_Some_lt in N. lia.
    + apply nth_error_None in N. apply No. lia.
Qed.

(** What the meaning of a compound expression needs. *)
Lemma sem_lhs d l o op a b s : sem W d (EBinary l o op a b) s -> is_eq op = false -> exists x, sem W d a (Some x).
Proof. intros X E. inversion X; subst; eauto; discriminate. Qed.
Lemma sem_strict d l o op a b s : sem W d (EBinary l o op a b) s -> strict_op op ->
  exists x y z, sem W d a (Some x) /\ sem W d b (Some y) /\ op_binary W (e_typ a) op x y z.
Proof.
  intros X St. inversion X; subst; try (exfalso; apply St; cbn; tauto). eauto 8.
Qed.
Lemma den_same p : forall s s', den p s -> same s s' -> den p s'.
Proof.
  induction p using pval_ind2; intros [ | | | | |xs|xs| ] [ | | | | |ys|ys| ] D S; try contradiction D; try contradiction S;
    try (cbn in *; intuition congruence; fail).
  - cbn in *. rewrite D. exact S.
  - apply den_arr in D. apply den_arr. apply same_arr in S. revert ys S.
    induction D as [|v x vs xs V D IH]; intros ys S; inversion S; subst; constructor.
    + unfold oden in *. destruct (v_val v) as [[p a]|] eqn:E; auto. eapply H; eauto using in_eq.
    + apply IH; auto. intros; eapply H; eauto using in_cons.
  - apply den_tup in D. apply den_tup. apply same_tup in S. revert ys S.
    induction D as [|[k v] [k' x] vs xs [K V] D IH]; intros ys S; inversion S as [|? [k'' y] ? ? [K' V'] F]; subst; constructor.
    + cbn in *. split; [congruence|]. unfold oden in *. destruct (v_val v) as [[p a]|] eqn:E, x, y; cbn in *; auto; try contradiction.
      eapply H; eauto using in_eq.
    + apply IH; auto. intros; eapply H; eauto using in_cons.
  - cbn in *. subst. auto.
Qed.

Lemma truthy_bool b : truthy (PBool b) = b.
Proof. reflexivity. Qed.

Lemma app_split {A} (pre done : list A) v post b rest :
  done ++ b :: rest = pre ++ v :: post -> In b pre \/ v = b \/ In v done.
Proof.
  revert done. induction pre as [|p pre IH]; intros [|x done] E; cbn in E; injection E; intros; subst.
  - auto.
  - right; right; left; auto.
  - left; left; auto.
  - destruct (IH done) as [?|[?|?]]; auto; [left; right|right; right; right]; auto.
Qed.

Lemma quant_stuck d l un var ls src body l' a done b rest :
  assoc (c_name src) d = Some (XArr l' a (done ++ b :: rest)) ->
  (forall v, In v done -> sem W ((var, v) :: d) body (Some (SBool un))) ->
  (forall x, ~ sem W ((var, b) :: d) body (Some (SBool x))) ->
  forall s, ~ sem W d (EQuant l un var ls src body) s.
Proof.
  intros A Dn B s X. inversion X; subst;
    match goal with H : assoc _ d = Some _ |- _ => rewrite A in H; injection H; intros; subst end.
  - eapply B. match goal with H : forall v, In v (_ ++ _) -> _ |- _ => apply H end. auto with datatypes.
  - match goal with H : done ++ b :: rest = pre ++ v :: post |- _ => rename H into E end.
    apply app_split in E as [E|[E|E]].
    + eapply (B un). auto.
    + subst. eapply B; eauto.
    + match goal with H : sem W ((var, v) :: d) body (Some (SBool (negb un))) |- _ => pose proof (sem_unique _ _ _ _ _ (Dn v E) H) as Q end.
      cbn in Q. destruct un; discriminate.
Qed.

Lemma opt_eq_spec ta tb (v w : value) s u : comparable G ta tb -> of_type G W ta v -> of_type G W tb w ->
  oden v s -> oden w u -> (opt_eq (v_val v) (v_val w) = true <-> osame s u).
Proof.
  intros C T T' D D'. unfold of_type, oden, opt_eq in *.
  destruct (v_val v) as [[p a]|], (v_val w) as [[q b]|], s as [s|], u as [u|]; try contradiction; cbn;
    try (split; [discriminate|contradiction]); try tauto.
  destruct T as [-> P], T' as [-> Q]. eapply pval_eq_spec; eauto. inversion C; subst; [left; auto|right; split; congruence].
Qed.

Lemma equality_correct S d l a op e1 e2 v w s u : wt G W true S (EBinary l a op e1 e2) -> is_eq op = true ->
  of_type G W (e_typ e1) v -> of_type G W (e_typ e2) w -> oden v s -> oden w u ->
  sem W d e1 s -> sem W d e2 u ->
  exists r x, eval_binary W l a op v w = Ok r /\ sem W d (EBinary l a op e1 e2) x /\ oden r x.
Proof.
  intros T Q T1 T2 D1 D2 S1 S2.
  assert (O : op = B_eq \/ op = B_neq) by (destruct op; try discriminate; auto).
  assert (X : a = Some TBool /\ comparable G (e_typ e1) (e_typ e2)).
  { inversion T; subst; auto; exfalso; destruct O; subst;
      repeat match goal with H : In _ _ |- _ => cbn in H; decompose [or] H; clear H end; try discriminate; contradiction. }
  destruct X as [-> C]. pose proof (opt_eq_spec _ _ _ _ _ _ C T1 T2 D1 D2) as E.
  destruct O as [-> | ->]; cbn [eval_binary mk_value]; do 2 eexists; (split; [reflexivity|]).
  - split; [eapply sem_eq; eauto|]. reflexivity.
  - split; [eapply sem_neq; eauto|]; [|reflexivity]. rewrite negb_true_iff, <- not_true_iff_false, E. tauto.
Qed.

Ltac ev IH v :=
  match type of IH with good _ _ _ (evaluate W (Some ?d) ?e) =>
    let Ev := fresh "Ev" in let C := fresh "C" in
    assert (C : correct d e) by eauto; unfold correct in C;
    destruct (evaluate W (Some d) e) as [v| | |] eqn:Ev; cbn [bind]; [|let X := fresh in intros ? X; inversion X; subst; eapply C; eauto; fail|contradiction|contradiction];
    let s := fresh "s" in let Sm := fresh "Sm" in let D := fresh "D" in destruct C as (s & Sm & D);
    let Ty := fresh "Ty" in let Nu := fresh "Nu" in destruct IH as [Ty Nu]; unfold of_type in Ty; unfold oden in D
  end.

(** Two meanings of one expression *)
Ltac clash := exfalso;
  match goal with A : sem W ?d ?e ?x, B : sem W ?d ?e ?y |- _ =>
    let Q := fresh in pose proof (sem_unique W e d x y A B) as Q; cbn in Q; solve [contradiction Q|discriminate Q] end.

Lemma bool_correct S d e : wt G W true S e -> scope_ok G W S d -> e_typ e = Some TBool -> maybe_null e = false -> correct d e ->
  match evaluate W (Some d) e with
  | Ok v => exists b, sem W d e (Some (SBool b)) /\ equals_true v = b
  | Err _ => forall s, ~ sem W d e s | _ => False end.
Proof.
  intros T K Te N C. pose proof (soundness G W wf ww names_rec names_tup _ _ _ T K) as Ge. unfold correct in C.
  destruct (evaluate W (Some d) e) as [v| | |]; auto. destruct C as (s & Sm & D), Ge as [Ty Nu]. unfold of_type, oden, equals_true in *.
  destruct (v_val v) as [[p b]|], s as [s|]; try contradiction; [|rewrite Nu in N; auto; discriminate].
  destruct Ty as [Et P]. assert (b = TBool) as -> by congruence. destruct (pt_boolean _ _ _ P) as (y & ->). destruct s; try contradiction.
  cbn in D. subst. eexists. split; [exact Sm|]. destruct b; reflexivity.
Qed.

Lemma count_zero (vs : list value) : List.length (filter equals_true vs) = 0%nat <-> ~ In true (map equals_true vs).
Proof.
  induction vs as [|v vs IH]; cbn; [tauto|]. destruct (equals_true v); cbn; [split; [discriminate|tauto]|].
  rewrite IH. split; [intros N [E|I]; [discriminate|auto]|tauto].
Qed.
Lemma count_one (vs : list value) : List.length (filter equals_true vs) = 1%nat <->
  exists pre post, map equals_true vs = pre ++ true :: post /\ ~ In true (pre ++ post).
Proof.
  induction vs as [|v vs IH]; cbn.
  - split; [discriminate|]. intros ([|? ?] & post & E & _); discriminate.
  - destruct (equals_true v) eqn:Ev; cbn.
    + split.
      * intros E. injection E as E. apply count_zero in E. exists [], (map equals_true vs). auto.
      * intros (pre & post & E & N). f_equal. apply count_zero. destruct pre as [|b pre]; cbn in E.
        -- injection E as ->. exact N.
        -- injection E as <- E. exfalso. apply N. left. auto.
    + rewrite IH. split.
      * intros (pre & post & E & N). exists (false :: pre), post. cbn. rewrite E. split; auto. intros [?|?]; [discriminate|auto].
      * intros ([|b pre] & post & E & N); cbn in E; [discriminate|]. injection E as E1 E2.
        exists pre, post. split; auto. intros I. apply N. right. auto.
Qed.

Theorem correctness e : forall S d, wt G W true S e -> scope_ok G W S d -> regular e -> correct d e.
Proof.
  induction e using expr_ind2; intros S d T K R;
    pose proof (soundness G W wf ww names_rec names_tup _ _ _ T K) as Gd; unfold correct; cbn [evaluate].
  - exists None. split; [constructor|exact Logic.I].
  - exists (Some (of_lit k)). split; [constructor|]. destruct k; cbn; auto; reflexivity.
  - inversion T; subst. match goal with H : assoc n S = _ |- _ => destruct (K _ _ _ H) as (v & A & F) end. rewrite A.
    destruct (fits_den _ _ _ F) as (w & s & E & St & D). rewrite E. exists s. split; auto. econstructor; eauto.
  - assert (X : wt G W true S e) by (inversion T; subst; auto).
    assert (Re : regular e) by (intros x Hx; apply R; constructor; auto).
    pose proof (soundness G W wf ww names_rec names_tup _ _ _ X K) as Ge. ev Ge v.
    destruct (v_val v) as [[p b]|] eqn:V, s as [s|]; try contradiction.
    + destruct Ty as [Et P]. destruct (unary_correct S l a op e p b v s) as (w & y & E & O & Dw); auto. rewrite E.
      exists (Some y). split; auto. econstructor; eauto.
    + unfold eval_unary. rewrite V. intros s Y. inversion Y; subst. clash.
  - assert (X1 : wt G W true S e1) by (inversion T; subst; auto).
    assert (X2 : wt G W true S e2) by (inversion T; subst; auto).
    assert (R1 : regular e1) by (intros x Hx; apply R; constructor; auto).
    assert (R2 : regular e2) by (intros x Hx; apply R; apply sub_right; auto).
    assert (R0 := R _ (sub_refl _)).
    pose proof (soundness G W wf ww names_rec names_tup _ _ _ X1 K) as G1.
    pose proof (soundness G W wf ww names_rec names_tup _ _ _ X2 K) as G2.
    cbn [evaluate] in Gd. ev G1 v.
    destruct (v_val v) as [[p b]|] eqn:V, s as [s|]; try contradiction; rewrite ?andb_false_r, ?andb_true_r in *.
    + (* the left side has a value *)
      destruct Ty as [Et P].
      assert (Strict : ~ In op [B_and; B_or; B_implies] ->
        match (do vr <- evaluate W (Some d) e2 ;
               if negb (is_eq op) && match v_val vr with Some _ => false | None => true end
               then Err (v_loc vr, P_null_rhs) else eval_binary W l a op v vr) with
        | Ok w => exists s, sem W d (EBinary l a op e1 e2) s /\ oden w s
        | Err _ => forall s, ~ sem W d (EBinary l a op e1 e2) s
        | _ => False
        end).
      { intros NL. clear Gd. 
        assert (C : correct d e2) by eauto; unfold correct in C.
        destruct (evaluate W (Some d) e2) as [w| | |] eqn:Ev2; cbn [bind]; [| |contradiction|contradiction].
        2:{ intros s' X; inversion X; subst; try (exfalso; apply NL; cbn; tauto); eapply C; eauto. }
        destruct C as (u & Sm2 & D2). destruct G2 as [Ty2 Nu2]. unfold of_type in Ty2.
        destruct (is_eq op) eqn:Q; cbn [negb andb].
        - destruct (equality_correct S d l a op e1 e2 v w (Some s) u) as (r & x & E & Sx & Dx); auto.
          { unfold of_type. rewrite V. auto. } { unfold oden. rewrite V. auto. }
          rewrite E. eauto.
        - unfold oden in D2. destruct (v_val w) as [[q c]|] eqn:V2, u as [u|]; try contradiction.
          + destruct Ty2 as [Et2 P2].
            assert (St : strict_op op) by (intros I; apply NL; destruct op; try discriminate Q; cbn in *; intuition discriminate).
            assert (Bc : forall s' u', same s s' -> same u u' -> match eval_binary W l a op v w with
              | Ok r => exists z, op_binary W (Some b) op s' u' z /\ oden r (Some z)
              | Err _ => forall z, ~ op_binary W (Some b) op s' u' z
              | _ => False end).
            { intros s' u' S1 S2. eapply binary_correct; eauto using den_same. }
            specialize (Bc s u (same_refl _) (same_refl _)) as B0.
            destruct (eval_binary W l a op v w) as [r| | |]; try contradiction.
            * destruct B0 as (z & O & Dz). exists (Some z). split; auto. econstructor; eauto. rewrite Et. exact O.
            * intros s' X. destruct (sem_strict _ _ _ _ _ _ _ X St) as (x & y & z & Sx & Sy & O). rewrite Et in O.
              eapply (Bc x y); eauto; [apply (sem_unique W e1 d (Some s) (Some x)); auto|apply (sem_unique W e2 d (Some u) (Some y)); auto].
          + intros s' X. assert (St : strict_op op) by (intros I; apply NL; destruct op; try discriminate Q; cbn in *; intuition discriminate).
            destruct (sem_strict _ _ _ _ _ _ _ X St) as (x & y & z & Sx & Sy & O). clash. }
      assert (Lg : In op [B_and; B_or; B_implies] ->
         a = Some TBool /\ b = TBool /\ maybe_null e2 = false /\ e_typ e2 = Some TBool).
      { intros O. inversion T; subst;
          try (exfalso; repeat match goal with H : In _ _ |- _ => cbn in H; decompose [or] H; clear H end; try discriminate; try contradiction; congruence).
        split; auto. split; [congruence|]. split; auto. destruct O as [<-|[<-|[<-|[]]]]; exact R0. }
      clear Gd.
      assert (C2 : match evaluate W (Some d) e2 with Ok w => exists y, e_typ e2 = Some TBool -> maybe_null e2 = false -> (sem W d e2 (Some (SBool y)) /\ oden w (Some (SBool y))) | Err _ => forall s, ~ sem W d e2 s | _ => False end).
      { assert (C : correct d e2) by eauto; unfold correct in C. destruct (evaluate W (Some d) e2) as [w| | |]; auto.
        destruct C as (u & Su & Du). unfold oden in *. destruct G2 as [Ty2 Nu2]. unfold of_type in Ty2.
        destruct (v_val w) as [[q c]|], u as [u|]; try contradiction.
        - destruct Ty2 as [Et2 P2]. destruct (ty_eqb c TBool) eqn:Tc.
          + apply ty_eqb_eq in Tc. subst c. destruct (pt_boolean _ _ _ P2) as (y & ->). destruct u; try contradiction.
            cbn in Du. subst. eexists. intros _ _. split; [exact Su|reflexivity].
          + apply ty_eqb_neq in Tc. exists true. congruence.
        - exists true. intros _ N. rewrite Nu2 in N; auto. discriminate. }
      destruct op; try (apply Strict; cbn; intros [H|[H|[H|[]]]]; discriminate).
      all: destruct Lg as (-> & -> & N2 & T2); [cbn; tauto|].
      all: destruct (pt_boolean _ _ _ P) as (x & ->); destruct s; try contradiction; cbn in D; subst; cbn [py_bool bind].
      * destruct b; [|exists (Some (SBool false)); split; [apply sem_and_stop; auto|unfold oden; rewrite V; reflexivity]].
        destruct (evaluate W (Some d) e2) as [w| | |]; auto.
        -- destruct C2 as (y & C2). destruct C2; auto. exists (Some (SBool y)). split; auto. apply sem_and_go; auto.
        -- intros s X. inversion X; subst; [clash|eapply C2; eauto|]. eapply C2; eauto.
      * destruct b; [exists (Some (SBool true)); split; [apply sem_or_stop; auto|unfold oden; rewrite V; reflexivity]|].
        destruct (evaluate W (Some d) e2) as [w| | |]; auto.
        -- destruct C2 as (y & C2). destruct C2; auto. exists (Some (SBool y)). split; auto. apply sem_or_go; auto.
        -- intros s X. inversion X; subst; [clash|eapply C2; eauto|]. eapply C2; eauto.
      * destruct b; [|exists (Some (SBool true)); split; [apply sem_implies_stop; auto|reflexivity]].
        destruct (evaluate W (Some d) e2) as [w| | |]; auto.
        -- destruct C2 as (y & C2). destruct C2; auto. exists (Some (SBool y)). split; auto. apply sem_implies_go; auto.
        -- intros s X. inversion X; subst; [clash|eapply C2; eauto|]. eapply C2; eauto.
    + destruct (is_eq op) eqn:Q; cbn [negb andb].
      * clear Gd. assert (C : correct d e2) by eauto; unfold correct in C.
        assert (X : match evaluate W (Some d) e2 with Ok vr => exists r x, eval_binary W l a op v vr = Ok r /\ sem W d (EBinary l a op e1 e2) x /\ oden r x
                    | Err _ => forall s, ~ sem W d (EBinary l a op e1 e2) s | _ => False end).
        { destruct (evaluate W (Some d) e2) as [w| | |] eqn:Ev2; [| |contradiction|contradiction].
          - destruct C as (u & Sm2 & D2). destruct G2 as [Ty2 Nu2].
            eapply (equality_correct S); eauto; [unfold of_type; rewrite V; exact Logic.I|unfold oden; rewrite V; exact Logic.I].
          - intros s' X; inversion X; subst; try discriminate; eapply C; eauto. }
        destruct op; try discriminate; (destruct (evaluate W (Some d) e2) as [w| | |]; cbn [bind]; auto;
          destruct X as (r & x & E & Sx & Dx); rewrite E; eauto).
      * intros s X. destruct (sem_lhs _ _ _ _ _ _ _ X Q) as (x & Sx). clash.
  - assert (X : wt G W true S e) by (inversion T; subst; auto).
    assert (Re : regular e) by (intros x Hx; apply R; constructor; auto).
    pose proof (soundness G W wf ww names_rec names_tup _ _ _ X K) as Ge. ev Ge v. clear Gd.
    destruct (v_val v) as [[p b]|] eqn:V, s as [s|]; try contradiction.
    2:{ intros s Y. inversion Y; subst; clash. }
    destruct Ty as [Et P].
    inversion T; subst; match goal with H : e_typ e = Some _ |- _ => rewrite H in Et; injection Et as <- end;
      inversion P; subst; destruct s; try contradiction.
    + match goal with H : nth_error _ _ = Some ?x, H' : nth_error _ _ = Some ?y |- _ => rewrite H in H'; injection H' as <- end.
      match goal with H : pt_fields _ _ _ _ |- _ => destruct (pt_fields_assoc _ _ _ _ c H) as (w & A); auto end.
      apply den_tup in D. unfold value in A |- *. rewrite A.
      assert (Q : exists s, assoc (c_name c) xs = Some s /\ oden w s).
      { clear - A D. induction D as [|[k v] [k' x] vs xs [Ek Ex] D IH]; cbn in *; [discriminate|]. subst k'.
        destruct (text_eqb k (c_name c)); auto. injection A as ->. eauto. }
      destruct Q as (s & As & Ds). exists s. split; auto. eapply sem_tuple_field; eauto.
    + match goal with H : nth_error (w_objs W) _ = Some ?o |- _ => pose proof (object_field _ _ ww _ _ (c_name c) H) as F; destruct (ww _ _ H) as (Lt & _) end.
      assert (Ic : In c (all_components G (o_typ ob))).
      { eapply components_inherited; eauto. destruct (lineage_exists G wf r) as (ls & Ls).
        { match goal with H : fits_record _ _ _ |- _ => apply (ancestor_le G wf) in H end. lia. }
        rewrite (all_components_spec G wf _ _ Ls). apply in_flat_map. exists r. split; auto.
        apply (lineage_in G _ _ Ls). apply rt_refl. }
      cbn in D. destruct D as (ob' & Eo & Ef). rewrite <- Ef in *.
      destruct (assoc (c_name c) (o_fields ob')) as [[id x]|] eqn:A; [|destruct (F c Ic); auto].
      destruct F as (c' & I & N & F). destruct (fits_den _ _ _ F) as (w & s & E & Ss & Ds). rewrite E. exists s. split; auto.
      eapply sem_record_field; eauto.
    + match goal with H : nth_error (w_objs W) _ = Some ?o |- _ => pose proof (object_field _ _ ww _ _ (c_name (fi_comp info)) H) as F end.
      cbn in D. destruct D as (ob' & Eo & Ef). rewrite <- Ef in *.
      destruct (assoc (c_name (fi_comp info)) (o_fields ob')) as [[id x]|] eqn:A.
      * destruct F as (c' & I & N & F). destruct (fits_den _ _ _ F) as (w & s & E & Ss & Ds). rewrite E. exists s. split; auto.
        eapply sem_record_field; eauto.
      * exists None. split; [|exact Logic.I]. eapply sem_union_null; eauto.
  - inversion T; subst.
    assert (R1 : regular e1) by (intros x Hx; apply R; constructor; auto).
    assert (R2 : regular e2) by (intros x Hx; apply R; apply sub_range2; auto).
    assert (R3 : regular e3) by (intros x Hx; apply R; apply sub_range3; auto).
    assert (G1 : good G W e1 (evaluate W (Some d) e1)) by (eapply soundness; eauto).
    assert (G2 : good G W e2 (evaluate W (Some d) e2)) by (eapply soundness; eauto).
    assert (G3 : good G W e3 (evaluate W (Some d) e3)) by (eapply soundness; eauto).
    clear Gd. ev G1 v1. destruct (v_val v1) as [[p1 b1]|] eqn:V1, s as [s|]; try contradiction.
    2:{ intros s Y. inversion Y; subst; clash. }
    destruct Ty as [Et1 P1]. 
    ev G2 v2. destruct (v_val v2) as [[p2 b2]|] eqn:V2, s0 as [s0|]; try contradiction.
    2:{ intros s' Y. inversion Y; subst; clash. }
    destruct Ty as [Et2 P2].
    ev G3 v3. destruct (v_val v3) as [[p3 b3]|] eqn:V3, s1 as [s1|]; try contradiction.
    2:{ intros s' Y. inversion Y; subst; clash. }
    destruct Ty as [Et3 P3].
    repeat match goal with H : e_typ ?x = Some _, H' : e_typ ?x = Some _ |- _ => rewrite H in H'; injection H' as <- end.
    match goal with H : In _ [TInt; TDec] |- _ =>
      destruct (num_den _ _ _ P1 H D) as (m1 & x1 & E1 & N1 & Q1);
      destruct (num_den _ _ _ P2 H D0) as (m2 & x2 & E2 & N2 & Q2);
      destruct (num_den _ _ _ P3 H D1) as (m3 & x3 & E3 & N3 & Q3) end.
    unfold compare. rewrite E1, E2, E3. cbn [bind]. unfold num_le.
    assert (Y : forall c, (c = true <-> (x2 <= x1)%Q /\ (x1 <= x3)%Q) -> exists s, sem W d (ERange l e1 e2 e3) s /\ oden (Val l (Some (PBool c, TBool))) s).
    { intros c Ec. exists (Some (SBool c)). split; [|reflexivity]. eapply sem_range; eauto. }
    destruct (Qle_bool (num_q m2) (num_q m1)) eqn:L1; cbn [bind mk_value]; apply Y; rewrite <- Q1, <- Q2, <- Q3, <- !Qle_bool_iff, L1; intuition discriminate.
  - clear Gd. inversion T; subst.
    match goal with H : forall e, In e es -> e_typ e = _ |- _ => rename H into Tb end.
    match goal with H : forall e, In e es -> wt _ _ _ _ e |- _ => rename H into Tw end.
    assert (Nn := R _ (sub_refl _)). cbn in Nn.
    assert (B : forall e, In e es -> match evaluate W (Some d) e with
      | Ok v => exists b, sem W d e (Some (SBool b)) /\ equals_true v = b
      | Err _ => forall s, ~ sem W d e s | _ => False end).
    { intros e I. apply (bool_correct S); auto. apply (H e I S); auto. intros x Hx. apply R. eapply sub_oneof; eauto. }
    assert (X : match (fix go (es : list expr) : eres (list value) :=
                  match es with
                  | [] => Ok []
                  | a :: es' => do x <- evaluate W (Some d) a ; do xs <- go es' ; Ok (x :: xs)
                  end) es with
      | Ok vs => exists bs, Forall2 (fun e x => sem W d e (Some (SBool x))) es bs /\ map equals_true vs = bs
      | Err _ => exists e, In e es /\ forall s, ~ sem W d e s
      | _ => False end).
    { clear - B. induction es as [|e es IH]; [exists []; auto|].
      assert (Be := B e (or_introl eq_refl)). destruct (evaluate W (Some d) e) as [v| | |]; cbn [bind]; try contradiction.
      - destruct Be as (b & Sb & Eb). specialize (IH (fun e I => B e (or_intror I))).
        match goal with |- match (bind ?g _) with _ => _ end => destruct g as [vs| | |]; cbn [bind]; try contradiction end.
        + destruct IH as (bs & F & Eq). exists (b :: bs). cbn. split; [constructor; auto|congruence].
        + destruct IH as (e' & I & N). exists e'. split; auto. right; auto.
      - exists e. split; auto. left; auto. }
    match goal with |- match (bind ?g _) with _ => _ end => destruct g as [vs| | |]; cbn [bind]; try contradiction end.
    + destruct X as (bs & F & Eq). eexists (Some (SBool _)). split; [|reflexivity]. eapply sem_oneof; eauto.
      subst bs. rewrite Nat.eqb_eq. apply count_one.
    + destruct X as (e1 & I & N). intros s Y. inversion Y; subst.
      match goal with F : Forall2 _ es _ |- _ => destruct (Forall2_in _ _ _ _ F I) as (b1 & _ & Sb) end. eapply N; eauto.
  - clear Gd. inversion T; subst.
    match goal with H : forall c x, In (c, x) acts -> e_typ c = _ /\ _ |- _ => rename H into Tb end.
    match goal with H : forall c x, In (c, x) acts -> wt _ _ _ _ c /\ _ |- _ => rename H into Tw end.
    assert (Ce : correct d e) by (eapply IHe; eauto; intros x Hx; apply R; apply sub_else; auto).
    assert (B : forall c x, In (c, x) acts -> correct d x /\ match evaluate W (Some d) c with
      | Ok v => match v_val v with Some (p, _) => sem W d c (Some (SBool (truthy p))) | None => sem W d c None end
      | Err _ => forall s, ~ sem W d c s | _ => False end).
    { intros c x I. destruct (H c x I) as [Hc Hx], (Tb c x I) as [Bc _], (Tw c x I) as [Wc Wx]. split.
      - eapply Hx; eauto. intros y Hy. apply R. eapply sub_cond; eauto.
      - assert (Cc : correct d c) by (eapply Hc; eauto; intros y Hy; apply R; eapply sub_cond; eauto).
        pose proof (soundness G W wf ww names_rec names_tup _ _ _ Wc K) as Gc. unfold correct in Cc.
        destruct (evaluate W (Some d) c) as [v| | |]; auto. destruct Cc as (s & Sm & D), Gc as [Ty Nu]. unfold of_type, oden in *.
        destruct (v_val v) as [[p b]|], s as [s|]; try contradiction; auto. destruct Ty as [Et P].
        assert (b = TBool) as -> by congruence. destruct (pt_boolean _ _ _ P) as (y & ->). destruct s; try contradiction.
        cbn in D. subst. exact Sm. }
    clear T H Tb Tw R. match goal with H : acts <> [] |- _ => clear H end. induction acts as [|[c x] acts IH].
    + unfold correct in Ce. destruct (evaluate W (Some d) e) as [v| | |]; auto.
      * destruct Ce as (s & Sm & D). exists s. split; auto. constructor; auto.
      * intros s Y. inversion Y; subst. eapply Ce; eauto.
    + destruct (B c x (or_introl eq_refl)) as [Cx Cc].
      destruct (evaluate W (Some d) c) as [v| | |]; cbn [bind]; try contradiction.
      2:{ intros s Y. inversion Y; subst; eapply Cc; eauto. }
      destruct (v_val v) as [[p b]|]; [|intros s Y; inversion Y; subst; clash].
      destruct (truthy p).
      * unfold correct in Cx. destruct (evaluate W (Some d) x) as [w| | |]; auto.
        -- destruct Cx as (s & Sm & D). exists s. split; auto. apply sem_cond_true; auto.
        -- intros s Y. inversion Y; subst; [eapply Cx; eauto|clash].
      * assert (IH' := IH (fun c x I => B c x (or_intror I))). clear IH.
        match goal with |- match ?g with _ => _ end => destruct g as [w| | |]; auto end.
        -- destruct IH' as (s & Sm & D). exists s. split; auto. apply sem_cond_false; auto.
        -- intros s Y. inversion Y; subst; [clash|]. eapply IH'; eauto.
  - clear Gd. inversion T; subst.
    match goal with H : assoc (c_name src) S = _ |- _ => destruct (K _ _ _ H) as (w & A & F) end. rewrite A.
    match goal with H : c_typ src = _ |- _ => rewrite H in F end.
    destruct F as [F|(-> & ln & ->)].
    2:{ intros s Y. inversion Y; subst; congruence. }
    inversion F as [? k| |l' ? ? ? ? vs Fv| | | ]; subst.
    { destruct k as [| |? []| | ]; discriminate. }
    { match goal with H : _ \/ _ |- _ => destruct H; discriminate end. }
    clear F.
    assert (Rb : regular e) by (intros x Hx; apply R; constructor; auto).
    assert (Loop : forall rest done, vs = done ++ rest ->
      (forall b, In b done -> sem W ((v, b) :: d) e (Some (SBool un))) ->
      match (fix go (vs : list vexpr) : eres value :=
                 match vs with
                 | [] => mk_value l (PBool un) (Some TBool)
                 | b :: vs' =>
                     do r <- evaluate W (Some ((v, b) :: d)) e ;
                     match v_val r with
                     | Some (PBool x, _) =>
                         if un && negb x then mk_value (x_loc b) (PBool false) (Some TBool)
                         else if negb un && x
                         then mk_value (x_loc b) (PBool true) (Some TBool)
                         else go vs'
                     | _ => Err (l, P_assert_bool)
                     end
                 end) rest with
      | Ok v0 => exists s, sem W d (EQuant l un v ls src e) s /\ oden v0 s
      | Err _ => forall s, ~ sem W d (EQuant l un v ls src e) s
      | _ => False
      end).
    2:{ apply (Loop vs []); auto. intros b []. }
    induction rest as [|b rest IH]; intros done E Dn.
    { subst vs. rewrite app_nil_r in *. eexists (Some (SBool un)). split; [|reflexivity]. eapply sem_quant_all; eauto. }
    assert (Sb : scope_ok G W ((v, (el, false)) :: S) ((v, b) :: d)).
    { apply scope_extend; auto. left. apply Fv. subst vs. auto with datatypes. }
    match goal with H : wt _ _ _ _ e |- _ => 
      pose proof (soundness G W wf ww names_rec names_tup _ _ _ H Sb) as Gb; pose proof (IHe _ _ H Sb Rb) as Cb end.
    unfold correct in Cb. subst vs.
    destruct (evaluate W (Some ((v, b) :: d)) e) as [r| | |] eqn:Er; cbn [bind]; try contradiction.
    2:{ eapply quant_stuck; eauto. }
    destruct Cb as (s & Sm & D), Gb as [Ty Nu]. unfold of_type, oden in *.
    destruct (v_val r) as [[p tb]|] eqn:V, s as [s|]; try contradiction.
    2:{ eapply quant_stuck; eauto. intros x Y. clash. }
    destruct Ty as [Et P]. assert (tb = TBool) as -> by congruence. destruct (pt_boolean _ _ _ P) as (x & ->).
    destruct s; try contradiction. cbn in D. subst x.
    destruct (Bool.eqb b0 un) eqn:Q.
    + apply eqb_prop in Q. subst b0.
      replace (un && negb un) with false by (destruct un; auto). replace (negb un && un) with false by (destruct un; auto).
      apply (IH (done ++ [b])); [rewrite <- app_assoc; auto|]. intros c I. apply in_app_iff in I as [I|[<-|[]]]; auto.
    + assert (b0 = negb un) as -> by (destruct b0, un; auto; discriminate).
      assert (Z : exists s, sem W d (EQuant l un v ls src e) s /\ s = Some (SBool (negb un))).
      { exists (Some (SBool (negb un))). split; auto. eapply sem_quant_stop; eauto. }
      destruct Z as (s & Sq & ->).
      destruct un; cbn [andb negb mk_value]; eexists; (split; [exact Sq|reflexivity]).
Qed.
End CORRECT.
