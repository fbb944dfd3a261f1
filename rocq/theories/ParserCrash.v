(** The parsers of expressions and values raise no Python exception unless a
    phrase of Hazards.v occurs. *)
From Verif Require Import Base Lexer SymTab Ast Eval Typing Soundness TypesProofs ParserBase ParserProofs ParserExpr ExprSyntax ExprMeaning
  ExprMeaningProofs ExprParserSound ExprTyping RunSyntax Hazards.
From Verif Require LexerThm LexerProps.
From Coq Require Import ZifyBool ZifyNat ZifyN.
Open Scope Z_scope.

(** ** Expressions without context *)
Section STATIC.
Variable G : types.
Variable W : world.
Notation wt := (wt G W false).

Lemma binary_value l a op v w x : eval_binary W l (Some a) op v w = Ok x -> op <> B_index -> v_val x <> None.
Proof.
  unfold eval_binary, mk_value. intros E N.
  destruct op; try (exfalso; apply N; reflexivity);
  repeat first [discriminate E | (injection E as <-; cbn; discriminate) |
    match type of E with
    | context [match ?x with _ => _ end] => destruct x; cbn [bind] in E
    | context [bind ?x _] => unfold py_bool, py_str, py_int, compare, arith, py_power in E
    end].
Qed.
Lemma unary_value l a op v x : eval_unary l (Some a) op v = Ok x -> v_val x <> None.
Proof.
  unfold eval_unary, mk_value. intros E.
  repeat first [discriminate E | (injection E as <-; cbn; discriminate) |
    match type of E with
    | context [match ?x with _ => _ end] => destruct x; cbn [bind] in E
    end].
Qed.
Lemma static_index S l a e1 e2 v : wt S (EBinary l a B_index e1 e2) -> evaluate W None e1 = Ok v -> v_val v <> None -> False.
Proof.
  intros T E V. inversion T; subst; try match goal with H : In _ _ |- _ => cbn in H; intuition discriminate end.
  destruct (static_soundness G W e1 S) as [Ge Fe]; auto. rewrite E in *. unfold good, of_type in Ge. unfold flat_value in Fe.
  destruct (v_val v) as [[p b]|]; [|auto]. destruct Ge as [[E1 _] _].
  match goal with H : e_typ e1 = Some ?x |- _ => assert (b = x) as -> by congruence end. discriminate.
Qed.
(** The value is null for null only. *)
Lemma static_value e : forall S v a, wt S e -> e_typ e = Some a -> evaluate W None e = Ok v -> v_val v <> None.
Proof.
  induction e using expr_ind2; intros S r b T Et E; cbn [evaluate] in E; try discriminate.
  - injection E as <-. destruct k; cbn; discriminate.
  - destruct (evaluate W None e) as [x| | |]; try discriminate. cbn in Et, E. subst a. eapply unary_value; eauto.
  - cbn in Et. subst a. destruct (evaluate W None e1) as [v1| | |] eqn:E1; try discriminate. cbn [bind] in E.
    assert (St : (do vr <- evaluate W None e2;
            (if negb (is_eq op) && match v_val vr with Some _ => false | None => true end
             then Err (v_loc vr, P_null_rhs) else eval_binary W l (Some b) op v1 vr)) = Ok r -> v_val v1 <> None \/ op <> B_index -> v_val r <> None).
    { clear E. intros X K. destruct (evaluate W None e2) as [w| | |]; try discriminate. cbn [bind] in X.
      destruct (negb (is_eq op) && _); [discriminate|]. apply (binary_value _ _ _ _ _ _ X). intros ->.
      destruct K as [K|K]; [|auto]. eapply static_index; eauto. }
    destruct (v_val v1) as [[p c]|] eqn:V1.
    + assert (R : evaluate W None e2 = Ok r -> In op [B_and; B_or; B_implies] -> v_val r <> None).
      { intros X I. eapply (IHe2 S); eauto; inversion T; subst; cbn in *; intuition (subst; try discriminate; eauto). }
      rewrite andb_false_r in E.
      destruct op; try (apply St; auto; left; discriminate);
        destruct (py_bool p) as [x| | |]; try discriminate; cbn [bind] in E; destruct x; auto 10 with datatypes;
        try (injection E as <-; rewrite V1; discriminate).
      unfold mk_value in E. injection E as <-. cbn. discriminate.
    + destruct op; cbn in E; try discriminate; apply St; auto; right; discriminate.
  - assert (X : wt S e) by (inversion T; subst; auto).
    destruct (static_soundness G W e S X) as [Ge Fe].
    destruct (evaluate W None e) as [w| | |]; cbn [bind] in E; try discriminate.
    unfold good, of_type in Ge. unfold flat_value in Fe. destruct (v_val w) as [[p c']|]; [|discriminate].
    destruct Ge as [[E1 _] _]. exfalso. inversion T; subst;
      match goal with H : e_typ e = Some ?x |- _ => assert (c' = x) as -> by congruence end; discriminate.
  - unfold mk_value in E.
    repeat first [discriminate E | (injection E as <-; cbn; discriminate) |
      match type of E with
      | context [match ?x with _ => _ end] => destruct x; cbn [bind] in E
      | context [bind ?x _] => destruct x; cbn [bind] in E
      end].
  - unfold mk_value in E.
    match type of E with (bind ?g _) = _ => destruct g; cbn [bind] in E; try discriminate end. injection E as <-. cbn. discriminate.
  - inversion T; subst.
    match goal with H : e_typ e = Some ?x |- _ => rename x into b' end.
    assert (K : forall x, (x = e \/ exists c, In (c, x) acts) -> evaluate W None x = Ok r -> v_val r <> None).
    { intros x [ ->|(c & I)] Ex; [eapply IHe; eauto|]. destruct (H _ _ I) as [_ Hx].
      eapply (Hx S); eauto; match goal with K : forall c x, In (c, x) acts -> _ |- _ => apply (K _ _ I) end. }
    clear - E K. induction acts as [|[c x] acts IH]; [apply (K e); auto|].
    destruct (evaluate W None c) as [w| | |]; cbn [bind] in E; try discriminate.
    destruct (v_val w) as [[q b'']|]; [|discriminate]. destruct (truthy q).
    + apply (K x); auto. right. exists c. left. auto.
    + apply IH; auto. intros y [ ->|(d & I)]; apply K; auto. right. exists d. right. auto.
Qed.

Ltac fin := solve [match goal with E : _ = Err (_, ?p), N : internal ?p = true |- _ => injection E as <- <-; discriminate N end].
Lemma static_internal e : forall S x p, wt S e -> evaluate W None e = Err (x, p) -> internal p = true ->
  exists l un v ls src body, sub (EQuant l un v ls src body) e.
Proof.
  assert (L : forall e0 f, (exists l un v ls src body, sub (EQuant l un v ls src body) e0) -> (forall x, sub x e0 -> sub x f) ->
    exists l un v ls src body, sub (EQuant l un v ls src body) f).
  { intros e0 f (l & un & v & ls & src & body & H) K. do 6 eexists. apply K. eauto. }
  induction e using expr_ind2; intros S x p T E N; cbn [evaluate] in E; try discriminate; try fin.
  - assert (X : wt S e) by (inversion T; subst; auto).
    destruct (evaluate W None e) as [w|[y q]| |] eqn:Ee; cbn [bind] in E; try discriminate.
    + apply internal_unary in E. congruence.
    + injection E as -> ->. eapply L; [eapply IHe; eauto|]. intros; constructor; auto.
  - assert (X : wt S e1 /\ wt S e2) by (inversion T; subst; auto). destruct X as [X Y].
    destruct (evaluate W None e1) as [v1|[y q]| |] eqn:E1; cbn [bind] in E; try discriminate.
    2:{ injection E as -> ->. eapply L; [eapply IHe1; eauto|]. intros; apply sub_left; auto. }
    destruct (negb (is_eq op) && _) eqn:Ne; [fin|].
    assert (Rt : evaluate W None e2 = Err (x, p) -> exists l0 un v ls src body, sub (EQuant l0 un v ls src body) (EBinary l a op e1 e2)).
    { intros Eb. eapply L; [eapply IHe2; eauto|]. intros; apply sub_right; auto. }
    assert (St : (do vr <- evaluate W None e2;
            (if negb (is_eq op) && match v_val vr with Some _ => false | None => true end
             then Err (v_loc vr, P_null_rhs) else eval_binary W l a op v1 vr)) = Err (x, p) ->
             exists l0 un v ls src body, sub (EQuant l0 un v ls src body) (EBinary l a op e1 e2)).
    { clear E. intros E. destruct (evaluate W None e2) as [w|[y q]| |] eqn:Ew; cbn [bind] in E; try discriminate.
      - match type of E with (if ?b then _ else _) = _ => destruct b end; [fin|]. apply internal_binary in E as [-> ->]; auto. exfalso.
        eapply static_index; eauto. cbn in Ne. destruct (v_val v1); discriminate.
      - injection E as -> ->. auto. }
    destruct op; try (apply St; exact E); destruct (v_val v1) as [[q b]|]; try discriminate;
      destruct q; try discriminate; cbn [py_bool bind] in E;
      match type of E with (if ?b then _ else _) = _ => destruct b end; auto; try discriminate.
    destruct a; discriminate.
  - assert (X : wt S e) by (inversion T; subst; auto).
    destruct (static_soundness G W e S X) as [Ge Fe].
    destruct (evaluate W None e) as [w|[y q]| |] eqn:Ee; cbn [bind] in E; try discriminate.
    2:{ injection E as -> ->. eapply L; [eapply IHe; eauto|]. intros; constructor; auto. }
    unfold good, of_type in Ge. unfold flat_value in Fe. destruct (v_val w) as [[q c']|]; [|fin].
    destruct Ge as [[E1 _] _]. exfalso. inversion T; subst;
      match goal with H : e_typ e = Some ?x |- _ => assert (c' = x) as -> by congruence end; discriminate.
  - inversion T; subst.
    destruct (evaluate W None e1) as [w|[y q]| |] eqn:Ee; cbn [bind] in E; try discriminate.
    2:{ injection E as -> ->. eapply L; [eapply IHe1; eauto|]. intros; apply sub_range1; auto. }
    destruct (v_val w) as [[q b]|]; [|fin].
    destruct (evaluate W None e2) as [w'|[y q']| |] eqn:Ee2; cbn [bind] in E; try discriminate.
    2:{ injection E as -> ->. eapply L; [eapply IHe2; eauto|]. intros; apply sub_range2; auto. }
    destruct (v_val w') as [[q' b']|]; [|fin].
    destruct (evaluate W None e3) as [w''|[y q'']| |] eqn:Ee3; cbn [bind] in E; try discriminate.
    2:{ injection E as -> ->. eapply L; [eapply IHe3; eauto|]. intros; apply sub_range3; auto. }
    destruct (v_val w'') as [[q'' b'']|]; [|fin].
    unfold compare in E. destruct (as_num q'), (as_num q); try discriminate. cbn in E.
    destruct (num_le n0 n1); [|discriminate]. destruct (as_num q''); discriminate.
  - inversion T; subst.
    match type of E with (bind ?g _) = _ => destruct g as [?|[y q]| |] eqn:Eg; cbn [bind] in E; try discriminate end.
    injection E as -> ->.
    enough (X : exists e, In e es /\ evaluate W None e = Err (x, p)).
    { destruct X as (e & I & Ee). eapply L; [eapply (H e I); eauto|]. intros; eapply sub_oneof; eauto. }
    clear - Eg. revert Eg. induction es as [|e es IH]; intros Eg; [discriminate|].
    destruct (evaluate W None e) as [?|[y q]| |] eqn:Ee; cbn [bind] in Eg; try discriminate.
    + match type of Eg with (bind ?g _) = _ => destruct g as [?|[y q]| |]; cbn [bind] in Eg; try discriminate end.
      destruct IH as (e' & I & Ee'); auto. exists e'; auto with datatypes.
    + injection Eg as -> ->. exists e; auto with datatypes.
  - inversion T; subst.
    enough (X : evaluate W None e = Err (x, p) \/ exists c y, In (c, y) acts /\
              (evaluate W None c = Err (x, p) \/ evaluate W None y = Err (x, p))).
    { destruct X as [X|(c & y & Ia & X)].
      - eapply L; [eapply IHe; eauto|]. intros; apply sub_else; auto.
      - destruct (H _ _ Ia) as [Hc Hy]. assert (Wt : wt S c /\ wt S y) by eauto. destruct Wt.
        destruct X as [X|X]; (eapply L; [first [eapply Hc; eauto; fail|eapply Hy; eauto]|]); intros; eapply sub_cond; eauto. }
    clear - E N. induction acts as [|[c y] acts IH]; auto.
    destruct (evaluate W None c) as [v|[z q]| |] eqn:Ec; cbn [bind] in E; try discriminate.
    + destruct (v_val v) as [[q b]|]; [|fin]. destruct (truthy q).
      * right. exists c, y; auto with datatypes.
      * destruct (IH E) as [X|(c' & y' & Ia & X)]; auto. right. exists c', y'; auto with datatypes.
    + injection E as -> ->. right. exists c, y; auto with datatypes.
  - do 6 eexists. apply sub_refl.
Qed.
End STATIC.

(** ** Where the parser is in the file *)
Definition opt_list {A} (o : option A) : list A := match o with Some a => [a] | None => [] end.
Lemma fetch_all all : forall prev, exists n all', fetch prev (map ITok all) = Got (n, map ITok all') /\
  filter not_comment all = opt_list n ++ filter not_comment all' /\ (n = None -> all' = []).
Proof.
  induction all as [|tk all IH]; intros prev; cbn [map fetch filter].
  - exists None, []. auto.
  - unfold not_comment at 1. destruct (kind_eq_dec (tk_kind tk) COMMENT).
    + apply IH.
    + exists (Some tk), all. split; auto. split; auto. discriminate.
Qed.

Section PLACE.
(** The tokens of the file *)
Variable T : list token.
Definition place (q : pos) (pre : list token) : Prop :=
  exists all, rest q = map ITok all /\ T = pre ++ opt_list (nt q) ++ filter not_comment all /\
    (nt q = None -> all = []) /\ match ct q with Some tk => exists l, pre = l ++ [tk] | None => pre = [] end.
Definition fine (q : pos) : Prop := exists pre, place q pre.

Lemma place_reads q ts q' : reads q ts q' -> forall pre, place q pre -> place q' (pre ++ ts).
Proof.
  induction 1 as [|q tk n l ts q' Nt F R IH]; intros pre P; [rewrite app_nil_r; auto|].
  destruct P as (all & Er & Et & _ & _). rewrite Nt in Et. rewrite Er in F.
  destruct (fetch_all all (Some tk)) as (n' & all' & F' & S & K). rewrite F in F'. injection F' as -> ->.
  replace (pre ++ tk :: ts) with ((pre ++ [tk]) ++ ts) by (rewrite <- app_assoc; auto).
  apply IH. exists all'. cbn. split; auto. split.
  - rewrite Et, S. rewrite <- !app_assoc. reflexivity.
  - eauto.
Qed.
Lemma fine_reads q ts q' : fine q -> reads q ts q' -> fine q'.
Proof. intros (pre & P) R. eexists. eapply place_reads; eauto. Qed.
Lemma fine_part q ts q' : fine q -> reads q ts q' -> part ts T.
Proof.
  intros (pre & P) R. destruct (place_reads _ _ _ R _ P) as (all & _ & E & _). rewrite E.
  exists pre. eexists. rewrite <- app_assoc. reflexivity.
Qed.
Lemma fine_in q tk q' : fine q -> reads q [tk] q' -> In tk T.
Proof. intros F R. destruct (fine_part _ _ _ F R) as (a & b & ->). apply in_or_app. right. left. auto. Qed.
Lemma fine_nt q tk : fine q -> nt q = Some tk -> In tk T.
Proof. intros (pre & all & _ & -> & _) ->. apply in_or_app. right. left. auto. Qed.

Variable hz : Prop.
Definition safe {A} (m : P A) (s : ps) : Prop :=
  match m s with
  | POk _ s' | PErr _ s' => fine (at_ s')
  | PCrash => hz
  | PFuel => True
  end.

Lemma safe_bind {A B} (m : P A) (k : A -> P B) s : safe m s ->
  (forall a s', m s = POk a s' -> fine (at_ s') -> safe (k a) s') -> safe (pbind m k) s.
Proof. unfold safe, pbind. intros H K. destruct (m s) as [a s'| | |] eqn:E; auto. apply (K a s' eq_refl H). Qed.
Lemma safe_ret {A} (a : A) s : fine (at_ s) -> safe (pret a) s.
Proof. intros F. exact F. Qed.
Lemma safe_error {A} e s : fine (at_ s) -> safe (perror e : P A) s.
Proof. intros F. exact F. Qed.
Lemma safe_crash {A} s : hz -> safe (pcrash : P A) s.
Proof. intros F. exact F. Qed.
Lemma safe_fuel {A} s : safe (pfuel : P A) s.
Proof. exact I. Qed.
Lemma safe_note n s : fine (at_ s) -> safe (pnote n) s.
Proof. intros F. exact F. Qed.
Lemma safe_cond {A} c (m1 m2 : P A) s : (c s = true -> safe m1 s) -> (c s = false -> safe m2 s) -> safe (pcond c m1 m2) s.
Proof. unfold safe, pcond. intros H1 H2. destruct (c s); [apply (H1 eq_refl)|apply (H2 eq_refl)]. Qed.
Lemma safe_lift {A} (r : res perr A) s : fine (at_ s) -> (r = Crash -> hz) -> safe (lift r) s.
Proof. intros F N. destruct r; cbn; auto. Qed.
Lemma safe_advance s : fine (at_ s) -> (exists tk, nt (at_ s) = Some tk) -> safe p_advance s.
Proof.
  intros (pre & all & Er & Et & Nn & Ct) (tk & Nt). unfold safe, p_advance. rewrite Er.
  destruct (fetch_all all (nt (at_ s))) as (n & all' & -> & S & K). exists (pre ++ [tk]), all'. cbn. split; auto. split.
  - rewrite Et, S, Nt. rewrite <- !app_assoc. reflexivity.
  - rewrite Nt. eauto.
Qed.
Lemma safe_take {B} file f e (k : token -> P B) s : fine (at_ s) ->
  (forall tk s', f tk = true -> reads (at_ s) [tk] (at_ s') -> In tk T -> fine (at_ s') -> safe (k tk) s') ->
  safe (pbind (p_take file f e) k) s.
Proof.
  intros F K. apply safe_bind.
  - unfold p_take, safe. destruct (nt (at_ s)) as [tk|] eqn:Nt; [|exact F]. destruct (f tk); [|exact F].
    assert (X := safe_advance s F ltac:(eauto)). unfold safe, pbind in *. destruct (p_advance s); auto.
  - intros tk s' E F'. apply take_ok in E as (Ef & R & _). apply (K tk s'); auto. eapply (fine_in (at_ s)); eauto.
Qed.
Lemma safe_match {B} file w (k : token -> P B) s : fine (at_ s) ->
  (forall tk s', tk_kind tk = w -> reads (at_ s) [tk] (at_ s') -> In tk T -> fine (at_ s') -> safe (k tk) s') ->
  safe (pbind (p_match file w) k) s.
Proof. intros F K. apply safe_take; auto. intros tk s' E. apply K. apply is_kind_true. auto. Qed.
Lemma safe_kw {B} file w (k : token -> P B) s : fine (at_ s) ->
  (forall tk s', tk_kind tk = KEYWORD /\ tk_value tk = VText w -> reads (at_ s) [tk] (at_ s') -> In tk T -> fine (at_ s') -> safe (k tk) s') ->
  safe (pbind (p_match_kw file w) k) s.
Proof. intros F K. apply safe_take; auto. intros tk s' E. apply K. apply is_kw_true. auto. Qed.
Lemma safe_lift_bind {A B} (r : res perr A) (k : A -> P B) s : fine (at_ s) -> (r = Crash -> hz) ->
  (forall a, r = Ok a -> safe (k a) s) -> safe (pbind (lift r) k) s.
Proof.
  intros F N K. apply safe_bind; [apply safe_lift; auto|]. intros a s' E _. apply lift_ok in E as [E ->]. auto.
Qed.
End PLACE.
Arguments safe {T hz A}.
Ltac sf :=
  repeat first
    [ match goal with
      | |- safe (pbind (p_match _ _) _) _ => apply safe_match; [assumption|]; intros ? ? ? ? ? ?
      | |- safe (pbind (p_match_kw _ _) _) _ => apply safe_kw; [assumption|]; intros ? ? ? ? ? ?
      | |- safe (pcond _ _ _) _ => apply safe_cond; intros ?
      | |- safe (pret _) _ => apply safe_ret; assumption
      | |- safe pfuel _ => apply safe_fuel
      | |- safe (perror _) _ => apply safe_error; assumption
      | |- safe (let '(_, _) := ?x in _) _ => destruct x
      end ].

(** ** Semantic actions *)
Section ACTIONS.
Variable file : Z.
Variable lint : bool.
Variable G : types.
Lemma ncr_static {A} (r : sres A) : r <> Crash -> of_static r <> Crash.
Proof. destruct r as [|[? ?]| |]; cbn; congruence. Qed.
Lemma ncr_bind {E A B} (r : res E A) (k : A -> res E B) : r <> Crash -> (forall a, r = Ok a -> k a <> Crash) -> bind r k <> Crash.
Proof. destruct r; cbn; auto; congruence. Qed.
Lemma ncr_class e f : ensure_class e f <> Crash.
Proof. unfold ensure_class. destruct (e_typ e) as [a|]; [destruct (f a)|]; discriminate. Qed.
Lemma ncr_type e a : ensure_type e (Some a) <> Crash.
Proof. unfold ensure_type. destruct (e_typ e) as [b|]; [destruct (ty_eqb b a)|]; discriminate. Qed.
Lemma ncr_class_bind {B} e f (k : unit -> sres B) : (forall a, e_typ e = Some a -> f a = true -> k tt <> Crash) ->
  bind (ensure_class e f) k <> Crash.
Proof.
  intros K. apply ncr_bind; [apply ncr_class|]. intros [] E. apply class_ok in E as (a & E & F). eauto.
Qed.
Lemma ncr_unary l a op e : unary l a op e <> Crash.
Proof. apply ncr_static. apply ncr_class_bind. discriminate. Qed.
Lemma ncr_binary l a op x y : binary G l a op x y <> Crash.
Proof.
  apply ncr_static. apply ncr_bind; [|discriminate].
  destruct op; try (apply ncr_class_bind; intros a' E F; rewrite ?E; try apply ncr_class; try apply ncr_type; try discriminate).
  - destruct (e_typ x) as [ta|]; [|discriminate]. destruct (e_typ y) as [tb|]; [|discriminate].
    destruct (is_union ta || is_union tb); [destruct (members ta), (members tb); try discriminate; destruct (related _ _ _)|destruct (ty_eqb ta tb)]; discriminate.
  - destruct (e_typ x) as [ta|]; [|discriminate]. destruct (e_typ y) as [tb|]; [|discriminate].
    destruct (is_union ta || is_union tb); [destruct (members ta), (members tb); try discriminate; destruct (related _ _ _)|destruct (ty_eqb ta tb)]; discriminate.
  - destruct a'; try discriminate. apply ncr_class.
  - destruct (e_typ x) as [[]|]; try apply ncr_type; apply ncr_class_bind; intros; apply ncr_class.
Qed.
Lemma ncr_negated tk e : negated file tk e <> Crash.
Proof. destruct tk; cbn; [apply ncr_unary|discriminate]. Qed.
Lemma ncr_range l x a b : range_test l x a b <> Crash.
Proof.
  apply ncr_static. unfold mk_range. apply ncr_class_bind. intros n E _. rewrite E.
  apply ncr_bind; [apply ncr_type|]. intros _ _. apply ncr_bind; [apply ncr_type|]. discriminate.
Qed.
Lemma ncr_lookup {A} f (d : list (text * A)) tk r : t_lookup file f d tk r <> Crash.
Proof.
  unfold t_lookup. destruct (t_find d (tok_text tk)) as [[k a]|]; [|discriminate].
  destruct (text_eqb k (tok_text tk)); [|discriminate]. destruct r as [c|]; [destruct (c a)|]; discriminate.
Qed.
Lemma ncr_scope sc tk r : sc <> [] -> s_lookup file sc tk r <> Crash.
Proof.
  induction sc as [|d [|d' sc] IH]; intros H; [contradiction|apply ncr_lookup|]. cbn [s_lookup].
  destruct (t_contains d (tok_text tk)); [apply ncr_lookup|apply IH; discriminate].
Qed.
Lemma ncr_prefix e : prefix_ok e <> Crash.
Proof. unfold prefix_ok. destruct (has_fields _); discriminate. Qed.
Lemma ncr_field e tk u : prefix_ok e = Ok u -> field_access file lint G e tk <> Crash.
Proof.
  unfold prefix_ok, field_access. destruct (e_typ e) as [a|]; [|discriminate]. intros H.
  assert (K : (do c <- t_lookup file N_comp (components_of G a) tk None ;
    do x <- of_static (mk_field (tok_loc file tk) c e false true) ; Ok (x, @nil note)) <> Crash).
  { apply ncr_bind; [apply ncr_lookup|]. intros c _. apply ncr_bind; [|discriminate]. apply ncr_static.
    unfold mk_field. apply ncr_bind; [apply ncr_type|discriminate]. }
  destruct a; auto. destruct (assoc _ _) as [info|]; [|discriminate]. destruct (fi_typ info); [|discriminate].
  apply ncr_bind; [|discriminate]. apply ncr_static. discriminate.
Qed.
Lemma ncr_array e : array_ok e <> Crash.
Proof. unfold array_ok. destruct (e_typ e) as [[]|]; discriminate. Qed.
Lemma ncr_index tk e i u : array_ok e = Ok u -> index_access file G tk e i <> Crash.
Proof. unfold array_ok, index_access. destruct (e_typ e) as [[]|]; try discriminate. intros _. apply ncr_binary. Qed.
Lemma ncr_classify e tk : classify file e tk <> Crash.
Proof. unfold classify. destruct e as [[]| | | | |]; discriminate. Qed.
Lemma ncr_builtin N tk : builtin_name file N tk <> Crash.
Proof. unfold builtin_name. apply ncr_bind; [apply ncr_lookup|]. intros e _. destruct (callee_of e); discriminate. Qed.
Lemma ncr_enum i tk : enum_literal file G i tk <> Crash.
Proof. unfold enum_literal. apply ncr_bind; [apply ncr_lookup|discriminate]. Qed.
Lemma ncr_fresh sc tk : sc <> [] -> fresh_variable file sc tk <> Crash.
Proof. intros H. unfold fresh_variable. destruct (s_contains _ _); [|discriminate]. apply ncr_bind; [apply ncr_scope; auto|discriminate]. Qed.
Lemma ncr_source sc tk : sc <> [] -> quantified_source file sc tk <> Crash.
Proof.
  intros H. unfold quantified_source. apply ncr_bind; [apply ncr_scope; auto|]. intros e E. assert (X := proj1 (lookup_class _ _ _ _ _) E). destruct X as [_ X].
  destruct e; try discriminate. destruct (c_typ c); discriminate.
Qed.
Lemma ncr_quant l u v ls c b : of_static (mk_quant l u v ls c b) <> Crash.
Proof. apply ncr_static. apply ncr_class_bind. discriminate. Qed.
Lemma ncr_first c x : first_action c x <> Crash.
Proof. unfold first_action. destruct (e_typ x); [|discriminate]. apply ncr_static. apply ncr_class_bind. discriminate. Qed.
Lemma ncr_elsif a c x : of_static (mk_elsif (Some a) c x) <> Crash.
Proof.
  apply ncr_static. unfold mk_elsif. apply ncr_bind; [apply ncr_class_bind; discriminate|]. intros ? _.
  apply ncr_bind; [apply ncr_type|discriminate].
Qed.
Lemma ncr_else a x : of_static (mk_else (Some a) x) <> Crash.
Proof. apply ncr_static. unfold mk_else. apply ncr_bind; [apply ncr_type|discriminate]. Qed.
Lemma ncr_oneof l es : of_static (mk_oneof l es) <> Crash.
Proof.
  apply ncr_static. unfold mk_oneof. apply ncr_bind; [|discriminate]. induction es as [|e es IH]; [discriminate|].
  cbn. apply ncr_class_bind. auto.
Qed.
End ACTIONS.

(** ** Expressions *)
Section EXPR.
Variable file : Z.
Variable lint : bool.
Variable G : types.
Variable W : world.
Variable compiles : text -> bool.
Variable N : names.
Variable T : list token.
Hypothesis dc : declared G W compiles N.
Hypothesis im : n_imports N <> None.
Hypothesis std : forall d k e, In d (n_stab N :: n_pkgs N) -> In (k, e) d -> reserved k e.
Hypothesis val : forall tk, In tk T -> valued tk.
Notation elab := (elab file lint G W compiles N).
Notation means := (means file G W compiles N).
Notation safe := (@safe T (hazardous T) _).
Notation fine := (fine T).

Lemma quantified_in x r : quantified x -> (forall y, within y x -> within y r) -> quantified r.
Proof. intros (u & tq & tv & ts & b & H) K. do 5 eexists. eauto. Qed.
Lemma sub_quantified : forall sc r e, means sc r e -> forall l un v ls src body, sub (EQuant l un v ls src body) e -> quantified r.
Proof.
  pose (Q := fun e => exists l un v ls src body, sub (EQuant l un v ls src body) e).
  assert (K : forall sc, (forall r e, means sc r e -> Q e -> quantified r) /\
    (forall e0 sels e, selected file G W compiles N sc e0 sels e -> Q e -> Q e0 \/ exists b i, In (b, Some i) sels /\ quantified i) /\
    (forall rs es, each file G W compiles N sc rs es -> forall e, In e es -> Q e -> exists r, In r rs /\ quantified r) /\
    (forall rs es, each_pair file G W compiles N sc rs es -> forall c x, In (c, x) es -> Q c \/ Q x ->
       exists r r', In (r, r') rs /\ (quantified r \/ quantified r'))).
  { assert (Nm : forall l a n qv o, ~ Q (EName l a n qv o)).
    { intros l a n qv o (? & ? & ? & ? & ? & ? & X). inversion X. }
    assert (Un : forall l a op e, Q (EUnary l a op e) -> Q e).
    { intros l a op e (? & ? & ? & ? & ? & ? & X). inversion X; subst. do 6 eexists; eauto. }
    assert (Bi : forall l a op e f, Q (EBinary l a op e f) -> Q e \/ Q f).
    { intros l a op e f (? & ? & ? & ? & ? & ? & X). inversion X; subst; [left|right]; do 6 eexists; eauto. }
    assert (Fi : forall l c e u v, Q (EField l c e u v) -> Q e).
    { intros l c e u v (? & ? & ? & ? & ? & ? & X). inversion X; subst. do 6 eexists; eauto. }
    assert (Ra : forall l a e f, Q (ERange l a e f) -> Q a \/ Q e \/ Q f).
    { intros l a e f (? & ? & ? & ? & ? & ? & X). inversion X; subst; [left|right; left|right; right]; do 6 eexists; eauto. }
    assert (No : forall neg e e', apply_not file neg e e' -> Q e' -> Q e).
    { intros neg e e' []; auto. apply Un. }
    assert (Re : forall sc tk sels e tk' sels', refers N sc tk sels e tk' sels' -> forall x, In x sels' -> In x sels).
    { intros sc tk sels e tk' sels' [] x I; auto with datatypes. }
    apply means_ind4; intros;
      try match goal with H : Q (EUnary _ _ _ _) |- _ => apply Un in H end;
      try match goal with H : Q (EBinary _ _ _ _ _) |- _ => apply Bi in H as [H|H] end;
      try (match goal with H : Q ?e -> quantified ?x, H' : Q ?e |- quantified (R_call _ _ _) =>
             apply (quantified_in x); [exact (H H')|]; intros ? ?; eapply in_argument; [|eassumption]; cbn; auto end; fail).
    - (* literals *)
      destruct H0 as (? & ? & ? & ? & ? & ? & X). destruct H; inversion X.
    - destruct H2 as (? & ? & ? & ? & ? & ? & X). inversion X.
    - destruct (H1 H2) as [X|(b & i & I & X)]; [destruct (Nm _ _ _ _ _ X)|].
      apply (quantified_in i); auto. intros. eapply in_index; eauto.
    - destruct (H1 H2) as [X|(b & i & I & X)]; [destruct (Nm _ _ _ _ _ X)|].
      apply (quantified_in i); auto. intros. eapply in_index; eauto.
    - destruct H3 as (? & ? & ? & ? & ? & ? & X). inversion X; subst.
      destruct (H2 e ltac:(assumption)) as (r & I & Y); [do 6 eexists; eauto|].
      apply (quantified_in r); auto. intros. eapply in_argument; eauto.
    - apply (quantified_in r); auto. intros. apply in_operand; auto.
    - apply (quantified_in r); auto. intros. apply in_left; auto.
    - apply (quantified_in r'); auto. intros. apply in_right; auto.
    - apply (No _ _ _ H4) in H5. apply Bi in H5 as [X|X]; [apply (quantified_in r)|apply (quantified_in r')]; auto; intros.
      + apply in_element; auto.
      + apply in_list; auto.
    - apply (No _ _ _ H5) in H6. apply Ra in H6 as [X|[X|X]]; [apply (quantified_in r)|apply (quantified_in lo)|apply (quantified_in hi)]; auto; intros.
      + apply in_tested; auto.
      + apply in_lower; auto.
      + apply in_upper; auto.
    - do 5 eexists. apply in_here.
    - destruct H7 as (? & ? & ? & ? & ? & ? & X). inversion X; subst.
      + match goal with H : In _ _ |- _ => destruct H as [E|I] end.
        * injection E as <- <-. match goal with H : _ \/ _ |- _ => destruct H end;
            [apply (quantified_in c)|apply (quantified_in x)]; try (intros; constructor; auto; fail);
            match goal with H : Q _ -> quantified ?r |- quantified ?r => apply H end; do 6 eexists; eauto.
        * destruct (H4 _ _ I) as (r & r' & J & Y).
          { match goal with H : _ \/ _ |- _ => destruct H end; [left|right]; do 6 eexists; eauto. }
          destruct Y as [Y|Y]; [apply (quantified_in r)|apply (quantified_in r')]; auto; intros; eapply in_elsif; eauto.
      + apply (quantified_in y); [apply H6; do 6 eexists; eauto|]. intros. apply in_else; auto.
    - auto.
    - destruct (H1 H2) as [X|(b & i & I & X)]; eauto. right. exists b, i. auto with datatypes.
    - destruct (H1 H2) as [X|(b & i & I & X)]; eauto. right. exists b, i. auto with datatypes.
    - destruct (H2 H3) as [X|(b & i & I & X)].
      + apply Bi in X as [X|X]; auto. right. exists tk, r. auto with datatypes.
      + right. exists b, i. auto with datatypes.
    - contradiction.
    - destruct H3 as [<-|I]; eauto with datatypes. destruct (H2 _ I H4) as (r' & J & X). eauto with datatypes.
    - contradiction.
    - destruct H5 as [E|I].
      + injection E as <- <-. exists r, r'. split; [auto with datatypes|]. destruct H6; auto.
      + destruct (H4 _ _ I H6) as (y & y' & J & X). exists y, y'. auto with datatypes. }
  intros. eapply (proj1 (K sc)); eauto. do 6 eexists; eauto.
Qed.

(** *** The actions that can fail *)
Lemma eval_crash lv r ts sc S e : syn lv r ts -> agree file sc S -> elab sc r = Ok e ->
  of_eval (evaluate W None e) = Crash -> quantified r.
Proof.
  intros Sy A E X. assert (Wt := elab_typed _ _ _ _ _ _ dc _ _ _ _ _ _ Sy A E).
  assert (M := elab_means _ _ _ _ _ _ dc _ _ _ _ _ Sy E).
  destruct (static_soundness G W e S Wt) as [Ge _].
  destruct (evaluate W None e) as [v|[x p]| |] eqn:Ev; cbn in X; try discriminate; [|destruct Ge].
  destruct (internal p) eqn:I; [|discriminate].
  destruct (static_internal _ _ _ _ _ _ Wt Ev I) as (l & un & v & ls & src & body & Su).
  eapply sub_quantified; eauto.
Qed.
Lemma eval_ok e v : of_eval (evaluate W None e) = Ok v -> evaluate W None e = Ok v.
Proof.
  destruct (evaluate W None e) as [x|[l p]| |]; cbn; intros H; try discriminate.
  - injection H as ->. auto.
  - destruct (internal p); discriminate.
Qed.
Lemma eval_value lv r ts sc S e v a : syn lv r ts -> agree file sc S -> elab sc r = Ok e -> e_typ e = Some a ->
  of_eval (evaluate W None e) = Ok v -> exists p, v_val v = Some (p, a) /\ pt G W a p.
Proof.
  intros Sy A E Et X. assert (Wt := elab_typed _ _ _ _ _ _ dc _ _ _ _ _ _ Sy A E). apply eval_ok in X.
  assert (Nn := static_value _ _ _ _ _ _ Wt Et X).
  destruct (static_soundness G W e S Wt) as [Ge _]. rewrite X in Ge. destruct Ge as [O _]. unfold of_type in O.
  destruct (v_val v) as [[p b]|]; [|congruence]. destruct O as [E' P]. rewrite Et in E'. injection E' as ->. eauto.
Qed.

Lemma power_crash sc S ra ta tk rb tb a b l : syn L_prim ra ta -> syn L_prim rb tb -> operator "**" tk -> agree file sc S ->
  elab sc rb = Ok b -> part (ta ++ tk :: tb) T -> power G W l a b = Crash -> hazardous T.
Proof.
  intros Sa Sb O A Eb P X. unfold power in X.
  destruct (of_eval (evaluate W None b)) as [v| | |] eqn:Ev; cbn [bind] in X; try discriminate.
  - destruct (binary G l (e_typ a) B_pow a b) as [e| | |] eqn:B; cbn [bind] in X; try discriminate.
    2:{ destruct (ncr_binary _ _ _ _ _ _ B). }
    apply of_static_ok in B. unfold mk_binary in B. apply bind_ok in B as (? & B & _).
    apply bind_ok in B as (? & _ & B). apply class_ok in B as (y & Ey & Fy). apply integer_is in Fy. subst y.
    destruct (eval_value _ _ _ _ _ _ _ _ Sb A Eb Ey Ev) as (p & Vp & Pt). rewrite Vp in X. inversion Pt; subst. cbn in X.
    match type of X with (if ?c then _ else _) = _ => destruct c end; discriminate.
  - exists L_factor, (R_binary tk B_pow ra rb), (ta ++ tk :: tb). split; [apply syn_factor_power; auto|]. split; auto.
    apply un_exponent. eapply eval_crash; eauto.
Qed.

Lemma typed_null S e : wt G W false S e -> e_typ e = None -> exists l, e = ENull l.
Proof.
  intros Wt E. inversion Wt; subst; cbn in E; try discriminate; eauto.
  - destruct acts as [|[c x] acts]; [congruence|]. cbn in E.
    match goal with H : forall c x, In (c, x) _ -> e_typ c = _ /\ _ |- _ => destruct (H c x (or_introl eq_refl)) end. congruence.
Qed.
Lemma means_null sc r l : means sc r (ENull l) -> exists tn, r = R_lit tn /\ keyword "null" tn.
Proof.
  assert (Sel : forall e0 sels e, selected file G W compiles N sc e0 sels e ->
    match e with ENull _ => match e0 with ENull _ => True | _ => False end | _ => True end).
  { induction 1; match goal with |- match ?x with _ => _ end => destruct x; auto; try contradiction end. }
  intros M. inversion M; subst.
  - match goal with H : literal_value _ _ _ |- _ => inversion H; subst end. eauto.
  - match goal with H : selected _ _ _ _ _ _ _ _ _ |- _ => destruct (Sel _ _ _ H) end.
  - match goal with H : selected _ _ _ _ _ _ _ _ _ |- _ => destruct (Sel _ _ _ H) end.
  - match goal with H : apply_not _ _ _ _ |- _ => inversion H end.
  - match goal with H : apply_not _ _ _ _ |- _ => inversion H end.
Qed.
Lemma member_crash sc S neg tn rx tx tk ra ta x a l : syn L_simple rx tx -> syn L_simple ra ta -> negation neg tn -> keyword "in" tk ->
  agree file sc S -> elab sc ra = Ok a -> part (tx ++ tn ++ tk :: ta) T -> member_test G l x a = Crash -> hazardous T.
Proof.
  intros Sx Sa Ng Ki A Ea P X. unfold member_test in X.
  assert (E : e_typ a = None).
  { destruct (e_typ a) as [b|]; auto. destruct b; try discriminate; destruct (ncr_binary _ _ _ _ _ _ X). }
  destruct (typed_null _ _ (elab_typed _ _ _ _ _ _ dc _ _ _ _ _ _ Sa A Ea) E) as (l' & ->).
  destruct (means_null _ _ _ (elab_means _ _ _ _ _ _ dc _ _ _ _ _ Sa Ea)) as (tn' & -> & Kn).
  exists L_rel, (R_member neg tk rx (R_lit tn')), (tx ++ tn ++ tk :: ta). split; [apply syn_rel_member; auto|]. split; auto.
  constructor; auto.
Qed.

Definition called (c : callee) (k : text) : Prop :=
  match c with C_int => k = t "Integer" | C_dec => k = t "Decimal" | C_fun F_matches => k = t "matches" | _ => True end.
Lemma args_syn rs ts : syn_args rs ts -> forall r, In r rs -> exists tr, syn L_expr r tr.
Proof.
  induction 1; intros r' I.
  - contradiction.
  - destruct I as [<-|[]]; eauto.
  - destruct I as [<-|I]; eauto.
Qed.
Lemma call_crash sc S c pkg tp tk bra rs ts ket es : qualifier pkg tp -> tk_kind tk = IDENTIFIER -> tk_kind bra = BRA ->
  tk_kind ket = KET -> syn_args rs ts -> agree file sc S -> all_of (map (elab sc) rs) = Ok es -> called c (tok_text tk) ->
  part (tp ++ tk :: bra :: ts ++ [ket]) T -> call file G W compiles c tk es = Crash -> hazardous T.
Proof.
  intros Q Ki Kb Kk Sa A E C P X.
  assert (Sy : syn L_prim (R_call pkg tk rs) (tp ++ tk :: bra :: ts ++ [ket])) by (apply syn_call; auto).
  enough (U : unsafe (R_call pkg tk rs)) by (exists L_prim; eauto).
  assert (Len : List.length es = List.length rs).
  { clear - E. revert es E. induction rs as [|r rs IH]; cbn; intros es E; [injection E as <-; auto|].
    apply bind_ok in E as (a & _ & E). apply bind_ok in E as (l & E & E'). injection E' as <-. cbn. auto. }
  unfold call in X. destruct c as [f| |].
  - destruct f.
    + destruct es as [|a [|]]; try discriminate. destruct (e_typ a) as [[]|]; destruct (ncr_unary _ _ _ _ X).
    + destruct es as [|a [|b [|]]]; try discriminate; destruct (ncr_binary _ _ _ _ _ _ X).
    + destruct es as [|a [|b [|]]]; try discriminate; destruct (ncr_binary _ _ _ _ _ _ X).
    + destruct es as [|a [|b [|]]]; try discriminate. destruct rs as [|ra [|rb [|]]]; try discriminate.
      cbn in E. apply bind_ok in E as (a' & Ea & E). apply bind_ok in E as (l & E & E').
      apply bind_ok in E as (b' & Eb & E). injection E as <-. injection E' as <- <-.
      destruct (args_syn _ _ Sa rb) as (tr & Sb); [cbn; auto|].
      destruct (of_static (ensure_class b' is_string)) as [u| | |] eqn:Ec; cbn [bind] in X; try discriminate.
      2:{ destruct (ncr_static _ (ncr_class _ _) Ec). }
      apply of_static_ok in Ec. apply class_ok in Ec as (y & Ey & Fy). apply string_in in Fy.
      destruct (of_eval (evaluate W None b')) as [v| | |] eqn:Ev; cbn [bind] in X; try discriminate.
      * exfalso. destruct (eval_value _ _ _ _ _ _ _ _ Sb A Eb Ey Ev) as (p & Vp & Pt). rewrite Vp in X.
        destruct Fy as [<-|[<-|[]]]; inversion Pt; subst; destruct (compiles s); try discriminate; destruct (ncr_binary _ _ _ _ _ _ X).
      * apply un_pattern; auto. eapply eval_crash; eauto.
    + destruct es; [discriminate|]. destruct (ncr_oneof _ _ X).
  - apply un_convert; [cbn in *; auto|]. rewrite <- Len. destruct es as [|a [|]]; cbn; try discriminate. exfalso.
    destruct (of_static (ensure_class a is_numeric)) as [u| | |] eqn:Ec; cbn [bind] in X; try discriminate.
    + destruct (ncr_unary _ _ _ _ X).
    + destruct (ncr_static _ (ncr_class _ _) Ec).
  - apply un_convert; [cbn in *; auto|]. rewrite <- Len. destruct es as [|a [|]]; cbn; try discriminate. exfalso.
    destruct (of_static (ensure_class a is_numeric)) as [u| | |] eqn:Ec; cbn [bind] in X; try discriminate.
    + destruct (ncr_unary _ _ _ _ X).
    + destruct (ncr_static _ (ncr_class _ _) Ec).
Qed.

(** *** Reading *)
Section STEP.
Variable n : nat.
Variable pe : nscope -> P expr.
Hypothesis pe_sound : forall sc, sound file lint G W compiles N (pe sc) sc L_expr.
Hypothesis pe_safe : forall sc S s, agree file sc S -> sc <> [] -> fine (at_ s) -> safe (pe sc) s.

Ltac lf := match goal with
  | |- safe (lift _) _ => apply safe_lift; [assumption|]
  | |- safe (pbind (lift _) _) _ => apply safe_lift_bind; [assumption| |intros ? ?]
  end.
Ltac nc L := let X := fresh "X" in intros X; exfalso; eapply L; [..|exact X]; eauto.

Lemma selectors_safe m sc S e : agree file sc S -> sc <> [] -> forall s, fine (at_ s) -> safe (selectors file lint G pe m sc e) s.
Proof.
  intros A Ne. revert e. induction m as [|m IH]; intros e s F; cbn [selectors]; sf.
  - lf; [nc ncr_prefix|]. sf. lf; [nc ncr_field; eauto|]. destruct a0 as [e' ns]. destruct ns as [|x ns].
    + apply safe_bind; [apply safe_ret; auto|]. intros. apply IH; auto.
    + apply safe_bind; [apply safe_note; auto|]. intros. apply IH; auto.
  - lf; [nc ncr_array|]. sf. apply safe_bind; [eapply pe_safe; eauto|]. intros i s9 _ F9. sf.
    lf; [nc ncr_index; eauto|]. apply IH; auto.
Qed.
Lemma arguments_safe m sc S : agree file sc S -> sc <> [] -> forall s, fine (at_ s) -> safe (arguments file pe m sc) s.
Proof.
  intros A Ne. induction m as [|m IH]; intros s F; cbn [arguments]; sf.
  apply safe_bind; [eapply pe_safe; eauto|]. intros a s9 _ F9. sf.
  apply safe_bind; [apply IH; auto|]. intros. sf.
Qed.
Lemma builtin_safe sc S c pkg tp tk q s : agree file sc S -> sc <> [] -> qualifier pkg tp -> tk_kind tk = IDENTIFIER ->
  called c (tok_text tk) -> fine q -> reads q (tp ++ [tk]) (at_ s) -> fine (at_ s) ->
  safe (parse_builtin file G W compiles n pe sc c tk) s.
Proof.
  intros A Ne Q Ki C Fq R F. unfold parse_builtin. sf. rename tk0 into bra.
  apply safe_bind; [eapply arguments_safe; eauto|]. intros es s1 Es F1. sf. rename tk0 into ket.
  apply safe_lift; auto. intros X. eapply arguments_sound in Es as (rs & ts & Sa & Ra & Ea); [|apply pe_sound].
  eapply call_crash with (bra := bra) (ket := ket); eauto.
  eapply (fine_part T q); eauto.
  replace (tp ++ tk :: bra :: ts ++ [ket]) with ((tp ++ [tk]) ++ [bra] ++ ts ++ [ket]) by (rewrite <- app_assoc; auto).
  repeat (eapply reads_app; [eassumption|]). eassumption.
Qed.
Lemma qualified_safe sc tk r s : sc <> [] -> fine (at_ s) -> safe (qualified_rest file N sc tk r) s.
Proof.
  intros Ne F. unfold qualified_rest. lf; [nc ncr_scope|].
  assert (K : safe (let* e := lift (s_lookup file sc tk r) in pret (e, tk)) s).
  { lf; [nc ncr_scope|]. sf. }
  destruct a as [| |p| | |]; auto. destruct (is_visible N p).
  - sf. lf; [nc ncr_lookup|]. sf.
  - lf. unfold hidden. destruct (n_imports N); [discriminate|congruence].
Qed.
Lemma lookup_reserved d tk r e : In d (n_stab N :: n_pkgs N) -> e_lookup file d tk r = Ok e -> reserved (tok_text tk) e.
Proof. intros I E. apply t_lookup_in in E. eapply std; eauto. Qed.
Lemma symbols_reserved p tk r e : e_lookup file (p_symbols N p) tk r = Ok e -> reserved (tok_text tk) e.
Proof.
  intros E. apply t_lookup_in in E. unfold p_symbols in E. apply in_app_or in E as [E|E]; [|eapply std; [left; reflexivity|eauto]].
  destruct (nth_in_or_default p (n_pkgs N) []) as [J|J]; [eapply std; [right; eauto|eauto]|]. rewrite J in E. contradiction.
Qed.
Lemma reserved_called e c k : callee_of e = Some c -> reserved k e -> called c k.
Proof. destruct e as [[]| | | | |]; cbn; try discriminate; intros E; injection E as <-; auto. Qed.

Lemma name_safe sc S s : agree file sc S -> sc <> [] -> fine (at_ s) -> safe (parse_name file lint G W compiles N n pe sc) s.
Proof.
  intros A Ne F. unfold parse_name. sf. apply safe_bind.
  - sf.
    + lf; [nc ncr_builtin|]. sf.
    + apply safe_bind; [apply qualified_safe; auto|]. intros [e tk'] s1 _ F1. lf; [nc ncr_classify|]. sf.
  - intros [h tk'] s1 E F1. destruct h as [i|c|e].
    + sf. lf. nc ncr_enum.
    + assert (X : exists pkg tp, qualifier pkg tp /\ tk_kind tk' = IDENTIFIER /\ reads (at_ s) (tp ++ [tk']) (at_ s1) /\
                  (peek BRA s1 = true -> called c (tok_text tk'))).
      { apply pcond_cases in E as [(Pk & E)|(Pk & E)].
        - pinv E. pinv H3. pinv E. exists None, []. split; [constructor|]. split; auto. split; auto. intros _.
          unfold builtin_name in H3. apply bind_ok in H3 as (e & L & H3). destruct (callee_of e) eqn:Ce; [|discriminate].
          injection H3 as ->. eapply reserved_called; eauto. eapply lookup_reserved; eauto. left; auto.
        - pinv E. destruct a as [e tk2]. pinv E. pinv H4. pinv E. rename H4 into Cl.
          assert (Cl' : callee_of e = Some c).
          { unfold classify in Cl. destruct e as [[]| | | |x|x y]; cbn in *; try discriminate; injection Cl as <-; auto. }
          unfold qualified_rest in H3. pinv H3. pinv H4.
          destruct a as [x|f|p|o|y|v x];
            try (pinv H3; pinv H5; pinv H3; exists None, []; split; [constructor|]; split; [auto|]; split; [auto|]; intros Y; congruence).
          destruct (is_visible N p); [|destruct (hidden_no _ _ _ _ _ H3)].
          pinv H3. apply match_ok in H5 as (Kd & Rd & _). pinv H3. apply match_ok in H5 as (Ki & Ri & _). pinv H3. pinv H5. pinv H3.
          exists (Some tk), [tk; a]. split; [constructor; auto|]. split; auto. split.
          + change ([tk; a] ++ [tk']) with ([tk] ++ [a] ++ [tk']). repeat (eapply reads_app; [eassumption|]). eassumption.
          + intros _. eapply reserved_called; eauto. eapply symbols_reserved; eauto. }
      destruct X as (pkg & tp & Q & Ki & R & Ca). destruct (peek BRA s1) eqn:Pk.
      * eapply (builtin_safe sc S c pkg tp tk' (at_ s)); eauto.
      * unfold parse_builtin, p_match. unfold safe, pbind, p_take. unfold peek, next_is in Pk.
        destruct (nt (at_ s1)) as [tk2|]; [rewrite Pk|]; exact F1.
    + eapply selectors_safe; eauto.
Qed.

Lemma quantified_safe sc S s : agree file sc S -> sc <> [] -> fine (at_ s) -> safe (parse_quantified_expression file pe sc) s.
Proof.
  intros A Ne F. unfold parse_quantified_expression. apply safe_bind; [sf|]. intros [u tq] s1 _ F1. sf.
  lf; [nc ncr_fresh|]. sf. lf; [nc ncr_source|]. destruct a0 as [c el]. sf. apply safe_bind.
  - eapply pe_safe; eauto; [|discriminate]. apply agree_quant. eauto.
  - intros. lf. nc ncr_quant.
Qed.
Lemma elsifs_safe m sc S a : agree file sc S -> sc <> [] -> forall s, fine (at_ s) -> safe (elsifs file pe m sc (Some a)) s.
Proof.
  intros A Ne. induction m as [|m IH]; intros s F; cbn [elsifs]; sf.
  apply safe_bind; [eapply pe_safe; eauto|]. intros c s1 _ F1. sf.
  apply safe_bind; [eapply pe_safe; eauto|]. intros x s2 _ F2. lf; [nc ncr_elsif|].
  apply safe_bind; [apply IH; auto|]. intros. sf.
Qed.
Lemma conditional_safe sc S s : agree file sc S -> sc <> [] -> fine (at_ s) -> safe (parse_conditional_expression file n pe sc) s.
Proof.
  intros A Ne F. unfold parse_conditional_expression. sf.
  apply safe_bind; [eapply pe_safe; eauto|]. intros c s1 _ F1. sf.
  apply safe_bind; [eapply pe_safe; eauto|]. intros x s2 _ F2. lf; [nc ncr_first|].
  assert (X : exists b, e_typ x = Some b) by (match goal with H : first_action _ _ = Ok _ |- _ => unfold first_action in H; destruct (e_typ x); [eauto|discriminate H] end).
  destruct X as (b & ->). apply safe_bind; [eapply elsifs_safe; eauto|]. intros l s3 _ F3. sf.
  apply safe_bind; [eapply pe_safe; eauto|]. intros y s4 _ F4. lf; [nc ncr_else|]. sf.
Qed.
Lemma primary_safe sc S s : agree file sc S -> sc <> [] -> fine (at_ s) -> safe (parse_primary file lint G W compiles N n pe sc) s.
Proof.
  intros A Ne F. unfold parse_primary. sf.
  - assert (V := val _ H2). unfold valued in V. rewrite H0 in V. destruct V as (z & ->). sf.
  - assert (V := val _ H3). unfold valued in V. rewrite H1 in V. destruct V as (z & ->). sf.
  - assert (V := val _ H4). unfold valued in V. rewrite H2 in V. destruct V as (z & ->). sf.
  - apply safe_bind; [|intros; sf]. sf; [eapply quantified_safe|eapply conditional_safe|eapply pe_safe]; eauto.
  - eapply name_safe; eauto.
Qed.
Lemma factor_safe sc S s : agree file sc S -> sc <> [] -> fine (at_ s) -> safe (parse_factor file lint G W compiles N n pe sc) s.
Proof.
  intros A Ne F. unfold parse_factor. sf.
  - apply safe_bind; [eapply primary_safe; eauto|]. intros. lf. nc ncr_unary.
  - apply safe_bind; [eapply primary_safe; eauto|]. intros. lf. nc ncr_unary.
  - apply safe_bind; [eapply primary_safe; eauto|]. intros a s1 Ea F1. sf.
    apply safe_bind; [eapply primary_safe; eauto|]. intros b s2 Eb F2. lf. intros X.
    eapply primary_sound in Ea as (ra & ta & Sa & Ra & Ea); [|apply pe_sound].
    eapply primary_sound in Eb as (rb & tb & Sb & Rb & Eb); [|apply pe_sound].
    eapply (power_crash sc S ra ta tk rb tb); eauto.
    + unfold peek_op, next_is in H1. rewrite (reads_first _ _ _ _ H3) in H1. apply op_cases. auto.
    + eapply (fine_part T (at_ s)); eauto. change (ta ++ tk :: tb) with (ta ++ [tk] ++ tb).
      repeat (eapply reads_app; [eassumption|]). eassumption.
Qed.
Lemma next_op (f : token -> option binop) s tk q : next_is (some_op f) s = true -> reads (at_ s) [tk] q -> exists op, f tk = Some op.
Proof. unfold next_is, some_op. intros H R. rewrite (reads_first _ _ _ _ R) in H. destruct (f tk); [eauto|discriminate]. Qed.
Lemma term_loop_safe m sc S : agree file sc S -> sc <> [] -> forall a s, fine (at_ s) ->
  safe (term_loop file lint G W compiles N n pe m sc a) s.
Proof.
  intros A Ne. induction m as [|m IH]; intros a s F; cbn [term_loop]; sf.
  destruct (next_op _ _ _ _ H H1) as (op & ->). cbn [with_op].
  apply safe_bind; [eapply factor_safe; eauto|]. intros. lf; [nc ncr_binary|]. apply IH; auto.
Qed.
Lemma term_safe sc S s : agree file sc S -> sc <> [] -> fine (at_ s) -> safe (parse_term file lint G W compiles N n pe sc) s.
Proof.
  intros A Ne F. unfold parse_term. apply safe_bind; [eapply factor_safe; eauto|]. intros. eapply term_loop_safe; eauto.
Qed.
Lemma sum_loop_safe m sc S ty : agree file sc S -> sc <> [] -> forall a s, fine (at_ s) ->
  safe (sum_loop file lint G W compiles N n pe m sc ty a) s.
Proof.
  intros A Ne. induction m as [|m IH]; intros a s F; cbn [sum_loop]; sf.
  destruct (next_op _ _ _ _ H H1) as (op & ->). cbn [with_op].
  apply safe_bind; [eapply term_safe; eauto|]. intros. lf; [nc ncr_binary|]. apply IH; auto.
Qed.
Lemma simple_safe sc S s : agree file sc S -> sc <> [] -> fine (at_ s) -> safe (parse_simple_expression file lint G W compiles N n pe sc) s.
Proof.
  intros A Ne F. unfold parse_simple_expression. apply safe_bind; [|intros; eapply sum_loop_safe; eauto].
  sf; [|eapply term_safe; eauto]. destruct (next_op _ _ _ _ H H1) as (op & E).
  assert (X : exists u, sign_op tk = Some u).
  { unfold add_op in E. unfold sign_op. destruct (is_op (t "+") tk); eauto. destruct (is_op (t "-") tk); eauto. discriminate. }
  destruct X as (u & ->). cbn [with_op].
  match goal with |- safe (fun s => ?m s) ?s0 => change (safe ((fun br => let* a := parse_term file lint G W compiles N n pe sc in
       let* _ := (if lint && is_binary a && negb br
                  then pnote (Note_lint (tok_loc file tk) L_unary_minus) else pret tt) in
       lift (unary (tok_loc file tk) (e_typ a) u a)) (peek BRA s0)) s0) end. cbv beta.
  apply safe_bind; [eapply term_safe; eauto|]. intros a s1 _ F1.
  apply safe_bind; [match goal with |- context [if ?c then _ else _] => destruct c end; [apply safe_note|apply safe_ret]; auto|].
  intros. lf. nc ncr_unary.
Qed.
Lemma relation_safe sc S s : agree file sc S -> sc <> [] -> fine (at_ s) -> safe (parse_relation file lint G W compiles N n pe sc) s.
Proof.
  intros A Ne F. unfold parse_relation. apply safe_bind; [eapply simple_safe; eauto|]. intros x s1 Ex F1. sf.
  - destruct (next_op _ _ _ _ H H1) as (op & ->). cbn [with_op].
    apply safe_bind; [eapply simple_safe; eauto|]. intros. lf. nc ncr_binary.
  - apply safe_bind; [sf|]. intros neg s2 En F2. sf.
    apply safe_bind; [eapply simple_safe; eauto|]. intros a s3 Ea F3. apply safe_bind; [|intros; lf; nc ncr_negated]. sf.
    + apply safe_bind; [eapply simple_safe; eauto|]. intros. lf. nc ncr_range.
    + lf. intros X.
      eapply simple_sound in Ex as (rx & tx & Sx & Rx & Ex); [|apply pe_sound].
      eapply simple_sound in Ea as (ra & ta & Sa & Ra & Ea); [|apply pe_sound].
      assert (Q : exists tn, negation neg tn /\ reads (at_ s1) tn (at_ s2)).
      { apply pcond_cases in En as [(_ & En)|(_ & En)].
        - pinv En. apply match_kw_ok in H6 as (K & R & _). pinv En. eexists. split; [constructor|]; eauto.
        - pinv En. exists []. split; constructor. }
      destruct Q as (tn & Sn & Rn).
      eapply (member_crash sc S neg tn rx tx tk ra ta); eauto.
      eapply (fine_part T (at_ s)); eauto. change (tx ++ tn ++ tk :: ta) with (tx ++ tn ++ [tk] ++ ta).
      repeat (eapply reads_app; [eassumption|]). eassumption.
Qed.
Lemma logic_loop_safe m w op sc S : agree file sc S -> sc <> [] -> forall a s, fine (at_ s) ->
  safe (logic_loop file lint G W compiles N n pe m w op sc a) s.
Proof.
  intros A Ne. induction m as [|m IH]; intros a s F; cbn [logic_loop]; sf.
  apply safe_bind; [eapply relation_safe; eauto|]. intros. lf; [nc ncr_binary|]. apply IH; auto.
Qed.
Lemma logic_once_safe w op sc S a s : agree file sc S -> sc <> [] -> fine (at_ s) ->
  safe (logic_once file lint G W compiles N n pe w op sc a) s.
Proof.
  intros A Ne F. unfold logic_once. sf. apply safe_bind; [eapply relation_safe; eauto|]. intros. lf. nc ncr_binary.
Qed.
Lemma step_safe sc S s : agree file sc S -> sc <> [] -> fine (at_ s) -> safe (expression_step file lint G W compiles N n pe sc) s.
Proof.
  intros A Ne F. unfold expression_step. apply safe_bind; [eapply relation_safe; eauto|]. intros a s1 _ F1. sf;
    first [eapply logic_loop_safe; eauto; fail | eapply logic_once_safe; eauto].
Qed.
End STEP.

Theorem expression_safe n : forall sc S s, agree file sc S -> sc <> [] -> fine (at_ s) ->
  safe (parse_expression file lint G W compiles N n sc) s.
Proof.
  induction n as [|n IH]; intros sc S s A Ne F; cbn [parse_expression]; [apply safe_fuel|].
  eapply step_safe; eauto. intros. apply parse_expression_sound.
Qed.
End EXPR.
