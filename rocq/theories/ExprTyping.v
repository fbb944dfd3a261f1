(** What the parser makes of an expression is well typed in the sense of
    Typing.v.  The parser evaluates exponents and regular expressions while it
    reads them, so this needs the soundness of evaluation without context. *)
From Coq Require Import Relations.
From Verif Require Import Base Lexer SymTab Ast Eval TypesProofs Typing Soundness ParserBase ParserExpr ExprSyntax ParserProofs ExprParserSound.
From Coq Require Import ZifyBool ZifyNat ZifyN.
Open Scope Z_scope.

(** ** Evaluation without context *)

(** Types of literals. *)
Definition flat (a : ty) : bool :=
  match a with TInt | TDec | TBool | TStr | TMarkup | TEnum _ => true | _ => false end.
Definition flat_value (v : value) : Prop :=
  match v_val v with Some (_, a) => flat a = true | None => True end.

Section STATIC.
Variable G : types.
Variable W : world.
Notation good := (good G W).

Definition sgood (e : expr) (r : eres value) : Prop :=
  good e r /\ match r with Ok v => flat_value v | _ => True end.

Lemma sgood_flat e r : good e r -> (forall a v p b, e_typ e = Some a -> r = Ok v -> v_val v = Some (p, b) -> flat a = true) ->
  sgood e r.
Proof.
  intros H F. split; auto. destruct r as [v| | |]; auto. unfold Soundness.good, of_type in H. unfold flat_value.
  destruct (v_val v) as [[p b]|] eqn:V; auto. destruct H as [[E _] _]. eapply F; eauto.
Qed.

Theorem static_soundness e : forall S, wt G W false S e -> sgood e (evaluate W None e).
Proof.
  assert (IErr : forall e x, sgood e (Err x)) by (intros; split; exact I).
  induction e using expr_ind2; intros S T.
  - cbn. repeat split; auto; exact I.
  - cbn. destruct (eval_lit_typ G W l k) as (p & E & P). split.
    + unfold Soundness.good, of_type. rewrite E. split; auto. discriminate.
    + unfold flat_value. rewrite E. destruct k as [| |? []| |]; reflexivity.
  - apply IErr.
  - assert (X : wt G W false S e) by (inversion T; subst; auto).
    destruct (IHe _ X) as [Ge Fe]. apply sgood_flat; [eapply good_unary; eauto|]. intros b v p b' Eb _ _. cbn in Eb. subst a.
    inversion T; subst; auto;
      match goal with H : In _ [_; _] |- _ => destruct H as [E'|[E'|[]]]; try injection E' as <- <-; subst; auto end.
  - assert (X : wt G W false S e1 /\ wt G W false S e2) by (inversion T; subst; auto). destruct X as [X1 X2].
    destruct (IHe1 _ X1) as [G1 F1]. destruct (IHe2 _ X2) as [G2 F2].
    apply sgood_flat; [eapply good_binary; eauto|]. intros b v p b' Eb Ev Vv. cbn in Eb. subst a.
    inversion T; subst; auto;
      try match goal with H : In _ [TInt; TDec] |- _ => destruct H as [E'|[E'|[]]]; subst; auto end.
    cbn [evaluate] in Ev. destruct (evaluate W None e1) as [v1| | |]; try discriminate. cbn [bind] in Ev.
    unfold Soundness.good, of_type in G1. unfold flat_value in F1. destruct (v_val v1) as [[p1 a1]|]; [|discriminate].
    destruct G1 as [[E1 _] _].
    match goal with H : e_typ e1 = Some ?x |- _ => assert (a1 = x) as -> by congruence end. discriminate.
  - assert (X : wt G W false S e) by (inversion T; subst; auto).
    destruct (IHe _ X) as [Ge Fe]. cbn [evaluate].
    destruct (evaluate W None e) as [v| | |]; cbn [bind]; try apply IErr; try (destruct Ge; fail).
    unfold Soundness.good, of_type in Ge. unfold flat_value in Fe. destruct (v_val v) as [[p b]|]; [|apply IErr].
    destruct Ge as [[E1 _] _]. exfalso. inversion T; subst;
      match goal with H : e_typ e = Some ?x |- _ => assert (b = x) as -> by congruence end; discriminate.
  - inversion T; subst.
    destruct (IHe1 _ ltac:(eassumption)) as [Ga _]. destruct (IHe2 _ ltac:(eassumption)) as [Gl _].
    destruct (IHe3 _ ltac:(eassumption)) as [Gh _]. cbn [evaluate]. apply sgood_flat.
    2:{ intros b v p b' Eb _ _. cbn in Eb. injection Eb as <-. auto. }
    Ltac run' H :=
      let v := fresh "v" in let p := fresh "p" in let b := fresh "b" in let P := fresh "P" in let Et := fresh "Et" in
      match type of H with Soundness.good _ _ _ ?r =>
        destruct r as [v| | |]; cbn [bind]; try exact I; try (destruct H; fail);
        unfold Soundness.good, of_type in H; destruct (v_val v) as [[p b]|]; [destruct H as [[Et P] _]|try exact I]
      end.
    run' Ga. run' Gl. run' Gh.
    repeat match goal with H : e_typ ?x = Some _, H' : e_typ ?x = Some _ |- _ => rewrite H in H'; injection H' as <- end.
    match goal with H : In _ [TInt; TDec] |- _ =>
      destruct (pt_num _ _ _ _ P H) as [(E1 & x1 & ->)|(E1 & x1 & ->)];
      destruct (pt_num _ _ _ _ P0 H) as [(E2 & x2 & ->)|(E2 & x2 & ->)];
      destruct (pt_num _ _ _ _ P1 H) as [(E3 & x3 & ->)|(E3 & x3 & ->)]
    end; subst; try discriminate; cbn;
    match goal with |- context [if ?x then _ else _] => destruct x end; apply good_value; auto; constructor.
  - inversion T; subst. cbn [evaluate]. apply sgood_flat.
    2:{ intros b v p b' Eb _ _. cbn in Eb. injection Eb as <-. auto. }
    assert (X : match (fix go (es : list expr) : eres (list value) :=
                  match es with
                  | [] => Ok []
                  | a :: es' => do x <- evaluate W None a ; do xs <- go es' ; Ok (x :: xs)
                  end) es with Ok _ | Err _ => True | _ => False end).
    { clear T. induction es as [|e es IHes]; [exact I|].
      destruct (H e (or_introl eq_refl) S ltac:(auto with datatypes)) as [Ge _].
      destruct (evaluate W None e); auto. cbn [bind].
      match goal with |- match (bind ?g _) with _ => _ end =>
        assert (Y : match g with Ok _ | Err _ => True | _ => False end)
          by (apply IHes; intros; auto with datatypes; eapply H; eauto with datatypes); destruct g; auto end. }
    match goal with |- Soundness.good _ _ _ (bind ?g _) => destruct g; cbn [bind]; try contradiction; [|exact I] end.
    apply good_value; auto; constructor.
  - inversion T; subst. cbn [evaluate].
    assert (Ta : e_typ (ECond l acts e) = Some a).
    { destruct acts as [|[c x] acts]; [congruence|]. cbn.
      match goal with H : forall c x, In (c, x) _ -> e_typ c = _ /\ _ |- _ => apply (H c x (or_introl eq_refl)) end. }
    assert (Lift : forall x r, e_typ x = Some a -> (maybe_null x = true -> maybe_null (ECond l acts e) = true) ->
               sgood x r -> sgood (ECond l acts e) r).
    { intros x r Ex Mn [Gx Fx]. split; auto. destruct r; auto. destruct Gx as [O Nn]. split; auto. congruence. }
    assert (Y : forall acts', (forall c x, In (c, x) acts' -> In (c, x) acts) ->
      sgood (ECond l acts e)
       ((fix go (acts : list (expr * expr)) : eres value :=
         match acts with
         | [] => evaluate W None e
         | (c, x) :: acts' =>
             do vc <- evaluate W None c ;
             match v_val vc with
             | None => Err (v_loc vc, P_null_condition)
             | Some (p, _) => if truthy p then evaluate W None x else go acts'
             end
         end) acts')).
    2:{ apply Y; auto. }
    induction acts' as [|[c x] acts' IHa]; intros Sub.
    + apply (Lift e); [assumption| |eapply IHe; eauto]. intros M. cbn. rewrite M. apply orb_true_r.
    + assert (Ia := Sub c x (or_introl eq_refl)). destruct (H c x Ia) as [Hc Hx].
      assert (Wt : wt G W false S c /\ wt G W false S x) by eauto. destruct Wt as [Wc Wx].
      assert (Ex : e_typ x = Some a) by (match goal with H : forall c x, In (c, x) _ -> e_typ c = _ /\ _ |- _ => apply (H c x Ia) end).
      destruct (Hc _ Wc) as [Gc _]. destruct (evaluate W None c) as [vc| | |]; cbn [bind]; try apply IErr; try (destruct Gc; fail).
      destruct (v_val vc) as [[p ?]|]; [|apply IErr].
      destruct (truthy p); [|apply IHa; intros; apply Sub; right; auto].
      apply (Lift x); auto; [|eapply Hx; eauto]. intros M. cbn. apply orb_true_iff. left. apply existsb_exists. exists (c, x). auto.
  - apply IErr.
Qed.
End STATIC.

(** ** Accepted expressions *)
(** What an entity found for a name says about the scope of Typing.v. *)
Definition denotes (S : Typing.scope) (k : text) (e : entity) : Prop :=
  match e with
  | N_comp c => c_name c = k /\ assoc k S = Some (c_typ c, c_opt c)
  | N_qv n a => n = k /\ assoc k S = Some (a, false)
  | _ => True
  end.
Definition global (e : entity) : bool := match e with N_comp _ | N_qv _ _ => false | _ => true end.

(** What is known of the declared types and packages when checks are read. *)
Record declared (G : types) (W : world) (compiles : text -> bool) (N : names) : Prop := Declared {
  dc_order : wf_types G;
  dc_objects : wt_world G W;
  dc_rec : forall r, NoDup (map c_name (all_components G r));
  dc_tup : forall u ut, nth_error (tups G) u = Some ut -> NoDup (map c_name (u_comps ut));
  dc_own : forall r rt c, nth_error (recs G) r = Some rt -> In c (r_comps rt) -> c_of c = TRec r;
  dc_regex : forall p x, compiles p = true -> w_match W p x <> None;
  dc_stab : forall k e, In (k, e) (n_stab N) -> global e = true;
  dc_pkgs : forall d k e, In d (n_pkgs N) -> In (k, e) d -> global e = true
}.

Section TYPED.
Variable file : Z.
Variable lint : bool.
Variable G : types.
Variable W : world.
Variable compiles : text -> bool.
Variable N : names.
Hypothesis dc : declared G W compiles N.
Notation wt := (wt G W false).
Notation elab := (elab file lint G W compiles N).

Definition agree (sc : nscope) (S : Typing.scope) : Prop :=
  forall tk r e, s_lookup file sc tk r = Ok e -> denotes S (tok_text tk) e.

Lemma t_find_in {A} (d : list (text * A)) n k a : t_find d n = Some (k, a) -> In (k, a) d.
Proof.
  induction d as [|[k' a'] d IH]; cbn; [discriminate|]. destruct (text_eqb _ _); auto.
  intros E. injection E as <- <-. auto.
Qed.
Lemma t_lookup_in {A} f (d : list (text * A)) tk r a : t_lookup file f d tk r = Ok a -> In (tok_text tk, a) d.
Proof.
  unfold t_lookup. destruct (t_find d (tok_text tk)) as [[k a']|] eqn:F; [|discriminate].
  destruct (text_eqb k (tok_text tk)) eqn:E; [|discriminate]. apply text_eqb_eq in E. subst k.
  apply t_find_in in F. destruct r as [c|]; [destruct (c a')|]; intros H; inversion H; subst; auto.
Qed.
Lemma p_symbols_global p k e : In (k, e) (p_symbols N p) -> global e = true.
Proof.
  unfold p_symbols. intros I. apply in_app_or in I as [I|I]; [|eapply dc_stab; eauto].
  destruct (nth_in_or_default p (n_pkgs N) []) as [J|J]; [eapply dc_pkgs; eauto|]. rewrite J in I. contradiction.
Qed.

Lemma agree_quant sc S v a : agree sc S -> agree ([(v, N_qv v a)] :: sc) ((v, (a, false)) :: S).
Proof.
  intros A tk r e H.
  assert (K : e_lookup file [(v, N_qv v a)] tk r = Ok e -> denotes ((v, (a, false)) :: S) (tok_text tk) e).
  { intros E. apply t_lookup_in in E as [E|[]]. injection E as -> <-. cbn. rewrite text_eqb_refl. auto. }
  cbn [s_lookup] in H. destruct sc as [|d sc]; auto.
  destruct (t_contains [(v, N_qv v a)] (tok_text tk)) eqn:C; auto.
  assert (Nv : text_eqb v (tok_text tk) = false).
  { destruct (text_eqb v (tok_text tk)) eqn:E; auto. apply text_eqb_eq in E. subst v. unfold t_contains in C.
    cbn in C. rewrite text_eqb_refl in C. rewrite text_eqb_refl in C. discriminate. }
  apply A in H. unfold denotes in *. cbn. destruct e; auto; rewrite Nv; auto.
Qed.

(** *** Operators *)
Lemma of_static_ok {A} (r : sres A) a : of_static r = Ok a -> r = Ok a.
Proof. destruct r as [|[? ?]| |]; cbn; intros H; inversion H; auto. Qed.
Lemma class_ok e f u : ensure_class e f = Ok u -> exists a, e_typ e = Some a /\ f a = true.
Proof. unfold ensure_class. destruct (e_typ e) as [a|]; [|discriminate]. destruct (f a) eqn:F; [eauto|discriminate]. Qed.
Lemma type_ok e b u : ensure_type e b = Ok u -> e_typ e = b /\ exists a, b = Some a.
Proof.
  unfold ensure_type. destruct b as [b|]; [|discriminate]. destruct (e_typ e) as [a|]; [|discriminate].
  destruct (ty_eqb a b) eqn:F; [|discriminate]. apply ty_eqb_eq in F. subst. eauto.
Qed.
Lemma numeric_in a : is_numeric a = true -> In a [TInt; TDec]. Proof. destruct a; cbn; auto; discriminate. Qed.
Lemma string_in a : is_string a = true -> In a [TStr; TMarkup]. Proof. destruct a; cbn; auto; discriminate. Qed.
Lemma boolean_is a : is_boolean a = true -> a = TBool. Proof. destruct a; cbn; auto; discriminate. Qed.
Lemma integer_is a : is_integer a = true -> a = TInt. Proof. destruct a; cbn; auto; discriminate. Qed.
Lemma array_is a : is_array a = true -> exists i lo hi el, a = TArr i lo hi el.
Proof. destruct a; cbn; eauto; discriminate. Qed.

Ltac stat H :=
  repeat match type of H with
  | _ => progress cbn [bind] in H
  | bind _ _ = Ok _ => let a := fresh "u" in let H1 := fresh "H" in apply bind_ok in H as (a & H1 & H)
  end.
Ltac facts :=
  repeat match goal with
  | H : ensure_class _ _ = Ok _ |- _ => let a := fresh "a" in let E := fresh "E" in let F := fresh "F" in
      apply class_ok in H as (a & E & F)
  | H : ensure_type _ _ = Ok _ |- _ => let a := fresh "a" in let E := fresh "E" in let F := fresh "F" in
      apply type_ok in H as (E & a & F)
  | H : is_numeric _ = true |- _ => apply numeric_in in H
  | H : is_string _ = true |- _ => apply string_in in H
  | H : is_boolean _ = true |- _ => apply boolean_is in H; subst
  | H : is_integer _ = true |- _ => apply integer_is in H; subst
  | H : is_array _ = true |- _ => apply array_is in H as (? & ? & ? & ? & ->)
  end.

Lemma strings_ok a b u : (do _ <- ensure_class a is_string; ensure_class b is_string) = Ok u ->
  exists s s', In s [TStr; TMarkup] /\ In s' [TStr; TMarkup] /\ e_typ a = Some s /\ e_typ b = Some s'.
Proof.
  intros H. apply bind_ok in H as (v & H1 & H2). apply class_ok in H1 as (s & E1 & F1). apply class_ok in H2 as (s' & E2 & F2).
  exists s, s'. auto using string_in.
Qed.
Lemma numbers_ok a b u : (do _ <- ensure_class a is_numeric; ensure_type b (e_typ a)) = Ok u ->
  exists n, In n [TInt; TDec] /\ e_typ a = Some n /\ e_typ b = Some n.
Proof.
  intros H. apply bind_ok in H as (v & H1 & H2). apply class_ok in H1 as (s & E1 & F1). apply type_ok in H2 as (E2 & _).
  exists s. split; auto using numeric_in. split; congruence.
Qed.

Lemma unary_typed S l op a e : wt S a -> unary l (unary_type op a) op a = Ok e -> In op [U_minus; U_plus; U_abs; U_not] -> wt S e.
Proof.
  intros Wa H O. apply of_static_ok in H. unfold mk_unary in H. stat H. injection H as <-.
  destruct O as [<-|[<-|[<-|[<-|[]]]]]; facts; cbn [unary_type]; rewrite ?E;
    first [eapply wt_not; eauto; fail | eapply wt_number; eauto; cbn; auto].
Qed.
Lemma not_typed S l a e : wt S a -> unary l (Some TBool) U_not a = Ok e -> wt S e.
Proof. intros. eapply (unary_typed S l U_not); eauto. cbn; auto 6. Qed.

Lemma binary_typed S l op a b e : wt S a -> wt S b ->
  In op [B_and; B_or; B_xor; B_implies; B_eq; B_neq; B_lt; B_leq; B_gt; B_geq; B_contains; B_starts; B_ends;
         B_arrcontains; B_plus; B_minus; B_times; B_div; B_rem] ->
  binary G l (result_type op a) op a b = Ok e -> wt S e.
Proof.
  intros Wa Wb O H. apply of_static_ok in H. unfold mk_binary in H.
  apply bind_ok in H as (u & H & H'). injection H' as <-. 
  assert (Cmp : op = B_eq \/ op = B_neq -> comparable G (e_typ a) (e_typ b)).
  { intros Q. assert (H0 : match e_typ a, e_typ b with
        | Some ta, Some tb =>
            if is_union ta || is_union tb then
              match members ta, members tb with
              | Some la, Some lb => if related G la lb then Ok tt else Err (l, S_type_mismatch)
              | _, _ => Err (l, S_type_mismatch)
              end
            else if ty_eqb ta tb then Ok tt else Err (l, S_type_mismatch)
        | _, _ => Ok tt
        end = Ok u) by (destruct Q; subst; auto). clear H.
    destruct (e_typ a) as [ta|]; [|constructor]. destruct (e_typ b) as [tb|]; [|constructor].
    destruct (is_union ta || is_union tb) eqn:U.
    - destruct (members ta) as [la|] eqn:Ma; [|discriminate]. destruct (members tb) as [lb|] eqn:Mb; [|discriminate].
      destruct (related G la lb) eqn:R; [|discriminate].
      eapply cp_union; eauto. { apply orb_true_iff; auto. }
      unfold related in R. apply existsb_exists in R as (x & Ix & R). apply existsb_exists in R as (y & Iy & R).
      exists x, y. split; auto. split; auto. apply orb_true_iff in R.
      rewrite !(subclass_spec G (dc_order _ _ _ _ dc)) in R. auto.
    - destruct (ty_eqb ta tb) eqn:Q'; [|discriminate]. apply ty_eqb_eq in Q'. subst. apply orb_false_iff in U as [U _].
      constructor; auto. }
  assert (Str : In op [B_contains; B_starts; B_ends] ->
            (do _ <- ensure_class a is_string; ensure_class b is_string) = Ok u -> wt S (EBinary l (Some TBool) op a b)).
  { intros Q X. apply strings_ok in X as (s & s' & I1 & I2 & E1 & E2). eapply wt_string; [| | |exact E1|exact E2| |]; auto. }
  assert (Num : In op [B_minus; B_times; B_div] ->
            (do _ <- ensure_class a is_numeric; ensure_type b (e_typ a)) = Ok u -> wt S (EBinary l (e_typ a) op a b)).
  { intros Q X. apply numbers_ok in X as (n & I & E1 & E2). rewrite E1.
    eapply wt_arith; eauto. destruct Q as [<-|[<-|[<-|[]]]]; cbn; auto. }
  destruct op; try (exfalso; cbn in O; decompose [or] O; solve [contradiction|discriminate]); clear O; cbn [result_type];
    try (eapply wt_equal; eauto; cbn; auto; fail); try (apply Str; cbn; auto; fail); try (apply Num; cbn; auto; fail);
    try (apply numbers_ok in H as (n & I & E1 & E2); eapply wt_order; [|exact I|exact E1|exact E2| |]; cbn; auto; fail);
    try (stat H; facts; eapply wt_logic; eauto; cbn; auto; fail).
  - stat H. apply class_ok in H0 as (x & E & F). facts. rewrite E in H. apply class_ok in H as (y & E1 & F1).
    eapply wt_member; eauto.
  - unfold sum_type.
    assert (K : forall x, e_typ a = Some x -> In x [TInt; TDec] -> ensure_type b (e_typ a) = Ok u -> wt S (EBinary l (Some x) B_plus a b)).
    { intros x Ex Ix X. apply type_ok in X as (Y & _). apply (wt_arith _ _ _ _ l B_plus a b x); cbn; auto. congruence. }
    assert (K2 : (do _ <- ensure_class a is_string; ensure_class b is_string) = Ok u -> wt S (EBinary l (Some TStr) B_plus a b)).
    { intros X. apply strings_ok in X as (s & s' & I1 & I2 & E1 & E2). eapply wt_concat; [exact I1|exact I2|exact E1|exact E2| |]; auto. }
    destruct (e_typ a) as [[]|] eqn:Ea; try (apply K2; assumption);
      try (apply K; auto; cbn; auto; fail);
      apply strings_ok in H as (s & s' & I1 & _ & E1 & _); rewrite Ea in E1; try discriminate; injection E1 as <-;
      cbn in I1; decompose [or] I1; solve [discriminate|contradiction].
  - assert (X := Num ltac:(cbn; auto) H). apply numbers_ok in H as (n & I & E1 & E2). unfold sum_type.
    rewrite E1 in *. destruct I as [<-|[<-|[]]]; auto.
  - stat H. apply class_ok in H0 as (x & E & F). apply class_ok in H as (y & E1 & F1). facts. rewrite E. apply wt_rem; auto.
Qed.

Lemma bool_type op a : In op [B_and; B_or; B_xor; B_implies; B_eq; B_neq; B_lt; B_leq; B_gt; B_geq; B_contains; B_starts; B_ends;
         B_arrcontains] -> result_type op a = Some TBool.
Proof. intros O. cbn in O. decompose [or] O; subst; try contradiction; reflexivity. Qed.

Lemma power_typed S l a b e : wt S a -> wt S b -> power G W l a b = Ok e -> wt S e.
Proof.
  intros Wa Wb H. unfold power in H. apply bind_ok in H as (v & Hv & H). apply bind_ok in H as (e' & He & H).
  assert (Ev : evaluate W None b = Ok v).
  { destruct (evaluate W None b) as [|[? p]| |]; cbn in Hv; try discriminate; [congruence|destruct (internal p); discriminate]. }
  apply of_static_ok in He. unfold mk_binary in He. stat He. injection He as <-. stat H0.
  apply class_ok in H1 as (n & En & Fn). apply class_ok in H0 as (x & Eb & Fb). facts.
  destruct (static_soundness G W b S Wb) as [Gb _].
  rewrite Ev in Gb. unfold good, of_type in Gb. destruct (v_val v) as [[p y]|] eqn:Vv; [|discriminate].
  destruct Gb as [[Ey Py] _]. rewrite Eb in Ey. injection Ey as <-. inversion Py; subst. cbn in H.
  destruct (num_lt (NInt z) (NInt 0)) eqn:Z0; [discriminate|]. injection H as <-. rewrite En.
  destruct v as [l' v']. cbn in Vv. subst v'. eapply wt_pow; eauto. apply negb_false_iff in Z0. apply Qle_bool_iff in Z0. unfold Qle in Z0. cbn in Z0. lia.
Qed.

Lemma chain_in f r c : In c (chain_steps G f r) -> exists r' rt, nth_error (recs G) r' = Some rt /\ In c (r_comps rt).
Proof.
  revert r. induction f as [|f IH]; intros r; cbn; unfold rec; destruct (nth_error (recs G) r) as [rt|] eqn:E; try contradiction.
  - rewrite app_nil_r. eauto.
  - intros I. apply in_app_or in I as [I|I]; eauto. destruct (r_parent rt); [eauto|contradiction].
Qed.
Lemma field_typed S p tk x : wt S p -> field_access file lint G p tk = Ok x -> wt S (fst x).
Proof.
  intros Wp H. unfold field_access in H. destruct (e_typ p) as [a|] eqn:Ep; [|discriminate].
  assert (K : forall H0 : (do c <- t_lookup file N_comp (components_of G a) tk None ;
      do e <- of_static (mk_field (tok_loc file tk) c p false true) ; Ok (e, [])) = Ok x, wt S (fst x)).
  { clear H. intros H. apply bind_ok in H as (c & Hc & H). apply bind_ok in H as (e & He & H). injection H as <-. cbn.
    apply of_static_ok in He. unfold mk_field in He. apply bind_ok in He as (u & Hu & He). injection He as <-.
    apply t_lookup_in in Hc. unfold components_of in Hc. apply in_map_iff in Hc as (c' & E & I). injection E as _ ->.
    destruct a as [| | | | | | | |r|]; try contradiction.
    - destruct (tup G u0) as [ut|] eqn:U; [|contradiction]. eapply wt_tup_field; eauto.
    - apply type_ok in Hu as (Hu & _). rewrite Ep in Hu. injection Hu as Hu.
      apply chain_in in I as (r' & rt & R & I). rewrite (dc_own _ _ _ _ dc _ _ _ R I) in Hu. injection Hu as <-.
      eapply wt_rec_field; eauto. unfold own_components. rewrite R. auto. }
  destruct a as [| | | | | | | |r|i ms]; try (apply K; assumption). clear K.
  destruct (assoc (tok_text tk) (field_map G ms)) as [info|] eqn:A; [|discriminate].
  destruct (fi_typ info) as [a|] eqn:Ft; [|discriminate]. apply bind_ok in H as (e & He & H). injection H as <-. cbn.
  apply of_static_ok in He. unfold mk_field in He. cbn in He. injection He as <-.
  assert (Q : c_name (fi_comp info) = tok_text tk /\ a = c_typ (fi_comp info)).
  { pose proof A as A'. rewrite (field_map_flat G) in A' by (exact (dc_rec _ _ _ _ dc)). rewrite fm_fold in A'.
    destruct (filter (named (tok_text tk)) _) as [|c cs] eqn:F; [discriminate|]. cbn in A'. injection A' as <-. cbn in *.
    assert (I : In c (filter (named (tok_text tk)) (flat_map (all_components G) ms))) by (rewrite F; left; auto).
    apply filter_In in I as [_ I]. apply text_eqb_eq in I. split; auto.
    destruct (forallb _ _) in Ft; congruence. }
  destruct Q as [Q1 ->]. eapply wt_union_field; eauto; congruence.
Qed.
Lemma index_typed S tk a i e : wt S a -> wt S i -> index_access file G tk a i = Ok e -> wt S e.
Proof.
  intros Wa Wi H. unfold index_access in H. destruct (e_typ a) as [[]|] eqn:Ea; try discriminate.
  apply of_static_ok in H. unfold mk_binary in H. stat H. injection H as <-. stat H0.
  apply class_ok in H0 as (y & Ey & Fy). facts. eapply wt_index; eauto.
Qed.
Lemma select_typed S sels : (forall tk r i, In (tk, Some r) sels -> r = Ok i -> wt S i) ->
  forall e x, wt S e -> select file lint G e sels = Ok x -> wt S x.
Proof.
  induction sels as [|[tk [r|]] sels IH]; cbn; intros Hr e x We H.
  - injection H as <-. auto.
  - apply bind_ok in H as (u & _ & H). apply bind_ok in H as (i & -> & H). apply bind_ok in H as (e' & He & H).
    refine (IH (fun tk r i I => Hr tk r i (or_intror I)) e' x _ H).
    exact (index_typed S tk e i e' We (Hr tk (Ok i) i (or_introl eq_refl) eq_refl) He).
  - apply bind_ok in H as (u & _ & H). apply bind_ok in H as (x' & Hx & H).
    exact (IH (fun tk r i I => Hr tk r i (or_intror I)) _ x (field_typed S e tk x' We Hx) H).
Qed.

Lemma all_of_in {A} (l : list (res perr A)) xs : all_of l = Ok xs -> forall x, In x xs -> In (Ok x) l.
Proof.
  revert xs. induction l as [|r l IH]; cbn; intros xs H.
  - injection H as <-. contradiction.
  - apply bind_ok in H as (a & -> & H). apply bind_ok in H as (l' & Hl & H). injection H as <-.
    intros x [<-|I]; [left; auto|right; eapply IH; eauto].
Qed.
Lemma booleans_ok es u : ensure_booleans es = Ok u -> forall e, In e es -> e_typ e = Some TBool.
Proof.
  induction es as [|x es IH]; cbn; intros H e I; [contradiction|]. apply bind_ok in H as (v & H1 & H2).
  apply class_ok in H1 as (a & E & F). facts. destruct I as [<-|I]; auto.
Qed.
Lemma call_typed S c tk es e : (forall x, In x es -> wt S x) -> call file G W compiles c tk es = Ok e -> wt S e.
Proof.
  intros We H.
  assert (One : forall op b a, es = [a] -> In (op, b) [(U_toint, TInt); (U_todec, TDec)] ->
             (do _ <- of_static (ensure_class a is_numeric); unary (tok_loc file tk) (Some b) op a) = Ok e -> wt S e).
  { intros op b a -> I X. apply bind_ok in X as (u & X1 & X). apply of_static_ok in X1. facts. apply of_static_ok in X.
    unfold mk_unary in X. stat X. injection X as <-. eapply wt_convert; eauto. apply We. left; auto. }
  assert (Len : forall a, es = [a] -> match e_typ a with
      | Some (TStr | TMarkup) => unary (tok_loc file tk) (Some TInt) U_strlen a
      | _ => unary (tok_loc file tk) (Some TInt) U_arrlen a
      end = Ok e -> wt S e).
  { intros a -> X. assert (Wa : wt S a) by (apply We; left; auto).
    assert (Y : unary (tok_loc file tk) (Some TInt) U_strlen a = Ok e \/ unary (tok_loc file tk) (Some TInt) U_arrlen a = Ok e)
      by (destruct (e_typ a) as [[]|]; auto).
    destruct Y as [Y|Y]; apply of_static_ok in Y; unfold mk_unary in Y; stat Y; injection Y as <-; facts;
      [eapply wt_strlen|eapply wt_arrlen]; eauto. }
  assert (Bin : forall op a b, es = [a; b] -> In op [B_starts; B_ends] -> binary G (tok_loc file tk) (Some TBool) op a b = Ok e -> wt S e).
  { intros op a b -> O X. eapply binary_typed with (op := op); [apply We; left; eauto|apply We; right; left; eauto| |].
    - destruct O as [<-|[<-|[]]]; cbn; auto 20.
    - rewrite bool_type; eauto. destruct O as [<-|[<-|[]]]; cbn; auto 20. }
  assert (Rx : forall a b, es = [a; b] -> (do _ <- of_static (ensure_class b is_string) ;
      do v <- of_eval (evaluate W None b) ;
      match v_val v with
      | Some (PStr p, (TStr | TMarkup)) =>
          if compiles p then binary G (tok_loc file tk) (Some TBool) B_regex a b else Err (E_msg (v_loc v) M_regex)
      | _ => Crash
      end) = Ok e -> wt S e).
  { intros a b -> X. apply bind_ok in X as (u & _ & X). apply bind_ok in X as (v & Hv & X).
    assert (Ev : evaluate W None b = Ok v).
    { destruct (evaluate W None b) as [|[? p]| |]; cbn in Hv; try discriminate; [congruence|destruct (internal p); discriminate]. }
    destruct v as [l' [[p ty]|]]; cbn in X; [|discriminate]. destruct p as [| |p| | | | |]; try discriminate.
    destruct (compiles p) eqn:C; [|destruct ty; discriminate].
    assert (Y : binary G (tok_loc file tk) (Some TBool) B_regex a b = Ok e) by (destruct ty; try discriminate; auto). clear X.
    apply of_static_ok in Y. unfold mk_binary in Y. apply bind_ok in Y as (w & Y & Z). injection Z as <-.
    apply strings_ok in Y as (s & s' & I1 & I2 & E1 & E2).
    eapply wt_regex; [exact I1|exact I2|exact E1|exact E2|apply We; left; auto|apply We; right; left; auto|exact Ev|].
    intros x. eapply dc_regex; eauto. }
  unfold call in H. destruct c as [[]| | ]; destruct es as [|a [|b [|]]]; try discriminate;
    try (eapply Len; eauto; fail); try (eapply Rx; eauto; fail);
    try (eapply One; eauto; cbn; auto; fail); try (eapply Bin; eauto; cbn; auto; fail);
    apply of_static_ok in H; unfold mk_oneof in H; apply bind_ok in H as (u & Hb & H); injection H as <-; constructor; auto;
    eapply booleans_ok; eauto.
Qed.

Lemma resolve_typed sc S tk sels e tk' sels' : agree sc S -> resolve file N sc tk sels = Ok (e, tk', sels') ->
  denotes S (tok_text tk') e /\ incl sels' sels.
Proof.
  intros A H. unfold resolve in H. apply bind_ok in H as (sym & Hs & H).
  destruct sym as [| |p| | |]; try (injection H as <- <- <-; split; [eapply A; eauto|apply incl_refl]).
  destruct (is_visible N p); [|destruct (hidden_not _ _ _ H)]. destruct sels as [|[tk2 [|]] sels]; try discriminate.
  apply bind_ok in H as (e' & He & H). injection H as <- <- <-. split; [|apply incl_tl; apply incl_refl].
  apply t_lookup_in in He. apply p_symbols_global in He. destruct e'; try discriminate; exact I.
Qed.

Theorem elab_typed_all :
  (forall lv r ts, syn lv r ts -> forall sc S e, agree sc S -> elab sc r = Ok e -> wt S e) /\
  (forall sels ts, syn_sels sels ts -> forall sc S, agree sc S ->
     forall tk i e, In (tk, Some i) sels -> elab sc i = Ok e -> wt S e) /\
  (forall args ts, syn_args args ts -> forall sc S, agree sc S -> forall i e, In i args -> elab sc i = Ok e -> wt S e) /\
  (forall more ts, syn_more more ts -> forall sc S, agree sc S ->
     forall c x, In (c, x) more -> (forall e, elab sc c = Ok e -> wt S e) /\ (forall e, elab sc x = Ok e -> wt S e)).
Proof.
  assert (Bin : forall sc S tk op a b e, agree sc S ->
            (forall sc S e, agree sc S -> elab sc a = Ok e -> wt S e) ->
            (forall sc S e, agree sc S -> elab sc b = Ok e -> wt S e) ->
            In op [B_and; B_or; B_xor; B_implies; B_eq; B_neq; B_lt; B_leq; B_gt; B_geq; B_contains; B_starts; B_ends;
         B_arrcontains; B_plus; B_minus; B_times; B_div; B_rem] ->
            elab sc (R_binary tk op a b) = Ok e -> wt S e).
  { intros sc S tk op a b e A Ha Hb O H. cbn [ExprSyntax.elab] in H.
    apply bind_ok in H as (x & Hx & H). apply bind_ok in H as (y & Hy & H).
    assert (Y : binary G (tok_loc file tk) (result_type op x) op x y = Ok e).
    { destruct op; auto. cbn in O. exfalso. decompose [or] O; solve [discriminate|contradiction]. }
    eapply binary_typed; [| |exact O|exact Y]; eauto. }
  assert (Un : forall sc S tk op a e, agree sc S ->
            (forall sc S e, agree sc S -> elab sc a = Ok e -> wt S e) ->
            In op [U_minus; U_plus; U_abs; U_not] -> elab sc (R_unary tk op a) = Ok e -> wt S e).
  { intros sc S tk op a e A Ha O H. cbn [ExprSyntax.elab] in H. apply bind_ok in H as (x & Hx & H).
    eapply unary_typed; eauto. }
  assert (Neg : forall S neg x e, wt S x -> negated file neg x = Ok e -> wt S e).
  { intros S [tk|] x e Wx H; cbn in H; [eapply not_typed; eauto|injection H as <-; auto]. }
  apply syn_ind4; intros; eauto;
    try match goal with
        | H : elab _ (R_binary _ _ _ _) = Ok _ |- _ => 
          refine (Bin _ _ _ _ _ _ _ _ _ _ _ H); [assumption|assumption|assumption|];
          try match goal with H : comparison _ _ |- _ => destruct H end;
          try match goal with H : adding _ _ |- _ => destruct H end;
          try match goal with H : multiplying _ _ |- _ => destruct H end; cbn; tauto
        | H : elab _ (R_unary _ _ _) = Ok _ |- _ =>
          refine (Un _ _ _ _ _ _ _ _ _ H); [assumption|assumption|];
          try match goal with H : sign _ _ |- _ => destruct H end; cbn; tauto
        end.
  - (* member *)
    cbn [ExprSyntax.elab] in *.
    match goal with H : bind _ _ = Ok _ |- _ => rename H into HH end.
    apply bind_ok in HH as (x' & Hx & HH). apply bind_ok in HH as (a' & Ha & HH). apply bind_ok in HH as (m & Hm & HH).
    eapply Neg; [|exact HH]. unfold member_test in Hm.
    assert (X : binary G (tok_loc file tk) (Some TBool) B_contains x' a' = Ok m \/
                binary G (tok_loc file tk) (Some TBool) B_arrcontains x' a' = Ok m)
      by (destruct (e_typ a') as [[]|]; try discriminate; auto).
    destruct X as [X|X]; [apply (binary_typed S (tok_loc file tk) B_contains x' a')|apply (binary_typed S (tok_loc file tk) B_arrcontains x' a')];
      eauto; cbn; tauto.
  - (* range *)
    cbn [ExprSyntax.elab] in *.
    match goal with H : bind _ _ = Ok _ |- _ => rename H into HH end.
    apply bind_ok in HH as (x' & Hx & HH). apply bind_ok in HH as (a' & Ha & HH). apply bind_ok in HH as (b' & Hb & HH).
    apply bind_ok in HH as (m & Hm & HH). eapply Neg; [|exact HH].
    apply of_static_ok in Hm. unfold mk_range in Hm. apply bind_ok in Hm as (? & E1 & Hm).
    apply bind_ok in Hm as (? & E2 & Hm). apply bind_ok in Hm as (? & E3 & Hm). injection Hm as <-.
    apply class_ok in E1 as (n & E1 & F1). apply type_ok in E2 as (E2 & _). apply type_ok in E3 as (E3 & _).
    eapply wt_range; [apply numeric_in; exact F1| | | | | |]; eauto; congruence.
  - (* power *)
    cbn [ExprSyntax.elab] in *.
    match goal with H : bind _ _ = Ok _ |- _ => rename H into HH end.
    apply bind_ok in HH as (x' & Hx & HH). apply bind_ok in HH as (a' & Ha & HH). eapply power_typed; [| |exact HH]; eauto.
  - (* literal *)
    cbn [ExprSyntax.elab] in *.
    match goal with H : Ok (literal_meaning _ _) = Ok _ |- _ => injection H as <- end.
    unfold literal_meaning. destruct (tk_kind tk), (tk_value tk); try constructor.
    destruct (text_eqb _ _); [constructor|]. destruct (text_eqb _ _); constructor.
  - (* name *)
    cbn [ExprSyntax.elab] in *.
    match goal with H : name_meaning _ _ _ _ _ _ _ = Ok _ |- _ => rename H into HH end.
    unfold name_meaning in HH. apply bind_ok in HH as ([[en tk'] sels'] & Hr & HH).
    eapply resolve_typed in Hr as [D I]; [|eassumption].
    apply bind_ok in HH as (h & Hh & HH).
    assert (Ix : forall tk r i, In (tk, Some r) sels' -> r = Ok i -> wt S i).
    { intros tk0 r0 i I0 ->. apply I in I0. apply in_map_iff in I0 as ([k [j|]] & E & I0); cbn in E; [|discriminate].
      injection E as <- E. eauto. }
    destruct h as [j|c|nm].
    + destruct sels' as [|[tk1 [|]] [|]]; try discriminate. unfold enum_literal in HH.
      apply bind_ok in HH as (nn & _ & HH). injection HH as <-. constructor.
    + discriminate.
    + eapply select_typed; [exact Ix| |exact HH]. unfold classify in Hh.
      destruct en as [ty| | | |c|n a]; cbn in Hh, D; try discriminate.
      * destruct ty; discriminate.
      * destruct D as [Dn D]. injection Hh as <-. constructor. congruence.
      * destruct D as [Dn D]. injection Hh as <-. constructor. congruence.
  - (* call *)
    cbn [ExprSyntax.elab] in *.
    match goal with H : bind _ _ = Ok _ |- _ => rename H into HH end.
    apply bind_ok in HH as (c & _ & HH). apply bind_ok in HH as (es & He & HH).
    eapply call_typed; [|exact HH]. intros x I. eapply all_of_in in I; [|exact He].
    apply in_map_iff in I as (i & Ei & I). eauto.
  - (* quantifier *)
    cbn [ExprSyntax.elab] in *.
    match goal with H : bind _ _ = Ok _ |- _ => rename H into HH end.
    apply bind_ok in HH as (u & _ & HH). apply bind_ok in HH as ([c el] & Hc & HH). apply bind_ok in HH as (b & Hb & HH).
    apply of_static_ok in HH. unfold mk_quant in HH. apply bind_ok in HH as (u' & Hu & HH). injection HH as <-.
    apply class_ok in Hu as (x & Eb & Fb). apply boolean_is in Fb. subst x.
    unfold quantified_source in Hc. apply bind_ok in Hc as (en & He & Hc). destruct en as [| | | |c'|]; try discriminate.
    destruct (c_typ c') eqn:Ct; try discriminate. injection Hc as <- <-.
    match goal with A : agree _ _ |- _ => pose proof (A _ _ _ He) as [Dn D] end.
    eapply wt_quant; [exact Ct| |exact Eb|].
    + rewrite Dn. exact D.
    + cbn [fst snd] in *. match goal with H : forall sc S e, agree sc S -> _ |- _ => eapply H; [|exact Hb] end.
      apply agree_quant. auto.
  - (* conditional *)
    cbn [ExprSyntax.elab] in *.
    match goal with H : bind _ _ = Ok _ |- _ => rename H into HH end.
    apply bind_ok in HH as (c' & Hc & HH). apply bind_ok in HH as (x' & Hx & HH). apply bind_ok in HH as (a' & Ha & HH).
    apply bind_ok in HH as (l & Hl & HH). apply bind_ok in HH as (y' & Hy & HH). apply bind_ok in HH as (y2 & Hy2 & HH).
    injection HH as <-.
    apply of_static_ok in Hy2. unfold mk_else in Hy2. apply bind_ok in Hy2 as (u & Hu & Hy2). injection Hy2 as <-.
    apply type_ok in Hu as (Ey & a0 & Ex).
    unfold first_action in Ha. rewrite Ex in Ha. apply of_static_ok in Ha. unfold mk_action in Ha.
    apply bind_ok in Ha as (u1 & Hu1 & Ha). injection Ha as <-. apply class_ok in Hu1 as (b0 & Ec & Fb). apply boolean_is in Fb. subst b0.
    assert (L : forall c1 x1, In (c1, x1) l -> e_typ c1 = Some TBool /\ e_typ x1 = Some a0 /\ wt S c1 /\ wt S x1).
    { intros c1 x1 I. eapply all_of_in in I; [|exact Hl]. apply in_map_iff in I as ([rc rx] & E & I).
      apply in_map_iff in I as ([c2 x2] & E2 & I). injection E2 as <- <-. unfold elsif_meaning in E. cbn [fst snd] in E.
      apply bind_ok in E as (c3 & Ec3 & E). apply bind_ok in E as (x3 & Ex3 & E). apply of_static_ok in E.
      unfold mk_elsif, mk_action in E. apply bind_ok in E as (act & E1 & E). apply bind_ok in E1 as (u2 & E3 & E1).
      injection E1 as <-. apply bind_ok in E as (u3 & E4 & E). injection E as <- <-.
      apply class_ok in E3 as (b1 & E3 & F3). apply boolean_is in F3. subst b1. apply type_ok in E4 as (E4 & _).
      match goal with H : forall sc S, agree sc S -> forall c x, In (c, x) more -> _ |- _ =>
        destruct (H _ _ ltac:(eassumption) c2 x2 I) as [W1 W2] end.
      split; auto. split; [congruence|]. split; auto. }
    apply (wt_cond _ _ _ _ _ _ _ a0); try discriminate.
    + intros c1 x1 [E|I]; [injection E as <- <-; split; auto; congruence|]. apply L in I. tauto.
    + congruence.
    + intros c1 x1 [E|I]; [injection E as <- <-; split; eauto|]. apply L in I. tauto.
    + eauto.
  - contradiction.
  - match goal with H : In _ _ |- _ => destruct H as [E|I]; [discriminate|eauto] end.
  - match goal with H : In _ _ |- _ => destruct H as [E|I]; [injection E as <- <-; eauto|eauto] end.
  - contradiction.
  - match goal with H : In _ _ |- _ => destruct H as [<-|[]]; eauto end.
  - match goal with H : In _ _ |- _ => destruct H as [<-|I]; eauto end.
  - contradiction.
  - match goal with H : In _ _ |- _ => destruct H as [E|I]; [injection E as <- <-; split; eauto|eauto] end.
Qed.

Theorem elab_typed lv r ts sc S e : syn lv r ts -> agree sc S -> elab sc r = Ok e -> wt S e.
Proof. intros H. destruct elab_typed_all as [A _]. eapply A; eauto. Qed.

Theorem parsed_typed n sc S s e s' : agree sc S ->
  parse_expression file lint G W compiles N n sc s = POk e s' -> wt S e.
Proof.
  intros A H. apply parse_expression_sound in H as (r & ts & Sy & _ & E). eapply elab_typed; eauto.
Qed.

(** *** The scope of a check block *)
Definition type_comps (a : ty) : list component :=
  match a with
  | TRec r => all_components G r
  | TTup u => match tup G u with Some ut => u_comps ut | None => [] end
  | _ => []
  end.
Definition type_scope (a : ty) : Typing.scope := map (fun c => (c_name c, (c_typ c, c_opt c))) (type_comps a).
(** parser.py:1554-1557 *)
Definition check_scope (a : ty) : nscope :=
  [map (fun x => (fst x, N_comp (snd x))) (components_of G a); p_symbols N (n_current N); n_stab N].

Lemma chain_all f r c : (r <= f)%nat -> In c (chain_steps G f r) -> In c (all_components_steps G f r).
Proof.
  revert r. induction f as [|f IH]; intros r L; cbn; unfold rec; destruct (nth_error (recs G) r) as [rt|] eqn:E; try contradiction.
  - destruct (r_parent rt) as [q|] eqn:P; [|rewrite app_nil_r; auto].
    assert (q < r)%nat by (eapply (dc_order _ _ _ _ dc); eexists; eauto). lia.
  - destruct (r_parent rt) as [q|] eqn:P; [|rewrite app_nil_r; auto].
    assert (q < r)%nat by (eapply (dc_order _ _ _ _ dc); eexists; eauto). intros I. apply in_app_or in I as [I|I]; apply in_or_app; auto.
    left. apply IH; auto. lia.
Qed.
Lemma type_comps_distinct a : NoDup (map c_name (type_comps a)).
Proof.
  destruct a; try constructor; cbn.
  - unfold tup. destruct (nth_error (tups G) u) as [ut|] eqn:E; [eapply dc_tup; eauto|constructor].
  - apply (dc_rec _ _ _ _ dc).
Qed.
Lemma agree_check a : agree (check_scope a) (type_scope a).
Proof.
  intros tk r e H. unfold check_scope in H. cbn [s_lookup] in H.
  destruct (t_contains _ (tok_text tk)).
  - apply t_lookup_in in H. apply in_map_iff in H as ([k c] & E & I). cbn in E. injection E as <- <-.
    unfold components_of in I. apply in_map_iff in I as (c' & E & I). injection E as E <-.
    assert (J : In c' (type_comps a)).
    { destruct a; try contradiction; cbn; auto. apply chain_all; auto. }
    cbn. split; auto. apply in_assoc.
    + unfold type_scope. rewrite map_map. apply type_comps_distinct.
    + unfold type_scope. apply in_map_iff. exists c'. rewrite E. auto.
  - assert (K : global e = true).
    { destruct (t_contains _ (tok_text tk)); apply t_lookup_in in H; [eapply p_symbols_global | eapply dc_stab]; eauto. }
    destruct e; try discriminate; exact I.
Qed.
End TYPED.
