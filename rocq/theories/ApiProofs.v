(** What the Python API shows of values. *)
From Coq Require Import QArith Qabs.
From Verif Require Import Base Lexer SymTab Ast Eval Typing TypesProofs EvalSpec EvalSpecProofs Soundness ParserBase ParserProofs ParserDecl Process Api.
From Coq Require Import ZifyBool ZifyNat ZifyN.
Open Scope Z_scope.

(** ** Specification *)

(** The name of an object: the package, a dot, and the name in the package. *)
Definition full_name (v : env) (o : nat) (s : text) : Prop :=
  exists ob k, nth_error (v_objs v) o = Some ob /\ In (k, N_pkg (o_pkg ob)) (v_stab v) /\ s = k ++ t "." ++ o_name ob.

(** The Python object that stands for a value.  Enumeration literals and
    references are shown as strings. *)
Inductive shown (v : env) : option sval -> pyobj -> Prop :=
| sh_null : shown v None PyNone
| sh_int z : shown v (Some (SInt z)) (PyInt z)
| sh_dec q q' : (q == q')%Q -> shown v (Some (SDec q)) (PyFloat q')
| sh_str s : shown v (Some (SStr s)) (PyStr s)
| sh_bool b : shown v (Some (SBool b)) (PyBool b)
| sh_enum e n : shown v (Some (SEnum e n)) (PyStr n)
| sh_arr xs ps : Forall2 (fun x p => shown v (Some x) p) xs ps -> shown v (Some (SArr xs)) (PyList ps)
| sh_tup xs ps : Forall2 (fun x p => fst x = fst p /\ shown v (snd x) (snd p)) xs ps -> shown v (Some (STup xs)) (PyDict ps)
| sh_obj o s : full_name v o s -> shown v (Some (SObj o)) (PyStr s).

(** Values with a decimal number that no double is close to. *)
Inductive huge : option sval -> Prop :=
| hg_dec q : (inject_Z (2 ^ 1024 - 2 ^ 970) <= Qabs q)%Q -> huge (Some (SDec q))
| hg_arr xs x : In x xs -> huge (Some x) -> huge (Some (SArr xs))
| hg_tup xs k x : In (k, x) xs -> huge x -> huge (Some (STup xs)).

(** ** Proofs *)
Lemma overflow_huge q : float_overflow q = true <-> (inject_Z (2 ^ 1024 - 2 ^ 970) <= Qabs q)%Q.
Proof.
  unfold float_overflow. set (m := 2 ^ 1024 - 2 ^ 970). clearbody m. destruct q as [n d]. cbn [Qnum Qden].
  unfold Qabs, Qle, inject_Z. cbn [Qnum Qden]. rewrite Z.mul_1_r. apply Z.leb_le.
Qed.
Lemma huge_minus q : huge (Some (SDec (- q))) <-> huge (Some (SDec q)).
Proof.
  split; intros H; inversion H; subst; constructor.
  - rewrite Qabs_opp in *. auto.
  - rewrite Qabs_opp. auto.
Qed.

Section API.
Variable v : env.
Variable matches : text -> text -> option bool.
Notation G := (v_types v).
Notation W := (World (v_objs v) matches).
Hypothesis objects : forall o ob, nth_error (v_objs v) o = Some ob -> exists k, In (k, N_pkg (o_pkg ob)) (v_stab v).

Lemma name_full o ob : nth_error (v_objs v) o = Some ob -> full_name v o (fully_qualified_name v ob).
Proof.
  intros E. exists ob, (package_name (v_stab v) (o_pkg ob)). split; auto. split; auto.
  destruct (objects o ob E) as (k & I). unfold package_name.
  destruct (find _ (v_stab v)) as [[k' e]|] eqn:F.
  - apply find_some in F as [J F]. cbn in F. destruct e; try discriminate. apply Nat.eqb_eq in F. subst. auto.
  - eapply List.find_none in F; eauto. cbn in F. rewrite Nat.eqb_refl in F. discriminate.
Qed.

(** Either the value is shown, or it is huge. *)
Definition answer {A} (r : res unit A) (good : A -> Prop) (bad : Prop) : Prop :=
  (exists a, r = Ok a /\ good a /\ ~ bad) \/ (r = Crash /\ bad).

Lemma literal_answer k : answer (literal_object k) (shown v (Some (of_lit k))) (huge (Some (of_lit k))).
Proof.
  destruct k; cbn; try (left; eexists; split; [reflexivity|]; split; [constructor|intros H; inversion H]).
  unfold py_float. destruct (float_overflow q) eqn:O.
  - right. split; auto. constructor. apply overflow_huge. auto.
  - left. eexists. split; [reflexivity|]. split; [constructor; reflexivity|]. intros H. inversion H; subst. apply overflow_huge in H1. congruence.
Qed.

Definition show_list : list vexpr -> res unit (list pyobj) :=
  fix go (xs : list vexpr) : res unit (list pyobj) :=
    match xs with
    | [] => Ok []
    | x :: xs' => do p <- to_python_object v x ; do ps <- go xs' ; Ok (p :: ps)
    end.
Definition show_fields : list (text * vexpr) -> res unit (list (text * pyobj)) :=
  fix go (xs : list (text * vexpr)) : res unit (list (text * pyobj)) :=
    match xs with
    | [] => Ok []
    | (k, x) :: xs' => do p <- to_python_object v x ; do ps <- go xs' ; Ok ((k, p) :: ps)
    end.

Lemma value_answer x : forall a s, vt G W a x -> stores x (Some s) -> answer (to_python_object v x) (shown v (Some s)) (huge (Some s)).
Proof.
  induction x using vexpr_ind2; intros a0 s V S; inversion S; subst.
  - apply literal_answer.
  - inversion V; subst. match goal with H : stores (XLit _ _ _) _ |- _ => inversion H; subst end.
    match goal with H : lit_typ ?k = _ \/ _ |- _ => rename H into Lk; destruct k as [z|q|? []| |]; cbn in Lk; try (destruct Lk; discriminate) end.
    all: match goal with H : ?o = U_minus \/ _ |- _ => destruct H; subst o end.
    all: match goal with H : op_unary _ _ _ |- _ => inversion H; subst end; cbn.
    1, 2: left; eexists; (split; [reflexivity|]); (split; [constructor|intros H; inversion H]).
    all: destruct (literal_answer (LDec q)) as [(p & E & Sh & Nh)|[E Hg]]; cbn in E; rewrite E; cbn; [left|right; split; auto].
    + unfold py_float in E. destruct (float_overflow q); [discriminate|]. injection E as <-. cbn. eexists. split; [reflexivity|].
      split; [constructor; reflexivity|]. rewrite huge_minus. auto.
    + apply huge_minus. auto.
    + eauto.
  - inversion V; subst. match goal with H : Forall2 _ vs xs |- _ => rename H into F end. match goal with H : forall v, In v vs -> vt _ _ _ v |- _ => rename H into T end.
    change (answer (do ps <- show_list vs ; Ok (PyList ps)) (shown v (Some (SArr xs))) (huge (Some (SArr xs)))).
    assert (L : answer (show_list vs) (fun ps => Forall2 (fun x p => shown v (Some x) p) xs ps) (exists x, In x xs /\ huge (Some x))).
    { clear V S. revert H T. induction F as [|x y vs xs Sx F IH]; intros H T; cbn [show_list].
      - left. exists []. split; auto. split; [constructor|]. intros (? & [] & _).
      - destruct (H x (or_introl eq_refl) el y (T x (or_introl eq_refl)) Sx) as [(p & E & Sh & Nh)|[E Hg]]; rewrite E; cbn [bind].
        + destruct IH as [(ps & E' & Sh' & Nh')|[E' Hg']]; [intros; eapply H; eauto with datatypes|auto with datatypes| |]; cbn in E'; rewrite E'; cbn [bind].
          * left. eexists. split; [reflexivity|]. split; [constructor; auto|]. intros (z & [<-|I] & Hz); eauto.
          * right. split; auto. destruct Hg' as (z & I & Hz). exists z. auto with datatypes.
        + right. split; auto. exists y. auto with datatypes. }
    destruct L as [(ps & E & Sh & Nh)|(E & y & I & Hy)]; rewrite E; cbn [bind].
    + left. eexists. split; [reflexivity|]. split; [constructor; auto|]. intros Hg. inversion Hg; subst. eauto.
    + right. split; auto. econstructor; eauto.
  - inversion V; subst. match goal with H : Forall2 _ vs xs |- _ => rename H into F end. match goal with H : tup_fields _ _ _ vs |- _ => rename H into T end.
    change (answer (do ps <- show_fields vs ; Ok (PyDict ps)) (shown v (Some (STup xs))) (huge (Some (STup xs)))).
    assert (L : answer (show_fields vs) (fun ps => Forall2 (fun x p => fst x = fst p /\ shown v (snd x) (snd p)) xs ps) (exists k x, In (k, x) xs /\ huge x)).
    { clear V S. revert H T. generalize (u_comps ut) as cs. induction F as [|[k x] [k' y] vs xs [Ek Sx] F IH]; intros cs H T; cbn [show_fields].
      - left. exists []. split; auto. split; [constructor|]. intros (? & ? & [] & _).
      - cbn in Ek, Sx. subst k'.
        assert (A : answer (to_python_object v x) (shown v y) (huge y)).
        { inversion T; subst.
          - destruct y as [y|]; [eapply H; eauto with datatypes|]. inversion Sx; subst. match goal with X : vt _ _ _ (XNull _) |- _ => inversion X end.
          - inversion Sx; subst. left. exists PyNone. split; auto. split; [constructor|]. intros X. inversion X. }
        assert (T' : exists cs', tup_fields G W cs' vs) by (inversion T; subst; eauto). destruct T' as (cs' & T').
        destruct A as [(p & E & Sh & Nh)|[E Hg]]; rewrite E; cbn [bind].
        + destruct (IH cs') as [(ps & E' & Sh' & Nh')|[E' Hg']]; [intros; eapply H; eauto with datatypes|auto| |]; cbn in E'; rewrite E'; cbn [bind].
          * left. eexists. split; [reflexivity|]. split; [constructor; auto|]. intros (k' & z & [X|I] & Hz); [injection X as <- <-; auto|eauto].
          * right. split; auto. destruct Hg' as (k' & z & I & Hz). exists k', z. auto with datatypes.
        + right. split; auto. exists k, y. auto with datatypes. }
    destruct L as [(ps & E & Sh & Nh)|(E & k & y & I & Hy)]; rewrite E; cbn [bind].
    + left. eexists. split; [reflexivity|]. split; [constructor; auto|]. intros Hg. inversion Hg; subst. eauto.
    + right. split; auto. econstructor; eauto.
  - left. cbn. inversion V; subst; match goal with H : nth_error (w_objs _) _ = Some ?ob |- _ => cbn in H; rewrite H; eexists; (split; [reflexivity|]); (split; [constructor; eapply name_full; eauto|]); intros X; inversion X end.
Qed.
Lemma fits_answer a opt x s : fits G W a opt x -> stores x s -> answer (to_python_object v x) (shown v s) (huge s).
Proof.
  intros [V|(_ & l & ->)] S.
  - destruct s as [s|]; [eapply value_answer; eauto|]. inversion S; subst. inversion V.
  - inversion S; subst. left. exists PyNone. split; auto. split; [constructor|]. intros X. inversion X.
Qed.

(** ** Different values are shown differently *)
Inductive kind : ty -> sval -> Prop :=
| kd_int z : kind TInt (SInt z)
| kd_dec q : kind TDec (SDec q)
| kd_bool b : kind TBool (SBool b)
| kd_str s : kind TStr (SStr s)
| kd_markup s : kind TMarkup (SStr s)
| kd_enum e n : kind (TEnum e) (SEnum e n)
| kd_arr i lo hi el xs : (forall x, In x xs -> kind el x) -> kind (TArr i lo hi el) (SArr xs)
| kd_tup u ut xs : nth_error (tups G) u = Some ut ->
    Forall2 (fun c f => forall y, snd f = Some y -> kind (c_typ c) y) (u_comps ut) xs -> kind (TTup u) (STup xs)
| kd_rec r o : kind (TRec r) (SObj o)
| kd_union i ms o : kind (TUnion i ms) (SObj o).

Lemma vt_kind x : forall a s, vt G W a x -> stores x (Some s) -> kind a s.
Proof.
  induction x using vexpr_ind2; intros a0 s V S; inversion S; subst.
  - inversion V; subst. destruct k as [| |? []| |]; constructor.
  - inversion V; subst. match goal with H : stores (XLit _ _ _) _ |- _ => inversion H; subst end.
    match goal with H : lit_typ ?k = _ \/ _ |- _ => rename H into Lk; destruct k as [z|q|? []| |]; cbn in Lk; try (destruct Lk; discriminate) end.
    all: match goal with H : ?o = U_minus \/ _ |- _ => destruct H; subst o end.
    all: match goal with H : op_unary _ _ _ |- _ => inversion H; subst end; constructor.
  - inversion V; subst. constructor. intros y I. destruct (Forall2_in_r _ _ _ _ ltac:(eassumption) I) as (x & J & Sx). eauto.
  - inversion V; subst. econstructor; [eassumption|]. match goal with H : Forall2 _ vs xs |- _ => rename H into F end. match goal with H : tup_fields _ _ _ vs |- _ => rename H into T end.
    clear V S. revert H T. generalize (u_comps ut) as cs. induction F as [|[k x] [k' y] vs xs [Ek Sx] F IH]; intros cs H T; inversion T; subst; constructor; cbn in *.
    + intros z ->. eauto.
    + eapply IH; eauto.
    + intros z ->. inversion Sx.
    + eapply IH; eauto.
  - inversion V; subst; constructor.
Qed.

Hypothesis distinct : forall o o' s, full_name v o s -> full_name v o' s -> o = o'.
Lemma shown_faithful s : forall a s' p, kind a s -> kind a s' -> shown v (Some s) p -> shown v (Some s') p -> same s s'.
Proof.
  induction s using sval_ind2; intros a s' p K K' S S'; inversion S; subst; inversion S'; subst; inversion K; subst; inversion K'; subst; try (cbn; auto; fail).
  - cbn. match goal with H : (q == _)%Q |- _ => rewrite H end. symmetry. auto.
  - apply same_arr. match goal with A : Forall2 _ xs ps, B : Forall2 _ ?ys ps |- _ => rename A into F1; rename B into F2; rename ys into zs end.
    match goal with A : forall x, In x xs -> kind el x, B : forall x, In x zs -> kind el x |- _ => rename A into T1; rename B into T2 end.
    clear K K' S S'. revert H T1 T2. revert zs F2. induction F1 as [|x p xs ps Sx F IH]; intros zs F2; inversion F2; subst; intros H T1 T2; constructor.
    + eapply H; eauto with datatypes.
    + apply IH; eauto with datatypes.
  - apply same_tup. match goal with A : Forall2 _ xs ps, B : Forall2 _ ?ys ps |- _ => rename A into F1; rename B into F2; rename ys into zs end.
    match goal with A : nth_error _ u = Some ut, B : nth_error _ u = Some ?ut' |- _ => assert (ut' = ut) by congruence; subst ut' end.
    match goal with A : Forall2 _ (u_comps ut) xs, B : Forall2 _ (u_comps ut) zs |- _ => rename A into T1; rename B into T2 end.
    clear K K' S S'. revert H T1 T2. generalize (u_comps ut). revert zs F2. induction F1 as [|[k x] [k' p] xs ps [Ek Sx] F IH]; intros zs F2; inversion F2; subst; intros cs H T1 T2; constructor; cbn in *;
      inversion T1; subst; inversion T2; subst.
    + match goal with y : text * option sval |- _ => destruct y as [k'' y] end. cbn in *. match goal with X : _ = _ /\ shown v ?z p |- _ => destruct X as [E2 S2]; rename z into y end. split; cbn; [congruence|]. 
      destruct x as [x|], y as [y|]; cbn; auto.
      * eapply H; eauto.
      * inversion S2; subst. inversion Sx.
      * inversion Sx; subst. inversion S2.
    + eapply IH; eauto.
  - cbn. eapply distinct; eauto.
  - cbn. eapply distinct; eauto.
Qed.
Lemma faithful a x y s s' opt p : fits G W a opt x -> fits G W a opt y -> stores x s -> stores y s' -> shown v s p -> shown v s' p -> osame s s'.
Proof.
  intros Fx Fy Sx Sy S S'. destruct s as [s|], s' as [s'|]; cbn; auto.
  - destruct Fx as [Vx|(_ & l & ->)]; [|inversion Sx]. destruct Fy as [Vy|(_ & l & ->)]; [|inversion Sy]. eapply shown_faithful; eauto using vt_kind.
  - inversion S'; subst. inversion S.
  - inversion S; subst. inversion S'.
Qed.
End API.

(** ** Whole objects *)
Section OBJECT.
Variable v : env.
Lemma fields_answer fs : (forall k id x, In (k, (id, x)) fs -> exists s, stores x s /\ answer (to_python_object v x) (shown v s) (huge s)) ->
  (exists d, to_python_fields v fs = Ok d /\ Forall2 (fun f p => fst f = fst p /\ exists s, stores (snd (snd f)) s /\ shown v s (snd p) /\ ~ huge s) fs d) \/
  (to_python_fields v fs = Crash /\ exists k id x s, In (k, (id, x)) fs /\ stores x s /\ huge s).
Proof.
  induction fs as [|[k [id x]] fs IH]; intros H; cbn [to_python_fields].
  - left. exists []. split; auto.
  - destruct (H k id x (or_introl eq_refl)) as (s & Sx & [(p & E & Sh & Nh)|[E Hg]]); rewrite E; cbn [bind].
    + destruct IH as [(d & E' & F)|(E' & k' & id' & x' & s' & I & Sx' & Hg)]; [intros; eapply H; eauto with datatypes| |]; rewrite E'; cbn [bind].
      * left. eexists. split; [reflexivity|]. constructor; auto. cbn. eauto.
      * right. split; auto. exists k', id', x', s'. auto with datatypes.
    + right. split; auto. exists k, id, x, s. auto with datatypes.
Qed.
End OBJECT.
