(** Values of the language as values of the solver. *)
From Coq Require Import Relations Qcanon Qabs.
From Verif Require Import Base Lexer MathModel MathProofs Ast Eval TypesProofs Typing Soundness EvalSpec EvalSpecProofs EvalCorrect SemEval Vcg VcgSem.
Open Scope Z_scope.

Definition is_some {A} (o : option A) : bool := match o with Some _ => true | None => false end.

(** What a stored value is. *)
Fixpoint sval_of (v : vexpr) : option sval :=
  match v with
  | XNull _ => None
  | XLit _ k _ => Some (of_lit k)
  | XUnary _ _ op a =>
      match op, sval_of a with
      | U_minus, Some (SInt z) => Some (SInt (- z))
      | U_minus, Some (SDec q) => Some (SDec (- q))
      | _, s => s
      end
  | XArr _ _ vs => Some (SArr (map (fun v => match sval_of v with Some s => s | None => SBool false end) vs))
  | XTup _ _ vs => Some (STup (map (fun '(k, v) => (k, sval_of v)) vs))
  | XRef _ _ _ _ (Some o) => Some (SObj o)
  | XRef _ _ _ _ None => Some (SBool false)
  end.

Section ENC.
Variable G : types.
Variable W : world.
Variable junk : ty -> sv.

Lemma vt_stores a v : vt G W a v -> exists s, sval_of v = Some s /\ stores v (Some s).
Proof.
  revert a. induction v using vexpr_ind2; intros ty0 V; inversion V; subst.
  - eexists. split; [reflexivity|constructor].
  - match goal with H : lit_typ ?k = _ \/ _ |- _ => destruct k as [| |? []| |]; cbn in H; try (destruct H; discriminate) end;
      match goal with H : op = _ \/ _ |- _ => destruct H as [-> | ->] end; cbn; eexists; (split; [reflexivity|]); econstructor; econstructor.
  - cbn. eexists. split; [reflexivity|]. constructor. 
    match goal with H : forall v, In v vs -> vt _ _ _ v |- _ => rename H into F end. clear V.
    induction vs as [|v vs IH]; cbn; constructor.
    + destruct (H v (or_introl eq_refl) _ (F v (or_introl eq_refl))) as (s & -> & S). exact S.
    + apply IH; [intros v' I; apply H; right; exact I|intros v' I; apply F; right; exact I].
  - cbn. eexists. split; [reflexivity|]. constructor.
    match goal with H : tup_fields _ _ _ vs |- _ => rename H into F end. clear V. revert F. generalize (u_comps ut).
    induction vs as [|[k v] vs IH]; intros cs F; cbn; constructor; inversion F; subst; cbn.
    + split; auto. destruct (H _ v (or_introl eq_refl) _ ltac:(eassumption)) as (s & -> & S). exact S.
    + split; auto. constructor.
    + eapply IH; eauto with datatypes.
    + eapply IH; eauto with datatypes.
  - eexists. split; [reflexivity|constructor].
  - eexists. split; [reflexivity|constructor].
Qed.

(** Values of a type whose arrays are within their bounds; with [x], enumeration
    values are declared. *)
Inductive st (x : bool) : ty -> sval -> Prop :=
| st_int z : st x TInt (SInt z)
| st_dec q : st x TDec (SDec q)
| st_bool b : st x TBool (SBool b)
| st_str s : st x TStr (SStr s)
| st_markup s : st x TMarkup (SStr s)
| st_enum e n : (x = true -> exists en, nth_error (enums G) e = Some en /\ In n (en_lits en)) -> st x (TEnum e) (SEnum e n)
| st_tup u ut xs : tup G u = Some ut ->
    Forall2 (fun c f => fst f = c_name c /\ (forall y, snd f = Some y -> st x (c_typ c) y) /\ (snd f = None -> c_opt c = true)) (u_comps ut) xs ->
    st x (TTup u) (STup xs)
| st_rec r o ob : nth_error (w_objs W) o = Some ob -> fits_record G ob r -> st x (TRec r) (SObj o)
| st_union i ms o ob : nth_error (w_objs W) o = Some ob -> fits_union G ob ms -> st x (TUnion i ms) (SObj o)
| st_arr i lo hi el xs : Forall (st x el) xs -> lo <= Z.of_nat (List.length xs) ->
    (forall h, hi = Some h -> Z.of_nat (List.length xs) <= h) -> st x (TArr i lo hi el) (SArr xs).

Fixpoint enc (a : ty) (s : sval) {struct s} : sv :=
  match s with
  | SInt z => VInt z
  | SDec q => VReal (Q2Qc q)
  | SStr s => VStr s
  | SBool b => VBool b
  | SEnum e n => VEnum e n
  | SObj o => VInt (Z.of_nat o)
  | SArr xs => VSeq (map (enc match a with TArr _ _ _ el => el | _ => TBool end) xs)
  | STup xs =>
      VRec ((fix go (cs : list component) (xs : list (text * option sval)) {struct xs} : list (text * (sv * option bool)) :=
               match cs, xs with
               | c :: cs', (k, o) :: xs' =>
                   (c_name c, (match o with Some y => enc (c_typ c) y | None => junk (c_typ c) end,
                               if c_opt c then Some (is_some o) else None)) :: go cs' xs'
               | _, _ => []
               end) (match a with TTup u => match tup G u with Some ut => u_comps ut | None => [] end | _ => [] end) xs)
  end.
Definition enc_fields : list component -> list (text * option sval) -> list (text * (sv * option bool)) :=
  fix go (cs : list component) (xs : list (text * option sval)) {struct xs} : list (text * (sv * option bool)) :=
               match cs, xs with
               | c :: cs', (k, o) :: xs' =>
                   (c_name c, (match o with Some y => enc (c_typ c) y | None => junk (c_typ c) end,
                               if c_opt c then Some (is_some o) else None)) :: go cs' xs'
               | _, _ => []
               end.
Lemma enc_tup u ut xs : tup G u = Some ut -> enc (TTup u) (STup xs) = VRec (enc_fields (u_comps ut) xs).
Proof. intros E. cbn. rewrite E. reflexivity. Qed.

Lemma enc_same s : forall a s', same s s' -> enc a s = enc a s'.
Proof.
  induction s using sval_ind2; intros a s' Sm; destruct s' as [| | | | |ys|ys|]; try contradiction Sm; cbn in Sm; cbn [enc]; try congruence.
  - f_equal. apply Q2Qc_eq_iff. auto.
  - destruct Sm; congruence.
  - f_equal. apply (same_arr xs ys) in Sm. induction Sm as [|x y xs ys Sxy F IH]; cbn; auto. f_equal; [apply H; auto with datatypes|]. apply IH. intros; apply H; auto with datatypes.
  - f_equal. apply (same_tup xs ys) in Sm. generalize (match a with TTup u => match tup G u with Some ut => u_comps ut | None => [] end | _ => [] end).
    induction Sm as [|[k x] [k' y] xs ys [E O] F IH]; intros cs; destruct cs as [|c cs]; cbn; auto. cbn in E, O. subst k'.
    f_equal; [|apply IH; intros; eapply H; eauto with datatypes]. do 2 f_equal.
    + destruct x, y; cbn in O; try contradiction; auto. eapply H; eauto with datatypes.
    + destruct x, y; cbn in O; try contradiction; auto.
Qed.

Definition refs (a : ty) : Prop := members a <> None.
Lemma st_ref x a s : st x a s -> refs a -> exists o, s = SObj o.
Proof. unfold refs. intros H R. inversion H; subst; eauto; destruct R; reflexivity. Qed.
Lemma ref_not_refs x a o : st x a (SObj o) -> refs a.
Proof. intros H. inversion H; subst; discriminate. Qed.

Lemma enc_inj s : forall x x' a b s', st x a s -> st x' b s' -> a = b \/ (refs a /\ refs b) -> enc a s = enc b s' -> same s s'.
Proof.
  induction s using sval_ind2; intros x0 x' a b0 s' T T' C E.
  1,2,3,4,5: destruct C as [<-|[Ra Rb]]; [|destruct (st_ref _ _ _ T Ra); discriminate];
    inversion T; subst; inversion T'; subst; cbn in E |- *; try congruence.
  - apply Q2Qc_eq_iff. congruence.
  - split; congruence.
  - destruct C as [<-|[Ra Rb]]; [|destruct (st_ref _ _ _ T Ra); discriminate].
    inversion T; subst. inversion T'; subst. cbn in E. injection E as E. apply (same_arr xs xs0).
    repeat match goal with F : Forall _ _ |- _ => revert F end. clear - H E. revert xs0 E. induction xs as [|x xs IH]; intros [|y ys] E F F'; try discriminate; constructor.
    + inversion F; subst. inversion F'; subst. cbn in E. injection E as E1 E2. eapply H; eauto with datatypes.
    + inversion F; subst. inversion F'; subst. cbn in E. injection E as E1 E2. apply IH; auto. intros; eapply H; eauto with datatypes.
  - destruct C as [<-|[Ra Rb]]; [|destruct (st_ref _ _ _ T Ra); discriminate].
    inversion T; subst. inversion T'; subst. match goal with A : tup G u = Some ?p, B : tup G u = Some ?q |- _ => assert (p = q) by congruence; subst; clear B; rename A into Eu end.
    rewrite !(enc_tup _ _ _ Eu) in E. injection E as E. apply (same_tup xs xs0).
    repeat match goal with F : Forall2 _ _ _ |- _ => revert F end. clear - H E. revert xs0 xs H E. generalize (u_comps ut0). induction l as [|c cs IH]; intros ys xs H E F F';
      inversion F as [|? y ? ys1 Hy F1]; subst; inversion F' as [|? y0 ? ys0 Hy0 F0]; subst; constructor.
    + destruct y, y0. cbn in *. injection E as E1 E2 E3. destruct Hy as (K & Sy & Ny), Hy0 as (K' & Sy' & Ny'). split; [cbn in *; congruence|]. cbn in *.
      destruct o as [y|], o0 as [y'|]; cbn; auto.
      * eapply H; eauto with datatypes.
      * rewrite Ny' in E2 by auto. discriminate.
      * rewrite Ny in E2 by auto. discriminate.
    + apply IH; auto. * intros; eapply H; eauto with datatypes.
      * destruct y, y0. cbn in E. injection E as _ _ E. exact E.
  - pose proof (ref_not_refs _ _ _ T) as Ra. assert (Rb : refs b0) by (destruct C as [<-|[]]; auto). destruct (st_ref _ _ _ T' Rb) as (o' & ->).
    cbn in E. cbn. injection E as E. lia.
Qed.

Lemma st_weaken x a s : st true a s -> st x a s.
Proof.
  revert a. induction s using sval_ind2; intros a T; inversion T; subst; try (econstructor; eauto; fail).
  - constructor; auto. repeat match goal with F : Forall _ _ |- _ => revert F end. clear - H. intros F. rewrite Forall_forall in *. auto.
  - econstructor; eauto. match goal with F : Forall2 _ _ _ |- _ => revert F end. clear - H. generalize (u_comps ut). intros cs F. induction F as [|c [k f] cs xs (K & Sf & Nf) F IH]; constructor.
    + split; auto. split; auto. cbn in *. intros y ->. eapply H; eauto with datatypes.
    + apply IH. intros; eapply H; eauto with datatypes.
Qed.

Lemma st_typed x a s b s' : st x a s -> same s s' -> a = b -> st x b s'.
Proof.
  intros T Sm <-. revert s' Sm. revert T. revert a. induction s using sval_ind2; intros a T s' Sm; inversion T; subst; destruct s' as [| | | | |ys|ys|]; try contradiction Sm; cbn in Sm; subst; try (econstructor; eauto; fail).
  - destruct Sm; subst. constructor. auto.
  - apply (same_arr xs ys) in Sm. assert (L := Forall2_length _ _ _ Sm). constructor; try rewrite <- L; auto.
    match goal with F : Forall _ _ |- _ => revert F end. clear - Sm H. intros F. induction Sm; constructor; inversion F; subst.
    + eapply H; eauto with datatypes.
    + apply IHSm; [intros y1 Iy b Tb z Syz; exact (H y1 (or_intror Iy) b Tb z Syz)|assumption].
  - apply (same_tup xs ys) in Sm. econstructor; eauto.
    match goal with F : Forall2 _ (u_comps ut) _ |- _ => revert F end. clear - Sm H. generalize (u_comps ut). intros cs F. revert ys Sm.
    induction F as [|c [k f] cs xs (K & Sf & Nf) F IH]; intros ys Sm; inversion Sm as [|? [k' f'] ? ? [Ek Ef] Sm']; subst; constructor.
    + cbn in *. split; [congruence|]. destruct f, f'; cbn in Ef; try contradiction; split; intros; try discriminate; auto.
      injection H0 as <-. eapply H; eauto with datatypes.
    + apply IH; auto. intros; eapply H; eauto with datatypes.
Qed.

Hypothesis junk_ok : forall a, usable G a -> of_sort G true a (junk a).
Hypothesis tup_usable : forall u ut c, tup G u = Some ut -> In c (u_comps ut) -> usable G (c_typ c).
Lemma sort_weaken x a v : of_sort G true a v -> of_sort G x a v.
Proof.
  revert a v. fix IH 3. intros a v T. destruct T as [| | | | |e n En|u ut fs Eu F| | |i lo hi el xs F].
  1,2,3,4,5,8,9: constructor.
  - constructor. auto.
  - econstructor; [exact Eu|]. clear Eu. revert F. generalize (u_comps ut). intros cs F. 
    induction F as [|c f cs fs (K & Sf & Of) F IHf]; constructor; [|exact IHf]. split; [exact K|]. split; [apply IH; exact Sf|exact Of].
  - constructor. induction F as [|y ys Sy F IHf]; constructor; [apply IH; exact Sy|exact IHf].
Qed.
Lemma enc_sort x s : forall a, st x a s -> of_sort G x a (enc a s).
Proof.
  induction s using sval_ind2; intros a T; inversion T; subst; cbn [enc]; try (constructor; auto; fail).
  - constructor. match goal with F : Forall _ _ |- _ => revert F end. clear - H. intros F. rewrite Forall_forall in *. intros y I. apply in_map_iff in I as (z & <- & I). auto.
  - match goal with H : tup G u = Some _ |- _ => rename H into Eu end. fold enc_fields. rewrite Eu. econstructor; [eauto|]. 
    assert (Us : forall c, In c (u_comps ut) -> usable G (c_typ c)) by eauto.
    match goal with F : Forall2 _ (u_comps ut) _ |- _ => revert F end. clear - H Us junk_ok. revert Us. generalize (u_comps ut). intros cs Us F.
    induction F as [|c [k f] cs xs (K & Sf & Nf) F IH]; cbn; constructor.
    + cbn in *. split; auto. split.
      * destruct f; [eapply H; eauto with datatypes|]. apply sort_weaken. apply junk_ok. auto.
      * destruct (c_opt c), f; cbn; split; congruence.
    + apply IH; [intros; eapply H; eauto with datatypes|intros; apply Us; right; assumption].
Qed.

(** ** Meanings in which conditional expressions are never null; all others are
    those of [sem]. *)
Inductive ssem : list (text * vexpr) -> expr -> option sval -> Prop :=
| ss_null d l : ssem d (ENull l) None
| ss_lit d l k : ssem d (ELit l k) (Some (of_lit k))
| ss_name d l a n qv opt v s : assoc n d = Some v -> stores v s -> ssem d (EName l a n qv opt) s
| ss_unary d l a op e x y : ssem d e (Some x) -> op_unary op x y -> ssem d (EUnary l a op e) (Some y)
| ss_and_stop d l a e f : ssem d e (Some (SBool false)) -> ssem d (EBinary l a B_and e f) (Some (SBool false))
| ss_and_go d l a e f y : ssem d e (Some (SBool true)) -> ssem d f (Some (SBool y)) ->
    ssem d (EBinary l a B_and e f) (Some (SBool y))
| ss_or_stop d l a e f : ssem d e (Some (SBool true)) -> ssem d (EBinary l a B_or e f) (Some (SBool true))
| ss_or_go d l a e f y : ssem d e (Some (SBool false)) -> ssem d f (Some (SBool y)) ->
    ssem d (EBinary l a B_or e f) (Some (SBool y))
| ss_implies_stop d l a e f : ssem d e (Some (SBool false)) ->
    ssem d (EBinary l a B_implies e f) (Some (SBool true))
| ss_implies_go d l a e f y : ssem d e (Some (SBool true)) -> ssem d f (Some (SBool y)) ->
    ssem d (EBinary l a B_implies e f) (Some (SBool y))
| ss_eq d l a e f x y r : ssem d e x -> ssem d f y -> (r = true <-> osame x y) ->
    ssem d (EBinary l a B_eq e f) (Some (SBool r))
| ss_neq d l a e f x y r : ssem d e x -> ssem d f y -> (r = true <-> ~ osame x y) ->
    ssem d (EBinary l a B_neq e f) (Some (SBool r))
| ss_binary d l a op e f x y z : strict_op op -> ssem d e (Some x) -> ssem d f (Some y) ->
    op_binary W (e_typ e) op x y z -> ssem d (EBinary l a op e f) (Some z)
| ss_tuple_field d l c p un uv xs s : ssem d p (Some (STup xs)) -> assoc (c_name c) xs = Some s ->
    ssem d (EField l c p un uv) s
| ss_record_field d l c p un uv o ob id v s : ssem d p (Some (SObj o)) -> nth_error (w_objs W) o = Some ob ->
    assoc (c_name c) (o_fields ob) = Some (id, v) -> stores v s -> ssem d (EField l c p un uv) s
| ss_union_null d l c p uv o ob : ssem d p (Some (SObj o)) -> nth_error (w_objs W) o = Some ob ->
    assoc (c_name c) (o_fields ob) = None -> ssem d (EField l c p true uv) None
| ss_range d l e lo hi x y z p q r b : ssem d e (Some x) -> ssem d lo (Some y) -> ssem d hi (Some z) ->
    number x p -> number y q -> number z r -> (b = true <-> (q <= p)%Q /\ (p <= r)%Q) ->
    ssem d (ERange l e lo hi) (Some (SBool b))
| ss_oneof d l es bs b : Forall2 (fun e x => ssem d e (Some (SBool x))) es bs ->
    (b = true <-> exists pre post, bs = pre ++ true :: post /\ ~ In true (pre ++ post)) ->
    ssem d (EOneof l es) (Some (SBool b))
| ss_cond_else d l els s : ssem d els (Some s) -> ssem d (ECond l [] els) (Some s)
| ss_cond_true d l c x acts els s : ssem d c (Some (SBool true)) -> ssem d x (Some s) ->
    ssem d (ECond l ((c, x) :: acts) els) (Some s)
| ss_cond_false d l c x acts els s : ssem d c (Some (SBool false)) -> ssem d (ECond l acts els) (Some s) ->
    ssem d (ECond l ((c, x) :: acts) els) (Some s)
| ss_quant_all d l un var ls src body l' a vs : assoc (c_name src) d = Some (XArr l' a vs) ->
    (forall v, In v vs -> ssem ((var, v) :: d) body (Some (SBool un))) ->
    ssem d (EQuant l un var ls src body) (Some (SBool un))
| ss_quant_stop d l un var ls src body l' a pre v post :
    assoc (c_name src) d = Some (XArr l' a (pre ++ v :: post)) ->
    (forall v, In v pre -> ssem ((var, v) :: d) body (Some (SBool un))) ->
    ssem ((var, v) :: d) body (Some (SBool (negb un))) ->
    ssem d (EQuant l un var ls src body) (Some (SBool (negb un))).

Lemma ssem_sem : forall d e s, ssem d e s -> sem W d e s.
Proof.
  fix IH 4. intros d e s X. destruct X;
    try (econstructor; eauto; fail).
  eapply sem_oneof; eauto. clear H0. induction H as [|e x es bs Sx F IHf]; constructor; auto.
Qed.
Lemma ssem_unique d e s s' : ssem d e s -> ssem d e s' -> osame s s'.
Proof. intros A B. eapply sem_unique; eapply ssem_sem; eauto. Qed.
End ENC.
