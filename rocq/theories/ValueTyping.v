(** Values that were parsed belong to their type, before and after their
    references are resolved. *)
From Coq Require Import Relations.
From Verif Require Import Base Lexer SymTab Ast Eval Typing TypesProofs ParserBase ParserExpr ParserProofs ParserValue Lint Resolve
  ValueSyntax ValueParserSound.
From Verif Require Markup.
From Coq Require Import ZifyBool ZifyNat ZifyN.
Open Scope Z_scope.

(** ** Before *)
(** ** The references in a value *)
Inductive has_ref : vexpr -> loc -> option ty -> nat -> text -> option nat -> Prop :=
| hr_here l a p n tgt : has_ref (XRef l a p n tgt) l a p n tgt
| hr_lit l k refs v l' a p n tgt : In v refs -> has_ref v l' a p n tgt -> has_ref (XLit l k refs) l' a p n tgt
| hr_arr l b vs v l' a p n tgt : In v vs -> has_ref v l' a p n tgt -> has_ref (XArr l b vs) l' a p n tgt
| hr_tup l u vs k v l' a p n tgt : In (k, v) vs -> has_ref v l' a p n tgt -> has_ref (XTup l u vs) l' a p n tgt.
(** The type of a reference, before or after it is resolved *)
Definition linkable (a : option ty) : Prop := forall b, a = Some b -> is_record b = true \/ is_union b = true.

Section BEFORE.
Variable G : types.
Variable objs : list object.

Definition known (a : ty) (tgt : option nat) : Prop :=
  match tgt with Some o => exists ob, nth_error objs o = Some ob /\ fits_ref G ob a | None => True end.
(** Like [vt], but references may be unresolved. *)
Inductive vt0 : ty -> vexpr -> Prop :=
| vt0_lit l k refs : (forall x l' a p n tgt, In x refs -> has_ref x l' a p n tgt -> linkable a) ->
    vt0 (lit_typ k) (XLit l k refs)
| vt0_sign l a op l' k refs : a = TInt \/ a = TDec -> op = U_minus \/ op = U_plus -> lit_typ k = a ->
    vt0 a (XUnary l (Some a) op (XLit l' k refs))
| vt0_arr l i lo hi el vs : (forall v, In v vs -> vt0 el v) -> vt0 (TArr i lo hi el) (XArr l (TArr i lo hi el) vs)
| vt0_tup l u ut vs : tup G u = Some ut -> tup_fields0 (u_comps ut) vs -> vt0 (TTup u) (XTup l u vs)
| vt0_ref l a pkg name tgt : is_record a = true \/ is_union a = true -> known a tgt ->
    vt0 a (XRef l (Some a) pkg name tgt)
with tup_fields0 : list component -> list (text * vexpr) -> Prop :=
| tf0_nil : tup_fields0 [] []
| tf0_value c cs v vs : vt0 (c_typ c) v -> tup_fields0 cs vs -> tup_fields0 (c :: cs) ((c_name c, v) :: vs)
| tf0_null c cs l vs : c_opt c = true -> tup_fields0 cs vs -> tup_fields0 (c :: cs) ((c_name c, XNull l) :: vs).
Scheme vt0_mind := Minimality for vt0 Sort Prop with tf0_mind := Minimality for tup_fields0 Sort Prop.
Combined Scheme vt0_all from vt0_mind, tf0_mind.
Definition fits0 (a : ty) (opt : bool) (v : vexpr) : Prop := vt0 a v \/ (opt = true /\ exists l, v = XNull l).

Lemma nulls_typed l cs : (forall c, In c cs -> c_opt c = true) -> tup_fields0 cs (nulls l cs).
Proof. induction cs as [|c cs IH]; intros H; cbn; constructor; auto; [apply H|apply IH; intros; apply H]; cbn; auto. Qed.
End BEFORE.

Theorem value_typed file src G objs N lax :
  (forall a v ts ns, value file src G objs N lax a v ts ns -> vt0 G objs a v) /\
  (forall el vs ts ns, elements file src G objs N lax el vs ts ns -> forall v, In v vs -> vt0 G objs el v) /\
  (forall cs d ts ns, listed file src G objs N lax cs d ts ns -> tup_fields0 G objs cs d) /\
  (forall gap l cs seps d ts ns, separated file src G objs N lax gap l cs seps d ts ns -> tup_fields0 G objs cs d).
Proof.
  apply value_all; intros.
  - apply (vt0_lit _ _ _ (LInt z)). intros ? ? ? ? ? ? [].
  - apply (vt0_lit _ _ _ (LDec q)). intros ? ? ? ? ? ? [].
  - apply vt0_sign; auto.
    + destruct H0; auto.
    + inversion H2; auto.
  - apply (vt0_lit _ _ _ (LStr _ false)). intros ? ? ? ? ? ? [].
  - apply (vt0_lit _ _ _ (LStr _ true)). intros x l' a p m tgt I Hr. apply in_map_iff in I as (y & <- & _). inversion Hr; subst. discriminate.
  - apply (vt0_lit _ _ _ (LBool b)). intros ? ? ? ? ? ? [].
  - apply (vt0_lit _ _ _ (LEnum e _)). intros ? ? ? ? ? ? [].
  - apply vt0_ref; auto. destruct H1; cbn; eauto.
  - apply vt0_arr; auto.
  - eapply vt0_tup; eauto.
  - eapply vt0_tup; eauto.
  - contradiction.
  - destruct H1 as [<-|[]]; auto.
  - match goal with H : In _ (_ :: _) |- _ => destruct H as [<-|I] end; auto.
  - match goal with H : In _ (_ :: _) |- _ => destruct H as [<-|I] end; auto.
  - repeat constructor; auto.
  - repeat constructor; auto.
  - repeat constructor; auto.
  - repeat constructor; auto.
  - apply tf0_value; auto. apply nulls_typed; auto.
  - repeat constructor; auto.
  - apply tf0_value; auto. apply nulls_typed; auto.
Qed.

(** ** Later declarations *)
Definition same_objects (objs objs' : list object) : Prop :=
  forall o ob, nth_error objs o = Some ob -> exists ob', nth_error objs' o = Some ob' /\ o_typ ob' = o_typ ob.
Definition grows (G G' : types) : Prop :=
  (forall u ut, tup G u = Some ut -> exists ut', tup G' u = Some ut' /\ u_comps ut' = u_comps ut) /\
  (forall x y, extends G x y -> extends G' x y).
Lemma rt_mono {A} (R R' : A -> A -> Prop) x y : (forall a b, R a b -> R' a b) -> clos_refl_trans A R x y -> clos_refl_trans A R' x y.
Proof. intros H. induction 1; [apply rt_step; auto|apply rt_refl|eapply rt_trans; eauto]. Qed.
Lemma fits_ref_mono G G' ob ob' a : grows G G' -> o_typ ob' = o_typ ob -> fits_ref G ob a -> fits_ref G' ob' a.
Proof.
  intros [_ Gr] E. destruct a; cbn; auto; rewrite E.
  - apply rt_mono; auto.
  - intros (m & I & R). exists m. split; auto. eapply rt_mono; eauto.
Qed.
Theorem vt0_mono G G' objs objs' : grows G G' -> same_objects objs objs' ->
  (forall a v, vt0 G objs a v -> vt0 G' objs' a v) /\ (forall cs d, tup_fields0 G objs cs d -> tup_fields0 G' objs' cs d).
Proof.
  intros Gr So. apply vt0_all; intros.
  - apply vt0_lit; auto.
  - apply vt0_sign; auto.
  - apply vt0_arr; auto.
  - destruct Gr as [Gt _]. destruct (Gt _ _ H) as (ut' & U & E). eapply vt0_tup; eauto. rewrite E. auto.
  - apply vt0_ref; auto. destruct tgt as [o|]; cbn in *; auto. destruct H0 as (ob & O & F).
    destruct (So _ _ O) as (ob' & O' & E). exists ob'. split; auto. eapply fits_ref_mono; eauto.
  - constructor.
  - apply tf0_value; auto.
  - apply tf0_null; auto.
Qed.

Lemma vexpr_ind3 (P : vexpr -> Prop) :
  (forall l, P (XNull l)) -> (forall l k refs, (forall v, In v refs -> P v) -> P (XLit l k refs)) ->
  (forall l a op v, P v -> P (XUnary l a op v)) ->
  (forall l a vs, (forall v, In v vs -> P v) -> P (XArr l a vs)) ->
  (forall l u vs, (forall k v, In (k, v) vs -> P v) -> P (XTup l u vs)) ->
  (forall l a p n o, P (XRef l a p n o)) -> forall v, P v.
Proof.
  intros H1 H2 H3 H4 H5 H6. fix IH 1. intros [ |l k refs| |l a vs|l u vs| ]; [apply H1| |apply H3; apply IH| | |apply H6].
  - apply H2. revert refs. fix IHl 1. intros [|y vs] x I; [contradiction|].
    destruct I as [<-|I]; [apply IH|apply (IHl vs x I)].
  - apply H4. revert vs. fix IHl 1. intros [|y vs] x I; [contradiction|].
    destruct I as [<-|I]; [apply IH|apply (IHl vs x I)].
  - apply H5. revert vs. fix IHl 1. intros [|[k y] vs] k' x I; [contradiction|].
    destruct I as [E|I]; [injection E as <- <-; apply IH|apply (IHl vs k' x I)].
Qed.

Section RESOLVE.
Variable G : types.
Variable objs : list object.
Variable N : names.
Hypothesis order : wf_types G.
Notation resolve_value := (resolve_value G objs N).

(** The equations without the local functions. *)
Lemma resolve_lit l k refs : resolve_value (XLit l k refs) = do rs <- each resolve_value refs ; Ok (XLit l k rs).
Proof.
  cbn [Resolve.resolve_value]. f_equal. induction refs as [|x refs IH]; cbn; auto. rewrite IH. auto.
Qed.
Lemma resolve_arr l a vs : resolve_value (XArr l a vs) = do rs <- each resolve_value vs ; Ok (XArr l a rs).
Proof.
  cbn [Resolve.resolve_value]. f_equal. induction vs as [|x refs IH]; cbn; auto. rewrite IH. auto.
Qed.
Definition on_field {K} (kv : K * vexpr) : res perr (K * vexpr) := do v <- resolve_value (snd kv) ; Ok (fst kv, v).
Lemma resolve_tup l u vs : resolve_value (XTup l u vs) = do rs <- each on_field vs ; Ok (XTup l u rs).
Proof.
  cbn [Resolve.resolve_value]. f_equal. induction vs as [|[k x] vs IH]; cbn; auto. rewrite IH. unfold on_field. cbn.
  destruct (resolve_value x); auto.
Qed.

Lemma each_ok {A B} (f : A -> res perr B) l l' : each f l = Ok l' -> Forall2 (fun x y => f x = Ok y) l l'.
Proof.
  revert l'. induction l as [|x l IH]; cbn; intros l' H.
  - injection H as <-. constructor.
  - apply bind_ok in H as (y & Y & H). apply bind_ok in H as (l2 & L & H). injection H as <-. constructor; auto.
Qed.
Lemma each_do {A B} (f : A -> res perr B) l : (forall x, In x l -> exists y, f x = Ok y) -> exists l', each f l = Ok l'.
Proof.
  induction l as [|x l IH]; intros H; cbn; [eauto|].
  destruct (H x (or_introl eq_refl)) as (y & ->). destruct IH as (l' & ->); [intros; apply H; cbn; auto|]. cbn. eauto.
Qed.
Lemma each_err {A B} (f : A -> res perr B) l e : each f l = Err e -> exists x, In x l /\ f x = Err e.
Proof.
  induction l as [|x l IH]; cbn; [discriminate|]. destruct (f x) eqn:F; cbn; try discriminate.
  - destruct (each f l); cbn; try discriminate. intros E. injection E as ->. destruct IH as (y & I & Y); auto. exists y. auto.
  - intros E. injection E as ->. eauto.
Qed.
Lemma each_bad {A B} (f : A -> res perr B) l : (forall x, In x l -> f x <> Crash /\ f x <> OutOfFuel) -> each f l <> Crash /\ each f l <> OutOfFuel.
Proof.
  induction l as [|x l IH]; intros H; cbn; [split; discriminate|].
  destruct (H x (or_introl eq_refl)) as [H1 H2]. destruct IH as [I1 I2]; [intros; apply H; cbn; auto|].
  destruct (f x); cbn; try contradiction; try (split; discriminate). destruct (each f l); cbn; try contradiction; split; discriminate.
Qed.
Lemma forall2_in_r {A B} (R : A -> B -> Prop) l l' y : Forall2 R l l' -> In y l' -> exists x, In x l /\ R x y.
Proof. induction 1; intros I; [destruct I|]. destruct I as [<-|I]; [exists x; cbn; auto|]. destruct IHForall2 as (z & I1 & I2); auto. exists z. cbn; auto. Qed.
Lemma forall2_in_l {A B} (R : A -> B -> Prop) l l' x : Forall2 R l l' -> In x l -> exists y, In y l' /\ R x y.
Proof. induction 1; intros I; [destruct I|]. destruct I as [<-|I]; [exists y; cbn; auto|]. destruct IHForall2 as (z & I1 & I2); auto. exists z. cbn; auto. Qed.

(** The object a reference is to denote. *)
Definition denotes (a : option ty) (p : nat) (n : text) (o : nat) (ob : object) : Prop :=
  entry (p_symbols N p) n (N_obj o) /\ nth_error objs o = Some ob /\
  match a with Some a => fits_ref G ob a | None => True end.

Lemma entry_unique d n e e' : entry d n e -> entry d n e' -> e = e'.
Proof. unfold entry. congruence. Qed.
Lemma ref_ok l a p n a' tgt : resolve_ref G objs N l a p n = Ok (a', tgt) ->
  exists o ob, tgt = Some o /\ denotes a' p n o ob /\ denotes a p n o ob /\ a' = match a with Some _ => a | None => Some (TRec (o_typ ob)) end.
Proof.
  unfold resolve_ref, lookup_direct. destruct (t_find _ _) as [[k e]|] eqn:F; [|discriminate]. destruct (text_eqb k n) eqn:E; [|discriminate].
  apply text_eqb_eq in E. subst k. destruct (is_object e) eqn:Ob; [|discriminate]. cbn [bind].
  destruct e as [| | | | |o]; try discriminate. destruct (nth_error objs o) as [ob|] eqn:O; [|discriminate].
  destruct a as [[]|]; try discriminate.
  - destruct (is_subclass_of _ _ _) eqn:C; [|discriminate]. intros H. injection H as <- <-.
    exists o, ob. split; auto. apply (subclass_spec G order) in C. repeat split; auto.
  - destruct (is_compatible _ _ _) eqn:C; [|discriminate]. intros H. injection H as <- <-.
    exists o, ob. split; auto. apply (is_compatible_spec G order) in C. repeat split; auto.
  - intros H. injection H as <- <-. exists o, ob. repeat split; auto. cbn. apply rt_refl.
Qed.
Lemma ref_do l a p n o ob : denotes a p n o ob ->
  resolve_ref G objs N l a p n = Ok (match a with Some _ => a | None => Some (TRec (o_typ ob)) end, Some o).
Proof.
  intros (E & O & F). unfold resolve_ref, lookup_direct. rewrite E, text_eqb_refl. cbn. rewrite O.
  destruct a as [[]|]; cbn in F; try contradiction; auto.
  - apply (subclass_spec G order) in F. rewrite F. auto.
  - apply (is_compatible_spec G order) in F. rewrite F. auto.
Qed.

(** After the resolution all references denote an object of the right type;
    they are the references there were before. *)
Theorem resolved_refs v v' l a' p n tgt : resolve_value v = Ok v' -> has_ref v' l a' p n tgt ->
  exists a tgt0 o ob, has_ref v l a p n tgt0 /\ tgt = Some o /\ denotes a p n o ob /\ denotes a' p n o ob /\ (a <> None -> a' = a).
Proof.
  revert v'. induction v using vexpr_ind3; intros v' Rv Hr.
  - injection Rv as <-. inversion Hr.
  - rewrite resolve_lit in Rv. apply bind_ok in Rv as (rs & E & Rv). injection Rv as <-. apply each_ok in E. inversion Hr as [|? ? ? y ? ? ? ? ? Iy Hy|? ? ? y ? ? ? ? ? Iy Hy|? ? ? ky y ? ? ? ? ? Iy Hy]; subst.
    destruct (forall2_in_r _ _ _ _ E Iy) as (x & I & X). destruct (H x I _ X Hy) as (b & t0 & o & ob & H1 & H2).
    exists b, t0, o, ob. split; auto. eapply hr_lit; eauto.
  - injection Rv as <-. inversion Hr.
  - rewrite resolve_arr in Rv. apply bind_ok in Rv as (rs & E & Rv). injection Rv as <-. apply each_ok in E. inversion Hr as [|? ? ? y ? ? ? ? ? Iy Hy|? ? ? y ? ? ? ? ? Iy Hy|? ? ? ky y ? ? ? ? ? Iy Hy]; subst.
    destruct (forall2_in_r _ _ _ _ E Iy) as (x & I & X). destruct (H x I _ X Hy) as (b & t0 & o & ob & H1 & H2).
    exists b, t0, o, ob. split; auto. eapply hr_arr; eauto.
  - rewrite resolve_tup in Rv. apply bind_ok in Rv as (rs & E & Rv). injection Rv as <-. apply each_ok in E. inversion Hr as [|? ? ? y ? ? ? ? ? Iy Hy|? ? ? y ? ? ? ? ? Iy Hy|? ? ? ky y ? ? ? ? ? Iy Hy]; subst.
    destruct (forall2_in_r _ _ _ _ E Iy) as ([k' x] & I & X). unfold on_field in X. apply bind_ok in X as (y' & X & Y). injection Y as <- <-.
    destruct (H k' x I _ X Hy) as (b & t0 & o & ob & H1 & H2). exists b, t0, o, ob. split; auto. eapply hr_tup; eauto.
  - cbn in Rv. apply bind_ok in Rv as ([a0 t0] & E & Rv). injection Rv as <-. cbn in Hr. inversion Hr; subst.
    destruct (ref_ok _ _ _ _ _ _ E) as (ob1 & ob & -> & D & D' & Ea). exists a, o, ob1, ob. split; [constructor|]. split; auto. split; auto. split; auto.
    destruct a; auto. contradiction.
Qed.
Theorem resolves v : (forall l a p n tgt, has_ref v l a p n tgt -> exists o ob, denotes a p n o ob) -> exists v', resolve_value v = Ok v'.
Proof.
  induction v using vexpr_ind3; intros Hr.
  - eexists; reflexivity.
  - rewrite resolve_lit. destruct (each_do resolve_value refs) as (l' & ->).
    + intros x I. apply H; auto. intros. apply (Hr l0 a p n tgt). eapply hr_lit; eauto.
    + eexists; reflexivity.
  - eexists; reflexivity.
  - rewrite resolve_arr. destruct (each_do resolve_value vs) as (l' & ->).
    + intros x I. apply H; auto. intros. apply (Hr l0 a0 p n tgt). eapply hr_arr; eauto.
    + eexists; reflexivity.
  - rewrite resolve_tup. destruct (each_do (@on_field text) vs) as (l' & ->).
    + intros [k x] I. destruct (H k x I) as (y & Y). { intros. apply (Hr l0 a p n tgt). eapply hr_tup; eauto. }
      exists (k, y). unfold on_field. cbn. rewrite Y. auto.
    + eexists; reflexivity.
  - cbn. destruct (Hr _ _ _ _ _ (hr_here l a p n o)) as (o' & ob & D). rewrite (ref_do l _ _ _ _ _ D). cbn. eauto.
Qed.
(** An error is reported exactly when a reference denotes nothing suitable. *)
Theorem resolve_err v e : resolve_value v = Err e ->
  exists l a p n tgt, has_ref v l a p n tgt /\ ~ exists o ob, denotes a p n o ob.
Proof.
  induction v using vexpr_ind3; intros E.
  - discriminate.
  - rewrite resolve_lit in E. destruct (each resolve_value refs) as [|e'| |] eqn:Ee; cbn in E; try discriminate. injection E as ->.
    apply each_err in Ee as (x & I & X). destruct (H x I X) as (l1 & a1 & p1 & n1 & t1 & H1 & H2).
    exists l1, a1, p1, n1, t1. split; auto. eapply hr_lit; eauto.
  - discriminate.
  - rewrite resolve_arr in E. destruct (each resolve_value vs) as [|e'| |] eqn:Ee; cbn in E; try discriminate. injection E as ->.
    apply each_err in Ee as (x & I & X). destruct (H x I X) as (l1 & a1 & p1 & n1 & t1 & H1 & H2).
    exists l1, a1, p1, n1, t1. split; auto. eapply hr_arr; eauto.
  - rewrite resolve_tup in E. destruct (each (@on_field text) vs) as [|e'| |] eqn:Ee; cbn in E; try discriminate. injection E as ->.
    apply each_err in Ee as ([k x] & I & X). unfold on_field in X. cbn in X. destruct (resolve_value x) as [|e'| |] eqn:Rx; cbn in X; try discriminate.
    injection X as ->. destruct (H k x I Rx) as (l1 & a1 & p1 & n1 & t1 & H1 & H2).
    exists l1, a1, p1, n1, t1. split; auto. eapply hr_tup; eauto.
  - exists l, a, p, n, o. split; [constructor|]. intros (o' & ob & D). cbn in E. rewrite (ref_do l _ _ _ _ _ D) in E. discriminate.
Qed.
(** Nothing else can happen, if the table only contains declared objects. *)
Definition known_objects : Prop := forall p n k o, t_find (p_symbols N p) n = Some (k, N_obj o) -> exists ob, nth_error objs o = Some ob.
Definition ref_type (a : option ty) : Prop := match a with Some a => is_record a = true \/ is_union a = true | None => True end.
Theorem resolve_total v : known_objects -> (forall l a p n tgt, has_ref v l a p n tgt -> ref_type a) ->
  resolve_value v <> Crash /\ resolve_value v <> OutOfFuel.
Proof.
  intros Kn. induction v using vexpr_ind3; intros Hr.
  - split; discriminate.
  - rewrite resolve_lit. destruct (each_bad resolve_value refs) as [B1 B2].
    + intros x I. apply H; auto. intros. eapply Hr. eapply hr_lit; eauto.
    + destruct (each resolve_value refs); cbn; try contradiction; split; discriminate.
  - split; discriminate.
  - rewrite resolve_arr. destruct (each_bad resolve_value vs) as [B1 B2].
    + intros x I. apply H; auto. intros. eapply Hr. eapply hr_arr; eauto.
    + destruct (each resolve_value vs); cbn; try contradiction; split; discriminate.
  - rewrite resolve_tup. destruct (each_bad (@on_field text) vs) as [B1 B2].
    + intros [k x] I. destruct (H k x I) as [H1 H2]. { intros. eapply Hr. eapply hr_tup; eauto. }
      unfold on_field. cbn. destruct (resolve_value x); cbn; try contradiction; split; discriminate.
    + destruct (each (@on_field text) vs); cbn; try contradiction; split; discriminate.
  - assert (Ra := Hr _ _ _ _ _ (hr_here l a p n o)). cbn. unfold resolve_ref, lookup_direct.
    destruct (t_find _ _) as [[k e]|] eqn:F; [|split; discriminate]. destruct (text_eqb k n); [|split; discriminate].
    destruct (is_object e) eqn:Ob; [|split; discriminate]. cbn. destruct e as [| | | | |o']; try discriminate.
    destruct (Kn _ _ _ _ F) as (ob & ->). destruct a as [[]|]; cbn in Ra; try (destruct Ra; discriminate); try (split; discriminate);
      match goal with |- context [if ?x then _ else _] => destruct x end; split; discriminate.
Qed.

(** Resolved values are values of their type. *)
Variable W : world.
Hypothesis objects : same_objects objs (w_objs W).
Theorem resolved_typed :
  (forall a v, vt0 G objs a v -> forall v', resolve_value v = Ok v' -> vt G W a v') /\
  (forall cs d, tup_fields0 G objs cs d -> forall d', each on_field d = Ok d' -> tup_fields G W cs d').
Proof.
  apply vt0_all; intros.
  - rewrite resolve_lit in H0. apply bind_ok in H0 as (rs & _ & H0). injection H0 as <-. apply vt_lit.
  - injection H2 as <-. apply vt_sign; auto.
  - rewrite resolve_arr in H1. apply bind_ok in H1 as (rs & E & H1). injection H1 as <-. apply vt_arr. intros v I.
    apply each_ok in E. destruct (forall2_in_r _ _ _ _ E I) as (x & Ix & X). eauto.
  - rewrite resolve_tup in H2. apply bind_ok in H2 as (rs & E & H2). injection H2 as <-. eapply vt_tup; eauto.
  - cbn in H1. apply bind_ok in H1 as ([a0 t0] & E & H1). injection H1 as <-. cbn.
    destruct (ref_ok _ _ _ _ _ _ E) as (o & ob & -> & D & (D1 & D2 & D3) & ->). destruct (objects _ _ D2) as (ob' & O' & Et).
    destruct a; cbn in D3; try contradiction.
    + eapply vt_rec; eauto. unfold fits_record. rewrite Et. auto.
    + eapply vt_union; eauto. unfold fits_union. rewrite Et. auto.
  - injection H as <-. constructor.
  - cbn in H3. apply bind_ok in H3 as ([k y] & Y & H3). apply bind_ok in H3 as (l2 & L & H3). injection H3 as <-.
    unfold on_field in Y. apply bind_ok in Y as (z & Z & Y). injection Y as <- <-. apply tf_value; auto.
  - cbn in H2. apply bind_ok in H2 as (l2 & L & H2). injection H2 as <-. apply tf_null; auto.
Qed.
End RESOLVE.
