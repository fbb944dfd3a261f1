(** The value parser: C29 (array bounds), C30 (tuple values) and C32
    (references). *)
From Coq Require Import Relations.
From Verif Require Import Base Lexer LexerProps SymTab Ast Eval Typing TypesProofs ParserBase ParserExpr ParserProofs ParserFuel ExprPrint
  ParserValue Lint Resolve ValueSyntax ValueParserSound ValueParserComplete ValueFuel ValueTyping.
From Verif Require ExprTyping.
From Coq Require Import ZifyBool ZifyNat ZifyN.
Open Scope Z_scope.

Section VALUE.
Variable file : Z.
Variable src : text.
Variable G : types.
Variable objs : list object.
Variable N : names.
Hypothesis order : wf_types G.
Hypothesis tuples : tuples_ok G.
Notation parse_value := (parse_value file src G objs N).
Notation value := (value file src G objs N).

(** ** All types *)

(** What is accepted is a notation of the value (up to the tolerated
    mistakes of [ValueSyntax]), and the messages are the ones that belong to
    this notation. *)
Theorem C30_accepts_notations n a s v s' : parse_value n a s = POk v s' ->
  exists ts ns, value true a v ts ns /\ reads (at_ s) ts (at_ s') /\ out s' = out s ++ ns.
Proof. intros H. exact (value_sound file src G objs N order tuples _ _ _ _ _ _ H). Qed.

(** All notations of the manual are accepted, if the next token does not
    continue them. *)
Theorem C30_accepts_all_notations n a v ts ns s p : value false a v ts ns -> complete_type G a ->
  reads (at_ s) ts p -> ends G a (nt p) -> (rem (at_ s) < n)%nat ->
  exists s', parse_value n a s = POk v s' /\ at_ s' = p /\ out s' = out s ++ ns.
Proof. intros. eapply value_complete; eauto. Qed.

(** A token sequence denotes at most one value. *)
Theorem C30_unambiguous a v w ts ns ms : Forall plain ts -> complete_type G a ->
  value false a v ts ns -> value false a w ts ms -> v = w /\ ns = ms.
Proof.
  intros Pl Ct V W. pose proof (reads_input None ts []) as R. rewrite app_nil_r in R. specialize (R Pl). cbn [hd_error tl map] in R.
  assert (L : (rem (at_ (input ts)) < Datatypes.S (List.length ts))%nat).
  { destruct ts as [|tk us]; unfold rem; cbn; [lia|]. rewrite map_length. lia. }
  assert (E : ends G a None) by (destruct a; cbn; auto; discriminate).
  destruct (value_complete file src G objs N order tuples _ _ _ _ _ _ _ V Ct L R E) as (s1 & E1 & _ & O1).
  destruct (value_complete file src G objs N order tuples _ _ _ _ _ _ _ W Ct L R E) as (s2 & E2 & _ & O2).
  rewrite E1 in E2. injection E2 as -> ->. split; auto. rewrite O1 in O2. apply app_inv_head in O2. auto.
Qed.

(** The parser comes to an end on the tokens of every file. *)
Theorem C30_terminates n a s : complete_type G a -> stocked (of_file src) (at_ s) -> (rem (at_ s) < n)%nat ->
  parse_value n a s <> PFuel.
Proof.
  intros Ct St L H. pose proof (value_spends file src G objs N tuples n (rem (at_ s)) a Ct L s St (Nat.le_refl _)) as Sp.
  rewrite H in Sp. exact Sp.
Qed.

(** ** C29 *)

Definition within (lo : Z) (hi : option Z) (k : nat) : Prop :=
  lo <= Z.of_nat k /\ match hi with Some h => Z.of_nat k <= h | None => True end.

(** After the messages for the elements, there is a message about the size
    exactly if it is outside the bounds -- an upper bound 0 excepted. *)
Theorem C29_bounds n i lo hi el s v s' : parse_value n (TArr i lo hi el) s = POk v s' ->
  exists l vs ts ns sz, v = XArr l (TArr i lo hi el) vs /\
    elements file src G objs N true el vs ts ns /\ out s' = out s ++ ns ++ sz /\
    (hi <> Some 0 -> (sz = [] <-> within lo hi (List.length vs))) /\
    (forall x, In x sz -> exists e, x = Note_error e).
Proof.
  intros H. destruct (value_sound file src G objs N order tuples _ _ _ _ _ _ H) as (ts & ns & V & R & O).
  inversion V; subst; try (match goal with H : _ \/ _ |- _ => destruct H; discriminate end).
  exists (tok_loc file bra), vs, ts0, ns0, (few ++ many). split; auto. split; auto. split; auto.
  match goal with H : size_errors _ _ _ _ _ _ _ |- _ => destruct H as [f m Ef Em] end.
  split.
  - intros Nz. unfold within. split.
    + intros E. apply app_eq_nil in E as [E1 E2]. subst. destruct (_ <? lo) eqn:C in E1; [discriminate|].
      split; [lia|]. destruct hi as [h|]; auto. destruct (negb (h =? 0) && (h <? _))%bool eqn:C2.
      * destruct Em as (v & _ & Em). discriminate.
      * assert (h <> 0) by congruence. lia.
    + intros [W1 W2]. destruct (_ <? lo) eqn:C in Ef; [lia|]. subst f. destruct hi as [h|]; [|auto].
      destruct (negb (h =? 0) && (h <? _))%bool eqn:C2; [lia|auto].
  - intros x I. apply in_app_or in I as [I|I].
    + subst f. destruct (_ <? lo); [|contradiction]. destruct I as [<-|[]]. eexists; reflexivity.
    + destruct hi as [h|]; [|subst m; contradiction]. destruct (_ && _)%bool.
      * destruct Em as (v & _ & ->). destruct I as [<-|[]]. eexists; reflexivity.
      * subst m; contradiction.
Qed.

(** ** C30 *)

(** The generic form: one value per field, between brackets and separated by
    commas. *)
Inductive one_each : list component -> list (text * vexpr) -> list token -> Prop :=
| oe_one c v ts ns : value true (c_typ c) v ts ns -> one_each [c] [(c_name c, v)] ts
| oe_more c cs v ts ns comma d us : value true (c_typ c) v ts ns -> tk_kind comma = COMMA -> one_each cs d us ->
    one_each (c :: cs) ((c_name c, v) :: d) (ts ++ comma :: us).
Theorem C30_generic_form n u ut s v s' : tup G u = Some ut -> u_seps ut = [] -> parse_value n (TTup u) s = POk v s' ->
  exists bra ts ket d, tk_kind bra = BRA /\ tk_kind ket = KET /\ reads (at_ s) (bra :: ts ++ [ket]) (at_ s') /\
    v = XTup (tok_loc file bra) u d /\ one_each (u_comps ut) d ts.
Proof.
  intros U Sp H. destruct (value_sound file src G objs N order tuples _ _ _ _ _ _ H) as (ts & ns & V & R & O).
  inversion V; subst; try (match goal with H : _ \/ _ |- _ => destruct H; discriminate end); [|congruence].
  assert (ut0 = ut) by congruence. subst ut0. exists bra, ts0, ket, d. repeat split; auto.
  match goal with H : listed _ _ _ _ _ _ _ _ _ _ |- _ => revert H end. clear.
  generalize (u_comps ut). intros cs L. induction L; [eapply oe_one|eapply oe_more]; eauto.
Qed.

(** The separator form: the fields given come first, in order; the others
    are optional. *)
Theorem C30_omitted_fields n u ut s v s' : tup G u = Some ut -> u_seps ut <> [] -> parse_value n (TTup u) s = POk v s' ->
  exists l given omitted d, u_comps ut = given ++ omitted /\ given <> [] /\ (forall c, In c omitted -> c_opt c = true) /\
    v = XTup l u (d ++ map (fun c => (c_name c, XNull l)) omitted) /\
    Forall2 (fun c kv => fst kv = c_name c /\ exists ts ns, value true (c_typ c) (snd kv) ts ns) given d.
Proof.
  intros U Sp H. destruct (value_sound file src G objs N order tuples _ _ _ _ _ _ H) as (ts & ns & V & R & O).
  inversion V; subst; try (match goal with H : _ \/ _ |- _ => destruct H; discriminate end); [congruence|].
  assert (ut0 = ut) by congruence. subst ut0. exists l.
  match goal with H : separated _ _ _ _ _ _ _ _ _ _ _ _ _ |- _ => revert H end. clear. generalize (u_comps ut) (u_seps ut) false.
  assert (Cons : forall c v ts ns (cs : list component) (d : list (text * vexpr)), value true (c_typ c) v ts ns ->
     (exists given omitted d1, cs = given ++ omitted /\ given <> [] /\ (forall c, In c omitted -> c_opt c = true) /\
        XTup l u d = XTup l u (d1 ++ map (fun c => (c_name c, XNull l)) omitted) /\
        Forall2 (fun c kv => fst kv = c_name c /\ exists ts ns, value true (c_typ c) (snd kv) ts ns) given d1) ->
     exists given omitted d1, c :: cs = given ++ omitted /\ given <> [] /\ (forall c, In c omitted -> c_opt c = true) /\
        XTup l u ((c_name c, v) :: d) = XTup l u (d1 ++ map (fun c => (c_name c, XNull l)) omitted) /\
        Forall2 (fun c kv => fst kv = c_name c /\ exists ts ns, value true (c_typ c) (snd kv) ts ns) given d1).
  { intros c v ts1 ns1 cs d1 V (g & om & d2 & -> & Ng & Om & E & F). injection E as ->.
    exists (c :: g), om, ((c_name c, v) :: d2). repeat split; auto; [discriminate|]. constructor; auto. cbn. eauto. }
  assert (Last : forall c v ts ns cs, value true (c_typ c) v ts ns -> (forall c', In c' cs -> c_opt c' = true) ->
     exists given omitted d1, c :: cs = given ++ omitted /\ given <> [] /\ (forall c, In c omitted -> c_opt c = true) /\
        XTup l u ((c_name c, v) :: nulls l cs) = XTup l u (d1 ++ map (fun c => (c_name c, XNull l)) omitted) /\
        Forall2 (fun c kv => fst kv = c_name c /\ exists ts ns, value true (c_typ c) (snd kv) ts ns) given d1).
  { intros c v ts1 ns1 cs V Om. exists [c], cs, [(c_name c, v)]. repeat split; auto; [discriminate|]. constructor; auto. cbn. eauto. }
  intros cs seps gap Sq. induction Sq.
  - apply (Last c v ts ns []); auto.
  - eapply Cons; eauto.
  - eapply Last; eauto.
  - eapply Cons; eauto.
  - eapply Last; eauto.
Qed.

(** The declared separators stand between the values, if no field but the
    first is mandatory. *)
Inductive in_order : list component -> list separator -> list (text * vexpr) -> list token -> Prop :=
| io_end c cs seps v l ts ns : value true (c_typ c) v ts ns -> (forall c', In c' cs -> c_opt c' = true) ->
    in_order (c :: cs) seps ((c_name c, v) :: nulls l cs) ts
| io_next c cs sep seps v d ts ns tk us : value true (c_typ c) v ts ns -> separates sep tk -> in_order cs seps d us ->
    in_order (c :: cs) (sep :: seps) ((c_name c, v) :: d) (ts ++ tk :: us).
Theorem C30_separators_partial n u ut s v s' : tup G u = Some ut -> u_seps ut <> [] ->
  (forall c cs, u_comps ut = c :: cs -> forall c', In c' cs -> c_opt c' = true) ->
  parse_value n (TTup u) s = POk v s' ->
  exists l d ts, v = XTup l u d /\ reads (at_ s) ts (at_ s') /\ in_order (u_comps ut) (u_seps ut) d ts.
Proof.
  intros U Sp Op H. destruct (value_sound file src G objs N order tuples _ _ _ _ _ _ H) as (ts & ns & V & R & O).
  inversion V; subst; try (match goal with H : _ \/ _ |- _ => destruct H; discriminate end); [congruence|].
  assert (ut0 = ut) by congruence. subst ut0. exists l, d, ts. repeat split; auto.
  match goal with H : separated _ _ _ _ _ _ _ _ _ _ _ _ _ |- _ => revert H end. revert Op. clear.
  generalize (u_comps ut) (u_seps ut). intros cs seps Op Sq.
  assert (A : forall gap, separated file src G objs N true gap l cs seps d ts ns -> gap = false -> in_order cs seps d ts).
  { clear Sq. intros gap Sq. revert Op. induction Sq; intros Op E.
    - apply (io_end c [] [] v l ts ns); auto.
    - eapply io_next; eauto. apply IHSq; auto. intros c' cs' E'. subst. intros x I. apply (Op c (c' :: cs')); cbn; auto.
    - eapply io_end; eauto.
    - rewrite (Op c (c' :: cs)) in H1; cbn; auto. discriminate.
    - discriminate. }
  apply (A false); auto.
Qed.

(** ** C32 *)

(** While an object is parsed: a reference is to an object of the right type,
    or to a name that is not yet declared. *)
Theorem C32_parsed n a s v s' : is_record a = true \/ is_union a = true -> parse_value n a s = POk v s' ->
  exists l pkg name tgt, v = XRef l (Some a) pkg name tgt /\
    match tgt with
    | Some o => exists ob, entry (p_symbols N pkg) name (N_obj o) /\ nth_error objs o = Some ob /\ fits_ref G ob a
    | None => t_contains (p_symbols N pkg) name = false
    end.
Proof.
  intros Ra H. destruct (value_sound file src G objs N order tuples _ _ _ _ _ _ H) as (ts & ns & V & R & O).
  inversion V; subst; try (destruct Ra; discriminate);
    try (match goal with H : _ \/ _ |- _ => destruct H; subst; destruct Ra; discriminate end).
  eexists _, _, _, _. split; [reflexivity|]. match goal with H : target _ _ _ _ _ _ _ |- _ => destruct H; eauto 8 end.
Qed.
(** Accepted values belong to their type, but for references not resolved. *)
Theorem C32_parsed_values n a s v s' : parse_value n a s = POk v s' -> vt0 G objs a v.
Proof. intros H. destruct (value_sound file src G objs N order tuples _ _ _ _ _ _ H) as (ts & ns & V & _). apply (proj1 (value_typed file src G objs N true) _ _ _ _ V). Qed.

(** When all files are parsed. *)
Definition object_ref (ob : object) (l : loc) (a : option ty) (p : nat) (n : text) (tgt : option nat) : Prop :=
  exists k id v, In (k, (id, v)) (o_fields ob) /\ has_ref v l a p n tgt.
Notation denotes := (denotes G objs N).

Lemma field_each (fs : list (text * field)) :
  each (fun kf : text * field => let '(k, (id, v)) := kf in do v' <- resolve_value G objs N v ; Ok (k, (id, v'))) fs =
  each (fun kf => do v' <- resolve_value G objs N (snd (snd kf)) ; Ok (fst kf, (fst (snd kf), v'))) fs.
Proof. induction fs as [|[k [id v]] fs IH]; cbn; auto. rewrite IH. auto. Qed.

Theorem C32_resolved ob ob' : resolve_object G objs N ob = Ok ob' ->
  o_typ ob' = o_typ ob /\ o_name ob' = o_name ob /\ map fst (o_fields ob') = map fst (o_fields ob) /\
  forall l a' p n tgt, object_ref ob' l a' p n tgt ->
    exists o target, tgt = Some o /\ denotes a' p n o target /\
      exists a tgt0, object_ref ob l a p n tgt0 /\ (a <> None -> a' = a).
Proof.
  unfold resolve_object. rewrite field_each. intros H. apply bind_ok in H as (fs & E & H). injection H as <-. cbn.
  apply each_ok in E. repeat split; auto.
  - clear - E. induction E as [|x y l l' H]; cbn; auto. apply bind_ok in H as (v' & _ & H). injection H as <-. cbn. f_equal. auto.
  - intros l a' p n tgt (k & id & v & I & Hr). cbn in I. destruct (forall2_in_r _ _ _ _ E I) as ([k' [id' w]] & Iw & X). cbn in X.
    apply bind_ok in X as (v' & Rv & X). injection X as -> -> ->.
    destruct (resolved_refs G objs N order w v l a' p n tgt Rv Hr) as (a & t0 & o & target & H1 & H2 & H3 & H4 & H5).
    exists o, target. split; auto. split; auto. exists a, t0. split; auto. exists k, id, w. auto.
Qed.
(** An object is resolved exactly if all its references denote suitable
    objects; otherwise an error is reported. *)
Theorem C32_resolvable ob :
  (exists ob', resolve_object G objs N ob = Ok ob') <->
  (forall l a p n tgt, object_ref ob l a p n tgt -> exists o target, denotes a p n o target).
Proof.
  unfold resolve_object. rewrite field_each. split.
  - intros (ob' & H). apply bind_ok in H as (fs & E & _). apply each_ok in E.
    intros l a p n tgt (k & id & v & I & Hr). destruct (forall2_in_l _ _ _ _ E I) as (y & _ & X). cbn in X.
    apply bind_ok in X as (v' & Rv & _). revert Hr Rv. clear - order. revert v'.
    induction v using vexpr_ind3; intros v' Hr Rv.
    + inversion Hr.
    + rewrite resolve_lit in Rv. apply bind_ok in Rv as (rs & E & _). apply each_ok in E.
      inversion Hr as [|? ? ? y ? ? ? ? ? Iy Hy| |]; subst. destruct (forall2_in_l _ _ _ _ E Iy) as (z & _ & Z). eauto.
    + inversion Hr.
    + rewrite resolve_arr in Rv. apply bind_ok in Rv as (rs & E & _). apply each_ok in E.
      inversion Hr as [| |? ? ? y ? ? ? ? ? Iy Hy|]; subst. destruct (forall2_in_l _ _ _ _ E Iy) as (z & _ & Z). eauto.
    + rewrite resolve_tup in Rv. apply bind_ok in Rv as (rs & E & _). apply each_ok in E.
      inversion Hr as [| | |? ? ? ky y ? ? ? ? ? Iy Hy]; subst. destruct (forall2_in_l _ _ _ _ E Iy) as (z & _ & Z).
      apply bind_ok in Z as (w & Z & _). eauto.
    + cbn in Rv. apply bind_ok in Rv as ([ax tx] & E & _). inversion Hr; subst.
      destruct (ref_ok G objs N order _ _ _ _ _ _ E) as (o' & ob & _ & _ & D & _). eauto.
  - intros H. match goal with |- context [each ?f ?l] => destruct (each_do f l) as (fs & E) end.
    + intros [k [id v]] I. destruct (resolves G objs N order v) as (v' & Rv).
      * intros l a p n tgt Hr. apply (H l a p n tgt). exists k, id, v. auto.
      * cbn. rewrite Rv. eexists; reflexivity.
    + rewrite E. eexists; reflexivity.
Qed.
Theorem C32_reported ob : known_objects objs N ->
  (forall l a p n tgt, object_ref ob l a p n tgt -> ref_type a) ->
  (exists ob', resolve_object G objs N ob = Ok ob') \/ (exists e, resolve_object G objs N ob = Err e).
Proof.
  intros Kn Rt. unfold resolve_object. rewrite field_each.
  match goal with |- context [each ?f ?l] => destruct (each_bad f l) as [B1 B2] end.
  - intros [k [id v]] I. destruct (resolve_total G objs N v Kn) as [H1 H2].
    + intros l a p n tgt Hr. apply (Rt l a p n tgt). exists k, id, v. auto.
    + cbn. destruct (resolve_value G objs N v); cbn; try contradiction; split; discriminate.
  - match goal with |- context [each ?f ?l] => destruct (each f l) end; cbn; try contradiction; eauto.
Qed.
(** Values of a type are values of that type afterwards. *)
Theorem C32_typed W a v v' : same_objects objs (w_objs W) -> vt0 G objs a v -> resolve_value G objs N v = Ok v' -> vt G W a v'.
Proof. intros So V R. eapply resolved_typed; eauto. Qed.
End VALUE.
Print Assumptions C30_accepts_notations.
Print Assumptions C30_accepts_all_notations.
Print Assumptions C30_unambiguous.
Print Assumptions C30_terminates.
Print Assumptions C29_bounds.
Print Assumptions C30_generic_form.
Print Assumptions C30_omitted_fields.
Print Assumptions C30_separators_partial.
Print Assumptions C32_parsed.
Print Assumptions C32_parsed_values.
Print Assumptions C32_resolved.
Print Assumptions C32_resolvable.
Print Assumptions C32_reported.
Print Assumptions C32_typed.

(** ** Examples *)

(** The tokens of a text. *)
Definition vtoks (s : string) : list token :=
  match items (t s) with
  | Some l => concat (map (fun i => match i with ITok tk => [tk] | _ => [] end) l)
  | None => []
  end.
(** Records R, S extends R, U; enumeration E; tuple types
    A (a separator @ b), O (a separator @ optional b separator : optional c),
    Gn (generic) and M (a separator @ b separator : optional c). *)
Definition fld (u : nat) (n : string) (o : bool) : component := Comp (t n) TInt o (TTup u).
Definition vG : types := Types
  [RecType 0 (t "R") None [] [] false false []; RecType 0 (t "S") (Some 0%nat) [] [] false false [];
   RecType 0 (t "U") None [] [] false false []]
  [TupType 0 (t "A") [fld 0 "a" false; fld 0 "b" false] [Sep_at] [];
   TupType 0 (t "O") [fld 1 "a" false; fld 1 "b" true; fld 1 "c" true] [Sep_at; Sep_colon] [];
   TupType 0 (t "Gn") [fld 2 "a" false; fld 2 "b" false] [] [];
   TupType 0 (t "M") [fld 3 "a" false; fld 3 "b" false; fld 3 "c" true] [Sep_at; Sep_colon] []]
  [EnumType 0 (t "E") [t "lit"]].
Definition vobjs : list object := [Object 0 (t "s_1") (tok_loc 0 (Token IDENTIFIER VNone 1 1 0 0)) 1 [];
  Object 0 (t "u_1") (tok_loc 0 (Token IDENTIFIER VNone 1 1 0 0)) 2 []].
Definition vN : names := Names (builtin_table ++ [(t "P", N_pkg 0)])
  [[(t "R", N_type (TRec 0)); (t "S", N_type (TRec 1)); (t "U", N_type (TRec 2)); (t "E", N_type (TEnum 0));
    (t "s_1", N_obj 0); (t "u_1", N_obj 1)]] 0 (Some []).
Definition vparse (a : ty) (s : string) : pres vexpr := parse_value 0 (t s) vG vobjs vN 50 a (input (vtoks s)).
Fixpoint plain_value (v : vexpr) : option (list Z) :=
  match v with
  | XNull _ => Some []
  | XLit _ (LInt z) _ => Some [z]
  | XUnary _ _ U_minus (XLit _ (LInt z) _) => Some [- z]
  | XArr _ _ vs => fold_right (fun v r => match plain_value v, r with Some a, Some b => Some (a ++ b) | _, _ => None end) (Some []) vs
  | XTup _ _ d => fold_right (fun kv r => match plain_value (snd kv), r with Some a, Some b => Some (a ++ b) | _, _ => None end) (Some []) d
  | _ => None
  end.
Definition vshow (r : pres vexpr) : option (option (list Z) * option kind * nat) :=
  match r with
  | POk v s => Some (plain_value v, option_map tk_kind (nt (at_ s)), List.length (out s))
  | _ => None
  end.
Lemma vG_order : wf_types vG.
Proof.
  intros r p (rt & E & Pa). destruct r as [|[|[|r]]]; cbn in E.
  4: destruct r; discriminate.
  all: injection E as <-; cbn in Pa; try discriminate. injection Pa as <-. lia.
Qed.
Fixpoint optional_after (l : list component) : Prop :=
  match l with
  | [] => True
  | c :: l' => (c_opt c = true -> Forall (fun c' => c_opt c' = true) l') /\ optional_after l'
  end.
Lemma optional_last l cs c : optional_after l -> forall c' cs' cs'', l = cs ++ c :: cs' ++ c' :: cs'' -> c_opt c = true ->
  c_opt c' = true.
Proof.
  intros H c' cs' cs'' -> Op. induction cs as [|x cs IH]; cbn in H.
  - destruct H as [H _]. specialize (H Op). rewrite Forall_forall in H. apply H. apply in_or_app. cbn. auto.
  - apply IH, H.
Qed.
Lemma vG_tuples : tuples_ok vG.
Proof.
  intros u ut E. destruct u as [|[|[|[|u]]]]; cbn in E; try (destruct u; discriminate); injection E as <-; constructor; cbn.
  all: try discriminate.
  all: try (left; reflexivity).
  all: try (right; reflexivity).
  all: try (repeat constructor; cbn; intuition discriminate).
  all: try (intros c I; repeat destruct I as [<-|I]; try contradiction; cbn; auto; fail).
  all: try (intros _ c w wt I E; repeat destruct I as [<-|I]; try contradiction; cbn in E; discriminate).
  all: try (intros c cs E; injection E as <- _; reflexivity).
  all: try contradiction.
  all: try (intros H; exfalso; apply H; reflexivity).
  all: try (intros _ c I; repeat destruct I as [<-|I]; try contradiction; reflexivity).
  all: intros cs c cs' c' cs'' E Op; revert c' cs' cs'' E Op; apply (optional_last _ cs c); cbn; repeat constructor; try discriminate.
Qed.

Ltac computed r := let x := eval vm_compute in r in match x with POk ?v ?s => exists v, s end.
Definition ar (lo : Z) (hi : option Z) : ty := TArr 0 lo hi TInt.
Example C29_ex :
  vshow (vparse (ar 1 (Some 2)) "[1, -2]") = Some (Some [1; -2], None, 0%nat) /\
  vshow (vparse (ar 1 (Some 2)) "[]") = Some (Some [], None, 1%nat) /\
  vshow (vparse (ar 1 (Some 2)) "[1, 2, 3]") = Some (Some [1; 2; 3], None, 1%nat) /\
  vshow (vparse (ar 0 None) "[1, 2, 3]") = Some (Some [1; 2; 3], None, 0%nat) /\
  (* tolerated: a comma at the end; reported, but not fatal: a missing one *)
  vshow (vparse (ar 0 None) "[1, 2,]") = Some (Some [1; 2], None, 0%nat) /\
  vshow (vparse (ar 0 None) "[1 2]") = Some (Some [1; 2], None, 1%nat).
Proof. repeat apply conj; vm_compute; reflexivity. Qed.
(** The upper bound 0 is not enforced. *)
Theorem C29_zero_refuted : exists v s', vparse (ar 0 (Some 0)) "[1, 2]" = POk v s' /\ out s' = [] /\
  exists l vs, v = XArr l (ar 0 (Some 0)) vs /\ ~ within 0 (Some 0) (List.length vs).
Proof.
  computed (vparse (ar 0 (Some 0)) "[1, 2]"). split; [vm_compute; reflexivity|]. split; [reflexivity|].
  eexists _, _. split; [reflexivity|]. unfold within. cbn. lia.
Qed.
Print Assumptions C29_zero_refuted.

Example C30_ex :
  vshow (vparse (TTup 0) "1 @ 2") = Some (Some [1; 2], None, 0%nat) /\
  vshow (vparse (TTup 1) "1 @ 2 : 3") = Some (Some [1; 2; 3], None, 0%nat) /\
  vshow (vparse (TTup 1) "1 @ 2") = Some (Some [1; 2], None, 0%nat) /\
  vshow (vparse (TTup 1) "1") = Some (Some [1], None, 0%nat) /\
  (* the separators are taken in order *)
  vshow (vparse (TTup 1) "1 : 3") = Some (Some [1], Some COLON, 0%nat) /\
  vshow (vparse (TTup 2) "(1, 2)") = Some (Some [1; 2], None, 0%nat) /\
  vshow (vparse (TTup 2) "(1)") = None /\ vshow (vparse (TTup 2) "(1, 2, 3)") = None /\
  vshow (vparse (TTup 0) "1") = None.
Proof. repeat apply conj; vm_compute; reflexivity. Qed.
(** The notation [1 @ 2 : 3], the general theorems apply to it. *)
Example C30_notation_ex : exists v, value 0 (t "1 @ 2 : 3") vG vobjs vN false (TTup 1) v (vtoks "1 @ 2 : 3") [] /\
  complete_type vG (TTup 1) /\ Forall plain (vtoks "1 @ 2 : 3") /\ ends vG (TTup 1) None /\
  stocked (of_file (t "1 @ 2 : 3")) (at_ (input (vtoks "1 @ 2 : 3"))).
Proof.
  assert (E : vtoks "1 @ 2 : 3" = [Token INTEGER (VInt 1) 1 1 0 0; Token AT VNone 1 3 2 2; Token INTEGER (VInt 2) 1 5 4 4;
                                   Token COLON VNone 1 7 6 6; Token INTEGER (VInt 3) 1 9 8 8]) by reflexivity.
  rewrite E. eexists. split; [|split; [|split; [|split]]].
  - eapply v_separated with (ut := TupType 0 (t "O") [fld 1 "a" false; fld 1 "b" true; fld 1 "c" true] [Sep_at; Sep_colon] []);
      [reflexivity|discriminate|eexists _, _; split; reflexivity|].
    eapply (sq_more _ _ _ _ _ _ _ _ _ _ _ _ _ [Token INTEGER (VInt 1) 1 1 0 0] [] (Token AT VNone 1 3 2 2) _
             [Token INTEGER (VInt 2) 1 5 4 4; Token COLON VNone 1 7 6 6; Token INTEGER (VInt 3) 1 9 8 8] []).
    + apply v_int; reflexivity.
    + constructor. reflexivity.
    + eapply (sq_more _ _ _ _ _ _ _ _ _ _ _ _ _ [Token INTEGER (VInt 2) 1 5 4 4] [] (Token COLON VNone 1 7 6 6) _
               [Token INTEGER (VInt 3) 1 9 8 8] []).
      * apply v_int; reflexivity.
      * constructor. reflexivity.
      * apply sq_last. apply v_int; reflexivity.
  - cbn. lia.
  - repeat constructor; discriminate.
  - intros ut _ _ tk H. discriminate H.
  - split; unfold of_file; cbn; intros tk H K; [injection H as <-; discriminate K|].
    repeat destruct H as [H|H]; try contradiction; injection H as <-; discriminate K.
Qed.
(** A separator before a mandatory field may be missing. *)
Theorem C30_missing_separator_refuted : exists v s', vparse (TTup 0) "1 2" = POk v s' /\ out s' = [] /\
  nt (at_ s') = None /\ plain_value v = Some [1; 2] /\ Forall (fun tk => ~ separates Sep_at tk) (vtoks "1 2").
Proof.
  computed (vparse (TTup 0) "1 2"). split; [vm_compute; reflexivity|]. split; [reflexivity|]. split; [reflexivity|].
  split; [reflexivity|].
  repeat constructor; intros H; inversion H; discriminate.
Qed.
Print Assumptions C30_missing_separator_refuted.
(** And then an optional value is lost, although its separator is read. *)
Example C30_lost_value : vshow (vparse (TTup 3) "1 2 : 3") = Some (Some [1; 2], Some INTEGER, 0%nat).
Proof. vm_compute. reflexivity. Qed.

Definition an_object (v : vexpr) : object := Object 0 (t "ob") (tok_loc 0 (Token IDENTIFIER VNone 1 1 0 0)) 0 [(t "f", (0%nat, v))].
Definition vresolved (a : ty) (s : string) : option (option nat) :=
  match vparse a s with
  | POk v _ => match resolve_object vG vobjs vN (an_object v) with
               | Ok ob => match o_fields ob with [(_, (_, XRef _ _ _ _ tgt))] => Some tgt | _ => None end
               | _ => None
               end
  | _ => None
  end.
Example C32_ex :
  (* s_1 is of type S, and S extends R *)
  vresolved (TRec 0) "s_1" = Some (Some 0%nat) /\ vresolved (TRec 1) "P.s_1" = Some (Some 0%nat) /\
  vshow (vparse (TRec 2) "s_1") = None /\ vresolved (TUnion 0 [2; 0]%nat) "s_1" = Some (Some 0%nat) /\
  vshow (vparse (TUnion 0 [2]%nat) "s_1") = None /\
  (* unknown, a type *)
  vresolved (TRec 0) "nothing" = None /\ vresolved (TRec 0) "R" = None.
Proof. repeat apply conj; vm_compute; reflexivity. Qed.
(** A forward reference and its resolution. *)
Example C32_forward :
  let r := XRef (tok_loc 0 (Token IDENTIFIER VNone 1 1 0 0)) (Some (TRec 0)) 0 (t "s_1") None in
  (exists ob', resolve_object vG vobjs vN (an_object r) = Ok ob' /\
     object_ref ob' (tok_loc 0 (Token IDENTIFIER VNone 1 1 0 0)) (Some (TRec 0)) 0 (t "s_1") (Some 0%nat)) /\
  known_objects vobjs vN /\ vt0 vG vobjs (TRec 0) r.
Proof.
  split; [|split].
  - eexists. split; [reflexivity|]. exists (t "f"), 0%nat. eexists. split; [left; reflexivity|]. constructor.
  - intros p nm nm' o H. apply ExprTyping.t_find_in in H. unfold p_symbols in H. apply in_app_or in H as [H|H].
    + destruct p as [|[|p]]; cbn in H; try contradiction.
      repeat destruct H as [H|H]; try contradiction; try discriminate; injection H as _ <-; cbn; eauto.
    + cbn in H. repeat destruct H as [H|H]; try contradiction; discriminate.
  - eapply vt0_ref; cbn; auto.
Qed.
