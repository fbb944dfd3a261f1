(** Properties C17 and C18: symbol tables and scopes. *)
From Verif Require Import Base SymTab SymTabProofs.
Open Scope N_scope.

(** A concrete instance for the examples: entities are (name, tag). *)
Definition ent := (text * N)%type.
Definition nm (e : ent) : text := fst e.
Definition ex_ops : list (op ent) :=
  [New _ None; Register _ 0 (t "Integer", 1); New _ None; Make_visible _ 1 0;
   Register _ 1 (t "T_1", 2); Register _ 1 (t "t1", 3); New _ None; Register _ 2 (t "x", 4);
   New _ (Some 2%nat)].
Definition ex_heap : list (table ent) := fold_left (step ent nm) ex_ops [].

(** C17: simplified names in a table are pairwise distinct, whatever the history. *)
Theorem C17_distinct :
  forall (E : Type) (name : E -> text) (h : list (table E)) i tb,
    reachable E name h -> nth_error h i = Some tb ->
    forall a b x y, nth_error (entries E tb) a = Some x -> nth_error (entries E tb) b = Some y ->
      a <> b -> ~ similar (name (snd x)) (name (snd y)).
Proof.
  intros E name h i tb R T a b x y A B N S. apply similar_iff in S.
  destruct (wf_tb E name h i tb (reachable_wf _ _ _ R) T) as [K D].
  rewrite Forall_forall in K.
  pose proof (K _ (nth_error_In _ _ A)) as Ka. pose proof (K _ (nth_error_In _ _ B)) as Kb.
  rewrite NoDup_nth_error in D. apply N, D.
  - rewrite map_length. apply nth_error_Some. congruence.
  - rewrite (map_nth_error fst _ _ A), (map_nth_error fst _ _ B). congruence.
Qed.
Print Assumptions C17_distinct.

(** C17: a registration succeeds exactly when no visible entity has a similar
    name, and then only adds the new entity; otherwise it names a culprit. *)
Theorem C17_register :
  forall (E : Type) (name : E -> text) (h : list (table E)) i e,
    reachable E name h -> (i < length h)%nat ->
    match register E name h i e with
    | Ok h' => (forall x, visible E h i x -> ~ similar (name x) (name e)) /\ h' = add_entry E name h i e
    | Err (Duplicate _ x) => visible E h i x /\ name x = name e
    | Err (Too_similar _ x) => visible E h i x /\ similar (name x) (name e) /\ name x <> name e
    | _ => False
    end.
Proof. intros E name h i e R L. apply register_spec; auto. apply reachable_wf; auto. Qed.
Print Assumptions C17_register.

Theorem C17_add_entry :
  forall (E : Type) (name : E -> text) (h : list (table E)) i e, (i < length h)%nat ->
    forall j x, entry E (add_entry E name h i e) j x <-> entry E h j x \/ (j = i /\ x = e).
Proof. intros. apply add_entry_entry; auto. Qed.
Print Assumptions C17_add_entry.

(** C17: together with everything in enclosing and imported tables. *)
Theorem C17_enclosing :
  forall (E : Type) (name : E -> text) (h : list (table E)), disciplined E name h ->
    forall i x y, (i < length h)%nat -> visible E h i x -> visible E h i y ->
      similar (name x) (name y) -> x = y.
Proof. exact disciplined_distinct. Qed.
Print Assumptions C17_enclosing.

(** The order matters: adding to an enclosing table afterwards is not
    checked against the inner one. *)
Theorem C17_order_matters :
  exists h, reachable ent nm h /\
    exists i x y, visible ent h i x /\ visible ent h i y /\ similar (nm x) (nm y) /\ x <> y.
Proof.
  exists (fold_left (step ent nm)
    [New _ None; New _ (Some 0%nat); Register _ 1 (t "a", 1); Register _ 0 (t "A", 2)] []).
  split.
  - cbn [fold_left].
    repeat (apply re_step; [|cbn; auto; try lia]). constructor.
  - exists 1%nat, (t "a", 1), (t "A", 2). split; [|split; [|split]].
    + exists 1%nat. split; [left; constructor|]. eexists. split; [reflexivity|]. left; reflexivity.
    + exists 0%nat. split; [left; eapply anc_parent; [reflexivity|reflexivity|constructor]|].
      eexists. split; [reflexivity|]. left; reflexivity.
    + apply similar_iff. reflexivity.
    + discriminate.
Qed.
Print Assumptions C17_order_matters.

Example C17_ex : register ent nm ex_heap 1 (t "T1", 9) = Err (Too_similar _ (t "T_1", 2)) /\
                 register ent nm ex_heap 1 (t "INTEGER", 9) = Err (Too_similar _ (t "Integer", 1)) /\
                 register ent nm ex_heap 3 (t "x", 9) = Err (Duplicate _ (t "x", 4)) /\
                 (exists h, register ent nm ex_heap 3 (t "y", 9) = Ok h).
Proof. repeat split; try reflexivity. eexists. reflexivity. Qed.

(** C18: what a lookup returns or reports is true. *)
Theorem C18_lookup_sound :
  forall (E : Type) (name_of : E -> text) (h : list (table E)) i name req,
    reachable E name_of h -> (i < length h)%nat ->
    match lookup_direct E name_of h i name req false with
    | Ok e => visible E h i e /\ name_of e = name /\ (forall c, req = Some c -> c e = true)
    | Err (Did_you_mean _ e) => visible E h i e /\ similar (name_of e) name /\ name_of e <> name
    | Err (Unknown_symbol _) => forall e, visible E h i e -> ~ similar (name_of e) name
    | Err (Wrong_class _ e) => visible E h i e /\ name_of e = name /\ (exists c, req = Some c /\ c e = false)
    | _ => False
    end.
Proof. exact lookup_sound. Qed.
Print Assumptions C18_lookup_sound.

(** C18: everything visible is found under its own name. *)
Theorem C18_lookup_complete :
  forall (E : Type) (name_of : E -> text) (h : list (table E)) i e,
    disciplined E name_of h -> (i < length h)%nat -> visible E h i e ->
    lookup_direct E name_of h i (name_of e) None false = Ok e.
Proof. exact lookup_complete. Qed.
Print Assumptions C18_lookup_complete.

(** C18: [contains] is membership under the exact spelling. *)
Theorem C18_contains :
  forall (E : Type) (name_of : E -> text) (h : list (table E)) i name,
    disciplined E name_of h -> (i < length h)%nat ->
    exists b, contains E name_of h i name = Some b /\
              (b = true <-> exists e, visible E h i e /\ name_of e = name).
Proof. exact contains_spec. Qed.
Print Assumptions C18_contains.

(** C18: a scope asks its innermost table that knows the name. *)
Theorem C18_scope_lookup :
  forall (E : Type) (name_of : E -> text) (h : list (table E)) s bottom name req,
    disciplined E name_of h -> Forall (fun i => (i < length h)%nat) (bottom :: s) ->
    (exists outer i inner, s = outer ++ i :: inner /\
       (exists e, visible E h i e /\ name_of e = name) /\
       (forall k e, In k inner -> visible E h k e -> name_of e <> name) /\
       scope_lookup E name_of h (bottom :: s) name req = lookup_direct E name_of h i name req false) \/
    ((forall k e, In k s -> visible E h k e -> name_of e <> name) /\
     scope_lookup E name_of h (bottom :: s) name req = lookup_direct E name_of h bottom name req false).
Proof. exact scope_lookup_spec. Qed.
Print Assumptions C18_scope_lookup.

Theorem C18_scope_contains :
  forall (E : Type) (name_of : E -> text) (h : list (table E)) s name,
    disciplined E name_of h -> Forall (fun i => (i < length h)%nat) s ->
    exists b, scope_contains E name_of h s name = Some b /\
              (b = true <-> exists i e, In i s /\ visible E h i e /\ name_of e = name).
Proof. exact scope_contains_spec. Qed.
Print Assumptions C18_scope_contains.

(** The example heap meets the hypotheses: a built-in table, a package that
    imports it, a record type's components and those of an extension. *)
Lemma leaf_quiet (h : list (table ent)) i :
  Forall (fun tb => parent _ tb <> Some i /\ ~ In i (imported _ tb)) h ->
  forall k x, sees ent h k i -> visible ent h k x -> visible ent h i x.
Proof.
  intros F k x S V. rewrite Forall_forall in F.
  assert (A : forall k j, ancestor ent h k j -> j = i -> k = i).
  { induction 1; auto. intros ->. exfalso. rewrite (IHancestor eq_refl) in H0.
    apply nth_error_In, F in H. tauto. }
  enough (k = i) by (subst; auto).
  destruct S as [S|(tb & m & T & I & S)]; eauto.
  exfalso. rewrite (A m i S eq_refl) in I. apply nth_error_In, F in T. tauto.
Qed.

Example C18_ex_disciplined : disciplined ent nm ex_heap.
Proof.
  unfold ex_heap, ex_ops. cbn [fold_left].
  repeat match goal with |- disciplined _ _ (step _ _ ?h ?o) => apply di_step end; try constructor;
    cbn; try lia; auto;
    try (apply leaf_quiet; repeat constructor; cbn; intuition discriminate).
  - repeat split; auto.
    + intros tb E. injection E as <-. reflexivity.
    + destruct k as [|[|k]]; cbn in H; [injection H as <-|injection H as <-|destruct k]; cbn; discriminate.
    + destruct k as [|[|k]]; cbn in H; [injection H as <-|injection H as <-|destruct k; discriminate]; cbn; auto.
  - intros x y (j & S & E) _ _. destruct S as [A|(tb & m & T & I & A)].
    + inversion A; subst; [destruct E as (tb & T & I); cbn in T; injection T as <-; contradiction|].
      cbn in H. injection H as <-. discriminate.
    + cbn in T. injection T as <-. contradiction.
Qed.

Example C18_ex :
  lookup_direct ent nm ex_heap 1 (t "Integer") None false = Ok (t "Integer", 1) /\
  lookup_direct ent nm ex_heap 1 (t "t_1") None false = Err (Did_you_mean _ (t "T_1", 2)) /\
  lookup_direct ent nm ex_heap 3 (t "x") None false = Ok (t "x", 4) /\
  scope_lookup ent nm ex_heap [0; 1; 3]%nat (t "T_1") None = Ok (t "T_1", 2) /\
  contains ent nm ex_heap 1 (t "integer") = Some false.
Proof. repeat split; reflexivity. Qed.
