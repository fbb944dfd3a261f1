(** Symbol tables: similar names, visibility, registration histories. *)
From Coq Require Import ZifyBool ZifyN ZifyNat.
From Verif Require Import Base LexSpec LexerProofs SymTab.
Open Scope N_scope.

(** ** Names that are too similar *)

Definition same_letter (c d : char) : Prop :=
  c = d \/ (65 <= c <= 90 /\ d = c + 32) \/ (65 <= d <= 90 /\ c = d + 32).

(** [similar a b]: equal up to upper/lower case of letters and underscores. *)
Inductive similar : text -> text -> Prop :=
| sim_nil : similar [] []
| sim_left a b : similar a b -> similar (95 :: a) b
| sim_right a b : similar a b -> similar a (95 :: b)
| sim_char c d a b : same_letter c d -> similar a b -> similar (c :: a) (d :: b).

Lemma lower_same c d : lower c = lower d <-> same_letter c d.
Proof.
  unfold lower, same_letter.
  destruct ((65 <=? c) && (c <=? 90)) eqn:C, ((65 <=? d) && (d <=? 90)) eqn:D; lia.
Qed.

Lemma lower_under c : lower c = 95 <-> c = 95.
Proof. unfold lower. destruct ((65 <=? c) && (c <=? 90)) eqn:C; lia. Qed.

Lemma simplified_cons c a :
  simplified_name (c :: a) = if c =? 95 then simplified_name a else lower c :: simplified_name a.
Proof.
  unfold simplified_name. cbn. pose proof (lower_under c).
  destruct (N.eqb_spec (lower c) 95), (N.eqb_spec c 95); cbn; auto; tauto.
Qed.

Lemma similar_sound a b : similar a b -> simplified_name a = simplified_name b.
Proof.
  induction 1; rewrite ?simplified_cons; auto.
  apply lower_same in H. destruct (N.eqb_spec c 95), (N.eqb_spec d 95); subst; auto; try congruence.
  - exfalso. apply n. apply lower_under. rewrite <- H. reflexivity.
  - exfalso. apply n. apply lower_under. rewrite H. reflexivity.
Qed.

Lemma similar_complete a b : simplified_name a = simplified_name b -> similar a b.
Proof.
  revert b. induction a as [|c a IH].
  - induction b as [|d b IHb]; intros E; [constructor|]. rewrite simplified_cons in E.
    destruct (N.eqb_spec d 95); [subst; apply sim_right; auto|discriminate].
  - intros b E. rewrite simplified_cons in E. destruct (N.eqb_spec c 95) as [->|N]; [apply sim_left; auto|].
    induction b as [|d b IHb]; [discriminate|]. rewrite simplified_cons in E.
    destruct (N.eqb_spec d 95) as [->|Nd]; [apply sim_right; auto|].
    injection E as E1 E2. apply sim_char; auto. apply lower_same; auto.
Qed.

Lemma similar_iff a b : similar a b <-> simplified_name a = simplified_name b.
Proof. split; [apply similar_sound|apply similar_complete]. Qed.

Lemma NoDup_app_one {A} (l : list A) x : NoDup l -> ~ In x l -> NoDup (l ++ [x]).
Proof.
  induction 1 as [|y l Ny N IH]; intros I; cbn.
  - repeat constructor; auto.
  - constructor.
    + rewrite in_app_iff. cbn. intros [?|[?|[]]]; auto. apply I. left; auto.
    + apply IH. intros ?. apply I. right; auto.
Qed.

Section STAB.
Variable Entity : Type.
Variable name_of : Entity -> text.
Notation table := (table Entity).
Notation heap := (list table).

(** ** Visibility *)

(** [ancestor h i j]: table [j] is [i] or is reached through parents. *)
Inductive ancestor (h : heap) : nat -> nat -> Prop :=
| anc_self i : ancestor h i i
| anc_parent i p j tb : nth_error h i = Some tb -> parent _ tb = Some p -> ancestor h p j -> ancestor h i j.

Definition sees (h : heap) (i j : nat) : Prop :=
  ancestor h i j \/ exists tb k, nth_error h i = Some tb /\ In k (imported _ tb) /\ ancestor h k j.

Definition entry (h : heap) (j : nat) (e : Entity) : Prop :=
  exists tb, nth_error h j = Some tb /\ In e (map snd (entries _ tb)).

Definition visible (h : heap) (i : nat) (e : Entity) : Prop := exists j, sees h i j /\ entry h j e.

(** ** Well-formed heaps *)

Definition keys_ok (tb : table) : Prop :=
  Forall (fun p => fst p = simplified_name (name_of (snd p))) (entries _ tb) /\
  NoDup (map fst (entries _ tb)).

(** Parents are created earlier; tables with a parent import nothing; imported
    tables and parents import nothing. *)
Record wf (h : heap) : Prop := {
  wf_keys : Forall keys_ok h;
  wf_parent : forall i tb p, nth_error h i = Some tb -> parent _ tb = Some p ->
              (p < i)%nat /\ imported _ tb = [] /\ imports_of _ h p = [];
  wf_import : forall i tb k, nth_error h i = Some tb -> In k (imported _ tb) ->
              (k < length h)%nat /\ imports_of _ h k = []
}.

Lemma dict_get_some d k e : dict_get Entity d k = Some e -> In (k, e) d.
Proof.
  unfold dict_get. destruct (find _ d) as [[k' e']|] eqn:F; [|discriminate].
  intros E. injection E as <-. apply find_some in F as [F1 F2]. cbn in F2. apply text_eqb_eq in F2. subst; auto.
Qed.

Lemma dict_get_none d k e : dict_get Entity d k = None -> ~ In (k, e) d.
Proof.
  unfold dict_get. destruct (find _ d) as [[k' e']|] eqn:F; [discriminate|].
  intros _ I. apply (find_none _ _ F) in I. cbn in I. rewrite text_eqb_refl in I. discriminate.
Qed.

Lemma dict_get_unique d k e : NoDup (map fst d) -> In (k, e) d -> dict_get Entity d k = Some e.
Proof.
  intros N I. destruct (dict_get Entity d k) as [e'|] eqn:G.
  - apply dict_get_some in G. f_equal.
    induction d as [|[k0 e0] d IH]; [contradiction|]. cbn in N. inversion N; subst.
    destruct I as [I|I], G as [G|G]; try congruence; auto.
    + injection I as -> ->. exfalso. apply H1. apply in_map_iff. exists (k, e'). auto.
    + injection G as -> ->. exfalso. apply H1. apply in_map_iff. exists (k, e). auto.
  - exfalso. exact (dict_get_none _ _ _ G I).
Qed.

(** An entry of a table with good keys is found under its simplified name. *)
Lemma keys_get tb e : keys_ok tb -> In e (map snd (entries _ tb)) ->
  dict_get Entity (entries _ tb) (simplified_name (name_of e)) = Some e.
Proof.
  intros [K N] I. apply in_map_iff in I as ([k e'] & E & I). cbn in E. subst e'.
  apply dict_get_unique; auto. rewrite Forall_forall in K. specialize (K _ I). cbn in K. subst; auto.
Qed.

Lemma keys_get_inv tb k e : keys_ok tb -> dict_get Entity (entries _ tb) k = Some e ->
  k = simplified_name (name_of e) /\ In e (map snd (entries _ tb)).
Proof.
  intros [K N] G. apply dict_get_some in G. split.
  - rewrite Forall_forall in K. exact (K _ G).
  - apply in_map_iff. exists (k, e). auto.
Qed.

Lemma wf_tb h i tb : wf h -> nth_error h i = Some tb -> keys_ok tb.
Proof. intros W E. pose proof (wf_keys h W) as F. rewrite Forall_forall in F. apply F. eapply nth_error_In; eauto. Qed.

(** ** Searching a chain *)

Lemma chain_find_spec h simple : wf h -> forall fuel i, (i < fuel)%nat -> (i < length h)%nat ->
  match chain_find Entity fuel h i simple with
  | Found _ e => exists j, ancestor h i j /\ entry h j e /\ simplified_name (name_of e) = simple
  | NotFound _ => forall j e, ancestor h i j -> entry h j e -> simplified_name (name_of e) <> simple
  | Loop _ => False
  end.
Proof.
  intros W. induction fuel as [|f IH]; intros i Hi Hl; [lia|]. cbn [chain_find].
  destruct (nth_error h i) as [tb|] eqn:T.
  2:{ apply nth_error_None in T. lia. }
  pose proof (wf_tb _ _ _ W T) as K.
  destruct (dict_get Entity (entries Entity tb) simple) as [e|] eqn:G.
  - apply keys_get_inv in G as [-> I]; auto. exists i. split; [constructor|]. split; auto. exists tb; auto.
  - destruct (parent Entity tb) as [p|] eqn:P.
    + destruct (wf_parent _ W _ _ _ T P) as (Hp & _ & _).
      specialize (IH p ltac:(lia) ltac:(lia)). destruct (chain_find Entity f h p simple); auto.
      * destruct IH as (j & A & E). exists j. split; auto. econstructor; eauto.
      * intros j e A E. inversion A; subst.
        -- destruct E as (tb' & T' & I). rewrite T in T'. injection T' as <-. intros <-.
           rewrite (keys_get _ _ K I) in G. discriminate.
        -- rewrite T in H. injection H as <-. rewrite P in H0. injection H0 as <-. eapply IH; eauto.
    + intros j e A E. inversion A; subst.
      * destruct E as (tb' & T' & I). rewrite T in T'. injection T' as <-. intros <-.
        rewrite (keys_get _ _ K I) in G. discriminate.
      * rewrite T in H. injection H as <-. congruence.
Qed.

Lemma ancestor_range h i j : wf h -> ancestor h i j -> (i < length h)%nat -> (j < length h)%nat.
Proof.
  intros W A. induction A; auto. intros L. apply IHA.
  destruct (wf_parent _ W _ _ _ H H0) as (Hp & _). lia.
Qed.

Lemma search_spec h simple fuel : wf h -> (length h <= fuel)%nat -> forall ptrs, Forall (fun i => (i < length h)%nat) ptrs ->
  match search Entity fuel h ptrs simple with
  | Found _ e => exists i j, In i ptrs /\ ancestor h i j /\ entry h j e /\ simplified_name (name_of e) = simple
  | NotFound _ => forall i j e, In i ptrs -> ancestor h i j -> entry h j e -> simplified_name (name_of e) <> simple
  | Loop _ => False
  end.
Proof.
  intros W F. induction ptrs as [|i ptrs IH]; intros R; cbn [search].
  - intros i j e [].
  - inversion R; subst. pose proof (chain_find_spec h simple W fuel i ltac:(lia) ltac:(lia)) as C.
    destruct (chain_find Entity fuel h i simple); auto.
    + destruct C as (j & C). exists i, j. split; auto. left; auto.
    + specialize (IH H2). destruct (search Entity fuel h ptrs simple); auto.
      * destruct IH as (i' & j & I & IH). exists i', j. split; auto. right; auto.
      * intros i' j e [<-|I]; eauto.
Qed.

Lemma imports_range h i : wf h -> Forall (fun k => (k < length h)%nat) (imports_of _ h i).
Proof.
  intros W. unfold imports_of. destruct (nth_error h i) as [tb|] eqn:T; [|constructor].
  apply Forall_forall. intros k I. apply (wf_import _ W _ _ _ T I).
Qed.

Lemma sees_ptrs h i j : (i < length h)%nat ->
  sees h i j <-> exists k, In k (i :: imports_of _ h i) /\ ancestor h k j.
Proof.
  intros L. unfold sees, imports_of. destruct (nth_error h i) as [tb|] eqn:T.
  2:{ apply nth_error_None in T. lia. }
  split.
  - intros [A|(tb' & k & T' & I & A)].
    + exists i. split; auto. left; auto.
    + injection T' as <-. exists k. split; auto. right; auto.
  - intros (k & [<-|I] & A); auto. right. eauto.
Qed.

(** [lookup_direct] and [contains_raw] in terms of visibility. *)
Definition searched (h : heap) (i : nat) (simple : text) : found Entity :=
  search Entity (fuel_of _ h) h (i :: imports_of _ h i) simple.

Lemma searched_spec h i simple : wf h -> (i < length h)%nat ->
  match searched h i simple with
  | Found _ e => visible h i e /\ simplified_name (name_of e) = simple
  | NotFound _ => forall e, visible h i e -> simplified_name (name_of e) <> simple
  | Loop _ => False
  end.
Proof.
  intros W L. unfold searched.
  pose proof (search_spec h simple (fuel_of _ h) W ltac:(unfold fuel_of; lia) (i :: imports_of _ h i)) as S.
  specialize (S ltac:(constructor; [auto|apply imports_range; auto])).
  destruct (search Entity (fuel_of Entity h) h (i :: imports_of Entity h i) simple); auto.
  - destruct S as (k & j & I & A & E & N). split; auto. exists j. split; auto. apply sees_ptrs; eauto.
  - intros e (j & Se & E). apply sees_ptrs in Se as (k & I & A); auto. eapply S; eauto.
Qed.

(** [contains_raw] computes the same search. *)
Lemma contains_raw_chain h simple precise : wf h -> forall fuel i, (i < fuel)%nat -> (i < length h)%nat ->
  imports_of _ h i = [] ->
  contains_raw Entity name_of fuel h i simple precise =
  match chain_find Entity fuel h i simple with
  | Found _ e => Some (precise_ok Entity name_of precise e)
  | NotFound _ => Some false
  | Loop _ => None
  end.
Proof.
  intros W. induction fuel as [|f IH]; intros i Hi Hl Im; [lia|]. cbn [contains_raw chain_find].
  unfold imports_of in Im. destruct (nth_error h i) as [tb|] eqn:T; auto.
  destruct (dict_get Entity (entries Entity tb) simple); auto.
  destruct (parent Entity tb) as [p|] eqn:P.
  - destruct (wf_parent _ W _ _ _ T P) as (Hp & _ & Ip). apply IH; auto; lia.
  - rewrite Im. auto.
Qed.

Lemma chain_find_fuel h simple : wf h -> forall f1 f2 i, (i < f1)%nat -> (i < f2)%nat ->
  chain_find Entity f1 h i simple = chain_find Entity f2 h i simple.
Proof.
  intros W. induction f1 as [|f1 IH]; intros f2 i H1 H2; [lia|]. destruct f2 as [|f2]; [lia|]. cbn [chain_find].
  destruct (nth_error h i) as [tb|] eqn:T; auto.
  destruct (dict_get Entity (entries Entity tb) simple); auto.
  destruct (parent Entity tb) as [p|] eqn:P; auto.
  destruct (wf_parent _ W _ _ _ T P) as (Hp & _). apply IH; lia.
Qed.

Lemma contains_searched h i simple precise : wf h -> (i < length h)%nat ->
  (* the code and [lookup] agree, except that a clash of spelling in an
     imported table does not stop the former *)
  match searched h i simple with
  | Found _ e => precise_ok Entity name_of precise e = true ->
                 contains_raw Entity name_of (fuel_of _ h) h i simple precise = Some true
  | NotFound _ => contains_raw Entity name_of (fuel_of _ h) h i simple precise = Some false
  | Loop _ => True
  end.
Proof.
  intros W L. unfold searched, fuel_of at 1. set (f := S (length h)).
  assert (Hf : (i < f)%nat) by (unfold f; lia).
  cbn [search].
  replace (contains_raw Entity name_of (fuel_of _ h) h i simple precise) with
    (contains_raw Entity name_of (S f) h i simple precise) by reflexivity.
  destruct (nth_error h i) as [tb|] eqn:T.
  2:{ apply nth_error_None in T. lia. }
  destruct (parent Entity tb) as [p|] eqn:P.
  { destruct (wf_parent _ W _ _ _ T P) as (Hp & Im & Ip).
    assert (Im' : imports_of _ h i = []) by (unfold imports_of; rewrite T; auto).
    rewrite (contains_raw_chain h simple precise W (S f) i) by (auto; lia).
    rewrite Im'. cbn [search].
    destruct (chain_find Entity (S f) h i simple); auto. intros ->; auto. }
  cbn [contains_raw chain_find]. rewrite T.
  destruct (dict_get Entity (entries Entity tb) simple) as [e|] eqn:G.
  { intros ->; auto. }
  rewrite P. unfold imports_of. rewrite T.
  assert (R : forall k, In k (imported _ tb) -> (k < length h)%nat /\ imports_of _ h k = []).
  { intros k I. apply (wf_import _ W _ _ _ T I). }
  induction (imported Entity tb) as [|k l IH]; cbn [search]; auto.
  destruct (R k (or_introl eq_refl)) as [Lk Ik].
  rewrite (contains_raw_chain h simple precise W f k) by (auto; unfold f; lia).
  rewrite (chain_find_fuel h simple W f (S f) k) by (unfold f; lia).
  pose proof (chain_find_spec h simple W (S f) k ltac:(unfold f; lia) Lk) as CF.
  destruct (chain_find Entity (S f) h k simple); [|apply IH; intros; apply R; right; auto|contradiction].
  intros ->. auto.
Qed.

Lemma contains_raw_sound h i simple precise : wf h -> (i < length h)%nat ->
  match contains_raw Entity name_of (fuel_of _ h) h i simple precise with
  | Some true => exists e, visible h i e /\ precise_ok Entity name_of precise e = true
  | Some false => True
  | None => False
  end.
Proof.
  intros W L. set (f := S (length h)).
  replace (contains_raw Entity name_of (fuel_of _ h) h i simple precise) with
    (contains_raw Entity name_of (S f) h i simple precise) by reflexivity.
  destruct (nth_error h i) as [tb|] eqn:T.
  2:{ apply nth_error_None in T. lia. }
  assert (Chain : forall fuel k, (k < fuel)%nat -> (k < length h)%nat -> imports_of _ h k = [] -> (forall j, ancestor h k j -> sees h i j) ->
    match contains_raw Entity name_of fuel h k simple precise with
    | Some true => exists e, visible h i e /\ precise_ok Entity name_of precise e = true
    | Some false => True
    | None => False
    end).
  { intros fuel k Lf Lk Ik Se. rewrite (contains_raw_chain h simple precise W fuel k) by auto.
    pose proof (chain_find_spec h simple W fuel k Lf Lk) as CF.
    destruct (chain_find Entity fuel h k simple) as [e| |]; auto.
    destruct (precise_ok Entity name_of precise e) eqn:P; auto.
    destruct CF as (j & A & E & _). exists e. split; auto. exists j. split; auto. }
  destruct (parent Entity tb) as [p|] eqn:P.
  { destruct (wf_parent _ W _ _ _ T P) as (Hp & Im & Ip). apply Chain; auto.
    - unfold f; lia.
    - unfold imports_of. rewrite T; auto.
    - intros j A. left; auto. }
  cbn [contains_raw]. rewrite T.
  destruct (dict_get Entity (entries Entity tb) simple) as [e|] eqn:G.
  { destruct (precise_ok Entity name_of precise e) eqn:Pe; auto. exists e. split; auto.
    exists i. split; [left; constructor|]. exists tb. split; auto.
    apply (keys_get_inv tb simple e); auto. eapply wf_tb; eauto. }
  rewrite P.
  assert (R : forall k, In k (imported _ tb) -> (k < length h)%nat /\ imports_of _ h k = [] /\ forall j, ancestor h k j -> sees h i j).
  { intros k I. destruct (wf_import _ W _ _ _ T I). repeat split; auto. intros j A. right. eauto. }
  induction (imported Entity tb) as [|k l IH]; auto.
  destruct (R k (or_introl eq_refl)) as (Lk & Ik & Sk).
  pose proof (Chain f k ltac:(unfold f; lia) Lk Ik Sk) as C.
  destruct (contains_raw Entity name_of f h k simple precise) as [[|]|]; auto. apply IH. intros; apply R; right; auto.
Qed.

Lemma contains_none h i simple : wf h -> (i < length h)%nat ->
  contains_raw Entity name_of (fuel_of _ h) h i simple None =
  Some (match searched h i simple with Found _ _ => true | _ => false end).
Proof.
  intros W L. pose proof (contains_searched h i simple None W L) as C.
  pose proof (searched_spec h i simple W L) as S.
  destruct (searched h i simple); auto. contradiction.
Qed.

(** ** Registration *)

Lemma nth_update {A} (l : list A) i j x :
  nth_error (update l i x) j = if Nat.eqb i j then (match nth_error l i with Some _ => Some x | None => None end) else nth_error l j.
Proof.
  revert i j. induction l as [|y l IH]; intros [|i] [|j]; cbn; auto.
  - destruct (Nat.eqb i j); auto.
Qed.

Lemma update_length {A} (l : list A) i x : length (update l i x) = length l.
Proof. revert i. induction l; intros [|i]; cbn; auto. Qed.

Lemma update_Forall {A} (P : A -> Prop) l i x : Forall P l -> P x -> Forall P (update l i x).
Proof. intros F. revert i. induction F; intros [|i] Px; cbn; constructor; auto. Qed.

(** Tables keep their links when an entry is added. *)
Definition same_links (h h' : heap) : Prop :=
  length h = length h' /\
  forall i, match nth_error h i, nth_error h' i with
            | Some a, Some b => parent _ a = parent _ b /\ imported _ a = imported _ b
            | None, None => True
            | _, _ => False
            end.

Lemma same_links_imports h h' i : same_links h h' -> imports_of _ h i = imports_of _ h' i.
Proof.
  intros [_ S]. specialize (S i). unfold imports_of.
  destruct (nth_error h i), (nth_error h' i); try contradiction; auto. apply S.
Qed.

Lemma same_links_ancestor h h' i j : same_links h h' -> ancestor h i j <-> ancestor h' i j.
Proof.
  intros [_ S]. split; induction 1; try constructor;
    pose proof (S i) as Si; rewrite H in Si.
  - destruct (nth_error h' i) as [tb'|] eqn:T; [|contradiction]. destruct Si as [Sp _].
    eapply anc_parent; eauto. congruence.
  - destruct (nth_error h i) as [tb'|] eqn:T; [|contradiction]. destruct Si as [Sp _].
    eapply anc_parent; eauto. congruence.
Qed.

Lemma same_links_sees1 h h' i j : same_links h h' -> sees h i j -> sees h' i j.
Proof.
  intros S. pose proof S as [_ S']. specialize (S' i).
  intros [A|(tb & k & T & I & A)].
  - left. apply (same_links_ancestor h h'); auto.
  - right. rewrite T in S'. destruct (nth_error h' i) as [tb'|] eqn:T'; [|contradiction].
    exists tb', k. destruct S' as [_ <-]. repeat split; auto. apply (same_links_ancestor h h'); auto.
Qed.

Lemma same_links_sym h h' : same_links h h' -> same_links h' h.
Proof.
  intros [L S]. split; auto. intros i. specialize (S i).
  destruct (nth_error h i), (nth_error h' i); auto. destruct S; auto.
Qed.

Lemma same_links_sees h h' i j : same_links h h' -> sees h i j <-> sees h' i j.
Proof. split; apply same_links_sees1; auto. apply same_links_sym; auto. Qed.

Definition add_entry (h : heap) (i : nat) (e : Entity) : heap :=
  match nth_error h i with
  | Some tb => update h i (Table _ (parent _ tb) (imported _ tb) (entries _ tb ++ [(simplified_name (name_of e), e)]))
  | None => h
  end.

Lemma add_entry_links h i e : same_links h (add_entry h i e).
Proof.
  unfold add_entry. destruct (nth_error h i) as [tb|] eqn:T.
  - split; [symmetry; apply update_length|]. intros j. rewrite nth_update. destruct (Nat.eqb_spec i j).
    + subst j. rewrite T. auto.
    + destruct (nth_error h j); auto.
  - split; auto. intros j. destruct (nth_error h j); auto.
Qed.

Lemma add_entry_entry h i e j x : (i < length h)%nat ->
  entry (add_entry h i e) j x <-> entry h j x \/ (j = i /\ x = e).
Proof.
  intros L. unfold add_entry, entry. destruct (nth_error h i) as [tb|] eqn:T.
  2:{ apply nth_error_None in T. lia. }
  rewrite nth_update, T. destruct (Nat.eqb_spec i j).
  - subst j. split.
    + intros (tb' & E & I). injection E as <-. cbn in I. rewrite map_app, in_app_iff in I. cbn in I.
      destruct I as [I|[I|[]]]; auto. left. eauto.
    + intros [(tb' & E & I)|[_ ->]]; eexists; (split; [reflexivity|]); cbn; rewrite map_app, in_app_iff; cbn; auto.
      left. congruence.
  - split; [auto|]. intros [H|[H _]]; auto. congruence.
Qed.

(** The outcome of a registration. *)
Theorem register_spec h i e : wf h -> (i < length h)%nat ->
  match register Entity name_of h i e with
  | Ok h' => (forall x, visible h i x -> ~ similar (name_of x) (name_of e)) /\ h' = add_entry h i e
  | Err (Duplicate _ x) => visible h i x /\ name_of x = name_of e
  | Err (Too_similar _ x) => visible h i x /\ similar (name_of x) (name_of e) /\ name_of x <> name_of e
  | _ => False
  end.
Proof.
  intros W L. unfold register. rewrite contains_none by auto. unfold lookup_direct. fold (searched h i (simplified_name (name_of e))).
  pose proof (searched_spec h i (simplified_name (name_of e)) W L) as S.
  destruct (searched h i (simplified_name (name_of e))) as [x| |].
  - cbn. destruct S as [V N]. destruct (text_eqb (name_of x) (name_of e)) eqn:E.
    + apply text_eqb_eq in E. auto.
    + apply text_eqb_neq in E. repeat split; auto. apply similar_iff; auto.
  - destruct (nth_error h i) as [tb|] eqn:T.
    + split; [|unfold add_entry; rewrite T; auto]. intros x V Sm. apply similar_iff in Sm. exact (S x V Sm).
    + apply nth_error_None in T. lia.
  - contradiction.
Qed.

Lemma add_entry_wf h i e : wf h -> (i < length h)%nat ->
  (forall x, visible h i x -> ~ similar (name_of x) (name_of e)) -> wf (add_entry h i e).
Proof.
  intros W L N. pose proof (add_entry_links h i e) as S.
  assert (Im : forall j, imports_of _ (add_entry h i e) j = imports_of _ h j).
  { intros j. symmetry. apply same_links_imports; auto. }
  constructor.
  - unfold add_entry. destruct (nth_error h i) as [tb|] eqn:T; [|apply (wf_keys _ W)].
    apply update_Forall; [apply (wf_keys _ W)|].
    destruct (wf_tb _ _ _ W T) as [K D]. split; cbn.
    + apply Forall_app. split; auto.
    + rewrite map_app. cbn. apply NoDup_app_one; auto. intros I.
      apply in_map_iff in I as ([k x] & E & I). cbn in E. subst k.
      rewrite Forall_forall in K. pose proof (K _ I) as Kx. cbn in Kx.
      apply (N x).
      * exists i. split; [left; constructor|]. exists tb. split; auto. apply in_map_iff. exists (simplified_name (name_of e), x). auto.
      * apply similar_iff. auto.
  - intros j tb p T P. rewrite Im. destruct S as [_ S]. specialize (S j). rewrite T in S.
    destruct (nth_error h j) as [tb0|] eqn:T0; [|contradiction]. destruct S as [S1 S2].
    rewrite <- S2. apply (wf_parent _ W j tb0 p T0). congruence.
  - intros j tb k T I. rewrite Im. destruct S as [S0 S]. specialize (S j). rewrite T in S.
    destruct (nth_error h j) as [tb0|] eqn:T0; [|contradiction]. destruct S as [S1 S2].
    rewrite <- S0. apply (wf_import _ W j tb0 k T0). congruence.
Qed.

(** ** Histories *)

Inductive op :=
| New (par : option nat)
| Make_visible (i j : nat)
| Register (i : nat) (e : Entity).

(** How the tool uses the tables: a new table may have an existing table
    that imports nothing as parent; only a table without parent that is
    nobody's parent and imported by nobody gets imports, of tables without
    imports; entries go into existing tables. *)
Definition op_ok (h : heap) (o : op) : Prop :=
  match o with
  | New None => True
  | New (Some p) => (p < length h)%nat /\ imports_of _ h p = []
  | Make_visible i j =>
      (i < length h)%nat /\ (j < length h)%nat /\ i <> j /\ imports_of _ h j = [] /\
      (forall tb, nth_error h i = Some tb -> parent _ tb = None) /\
      (forall k tb, nth_error h k = Some tb -> parent _ tb <> Some i /\ ~ In i (imported _ tb))
  | Register i _ => (i < length h)%nat
  end.

Definition step (h : heap) (o : op) : heap :=
  match o with
  | New par => new_table _ h par
  | Make_visible i j => make_visible _ h i j
  | Register i e => match register Entity name_of h i e with Ok h' => h' | _ => h end
  end.

(** Heaps the tool can reach. *)
Inductive reachable : heap -> Prop :=
| re_empty : reachable []
| re_step h o : reachable h -> op_ok h o -> reachable (step h o).

Lemma imports_new (h : heap) par i : (i < length h)%nat -> imports_of _ (new_table _ h par) i = imports_of _ h i.
Proof. intros L. unfold imports_of, new_table. rewrite nth_error_app1; auto. Qed.

Lemma reachable_wf h : reachable h -> wf h.
Proof.
  induction 1 as [|h o R W OK].
  - constructor; [constructor| |]; intros [|i]; discriminate.
  - destruct o as [par|i j|i e]; cbn in OK |- *.
    + constructor.
      * unfold new_table. apply Forall_app. split; [apply (wf_keys _ W)|]. repeat constructor.
      * intros i tb p T P. unfold new_table in T.
        destruct (Nat.lt_ge_cases i (length h)).
        -- rewrite nth_error_app1 in T by auto. destruct (wf_parent _ W _ _ _ T P) as (A & B & C).
           repeat split; auto. rewrite imports_new; auto. lia.
        -- rewrite nth_error_app2 in T by auto. destruct (i - length h)%nat as [|n] eqn:N; [|destruct n; discriminate].
           cbn in T. injection T as <-. cbn in *. subst par. destruct OK as [A B]. repeat split; auto; [lia|].
           rewrite imports_new; auto.
      * intros i tb k T I. unfold new_table in T.
        destruct (Nat.lt_ge_cases i (length h)).
        -- rewrite nth_error_app1 in T by auto. destruct (wf_import _ W _ _ _ T I) as (A & B).
           split; [unfold new_table; rewrite app_length; cbn; lia|]. rewrite imports_new; auto.
        -- rewrite nth_error_app2 in T by auto. destruct (i - length h)%nat as [|n]; [|destruct n; discriminate].
           cbn in T. injection T as <-. contradiction.
    + destruct OK as (Li & Lj & NE & Ij & Pi & Others).
      unfold make_visible. destruct (nth_error h i) as [tb|] eqn:T; auto.
      assert (Im : forall k, k <> i -> imports_of _ (update h i (Table _ (parent _ tb) (imported _ tb ++ [j]) (entries _ tb))) k = imports_of _ h k).
      { intros k Nk. unfold imports_of. rewrite nth_update. destruct (Nat.eqb_spec i k); [congruence|auto]. }
      constructor.
      * apply update_Forall; [apply (wf_keys _ W)|]. apply (wf_tb _ _ _ W T).
      * intros k tb' p T' P. rewrite nth_update, T in T'. destruct (Nat.eqb_spec i k).
        -- injection T' as <-. cbn in P. rewrite (Pi tb) in P; auto. discriminate.
        -- destruct (wf_parent _ W _ _ _ T' P) as (A & B & C). repeat split; auto. rewrite Im; auto.
           intros ->. destruct (Others _ _ T'). auto.
      * intros k tb' m T' I. rewrite update_length. rewrite nth_update, T in T'. destruct (Nat.eqb_spec i k).
        -- injection T' as <-. cbn in I. apply in_app_iff in I as [I|[<-|[]]].
           ++ destruct (wf_import _ W _ _ _ T I) as (A & B). split; auto. rewrite Im; auto. intros ->.
              unfold imports_of in B. rewrite T in B. rewrite B in I. contradiction.
           ++ split; auto. rewrite Im; auto.
        -- destruct (wf_import _ W _ _ _ T' I) as (A & B). split; auto. rewrite Im; auto. intros ->.
           destruct (Others _ _ T'). auto.
    + pose proof (register_spec h i e W OK) as S. destruct (register Entity name_of h i e); auto.
      destruct S as [S1 ->]. apply add_entry_wf; auto.
Qed.

(** ** Distinct names over everything visible

    This needs that a table gets no more entries once a table building on it
    has entries of its own.  The parser works like this: a record type is
    complete before it is extended, and all packages are registered by the
    preambles (trlc.py:319-336) before anything is declared in any of them. *)
Definition quiet (h : heap) (o : op) : Prop :=
  match o with
  | Register i _ => forall k x, sees h k i -> visible h k x -> visible h i x
  | New _ => True
  | Make_visible i j => forall x y, visible h i x -> visible h j y -> ~ similar (name_of x) (name_of y)
  end.

Inductive disciplined : heap -> Prop :=
| di_empty : disciplined []
| di_step h o : disciplined h -> op_ok h o -> quiet h o -> disciplined (step h o).

Lemma disciplined_reachable h : disciplined h -> reachable h.
Proof. induction 1; constructor; auto. Qed.

(** All entities visible from one table have different simplified names. *)
Definition distinct (h : heap) : Prop :=
  forall i x y, (i < length h)%nat -> visible h i x -> visible h i y -> similar (name_of x) (name_of y) -> x = y.

Lemma ancestor_new (h : heap) par i j : wf h -> (i < length h)%nat -> ancestor (new_table _ h par) i j <-> ancestor h i j.
Proof.
  intros W L. split.
  - intros A. revert L. induction A; intros L; [constructor|].
    unfold new_table in H. rewrite nth_error_app1 in H by auto. eapply anc_parent; eauto.
    apply IHA. destruct (wf_parent _ W _ _ _ H H0). lia.
  - intros A. revert L. induction A; intros L; [constructor|].
    eapply anc_parent; eauto.
    + unfold new_table. rewrite nth_error_app1; eauto.
    + apply IHA. destruct (wf_parent _ W _ _ _ H H0). lia.
Qed.

Lemma entry_new (h : heap) par j x : entry (new_table _ h par) j x <-> entry h j x.
Proof.
  unfold entry, new_table. split.
  - intros (tb & T & I). destruct (Nat.lt_ge_cases j (length h)).
    + rewrite nth_error_app1 in T by auto. eauto.
    + rewrite nth_error_app2 in T by auto. destruct (j - length h)%nat as [|n]; [|destruct n; discriminate].
      cbn in T. injection T as <-. contradiction.
  - intros (tb & T & I). exists tb. split; auto. rewrite nth_error_app1; auto. apply nth_error_Some. congruence.
Qed.

Lemma entry_range h j x : entry h j x -> (j < length h)%nat.
Proof. intros (tb & T & _). apply nth_error_Some. congruence. Qed.

Lemma visible_new_old (h : heap) par i x : wf h -> (i < length h)%nat -> visible (new_table _ h par) i x <-> visible h i x.
Proof.
  intros W L. unfold visible. split.
  - intros (j & S & E). rewrite entry_new in E. exists j. split; auto.
    destruct S as [A|(tb & k & T & I & A)].
    + left. apply (ancestor_new h par); auto.
    + right. unfold new_table in T. rewrite nth_error_app1 in T by auto. exists tb, k. repeat split; auto.
      apply (ancestor_new h par); auto. apply (wf_import _ W _ _ _ T I).
  - intros (j & S & E). exists j. split; [|apply entry_new; auto].
    destruct S as [A|(tb & k & T & I & A)].
    + left. apply ancestor_new; auto.
    + right. exists tb, k. unfold new_table. rewrite nth_error_app1 by auto. repeat split; auto.
      apply ancestor_new; auto. apply (wf_import _ W _ _ _ T I).
Qed.

Lemma visible_new (h : heap) par x : wf h ->
  (match par with Some p => (p < length h)%nat | None => True end) ->
  visible (new_table _ h par) (length h) x -> exists p, par = Some p /\ exists j, ancestor h p j /\ entry h j x.
Proof.
  intros W P (j & S & E). rewrite entry_new in E. pose proof (entry_range _ _ _ E) as Lj.
  assert (T0 : nth_error (new_table _ h par) (length h) = Some (Table _ par [] [])).
  { unfold new_table. rewrite nth_error_app2, Nat.sub_diag by lia. auto. }
  destruct S as [A|(tb & k & T & I & A)].
  - inversion A; subst; [lia|]. rewrite T0 in H. injection H as <-. cbn in H0. subst par.
    exists p. split; auto. exists j. split; auto. apply (ancestor_new h (Some p)); auto.
  - rewrite T0 in T. injection T as <-. contradiction.
Qed.

Lemma disciplined_distinct h : disciplined h -> distinct h.
Proof.
  induction 1 as [|h o D IH OK Q]; [intros i x y L; cbn in L; lia|].
  pose proof (reachable_wf _ (disciplined_reachable _ D)) as W.
  destruct o as [par|i j|i e]; cbn in OK, Q |- *.
  - intros i x y L V1 V2 S. unfold new_table in L. rewrite app_length in L. cbn in L.
    assert (P : match par with Some p => (p < length h)%nat | None => True end) by (destruct par; tauto).
    destruct (Nat.eq_dec i (length h)).
    + subst i. destruct (visible_new h par x W P V1) as (p & -> & j1 & A1 & E1).
      destruct (visible_new h (Some p) y W P V2) as (p' & Ep & j2 & A2 & E2). injection Ep as <-.
      apply (IH p); auto; [exists j1|exists j2]; split; auto; left; auto.
    + apply (IH i); auto; try lia; apply (visible_new_old h par); auto; lia.
  - destruct OK as (Li & Lj & NE & Ij & Pi & Others).
    unfold make_visible. destruct (nth_error h i) as [tb|] eqn:T; auto.
    set (h' := update h i (Table _ (parent _ tb) (imported _ tb ++ [j]) (entries _ tb))).
    assert (Nth : forall k, nth_error h' k = if Nat.eqb i k then Some (Table _ (parent _ tb) (imported _ tb ++ [j]) (entries _ tb)) else nth_error h k).
    { intros k. unfold h'. rewrite nth_update, T. auto. }
    assert (En : forall k x, entry h' k x <-> entry h k x).
    { intros k x. unfold entry. rewrite Nth. destruct (Nat.eqb_spec i k).
      - subst k. rewrite T. split; intros (tb' & E & I); injection E as <-; eexists; split; eauto.
      - tauto. }
    assert (An : forall k m, ancestor h' k m <-> ancestor h k m).
    { assert (forall k, match nth_error h' k, nth_error h k with Some a, Some b => parent _ a = parent _ b | None, None => True | _, _ => False end).
      { intros k. rewrite Nth. destruct (Nat.eqb_spec i k); [subst; rewrite T; auto|]. destruct (nth_error h k); auto. }
      intros k m. split; induction 1; try constructor; pose proof (H i0) as Hi; rewrite H0 in Hi.
      - destruct (nth_error h i0) as [tb1|] eqn:T1; [|contradiction]. eapply anc_parent; eauto. congruence.
      - destruct (nth_error h' i0) as [tb1|] eqn:T1; [|contradiction]. eapply anc_parent; eauto. congruence. }
    assert (Vi : forall x, visible h' i x -> visible h i x \/ visible h j x).
    { intros x (m & S & E). apply En in E. destruct S as [A|(tb' & k & T' & I & A)].
      - left. exists m. split; auto. left. apply An; auto.
      - rewrite Nth, Nat.eqb_refl in T'. injection T' as <-. cbn in I. apply An in A. apply in_app_iff in I as [I|[<-|[]]].
        + left. exists m. split; auto. right. eauto.
        + right. exists m. split; auto. left. auto. }
    assert (Vk : forall k x, k <> i -> visible h' k x <-> visible h k x).
    { intros k x Nk. unfold visible, sees. rewrite Nth. replace (Nat.eqb i k) with false by (symmetry; apply Nat.eqb_neq; auto).
      split; intros (m & S & E); exists m; rewrite En in *; (split; [|auto]);
        (destruct S as [A|(tb' & k' & T' & I & A)]; [left; apply An; auto|right; exists tb', k'; rewrite An in *; auto]). }
    intros k x y L V1 V2 S. unfold h' in L. rewrite update_length in L.
    destruct (Nat.eq_dec k i).
    + subst k. apply Vi in V1, V2. destruct V1 as [V1|V1], V2 as [V2|V2].
      * eapply IH; eauto.
      * exfalso. exact (Q x y V1 V2 S).
      * exfalso. apply (Q y x V2 V1). apply similar_iff. symmetry. apply similar_iff. auto.
      * apply (IH j); auto.
    + apply (Vk k) in V1, V2; auto. eapply IH; eauto.
  - pose proof (register_spec h i e W OK) as R. destruct (register Entity name_of h i e); auto.
    destruct R as [R ->].
    assert (V : forall k x, visible (add_entry h i e) k x -> visible h k x \/ (x = e /\ sees h k i)).
    { intros k x (m & S & E). apply (same_links_sees _ _ _ _ (add_entry_links h i e)) in S.
      apply add_entry_entry in E; auto. destruct E as [E|[-> ->]]; auto. left. exists m; auto. }
    intros k x y L V1 V2 S. unfold add_entry in L.
    assert (L' : (k < length h)%nat).
    { destruct (nth_error h i); [rewrite update_length in L|]; auto. }
    apply V in V1, V2. destruct V1 as [V1|[-> S1]], V2 as [V2|[-> S2]]; auto.
    + eapply IH; eauto.
    + exfalso. apply (R x); eauto.
    + exfalso. apply (R y); eauto. apply similar_iff. symmetry. apply similar_iff. auto.
Qed.

(** ** Lookup *)

(** Whatever [lookup_direct] returns is visible and has exactly this name;
    what it reports is true. *)
Theorem lookup_sound h i name req : reachable h -> (i < length h)%nat ->
  match lookup_direct Entity name_of h i name req false with
  | Ok e => visible h i e /\ name_of e = name /\ (forall c, req = Some c -> c e = true)
  | Err (Did_you_mean _ e) => visible h i e /\ similar (name_of e) name /\ name_of e <> name
  | Err (Unknown_symbol _) => forall e, visible h i e -> ~ similar (name_of e) name
  | Err (Wrong_class _ e) => visible h i e /\ name_of e = name /\ (exists c, req = Some c /\ c e = false)
  | _ => False
  end.
Proof.
  intros Re L. pose proof (reachable_wf _ Re) as W. unfold lookup_direct. fold (searched h i (simplified_name name)).
  pose proof (searched_spec h i (simplified_name name) W L) as S.
  destruct (searched h i (simplified_name name)) as [e| |]; auto.
  - destruct S as [V N]. cbn [negb andb]. destruct (text_eqb (name_of e) name) eqn:E; cbn [negb].
    + apply text_eqb_eq in E. destruct req as [c|].
      * destruct (c e) eqn:C; [|eauto]. repeat split; auto. intros c' Hc. congruence.
      * repeat split; auto. discriminate.
    + apply text_eqb_neq in E. repeat split; auto. apply similar_iff; auto.
  - intros e V Sm. apply similar_iff in Sm. exact (S e V Sm).
Qed.

(** In a disciplined heap everything visible is found. *)
Theorem lookup_complete h i e : disciplined h -> (i < length h)%nat -> visible h i e ->
  lookup_direct Entity name_of h i (name_of e) None false = Ok e.
Proof.
  intros Di L V. pose proof (lookup_sound h i (name_of e) None (disciplined_reachable _ Di) L) as S.
  pose proof (disciplined_distinct _ Di) as D.
  destruct (lookup_direct Entity name_of h i (name_of e) None false) as [x|[x|x|x| |x]| |]; try contradiction.
  - destruct S as (V' & N & _). f_equal. apply (D i); auto. apply similar_iff. congruence.
  - destruct S as (V' & Sm & N). exfalso. apply N. f_equal. apply (D i); auto.
  - exfalso. apply (S e V). apply similar_iff. auto.
  - destruct S as (_ & _ & c & E & _). discriminate.
Qed.

(** [contains] is exact membership. *)
Theorem contains_spec h i name : disciplined h -> (i < length h)%nat ->
  exists b, contains Entity name_of h i name = Some b /\
            (b = true <-> exists e, visible h i e /\ name_of e = name).
Proof.
  intros Di L. pose proof (disciplined_reachable _ Di) as Re. pose proof (reachable_wf _ Re) as W.
  pose proof (disciplined_distinct _ Di) as D.
  unfold contains.
  pose proof (contains_searched h i (simplified_name name) (Some name) W L) as C.
  pose proof (searched_spec h i (simplified_name name) W L) as S.
  destruct (searched h i (simplified_name name)) as [e| |].
  - destruct S as [V N]. cbn [precise_ok] in C. destruct (text_eqb (name_of e) name) eqn:E.
    + rewrite C by auto. exists true. split; auto. apply text_eqb_eq in E. split; eauto.
    + apply text_eqb_neq in E.
      pose proof (contains_raw_sound h i (simplified_name name) (Some name) W L) as CR.
      destruct (contains_raw Entity name_of (fuel_of Entity h) h i (simplified_name name) (Some name)) as [b|]; [|contradiction].
      exists b. split; auto. split.
      * intros ->. destruct CR as (e' & V' & P'). exists e'. split; auto. apply text_eqb_eq. auto.
      * intros (e' & V' & N'). exfalso. apply E. rewrite <- N'. f_equal. apply (D i); auto. apply similar_iff. congruence.
  - rewrite C. exists false. split; auto. split; [discriminate|]. intros (e & V & <-). exfalso. exact (S e V eq_refl).
  - contradiction.
Qed.

(** ** Scopes *)

(** The innermost table of the scope that knows the name decides; [bottom]
    is asked if no other does. *)
Theorem scope_lookup_spec h s bottom name req : disciplined h ->
  Forall (fun i => (i < length h)%nat) (bottom :: s) ->
  (exists outer i inner, s = outer ++ i :: inner /\
     (exists e, visible h i e /\ name_of e = name) /\
     (forall k e, In k inner -> visible h k e -> name_of e <> name) /\
     scope_lookup Entity name_of h (bottom :: s) name req = lookup_direct Entity name_of h i name req false) \/
  ((forall k e, In k s -> visible h k e -> name_of e <> name) /\
   scope_lookup Entity name_of h (bottom :: s) name req = lookup_direct Entity name_of h bottom name req false).
Proof.
  intros D F. inversion F as [|? ? Fb Fs]; subst. cbn [scope_lookup].
  induction s as [|i s IH] using rev_ind.
  - right. split; [intros k e []|auto].
  - rewrite rev_app_distr. cbn [rev app scope_lookup_rev]. apply Forall_app in Fs as [Fs Fi]. inversion Fi; subst.
    destruct (contains_spec h i name D H1) as (b & C & B). rewrite C. destruct b.
    + left. exists s, i, []. split; [auto|]. split; [apply B; auto|]. split; [intros k e []|auto].
    + assert (No : forall e, visible h i e -> name_of e <> name).
      { intros e V N. enough (false = true) by discriminate. apply B. eauto. }
      destruct IH as [(o & k & inn & -> & K & I & E)|(I & E)]; auto.
      * left. exists o, k, (inn ++ [i]). rewrite <- app_assoc. cbn. repeat split; auto.
        intros k' e In' V. apply in_app_iff in In' as [In'|[<-|[]]]; eauto.
      * right. split; auto. intros k e In' V. apply in_app_iff in In' as [In'|[<-|[]]]; eauto.
Qed.

Theorem scope_contains_spec h s name : disciplined h -> Forall (fun i => (i < length h)%nat) s ->
  exists b, scope_contains Entity name_of h s name = Some b /\
            (b = true <-> exists i e, In i s /\ visible h i e /\ name_of e = name).
Proof.
  intros D F. unfold scope_contains. induction s as [|i s IH] using rev_ind.
  - exists false. split; auto. split; [discriminate|]. intros (i & e & [] & _).
  - rewrite rev_app_distr. cbn [rev app scope_contains_rev]. apply Forall_app in F as [Fs Fi]. inversion Fi; subst.
    destruct (contains_spec h i name D H1) as (b & C & B). rewrite C. destruct b.
    + exists true. split; auto. split; auto. intros _. destruct (proj1 B eq_refl) as (e & V & N).
      exists i, e. repeat split; auto. apply in_app_iff. right. left; auto.
    + destruct (IH Fs) as (b & C' & B'). exists b. split; auto. rewrite B'. split.
      * intros (k & e & I & V). exists k, e. split; auto. apply in_app_iff; auto.
      * intros (k & e & I & V & N). apply in_app_iff in I as [I|[<-|[]]]; eauto.
        exfalso. enough (false = true) by discriminate. apply B. eauto.
Qed.
End STAB.
