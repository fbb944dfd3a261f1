(** Inheritance, inherited components and checks, and union field maps. *)
From Coq Require Import Relations Permutation.
From Verif Require Import Base Ast.
Open Scope Z_scope.

(** ** Specification *)

(** [r] has the clause "extends p". *)
Definition extends (G : types) (r p : nat) : Prop :=
  exists rt, nth_error (recs G) r = Some rt /\ r_parent rt = Some p.

(** A type can only extend a type that was declared before it. *)
Definition wf_types (G : types) : Prop :=
  forall r p, extends G r p -> (p < r)%nat.

(** The ancestors of a type from the root to the type itself. *)
Inductive lineage (G : types) : nat -> list nat -> Prop :=
| lineage_root r rt : nth_error (recs G) r = Some rt -> r_parent rt = None -> lineage G r [r]
| lineage_ext r p l : extends G r p -> lineage G p l -> lineage G r (l ++ [r]).

Definition own_checks (G : types) (r : nat) : list check :=
  match nth_error (recs G) r with Some rt => r_checks rt | None => [] end.
Definition own_components (G : types) (r : nat) : list component :=
  match nth_error (recs G) r with Some rt => r_comps rt | None => [] end.
Definition own_frozen (G : types) (r : nat) : list (text * field) :=
  match nth_error (recs G) r with Some rt => r_frozen rt | None => [] end.

(** ** Identity of types *)

Lemma oz_eqb_eq a b : oz_eqb a b = true <-> a = b.
Proof.
  destruct a as [x|], b as [y|]; cbn; split; intros H; try discriminate; auto.
  - apply Z.eqb_eq in H. congruence.
  - injection H as ->. apply Z.eqb_refl.
Qed.
Lemma nats_eqb_eq a b : nats_eqb a b = true <-> a = b.
Proof.
  revert b; induction a as [|x a IH]; intros [|y b]; cbn; split; intros H; try discriminate; auto.
  - apply andb_true_iff in H as [H1 H2]. apply Nat.eqb_eq in H1. apply IH in H2. congruence.
  - injection H as -> ->. rewrite Nat.eqb_refl. apply IH; auto.
Qed.
Lemma ty_eqb_eq a b : ty_eqb a b = true <-> a = b.
Proof.
  revert b; induction a; intros b; destruct b; cbn; split; intros H; try discriminate; auto;
    repeat match goal with
    | H : _ && _ = true |- _ => apply andb_true_iff in H as [? ?]
    | H : Nat.eqb _ _ = true |- _ => apply Nat.eqb_eq in H
    | H : nats_eqb _ _ = true |- _ => apply nats_eqb_eq in H
    | H : oz_eqb _ _ = true |- _ => apply oz_eqb_eq in H
    | H : (_ =? _) = true |- _ => apply Z.eqb_eq in H
    | H : ty_eqb _ _ = true |- _ => apply IHa in H
    end; subst; auto; injection H; intros; subst;
    rewrite ?andb_true_iff, ?Nat.eqb_refl, ?Z.eqb_refl; repeat split; auto;
    try (apply nats_eqb_eq; auto); try (apply oz_eqb_eq; auto); try (apply IHa; auto).
Qed.
Lemma ty_eqb_refl a : ty_eqb a a = true.
Proof. apply ty_eqb_eq; auto. Qed.
Lemma ty_eqb_neq a b : ty_eqb a b = false <-> a <> b.
Proof.
  split; intros H.
  - intros ->. rewrite ty_eqb_refl in H. discriminate.
  - destruct (ty_eqb a b) eqn:E; auto. apply ty_eqb_eq in E. contradiction.
Qed.

Section WF.
Variable G : types.
Hypothesis wf : wf_types G.

Lemma extends_fun r p q : extends G r p -> extends G r q -> p = q.
Proof. intros (a & A & P) (b & B & Q). congruence. Qed.

(** ** Extension as a relation *)

Lemma subclass_steps_spec f r s :
  (r <= f)%nat -> subclass_steps G f r s = true <-> clos_refl_trans nat (extends G) r s.
Proof.
  revert r; induction f as [|f IH]; intros r L; cbn.
  - assert (r = 0)%nat as -> by lia. destruct (Nat.eqb_spec 0 s) as [<-|N].
    + split; intros _; [apply rt_refl|auto].
    + split; [discriminate|]. intros C. apply clos_rt_rt1n in C. destruct C as [|y z E _]; [congruence|].
      apply wf in E. lia.
  - destruct (Nat.eqb_spec r s) as [<-|N].
    + split; intros _; [apply rt_refl|auto].
    + unfold rec. split.
      * destruct (nth_error (recs G) r) as [rt|] eqn:E; [|discriminate].
        destruct (r_parent rt) as [p|] eqn:P; [|discriminate].
        assert (X : extends G r p) by (exists rt; auto).
        intros H. apply IH in H; [|apply wf in X; lia].
        eapply rt_trans; [apply rt_step; eauto|auto].
      * intros C. apply clos_rt_rt1n in C. destruct C as [|p z X C]; [congruence|].
        pose proof X as X'. destruct X as (rt & -> & ->).
        apply IH; [apply wf in X'; lia|]. apply clos_rt1n_rt; auto.
Qed.
Lemma subclass_spec r s : is_subclass_of G r s = true <-> clos_refl_trans nat (extends G) r s.
Proof. apply subclass_steps_spec; auto. Qed.

Lemma ancestor_le r s : clos_refl_trans nat (extends G) r s -> (s <= r)%nat.
Proof. induction 1 as [x y X| |]; [apply wf in X; lia|lia|lia]. Qed.

Lemma subclass_antisym r s : is_subclass_of G r s = true -> is_subclass_of G s r = true -> r = s.
Proof. rewrite !subclass_spec. intros A B. apply ancestor_le in A, B. lia. Qed.

(** Ancestors form a chain. *)
Lemma ancestors_chain r s u :
  clos_refl_trans nat (extends G) r s -> clos_refl_trans nat (extends G) r u ->
  clos_refl_trans nat (extends G) s u \/ clos_refl_trans nat (extends G) u s.
Proof.
  intros A. apply clos_rt_rt1n in A. revert u. induction A as [x|x y z X A IH]; intros u B.
  - auto.
  - apply clos_rt_rt1n in B. destruct B as [|y' u X' B].
    + right. apply clos_rt1n_rt. econstructor; eauto.
    + rewrite (extends_fun _ _ _ X' X) in B. apply IH. apply clos_rt1n_rt; auto.
Qed.

(** ** Lineages *)

Lemma lineage_exists r : (r < List.length (recs G))%nat -> exists l, lineage G r l.
Proof.
  induction r as [r IH] using (well_founded_induction lt_wf). intros L.
  destruct (nth_error (recs G) r) as [rt|] eqn:E; [|apply nth_error_None in E; lia].
  destruct (r_parent rt) as [p|] eqn:P.
  - assert (X : extends G r p) by (exists rt; auto). pose proof (wf _ _ X) as Lt.
    destruct (IH p Lt) as (l & Li); [lia|]. exists (l ++ [r]). econstructor; eauto.
  - exists [r]. econstructor; eauto.
Qed.
Lemma lineage_unique r l l' : lineage G r l -> lineage G r l' -> l = l'.
Proof.
  intros A; revert l'; induction A as [r rt E P|r p l X A IH]; intros l' B.
  - inversion B as [? rt' E' P'|? p' l2 X' B']; subst; auto.
    destruct X' as (rt' & E' & P'). congruence.
  - inversion B as [? rt' E' P'|? p' l2 X' B']; subst; auto.
    + destruct X as (rt & E & P). congruence.
    + rewrite (extends_fun _ _ _ X' X) in B'. rewrite (IH _ B'). auto.
Qed.
Lemma lineage_in r l : lineage G r l -> forall s, In s l <-> clos_refl_trans nat (extends G) r s.
Proof.
  induction 1 as [r rt E P|r p l X A IH]; intros s.
  - split.
    + intros [<-|[]]. apply rt_refl.
    + intros C. apply clos_rt_rt1n in C. destruct C as [|y z (rt' & E' & P')]; [left; auto|congruence].
  - rewrite in_app_iff, IH. split.
    + intros [C|[<-|[]]]; [eapply rt_trans; [apply rt_step; eauto|auto]|apply rt_refl].
    + intros C. apply clos_rt_rt1n in C. destruct C as [|y z X' C]; [right; left; auto|].
      left. rewrite (extends_fun _ _ _ X X'). apply clos_rt1n_rt; auto.
Qed.
Lemma lineage_nodup r l : lineage G r l -> NoDup l.
Proof.
  induction 1 as [r rt E P|r p l X A IH]; [repeat constructor; auto|].
  rewrite NoDup_nth_error in *. intros i j Li Ej.
  assert (B : ~ In r l). { intros I. apply (lineage_in _ _ A) in I. apply ancestor_le in I. apply wf in X. lia. }
  rewrite app_length in Li; cbn in Li.
  destruct (Nat.lt_ge_cases i (List.length l)) as [Ai|Ai].
  - destruct (Nat.lt_ge_cases j (List.length l)) as [Aj|Aj].
    + rewrite !nth_error_app1 in Ej by auto. apply IH; auto.
    + rewrite nth_error_app1, nth_error_app2 in Ej by auto.
      destruct (j - List.length l)%nat as [|k]; cbn in Ej.
      * apply nth_error_In in Ej. contradiction.
      * destruct k; cbn in Ej; apply nth_error_None in Ej; lia.
  - assert (i = List.length l) as -> by lia.
    destruct (Nat.lt_ge_cases j (List.length l)) as [Aj|Aj].
    + rewrite nth_error_app2, nth_error_app1 in Ej by auto. rewrite Nat.sub_diag in Ej. cbn in Ej.
      symmetry in Ej. apply nth_error_In in Ej. contradiction.
    + rewrite !nth_error_app2 in Ej by auto. rewrite Nat.sub_diag in Ej. cbn in Ej.
      destruct (j - List.length l)%nat as [|k] eqn:Ek; [lia|]. destruct k; discriminate.
Qed.
(** bases come before extensions *)
Lemma lineage_sorted r l : lineage G r l ->
  forall a s b, l = a ++ s :: b -> forall u, In u a -> clos_trans nat (extends G) s u.
Proof.
  induction 1 as [r rt E P|r p l X A IH]; intros a s b El u I.
  - destruct a as [|x [|y a]]; try discriminate; contradiction.
  - destruct b as [|y b] using rev_ind.
    + apply app_inj_tail in El as [-> ->]. apply (lineage_in _ _ A) in I.
      clear IH A. apply clos_rt_rtn1 in I. induction I as [|x y Y C IHc].
      * apply t_step; auto.
      * eapply t_trans; [exact IHc|apply t_step; auto].
    + rewrite app_comm_cons, app_assoc in El. apply app_inj_tail in El as [-> _]. eapply IH; eauto.
Qed.

Lemma iter_checks_steps_spec f r l :
  (r <= f)%nat -> lineage G r l -> iter_checks_steps G f r = flat_map (own_checks G) l.
Proof.
  intros L A; revert f L; induction A as [r rt E P|r p l X A IH]; intros f L.
  - destruct f; cbn; unfold rec, own_checks; rewrite E, P, app_nil_r; auto.
  - rewrite flat_map_app; cbn. pose proof (wf _ _ X) as Lt. destruct X as (rt & E & P).
    destruct f as [|f]; [lia|]. cbn. unfold rec. rewrite E, P. rewrite IH by lia.
    unfold own_checks at 3. rewrite E, app_nil_r. auto.
Qed.
Lemma iter_checks_spec r l : lineage G r l -> iter_checks G r = flat_map (own_checks G) l.
Proof. apply iter_checks_steps_spec; auto. Qed.

Lemma all_components_steps_spec f r l :
  (r <= f)%nat -> lineage G r l -> all_components_steps G f r = flat_map (own_components G) l.
Proof.
  intros L A; revert f L; induction A as [r rt E P|r p l X A IH]; intros f L.
  - destruct f; cbn; unfold rec, own_components; rewrite E, P, app_nil_r; auto.
  - rewrite flat_map_app; cbn. pose proof (wf _ _ X) as Lt. destruct X as (rt & E & P).
    destruct f as [|f]; [lia|]. cbn. unfold rec. rewrite E, P. rewrite IH by lia.
    unfold own_components at 3. rewrite E, app_nil_r. auto.
Qed.
Lemma all_components_spec r l : lineage G r l -> all_components G r = flat_map (own_components G) l.
Proof. apply all_components_steps_spec; auto. Qed.

Lemma components_inherited r s c :
  (r < List.length (recs G))%nat -> clos_refl_trans nat (extends G) r s ->
  In c (all_components G s) -> In c (all_components G r).
Proof.
  intros L C I. destruct (lineage_exists r L) as (l & Li).
  assert (Ls : (s < List.length (recs G))%nat) by (apply ancestor_le in C; lia).
  destruct (lineage_exists s Ls) as (l' & Li').
  rewrite (all_components_spec _ _ Li') in I. rewrite (all_components_spec _ _ Li).
  apply in_flat_map in I as (x & Ix & Ic). apply in_flat_map. exists x. split; auto.
  apply (lineage_in _ _ Li). apply (lineage_in _ _ Li') in Ix. eapply rt_trans; eauto.
Qed.

(** Freezing: the nearest frozen value wins. *)

Definition first_some {A B} (f : A -> option B) (l : list A) : option B :=
  fold_right (fun x acc => match f x with Some y => Some y | None => acc end) None l.

Lemma first_some_app {A B} (f : A -> option B) l l' :
  first_some f (l ++ l') = match first_some f l with Some y => Some y | None => first_some f l' end.
Proof. induction l as [|x l IH]; cbn; auto. destruct (f x); auto. Qed.

Lemma freezing_steps_nearest f r l name :
  (r <= f)%nat -> lineage G r l ->
  freezing_steps G f r name = first_some (fun s => assoc name (own_frozen G s)) (rev l).
Proof.
  intros L A; revert f L; induction A as [r rt E P|r p l X A IH]; intros f L.
  - destruct f; cbn; unfold rec, own_frozen; rewrite E, P; destruct (assoc name (r_frozen rt)); auto.
  - rewrite rev_app_distr; cbn. pose proof (wf _ _ X) as Lt. destruct X as (rt & E & P).
    destruct f as [|f]; [lia|]. cbn. unfold rec. rewrite E, P. rewrite IH by lia.
    unfold own_frozen at 2. rewrite E. destruct (assoc name (r_frozen rt)); auto.
Qed.
End WF.

(** ** Union field maps *)

(** Component [c] is a component (own or inherited) of record type [r]. *)
Definition has_component (G : types) (r : nat) (c : component) : Prop :=
  exists l s, lineage G r l /\ In s l /\ In c (own_components G s).

(** [n] counts the positions of [ms] whose type has a component called [k]. *)
Inductive count_members (G : types) (k : text) : list nat -> Z -> Prop :=
| count_nil : count_members G k [] 0
| count_yes m ms n c : has_component G m c -> c_name c = k ->
    count_members G k ms n -> count_members G k (m :: ms) (n + 1)
| count_no m ms n : (forall c, has_component G m c -> c_name c <> k) ->
    count_members G k ms n -> count_members G k (m :: ms) n.

(** The map that is expected, as a description of one entry. *)
Record entry_ok (G : types) (ms : list nat) (k : text) (i : finfo) : Prop := {
  ok_count : count_members G k ms (fi_count i);
  ok_total : fi_total i = Z.of_nat (List.length ms);
  ok_comp : c_name (fi_comp i) = k /\ exists m, In m ms /\ has_component G m (fi_comp i);
  ok_typ : forall a, fi_typ i = Some a <->
             forall m c, In m ms -> has_component G m c -> c_name c = k -> c_typ c = a;
  ok_conflict : fi_typ i = None <->
             exists m c m' c', In m ms /\ In m' ms /\ has_component G m c /\ has_component G m' c' /\
               c_name c = k /\ c_name c' = k /\ c_typ c <> c_typ c';
  ok_opt : fi_optional i = true <->
             exists m c, In m ms /\ has_component G m c /\ c_name c = k /\ c_opt c = true
}.

Definition named (k : text) (c : component) : bool := text_eqb (c_name c) k.

Definition summary (total : Z) (l : list component) : option finfo :=
  match l with
  | [] => None
  | c :: cs => Some (Finfo c (if forallb (fun d => ty_eqb (c_typ c) (c_typ d)) cs then Some (c_typ c) else None)
                           (1 + Z.of_nat (List.length cs)) total (existsb c_opt l))
  end.

Lemma assoc_app {A} k (a b : list (text * A)) :
  assoc k (a ++ b) = match assoc k a with Some x => Some x | None => assoc k b end.
Proof. induction a as [|[k' x] a IH]; cbn; auto. destruct (text_eqb k' k); auto. Qed.

Lemma assoc_update m k f k' :
  assoc k' (fm_update m k f) =
  if text_eqb k' k then option_map f (assoc k m) else assoc k' m.
Proof.
  induction m as [|[j x] m IH]; cbn.
  - destruct (text_eqb k' k); auto.
  - destruct (text_eqb j k) eqn:E; cbn.
    + apply text_eqb_eq in E. subst j. destruct (text_eqb k' k) eqn:E'.
      * apply text_eqb_eq in E'. subst. rewrite text_eqb_refl. auto.
      * destruct (text_eqb k k') eqn:E2; auto. apply text_eqb_eq in E2. subst.
        rewrite text_eqb_refl in E'. discriminate.
    + destruct (text_eqb j k') eqn:E'.
      * apply text_eqb_eq in E'. subst j. rewrite E. auto.
      * exact IH.
Qed.

Lemma filter_snoc {A} (f : A -> bool) l x : filter f (l ++ [x]) = filter f l ++ (if f x then [x] else []).
Proof. rewrite filter_app. cbn. destruct (f x); auto. Qed.

Lemma summary_snoc total l d :
  summary total (l ++ [d]) =
  match summary total l with
  | None => Some (Finfo d (Some (c_typ d)) 1 total (c_opt d))
  | Some i => Some (Finfo (fi_comp i)
                     (match fi_typ i with
                      | Some ty => if ty_eqb ty (c_typ d) then Some ty else None
                      | None => None end)
                     (fi_count i + 1) (fi_total i) (if c_opt d then true else fi_optional i))
  end.
Proof.
  destruct l as [|c cs]; cbn.
  - rewrite orb_false_r. auto.
  - f_equal. rewrite forallb_app, app_length, existsb_app. cbn. f_equal.
    + rewrite andb_true_r. destruct (forallb _ cs); auto.
    + lia.
    + rewrite orb_false_r. destruct (c_opt c), (existsb c_opt cs), (c_opt d); auto.
Qed.

Lemma fm_fold total l k :
  assoc k (fold_left (fm_add total) l []) = summary total (filter (named k) l).
Proof.
  induction l as [|c l IH] using rev_ind; [reflexivity|].
  rewrite fold_left_app, filter_snoc. cbn [fold_left].
  set (m := fold_left (fm_add total) l []) in *.
  assert (E : assoc (c_name c) m = summary total (filter (named (c_name c)) l) \/ True) by auto.
  unfold fm_add. destruct (assoc (c_name c) m) as [i|] eqn:Ac.
  - rewrite assoc_update. unfold named at 2.
    destruct (text_eqb k (c_name c)) eqn:Ek.
    + apply text_eqb_eq in Ek. subst k. rewrite text_eqb_refl, Ac, summary_snoc, <- IH. rewrite Ac. auto.
    + destruct (text_eqb (c_name c) k) eqn:E2.
      { apply text_eqb_eq in E2. subst. rewrite text_eqb_refl in Ek. discriminate. }
      rewrite app_nil_r. auto.
  - rewrite assoc_app. cbn [assoc]. unfold named at 2. destruct (text_eqb (c_name c) k) eqn:Ek.
    + apply text_eqb_eq in Ek. subst k. rewrite Ac in *. rewrite summary_snoc, <- IH. auto.
    + rewrite app_nil_r, <- IH. destruct (assoc k m); auto.
Qed.

Lemma fm_member_fold total cs m seen :
  NoDup (map c_name cs) -> (forall c, In c cs -> ~ In (c_name c) seen) ->
  fm_member total m seen cs = fold_left (fm_add total) cs m.
Proof.
  revert m seen; induction cs as [|c cs IH]; intros m seen N D; auto. cbn.
  inversion N as [|? ? N1 N2]; subst.
  destruct (existsb (text_eqb (c_name c)) seen) eqn:E.
  - apply existsb_exists in E as (x & I & E). apply text_eqb_eq in E. subst x.
    exfalso. apply (D c); [left; auto|auto].
  - apply IH; auto. intros d I [Eq|J].
    + apply N1. rewrite Eq. apply in_map; auto.
    + apply (D d); [right; auto|auto].
Qed.

Lemma fold_left_flat {A B C} (f : A -> B -> A) (g : C -> list B) l a :
  fold_left (fun m r => fold_left f (g r) m) l a = fold_left f (flat_map g l) a.
Proof. revert a; induction l as [|x l IH]; intros a; cbn; auto. rewrite fold_left_app. apply IH. Qed.

Lemma keys_update m k f : map fst (fm_update m k f) = map fst m.
Proof. induction m as [|[j x] m IH]; cbn; auto. destruct (text_eqb j k); cbn; congruence. Qed.
Lemma assoc_none {A} k (m : list (text * A)) : assoc k m = None <-> ~ In k (map fst m).
Proof.
  induction m as [|[j x] m IH]; cbn; [tauto|]. destruct (text_eqb j k) eqn:E.
  - apply text_eqb_eq in E. split; [discriminate|]. intros H. exfalso; apply H; auto.
  - apply text_eqb_neq in E. rewrite IH. tauto.
Qed.
Lemma assoc_in {A} k (x : A) m : assoc k m = Some x -> In (k, x) m.
Proof.
  induction m as [|[j y] m IH]; cbn; [discriminate|]. destruct (text_eqb j k) eqn:E.
  - apply text_eqb_eq in E. intros H. injection H as ->. subst. auto.
  - intros H. right. auto.
Qed.
Lemma in_assoc {A} k (x : A) m : NoDup (map fst m) -> In (k, x) m -> assoc k m = Some x.
Proof.
  induction m as [|[j y] m IH]; cbn; intros N I; [contradiction|]. inversion N as [|? ? N1 N2]; subst.
  destruct I as [E|I].
  - injection E as -> ->. rewrite text_eqb_refl. auto.
  - destruct (text_eqb j k) eqn:E; [|auto]. apply text_eqb_eq in E. subst.
    exfalso. apply N1. apply (in_map fst) in I. auto.
Qed.
Lemma fm_keys total l : NoDup (map fst (fold_left (fm_add total) l [])).
Proof.
  induction l as [|c l IH] using rev_ind; [constructor|].
  rewrite fold_left_app. cbn. set (m := fold_left (fm_add total) l []) in *. unfold fm_add.
  destruct (assoc (c_name c) m) eqn:E.
  - rewrite keys_update. auto.
  - rewrite map_app; cbn. apply assoc_none in E.
    apply Permutation_NoDup with (c_name c :: map fst m); [apply Permutation_cons_append|constructor; auto].
Qed.

Section UNION.
Variable G : types.
Hypothesis wf : wf_types G.

Definition distinct_names : Prop :=
  forall r, NoDup (map c_name (all_components G r)).
Hypothesis dn : distinct_names.

Lemma has_component_in r c : (r < List.length (recs G))%nat ->
  has_component G r c <-> In c (all_components G r).
Proof.
  intros L. destruct (lineage_exists G wf r L) as (l & Li). split.
  - intros (l' & s & Li' & Is & Ic). rewrite (all_components_spec G wf _ _ Li').
    apply in_flat_map. eauto.
  - rewrite (all_components_spec G wf _ _ Li). intros I. apply in_flat_map in I as (s & Is & Ic).
    exists l, s. auto.
Qed.

Lemma field_map_flat ms :
  field_map G ms = fold_left (fm_add (Z.of_nat (List.length ms))) (flat_map (all_components G) ms) [].
Proof.
  unfold field_map. rewrite <- fold_left_flat.
  generalize (Z.of_nat (List.length ms)). intros total. generalize (@nil (text * finfo)).
  induction ms as [|r ms IH]; intros m; cbn; auto.
  rewrite fm_member_fold; auto.
Qed.

Lemma filter_named_le1 k l : NoDup (map c_name l) ->
  (List.length (filter (named k) l) <= 1)%nat.
Proof.
  induction l as [|c l IH]; cbn; intros N; [lia|]. inversion N as [|? ? N1 N2]; subst.
  unfold named at 1. destruct (text_eqb (c_name c) k) eqn:E; [|auto].
  apply text_eqb_eq in E. cbn. subst k.
  destruct (filter (named (c_name c)) l) as [|d ds] eqn:F; [cbn; lia|]. exfalso.
  assert (I : In d (filter (named (c_name c)) l)) by (rewrite F; left; auto).
  apply filter_In in I as [I Nm]. unfold named in Nm. apply text_eqb_eq in Nm.
  apply N1. rewrite <- Nm. apply in_map; auto.
Qed.

Lemma count_members_filter ms k :
  (forall m, In m ms -> (m < List.length (recs G))%nat) ->
  count_members G k ms (Z.of_nat (List.length (filter (named k) (flat_map (all_components G) ms)))).
Proof.
  induction ms as [|m ms IH]; intros R; [constructor|]. cbn.
  rewrite filter_app, app_length.
  assert (Lm : (m < List.length (recs G))%nat) by (apply R; left; auto).
  destruct (filter (named k) (all_components G m)) as [|c [|d l]] eqn:F.
  - cbn. apply count_no; [|apply IH; intros; apply R; right; auto].
    intros c C E. apply has_component_in in C; auto.
    assert (I : In c (filter (named k) (all_components G m))).
    { apply filter_In. split; auto. unfold named. apply text_eqb_eq; auto. }
    rewrite F in I. contradiction.
  - cbn. rewrite Nat2Z.inj_succ. unfold Z.succ.
    assert (I : In c (filter (named k) (all_components G m))) by (rewrite F; left; auto).
    apply filter_In in I as [I N]. unfold named in N. apply text_eqb_eq in N.
    apply count_yes with c; auto; [apply has_component_in; auto|].
    apply IH; intros; apply R; right; auto.
  - pose proof (filter_named_le1 k _ (dn m)) as L1. rewrite F in L1. cbn in L1. lia.
Qed.

Theorem field_map_spec ms :
  (forall m, In m ms -> (m < List.length (recs G))%nat) ->
  NoDup (map fst (field_map G ms)) /\
  (forall k, In k (map fst (field_map G ms)) <->
             exists m c, In m ms /\ has_component G m c /\ c_name c = k) /\
  (forall k i, In (k, i) (field_map G ms) -> entry_ok G ms k i).
Proof.
  intros R. rewrite field_map_flat.
  set (all := flat_map (all_components G) ms).
  assert (A : forall c, In c all <-> exists m, In m ms /\ has_component G m c).
  { intros c. unfold all. rewrite in_flat_map. split; intros (m & Im & Ic); exists m; split; auto;
      apply has_component_in; auto. }
  assert (Fk : forall k c, In c (filter (named k) all) <-> In c all /\ c_name c = k).
  { intros k c. rewrite filter_In. unfold named. rewrite text_eqb_eq. tauto. }
  split; [apply fm_keys|]. split.
  - intros k. split.
    + intros I. destruct (assoc k (fold_left (fm_add (Z.of_nat (List.length ms))) all [])) as [i|] eqn:E.
      * rewrite fm_fold in E. destruct (filter (named k) all) as [|c cs] eqn:F; [discriminate|].
        assert (J : In c (filter (named k) all)) by (rewrite F; left; auto).
        apply Fk in J as [J N]. apply A in J as (m & Im & Hc). eauto.
      * apply assoc_none in E. contradiction.
    + intros (m & c & Im & Hc & N).
      destruct (in_dec text_eq_dec k (map fst (fold_left (fm_add (Z.of_nat (List.length ms))) all []))) as [|Nn]; auto.
      apply assoc_none in Nn. rewrite fm_fold in Nn.
      destruct (filter (named k) all) as [|d ds] eqn:F; [|discriminate].
      assert (J : In c (filter (named k) all)) by (apply Fk; split; auto; apply A; eauto).
      rewrite F in J. contradiction.
  - intros k i I. apply in_assoc in I; [|apply fm_keys]. rewrite fm_fold in I.
    destruct (filter (named k) all) as [|c cs] eqn:F; [discriminate|]. cbn in I. injection I as <-.
    assert (Fl : forall d, In d (c :: cs) <-> exists m, In m ms /\ has_component G m d /\ c_name d = k).
    { intros d. rewrite <- F, Fk, A. split; [intros ((m & ? & ?) & ?); eauto|intros (m & ? & ? & ?); eauto]. }
    assert (Ty : forallb (fun d => ty_eqb (c_typ c) (c_typ d)) cs = true <->
                 forall d, In d (c :: cs) -> c_typ d = c_typ c).
    { rewrite forallb_forall. split.
      - intros H d [->|J]; auto. specialize (H d J). apply ty_eqb_eq in H. auto.
      - intros H d J. apply ty_eqb_eq. symmetry. apply H. right; auto. }
    constructor; cbn.
    + pose proof (count_members_filter ms k R) as C. fold all in C. rewrite F in C. cbn in C.
      rewrite Nat2Z.inj_succ in C. replace (1 + Z.of_nat (List.length cs)) with (Z.succ (Z.of_nat (List.length cs))) by lia. auto.
    + auto.
    + destruct (proj1 (Fl c) (or_introl eq_refl)) as (m & ? & ? & ?). split; eauto.
    + intros a. destruct (forallb _ cs) eqn:Fb.
      * pose proof (proj1 Ty eq_refl) as T. split.
        -- intros E. injection E as <-. intros m d Im Hd Nd. apply T. apply Fl. eauto.
        -- intros H. f_equal. destruct (proj1 (Fl c) (or_introl eq_refl)) as (m & ? & ? & ?). eauto.
      * split; [discriminate|]. intros H. exfalso.
        assert (X : false = true); [|discriminate]. apply Ty.
        assert (Ca : c_typ c = a). { destruct (proj1 (Fl c) (or_introl eq_refl)) as (m & ? & ? & ?). eauto. }
        intros d J. apply Fl in J as (m & ? & ? & ?). rewrite Ca. eauto.
    + destruct (forallb _ cs) eqn:Fb.
      * pose proof (proj1 Ty eq_refl) as T. split; [discriminate|].
        intros (m & d & m' & d' & Im & Im' & Hd & Hd' & Nd & Nd' & D). exfalso. apply D.
        rewrite (T d), (T d'); auto; apply Fl; eauto.
      * split; [intros _|auto].
        destruct (existsb (fun d => negb (ty_eqb (c_typ c) (c_typ d))) cs) eqn:X.
        -- apply existsb_exists in X as (d & J & N). apply negb_true_iff in N. apply ty_eqb_neq in N.
           destruct (proj1 (Fl c) (or_introl eq_refl)) as (m & ? & ? & ?).
           destruct (proj1 (Fl d) (or_intror J)) as (m' & ? & ? & ?).
           exists m, c, m', d. repeat split; auto.
        -- exfalso. assert (Y : false = true); [|discriminate]. rewrite <- Fb.
           apply forallb_forall. intros d J. destruct (ty_eqb (c_typ c) (c_typ d)) eqn:N; auto.
           assert (Z : existsb (fun d => negb (ty_eqb (c_typ c) (c_typ d))) cs = true).
           { apply existsb_exists. exists d. split; auto. rewrite N. auto. }
           congruence.
    + change (existsb c_opt (c :: cs) = true <-> exists m c0, In m ms /\ has_component G m c0 /\ c_name c0 = k /\ c_opt c0 = true).
      rewrite existsb_exists. split.
      * intros (d & J & O). apply Fl in J as (m & ? & ? & ?). exists m, d. auto.
      * intros (m & d & ? & ? & ? & ?). exists d. split; auto. apply Fl. eauto.
Qed.

(** Compatibility with a union. *)
Lemma is_compatible_spec ms r :
  is_compatible G ms r = true <-> exists m, In m ms /\ clos_refl_trans nat (extends G) r m.
Proof.
  unfold is_compatible. rewrite existsb_exists.
  split; intros (m & I & H); exists m; split; auto; apply (subclass_spec G wf); auto.
Qed.
End UNION.

(** A decision procedure for the examples. *)
Fixpoint distinct (l : list text) : bool :=
  match l with [] => true | x :: l' => negb (existsb (text_eqb x) l') && distinct l' end.
Lemma distinct_nodup l : distinct l = true -> NoDup l.
Proof.
  induction l as [|x l IH]; cbn; intros H; constructor; apply andb_true_iff in H as [A B]; auto.
  intros I. apply negb_true_iff in A.
  assert (existsb (text_eqb x) l = true); [|congruence].
  apply existsb_exists. exists x. split; auto. apply text_eqb_refl.
Qed.
