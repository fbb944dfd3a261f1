(** Properties C19, C20 and C33: extension, inherited checks, union fields. *)
From Coq Require Import Relations.
From Verif Require Import Base Lexer Ast TypesProofs.
Open Scope Z_scope.

(** Types for the examples: [Base], [Mid extends Base], [Leaf extends Mid],
    and an unrelated [Other]. *)
Definition ex_loc : loc := Loc 0 (Sref 1 1 0 0).
Definition ex_comp (r : nat) (n : text) (a : ty) (o : bool) : component := Comp n a o (TRec r).
Definition ex_check (m : text) : check := Check Sev_error (ELit ex_loc (LBool true)) None ex_loc m None.
Definition ex_types : types :=
  Types
    [RecType 0 (t "Base") None [ex_comp 0 (t "a") TInt false; ex_comp 0 (t "b") TStr true] [] false false
             [ex_check (t "b1"); ex_check (t "b2")];
     RecType 0 (t "Mid") (Some 0%nat) [ex_comp 1 (t "c") TInt false] [(t "a", (7%nat, XNull ex_loc))] false true
             [ex_check (t "m1")];
     RecType 0 (t "Leaf") (Some 1%nat) [ex_comp 2 (t "d") TBool false] [] true false
             [ex_check (t "l1"); ex_check (t "l2")];
     RecType 0 (t "Other") None [ex_comp 3 (t "d") TInt false; ex_comp 3 (t "a") TInt true] [] false false []]
    [] [].

Lemma ex_wf : wf_types ex_types.
Proof.
  intros r p (rt & E & P).
  destruct r as [|[|[|[|r]]]]; cbn in E; try (destruct r; discriminate); injection E as <-; cbn in P;
    try discriminate; injection P as <-; lia.
Qed.

(** C19 *)
Theorem C19_partial_order :
  forall G, wf_types G ->
    (forall r, is_subclass_of G r r = true) /\
    (forall r s u, is_subclass_of G r s = true -> is_subclass_of G s u = true -> is_subclass_of G r u = true) /\
    (forall r s, is_subclass_of G r s = true -> is_subclass_of G s r = true -> r = s).
Proof.
  intros G wf. split; [|split].
  - intros r. apply subclass_spec; auto. apply rt_refl.
  - intros r s u. rewrite !subclass_spec by auto. apply rt_trans.
  - intros r s. apply subclass_antisym; auto.
Qed.
Print Assumptions C19_partial_order.

(** C19: agrees with the chain of extends clauses. *)
Theorem C19_agrees :
  forall G, wf_types G ->
    forall r s, is_subclass_of G r s = true <-> clos_refl_trans nat (extends G) r s.
Proof. intros G wf r s. apply subclass_spec; auto. Qed.
Print Assumptions C19_agrees.

(** C19: the ancestors of a type are linearly ordered. *)
Theorem C19_ancestors_chain :
  forall G, wf_types G ->
    forall r s u, is_subclass_of G r s = true -> is_subclass_of G r u = true ->
      is_subclass_of G s u = true \/ is_subclass_of G u s = true.
Proof. intros G wf r s u. rewrite !subclass_spec by auto. apply ancestors_chain; auto. Qed.
Print Assumptions C19_ancestors_chain.

Example C19_example :
  wf_types ex_types /\
  map (fun r => map (fun s => is_subclass_of ex_types r s) [0; 1; 2; 3]%nat) [0; 1; 2; 3]%nat =
  [[true; false; false; false]; [true; true; false; false];
   [true; true; true; false]; [false; false; false; true]].
Proof. split; [exact ex_wf|reflexivity]. Qed.

(** C19: compatibility with a union. *)
Theorem C19_union_compatible :
  forall G, wf_types G ->
    forall ms r, is_compatible G ms r = true <->
      exists m, In m ms /\ clos_refl_trans nat (extends G) r m.
Proof. intros G wf ms r. apply is_compatible_spec; auto. Qed.
Print Assumptions C19_union_compatible.

Example C19_union_example :
  is_compatible ex_types [1; 3]%nat 2 = true /\ is_compatible ex_types [1; 3]%nat 0 = false.
Proof. split; reflexivity. Qed.

(** C20: the checks of a type are the blocks of its ancestors and itself,
    bases first, each type once, each block in declaration order. *)
Theorem C20_check_order :
  forall G, wf_types G ->
    forall r, (r < List.length (recs G))%nat ->
      exists l,
        (forall s, In s l <-> clos_refl_trans nat (extends G) r s) /\
        NoDup l /\
        (forall a s b, l = a ++ s :: b -> forall u, In u a -> clos_trans nat (extends G) s u) /\
        iter_checks G r = flat_map (own_checks G) l.
Proof.
  intros G wf r L. destruct (lineage_exists G wf r L) as (l & Li). exists l.
  split; [apply lineage_in; auto|]. split; [eapply lineage_nodup; eauto|].
  split; [apply (lineage_sorted G r l Li)|apply iter_checks_spec; auto].
Qed.
Print Assumptions C20_check_order.

(** C20: the list is the only one with these properties. *)
Theorem C20_unique_order :
  forall G, wf_types G ->
    forall r l l',
      (forall s, In s l <-> clos_refl_trans nat (extends G) r s) -> NoDup l ->
      (forall a s b, l = a ++ s :: b -> forall u, In u a -> clos_trans nat (extends G) s u) ->
      (forall s, In s l' <-> clos_refl_trans nat (extends G) r s) -> NoDup l' ->
      (forall a s b, l' = a ++ s :: b -> forall u, In u a -> clos_trans nat (extends G) s u) ->
      l = l'.
Proof.
  intros G wf r l l' I1 N1 S1 I2 N2 S2.
  assert (I : forall s, In s l <-> In s l') by (intros s; rewrite I1, I2; tauto).
  clear r I1 I2.
  assert (lt : forall s u, clos_trans nat (extends G) s u -> (u < s)%nat).
  { induction 1 as [x y X| ]; [apply wf in X; lia|lia]. }
  assert (K : forall l, (forall a s b, l = a ++ s :: b -> forall u, In u a -> clos_trans nat (extends G) s u) ->
              forall x l0, l = x :: l0 -> (forall y, In y l0 -> (x < y)%nat) /\
              (forall a s b, l0 = a ++ s :: b -> forall u, In u a -> clos_trans nat (extends G) s u)).
  { clear - lt. intros l S x l0 ->. split.
    - intros y Iy. apply in_split in Iy as (a & b & ->). apply lt.
      apply (S (x :: a) y b); [auto|left; auto].
    - intros a s b -> u Iu. apply (S (x :: a) s b); [auto|right; auto]. }
  revert l' N1 S1 N2 S2 I. induction l as [|x l IH]; intros [|y l'] N1 S1 N2 S2 I; auto.
  - exfalso. apply (I y). left; auto.
  - exfalso. apply (I x). left; auto.
  - destruct (K _ S1 _ _ eq_refl) as [L1 S1']. destruct (K _ S2 _ _ eq_refl) as [L2 S2'].
    assert (x = y).
    { destruct (proj1 (I x) (or_introl eq_refl)) as [|A]; auto.
      destruct (proj2 (I y) (or_introl eq_refl)) as [|B]; auto.
      apply L2 in A. apply L1 in B. lia. }
    subst y. f_equal. inversion N1 as [|? ? M1 N1']; inversion N2 as [|? ? M2 N2']; subst.
    apply IH; auto. intros s. split; intros J.
    + destruct (proj1 (I s) (or_intror J)) as [<-|]; auto. contradiction.
    + destruct (proj2 (I s) (or_intror J)) as [<-|]; auto. contradiction.
Qed.
Print Assumptions C20_unique_order.

Example C20_example :
  map ck_msg (iter_checks ex_types 2) = [t "b1"; t "b2"; t "m1"; t "l1"; t "l2"].
Proof. reflexivity. Qed.

(** The same order holds for inherited components, and the frozen value of a
    component is the one of the nearest type on the way to the root. *)
Theorem C20_component_order :
  forall G, wf_types G ->
    forall r, (r < List.length (recs G))%nat ->
      exists l, lineage G r l /\ all_components G r = flat_map (own_components G) l /\
        forall name, get_freezing G r name = first_some (fun s => assoc name (own_frozen G s)) (rev l).
Proof.
  intros G wf r L. destruct (lineage_exists G wf r L) as (l & Li). exists l. split; auto. split.
  - apply all_components_spec; auto.
  - intros name. apply freezing_steps_nearest; auto.
Qed.
Print Assumptions C20_component_order.

Example C20_component_example :
  map c_name (all_components ex_types 2) = [t "a"; t "b"; t "c"; t "d"] /\
  is_frozen ex_types 2 (t "a") = true /\ is_frozen ex_types 0 (t "a") = false.
Proof. repeat split; reflexivity. Qed.

(** C33 *)
Theorem C33_field_map :
  forall G, wf_types G ->
    (forall r, NoDup (map c_name (all_components G r))) ->
    forall ms, (forall m, In m ms -> (m < List.length (recs G))%nat) ->
      NoDup (map fst (field_map G ms)) /\
      (forall k, In k (map fst (field_map G ms)) <->
                 exists m c, In m ms /\ has_component G m c /\ c_name c = k) /\
      (forall k i, In (k, i) (field_map G ms) -> entry_ok G ms k i).
Proof. intros G wf dn ms R. apply field_map_spec; auto. Qed.
Print Assumptions C33_field_map.

Example C33_example :
  map (fun '(k, i) => (k, fi_typ i, fi_count i, fi_optional i)) (field_map ex_types [2; 3]%nat) =
  [(t "a", Some TInt, 2, true); (t "b", Some TStr, 1, true); (t "c", Some TInt, 1, false);
   (t "d", None, 2, false)] /\
  (forall r, NoDup (map c_name (all_components ex_types r))).
Proof.
  split; [reflexivity|].
  intros r. destruct r as [|[|[|[|r]]]]; try (apply distinct_nodup; vm_compute; reflexivity).
  unfold all_components. cbn. destruct r; constructor.
Qed.
