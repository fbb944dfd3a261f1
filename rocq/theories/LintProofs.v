(** Proofs about the linter. *)
From Coq Require Import Relations Permutation.
From Verif Require Import Base Lexer Ast TypesProofs SourceManProofs Lint.
Open Scope Z_scope.

Lemma ty_in_spec a l : ty_in a l = true <-> In a l.
Proof.
  unfold ty_in. rewrite existsb_exists. split.
  - intros (b & I & E). apply ty_eqb_eq in E. subst. auto.
  - intros I. exists a. split; auto. apply ty_eqb_refl.
Qed.
Lemma ty_in_false a l : ty_in a l = false <-> ~ In a l.
Proof. rewrite <- ty_in_spec. destruct (ty_in a l); split; congruence. Qed.

Arguments example : simpl never.
Section LINT.
Variable G : types.

(** The types that are visited from a type *)
Definition children (a : ty) : list ty :=
  match a with
  | TRec r => map c_typ (all_components G r)
  | TTup u => match tup G u with Some ut => map c_typ (u_comps ut) | None => [] end
  | TUnion _ ms => map TRec ms
  | _ => []
  end.
Inductive reach (l : list ty) : ty -> Prop :=
| reach_in a : In a l -> reach l a
| reach_step a b : reach l a -> In b (children a) -> reach l b.

(** What is emitted while a type is visited *)
Definition local (a : ty) : list finding :=
  match a with
  | TTup u => match tup G u with
              | Some ut => match tuple_items G u (iter_sequence ut) false None (LState [] [] []) with
                           | Ok s => found s
                           | _ => []
                           end
              | None => []
              end
  | TArr i lo hi _ => found (verify_array_type i lo hi (LState [] [] []))
  | TUnion i ms => (if Nat.eqb (List.length ms) 1 then [F_union_single i] else []) ++ subtype_pairs G i ms
  | _ => []
  end.
Definition marked (a : ty) (d : list (nat * list nat)) : list (nat * list nat) :=
  match a with
  | TRec r => match rec G r with Some rt => mark_abstract G r rt d | None => d end
  | _ => d
  end.

Lemma tuple_items_found u items : forall w bad s s',
  tuple_items G u items w bad s = Ok s' ->
  checked s' = checked s /\ exts s' = exts s /\
  exists fs, found s' = found s ++ fs /\
    forall s0, exists s1, tuple_items G u items w bad s0 = Ok s1 /\ found s1 = found s0 ++ fs.
Proof.
  induction items as [|it items IH]; cbn; intros w bad s s' E.
  - injection E as <-. repeat split. exists []. rewrite app_nil_r. split; auto. intros s0. exists s0. rewrite app_nil_r. auto.
  - destruct bad as [sep|].
    + destruct it as [c|]; [|discriminate].
      destruct (if is_integer (c_typ c) then Ok tt else example G (example_fuel G) (c_typ c)) as [[]| | |]; try discriminate.
      cbn in E. destruct (IH _ _ _ _ E) as (C & X & fs & F & H). cbn in C, X, F. repeat split; auto.
      exists (F_separator u sep :: fs). rewrite F, <- app_assoc. split; auto.
      intros s0. destruct (H (emit (F_separator u sep) s0)) as (s1 & E1 & F1). exists s1. cbn. split; auto.
      rewrite F1. cbn. rewrite <- app_assoc. auto.
    + destruct it as [c|sep].
      * destruct (is_integer (c_typ c)); eapply IH; eauto.
      * destruct (w && bad_sep sep)%bool; eapply IH; eauto.
Qed.

Lemma array_found i lo hi s :
  let s' := verify_array_type i lo hi s in
  checked s' = checked s /\ exts s' = exts s /\
  found s' = found s ++ found (verify_array_type i lo hi (LState [] [] [])).
Proof.
  cbn. unfold verify_array_type. destruct hi as [hi|]; [|rewrite app_nil_r; auto].
  destruct (hi <? lo), (hi =? 0), ((hi =? 1) && (lo =? 1))%bool, ((hi =? 1) && (lo =? 0))%bool;
    cbn; rewrite ?app_nil_r; auto.
Qed.

(** What a visit of [a] does, if it comes to an end. *)
Definition visits (l : list ty) (s s' : lstate) : Prop :=
  exists news, checked s' = news ++ checked s /\ NoDup news /\ (forall b, In b news -> ~ In b (checked s)) /\
    (forall b, In b news -> reach l b) /\
    (forall a, In a l -> In a (checked s')) /\
    (forall b c, In b news -> In c (children b) -> In c (checked s')) /\
    exts s' = fold_right marked (exts s) news /\
    Permutation (found s') (found s ++ flat_map local news).

Lemma reach_mono l l' a : (forall b, In b l -> reach l' b) -> reach l a -> reach l' a.
Proof. intros H R. induction R; auto. eapply reach_step; eauto. Qed.

Lemma visits_app l l' s s' s'' : visits l s s' -> visits l' s' s'' -> visits (l ++ l') s s''.
Proof.
  intros (n1 & C1 & N1 & D1 & R1 & A1 & B1 & X1 & F1) (n2 & C2 & N2 & D2 & R2 & A2 & B2 & X2 & F2).
  assert (Sub : forall x, In x (checked s') -> In x (checked s'')) by (intros x I; rewrite C2; apply in_app_iff; auto).
  exists (n2 ++ n1). repeat apply conj.
  - rewrite C2, C1, app_assoc. auto.
  - apply NoDup_app_iff. split; auto. split; auto. intros b I J. apply (D2 b I). rewrite C1. apply in_app_iff. auto.
  - intros b I J. apply in_app_iff in I as [I|I]; [|apply (D1 b); auto]. apply (D2 b I). rewrite C1. apply in_app_iff. auto.
  - intros b I. apply in_app_iff in I as [I|I]; [apply (reach_mono l')|apply (reach_mono l)]; auto;
      intros x J; apply reach_in; apply in_app_iff; auto.
  - intros a I. apply in_app_iff in I as [I|I]; auto.
  - intros b c I J. apply in_app_iff in I as [I|I]; [eapply B2|apply Sub; eapply B1]; eauto.
  - rewrite X2, X1, fold_right_app. auto.
  - rewrite F2, F1, flat_map_app, <- app_assoc. apply Permutation_app_head. apply Permutation_app_comm.
Qed.
Lemma visits_nil s : visits [] s s.
Proof.
  exists []. cbn. repeat apply conj; auto; try constructor; try contradiction. rewrite app_nil_r. auto.
Qed.
Lemma visits_done a s : In a (checked s) -> visits [a] s s.
Proof.
  intros I. exists []. cbn. repeat apply conj; auto; try constructor; try contradiction.
  - intros b [<-|[]]; auto.
  - rewrite app_nil_r. auto.
Qed.

(** One type and then its children *)
Lemma visits_cons a s s1 s' : ~ In a (checked s) -> checked s1 = a :: checked s -> exts s1 = marked a (exts s) ->
  found s1 = found s ++ local a -> visits (children a) s1 s' -> visits [a] s s'.
Proof.
  intros N C1 X1 F1 (n2 & C2 & N2 & D2 & R2 & A2 & B2 & X2 & F2). rewrite C1 in *.
  assert (Ia : In a (checked s')) by (rewrite C2; apply in_app_iff; right; left; auto).
  exists (n2 ++ [a]). repeat apply conj.
  - rewrite C2, <- app_assoc. auto.
  - apply NoDup_app_iff. split; auto. split; [repeat constructor; auto|]. intros b I [<-|[]]. apply (D2 a I). left; auto.
  - intros b I J. apply in_app_iff in I as [I|[<-|[]]]; auto. apply (D2 b I). right; auto.
  - intros b I. apply in_app_iff in I as [I|[<-|[]]]; [|apply reach_in; left; auto].
    apply (reach_mono (children a)); auto. intros x J. eapply reach_step; [apply reach_in; left; reflexivity|auto].
  - intros b [<-|[]]. auto.
  - intros b c I J. apply in_app_iff in I as [I|[<-|[]]]; [eapply B2; eauto|]. apply A2. auto.
  - rewrite fold_right_app. cbn. rewrite <- X1. auto.
  - rewrite F2, F1, flat_map_app. cbn. rewrite app_nil_r, <- app_assoc. apply Permutation_app_head, Permutation_app_comm.
Qed.

Definition all_of (n : nat) := fix all (l : list ty) (s : lstate) : res unit lstate :=
  match l with
  | [] => Ok s
  | b :: l' => do s' <- verify_type G n b s ; all l' s'
  end.
Lemma all_visits n : (forall a s s', verify_type G n a s = Ok s' -> visits [a] s s') ->
  forall l s s', all_of n l s = Ok s' -> visits l s s'.
Proof.
  intros H. induction l as [|a l IH]; cbn; intros s s' E.
  - injection E as <-. apply visits_nil.
  - destruct (verify_type G n a s) as [s1| | |] eqn:E1; try discriminate. cbn in E.
    change (a :: l) with ([a] ++ l). eapply visits_app; eauto.
Qed.

Lemma verify_type_S n a s : verify_type G (S n) a s =
  if ty_in a (checked s) then Ok s
  else
    let s := LState (a :: checked s) (exts s) (found s) in
    match a with
    | TRec r =>
        match rec G r with
        | None => Crash
        | Some rt => all_of n (map c_typ (all_components G r)) (LState (checked s) (mark_abstract G r rt (exts s)) (found s))
        end
    | TTup u =>
        match tup G u with
        | None => Crash
        | Some ut =>
            do s <- tuple_items G u (iter_sequence ut) false None s ;
            all_of n (map c_typ (u_comps ut)) s
        end
    | TArr i lo hi _ => Ok (verify_array_type i lo hi s)
    | TUnion i ms =>
        let s := if Nat.eqb (List.length ms) 1 then emit (F_union_single i) s else s in
        all_of n (map TRec ms) (LState (checked s) (exts s) (found s ++ subtype_pairs G i ms))
    | _ => Ok s
    end.
Proof. reflexivity. Qed.

Theorem verify_visits n : forall a s s', verify_type G n a s = Ok s' -> visits [a] s s'.
Proof.
  induction n as [|n IH]; [discriminate|]. intros a s s' E. rewrite verify_type_S in E.
  destruct (ty_in a (checked s)) eqn:I; [injection E as <-; apply visits_done, ty_in_spec; auto|].
  apply ty_in_false in I. cbn zeta in E.
  assert (Base : children a = [] -> local a = [] -> marked a (exts s) = exts s ->
                 visits [a] s (LState (a :: checked s) (exts s) (found s))).
  { intros Ec El Em. eapply visits_cons with (s1 := LState (a :: checked s) (exts s) (found s)); auto;
    [rewrite El, app_nil_r; auto|rewrite Ec; apply visits_nil]. }
  destruct a as [ | | | | |e|u|r|i ms|i lo hi el]; try (injection E as <-; apply Base; reflexivity).
  - destruct (tup G u) as [ut|] eqn:U; [|discriminate].
    destruct (tuple_items G u (iter_sequence ut) false None (LState (TTup u :: checked s) (exts s) (found s))) as [s1| | |] eqn:E1;
      try discriminate. cbn [bind] in E.
    destruct (tuple_items_found _ _ _ _ _ _ E1) as (C & X & fs & F & H). cbn in C, X, F.
    eapply visits_cons; [exact I|exact C|cbn; exact X| |].
    + rewrite F. cbn. rewrite U. destruct (H (LState [] [] [])) as (s2 & E2 & F2). rewrite E2, F2. auto.
    + cbn. rewrite U. eapply all_visits; eauto.
  - destruct (rec G r) as [rt|] eqn:R; [|discriminate]. cbn in E.
    eapply visits_cons with (s1 := LState (TRec r :: checked s) (mark_abstract G r rt (exts s)) (found s)); auto.
    + cbn. rewrite R. auto.
    + cbn. rewrite app_nil_r. auto.
    + eapply all_visits; eauto.
  - cbn in E. set (s1 := if Nat.eqb (List.length ms) 1 then emit (F_union_single i) (LState (TUnion i ms :: checked s) (exts s) (found s))
                         else LState (TUnion i ms :: checked s) (exts s) (found s)) in *.
    eapply visits_cons; [exact I| | | |eapply all_visits; eauto]; cbn; subst s1;
      destruct (Nat.eqb (List.length ms) 1); cbn; auto. rewrite <- app_assoc. auto.
  - injection E as <-. pose proof (array_found i lo hi (LState (TArr i lo hi el :: checked s) (exts s) (found s))) as (C & X & F).
    eapply visits_cons; [exact I|exact C|exact X|exact F|]. apply visits_nil.
Qed.

Lemma verify_all_eq n l s : verify_all G n l s = all_of n l s.
Proof.
  revert s. induction l as [|a l IH]; auto. intros s. cbn [verify_all all_of].
  destruct (verify_type G n a s); auto. cbn [bind]. auto.
Qed.
Lemma verify_all_visits n l s s' : verify_all G n l s = Ok s' -> visits l s s'.
Proof.
  intros E. apply (all_visits n (verify_visits n) l). rewrite <- verify_all_eq. auto.
Qed.

(** ** The end of the run *)
Lemma verify_all_end n order s : verify_all G n order (LState [] [] []) = Ok s ->
  (forall a, In a (checked s) <-> reach order a) /\ NoDup (checked s) /\
  exts s = fold_right marked [] (checked s) /\ Permutation (found s) (flat_map local (checked s)).
Proof.
  intros E. apply verify_all_visits in E as (news & C & N & D & R & A & B & X & F).
  cbn in *. rewrite app_nil_r in C. subst news. split; auto.
  intros a. split; auto. intros Ra. induction Ra; auto. eapply B; eauto.
Qed.

Lemma abstract_leaves_end order : forall s s', abstract_leaves G order s = Ok s' ->
  checked s' = checked s /\ exts s' = exts s /\
  exists fs, found s' = found s ++ fs /\
    (forall f, In f fs <-> exists r rt, f = F_abstract r /\ In (TRec r) order /\ rec G r = Some rt /\ r_abstract rt = true /\
       exists k, find (fun p => Nat.eqb (fst p) r) (exts s) = Some (k, [])) /\
    (NoDup order -> NoDup fs).
Proof.
  induction order as [|a order IH]; cbn; intros s s' E.
  - injection E as <-. repeat split. exists []. rewrite app_nil_r. split; auto. split; [|constructor].
    intros f; split; [intros []|intros (r & rt & _ & [] & _)].
  - assert (Skip : abstract_leaves G order s = Ok s' ->
       (forall r rt, a = TRec r -> rec G r = Some rt -> r_abstract rt = true ->
          forall k, find (fun p => Nat.eqb (fst p) r) (exts s) <> Some (k, [])) ->
      checked s' = checked s /\ exts s' = exts s /\
      exists fs, found s' = found s ++ fs /\
        (forall f, In f fs <-> exists r rt, f = F_abstract r /\ (a = TRec r \/ In (TRec r) order) /\ rec G r = Some rt /\ r_abstract rt = true /\
           exists k, find (fun p => Nat.eqb (fst p) r) (exts s) = Some (k, [])) /\ (NoDup (a :: order) -> NoDup fs)).
    { intros E' No. destruct (IH _ _ E') as (C & X & fs & F & H & N). repeat split; auto. exists fs. split; auto. split.
      - intros f. rewrite H. split; intros (r & rt & Q & I & R & Ab & k & Fi); exists r, rt; repeat split; eauto.
        destruct I as [->|I]; auto. destruct (No r rt eq_refl R Ab k Fi).
      - intros Nd. inversion Nd; auto. }
    destruct a as [ | | | | | | |r| | ]; try (apply Skip; auto; intros; discriminate).
    destruct (rec G r) as [rt|] eqn:R; [|discriminate]. destruct (r_abstract rt) eqn:Ab.
    + destruct (find (fun p => Nat.eqb (fst p) r) (exts s)) as [[k [|x xs]]|] eqn:Fi; [| |discriminate].
      * destruct (IH _ _ E) as (C & X & fs & F & H & N). cbn in C, X, F, H. repeat split; auto.
        exists (F_abstract r :: fs). rewrite F, <- app_assoc. split; auto. split.
        -- intros f. split.
           ++ intros [<-|I]; [exists r, rt; repeat split; eauto|].
              apply H in I as (r' & rt' & Q & I & R' & Ab' & k' & Fi'). exists r', rt'. repeat split; eauto.
           ++ intros (r' & rt' & Q & [[= <-]|I] & R' & Ab' & k' & Fi'); [left; auto|]. right. apply H.
              exists r', rt'. repeat split; eauto.
        -- intros Nd. inversion Nd; subst. constructor; auto. intros I. apply H in I as (r' & rt' & [= <-] & I & _). auto.
      * apply Skip; auto. intros r' rt' [= <-] R' Ab' k' Fi'. congruence.
    + apply Skip; auto. intros r' rt' [= <-] R' Ab'. congruence.
Qed.

(** ** Extensions of abstract types *)

(** The abstract types [c] contributes to: its parent, if it is abstract, and
    from there upwards as long as the types are abstract. *)
Inductive upward : nat -> nat -> Prop :=
| up_self r rt : rec G r = Some rt -> r_abstract rt = true -> upward r r
| up_more r rt p k : rec G r = Some rt -> r_abstract rt = true -> r_parent rt = Some p -> upward p k -> upward r k.
Definition holds (d : list (nat * list nat)) (k c : nat) : Prop :=
  exists k' l, find (fun p => Nat.eqb (fst p) k) d = Some (k', l) /\ In c l.

Lemma find_app {A} (f : A -> bool) a b : find f (a ++ b) = match find f a with Some x => Some x | None => find f b end.
Proof. induction a as [|x a IH]; cbn; auto. destruct (f x); auto. Qed.
Lemma has_key_find k d : has_key k d = true <-> find (fun p => Nat.eqb (fst p) k) d <> None.
Proof.
  unfold has_key. induction d as [|[x l] d IH]; cbn; [split; congruence|].
  destruct (Nat.eqb x k); cbn; auto. split; congruence.
Qed.
Lemma new_key_holds a d k c : holds (new_key a d) k c <-> holds d k c.
Proof.
  unfold new_key. destruct (has_key a d); [tauto|]. unfold holds. rewrite find_app.
  destruct (find (fun p => Nat.eqb (fst p) k) d) as [[k0 l0]|] eqn:F; [tauto|]. cbn.
  destruct (Nat.eqb a k); split; intros (k' & l & E & I); try discriminate. injection E as <- <-. destruct I.
Qed.
Lemma new_key_keys a d k : has_key k (new_key a d) = true <-> has_key k d = true \/ k = a.
Proof.
  unfold new_key. destruct (has_key a d) eqn:H.
  - split; auto. intros [?| ->]; auto.
  - unfold has_key. rewrite existsb_app, orb_true_iff. cbn. rewrite orb_false_r, Nat.eqb_eq. intuition.
Qed.
Lemma add_to_find a r d k : find (fun p => Nat.eqb (fst p) k) (add_to a r d) =
  match find (fun p => Nat.eqb (fst p) k) (new_key a d) with
  | Some (k', l) => Some (if Nat.eqb k' a then (k', r :: l) else (k', l))
  | None => None
  end.
Proof.
  unfold add_to. induction (new_key a d) as [|[x l] d' IH]; cbn; auto.
  destruct (Nat.eqb x a) eqn:Xa; cbn; destruct (Nat.eqb x k) eqn:Xk; auto; rewrite Xa; auto.
Qed.
Lemma add_to_keys a r d k : has_key k (add_to a r d) = true <-> has_key k d = true \/ k = a.
Proof.
  rewrite <- new_key_keys, !has_key_find, add_to_find.
  destruct (find _ (new_key a d)) as [[k' l]|]; split; congruence.
Qed.
Lemma add_to_holds a r d k c : holds (add_to a r d) k c <-> holds d k c \/ (k = a /\ c = r).
Proof.
  rewrite <- (new_key_holds a d k c). unfold holds. rewrite add_to_find.
  destruct (find (fun p => Nat.eqb (fst p) k) (new_key a d)) as [[k0 l0]|] eqn:F.
  - pose proof (find_some _ _ F) as [_ Ek]. cbn in Ek. apply Nat.eqb_eq in Ek. subst k0.
    destruct (Nat.eqb_spec k a) as [->|Ne].
    + split.
      * intros (k' & l & [= <- <-] & [<-|I]); eauto.
      * intros [(k' & l & [= <- <-] & I)|[_ ->]]; exists a, (r :: l0); cbn; auto.
    + split; [eauto|]. intros [?|[? _]]; [auto|congruence].
  - split; [intros (k' & l & [=] & _)|]. intros [(k' & l & [=] & _)|[-> _]].
    assert (K : has_key a (new_key a d) = true) by (apply new_key_keys; auto). apply has_key_find in K. congruence.
Qed.

Lemma mark_up_spec (wf : wf_types G) : forall f r anc d, (anc <= f)%nat ->
  (forall k c, holds (mark_up G f r anc d) k c <-> holds d k c \/ (c = r /\ upward anc k)) /\
  (forall k, has_key k d = true -> has_key k (mark_up G f r anc d) = true).
Proof.
  intros f. induction f as [|f IH]; intros r anc d Le; cbn; destruct (rec G anc) as [rt|] eqn:R.
  - destruct (r_abstract rt) eqn:Ab.
    + assert (P : r_parent rt = None).
      { destruct (r_parent rt) as [p|] eqn:P; auto. assert ((p < anc)%nat) by (apply wf; exists rt; auto). lia. }
      rewrite P. split; [|intros k K; apply add_to_keys; auto].
      intros k c. rewrite add_to_holds. split; intros [H|[-> H]]; auto.
      * right. split; auto. subst. econstructor; eauto.
      * right. split; auto. inversion H; subst; congruence.
    + split; auto. intros k c. split; auto. intros [H|[_ H]]; auto. inversion H; congruence.
  - split; auto. intros k c. split; auto. intros [H|[_ H]]; auto. inversion H; congruence.
  - destruct (r_abstract rt) eqn:Ab.
    + destruct (r_parent rt) as [p|] eqn:P.
      * assert ((p < anc)%nat) by (apply wf; exists rt; auto).
        destruct (IH r p (add_to anc r d)) as [A B]; [lia|]. split; [|intros k K; apply B, add_to_keys; auto].
        intros k c. rewrite A, add_to_holds. split.
        -- intros [[H1|[-> ->]]|[-> U]]; auto; right; split; auto; [econstructor; eauto|eapply up_more; eauto].
        -- intros [H1|[-> U]]; auto. inversion U; subst; auto. right. split; auto. congruence.
      * split; [|intros k K; apply add_to_keys; auto].
        intros k c. rewrite add_to_holds. split; intros [H|[-> H]]; auto.
        -- right. split; auto. subst. econstructor; eauto.
        -- right. split; auto. inversion H; subst; congruence.
    + split; auto. intros k c. split; auto. intros [H|[_ H]]; auto. inversion H; congruence.
  - split; auto. intros k c. split; auto. intros [H|[_ H]]; auto. inversion H; congruence.
Qed.

(** [c] is concrete and extends [k], directly or through abstract types only. *)
Definition supports (c k : nat) : Prop :=
  exists ct p, rec G c = Some ct /\ r_abstract ct = false /\ r_parent ct = Some p /\ upward p k.

Lemma marked_spec (wf : wf_types G) a d :
  (forall k c, holds (marked a d) k c <-> holds d k c \/ (a = TRec c /\ supports c k)) /\
  (forall k, has_key k d = true -> has_key k (marked a d) = true) /\
  (forall r rt, a = TRec r -> rec G r = Some rt -> r_abstract rt = true -> has_key r (marked a d) = true).
Proof.
  assert (Skip : (forall c k, a = TRec c -> ~ supports c k) -> marked a d = d ->
     (forall k c, holds (marked a d) k c <-> holds d k c \/ (a = TRec c /\ supports c k)) /\
     (forall k, has_key k d = true -> has_key k (marked a d) = true)).
  { intros N ->. split; auto. intros k c. split; auto. intros [?|[E S]]; auto. destruct (N c k E S). }
  destruct a; cbn [marked]; try (destruct Skip as [A B]; [intros; discriminate|reflexivity|]; repeat split;
    [apply A|apply A|apply B|intros; discriminate]).
  destruct (rec G r) as [rt|] eqn:R.
  - unfold mark_abstract. destruct (r_abstract rt) eqn:Ab.
    + split; [|split].
      * intros k c. rewrite new_key_holds. split; auto. intros [?|[[= <-] (ct & p & E & Ac & _)]]; auto. congruence.
      * intros k K. apply new_key_keys; auto.
      * intros r' rt' [= <-] _ _. apply new_key_keys; auto.
    + destruct (r_parent rt) as [p|] eqn:P.
      * destruct (mark_up_spec wf p r p d) as [A B]; [lia|]. split; [|split; [auto|congruence]].
        intros k c. rewrite A. split; intros [H|H]; auto.
        -- destruct H as [-> U]. right. split; auto. exists rt, p. auto.
        -- destruct H as [[= <-] (ct & p' & E & _ & P' & U)]. right. split; auto. congruence.
      * split; [|split; [auto|congruence]]. intros k c. split; auto.
        intros [H|[[= <-] (ct & p' & E & _ & P' & U)]]; auto. congruence.
  - split; [|split; [auto|congruence]]. intros k c. split; auto.
    intros [H|[[= <-] (ct & p' & E & _)]]; auto. congruence.
Qed.
Lemma marked_all (wf : wf_types G) l :
  (forall k c, holds (fold_right marked [] l) k c <-> In (TRec c) l /\ supports c k) /\
  (forall r rt, In (TRec r) l -> rec G r = Some rt -> r_abstract rt = true -> has_key r (fold_right marked [] l) = true).
Proof.
  induction l as [|a l [IHa IHb]]; cbn.
  - split; [|contradiction]. intros k c. split; [intros (k' & l & [=] & _)|intros [[] _]].
  - destruct (marked_spec wf a (fold_right marked [] l)) as (A & B & C). split.
    + intros k c. rewrite A, IHa. tauto.
    + intros r rt [->|I] R Ab; [eapply C; eauto|]. apply B. eapply IHb; eauto.
Qed.

(** ** Tuples *)
Definition bad_at (ut : tuptype) (i : nat) (sep : text) : Prop :=
  exists c sp, nth_error (u_comps ut) i = Some c /\ c_typ c = TInt /\
    nth_error (u_seps ut) i = Some sp /\ sep = sep_text sp /\ (sep = t "x" \/ sep = t "b").

Lemma bad_sep_spec sp : bad_sep sp = true <-> sep_text sp = t "x" \/ sep_text sp = t "b".
Proof. unfold bad_sep. rewrite orb_true_iff, !text_eqb_eq. tauto. Qed.
Lemma integer_spec a : is_integer a = true <-> a = TInt.
Proof. destruct a; cbn; split; congruence. Qed.

(** the same for the lists *)
Definition bad_in (cs : list component) (ss : list separator) (i : nat) (sep : text) : Prop :=
  exists c sp, nth_error cs i = Some c /\ c_typ c = TInt /\
    nth_error ss i = Some sp /\ sep = sep_text sp /\ (sep = t "x" \/ sep = t "b").
Lemma bad_in_S c cs s ss i sep : bad_in (c :: cs) (s :: ss) (S i) sep <-> bad_in cs ss i sep.
Proof. unfold bad_in. cbn. tauto. Qed.
Lemma bad_in_0 c cs s ss sep : bad_in (c :: cs) (s :: ss) 0 sep <->
  is_integer (c_typ c) = true /\ bad_sep s = true /\ sep = sep_text s.
Proof.
  unfold bad_in. cbn. rewrite integer_spec, bad_sep_spec. split.
  - intros (c' & s' & [= <-] & T & [= <-] & E & B). subst. auto.
  - intros (T & B & E). exists c, s. repeat split; subst; auto.
Qed.

Lemma tuple_items_spec u : forall cs ss w s, (List.length ss <= List.length cs)%nat ->
  ((forall i sep, ~ bad_in cs ss i sep) -> tuple_items G u (interleave cs ss) w None s = Ok s) /\
  (forall s', tuple_items G u (interleave cs ss) w None s = Ok s' -> List.length cs = S (List.length ss) ->
     forall f, In f (found s') <-> In f (found s) \/ exists i sep, bad_in cs ss i sep /\ f = F_separator u sep).
Proof.
  induction cs as [|c cs IH]; intros ss w s Le.
  - destruct ss; [|cbn in Le; lia]. cbn. split; auto. intros s' _ [=].
  - destruct ss as [|sp ss].
    + cbn. assert (E : forall w s, tuple_items G u (interleave cs []) w None s = Ok s).
      { clear. induction cs as [|c cs IH]; cbn; auto. intros. destruct (is_integer (c_typ c)); auto. }
      split; [intros _; rewrite !E; destruct (is_integer (c_typ c)); auto|].
      rewrite !E. intros s' H _ f. assert (s' = s) as -> by (destruct (is_integer (c_typ c)); congruence).
      split; auto. intros [?|(i & sep & (c' & sp & _ & _ & N & _) & _)]; auto. destruct i; discriminate.
    + cbn [interleave tuple_items]. cbn in Le.
      set (w' := is_integer (c_typ c)).
      replace (if is_integer (c_typ c) then _ else _) with
        (tuple_items G u (ISep sp :: interleave cs ss) w' None s) by (subst w'; destruct (is_integer (c_typ c)); reflexivity).
      cbn [tuple_items]. destruct (w' && bad_sep sp)%bool eqn:Bad.
      * apply andb_true_iff in Bad as [W B]. split.
        -- intros N. destruct (N 0%nat (sep_text sp)). apply bad_in_0. auto.
        -- intros s' E Ln f. cbn in Ln. destruct cs as [|c2 cs]; [cbn in Ln; lia|].
           destruct ss as [|sp2 ss].
           ++ destruct cs; [|cbn in Ln; lia]. cbn in E.
              assert (found s' = found s ++ [F_separator u (sep_text sp)]) as ->.
              { destruct (is_integer (c_typ c2)); cbn in E; [injection E as <-; auto|].
                destruct (example G (example_fuel G) (c_typ c2)); cbn in E; try discriminate. injection E as <-; auto. }
              rewrite in_app_iff. cbn. split.
              ** intros [?|[<-|[]]]; auto. right. exists 0%nat, (sep_text sp). split; auto. apply bad_in_0. auto.
              ** intros [?|(i & sep & Bi & ->)]; auto. right. left. destruct i as [|i].
                 --- apply bad_in_0 in Bi as (_ & _ & ->). auto.
                 --- apply (proj1 (bad_in_S _ _ _ _ _ _)) in Bi. destruct Bi as (? & ? & _ & _ & N & _). destruct i; discriminate.
           ++ exfalso. cbn in E. destruct (if is_integer (c_typ c2) then Ok tt else example G (example_fuel G) (c_typ c2));
                cbn in E; discriminate.
      * destruct (IH ss false s) as [A B]; [lia|]. split.
        -- intros N. apply A. intros i sep H. apply (N (S i) sep). apply bad_in_S. auto.
        -- intros s' E Ln f. rewrite (B s' E) by (cbn in Ln; lia).
           split; intros [?|(i & sep & Bi & ->)]; auto; right.
           ++ exists (S i), sep. split; auto.
           ++ destruct i as [|i]; [|exists i, sep; split; auto; apply (proj1 (bad_in_S _ _ _ _ _ _) Bi)].
              exfalso. apply bad_in_0 in Bi as (W & B' & _). subst w'. rewrite W, B' in Bad. discriminate.
Qed.

(** ** Termination and absence of exceptions *)
Definition declared (a : ty) : Prop :=
  match a with
  | TRec r => rec G r <> None
  | TTup u => tup G u <> None
  | _ => True
  end.
Definition calm (a : ty) : Prop :=
  match a with
  | TTup u => forall ut, tup G u = Some ut -> forall s, exists s', tuple_items G u (iter_sequence ut) false None s = Ok s'
  | _ => True
  end.

Definition todo (U : list ty) (s : lstate) : nat := List.length (filter (fun a => negb (ty_in a (checked s))) U).
Lemma filter_less {A} (f g : A -> bool) l : (forall x, f x = true -> g x = true) ->
  (List.length (filter f l) <= List.length (filter g l))%nat.
Proof.
  intros H. induction l as [|x l IH]; cbn; auto. destruct (f x) eqn:F.
  - rewrite (H _ F). cbn. lia.
  - destruct (g x); cbn; lia.
Qed.
Lemma filter_lt {A} (f g : A -> bool) l a : (forall x, f x = true -> g x = true) -> In a l -> f a = false -> g a = true ->
  (List.length (filter f l) < List.length (filter g l))%nat.
Proof.
  intros H I Fa Ga. induction l as [|x l IH]; [destruct I|]. cbn. destruct I as [->|I].
  - rewrite Fa, Ga. pose proof (filter_less f g l H). cbn. lia.
  - specialize (IH I). destruct (f x) eqn:F; [rewrite (H _ F); cbn; lia|]. destruct (g x); cbn; lia.
Qed.
Lemma todo_le U s s' : (forall a, In a (checked s) -> In a (checked s')) -> (todo U s' <= todo U s)%nat.
Proof.
  intros H. apply filter_less. intros x. rewrite !negb_true_iff, !ty_in_false. auto.
Qed.
Lemma todo_lt U a s s' : In a U -> ~ In a (checked s) -> In a (checked s') ->
  (forall a, In a (checked s) -> In a (checked s')) -> (todo U s' < todo U s)%nat.
Proof.
  intros I N I' H. apply filter_lt with a; auto.
  - intros x. rewrite !negb_true_iff, !ty_in_false. auto.
  - apply negb_false_iff, ty_in_spec. auto.
  - apply negb_true_iff, ty_in_false. auto.
Qed.
Lemma visits_sub l s s' : visits l s s' -> forall a, In a (checked s) -> In a (checked s').
Proof. intros (n & C & _) a I. rewrite C. apply in_app_iff. auto. Qed.

Lemma all_total U n :
  (forall a s, In a U -> (todo U s < n)%nat -> exists s', verify_type G n a s = Ok s') ->
  forall l s, incl l U -> (todo U s < n)%nat -> exists s', all_of n l s = Ok s'.
Proof.
  intros H. induction l as [|a l IH]; cbn; intros s Sub Lt; eauto.
  destruct (H a s) as [s1 E1]; auto; [apply Sub; left; auto|]. rewrite E1. cbn.
  apply IH; [intros x I; apply Sub; right; auto|]. pose proof (todo_le U s s1 (visits_sub _ _ _ (verify_visits _ _ _ _ E1))). lia.
Qed.
Lemma verify_total U : (forall a b, In a U -> In b (children a) -> In b U) ->
  (forall a, In a U -> declared a /\ calm a) ->
  forall n a s, In a U -> (todo U s < n)%nat -> exists s', verify_type G n a s = Ok s'.
Proof.
  intros Cl Ok'. induction n as [|n IH]; intros a s I Lt; [lia|]. rewrite verify_type_S.
  destruct (ty_in a (checked s)) eqn:Ch; eauto. apply ty_in_false in Ch. cbn zeta.
  destruct (Ok' a I) as [De Ca].
  assert (Step : forall s1 l, checked s1 = a :: checked s -> l = children a -> exists s', all_of n l s1 = Ok s').
  { intros s1 l C ->. apply (all_total U n); auto.
    - intros b Ib. eapply Cl; eauto.
    - assert ((todo U s1 < todo U s)%nat); [|lia].
      apply todo_lt with a; auto; rewrite C; [left; auto|intros x J; right; auto]. }
  destruct a as [ | | | | |e|u|r|i ms|i lo hi el]; eauto; cbn in De.
  - destruct (tup G u) as [ut|] eqn:Ut; [|congruence].
    destruct (Ca ut Ut (LState (TTup u :: checked s) (exts s) (found s))) as [s1 E1]. rewrite E1. cbn [bind].
    destruct (tuple_items_found _ _ _ _ _ _ E1) as (C & _). apply Step; auto. cbn. rewrite Ut. auto.
  - destruct (rec G r) as [rt|] eqn:R; [|congruence]. apply Step; auto.
  - apply Step; auto. destruct (Nat.eqb (List.length ms) 1); auto.
Qed.

Lemma all_components_types r c : In c (all_components G r) -> In (c_typ c) (component_types G).
Proof.
  unfold all_components, component_types. intros I. apply in_app_iff. left.
  assert (H : forall f r, In c (all_components_steps G f r) ->
     In (c_typ c) (flat_map (fun rt => map c_typ (r_comps rt)) (recs G))).
  { clear. intros f. induction f as [|f IH]; intros r; cbn; destruct (rec G r) as [rt|] eqn:R; cbn; try contradiction;
      (assert (K : In c (r_comps rt) -> In (c_typ c) (flat_map (fun rt => map c_typ (r_comps rt)) (recs G)))
        by (intros J; apply in_flat_map; exists rt; split; [eapply nth_error_In; eauto|apply in_map; auto]));
      destruct (r_parent rt); auto; try contradiction.
    intros I. apply in_app_iff in I as [I|I]; eauto. }
  eapply H; eauto.
Qed.
Lemma universe_closed order a b : In a (universe G order) -> In b (children a) -> In b (universe G order).
Proof.
  assert (L : forall c, In c (component_types G) -> In c (universe G order)).
  { intros c I. unfold universe. apply in_app_iff. left. apply in_app_iff. auto. }
  intros I J. destruct a as [ | | | | |e|u|r|i ms|i lo hi el]; cbn in J; try contradiction.
  - destruct (tup G u) as [ut|] eqn:Ut; [|contradiction]. apply L. unfold component_types. apply in_app_iff. right.
    apply in_flat_map. exists ut. split; auto. unfold tup in Ut. eapply nth_error_In; eauto.
  - apply in_map_iff in J as (c & <- & J). apply L. eapply all_components_types; eauto.
  - unfold universe in *. set (l := order ++ component_types G) in *. cbn zeta in *. apply in_app_iff. right.
    apply in_app_iff in I as [I|I].
    + apply in_flat_map. exists (TUnion i ms). auto.
    + apply in_flat_map in I as (x & _ & I). destruct x; cbn in I; try contradiction. apply in_map_iff in I as (? & [=] & _).
Qed.

(** The linter comes to an end with a result. *)
Lemma verify_all_total order U : incl order U -> (forall a b, In a U -> In b (children a) -> In b U) ->
  (forall a, In a U -> declared a /\ calm a) ->
  exists s, verify_all G (S (List.length U)) order (LState [] [] []) = Ok s.
Proof.
  intros Sub Cl Ok'.
  assert (H : exists s, all_of (S (List.length U)) order (LState [] [] []) = Ok s).
  { apply (all_total U); auto.
    - apply verify_total; auto.
    - unfold todo. pose proof (filter_less (fun a => negb (ty_in a (checked (LState [] [] [])))) (fun _ => true) U) as F.
      specialize (F (fun _ _ => eq_refl)). assert (E : filter (fun _ : ty => true) U = U) by (clear; induction U; cbn; congruence).
      rewrite E in F. lia. }
  destruct H as [s E]. exists s. rewrite verify_all_eq. auto.
Qed.
Lemma abstract_leaves_total order : forall s,
  (forall r, In (TRec r) order -> exists rt, rec G r = Some rt /\ (r_abstract rt = true -> has_key r (exts s) = true)) ->
  exists s', abstract_leaves G order s = Ok s'.
Proof.
  induction order as [|a order IH]; cbn; intros s H; eauto.
  assert (Rest : forall f, exists s', abstract_leaves G order (emit f s) = Ok s').
  { intros f. apply IH. intros r I. apply H. auto. }
  assert (Rest' : exists s', abstract_leaves G order s = Ok s').
  { apply IH. intros r I. apply H. auto. }
  destruct a as [ | | | | |e|u|r|i ms|i lo hi el]; auto.
  destruct (H r) as (rt & R & K); auto. rewrite R. destruct (r_abstract rt); auto.
  specialize (K eq_refl). apply has_key_find in K. destruct (find _ (exts s)) as [[k [|x l]]|]; auto. congruence.
Qed.

(** A run with a result has gone through the items of every tuple. *)
Definition through (s : lstate) : Prop :=
  forall u ut, In (TTup u) (checked s) -> tup G u = Some ut ->
    exists s', tuple_items G u (iter_sequence ut) false None (LState [] [] []) = Ok s'.
Lemma all_through n : (forall a s s', verify_type G n a s = Ok s' -> through s -> through s') ->
  forall l s s', all_of n l s = Ok s' -> through s -> through s'.
Proof.
  intros H. induction l as [|a l IH]; cbn; intros s s' E T; [injection E as <-; auto|].
  destruct (verify_type G n a s) as [s1| | |] eqn:E1; try discriminate. cbn in E. eauto.
Qed.
Lemma verify_through n : forall a s s', verify_type G n a s = Ok s' -> through s -> through s'.
Proof.
  induction n as [|n IH]; [discriminate|]. intros a s s' E T. rewrite verify_type_S in E.
  destruct (ty_in a (checked s)); [injection E as <-; auto|]. cbn zeta in E.
  assert (Tn : (forall u, a <> TTup u) -> forall x f, through (LState (a :: checked s) x f)).
  { intros N x f u ut [->|I] U; [destruct (N u eq_refl)|]. eapply T; eauto. }
  destruct a as [ | | | | |e|u|r|i ms|i lo hi el]; try (injection E as <-; apply Tn; discriminate).
  - destruct (tup G u) as [ut|] eqn:U; [|discriminate].
    destruct (tuple_items G u (iter_sequence ut) false None _) as [s1| | |] eqn:E1; try discriminate. cbn [bind] in E.
    destruct (tuple_items_found _ _ _ _ _ _ E1) as (C & _ & fs & _ & H). cbn in C.
    eapply all_through; eauto. intros v vt I V. rewrite C in I. destruct I as [[= <-]|I]; [|eapply T; eauto].
    rewrite U in V. injection V as <-. destruct (H (LState [] [] [])) as (s2 & E2 & _). eauto.
  - destruct (rec G r); [|discriminate]. cbn in E. eapply all_through; eauto. apply Tn. discriminate.
  - cbn in E. eapply all_through; eauto. destruct (Nat.eqb (List.length ms) 1); apply Tn; discriminate.
  - injection E as <-. intros v vt I V. destruct (array_found i lo hi (LState (TArr i lo hi el :: checked s) (exts s) (found s))) as (C & _).
    rewrite C in I. destruct I as [[=]|I]. eapply T; eauto.
Qed.
End LINT.
