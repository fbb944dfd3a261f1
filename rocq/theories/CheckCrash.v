(** Checks of complete objects raise an exception only if they are fragile. *)
From Coq Require Import Relations.
From Verif Require Import Base Lexer SymTab Ast Eval Typing TypesProofs Soundness ParserBase ParserExpr ExprTyping ValueSyntax ValueTyping
  ParserDecl ParserFile Resolve Growth DeclInv Process ProcessInv ProcessRun RunSyntax Hazards RunHazards RunComplete.
From Verif Require Checks ChecksProofs.
From Coq Require Import ZifyBool ZifyNat ZifyN.
Open Scope Z_scope.

Section FRAGILE.
Variable G : types.
Variable W : world.
Hypothesis order : wf_types G.

Definition mixed (e : expr) : Prop :=
  exists l c p un i ms, sub (EField l c p true un) e /\ e_typ p = Some (TUnion i ms) /\ ~ coherent G ms (c_name c) (c_typ c).
Lemma mixed_sub e f : mixed e -> (forall x, sub x e -> sub x f) -> mixed f.
Proof. intros (l & c & p & un & i & ms & S & R) H. exists l, c, p, un, i, ms. auto. Qed.
Lemma list_or {A} (P : A -> Prop) (Q : Prop) l : (forall x, In x l -> P x \/ Q) -> (forall x, In x l -> P x) \/ Q.
Proof.
  induction l as [|x l IH]; intros H; [left; intros x []|]. destruct (H x (or_introl eq_refl)) as [Px|]; auto.
  destruct IH as [IH|]; auto; [intros; apply H; cbn; auto|]. left. intros y [<-|I]; auto.
Qed.
Lemma all_below n (P : nat -> Prop) : (forall r, P r \/ ~ P r) -> (forall r, (r < n)%nat -> P r) \/ ~ forall r, (r < n)%nat -> P r.
Proof.
  intros D. induction n as [|n IH]; [left; intros; lia|]. destruct IH as [IH|IH]; [|right; intros H; apply IH; intros; apply H; lia].
  destruct (D n) as [Y|N]; [|right; intros H; apply N, H; lia]. left. intros r L. destruct (Nat.eq_dec r n) as [->|]; auto. apply IH. lia.
Qed.
Lemma all_in {A} (P : A -> Prop) l : (forall x, P x \/ ~ P x) -> (forall x, In x l -> P x) \/ ~ forall x, In x l -> P x.
Proof.
  intros D. induction l as [|x l IH]; [left; intros x []|]. destruct IH as [IH|IH]; [|right; intros H; apply IH; intros; apply H; cbn; auto].
  destruct (D x) as [Y|N]; [left; intros y [<-|I]; auto|right; intros H; apply N, H; cbn; auto].
Qed.
Lemma coherent_dec ms k a : coherent G ms k a \/ ~ coherent G ms k a.
Proof.
  destruct (all_below (List.length (recs G)) (fun r => (exists m, In m ms /\ clos_refl_trans nat (extends G) r m) ->
    forall c, In c (all_components G r) -> c_name c = k -> c_typ c = a)) as [H|H].
  - intros r. destruct (existsb (is_subclass_of G r) ms) eqn:E.
    + apply existsb_exists in E as (m & I & E). apply subclass_spec in E; auto.
      destruct (all_in (fun c => c_name c = k -> c_typ c = a) (all_components G r)) as [Y|N].
      * intros c. destruct (text_eqb (c_name c) k) eqn:Ek.
        -- apply text_eqb_eq in Ek. destruct (ty_eqb (c_typ c) a) eqn:Et; [left; intros _; apply ty_eqb_eq; auto|].
           right. intros X. rewrite (X Ek), ty_eqb_refl in Et. discriminate.
        -- left. intros X. rewrite X, text_eqb_refl in Ek. discriminate.
      * left. auto.
      * right. intros X. apply N. intros c Ic. apply X; eauto.
    + left. intros (m & I & C) c. apply subclass_spec in C; auto. exfalso.
      assert (X : existsb (is_subclass_of G r) ms = true) by (apply existsb_exists; eauto). congruence.
  - left. intros r c L C I En. exact (H r L C c I En).
  - right. intros C. apply H. intros r L X c I En. exact (C r c L X I En).
Qed.
Lemma strict_or : forall e S, wt G W false S e -> wt G W true S e \/ mixed e.
Proof.
  fix IH 3. intros e S D. destruct D.
  1-23: repeat match goal with Hw : wt G W false ?S ?e |- _ =>
      destruct (IH e S Hw) as [?|M]; clear Hw; [|right; eapply mixed_sub; [exact M|]; intros; eauto using sub] end; clear IH.
  all: try (left; econstructor; solve [eauto]).
  - left. eapply wt_string; [|exact H0|exact H1| | | |]; eauto.
  - left. eapply wt_regex; [exact H|exact H0| | | | | |]; eauto.
  - left. eapply wt_concat; [exact H|exact H0| | | |]; eauto.
  - destruct (coherent_dec ms (c_name c) (c_typ c)) as [Co|Co].
    + left. eapply wt_union_field; eauto.
    + right. exists l, c, p, un, i, ms. split; auto. constructor.
  - assert (K : (forall e, In e es -> wt G W true S e) \/ mixed (EOneof l es)).
    { apply list_or. intros e I. destruct (IH e S (H0 e I)) as [?|M]; auto. right. eapply mixed_sub; [exact M|]. intros; eapply sub_oneof; eauto. }
    destruct K; auto. left. apply wt_oneof; auto.
  - assert (K : (forall cx, In cx acts -> wt G W true S (fst cx) /\ wt G W true S (snd cx)) \/ mixed (ECond l acts els)).
    { apply list_or. intros [c x] I. cbn. destruct (H2 c x I) as [Wc Wx].
      destruct (IH c S Wc) as [?|M]; [|right; eapply mixed_sub; [exact M|]; intros; eapply sub_cond; eauto].
      destruct (IH x S Wx) as [?|M]; [|right; eapply mixed_sub; [exact M|]; intros; eapply sub_cond; eauto]. auto. }
    destruct K as [K|K]; auto. destruct (IH _ S D) as [?|M]; [|right; eapply mixed_sub; [exact M|]; intros; apply sub_else; auto].
    left. eapply wt_cond; eauto. intros c x I. apply (K (c, x) I).
  - destruct (IH _ _ D) as [?|M]; [|right; eapply mixed_sub; [exact M|]; intros; apply sub_quant; auto]. left. eapply wt_quant; eauto.
Qed.
End FRAGILE.

(** ** Sites *)
Section SITES.
Variable matches : text -> text -> option bool.
Variable v : env.
Hypothesis un : unchecked matches v.
Notation G := (v_types v).
Notation W := (World (v_objs v) matches).

Lemma unchecked_world : wt_world G W.
Proof.
  destruct un as [Ty Ob Rd Se Tb]. intros o ob E. assert (R := Rd _ _ E). assert (S := Se _ _ E). cbn in E.
  split; [|split; [|split]].
  - destruct (rd_type _ _ _ R) as (rt & Er & _). apply nth_error_Some. unfold rec in Er. congruence.
  - intros c I. destruct (st_fields _ _ _ _ S c I) as ([id x] & E1 & F1). eauto.
  - intros k f Ek. assert (J : In k (map fst (o_fields ob))) by (apply in_map_iff; exists (k, f); split; [auto|exact (assoc_in _ _ _ Ek)]).
    rewrite (rd_keys _ _ _ R) in J. apply in_map_iff in J as (c & <- & I). eauto.
  - rewrite (rd_keys _ _ _ R). apply (ok_distinct _ _ Ty).
Qed.
Lemma check_typed a c : valid G a -> check_ok matches G a c -> wt G W false (type_scope G a) (ck_expr c).
Proof.
  intros V [We Eb An]. assert (Ty := un_types _ _ un).
  refine (proj1 (wt_mono G G (World [] matches) W (keeps_refl _) _ _ _ _ _ _ We _)).
  - exact (ok_order _ _ Ty).
  - exact (ok_distinct _ _ Ty).
  - exact (ok_components _ _ Ty).
  - reflexivity.
  - intros n b o E. eapply type_scope_valid; eauto; [exact (ok_order _ _ Ty)|exact (ok_components _ _ Ty)].
Qed.
Lemma scope_comp cs k a o : assoc k (map (fun c => (c_name c, (c_typ c, c_opt c))) cs) = Some (a, o) ->
  exists c, In c cs /\ c_name c = k /\ c_typ c = a /\ c_opt c = o.
Proof.
  induction cs as [|c cs IH]; cbn; [discriminate|]. destruct (text_eqb (c_name c) k) eqn:E.
  - intros H. injection H as <- <-. apply text_eqb_eq in E. exists c. auto.
  - intros H. destruct (IH H) as (c' & I & R). exists c'. auto.
Qed.
Definition in_scope (s : ChecksProofs.site) : Prop :=
  exists a, valid G a /\ check_ok matches G a (ChecksProofs.s_check s) /\ scope_ok G W (type_scope G a) (ChecksProofs.s_fields s).

Lemma tuple_scope cs d : tup_fields G W cs d -> scope_ok G W (map (fun c => (c_name c, (c_typ c, c_opt c))) cs) d.
Proof.
  induction cs as [|c cs IH] in d |- *; intros T n a o; cbn; [discriminate|].
  inversion T as [|? ? x vs Vx Tf|? ? l vs Op Tf]; subst; cbn; destruct (text_eqb (c_name c) n).
  - intros [= <- <-]. exists x. split; auto. left. auto.
  - apply IH. auto.
  - intros [= <- <-]. exists (XNull l). split; auto. right. eauto.
  - apply IH. auto.
Qed.
Lemma value_scope a x : vt G W a x -> forall s, In s (ChecksProofs.value_sites G a x) -> in_scope s.
Proof.
  assert (Ty := un_types _ _ un).
  intros H. assert (M : (forall a x, vt G W a x -> forall s, In s (ChecksProofs.value_sites G a x) -> in_scope s) /\
    (forall cs d, tup_fields G W cs d -> True)); [|destruct M; eauto].
  clear H a x. apply vt_all; auto; try (cbn; contradiction).
  - intros l k refs s I. destruct k as [| |? []| |]; destruct I.
  - intros l a op l' k refs A _ _ s I. destruct A as [-> | ->]; destruct I.
  - intros l i lo hi el vs H1 IH s I. cbn in I. apply in_flat_map in I as (x & Ix & I). eauto.
  - intros l u ut vs E Tf _ s I. cbn in I. rewrite E in I. apply in_map_iff in I as (c & <- & I). exists (TTup u). cbn. split; [|split].
    + apply nth_error_Some. congruence.
    + apply (uo_checks _ _ _ _ (ty_tups _ _ Ty _ _ E)). auto.
    + unfold type_scope. cbn. unfold tup. rewrite E. apply tuple_scope. auto.
Qed.
Lemma site_scope ob s : In ob (v_objs v) -> In s (ChecksProofs.object_sites G ob) -> in_scope s.
Proof.
  intros Io I. apply In_nth_error in Io as (o & E). destruct un as [Ty Ob Rd Se Tb].
  destruct (Rd _ _ E) as [(rt & Er & _) _ _]. destruct (Se _ _ E) as [Sf _].
  unfold ChecksProofs.object_sites in I. apply in_app_or in I as [I|I].
  - apply in_flat_map in I as (c & Ic & I). destruct (Sf c Ic) as (f & Ef & Ft). unfold ChecksProofs.component_sites in I. rewrite (assoc_fields _ _ _ Ef) in I.
    destruct Ft as [Vt|(_ & l & En)]; [eapply value_scope; eauto|]. rewrite En in I. destruct (c_typ c); destruct I.
  - unfold ChecksProofs.record_sites in I. apply in_map_iff in I as (c & <- & I).
    assert (Or := ok_order _ _ Ty). assert (L : (o_typ ob < List.length (recs G))%nat) by (apply nth_error_Some; unfold rec in Er; congruence).
    destruct (lineage_exists G Or _ L) as (ln & Ln). rewrite (iter_checks_spec G Or _ _ Ln) in I. apply in_flat_map in I as (r & Ir & I).
    apply (lineage_in G _ _ Ln) in Ir. unfold own_checks in I. destruct (nth_error (recs G) r) as [rt'|] eqn:Er'; [|destruct I].
    exists (TRec r). cbn. split; [apply nth_error_Some; congruence|]. split; [apply (ro_checks _ _ _ _ (ty_recs _ _ Ty _ _ Er')); auto|].
    intros n a op Ea. apply scope_comp in Ea as (y & Iy & <- & <- & <-). cbn in Iy.
    destruct (Sf y (components_inherited G Or _ _ _ L Ir Iy)) as (f & Ef & Ft). exists (snd f). split; auto. apply assoc_fields. auto.
Qed.
Theorem site_decided s : in_scope s -> (exists l, ChecksProofs.place s l) ->
  (exists r, ChecksProofs.outcome W s r) \/ (fragile G (ck_expr (ChecksProofs.s_check s)) /\ ~ exists r, ChecksProofs.outcome W s r).
Proof.
  intros (a & V & Ck & Sc) (l & Pl). assert (Ty := un_types _ _ un). set (e := ck_expr (ChecksProofs.s_check s)) in *.
  assert (Dec : (exists r, ChecksProofs.outcome W s r) \/ ~ exists r, ChecksProofs.outcome W s r).
  { destruct (evaluate W (Some (ChecksProofs.s_fields s)) e) as [x|[l0 p]| |] eqn:E.
    - destruct (v_val x) as [[y b]|] eqn:X; [|left; eexists; eapply ChecksProofs.out_null; eauto].
      destruct y as [| | |[]| | | |]; try (right; intros (r & O); inversion O; unfold e in *; congruence).
      + left; eexists; eapply ChecksProofs.out_true; eauto.
      + left; eexists; eapply ChecksProofs.out_false; eauto.
    - destruct (internal p) eqn:Ip.
      + right. intros (r & O). inversion O as [| | |e0 E0 I0]; unfold e in *; try congruence. rewrite E in E0. injection E0 as <-. cbn in I0. congruence.
      + left. eexists. eapply (ChecksProofs.out_error _ _ (l0, p)); eauto.
    - right. intros (r & O). inversion O; unfold e in *; congruence.
    - right. intros (r & O). inversion O; unfold e in *; congruence. }
  destruct Dec as [D|D]; auto. right. split; auto.
  destruct (strict_or G W (ok_order _ _ Ty) e _ (check_typed _ _ V Ck)) as [Wt|M]; [|right; right; exact M].
  assert (A := soundness G W (ok_order _ _ Ty) unchecked_world (ok_distinct _ _ Ty) (ok_tup _ _ Ty) e _ _ Wt Sc).
  assert (B := internal_errors G W (ok_order _ _ Ty) unchecked_world (ok_distinct _ _ Ty) (ok_tup _ _ Ty) e _ _ Wt Sc).
  destruct (evaluate W (Some (ChecksProofs.s_fields s)) e) as [x|[l0 p]| |] eqn:E; unfold good in A; try contradiction.
  - destruct A as [A _]. unfold of_type in A. assert (Eb : e_typ e = Some TBool) by apply (co_bool _ _ _ _ Ck). rewrite Eb in A. destruct (v_val x) as [[y b]|] eqn:X.
    + destruct A as [[= <-] P]. inversion P; subst. destruct D. destruct b; [eexists; eapply ChecksProofs.out_true|eexists; eapply ChecksProofs.out_false]; eauto.
    + destruct D. eexists. eapply ChecksProofs.out_null; eauto.
  - destruct (internal p) eqn:Ip.
    + destruct (B _ _ eq_refl Ip) as [(_ & l1 & a1 & x & y & S)|(_ & l1 & un1 & v1 & ls & src & body & S & N)]; [left; eauto|right; left; eauto 10].
    + destruct D. eexists. eapply (ChecksProofs.out_error _ _ (l0, p)); eauto.
Qed.
End SITES.
