(** Later declarations do not change the meaning of earlier ones: the types
    grow, and record objects are added after all types are declared. *)
From Coq Require Import Relations.
From Verif Require Import Base Lexer Ast Eval Typing TypesProofs Soundness ParserBase ParserProofs ParserExpr ExprTyping ValueSyntax ValueTyping.
From Coq Require Import ZifyBool ZifyNat ZifyN.
Open Scope Z_scope.

(** The types that are mentioned exist. *)
Fixpoint valid (G : types) (a : ty) : Prop :=
  match a with
  | TTup u => (u < List.length (tups G))%nat
  | TRec r => (r < List.length (recs G))%nat
  | TUnion _ ms => forall m, In m ms -> (m < List.length (recs G))%nat
  | TArr _ _ _ el => valid G el
  | _ => True
  end.
Definition components_valid (G : types) : Prop :=
  (forall r rt c, rec G r = Some rt -> In c (r_comps rt) -> valid G (c_typ c)) /\
  (forall u ut c, tup G u = Some ut -> In c (u_comps ut) -> valid G (c_typ c)).

(** Everything in [G] is in [G'], with the same components. *)
Record keeps (G G' : types) : Prop := Keeps {
  kp_rec : forall r rt, rec G r = Some rt -> exists rt', rec G' r = Some rt' /\ r_parent rt' = r_parent rt /\
             r_comps rt' = r_comps rt /\ r_frozen rt' = r_frozen rt;
  kp_tup : forall u ut, tup G u = Some ut -> exists ut', tup G' u = Some ut' /\ u_comps ut' = u_comps ut /\ u_seps ut' = u_seps ut
}.
Lemma keeps_refl G : keeps G G.
Proof. constructor; eauto 8. Qed.
Lemma keeps_trans G1 G2 G3 : keeps G1 G2 -> keeps G2 G3 -> keeps G1 G3.
Proof.
  intros [A B] [C D]. constructor.
  - intros r rt H. destruct (A _ _ H) as (rt' & H' & E1 & E2 & E3). destruct (C _ _ H') as (rt'' & H'' & F1 & F2 & F3).
    exists rt''. repeat split; congruence.
  - intros r rt H. destruct (B _ _ H) as (rt' & H' & E1 & E2). destruct (D _ _ H') as (rt'' & H'' & F1 & F2).
    exists rt''. repeat split; congruence.
Qed.
Lemma rec_some G r : (r < List.length (recs G))%nat -> exists rt, rec G r = Some rt.
Proof. intros L. unfold rec. destruct (nth_error (recs G) r) eqn:E; eauto. apply nth_error_None in E. lia. Qed.
Lemma tup_some G u : (u < List.length (tups G))%nat -> exists ut, tup G u = Some ut.
Proof. intros L. unfold tup. destruct (nth_error (tups G) u) eqn:E; eauto. apply nth_error_None in E. lia. Qed.
Lemma some_rec G r rt : rec G r = Some rt -> (r < List.length (recs G))%nat.
Proof. intros E. apply nth_error_Some. unfold rec in E. congruence. Qed.
Lemma some_tup G u ut : tup G u = Some ut -> (u < List.length (tups G))%nat.
Proof. intros E. apply nth_error_Some. unfold tup in E. congruence. Qed.

Section KEEPS.
Variables G G' : types.
Hypothesis kp : keeps G G'.
Hypothesis order : wf_types G.

Lemma keeps_recs r : (r < List.length (recs G))%nat -> (r < List.length (recs G'))%nat.
Proof. intros L. destruct (rec_some _ _ L) as (rt & E). destruct (kp_rec _ _ kp _ _ E) as (rt' & E' & _). eapply some_rec; eauto. Qed.
Lemma keeps_tups r : (r < List.length (tups G))%nat -> (r < List.length (tups G'))%nat.
Proof. intros L. destruct (tup_some _ _ L) as (rt & E). destruct (kp_tup _ _ kp _ _ E) as (rt' & E' & _). eapply some_tup; eauto. Qed.
Lemma keeps_extends x y : extends G x y -> extends G' x y.
Proof. intros (rt & E & P). destruct (kp_rec _ _ kp _ _ E) as (rt' & E' & P' & _). exists rt'. split; auto. congruence. Qed.
Lemma keeps_grows : grows G G'.
Proof. split; [|apply keeps_extends]. intros u ut U. destruct (kp_tup _ _ kp _ _ U) as (ut' & U' & E & _). eauto. Qed.
Lemma keeps_line x y : clos_refl_trans nat (extends G) x y -> clos_refl_trans nat (extends G') x y.
Proof. apply rt_mono. apply keeps_extends. Qed.

Lemma keeps_components_steps f r : (r < List.length (recs G))%nat -> all_components_steps G' f r = all_components_steps G f r.
Proof.
  revert r. induction f as [|f IH]; intros r L; cbn; destruct (rec_some _ _ L) as (rt & E); destruct (kp_rec _ _ kp _ _ E) as (rt' & E' & P & C & _);
    rewrite E, E', ?P, ?C; auto.
  destruct (r_parent rt) as [p|] eqn:Q; auto. rewrite IH; auto.
  assert (p < r)%nat by (apply order; exists rt; auto). lia.
Qed.
Lemma keeps_components r : (r < List.length (recs G))%nat -> all_components G' r = all_components G r.
Proof. apply keeps_components_steps. Qed.
Lemma keeps_chain_steps f r : (r < List.length (recs G))%nat -> chain_steps G' f r = chain_steps G f r.
Proof.
  revert r. induction f as [|f IH]; intros r L; cbn; destruct (rec_some _ _ L) as (rt & E); destruct (kp_rec _ _ kp _ _ E) as (rt' & E' & P & C & _);
    rewrite E, E', ?P, ?C; auto.
  destruct (r_parent rt) as [p|] eqn:Q; auto. rewrite IH; auto.
  assert (p < r)%nat by (apply order; exists rt; auto). lia.
Qed.
Lemma keeps_freezing_steps f r k : (r < List.length (recs G))%nat -> freezing_steps G' f r k = freezing_steps G f r k.
Proof.
  revert r. induction f as [|f IH]; intros r L; cbn; destruct (rec_some _ _ L) as (rt & E); destruct (kp_rec _ _ kp _ _ E) as (rt' & E' & P & C & F);
    rewrite E, E', ?P, ?F; auto.
  destruct (assoc k (r_frozen rt)); auto.
  destruct (r_parent rt) as [p|] eqn:Q; auto. rewrite IH; auto.
  assert (p < r)%nat by (apply order; exists rt; auto). lia.
Qed.
Lemma keeps_own r : (r < List.length (recs G))%nat -> own_components G' r = own_components G r.
Proof.
  intros L. destruct (rec_some _ _ L) as (rt & E); destruct (kp_rec _ _ kp _ _ E) as (rt' & E' & P & C & _).
  unfold own_components. unfold rec in *. rewrite E, E', C. auto.
Qed.
Lemma keeps_type_comps a : valid G a -> type_comps G' a = type_comps G a.
Proof.
  destruct a; cbn; auto.
  - intros L. destruct (tup_some _ _ L) as (ut & E). destruct (kp_tup _ _ kp _ _ E) as (ut' & E' & C & _). rewrite E, E', C. auto.
  - apply keeps_components.
Qed.
Lemma keeps_type_scope a : valid G a -> type_scope G' a = type_scope G a.
Proof. intros V. unfold type_scope. rewrite keeps_type_comps; auto. Qed.
Lemma keeps_valid a : valid G a -> valid G' a.
Proof. induction a; cbn; auto using keeps_recs, keeps_tups. Qed.
Lemma keeps_field_map ms : valid G (TUnion 0 ms) -> field_map G' ms = field_map G ms.
Proof.
  cbn. intros V. unfold field_map. generalize (Z.of_nat (List.length ms)). intros total. generalize (@nil (text * finfo)).
  induction ms as [|m ms IH]; intros d; cbn; auto. rewrite keeps_components by (apply V; cbn; auto). apply IH. intros; apply V; cbn; auto.
Qed.
End KEEPS.

(** ** Constant expressions do not depend on the objects *)
Definition atomic (p : pval) : Prop := match p with PList _ | PTup _ | PRec _ => False | _ => True end.
Definition atomic_value (v : Eval.value) : Prop := match v_val v with Some (p, _) => atomic p | None => True end.
Lemma mk_value_atomic l p a v : mk_value l p a = Ok v -> atomic p -> atomic_value v.
Proof. unfold mk_value. destruct a; [|discriminate]. intros H. injection H as <-. auto. Qed.
Lemma eval_unary_atomic l a op x v : eval_unary l a op x = Ok v -> atomic_value x -> atomic_value v.
Proof.
  unfold eval_unary. intros H A. unfold atomic_value in A. destruct (v_val x) as [[p b]|]; [|discriminate].
  destruct op; try (eapply mk_value_atomic; [exact H|exact I]); destruct p; try contradiction; cbn in H; try discriminate;
    try (eapply mk_value_atomic; [exact H|exact I]).
Qed.
Lemma arith_atomic fz fq p q r : arith fz fq p q = Ok r -> atomic r.
Proof.
  unfold arith. destruct (as_num p) as [[x|x]|]; try discriminate; destruct (as_num q) as [[y|y]|]; try discriminate;
    intros H; injection H as <-; exact I.
Qed.
Lemma eval_binary_static W W' l a op x y : w_match W' = w_match W -> eval_binary W' l a op x y = eval_binary W l a op x y.
Proof. intros E. unfold eval_binary. rewrite E. reflexivity. Qed.
Lemma eval_binary_atomic W l a op x y v : eval_binary W l a op x y = Ok v -> atomic_value x -> atomic_value y -> atomic_value v.
Proof.
  unfold eval_binary. intros H A B. unfold atomic_value in A, B.
  destruct op; try (eapply mk_value_atomic; [exact H|exact I]);
    destruct (v_val x) as [[p tp]|]; try discriminate; destruct (v_val y) as [[q tq]|]; try discriminate;
    try (repeat (apply bind_ok in H as (? & ? & H)); eapply mk_value_atomic; [exact H|exact I]).
  - apply bind_ok in H as (s & _ & H). apply bind_ok in H as (u & _ & H). destruct (w_match W u s); [|discriminate].
    eapply mk_value_atomic; [exact H|exact I].
  - destruct q; try discriminate; contradiction.
  - destruct p; try contradiction; destruct q; try contradiction; try discriminate;
      try (eapply mk_value_atomic; [exact H|exact I]); apply bind_ok in H as (r & R & H);
      eapply mk_value_atomic; try exact H; eapply arith_atomic; eauto.
  - apply bind_ok in H as (r & R & H); eapply mk_value_atomic; try exact H; eapply arith_atomic; eauto.
  - apply bind_ok in H as (r & R & H); eapply mk_value_atomic; try exact H; eapply arith_atomic; eauto.
  - destruct (as_num p) as [n|]; [|discriminate]. destruct (as_num q) as [m|]; [|discriminate].
    destruct (Qeq_bool _ _); [discriminate|].
    repeat match type of H with match ?x with _ => _ end = _ => destruct x; try discriminate end;
      eapply mk_value_atomic; try exact H; exact I.
  - apply bind_ok in H as (n & _ & H). apply bind_ok in H as (m & _ & H). destruct (m =? 0); [discriminate|].
    match type of H with match ?x with _ => _ end = _ => destruct x; [|discriminate] end. eapply mk_value_atomic; [exact H|exact I].
  - apply bind_ok in H as (n & _ & H). apply bind_ok in H as (r & R & H). eapply mk_value_atomic; [exact H|].
    unfold py_power in R. destruct (as_num p) as [[z|z]|]; [destruct (n <? 0)|destruct (_ && _)|]; try discriminate; injection R as <-; exact I.
  - destruct p; try discriminate; contradiction.
Qed.

Lemma static_world W W' : w_match W' = w_match W -> forall e v, evaluate W None e = Ok v ->
  evaluate W' None e = Ok v /\ atomic_value v.
Proof.
  intros Ew. induction e using expr_ind2; intros w E; cbn [evaluate] in *; try discriminate.
  - injection E as <-. split; auto. exact I.
  - injection E as <-. split; auto. destruct k; exact I.
  - destruct (evaluate W None e) as [x| | |]; try discriminate. destruct (IHe x eq_refl) as [-> A]. cbn [bind] in *.
    split; auto. eapply eval_unary_atomic; eauto.
  - destruct (evaluate W None e1) as [x| | |]; try discriminate. destruct (IHe1 x eq_refl) as [-> A]. cbn [bind] in *.
    destruct (negb (is_eq op) && _); [discriminate|].
    assert (St : forall w, (do vr <- evaluate W None e2;
            (if negb (is_eq op) && match v_val vr with Some _ => false | None => true end
             then Err (v_loc vr, P_null_rhs) else eval_binary W l a op x vr)) = Ok w ->
          (do vr <- evaluate W' None e2;
            (if negb (is_eq op) && match v_val vr with Some _ => false | None => true end
             then Err (v_loc vr, P_null_rhs) else eval_binary W' l a op x vr)) = Ok w /\ atomic_value w).
    { intros w' E'. destruct (evaluate W None e2) as [y| | |]; try discriminate. destruct (IHe2 y eq_refl) as [-> B].
      cbn [bind] in *. destruct (_ && _); [discriminate|]. rewrite (eval_binary_static W W') by auto. split; auto.
      eapply eval_binary_atomic; eauto. }
    destruct op; try (apply St; exact E); destruct (v_val x) as [[p b]|] eqn:Vx; try discriminate;
      destruct (py_bool p) as [[|]| | |]; try discriminate; cbn [bind] in *; auto;
      try (injection E as <-; auto; fail).
    split; auto. eapply mk_value_atomic; [exact E|exact I].
  - destruct (evaluate W None e) as [x| | |]; try discriminate. destruct (IHe x eq_refl) as [-> A]. cbn [bind] in *.
    unfold atomic_value in A. destruct (v_val x) as [[[] b]|]; try discriminate; contradiction.
  - destruct (evaluate W None e1) as [x| | |]; try discriminate. destruct (IHe1 x eq_refl) as [-> A]. cbn [bind] in *.
    destruct (v_val x) as [[p b]|]; try discriminate.
    destruct (evaluate W None e2) as [y| | |]; try discriminate. destruct (IHe2 y eq_refl) as [-> B]. cbn [bind] in *.
    destruct (v_val y) as [[p' b']|]; try discriminate.
    destruct (evaluate W None e3) as [z| | |]; try discriminate. destruct (IHe3 z eq_refl) as [-> C]. cbn [bind] in *.
    destruct (v_val z) as [[p'' b'']|]; try discriminate.
    split; auto. destruct (compare num_le p' p) as [[|]| | |]; try discriminate; cbn [bind] in E;
      [apply bind_ok in E as (? & _ & E)|]; eapply mk_value_atomic; try exact E; exact I.
  - match type of E with (bind ?g _) = _ => set (go := g) in *; destruct go as [vs| | |] eqn:Eg; try discriminate end.
    match goal with |- (bind ?g _) = _ /\ _ => assert (Eg' : g = Ok vs); [|rewrite Eg'; split; [exact E|]] end.
    2:{ cbn [bind] in E. eapply mk_value_atomic; [exact E|exact I]. }
    clear E. subst go. revert vs Eg. induction es as [|e es IH]; intros vs Eg; auto.
    destruct (evaluate W None e) as [x| | |] eqn:Ee; try discriminate. cbn [bind] in Eg.
    destruct (H e (or_introl eq_refl) x Ee) as [-> A]. cbn [bind].
    match type of Eg with (bind ?g _) = _ => destruct g as [xs| | |] eqn:Ex; try discriminate end.
    rewrite (IH (fun e' I => H e' (or_intror I)) xs eq_refl). exact Eg.
  - revert E. induction acts as [|[c x] acts IH]; intros E; [apply IHe; auto|].
    destruct (evaluate W None c) as [y| | |] eqn:Ec; try discriminate. cbn [bind] in E.
    destruct (H c x (or_introl eq_refl)) as [Hc Hx]. destruct (Hc y Ec) as [-> A]. cbn [bind].
    destruct (v_val y) as [[p b]|]; try discriminate. destruct (truthy p); auto.
    apply IH; auto. intros c' x' I. apply H. right; auto.
Qed.

(** ** Well-typed expressions stay so *)
Lemma type_comps_valid G a c : wf_types G -> components_valid G -> valid G a -> In c (type_comps G a) -> valid G (c_typ c).
Proof.
  intros O [Cr Ct] V I. destruct a; cbn in *; try contradiction.
  - destruct (tup G u) as [ut|] eqn:U; [eauto|contradiction].
  - apply has_component_in in I as (l & s & Li & _ & Ic); auto.
    unfold own_components in Ic. destruct (nth_error (recs G) s) as [rt|] eqn:R; [|contradiction]. eapply Cr; eauto.
Qed.
Lemma type_scope_valid G a n b o : wf_types G -> components_valid G -> valid G a -> assoc n (type_scope G a) = Some (b, o) -> valid G b.
Proof.
  intros O C V E. apply assoc_in in E. unfold type_scope in E. apply in_map_iff in E as (c & X & I). injection X as <- <- <-.
  eapply type_comps_valid; eauto.
Qed.

Section WT.
Variables G G' : types.
Variables W W' : world.
Hypothesis kp : keeps G G'.
Hypothesis order : wf_types G.
Hypothesis distinct : distinct_names G.
Hypothesis comps : components_valid G.
Hypothesis same : w_match W' = w_match W.

Definition scope_valid (S : scope) : Prop := forall n a o, assoc n S = Some (a, o) -> valid G a.

Theorem wt_mono : forall S e, wt G W false S e -> scope_valid S ->
  wt G' W' false S e /\ forall a, e_typ e = Some a -> valid G a.
Proof.
  destruct comps as [Cr Ct]. fix IH 3. intros S e D V. destruct D.
  1-23: repeat match goal with Hw : wt G W false ?S ?e |- _ => destruct (IH S e Hw V) as [? ?]; clear Hw end; clear IH.
  - split; [constructor|cbn; discriminate].
  - split; [constructor|]. cbn. intros a E. injection E as <-. destruct k as [| |? []| |]; exact I.
  - split; [constructor; auto|]. cbn. intros b E. injection E as <-. eapply V; eauto.
  - split; [eapply wt_number; eauto|]. cbn. intros b E. injection E as <-. auto.
  - split; [eapply wt_not; eauto|]. cbn. intros b E. injection E as <-. exact I.
  - split; [eapply wt_strlen; eauto|]. cbn. intros b E. injection E as <-. exact I.
  - split; [eapply wt_arrlen; eauto|]. cbn. intros b E. injection E as <-. exact I.
  - split; [eapply wt_convert; eauto|]. cbn. intros c E. injection E as <-. destruct H0 as [E|[E|[]]]; injection E as <- <-; exact I.
  - split; [eapply wt_logic; eauto|]. cbn. intros c E. injection E as <-. exact I.
  - split; [eapply wt_equal; eauto|cbn; intros c E; injection E as <-; exact I].
    destruct H0 as [b'|a'|x U|x y la lb U Ma Mb (p & q & Ip & Iq & L)]; [apply cp_null_l|apply cp_null_r|apply cp_same; auto|].
    apply (cp_union G' x y la lb U Ma Mb). exists p, q. split; auto. split; auto.
    destruct L; [left|right]; eapply keeps_line; eauto.
  - split; [eapply wt_order; eauto|]. cbn. intros c E. injection E as <-. exact I.
  - split; [eapply wt_string; [|exact H0|exact H1| | | |]; eauto|]. cbn. intros c E. injection E as <-. exact I.
  - split; [|cbn; intros c E; injection E as <-; exact I].
    destruct (static_world W W' same _ _ H3) as [H5' _].
    eapply wt_regex; [exact H|exact H0|exact H1|exact H2|auto|auto|exact H5'|rewrite same; auto].
  - split; [eapply wt_member; eauto|]. cbn. intros c E. injection E as <-. exact I.
  - split; [eapply wt_arith; eauto|]. cbn. intros c E. injection E as <-. auto.
  - split; [eapply wt_concat; [exact H|exact H0| | | |]; eauto|]. cbn. intros c E. injection E as <-. exact I.
  - split; [eapply wt_rem; eauto|]. cbn. intros c E. injection E as <-. exact I.
  - split; [|cbn; intros c E; injection E as <-; auto].
    destruct (static_world W W' same _ _ H2) as [H4' _]. eapply wt_pow; eauto.
  - split; [eapply wt_index; eauto|]. cbn. intros c E. injection E as <-. match goal with Q : forall a0, e_typ a = Some a0 -> _ |- _ => apply (Q _ H) end.
  - split.
    + destruct (kp_tup _ _ kp _ _ H0) as (ut' & U' & C & _). eapply wt_tup_field; eauto. rewrite C. auto.
    + cbn. intros b E. injection E as <-. eapply Ct; eauto.
  - assert (Lr : (r < List.length (recs G))%nat) by (match goal with Q : forall a0, e_typ _ = Some a0 -> valid G a0 |- _ => apply (Q _ H) end). split.
    + eapply wt_rec_field; eauto. rewrite (keeps_own G G' kp); auto.
    + cbn. intros b E. injection E as <-. unfold own_components in H0. destruct (nth_error (recs G) r) as [rt|] eqn:R; [|contradiction].
      eapply Cr; eauto.
  - assert (Lm : forall m, In m ms -> (m < List.length (recs G))%nat) by (match goal with Q : forall a0, e_typ _ = Some a0 -> valid G a0 |- _ => apply (Q _ H) end). split.
    + eapply wt_union_field; eauto; [|discriminate]. rewrite (keeps_field_map G G' kp order); auto.
    + cbn. intros b E. injection E as <-. destruct (field_map_spec G order distinct ms Lm) as (_ & _ & Fs).
      apply assoc_in in H0. destruct (Fs _ _ H0) as [_ _ (_ & m & Im & Hc) _ _ _]. rewrite H2 in Hc.
      destruct Hc as (l' & s & _ & _ & Ic). unfold own_components in Ic.
      destruct (nth_error (recs G) s) as [rt|] eqn:R; [|contradiction]. eapply Cr; eauto.
  - split; [eapply wt_range; eauto|]. cbn. intros c E. injection E as <-. exact I.
  - split; [|cbn; intros c E; injection E as <-; exact I]. apply wt_oneof; auto. intros e I. apply (IH S e (H0 e I) V).
  - split.
    + apply wt_cond with (a := a); auto; [|apply (IH S els D V)]. intros c x I. destruct (H2 c x I) as [A B].
      split; [apply (IH S c A V)|apply (IH S x B V)].
    + clear - IH H H2 V. destruct acts as [|[c x] acts]; [contradiction|]. cbn. destruct (H2 c x (or_introl eq_refl)) as [_ B].
      apply (IH S x B V).
  - split; [|cbn; intros c E; injection E as <-; exact I].
    assert (V' : scope_valid ((v, (el, false)) :: S)).
    { intros n b o. cbn. destruct (text_eqb v n); [|apply V]. intros E. injection E as <- _. apply V in H0. rewrite H in H0. exact H0. }
    destruct (IH _ _ D V') as [B _]. clear IH. eapply wt_quant; eauto.
Qed.
End WT.
