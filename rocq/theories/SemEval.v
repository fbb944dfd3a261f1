(** Where an expression has a meaning, the evaluator finds it.  In contrast to
    EvalCorrect.v nothing is said about operands that may be null: that the
    expression has a meaning is enough. *)
From Coq Require Import Relations Qabs Qround.
From Verif Require Import Base Lexer PyText MathModel MathProofs Ast Eval TypesProofs Typing Soundness EvalSpec EvalSpecProofs EvalCorrect.
Open Scope Z_scope.

(** Membership tests between values of the same type (C26 is about the others). *)
Definition plain_at (e : expr) : Prop :=
  match e with
  | EBinary _ _ B_arrcontains a b =>
      match e_typ b with Some (TArr _ _ _ el) => e_typ a = Some el | _ => False end
  | _ => True
  end.
Definition plain (e : expr) : Prop := forall x, sub x e -> plain_at x.
Lemma regular_plain e : regular e -> plain e.
Proof. intros R x X. specialize (R x X). destruct x as [| | | |? ? [] ? ?| | | | |]; cbn in *; auto. Qed.
Lemma plain_unary l a op e : plain (EUnary l a op e) -> plain e.
Proof. intros P x X. apply P. constructor; auto. Qed.
Lemma plain_left l a op e f : plain (EBinary l a op e f) -> plain e.
Proof. intros P x X. apply P. constructor; auto. Qed.
Lemma plain_right l a op e f : plain (EBinary l a op e f) -> plain f.
Proof. intros P x X. apply P. apply sub_right; auto. Qed.
Lemma plain_field l c p un uv : plain (EField l c p un uv) -> plain p.
Proof. intros P x X. apply P. constructor; auto. Qed.
Lemma plain_range1 l a b c : plain (ERange l a b c) -> plain a.
Proof. intros P x X. apply P. constructor; auto. Qed.
Lemma plain_range2 l a b c : plain (ERange l a b c) -> plain b.
Proof. intros P x X. apply P. apply sub_range2; auto. Qed.
Lemma plain_range3 l a b c : plain (ERange l a b c) -> plain c.
Proof. intros P x X. apply P. apply sub_range3; auto. Qed.
Lemma plain_oneof l es e : plain (EOneof l es) -> In e es -> plain e.
Proof. intros P I x X. apply P. eapply sub_oneof; eauto. Qed.
Lemma plain_cond l acts els c e : plain (ECond l acts els) -> In (c, e) acts -> plain c /\ plain e.
Proof. intros P I. split; intros x X; apply P; eapply sub_cond; eauto. Qed.
Lemma plain_else l acts els : plain (ECond l acts els) -> plain els.
Proof. intros P x X. apply P. apply sub_else; auto. Qed.
Lemma plain_quant l un v ls src b : plain (EQuant l un v ls src b) -> plain b.
Proof. intros P x X. apply P. constructor; auto. Qed.
#[export] Hint Resolve plain_unary plain_left plain_right plain_field plain_range1 plain_range2 plain_range3 plain_else plain_quant plain_oneof : plain.

Section EVALUATES.
Variable G : types.
Variable W : world.
Hypothesis wf : wf_types G.
Hypothesis ww : wt_world G W.
Hypothesis names_rec : forall r, NoDup (map c_name (all_components G r)).
Hypothesis names_tup : forall u ut, nth_error (tups G) u = Some ut -> NoDup (map c_name (u_comps ut)).
Hypothesis apart : distinct_objects W.

Notation oden := (oden W).
Lemma evaluates_typed e S d v : wt G W true S e -> scope_ok G W S d -> evaluate W (Some d) e = Ok v -> of_type G W (e_typ e) v.
Proof. intros T K E. pose proof (soundness G W wf ww names_rec names_tup _ _ _ T K) as H. rewrite E in H. apply H. Qed.
Lemma oden_some v x : oden v (Some x) -> exists p a, v_val v = Some (p, a) /\ den W p x.
Proof. unfold EvalCorrect.oden. destruct (v_val v) as [[p a]|]; [eauto|contradiction]. Qed.
Lemma oden_bool v b S d e : wt G W true S e -> scope_ok G W S d -> evaluate W (Some d) e = Ok v -> oden v (Some (SBool b)) ->
  exists a, v_val v = Some (PBool b, a).
Proof.
  intros T K E D. destruct (oden_some _ _ D) as (p & a & V & Dp). exists a. destruct p; cbn in Dp; try contradiction. subst. auto.
Qed.
Lemma stored_oden a opt v s : fits G W a opt v -> stores v s -> exists w, eval_stored W v = Ok w /\ oden w s.
Proof.
  intros F Sv. destruct (fits_den G W _ _ _ F) as (w & s' & E & Sv' & D). exists w. split; auto.
  pose proof (stores_same _ _ _ Sv' Sv) as Q. unfold EvalCorrect.oden, osame in *.
  destruct (v_val w) as [[p b]|], s', s; try contradiction; auto. eapply den_same; eauto.
Qed.

Lemma typ_logic S l a op e1 e2 : wt G W true S (EBinary l a op e1 e2) -> In op [B_and; B_or; B_implies] -> a = Some TBool.
Proof.
  intros T I. inversion T; subst; auto;
    repeat match goal with H : In _ _ |- _ => cbn in H; decompose [or] H; clear H end; try discriminate; try contradiction; congruence.
Qed.
Lemma equality_evaluates S d l a op e1 e2 s : wt G W true S (EBinary l a op e1 e2) -> is_eq op = true -> scope_ok G W S d ->
  sem W d (EBinary l a op e1 e2) s ->
  (forall s, wt G W true S e1 -> sem W d e1 s -> exists v, evaluate W (Some d) e1 = Ok v /\ oden v s) ->
  (forall s, wt G W true S e2 -> sem W d e2 s -> exists v, evaluate W (Some d) e2 = Ok v /\ oden v s) ->
  exists v, evaluate W (Some d) (EBinary l a op e1 e2) = Ok v /\ oden v s.
Proof.
  intros T Q K X H1 H2.
  assert (X1 : wt G W true S e1) by (inversion T; subst; auto).
  assert (X2 : wt G W true S e2) by (inversion T; subst; auto).
  assert (Y : exists x y, sem W d e1 x /\ sem W d e2 y).
  { inversion X; subst; try discriminate; eauto. }
  destruct Y as (x & y & Sx & Sy). destruct (H1 _ X1 Sx) as (v & E & D). destruct (H2 _ X2 Sy) as (w & E' & D').
  destruct (equality_correct G W ww names_tup apart S d l a op e1 e2 v w x y T Q (evaluates_typed _ _ _ _ X1 K E) (evaluates_typed _ _ _ _ X2 K E') D D' Sx Sy) as (r & s' & Er & Sr & Dr).
  exists r. split.
  - cbn [evaluate]. rewrite E. cbn [bind]. rewrite Q. cbn [negb andb]. rewrite E'. cbn [bind negb andb].
    destruct op; try discriminate; destruct (v_val v) as [[? ?]|]; exact Er.
  - pose proof (sem_unique W _ _ _ _ Sr X) as Qs. unfold EvalCorrect.oden, osame in *.
    destruct (v_val r) as [[? ?]|], s', s; try contradiction; auto. eapply den_same; eauto.
Qed.

Theorem evaluates e : forall S d s, wt G W true S e -> scope_ok G W S d -> plain e -> sem W d e s ->
  exists v, evaluate W (Some d) e = Ok v /\ oden v s.
Proof.
  induction e using expr_ind2; intros S d s T K P X; cbn [evaluate].
  - inversion X; subst. eexists. split; [reflexivity|exact Logic.I].
  - inversion X; subst. eexists. split; [reflexivity|]. destruct k; cbn; auto; reflexivity.
  - inversion X; subst. inversion T; subst. match goal with H : assoc n S = _ |- _ => destruct (K _ _ _ H) as (v' & A & F) end.
    assert (v = v') by congruence. subst v'. match goal with H : assoc n d = Some v |- _ => rewrite H end. eapply stored_oden; eauto.
  - inversion X; subst. assert (T' : wt G W true S e) by (inversion T; subst; auto).
    destruct (IHe S d _ T' K ltac:(eauto with plain) ltac:(eassumption)) as (v & E & D). rewrite E. cbn [bind].
    destruct (oden_some _ _ D) as (p & b & V & Dp). pose proof (evaluates_typed _ _ _ _ T' K E) as Ty. unfold of_type in Ty. rewrite V in Ty. destruct Ty as [Et Pt].
    destruct (unary_correct G W S l a op e p b v x) as (w & z & Ew & O & Dw); auto. exists w. split; auto.
    unfold EvalCorrect.oden in *. destruct (v_val w) as [[q c]|]; auto. eapply den_same; eauto.
    match goal with O' : op_unary op x y |- _ => exact (op_unary_same _ _ _ _ _ O O' (same_refl _)) end.
  - assert (X1 : wt G W true S e1) by (inversion T; subst; auto).
    assert (X2 : wt G W true S e2) by (inversion T; subst; auto).
    pose proof (plain_left _ _ _ _ _ P) as P1. pose proof (plain_right _ _ _ _ _ P) as P2.
    inversion X; subst;
      [ match goal with Q : sem W d e1 (Some (SBool _)) |- _ => destruct (IHe1 S d _ X1 K P1 Q) as (v & E & D) end
      | match goal with Q : sem W d e1 (Some (SBool _)) |- _ => destruct (IHe1 S d _ X1 K P1 Q) as (v & E & D) end
      | match goal with Q : sem W d e1 (Some (SBool _)) |- _ => destruct (IHe1 S d _ X1 K P1 Q) as (v & E & D) end
      | match goal with Q : sem W d e1 (Some (SBool _)) |- _ => destruct (IHe1 S d _ X1 K P1 Q) as (v & E & D) end
      | match goal with Q : sem W d e1 (Some (SBool _)) |- _ => destruct (IHe1 S d _ X1 K P1 Q) as (v & E & D) end
      | match goal with Q : sem W d e1 (Some (SBool _)) |- _ => destruct (IHe1 S d _ X1 K P1 Q) as (v & E & D) end
      | apply (equality_evaluates S d l a _ e1 e2 _ T eq_refl K X); eauto
      | apply (equality_evaluates S d l a _ e1 e2 _ T eq_refl K X); eauto
      | ];
      [ rewrite E; cbn [bind]; destruct (oden_bool _ _ _ _ _ X1 K E D) as (b' & V); rewrite V; cbn; eauto ..
      | ].
    { assert (a = Some TBool) as -> by (eapply typ_logic; [exact T|cbn; tauto]). eexists. split; [reflexivity|reflexivity]. }
    match goal with Q : sem W d e1 (Some ?x), Q' : sem W d e2 (Some ?y) |- _ =>
        destruct (IHe1 S d _ X1 K P1 Q) as (v & E & D); destruct (IHe2 S d _ X2 K P2 Q') as (w & E' & D') end.
    destruct (oden_some _ _ D) as (p & ta & V & Dp). destruct (oden_some _ _ D') as (q & tb & V' & Dq).
    pose proof (evaluates_typed _ _ _ _ X1 K E) as Ty. unfold of_type in Ty. rewrite V in Ty. destruct Ty as [Et Pt].
    pose proof (evaluates_typed _ _ _ _ X2 K E') as Ty. unfold of_type in Ty. rewrite V' in Ty. destruct Ty as [Et' Pt'].
    assert (Ra : regular_at (EBinary l a op e1 e2)).
    { assert (Q := P _ (sub_refl _)). match goal with H : strict_op op |- _ => unfold strict_op in H end. destruct op; auto; exfalso; cbn in *; tauto. }
    match goal with H : strict_op op |- _ => rename H into St end.
    pose proof (binary_correct G W ww names_rec names_tup apart S d l a op e1 e2 p q ta tb v w x y T St Ra Et Pt Dp V Et' Pt' Dq V' E') as B.
    rewrite E, E'; cbn [bind]. rewrite V, V', !andb_false_r.
    assert (Y : exists v0, eval_binary W l a op v w = Ok v0 /\ oden v0 (Some z)).
    { match goal with O : op_binary W (e_typ e1) op x y z |- _ => rewrite Et in O; rename O into Ob end.
      destruct (eval_binary W l a op v w) as [r| | |]; try contradiction; [|destruct (B _ Ob)].
      destruct B as (z' & O' & Dz). exists r. split; auto. unfold EvalCorrect.oden in *. destruct (v_val r) as [[? ?]|]; auto.
      eapply den_same; eauto. eapply op_binary_same; eauto; apply same_refl. }
    unfold strict_op in St. destruct op; auto; exfalso; apply St; cbn; tauto.
  - assert (X1 : wt G W true S e) by (inversion T; subst; auto).
    assert (Pp : plain e) by eauto with plain.
    inversion X; subst;
      match goal with Q : sem W d e (Some _) |- _ =>
        destruct (IHe S d _ X1 K Pp Q) as (v' & E & D); rewrite E; cbn [bind]; destruct (oden_some _ _ D) as (p & b & V & Dp) end;
      rewrite V; destruct p; cbn in Dp; try contradiction.
    + apply den_tup in Dp.
      assert (Q : forall w, assoc (c_name c) vs = Some w -> oden w s).
      { match goal with H : assoc _ xs = Some s |- _ => revert H end. clear - Dp. induction Dp as [|[k v] [k' x] vs xs [Ek Ex] F IH]; cbn; [discriminate|].
        cbn in Ek, Ex. subst k'. destruct (text_eqb k (c_name c)); auto. intros A w B. injection A as <-. injection B as <-. auto. }
      assert (Q' : assoc (c_name c) vs <> None).
      { match goal with H : assoc _ xs = Some s |- _ => revert H end. clear - Dp. induction Dp as [|[k v] [k' x] vs xs [Ek Ex] F IH]; cbn; [discriminate|].
        cbn in Ek. subst k'. destruct (text_eqb k (c_name c)); auto. discriminate. }
      unfold value in *. destruct (assoc (c_name c) vs) as [w|]; [exists w; split; auto|congruence].
    + destruct Dp as (ob' & Eo & <-). assert (ob' = ob) as -> by congruence.
      match goal with H : assoc _ (o_fields ob) = Some _ |- _ => rewrite H end.
      pose proof (object_field _ _ ww _ _ (c_name c) Eo) as F. match goal with H : assoc _ (o_fields ob) = Some _ |- _ => rewrite H in F end.
      destruct F as (c' & I & N & F). eapply stored_oden; eauto.
    + destruct Dp as (ob' & Eo & <-). assert (ob' = ob) as -> by congruence.
      match goal with H : assoc _ (o_fields ob) = None |- _ => rewrite H end. eexists. split; [reflexivity|exact Logic.I].
  - inversion T; subst. inversion X; subst.
    match goal with Q : sem W d e1 (Some _), Q2 : sem W d e2 (Some _), Q3 : sem W d e3 (Some _) |- _ =>
      destruct (IHe1 S d _ ltac:(eassumption) K ltac:(eauto with plain) Q) as (v1 & E1 & D1);
      destruct (IHe2 S d _ ltac:(eassumption) K ltac:(eauto with plain) Q2) as (v2 & E2 & D2);
      destruct (IHe3 S d _ ltac:(eassumption) K ltac:(eauto with plain) Q3) as (v3 & E3 & D3) end.
    destruct (oden_some _ _ D1) as (p1 & a1 & V1 & Dp1). destruct (oden_some _ _ D2) as (p2 & a2 & V2 & Dp2). destruct (oden_some _ _ D3) as (p3 & a3 & V3 & Dp3).
    rewrite E1. cbn [bind]. rewrite V1, E2. cbn [bind]. rewrite V2, E3. cbn [bind]. rewrite V3.
    match goal with H : In _ [TInt; TDec] |- _ => rename H into In0 end.
    assert (Nm : forall p a x q v e0, v_val v = Some (p, a) -> of_type G W (e_typ e0) v -> e_typ e0 = Some n -> den W p x -> number x q -> exists m, as_num p = Some m /\ (num_q m == q)%Q).
    { intros p0 a0 x0 q0 v0 e0 V0 Ty Te Dn Nn. unfold of_type in Ty. rewrite V0 in Ty. destruct Ty as [Et Pt].
      rewrite Te in Et. injection Et as ->. destruct (num_den G W _ _ _ Pt In0 Dn) as (m & y0 & Em & Ny & Qy). exists m. split; auto.
      rewrite Qy. eapply number_same; eauto. apply same_refl. }
    match goal with N1 : number x p, N2 : number y q, N3 : number z r |- _ =>
      destruct (Nm _ _ _ _ _ e1 V1 (evaluates_typed e1 S d _ ltac:(assumption) K E1) ltac:(assumption) Dp1 N1) as (m1 & F1 & Q1);
      destruct (Nm _ _ _ _ _ e2 V2 (evaluates_typed e2 S d _ ltac:(assumption) K E2) ltac:(assumption) Dp2 N2) as (m2 & F2 & Q2);
      destruct (Nm _ _ _ _ _ e3 V3 (evaluates_typed e3 S d _ ltac:(assumption) K E3) ltac:(assumption) Dp3 N3) as (m3 & F3 & Q3) end.
    unfold compare. rewrite F1, F2, F3. cbn [bind]. unfold num_le.
    assert (Y : forall c, (c = true <-> (q <= p)%Q /\ (p <= r)%Q) -> exists v, @Ok (loc * problem) _ (Val l (Some (PBool c, TBool))) = Ok v /\ oden v (Some (SBool b))).
    { intros c Ec. eexists. split; [reflexivity|]. cbn. eapply bool_iff; eauto. tauto. }
    destruct (Qle_bool (num_q m2) (num_q m1)) eqn:L1; cbn [bind mk_value]; apply Y; rewrite <- Q1, <- Q2, <- Q3, <- !Qle_bool_iff, L1; intuition discriminate.
  - inversion T; subst. inversion X; subst.
    match goal with H : forall e, In e es -> e_typ e = _ |- _ => rename H into Tb end.
    match goal with H : forall e, In e es -> wt _ _ _ _ e |- _ => rename H into Tw end.
    match goal with F : Forall2 _ es bs |- _ => rename F into F2 end.
    assert (Y : exists vs, (fix go (es : list expr) : eres (list value) :=
                  match es with
                  | [] => Ok []
                  | a :: es' => do x <- evaluate W (Some d) a ; do xs <- go es' ; Ok (x :: xs)
                  end) es = Ok vs /\ map equals_true vs = bs).
    { assert (Pe : forall e, In e es -> plain e) by (intros; eapply plain_oneof; eauto).
      clear - H F2 Tw Pe K names_rec names_tup wf ww. revert H Tw Pe. induction F2 as [|e y es bs Sx F IH]; intros H Tw Pe; [exists []; auto|].
      destruct (H e (or_introl eq_refl) S d _ (Tw e (or_introl eq_refl)) K (Pe e (or_introl eq_refl)) Sx) as (v & E & D).
      destruct (oden_bool _ _ _ _ _ (Tw e (or_introl eq_refl)) K E D) as (a & V).
      destruct IH as (vs & Ev & Em); [intros; eapply H; eauto with datatypes|auto with datatypes|auto with datatypes|].
      rewrite E. cbn [bind]. rewrite Ev. cbn [bind]. exists (v :: vs). split; auto. cbn. rewrite Em. f_equal. unfold equals_true. rewrite V. destruct y; reflexivity. }
    destruct Y as (vs & -> & Em). cbn [bind mk_value]. eexists. split; [reflexivity|]. cbn.
    match goal with B : _ <-> _ |- _ => eapply bool_iff; [|exact B|reflexivity] end.
    rewrite Nat.eqb_eq, <- Em. apply count_one.
  - inversion T; subst.
    match goal with H : forall c x, In (c, x) acts -> wt _ _ _ _ c /\ _ |- _ => rename H into Tw end.
    assert (Pe : forall c x, In (c, x) acts -> plain c /\ plain x) by (intros; eapply plain_cond; eauto).
    assert (Pl : plain e) by eauto with plain.
    assert (Wl : wt G W true S e) by auto.
    clear P T. match goal with H : acts <> [] |- _ => clear H end. revert X. match goal with H : forall c x, In (c, x) acts -> e_typ c = _ /\ _ |- _ => clear H end.
    match goal with H : e_typ e = _ |- _ => clear H end.
    induction acts as [|[c x] acts IHa]; intros X.
    + inversion X; subst. eauto.
    + destruct (Tw c x (or_introl eq_refl)) as [Wc Wx]. destruct (Pe c x (or_introl eq_refl)) as [Pc Px]. destruct (H c x (or_introl eq_refl)) as [Hc Hx].
      inversion X; subst; match goal with Q : sem W d c (Some (SBool _)) |- _ => 
        destruct (Hc S d _ Wc K Pc Q) as (v & E & D); rewrite E; cbn [bind]; destruct (oden_bool _ _ _ _ _ Wc K E D) as (b' & V); rewrite V; cbn [truthy] end.
      * eauto.
      * apply IHa; auto with datatypes.
  - inversion T; subst. match goal with H : assoc (c_name src) S = _ |- _ => destruct (K _ _ _ H) as (v' & A & F) end.
    rename l into lq. match goal with H : c_typ src = _ |- _ => rename H into Ts end. rewrite Ts in F.
    assert (Go : forall vs, (forall b, In b vs -> vt G W el b) -> forall r,
      ((forall b, In b vs -> sem W ((v, b) :: d) e (Some (SBool un))) /\ r = un) \/
      (exists pre b post, vs = pre ++ b :: post /\ (forall b, In b pre -> sem W ((v, b) :: d) e (Some (SBool un))) /\
         sem W ((v, b) :: d) e (Some (SBool (negb un))) /\ r = negb un) ->
      exists w, (fix go (vs : list vexpr) : eres value :=
                 match vs with
                 | [] => mk_value lq (PBool un) (Some TBool)
                 | b :: vs' =>
                     do r <- evaluate W (Some ((v, b) :: d)) e ;
                     match v_val r with
                     | Some (PBool x, _) =>
                         if un && negb x then mk_value (x_loc b) (PBool false) (Some TBool)
                         else if negb un && x
                         then mk_value (x_loc b) (PBool true) (Some TBool)
                         else go vs'
                     | _ => Err (lq, P_assert_bool)
                     end
                 end) vs = Ok w /\ oden w (Some (SBool r))).
    { intros vs Fv r Hr. induction vs as [|b vs IHv].
      - destruct Hr as [[_ ->]|(pre & b & post & E & _)]; [|destruct pre; discriminate]. eexists. split; [reflexivity|reflexivity].
      - assert (Kb : scope_ok G W ((v, (el, false)) :: S) ((v, b) :: d)) by (apply scope_extend; auto; left; auto with datatypes).
        assert (Z : (sem W ((v, b) :: d) e (Some (SBool un)) /\ (((forall b, In b vs -> sem W ((v, b) :: d) e (Some (SBool un))) /\ r = un) \/
            (exists pre b post, vs = pre ++ b :: post /\ (forall b, In b pre -> sem W ((v, b) :: d) e (Some (SBool un))) /\
            sem W ((v, b) :: d) e (Some (SBool (negb un))) /\ r = negb un))) \/ (sem W ((v, b) :: d) e (Some (SBool (negb un))) /\ r = negb un)).
        { destruct Hr as [[Hr ->]|(pre & b0 & post & E & Hp & Hb & ->)].
          - left. split; auto with datatypes.
          - destruct pre as [|b1 pre]; cbn in E; injection E as -> ->; auto. left. split; auto with datatypes. right. exists pre, b0, post. auto with datatypes. }
        destruct Z as [[Sb Z]|[Sb ->]].
        + destruct (IHe _ _ _ ltac:(eassumption) Kb ltac:(eauto with plain) Sb) as (w & E & D). rewrite E. cbn [bind].
          destruct (oden_bool w _ ((v, (el, false)) :: S) _ e ltac:(assumption) Kb E D) as (b' & V). rewrite V.
          replace (un && negb un) with false by (destruct un; auto). replace (negb un && un) with false by (destruct un; auto).
          apply IHv; auto with datatypes.
        + destruct (IHe _ _ _ ltac:(eassumption) Kb ltac:(eauto with plain) Sb) as (w & E & D). rewrite E. cbn [bind].
          destruct (oden_bool w _ ((v, (el, false)) :: S) _ e ltac:(assumption) Kb E D) as (b' & V). rewrite V.
          destruct un; cbn; eexists; (split; [reflexivity|reflexivity]). }
    inversion X; subst; match goal with H : assoc (c_name src) d = Some (XArr _ _ _) |- _ => rewrite H in A |- *; injection A as <- end.
    + apply Go; auto. destruct F as [F|(_ & ? & ?)]; [|discriminate]. inversion F; subst; auto.
    + apply Go; [destruct F as [F|(_ & ? & ?)]; [|discriminate]; inversion F; subst; auto|]. right. eauto 8.
Qed.
End EVALUATES.
