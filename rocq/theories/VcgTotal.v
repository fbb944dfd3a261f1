(** For which types Vcg.v succeeds: what its results depend on. *)
From Coq Require Import Relations Qcanon.
From Verif Require Import Base Lexer MathModel Ast Eval TypesProofs Typing Soundness EvalSpec EvalSpecProofs EvalCorrect SemEval Vcg VcgSem VcgEnc VcgOps VcgEq VcgFun VcgTmp VcgSound VcgChecks VcgModel VcgMain.
From Verif Require ExprMeaningProofs.
Open Scope Z_scope.

(** [has P e]: some part of [e] is as [P] says. *)
Definition has (P : expr -> Prop) (e : expr) : Prop := exists x, sub x e /\ P x.
(** Operators that need a goal; ranges and [oneof] are always translated with
    goals. *)
Definition goal_at (e : expr) : Prop :=
  match e with
  | EBinary _ _ (B_div | B_rem | B_index) _ _ | ERange _ _ _ _ | EOneof _ _ => True
  | _ => False
  end.
Definition quant_at (e : expr) : Prop := match e with EQuant _ _ _ _ _ _ => True | _ => False end.
(** Quantifiers with such a body; the parser builds no empty [oneof]. *)
Definition stuck_at (e : expr) : Prop :=
  match e with
  | EQuant _ _ _ _ _ body => has goal_at body
  | EOneof _ [] => True
  | _ => False
  end.
Definition nested_at (e : expr) : Prop := match e with EQuant _ _ _ _ _ body => has quant_at body | _ => False end.

Lemma or_false_r (P : Prop) : P \/ False <-> P.
Proof. tauto. Qed.
Section HAS.
Variable P : expr -> Prop.
Ltac hs := unfold has; split; [intros (x & S & H); inversion S; subst; eauto 8 using sub|
  let K := fresh "K" in intros K; repeat match type of K with _ \/ _ => destruct K as [K|K] end;
  first [destruct K as (x & S & H); eauto using sub; fail|eexists; split; [apply sub_refl|exact K]]].
Lemma has_null l : has P (ENull l) <-> P (ENull l). Proof. hs. Qed.
Lemma has_lit l k : has P (ELit l k) <-> P (ELit l k). Proof. hs. Qed.
Lemma has_name l a n q o : has P (EName l a n q o) <-> P (EName l a n q o). Proof. hs. Qed.
Lemma has_unary l a op e : has P (EUnary l a op e) <-> P (EUnary l a op e) \/ has P e.
Proof. hs. Qed.
Lemma has_binary l a op e f : has P (EBinary l a op e f) <-> P (EBinary l a op e f) \/ has P e \/ has P f.
Proof. hs. Qed.
Lemma has_field l c e u v : has P (EField l c e u v) <-> P (EField l c e u v) \/ has P e.
Proof. hs. Qed.
Lemma has_range l a b c : has P (ERange l a b c) <-> P (ERange l a b c) \/ has P a \/ has P b \/ has P c.
Proof. hs. Qed.
Lemma has_quant l un v ls src b : has P (EQuant l un v ls src b) <-> P (EQuant l un v ls src b) \/ has P b.
Proof. hs. Qed.
Definition has_any (es : list expr) : Prop := exists e, In e es /\ has P e.
Lemma has_oneof l es : has P (EOneof l es) <-> P (EOneof l es) \/ has_any es.
Proof.
  unfold has_any, has. split; [intros (x & S & H); inversion S; subst; [auto|right; eexists; split; [eassumption|eauto]]|].
  intros [K|(e & I & x & S & K)]; [eexists; split; [apply sub_refl|exact K]|exists x; split; auto; eapply sub_oneof; eauto].
Qed.
Lemma any_nil : has_any [] <-> False.
Proof. split; [intros (e & [] & _)|tauto]. Qed.
Lemma any_cons e es : has_any (e :: es) <-> has P e \/ has_any es.
Proof. unfold has_any. split; [intros (x & [<-|I] & H); eauto|intros [H|(x & I & H)]; [exists e; cbn; auto|exists x; cbn; auto]]. Qed.
Definition has_act (acts : list (expr * expr)) : Prop := exists c x, In (c, x) acts /\ (has P c \/ has P x).
Lemma has_cond l acts els : has P (ECond l acts els) <-> P (ECond l acts els) \/ has_act acts \/ has P els.
Proof.
  unfold has_act, has. split.
  - intros (x & S & H); inversion S; subst; [auto|right; left|right; right; eauto]. do 2 eexists. split; [eassumption|]. match goal with K : sub _ _ \/ sub _ _ |- _ => destruct K; [left|right]; eauto end.
  - intros [H|[(c & x & I & [(y & S & H)|(y & S & H)])|(y & S & H)]]; [eexists; split; [apply sub_refl|auto]|exists y; split; auto; eapply sub_cond; eauto..|exists y; split; auto; apply sub_else; auto].
Qed.
Lemma act_nil : has_act [] <-> False.
Proof. split; [intros (e & x & [] & _)|tauto]. Qed.
Lemma act_cons c x acts : has_act ((c, x) :: acts) <-> has P c \/ has P x \/ has_act acts.
Proof.
  unfold has_act. split; [intros (c' & x' & [E|I] & H); [injection E as -> ->; tauto|eauto 8]|].
  intros [H|[H|(c' & x' & I & H)]]; [exists c, x; cbn; auto|exists c, x; cbn; auto|exists c', x'; cbn; auto].
Qed.
End HAS.

(** What a result says: success excludes both reasons, failure has one. *)
Definition verdict {A} (bad uns : Prop) (Q : A -> Prop) (r : res loc A) : Prop :=
  match r with
  | Ok v => ~ bad /\ ~ uns /\ Q v
  | Err _ => uns
  | Crash => bad
  | OutOfFuel => False
  end.
Lemma verdict_bind {A B} b1 u1 Q1 b2 u2 Q2 b u (m : res loc A) (k : A -> res loc B) :
  verdict b1 u1 Q1 m -> (forall v, Q1 v -> verdict b2 u2 Q2 (k v)) -> (b <-> b1 \/ b2) -> (u <-> u1 \/ u2) -> verdict b u Q2 (do x <- m ; k x).
Proof.
  intros V K Eb Eu. destruct m as [v| | |]; cbn [verdict bind] in *; try tauto. destruct V as (N1 & N2 & q). specialize (K v q).
  destruct (k v); cbn [verdict] in *; tauto.
Qed.
Lemma verdict_iff {A} b u b' u' (Q Q' : A -> Prop) r : (b <-> b') -> (u <-> u') -> (forall v, Q v -> Q' v) -> verdict b u Q r -> verdict b' u' Q' r.
Proof. destruct r; cbn; intuition. Qed.
Lemma verdict_ok {A} (Q : A -> Prop) v : Q v -> verdict False False Q (Ok v).
Proof. cbn. tauto. Qed.
Definition mverdict {A} (bad uns : Prop) (Q : A -> Prop) (m : vm A) : Prop := forall s, verdict bad uns (fun r => Q (fst r)) (m s).
Lemma mverdict_bind {A B} b1 u1 Q1 b2 u2 Q2 b u (m : vm A) (k : A -> vm B) :
  mverdict b1 u1 Q1 m -> (forall v, Q1 v -> mverdict b2 u2 Q2 (k v)) -> (b <-> b1 \/ b2) -> (u <-> u1 \/ u2) -> mverdict b u Q2 (vbind m k).
Proof.
  intros V K Eb Eu s. unfold vbind. eapply verdict_bind; [apply V| |exact Eb|exact Eu]. intros [a s1] q. apply K. exact q.
Qed.
Lemma mverdict_free {A B} Q1 b u Q2 (m : vm A) (k : A -> vm B) : mverdict False False Q1 m -> (forall v, Q1 v -> mverdict b u Q2 (k v)) -> mverdict b u Q2 (vbind m k).
Proof. intros V H. eapply mverdict_bind; [exact V|exact H|tauto|tauto]. Qed.
Lemma mverdict_iff {A} b u b' u' (Q Q' : A -> Prop) m : (b <-> b') -> (u <-> u') -> (forall v, Q v -> Q' v) -> mverdict b u Q m -> mverdict b' u' Q' m.
Proof. intros E1 E2 F V s. eapply verdict_iff; eauto. cbn. auto. Qed.
Lemma mverdict_lift {A} b u (Q : A -> Prop) r : verdict b u Q r -> mverdict b u Q (vlift r).
Proof. intros V s. unfold vlift. destruct r; cbn in *; auto. Qed.
Lemma mverdict_ret {A} (Q : A -> Prop) a : Q a -> mverdict False False Q (vret a).
Proof. intros H s. cbn. tauto. Qed.
(** Steps that always succeed *)
Definition quiet {A} (m : vm A) : Prop := forall s, exists r, m s = Ok r.
Lemma mverdict_quiet {A B} b u Q (m : vm A) (k : A -> vm B) : quiet m -> (forall v, mverdict b u Q (k v)) -> mverdict b u Q (vbind m k).
Proof. intros q K s. unfold vbind. destruct (q s) as [[a s1] E]. rewrite E. cbn [bind]. apply K. Qed.
Lemma q_temp : quiet new_temp. Proof. intros s. eexists. reflexivity. Qed.
Lemma q_add d : quiet (add d). Proof. intros s. eexists. reflexivity. Qed.
Lemma q_get : quiet get_start. Proof. intros s. eexists. reflexivity. Qed.
Lemma q_set p : quiet (set_start p). Proof. intros s. eexists. reflexivity. Qed.
Lemma q_goal emit adv k l a : quiet (goal emit adv k l a).
Proof. intros s. unfold goal. destruct emit; eexists; reflexivity. Qed.
Lemma q_valid emit a l : quiet (attach_validity_check emit a l).
Proof. intros s. unfold attach_validity_check. destruct (is_static_true a); [eexists; reflexivity|apply q_goal]. Qed.
Lemma q_goals emit gs l : quiet (attach_goals emit gs l).
Proof.
  induction gs as [|[k a] gs IH]; intros s; cbn [attach_goals]; [eexists; reflexivity|]. unfold vbind.
  destruct (q_goal emit true k l a s) as [[u s1] E]. rewrite E. cbn. apply IH.
Qed.
Lemma q_return a : quiet (create_return a).
Proof. intros s. eexists. reflexivity. Qed.

Section TOTAL.
Variable G : types.
Variable W : world.
Hypothesis FT : fit_types G W.
(** Tuple types are declared before they are used. *)
Hypothesis order : forall u ut c w, tup G u = Some ut -> In c (u_comps ut) -> c_typ c = TTup w -> (w < u)%nat.

Fixpoint declared (a : ty) : Prop :=
  match a with TTup u => tup G u <> None | TArr _ _ _ el => declared el | _ => True end.
Lemma okt_declared a : okt G a -> declared a.
Proof.
  induction a; cbn; auto; intros [U H]; auto. destruct U as [w O]. inversion O; subst. congruence.
Qed.

Lemma core_total fuel : forall a x y, declared a -> (match a with TTup u => (u < fuel)%nat | _ => True end) -> exists z, core_equality G fuel a x y = Ok z.
Proof.
  induction fuel as [|fuel IH]; intros a x y D L; destruct a; cbn [core_equality]; eauto; [lia|].
  cbn in D. destruct (tup G u) as [ut|] eqn:Eu; [|congruence].
  match goal with |- exists z, bind ?m _ = _ => assert (Y : exists ps, m = Ok ps) end.
  { assert (In' : forall c, In c (u_comps ut) -> In c (u_comps ut)) by auto. revert In'. generalize (u_comps ut) at 1 3 as cs.
    induction cs as [|c cs IHc]; intros Ic; [eauto|].
    destruct (IH (c_typ c) (T_value x (c_name c)) (T_value y (c_name c))) as [p ->].
    - apply okt_declared. eapply (ft_tup_okt _ _ FT); eauto. apply Ic. left; auto.
    - destruct (c_typ c) eqn:Ec; auto. assert (u0 < u)%nat by (eapply order; eauto; apply Ic; left; auto). lia.
    - cbn [bind]. destruct IHc as [ps ->]; [intros; apply Ic; right; auto|]. cbn. eauto. }
  destruct Y as [ps ->]. cbn. eauto.
Qed.
Lemma core_ok' a x y : declared a -> exists z, core_equality G (tuple_fuel G) a x y = Ok z.
Proof.
  intros D. apply core_total; auto. destruct a; auto. cbn in D. unfold tuple_fuel. apply nth_error_Some. exact D.
Qed.

Definition okD (S : scope) : Prop := forall n a opt, assoc n S = Some (a, opt) -> declared a.
Lemma own_all r c : In c (own_components G r) -> In c (all_components G r).
Proof.
  pose proof (ft_order _ _ FT) as wf. intros Ic. destruct (nth_error (recs G) r) as [rt|] eqn:E; [|unfold own_components in Ic; rewrite E in Ic; contradiction].
  destruct (lineage_exists G wf r) as (ls & Ls); [apply nth_error_Some; congruence|]. rewrite (all_components_spec G wf _ _ Ls). apply in_flat_map. exists r. split; auto. apply (lineage_in G _ _ Ls). apply rt_refl.
Qed.
Lemma typ_declared e : forall S a, wt G W true S e -> okD S -> e_typ e = Some a -> declared a.
Proof.
  induction e using expr_ind2; intros S b T K E; cbn [e_typ] in E.
  - discriminate.
  - injection E as <-. destruct k as [| |? []| |]; exact I.
  - injection E as <-. inversion T; subst. eapply K; eauto.
  - subst. inversion T; subst; in_cases; subst; settle; exact I.
  - subst. inversion T; subst; in_cases; subst; settle; try exact I. match goal with H : e_typ e1 = Some _, T1 : wt _ _ _ S e1 |- _ => exact (IHe1 _ _ T1 K H) end.
  - injection E as <-. inversion T; subst.
    + apply okt_declared. eapply (ft_tup_okt _ _ FT); eauto.
    + apply okt_declared. eapply (ft_rec_okt _ _ FT). apply own_all. eauto.
    + match goal with A : assoc _ (field_map _ _) = Some _, F : fi_typ _ = Some _ |- _ => destruct (map_typ G (ft_rec _ _ FT) _ _ _ _ A F) as (m & c' & Im & Ic & Nc & Tc) end.
      rewrite <- Tc. apply okt_declared. eapply (ft_rec_okt _ _ FT); eauto.
  - injection E as <-; exact I.
  - injection E as <-; exact I.
  - inversion T; subst. destruct acts as [|[c x] acts]; [congruence|].
    destruct (H c x (or_introl eq_refl)) as [_ Hx]. match goal with F : forall c x, In _ _ -> wt _ _ _ _ _ /\ _ |- _ => destruct (F c x (or_introl eq_refl)) as [_ Tx] end. eapply Hx; eauto.
  - injection E as <-; exact I.
Qed.

(** Values are missing for null only. *)
Definition present (e : expr) (v : tval) : Prop := match e_typ e with None => v = (None, T_false) | Some _ => fst v <> None end.
Lemma present_some e a v : present e v -> e_typ e = Some a -> exists x, fst v = Some x.
Proof. unfold present. intros H E. rewrite E in H. destruct (fst v); eauto; congruence. Qed.

Lemma equality_total S op e f v w : wt G W true S e -> wt G W true S f -> okD S -> present e v -> present f w -> exists z, equality_term G op (e_typ e) (e_typ f) v w = Ok z.
Proof.
  intros T1 T2 K P1 P2. unfold present in *. unfold equality_term.
  destruct (e_typ e) as [a|] eqn:E1; [destruct v as [[x|] k]; cbn in P1; [|congruence]|subst v];
    (destruct (e_typ f) as [b|] eqn:E2; [destruct w as [[y|] k']; cbn in P2; [|congruence]|subst w]); cbn [fst snd some_value].
  - destruct (core_ok' a x y (typ_declared _ _ _ T1 K E1)) as [z Ez].
    destruct (is_static_true k && is_static_true k'); cbn [bind]; [|destruct (is_static_false k && is_static_false k')]; cbn [bind]; rewrite ?Ez; cbn; eauto.
  - cbn. rewrite Bool.andb_false_r. destruct (is_static_false k && true); cbn; eauto.
  - cbn. destruct (is_static_false k'); cbn; eauto.
  - cbn. eauto.
Qed.
Lemma unary_total S l b op e x : wt G W true S (EUnary l b op e) -> exists y, unary_term op (e_typ e) x = Ok y.
Proof. intros T. inversion T; subst; in_cases; subst; settle; match goal with H : e_typ e = Some _ |- _ => rewrite H end; cbn; eauto. Qed.
Lemma binary_total S l b op e f x y : wt G W true S (EBinary l b op e f) -> strict_op op -> exists z, binary_term W l op (e_typ e) f x y = Ok z.
Proof.
  intros T C. inversion T; subst; in_cases; subst; settle; try (exfalso; apply C; cbn; tauto); try match goal with H : e_typ e = Some _ |- _ => rewrite H end; cbn [binary_term arith_term]; eauto;
  match goal with H : evaluate W None f = Ok _ |- _ => rewrite H end; cbn [v_val]; eauto;
  match goal with H : 0 <= ?k |- _ => replace (k <? 0) with false by lia end; eauto.
Qed.
Lemma goals_kind S l b op e f x y : wt G W true S (EBinary l b op e f) -> (op_goals op (e_typ e) x y = [] <-> ~ goal_at (EBinary l b op e f)).
Proof.
  intros T. assert (Y : In op [B_div; B_rem; B_index] \/ ~ In op [B_div; B_rem; B_index]) by (destruct op; cbn; intuition discriminate).
  destruct Y as [Y|Y].
  - split; [|intros N; exfalso; apply N; in_cases; subst; exact I]. intros E; exfalso.
    inversion T; subst; in_cases; subst; try discriminate; match goal with H : e_typ e = Some _ |- _ => rewrite H in E; cbn in E; discriminate end.
  - split; intros _; destruct op; cbn in *; try reflexivity; try tauto.
Qed.
Lemma access_total S l c e un uv x : wt G W true S (EField l c e un uv) -> exists k, field_access G c (e_typ e) x = Ok (Some (T_value x (c_name c)), k) \/ exists y, field_access G c (e_typ e) x = Ok (Some y, k).
Proof.
  intros T. inversion T; subst; match goal with H : e_typ e = Some _ |- _ => rewrite H end; cbn [field_access]; eauto.
  match goal with H : assoc _ _ = Some _ |- _ => rewrite H end. match goal with H : fi_typ _ = Some _ |- _ => rewrite H end. eauto.
Qed.

Definition covers (S : scope) (env : tenv) : Prop := forall n a opt, assoc n S = Some (a, opt) -> exists x k, assoc n env = Some (x, k).
Lemma covers_cons S env v b p : covers S env -> covers ((v, b) :: S) ((v, p) :: env).
Proof.
  intros C n a opt. cbn. destruct (text_eqb v n); [|apply C]. intros _. destruct p; eauto.
Qed.
Lemma okD_cons S v el b : okD S -> declared el -> okD ((v, (el, b)) :: S).
Proof. intros K D n a opt. cbn. destruct (text_eqb v n); [intros [= <- <-]; auto|apply K]. Qed.

Ltac vb H := eapply verdict_bind; [exact H| | |].
Ltac rd := rewrite ?has_null, ?has_lit, ?has_name, ?has_unary, ?has_binary, ?has_field, ?has_range, ?has_quant, ?has_oneof, ?has_cond, ?any_nil, ?any_cons, ?act_nil, ?act_cons; cbn [goal_at quant_at stuck_at nested_at]; tauto.
Lemma some_verdict e a v : present e v -> e_typ e = Some a -> verdict False False (fun x => fst v = Some x) (some_value (fst v)).
Proof. intros P E. destruct (present_some _ _ _ P E) as [x ->]. cbn. tauto. Qed.
Lemma total_verdict {A} (r : res loc A) : (exists x, r = Ok x) -> verdict False False (fun _ => True) r.
Proof. intros [x ->]. cbn. tauto. Qed.

Lemma fun_verdict e : forall S env, wt G W true S e -> okD S -> covers S env -> verdict (has goal_at e) (has quant_at e) (present e) (tr_functional G W env e).
Proof.
  induction e using expr_ind2; intros S env T K C; cbn [tr_functional].
  - cbn [verdict]. split; [rd|]. split; [rd|reflexivity].
  - cbn [verdict]. split; [rd|]. split; [rd|discriminate].
  - inversion T; subst. destruct (C _ _ _ H0) as (x & k & E). unfold name_reference. rewrite E. cbn [bind verdict]. split; [rd|]. split; [rd|discriminate].
  - assert (Te : wt G W true S e) by (inversion T; subst; auto). assert (exists b, e_typ e = Some b) as [b Eb] by (inversion T; subst; eauto).
    assert (Ea : a <> None) by (inversion T; subst; discriminate).
    eapply verdict_bind with (b2 := False) (u2 := False); [exact (IHe S env Te K C)| |rd|rd]. intros [x k] P.
    destruct (present_some _ _ _ P Eb) as [y Y]. cbn in Y. subst x. cbn [some_value bind]. destruct (unary_total _ _ _ _ _ y T) as [z ->]. cbn [bind]. apply verdict_ok. unfold present. cbn. destruct a; discriminate || congruence.
  - assert (T1 : wt G W true S e1) by (inversion T; subst; auto). assert (T2 : wt G W true S e2) by (inversion T; subst; auto).
    assert (Ea : exists q, a = Some q) by (inversion T; subst; eauto). destruct Ea as [q ->].
    assert (Cases : In op [B_eq; B_neq] \/ ~ In op [B_eq; B_neq]) by (destruct op; cbn; intuition discriminate).
    destruct Cases as [Cs|Cs].
    + assert (verdict (has goal_at (EBinary l (Some q) op e1 e2)) (has quant_at (EBinary l (Some q) op e1 e2)) (present (EBinary l (Some q) op e1 e2))
         (do x <- tr_functional G W env e1 ; do y <- tr_functional G W env e2 ; do z <- equality_term G op (e_typ e1) (e_typ e2) x y ; Ok (Some z, T_true))).
      { eapply verdict_bind with (b2 := has goal_at e2) (u2 := has quant_at e2); [exact (IHe1 S env T1 K C)| |in_cases; subst; rd|in_cases; subst; rd]. intros x Px.
        eapply verdict_bind with (b2 := False) (u2 := False); [exact (IHe2 S env T2 K C)| |tauto|tauto]. intros y Py.
        destruct (equality_total _ op _ _ _ _ T1 T2 K Px Py) as [z ->]. cbn [bind]. apply verdict_ok. discriminate. }
      in_cases; subst; assumption.
    + assert (exists a1 a2, e_typ e1 = Some a1 /\ e_typ e2 = Some a2) as (a1 & a2 & E1 & E2) by (inversion T; subst; eauto; exfalso; apply Cs; assumption).
      assert (verdict (has goal_at (EBinary l (Some q) op e1 e2)) (has quant_at (EBinary l (Some q) op e1 e2)) (present (EBinary l (Some q) op e1 e2))
         (do (x, _) <- tr_functional G W env e1 ; do (y, _) <- tr_functional G W env e2 ;
          do x <- some_value x ; do y <- some_value y ;
          match op with
          | B_and => Ok (Some (T_and x y), T_true)
          | B_or => Ok (Some (T_or x y), T_true)
          | B_implies => Ok (Some (T_implies x y), T_true)
          | _ =>
              match op_goals op (e_typ e1) x y with
              | [] => do z <- binary_term W l op (e_typ e1) e2 x y ; Ok (Some z, T_true)
              | _ => Crash
              end
          end)).
      { eapply verdict_bind with (b2 := goal_at (EBinary l (Some q) op e1 e2) \/ has goal_at e2) (u2 := has quant_at e2); [exact (IHe1 S env T1 K C)| |rewrite has_binary; tauto|rd]. intros [x kx] Px.
        eapply verdict_bind with (b2 := goal_at (EBinary l (Some q) op e1 e2)) (u2 := False); [exact (IHe2 S env T2 K C)| |tauto|tauto]. intros [y ky] Py.
        destruct (present_some _ _ _ Px E1) as [x' Y]. cbn in Y. subst x. destruct (present_some _ _ _ Py E2) as [y' Y]. cbn in Y. subst y. cbn [some_value bind].
        assert (Lg : In op [B_and; B_or; B_implies] \/ strict_op op).
        { unfold strict_op. destruct op; cbn; auto 8; try (exfalso; apply Cs; cbn; tauto); right; intros I; intuition discriminate. }
        destruct Lg as [Lg|Lg].
        - in_cases; subst; cbn; repeat split; try tauto; discriminate.
        - assert (verdict (goal_at (EBinary l (Some q) op e1 e2)) False (present (EBinary l (Some q) op e1 e2))
             (match op_goals op (e_typ e1) x' y' with
              | [] => do z <- binary_term W l op (e_typ e1) e2 x' y' ; Ok (Some z, T_true)
              | _ => Crash
              end)).
          { pose proof (goals_kind _ _ _ _ _ _ x' y' T) as Kg. destruct (op_goals op (e_typ e1) x' y') as [|g gs].
            - destruct (binary_total _ _ _ _ _ _ x' y' T Lg) as [z ->]. cbn [bind verdict]. split; [apply Kg; auto|]. split; [auto|discriminate].
            - cbn [verdict]. destruct op; cbn in *; try exact I; exfalso; (assert (g :: gs = []) by (apply Kg; auto)); discriminate. }
          destruct op; try (exfalso; apply Lg; cbn; tauto); assumption. }
      destruct op; try (exfalso; apply Cs; cbn; tauto); assumption.
  - assert (Te : wt G W true S e) by (inversion T; subst; auto). assert (exists b, e_typ e = Some b) as [b Eb] by (inversion T; subst; eauto).
    eapply verdict_bind with (b2 := False) (u2 := False); [exact (IHe S env Te K C)| |rd|rd]. intros [x k] P.
    destruct (present_some _ _ _ P Eb) as [y Y]. cbn in Y. subst x. cbn [some_value bind].
    destruct (access_total _ _ _ _ _ _ y T) as [k' [E|(z & E)]]; rewrite E; apply verdict_ok; discriminate.
  - assert (T1 : wt G W true S e1) by (inversion T; subst; auto).
    pose proof (IHe1 S env T1 K C) as V. destruct (tr_functional G W env e1); cbn [verdict bind] in *; try contradiction; rd.
  - inversion T; subst. destruct es as [|a es]; [cbn [verdict]; rd|].
    pose proof (H a (or_introl eq_refl) S env (H3 a (or_introl eq_refl)) K C) as V. destruct (tr_functional G W env a); cbn [verdict bind] in *; try contradiction; rd.
  - inversion T; subst.
    match goal with H : e_typ e = Some ?q, N : _ <> [], F : (forall c x, In (c, x) acts -> e_typ c = _ /\ _), F' : (forall c x, In (c, x) acts -> wt _ _ _ _ _ /\ _) |- _ =>
      rename H into Ee; rename N into Ne; rename F into Ft; rename F' into Fw; set (a0 := q) in * end.
    match goal with H : wt G W true S e |- _ => rename H into Tels end.
    assert (Et' : e_typ (ECond l acts e) = Some a0).
    { destruct acts as [|[c x] acts]; [congruence|]. cbn. eapply Ft. left. reflexivity. }
    unfold present at 1. rewrite Et'. clear Ne Et' T.
    match goal with |- verdict _ _ _ (?f acts) => set (go := f) end.
    assert (Y : verdict (has_act goal_at acts \/ has goal_at e) (has_act quant_at acts \/ has quant_at e) (fun v => fst v <> None) (go acts)).
    2: { eapply verdict_iff; [| | |exact Y]; auto; rd. }
    induction acts as [|[c x] acts IHa].
    + eapply verdict_bind with (b2 := False) (u2 := False); [exact (IHe S env Tels K C)| |rd|rd]. intros [x k] P. destruct (present_some _ _ _ P Ee) as [y Y]. cbn in Y. subst x. apply verdict_ok. discriminate.
    + destruct (H c x (or_introl eq_refl)) as [Hc Hx]. destruct (Ft c x (or_introl eq_refl)) as [Ec Ex]. destruct (Fw c x (or_introl eq_refl)) as [Wc Wx].
      eapply verdict_bind with (b2 := has goal_at c \/ has goal_at x) (u2 := has quant_at c \/ has quant_at x).
      * apply IHa; intros; [eapply H|eapply Ft|eapply Fw]; eauto with datatypes.
      * intros [r kr] Pr. eapply verdict_bind with (b2 := has goal_at x) (u2 := has quant_at x); [exact (Hc S env Wc K C)| |tauto|tauto]. intros [s ks] Ps.
        eapply verdict_bind with (b2 := False) (u2 := False); [exact (Hx S env Wx K C)| |tauto|tauto]. intros [y ky] Py.
        destruct (present_some _ _ _ Ps Ec) as [s' Y]. cbn in Y. subst s. destruct (present_some _ _ _ Py Ex) as [y' Y]. cbn in Y. subst y.
        cbn in Pr. destruct r as [r|]; [|congruence]. cbn [some_value bind]. apply verdict_ok. discriminate.
      * rd.
      * rd.
  - cbn [verdict]. rd.
Qed.

(** ** Without the attribute [functional] *)
Ltac q := first [apply q_temp|apply q_add|apply q_get|apply q_set|apply q_goal|apply q_valid|apply q_goals|apply q_return].
Ltac mq := repeat (apply mverdict_quiet; [q|let v := fresh "u" in intros v]).
Lemma ret_present e a x : e_typ e = Some a -> mverdict False False (present e) (vret (Some x, T_true)).
Proof. intros E. apply mverdict_ret. unfold present. rewrite E. discriminate. Qed.
Lemma return_present e a x : e_typ e = Some a -> mverdict False False (present e) (create_return x).
Proof. intros E s. cbn. repeat split; auto. unfold present. rewrite E. discriminate. Qed.
(** An operand with its check *)
Lemma operand {B} b u b' u' b0 u0 Q emit env e l a (k : term -> vm B) : mverdict b u (present e) (tr G W emit env e) -> e_typ e = Some a -> (forall x, mverdict b' u' Q (k x)) ->
  (b0 <-> b \/ b') -> (u0 <-> u \/ u') ->
  mverdict b0 u0 Q (vbind (tr G W emit env e) (fun v => vbind (checked emit v l) (fun _ => vbind (vlift (some_value (fst v))) k))).
Proof.
  intros V E H Eb Eu. eapply mverdict_bind; [exact V| |exact Eb|exact Eu]. intros v P. apply mverdict_quiet; [unfold checked; q|]. intros _.
  destruct (present_some _ _ _ P E) as [x X]. rewrite X. apply (mverdict_free (fun _ => True)); [apply mverdict_lift; cbn; tauto|]. intros y _. apply H.
Qed.

Lemma tr_verdict e : forall S emit env, wt G W true S e -> okD S -> covers S env -> mverdict (has stuck_at e) (has nested_at e) (present e) (tr G W emit env e).
Proof.
  induction e using expr_ind2; intros S emit env T K C; cbn [tr].
  - eapply mverdict_iff; [| | |apply (mverdict_ret (present (ENull l))); reflexivity]; auto; rd.
  - eapply mverdict_iff; [| | |apply (mverdict_ret (present (ELit l k))); discriminate]; auto; rd.
  - inversion T; subst. destruct (C _ _ _ H0) as (x & k & E). unfold name_reference. rewrite E. intros s. cbn. split; [rd|]. split; [rd|discriminate].
  - assert (Te : wt G W true S e) by (inversion T; subst; auto). assert (exists b, e_typ e = Some b) as [b Eb] by (inversion T; subst; eauto).
    assert (exists a', a = Some a') as [a' ->] by (inversion T; subst; eauto).
    eapply operand with (b' := False) (u' := False); [exact (IHe S emit env Te K C)|exact Eb| |rd|rd]. intros x.
    destruct (unary_total _ _ _ _ _ x T) as [z ->]. apply (mverdict_free (fun _ => True)); [apply mverdict_lift; cbn; tauto|]. intros y _. eapply return_present. reflexivity.
  - assert (T1 : wt G W true S e1) by (inversion T; subst; auto). assert (T2 : wt G W true S e2) by (inversion T; subst; auto).
    assert (Ea : exists q, a = Some q) by (inversion T; subst; eauto). destruct Ea as [t0 ->].
    assert (Hb : has stuck_at (EBinary l (Some t0) op e1 e2) <-> has stuck_at e1 \/ has stuck_at e2) by rd.
    assert (Hu : has nested_at (EBinary l (Some t0) op e1 e2) <-> has nested_at e1 \/ has nested_at e2) by rd.
    match goal with |- mverdict ?b ?u ?Q (match op with B_and => ?x | B_or => ?y | B_xor => ?z | B_implies => ?i | B_eq => ?w | _ => _ end) => set (strict := z); set (equal := w); set (land := x); set (lor := y); set (limp := i) end.
    assert (Cases : In op [B_eq; B_neq] \/ In op [B_and; B_or; B_implies] \/ strict_op op).
    { unfold strict_op. destruct op; cbn; auto 8; right; right; intros I; intuition discriminate. }
    destruct Cases as [Cs|[Cs|Cs]].
    + assert (mverdict (has stuck_at (EBinary l (Some t0) op e1 e2)) (has nested_at (EBinary l (Some t0) op e1 e2)) (present (EBinary l (Some t0) op e1 e2))
        (let# v := tr G W emit env e1 in let# w := tr G W emit env e2 in let# x := vlift (equality_term G op (e_typ e1) (e_typ e2) v w) in create_return x)).
      { eapply mverdict_bind with (b2 := has stuck_at e2) (u2 := has nested_at e2); [exact (IHe1 S emit env T1 K C)| |tauto|tauto]. intros v Pv.
        eapply mverdict_bind with (b2 := False) (u2 := False); [exact (IHe2 S emit env T2 K C)| |tauto|tauto]. intros w Pw.
        destruct (equality_total _ op _ _ _ _ T1 T2 K Pv Pw) as [z ->].
        apply (mverdict_free (fun _ => True)); [apply mverdict_lift; cbn; tauto|]. intros y _. eapply return_present. reflexivity. }
      in_cases; subst; assumption.
    + assert (E1 : e_typ e1 = Some TBool /\ e_typ e2 = Some TBool) by (clear - T Cs; inversion T; subst; first [exfalso; in_cases; subst; discriminate | auto]). destruct E1 as [E1 E2].
      assert (L : forall stop fixed : bool, mverdict (has stuck_at (EBinary l (Some t0) op e1 e2)) (has nested_at (EBinary l (Some t0) op e1 e2)) (present (EBinary l (Some t0) op e1 e2))
        (let# v := tr G W emit env e1 in
        let# _ := checked emit v (e_loc e1) in
        let# x := vlift (some_value (fst v)) in
        let# start := get_start in
        let# n := new_temp in
        let# _ := attach_assumption (if stop then x else T_not x) in
        let# _ := attach_temp n (T_lit (LBool fixed)) in
        let# end1 := get_start in
        let# _ := set_start start in
        let# _ := attach_assumption (if stop then T_not x else x) in
        let# w := tr G W emit env e2 in
        let# _ := checked emit w (e_loc e2) in
        let# y := vlift (some_value (fst w)) in
        let# _ := attach_temp n y in
        let# end2 := get_start in
        let# _ := set_start (end1 ++ end2) in
        vret (Some (T_tmp n), T_true))).
      { intros stop fixed. eapply operand with (b' := has stuck_at e2) (u' := has nested_at e2); [exact (IHe1 S emit env T1 K C)|exact E1| |tauto|tauto]. intros x. unfold attach_assumption, attach_temp. mq.
        eapply operand with (b' := False) (u' := False); [exact (IHe2 S emit env T2 K C)|exact E2| |tauto|tauto]. intros y. mq. eapply ret_present. reflexivity. }
      in_cases; subst; [apply (L false false)|apply (L true true)|apply (L false true)].
    + assert (exists a1 a2, e_typ e1 = Some a1 /\ e_typ e2 = Some a2) as (a1 & a2 & E1 & E2) by (inversion T; subst; eauto; exfalso; apply Cs; cbn in *; tauto).
      assert (mverdict (has stuck_at (EBinary l (Some t0) op e1 e2)) (has nested_at (EBinary l (Some t0) op e1 e2)) (present (EBinary l (Some t0) op e1 e2))
         (let# v := tr G W emit env e1 in
          let# _ := checked emit v (e_loc e1) in
          let# w := tr G W emit env e2 in
          let# _ := checked emit w (e_loc e2) in
          let# x := vlift (some_value (fst v)) in
          let# y := vlift (some_value (fst w)) in
          let# _ := attach_goals emit (op_goals op (e_typ e1) x y) l in
          let# z := vlift (binary_term W l op (e_typ e1) e2 x y) in
          create_return z)).
      { eapply mverdict_bind with (b2 := has stuck_at e2) (u2 := has nested_at e2); [exact (IHe1 S emit env T1 K C)| |tauto|tauto]. intros v Pv. unfold checked. mq.
        eapply mverdict_bind with (b2 := False) (u2 := False); [exact (IHe2 S emit env T2 K C)| |tauto|tauto]. intros w Pw. mq.
        destruct (present_some _ _ _ Pv E1) as [x ->]. destruct (present_some _ _ _ Pw E2) as [y ->]. cbn [some_value].
        apply (mverdict_free (fun _ => True)); [apply mverdict_lift; cbn; tauto|]. intros x' _.
        apply (mverdict_free (fun _ => True)); [apply mverdict_lift; cbn; tauto|]. intros y' _. mq.
        destruct (binary_total _ _ _ _ _ _ x' y' T Cs) as [z ->].
        apply (mverdict_free (fun _ => True)); [apply mverdict_lift; cbn; tauto|]. intros z' _. eapply return_present. reflexivity. }
      destruct op; try (exfalso; apply Cs; cbn; tauto); assumption.
  - assert (Te : wt G W true S e) by (inversion T; subst; auto). assert (exists b, e_typ e = Some b) as [b Eb] by (inversion T; subst; eauto).
    eapply operand with (b' := False) (u' := False); [exact (IHe S emit env Te K C)|exact Eb| |rd|rd]. intros x.
    apply mverdict_lift. destruct (access_total _ _ _ _ _ _ x T) as [k' [E|(z & E)]]; rewrite E; apply verdict_ok; discriminate.
  - inversion T; subst.
    match goal with A : e_typ e1 = Some _, B : e_typ e2 = Some _, D : e_typ e3 = Some _ |- _ => rename A into E1; rename B into E2; rename D into E3 end.
    match goal with A : wt _ _ _ _ e1, B : wt _ _ _ _ e2, D : wt _ _ _ _ e3 |- _ => rename A into T1; rename B into T2; rename D into T3 end.
    eapply mverdict_bind with (b2 := has stuck_at e2 \/ has stuck_at e3) (u2 := has nested_at e2 \/ has nested_at e3); [exact (IHe1 S emit env T1 K C)| |rd|rd]. intros v Pv. unfold checked. mq.
    eapply mverdict_bind with (b2 := has stuck_at e3) (u2 := has nested_at e3); [exact (IHe2 S emit env T2 K C)| |tauto|tauto]. intros w Pw. mq.
    eapply mverdict_bind with (b2 := False) (u2 := False); [exact (IHe3 S emit env T3 K C)| |tauto|tauto]. intros u1 Pu. mq.
    destruct (present_some _ _ _ Pv E1) as [x ->]. destruct (present_some _ _ _ Pw E2) as [y ->]. destruct (present_some _ _ _ Pu E3) as [z ->]. cbn [some_value].
    do 3 (apply (mverdict_free (fun _ => True)); [apply mverdict_lift; cbn; tauto|]; intros ? _). eapply return_present. reflexivity.
  - inversion T; subst. rename H2 into Ft. rename H3 into Fw.
    match goal with |- mverdict _ _ _ (vbind (?f es) _) => set (go := f) end.
    assert (Y : mverdict (has_any stuck_at es) (has_any nested_at es) (fun xs => xs = [] <-> es = []) (go es)).
    { clear T. induction es as [|a es IHs].
      - eapply mverdict_iff; [| | |apply (mverdict_ret (fun xs : list term => xs = [])); reflexivity]; [rd|rd|]. intros v ->. tauto.
      - eapply operand with (b' := has_any stuck_at es) (u' := has_any nested_at es); [exact (H a (or_introl eq_refl) S emit env (Fw a (or_introl eq_refl)) K C)|exact (Ft a (or_introl eq_refl))| |rd|rd]. intros x.
        eapply mverdict_bind with (b2 := False) (u2 := False).
        + apply IHs; intros; [eapply H|apply Ft|apply Fw]; cbn; eauto.
        + intros xs _. apply mverdict_ret. split; discriminate.
        + tauto.
        + tauto. }
    eapply mverdict_bind with (b2 := es = []) (u2 := False); [exact Y| | |rd].
    + intros xs Ex. eapply mverdict_bind with (b2 := False) (u2 := False) (Q1 := fun _ => True); [apply mverdict_lift with (b := es = []) (u := False)| |tauto|tauto].
      * destruct xs as [|x [|y [|z xs]]]; cbn; [tauto| | |]; (split; [|tauto]; intros E; apply Ex in E; discriminate).
      * intros z _. eapply return_present. reflexivity.
    + destruct es; rd || (rewrite has_oneof; cbn [stuck_at]; intuition discriminate).
  - inversion T; subst.
    match goal with H : e_typ e = Some ?q, N : _ <> [], F : (forall c x, In (c, x) acts -> e_typ c = _ /\ _), F' : (forall c x, In (c, x) acts -> wt _ _ _ _ _ /\ _) |- _ =>
      rename H into Ee; rename N into Ne; rename F into Ft; rename F' into Fw; set (a0 := q) in * end.
    match goal with H : wt G W true S e |- _ => rename H into Tels end.
    assert (Et' : e_typ (ECond l acts e) = Some a0).
    { destruct acts as [|[c x] acts]; [congruence|]. cbn. eapply Ft. left. reflexivity. }
    mq. match goal with |- mverdict _ _ _ (vbind (?f acts) _) => set (go := f) end.
    assert (Y : mverdict (has_act stuck_at acts \/ has stuck_at e) (has_act nested_at acts \/ has nested_at e) (fun _ => True) (go acts)).
    { clear T Ne Et'. induction acts as [|[c x] acts IHa].
      - eapply operand with (b' := False) (u' := False); [exact (IHe S emit env Tels K C)|exact Ee| |rd|rd]. intros y. unfold attach_temp. mq. intros s. cbn. tauto.
      - destruct (H c x (or_introl eq_refl)) as [Hc Hx]. destruct (Ft c x (or_introl eq_refl)) as [Ec Ex]. destruct (Fw c x (or_introl eq_refl)) as [Wc Wx].
        eapply operand with (b' := has stuck_at x \/ has_act stuck_at acts \/ has stuck_at e) (u' := has nested_at x \/ has_act nested_at acts \/ has nested_at e); [exact (Hc S emit env Wc K C)|exact Ec| |rd|rd]. intros y. unfold attach_assumption, attach_temp. mq.
        eapply operand with (b' := has_act stuck_at acts \/ has stuck_at e) (u' := has_act nested_at acts \/ has nested_at e); [exact (Hx S emit env Wx K C)|exact Ex| |rd|rd]. intros z. mq.
        eapply mverdict_bind with (b2 := False) (u2 := False).
        + apply IHa; intros; [eapply H|eapply Ft|eapply Fw]; eauto with datatypes.
        + intros ps _. apply mverdict_ret. exact I.
        + tauto.
        + tauto. }
    eapply mverdict_bind with (b2 := False) (u2 := False); [exact Y| |rd|rd]. intros ps _. mq. eapply ret_present. exact Et'.
  - inversion T; subst. match goal with H : assoc (c_name src) S = Some _ |- _ => rename H into As end.
    destruct (C _ _ _ As) as (x & k & E). unfold name_reference. rewrite E. match goal with H : c_typ src = _ |- _ => rewrite H in *; rename H into Es end.
    assert (D : declared el) by exact (K _ _ _ As).
    match goal with H : wt _ _ _ _ e, H' : e_typ e = Some TBool |- _ => rename H into Tb; rename H' into Eb end.
    apply (mverdict_free (fun _ => True)); [apply mverdict_lift; cbn; tauto|].
    intros [sub0 val0] _. unfold attach_assumption, attach_temp. mq.
    eapply mverdict_bind with (b2 := has goal_at e) (u2 := has quant_at e); [apply (IHe ((v, (el, false)) :: S)); [exact Tb|apply okD_cons; auto|apply covers_cons; auto]| |rd|rd]. intros w Pw. unfold checked. mq.
    eapply mverdict_bind with (b2 := False) (u2 := False); [apply mverdict_lift; apply (fun_verdict e ((v, (el, false)) :: S)); [exact Tb|apply okD_cons; auto|apply covers_cons; auto]| |tauto|tauto]. intros [b kb] Pb.
    destruct (present_some _ _ _ Pb Eb) as [y Y]. cbn in Y. subst b. cbn [some_value].
    apply (mverdict_free (fun _ => True)); [apply mverdict_lift; cbn; tauto|]. intros b' _. eapply ret_present. reflexivity.
Qed.

(** ** Declarations and checks *)
(** Checks of the tuple type that become part of the declaration of a component *)
Definition tuple_part (P : expr -> Prop) (u : nat) : Prop :=
  exists ut ck, tup G u = Some ut /\ In ck (u_checks ut) /\ ck_sev ck <> Sev_warning /\ has P (ck_expr ck).
Definition component_part (P : expr -> Prop) (cs : list component) : Prop :=
  exists c u, In c cs /\ c_typ c = TTup u /\ tuple_part P u.
Definition check_part (P : expr -> Prop) (cks : list check) : Prop := exists ck, In ck cks /\ has P (ck_expr ck).
Definition frozen_aggregate (frozen : text -> option vexpr) (cs : list component) : Prop :=
  exists c v, In c cs /\ frozen (c_name c) = Some v /\ match v with XLit _ _ _ | XUnary _ _ _ _ => False | _ => True end.

Lemma scope_declared cs : (forall c, In c cs -> okt G (c_typ c)) -> okD (scope_for cs).
Proof. intros H n a opt A. apply assoc_scope_for in A as (c & I & <- & <- & <-). apply okt_declared. auto. Qed.
Lemma covers_map (f : component -> term * term) cs : covers (scope_for cs) (map (fun c => (c_name c, f c)) cs).
Proof.
  intros n a opt. unfold scope_for. induction cs as [|c cs IH]; cbn; [discriminate|]. destruct (text_eqb (c_name c) n); auto. intros _. destruct (f c). eauto.
Qed.

Lemma constraints_verdict env S cks : (forall ck, In ck cks -> good_check G W S ck) -> okD S -> covers S env ->
  verdict (exists ck, In ck cks /\ ck_sev ck <> Sev_warning /\ has goal_at (ck_expr ck)) (exists ck, In ck cks /\ ck_sev ck <> Sev_warning /\ has quant_at (ck_expr ck)) (fun _ => True) (check_constraints G W env cks).
Proof.
  intros Gk K C. induction cks as [|ck cks IH]; cbn [check_constraints].
  - cbn. split; [intros (? & [] & _)|]. split; [intros (? & [] & _)|exact I].
  - assert (Gk' : forall ck, In ck cks -> good_check G W S ck) by (intros; apply Gk; right; auto). specialize (IH Gk').
    assert (Y : ck_sev ck = Sev_warning \/ ck_sev ck <> Sev_warning) by (destruct (ck_sev ck); auto; right; discriminate). destruct Y as [Y|Y].
    + rewrite Y. eapply verdict_iff; [| | |exact IH]; auto; (split; [intros (q & I & N & H); exists q; cbn; auto|intros (q & [<-|I] & N & H); [congruence|exists q; auto]]).
    + assert (Z : verdict (exists q, In q (ck :: cks) /\ ck_sev q <> Sev_warning /\ has goal_at (ck_expr q)) (exists q, In q (ck :: cks) /\ ck_sev q <> Sev_warning /\ has quant_at (ck_expr q)) (fun _ => True)
        (do (x, _) <- tr_functional G W env (ck_expr ck) ; do x <- some_value x ; do xs <- check_constraints G W env cks ; Ok (x :: xs))).
      { destruct (Gk ck (or_introl eq_refl)) as (T & E & _).
        eapply verdict_bind; [exact (fun_verdict _ S env T K C)| | |].
        - intros [x k] P. destruct (present_some _ _ _ P E) as [y Q]. cbn in Q. subst x. cbn [some_value bind].
          eapply verdict_bind with (b2 := False) (u2 := False); [exact IH| |apply iff_sym; apply or_false_r|apply iff_sym; apply or_false_r]. intros xs _. apply verdict_ok. exact I.
        - split; [intros (q & [<-|I] & N & H); [left; auto|right; exists q; auto]|intros [H|(q & I & N & H)]; [exists ck; cbn; auto|exists q; cbn; auto]].
        - split; [intros (q & [<-|I] & N & H); [left; auto|right; exists q; auto]|intros [H|(q & I & N & H)]; [exists ck; cbn; auto|exists q; cbn; auto]]. }
      destruct (ck_sev ck); [congruence|exact Z|exact Z].
Qed.
Lemma tuple_verdict u x : tup G u <> None -> verdict (tuple_part goal_at u) (tuple_part quant_at u) (fun _ => True) (tuple_constraints G W u x).
Proof.
  intros D. unfold tuple_constraints, tuple_part. destruct (tup G u) as [ut|] eqn:E; [|congruence].
  eapply verdict_bind with (b2 := False) (u2 := False).
  - eapply constraints_verdict with (S := scope_for (u_comps ut)).
    + intros ck I. eapply (ft_checks _ _ FT); eauto.
    + apply scope_declared. intros c I. eapply (ft_tup_okt _ _ FT); eauto.
    + unfold tuple_env. apply covers_map.
  - intros xs _. apply verdict_ok. exact I.
  - rewrite or_false_r. split; [intros (ut' & ck & [= <-] & H)|intros (ck & H)]; eauto.
  - rewrite or_false_r. split; [intros (ut' & ck & [= <-] & H)|intros (ck & H)]; eauto.
Qed.
Lemma stored_verdict a v : vt G W a v -> verdict False (match v with XLit _ _ _ | XUnary _ _ _ _ => False | _ => True end) (fun _ => True) (tr_stored v).
Proof.
  intros V. inversion V; subst; cbn; try tauto. destruct H; destruct H0; subst; destruct k as [| |? []| |]; cbn in *; try discriminate; tauto.
Qed.
Lemma component_verdict fr c : okt G (c_typ c) -> (forall v, fr = Some v -> vt G W (c_typ c) v) ->
  verdict (exists u, c_typ c = TTup u /\ tuple_part goal_at u)
    ((exists u, c_typ c = TTup u /\ tuple_part quant_at u) \/ exists v, fr = Some v /\ match v with XLit _ _ _ | XUnary _ _ _ _ => False | _ => True end)
    (fun _ => True) (component_decl G W fr c).
Proof.
  intros O V. apply okt_declared in O. unfold component_decl.
  eapply verdict_bind with (b1 := False) (u1 := exists v, fr = Some v /\ match v with XLit _ _ _ | XUnary _ _ _ _ => False | _ => True end) (Q1 := fun _ => True)
    (b2 := exists u, c_typ c = TTup u /\ tuple_part goal_at u) (u2 := exists u, c_typ c = TTup u /\ tuple_part quant_at u).
  - destruct fr as [v|].
    + eapply verdict_bind with (b2 := False) (u2 := False); [exact (stored_verdict _ _ (V v eq_refl))| |tauto|]; [intros y _; apply verdict_ok; exact I|].
      rewrite or_false_r. split; [intros (v' & [= <-] & H); auto|eauto].
    + cbn. split; [auto|]. split; [intros (v & [=] & _)|exact I].
  - intros xs _. eapply verdict_bind with (b2 := False) (u2 := False) (Q1 := fun _ => True) (b1 := exists u, c_typ c = TTup u /\ tuple_part goal_at u) (u1 := exists u, c_typ c = TTup u /\ tuple_part quant_at u);
      [|intros ys _; apply verdict_ok; exact I|apply iff_sym; apply or_false_r|apply iff_sym; apply or_false_r].
    destruct (c_typ c) eqn:Ec; try (cbn; split; [intros (u' & [=] & _)|]; split; [intros (u' & [=] & _)|exact I]).
    eapply verdict_iff; [| |auto|apply tuple_verdict; exact O]; (split; [eauto|intros (u' & [= <-] & H); auto]).
  - tauto.
  - tauto.
Qed.
Lemma components_verdict frozen cs : (forall c, In c cs -> okt G (c_typ c)) -> (forall c v, In c cs -> frozen (c_name c) = Some v -> vt G W (c_typ c) v) ->
  verdict (component_part goal_at cs) (component_part quant_at cs \/ frozen_aggregate frozen cs) (fun _ => True) (component_decls G W frozen cs).
Proof.
  unfold component_part, frozen_aggregate. intros O V. induction cs as [|c cs IH]; cbn [component_decls].
  - cbn. split; [intros (? & ? & [] & _)|]. split; [intros [(? & ? & [] & _)|(? & ? & [] & _)]|exact I].
  - eapply verdict_bind; [apply component_verdict; [apply O; left; auto|intros v; apply V; left; auto]| | |].
    + intros xs _. eapply verdict_bind with (b2 := False) (u2 := False); [apply IH; intros; [apply O|apply V]; auto; right; auto|intros ys _; apply verdict_ok; exact I|apply iff_sym; apply or_false_r|apply iff_sym; apply or_false_r].
    + split.
      * intros (c' & u & [<-|I] & E & H); [left; eauto|right; eauto 8].
      * intros [(u & E & H)|(c' & u & I & E & H)]; [exists c, u; cbn; auto|exists c', u; cbn; auto].
    + split.
      * intros [(c' & u & [<-|I] & E & H)|(c' & v & [<-|I] & E & H)]; [left; left; eauto|right; left; eauto 8|left; right; eauto|right; right; eauto 8].
      * intros [[(u & E & H)|(v & E & H)]|[(c' & u & I & E & H)|(c' & v & I & E & H)]]; [left; exists c, u; cbn; auto|right; exists c, v; cbn; auto|left; exists c', u; cbn; auto|right; exists c', v; cbn; auto].
Qed.
Lemma checks_verdict S env cks : (forall o ck, In (o, ck) cks -> good_check G W S ck) -> okD S -> covers S env ->
  mverdict (check_part stuck_at (map snd cks)) (check_part nested_at (map snd cks)) (fun _ => True) (tr_checks G W env cks).
Proof.
  unfold check_part. intros Gk K C. induction cks as [|[own ck] cks IH]; cbn [tr_checks map snd].
  - intros s. cbn. split; [intros (? & [] & _)|]. split; [intros (? & [] & _)|exact I].
  - mq. destruct (Gk own ck (or_introl eq_refl)) as (T & E & _).
    eapply mverdict_bind with (Q1 := fun _ => True).
    + eapply operand with (b' := False) (u' := False); [exact (tr_verdict _ S own env T K C)|exact E| |apply iff_sym; apply or_false_r|apply iff_sym; apply or_false_r].
      intros x. unfold attach_feasability_check, attach_assumption. mq. intros s. cbn. tauto.
    + intros _ _. apply mverdict_quiet; [destruct (ck_sev ck); try q; intros s; eexists; reflexivity|]. intros _. apply IH. intros; eapply Gk; right; eauto.
    + split; [intros (q & [<-|I] & H); [auto|right; eauto]|intros [H|(q & I & H)]; [exists ck; cbn; auto|exists q; cbn; auto]].
    + split; [intros (q & [<-|I] & H); [auto|right; eauto]|intros [H|(q & I & H)]; [exists ck; cbn; auto|exists q; cbn; auto]].
Qed.
Lemma phases_part P cks : check_part P (map snd (in_phases cks)) <-> check_part P (map snd cks).
Proof.
  unfold check_part. assert (Y : forall x, In x (in_phases cks) <-> In x cks).
  { intros x. unfold in_phases. rewrite in_app_iff, !filter_In. destruct (uses_field_access (ck_expr (snd x))); cbn; intuition discriminate. }
  split; intros (ck & I & H); exists ck; (split; [|auto]); apply in_map_iff in I as (x & <- & I); apply in_map; apply Y; auto.
Qed.
Theorem goals_verdict frozen cs cks : (forall c, In c cs -> okt G (c_typ c)) -> (forall c v, In c cs -> frozen (c_name c) = Some v -> vt G W (c_typ c) v) ->
  (forall o ck, In (o, ck) cks -> good_check G W (scope_for cs) ck) ->
  verdict (component_part goal_at cs \/ check_part stuck_at (map snd cks))
    ((component_part quant_at cs \/ frozen_aggregate frozen cs) \/ check_part nested_at (map snd cks)) (fun _ => True) (goals_of G W frozen cs cks).
Proof.
  intros O V Gk. unfold goals_of. eapply verdict_bind; [apply components_verdict; auto| |apply iff_refl|apply iff_refl].
  intros decls _. eapply verdict_bind with (b2 := False) (u2 := False).
  - apply checks_verdict with (S := scope_for cs).
    + intros o ck I. apply (Gk o ck). unfold in_phases in I. rewrite in_app_iff, !filter_In in I. tauto.
    + apply scope_declared; auto.
    + unfold component_env. apply covers_map.
  - intros [u s] _. apply verdict_ok. exact I.
  - rewrite or_false_r. apply iff_sym, phases_part.
  - rewrite or_false_r. apply iff_sym, phases_part.
Qed.

(** ** Record and tuple types *)
Lemma inherited_good r q ck : (r < List.length (recs G))%nat -> clos_refl_trans nat (extends G) r q -> good_check G W (scope_for (all_components G q)) ck ->
  good_check G W (scope_for (all_components G r)) ck.
Proof.
  intros L X (T & E & P). split; [|auto]. eapply ExprMeaningProofs.wt_scope; [|exact T]. intros n [a o] A. apply assoc_scope_for in A as (c & I & <- & <- & <-).
  apply assoc_scope_in; [apply FT|]. eapply components_inherited; eauto. apply FT.
Qed.
Lemma record_checks_in r o ck : (r < List.length (recs G))%nat -> In (o, ck) (record_checks G r) -> exists q, clos_refl_trans nat (extends G) r q /\ In ck (own_checks G q).
Proof.
  pose proof (ft_order _ _ FT) as wf. intros L I. unfold record_checks in I. apply in_app_iff in I as [I|I]; apply in_map_iff in I as (x & [= <- <-] & I); [|exists r; split; [apply rt_refl|auto]].
  unfold inherited_checks in I. destruct (rec G r) as [rt|] eqn:E; [|contradiction]. destruct (r_parent rt) as [p|] eqn:Ep; [|contradiction].
  assert (X : extends G r p) by (exists rt; auto). assert (Lp : (p < List.length (recs G))%nat) by (apply wf in X; lia).
  destruct (lineage_exists G wf p Lp) as (l & Li). rewrite (iter_checks_spec G wf _ _ Li) in I. apply in_flat_map in I as (q & Iq & I). apply (lineage_in G _ _ Li) in Iq.
  exists q. split; auto. eapply rt_trans; [apply rt_step; exact X|auto].
Qed.
Theorem record_verdict r : (r < List.length (recs G))%nat -> (forall q, clos_refl_trans nat (extends G) r q -> good_checks G W q) ->
  (forall c v, In c (all_components G r) -> option_map snd (get_freezing G r (c_name c)) = Some v -> vt G W (c_typ c) v) ->
  verdict (component_part goal_at (all_components G r) \/ check_part stuck_at (map snd (record_checks G r)))
    ((component_part quant_at (all_components G r) \/ frozen_aggregate (fun n => option_map snd (get_freezing G r n)) (all_components G r)) \/ check_part nested_at (map snd (record_checks G r))) (fun _ => True) (record_goals G W r).
Proof.
  intros L Gk V. unfold record_goals. apply goals_verdict; auto.
  - intros c I. eapply (ft_rec_okt _ _ FT); eauto.
  - intros o ck I. destruct (record_checks_in _ _ _ L I) as (q & X & Iq). eapply inherited_good; eauto. apply Gk; auto.
Qed.
Theorem tuple_type_verdict u ut : tup G u = Some ut ->
  verdict (component_part goal_at (u_comps ut) \/ check_part stuck_at (u_checks ut)) (component_part quant_at (u_comps ut) \/ check_part nested_at (u_checks ut)) (fun _ => True) (tuple_goals G W u).
Proof.
  intros E. unfold tuple_goals. rewrite E. eapply verdict_iff; [| |auto|apply goals_verdict].
  - rewrite map_map, map_id. apply iff_refl.
  - rewrite map_map, map_id. split; [intros [[H|(c & v & _ & [=] & _)]|H]; auto|tauto].
  - intros c I. eapply (ft_tup_okt _ _ FT); eauto.
  - intros c v _ [=].
  - intros o ck I. apply in_map_iff in I as (x & [= <- <-] & I). eapply (ft_checks _ _ FT); eauto.
Qed.
End TOTAL.
