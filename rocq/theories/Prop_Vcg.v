(** Property theorems C55 and C56: static verification of checks
    ("trlc --verify"). *)
From Coq Require Import Relations.
From Verif Require Import Base Lexer MathModel Ast Eval TypesProofs Typing Soundness EvalSpec EvalCorrect Checks Prop_Eval SemEval
  Vcg VcgSem VcgOps VcgEnc VcgFun VcgModel VcgChecks VcgMain VcgRun.
From Coq Require Import ZifyBool ZifyNat.
Open Scope Z_scope.


(** *** Example types and objects: [T] has components [a Integer], [r U],
    [o optional Integer], [p optional P] and [xs Integer [0 .. hi]], the tuple
    type [P] has [x Integer] and [y optional Integer], and [U] has
    [n Integer]. *)
Definition vl (n : Z) : loc := Loc 0 (Sref n 1 0 0).
Definition vcomps (hi : option Z) : list component :=
  [Comp (t "a") TInt false (TRec 1); Comp (t "r") (TRec 0) false (TRec 1); Comp (t "o") TInt true (TRec 1);
   Comp (t "p") (TTup 0) true (TRec 1); Comp (t "xs") (TArr 0 0 hi TInt) false (TRec 1)].
Definition vG (tcks : list check) (hi : option Z) (rcks : list check) : types := Types
  [RecType 0 (t "U") None [Comp (t "n") TInt false (TRec 0)] [] false false [];
   RecType 0 (t "T") None (vcomps hi) [] false false rcks]
  [TupType 0 (t "P") [Comp (t "x") TInt false (TTup 0); Comp (t "y") TInt true (TTup 0)] [Sep_colon] tcks] [].
Definition va : expr := EName (vl 1) TInt (t "a") false false.
Definition vo : expr := EName (vl 1) TInt (t "o") false true.
Definition vr : expr := EName (vl 1) (TRec 0) (t "r") false false.
Definition vrn : expr := EField (vl 1) (Comp (t "n") TInt false (TRec 0)) vr false false.
Definition vn (z : Z) : expr := ELit (vl 1) (LInt z).
Definition vb (n : Z) (op : binop) (a b : expr) : expr := EBinary (vl n) (Some TBool) op a b.
Definition vi (n : Z) (op : binop) (a b : expr) : expr := EBinary (vl n) (Some TInt) op a b.
Definition vck (s : severity) (e : expr) : check := Check s e None (vl 9) (t "msg") None.
Definition a_nonzero : check := vck Sev_fatal (vb 10 B_neq va (vn 0)).
Definition use_a : check := vck Sev_error (vb 11 B_geq (vi 12 B_div (vn 10) va) (vn (-100))).
Definition use_o : check := vck Sev_error (vb 13 B_implies (vb 14 B_neq vo (ENull (vl 1))) (vb 15 B_leq (vi 16 B_div vo va) (vn 5))).
Definition use_r : check := vck Sev_error (vb 17 B_leq (vi 18 B_div vrn va) (vn 5)).
Definition same_o : check := vck Sev_warning (vb 19 B_eq vo vo).

Definition vfields (a : Z) (o p : vexpr) (hi : option Z) (xs : list vexpr) : list (text * field) :=
  [(t "a", (1%nat, xint a)); (t "r", (2%nat, XRef ql (Some (TRec 0)) 0 (t "one") (Some 0%nat))); (t "o", (3%nat, o));
   (t "p", (4%nat, p)); (t "xs", (5%nat, XArr ql (TArr 0 0 hi TInt) xs))].
Definition vobj (a : Z) (o p : vexpr) (hi : option Z) (xs : list vexpr) : object := Object 0 (t "two") ql 1 (vfields a o p hi xs).
Definition vW (ob : object) : world := World [Object 0 (t "one") ql 0 [(t "n", (0%nat, xint 1))]; ob] rx.

Ltac vtyped := cbv [a_nonzero use_a use_o use_r same_o vck vn va vo vr vrn vb vi ck_expr]; Prop_Eval.typed.
Ltac vgood := match goal with |- good_check _ _ ?S _ => let S' := eval vm_compute in S in change S with S' end; split; [vtyped|split; [reflexivity|]];
  let H := fresh in intros ? H; cbv [a_nonzero use_a use_o use_r same_o vck vn va vo vr vrn vb vi ck_expr] in H;
  repeat match goal with H : sub _ _ |- _ => inversion H; clear H; subst end; cbn; auto.

Lemma vusable_p tcks hi rcks : usable (vG tcks hi rcks) (TTup 0).
Proof.
  exists (VRec [(t "x", (VInt 0, None)); (t "y", (VInt 0, Some true))]). eapply so_tup; [reflexivity|]. repeat constructor; cbn; intuition congruence.
Qed.
Ltac vokt := cbn; repeat split; first [apply vusable_p|exists (VInt 0); constructor|exists (VSeq []); repeat constructor].
Lemma vp_typed tcks hi rcks W x y : (exists z, y = xint z) \/ (exists l, y = XNull l) -> vt (vG tcks hi rcks) W (TTup 0) (XTup ql 0 [(t "x", xint x); (t "y", y)]).
Proof.
  intros Y. eapply vt_tup; [reflexivity|]. apply (tf_value _ _ (Comp (t "x") TInt false (TTup 0))); [apply (vt_lit _ _ _ (LInt x))|].
  destruct Y as [[z ->]|[l ->]].
  - apply (tf_value _ _ (Comp (t "y") TInt true (TTup 0))); [apply (vt_lit _ _ _ (LInt z))|constructor].
  - apply (tf_null _ _ (Comp (t "y") TInt true (TTup 0))); [auto|constructor].
Qed.
Lemma v_order tcks hi rcks : wf_types (vG tcks hi rcks).
Proof. intros r p (rt & E & P). destruct r as [|[|r]]; cbn in E; [..|destruct r; discriminate]; injection E as <-; discriminate. Qed.
Lemma v_fit_types tcks hi rcks W : (forall ck, In ck tcks -> good_check (vG tcks hi rcks) W (scope_for [Comp (t "x") TInt false (TTup 0); Comp (t "y") TInt true (TTup 0)]) ck) ->
  fit_types (vG tcks hi rcks) W.
Proof.
  intros Gt. constructor.
  - apply v_order.
  - intros [|[|r]]; try (apply distinct_nodup; reflexivity). unfold all_components, all_components_steps, rec. destruct r; cbn; constructor.
  - intros [|u] ut E; cbn in E; [injection E as <-; apply distinct_nodup; reflexivity|destruct u; discriminate].
  - intros [|[|r]] c I; [| |unfold all_components, all_components_steps, rec in I; destruct r; contradiction].
    + destruct I as [<-|[]]. vokt.
    + destruct I as [<-|[<-|[<-|[<-|[<-|[]]]]]]; vokt.
  - intros [|u] ut c E I; cbn in E; [injection E as <-|destruct u; discriminate]. destruct I as [<-|[<-|[]]]; vokt.
  - intros [|u] ut E; cbn in E; [injection E as <-|destruct u; discriminate]. intros [|c0 [|c1 [|c2 pre]]] c post E Oc c' I'; injection E as <-; cbn in *; subst; try discriminate; try contradiction.
  - intros [|u] ut ck E I; cbn in E; [injection E as <-|destruct u; discriminate]. auto.
Qed.
Lemma v_objects tcks hi rcks a o p xs : fits (vG tcks hi rcks) (vW (vobj a o p hi xs)) TInt true o -> fits (vG tcks hi rcks) (vW (vobj a o p hi xs)) (TTup 0) true p ->
  (forall v, In v xs -> exists z, v = xint z) -> wt_world (vG tcks hi rcks) (vW (vobj a o p hi xs)).
Proof.
  intros Fo Fp Fx [|[|i]] ob E; cbn in E; [..|destruct i; discriminate]; injection E as <-.
  - object.
  - split; [cbn; lia|split; [|split]].
    + intros c [<-|[<-|[<-|[<-|[<-|[]]]]]]; do 2 eexists; (split; [vm_compute; reflexivity|]); auto.
      * left. apply (vt_lit _ _ _ (LInt a)).
      * left. eapply vt_rec; [reflexivity|apply rt_refl].
      * left. apply vt_arr. intros v I. destruct (Fx v I) as [z ->]. apply (vt_lit _ _ _ (LInt z)).
    + intros k f H. apply Prop_Eval.assoc_in in H. change (map fst (o_fields (vobj a o p hi xs))) with (map c_name (vcomps hi)) in H.
      apply in_map_iff in H as (c & <- & I). exists c. auto.
    + apply distinct_nodup. reflexivity.
Qed.
Lemma v_apart a o p hi xs : distinct_objects (vW (vobj a o p hi xs)).
Proof.
  intros [|[|i]] [|[|j]] ob ob' E E' H; cbn in E, E'; try (destruct i; discriminate); try (destruct j; discriminate); auto;
    injection E as <-; injection E' as <-; specialize (H (t "n")); vm_compute in H; discriminate.
Qed.
(** The stored values are legal, if those of [o], [p] and [xs] are. *)
Lemma v_legal tcks hi rcks a o p xs : (forall s, sval_of o = Some s -> exists z, s = SInt z) ->
  (forall s, sval_of p = Some s -> exists x y, s = STup [(t "x", Some (SInt x)); (t "y", y)] /\ forall s', y = Some s' -> exists z, s' = SInt z) ->
  (forall v, In v xs -> exists z, v = xint z) -> (forall h, hi = Some h -> Z.of_nat (List.length xs) <= h) ->
  legal_world (vG tcks hi rcks) (vW (vobj a o p hi xs)).
Proof.
  intros Fo Fp Fx Fl [|[|i]] ob c id v s E I A Es; cbn in E; [..|destruct i; discriminate]; injection E as <-.
  - destruct I as [<-|[]]. vm_compute in A. injection A as <- <-. injection Es as <-. constructor.
  - destruct I as [<-|[<-|[<-|[<-|[<-|[]]]]]]; cbn in A; injection A as <- <-; cbn [c_typ].
    + injection Es as <-. constructor.
    + injection Es as <-. eapply st_rec; [reflexivity|apply rt_refl].
    + destruct (Fo _ Es) as [z ->]. constructor.
    + destruct (Fp _ Es) as (x & y & -> & Hy). eapply VcgEnc.st_tup; [reflexivity|]. constructor; [|constructor; [|constructor]]; cbn; (split; [reflexivity|split]); intros; try discriminate; try reflexivity.
      * match goal with H : Some _ = Some _ |- _ => injection H as <- end. constructor.
      * destruct (Hy _ H) as [z ->]. constructor.
    + injection Es as <-. constructor.
      * apply Forall_forall. intros s I. apply in_map_iff in I as (v & <- & I). destruct (Fx v I) as [z ->]. constructor.
      * lia.
      * intros h Eh. rewrite map_length. auto.
Qed.

Lemma vp_null tcks hi rcks W : (forall ck : check, ~ In ck tcks) ->
  exists l vs, vt (vG tcks hi rcks) W (TTup 0) (XTup l 0 vs) /\ (forall s, sval_of (XTup l 0 vs) = Some s -> st (vG tcks hi rcks) W true (TTup 0) s) /\ legal_tuple (vG tcks hi rcks) W 0 vs.
Proof.
  intros Nc. exists ql, [(t "x", xint 1); (t "y", XNull ql)]. split; [apply vp_typed; right; eauto|]. split.
  - intros s [= <-]. eapply VcgEnc.st_tup; [reflexivity|]. constructor; [|constructor; [|constructor]]; cbn; (split; [reflexivity|split]); intros; try discriminate; try reflexivity.
    injection H as <-. constructor.
  - split.
    + intros [|a [|b pre]] k v post E N k' v' I'; cbn in E; try discriminate; [injection E as <- <- <-; discriminate|injection E as <- <- <- <-; contradiction|]. destruct pre; discriminate.
    + intros ut ck E I. injection E as <-. exfalso. exact (Nc _ I).
Qed.
(** The report for the record type: the solver is only right about the goals
    it is given, and nothing but superfluous checks is reported. *)
Definition passes (G : types) (W : world) (solve : vc -> status) (q : nat) : Prop :=
  exists vcs, record_goals G W q = Ok vcs /\
    (forall v, In v vcs -> solve v = Unsat -> vc_valid G (all_components G q) v) /\
    (forall f, In f (report solve vcs) -> expect_unsat f = false).
Lemma passes_verified G W solve q : passes G W solve q -> exists vcs, verified G W q vcs.
Proof.
  intros (vcs & E & So & R). exists vcs. split; auto. intros v I X. apply So; auto. eapply clean_report; eauto.
Qed.
Lemma legal_scope G W ob : (o_typ ob < List.length (recs G))%nat -> legal_record G W (fields_of ob) (o_typ ob) ->
  scope_ok G W (scope_for (all_components G (o_typ ob))) (fields_of ob).
Proof.
  intros _ L n a o A. apply assoc_scope_for in A as (c & I & <- & <- & <-). destruct (L (o_typ ob) (rt_refl _ _ _) c I) as (v & Av & V). exists v. split; auto. eapply fv_fits; eauto.
Qed.

(** Verified checks do not fail on objects: if nothing is reported for the
    type of an object and the types it extends, then performing the checks of
    the type on the object reports no evaluation error, provided that either
    no check follows references or all fatal checks hold. *)
Theorem C55_no_evaluation_error :
  forall G W ob solve, let r := o_typ ob in
    fit_world G W -> (r < List.length (recs G))%nat -> legal_record G W (fields_of ob) r ->
    (forall q, clos_refl_trans nat (extends G) r q -> good_checks G W q /\ passes G W (solve q) q) ->
    (forall ck, In ck (iter_checks G r) -> uses_field_access (ck_expr ck) = false) \/
    (forall ck, In ck (iter_checks G r) -> ck_sev ck = Sev_fatal -> sem W (fields_of ob) (ck_expr ck) (Some (SBool true))) ->
    forall l ok, no_system (perform_list W (iter_checks G r) l (fields_of ob) ok).
Proof.
  intros G W ob solve r FW L Lr Vq Or l ok.
  assert (Vf : forall q, clos_refl_trans nat (extends G) r q -> good_checks G W q /\ exists vcs, verified G W q vcs).
  { intros q X. destruct (Vq q X) as [A B]. split; auto. eapply passes_verified; eauto. }
  apply (list_quiet G W FW (scope_for (all_components G r)) (fields_of ob)); [apply legal_scope; auto| |].
  - apply good_all; auto. intros q X. apply Vf; auto.
  - intros pre ck post E Fp.
    assert (I : In ck (phases (iter_checks G r))) by (apply phases_in; rewrite E; apply in_elt).
    destruct Or as [Nf|Hf].
    + assert (P : phases (iter_checks G r) = iter_checks G r).
      { unfold phases. clear - Nf. induction (iter_checks G r) as [|c cs IH]; auto. cbn. rewrite (Nf c (or_introl eq_refl)). cbn. f_equal. apply IH. intros; apply Nf; right; auto. }
      destruct (record_sound G W FW (fields_of ob) r L Lr Vf pre ck post) as (b & Sb & _); [congruence|auto|]. exists b. apply ssem_sem. auto.
    + apply in_split in I as (a & b & Es). destruct (record_sound G W FW (fields_of ob) r L Lr Vf a ck b Es) as (x & Sx & _).
      * intros c Ic. apply Hf. apply phases_in. rewrite Es. apply in_app_iff. auto.
      * exists x. apply ssem_sem. auto.
Qed.
Print Assumptions C55_no_evaluation_error.

(** *** The example: [T] with checks in this order
<<
   a != 0, fatal
   10 / a >= -100
   o != null implies o / a <= 5
   o == o, warning
>> *)
Definition ex_checks : list check := [a_nonzero; use_a; use_o; same_o].
Definition ex_G : types := vG [] (Some 3) ex_checks.
Definition ex_ob : object := vobj 2 (XNull ql) (XNull ql) (Some 3) [xint 5].
Definition ex_W : world := vW ex_ob.
Lemma by_path cs p a f : (forall M tm, (forall d, In d p -> stmt_holds M tm d) -> ~ sden M tm a (VBool false)) -> forall G, vc_valid G cs (VC p a f).
Proof. intros H G M tm _ P. apply H. apply Forall_forall. exact P. Qed.
Lemma known_ok M tm n : sden M tm (T_cmp C_eq (T_ok n) (T_lit (LBool true))) (VBool true) -> m_ok M n = true.
Proof. cbn. intros (x & y & r & -> & -> & Er & Q). injection Er as <-. destruct Q as [Q _]. specialize (Q eq_refl). congruence. Qed.
Lemma goal_ok n p f cs G : In (D_assert (T_cmp C_eq (T_ok n) (T_lit (LBool true)))) p -> vc_valid G cs (VC p (T_ok n) f).
Proof. intros I. apply by_path. intros M tm H D. apply H, known_ok in I. cbn in D. congruence. Qed.
Lemma goal_known n k p f cs G : In (D_assert (T_tmp k)) p -> In (D_def k (T_not (T_not (T_ok n)))) p -> vc_valid G cs (VC p (T_ok n) f).
Proof.
  intros I J. apply by_path. intros M tm H D. apply H in I, J. cbn in *. destruct J as (b & (c & X & E) & F). assert (c = false) by congruence. subst c. assert (b = true) by (injection E as E; auto). subst b. cbn in F. congruence.
Qed.
Lemma goal_nonzero n k p f cs G : In (D_assert (T_cmp C_eq (T_ok n) (T_lit (LBool true)))) p -> In (D_assert (T_tmp k)) p ->
  In (D_def k (T_not (T_and (T_cmp C_eq (T_ok n) (T_lit (LBool true))) (T_implies (T_ok n) (T_cmp C_eq (T_val n) (T_lit (LInt 0))))))) p ->
  vc_valid G cs (VC p (T_not (T_cmp C_eq (T_val n) (T_lit (LInt 0)))) f).
Proof.
  intros I J K. apply by_path. intros M tm H D. apply H in J, K. apply H in I. pose proof (known_ok M tm n I) as Ok. cbn [stmt_holds] in *. cbn [sden] in *.
  destruct D as (d & (x & y & r & -> & -> & Er & Q) & F). injection F as F. destruct d; [|discriminate]. injection Er as <-. pose proof (proj1 Q eq_refl) as Z.
  destruct K as (b & (b1 & b2 & (x1 & y1 & r1 & -> & -> & E1 & Q1) & (p1 & p2 & P1 & (x2 & y2 & r2 & -> & -> & E2 & Q2) & E3) & Eb) & K). rewrite <- J in K. injection K as K. destruct b; [discriminate|].
  injection E1 as ->. injection E2 as ->. injection E3 as ->. injection P1 as ->. rewrite Ok in *.
  rewrite (proj2 Q1 eq_refl), (proj2 Q2 Z) in Eb. cbn in Eb. discriminate.
Qed.
Ltac goal := first [apply goal_ok; cbn; tauto|eapply goal_known; [cbn; tauto|cbn; tauto]|apply (goal_nonzero _ 0%nat); cbn; tauto].

Definition ex_vcs : list vc := Eval vm_compute in match record_goals ex_G ex_W 1 with Ok v => v | _ => [] end.
Lemma ex_goals : record_goals ex_G ex_W 1 = Ok ex_vcs.
Proof. vm_compute. reflexivity. Qed.
Lemma ex_valid v : In v ex_vcs -> expect_unsat (vc_feedback v) = true -> vc_valid ex_G (all_components ex_G 1) v.
Proof.
  unfold ex_vcs. intros I. repeat (destruct I as [<-|I]; [intros X; try discriminate X; clear X|]); [..|contradiction].
  all: goal.
Qed.


Lemma ex_fit : fit_world ex_G ex_W.
Proof.
  constructor.
  - apply v_fit_types. intros ? [].
  - apply v_objects; [right|right|]; try (split; [auto|eexists; reflexivity]). intros v [<-|[]]. eexists; reflexivity.
  - apply v_apart.
  - apply v_legal; try discriminate.
    + intros v [<-|[]]. eexists; reflexivity.
    + intros h [= <-]. cbn. lia.
Qed.
Lemma ex_up q : clos_refl_trans nat (extends ex_G) 1%nat q -> q = 1%nat.
Proof.
  intros X. apply clos_rt_rt1n in X. inversion X as [|? ? (rt & E & P)]; subst; auto. cbn in E. injection E as <-. discriminate.
Qed.
Lemma ex_legal : legal_record ex_G ex_W (fields_of ex_ob) 1.
Proof.
  intros q X c I. apply ex_up in X. subst q. cbn in I. destruct I as [<-|[<-|[<-|[<-|[<-|[]]]]]]; (eexists; split; [reflexivity|]);
    (constructor; cbn; try discriminate).
  - left. apply (vt_lit _ _ _ (LInt 2)).
  - intros s [= <-]. constructor.
  - left. eapply vt_rec; [reflexivity|apply rt_refl].
  - intros s [= <-]. eapply st_rec; [reflexivity|apply rt_refl].
  - right. eauto.
  - right. eauto.
  - intros u [= <-] _. apply vp_null. intros ? [].
  - left. apply vt_arr. intros v [<-|[]]. apply (vt_lit _ _ _ (LInt 5)).
  - intros s [= <-]. constructor; cbn; [repeat constructor|lia|intros h [= <-]; lia].
Qed.
Lemma ex_good : good_checks ex_G ex_W 1.
Proof. intros ck [<-|[<-|[<-|[<-|[]]]]]; vgood. Qed.

(** A solver that reports the goal of [same_o] as well *)
Definition ex_solve (v : vc) : status := if expect_unsat (vc_feedback v) || (sr_line (l_ref (fb_loc (vc_feedback v))) =? 19) then Unsat else Sat.
Lemma goal_same n k p f cs G : In (D_def k (T_and (T_cmp C_eq (T_ok n) (T_ok n)) (T_implies (T_ok n) (T_cmp C_eq (T_val n) (T_val n))))) p -> vc_valid G cs (VC p (T_tmp k) f).
Proof.
  intros I. apply by_path. intros M tm H D. apply H in I. cbn [stmt_holds sden] in *.
  destruct I as (b1 & b2 & (x1 & y1 & r1 & -> & -> & E1 & Q1) & (p1 & p2 & P1 & (x2 & y2 & r2 & -> & -> & E2 & Q2) & E3) & Eb). rewrite <- D in Eb.
  injection E1 as ->. injection E2 as ->. injection E3 as ->. rewrite (proj2 Q1 eq_refl), (proj2 Q2 eq_refl) in Eb. rewrite orb_true_r in Eb. discriminate.
Qed.
Lemma ex_solved v : In v ex_vcs -> ex_solve v = Unsat -> vc_valid ex_G (all_components ex_G 1) v.
Proof.
  intros I E. unfold ex_solve in E. destruct (expect_unsat (vc_feedback v)) eqn:X; [apply ex_valid; auto|]. cbn [orb] in E.
  destruct (sr_line (l_ref (fb_loc (vc_feedback v))) =? 19) eqn:Y; [|discriminate]. revert X Y. clear E. unfold ex_vcs in I.
  repeat (destruct I as [<-|I]; [intros X Y; try discriminate X; try discriminate Y; eapply goal_same; left; reflexivity|]). contradiction.
Qed.
Lemma ex_passes : passes ex_G ex_W ex_solve 1.
Proof.
  exists ex_vcs. split; [exact ex_goals|]. split; [exact ex_solved|]. intros f I.
  assert (E : report ex_solve ex_vcs = [Feedback 8 (vl 19) K_always_true]) by (vm_compute; reflexivity). rewrite E in I. destruct I as [<-|[]]. reflexivity.
Qed.
Lemma ex_all q : clos_refl_trans nat (extends ex_G) (o_typ ex_ob) q -> good_checks ex_G ex_W q /\ passes ex_G ex_W ex_solve q.
Proof. intros X. apply ex_up in X. subst. split; [exact ex_good|exact ex_passes]. Qed.
Example C55_ex : no_system (perform_list ex_W (iter_checks ex_G 1) ql (fields_of ex_ob) true) /\
  perform_list ex_W (iter_checks ex_G 1) ql (fields_of ex_ob) true = ([], Returned true).
Proof.
  split; [|vm_compute; reflexivity]. apply (C55_no_evaluation_error ex_G ex_W ex_ob (fun _ => ex_solve)); [exact ex_fit|cbn; lia|exact ex_legal|exact ex_all|].
  left. intros ck [<-|[<-|[<-|[<-|[]]]]]; reflexivity.
Qed.

(** In general each check gives true or false if the fatal checks before it
    hold, where those that do not follow references come before the others. *)
Theorem C55_each_check :
  forall G W ob solve, let r := o_typ ob in
    fit_world G W -> (r < List.length (recs G))%nat -> legal_record G W (fields_of ob) r ->
    (forall q, clos_refl_trans nat (extends G) r q -> good_checks G W q /\ passes G W (solve q) q) ->
    forall pre ck post,
      filter (fun c => negb (uses_field_access (ck_expr c))) (iter_checks G r) ++ filter (fun c => uses_field_access (ck_expr c)) (iter_checks G r) = pre ++ ck :: post ->
      (forall c, In c pre -> ck_sev c = Sev_fatal -> yields W (Some (fields_of ob)) (ck_expr c) true) ->
      exists b, yields W (Some (fields_of ob)) (ck_expr ck) b /\ sem W (fields_of ob) (ck_expr ck) (Some (SBool b)).
Proof.
  intros G W ob solve r FW L Lr Vq.
  assert (Vf : forall q, clos_refl_trans nat (extends G) r q -> good_checks G W q /\ exists vcs, verified G W q vcs).
  { intros q X. destruct (Vq q X) as [A B]. split; auto. eapply passes_verified; eauto. }
  assert (Gd : forall ck, In ck (iter_checks G r) -> good_check G W (scope_for (all_components G r)) ck) by (apply good_all; auto; intros q X; apply Vf; auto).
  pose proof (legal_scope G W ob L Lr) as Sc. fold r in Sc.
  intros pre. induction pre as [|c0 pre IH] using rev_ind; intros ck post E Fp.
  - destruct (record_sound G W FW (fields_of ob) r L Lr Vf [] ck post E) as (b & Sb & _); [contradiction|]. apply ssem_sem in Sb. exists b. split; auto.
    destruct (decided G W FW _ _ Sc ck b) as (v & a & Ev & Va); auto; [|exists v, a; auto]. apply Gd. apply phases_in. unfold phases. rewrite E. apply in_elt.
  - assert (Tr : forall c, In c (pre ++ [c0]) -> ck_sev c = Sev_fatal -> sem W (fields_of ob) (ck_expr c) (Some (SBool true))).
    { assert (X : forall a c b, pre ++ [c0] = a ++ c :: b -> ck_sev c = Sev_fatal -> sem W (fields_of ob) (ck_expr c) (Some (SBool true))).
      { induction a as [a IHa] using (induction_ltof1 _ (@List.length check)). unfold ltof in IHa. intros c b Es Fc.
        destruct (record_sound G W FW (fields_of ob) r L Lr Vf a c (b ++ ck :: post)) as (x & Sx & _).
        - unfold phases. rewrite E, Es, <- app_assoc. reflexivity.
        - intros c' I' F'. apply in_split in I' as (a1 & a2 & ->). apply (IHa a1) with (b := a2 ++ c :: b); auto; [rewrite app_length; cbn; lia|rewrite Es, <- app_assoc; reflexivity].
        - apply ssem_sem in Sx. assert (Ic : In c (pre ++ [c0])) by (rewrite Es; apply in_elt).
          destruct (decided G W FW _ _ Sc c x) as (v & a0 & Ev & Va); auto.
          { apply Gd. apply phases_in. unfold phases. rewrite E. apply in_app_iff. auto. }
          destruct (Fp c Ic Fc) as (v' & a' & Ev' & Va'). assert (x = true) by congruence. subst x. exact Sx. }
      intros c I F. apply in_split in I as (a & b & Es). eapply X; eauto. }
    destruct (record_sound G W FW (fields_of ob) r L Lr Vf _ ck post E Tr) as (b & Sb & _). apply ssem_sem in Sb. exists b. split; auto.
    destruct (decided G W FW _ _ Sc ck b) as (v & a & Ev & Va); auto; [|exists v, a; auto]. apply Gd. apply phases_in. unfold phases. rewrite E. apply in_elt.
Qed.
Print Assumptions C55_each_check.


Example C55_each_ex : exists b, yields ex_W (Some (fields_of ex_ob)) (ck_expr use_o) b /\ sem ex_W (fields_of ex_ob) (ck_expr use_o) (Some (SBool b)).
Proof.
  apply (C55_each_check ex_G ex_W ex_ob (fun _ => ex_solve) ex_fit ltac:(cbn; lia) ex_legal ex_all [a_nonzero; use_a] use_o [same_o] eq_refl).
  intros c [<-|[<-|[]]] F; [|discriminate]. do 2 eexists. split; vm_compute; reflexivity.
Qed.

(** *** What the first theorem excludes *)
Definition vp : expr := EName (vl 1) (TTup 0) (t "p") false true.
Definition vpx : expr := EField (vl 1) (Comp (t "x") TInt false (TTup 0)) vp false false.
Definition vx : expr := EName (vl 1) TInt (t "x") false false.
Definition vxs : expr := EName (vl 1) (TArr 0 0 (Some 0) TInt) (t "xs") false false.
Definition x_positive : check := vck Sev_error (vb 20 B_gt vx (vn 0)).
Definition use_p : check := vck Sev_error (vb 21 B_implies (vb 22 B_neq vp (ENull (vl 1))) (vb 23 B_leq (vi 24 B_div (vn 10) vpx) (vn 5))).
Definition never : check := vck Sev_error (ELit (vl 25) (LBool false)).
Definition use_len : check := vck Sev_error (vb 26 B_leq (vi 27 B_div (vn 10) (vi 28 B_minus (EUnary (vl 29) (Some TInt) U_arrlen vxs) (vn 1))) (vn 5)).
Ltac wgood := match goal with |- good_check _ _ ?S _ => let S' := eval vm_compute in S in change S with S' end;
  split; [cbv [x_positive use_p never use_len vp vpx vx vxs a_nonzero use_a use_o use_r same_o vck vn va vo vr vrn vb vi ck_expr]; Prop_Eval.typed|split; [reflexivity|]];
  let H := fresh in intros ? H; cbv [x_positive use_p never use_len vp vpx vx vxs a_nonzero use_a use_o use_r same_o vck vn va vo vr vrn vb vi ck_expr] in H;
  repeat match goal with H : sub _ _ |- _ => inversion H; clear H; subst end; cbn; auto.
Definition all_valid (v : vc) : status := if expect_unsat (vc_feedback v) then Unsat else Sat.
Lemma all_valid_passes G W q vcs : record_goals G W q = Ok vcs -> (forall v, In v vcs -> expect_unsat (vc_feedback v) = true -> vc_valid G (all_components G q) v) ->
  report all_valid vcs = [] -> passes G W all_valid q.
Proof.
  intros E V R. exists vcs. split; auto. split; [|rewrite R; contradiction]. intros v I X. apply V; auto. unfold all_valid in X. destruct (expect_unsat (vc_feedback v)); congruence.
Qed.
Lemma v_up tcks hi rcks q : clos_refl_trans nat (extends (vG tcks hi rcks)) 1%nat q -> q = 1%nat.
Proof.
  intros X. apply clos_rt_rt1n in X. inversion X as [|? ? (rt & E & P)]; subst; auto. cbn in E. injection E as <-. discriminate.
Qed.
Lemma v_passes tcks hi rcks W vcs : (forall ck, In ck rcks -> good_check (vG tcks hi rcks) W (scope_for (vcomps hi)) ck) ->
  record_goals (vG tcks hi rcks) W 1 = Ok vcs -> (forall v, In v vcs -> expect_unsat (vc_feedback v) = true -> vc_valid (vG tcks hi rcks) (vcomps hi) v) ->
  report all_valid vcs = [] ->
  forall q, clos_refl_trans nat (extends (vG tcks hi rcks)) 1%nat q -> good_checks (vG tcks hi rcks) W q /\ passes (vG tcks hi rcks) W all_valid q.
Proof. intros Gc E V R q X. apply v_up in X. subst q. split; [exact Gc|eapply all_valid_passes; eauto]. Qed.
Ltac all_goals := let I := fresh "I" in let X := fresh "X" in intros ? I; repeat (destruct I as [<-|I]; [intros X; try discriminate X; clear X|]); [..|contradiction].

(** Fatal checks without references are taken to protect checks with
    references that come before them, but checks are performed in the order of
    their declaration. *)
Definition order_W : world := vW (vobj 0 (XNull ql) (XNull ql) (Some 3) []).
Theorem C55_order_refuted :
  exists G W ob solve, fit_world G W /\ nth_error (w_objs W) 1 = Some ob /\ legal_record G W (fields_of ob) (o_typ ob) /\
    (forall q, clos_refl_trans nat (extends G) (o_typ ob) q -> good_checks G W q /\ passes G W (solve q) q) /\
    exists l, perform_checks W G ob = ([M_system (l, P_division_by_zero)], Raised).
Proof.
  exists (vG [] (Some 3) [use_r; a_nonzero]), order_W, (vobj 0 (XNull ql) (XNull ql) (Some 3) []), (fun _ => all_valid). split; [|split; [reflexivity|split; [|split]]].
  - constructor.
    + apply v_fit_types. intros ? [].
    + apply v_objects; [right|right|]; try (split; [auto|eexists; reflexivity]). intros v [].
    + apply v_apart.
    + apply v_legal; try discriminate; [intros v []|]. intros h [= <-]. cbn. lia.
  - intros q X c I. apply v_up in X. subst q. cbn in I. destruct I as [<-|[<-|[<-|[<-|[<-|[]]]]]]; (eexists; split; [reflexivity|]);
      (constructor; cbn; try discriminate).
    + left. apply (vt_lit _ _ _ (LInt 0)).
    + intros s [= <-]. constructor.
    + left. eapply vt_rec; [reflexivity|apply rt_refl].
    + intros s [= <-]. eapply st_rec; [reflexivity|apply rt_refl].
    + right. eauto.
    + right. eauto.
    + intros u [= <-] _. apply vp_null. intros ? [].
    + left. apply vt_arr. intros v [].
    + intros s [= <-]. constructor; cbn; [repeat constructor|lia|intros h [= <-]; lia].
  - eapply v_passes; [|vm_compute; reflexivity| |vm_compute; reflexivity].
    + intros ck [<-|[<-|[]]]; wgood.
    + all_goals; goal.
  - eexists. vm_compute. reflexivity.
Qed.
Print Assumptions C55_order_refuted.

(** A tuple value that fails an error check of its type is reported, but the
    checks of the record are performed nevertheless. *)
Lemma goal_positive a p f cs G : In (D_assert (T_cmp C_gt a (T_lit (LInt 0)))) p -> vc_valid G cs (VC p (T_not (T_cmp C_eq a (T_lit (LInt 0)))) f).
Proof.
  intros I. apply by_path. intros M tm H D. apply H in I. cbn [stmt_holds sden] in *.
  destruct D as (d & (x & y & r & Dx & -> & Er & Q) & F). injection F as F. destruct d; [|discriminate]. injection Er as <-. pose proof (proj1 Q eq_refl) as Z. subst x.
  destruct I as (x & y & m & n & r & Dx' & -> & Nx & Ny & Er & Q'). pose proof (sden_fun _ _ _ _ _ Dx Dx'). subst x. cbn in Nx, Ny. injection Nx as <-. injection Ny as <-. injection Er as <-. pose proof (proj1 Q' eq_refl) as Z.
  cbn in Z. unfold Qlt in Z. cbn in Z. lia.
Qed.
Definition bad_p : vexpr := XTup ql 0 [(t "x", xint 0); (t "y", XNull ql)].
Definition tuple_W : world := vW (vobj 0 (XNull ql) bad_p (Some 3) []).
Theorem C55_tuple_error_refuted :
  exists G W ob solve, fit_world G W /\ nth_error (w_objs W) 1 = Some ob /\
    (forall q, clos_refl_trans nat (extends G) (o_typ ob) q -> good_checks G W q /\ passes G W (solve q) q) /\
    (forall ck, In ck (iter_checks G (o_typ ob)) -> uses_field_access (ck_expr ck) = false) /\
    exists l m l', perform_checks W G ob = ([M_error l m None false; M_system (l', P_division_by_zero)], Raised).
Proof.
  exists (vG [x_positive] (Some 3) [use_p]), tuple_W, (vobj 0 (XNull ql) bad_p (Some 3) []), (fun _ => all_valid). split; [|split; [reflexivity|split; [|split]]].
  - constructor.
    + apply v_fit_types. intros ? [<-|[]]. wgood.
    + apply v_objects; [right|left|]; try (split; [auto|eexists; reflexivity]); [|intros v []]. apply vp_typed. right. eauto.
    + apply v_apart.
    + apply v_legal; try discriminate; [|intros v []|intros h [= <-]; cbn; lia]. intros s [= <-]. do 2 eexists. split; [reflexivity|discriminate].
  - eapply v_passes; [|vm_compute; reflexivity| |vm_compute; reflexivity].
    + intros ck [<-|[]]; wgood.
    + all_goals; first [goal|apply goal_positive; cbn; tauto].
  - intros ck [<-|[]]. reflexivity.
  - do 3 eexists. vm_compute. reflexivity.
Qed.
Print Assumptions C55_tuple_error_refuted.

(** The checks of a tuple type are taken to hold for optional components that
    are null.  If they never hold then nothing at all is verified. *)
Lemma goal_vacuous a p f cs G : In (D_assert (T_lit (LBool false))) p -> vc_valid G cs (VC p a f).
Proof. intros I. apply by_path. intros M tm H D. apply H in I. discriminate. Qed.
Theorem C55_vacuous_refuted :
  exists G W ob solve, fit_world G W /\ nth_error (w_objs W) 1 = Some ob /\
    (forall q, clos_refl_trans nat (extends G) (o_typ ob) q -> good_checks G W q /\ passes G W (solve q) q) /\
    (forall ck, In ck (iter_checks G (o_typ ob)) -> uses_field_access (ck_expr ck) = false) /\
    assoc (t "p") (fields_of ob) = Some (XNull ql) /\
    exists l, perform_checks W G ob = ([M_system (l, P_division_by_zero)], Raised).
Proof.
  exists (vG [never] (Some 3) [use_a]), order_W, (vobj 0 (XNull ql) (XNull ql) (Some 3) []), (fun _ => all_valid). split; [|split; [reflexivity|split; [|split; [|split; [reflexivity|]]]]].
  - constructor.
    + apply v_fit_types. intros ? [<-|[]]. wgood.
    + apply v_objects; [right|right|]; try (split; [auto|eexists; reflexivity]). intros v [].
    + apply v_apart.
    + apply v_legal; try discriminate; [intros v []|]. intros h [= <-]. cbn. lia.
  - eapply v_passes; [|vm_compute; reflexivity| |vm_compute; reflexivity].
    + intros ck [<-|[]]; wgood.
    + all_goals; apply goal_vacuous; cbn; tauto.
  - intros ck [<-|[]]. reflexivity.
  - eexists. vm_compute. reflexivity.
Qed.
Print Assumptions C55_vacuous_refuted.

(** An upper bound of 0 for the length of an array is relied on, but it is not
    enforced (C29_zero). *)
Lemma goal_length n k j p f cs G : In (D_assert (T_cmp C_leq (T_seqlen (T_val n)) (T_lit (LInt 0)))) p -> In (D_def k (T_seqlen (T_val n))) p ->
  In (D_def j (T_num2 false N_sub (T_tmp k) (T_lit (LInt 1)))) p -> vc_valid G cs (VC p (T_not (T_cmp C_eq (T_tmp j) (T_lit (LInt 0)))) f).
Proof.
  intros I J K. apply by_path. intros M tm H D. apply H in I, J, K. cbn [stmt_holds sden] in *.
  destruct D as (d & (x & y & r & -> & -> & Er & Q) & F). injection F as F. destruct d; [|discriminate]. injection Er as <-. pose proof (proj1 Q eq_refl) as Z.
  destruct I as (x & y & a & b & r & (xs & Ex & ->) & -> & Nx & Ny & Er & Q'). cbn in Nx, Ny. injection Nx as <-. injection Ny as <-. injection Er as <-. pose proof (proj1 Q' eq_refl) as L.
  destruct J as (ys & Ey & Ek). assert (ys = xs) by congruence. subst ys. destruct K as (u & v & w & Eu & Ev & Ew & Ej). cbn in Ew, Ev. injection Ev as ->. injection Ew as <-.
  rewrite Z in Ej. injection Ej as Ej. rewrite Ek in Eu. injection Eu as ->. cbn in L. unfold Qle in L. cbn in L. lia.
Qed.
Definition zero_W : world := vW (vobj 0 (XNull ql) (XNull ql) (Some 0) [xint 5]).
Theorem C55_zero_bound_refuted :
  exists G W ob solve, fit_types G W /\ wt_world G W /\ distinct_objects W /\ nth_error (w_objs W) 1 = Some ob /\
    (forall q, clos_refl_trans nat (extends G) (o_typ ob) q -> good_checks G W q /\ passes G W (solve q) q) /\
    (forall ck, In ck (iter_checks G (o_typ ob)) -> uses_field_access (ck_expr ck) = false) /\
    assoc (t "xs") (fields_of ob) = Some (XArr ql (TArr 0 0 (Some 0) TInt) [xint 5]) /\
    exists l, perform_checks W G ob = ([M_system (l, P_division_by_zero)], Raised).
Proof.
  exists (vG [] (Some 0) [use_len]), zero_W, (vobj 0 (XNull ql) (XNull ql) (Some 0) [xint 5]), (fun _ => all_valid). split; [|split; [|split; [|split; [reflexivity|split; [|split; [|split; [reflexivity|]]]]]]].
  - apply v_fit_types. intros ? [].
  - apply v_objects; [right|right|]; try (split; [auto|eexists; reflexivity]). intros v [<-|[]]. eexists; reflexivity.
  - apply v_apart.
  - eapply v_passes; [|vm_compute; reflexivity| |vm_compute; reflexivity].
    + intros ck [<-|[]]; wgood.
    + all_goals; first [goal|apply (goal_length (t "xs") 0%nat 1%nat); cbn; tauto].
  - intros ck [<-|[]]. reflexivity.
  - eexists. vm_compute. reflexivity.
Qed.
Print Assumptions C55_zero_bound_refuted.

(** The same for the values of tuple types. *)
Theorem C55_tuple :
  forall G W solve u ut vs vcs,
    fit_world G W -> tup G u = Some ut ->
    (forall c, In c (u_comps ut) -> exists v, assoc (c_name c) vs = Some v /\ fit_value G W None c v) ->
    tuple_goals G W u = Ok vcs ->
    (forall v, In v vcs -> solve v = Unsat -> vc_valid G (u_comps ut) v) ->
    (forall f, In f (report solve vcs) -> expect_unsat f = false) ->
    (forall ck, In ck (u_checks ut) -> uses_field_access (ck_expr ck) = false) \/
    (forall ck, In ck (u_checks ut) -> ck_sev ck = Sev_fatal -> sem W vs (ck_expr ck) (Some (SBool true))) ->
    forall l ok, no_system (perform_list W (u_checks ut) l vs ok).
Proof.
  intros G W solve u ut vs vcs FW Eu Fv Eg So R Or l ok. pose proof (fw_types _ _ FW) as FT.
  assert (Vv : forall v, In v vcs -> expect_unsat (vc_feedback v) = true -> vc_valid G (u_comps ut) v) by (intros v I X; apply So; auto; eapply clean_report; eauto).
  apply (list_quiet G W FW (scope_for (u_comps ut)) vs).
  - intros n a o A. apply assoc_scope_for in A as (c & I & <- & <- & <-). destruct (Fv c I) as (v & Av & V). exists v. split; auto. eapply fv_fits; eauto.
  - intros ck I. eapply (ft_checks _ _ FT); eauto.
  - intros pre ck post E Fp. assert (I : In ck (phases (u_checks ut))) by (apply phases_in; rewrite E; apply in_elt). destruct Or as [Nf|Hf].
    + assert (P : phases (u_checks ut) = u_checks ut).
      { unfold phases. clear - Nf. induction (u_checks ut) as [|c cs IH]; auto. cbn. rewrite (Nf c (or_introl eq_refl)). cbn. f_equal. apply IH. intros; apply Nf; right; auto. }
      destruct (tuple_sound G W FW u ut vs vcs Eu Fv Eg Vv pre ck post) as (b & Sb & _); [congruence|auto|]. exists b. apply ssem_sem. auto.
    + apply in_split in I as (a & b & Es). destruct (tuple_sound G W FW u ut vs vcs Eu Fv Eg Vv a ck b Es) as (x & Sx & _).
      * intros c Ic. apply Hf. apply phases_in. rewrite Es. apply in_app_iff. auto.
      * exists x. apply ssem_sem. auto.
Qed.
Print Assumptions C55_tuple.


(** [10 / x > 0] protected by [x != 0] in a tuple type *)
Definition tx : expr := EName (vl 1) TInt (t "x") false false.
Definition x_nonzero : check := vck Sev_fatal (vb 30 B_neq tx (vn 0)).
Definition use_x : check := vck Sev_error (vb 31 B_gt (vi 32 B_div (vn 10) tx) (vn 0)).
Definition tex_G : types := vG [x_nonzero; use_x] (Some 3) [].
Definition tex_W : world := vW (vobj 2 (XNull ql) (XNull ql) (Some 3) [xint 5]).
Definition tex_vcs : list vc := Eval vm_compute in match tuple_goals tex_G tex_W 0 with Ok v => v | _ => [] end.
Definition tex_solve (v : vc) : status := if expect_unsat (vc_feedback v) then Unsat else Sat.
Ltac tgood := match goal with |- good_check _ _ ?S _ => let S' := eval vm_compute in S in change S with S' end;
  split; [cbv [x_nonzero use_x tx vck vn vb vi ck_expr]; Prop_Eval.typed|split; [reflexivity|]];
  let H := fresh in intros ? H; cbv [x_nonzero use_x tx vck vn vb vi ck_expr] in H;
  repeat match goal with H : sub _ _ |- _ => inversion H; clear H; subst end; cbn; auto.
Lemma tex_fit : fit_world tex_G tex_W.
Proof.
  constructor.
  - apply v_fit_types. intros ck [<-|[<-|[]]]; tgood.
  - apply v_objects; [right|right|]; try (split; [auto|eexists; reflexivity]). intros v [<-|[]]. eexists; reflexivity.
  - apply v_apart.
  - apply v_legal; try discriminate; [intros v [<-|[]]; eexists; reflexivity|intros h [= <-]; cbn; lia].
Qed.
Example C55_tuple_ex : no_system (perform_list tex_W [x_nonzero; use_x] ql [(t "x", xint 7); (t "y", XNull ql)] true).
Proof.
  apply (C55_tuple tex_G tex_W tex_solve 0 (TupType 0 (t "P") [Comp (t "x") TInt false (TTup 0); Comp (t "y") TInt true (TTup 0)] [Sep_colon] [x_nonzero; use_x]) _ tex_vcs tex_fit eq_refl).
  - intros c [<-|[<-|[]]]; (eexists; split; [reflexivity|]); (constructor; cbn; try discriminate).
    + left. apply (vt_lit _ _ _ (LInt 7)).
    + intros s [= <-]. constructor.
    + right. eauto.
  - vm_compute. reflexivity.
  - intros v I E. unfold tex_solve in E. destruct (expect_unsat (vc_feedback v)) eqn:X; [|discriminate]. revert X. clear E. unfold tex_vcs in I.
    repeat (destruct I as [<-|I]; [intros X; try discriminate X; clear X|]); [..|contradiction]; goal.
  - assert (E : report tex_solve tex_vcs = []) by (vm_compute; reflexivity). rewrite E. contradiction.
  - left. intros ck [<-|[<-|[]]]; reflexivity.
Qed.

(** Both together: all checks of an object. *)
Inductive tuple_in : ty -> vexpr -> nat -> list (text * vexpr) -> Prop :=
| ti_here u l u' vs : tuple_in (TTup u) (XTup l u' vs) u vs
| ti_element i lo hi el l a xs x u vs : In x xs -> tuple_in el x u vs -> tuple_in (TArr i lo hi el) (XArr l a xs) u vs.
Lemma type_checks_quiet G W a : forall v, (forall u ut vs, tuple_in a v u vs -> tup G u = Some ut -> forall l ok, no_system (perform_list W (u_checks ut) l vs ok)) ->
  no_system (perform_type_checks W G a v).
Proof.
  induction a as [| | | | |e|u|r|i ms|i lo hi el IH]; intros v H; cbn [perform_type_checks]; try (intros e0 []; fail).
  - destruct v; try (intros e0 []; fail). destruct (tup G u) as [ut|] eqn:E; [|intros e0 []]. eapply H; eauto. constructor.
  - destruct v; try (intros e0 []; fail).
    assert (X : forall x, In x vs -> no_system (perform_type_checks W G el x)).
    { intros x I. apply IH. intros u ut ws T E. eapply H; eauto. econstructor; eauto. }
    clear H. induction vs as [|x xs IHx]; [intros e0 []|]. apply no_system_seq; [apply X; left; auto|]. intros [] _; [|intros e0 []]. apply IHx. intros; apply X; right; auto.
Qed.
Theorem C55_object :
  forall G W ob solve tsolve, let r := o_typ ob in
    fit_world G W -> (r < List.length (recs G))%nat -> legal_record G W (fields_of ob) r ->
    (forall q, clos_refl_trans nat (extends G) r q -> good_checks G W q /\ passes G W (solve q) q) ->
    (forall ck, In ck (iter_checks G r) -> uses_field_access (ck_expr ck) = false) \/
    (forall ck, In ck (iter_checks G r) -> ck_sev ck = Sev_fatal -> sem W (fields_of ob) (ck_expr ck) (Some (SBool true))) ->
    (forall c v u ut vs, In c (all_components G r) -> assoc (c_name c) (fields_of ob) = Some v -> tuple_in (c_typ c) v u vs -> tup G u = Some ut ->
       (forall c, In c (u_comps ut) -> exists v, assoc (c_name c) vs = Some v /\ fit_value G W None c v) /\
       (exists vcs, tuple_goals G W u = Ok vcs /\ (forall v, In v vcs -> tsolve u v = Unsat -> vc_valid G (u_comps ut) v) /\
          (forall f, In f (report (tsolve u) vcs) -> expect_unsat f = false)) /\
       ((forall ck, In ck (u_checks ut) -> uses_field_access (ck_expr ck) = false) \/
        (forall ck, In ck (u_checks ut) -> ck_sev ck = Sev_fatal -> sem W vs (ck_expr ck) (Some (SBool true))))) ->
    no_system (perform_checks W G ob).
Proof.
  intros G W ob solve tsolve r FW L Lr Vq Or Tq. unfold perform_checks. apply no_system_seq.
  - fold r. generalize true. revert Tq. clear - FW. generalize (all_components G r). intros cs Tq. induction cs as [|c cs IH]; intros ok; cbn [component_checks]; [intros e []|].
    destruct (assoc (c_name c) (fields_of ob)) as [v|] eqn:A; [|intros e []]. apply no_system_seq.
    + apply type_checks_quiet. intros u ut vs T E l ok'. destruct (Tq c v u ut vs (or_introl eq_refl) A T E) as (Fv & (vcs & Eg & So & R) & Or).
      exact (C55_tuple G W (tsolve u) u ut vs vcs FW E Fv Eg So R Or l ok').
    + intros b _. apply IH. intros; eapply Tq; eauto. right. auto.
  - intros ok _. apply (C55_no_evaluation_error G W ob solve FW L Lr Vq Or).
Qed.
Print Assumptions C55_object.
Example C55_object_ex : no_system (perform_checks ex_W ex_G ex_ob).
Proof.
  apply (C55_object ex_G ex_W ex_ob (fun _ => ex_solve) (fun _ _ => Sat)); [exact ex_fit|cbn; lia|exact ex_legal|exact ex_all| |].
  - left. intros ck [<-|[<-|[<-|[<-|[]]]]]; reflexivity.
  - intros c v u ut vs [<-|[<-|[<-|[<-|[<-|[]]]]]] A T; cbn in A; injection A as <-; inversion T; subst.
    match goal with H : In _ _ |- _ => destruct H as [<-|[]] end. match goal with H : tuple_in TInt _ _ _ |- _ => inversion H end.
Qed.

(** A check reported as always true holds for every object, if nothing else is
    reported and the fatal checks before it hold. *)
Theorem C56_always_true :
  forall G W ob solve vcs, let r := o_typ ob in
    fit_world G W -> (r < List.length (recs G))%nat -> legal_record G W (fields_of ob) r ->
    (forall q, clos_refl_trans nat (extends G) r q -> good_checks G W q /\ passes G W (solve q) q) ->
    record_goals G W r = Ok vcs -> (forall v, In v vcs -> solve r v = Unsat -> vc_valid G (all_components G r) v) ->
    forall pre ck post, phases (iter_checks G r) = pre ++ ck :: post ->
      In ck (own_checks G r) -> ~ In ck (inherited_checks G r) ->
      (forall c, In c pre -> ck_sev c = Sev_fatal -> sem W (fields_of ob) (ck_expr c) (Some (SBool true))) ->
      (forall v, In v vcs -> fb_kind (vc_feedback v) = K_always_true -> fb_loc (vc_feedback v) = e_loc (ck_expr ck) ->
         In (vc_feedback v) (report (solve r) vcs)) ->
      yields W (Some (fields_of ob)) (ck_expr ck) true.
Proof.
  intros G W ob solve vcs r FW L Lr Vq Eg So pre ck post Ep Io Ni Fp Rp.
  assert (Vf : forall q, clos_refl_trans nat (extends G) r q -> good_checks G W q /\ exists vcs, verified G W q vcs).
  { intros q X. destruct (Vq q X) as [A B]. split; auto. eapply passes_verified; eauto. }
  assert (Vr : verified G W r vcs).
  { split; auto. intros v I X. apply So; auto. destruct (Vq r (rt_refl _ _ _)) as [_ (vcs' & E' & _ & R')]. assert (vcs' = vcs) by congruence. subst. eapply clean_report; eauto. }
  destruct (record_sound G W FW (fields_of ob) r L Lr Vf pre ck post Ep Fp) as (b & Sb & K). destruct (K vcs Vr Io Ni) as (p & x & n & Iv & Vb).
  assert (b = true). { apply Vb. apply So; auto. eapply reported_always; [exact (Rp _ Iv eq_refl eq_refl)|reflexivity|exact Iv|reflexivity|reflexivity]. }
  subst b. apply ssem_sem in Sb. destruct (decided G W FW _ _ (legal_scope G W ob L Lr) ck true) as (v & a & Ev & Va); auto; [|exists v, a; auto].
  apply good_all; auto; [intros q X; apply Vf; auto|]. apply phases_in. unfold r in Ep. rewrite Ep. apply in_elt.
Qed.
Print Assumptions C56_always_true.

Example C56_ex : yields ex_W (Some (fields_of ex_ob)) (ck_expr same_o) true.
Proof.
  apply (C56_always_true ex_G ex_W ex_ob (fun _ => ex_solve) ex_vcs ex_fit ltac:(cbn; lia) ex_legal ex_all ex_goals ex_solved [a_nonzero; use_a; use_o] same_o [] eq_refl).
  - cbn. tauto.
  - intros [].
  - intros c [<-|[<-|[<-|[]]]] F; try discriminate.
    destruct (C55_each_check ex_G ex_W ex_ob (fun _ => ex_solve) ex_fit ltac:(cbn; lia) ex_legal ex_all [] a_nonzero [use_a; use_o; same_o] eq_refl) as (b & (v & a & Ev & Va) & Sb); [contradiction|].
    assert (b = true); [|subst; exact Sb]. assert (X : evaluate ex_W (Some (fields_of ex_ob)) (ck_expr a_nonzero) = Ok (Val (vl 10) (Some (PBool true, TBool)))) by (vm_compute; reflexivity).
    rewrite X in Ev. injection Ev as <-. cbn in Va. congruence.
  - intros v I K Lc. assert (E : report ex_solve ex_vcs = [Feedback 8 (vl 19) K_always_true]) by (vm_compute; reflexivity). rewrite E. unfold ex_vcs in I.
    repeat (destruct I as [<-|I]; [try discriminate K; try discriminate Lc; left; reflexivity|]). contradiction.
Qed.

(** ** Exceptions *)

(** Ranges, one_of, division, remainder and indexing inside of quantifiers end
    in an AssertionError. *)
Definition each_small : check :=
  vck Sev_error (EQuant (vl 33) true (t "i") (vl 34) (Comp (t "xs") (TArr 0 0 (Some 3) TInt) false (TRec 1))
    (ERange (vl 35) (EName (vl 36) TInt (t "i") true false) (vn 0) (vn 9))).
Theorem C57_crash_refuted :
  exists G W r, fit_world G W /\ good_checks G W r /\ record_goals G W r = Crash.
Proof.
  exists (vG [] (Some 3) [each_small]), order_W, 1%nat. split; [|split].
  - constructor.
    + apply v_fit_types. intros ? [].
    + apply v_objects; [right|right|]; try (split; [auto|eexists; reflexivity]). intros v [].
    + apply v_apart.
    + apply v_legal; try discriminate; [intros v []|]. intros h [= <-]. cbn. lia.
  - intros ck [<-|[]]. match goal with |- good_check _ _ ?S _ => let S' := eval vm_compute in S in change S with S' end.
    split; [cbv [each_small vck vn ck_expr]; Prop_Eval.typed|split; [reflexivity|]].
    intros x H. cbv [each_small vck vn ck_expr] in H. repeat match goal with H : sub _ _ |- _ => inversion H; clear H; subst end; cbn; auto.
  - vm_compute. reflexivity.
Qed.
Print Assumptions C57_crash_refuted.
(** The same for a check of a tuple type, in every record type with a component
    of that type; the tuple type itself is verified. *)
Definition x_range : check := vck Sev_error (ERange (vl 37) (EName (vl 38) TInt (t "x") false false) (vn 0) (vn 9)).
Theorem C57_tuple_crash_refuted :
  exists G W r u vcs, fit_world G W /\ good_checks G W r /\ record_goals G W r = Crash /\ tuple_goals G W u = Ok vcs /\
    exists c, In c (all_components G r) /\ c_typ c = TTup u.
Proof.
  exists (vG [x_range] (Some 3) []), order_W, 1%nat, 0%nat. eexists. split; [|split; [|split; [|split]]].
  - constructor.
    + apply v_fit_types. intros ck [<-|[]]. match goal with |- good_check _ _ ?S _ => let S' := eval vm_compute in S in change S with S' end.
      split; [cbv [x_range vck vn ck_expr]; Prop_Eval.typed|split; [reflexivity|]].
      intros x H. cbv [x_range vck vn ck_expr] in H. repeat match goal with H : sub _ _ |- _ => inversion H; clear H; subst end; cbn; auto.
    + apply v_objects; [right|right|]; try (split; [auto|eexists; reflexivity]). intros v [].
    + apply v_apart.
    + apply v_legal; try discriminate; [intros v []|]. intros h [= <-]. cbn. lia.
  - intros ck [].
  - vm_compute. reflexivity.
  - vm_compute. reflexivity.
  - eexists. split; [do 3 right; left; reflexivity|reflexivity].
Qed.
Print Assumptions C57_tuple_crash_refuted.
