(** Property theorems C57: for which types the construction of verification
    conditions succeeds. *)
From Coq Require Import Relations.
From Verif Require Import Base Lexer MathModel Ast Eval TypesProofs Typing Soundness EvalSpec EvalCorrect Checks Prop_Eval SemEval
  Vcg VcgSem VcgOps VcgEnc VcgFun VcgModel VcgChecks VcgMain VcgRun VcgTotal Prop_Vcg.
From Coq Require Import ZifyBool ZifyNat.
Open Scope Z_scope.

(** Tuple types are declared before they are used. *)
Definition tuples_in_order (G : types) : Prop :=
  forall u ut c w, tup G u = Some ut -> In c (u_comps ut) -> c_typ c = TTup w -> (w < u)%nat.
(** The frozen values of a type fit their components. *)
Definition frozen_typed (G : types) (W : world) (r : nat) : Prop :=
  forall c v, In c (all_components G r) -> option_map snd (get_freezing G r (c_name c)) = Some v -> vt G W (c_typ c) v.

(** Reasons for an internal error: a goal inside of a quantifier, or in a check of
    the tuple type of a component. *)
Definition crash_reason (G : types) (r : nat) : Prop :=
  component_part G goal_at (all_components G r) \/ check_part stuck_at (map snd (record_checks G r)).
(** Reasons for giving up: nested quantifiers, quantifiers in a check of the tuple
    type of a component, and frozen components with arrays, tuples or
    references. *)
Definition unsupported_reason (G : types) (r : nat) : Prop :=
  (component_part G quant_at (all_components G r) \/ frozen_aggregate (fun n => option_map snd (get_freezing G r n)) (all_components G r)) \/
  check_part nested_at (map snd (record_checks G r)).

Theorem C57_exact : forall G W r, fit_types G W -> tuples_in_order G -> (r < List.length (recs G))%nat ->
  (forall q, clos_refl_trans nat (extends G) r q -> good_checks G W q) -> frozen_typed G W r ->
  ((exists vcs, record_goals G W r = Ok vcs) <-> ~ crash_reason G r /\ ~ unsupported_reason G r) /\
  (record_goals G W r = Crash -> crash_reason G r) /\
  (forall l, record_goals G W r = Err l -> unsupported_reason G r) /\
  record_goals G W r <> OutOfFuel.
Proof.
  intros G W r FT O L Gk Fz. pose proof (record_verdict G W FT O r L Gk Fz) as V. fold (crash_reason G r) (unsupported_reason G r) in V.
  destruct (record_goals G W r) as [vcs|l| |]; cbn [verdict] in V; try contradiction.
  - destruct V as (N1 & N2 & _). split; [split; eauto|repeat split; discriminate].
  - split; [split; [intros [? [=]]|tauto]|]. repeat split; try discriminate. auto.
  - split; [split; [intros [? [=]]|tauto]|]. repeat split; try discriminate. auto.
Qed.
Print Assumptions C57_exact.

Theorem C57_tuple : forall G W u ut, fit_types G W -> tuples_in_order G -> tup G u = Some ut ->
  ((exists vcs, tuple_goals G W u = Ok vcs) <->
   ~ (component_part G goal_at (u_comps ut) \/ check_part stuck_at (u_checks ut)) /\
   ~ (component_part G quant_at (u_comps ut) \/ check_part nested_at (u_checks ut))) /\
  (tuple_goals G W u = Crash -> component_part G goal_at (u_comps ut) \/ check_part stuck_at (u_checks ut)) /\
  tuple_goals G W u <> OutOfFuel.
Proof.
  intros G W u ut FT O E. pose proof (tuple_type_verdict G W FT O u ut E) as V.
  destruct (tuple_goals G W u) as [vcs|l| |]; cbn [verdict] in V; try contradiction.
  - destruct V as (N1 & N2 & _). split; [split; eauto|repeat split; discriminate].
  - split; [split; [intros [? [=]]|tauto]|]. repeat split; discriminate.
  - split; [split; [intros [? [=]]|tauto]|]. repeat split; try discriminate. auto.
Qed.
Print Assumptions C57_tuple.

(** A check with a quantifier over [i >= 0 and not (i == 7)], one with a range, and
    a tuple type with [y != null implies y > x] and a range. *)
Definition vname (n : Z) (k : text) (opt : bool) : expr := EName (vl n) TInt k false opt.
Definition each_plain : check :=
  vck Sev_error (EQuant (vl 33) true (t "i") (vl 34) (Comp (t "xs") (TArr 0 0 (Some 3) TInt) false (TRec 1))
    (vb 35 B_and (vb 36 B_geq (EName (vl 36) TInt (t "i") true false) (vn 0)) (EUnary (vl 37) (Some TBool) U_not (vb 38 B_eq (EName (vl 36) TInt (t "i") true false) (vn 7))))).
Definition a_range : check := vck Sev_error (ERange (vl 40) va (vn 0) (vn 9)).
Definition y_above : check := vck Sev_error (vb 41 B_implies (vb 42 B_neq (vname 43 (t "y") true) (ENull (vl 1))) (vb 44 B_gt (vname 45 (t "y") true) (vname 46 (t "x") false))).
Ltac tgood := match goal with |- good_check _ _ ?S _ => let S' := eval vm_compute in S in change S with S' end;
  split; [cbv [each_plain a_range y_above x_range vname vb va vck vn ck_expr]; Prop_Eval.typed|split; [reflexivity|]];
  let H := fresh in intros ? H; cbv [each_plain a_range y_above x_range vname vb va vck vn ck_expr] in H;
  repeat match goal with H : sub _ _ |- _ => inversion H; clear H; subst end; cbn; auto.
Lemma v_in_order tcks hi rcks : tuples_in_order (vG tcks hi rcks).
Proof. intros [|u] ut c w E I; cbn in E; [injection E as <-; destruct I as [<-|[<-|[]]]; discriminate|destruct u; discriminate]. Qed.
Lemma v_only r : clos_refl_trans nat (extends (vG [y_above] (Some 3) [each_plain; a_range])) 1%nat r -> r = 1%nat.
Proof. intros X. apply clos_rt_rt1n in X. inversion X as [|y z (rt & E & P) _]; auto. subst. injection E as <-. discriminate. Qed.
Example C57_ex : let G := vG [y_above] (Some 3) [each_plain; a_range] in
  exists vcs, fit_types G order_W /\ tuples_in_order G /\ (forall q, clos_refl_trans nat (extends G) 1%nat q -> good_checks G order_W q) /\ frozen_typed G order_W 1%nat /\
    record_goals G order_W 1%nat = Ok vcs /\ vcs <> [].
Proof.
  eexists. split; [|split; [apply v_in_order|split; [|split; [|split; [vm_compute; reflexivity|discriminate]]]]].
  - apply v_fit_types. intros ck [<-|[]]. tgood.
  - intros q X. rewrite (v_only _ X). intros ck [<-|[<-|[]]]; tgood.
  - intros c v I E. destruct I as [<-|[<-|[<-|[<-|[<-|[]]]]]]; vm_compute in E; discriminate.
Qed.
Example C57_tuple_ex : let G := vG [y_above; x_range] (Some 3) [] in
  exists ut vcs, fit_types G order_W /\ tuples_in_order G /\ tup G 0%nat = Some ut /\ tuple_goals G order_W 0%nat = Ok vcs /\ vcs <> [].
Proof.
  do 2 eexists. split; [|split; [apply v_in_order|split; [reflexivity|split; [vm_compute; reflexivity|discriminate]]]].
  apply v_fit_types. intros ck [<-|[<-|[]]]; tgood.
Qed.
