(** Temporary constants of the translation are fresh. *)
From Coq Require Import Qcanon.
From Verif Require Import Base Lexer MathModel Ast Eval TypesProofs Typing Soundness Vcg VcgSem.
Open Scope Z_scope.

Definition tbelow (k : nat) (v : tval) : Prop := (forall x, fst v = Some x -> below k x) /\ below k (snd v).
Definition env_below (k : nat) (env : tenv) : Prop := forall n x y, assoc n env = Some (x, y) -> below k x /\ below k y.
Definition paths_below (k : nat) (ps : list path) : Prop := Forall (path_below k) ps.
Definition ext (s s' : vst) : Prop := exists vs, s_vcs s' = s_vcs s ++ vs.

Lemma tbelow_le k k' v : (k <= k')%nat -> tbelow k v -> tbelow k' v.
Proof. intros L [A B]. split; eauto using below_le. Qed.
Lemma env_below_le k k' env : (k <= k')%nat -> env_below k env -> env_below k' env.
Proof. intros L E n x y A. destruct (E _ _ _ A). eauto using below_le. Qed.
Lemma paths_below_le k k' ps : (k <= k')%nat -> paths_below k ps -> paths_below k' ps.
Proof. intros L. apply Forall_impl. eauto using path_below_le. Qed.
Lemma env_below_cons k env n x y : below k x -> below k y -> env_below k env -> env_below k ((n, (x, y)) :: env).
Proof. intros A B E m x' y'. cbn. destruct (text_eqb n m); [intros [= <- <-]; auto|apply E]. Qed.
Lemma ext_refl s : ext s s.
Proof. exists []. rewrite app_nil_r. auto. Qed.
Lemma ext_trans a b c : ext a b -> ext b c -> ext a c.
Proof. intros [x X] [y Y]. exists (x ++ y). rewrite Y, X, app_assoc. auto. Qed.

(** ** Terms *)
Section TERMS.
Variable G : types.
Variable W : world.
Lemma power_below real x n k : below k x -> below k (power_term real x n).
Proof. induction n; cbn; auto. Qed.
Lemma all_below k l : Forall (below k) l -> below k (T_all l).
Proof. induction 1 as [|a [|b l] A F IH]; cbn in *; auto. Qed.
Lemma any_below k l : Forall (below k) l -> below k (T_any l).
Proof. induction 1 as [|a [|b l] A F IH]; cbn in *; auto. Qed.
Lemma unary_below op a x y k : unary_term op a x = Ok y -> below k x -> below k y.
Proof. destruct op; cbn; destruct a as [[]|]; intros [= <-] B; cbn; auto. Qed.
Lemma binary_below l op a b x y z k : binary_term W l op a b x y = Ok z -> below k x -> below k y -> below k z.
Proof.
  intros E X Y. destruct op; cbn in E; try discriminate;
    try (destruct a as [[]|]; cbn in E; try discriminate; injection E as <-; cbn; auto; fail); try (injection E as <-; cbn; auto; fail).
  - destruct (evaluate W None b) as [v| | |]; try discriminate. destruct (v_val v) as [[[] ?]|]; try discriminate. injection E as <-. exact X.
  - destruct (evaluate W None b) as [v| | |]; try discriminate. destruct (v_val v) as [[[] ?]|]; try discriminate.
    destruct (_ <? 0); [discriminate|]. destruct a as [[]|]; try discriminate; injection E as <-; destruct (_ =? 0); cbn; auto using power_below.
Qed.
Lemma goals_below op a x y k kd g : below k x -> below k y -> In (kd, g) (op_goals op a x y) -> below k g.
Proof. intros X Y I. destruct op; cbn in I; try contradiction; try (destruct a as [[]|]; cbn in I; try contradiction); intuition; match goal with H : (_, _) = (_, _) |- _ => injection H as <- <- end; cbn; auto. Qed.
Lemma fold_below l : forall p k, Forall (below k) l -> below k p -> below k (fold_left T_and l p).
Proof. induction l; cbn; intros p k F P; auto. inversion F; subst. apply IHl; cbn; auto. Qed.
Lemma core_below fuel : forall a x y z k, core_equality G fuel a x y = Ok z -> below k x -> below k y -> below k z.
Proof.
  induction fuel as [|fuel IH]; intros a x y z k E X Y; destruct a; cbn in E; try discriminate; try (injection E as <-; cbn; auto; fail).
  destruct (tup G _) as [ut|]; [|discriminate].
  match type of E with bind ?m _ = _ => destruct m as [ps| | |] eqn:Ep end; cbn in E; try discriminate. injection E as <-.
  assert (F : Forall (below k) ps).
  { clear -Ep IH X Y. revert ps Ep. induction (u_comps ut) as [|c cs IHc]; intros ps Ep; [injection Ep as <-; constructor|].
    destruct (core_equality G fuel (c_typ c) _ _) as [p| | |] eqn:Ec; try discriminate. cbn in Ep.
    match type of Ep with bind ?m _ = _ => destruct m as [qs| | |] eqn:Eq end; cbn in Ep; try discriminate. injection Ep as <-.
    constructor; [|apply IHc; reflexivity]. pose proof (IH _ _ _ _ k Ec X Y). destruct (c_opt c); cbn; auto. }
  destruct ps; cbn; auto. inversion F; subst. apply fold_below; auto.
Qed.
Lemma equality_below op a b v w z k : equality_term G op a b v w = Ok z -> tbelow k v -> tbelow k w -> below k z.
Proof.
  intros E [V1 V2] [W1 W2]. unfold equality_term in E.
  match type of E with bind ?m _ = _ => destruct m as [e| | |] eqn:Ee end; cbn in E; try discriminate. injection E as <-.
  assert (below k e); [|destruct op; auto].
  assert (Core : forall o x y z, match o with Some a => core_equality G (tuple_fuel G) a x y | None => Crash end = Ok z -> fst v = Some x -> fst w = Some y -> below k z).
  { intros [c|] x y z' C X Y; [|discriminate]. eapply core_below; eauto. }
  destruct (is_static_true (snd v) && is_static_true (snd w)).
  - destruct (fst v) as [x|] eqn:Ev; [|discriminate]. destruct (fst w) as [y|] eqn:Ew; [|discriminate]. cbn in Ee. eapply Core; eauto.
  - destruct (is_static_false (snd v) && is_static_false (snd w)); [injection Ee as <-; exact I|].
    destruct (fst v) as [x|] eqn:Ev; [|injection Ee as <-; auto]. destruct (fst w) as [y|] eqn:Ew; [|injection Ee as <-; auto].
    match type of Ee with bind ?m _ = _ => destruct m as [c| | |] eqn:Ec end; cbn in Ee; try discriminate. injection Ee as <-. cbn. repeat split; auto. eapply Core; eauto.
Qed.
Lemma field_below c a x v k : field_access G c a x = Ok v -> below k x -> tbelow k v.
Proof.
  intros E B. destruct a as [[]|]; cbn in E; try discriminate.
  - injection E as <-. split; [intros y [= <-]; auto|]. cbn. destruct (c_opt c); cbn; auto.
  - injection E as <-. split; [intros y [= <-]; auto|]. cbn. destruct (c_opt c); cbn; auto.
  - destruct (assoc _ _) as [inf|]; [|discriminate]. destruct (fi_typ inf); [|discriminate]. injection E as <-. split; [intros y [= <-]; auto|]. cbn. destruct (has_valid inf); cbn; auto.
Qed.
Lemma steps_below k after : forall before, Forall (below k) before -> Forall (below k) after -> Forall (below k) (oneof_steps before after).
Proof.
  assert (Nt : forall l, Forall (below k) l -> Forall (below k) (map T_not l)) by (induction 1; constructor; auto).
  induction after as [|a after IH]; intros before B A; cbn; constructor; inversion A; subst.
  - apply all_below. apply Forall_app. auto.
  - apply IH; auto. apply Forall_app. auto.
Qed.
Lemma oneof_below k cs z : oneof_term cs = Ok z -> Forall (below k) cs -> below k z.
Proof.
  intros E F. destruct cs as [|a [|b [|c cs]]]; [discriminate| | |]; unfold oneof_term in E; match type of E with Ok ?u = Ok _ => assert (z = u) as -> by congruence end; clear E.
  - inversion F; auto.
  - inversion F as [|? ? A F']; inversion F'; cbn; auto.
  - apply any_below, steps_below; auto.
Qed.

Ltac step E := match type of E with bind ?m _ = _ => let r := fresh "r" in let Er := fresh "Er" in destruct m as [r| | |] eqn:Er; cbn [bind] in E; try discriminate end.
Lemma value_below k v x : tbelow k v -> some_value (fst v) = Ok x -> below k x.
Proof. intros [A _] E. destruct (fst v); [|discriminate]. injection E as <-. auto. Qed.

Lemma fun_below k e : forall env v, tr_functional G W env e = Ok v -> env_below k env -> tbelow k v.
Proof.
  assert (Tr : forall x, below k x -> tbelow k (Some x, T_true)) by (intros x B; split; [intros y [= <-]; auto|exact I]).
  induction e using expr_ind2; intros env tv E B; cbn [tr_functional] in E.
  - injection E as <-. split; [discriminate|exact I].
  - injection E as <-. apply Tr. exact I.
  - unfold name_reference in E. destruct (assoc n env) as [[x y]|] eqn:A; [|discriminate]. injection E as <-. destruct (B _ _ _ A). split; [intros ? [= <-]; auto|auto].
  - step E. destruct r as [x y]. step E. step E. injection E as <-. apply Tr. eapply unary_below; eauto. eapply value_below; [eapply (IHe env)|]; eauto.
  - assert (Bin : forall f : term -> term -> res loc term, (forall x y z, f x y = Ok z -> below k x -> below k y -> below k z) ->
      (do (x, _) <- tr_functional G W env e1 ; do (y, _) <- tr_functional G W env e2 ; do x <- some_value x ; do y <- some_value y ; do z <- f x y ; Ok (Some z, T_true)) = Ok tv -> tbelow k tv).
    { intros f Hf E'. step E'. destruct r as [x y]. step E'. destruct r as [x' y']. step E'. step E'. step E'. injection E' as <-. apply Tr. eapply Hf; eauto.
      - eapply value_below; [eapply (IHe1 env)|]; eauto.
      - eapply value_below; [eapply (IHe2 env)|]; eauto. }
    assert (Str : (do (x, _) <- tr_functional G W env e1 ; do (y, _) <- tr_functional G W env e2 ;
          do x <- some_value x ; do y <- some_value y ;
              match op_goals op (e_typ e1) x y with
              | [] => do z <- binary_term W l op (e_typ e1) e2 x y ; Ok (Some z, T_true)
              | _ => Crash
              end) = Ok tv -> tbelow k tv).
    { intros E'. apply (Bin (fun x y => match op_goals op (e_typ e1) x y with [] => binary_term W l op (e_typ e1) e2 x y | _ => Crash end)).
      - intros x y z F. destruct (op_goals op (e_typ e1) x y); [eapply binary_below; eauto|discriminate].
      - step E'. destruct r as [x y]. cbn [bind] in E' |- *. step E'. destruct r as [x' y']. cbn [bind] in E' |- *. step E'. step E'. cbn [bind]. destruct (op_goals op (e_typ e1) r r0); [exact E'|discriminate]. }
    destruct op; try (apply Str; exact E).
    + apply (Bin (fun x y => Ok (T_and x y))); [intros x y z [= <-]; cbn; auto|exact E].
    + apply (Bin (fun x y => Ok (T_or x y))); [intros x y z [= <-]; cbn; auto|exact E].
    + apply (Bin (fun x y => Ok (T_implies x y))); [intros x y z [= <-]; cbn; auto|exact E].
    + step E. step E. step E. injection E as <-. apply Tr. eapply equality_below; eauto.
    + step E. step E. step E. injection E as <-. apply Tr. eapply equality_below; eauto.
  - step E. destruct r as [x y]. step E. eapply field_below; eauto. eapply value_below; [eapply (IHe env)|]; eauto.
  - step E.
  - destruct es; [discriminate|]. step E.
  - revert tv E. induction acts as [|[c x] acts IHa]; intros tv E.
    + step E. destruct r as [x y]. injection E as <-. destruct (IHe _ _ Er B) as [A _]. split; [exact A|exact I].
    + step E. destruct r as [r kr]. step E. destruct r0 as [s ks]. step E. destruct r0 as [y ky]. step E. step E. step E. injection E as <-. apply Tr.
      destruct (H c x (or_introl eq_refl)) as [Hc Hx]. cbn. repeat split.
      * eapply value_below; [eapply (Hc env)|]; eauto.
      * eapply value_below; [eapply (Hx env)|]; eauto.
      * eapply (value_below k (r, kr)); [|exact Er4]. apply (IHa ltac:(intros; eapply H; eauto with datatypes) (r, kr) eq_refl).
  - discriminate.
Qed.
End TERMS.

(** ** Statements *)
Definition inv (s : vst) : Prop := paths_below (s_tmp s) (s_start s).
Definition keeps {A} (k0 : nat) (m : vm A) (B : nat -> A -> Prop) : Prop :=
  forall s a s', (k0 <= s_tmp s)%nat -> inv s -> m s = Ok (a, s') ->
    (s_tmp s <= s_tmp s')%nat /\ inv s' /\ ext s s' /\ B (s_tmp s') a.
Lemma keeps_bind {A C} k0 (m : vm A) (f : A -> vm C) B B' :
  keeps k0 m B -> (forall a k, (k0 <= k)%nat -> B k a -> keeps k (f a) B') -> keeps k0 (vbind m f) B'.
Proof.
  intros Hm Hf s c s' L I E. unfold vbind in E. destruct (m s) as [[a s1]| | |] eqn:E1; try discriminate. cbn in E.
  destruct (Hm _ _ _ L I E1) as (L1 & I1 & X1 & B1). destruct (Hf a (s_tmp s1) ltac:(lia) B1 s1 c s' ltac:(lia) I1 E) as (L2 & I2 & X2 & B2).
  repeat split; auto; [lia|eapply ext_trans; eauto].
Qed.
Lemma keeps_ret {A} k0 (a : A) (B : nat -> A -> Prop) : (forall k, (k0 <= k)%nat -> B k a) -> keeps k0 (vret a) B.
Proof. intros H s x s' L I E. injection E as <- <-. repeat split; auto using ext_refl. Qed.
Lemma keeps_lift {A} k0 (r : res loc A) (B : nat -> A -> Prop) : (forall a k, r = Ok a -> (k0 <= k)%nat -> B k a) -> keeps k0 (vlift r) B.
Proof. intros H s x s' L I E. unfold vlift in E. destruct r; try discriminate. injection E as <- <-. repeat split; auto using ext_refl. Qed.
Lemma keeps_weak {A} k0 k1 (m : vm A) B : (k0 <= k1)%nat -> keeps k0 m B -> keeps k1 m B.
Proof. intros L H s a s' L' I E. apply H; auto. lia. Qed.
Lemma keeps_imp {A} k0 (m : vm A) (B B' : nat -> A -> Prop) : (forall a k, (k0 <= k)%nat -> B k a -> B' k a) -> keeps k0 m B -> keeps k0 m B'.
Proof. intros H K s a s' L I E. destruct (K _ _ _ L I E) as (? & ? & ? & ?). repeat split; auto. apply H; auto. lia. Qed.
Lemma keeps_temp k0 : keeps k0 new_temp (fun k n => (n < k)%nat /\ (k0 <= n)%nat).
Proof. intros s n s' L I E. injection E as <- <-. cbn. repeat split; auto. eapply paths_below_le; [|exact I]. cbn. lia. exists []. rewrite app_nil_r. auto. Qed.
Definition any {A} (k : nat) (a : A) : Prop := True.
Lemma keeps_add k0 d : stmt_below k0 d -> keeps k0 (add d) any.
Proof.
  intros B s [] s' L I E. injection E as <-. cbn. repeat split; auto; [|exists []; rewrite app_nil_r; auto].
  unfold inv, paths_below in *. cbn. rewrite Forall_map. revert I. apply Forall_impl. intros p P. constructor; auto. eapply stmt_below_le; eauto.
Qed.
Lemma keeps_goal k0 emit adv kd l a : below k0 a -> keeps k0 (goal emit adv kd l a) any.
Proof.
  intros B. destruct emit; cbn; [|apply keeps_ret; intros; exact I].
  intros s [] s' L I E. injection E as <-. cbn. repeat split; auto; [|eexists; reflexivity].
  unfold inv, paths_below in *. cbn. destruct adv; auto. rewrite Forall_map. revert I. apply Forall_impl. intros p P. constructor; auto. cbn. eapply below_le; eauto.
Qed.
Lemma keeps_checked k0 emit v l : tbelow k0 v -> keeps k0 (checked emit v l) any.
Proof. intros [_ B]. unfold checked, attach_validity_check. destruct (is_static_true _); [apply keeps_ret; intros; exact I|apply keeps_goal; auto]. Qed.
Lemma keeps_valid k0 emit x l : below k0 x -> keeps k0 (attach_validity_check emit x l) any.
Proof. intros B. unfold attach_validity_check. destruct (is_static_true _); [apply keeps_ret; intros; exact I|apply keeps_goal; auto]. Qed.
Lemma keeps_goals k0 emit gs l : (forall k g, In (k, g) gs -> below k0 g) -> keeps k0 (attach_goals emit gs l) any.
Proof.
  induction gs as [|[k g] gs IH]; intros B; cbn; [apply keeps_ret; intros; exact I|].
  eapply keeps_bind; [apply keeps_goal; eapply B; left; reflexivity|]. intros _ k1 L _. eapply keeps_weak; [exact L|]. apply IH. intros; eapply B; right; eauto.
Qed.
Lemma keeps_get k0 : keeps k0 get_start (fun k ps => paths_below k ps).
Proof. intros s a s' L I E. injection E as <- <-. repeat split; auto using ext_refl. Qed.
Lemma keeps_set k0 ps : paths_below k0 ps -> keeps k0 (set_start ps) any.
Proof. intros B s [] s' L I E. injection E as <-. cbn. repeat split; auto; [|exists []; rewrite app_nil_r; auto]. eapply paths_below_le; [exact L|exact B]. Qed.
Lemma keeps_return k0 a : below k0 a -> keeps k0 (create_return a) tbelow.
Proof.
  intros B. unfold create_return. eapply keeps_bind; [apply keeps_temp|]. intros n k L [Ln _].
  eapply keeps_bind; [apply keeps_add; cbn; split; [exact Ln|exact (below_le _ _ _ L B)]|]. intros [] k1 L1 _.
  apply keeps_ret. intros k2 L2. split; [intros x [= <-]; cbn; lia|exact I].
Qed.

Section TR.
Variable G : types.
Variable W : world.
Ltac kbind := eapply keeps_bind.
Lemma keeps_tr e : forall emit env k0, env_below k0 env -> keeps k0 (tr G W emit env e) tbelow.
Proof.
  induction e using expr_ind2; intros emit env k0 B; cbn [tr].
  - apply keeps_ret. intros k L. split; [discriminate|exact I].
  - apply keeps_ret. intros k0' L. split; [intros x [= <-]; exact I|exact I].
  - kbind; [apply (keeps_lift _ _ (fun k '(x, y) => below k x /\ below k y))|].
    + intros [x y] k E L. unfold name_reference in E. destruct (assoc n env) as [[x' y']|] eqn:A; [|discriminate]. injection E as <- <-. destruct (B _ _ _ A). eauto using below_le.
    + intros [x y] k L [X Y]. apply keeps_ret. intros k1 L1. split; [intros z [= <-]|]; cbn; eauto using below_le.
  - kbind; [apply IHe; auto|]. intros v k L Bv. kbind; [apply keeps_checked; auto|]. intros _ k1 L1 _.
    kbind; [apply (keeps_lift _ _ below); intros x k2 E L2; eapply value_below; [eapply tbelow_le; [|exact Bv]; lia|exact E]|]. intros x k2 L2 Bx.
    kbind; [apply (keeps_lift _ _ below); intros y k3 E L3; eapply unary_below; [exact E|eapply below_le; [|exact Bx]; lia]|]. intros y k3 L3 By. apply keeps_return; auto.
  - assert (Lz : forall stop fixed : bool, keeps k0 (let# v := tr G W emit env e1 in
        let# _ := checked emit v (e_loc e1) in
        let# x := vlift (some_value (fst v)) in
        let# start := get_start in
        let# n := new_temp in
        let# _ := attach_assumption (if stop then x else T_not x) in
        let# _ := attach_temp n (T_lit (LBool fixed)) in
        let# end1 := get_start in
        let# _ := set_start start in
        let# _ := attach_assumption (if stop then T_not x else x) in
        let# w := tr G W emit env e2 in
        let# _ := checked emit w (e_loc e2) in
        let# y := vlift (some_value (fst w)) in
        let# _ := attach_temp n y in
        let# end2 := get_start in
        let# _ := set_start (end1 ++ end2) in
        vret (Some (T_tmp n), T_true)) tbelow).
    { intros stop fixed. kbind; [apply IHe1; auto|]. intros v k L Bv. kbind; [apply keeps_checked; auto|]. intros _ k1 L1 _.
      kbind; [apply (keeps_lift _ _ below); intros x k2 E L2; eapply value_below; [eapply tbelow_le; [|exact Bv]; lia|exact E]|]. intros x k2 L2 Bx.
      kbind; [apply keeps_get|]. intros start k3 L3 Bs. kbind; [apply keeps_temp|]. intros n k4 L4 [Ln _].
      kbind; [apply keeps_add; destruct stop; cbn; (eapply below_le; [|exact Bx]; lia)|]. intros _ k5 L5 _.
      kbind; [apply keeps_add; cbn; split; [lia|exact I]|]. intros _ k6 L6 _. kbind; [apply keeps_get|]. intros end1 k7 L7 Be.
      kbind; [apply keeps_set; eapply paths_below_le; [|exact Bs]; lia|]. intros _ k8 L8 _.
      kbind; [apply keeps_add; destruct stop; cbn; (eapply below_le; [|exact Bx]; lia)|]. intros _ k9 L9 _.
      kbind; [apply IHe2; eapply env_below_le; [|exact B]; lia|]. intros w k10 L10 Bw. kbind; [apply keeps_checked; auto|]. intros _ k11 L11 _.
      kbind; [apply (keeps_lift _ _ below); intros y k12 E L12; eapply value_below; [eapply tbelow_le; [|exact Bw]; lia|exact E]|]. intros y k12 L12 By.
      kbind; [apply keeps_add; cbn; split; [lia|exact By]|]. intros _ k13 L13 _. kbind; [apply keeps_get|]. intros end2 k14 L14 Be2.
      kbind; [apply keeps_set; apply Forall_app; split; [eapply paths_below_le; [|exact Be]; lia|exact Be2]|]. intros _ k15 L15 _.
      apply keeps_ret. intros k16 L16. split; [intros z [= <-]; cbn; lia|exact I]. }
    assert (Eq : keeps k0 (let# v := tr G W emit env e1 in let# w := tr G W emit env e2 in
        let# x := vlift (equality_term G op (e_typ e1) (e_typ e2) v w) in create_return x) tbelow).
    { kbind; [apply IHe1; auto|]. intros v k L Bv. kbind; [apply IHe2; eapply env_below_le; [|exact B]; lia|]. intros w k1 L1 Bw.
      kbind; [apply (keeps_lift _ _ below); intros x k2 E L2; eapply equality_below; [exact E|eapply tbelow_le; [|exact Bv]; lia|eapply tbelow_le; [|exact Bw]; lia]|].
      intros x k2 L2 Bx. apply keeps_return; auto. }
    assert (Str : keeps k0 (let# v := tr G W emit env e1 in let# _ := checked emit v (e_loc e1) in
          let# w := tr G W emit env e2 in let# _ := checked emit w (e_loc e2) in
          let# x := vlift (some_value (fst v)) in let# y := vlift (some_value (fst w)) in
          let# _ := attach_goals emit (op_goals op (e_typ e1) x y) l in
          let# z := vlift (binary_term W l op (e_typ e1) e2 x y) in create_return z) tbelow).
    { kbind; [apply IHe1; auto|]. intros v k L Bv. kbind; [apply keeps_checked; auto|]. intros _ k1 L1 _.
      kbind; [apply IHe2; eapply env_below_le; [|exact B]; lia|]. intros w k2 L2 Bw. kbind; [apply keeps_checked; auto|]. intros _ k3 L3 _.
      kbind; [apply (keeps_lift _ _ below); intros x k4 E L4; eapply value_below; [eapply tbelow_le; [|exact Bv]; lia|exact E]|]. intros x k4 L4 Bx.
      kbind; [apply (keeps_lift _ _ below); intros y k5 E L5; eapply value_below; [eapply tbelow_le; [|exact Bw]; lia|exact E]|]. intros y k5 L5 By.
      kbind; [apply keeps_goals; intros kd g Ig; eapply goals_below; [| |exact Ig]; [eapply below_le; [|exact Bx]; lia|exact By]|]. intros _ k6 L6 _.
      kbind; [apply (keeps_lift _ _ below); intros z k7 E L7; eapply binary_below; [exact E|eapply below_le; [|exact Bx]; lia|eapply below_le; [|exact By]; lia]|].
      intros z k7 L7 Bz. apply keeps_return; auto. }
    destruct op; [exact (Lz false false)|exact (Lz true true)|exact Str|exact (Lz false true)|exact Eq|exact Eq|exact Str..].
  - kbind; [apply IHe; auto|]. intros v k L Bv. kbind; [apply keeps_checked; auto|]. intros _ k1 L1 _.
    kbind; [apply (keeps_lift _ _ below); intros x k2 E L2; eapply value_below; [eapply tbelow_le; [|exact Bv]; lia|exact E]|]. intros x k2 L2 Bx.
    apply keeps_lift. intros y k3 E L3. eapply field_below; [exact E|eapply below_le; [|exact Bx]; lia].
  - kbind; [apply IHe1; auto|]. intros v k L Bv. kbind; [apply keeps_checked; auto|]. intros _ k1 L1 _.
    kbind; [apply IHe2; eapply env_below_le; [|exact B]; lia|]. intros w k2 L2 Bw. kbind; [apply keeps_checked; auto|]. intros _ k3 L3 _.
    kbind; [apply IHe3; eapply env_below_le; [|exact B]; lia|]. intros u k4 L4 Bu. kbind; [apply keeps_checked; auto|]. intros _ k5 L5 _.
    kbind; [apply (keeps_lift _ _ below); intros x k6 E L6; eapply value_below; [eapply tbelow_le; [|exact Bv]; lia|exact E]|]. intros x k6 L6 Bx.
    kbind; [apply (keeps_lift _ _ below); intros y k7 E L7; eapply value_below; [eapply tbelow_le; [|exact Bw]; lia|exact E]|]. intros y k7 L7 By.
    kbind; [apply (keeps_lift _ _ below); intros z k8 E L8; eapply value_below; [eapply tbelow_le; [|exact Bu]; lia|exact E]|]. intros z k8 L8 Bz.
    apply keeps_return. cbn. repeat split; (eapply below_le; [|eassumption]; lia).
  - eapply (keeps_bind _ _ _ (fun k xs => Forall (below k) xs)); [|intros xs k L Bx; kbind; [apply (keeps_lift _ _ below); intros z k1 E L1; eapply oneof_below; [exact E|]|intros z k1 L1 Bz; apply keeps_return; auto]].
    2: { revert Bx. apply Forall_impl. intros a Ba. eapply below_le; eauto. } 
    cbn beta. clear l. revert k0 B. induction es as [|e es IHes]; intros k0 B; [apply keeps_ret; constructor|].
    kbind; [apply H; [left; reflexivity|auto]|]. intros v k L Bv. kbind; [apply keeps_checked; auto|]. intros _ k1 L1 _.
    kbind; [apply (keeps_lift _ _ below); intros x k2 E L2; eapply value_below; [eapply tbelow_le; [|exact Bv]; lia|exact E]|]. intros x k2 L2 Bx.
    kbind; [apply IHes; [intros; eapply H; eauto with datatypes|eapply env_below_le; [|exact B]; lia]|]. intros xs k3 L3 Bxs.
    apply keeps_ret. intros k4 L4. constructor; [eapply below_le; [|exact Bx]; lia|]. revert Bxs. apply Forall_impl. intros a Ba. eapply below_le; eauto.
  - kbind; [apply keeps_temp|]. intros n k L [Ln _].
    eapply (keeps_bind _ _ _ paths_below); [|intros ends k1 L1 Be; kbind; [apply keeps_set; exact Be|]; intros _ k2 L2 _; apply keeps_ret; intros k3 L3; split; [intros z [= <-]; cbn; lia|exact I]].
    assert (B' : env_below k env) by (eapply env_below_le; [|exact B]; lia). clear B L k0 l. revert k Ln B'.
    induction acts as [|[c x] acts IHa]; intros k Ln B.
    + kbind; [apply IHe; auto|]. intros w k1 L1 Bw. kbind; [apply keeps_checked; auto|]. intros _ k2 L2 _.
      kbind; [apply (keeps_lift _ _ below); intros y k3 E L3; eapply value_below; [eapply tbelow_le; [|exact Bw]; lia|exact E]|]. intros y k3 L3 By.
      kbind; [apply keeps_add; cbn; split; [lia|exact By]|]. intros _ k4 L4 _. apply keeps_get.
    + destruct (H c x (or_introl eq_refl)) as [Hc Hx].
      kbind; [apply Hc; auto|]. intros v k1 L1 Bv. kbind; [apply keeps_checked; auto|]. intros _ k2 L2 _.
      kbind; [apply (keeps_lift _ _ below); intros y k3 E L3; eapply value_below; [eapply tbelow_le; [|exact Bv]; lia|exact E]|]. intros test k3 L3 Bt.
      kbind; [apply keeps_get|]. intros start k4 L4 Bs. kbind; [apply keeps_add; cbn; eapply below_le; [|exact Bt]; lia|]. intros _ k5 L5 _.
      kbind; [apply Hx; eapply env_below_le; [|exact B]; lia|]. intros w k6 L6 Bw. kbind; [apply keeps_checked; auto|]. intros _ k7 L7 _.
      kbind; [apply (keeps_lift _ _ below); intros y k8 E L8; eapply value_below; [eapply tbelow_le; [|exact Bw]; lia|exact E]|]. intros y k8 L8 By.
      kbind; [apply keeps_add; cbn; split; [lia|exact By]|]. intros _ k9 L9 _. kbind; [apply keeps_get|]. intros end1 k10 L10 Be.
      kbind; [apply keeps_set; eapply paths_below_le; [|exact Bs]; lia|]. intros _ k11 L11 _.
      kbind; [apply keeps_add; cbn; eapply below_le; [|exact Bt]; lia|]. intros _ k12 L12 _.
      kbind; [apply IHa; [intros; eapply H; eauto with datatypes|lia|eapply env_below_le; [|exact B]; lia]|]. intros end2 k13 L13 Be2.
      apply keeps_ret. intros k14 L14. apply Forall_app. split; (eapply paths_below_le; [|eassumption]; lia).
  - kbind; [apply (keeps_lift _ _ (fun k '(x, y) => below k x /\ below k y))|].
    + intros [x y] k E L. unfold name_reference in E. destruct (assoc _ env) as [[x' y']|] eqn:A; [|discriminate]. injection E as <- <-. destruct (B _ _ _ A). eauto using below_le.
    + intros [x y] k L [X Y]. kbind; [apply keeps_valid; auto|]. intros _ k1 L1 _.
      destruct (c_typ src) as [| | | | | | | | |i0 lo hi el]; try (apply keeps_lift; discriminate).
      kbind; [apply keeps_get|]. intros start k2 L2 Bs. kbind; [apply keeps_temp|]. intros i k3 L3 [Li _].
      kbind; [apply keeps_add; exact Li|]. intros _ k4 L4 _. kbind; [apply keeps_add; cbn; split; [lia|exact I]|]. intros _ k5 L5 _.
      kbind; [apply keeps_add; cbn; split; [lia|eapply below_le; [|exact X]; lia]|]. intros _ k6 L6 _. kbind; [apply keeps_temp|]. intros z k7 L7 [Lz _].
      kbind; [apply keeps_add; cbn; repeat split; [lia|eapply below_le; [|exact X]; lia|lia]|]. intros _ k8 L8 _.
      kbind; [apply IHe; apply env_below_cons; [cbn; lia|exact I|eapply env_below_le; [|exact B]; lia]|]. intros w k9 L9 Bw.
      kbind; [apply keeps_checked; auto|]. intros _ k10 L10 _. kbind; [apply keeps_set; eapply paths_below_le; [|exact Bs]; lia|]. intros _ k11 L11 _.
      kbind; [apply keeps_temp|]. intros j k12 L12 [Lj _].
      kbind; [apply (keeps_lift _ _ tbelow); intros b k13 E L13; eapply fun_below; [exact E|]; apply env_below_cons; [cbn; split; [eapply below_le; [|exact X]; lia|lia]|exact I|eapply env_below_le; [|exact B]; lia]|].
      intros [b b'] k13 L13 Bb.
      kbind; [apply (keeps_lift _ _ below); intros q k14 E L14; eapply value_below; [eapply tbelow_le; [|exact Bb]; lia|exact E]|]. intros q k14 L14 Bq.
      apply keeps_ret. intros k15 L15. split; [|exact I]. intros t0 [= <-]. cbn. split; [lia|].
      destruct un; cbn; repeat split; try lia; (eapply below_le; [|eassumption]; lia).
Qed.
End TR.
