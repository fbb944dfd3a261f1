(** The goals of a list of checks. *)
From Coq Require Import Relations Qcanon.
From Verif Require Import Base Lexer MathModel MathProofs Ast Eval TypesProofs Typing Soundness EvalSpec EvalSpecProofs EvalCorrect SemEval Vcg VcgSem VcgEnc VcgOps VcgEq VcgFun VcgTmp VcgSound.
From Coq Require Import ZifyBool ZifyNat.
Open Scope Z_scope.

Section CHECKS.
Variable G : types.
Variable W : world.
Variable junk : ty -> sv.
Variable M : model.
Hypothesis F : faithful G W junk M.
Variable S : scope.
Variable env : tenv.
Variable d : list (text * vexpr).
Hypothesis OKS : okS G S.
Notation ssem := (ssem W).

Definition good_check (ck : check) : Prop := wt G W true S (ck_expr ck) /\ e_typ (ck_expr ck) = Some TBool /\ vplain (ck_expr ck).

Lemma tr_check_ok own ck s0 u s1 tm : tr_check G W env own ck s0 = Ok (u, s1) -> good_check ck -> ok_env G W junk M S env d tm (s_tmp s0) -> inv s0 -> held M tm s0 ->
  (if own then goals_ok M s1 else exists q, ssem d (ck_expr ck) (Some q)) ->
  exists b tm' x s2, ssem d (ck_expr ck) (Some (SBool b)) /\ agree (s_tmp s0) tm tm' /\ (b = true -> held M tm' s1) /\
    (own = true -> exists p, In p (s_start s2) /\ path_holds M tm' p /\ sden M tm' x (VBool b) /\ In (VC p x (Feedback (s_fb s2) (e_loc (ck_expr ck)) K_always_true)) (s_vcs s1)).
Proof.
  intros E (T & Et & P) Ev I H N. unfold tr_check in E.
  vstep E v s2 E2. vstep E u2 s3 E3. vstep E x s4 E4. apply vlift_ok in E4. destruct E4 as [E4 ->]. vstep E u4 s5 E5. destruct u4. destruct u. injection E as <-.
  destruct (sub_syn _ _ _ _ _ _ _ _ _ _ _ _ E2 E3 E4 (proj2 (proj2 Ev)) I) as (L3 & I3 & X3 & B3).
  destruct (keeps_goal (s_tmp s3) own false K_always_true (e_loc (ck_expr ck)) x B3 s3 tt s5 (le_n _) I3 E5) as (L5 & I5 & X5 & _).
  destruct (sub_sem G W junk M own S env d _ s0 v s2 _ u2 s3 x TBool tm (sound_all G W junk M F _) T P OKS Ev I E2 E3 E4 Et H) as (q & tm' & Sq & A & H' & Tq & Dq & _).
  { destruct own; [|exact N]. eapply goals_ext; [exact X5|exact N]. }
  inversion Tq; subst. exists b, tm', x, s3. split; auto. split; auto. split.
  - intros ->. assert (Ps : s_start s5 = s_start s3) by (unfold attach_feasability_check, goal in E5; destruct own; injection E5 as <-; reflexivity).
    destruct H' as (p & Ip & Hp). exists (D_assert x :: p). split; [cbn; rewrite Ps; apply in_map; auto|]. constructor; auto.
  - intros ->. destruct H' as (p & Ip & Hp). exists p. split; auto. split; auto. split; auto. unfold attach_feasability_check, goal in E5. injection E5 as <-. cbn. apply in_app_iff. right. apply in_map_iff. eauto.
Qed.
Lemma tr_check_syn own ck s0 u s1 : tr_check G W env own ck s0 = Ok (u, s1) -> env_below (s_tmp s0) env -> inv s0 -> (s_tmp s0 <= s_tmp s1)%nat /\ inv s1 /\ ext s0 s1.
Proof.
  intros E B I. unfold tr_check in E. vstep E v s2 E2. vstep E u2 s3 E3. vstep E x s4 E4. apply vlift_ok in E4. destruct E4 as [E4 ->]. vstep E u4 s5 E5. destruct u4, u.
  destruct (sub_syn _ _ _ _ _ _ _ _ _ _ _ _ E2 E3 E4 B I) as (L3 & I3 & X3 & B3).
  destruct (keeps_goal (s_tmp s3) own false K_always_true (e_loc (ck_expr ck)) x B3 s3 tt s5 (le_n _) I3 E5) as (L5 & I5 & X5 & _).
  destruct (keeps_add (s_tmp s5) (D_assert x) ltac:(cbn; eapply below_le; eauto) s5 tt s1 (le_n _) I5 E) as (L6 & I6 & X6 & _).
  split; [lia|]. split; auto. eapply ext_trans; [exact X3|]. eapply ext_trans; eauto.
Qed.
Lemma tr_checks_syn cks : forall s0 u s1, tr_checks G W env cks s0 = Ok (u, s1) -> env_below (s_tmp s0) env -> inv s0 -> ext s0 s1.
Proof.
  induction cks as [|[own ck] cks IH]; intros s0 u s1 E B I; cbn [tr_checks] in E; [injection E as _ <-; apply ext_refl|].
  vstep E start s2 E2. injection E2 as <- <-. vstep E u2 s2 E2. vstep E u3 s3 E3.
  destruct (tr_check_syn _ _ _ _ _ E2 B I) as (L2 & I2 & X2).
  assert (Y : (s_tmp s0 <= s_tmp s3)%nat /\ inv s3 /\ s_vcs s3 = s_vcs s2).
  { destruct (ck_sev ck); injection E3 as _ <-; cbn; repeat split; auto; (eapply paths_below_le; [exact L2|exact I]). }
  destruct Y as (L3 & I3 & V3). eapply ext_trans; [exact X2|]. eapply ext_map; [exact V3|]. eapply IH; eauto. eapply env_below_le; eauto.
Qed.

Theorem checks_ok pre : forall own ck post s0 u s1 tm, tr_checks G W env (pre ++ (own, ck) :: post) s0 = Ok (u, s1) ->
  ok_env G W junk M S env d tm (s_tmp s0) -> inv s0 -> held M tm s0 -> goals_ok M s1 ->
  (forall o c, In (o, c) (pre ++ [(own, ck)]) -> good_check c) ->
  (forall c, In (false, c) (pre ++ [(own, ck)]) -> exists q, ssem d (ck_expr c) (Some q)) ->
  (forall o c, In (o, c) pre -> ck_sev c = Sev_fatal -> sem W d (ck_expr c) (Some (SBool true))) ->
  exists b, ssem d (ck_expr ck) (Some (SBool b)) /\
    (own = true -> exists p x n tm', path_holds M tm' p /\ sden M tm' x (VBool b) /\ In (VC p x (Feedback n (e_loc (ck_expr ck)) K_always_true)) (s_vcs s1)).
Proof.
  induction pre as [|[o c] pre IH]; intros own ck post s0 u s1 tm E Ev I H Gk Gc In0 Ft; cbn [app tr_checks] in E.
  - vstep E start s2 E2. injection E2 as <- <-. vstep E u2 s2 E2. vstep E u3 s3 E3.
    destruct (tr_check_syn _ _ _ _ _ E2 (proj2 (proj2 Ev)) I) as (L2 & I2 & X2).
    assert (Y : (s_tmp s0 <= s_tmp s3)%nat /\ inv s3 /\ s_vcs s3 = s_vcs s2).
    { destruct (ck_sev ck); injection E3 as _ <-; cbn; repeat split; auto; (eapply paths_below_le; [exact L2|exact I]). }
    destruct Y as (L3 & I3 & V3). pose proof (tr_checks_syn _ _ _ _ E ltac:(eapply env_below_le; [exact L3|apply Ev]) I3) as X4.
    assert (X4' : ext s2 s1) by (eapply ext_map; eauto).
    destruct (tr_check_ok own ck s0 u2 s2 tm E2) as (b & tm' & x & sx & Sb & _ & _ & Hf); auto.
    { eapply Gc. left. reflexivity. }
    { destruct own; [eapply goals_ext; eauto|]. apply In0. left. auto. }
    exists b. split; auto. intros Ow. destruct (Hf Ow) as (p & _ & Hp & Dx & Iv). exists p, x, (s_fb sx), tm'. split; auto. split; auto. destruct X4' as [vs ->]. apply in_app_iff. auto.
  - vstep E start s2 E2. injection E2 as <- <-. vstep E u2 s2 E2. vstep E u3 s3 E3.
    destruct (tr_check_syn _ _ _ _ _ E2 (proj2 (proj2 Ev)) I) as (L2 & I2 & X2).
    assert (Y : (s_tmp s0 <= s_tmp s3)%nat /\ inv s3 /\ s_vcs s3 = s_vcs s2 /\ (ck_sev c = Sev_fatal -> s3 = s2) /\ (ck_sev c <> Sev_fatal -> s_start s3 = s_start s0)).
    { destruct (ck_sev c); injection E3 as _ <-; cbn; repeat split; auto; try congruence; (eapply paths_below_le; [exact L2|exact I]). }
    destruct Y as (L3 & I3 & V3 & Sf & Sn). pose proof (tr_checks_syn _ _ _ _ E ltac:(eapply env_below_le; [exact L3|apply Ev]) I3) as X4.
    assert (X4' : ext s2 s1) by (eapply ext_map; eauto).
    destruct (tr_check_ok o c s0 u2 s2 tm E2) as (b & tm' & x & sx & Sb & A & Hb & _); auto.
    { eapply Gc. left. reflexivity. }
    { destruct o; [eapply goals_ext; eauto|]. apply In0. left. auto. }
    assert (Hd : exists tm2, ok_env G W junk M S env d tm2 (s_tmp s3) /\ held M tm2 s3).
    { assert (Dc : ck_sev c = Sev_fatal \/ ck_sev c <> Sev_fatal) by (destruct (ck_sev c); auto; right; discriminate). destruct Dc as [Dc|Dc].
      - exists tm'. split; [eapply env_le; [exact L3|]; eapply env_agree; [exact Ev|exact A]|]. rewrite (Sf Dc). apply Hb.
        pose proof (sem_unique W _ _ _ _ (ssem_sem _ _ _ _ Sb) (Ft o c (or_introl eq_refl) Dc)) as O. exact O.
      - exists tm. split; [eapply env_le; [exact L3|exact Ev]|]. unfold held. rewrite (Sn Dc). exact H. }
    destruct Hd as (tm2 & Ev2 & H2).
    eapply (IH own ck post s3 u s1 tm2); eauto; intros; [eapply Gc; right; eauto|eapply In0; right; auto|eapply Ft; [right; eauto|auto]].
Qed.
End CHECKS.
