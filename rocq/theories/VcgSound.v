(** If the goals of Vcg.v hold, checks have a meaning. *)
From Coq Require Import Relations Qcanon Qabs.
From Verif Require Import Base Lexer MathModel MathProofs Ast Eval TypesProofs Typing Soundness EvalSpec EvalSpecProofs EvalCorrect SemEval Vcg VcgSem VcgEnc VcgOps VcgEq VcgFun VcgTmp.
Open Scope Z_scope.

Lemma vbind_ok {A B} (m : vm A) (f : A -> vm B) s r : vbind m f s = Ok r -> exists a s1, m s = Ok (a, s1) /\ f a s1 = Ok r.
Proof. unfold vbind. destruct (m s) as [[a s1]| | |]; try discriminate. cbn. eauto. Qed.
Lemma vlift_ok {A} (r : res loc A) s a s' : vlift r s = Ok (a, s') -> r = Ok a /\ s' = s.
Proof. unfold vlift. destruct r; try discriminate. cbn. intros [= -> ->]. auto. Qed.
Ltac vstep H a s1 E := apply vbind_ok in H; destruct H as (a & s1 & E & H).

(** ** Exactly one of several *)
Fixpoint steps_b (before after : list bool) : list bool :=
  match after with
  | [] => []
  | a :: after' => (forallb negb before && (a && forallb negb after')) :: steps_b (before ++ [a]) after'
  end.
Lemma no_true l : forallb negb l = true <-> ~ In true l.
Proof. rewrite forallb_forall. split; [intros H I; specialize (H _ I); discriminate|intros H [] I; auto]. Qed.
Lemma steps_b_spec after : forall before, existsb (fun b => b) (steps_b before after) = true <->
  exists pre post, after = pre ++ true :: post /\ ~ In true (before ++ pre ++ post).
Proof.
  induction after as [|a after IH]; intros before; cbn.
  - split; [discriminate|]. intros ([|? ?] & post & E & _); discriminate.
  - rewrite orb_true_iff, IH. split.
    + intros [H|(pre & post & -> & N)].
      * apply andb_true_iff in H. destruct H as [B H]. apply andb_true_iff in H. destruct H as [-> H]. exists [], after. split; auto. cbn.
        rewrite no_true in *. rewrite in_app_iff. tauto.
      * exists (a :: pre), post. split; auto. rewrite <- app_assoc in N. exact N.
    + intros ([|b pre] & post & E & N); injection E as -> ->.
      * left. cbn in N. rewrite in_app_iff in N. rewrite !andb_true_iff, !no_true. tauto.
      * right. exists pre, post. split; auto. rewrite <- app_assoc. exact N.
Qed.

Section ONE.
Variable M : model.
Notation den := (sden M).
Definition dens tm (xs : list term) (bs : list bool) : Prop := Forall2 (fun x b => den tm x (VBool b)) xs bs.
Lemma den_all tm xs bs : dens tm xs bs -> den tm (T_all xs) (VBool (forallb (fun b => b) bs)).
Proof.
  induction 1 as [|x b xs bs X F IH]; [reflexivity|]. destruct F as [|y c xs bs Y F].
  - cbn. rewrite andb_true_r. exact X.
  - change (T_all (x :: y :: xs)) with (T_and x (T_all (y :: xs))). cbn [sden]. exists b, (forallb (fun b => b) (c :: bs)). auto.
Qed.
Lemma den_any tm xs bs : dens tm xs bs -> den tm (T_any xs) (VBool (existsb (fun b => b) bs)).
Proof.
  induction 1 as [|x b xs bs X F IH]; [reflexivity|]. destruct F as [|y c xs bs Y F].
  - cbn. rewrite orb_false_r. exact X.
  - change (T_any (x :: y :: xs)) with (T_or x (T_any (y :: xs))). cbn [sden]. exists b, (existsb (fun b => b) (c :: bs)). auto.
Qed.
Lemma dens_not tm xs bs : dens tm xs bs -> dens tm (map T_not xs) (map negb bs).
Proof. induction 1; constructor; auto. cbn. eauto. Qed.
Lemma all_negb l : forallb (fun b => b) (map negb l) = forallb negb l.
Proof. induction l; cbn; congruence. Qed.
Lemma dens_steps tm after ab : dens tm after ab -> forall before bb, dens tm before bb -> dens tm (oneof_steps before after) (steps_b bb ab).
Proof.
  induction 1 as [|x b xs bs X F IH]; intros before bb B; cbn; constructor.
  - rewrite <- all_negb, <- (all_negb bs). replace (forallb (fun b => b) (map negb bb) && (b && forallb (fun b => b) (map negb bs)))
      with (forallb (fun b => b) (map negb bb ++ b :: map negb bs)) by (rewrite forallb_app; reflexivity).
    apply den_all. apply Forall2_app; [apply dens_not; auto|]. constructor; auto. apply dens_not. auto.
  - apply IH. apply Forall2_app; auto.
Qed.
Lemma oneof_ok tm xs bs z : oneof_term xs = Ok z -> dens tm xs bs ->
  exists b, den tm z (VBool b) /\ (b = true <-> exists pre post, bs = pre ++ true :: post /\ ~ In true (pre ++ post)).
Proof.
  intros E D. exists (existsb (fun b => b) (steps_b [] bs)). split; [|apply (steps_b_spec bs [])].
  assert (D' := dens_steps _ _ _ D [] [] ltac:(constructor)).
  destruct D as [|x1 b1 xs bs X1 [|x2 b2 xs' bs' X2 [|x3 b3 xs'' bs'' X3 D]]]; [discriminate| | |];
    unfold oneof_term in E; match type of E with Ok ?u = Ok _ => assert (z = u) as -> by congruence end; clear E.
  - cbn. rewrite !andb_true_r, orb_false_r. exact X1.
  - replace (existsb (fun b => b) (steps_b [] [b1; b2])) with (xorb b1 b2) by (destruct b1, b2; reflexivity). cbn. eauto.
  - apply den_any. exact D'.
Qed.
End ONE.

Section SOUND.
Variable G : types.
Variable W : world.
Variable junk : ty -> sv.
Variable M : model.
Hypothesis F : faithful G W junk M.

Notation st := (st G W false).
Notation enc := (enc G junk).
Notation den := (sden M).
Notation srt := (of_sort G false).
Notation ssem := (ssem W).
Notation total := (total G M).
Notation rep := (rep G W junk M).
Notation Etot := (Etot G M).
Notation Erep := (Erep G W junk M).

Definition heldp (tm : nat -> sv) (ps : list path) : Prop := exists p, In p ps /\ path_holds M tm p.
Definition held (tm : nat -> sv) (s : vst) : Prop := heldp tm (s_start s).
Definition goals_ok (s : vst) : Prop :=
  forall v, In v (s_vcs s) -> expect_unsat (vc_feedback v) = true ->
    forall tm, path_holds M tm (vc_path v) -> ~ den tm (vc_goal v) (VBool false).
Definition okS (S : scope) : Prop := forall n a opt, assoc n S = Some (a, opt) -> okt G a.
Definition ok_env (S : scope) (env : tenv) (d : list (text * vexpr)) (tm : nat -> sv) (k : nat) : Prop :=
  Erep S env d tm /\ Etot S env tm /\ env_below k env.

Lemma heldp_agree k ps tm tm' : paths_below k ps -> agree k tm tm' -> heldp tm ps -> heldp tm' ps.
Proof.
  intros B A (p & I & H). exists p. split; auto. eapply path_agree; eauto. unfold paths_below in B. rewrite Forall_forall in B. auto.
Qed.
Lemma goals_ext s s' : ext s s' -> goals_ok s' -> goals_ok s.
Proof. intros [vs E] H v I. apply H. rewrite E. apply in_app_iff. auto. Qed.
Lemma held_add tm d s s' : add d s = Ok (tt, s') -> stmt_holds M tm d -> held tm s -> held tm s'.
Proof. intros [= <-] D (p & I & H). exists (d :: p). split; [cbn; apply in_map; auto|constructor; auto]. Qed.
Lemma goal_held tm emit adv kd l a s s' b : goal emit adv kd l a s = Ok (tt, s') -> expect_unsat (Feedback 0 l kd) = true ->
  den tm a (VBool b) -> held tm s -> (if emit then goals_ok s' else b = true) -> b = true /\ held tm s'.
Proof.
  intros E X D Hd C. assert (b = true) as ->.
  { destruct emit; auto. rename C into Gk. destruct b; auto. exfalso. cbn in E. injection E as <-. destruct Hd as (p & I & H).
    refine (Gk (VC p a (Feedback (s_fb s) l kd)) _ _ tm H D); [|exact X]. cbn. apply in_app_iff. right. apply in_map_iff. eauto. }
  split; auto. destruct emit; cbn in E; injection E as <-; auto. destruct adv; [|exact Hd].
  destruct Hd as (p & I & H). exists (D_assert a :: p). split; [cbn; apply in_map; auto|]. constructor; auto.
Qed.
Lemma rep_agree k tm tm' oa v s : tbelow k v -> agree k tm tm' -> rep tm oa v s -> rep tm' oa v s.
Proof.
  intros [B1 B2] A R. destruct s as [x|]; cbn in *; [|eapply sden_agree; eauto]. destruct R as (V & a & t & E & Ft & T & D).
  split; [eapply sden_agree; eauto|]. exists a, t. repeat split; auto. eapply sden_agree; eauto.
Qed.
Lemma total_agree k tm tm' oa v : tbelow k v -> agree k tm tm' -> total tm oa v -> total tm' oa v.
Proof.
  intros [B1 B2] A R. destruct oa as [a|]; cbn in *; auto. destruct R as (t & w & b & E & D & O & V).
  exists t, w, b. repeat split; auto; eapply sden_agree; eauto.
Qed.
Lemma env_agree S env d tm tm' k : ok_env S env d tm k -> agree k tm tm' -> ok_env S env d tm' k.
Proof.
  intros (R & T & B) A. split; [|split; auto].
  - intros n a opt X. destruct (R _ _ _ X) as (x & y & v & Ae & Ad & Fv & Rv). exists x, y, v. repeat split; auto. destruct (B _ _ _ Ae).
    eapply rep_agree; [|exact A|exact Rv]. split; [intros ? [= <-]|]; auto.
  - intros n a opt X. destruct (T _ _ _ X) as (x & y & w & b & Ae & D & O & V). destruct (B _ _ _ Ae). exists x, y, w, b. repeat split; auto; eapply sden_agree; eauto.
Qed.
Lemma env_le S env d tm k k' : (k <= k')%nat -> ok_env S env d tm k -> ok_env S env d tm k'.
Proof. intros L (A & B & C). split; [exact A|split; [exact B|eapply env_below_le; eauto]]. Qed.

Definition meant (emit : bool) (d : list (text * vexpr)) (e : expr) (s : vst) : Prop :=
  if emit then goals_ok s else exists q, ssem d e q.
Definition valued (emit : bool) (d : list (text * vexpr)) (e : expr) (s : vst) : Prop :=
  if emit then goals_ok s else exists q, ssem d e (Some q).
Definition sound (e : expr) : Prop := forall emit S env d s0 v s1 tm,
  wt G W true S e -> vplain e -> okS S -> ok_env S env d tm (s_tmp s0) -> inv s0 ->
  tr G W emit env e s0 = Ok (v, s1) -> held tm s0 -> meant emit d e s1 ->
  exists s tm', ssem d e s /\ agree (s_tmp s0) tm tm' /\ held tm' s1 /\ rep tm' (e_typ e) v s /\ total tm' (e_typ e) v.

Lemma tr_syn emit env e s0 v s1 : tr G W emit env e s0 = Ok (v, s1) -> env_below (s_tmp s0) env -> inv s0 ->
  (s_tmp s0 <= s_tmp s1)%nat /\ inv s1 /\ ext s0 s1 /\ tbelow (s_tmp s1) v.
Proof. intros E B I. exact (keeps_tr G W e emit env (s_tmp s0) B s0 v s1 (le_n _) I E). Qed.
Lemma sub_syn emit env e s0 v s1 l u s2 x : tr G W emit env e s0 = Ok (v, s1) -> checked emit v l s1 = Ok (u, s2) -> some_value (fst v) = Ok x ->
  env_below (s_tmp s0) env -> inv s0 ->
  (s_tmp s0 <= s_tmp s2)%nat /\ inv s2 /\ ext s0 s2 /\ below (s_tmp s2) x.
Proof.
  intros E C V B I. destruct (tr_syn _ _ _ _ _ _ E B I) as (L1 & I1 & X1 & T1).
  destruct (keeps_checked _ emit v l T1 s1 u s2 (le_n _) I1 C) as (L2 & I2 & X2 & _).
  repeat split; auto; [lia|eapply ext_trans; eauto|]. eapply below_le; [exact L2|]. eapply value_below; eauto.
Qed.
Lemma sub_sem emit S env d e s0 v s1 l u s2 x a tm : sound e -> wt G W true S e -> vplain e -> okS S -> ok_env S env d tm (s_tmp s0) -> inv s0 ->
  tr G W emit env e s0 = Ok (v, s1) -> checked emit v l s1 = Ok (u, s2) -> some_value (fst v) = Ok x -> e_typ e = Some a ->
  held tm s0 -> valued emit d e s2 ->
  exists q tm', ssem d e (Some q) /\ agree (s_tmp s0) tm tm' /\ held tm' s2 /\ st a q /\ den tm' x (enc a q) /\ srt a (enc a q).
Proof.
  intros Snd T P K Ev I E C V Et H N. destruct u.
  destruct (tr_syn _ _ _ _ _ _ E (proj2 (proj2 Ev)) I) as (L1 & I1 & X1 & T1).
  destruct (keeps_checked _ emit v l T1 s1 tt s2 (le_n _) I1 C) as (L2 & I2 & X2 & _).
  destruct (Snd emit S env d s0 v s1 tm) as (s & tm' & Sm & Ag & Hd & Rp & Tt); auto.
  { destruct emit; [eapply goals_ext; eauto|]. destruct N as [q N]. exists (Some q). exact N. }
  rewrite Et in Rp, Tt. destruct (total_some _ _ _ _ _ Tt) as (t & w & b & Ev' & Dw & Ow & Db).
  rewrite Ev' in V. cbn in V. injection V as <-.
  assert (Y : is_some s = true /\ held tm' s2).
  { unfold checked, attach_validity_check in C. destruct (is_static_true (snd v)) eqn:Es.
    - injection C as <-. split; auto. pose proof (rep_valid _ _ _ _ _ _ _ _ Rp) as Rv. destruct (snd v); try discriminate. destruct k as [| | |[]|]; try discriminate. cbn in Rv. congruence.
    - pose proof (rep_valid _ _ _ _ _ _ _ _ Rp) as Rv. eapply goal_held; [exact C|reflexivity|exact Rv|exact Hd|].
      destruct emit; [exact N|]. destruct N as [q N]. pose proof (ssem_unique _ _ _ _ _ Sm N) as O. destruct s; [reflexivity|contradiction]. }
  destruct Y as [Ys Yh]. destruct s as [q|]; [|discriminate]. exists q, tm'. rewrite Ev' in Rp. destruct (rep_some _ _ _ _ _ _ _ _ _ _ Rp Dw) as [Sq Eq]. subst w. auto 8.
Qed.

Lemma return_ok y s0 v s1 tm w : create_return y s0 = Ok (v, s1) -> below (s_tmp s0) y -> inv s0 -> held tm s0 -> den tm y w ->
  exists tm', agree (s_tmp s0) tm tm' /\ held tm' s1 /\ v = (Some (T_tmp (s_tmp s0)), T_true) /\ den tm' (T_tmp (s_tmp s0)) w.
Proof.
  intros E B I H D. unfold create_return in E. vstep E n s2 E2. injection E2 as <- <-. vstep E u s3 E3. destruct u. injection E as <- <-.
  exists (upd tm (s_tmp s0) w). assert (A : agree (s_tmp s0) tm (upd tm (s_tmp s0) w)) by (apply agree_upd; auto). split; auto.
  split; [|split; [reflexivity|cbn; rewrite upd_same; auto]]. eapply held_add; [exact E3| |].
  - cbn. rewrite upd_same. eapply sden_agree; eauto.
  - eapply heldp_agree; [exact I|exact A|exact H].
Qed.

Lemma unary_value S l b op e a s : wt G W true S (EUnary l b op e) -> e_typ e = Some a -> st a s -> exists s', op_unary op s s'.
Proof.
  intros T E X. inversion T; subst; in_cases; subst; settle; match goal with H : e_typ e = Some _ |- _ => rewrite H in E; injection E as <- end; inversion X; subst;
    eexists; econstructor; apply round_nearest_away_spec.
Qed.

Lemma sound_null l : sound (ENull l).
Proof. intros emit S env d s0 v s1 tm T P K Ev I E H N. injection E as <- <-. exists None, tm. repeat split; auto using agree_refl. constructor. Qed.
Lemma sound_lit l k : sound (ELit l k).
Proof.
  intros emit S env d s0 v s1 tm T P K (Er & Et & _) I E H N. injection E as <- <-.
  destruct (faithful_fun _ _ _ _ F (ELit l k) S env tm (Some (T_lit k), T_true) T P Et eq_refl) as [A B].
  exists (Some (of_lit k)), tm. split; [constructor|]. split; [apply agree_refl|]. split; auto. split; auto. apply (B d); auto. constructor.
Qed.
Lemma sound_name l a n qv opt : sound (EName l a n qv opt).
Proof.
  intros emit S env d s0 v s1 tm T P K (Er & Et & _) I E H N. cbn [tr] in E. vstep E p s2 E2. apply vlift_ok in E2. destruct E2 as [E2 ->]. destruct p as [x y]. injection E as <- <-.
  assert (Ef : tr_functional G W env (EName l a n qv opt) = Ok (Some x, y)) by (cbn; rewrite E2; reflexivity).
  destruct (faithful_fun _ _ _ _ F _ S env tm _ T P Et Ef) as [A B].
  assert (As : assoc n S = Some (a, opt)) by (inversion T; subst; assumption). destruct (Er _ _ _ As) as (x' & y' & v' & Ae & Ad & Fv & Rv).
  assert (Sm : ssem d (EName l a n qv opt) (sval_of v')) by (econstructor; eauto; eapply fits_stores; eauto).
  exists (sval_of v'), tm. split; auto. split; [apply agree_refl|]. split; [exact H|split; [exact (B d _ Er Sm)|exact A]].
Qed.
Lemma sound_unary l a op e : sound e -> sound (EUnary l a op e).
Proof.
  intros IH emit S env d s0 v s1 tm T P K Ev I E H N. cbn [tr] in E.
  vstep E v1 s2 E2. vstep E u s3 E3. vstep E x s4 E4. apply vlift_ok in E4. destruct E4 as [E4 ->]. vstep E y s4 E5. apply vlift_ok in E5. destruct E5 as [E5 ->].
  assert (exists b, e_typ e = Some b) as [b Eb] by (inversion T; subst; eauto). assert (Te : wt G W true S e) by (inversion T; subst; assumption).
  destruct (sub_syn _ _ _ _ _ _ _ _ _ _ E2 E3 E4 (proj2 (proj2 Ev)) I) as (L3 & I3 & X3 & B3).
  rewrite Eb in E5. assert (By : below (s_tmp s3) y) by (eapply unary_below; eauto).
  destruct (keeps_return (s_tmp s3) y By s3 v s1 (le_n _) I3 E) as (L4 & I4 & X4 & _).
  destruct (sub_sem emit S env d e s0 v1 s2 (e_loc e) u s3 x b tm IH Te (vplain_unary _ _ _ _ P) K Ev I E2 E3 E4 Eb H) as (q & tm1 & Sq & A1 & H1 & Tq & Dq & Oq).
  { destruct emit; [eapply goals_ext; eauto|]. destruct N as [q N]. inversion N; subst. eexists; eauto. }
  destruct (unary_ok G W junk M S l a op e x y tm1 b _ T ltac:(apply P; constructor) Eb E5 Dq Oq) as (b' & w' & -> & Dy & Oy & Hy).
  destruct (unary_value _ _ _ _ _ _ _ T Eb Tq) as [q' Oq']. destruct (Hy _ _ Tq eq_refl Oq') as [Tq' ->].
  destruct (return_ok _ _ _ _ _ _ E By I3 H1 Dy) as (tm2 & A2 & H2 & -> & D2).
  exists (Some q'), tm2. split; [econstructor; eauto|]. split; [eapply agree_trans; [exact A1|eapply agree_le; [|exact A2]; lia]|]. split; auto. cbn [e_typ].
  split; [eapply rep_true; eauto|eapply total_true; eauto].
Qed.

Lemma sound_eq l a op e1 e2 : In op [B_eq; B_neq] -> sound e1 -> sound e2 -> sound (EBinary l a op e1 e2).
Proof.
  intros Io IH1 IH2 emit S env d s0 v s1 tm T P K Ev I E H N.
  assert (E' : (let# v := tr G W emit env e1 in let# w := tr G W emit env e2 in
     let# x := vlift (equality_term G op (e_typ e1) (e_typ e2) v w) in create_return x) s0 = Ok (v, s1)) by (destruct Io as [<-|[<-|[]]]; exact E).
  clear E. rename E' into E. vstep E v1 s2 E2. vstep E v2 s3 E3. vstep E x s4 E4. apply vlift_ok in E4. destruct E4 as [E4 ->].
  assert (T1 : wt G W true S e1) by (inversion T; subst; auto). assert (T2 : wt G W true S e2) by (inversion T; subst; auto).
  assert (comparable G (e_typ e1) (e_typ e2) /\ a = Some TBool) as [Cm ->].
  { clear - T Io. inversion T; subst; first [exfalso; in_cases; subst; discriminate | auto]. }
  destruct (tr_syn _ _ _ _ _ _ E2 (proj2 (proj2 Ev)) I) as (L2 & I2 & X2 & B2).
  assert (Bv : env_below (s_tmp s2) env) by (eapply env_below_le; [exact L2|apply Ev]).
  destruct (tr_syn _ _ _ _ _ _ E3 Bv I2) as (L3 & I3 & X3 & B3).
  assert (Bx : below (s_tmp s3) x) by (eapply equality_below; [exact E4|eapply tbelow_le; [exact L3|exact B2]|exact B3]).
  destruct (keeps_return (s_tmp s3) x Bx s3 v s1 (le_n _) I3 E) as (L4 & I4 & X4 & _).
  assert (N1 : meant emit d e1 s2 /\ meant emit d e2 s3).
  { destruct emit.
    - assert (goals_ok s3) by (eapply goals_ext; eauto). split; [eapply goals_ext; eauto|assumption].
    - destruct N as [q N]. unfold meant. destruct Io as [<-|[<-|[]]]; inversion N; subst; eauto; exfalso; match goal with X : strict_op _ |- _ => apply X; cbn; tauto end. }
  destruct N1 as [N1 N2].
  destruct (IH1 emit S env d s0 v1 s2 tm T1 (vplain_left _ _ _ _ _ P) K Ev I E2 H N1) as (q1 & tm1 & Sq1 & A1 & H1 & R1 & To1).
  assert (Ev1 : ok_env S env d tm1 (s_tmp s2)) by (eapply env_le; [exact L2|]; eapply env_agree; eauto).
  destruct (IH2 emit S env d s2 v2 s3 tm1 T2 (vplain_right _ _ _ _ _ P) K Ev1 I2 E3 H1 N2) as (q2 & tm2 & Sq2 & A2 & H2 & R2 & To2).
  pose proof (rep_agree _ _ _ _ _ _ B2 A2 R1) as R1'. pose proof (total_agree _ _ _ _ _ B2 A2 To1) as To1'.
  destruct (equality_ok G W junk M (f_tup _ _ _ _ F) op _ _ v1 v2 x tm2 Cm Io E4 To1' To2) as (b & Db & Hb).
  specialize (Hb _ _ R1' R2).
  destruct (return_ok _ _ _ _ _ _ E Bx I3 H2 Db) as (tm3 & A3 & H3 & -> & D3).
  exists (Some (SBool b)), tm3. split.
  { destruct Io as [<-|[<-|[]]]; cbn in Hb; [eapply ss_eq|eapply ss_neq]; eauto. }
  split; [eapply agree_trans; [exact A1|]; eapply agree_le; [exact L2|]; eapply agree_trans; [exact A2|]; eapply agree_le; [exact L3|exact A3]|]. split; auto. cbn [e_typ].
  split; [eapply rep_true; eauto; constructor|eapply total_true; eauto; constructor].
Qed.

Lemma goals_held tm gs l emit : forall s s', attach_goals emit gs l s = Ok (tt, s') ->
  (forall k g, In (k, g) gs -> k <> K_always_true) -> (forall k g, In (k, g) gs -> exists r, den tm g (VBool r)) -> held tm s ->
  (emit = true -> goals_ok s') ->
  (emit = true -> forall k g, In (k, g) gs -> den tm g (VBool true)) /\ held tm s'.
Proof.
  induction gs as [|[k g] gs IH]; intros s s' E Nk D H C; cbn in E.
  - injection E as <-. split; auto. intros _ k g [].
  - vstep E u s1 E1. destruct u. destruct (D k g (or_introl eq_refl)) as [r Dr].
    assert (X : ext s1 s').
    { clear - E. revert s1 E. induction gs as [|[k g] gs IH]; intros s1 E; cbn in E; [injection E as <-; apply ext_refl|]. vstep E u s2 E2. eapply ext_trans; [|eapply IH; exact E].
      destruct emit; cbn in E2; injection E2 as _ <-; [eexists; reflexivity|apply ext_refl]. }
    assert (Y : (emit = true -> r = true) /\ held tm s1).
    { destruct emit; [|cbn in E1; injection E1 as <-; split; [discriminate|exact H]].
      destruct (goal_held tm true true k l g s s1 r E1) as [-> H1]; auto.
      - specialize (Nk k g (or_introl eq_refl)). destruct k; auto; congruence.
      - eapply goals_ext; eauto. }
    destruct Y as [Yr H1]. destruct (IH s1 s' E) as [A B]; auto.
    { intros; eapply Nk; right; eauto. } { intros; eapply D; right; eauto. }
    split; auto. intros Ee k' g' [[= <- <-]|Ig]; [rewrite <- (Yr Ee); exact Dr|]. eapply A; eauto.
Qed.
Lemma op_goals_kind op a x y k g : In (k, g) (op_goals op a x y) -> k <> K_always_true.
Proof. destruct op; cbn; try contradiction; try (destruct a as [[]|]; cbn; try contradiction); intuition congruence. Qed.

Lemma value_goals a a' op s s' r : op_binary W (Some a) op s s' r ->
  (op = B_index -> in_range a (enc a s) (enc a' s')) /\ (In op [B_div; B_rem] -> nonzero (enc a' s')).
Proof.
  intros O. split.
  - intros ->. inversion O; subst; [|exfalso; in_cases; discriminate..|]. 2: { intros j lo' hi' el' _. cbn. eexists _, n. split; [reflexivity|]. split; [reflexivity|]. split; auto.
      rewrite map_length. assert (Z.to_nat n < List.length xs)%nat by (apply nth_error_Some; congruence). lia. }
    all: exfalso; in_cases; discriminate.
  - intros [<-|[<-|[]]]; inversion O; subst; try (exfalso; in_cases; discriminate); cbn; split; try discriminate; try congruence.
    intros E. injection E as E. match goal with H : ~ (_ == 0)%Q |- _ => apply H end. rewrite <- (Qred_correct y), E. reflexivity.
Qed.

Lemma sound_strict l a op e1 e2 : strict_op op -> sound e1 -> sound e2 -> sound (EBinary l a op e1 e2).
Proof.
  intros C IH1 IH2 emit S env d s0 v s1 tm T P K Ev I E H N.
  assert (E' : (let# v := tr G W emit env e1 in let# _ := checked emit v (e_loc e1) in
          let# w := tr G W emit env e2 in let# _ := checked emit w (e_loc e2) in
          let# x := vlift (some_value (fst v)) in let# y := vlift (some_value (fst w)) in
          let# _ := attach_goals emit (op_goals op (e_typ e1) x y) l in
          let# z := vlift (binary_term W l op (e_typ e1) e2 x y) in create_return z) s0 = Ok (v, s1)) by (destruct op; try (exfalso; apply C; cbn; tauto); exact E).
  clear E. rename E' into E. vstep E v1 s2 E2. vstep E u s3 E3. vstep E v2 s4 E4. vstep E u' s5 E5.
  vstep E x s6 E6. apply vlift_ok in E6. destruct E6 as [E6 ->]. vstep E y s6 E7. apply vlift_ok in E7. destruct E7 as [E7 ->].
  vstep E u'' s6 E8. destruct u''. vstep E z s7 E9. apply vlift_ok in E9. destruct E9 as [E9 ->].
  assert (T1 : wt G W true S e1) by (inversion T; subst; auto). assert (T2 : wt G W true S e2) by (inversion T; subst; auto).
  assert (exists a1 a2, e_typ e1 = Some a1 /\ e_typ e2 = Some a2) as (a1 & a2 & Ea & Eb).
  { clear - T C. inversion T; subst; eauto; exfalso; apply C; cbn in *; tauto. }
  destruct (sub_syn _ _ _ _ _ _ _ _ _ _ E2 E3 E6 (proj2 (proj2 Ev)) I) as (L3 & I3 & X3 & B3).
  assert (Bv : env_below (s_tmp s3) env) by (eapply env_below_le; [exact L3|apply Ev]).
  destruct (sub_syn _ _ _ _ _ _ _ _ _ _ E4 E5 E7 Bv I3) as (L5 & I5 & X5 & B5).
  assert (Bx : below (s_tmp s5) x) by (eapply below_le; [exact L5|exact B3]).
  destruct (keeps_goals (s_tmp s5) emit (op_goals op (e_typ e1) x y) l ltac:(intros kd g Ig; eapply goals_below; [| |exact Ig]; auto) s5 tt s6 (le_n _) I5 E8) as (L6 & I6 & X6 & _).
  assert (Bz : below (s_tmp s6) z) by (eapply binary_below; [exact E9|eapply below_le; [exact L6|exact Bx]|eapply below_le; [exact L6|exact B5]]).
  destruct (keeps_return (s_tmp s6) z Bz s6 v s1 (le_n _) I6 E) as (L7 & I7 & X7 & _).
  assert (N1 : valued emit d e1 s3 /\ valued emit d e2 s5 /\ (if emit then goals_ok s6 else exists q1 q2 r, ssem d e1 (Some q1) /\ ssem d e2 (Some q2) /\ op_binary W (e_typ e1) op q1 q2 r)).
  { unfold valued. destruct emit.
    - assert (goals_ok s6) by (eapply goals_ext; eauto). assert (goals_ok s5) by (eapply goals_ext; eauto). split; [eapply goals_ext; eauto|auto].
    - destruct N as [q N]. inversion N; subst; try (exfalso; apply C; cbn; tauto). split; [eauto|]. split; [eauto|]. do 3 eexists. split; [eassumption|]. split; [eassumption|]. eassumption. }
  destruct N1 as (N1 & N2 & N3).
  destruct (sub_sem emit S env d e1 s0 v1 s2 _ u s3 x a1 tm IH1 T1 (vplain_left _ _ _ _ _ P) K Ev I E2 E3 E6 Ea H N1) as (q1 & tm1 & Sq1 & A1 & H1 & Tq1 & Dq1 & Oq1).
  assert (Ev1 : ok_env S env d tm1 (s_tmp s3)) by (eapply env_le; [exact L3|]; eapply env_agree; eauto).
  destruct (sub_sem emit S env d e2 s3 v2 s4 _ u' s5 y a2 tm1 IH2 T2 (vplain_right _ _ _ _ _ P) K Ev1 I3 E4 E5 E7 Eb H1 N2) as (q2 & tm2 & Sq2 & A2 & H2 & Tq2 & Dq2 & Oq2).
  assert (Dq1' : den tm2 x (enc a1 q1)) by (exact (sden_agree M _ _ _ _ _ B3 A2 Dq1)).
  pose proof (faithful_static _ _ _ _ F _ _ _ _ T2 (vplain_right _ _ _ _ _ P) (Erep_scope _ _ _ _ _ _ _ _ (proj1 Ev1)) Sq2) as Sta.
  rewrite Ea in E8, E9, N3.
  destruct (goals_den G W junk M (f_junk _ _ _ _ F) (f_usable _ _ _ _ F) (f_tup _ _ _ _ F) S l a op e1 e2 x y tm2 a1 a2 _ _ T C Ea Eb Dq1' Oq1 Dq2 Oq2) as [Gd Gv].
  destruct (goals_held tm2 _ l emit _ _ E8 ltac:(intros k g; apply op_goals_kind) Gd H2 ltac:(intros ->; exact N3)) as [Yg Yh].
  assert (Y : (op = B_index -> in_range a1 (enc a1 q1) (enc a2 q2)) /\ (In op [B_div; B_rem] -> nonzero (enc a2 q2))).
  { destruct emit; [exact (Gv (Yg eq_refl))|]. destruct N3 as (p1 & p2 & r & S1 & S2 & Or).
    pose proof (ssem_unique _ _ _ _ _ S1 Sq1) as O1. pose proof (ssem_unique _ _ _ _ _ S2 Sq2) as O2. cbn in O1, O2.
    rewrite <- (enc_same G junk p1 a1 q1 O1), <- (enc_same G junk p2 a2 q2 O2). eapply value_goals; eauto. }
  destruct Y as [Yi Yd].
  destruct (binary_value G W junk (f_junk _ _ _ _ F) (f_usable _ _ _ _ F) (f_tup _ _ _ _ F) S l a op e1 e2 a1 a2 q1 q2 T ltac:(apply P; constructor) C Ea Eb Tq1 Tq2 Sta Yi Yd) as [r Or].
  destruct (binary_ok G W junk M (f_junk _ _ _ _ F) (f_usable _ _ _ _ F) (f_tup _ _ _ _ F) (f_match _ _ _ _ F) S l a op e1 e2 x y z tm2 a1 a2 _ _ T ltac:(apply P; constructor) C Ea Eb E9 Dq1' Oq1 Dq2 Oq2) as (b' & wz & -> & Dz & Oz & Hz).
  { exact Yi. } { exact Yd. }
  destruct (Hz _ _ _ Tq1 eq_refl Tq2 eq_refl Sta Or) as [Tr ->].
  destruct (return_ok _ _ _ _ _ _ E Bz I6 Yh Dz) as (tm3 & A3 & H3 & -> & D3).
  exists (Some r), tm3. split; [eapply ss_binary; eauto; rewrite Ea; exact Or|].
  split; [eapply agree_trans; [exact A1|]; eapply agree_le; [exact L3|]; eapply agree_trans; [exact A2|]; eapply agree_le; [|exact A3]; lia|]. split; auto. cbn [e_typ].
  split; [eapply rep_true; eauto|eapply total_true; eauto].
Qed.

Lemma sound_field l c e un uv : sound e -> sound (EField l c e un uv).
Proof.
  intros IH emit S env d s0 v s1 tm T P K Ev I E H N. cbn [tr] in E.
  vstep E v1 s2 E2. vstep E u s3 E3. vstep E x s4 E4. apply vlift_ok in E4. destruct E4 as [E4 ->]. apply vlift_ok in E. destruct E as [E ->].
  assert (exists b, e_typ e = Some b) as [b Eb] by (inversion T; subst; eauto). assert (Te : wt G W true S e) by (inversion T; subst; assumption).
  destruct (sub_sem emit S env d e s0 v1 s2 (e_loc e) u s3 x b tm IH Te (vplain_field _ _ _ _ _ P) K Ev I E2 E3 E4 Eb H) as (q & tm1 & Sq & A1 & H1 & Tq & Dq & Oq).
  { destruct emit; [exact N|]. destruct N as [q N]. inversion N; subst; eexists; eauto. }
  rewrite Eb in E. destruct (faithful_field _ _ _ _ F _ _ _ _ un uv _ _ _ _ _ T Eb E Dq Oq) as [Tf Rf].
  destruct (Rf d q Sq Tq eq_refl) as (s' & Ss & R). exists s', tm1. cbn [e_typ]. auto 8.
Qed.

Lemma lazy_ok l a op (stop fixed : bool) e1 e2 : sound e1 -> sound e2 ->
  (forall S, wt G W true S (EBinary l a op e1 e2) -> e_typ e1 = Some TBool /\ e_typ e2 = Some TBool /\ a = Some TBool /\ wt G W true S e1 /\ wt G W true S e2) ->
  (forall emit env, tr G W emit env (EBinary l a op e1 e2) = (let# v := tr G W emit env e1 in
        let# _ := checked emit v (e_loc e1) in
        let# x := vlift (some_value (fst v)) in
        let# start := get_start in
        let# n := new_temp in
        let# _ := attach_assumption (if stop then x else T_not x) in
        let# _ := attach_temp n (T_lit (LBool fixed)) in
        let# end1 := get_start in
        let# _ := set_start start in
        let# _ := attach_assumption (if stop then T_not x else x) in
        let# w := tr G W emit env e2 in
        let# _ := checked emit w (e_loc e2) in
        let# y := vlift (some_value (fst w)) in
        let# _ := attach_temp n y in
        let# end2 := get_start in
        let# _ := set_start (end1 ++ end2) in
        vret (Some (T_tmp n), T_true))) ->
  (forall d, ssem d e1 (Some (SBool stop)) -> ssem d (EBinary l a op e1 e2) (Some (SBool fixed))) ->
  (forall d y, ssem d e1 (Some (SBool (negb stop))) -> ssem d e2 (Some (SBool y)) -> ssem d (EBinary l a op e1 e2) (Some (SBool y))) ->
  (forall d s, ssem d (EBinary l a op e1 e2) s -> ssem d e1 (Some (SBool stop)) \/ ssem d e1 (Some (SBool (negb stop))) /\ exists y, ssem d e2 (Some (SBool y))) ->
  sound (EBinary l a op e1 e2).
Proof.
  intros IH1 IH2 Ty Tr Rs Rg Ri emit S env d s0 v s1 tm T P K Ev I E H N. rewrite Tr in E.
  vstep E v1 s2 E2. vstep E u s3 E3. vstep E x s4 E4. apply vlift_ok in E4. destruct E4 as [E4 ->].
  vstep E start s4 E5. injection E5 as <- <-. vstep E n s4 E6. injection E6 as <- <-. set (n := s_tmp s3) in *.
  set (sa := {| s_tmp := Datatypes.S n; s_fb := s_fb s3; s_start := s_start s3; s_vcs := s_vcs s3 |}) in *.
  vstep E u1 sb E7. vstep E u2 sc E8. destruct u1, u2. vstep E end1 sd E9. injection E9 as <- <-. vstep E u3 sd E10. destruct u3.
  vstep E u4 se E11. destruct u4. vstep E v2 sf E12. vstep E u5 sg E13. vstep E y sh E14. apply vlift_ok in E14. destruct E14 as [E14 ->].
  vstep E u6 sh E15. destruct u6. vstep E end2 si E16. injection E16 as <- <-. vstep E u7 si E17. destruct u7. injection E17 as <-. injection E as <- <-.
  destruct (Ty S T) as (Et1 & Et2 & -> & T1 & T2).
  destruct (sub_syn _ _ _ _ _ _ _ _ _ _ E2 E3 E4 (proj2 (proj2 Ev)) I) as (L3 & I3 & X3 & B3).
  assert (Ta : s_tmp sa = Datatypes.S n) by reflexivity.
  assert (Tb : s_tmp se = Datatypes.S n /\ s_start se = map (cons (D_assert (if stop then T_not x else x))) (s_start s3) /\ s_vcs se = s_vcs s3).
  { injection E7 as <-. injection E8 as <-. injection E10 as <-. injection E11 as <-. auto. }
  destruct Tb as (Tb & Ps & Vs).
  assert (Ie : inv se).
  { unfold inv, paths_below. rewrite Tb, Ps, Forall_map. revert I3. apply Forall_impl. intros p Pp. constructor; [|eapply path_below_le; [|exact Pp]; unfold n; lia].
    destruct stop; cbn; (eapply below_le; [|exact B3]; unfold n; lia). }
  assert (Be : env_below (s_tmp se) env) by (rewrite Tb; eapply env_below_le; [|apply Ev]; unfold n; lia).
  destruct (sub_syn _ _ _ _ _ _ _ _ _ _ E12 E13 E14 Be Ie) as (L5 & I5 & X5 & B5).
  injection E15 as <-. cbn [s_start s_tmp s_fb s_vcs] in *.
  assert (Xg : forall vs, s_vcs sg = s_vcs se ++ vs -> True) by auto.
  assert (N1 : valued emit d e1 s3).
  { unfold valued. destruct emit.
    - intros z Iz. apply N. cbn. destruct X5 as [vs X5]. rewrite X5, Vs. apply in_app_iff. auto.
    - destruct N as [q N]. destruct (Ri _ _ N) as [N'|[N' _]]; eauto. }
  destruct (sub_sem emit S env d e1 s0 v1 s2 _ u s3 x TBool tm IH1 T1 (vplain_left _ _ _ _ _ P) K Ev I E2 E3 E4 Et1 H N1) as (q1 & tm1 & Sq1 & A1 & H1 & Tq1 & Dq1 & Oq1).
  inversion Tq1; subst. cbn in Dq1. rename b into qb.
  assert (Up : forall z, agree n tm1 (upd tm1 n z)) by (intros z; apply agree_upd; auto).
  assert (Hup : forall z, heldp (upd tm1 n z) (s_start s3)) by (intros z; eapply heldp_agree; [exact I3|apply Up|exact H1]).
  assert (Dup : forall z, den (upd tm1 n z) x (VBool qb)) by (intros z; exact (sden_agree M _ _ _ _ _ B3 (Up z) Dq1)).
  assert (A0 : forall z, agree (s_tmp s0) tm (upd tm1 n z)) by (intros z; eapply agree_trans; [exact A1|]; eapply agree_le; [|apply Up]; unfold n; lia).
  destruct (bool_dec qb stop) as [->|Ne].
  - exists (Some (SBool fixed)), (upd tm1 n (VBool fixed)). split; [apply Rs; auto|]. split; auto. split.
    + destruct (Hup (VBool fixed)) as (p & Ip & Hp). injection E7 as <-. injection E8 as <-.
      exists (D_def n (T_lit (LBool fixed)) :: D_assert (if stop then x else T_not x) :: p). split.
      * cbn. apply in_app_iff. left. rewrite map_map. apply in_map_iff. eauto.
      * constructor; [cbn; rewrite upd_same; reflexivity|]. constructor; [|exact Hp]. cbn. specialize (Dup (VBool fixed)). destruct stop; cbn; eauto.
    + cbn [e_typ]. split; [eapply rep_true; [cbn; rewrite upd_same; reflexivity|constructor|reflexivity]|eapply total_true; [cbn; rewrite upd_same; reflexivity|constructor]].
  - assert (qb = negb stop) as -> by (clear - Ne; destruct qb, stop; try reflexivity; exfalso; apply Ne; reflexivity).
    assert (N2 : valued emit d e2 sg).
    { unfold valued. destruct emit; [exact N|]. destruct N as [q N]. destruct (Ri _ _ N) as [N'|[_ [y' N']]]; [|eauto].
      pose proof (ssem_unique _ _ _ _ _ N' Sq1) as O. cbn in O. exfalso. clear - O. destruct stop; discriminate. }
    assert (Run : forall z, exists y' tm2, ssem d e2 (Some (SBool y')) /\ agree (Datatypes.S n) (upd tm1 n z) tm2 /\ held tm2 sg /\ den tm2 y (VBool y')).
    { intros z. destruct (sub_sem emit S env d e2 se v2 sf (e_loc e2) u5 sg y TBool (upd tm1 n z) IH2 T2 (vplain_right _ _ _ _ _ P) K) as (q2 & tm2 & Sq2 & A2 & H2 & Tq2 & Dq2 & Oq2); auto.
      - rewrite Tb. eapply env_le; [|eapply env_agree; [exact Ev|apply A0]]. unfold n. lia.
      - destruct (Hup z) as (p & Ip & Hp). exists (D_assert (if stop then T_not x else x) :: p). split; [rewrite Ps; apply in_map; auto|]. constructor; auto. specialize (Dup z). destruct stop; cbn; eauto.
      - inversion Tq2; subst. rewrite Tb in A2. exists b, tm2. auto. }
    destruct (Run (VBool true)) as (y1 & _ & Sy1 & _). destruct (Run (VBool y1)) as (y2 & tm2 & Sy2 & A2 & H2 & D2).
    pose proof (ssem_unique _ _ _ _ _ Sy1 Sy2) as O. cbn in O. subst y2.
    assert (Tn : tm2 n = VBool y1) by (rewrite <- (A2 n ltac:(lia)); apply upd_same).
    exists (Some (SBool y1)), tm2. split; [apply Rg; auto|]. split; [eapply agree_trans; [apply (A0 (VBool y1))|]; eapply agree_le; [|exact A2]; unfold n; lia|]. split.
    + destruct H2 as (p & Ip & Hp). exists (D_def n y :: p). split; [cbn; apply in_app_iff; right; apply in_map; auto|]. constructor; auto. cbn. rewrite Tn. exact D2.
    + cbn [e_typ]. split; [eapply rep_true; [cbn; rewrite Tn; reflexivity|constructor|reflexivity]|eapply total_true; [cbn; rewrite Tn; reflexivity|constructor]].
Qed.

Lemma sound_binary l a op e1 e2 : sound e1 -> sound e2 -> sound (EBinary l a op e1 e2).
Proof.
  intros IH1 IH2.
  assert (Ty : In op [B_and; B_or; B_implies] -> forall S, wt G W true S (EBinary l a op e1 e2) -> e_typ e1 = Some TBool /\ e_typ e2 = Some TBool /\ a = Some TBool /\ wt G W true S e1 /\ wt G W true S e2).
  { intros Io S T. clear - Io T. inversion T; subst; first [exfalso; in_cases; subst; discriminate | auto 8]. }
  destruct op; try (apply sound_strict; auto; unfold strict_op; cbn; intuition discriminate); try (apply sound_eq; auto; cbn; auto; fail).
  - apply (lazy_ok l a B_and false false); auto.
    + intros. apply Ty; auto. cbn. auto. 
    + intros. eapply ss_and_stop; eauto.
    + intros. eapply ss_and_go; eauto.
    + intros d s X. inversion X; subst; eauto. exfalso. match goal with H : strict_op _ |- _ => apply H; cbn; tauto end.
  - apply (lazy_ok l a B_or true true); auto.
    + intros. apply Ty; auto. cbn. auto. 
    + intros. eapply ss_or_stop; eauto.
    + intros. eapply ss_or_go; eauto.
    + intros d s X. inversion X; subst; eauto. exfalso. match goal with H : strict_op _ |- _ => apply H; cbn; tauto end.
  - apply (lazy_ok l a B_implies false true); auto.
    + intros. apply Ty; auto. cbn. auto. 
    + intros. eapply ss_implies_stop; eauto.
    + intros. eapply ss_implies_go; eauto.
    + intros d s X. inversion X; subst; eauto. exfalso. match goal with H : strict_op _ |- _ => apply H; cbn; tauto end.
Qed.

Lemma compare_ok tm op x y w w' p q : den tm x w -> den tm y w' -> num_sv w = Some p -> num_sv w' = Some q -> op <> C_eq ->
  exists b, den tm (T_cmp op x y) (VBool b) /\ (b = true <-> cmp_holds op p q).
Proof.
  intros D D' Np Nq Ne. destruct (cmp_bool op p q) as (r & R). exists r. split; [|exact R].
  destruct op; try congruence; exists w, w', p, q, r; (split; [exact D|]); (split; [exact D'|]); auto.
Qed.
Lemma number_enc a s : st a s -> In a [TInt; TDec] -> exists p q, number s p /\ num_sv (enc a s) = Some q /\ (p == q)%Q.
Proof.
  intros X [<-|[<-|[]]]; inversion X; subst; cbn.
  - eexists _, _. split; [constructor|]. split; reflexivity.
  - eexists _, _. split; [constructor|]. split; [reflexivity|]. cbn. rewrite Qred_correct. reflexivity.
Qed.
Lemma sound_range l e1 e2 e3 : sound e1 -> sound e2 -> sound e3 -> sound (ERange l e1 e2 e3).
Proof.
  intros IH1 IH2 IH3 emit S env d s0 v s1 tm T P K Ev I E H N. cbn [tr] in E.
  vstep E v1 s2 E2. vstep E u s3 E3. vstep E v2 s4 E4. vstep E u' s5 E5. vstep E v3 s6 E6. vstep E u'' s7 E7.
  vstep E x sx Ex. apply vlift_ok in Ex. destruct Ex as [Ex ->]. vstep E y sx Ey. apply vlift_ok in Ey. destruct Ey as [Ey ->]. vstep E z sx Ez. apply vlift_ok in Ez. destruct Ez as [Ez ->].
  assert (exists n, In n [TInt; TDec] /\ e_typ e1 = Some n /\ e_typ e2 = Some n /\ e_typ e3 = Some n /\ wt G W true S e1 /\ wt G W true S e2 /\ wt G W true S e3) as (a & Ia & Et1 & Et2 & Et3 & T1 & T2 & T3).
  { clear - T. inversion T; subst. eauto 12. }
  destruct (sub_syn _ _ _ _ _ _ _ _ _ _ E2 E3 Ex (proj2 (proj2 Ev)) I) as (L3 & I3 & X3 & B3).
  assert (Bv : env_below (s_tmp s3) env) by (eapply env_below_le; [exact L3|apply Ev]).
  destruct (sub_syn _ _ _ _ _ _ _ _ _ _ E4 E5 Ey Bv I3) as (L5 & I5 & X5 & B5).
  assert (Bv' : env_below (s_tmp s5) env) by (eapply env_below_le; [exact L5|exact Bv]).
  destruct (sub_syn _ _ _ _ _ _ _ _ _ _ E6 E7 Ez Bv' I5) as (L7 & I7 & X7 & B7).
  assert (Bz : below (s_tmp s7) (T_and (T_cmp C_geq x y) (T_cmp C_leq x z))).
  { cbn. repeat split; auto; (eapply below_le; [|eassumption]; lia). }
  destruct (keeps_return (s_tmp s7) _ Bz s7 v s1 (le_n _) I7 E) as (L8 & I8 & X8 & _).
  assert (valued emit d e1 s3 /\ valued emit d e2 s5 /\ valued emit d e3 s7) as (N1 & N2 & N3).
  { unfold valued. destruct emit.
    - assert (goals_ok s7) by (eapply goals_ext; eauto). assert (goals_ok s5) by (eapply goals_ext; eauto). split; [eapply goals_ext; eauto|auto].
    - destruct N as [q N]. inversion N; subst. split; [|split]; eexists; eassumption. }
  destruct (sub_sem emit S env d e1 s0 v1 s2 _ u s3 x a tm IH1 T1 (vplain_range1 _ _ _ _ P) K Ev I E2 E3 Ex Et1 H N1) as (q1 & tm1 & Sq1 & A1 & H1 & Tq1 & Dq1 & Oq1).
  assert (Ev1 : ok_env S env d tm1 (s_tmp s3)) by (eapply env_le; [exact L3|]; eapply env_agree; eauto).
  destruct (sub_sem emit S env d e2 s3 v2 s4 _ u' s5 y a tm1 IH2 T2 (vplain_range2 _ _ _ _ P) K Ev1 I3 E4 E5 Ey Et2 H1 N2) as (q2 & tm2 & Sq2 & A2 & H2 & Tq2 & Dq2 & Oq2).
  assert (Ev2 : ok_env S env d tm2 (s_tmp s5)) by (eapply env_le; [exact L5|]; eapply env_agree; eauto).
  destruct (sub_sem emit S env d e3 s5 v3 s6 _ u'' s7 z a tm2 IH3 T3 (vplain_range3 _ _ _ _ P) K Ev2 I5 E6 E7 Ez Et3 H2 N3) as (q3 & tm3 & Sq3 & A3 & H3 & Tq3 & Dq3 & Oq3).
  assert (A23 : agree (s_tmp s3) tm1 tm3) by (eapply agree_trans; [exact A2|]; eapply agree_le; [exact L5|exact A3]).
  assert (Dx : den tm3 x (enc a q1)) by exact (sden_agree M _ _ _ _ _ B3 A23 Dq1). assert (Dy : den tm3 y (enc a q2)) by exact (sden_agree M _ _ _ _ _ B5 A3 Dq2).
  destruct (number_enc _ _ Tq1 Ia) as (p1 & r1 & Nu1 & Nr1 & Ne1). destruct (number_enc _ _ Tq2 Ia) as (p2 & r2 & Nu2 & Nr2 & Ne2). destruct (number_enc _ _ Tq3 Ia) as (p3 & r3 & Nu3 & Nr3 & Ne3).
  destruct (compare_ok tm3 C_geq x y _ _ _ _ Dx Dy Nr1 Nr2 ltac:(discriminate)) as (b1 & Db1 & Hb1). destruct (compare_ok tm3 C_leq x z _ _ _ _ Dx Dq3 Nr1 Nr3 ltac:(discriminate)) as (b2 & Db2 & Hb2).
  cbn in Hb1, Hb2. rewrite <- Ne1, <- Ne2 in Hb1. rewrite <- Ne1, <- Ne3 in Hb2.
  assert (Dz : den tm3 (T_and (T_cmp C_geq x y) (T_cmp C_leq x z)) (VBool (b1 && b2))) by (exists b1, b2; auto).
  destruct (return_ok _ _ _ _ _ _ E Bz I7 H3 Dz) as (tm4 & A4 & H4 & -> & D4).
  exists (Some (SBool (b1 && b2))), tm4. split; [eapply ss_range; eauto; rewrite andb_true_iff, Hb1, Hb2; reflexivity|].
  split; [eapply agree_trans; [exact A1|]; eapply agree_le; [exact L3|]; eapply agree_trans; [exact A23|]; eapply agree_le; [|exact A4]; lia|]. split; auto. cbn [e_typ].
  split; [eapply rep_true; eauto; constructor|eapply total_true; eauto; constructor].
Qed.

Definition oneof_go (emit : bool) (env : tenv) : list expr -> vm (list term) :=
  fix go (es : list expr) : vm (list term) :=
         match es with
         | [] => vret []
         | a :: es' =>
             let# v := tr G W emit env a in
             let# _ := checked emit v (e_loc a) in
             let# x := vlift (some_value (fst v)) in
             let# xs := go es' in
             vret (x :: xs)
         end.
Lemma oneof_syn emit env es : forall s0 xs s1, oneof_go emit env es s0 = Ok (xs, s1) -> env_below (s_tmp s0) env -> inv s0 ->
  (s_tmp s0 <= s_tmp s1)%nat /\ inv s1 /\ ext s0 s1 /\ Forall (below (s_tmp s1)) xs.
Proof.
  induction es as [|e es IH]; intros s0 xs s1 E B I; cbn in E.
  - injection E as <- <-. auto using ext_refl.
  - vstep E v s2 E2. vstep E u s3 E3. vstep E x s4 E4. apply vlift_ok in E4. destruct E4 as [E4 ->]. vstep E ys s4 E5. injection E as <- <-.
    destruct (sub_syn _ _ _ _ _ _ _ _ _ _ E2 E3 E4 B I) as (L3 & I3 & X3 & B3).
    destruct (IH _ _ _ E5 ltac:(eapply env_below_le; eauto) I3) as (L4 & I4 & X4 & B4).
    split; [lia|]. split; auto. split; [eapply ext_trans; eauto|]. constructor; auto. eapply below_le; eauto.
Qed.
Lemma sound_oneof l es : (forall e, In e es -> sound e) -> sound (EOneof l es).
Proof.
  intros IH emit S env d s0 v s1 tm T P K Ev I E H N.
  assert (E' : (let# xs := oneof_go emit env es in let# z := vlift (oneof_term xs) in create_return z) s0 = Ok (v, s1)) by exact E. clear E. rename E' into E.
  vstep E xs s2 E2. vstep E z s3 E3. apply vlift_ok in E3. destruct E3 as [E3 ->].
  destruct (oneof_syn _ _ _ _ _ _ E2 (proj2 (proj2 Ev)) I) as (L2 & I2 & X2 & B2).
  assert (Bz : below (s_tmp s2) z) by (eapply oneof_below; eauto). destruct (keeps_return (s_tmp s2) _ Bz s2 v s1 (le_n _) I2 E) as (L4 & I4 & X4 & _).
  assert (Te : forall e, In e es -> e_typ e = Some TBool /\ wt G W true S e) by (inversion T; subst; auto).
  assert (Pe : forall e, In e es -> vplain e) by (intros e Ie; eapply vplain_oneof; eauto).
  assert (Ne : if emit then goals_ok s2 else exists bs, Forall2 (fun e x => ssem d e (Some (SBool x))) es bs).
  { destruct emit; [eapply goals_ext; eauto|]. destruct N as [q N]. inversion N; subst. eauto. }
  assert (Go : forall es s0 xs s2 tm, oneof_go emit env es s0 = Ok (xs, s2) -> ok_env S env d tm (s_tmp s0) -> inv s0 -> held tm s0 ->
     (forall e, In e es -> sound e /\ e_typ e = Some TBool /\ wt G W true S e /\ vplain e) ->
     (if emit then goals_ok s2 else exists bs, Forall2 (fun e x => ssem d e (Some (SBool x))) es bs) ->
     exists bs tm', Forall2 (fun e x => ssem d e (Some (SBool x))) es bs /\ agree (s_tmp s0) tm tm' /\ held tm' s2 /\ dens M tm' xs bs).
  { clear - F K. induction es as [|e es IH]; intros s0 xs s1 tm E Ev I H A N; cbn in E.
    - injection E as <- <-. exists [], tm. repeat split; auto using agree_refl; constructor.
    - vstep E v s2 E2. vstep E u s3 E3. vstep E x s4 E4. apply vlift_ok in E4. destruct E4 as [E4 ->]. vstep E ys s4 E5. injection E as <- <-.
      destruct (sub_syn _ _ _ _ _ _ _ _ _ _ E2 E3 E4 (proj2 (proj2 Ev)) I) as (L3 & I3 & X3 & B3).
      destruct (oneof_syn _ _ _ _ _ _ E5 ltac:(eapply env_below_le; [exact L3|apply Ev]) I3) as (L4 & I4 & X4 & B4).
      destruct (A e (or_introl eq_refl)) as (Sd & Et & Te & Pe).
      destruct (sub_sem emit S env d e s0 v s2 _ u s3 x TBool tm Sd Te Pe K Ev I E2 E3 E4 Et H) as (q & tm1 & Sq & A1 & H1 & Tq & Dq & Oq).
      { unfold valued. destruct emit; [eapply goals_ext; eauto|]. destruct N as [bs N]. inversion N; subst. eauto. }
      inversion Tq; subst.
      destruct (IH s3 ys s4 tm1 E5 ltac:(eapply env_le; [exact L3|]; eapply env_agree; eauto) I3 H1 ltac:(intros; apply A; right; auto)) as (bs & tm2 & Fs & A2 & H2 & D2).
      { destruct emit; auto. destruct N as [bs N]. inversion N; subst. eauto. }
      exists (b :: bs), tm2. split; [constructor; auto|]. split; [eapply agree_trans; [exact A1|]; eapply agree_le; [exact L3|exact A2]|]. split; auto.
      constructor; auto. exact (sden_agree M _ _ _ _ _ B3 A2 Dq). }
  destruct (Go es s0 xs s2 tm E2 Ev I H) as (bs & tm1 & Fs & A1 & H1 & D1); auto.
  { intros e Ie. destruct (Te e Ie). auto. }
  destruct (oneof_ok M tm1 xs bs z E3 D1) as (b & Db & Hb).
  destruct (return_ok _ _ _ _ _ _ E Bz I2 H1 Db) as (tm2 & A2 & H2 & -> & D2).
  exists (Some (SBool b)), tm2. split; [econstructor; eauto|]. split; [eapply agree_trans; [exact A1|]; eapply agree_le; [exact L2|exact A2]|]. split; auto. cbn [e_typ].
  split; [eapply rep_true; eauto; constructor|eapply total_true; eauto; constructor].
Qed.

Definition cond_go (emit : bool) (env : tenv) (n : nat) (els : expr) : list (expr * expr) -> vm (list path) :=
  fix go (acts : list (expr * expr)) : vm (list path) :=
         match acts with
         | [] =>
             let# w := tr G W emit env els in
             let# _ := checked emit w (e_loc els) in
             let# y := vlift (some_value (fst w)) in
             let# _ := attach_temp n y in
             get_start
         | (c, x) :: acts' =>
             let# v := tr G W emit env c in
             let# _ := checked emit v (e_loc c) in
             let# test := vlift (some_value (fst v)) in
             let# start := get_start in
             let# _ := attach_assumption test in
             let# w := tr G W emit env x in
             let# _ := checked emit w (e_loc x) in
             let# y := vlift (some_value (fst w)) in
             let# _ := attach_temp n y in
             let# end1 := get_start in
             let# _ := set_start start in
             let# _ := attach_assumption (T_not test) in
             let# end2 := go acts' in
             vret (end1 ++ end2)
         end.
Lemma ext_map s s' s'' : s_vcs s' = s_vcs s -> ext s' s'' -> ext s s''.
Proof. intros E [vs X]. exists vs. congruence. Qed.
Lemma cond_syn emit env n els acts : forall s0 ps s1, cond_go emit env n els acts s0 = Ok (ps, s1) -> env_below (s_tmp s0) env -> inv s0 -> (n < s_tmp s0)%nat ->
  (s_tmp s0 <= s_tmp s1)%nat /\ ext s0 s1.
Proof.
  induction acts as [|[c x] acts IH]; intros s0 ps s1 E B I Ln; cbn in E.
  - vstep E v s2 E2. vstep E u s3 E3. vstep E y s4 E4. apply vlift_ok in E4. destruct E4 as [E4 ->]. vstep E u2 s4 E5. destruct u2. injection E5 as <-. injection E as <- <-.
    destruct (sub_syn _ _ _ _ _ _ _ _ _ _ E2 E3 E4 B I) as (L3 & I3 & X3 & B3). cbn. split; [lia|]. destruct X3 as [vs X3]. exists vs. auto.
  - vstep E v s2 E2. vstep E u s3 E3. vstep E y s4 E4. apply vlift_ok in E4. destruct E4 as [E4 ->]. vstep E start s4 E5. injection E5 as <- <-.
    vstep E u2 s4 E6. destruct u2. vstep E w s5 E7. vstep E u3 s6 E8. vstep E z s7 E9. apply vlift_ok in E9. destruct E9 as [E9 ->]. vstep E u4 s7 E10. destruct u4.
    vstep E e1 s8 E11. injection E11 as <- <-. vstep E u5 s8 E12. destruct u5. vstep E u6 s9 E13. destruct u6. vstep E e2 s10 E14. injection E as <- <-.
    destruct (sub_syn _ _ _ _ _ _ _ _ _ _ E2 E3 E4 B I) as (L3 & I3 & X3 & B3).
    destruct (keeps_add (s_tmp s3) (D_assert y) B3 s3 tt s4 (le_n _) I3 E6) as (L4 & I4 & X4 & _).
    destruct (sub_syn _ _ _ _ _ _ _ _ _ _ E7 E8 E9 ltac:(eapply env_below_le; [|exact B]; lia) I4) as (L6 & I6 & X6 & B6).
    assert (T9 : s_tmp s9 = s_tmp s6 /\ s_start s9 = map (cons (D_assert (T_not y))) (s_start s3) /\ s_vcs s9 = s_vcs s6).
    { injection E10 as <-. injection E12 as <-. injection E13 as <-. auto. }
    destruct T9 as (T9 & P9 & V9).
    assert (I9 : inv s9).
    { unfold inv, paths_below. rewrite T9, P9, Forall_map. revert I3. apply Forall_impl. intros p Pp. constructor; [cbn; eapply below_le; [|exact B3]; lia|eapply path_below_le; [|exact Pp]; lia]. }
    destruct (IH _ _ _ E14 ltac:(rewrite T9; eapply env_below_le; [|exact B]; lia) I9 ltac:(rewrite T9; lia)) as [L10 X10].
    split; [lia|]. eapply ext_trans; [exact X3|]. eapply ext_trans; [exact X4|]. eapply ext_trans; [exact X6|]. eapply ext_map; [|exact X10]. auto.
Qed.
Lemma sound_cond l acts els : (forall c x, In (c, x) acts -> sound c /\ sound x) -> sound els -> sound (ECond l acts els).
Proof.
  intros IH IHe emit S env d s0 v s1 tm T P K Ev I E H N.
  assert (E' : (let# n := new_temp in let# ends := cond_go emit env n els acts in let# _ := set_start ends in vret (Some (T_tmp n), T_true)) s0 = Ok (v, s1)) by exact E. clear E. rename E' into E.
  vstep E n s2 E2. injection E2 as <- <-. vstep E ends s3 E3. vstep E u s4 E4. destruct u. injection E4 as <-. injection E as <- <-. set (n := s_tmp s0) in *.
  assert (exists a, e_typ els = Some a /\ wt G W true S els /\ (forall c x, In (c, x) acts -> e_typ c = Some TBool /\ e_typ x = Some a) /\ (forall c x, In (c, x) acts -> wt G W true S c /\ wt G W true S x) /\ e_typ (ECond l acts els) = Some a)
    as (a & Ee & Tels & Ft & Fw & Et).
  { clear - T. inversion T; subst. exists a. split; auto. split; auto. split; auto. split; auto. destruct acts as [|[c0 x0] acts']; [congruence|]. cbn. eapply (H3 c0 x0). left. reflexivity. }
  assert (Pa : forall c x, In (c, x) acts -> vplain c /\ vplain x) by (intros c0 x0 I0; exact (vplain_cond _ _ _ _ _ P I0)).
  assert (Pe : vplain els) by exact (vplain_else _ _ _ P).
  assert (Go : forall acts s0 ps s1 tm, cond_go emit env n els acts s0 = Ok (ps, s1) -> ok_env S env d tm (s_tmp s0) -> inv s0 -> (n < s_tmp s0)%nat -> held tm s0 ->
     (forall c x, In (c, x) acts -> (sound c /\ sound x) /\ (e_typ c = Some TBool /\ e_typ x = Some a) /\ (wt G W true S c /\ wt G W true S x) /\ vplain c /\ vplain x) ->
     valued emit d (ECond l acts els) s1 ->
     exists q, ssem d (ECond l acts els) (Some q) /\ st a q /\ srt a (enc a q) /\ (tm n = enc a q -> exists tm', agree (s_tmp s0) tm tm' /\ heldp tm' ps)).
  { clearbody n. clear - F K IHe Ee Tels Pe. induction acts as [|[c x] acts IH]; intros s0 ps s1 tm E Ev I Ln H A N; cbn in E.
    - vstep E v s2 E2. vstep E u s3 E3. vstep E y s4 E4. apply vlift_ok in E4. destruct E4 as [E4 ->]. vstep E u2 s4 E5. destruct u2. injection E5 as <-. injection E as <- <-.
      destruct (sub_sem emit S env d els s0 v s2 _ u s3 y a tm IHe Tels Pe K Ev I E2 E3 E4 Ee H) as (q & tm1 & Sq & A1 & H1 & Tq & Dq & Oq).
      { unfold valued in *. destruct emit; [exact N|]. destruct N as [q N]. inversion N; subst. eauto. }
      exists q. split; [constructor; auto|]. split; auto. split; auto. intros Tn. exists tm1. split; auto. destruct H1 as (p & Ip & Hp). exists (D_def n y :: p). split; [cbn; apply in_map; auto|].
      constructor; auto. cbn. rewrite <- (A1 n Ln), Tn. exact Dq.
    - vstep E v s2 E2. vstep E u s3 E3. vstep E y s4 E4. apply vlift_ok in E4. destruct E4 as [E4 ->]. vstep E start s4 E5. injection E5 as <- <-.
      vstep E u2 s4 E6. destruct u2. vstep E w s5 E7. vstep E u3 s6 E8. vstep E z s7 E9. apply vlift_ok in E9. destruct E9 as [E9 ->]. vstep E u4 s7 E10. destruct u4.
      vstep E e1 s8 E11. injection E11 as <- <-. vstep E u5 s8 E12. destruct u5. vstep E u6 s9 E13. destruct u6. vstep E e2 s10 E14. injection E as <- <-.
      pose proof (proj2 (proj2 Ev)) as B.
      destruct (sub_syn _ _ _ _ _ _ _ _ _ _ E2 E3 E4 B I) as (L3 & I3 & X3 & B3).
      destruct (keeps_add (s_tmp s3) (D_assert y) B3 s3 tt s4 (le_n _) I3 E6) as (L4 & I4 & X4 & _).
      destruct (sub_syn _ _ _ _ _ _ _ _ _ _ E7 E8 E9 ltac:(eapply env_below_le; [|exact B]; lia) I4) as (L6 & I6 & X6 & B6).
      assert (T9 : s_tmp s9 = s_tmp s6 /\ s_start s9 = map (cons (D_assert (T_not y))) (s_start s3) /\ s_vcs s9 = s_vcs s6 /\ s_start s7 = map (cons (D_def n z)) (s_start s6)).
      { injection E10 as <-. injection E12 as <-. injection E13 as <-. auto. }
      destruct T9 as (T9 & P9 & V9 & P7).
      assert (I9 : inv s9).
      { unfold inv, paths_below. rewrite T9, P9, Forall_map. revert I3. apply Forall_impl. intros p Pp. constructor; [cbn; eapply below_le; [|exact B3]; lia|eapply path_below_le; [|exact Pp]; lia]. }
      destruct (cond_syn _ _ _ _ _ _ _ _ E14 ltac:(rewrite T9; eapply env_below_le; [|exact B]; lia) I9 ltac:(rewrite T9; lia)) as [L10 X10].
      assert (X10' : ext s6 s10) by (eapply ext_map; [|exact X10]; auto).
      destruct (A c x (or_introl eq_refl)) as ([Sc Sx] & [Ec Ex] & [Wc Wx] & [Pc Px]).
      destruct (sub_sem emit S env d c s0 v s2 _ u s3 y TBool tm Sc Wc Pc K Ev I E2 E3 E4 Ec H) as (qc & tm1 & Sqc & A1 & H1 & Tqc & Dqc & Oqc).
      { unfold valued in *. destruct emit; [|destruct N as [q N]; inversion N; subst; eauto]. eapply goals_ext; [|exact N]. eapply ext_trans; [exact X4|]. eapply ext_trans; eauto. }
      inversion Tqc; subst. cbn in Dqc. destruct b.
      + assert (Ev1 : ok_env S env d tm1 (s_tmp s4)) by (eapply env_le; [|eapply env_agree; [exact Ev|exact A1]]; lia).
        destruct (sub_sem emit S env d x s4 w s5 _ u3 s6 z a tm1 Sx Wx Px K Ev1 I4 E7 E8 E9 Ex) as (q & tm2 & Sq & A2 & H2 & Tq & Dq & Oq).
        { eapply held_add; [exact E6|exact Dqc|exact H1]. }
        { unfold valued in *. destruct emit; [eapply goals_ext; eauto|]. destruct N as [q N]. inversion N; subst; eauto.
          match goal with X : ssem d c (Some (SBool false)) |- _ => pose proof (ssem_unique _ _ _ _ _ X Sqc) as O; cbn in O; discriminate end. }
        exists q. split; [eapply ss_cond_true; eauto|]. split; auto. split; auto. intros Tn. exists tm2.
        split; [eapply agree_trans; [exact A1|]; eapply agree_le; [|exact A2]; lia|]. destruct H2 as (p & Ip & Hp). exists (D_def n z :: p). split; [rewrite P7; apply in_app_iff; left; apply in_map; auto|].
        constructor; auto. cbn. rewrite <- (A2 n ltac:(lia)), <- (A1 n Ln), Tn. exact Dq.
      + destruct (IH s9 e2 s10 tm1 E14) as (q & Sq & Tq & Oq & Hq).
        { rewrite T9. eapply env_le; [|eapply env_agree; [exact Ev|exact A1]]; lia. } { exact I9. } { rewrite T9. lia. }
        { destruct H1 as (p & Ip & Hp). exists (D_assert (T_not y) :: p). split; [rewrite P9; apply in_map; auto|]. constructor; auto. cbn. eauto. }
        { intros; apply A; right; auto. }
        { unfold valued in *. destruct emit; [exact N|]. destruct N as [q N]. inversion N; subst; eauto.
          match goal with X : ssem d c (Some (SBool true)) |- _ => pose proof (ssem_unique _ _ _ _ _ X Sqc) as O; cbn in O; discriminate end. }
        exists q. split; [eapply ss_cond_false; eauto|]. split; auto. split; auto. intros Tn. destruct Hq as (tm2 & A2 & (p & Ip & Hp)); [rewrite <- (A1 n Ln); exact Tn|].
        exists tm2. split; [eapply agree_trans; [exact A1|]; eapply agree_le; [|exact A2]; lia|]. exists p. split; auto. apply in_app_iff. auto. }
  assert (Up : forall z, agree n tm (upd tm n z)) by (intros z; apply agree_upd; auto).
  assert (Run : forall z, exists q, ssem d (ECond l acts els) (Some q) /\ st a q /\ srt a (enc a q) /\ (upd tm n z n = enc a q -> exists tm', agree (Datatypes.S n) (upd tm n z) tm' /\ heldp tm' ends)).
  { intros z. eapply (Go acts _ ends s3 (upd tm n z) E3); cbn [s_tmp].
    - eapply env_le; [|eapply env_agree; [exact Ev|apply Up]]. unfold n. lia.
    - eapply paths_below_le; [|exact I]. cbn. unfold n. lia.
    - unfold n. lia.
    - eapply heldp_agree; [exact I|apply Up|exact H].
    - intros c x Ic. destruct (IH c x Ic), (Ft c x Ic), (Fw c x Ic), (Pa c x Ic). auto 8.
    - unfold valued, meant in *. destruct emit; [exact N|]. destruct N as [q N]. destruct q as [q|]; [eauto|]. clear - N. exfalso. inversion N. }
  destruct (Run (VBool true)) as (q & Sq & Tq & Oq & _). destruct (Run (enc a q)) as (q' & Sq' & Tq' & _ & Hq').
  pose proof (ssem_unique _ _ _ _ _ Sq Sq') as O. cbn in O. destruct Hq' as (tm' & A' & H'); [rewrite upd_same; apply enc_same; auto|].
  assert (Tn : tm' n = enc a q) by (rewrite <- (A' n ltac:(lia)); apply upd_same).
  exists (Some q), tm'. split; auto. split; [eapply agree_trans; [apply (Up (enc a q))|]; eapply agree_le; [|exact A']; lia|]. split; [exact H'|]. rewrite Et.
  split; [eapply rep_true; [cbn; rewrite Tn; reflexivity|auto|auto]|eapply total_true; [cbn; rewrite Tn; reflexivity|auto]].
Qed.

Lemma valid_ok emit k l u s0 s1 tm oa x s : attach_validity_check emit k l s0 = Ok (u, s1) -> rep tm oa (x, k) s -> held tm s0 ->
  (if emit then goals_ok s1 else is_some s = true) -> is_some s = true /\ held tm s1.
Proof.
  intros C Rp Hd N. destruct u. pose proof (rep_valid _ _ _ _ _ _ _ _ Rp) as Rv. cbn [snd] in Rv. unfold attach_validity_check in C. destruct (is_static_true k) eqn:Es.
  - injection C as <-. split; auto. destruct k; try discriminate. destruct k as [| | |[]|]; try discriminate. cbn in Rv. congruence.
  - eapply goal_held; [exact C|reflexivity|exact Rv|exact Hd|]. destruct emit; auto.
Qed.
Lemma quant_decide d var body un vs : (forall v, In v vs -> exists y, ssem ((var, v) :: d) body (Some (SBool y))) ->
  (forall v, In v vs -> ssem ((var, v) :: d) body (Some (SBool un))) \/
  exists pre v post, vs = pre ++ v :: post /\ (forall v, In v pre -> ssem ((var, v) :: d) body (Some (SBool un))) /\ ssem ((var, v) :: d) body (Some (SBool (negb un))).
Proof.
  induction vs as [|v vs IH]; intros A; [left; intros v []|]. destruct (A v (or_introl eq_refl)) as [y Y]. destruct (Bool.bool_dec y un) as [->|Ne].
  - destruct IH as [B|(pre & w & post & -> & B & C)]; [intros; apply A; right; auto|left; intros w [<-|I]; auto|].
    right. exists (v :: pre), w, post. split; auto. split; auto. intros z [<-|I]; auto.
  - right. exists [], v, vs. split; auto. split; [intros z []|]. replace (negb un) with y by (destruct y, un; try reflexivity; exfalso; apply Ne; reflexivity). auto.
Qed.
Lemma index_ok tm el x xs n z : den tm x (VSeq xs) -> tm n = VInt z ->
  den tm (T_index el x (T_tmp n)) (if (0 <=? z) && (z <? Z.of_nat (List.length xs)) then nth (Z.to_nat z) xs (VBool false) else m_nth M el xs z).
Proof. intros D E. exists xs, z. split; [exact D|]. split; [symmetry; exact E|reflexivity]. Qed.
Lemma bounds_ok tm x xs n z : den tm x (VSeq xs) -> tm n = VInt z ->
  den tm (T_cmp C_geq (T_tmp n) (T_int 0)) (VBool (0 <=? z)) /\ den tm (T_cmp C_lt (T_tmp n) (T_seqlen x)) (VBool (z <? Z.of_nat (List.length xs))).
Proof.
  intros D E. split.
  - exists (VInt z), (VInt 0), (inject_Z z), (inject_Z 0), (0 <=? z). cbn. rewrite E. repeat split; auto; rewrite <- Zle_Qle; lia.
  - exists (VInt z), (VInt (Z.of_nat (List.length xs))), (inject_Z z), (inject_Z (Z.of_nat (List.length xs))), (z <? Z.of_nat (List.length xs)). cbn.
    rewrite E. split; auto. split; [eauto|]. repeat split; auto; rewrite <- Zlt_Qlt; lia.
Qed.
Lemma sound_quant l un var ls src body : sound body -> sound (EQuant l un var ls src body).
Proof.
  intros IH emit S env d s0 v s1 tm T P K Ev I E H N. cbn [tr] in E.
  vstep E sv0 s2 E2. apply vlift_ok in E2. destruct E2 as [E2 ->]. destruct sv0 as [x k].
  assert (exists i lo hi el opt, c_typ src = TArr i lo hi el /\ assoc (c_name src) S = Some (TArr i lo hi el, opt) /\ e_typ body = Some TBool /\ wt G W true ((var, (el, false)) :: S) body) as (ia & lo & hi & el & opt & Ct & As & Eb & Tb).
  { clear - T. inversion T; subst. match goal with H : c_typ src = _ |- _ => rewrite H in * end. eauto 12. }
  rewrite Ct in E. unfold name_reference in E2. destruct (assoc (c_name src) env) as [[x' k']|] eqn:Ae; [|discriminate]. injection E2 as -> ->.
  pose proof (proj2 (proj2 Ev)) as B. destruct (B _ _ _ Ae) as [Bx Bk].
  vstep E u s3 E3. destruct (keeps_valid _ emit k ls Bk s0 u s3 (le_n _) I E3) as (L3 & I3 & X3 & _).
  vstep E start s4 E4. injection E4 as <- <-. vstep E i s4 E4. injection E4 as <- <-. set (i := s_tmp s3) in *.
  vstep E u4 s5 E5. destruct u4. vstep E u5 s6 E6. destruct u5. vstep E u6 s7 E7. destruct u6. vstep E xi s8 E8.
  vstep E u8 s9 E9. destruct u8. vstep E w s10 E10. vstep E u10 s11 E11. vstep E u11 s12 E12. destruct u11. injection E12 as <-. vstep E j s13 E13. injection E13 as <- <-.
  vstep E b s14 E14. apply vlift_ok in E14. destruct E14 as [E14 ->]. destruct b as [ob kb]. vstep E b s15 E15. apply vlift_ok in E15. destruct E15 as [E15 ->]. injection E as <- <-.
  assert (T9 : xi = Datatypes.S i /\ s_tmp s9 = Datatypes.S (Datatypes.S i) /\ s_vcs s9 = s_vcs s3 /\
     s_start s9 = map (fun p => D_def xi (T_index el x (T_tmp i)) :: D_assert (T_cmp C_lt (T_tmp i) (T_seqlen x)) :: D_assert (T_cmp C_geq (T_tmp i) (T_int 0)) :: D_fresh i :: p) (s_start s3)).
  { clear - E5 E6 E7 E8 E9. injection E5 as <-. injection E6 as <-. injection E7 as <-. injection E8 as <- <-. injection E9 as <-. cbn. rewrite !map_map. auto. }
  destruct T9 as (-> & T9 & V9 & P9). set (env1 := (var, (T_tmp (Datatypes.S i), T_true)) :: env) in *.
  assert (B9 : env_below (s_tmp s9) env1).
  { unfold env1. apply env_below_cons; [cbn; lia|exact Logic.I|]. eapply env_below_le; [|exact B]. lia. }
  assert (I9 : inv s9).
  { unfold inv, paths_below. rewrite P9, T9, Forall_map. revert I3. apply Forall_impl. intros p Pp.
    repeat constructor; cbn; try lia; try (eapply below_le; [|exact Bx]; lia). eapply path_below_le; [|exact Pp]. unfold i. lia. }
  destruct (tr_syn _ _ _ _ _ _ E10 B9 I9) as (L10 & I10 & X10 & T10). destruct (keeps_checked _ emit w (e_loc body) T10 s10 u10 s11 (le_n _) I10 E11) as (L11 & I11 & X11 & _).
  assert (X9 : ext s3 s11) by (eapply ext_map; [exact V9|]; eapply ext_trans; eauto).
  destruct Ev as (Er & Et & _). destruct (Er _ _ _ As) as (x0 & k0 & av & Ae' & Ad & Fv & Rv). rewrite Ae in Ae'. injection Ae' as <- <-.
  assert (Y : is_some (sval_of av) = true /\ held tm s3).
  { eapply valid_ok; [exact E3|exact Rv|exact H|]. destruct emit; [eapply goals_ext; [exact X9|exact N]|].
    destruct N as [q N]. clear - N Ad. inversion N; subst; match goal with Q : assoc _ d = Some (XArr _ _ _) |- _ => rewrite Q in Ad; injection Ad as <-; reflexivity end. }
  destruct Y as [Ya H3].
  assert (exists la vs, av = XArr la (TArr ia lo hi el) vs /\ forall v, In v vs -> vt G W el v) as (la & vs & -> & Fs).
  { clear - Fv Ya. destruct Fv as [V|(_ & l0 & ->)]; [|discriminate]. inversion V; subst; eauto.
    - match goal with Q : lit_typ ?k0 = TArr _ _ _ _ |- _ => destruct k0 as [| |? []| |]; cbn in Q; discriminate Q end.
    - match goal with Q : TArr _ _ _ _ = _ \/ _ |- _ => destruct Q; discriminate end. }
  cbn [sval_of] in Rv. set (xs := map (fun v => match sval_of v with Some s => s | None => SBool false end) vs) in *.
  destruct (Et _ _ _ As) as (x0 & k0 & w0 & b0 & Ae' & Dw & Ow & _). rewrite Ae in Ae'. injection Ae' as <- <-.
  destruct (rep_some _ _ _ _ _ _ _ _ _ _ Rv Dw) as [Sx ->]. cbn [VcgEnc.enc] in Dw, Ow.
  assert (Sel : Forall (st el) xs) by (inversion Sx; auto). assert (Oel : Forall (srt el) (map (enc el) xs)) by (inversion Ow; auto). clear Sx Ow.
  assert (Len : List.length xs = List.length vs) by apply map_length.
  assert (El : forall n v, nth_error vs n = Some v -> exists q, sval_of v = Some q /\ st el q /\ srt el (enc el q) /\ fits G W el false v /\ nth n (map (enc el) xs) (VBool false) = enc el q).
  { intros n v Nv. assert (Vv : vt G W el v) by (apply Fs; eapply nth_error_In; eauto). destruct (vt_stores _ _ _ _ Vv) as (q & Q & _). exists q. split; auto.
    assert (Nq : nth_error xs n = Some q) by (unfold xs; erewrite map_nth_error; [|exact Nv]; cbn; rewrite Q; auto).
    rewrite Forall_forall in Sel, Oel. split; [apply Sel; eapply nth_error_In; eauto|]. split; [apply Oel; apply in_map; eapply nth_error_In; eauto|].
    split; [left; auto|]. apply nth_error_nth. apply map_nth_error. auto. }
  assert (Kel : okt G el) by (pose proof (K _ _ _ As) as Ka; apply Ka).
  assert (K1 : okS ((var, (el, false)) :: S)).
  { intros n a o A. cbn in A. destruct (text_eqb var n); [injection A as <- <-; auto|eapply K; eauto]. }
  assert (Pb : vplain body) by exact (vplain_quant _ _ _ _ _ _ P).
  assert (Sq : exists q, ssem d (EQuant l un var ls src body) q).
  { destruct emit; [|exact N]. assert (All : forall v, In v vs -> exists y, ssem ((var, v) :: d) body (Some (SBool y))).
    { intros v Iv. destruct (In_nth_error _ _ Iv) as [n Nn]. destruct (El _ _ Nn) as (q & Q & Stq & Orq & Fq & Nq).
      set (tm1 := upd (upd tm i (VInt (Z.of_nat n))) (Datatypes.S i) (enc el q)).
      assert (A1 : agree i tm tm1) by (eapply agree_trans; [apply (agree_upd i tm i (VInt (Z.of_nat n))); lia|apply agree_upd; lia]).
      assert (Ti : tm1 i = VInt (Z.of_nat n)).
      { assert (A2 : agree (Datatypes.S i) (upd tm i (VInt (Z.of_nat n))) tm1) by (apply agree_upd; lia). rewrite <- (A2 i ltac:(lia)). apply upd_same. }
      assert (Dx1 : den tm1 x (VSeq (map (enc el) xs))).
      { refine (sden_agree M _ i _ _ _ _ A1 Dw). eapply below_le; [exact L3|exact Bx]. }
      assert (Lt : (n < List.length vs)%nat) by (apply nth_error_Some; congruence).
      assert (H9 : held tm1 s9).
      { destruct H3 as (p & Ip & Hp). unfold held. rewrite P9. eexists. split; [apply in_map; exact Ip|].
        destruct (bounds_ok tm1 x _ i _ Dx1 Ti) as [Bo1 Bo2]. pose proof (index_ok tm1 el x _ i _ Dx1 Ti) as Di. rewrite map_length, Len in Bo2, Di.
        replace (0 <=? Z.of_nat n) with true in * by lia. replace (Z.of_nat n <? Z.of_nat (List.length vs)) with true in * by lia. cbn [andb] in Di. rewrite Nat2Z.id, Nq in Di.
        constructor; [cbn [stmt_holds]; unfold tm1 at 2; rewrite upd_same; exact Di|]. constructor; [exact Bo2|]. constructor; [exact Bo1|]. constructor; [cbn; eauto|].
        eapply path_agree; [|exact A1|exact Hp]. unfold inv, paths_below in I3. rewrite Forall_forall in I3. apply I3. auto. }
      assert (Ev1 : ok_env ((var, (el, false)) :: S) env1 ((var, v) :: d) tm1 (s_tmp s9)).
      { assert (Ev0 : ok_env S env d tm1 i) by (eapply env_agree; [|exact A1]; split; [exact Er|split; [exact Et|eapply env_below_le; [|exact B]; auto]]). destruct Ev0 as (Er0 & Et0 & _).
        split; [|split; [|exact B9]]; intros m a o A; cbn in A; unfold env1; cbn; destruct (text_eqb var m); try (eapply Er0; eassumption); try (eapply Et0; eassumption); injection A as <- <-.
        - exists (T_tmp (Datatypes.S i)), T_true, v. split; auto. split; auto. split; auto. rewrite Q. eapply rep_true; [cbn; unfold tm1; rewrite upd_same; reflexivity|exact Stq|reflexivity].
        - exists (T_tmp (Datatypes.S i)), T_true, (enc el q), true. split; auto. split; [cbn; unfold tm1; rewrite upd_same; reflexivity|]. split; [exact Orq|reflexivity]. }
      assert (G10 : goals_ok s10) by (eapply goals_ext; [exact X11|exact N]).
      destruct (IH true _ env1 _ s9 w s10 tm1 Tb Pb K1 Ev1 I9 E10 H9 G10) as (sx & tmx & _ & _ & _ & _ & Tx). rewrite Eb in Tx. destruct Tx as (t & _ & _ & Et1 & _).
      destruct (sub_sem true _ env1 _ body s9 w s10 _ u10 s11 t TBool tm1 IH Tb Pb K1 Ev1 I9 E10 E11 ltac:(rewrite Et1; reflexivity) Eb H9 N) as (qb & _ & Sb & _ & _ & Tqb & _).
      inversion Tqb; subst. eauto. }
    destruct (quant_decide _ _ _ un _ All) as [A|(pre & v & post & -> & A & C)]; eexists; [eapply ss_quant_all; eauto|eapply ss_quant_stop; eauto]. }
  clear N. destruct Sq as [q Sq]. exists q, tm. split; auto. split; [apply agree_refl|]. split; [exact H3|]. cbn [e_typ].
  set (j := s_tmp s11) in *. set (tmj := fun z => upd tm j (VInt z)).
  assert (Lj : (s_tmp s0 <= j)%nat) by (unfold j; lia).
  assert (Aj : forall z, agree (s_tmp s0) tm (tmj z)) by (intros z; apply agree_upd; exact Lj).
  assert (Tj : forall z, tmj z j = VInt z) by (intros z; apply upd_same).
  assert (Dj : forall z, den (tmj z) x (VSeq (map (enc el) xs))) by (intros z; exact (sden_agree M _ _ _ _ _ Bx (Aj z) Dw)).
  set (inr := fun z => (0 <=? z) && (z <? Z.of_nat (List.length vs))).
  assert (Bd : forall z, den (tmj z) (T_and (T_cmp C_geq (T_tmp j) (T_int 0)) (T_cmp C_lt (T_tmp j) (T_seqlen x))) (VBool (inr z))).
  { intros z. destruct (bounds_ok (tmj z) x _ j _ (Dj z) (Tj z)) as [B1 B2]. rewrite map_length, Len in B2. exists (0 <=? z), (z <? Z.of_nat (List.length vs)). auto. }
  set (env2 := (var, (T_index el x (T_tmp j), T_true)) :: env) in *.
  assert (Dn : forall z, exists wz, den (tmj z) (T_index el x (T_tmp j)) wz /\ srt el wz /\
     forall v, inr z = true -> nth_error vs (Z.to_nat z) = Some v -> exists q, sval_of v = Some q /\ st el q /\ wz = enc el q).
  { intros z. pose proof (index_ok (tmj z) el x _ j _ (Dj z) (Tj z)) as Di. rewrite map_length, Len in Di. fold (inr z) in Di. eexists. split; [exact Di|]. destruct (inr z) eqn:Iz.
    - assert (Lz : (Z.to_nat z < List.length vs)%nat) by (unfold inr in Iz; lia). destruct (nth_error vs (Z.to_nat z)) as [v|] eqn:Nz; [|apply nth_error_None in Nz; lia].
      destruct (El _ _ Nz) as (q0 & Q & Stq & Orq & _ & Nq). rewrite Nq. split; auto. intros v' _ [= <-]. eauto.
    - split; [|discriminate]. eapply sort_weaken. eapply f_nth; [exact F|]. apply okt_usable. auto. }
  assert (Ej : forall z, Etot ((var, (el, false)) :: S) env2 (tmj z)).
  { intros z m a o A. cbn in A. unfold env2. cbn. destruct (text_eqb var m); [injection A as <- <-|].
    - destruct (Dn z) as (wz & Dz & Oz & _). exists (T_index el x (T_tmp j)), T_true, wz, true. split; auto. split; auto. split; auto. reflexivity.
    - destruct (Et _ _ _ A) as (y & yk & wy & by0 & Ay & Dy & Oy & By). destruct (B _ _ _ Ay). exists y, yk, wy, by0. repeat split; auto; eapply sden_agree; eauto. }
  assert (Bj : forall z, exists y, den (tmj z) b (VBool y)).
  { intros z. destruct (faithful_fun _ _ _ _ F body _ env2 (tmj z) (ob, kb) Tb Pb (Ej z) E14) as [Tt _]. rewrite Eb in Tt. destruct Tt as (t & w1 & b1 & Ot & Dt & Owt & _).
    cbn in Ot. subst ob. cbn in E15. injection E15 as ->. inversion Owt; subst. eauto. }
  assert (Bv : forall z v y, inr z = true -> nth_error vs (Z.to_nat z) = Some v -> ssem ((var, v) :: d) body (Some (SBool y)) -> den (tmj z) b (VBool y)).
  { intros z v y Iz Nz Sy. destruct (faithful_fun _ _ _ _ F body _ env2 (tmj z) (ob, kb) Tb Pb (Ej z) E14) as [_ Rp].
    assert (Erj : Erep ((var, (el, false)) :: S) env2 ((var, v) :: d) (tmj z)).
    { intros m a o A. cbn in A. unfold env2. cbn. destruct (text_eqb var m); [injection A as <- <-|].
      - destruct (Dn z) as (wz & Dz & Oz & Qz). destruct (Qz v Iz Nz) as (q0 & Q & Stq & ->). exists (T_index el x (T_tmp j)), T_true, v. split; auto. split; auto.
        split; [left; apply Fs; eapply nth_error_In; eauto|]. rewrite Q. eapply rep_true; eauto.
      - destruct (Er _ _ _ A) as (y0 & yk & vy & Ay & Dy & Fy & Ry). destruct (B _ _ _ Ay). exists y0, yk, vy. repeat split; auto. eapply rep_agree; [|apply (Aj z)|exact Ry]. split; [intros ? [= <-]|]; auto. }
    specialize (Rp _ _ Erj Sy). rewrite Eb in Rp. destruct Rp as (_ & a & t & Ea & Ot & _ & Dt). injection Ea as <-. cbn in Ot. subst ob. cbn in E15. injection E15 as ->. exact Dt. }
  assert (Res : exists r, q = Some (SBool r) /\ den tm (T_quant un j (if un then T_implies (T_and (T_cmp C_geq (T_tmp j) (T_int 0)) (T_cmp C_lt (T_tmp j) (T_seqlen x))) b else T_and (T_and (T_cmp C_geq (T_tmp j) (T_int 0)) (T_cmp C_lt (T_tmp j) (T_seqlen x))) b)) (VBool r)).
  { assert (Bool : forall z y, den (tmj z) b (VBool y) ->
      den (tmj z) (if un then T_implies (T_and (T_cmp C_geq (T_tmp j) (T_int 0)) (T_cmp C_lt (T_tmp j) (T_seqlen x))) b else T_and (T_and (T_cmp C_geq (T_tmp j) (T_int 0)) (T_cmp C_lt (T_tmp j) (T_seqlen x))) b)
        (VBool (if un then negb (inr z) || y else inr z && y))).
    { intros z y Dy. destruct un; cbn [sden]; exists (inr z), y; (split; [apply Bd|]); (split; [exact Dy|reflexivity]). }
    assert (All : (forall v, In v vs -> ssem ((var, v) :: d) body (Some (SBool un))) -> forall z, exists y, den (tmj z) b (VBool y) /\ (inr z = true -> y = un)).
    { intros A z. destruct (inr z) eqn:Iz; [|destruct (Bj z) as [y Y]; exists y; split; [auto|discriminate]].
      assert (Lz : (Z.to_nat z < List.length vs)%nat) by (unfold inr in Iz; lia). destruct (nth_error vs (Z.to_nat z)) as [v|] eqn:Nz; [|apply nth_error_None in Nz; lia].
      exists un. split; auto. eapply Bv; eauto. apply A. eapply nth_error_In; eauto. }
    clear Bd Bj E14 E15 E10 E11 IH. revert Bool. match goal with |- context [T_quant un j ?q] => generalize q end. intros qb Bool.
    assert (Cases : (q = Some (SBool un) /\ (forall v, In v vs -> ssem ((var, v) :: d) body (Some (SBool un)))) \/
       exists pre v post, q = Some (SBool (negb un)) /\ vs = pre ++ v :: post /\ ssem ((var, v) :: d) body (Some (SBool (negb un)))).
    { clear - Sq Ad. inversion Sq; subst; match goal with Q : assoc _ d = Some (XArr _ _ _) |- _ => rewrite Q in Ad; injection Ad; intros; subst end; [left; auto|right; eauto 8]. }
    destruct Cases as [[-> A]|(pre & v & post & -> & Ev0 & C)].
    - exists un. split; auto. specialize (All A). exists un. split; auto. destruct un.
      + split; auto. intros _ z. destruct (All z) as (y & Y & Yi). pose proof (Bool z y Y) as Bz. destruct (inr z); [rewrite (Yi eq_refl) in Bz|]; exact Bz.
      + split; [discriminate|]. intros (z & Dz). destruct (All z) as (y & Y & Yi). pose proof (sden_fun _ _ _ _ _ (Bool z y Y) Dz) as Q.
        destruct (inr z); [rewrite (Yi eq_refl) in Q|]; discriminate Q.
    - exists (negb un). split; auto. set (z := Z.of_nat (List.length pre)).
      assert (Iz : inr z = true) by (unfold inr, z; rewrite Ev0, app_length; cbn [List.length]; lia).
      assert (Nz : nth_error vs (Z.to_nat z) = Some v) by (unfold z; rewrite Nat2Z.id, Ev0, nth_error_app2, Nat.sub_diag; auto).
      pose proof (Bool z _ (Bv z v _ Iz Nz C)) as Bz. rewrite Iz in Bz. exists (negb un). split; auto. destruct un; cbn [negb orb andb] in *.
      + split; [discriminate|]. intros A. pose proof (sden_fun _ _ _ _ _ Bz (A z)) as Q. discriminate Q.
      + split; auto. intros _. exists z. exact Bz. }
  destruct Res as (r & -> & Dr). split; [eapply rep_true; [exact Dr|constructor|reflexivity]|eapply total_true; [exact Dr|constructor]].
Qed.

Theorem sound_all e : sound e.
Proof.
  induction e using expr_ind2.
  - apply sound_null.
  - apply sound_lit.
  - apply sound_name.
  - apply sound_unary; auto.
  - apply sound_binary; auto.
  - apply sound_field; auto.
  - apply sound_range; auto.
  - apply sound_oneof; auto.
  - apply sound_cond; auto.
  - apply sound_quant; auto.
Qed.
End SOUND.
