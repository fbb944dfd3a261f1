(** The goals of tuple types, what is reported, and the checks at run time. *)
From Coq Require Import Relations.
From Verif Require Import Base Lexer MathModel Ast Eval TypesProofs Typing Soundness EvalSpec EvalCorrect SemEval Checks Vcg VcgSem VcgEnc VcgFun VcgModel VcgChecks VcgMain.
From Coq Require Import ZifyBool ZifyNat.
Open Scope Z_scope.

(** ** Tuple types *)
Section TUPLE.
Variable G : types.
Variable W : world.
Hypothesis FW : fit_world G W.

Theorem tuple_sound u ut vs vcs : tup G u = Some ut ->
  (forall c, In c (u_comps ut) -> exists v, assoc (c_name c) vs = Some v /\ fit_value G W None c v) ->
  tuple_goals G W u = Ok vcs -> (forall v, In v vcs -> expect_unsat (vc_feedback v) = true -> vc_valid G (u_comps ut) v) ->
  forall pre ck post, phases (u_checks ut) = pre ++ ck :: post ->
  (forall c, In c pre -> ck_sev c = Sev_fatal -> sem W vs (ck_expr c) (Some (SBool true))) ->
  exists b, ssem W vs (ck_expr ck) (Some (SBool b)) /\
    exists p x n, In (VC p x (Feedback n (e_loc (ck_expr ck)) K_always_true)) vcs /\
                  (vc_valid G (u_comps ut) (VC p x (Feedback n (e_loc (ck_expr ck)) K_always_true)) -> b = true).
Proof.
  pose proof (fw_types _ _ FW) as FT. intros Eu Fv Eg Vv pre ck post Ep Fp.
  destruct (junk_exists G) as [junk junk_ok]. { intros u' ut' c Eu' I. apply okt_usable. eapply (ft_tup_okt _ _ FT); eauto. }
  unfold tuple_goals in Eg. rewrite Eu in Eg.
  assert (Ph : in_phases (map (pair true) (u_checks ut)) = map (pair true) (pre ++ ck :: post)).
  { rewrite <- Ep. unfold in_phases, phases. rewrite !filter_map, map_app. reflexivity. }
  rewrite map_app in Ph. cbn [map] in Ph.
  assert (Hin : forall o c, In (o, c) (map (pair true) pre ++ [(true, ck)]) -> o = true /\ In c (pre ++ ck :: post)).
  { intros o c I. apply in_app_iff in I as [I|[[= <- <-]|[]]]; [|split; auto; apply in_elt]. apply in_map_iff in I as (x & [= <- <-] & I). split; auto. apply in_app_iff. auto. }
  destruct (goals_sound G W FW junk junk_ok _ _ _ vs vcs _ true ck _ (ft_tup _ _ FT u ut Eu) (fun c => ft_tup_okt _ _ FT u ut c Eu) Fv Eg Vv Ph) as (b & Sb & K).
  - intros o c I. apply Hin in I as [_ I]. rewrite <- Ep in I. apply (proj1 (phases_in _ _)) in I. eapply (ft_checks _ _ FT); eauto.
  - intros c I. apply Hin in I as [I _]. discriminate.
  - intros o c I. apply in_map_iff in I as (x & [= <- <-] & I). auto.
  - exists b. auto.
Qed.
End TUPLE.

(** ** Reports *)
Section REPORT.
Variable solve : vc -> status.

Lemma nok_grows vcs : forall s f, In f (f_nok s) -> In f (f_nok (fold_left (solve_one solve) vcs s)).
Proof.
  induction vcs as [|v vcs IH]; intros s f I; cbn; auto. apply IH. unfold solve_one.
  destruct (expect_unsat (vc_feedback v) && fb_in (vc_feedback v) (f_nok s)); auto. destruct (expect_unsat (vc_feedback v)), (solve v); cbn; auto; apply in_app_iff; auto.
Qed.
Lemma nok_kind vcs : forall s, (forall f, In f (f_nok s) -> expect_unsat f = true) -> forall f, In f (f_nok (fold_left (solve_one solve) vcs s)) -> expect_unsat f = true.
Proof.
  induction vcs as [|v vcs IH]; intros s H; cbn; auto. apply IH. unfold solve_one.
  destruct (expect_unsat (vc_feedback v) && fb_in (vc_feedback v) (f_nok s)); auto. destruct (expect_unsat (vc_feedback v)) eqn:E, (solve v); cbn; auto; intros f I; apply in_app_iff in I as [I|[<-|[]]]; auto.
Qed.
Lemma all_unsat vcs : forall s, f_nok (fold_left (solve_one solve) vcs s) = [] ->
  forall v, In v vcs -> expect_unsat (vc_feedback v) = true -> solve v = Unsat.
Proof.
  induction vcs as [|v vcs IH]; intros s E v' I X; [contradiction|]. cbn in E. destruct I as [<-|I]; [|eauto].
  assert (N : f_nok (solve_one solve s v) = []). { destruct (f_nok (solve_one solve s v)) as [|f l] eqn:Y; auto. pose proof (nok_grows vcs (solve_one solve s v) f) as Z. rewrite Y, E in Z. destruct Z. left. auto. }
  unfold solve_one in N. rewrite X in N. cbn in N. destruct (fb_in (vc_feedback v) (f_nok s)) eqn:Fi.
  - rewrite N in Fi. discriminate.
  - destruct (solve v); auto; cbn in N; destruct (f_nok s); discriminate.
Qed.
(** Nothing but superfluous checks is reported: all goals that protect
    evaluation were found valid. *)
Lemma clean_report vcs : (forall f, In f (report solve vcs) -> expect_unsat f = false) ->
  forall v, In v vcs -> expect_unsat (vc_feedback v) = true -> solve v = Unsat.
Proof.
  intros H. apply (all_unsat vcs (Found [] [] [])). destruct (f_nok (fold_left (solve_one solve) vcs (Found [] [] []))) as [|f l] eqn:E; auto.
  assert (I : In f (report solve vcs)) by (unfold report; rewrite E; left; auto). pose proof (nok_kind vcs (Found [] [] []) (fun f I => match I with end) f) as K. rewrite E in K. specialize (K (or_introl eq_refl)). apply H in I. congruence.
Qed.

Lemma feasible_out nok : forall ok f, In f (report_feasible nok ok) -> fb_in f ok = false.
Proof.
  induction nok as [|g nok IH]; intros ok f I; cbn in I; [contradiction|]. destruct (fb_in g ok) eqn:E; auto. destruct I as [<-|I]; auto.
  apply IH in I. unfold fb_in in *. cbn in I. apply orb_false_iff in I. tauto.
Qed.
Lemma ok_grows vcs : forall s f, fb_in f (f_ok_feasible s) = true -> fb_in f (f_ok_feasible (fold_left (solve_one solve) vcs s)) = true.
Proof.
  induction vcs as [|v vcs IH]; intros s f I; cbn; auto. apply IH. unfold solve_one.
  destruct (expect_unsat (vc_feedback v) && fb_in (vc_feedback v) (f_nok s)); auto. destruct (expect_unsat (vc_feedback v)), (solve v); cbn; auto; unfold fb_in in *; cbn; rewrite I; apply orb_true_r.
Qed.
(** A check reported as superfluous was found so on all ways to it. *)
Lemma reported_always vcs f : In f (report solve vcs) -> expect_unsat f = false ->
  forall v, In v vcs -> fb_id (vc_feedback v) = fb_id f -> expect_unsat (vc_feedback v) = false -> solve v = Unsat.
Proof.
  unfold report. intros I Ef v Iv Ei Ev. apply in_app_iff in I as [I|I].
  - apply (nok_kind vcs (Found [] [] []) (fun f I => match I with end)) in I. congruence.
  - apply feasible_out in I. destruct (solve v) eqn:Es; auto; exfalso.
    all: assert (X : forall vcs s, In v vcs -> fb_in f (f_ok_feasible (fold_left (solve_one solve) vcs s)) = true); [|rewrite X in I; [discriminate|exact Iv]].
    all: clear - Es Ev Ei; induction vcs as [|w vcs IH]; intros s Iv; [contradiction|]; cbn; destruct Iv as [->|Iv]; [|apply IH; auto]; apply ok_grows; unfold solve_one; rewrite Ev, Es; cbn; unfold fb_in; cbn; rewrite Ei, Nat.eqb_refl; auto.
Qed.
End REPORT.

(** ** Run time *)
Definition no_system {A} (r : run A) : Prop := forall e, ~ In (M_system e) (fst r).
Lemma no_system_seq {A B} (r : run A) (k : A -> run B) : no_system r -> (forall a, snd r = Returned a -> no_system (k a)) -> no_system (seq r k).
Proof.
  intros H K e. destruct r as [ms [a| |]]; cbn in *; try apply H. specialize (K a eq_refl). specialize (H e). destruct (k a) as [ms' o] eqn:Ek. cbn in *. intros I. apply in_app_iff in I as [I|I]; [auto|]. apply (K e). rewrite ?Ek. auto.
Qed.
Section RUN.
Variable G : types.
Variable W : world.
Hypothesis FW : fit_world G W.
Variable S : scope.
Variable d : list (text * vexpr).
Hypothesis Sc : scope_ok G W S d.

Lemma decided ck b : good_check G W S ck -> sem W d (ck_expr ck) (Some (SBool b)) -> exists v a, evaluate W (Some d) (ck_expr ck) = Ok v /\ v_val v = Some (PBool b, a).
Proof.
  pose proof (fw_types _ _ FW) as FT. intros (T & E & P) Sm.
  destruct (evaluates G W (ft_order _ _ FT) (fw_objects _ _ FW) (ft_rec _ _ FT) (ft_tup _ _ FT) (fw_apart _ _ FW) _ _ _ _ T Sc (vplain_plain _ P) Sm) as (v & Ev & O).
  destruct (oden_bool G W v b S d _ T Sc Ev O) as (a & A). eauto.
Qed.
Lemma perform_quiet ck l b : good_check G W S ck -> sem W d (ck_expr ck) (Some (SBool b)) ->
  no_system (perform W ck l d) /\ forall r, snd (perform W ck l d) = Returned r -> ck_sev ck = Sev_fatal -> b = true.
Proof.
  intros Gc Sm. destruct (decided ck b Gc Sm) as (v & a & E & V). unfold perform. rewrite E, V. destruct b; [split; [intros e []|auto]|].
  destruct (get_real_location ck l d); [|split; [intros e []|discriminate]]. destruct (ck_sev ck); (split; [intros e [X|[]]; discriminate|]); cbn; intros; discriminate.
Qed.
Lemma list_quiet l cks : (forall ck, In ck cks -> good_check G W S ck) ->
  (forall pre ck post, cks = pre ++ ck :: post -> (forall c, In c pre -> ck_sev c = Sev_fatal -> sem W d (ck_expr c) (Some (SBool true))) -> exists b, sem W d (ck_expr ck) (Some (SBool b))) ->
  forall ok, no_system (perform_list W cks l d ok).
Proof.
  induction cks as [|ck cks IH]; intros Gc H ok; [intros e []|]. cbn [perform_list].
  destruct (H [] ck cks eq_refl) as [b Sb]; [contradiction|]. destruct (perform_quiet ck l b (Gc ck (or_introl eq_refl)) Sb) as [Q R].
  apply no_system_seq; auto. intros r Er. apply IH; [intros; apply Gc; right; auto|]. intros pre c post E Ft. apply (H (ck :: pre) c post); [cbn; congruence|].
  intros c0 [<-|I] F0; auto. rewrite <- (R _ Er F0). exact Sb.
Qed.
End RUN.
