(** Property theorems: C25 and C45 for whole runs (what checks mean). *)
From Coq Require Import Relations.
From Verif Require Import Base Lexer SymTab Ast Eval Typing TypesProofs Soundness EvalSpec EvalCorrect ParserBase ParserDecl DeclSyntax Process ProcessRun RunMeaning CheckCrash Prop_Process Prop_Valid.
From Verif Require Checks ChecksProofs SourceMan RunValid LintRun.
Import SourceMan (fkind, RSL, TRLC).
Open Scope Z_scope.

Section RUN.
Variable compiles : text -> bool.
Variable matches : text -> text -> option bool.
Variable pick : list SourceMan.node -> nat.
Variable lint recovery : bool.
Hypothesis regex : forall p x, compiles p = true -> matches p x <> None.
Notation process := (process compiles matches pick lint recovery).
Notation world_of v := (World (v_objs v) matches).

(** ** C25 *)

(** Two objects with the same stored values (so that references to them
    compare equal) have no value of their own: all components are frozen by
    their types. *)
Theorem C25_run fs v ms o o' ob ob' :
  process fs = Ok (Some v, ms) -> nth_error (v_objs v) o = Some ob -> nth_error (v_objs v) o' = Some ob' -> o <> o' ->
  (forall k, option_map fst (assoc k (o_fields ob)) = option_map fst (assoc k (o_fields ob'))) ->
  forall c, In c (all_components (v_types v) (o_typ ob)) -> ~ forall f, ~ freezes (v_types v) (o_typ ob) (c_name c) f.
Proof.
  intros H E E' Ne Sm c Ic N. apply Ne. eapply (run_distinct compiles matches pick lint recovery regex); eauto. exists c. auto.
Qed.

(** ** C45 *)

(** In an accepted run every check of every object has the value true by the
    rules of the manual, except for warnings: they may be false.  The manual's
    rules are those of [sem]; the deviations from them are excluded as in
    [C45_evaluation_partial], but objects with the same values are no
    assumption: objects have a component of their own. *)
Theorem C45_run fs v ms o ob s :
  process fs = Ok (Some v, ms) -> (forall o ob, nth_error (v_objs v) o = Some ob -> own_value (v_types v) ob) ->
  nth_error (v_objs v) o = Some ob -> In s (ChecksProofs.object_sites (v_types v) ob) ->
  regular (ck_expr (ChecksProofs.s_check s)) -> ~ mixed (v_types v) (ck_expr (ChecksProofs.s_check s)) ->
  exists b, sem (world_of v) (ChecksProofs.s_fields s) (ck_expr (ChecksProofs.s_check s)) (Some (SBool b)) /\
    (b = true \/ ck_sev (ChecksProofs.s_check s) = Sev_warning).
Proof. apply run_meaning. exact regex. Qed.

(** Files in which everything but the checks is right are accepted exactly if
    the checks hold by the rules of the manual. *)
Theorem C45_verdict fs rsl trlc rsl_names more v1 v2 v :
  RunValid.laid_out compiles matches fs rsl trlc rsl_names more v1 v2 v ->
  (lint = true -> forall u ut, nth_error (tups (v_types v)) u = Some ut -> ~ LintRun.stuck (v_types v) ut) ->
  (forall o ob, nth_error (v_objs v) o = Some ob -> own_value (v_types v) ob) ->
  (forall ob s, In ob (v_objs v) -> In s (ChecksProofs.object_sites (v_types v) ob) ->
    regular (ck_expr (ChecksProofs.s_check s)) /\ ~ mixed (v_types v) (ck_expr (ChecksProofs.s_check s))) ->
  (exists ms, process fs = Ok (Some v, ms)) <->
  (forall ob s, In ob (v_objs v) -> In s (ChecksProofs.object_sites (v_types v) ob) ->
    exists b, sem (world_of v) (ChecksProofs.s_fields s) (ck_expr (ChecksProofs.s_check s)) (Some (SBool b)) /\
      (b = true \/ ck_sev (ChecksProofs.s_check s) = Sev_warning)).
Proof. intros V L Ow Rg. symmetry. exact (laid_meaning compiles matches pick lint recovery regex _ _ _ _ _ _ _ _ V L Ow Rg). Qed.
End RUN.
Print Assumptions C25_run.
Print Assumptions C45_run.
Print Assumptions C45_verdict.

(** ** Examples *)

(** The files of C54: both objects have a component of their own, the check is
    [x > 0]. *)
Definition the_result : env := with_b (Some 1%nat).
Lemma not_frozen_result k f : ~ freezes (v_types the_result) 0 k f.
Proof. intros (q & C & I). destruct q as [|[|]]; destruct I. Qed.
Example C45_example :
  RunValid.laid_out (fun _ => true) (fun _ _ => Some true) two_files [types_file] [objects_file] [t "P"] [] (with_type [the_check]) (with_b None) the_result /\
  (forall u ut, nth_error (tups (v_types the_result)) u = Some ut -> ~ LintRun.stuck (v_types the_result) ut) /\
  (forall o ob, nth_error (v_objs the_result) o = Some ob -> own_value (v_types the_result) ob) /\
  (forall ob s, In ob (v_objs the_result) -> In s (ChecksProofs.object_sites (v_types the_result) ob) ->
    regular (ck_expr (ChecksProofs.s_check s)) /\ ~ mixed (v_types the_result) (ck_expr (ChecksProofs.s_check s))) /\
  process (fun _ => true) (fun _ _ => Some true) (fun _ => 0%nat) true false two_files = Ok (Some the_result, []).
Proof.
  split; [exact two_laid_out|]. split; [intros [|u] ut E; discriminate|]. split; [|split; [|vm_compute; reflexivity]].
  - intros o ob E. exists (Comp (t "x") TInt false (TRec 0)).
    assert (T : o_typ ob = 0%nat) by (apply nth_error_In in E; destruct E as [<-|[<-|[]]]; reflexivity). rewrite T. split; [left; reflexivity|].
    intros f. apply not_frozen_result.
  - intros ob s I J.
    assert (X : ck_expr (ChecksProofs.s_check s) = ck_expr the_check).
    { destruct I as [<-|[<-|[]]]; vm_compute in J; destruct J as [<-|[]]; reflexivity. }
    rewrite X. split.
    + intros e S. cbn in S. inversion S; subst; cbn; auto;
        match goal with S : sub _ _ |- _ => inversion S; subst; cbn; auto end.
    + intros (l & c & p & un & i & ms & S & _). cbn in S. inversion S; subst; match goal with S : sub _ _ |- _ => inversion S end.
Qed.

(** The hypotheses of [C25_run] are met by the two frozen objects of the next
    example.  Their stored values are the same, references to [a] and [b] are
    equal, and the check [p == q] of [c], which refers to both, holds: the run
    accepts the files. *)
Definition frozen_rsl : text := t "package P type R { x Integer } type S extends R { freeze x = 1 } type T { p R q R } checks T { p == q, ""different"" }".
Definition frozen_trlc : text := t "package P S a { } S b { } T c { p = a q = b }".
Definition frozen_files : list input_file := [Input 0 RSL true frozen_rsl; Input 1 TRLC true frozen_trlc].
Definition run_frozen : res unit (option env * list msg) := process (fun _ => true) (fun _ _ => Some true) (fun _ => 0%nat) false false frozen_files.
Definition frozen_result : env := Eval vm_compute in match run_frozen with Ok (Some v, _) => v | _ => the_result end.
Definition site_of (v : env) (o : nat) : option (object * ChecksProofs.site) :=
  match nth_error (v_objs v) o with
  | Some ob => option_map (pair ob) (hd_error (ChecksProofs.object_sites (v_types v) ob))
  | None => None
  end.
Lemma site_of_in v o ob s : site_of v o = Some (ob, s) -> nth_error (v_objs v) o = Some ob /\ In s (ChecksProofs.object_sites (v_types v) ob).
Proof.
  unfold site_of. destruct (nth_error (v_objs v) o) as [x|]; [|discriminate]. destruct (ChecksProofs.object_sites (v_types v) x) eqn:E; cbn; [discriminate|].
  intros H. injection H as -> ->. rewrite E. split; auto. left. auto.
Qed.
Lemma frozen_ok : process (fun _ => true) (fun _ _ => Some true) (fun _ => 0%nat) false false frozen_files = Ok (Some frozen_result, []).
Proof. vm_compute. reflexivity. Qed.
Theorem C25_run_refuted : exists fs v ms o ob s,
  process (fun _ => true) (fun _ _ => Some true) (fun _ => 0%nat) false false fs = Ok (Some v, ms) /\
  nth_error (v_objs v) o = Some ob /\ In s (ChecksProofs.object_sites (v_types v) ob) /\ ck_sev (ChecksProofs.s_check s) = Sev_error /\
  sem (World (v_objs v) (fun _ _ => Some true)) (ChecksProofs.s_fields s) (ck_expr (ChecksProofs.s_check s)) (Some (SBool false)).
Proof.
  exists frozen_files, frozen_result, [], 2%nat.
  assert (Si : exists s, site_of frozen_result 2 = Some s) by (eexists; reflexivity).
  destruct Si as [[ob s] Si]. destruct (site_of_in _ _ _ _ Si) as [E I].
  exists ob, s. split; [exact frozen_ok|]. split; [exact E|]. split; [exact I|]. clear E I.
  cbn in Si. injection Si as <- <-. split; [reflexivity|]. cbn.
  eapply sem_eq with (x := Some (SObj 0)) (y := Some (SObj 1)); [eapply sem_name; [reflexivity|constructor]..|].
  split; [discriminate|]. cbn. intros H. inversion H. 
Qed.
Print Assumptions C25_run_refuted.

(** Its objects [a] and [b] meet the hypotheses of [C25_run]. *)
Example C25_run_example : match nth_error (v_objs frozen_result) 0, nth_error (v_objs frozen_result) 1 with
  | Some ob, Some ob' => map (fun f => (fst f, fst (snd f))) (o_fields ob) = map (fun f => (fst f, fst (snd f))) (o_fields ob') /\
      map c_name (all_components (v_types frozen_result) (o_typ ob)) = [t "x"]
  | _, _ => False
  end.
Proof. vm_compute. split; reflexivity. Qed.
