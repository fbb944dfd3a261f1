(** Properties C39, C40, C46 and C47 for whole runs: which messages of the
    linter a run reports, and when the linter raises an exception. *)
From Coq Require Import Relations.
From Verif Require Import Base Lexer SymTab Ast TypesProofs Eval ParserBase ValueSyntax ParserDecl Lint LintProofs Process RunValid
  Prop_Lint LintRun RunLint Prop_Process.
From Verif Require SourceMan.
Import SourceMan (fkind, RSL, TRLC).
Open Scope Z_scope.

(** ** C46: exceptions *)

(** The linter raises an exception iff in some tuple type a separator x or b
    follows an integer, and the component after it is followed by another
    separator or has no example; otherwise it comes to an end. *)
Theorem C46_exceptions G order :
  program G order -> tuples_ok G ->
  (forall u ut c, nth_error (tups G) u = Some ut -> In c (u_comps ut) -> proper G (c_typ c)) ->
  (perform_sanity_checks G order = Crash <-> exists u ut, nth_error (tups G) u = Some ut /\ stuck G ut) /\
  ((exists s, perform_sanity_checks G order = Ok s) <-> forall u ut, nth_error (tups G) u = Some ut -> ~ stuck G ut).
Proof.
  intros P T C. destruct (linter_decides G T C order P) as [[E (u & ut & U & X)]|(s & E & N)]; rewrite E; split; split.
  - eauto.
  - auto.
  - intros [s [=]].
  - intros N. destruct (N u ut U X).
  - discriminate.
  - intros (u & ut & U & X). destruct (N u ut U X).
  - auto.
  - eauto.
Qed.
Print Assumptions C46_exceptions.

(** The two programs for which Prop_Lint.v shows an exception, and the one
    for which it shows the messages *)
Lemma one_tuple G ut : tups G = [ut] -> tuple_ok G 0 ut -> tuples_ok G.
Proof. intros E O u ut' U. unfold tup in U. rewrite E in U. destruct u as [|[|u]]; try discriminate. injection U as <-. auto. Qed.
Lemma no_optionals (l : list component) (P : component -> Prop) : existsb c_opt l = false ->
  forall cs c cs' c' cs'', l = cs ++ c :: cs' ++ c' :: cs'' -> c_opt c = true -> P c'.
Proof.
  intros E cs c cs' c' cs'' -> O. assert (X : existsb c_opt (cs ++ c :: cs' ++ c' :: cs'') = true); [|congruence].
  apply existsb_exists. exists c. split; auto. apply in_or_app. cbn. auto.
Qed.
Example C46_exceptions_example :
  (tuples_ok x_three /\ stuck x_three (nth 0 (tups x_three) (TupType 0 [] [] [] []))) /\
  (tuples_ok x_enum /\ stuck x_enum (nth 0 (tups x_enum) (TupType 0 [] [] [] []))) /\
  (tuples_ok zG /\ forall u ut, nth_error (tups zG) u = Some ut -> ~ stuck zG ut).
Proof.
  split; [|split]; split.
  - eapply one_tuple; [reflexivity|]. constructor; cbn; auto; try discriminate.
    + repeat constructor; cbn; intuition discriminate.
    + intros c [<-|[<-|[<-|[]]]]; exact Logic.I.
    + intros _ c w wt I E. repeat (destruct I as [<-|I]; [discriminate|]). destruct I.
    + intros c cs [= <- _]. auto.
    + intros cs c cs' c' cs''. apply (no_optionals _ (fun c' => c_opt c' = true)). auto.
  - exists 0%nat, (t "x"). eexists. split; [|split; [reflexivity|left; discriminate]].
    do 2 eexists. do 4 (split; [reflexivity|]). left. reflexivity.
  - eapply one_tuple; [reflexivity|]. constructor; cbn; auto; try discriminate.
    + repeat constructor; cbn; intuition discriminate.
    + intros c [<-|[<-|[]]]; exact Logic.I.
    + intros _ c w wt I E. repeat (destruct I as [<-|I]; [discriminate|]). destruct I.
    + intros c cs [= <- _]. auto.
    + intros cs c cs' c' cs''. apply (no_optionals _ (fun c' => c_opt c' = true)). auto.
  - exists 0%nat, (t "b"). eexists. split; [|split; [reflexivity|right; apply (ne_enum _ _ (EnumType 0 (t "E") [t "low"; t "high"])); [reflexivity|discriminate]]].
    do 2 eexists. do 4 (split; [reflexivity|]). right. reflexivity.
  - eapply one_tuple; [reflexivity|]. constructor; cbn; auto; try discriminate.
    + repeat constructor; cbn; intuition discriminate.
    + intros c [<-|[<-|[]]]; exact Logic.I.
    + intros _ c w wt I E. repeat (destruct I as [<-|I]; [discriminate|]). destruct I.
    + intros c cs [= <- _]. auto.
    + intros cs c cs' c' cs'' E O. destruct cs as [|a [|b cs]]; cbn in E.
      * injection E as Ea E. rewrite <- Ea in O. discriminate.
      * injection E as _ _ E. destruct cs'; discriminate.
      * injection E as _ _ E. destruct cs; discriminate.
  - intros [|[|u]] ut E (i & sep & c & (d & sp & _ & _ & N & _) & C & X); try discriminate. injection E as <-. cbn in *.
    destruct i as [|[|i]]; try discriminate. cbn in *. injection C as <-. destruct X as [X|X]; [destruct (X eq_refl)|inversion X].
Qed.

(** ** Runs *)
Section RUN.
Variable compiles : text -> bool.
Variable matches : text -> text -> option bool.
Variable pick : list SourceMan.node -> nat.
Variable recovery : bool.
(** A regular expression that compiles can be matched with any string. *)
Hypothesis regex : forall p x, compiles p = true -> matches p x <> None.
Notation linted := (process compiles matches pick true recovery).

(** The messages of an accepted run are those about its types. *)
Theorem C39_run fs v ms : linted fs = Ok (Some v, ms) ->
  forall i m, (m = F_upper_below \/ m = F_no_sense \/ m = F_fixed_one \/ m = F_optional) ->
    In (Msg_lint (m i)) ms <->
    exists c lo hi el, component_of (v_types v) c /\ c_typ c = TArr i lo (Some hi) el /\ array_verdict lo hi m.
Proof.
  intros H i m Hm. destruct (run_findings _ _ _ _ _ regex _ _ _ H) as (order & s & P & E & _ & F). rewrite F. eapply C39_arrays; eauto.
Qed.
Theorem C40_run fs v ms : linted fs = Ok (Some v, ms) ->
  forall r, In (Msg_lint (F_abstract r)) ms <->
    exists rt, nth_error (recs (v_types v)) r = Some rt /\ r_abstract rt = true /\
      ~ exists c ct, nth_error (recs (v_types v)) c = Some ct /\ r_abstract ct = false /\ through_abstract (v_types v) c r.
Proof.
  intros H r. destruct (run_findings _ _ _ _ _ regex _ _ _ H) as (order & s & P & E & _ & F). rewrite F. eapply C40_abstract_leaves; eauto.
Qed.
Theorem C46_run fs v ms : linted fs = Ok (Some v, ms) ->
  (forall u sep, In (Msg_lint (F_separator u sep)) ms <-> exists ut i, nth_error (tups (v_types v)) u = Some ut /\ ambiguous ut i sep) /\
  (forall u ut, nth_error (tups (v_types v)) u = Some ut -> ~ stuck (v_types v) ut).
Proof.
  intros H. destruct (run_findings _ _ _ _ _ regex _ _ _ H) as (order & s & P & E & N & F). split; auto.
  intros u sep. rewrite F. eapply C46_separators; eauto.
Qed.
Theorem C47_run fs v ms : linted fs = Ok (Some v, ms) ->
  (forall i, In (Msg_lint (F_union_single i)) ms <->
     exists c m, component_of (v_types v) c /\ c_typ c = TUnion i [m]) /\
  (forall i a b, In (Msg_lint (F_union_subtype i a b)) ms <->
     exists c l, component_of (v_types v) c /\ c_typ c = TUnion i l /\ In a l /\ In b l /\ a <> b /\
       clos_refl_trans nat (extends (v_types v)) a b).
Proof.
  intros H. destruct (run_findings _ _ _ _ _ regex _ _ _ H) as (order & s & P & E & _ & F).
  destruct (C47_unions _ _ _ P E) as [A B]. split; intros; rewrite F; auto.
Qed.

(** On valid files the linter is the only reason for an exception. *)
Theorem C46_valid_run fs rsl trlc rsl_names more v1 v2 v :
  RunValid.valid compiles matches fs rsl trlc rsl_names more v1 v2 v ->
  linted fs = Crash <-> exists u ut, nth_error (tups (v_types v)) u = Some ut /\ stuck (v_types v) ut.
Proof.
  intros V. destruct (valid_linted compiles matches pick recovery regex _ _ _ _ _ _ _ _ V) as [[E X]|(ms & E & _ & N)]; rewrite E; split; auto; try discriminate.
  intros (u & ut & U & X). destruct (N u ut U X).
Qed.
End RUN.
Print Assumptions C39_run.
Print Assumptions C40_run.
Print Assumptions C46_run.
Print Assumptions C47_run.
Print Assumptions C46_valid_run.

(** A file with a message of each kind: abstract types without (4) and with
    (0 and 1) extensions, array types, unions, and a separator. *)
Definition lint_text : text := t "package P
 abstract type Top { a Integer [3 .. 2]  b String [0 .. 0] }
 abstract type Mid extends Top { c Integer [1 .. 1] }
 tuple T { h Integer separator x i optional Decimal }
 type Leaf extends Mid { d T [0 .. 1] }
 type Low extends Leaf { e [Low, Leaf]  f [Leaf] g Integer [2 .. 5] }
 abstract type Bare extends Leaf { }".
Example lint_run_example : exists v ms, run_of [(RSL, lint_text)] = Ok (Some v, ms) /\
  ms = map Msg_lint [F_upper_below 0; F_no_sense 1; F_fixed_one 2; F_optional 3; F_union_subtype 4 3 2; F_union_single 5;
                     F_separator 0 (t "x"); F_abstract 4]%nat.
Proof. do 2 eexists. split; [vm_compute; reflexivity|]. vm_compute. reflexivity. Qed.
(** Two files on which the linter stops; without it they are accepted. *)
Definition stuck_text : text := t "package P tuple T { a Integer separator x b Integer separator : c Integer }".
Definition stuck_enum : text := t "package P enum E { low high } tuple T { a Integer separator b b E }".
Definition unlinted (l : list (fkind * text)) : res unit (option env * list msg) :=
  process (fun _ => true) (fun a b => Some (text_eqb a b)) (fun _ => 0%nat) false true (files l).
Example stuck_run_example :
  run_of [(RSL, stuck_text)] = Crash /\ run_of [(RSL, stuck_enum)] = Crash /\
  (exists v, unlinted [(RSL, stuck_text)] = Ok (Some v, [])) /\ (exists v, unlinted [(RSL, stuck_enum)] = Ok (Some v, [])).
Proof. repeat split; try (eexists); vm_compute; reflexivity. Qed.
