(** Property theorems C15 and C16: message handler and exit code. *)
From Verif Require Import Base PyText LexSpec Messages MessagesProofs.
Open Scope Z_scope.

Definition here : location := Location (t "a.rsl") (Some 3) (Some 7) (Some (t "x + y", t "  ^")).
Definition cfg0 : mh_config := MHConfig false true None.

(** C15: counters, suppression and output after any history of calls, and the
    effect of each call on its caller. *)
Theorem C15_counters :
  forall cfg cs s es, run cfg mh_init cs = (s, es) ->
    exists n shown,
      tally cfg [] (made cs) n shown /\
      errors s = count is_error (made cs) /\
      warnings s = count is_warning (made cs) /\
      suppressed s = n /\
      out s = shown /\
      Forall2 expected_effect (made cs) es.
Proof.
  intros cfg cs s es E. apply (run_spec cfg cs [] mh_init s es); [|exact E].
  intros k. cbn. tauto.
Qed.
Print Assumptions C15_counters.
Example C15_counters_ex :
  exists es, run cfg0 mh_init [Suppress USER_WARNING; Warning here (t "w") None true;
                               Error here (t "e") (Some (t "more")) true false; Check here (t "m") (t "k") None]
  = (MH 2 1 1 [USER_WARNING]
        [t "x + y"; t "  ^ a.rsl:3: error: e"; t "  | more"; t "x + y"; t "  ^ a.rsl:3: issue: m [k]"], es) /\
    nth_error es 2 = Some (Raises here SYS_ERROR (t "e")).
Proof. eexists. vm_compute. split; reflexivity. Qed.

(** C15: a fatal error reaches the caller even if its kind is suppressed. *)
Theorem C15_fatal_not_hidden :
  forall cfg s l m ex user,
    snd (call_step cfg s (Error l m ex true user)) = Raises l (if user then USER_ERROR else SYS_ERROR) m.
Proof. reflexivity. Qed.
Print Assumptions C15_fatal_not_hidden.

(** C15: numbers in locations are printed in decimal. *)
Theorem C15_numbers : forall n, 0 <= n -> exists k, positional 10 (show n) k n.
Proof. exact show_positional. Qed.
Print Assumptions C15_numbers.

(** C15: in brief mode every message that is not suppressed is one line of
    the form [file:line:col: trlc kind: message]. *)
Theorem C15_brief_format :
  forall cfg l n c k m ex cat, brief cfg = true -> strip_prefix cfg = None ->
    loc_line l = Some n -> loc_col l = Some c ->
    emit_lines cfg l k m ex cat =
    [loc_file l ++ t ":" ++ show n ++ t ":" ++ show c ++ t ": trlc " ++ kind_str k ++ t ": " ++ m ++
     match cat with Some (x :: y) => t " [" ++ (x :: y) ++ t "]" | _ => [] end].
Proof.
  intros cfg l n c k m ex cat B S L C. unfold emit_lines, loc_str, to_string. rewrite B, S, L, C.
  cbn [negb andb app]. destruct cat as [[|x y]|]; repeat (rewrite <- !app_assoc; cbn [app]); reflexivity.
Qed.
Print Assumptions C15_brief_format.

(** C16: the exit code. *)
Theorem C16_exit_code :
  forall o, proper_run o ->
    (exit_code o = 0 \/ exit_code o = 1) /\
    (exit_code o = 0 <->
     Forall (fun b => b = true) (registered_ok o) /\ process_result o = true /\
     cli_errors o = 0 /\ (error_on_warnings o = true -> cli_warnings o = 0)).
Proof. exact exit_code_spec. Qed.
Print Assumptions C16_exit_code.
Example C16_exit_code_ex :
  let o := Cli 0 false false false [true] [true] [true; true] true 0 3 true false in
  proper_run o /\ exit_code o = 1.
Proof. repeat split; cbn; auto; try lia. Qed.
