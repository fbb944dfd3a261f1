(** Property theorems: C53 (the symbol table of an accepted run is what the
    files declare), C34 and C35 from the text of the files, and C36 for whole
    runs. *)
From Coq Require Import Permutation Relations Sorted.
From Verif Require Import Base Lexer SymTab Ast Eval ParserBase ParserExpr ParserValue Lint ParserDecl ParserFile ExprSyntax ValueSyntax DeclSyntax Process DeclRsl DeclSound
  RunSyntax RunGraph RunSound RunMessages Prop_Process.
From Verif Require Notes SourceMan.
Import SourceMan (fkind, RSL, TRLC).
Open Scope Z_scope.

Section RUN.
Variable compiles : text -> bool.
Variable matches : text -> text -> option bool.
Variable pick : list SourceMan.node -> nat.
Variable lint recovery : bool.
(** A regular expression that compiles can be matched with any string. *)
Hypothesis regex : forall p x, compiles p = true -> matches p x <> None.
Notation process := (process compiles matches pick lint recovery).

(** ** C53 *)

(** A symbol table that is returned is what the files declare, file by file:
    the packages are those of the files, the types are what the type files
    declare one after the other, the objects are what the other files declare
    one after the other, and then references have targets.  The relation
    [accepted] and the grammar are those of RunSyntax.v and DeclSyntax.v. *)
Theorem C53_accepted_run fs v ms : process fs = Ok (Some v, ms) ->
  exists bad idle rsl trlc rsl_names more v1 v2,
    accepted compiles matches true fs v bad idle rsl trlc rsl_names more v1 v2.
Proof. apply run_accepted. exact regex. Qed.

(** ** C34 *)

(** In an accepted run a file is used exactly if it is needed for the files
    that are not only included.  Other files are not looked at after the
    preamble; a file is left out entirely only if the lexer fails on its first
    token. *)
Theorem C34_run_files fs v ms : process fs = Ok (Some v, ms) ->
  exists bad idle rsl trlc, Permutation fs (bad ++ idle ++ rsl ++ trlc) /\
    (forall f, In f bad -> exists e, unreadable f e) /\
    (forall f, In f idle -> ~ file_needed fs f) /\
    (forall f, In f rsl -> i_kind f = RSL /\ file_needed fs f) /\
    (forall f, In f trlc -> i_kind f = TRLC /\ file_needed fs f) /\
    exists names all_names v1 v2,
      types_of compiles matches true names rsl (start_env all_names) v1 /\
      objects_of true (package_table all_names) trlc v1 v2 /\ linked_env v2 v.
Proof.
  intros H. apply run_accepted in H as (bad & idle & rsl & trlc & rns & more & v1 & v2 & A); auto.
  exists bad, idle, rsl, trlc. destruct A. repeat (split; auto). exists (package_table rns), (rns ++ more), v1, v2. auto.
Qed.
(** Every file that is not only included and that has a preamble is used: its
    whole text is a preamble followed by declarations that are accepted. *)
Theorem C34_run_primary fs v ms f name l : process fs = Ok (Some v, ms) -> In f fs -> i_primary f = true -> starts f name l ->
  exists name' l' body, file_is f name' l' body.
Proof.
  intros H I Pr St. apply run_accepted in H as (bad & idle & rsl & trlc & rns & more & v1 & v2 & A); auto. destruct A.
  assert (N : file_needed fs f).
  { exists (tok_text name). assert (D : declares f (tok_text name)) by (exists name, l; auto). split; auto.
    exists (tok_text name, i_kind f). split; [exists f; auto|apply rt_refl]. }
  eapply Permutation_in in I; [|exact ac_files].
  apply in_app_or in I as [I|I]; [apply ac_bad in I; destruct (unreadable_starts _ _ _ I St)|].
  apply in_app_or in I as [I|I]; [destruct (ac_idle _ I N)|].
  apply in_app_or in I as [I|I].
  - clear - I ac_types. induction ac_types; [destruct I|]. destruct I as [->|I]; eauto.
  - clear - I ac_objects. induction ac_objects; [destruct I|]. destruct I as [->|I]; eauto.
Qed.

(** ** C35 *)

(** In an accepted run the types of a file are declared after those of the
    files it imports, each package has at most one file with types, and no
    package needs its own types in a circle. *)
Theorem C35_run_order fs v ms : process fs = Ok (Some v, ms) ->
  exists rsl names start v1, types_of compiles matches true names rsl start v1 /\
    (forall f, In f rsl <-> In f fs /\ i_kind f = RSL /\ file_needed fs f) /\
    (forall a f b P Q, rsl = a ++ f :: b -> declares f P -> needs fs (P, RSL) (Q, RSL) -> exists g, In g a /\ declares g Q) /\
    (forall P, needed fs (P, RSL) -> ~ clos_trans _ (needs fs) (P, RSL) (P, RSL)).
Proof.
  intros H. apply run_accepted in H as (bad & idle & rsl & trlc & rns & more & v1 & v2 & A); auto. destruct A.
  exists rsl, (package_table rns), (start_env (rns ++ more)), v1. split; auto.
  assert (Iff : forall f, In f rsl <-> In f fs /\ i_kind f = RSL /\ file_needed fs f).
  { intros f. split.
    - intros I. split; [|apply ac_rsl; auto]. eapply Permutation_in; [symmetry; exact ac_files|]. apply in_or_app. right. apply in_or_app. right. apply in_or_app. auto.
    - intros (I & K & N). eapply Permutation_in in I; [|exact ac_files].
      apply in_app_or in I as [I|I]; [destruct N as (P & (nm & l & St & _) & _); apply ac_bad in I; destruct (unreadable_starts _ _ _ I St)|].
      apply in_app_or in I as [I|I]; [destruct (ac_idle _ I N)|]. apply in_app_or in I as [I|I]; auto. apply ac_trlc in I as [I _]. congruence. }
  split; auto. split; auto. intros P N C.
  assert (Rk : forall x y, clos_trans _ (needs fs) x y -> snd x = RSL -> snd y = RSL).
  { intros x y T. induction T as [x y T|x y z T1 IH1 T2 IH2]; auto. destruct T; cbn; auto. }
  assert (Before : forall x y, clos_trans _ (needs fs) x y -> forall a f b, snd x = RSL -> rsl = a ++ f :: b -> declares f (fst x) -> exists g, In g a /\ declares g (fst y)).
  { intros x y T. apply clos_trans_t1n in T. induction T as [x y T|x y z T1 T2 IH]; intros a f b K E D.
    - assert (Ky : snd y = RSL) by (apply (Rk x); [apply t_step; auto|auto]). destruct x as [P1 k1], y as [Q1 k2]. cbn in *. subst. eapply ac_order; eauto.
    - assert (Ky : snd y = RSL) by (apply (Rk x); [apply t_step; auto|auto]).
      assert (X : exists g, In g a /\ declares g (fst y)). { destruct x as [P1 k1], y as [Q1 k2]. cbn in *. subst. eapply ac_order; eauto. }
      destruct X as (g & I & Dg). apply in_split in I as (a1 & a2 & ->). destruct (IH a1 g (a2 ++ f :: b) Ky) as (g' & I' & D'); auto.
      + rewrite E, <- app_assoc. auto.
      + exists g'. split; auto. apply in_or_app. auto. }
  assert (First : forall n a f b, List.length a = n -> rsl = a ++ f :: b -> ~ declares f P).
  { intros n. induction n as [n IH] using (well_founded_induction Wf_nat.lt_wf). intros a f b L E D. destruct (Before _ _ C a f b eq_refl E D) as (g & I & Dg).
    apply in_split in I as (a1 & a2 & ->). eapply (IH (List.length a1)); [|reflexivity| |exact Dg].
    - rewrite app_length in L. cbn in L. lia.
    - rewrite E, <- app_assoc. cbn. reflexivity. }
  apply clos_trans_t1n in C. assert (X : exists f, In f fs /\ i_kind f = RSL /\ declares f P).
  { inversion C as [y T|y z T T2]; subst; inversion T; subst; eauto. }
  destruct X as (f & I & K & D). assert (J : In f rsl) by (apply Iff; split; auto; split; auto; exists P; rewrite K; auto).
  apply in_split in J as (a & b & E). eapply First; eauto.
Qed.
End RUN.
Print Assumptions C53_accepted_run.
Print Assumptions C34_run_files.
Print Assumptions C34_run_primary.
Print Assumptions C35_run_order.

(** ** Examples *)

(** Five files, of which only the third is not just included.  The types of B
    come after those of A although the order of names is the other way round;
    the file of package D, which is not correct, is not needed, and the last
    one cannot be read. *)
Definition some_files : list input_file :=
  [Input 0 RSL false (t "package B import A type U { a A.T }");
   Input 1 RSL false (t "package A type T { x Integer }");
   Input 2 TRLC true (t "package C import A import B A.T v { x = 1 } section ""s"" { B.U u { a = v } }");
   Input 3 RSL false (t "package D import A type {{{"); Input 4 TRLC false (t "$")].
Definition some_run : res unit (option env * list msg) :=
  process (fun _ => true) (fun a b => Some (text_eqb a b)) (fun _ => 0%nat) false true some_files.
Definition some_env : env := match some_run with Ok (Some v, _) => v | _ => start_env [] end.
Definition some_msgs : list msg := match some_run with Ok (_, ms) => ms | _ => [] end.
Definition shown (v : env) : list (text * entity) := filter (fun x => negb (existsb (fun y => text_eqb (fst x) (fst y)) builtin_table)) (v_stab v).
Example C53_example :
  some_run = Ok (Some some_env, some_msgs) /\
  map fst (shown some_env) = map t ["B"; "A"; "D"; "C"]%string /\
  map (fun r => r_name r) (recs (v_types some_env)) = map t ["T"; "U"]%string /\
  map o_name (v_objs some_env) = map t ["v"; "u"]%string /\
  map (map fst) (v_pkgs some_env) = [[t "U"]; [t "T"]; []; [t "v"; t "u"]] /\
  List.length some_msgs = 1%nat.
Proof. repeat apply conj; vm_compute; reflexivity. Qed.
(** What the files start with *)
Definition item_list (src : text) : list ParserBase.item := match items src with Some l => l | None => [] end.
Definition first_tokens (n : nat) (src : text) : list token :=
  flat_map (fun i => match i with ITok tk => [tk] | _ => [] end) (firstn n (item_list src)).
Definition file_no (i : nat) : input_file := nth i some_files (Input 9 RSL true []).
Definition token_no (i j : nat) : token := nth j (first_tokens 6 (i_src (file_no i))) (Token COMMENT VNone 0 0 0 0).
Lemma starts_with f n name l : (exists kw ts, first_tokens n (i_src f) = kw :: name :: ts /\ word "package" kw /\ tk_kind name = IDENTIFIER /\ imports_part l ts) ->
  (forall tk, In tk l -> tok_text tk <> tok_text name) ->
  items (i_src f) = Some (map ITok (first_tokens n (i_src f)) ++ skipn n (item_list (i_src f))) ->
  filter not_comment (first_tokens n (i_src f)) = first_tokens n (i_src f) -> starts f name l.
Proof.
  intros (kw & ts & E & W & K & I) Ne It Fi. exists (kw :: name :: ts). split; [constructor; auto|]. rewrite <- E. do 3 eexists. split; [exact It|]. split; [reflexivity|auto].
Qed.
Ltac opens n := apply (starts_with _ n);
  [do 2 eexists; split; [vm_compute; reflexivity|split; [split; vm_compute; reflexivity|split; [vm_compute; reflexivity|]]];
     repeat (first [apply ip_none|apply ip_more; [split; vm_compute; reflexivity|vm_compute; reflexivity|]])
  |cbn [In]; intros tk I; repeat (destruct I as [<-|I]; [vm_compute; discriminate|]); destruct I
  |vm_compute; reflexivity|vm_compute; reflexivity].
Example C34_run_example :
  starts (file_no 2) (token_no 2 1) [token_no 2 3; token_no 2 5] /\ tok_text (token_no 2 1) = t "C" /\
  starts (file_no 0) (token_no 0 1) [token_no 0 3] /\ tok_text (token_no 0 1) = t "B" /\ tok_text (token_no 0 3) = t "A" /\
  starts (file_no 1) (token_no 1 1) [] /\ tok_text (token_no 1 1) = t "A" /\ exists e, unreadable (file_no 4) e.
Proof.
  repeat apply conj; try (vm_compute; reflexivity).
  - opens 6%nat.
  - opens 4%nat.
  - opens 2%nat.
  - eexists _, [], _. split; vm_compute; reflexivity.
Qed.
(** The types of B are needed by the third file, and need those of A. *)
Example C35_run_example : file_needed some_files (file_no 0) /\ needs some_files (t "B", RSL) (t "A", RSL).
Proof.
  destruct C34_run_example as (S2 & N2 & S0 & N0 & N0' & S1 & N1 & _).
  assert (D0 : declares (file_no 0) (t "B")) by (eexists _, _; eauto).
  assert (D1 : declares (file_no 1) (t "A")) by (eexists _, _; eauto).
  assert (D2 : declares (file_no 2) (t "C")) by (eexists _, _; eauto).
  assert (I2 : imports_name (file_no 2) (t "B")) by (eexists _, _, (token_no 2 5); split; [exact S2|split; [cbn; auto|vm_compute; reflexivity]]).
  assert (I0 : imports_name (file_no 0) (t "A")) by (eexists _, _, (token_no 0 3); split; [exact S0|split; [cbn; auto|auto]]).
  split.
  - exists (t "B"). split; auto. exists (t "C", TRLC). split; [exists (file_no 2); cbn; repeat split; auto|].
    eapply rt_trans; [apply rt_step; apply (needs_trlc some_files (t "C") (t "B") (file_no 2) (file_no 0)); cbn; auto|].
    apply rt_step. apply (needs_types some_files (t "B") (file_no 0)); cbn; auto.
  - apply (needs_rsl some_files (t "B") (t "A") (file_no 0) (file_no 1)); cbn; auto.
Qed.

(** ** C36 *)

(** There is an error message if there is no symbol table. *)
Theorem C36_no_table : forall compiles matches pick lint recovery fs ms,
  process compiles matches pick lint recovery fs = Ok (None, ms) -> exists m, In m ms /\ is_error m = true.
Proof. intros until ms. intros H. apply no_table_error in H. apply existsb_exists in H as (m & I & E). eauto. Qed.
Print Assumptions C36_no_table.
Example C36_no_table_example :
  exists ms, run_of [(RSL, t "package P type R { x Integer } checks R { x > 1, ""low"" }"); (TRLC, t "package P R a { x = 1 }")] = Ok (None, ms) /\
    map is_error ms = [true].
Proof. eexists. split; vm_compute; reflexivity. Qed.

(** If there is a symbol table, all errors are of the three kinds listed in
    [excused]; in particular, no declaration, reference or check failed. *)
Theorem C36_table : forall compiles matches pick lint recovery fs v ms,
  process compiles matches pick lint recovery fs = Ok (Some v, ms) ->
  forall m, In m ms -> is_error m = true -> excused fs m.
Proof. intros until ms. apply table_excused. Qed.
Print Assumptions C36_table.
(** All three kinds occur. *)
Definition sloppy : list (fkind * text) :=
  [(RSL, unknown_import); (RSL, t "$"); (RSL, t "package Q type R { ar Integer [2 .. 3] }"); (TRLC, t "package Q R a { ar = [1] }")].
Example C36_table_example :
  match run_of sloppy with
  | Ok (Some v, [Msg_note (Note_error (E_lex _)); Msg_note (Note_error (E_name _ _)); Msg_note (Note_error (E_msg _ (M_too_few _ _)))]) => True
  | _ => False
  end.
Proof. vm_compute. exact I. Qed.
