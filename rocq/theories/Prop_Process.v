(** Property theorems about whole runs: C31, and C17, C21, C32, C36, C48 from
    the files to the symbol table; C51 and C52. *)
From Coq Require Import Relations.
From Verif Require Import Base Lexer SymTab Ast Eval Typing TypesProofs Prop_Eval ParserBase ParserExpr ParserValue Lint ParserDecl ParserFile
  Resolve ExprTyping ValueSyntax ValueTyping Growth DeclInv DeclTrlc Process ProcessInv ProcessRun.
From Verif Require Checks ChecksProofs SourceMan.
Import SourceMan (fkind, RSL, TRLC).
From Coq Require Import ZifyBool ZifyNat ZifyN.
Open Scope Z_scope.

Section RUN.
Variable compiles : text -> bool.
Variable matches : text -> text -> option bool.
Variable pick : list SourceMan.node -> nat.
Variable lint recovery : bool.
(** A regular expression that compiles can be matched with any string. *)
Hypothesis regex : forall p x, compiles p = true -> matches p x <> None.
Notation process := (process compiles matches pick lint recovery).
Notation world_of v := (World (v_objs v) matches).

(** ** C31 *)

(** The content of an accepted object, component by component. *)
Inductive content (G : types) (W : world) (ob : object) (c : component) : Prop :=
| content_given id x : assoc (c_name c) (o_fields ob) = Some (id, x) -> vt G W (c_typ c) x ->
    get_freezing G (o_typ ob) (c_name c) = None -> content G W ob c
| content_frozen id x y : assoc (c_name c) (o_fields ob) = Some (id, x) -> vt G W (c_typ c) x ->
    get_freezing G (o_typ ob) (c_name c) = Some (id, y) -> forget x = forget y -> content G W ob c
| content_absent id l : assoc (c_name c) (o_fields ob) = Some (id, XNull l) -> c_opt c = true ->
    get_freezing G (o_typ ob) (c_name c) = None -> content G W ob c.

(** Every object in a symbol table that is returned has a type that is not
    abstract, and for each component of its type either a value of the type
    of the component, or the frozen value, or nothing; nothing only if the
    component is optional and not frozen.  It has no other components. *)
Theorem C31_accepted_objects fs v ms o ob :
  process fs = Ok (Some v, ms) -> nth_error (v_objs v) o = Some ob ->
  (exists rt, nth_error (recs (v_types v)) (o_typ ob) = Some rt /\ r_abstract rt = false) /\
  map fst (o_fields ob) = map c_name (all_components (v_types v) (o_typ ob)) /\
  NoDup (map fst (o_fields ob)) /\
  forall c, In c (all_components (v_types v) (o_typ ob)) -> content (v_types v) (world_of v) ob c.
Proof.
  intros H E. apply process_result in H as [Ty Ob Rd Se Tb Ck]; auto.
  assert (R := Rd _ _ E). assert (S := Se _ _ E). split; [apply R|]. split; [apply R|].
  split; [rewrite (rd_keys _ _ _ R); apply (ok_distinct _ _ Ty)|].
  intros c I. destruct (rd_fields _ _ _ R c I) as ([id x] & E1 & F1 & Fz). destruct (st_fields _ _ _ _ S c I) as (f & E2 & F2).
  rewrite E1 in E2. injection E2 as <-. cbn [snd fst] in *.
  destruct (get_freezing (v_types v) (o_typ ob) (c_name c)) as [[id' y]|] eqn:Eg.
  - destruct (Fz _ eq_refl) as [A B]. cbn in A, B. subst id'. destruct F2 as [V|(_ & l & ->)]; [eapply content_frozen; eauto|].
    destruct (frozen_typed matches (v_types v) Ty _ _ _ (v_objs v) Eg) as (c' & I' & En & V). cbn in V.
    assert (N : forall a, ~ vt0 (v_types v) (v_objs v) a (XNull l)) by (intros a X; inversion X).
    exfalso. destruct y; cbn in B; try discriminate. inversion V.
  - destruct F2 as [V|(Op & l & ->)]; [eapply content_given|eapply content_absent]; eauto.
Qed.

(** ** C51 *)

(** The declarations of an accepted run meet all the assumptions of the
    theorems about evaluation (C22 to C28, C44, C45). *)
Theorem C51_accepted_run_is_sane fs v ms : process fs = Ok (Some v, ms) -> sane (v_types v) (world_of v).
Proof.
  intros H. apply process_result in H as [Ty Ob Rd Se Tb Ck]; auto. constructor.
  - exact (ok_order _ _ Ty).
  - intros o ob E. assert (R := Rd _ _ E). assert (S := Se _ _ E). cbn in E.
    split; [|split; [|split]].
    + destruct (rd_type _ _ _ R) as (rt & Er & _). apply nth_error_Some. unfold rec in Er. congruence.
    + intros c I. destruct (st_fields _ _ _ _ S c I) as ([id x] & E1 & F1). eauto.
    + intros k f Ek. assert (J : In k (map fst (o_fields ob))) by exact (assoc_in _ _ _ Ek).
      rewrite (rd_keys _ _ _ R) in J. apply in_map_iff in J as (c & <- & I). eauto.
    + rewrite (rd_keys _ _ _ R). apply (ok_distinct _ _ Ty).
  - exact (ok_distinct _ _ Ty).
  - exact (ok_tup _ _ Ty).
Qed.

(** All checks of all objects hold, also inherited ones and those of tuples,
    except for warnings: they may fail. *)
Theorem C21_accepted_run fs v ms o ob s :
  process fs = Ok (Some v, ms) -> nth_error (v_objs v) o = Some ob -> In s (ChecksProofs.object_sites (v_types v) ob) ->
  ChecksProofs.outcome (world_of v) s ChecksProofs.Holds \/
  (ChecksProofs.outcome (world_of v) s ChecksProofs.Fails /\ ck_sev (ChecksProofs.s_check s) = Sev_warning).
Proof. intros H E I. apply process_result in H as [Ty Ob Rd Se Tb Ck]; auto. exact (Ck _ _ _ E I). Qed.

(** Every reference in a value, also in markup strings, denotes the object
    with the package and name that were written; it has the required type. *)
Theorem C32_accepted_run fs v ms o ob k f l a p n tgt :
  process fs = Ok (Some v, ms) -> nth_error (v_objs v) o = Some ob -> assoc k (o_fields ob) = Some f ->
  has_ref (snd f) l a p n tgt ->
  exists o' ob' b, tgt = Some o' /\ nth_error (v_objs v) o' = Some ob' /\ o_pkg ob' = p /\ o_name ob' = n /\
    a = Some b /\ fits_ref (v_types v) ob' b.
Proof. intros H E Ek Hr. apply process_result in H as [Ty Ob Rd Se Tb Ck]; auto. exact (st_refs _ _ _ _ (Se _ _ E) _ _ Ek _ _ _ _ _ Hr). Qed.

(** In each package all names differ by more than case and underscores, and
    also differ from the names of packages and predefined entities; an object
    is registered in its package under its name. *)
Theorem C17_accepted_run fs v ms : process fs = Ok (Some v, ms) ->
  NoDup (simple_names (v_stab v)) /\
  (forall p d, nth_error (v_pkgs v) p = Some d -> NoDup (simple_names (d ++ v_stab v))) /\
  (forall o ob, nth_error (v_objs v) o = Some ob -> exists d, nth_error (v_pkgs v) (o_pkg ob) = Some d /\ In (o_name ob, N_obj o) d).
Proof.
  intros H. apply process_result in H as [Ty Ob Rd Se Tb Ck]; auto. destruct Tb as [T1 T2]. split; auto. split; auto.
  intros o ob E. apply (of_all _ _ Ob _ _ E).
Qed.

(** The literals of an enumeration, the fields of a tuple type and the
    components of a record type, inherited ones included, have names that
    differ in more than case and underscores. *)
Theorem C17_members_run fs v ms : process fs = Ok (Some v, ms) ->
  (forall en, In en (enums (v_types v)) -> NoDup (map simplified_name (en_lits en))) /\
  (forall ut, In ut (tups (v_types v)) -> NoDup (map (fun c => simplified_name (c_name c)) (u_comps ut))) /\
  (forall r, NoDup (map (fun c => simplified_name (c_name c)) (all_components (v_types v) r))).
Proof.
  intros H. apply process_result in H as [Ty Ob Rd Se Tb Ck]; auto. split; [|split].
  - intros en I. apply In_nth_error in I as (i & E). eapply ty_enums; eauto.
  - intros ut I. apply In_nth_error in I as (u & U). eapply uo_names, ty_tups; eauto.
  - apply (ok_similar _ _ Ty).
Qed.

(** The checks of all types are Boolean and well typed in the scope of the
    components of the type; an anchor is a component. *)
Theorem C48_accepted_run fs v ms a c :
  process fs = Ok (Some v, ms) ->
  (exists r rt, a = TRec r /\ nth_error (recs (v_types v)) r = Some rt /\ In c (r_checks rt)) \/
  (exists u ut, a = TTup u /\ nth_error (tups (v_types v)) u = Some ut /\ In c (u_checks ut)) ->
  wt (v_types v) (world_of v) false (type_scope (v_types v) a) (ck_expr c) /\ e_typ (ck_expr c) = Some TBool /\
  forall k, ck_anchor c = Some k -> exists x, In x (type_comps (v_types v) a) /\ c_name x = k.
Proof.
  intros H D. apply process_result in H as [Ty Ob Rd Se Tb Ck]; auto.
  assert (K : check_ok matches (v_types v) a c /\ valid (v_types v) a).
  { destruct D as [(r & rt & -> & R & I)|(u & ut & -> & U & I)].
    - split; [apply (ro_checks _ _ _ _ (ty_recs _ _ Ty _ _ R)); auto|]. cbn. apply nth_error_Some. congruence.
    - split; [apply (uo_checks _ _ _ _ (ty_tups _ _ Ty _ _ U)); auto|]. cbn. apply nth_error_Some. congruence. }
  destruct K as [[We Eb An] V]. split; [|split; auto].
  refine (proj1 (wt_mono (v_types v) (v_types v) (World [] matches) (world_of v) (keeps_refl _) _ _ _ _ _ _ We _)).
  - exact (ok_order _ _ Ty).
  - exact (ok_distinct _ _ Ty).
  - exact (ok_components _ _ Ty).
  - reflexivity.
  - intros n b o E. eapply type_scope_valid; eauto; [exact (ok_order _ _ Ty)|exact (ok_components _ _ Ty)].
Qed.
End RUN.
Print Assumptions C31_accepted_objects.
Print Assumptions C51_accepted_run_is_sane.
Print Assumptions C21_accepted_run.
Print Assumptions C32_accepted_run.
Print Assumptions C17_accepted_run.
Print Assumptions C17_members_run.
Print Assumptions C48_accepted_run.

(** ** An accepted run *)

Definition files (l : list (fkind * text)) : list input_file :=
  map (fun '(i, (k, s)) => Input i k true s) (combine [0; 1; 2; 3; 4] l).
Definition run_of (l : list (fkind * text)) : res unit (option env * list msg) :=
  process (fun _ => true) (fun a b => Some (text_eqb a b)) (fun _ => 0%nat) true true (files l).
Definition demo_rsl : text := t "package P  enum C { red green }
 tuple T { a Integer separator @ b optional Integer }
 checks T { a > 0, ""positive"" }
 abstract type Q { note optional Markup_String }
 type R extends Q { x Integer  c optional C  tt optional T  ar optional Integer [1 .. 3]  next optional R }
 type S extends R { freeze x = 7  y String }
 checks R { x > 3, ""too small"", x   (c != null implies c == C.green), warning ""not green"" }".
Definition demo_trlc : text := t "package P  R a { x = 5 c = C.red tt = 1 @ 2 ar = [1, 2] next = b note = ""see [[b]]"" }
 section ""foo"" { S b { y = ""hello"" next = a } }".
Definition demo : res unit (option env * list msg) := run_of [(RSL, demo_rsl); (TRLC, demo_trlc)].
Definition demo_env : env :=
  match demo with Ok (Some v, _) => v | _ => Env (Types [] [] []) [] [] [] [] 0%nat end.
Definition demo_msgs : list msg := match demo with Ok (_, ms) => ms | _ => [] end.
Definition demo_b : object := nth 1 (v_objs demo_env) (Object 0%nat [] pl 0%nat []).

(** Two objects are accepted; the warning of the failed check is the only
    message. *)
Example C51_example :
  demo = Ok (Some demo_env, demo_msgs) /\ List.length (v_objs demo_env) = 2%nat /\
  map is_error demo_msgs = [false] /\ List.length (v_pkgs demo_env) = 1%nat.
Proof. repeat apply conj; vm_compute; reflexivity. Qed.
(** The second object has the frozen value, a reference to the first object,
    and nothing for the optional components. *)
Example C31_example :
  nth_error (v_objs demo_env) 1 = Some demo_b /\ o_name demo_b = t "b" /\
  map fst (o_fields demo_b) = map t ["note"; "x"; "c"; "tt"; "ar"; "next"; "y"]%string /\
  (exists id l y, assoc (t "x") (o_fields demo_b) = Some (id, XLit l (LInt 7) []) /\ get_freezing (v_types demo_env) (o_typ demo_b) (t "x") = Some (id, y)) /\
  (exists id l, assoc (t "c") (o_fields demo_b) = Some (id, XNull l)) /\
  (exists id l a, assoc (t "next") (o_fields demo_b) = Some (id, XRef l a 0%nat (t "a") (Some 0%nat))).
Proof.
  repeat apply conj; try (vm_compute; reflexivity); vm_compute; repeat eexists.
Qed.

(** The first object has a reference in a markup string.  The second object
    is subject to a check of the type it extends; the tuple in the first
    object has a check too. *)
Example C32_run_example : exists (a : object) (l : loc) (b : option ty) (n : text),
  nth_error (v_objs demo_env) 0%nat = Some a /\
  (exists f, assoc (t "note") (o_fields a) = Some f /\ has_ref (snd f) l b 0%nat n (Some 1%nat)) /\ n = t "b".
Proof.
  vm_compute. do 4 eexists. split; [reflexivity|]. split; [|reflexivity]. eexists. split; [reflexivity|].
  eapply hr_lit; [left; reflexivity|]. apply hr_here.
Qed.
Example C21_run_example :
  map (fun ob => List.length (ChecksProofs.object_sites (v_types demo_env) ob)) (v_objs demo_env) = [3; 2]%nat.
Proof. vm_compute. reflexivity. Qed.
Example C17_run_example :
  map (map fst) (v_pkgs demo_env) = [map t ["C"; "T"; "Q"; "R"; "S"; "a"; "b"]%string].
Proof. vm_compute. reflexivity. Qed.
Example C17_members_example :
  (exists en, In en (enums (v_types demo_env)) /\ map simplified_name (en_lits en) = map t ["red"; "green"]%string) /\
  (exists ut, In ut (tups (v_types demo_env)) /\ map c_name (u_comps ut) = map t ["a"; "b"]%string) /\
  map c_name (all_components (v_types demo_env) 2) = map t ["note"; "x"; "c"; "tt"; "ar"; "next"; "y"]%string.
Proof. vm_compute. split; [eexists; split; [auto|]; reflexivity|]. split; [eexists; split; [auto|]; reflexivity|reflexivity]. Qed.
Example C48_run_example : exists r rt c,
  nth_error (recs (v_types demo_env)) r = Some rt /\ In c (r_checks rt) /\ ck_anchor c = Some (t "x").
Proof. exists 1%nat. vm_compute. do 2 eexists. split; [reflexivity|]. split; [left; reflexivity|reflexivity]. Qed.

(** ** C36 *)

(** A symbol table is returned although an error was reported: *)
(** - a file imports a package that does not exist (ast.py:266-274 ignores
      the error and expects others to follow); *)
Definition unknown_import : text := t "package P import Missing type R { x Integer }".
(** - an array has too few elements (parser.py:1650-1664, not fatal). *)
Definition array_rsl : text := t "package P type R { ar Integer [2 .. 3] }".
Definition array_trlc : text := t "package P R a { ar = [1] }".
Theorem C36_run_refuted :
  (exists v ms, run_of [(RSL, unknown_import)] = Ok (Some v, ms) /\ existsb is_error ms = true) /\
  (exists v ms, run_of [(RSL, array_rsl); (TRLC, array_trlc)] = Ok (Some v, ms) /\ existsb is_error ms = true).
Proof.
  split; (eexists; eexists; split; [vm_compute; reflexivity|vm_compute; reflexivity]).
Qed.
Print Assumptions C36_run_refuted.

(** ** C52 *)

(** Processing ends with an internal error instead of a message: *)
(** - a file imports its own package and then uses a qualified name: the
      error in the preamble leaves the imports unresolved, but the file is
      parsed (ast.py:278); *)
Definition self_import : text := t "package P import P type R { x optional P.R }".
(** - a file ends where the upper bound of an array is expected: the location of the missing
      token is asked for (parser.py:640). *)
Definition open_bound : text := t "package P type R { x Integer [2 ..".
Theorem C52_run_refuted :
  run_of [(RSL, self_import)] = Crash /\ run_of [(RSL, open_bound)] = Crash.
Proof. split; vm_compute; reflexivity. Qed.
Print Assumptions C52_run_refuted.
