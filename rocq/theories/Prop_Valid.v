(** Property theorems: C54 (valid files are accepted, and what is returned is
    determined by them). *)
From Coq Require Import Relations Sorted.
From Verif Require Import Base Lexer SymTab Ast Eval Typing ParserBase ParserExpr ExprSyntax ParserValue ExprMeaning Lint ParserDecl ParserFile TypesProofs ValueSyntax DeclSyntax Process
  RunSyntax RunSound RunMessages RunValid RunComplete Prop_Process.
From Verif Require SourceMan ChecksProofs LintRun RunLint.
Import SourceMan (fkind, RSL, TRLC).
Open Scope Z_scope.

Section RUN.
Variable compiles : text -> bool.
Variable matches : text -> text -> option bool.
Variable pick : list SourceMan.node -> nat.
Variable lint recovery : bool.
(** A regular expression that compiles can be matched with any string. *)
Hypothesis regex : forall p x, compiles p = true -> matches p x <> None.
Notation process := (process compiles matches pick lint recovery).

(** ** C54 *)

(** Files that are valid are accepted, with and without error recovery, and
    whatever the order in which dependencies are looked at; the symbol table is
    the one that the files describe.  (With the linter, provided that no tuple
    type makes it stop; see C46.)  The only errors that are reported are about
    files that cannot be read and about imports of packages that do not exist. *)
Theorem C54_valid_run fs rsl trlc rsl_names more v1 v2 v :
  RunValid.valid compiles matches fs rsl trlc rsl_names more v1 v2 v ->
  (lint = true -> forall u ut, nth_error (tups (v_types v)) u = Some ut -> ~ LintRun.stuck (v_types v) ut) ->
  exists ms, process fs = Ok (Some v, ms) /\ forall m, In m ms -> is_error m = true -> overlooked fs m.
Proof.
  intros V L. destruct lint.
  - destruct (RunLint.valid_linted compiles matches pick recovery regex _ _ _ _ _ _ _ _ V) as [[_ (u & ut & U & X)]|(ms & E & Ov & _)]; eauto.
    destruct (L eq_refl u ut U X).
  - exact (run_valid compiles matches pick false recovery regex _ _ _ _ _ _ _ _ V _ eq_refl).
Qed.

(** If moreover all files can be read and all imported packages are declared,
    by files with types if the import is in a file with types, no error is
    reported. *)
Theorem C54_no_errors fs rsl trlc rsl_names more v1 v2 v :
  RunValid.valid compiles matches fs rsl trlc rsl_names more v1 v2 v ->
  (lint = true -> forall u ut, nth_error (tups (v_types v)) u = Some ut -> ~ LintRun.stuck (v_types v) ut) ->
  (forall f e, In f fs -> ~ unreadable f e) ->
  (forall f name l tk, In f fs -> starts f name l -> In tk l -> exists g, In g fs /\ (i_kind f = RSL -> i_kind g = RSL) /\ declares g (tok_text tk)) ->
  exists ms, process fs = Ok (Some v, ms) /\ forall m, In m ms -> is_error m = false.
Proof.
  intros V L U Im. destruct (C54_valid_run _ _ _ _ _ _ _ _ V L) as (ms & E & Ov). exists ms. split; auto. intros m I.
  destruct (is_error m) eqn:Em; auto. exfalso. destruct (Ov _ I Em) as [(f & e & If & X & _)|(f & name & l & tk & e & If & St & It & No & _)].
  - exact (U _ _ If X).
  - destruct (Im _ _ _ _ If St It) as (g & Ig & K & D). exact (No _ Ig K D).
Qed.
End RUN.
Print Assumptions C54_valid_run.
Print Assumptions C54_no_errors.

(** Files describe at most one symbol table. *)
Theorem C54_unique : forall compiles matches, (forall p x, compiles p = true -> matches p x <> None) ->
  forall fs rsl trlc rsl_names more v1 v2 v rsl' trlc' rsl_names' more' v1' v2' v',
  RunValid.valid compiles matches fs rsl trlc rsl_names more v1 v2 v ->
  RunValid.valid compiles matches fs rsl' trlc' rsl_names' more' v1' v2' v' -> v = v'.
Proof.
  intros compiles matches regex fs rsl trlc rns more v1 v2 v rsl' trlc' rns' more' v1' v2' v' A B.
  destruct (C54_valid_run compiles matches (fun _ => 0%nat) false true regex _ _ _ _ _ _ _ _ A) as (ms & E & _); [discriminate|].
  destruct (C54_valid_run compiles matches (fun _ => 0%nat) false true regex _ _ _ _ _ _ _ _ B) as (ms' & E' & _); [discriminate|].
  congruence.
Qed.
Print Assumptions C54_unique.

(** ** Example *)

(** A type with a check, and two objects, of which the first refers to the
    second before it is declared. *)
Definition types_text : text := t "package P type R { x Integer next optional R } checks R { x > 0, ""low"" }".
Definition objects_text : text := t "package P R a { x = 1 next = b } section ""s"" { R b { x = 2 } }".
Definition tokens_in (src : text) : list token := match lex src with Lexed l => l | _ => [] end.
Definition types_tokens : list token := Eval vm_compute in tokens_in types_text.
Definition objects_tokens : list token := Eval vm_compute in tokens_in objects_text.
Definition no_token : token := Token COMMENT VNone 0 0 0 0.
Definition rt (i : nat) : token := nth i types_tokens no_token.
Definition ot (i : nat) : token := nth i objects_tokens no_token.
Definition types_file : input_file := Input 0 RSL true types_text.
Definition objects_file : input_file := Input 1 TRLC true objects_text.
Definition two_files : list input_file := [types_file; objects_file].

(** The symbol table: at the start, with the type, with its check, with the
    first object, with the second one, and at the end *)
Definition the_comps : list component := [Comp (t "x") TInt false (TRec 0); Comp (t "next") (TRec 0) true (TRec 0)].
Definition the_check : check :=
  Check Sev_error (EBinary (tok_loc 0 (rt 15)) (Some TBool) B_gt (EName (tok_loc 0 (rt 14)) TInt (t "x") false false) (ELit (tok_loc 0 (rt 16)) (LInt 0)))
    None (tok_loc 0 (rt 18)) (t "low") None.
Definition the_type (cks : list check) : types := Types [RecType 0 (t "R") None the_comps [] false false cks] [] [].
Definition at_start : env := start_env [t "P"].
Definition with_type (cks : list check) : env := Env (the_type cks) [] [] (package_table [t "P"]) [[(t "R", N_type (TRec 0))]] 0.
Definition obj_a (tgt : option nat) : object :=
  Object 0 (t "a") (tok_loc 1 (ot 3)) 0
    [(t "x", (2%nat, XLit (tok_loc 1 (ot 7)) (LInt 1) [])); (t "next", (3%nat, XRef (tok_loc 1 (ot 10)) (Some (TRec 0)) 0 (t "b") tgt))].
Definition obj_b : object :=
  Object 0 (t "b") (tok_loc 1 (ot 16)) 0 [(t "x", (6%nat, XLit (tok_loc 1 (ot 20)) (LInt 2) [])); (t "next", (5%nat, XNull (tok_loc 1 (ot 16))))].
Definition with_a : env :=
  Env (the_type [the_check]) [obj_a None] [[]] (package_table [t "P"]) [[(t "R", N_type (TRec 0)); (t "a", N_obj 0)]] 4.
Definition with_b (tgt : option nat) : env :=
  Env (the_type [the_check]) [obj_a tgt; obj_b] [[]; [(tok_loc 1 (ot 13), t "s")]] (package_table [t "P"])
    [[(t "R", N_type (TRec 0)); (t "a", N_obj 0); (t "b", N_obj 1)]] 7.

Ltac word := split; vm_compute; reflexivity.
Ltac now_ := vm_compute; reflexivity.
(** names that are not in a table *)
Ltac fresh_name := intros ? ? I; vm_compute in I; repeat (destruct I as [I|I]; [injection I as <- <-; vm_compute; discriminate|]); destruct I.
Ltac entering := eexists; split; [exists [], []; repeat split|split; fresh_name].

Lemma type_declared : type_item 0 types_text (fun _ => true) (fun _ _ => Some true) 0 (Some []) false at_start (map rt (seq 2 9)) (with_type []).
Proof.
  apply ti_record.
  apply (record_declared 0 types_text 0 (Some []) false at_start false false [] (rt 2) (rt 3) [rt 3] None [] false (rt 4)
           (RecType 0 (t "R") None the_comps [] false false []) (map rt (seq 5 5)) 0 (rt 10) [[(t "R", N_type (TRec 0))]]);
    try now_; try word.
  - constructor.
  - constructor. now_.
  - constructor.
  - constructor.
  - entering.
  - apply (bd_component 0 types_text 0 (Some []) false _ 0 (t "R") None [] [] false [] 0 (rt 5) [rt 5] false [] TInt [rt 6] 0 TInt [] 0 (map rt (seq 7 3))).
    + constructor. now_.
    + constructor.
    + apply (tp_name _ _ _ _ (rt 6)). apply q_here; [now_|left; now_|discriminate].
    + constructor.
    + intros c (l & s & _ & _ & I). destruct s as [|[|]]; destruct I.
    + change (map rt (seq 7 3)) with ([rt 7] ++ [rt 8] ++ [rt 9] ++ [] ++ []).
      apply (bd_component 0 types_text 0 (Some []) false _ 0 (t "R") None [Comp (t "x") TInt false (TRec 0)] [] false [] 0 (rt 7) [rt 7] true [rt 8] (TRec 0) [rt 9] 0 (TRec 0) [] 0 []).
      * constructor. now_.
      * constructor. word.
      * apply (tp_name _ _ _ _ (rt 9)). apply q_here; [now_|left; now_|discriminate].
      * constructor.
      * intros c (l & s & _ & _ & I). destruct s as [|[|]]; [|destruct I|destruct I]. destruct I as [<-|[]]. vm_compute. discriminate.
      * constructor.
Qed.
Lemma scope_R cks : scope_of (the_type cks) (TRec 0) the_comps.
Proof. apply (so_rec (the_type cks) 0 [0%nat]). eapply lineage_root; reflexivity. Qed.
Lemma check_declared : type_item 0 types_text (fun _ => true) (fun _ _ => Some true) 0 (Some []) false (with_type []) (map rt (seq 11 9)) (with_type [the_check]).
Proof.
  apply ti_block.
  apply (block_declared 0 (fun _ => true) (fun _ _ => Some true) 0 (Some []) false (with_type []) (rt 11) (rt 12) (TRec 0) (rt 13) (map rt (seq 14 5)) _ (rt 19));
    try now_; try word; [|eexists; apply scope_R].
  apply (cs_more 0 (fun _ => true) (fun _ _ => Some true) 0 (Some []) false (TRec 0) (with_type []) the_check (map rt (seq 14 5)) (with_type [the_check]) []); [| |constructor].
  - apply (cd_check 0 (fun _ => true) (fun _ _ => Some true) 0 (Some []) false (with_type []) (TRec 0) the_comps
      (R_binary (rt 15) B_gt (R_name (rt 14) []) (R_lit (rt 16))) (map rt (seq 14 3)) _ (rt 17) Sev_error [] (rt 18) None None []); try now_.
    + apply scope_R.
    + apply syn_expr_rel. apply (syn_rel_compare (rt 15) B_gt _ [rt 14] _ [rt 16]).
      * apply op_gt. word.
      * apply syn_simple_term, syn_term_factor, syn_factor_prim. apply (syn_name (rt 14) [] []); [now_|constructor].
      * apply syn_simple_term, syn_term_factor, syn_factor_prim. apply syn_literal. eapply lit_int; now_.
    + apply m_binary; [cbn; auto 12| |].
      * eapply (m_component _ _ _ _ _ _ _ _ (Comp (t "x") TInt false (TRec 0))); [|apply sel_nil]. apply den_plain; [|discriminate]. apply scope_here. now_.
      * apply m_lit. eapply lv_int; now_.
    + apply (wt_order _ _ _ _ _ _ _ _ TInt); try (cbn; auto; fail).
      * apply wt_name. reflexivity.
      * apply wt_lit.
    + constructor.
    + intros _ I. vm_compute in I. repeat (destruct I as [I|I]; [discriminate|]). destruct I.
    + constructor.
  - apply (ct_rec (with_type []) the_check 0 0 (t "R") None the_comps [] false false []). exists [], []. repeat split.
Qed.

Lemma R_named v name : v_types v = the_type [the_check] -> v_pkgs v = [(t "R", N_type (TRec 0)) :: name] -> 
  forall i, tok_text (ot i) = t "R" -> tk_kind (ot i) = IDENTIFIER -> qualified (names_in 0 (Some []) v) (N_type (TRec 0)) (ot i) [ot i].
Proof.
  intros Ev Ep i X K. apply q_here; [auto| |discriminate]. left. rewrite X. unfold entry, p_symbols, names_in. cbn [n_pkgs n_current]. rewrite Ep. reflexivity.
Qed.
Lemma not_frozen_R k f : ~ freezes (the_type [the_check]) 0 k f.
Proof.
  intros (q & C & I). destruct q as [|[|]]; destruct I.
Qed.
Lemma comps_R : components (the_type [the_check]) 0 the_comps.
Proof. exists [0%nat]. split; [eapply lineage_root; reflexivity|reflexivity]. Qed.
Lemma no_separator a ts : a = TInt \/ a = TRec 0 -> false = false -> not_separator (the_type [the_check]) a ts /\ @nil note = [].
Proof. intros [->| ->] _; (split; auto); intros u ut tk us sep H; discriminate. Qed.
Ltac not_given := intros f I; cbn in I; repeat (destruct I as [I|I]; [discriminate|]); destruct I.
Lemma a_declared : object_item 1 objects_text 0 (Some []) false [] (with_type [the_check]) (map ot (seq 2 10)) with_a.
Proof.
  apply oi_object.
  apply (object_declared 1 objects_text 0 (Some []) false [] (with_type [the_check]) 0 (RecType 0 (t "R") None the_comps [] false false [the_check])
    (ot 2) [ot 2] (ot 3) (ot 4) the_comps (o_fields (obj_a None)) (map ot (seq 5 6)) 4 (ot 11) (o_fields (obj_a None))); try now_.
  - apply (R_named _ []); reflexivity.
  - apply comps_R.
  - entering.
  - apply (as_more 1 objects_text 0 (Some []) false _ _ _ the_comps [] 2 (ot 5) (ot 6) (Comp (t "x") TInt false (TRec 0))
      (XLit (tok_loc 1 (ot 7)) (LInt 1) []) [ot 7] [] (map ot (seq 8 3)) _ _ [(t "x", (0%nat, XNull (tok_loc 1 (ot 3)))); (t "next", (1%nat, XNull (tok_loc 1 (ot 3))))]); try now_.
    + left. reflexivity.
    + not_given.
    + apply not_frozen_R.
    + apply fl_null; [not_given|]. apply fl_null; [not_given|]. constructor.
    + apply v_int; now_.
    + apply no_separator. auto.
    + apply (as_more 1 objects_text 0 (Some []) false _ _ _ the_comps _ 3 (ot 8) (ot 9) (Comp (t "next") (TRec 0) true (TRec 0))
        (XRef (tok_loc 1 (ot 10)) (Some (TRec 0)) 0 (t "b") None) [ot 10] [] [] _ _ [(t "x", (2%nat, XLit (tok_loc 1 (ot 7)) (LInt 1) [])); (t "next", (1%nat, XNull (tok_loc 1 (ot 3))))]); try now_.
      * right. left. reflexivity.
      * not_given.
      * apply not_frozen_R.
      * apply fl_given; [left; reflexivity|]. apply fl_null; [not_given|]. constructor.
      * apply (v_ref _ _ _ _ _ _ (TRec 0) 0 (ot 10) [ot 10]); [left; reflexivity|apply on_here; now_|apply tg_later; now_].
      * apply no_separator. auto.
      * constructor.
  - apply fin_given; [left; reflexivity|]. apply fin_given; [right; left; reflexivity|]. constructor.
Qed.
Lemma b_declared : object_item 1 objects_text 0 (Some []) false [] with_a (map ot (seq 12 11)) (with_b None).
Proof.
  apply (oi_section 1 objects_text 0 (Some []) false [] with_a (ot 12) (ot 13) (ot 14) (map ot (seq 15 7)) (with_b None) (ot 22)); try now_; [word|].
  apply (ois_more 1 objects_text 0 (Some []) false _ with_a (map ot (seq 15 7)) (with_b None) []); [|constructor]. apply oi_object.
  apply (object_declared 1 objects_text 0 (Some []) false [(tok_loc 1 (ot 13), t "s")] with_a 0 (RecType 0 (t "R") None the_comps [] false false [the_check])
    (ot 15) [ot 15] (ot 16) (ot 17) the_comps [(t "x", (6%nat, XLit (tok_loc 1 (ot 20)) (LInt 2) []))] (map ot (seq 18 3)) 7 (ot 21) (o_fields obj_b)); try now_.
  - apply (R_named _ [(t "a", N_obj 0)]); reflexivity.
  - apply comps_R.
  - entering.
  - apply (as_more 1 objects_text 0 (Some []) false _ _ _ the_comps [] 6 (ot 18) (ot 19) (Comp (t "x") TInt false (TRec 0))
      (XLit (tok_loc 1 (ot 20)) (LInt 2) []) [ot 20] [] [] _ _ [(t "x", (4%nat, XNull (tok_loc 1 (ot 16)))); (t "next", (5%nat, XNull (tok_loc 1 (ot 16))))]); try now_.
    + left. reflexivity.
    + not_given.
    + apply not_frozen_R.
    + apply fl_null; [not_given|]. apply fl_null; [not_given|]. constructor.
    + apply v_int; now_.
    + apply no_separator. auto.
    + constructor.
  - apply fin_given; [left; reflexivity|]. apply fin_null; [not_given|apply not_frozen_R|reflexivity|]. constructor.
Qed.
(** The files *)
Lemma types_is : file_is types_file (rt 1) [] (map rt (seq 2 18)).
Proof.
  exists (map rt (seq 0 2)). split.
  - apply preamble_is; [word|now_|constructor|intros tk []].
  - eexists. split; now_.
Qed.
Lemma objects_is : file_is objects_file (ot 1) [] (map ot (seq 2 21)).
Proof.
  exists (map ot (seq 0 2)). split.
  - apply preamble_is; [word|now_|constructor|intros tk []].
  - eexists. split; now_.
Qed.
Lemma types_opens : opens types_file (rt 1) [].
Proof.
  exists (map rt (seq 0 2)). split; [apply preamble_is; [word|now_|constructor|intros tk []]|].
  right. exists (rt 2). split; [|intros [_ X]; discriminate]. exists (map ITok types_tokens), (map rt (seq 0 3)), (skipn 3 (map ITok types_tokens)). repeat split; now_.
Qed.
Lemma objects_opens : opens objects_file (ot 1) [].
Proof.
  exists (map ot (seq 0 2)). split; [apply preamble_is; [word|now_|constructor|intros tk []]|].
  right. exists (ot 2). split; [|intros [K _]; discriminate]. exists (map ITok objects_tokens), (map ot (seq 0 3)), (skipn 3 (map ITok objects_tokens)). repeat split; now_.
Qed.
Lemma types_declare : declares types_file (t "P").
Proof. eexists _, _. split; [apply opens_starts, types_opens|now_]. Qed.
Lemma objects_declare : declares objects_file (t "P").
Proof. eexists _, _. split; [apply opens_starts, objects_opens|now_]. Qed.
Lemma both_needed f : In f two_files -> file_needed two_files f.
Proof.
  intros I. exists (t "P"). assert (D : declares f (t "P")) by (destruct I as [<-|[<-|[]]]; [apply types_declare|apply objects_declare]).
  split; auto. exists (t "P", i_kind f). split; [|apply rt_refl]. exists f. repeat split; auto. destruct I as [<-|[<-|[]]]; auto.
Qed.
Lemma two_laid_out :
  RunValid.laid_out (fun _ => true) (fun _ _ => Some true) two_files [types_file] [objects_file] [t "P"] [] (with_type [the_check]) (with_b None) (with_b (Some 1%nat)).
Proof.
  constructor.
  - vm_compute. repeat constructor; cbn; intuition discriminate.
  - intros f [<-|[<-|[]]]; right; do 2 eexists; [apply types_opens|apply objects_opens].
  - exists [types_file]. split; [|split; [repeat constructor|repeat constructor; apply types_declare]].
    intros f. split; [intros [<-|[]]; split; [left; auto|split; [auto|eexists; apply types_declare]]|]. intros ([<-|[<-|[]]] & K & _); [left; auto|discriminate].
  - exists [objects_file], [t "P"]. split; [|split; [repeat constructor|split; [repeat constructor; apply objects_declare|repeat constructor]]].
    intros f. split; [intros [<-|[]]; split; [right; left; auto|split; [auto|eexists; apply objects_declare]]|]. intros ([<-|[<-|[]]] & K & _); [discriminate|left; auto].
  - vm_compute. repeat constructor; cbn; intuition discriminate.
  - intros f. split; [intros [<-|[]]; split; [left; auto|split; [auto|apply both_needed; left; auto]]|]. intros ([<-|[<-|[]]] & K & _); [left; auto|discriminate].
  - apply (rd_more two_files [] [types_file] [t "P"] []); [discriminate|repeat constructor; apply types_declare|repeat constructor| |intros f P []|constructor].
    intros P Q [<-|[]] H. exfalso. inversion H as [|? ? f f' I K D Im ? ? ?|]; subst. destruct I as [<-|[<-|[]]]; [|discriminate].
    destruct Im as (nm & l & tk & St & Il & _).
    destruct St as (ts & Pp & li & all & more & Ei & El & Et). assert (X : lead li = ts ++ lead more) by (rewrite El, lead_app, <- Et; auto).
    vm_compute in Ei. injection Ei as <-. clear El. destruct Pp as [kw name l ts _ _ Ip _]. destruct Ip as [|kw2 tk2 l ts [_ W] _ _]; [destruct Il|].
    vm_compute in X. injection X as _ _ <- _ _. discriminate.
  - intros f. split; [intros [<-|[]]; split; [right; left; auto|split; [auto|apply both_needed; right; left; auto]]|]. intros ([<-|[<-|[]]] & K & _); [discriminate|left; auto].
  - repeat constructor.
  - eapply vty_more; [apply types_is|now_|constructor| |constructor].
    apply (tis_more 0 types_text _ _ 0 (Some []) false _ (map rt (seq 2 9)) (with_type []) (map rt (seq 11 9))); [apply type_declared|].
    apply (tis_more 0 types_text _ _ 0 (Some []) false _ (map rt (seq 11 9)) (with_type [the_check]) []); [apply check_declared|constructor].
  - eapply vob_more; [apply objects_is|now_|constructor| |constructor].
    apply (ois_more 1 objects_text 0 (Some []) false _ _ (map ot (seq 2 10)) with_a (map ot (seq 12 11))); [apply a_declared|].
    apply (ois_more 1 objects_text 0 (Some []) false _ _ (map ot (seq 12 11)) (with_b None) []); [apply b_declared|constructor].
  - repeat split. constructor; [|constructor; [|constructor]].
    + apply lo_object. constructor; [|constructor; [|constructor]]; repeat split; cbn [fst snd].
      * apply ln_lit. constructor.
      * eapply ln_ref, link_type; [reflexivity|right; right; left; reflexivity|reflexivity|apply rt_refl].
    + apply lo_object. constructor; [|constructor; [|constructor]]; repeat split; cbn [fst snd].
      * apply ln_lit. constructor.
      * apply ln_null.
Qed.
Example C54_example :
  RunValid.valid (fun _ => true) (fun _ _ => Some true) two_files [types_file] [objects_file] [t "P"] [] (with_type [the_check]) (with_b None) (with_b (Some 1%nat)).
Proof.
  split; [exact two_laid_out|]. intros ob s I J. left. destruct I as [<-|[<-|[]]]; vm_compute in J; destruct J as [<-|[]]; eapply ChecksProofs.out_true; now_.
Qed.
(** Its files can be read, and import nothing. *)
Example C54_no_errors_example : (forall f e, In f two_files -> ~ unreadable f e) /\ (forall f name l tk, In f two_files -> starts f name l -> ~ In tk l) /\
  option_map (fun r => (fst r, snd r)) (match process (fun _ => true) (fun _ _ => Some true) (fun _ => 0%nat) true false two_files with Ok r => Some r | _ => None end)
    = Some (Some (with_b (Some 1%nat)), []).
Proof.
  split; [|split; [|vm_compute; reflexivity]].
  - intros f e [<-|[<-|[]]] X; [eapply unreadable_starts; [eauto|apply opens_starts, types_opens]|eapply unreadable_starts; [eauto|apply opens_starts, objects_opens]].
  - intros f nm l tk I (ts & Pp & li & all & more & Ei & El & Et) Il. assert (X : lead li = ts ++ lead more) by (rewrite El, lead_app, <- Et; auto).
    destruct I as [<-|[<-|[]]]; vm_compute in Ei; injection Ei as <-; clear El; destruct Pp as [kw name l ts _ _ Ip _]; (destruct Ip as [|kw2 tk2 l ts [K W] _ _]; [destruct Il|]);
      vm_compute in X; injection X as _ _ <- _ _; discriminate.
Qed.
