(** Property theorems: C59 (what the Python API shows of objects). *)
From Coq Require Import QArith Qabs.
From Verif Require Import Base Lexer SymTab Ast Eval Typing TypesProofs EvalSpec EvalSpecProofs EvalCorrect ParserBase ParserProofs ParserDecl Process ProcessInv ProcessRun
  Api ApiProofs ApiRun Prop_Process.
From Verif Require SourceMan.
Import SourceMan (fkind, RSL, TRLC).
Open Scope Z_scope.

Section RUN.
Variable compiles : text -> bool.
Variable matches : text -> text -> option bool.
Variable pick : list SourceMan.node -> nat.
Variable lint recovery : bool.
(** A regular expression that compiles can be matched with any string. *)
Hypothesis regex : forall p x, compiles p = true -> matches p x <> None.
Notation process := (process compiles matches pick lint recovery).

Lemma object_fits fs v ms o ob : process fs = Ok (Some v, ms) -> nth_error (v_objs v) o = Some ob ->
  forall c, In c (all_components (v_types v) (o_typ ob)) ->
    exists id x, assoc (c_name c) (o_fields ob) = Some (id, x) /\ fits (v_types v) (World (v_objs v) matches) (c_typ c) (c_opt c) x.
Proof.
  intros H E c I. destruct (C31_accepted_objects _ _ _ _ _ regex _ _ _ _ _ H E) as (_ & _ & _ & C).
  destruct (C c I) as [id x A V _|id x y A V _ _|id l A O _]; exists id, x || exists id, (XNull l); (split; [auto|]); [left|left|right]; eauto.
Qed.
Lemma object_answer fs v ms o ob : process fs = Ok (Some v, ms) -> nth_error (v_objs v) o = Some ob ->
  (exists d, to_python_dict v ob = Ok d /\ Forall2 (fun f p => fst f = fst p /\ exists s, stores (snd (snd f)) s /\ shown v s (snd p) /\ ~ huge s) (o_fields ob) d) \/
  (to_python_dict v ob = Crash /\ exists k id x s, In (k, (id, x)) (o_fields ob) /\ stores x s /\ huge s).
Proof.
  intros H E. apply fields_answer. intros k id x I. destruct (C31_accepted_objects _ _ _ _ _ regex _ _ _ _ _ H E) as (_ & Ks & Nd & _).
  assert (J : In k (map fst (o_fields ob))) by (apply in_map_iff; exists (k, (id, x)); auto). rewrite Ks in J. apply in_map_iff in J as (c & <- & Ic).
  destruct (object_fits _ _ _ _ _ H E c Ic) as (id' & x' & A & F).
  assert (x' = x). { apply TypesProofs.in_assoc in I; auto. pose proof (eq_trans (eq_sym A) I) as Q. injection Q. auto. } subst x'.
  destruct (fits_den _ _ _ _ _ F) as (w & s & _ & S & _). exists s. split; auto. eapply fits_answer; eauto. intros. eapply object_package; eauto.
Qed.

(** The dictionary of an object of an accepted run has an entry for each
    component, in the order of the components, and the entry shows the value
    of the component.  References are shown as the name of the object that is
    referred to. *)
Theorem C59_dictionary fs v ms o ob d : process fs = Ok (Some v, ms) -> nth_error (v_objs v) o = Some ob -> to_python_dict v ob = Ok d ->
  map fst d = map c_name (all_components (v_types v) (o_typ ob)) /\
  forall c, In c (all_components (v_types v) (o_typ ob)) ->
    exists id x s p, assoc (c_name c) (o_fields ob) = Some (id, x) /\ stores x s /\ assoc (c_name c) d = Some p /\ shown v s p.
Proof.
  intros H E D. destruct (C31_accepted_objects _ _ _ _ _ regex _ _ _ _ _ H E) as (_ & Ks & Nd & _).
  destruct (object_answer _ _ _ _ _ H E) as [(d' & E' & F)|(E' & _)]; [|congruence]. assert (d' = d) by congruence. subst d'.
  split.
  - rewrite <- Ks. clear - F. induction F as [|f p fs ps [X _] F IH]; [reflexivity|]. cbn [map]. f_equal; [symmetry; exact X|exact IH].
  - intros c I. destruct (object_fits _ _ _ _ _ H E c I) as (id & x & A & _). exists id, x.
    enough (exists s p, stores x s /\ assoc (c_name c) d = Some p /\ shown v s p) as (s & p & X); [exists s, p; split; auto|].
    revert A. clear - F. induction F as [|[k [i y]] [k' p] fs ps [X (s & Sy & Sh & _)] F IH]; cbn in *; [discriminate|]. subst k'.
    destruct (text_eqb k (c_name c)); [intros Q; injection Q as <- <-; eauto|auto].
Qed.

(** The dictionary cannot be built, by OverflowError, exactly if a decimal
    number in the object is too large for a double.  There is no other
    exception. *)
Theorem C59_failure fs v ms o ob : process fs = Ok (Some v, ms) -> nth_error (v_objs v) o = Some ob ->
  (to_python_dict v ob = Crash <-> exists k id x s, In (k, (id, x)) (o_fields ob) /\ stores x s /\ huge s) /\
  (to_python_dict v ob = Crash \/ exists d, to_python_dict v ob = Ok d).
Proof.
  intros H E. destruct (object_answer _ _ _ _ _ H E) as [(d & D & F)|(D & X)].
  - split; [|eauto]. rewrite D. split; [discriminate|]. intros (k & id & x & s & I & S & Hg). exfalso.
    destruct (Forall2_in _ _ _ _ F I) as (p & _ & _ & s' & S' & _ & N). cbn in S'. apply N. clear - S S' Hg.
    pose proof (stores_same _ _ _ S S') as Sm. clear S S'. revert s' Sm. induction Hg as [q Q|xs y0 I Hg IH|xs k0 y0 I Hg IH]; intros [s'|] Sm; try contradiction; cbn in Sm.
    + destruct s'; try contradiction. constructor. rewrite <- Sm. auto.
    + destruct s' as [| | | | |ys| |]; try contradiction. apply (same_arr xs ys) in Sm. destruct (Forall2_in _ _ _ _ Sm I) as (y & J & Sy). econstructor; [exact J|]. apply (IH (Some y)). auto.
    + destruct s' as [| | | | | |ys|]; try contradiction. apply (same_tup xs ys) in Sm. destruct (Forall2_in _ _ _ _ Sm I) as ([k' y] & J & _ & Sy). econstructor; [exact J|]. apply IH. auto.
  - split; [|auto]. split; auto.
Qed.

(** Objects are told apart by their names. *)
Theorem C59_names fs v ms o o' ob ob' : process fs = Ok (Some v, ms) -> nth_error (v_objs v) o = Some ob -> nth_error (v_objs v) o' = Some ob' ->
  fully_qualified_name v ob = fully_qualified_name v ob' -> o = o'.
Proof.
  intros H E E' N. assert (Op := fun o ob => object_package _ _ _ _ _ regex fs v ms o ob H). pose proof (name_full v Op _ _ E) as F. pose proof (name_full v Op _ _ E') as F'.
  rewrite N in F. eapply full_name_unique; eauto.
Qed.

(** Nothing is lost: two objects of a type that have the same dictionary have
    the same values. *)
Theorem C59_faithful fs v ms o o' ob ob' d : process fs = Ok (Some v, ms) -> nth_error (v_objs v) o = Some ob -> nth_error (v_objs v) o' = Some ob' ->
  o_typ ob = o_typ ob' -> to_python_dict v ob = Ok d -> to_python_dict v ob' = Ok d ->
  forall c, In c (all_components (v_types v) (o_typ ob)) ->
    exists id x s id' x' s', assoc (c_name c) (o_fields ob) = Some (id, x) /\ stores x s /\
      assoc (c_name c) (o_fields ob') = Some (id', x') /\ stores x' s' /\ osame s s'.
Proof.
  intros H E E' T D D' c I.
  destruct (C59_dictionary _ _ _ _ _ _ H E D) as [_ A]. destruct (C59_dictionary _ _ _ _ _ _ H E' D') as [_ A'].
  destruct (A c I) as (id & x & s & p & F & S & Ap & Sh). rewrite T in I. destruct (A' c I) as (id' & x' & s' & p' & F' & S' & Ap' & Sh').
  exists id, x, s, id', x', s'. repeat (split; [assumption|]). rewrite Ap in Ap'. injection Ap' as <-.
  destruct (object_fits _ _ _ _ _ H E' c I) as (i' & y' & G' & V'). rewrite G' in F'. injection F' as <- <-.
  rewrite <- T in I. destruct (object_fits _ _ _ _ _ H E c I) as (i & y & G & V). rewrite G in F. injection F as <- <-.
  eapply (faithful v matches) with (x := y) (y := y'); eauto. intros a b q X Y. eapply full_name_unique; eauto.
Qed.
End RUN.
Print Assumptions C59_dictionary.
Print Assumptions C59_failure.
Print Assumptions C59_names.
Print Assumptions C59_faithful.

(** The objects of Prop_Process.v *)
Definition demo_dict : list (text * pyobj) :=
  [(t "note", PyStr (t "see [[b]]")); (t "x", PyInt 5); (t "c", PyStr (t "red")); (t "tt", PyDict [(t "a", PyInt 1); (t "b", PyInt 2)]);
   (t "ar", PyList [PyInt 1; PyInt 2]); (t "next", PyStr (t "P.b"))].
Example C59_example : exists ob, demo = Ok (Some demo_env, demo_msgs) /\ nth_error (v_objs demo_env) 0 = Some ob /\ to_python_dict demo_env ob = Ok demo_dict /\
  fully_qualified_name demo_env ob = t "P.a".
Proof. eexists. split; [vm_compute; reflexivity|]. split; [vm_compute; reflexivity|]. split; vm_compute; reflexivity. Qed.
(** Two objects with the same dictionary *)
Definition twins : res unit (option env * list msg) :=
  run_of [(RSL, t "package P  type R { x Decimal  next optional R }"); (TRLC, t "package P  R a { x = 0.5 next = b }  R b { x = 0.5 next = b }")].
Definition env_of (r : res unit (option env * list msg)) : env := match r with Ok (Some v, _) => v | _ => demo_env end.
Definition msgs_of (r : res unit (option env * list msg)) : list msg := match r with Ok (_, ms) => ms | _ => [] end.
Definition object_of (r : res unit (option env * list msg)) (o : nat) : object := nth o (v_objs (env_of r)) demo_b.
Definition twin_dict : list (text * pyobj) := [(t "x", PyFloat (1 # 2)); (t "next", PyStr (t "P.b"))].
Example C59_faithful_example : twins = Ok (Some (env_of twins), msgs_of twins) /\
  nth_error (v_objs (env_of twins)) 0 = Some (object_of twins 0) /\ nth_error (v_objs (env_of twins)) 1 = Some (object_of twins 1) /\
  o_typ (object_of twins 0) = o_typ (object_of twins 1) /\
  to_python_dict (env_of twins) (object_of twins 0) = Ok twin_dict /\ to_python_dict (env_of twins) (object_of twins 1) = Ok twin_dict.
Proof. repeat apply conj; vm_compute; reflexivity. Qed.

(** There are accepted objects without a dictionary: a decimal number with 310
    digits is accepted, but has no float. *)
Definition big_trlc : text := t "package P  R a { x = 1" ++ repeat 48%N (Z.to_nat 309) ++ t ".0 }".
Definition big_run : res unit (option env * list msg) := run_of [(RSL, t "package P  type R { x Decimal }"); (TRLC, big_trlc)].
Theorem C59_always_refuted : exists fs v ms ob, process (fun _ => true) (fun a b => Some (text_eqb a b)) (fun _ => 0%nat) true true fs = Ok (Some v, ms) /\
  nth_error (v_objs v) 0 = Some ob /\ ms = [] /\ to_python_dict v ob = Crash.
Proof.
  exists (files [(RSL, t "package P  type R { x Decimal }"); (TRLC, big_trlc)]), (env_of big_run), (msgs_of big_run), (object_of big_run 0).
  repeat apply conj; vm_compute; reflexivity.
Qed.
Print Assumptions C59_always_refuted.
