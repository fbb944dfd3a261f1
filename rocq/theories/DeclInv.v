(** What holds of the declarations after every step of the parser: the tables
    are consistent, whatever errors were met. *)
From Coq Require Import Relations.
From Verif Require Import Base Lexer SymTab Ast Eval Typing TypesProofs ParserBase ParserProofs ParserExpr ParserValue ExprTyping
  ValueSyntax ValueParserSound ValueTyping Lint ParserDecl Growth.
From Coq Require Import ZifyBool ZifyNat ZifyN.
Open Scope Z_scope.

(** ** The invariant *)

(** Types that have a name *)
Definition named_type (a : ty) : bool := match a with TUnion _ _ | TArr _ _ _ _ => false | _ => true end.

Section OK.
Variable matches : text -> text -> option bool.
Notation W0 := (World [] matches).

Record check_ok (G : types) (a : ty) (c : check) : Prop := CheckOk {
  co_expr : wt G W0 false (type_scope G a) (ck_expr c);
  co_bool : e_typ (ck_expr c) = Some TBool;
  co_anchor : forall k, ck_anchor c = Some k -> exists x, In x (type_comps G a) /\ c_name x = k
}.
Record rec_ok (G : types) (r : nat) (rt : rectype) : Prop := RecOk {
  ro_parent : forall p, r_parent rt = Some p -> (p < r)%nat;
  ro_valid : forall c, In c (r_comps rt) -> valid G (c_typ c);
  ro_simple : forall c, In c (r_comps rt) -> simple_array (c_typ c);
  ro_own : forall c, In c (r_comps rt) -> c_of c = TRec r;
  ro_names : NoDup (map (fun c => simplified_name (c_name c)) (all_components G r));
  ro_frozen : forall k f, In (k, f) (r_frozen rt) ->
    exists c, In c (all_components G r) /\ c_name c = k /\ vt0 G [] (c_typ c) (snd f);
  ro_checks : forall c, In c (r_checks rt) -> check_ok G (TRec r) c
}.
Record tup_ok (G : types) (u : nat) (ut : tuptype) : Prop := TupOk {
  uo_tuple : tuple_ok G u ut;
  uo_names : NoDup (map (fun c => simplified_name (c_name c)) (u_comps ut));
  uo_own : forall c, In c (u_comps ut) -> c_of c = TTup u;
  uo_valid : forall c, In c (u_comps ut) -> valid G (c_typ c);
  uo_checks : forall c, In c (u_checks ut) -> check_ok G (TTup u) c
}.
Record types_ok (G : types) : Prop := TypesOk {
  ty_recs : forall r rt, rec G r = Some rt -> rec_ok G r rt;
  ty_tups : forall u ut, tup G u = Some ut -> tup_ok G u ut;
  ty_enums : forall i en, nth_error (enums G) i = Some en -> NoDup (map simplified_name (en_lits en))
}.
Record entry_valid (G : types) (objs : list object) (pkgs : list ntable) (e : entity) : Prop := EntryValid {
  ev_type : forall a, e = N_type a -> named_type a = true /\ valid G a;
  ev_obj : forall o, e = N_obj o -> (o < List.length objs)%nat;
  ev_pkg : forall p, e = N_pkg p -> (p < List.length pkgs)%nat;
  ev_global : global e = true
}.
Record names_ok (v : env) : Prop := NamesOk {
  no_stab : forall k e, In (k, e) (v_stab v) -> entry_valid (v_types v) (v_objs v) (v_pkgs v) e /\ (forall o, e <> N_obj o);
  no_pkgs : forall d k e, In d (v_pkgs v) -> In (k, e) d -> entry_valid (v_types v) (v_objs v) (v_pkgs v) e /\ (forall p, e <> N_pkg p);
  no_named : forall p, (p < List.length (v_pkgs v))%nat -> exists k, In (k, N_pkg p) (v_stab v)
}.
Record decl_ok (v : env) : Prop := DeclOk { do_types : types_ok (v_types v); do_names : names_ok v }.

(** *** Consequences *)
Section CONSEQUENCES.
Variable G : types.
Hypothesis ok : types_ok G.
Lemma ok_order : wf_types G.
Proof. intros r p (rt & R & P). eapply ro_parent; eauto. apply ok. exact R. Qed.
Lemma ok_components : components_valid G.
Proof. split; [intros r rt c R; apply ro_valid with (r := r); apply ok; auto|intros u ut c U; apply uo_valid with (u := u); apply ok; auto]. Qed.
Lemma ok_tuples : tuples_ok G.
Proof. intros u ut U. apply uo_tuple. apply ok; auto. Qed.
Lemma ok_similar r : NoDup (map (fun c => simplified_name (c_name c)) (all_components G r)).
Proof.
  destruct (rec G r) as [rt|] eqn:R; [eapply ro_names; apply ok; eauto|].
  unfold all_components. destruct r; cbn [all_components_steps]; rewrite R; constructor.
Qed.
Lemma ok_distinct : distinct_names G.
Proof. intros r. apply (NoDup_map_inv simplified_name). rewrite map_map. apply ok_similar. Qed.
Lemma ok_tup u ut : nth_error (tups G) u = Some ut -> NoDup (map c_name (u_comps ut)).
Proof. intros U. apply to_names with (G := G) (u := u). apply ok_tuples. auto. Qed.
Lemma ok_own r rt c : nth_error (recs G) r = Some rt -> In c (r_comps rt) -> c_of c = TRec r.
Proof. intros R. eapply ro_own. apply ok. exact R. Qed.
End CONSEQUENCES.

(** *** Growth *)
Lemma check_keeps G G' a c : keeps G G' -> types_ok G -> valid G a -> check_ok G a c -> check_ok G' a c.
Proof.
  intros K O V [We Eb An].
  assert (Or := ok_order _ O). assert (Co := ok_components _ O). assert (Di := ok_distinct _ O).
  constructor; auto.
  - rewrite (keeps_type_scope G G' K Or a V). eapply (wt_mono G G' W0 W0); eauto. intros n b o E. eapply type_scope_valid; eauto.
  - rewrite (keeps_type_comps G G' K Or); auto.
Qed.
Lemma tuple_keeps G G' u ut ut' : keeps G G' -> tup G u = Some ut -> u_comps ut' = u_comps ut -> u_seps ut' = u_seps ut ->
  types_ok G -> tuple_ok G' u ut'.
Proof.
  intros K U E1 E2 O. destruct (ok_tuples _ O u ut U) as [A B C D E F H I]. constructor; rewrite ?E1, ?E2; auto.
  intros N c w wt' Ic Et Uw.
  assert (V : valid G (c_typ c)) by (eapply ok_components; eauto). rewrite Et in V. cbn in V.
  destruct (tup_some _ _ V) as (wt0 & Uw0). destruct (kp_tup _ _ K _ _ Uw0) as (wt'' & Uw'' & _ & S2).
  assert (wt'' = wt') as -> by congruence. rewrite S2. eapply E; eauto.
Qed.
(** The types of [G'] are those of [G], with new checks, and new types. *)
Lemma types_grow G G' : types_ok G -> keeps G G' ->
  (forall r rt', rec G' r = Some rt' ->
     rec_ok G' r rt' \/
     exists rt, rec G r = Some rt /\ forall c, In c (r_checks rt') -> In c (r_checks rt) \/ check_ok G (TRec r) c) ->
  (forall u ut', tup G' u = Some ut' ->
     tup_ok G' u ut' \/
     exists ut, tup G u = Some ut /\ forall c, In c (u_checks ut') -> In c (u_checks ut) \/ check_ok G (TTup u) c) ->
  (forall i en, nth_error (enums G') i = Some en -> NoDup (map simplified_name (en_lits en))) ->
  types_ok G'.
Proof.
  intros O K Hr Hu He. assert (Or := ok_order _ O). constructor; auto.
  - intros r rt' R'. destruct (Hr _ _ R') as [|(rt & R & Hc)]; auto.
    destruct (ty_recs _ O _ _ R) as [A B C D E F H]. destruct (kp_rec _ _ K _ _ R) as (rt'' & R'' & P & Cs & Fs).
    assert (rt'' = rt') as -> by congruence. assert (L := some_rec _ _ _ R).
    constructor; rewrite ?P, ?Cs, ?Fs, ?(keeps_components G G' K Or r L); auto.
    + intros c I. eapply keeps_valid; eauto.
    + intros k f I. destruct (F _ _ I) as (c & Ic & En & Vt). exists c. split; auto. split; auto.
      eapply (vt0_mono G G' [] []); [apply keeps_grows; auto| |exact Vt]. intros o ob Q. eauto.
    + intros c I. eapply check_keeps; eauto. destruct (Hc _ I); auto.
  - intros u ut' U'. destruct (Hu _ _ U') as [|(ut & U & Hc)]; auto.
    destruct (ty_tups _ O _ _ U) as [A A1 A2 B C]. destruct (kp_tup _ _ K _ _ U) as (ut'' & U'' & Cs & Ss).
    assert (ut'' = ut') as -> by congruence. assert (L := some_tup _ _ _ U).
    constructor; rewrite ?Cs; auto.
    + eapply tuple_keeps; eauto.
    + intros c I. eapply keeps_valid; eauto.
    + intros c I. eapply check_keeps; eauto. destruct (Hc _ I); auto.
Qed.

Lemma entry_keeps G G' objs objs' pkgs pkgs' e : keeps G G' -> (List.length objs <= List.length objs')%nat ->
  (List.length pkgs <= List.length pkgs')%nat -> entry_valid G objs pkgs e -> entry_valid G' objs' pkgs' e.
Proof.
  intros K L1 L2 [A B C D]. constructor; auto.
  - intros a E. destruct (A a E). split; auto. eapply keeps_valid; eauto.
  - intros o E. specialize (B o E). lia.
  - intros p E. specialize (C p E). lia.
Qed.

(** *** Changes of lists *)
Lemma change_length {A} (l : list A) i f : List.length (change l i f) = List.length l.
Proof. revert i. induction l as [|x l IH]; intros [|i]; cbn; auto. Qed.
Lemma change_same {A} (l : list A) i f : nth_error (change l i f) i = option_map f (nth_error l i).
Proof. revert i. induction l as [|x l IH]; intros [|i]; cbn; auto. Qed.
Lemma change_other {A} (l : list A) i j f : i <> j -> nth_error (change l i f) j = nth_error l j.
Proof. revert i j. induction l as [|x l IH]; intros [|i] [|j] N; cbn; auto; try congruence. Qed.
Lemma change_last {A} (l : list A) x f : change (l ++ [x]) (List.length l) f = l ++ [f x].
Proof. induction l as [|y l IH]; cbn; auto. f_equal. auto. Qed.
Lemma change_in {A} (l : list A) i f y : In y (change l i f) -> In y l \/ exists x, nth_error l i = Some x /\ y = f x.
Proof.
  revert i. induction l as [|x l IH]; intros [|i]; cbn; auto; intros [<-|I]; eauto. destruct (IH _ I) as [|(z & E & ->)]; eauto.
Qed.
Lemma nth_last {A} (l : list A) x : nth_error (l ++ [x]) (List.length l) = Some x.
Proof. induction l; cbn; auto. Qed.
Lemma nth_before {A} (l : list A) x i : (i < List.length l)%nat -> nth_error (l ++ [x]) i = nth_error l i.
Proof. intros. apply nth_error_app1. auto. Qed.
Lemma nth_extended {A} (l : list A) x i y : nth_error (l ++ [x]) i = Some y -> nth_error l i = Some y \/ (i = List.length l /\ y = x).
Proof.
  intros E. destruct (Nat.lt_ge_cases i (List.length l)) as [L|L].
  - rewrite nth_before in E by auto. auto.
  - rewrite nth_error_app2 in E by auto. destruct (i - List.length l)%nat as [|j] eqn:Q; cbn in E; [|destruct j; discriminate].
    injection E as <-. right. split; auto. lia.
Qed.

(** *** The steps *)
Lemma keeps_enums G es : keeps G (Types (recs G) (tups G) es).
Proof. constructor; cbn; unfold rec, tup; cbn; eauto 8. Qed.
Lemma keeps_add_rec G rt : keeps G (Types (recs G ++ [rt]) (tups G) (enums G)).
Proof.
  constructor; unfold rec, tup; cbn; eauto 8. intros r x R. exists x. rewrite nth_before; auto. eapply some_rec; eauto.
Qed.
Lemma keeps_add_tup G ut : keeps G (Types (recs G) (tups G ++ [ut]) (enums G)).
Proof.
  constructor; unfold rec, tup; cbn; eauto 8. intros r x R. exists x. rewrite nth_before; auto. eapply some_tup; eauto.
Qed.
Lemma keeps_change_rec G r f : (forall rt, r_parent (f rt) = r_parent rt /\ r_comps (f rt) = r_comps rt /\ r_frozen (f rt) = r_frozen rt) ->
  keeps G (Types (change (recs G) r f) (tups G) (enums G)).
Proof.
  intros H. constructor; unfold rec, tup; cbn; eauto 8. intros r' x R. destruct (Nat.eq_dec r r') as [<-|N].
  - rewrite change_same, R. cbn. eauto.
  - rewrite change_other by auto. eauto.
Qed.
Lemma keeps_change_tup G r f : (forall rt, u_comps (f rt) = u_comps rt /\ u_seps (f rt) = u_seps rt) ->
  keeps G (Types (recs G) (change (tups G) r f) (enums G)).
Proof.
  intros H. constructor; unfold rec, tup; cbn; eauto 8. intros r' x R. destruct (Nat.eq_dec r r') as [<-|N].
  - rewrite change_same, R. cbn. eauto.
  - rewrite change_other by auto. eauto.
Qed.

Lemma names_grow v v' : names_ok v -> keeps (v_types v) (v_types v') -> (List.length (v_objs v) <= List.length (v_objs v'))%nat ->
  v_stab v' = v_stab v -> v_pkgs v' = v_pkgs v -> names_ok v'.
Proof.
  intros [A B C] K L E1 E2. constructor; rewrite ?E1, ?E2; auto.
  - intros k e I. destruct (A _ _ I). split; auto. eapply entry_keeps; eauto.
  - intros d k e I J. destruct (B _ _ _ I J). split; auto. eapply entry_keeps; eauto.
Qed.
Lemma names_register v v' p name e : names_ok v -> keeps (v_types v) (v_types v') -> (List.length (v_objs v) <= List.length (v_objs v'))%nat ->
  v_stab v' = v_stab v -> v_pkgs v' = change (v_pkgs v) p (fun d => d ++ [(name, e)]) ->
  entry_valid (v_types v') (v_objs v') (v_pkgs v') e -> (forall p, e <> N_pkg p) -> names_ok v'.
Proof.
  intros [A B C] K L E1 E2 V Np.
  assert (Lp : List.length (v_pkgs v') = List.length (v_pkgs v)) by (rewrite E2; apply change_length).
  constructor; rewrite ?E1, ?Lp; auto.
  - intros k x I. destruct (A _ _ I). split; auto. eapply entry_keeps; try eassumption. lia.
  - intros d k x I J. rewrite E2 in I. apply change_in in I as [I|(d' & Ed & ->)].
    + destruct (B _ _ _ I J). split; auto. eapply entry_keeps; try eassumption. lia.
    + apply in_app_or in J as [J|[J|[]]].
      * apply nth_error_In in Ed. destruct (B _ _ _ Ed J). split; auto. eapply entry_keeps; try eassumption. lia.
      * injection J as _ <-. auto.
Qed.
End OK.
