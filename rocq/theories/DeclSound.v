(** What the parser accepts as a declaration is one, with the meaning that the
    manual gives it. *)
From Coq Require Import Relations Permutation.
From Verif Require Import Base Lexer SymTab Ast Eval Typing TypesProofs ParserBase ParserProofs ParserExpr ExprSyntax ExprParserSound ParserValue ExprTyping
  ValueSyntax ValueParserSound ValueTyping Lint ParserDecl ParserFile Growth DeclInv DeclRsl ExprMeaning ExprMeaningProofs DeclSyntax.
From Coq Require Import ZifyBool ZifyNat ZifyN.
Open Scope Z_scope.

(** ** Inversion *)
Lemma dbind_ok {A B} (m : D A) (k : A -> D B) s b s' :
  dbind m k s = DOk b s' -> exists a s1, m s = DOk a s1 /\ k a s1 = DOk b s'.
Proof. unfold dbind. destruct (m s); intros H; try discriminate. eauto. Qed.
Lemma with_names_ok {A} (m : env -> names -> P A) v c sec q a s' : with_names m (St v c sec q) = DOk a s' ->
  exists q', m v (names_of v c) q = POk a q' /\ s' = St v c sec q'.
Proof. unfold with_names. cbn. destruct (m _ _ _); intros H; try discriminate. injection H as <- <-. eauto. Qed.
Lemma dp_ok {A} (m : P A) v c sec q a s' : dp m (St v c sec q) = DOk a s' -> exists q', m q = POk a q' /\ s' = St v c sec q'.
Proof. apply (with_names_ok (fun _ _ => m)). Qed.
Lemma dlift_ok {A} (r : res perr A) v c sec q a s' : dlift r (St v c sec q) = DOk a s' -> r = Ok a /\ s' = St v c sec q.
Proof. intros H. apply dp_ok in H as (q' & H & ->). apply lift_ok in H as (-> & ->). auto. Qed.
Lemma dcond_cases {A} b (x y : D A) v c sec q r : dcond b x y (St v c sec q) = r ->
  (b q = true /\ x (St v c sec q) = r) \/ (b q = false /\ y (St v c sec q) = r).
Proof. unfold dcond. cbn. destruct (b q); auto. Qed.

(** ** Tables *)
Lemma replaced_change {A} (l : list A) i f x : nth_error l i = Some x -> replaced l i x (f x) (change l i f).
Proof.
  revert i. induction l as [|y l IH]; intros [|i] H; cbn in *; try discriminate.
  - injection H as ->. exists [], l. auto.
  - destruct (IH _ H) as (a & b & -> & <- & E). exists (y :: a), b. rewrite E. auto.
Qed.
Lemma t_find_none {A} (d : list (text * A)) name : t_find d name = None <-> free_name d name.
Proof.
  unfold free_name. induction d as [|[k x] d IH]; cbn; [split; auto; intros _ k x []|].
  destruct (text_eqb (simplified_name k) (simplified_name name)) eqn:E.
  - apply text_eqb_eq in E. split; [discriminate|]. intros H. destruct (H k x); auto.
  - rewrite IH. split.
    + intros H k' x' [I|I]; [|eauto]. injection I as <- <-. intros Q. rewrite Q, text_eqb_refl in E. discriminate.
    + eauto.
Qed.
Lemma free_app {A} (a b : list (text * A)) name : free_name (a ++ b) name <-> free_name a name /\ free_name b name.
Proof.
  unfold free_name. split.
  - intros H. split; intros k x I; apply (H k x), in_or_app; auto.
  - intros [H1 H2] k x I. apply in_app_or in I as [I|I]; eauto.
Qed.
Lemma registrable_free {A} (f : A -> entity) d name l u : registrable f d name l = Ok u -> free_name d name.
Proof. unfold registrable. destruct (t_find d name) as [[k a]|] eqn:F; [discriminate|]. intros _. apply t_find_none. auto. Qed.

(** ** Components and frozen components *)
Section TYPES.
Variable G : types.
Hypothesis order : wf_types G.
Lemma chain_spec f r l : (r <= f)%nat -> lineage G r l -> chain_steps G f r = flat_map (own_components G) (rev l).
Proof.
  intros L A; revert f L; induction A as [r rt E P|r q l X A IH]; intros f L.
  - destruct f; cbn; unfold rec, own_components; rewrite E, ?P; auto.
  - rewrite rev_app_distr; cbn. pose proof (order _ _ X) as Lt. destruct X as (rt & E & P).
    destruct f as [|f]; [lia|]. cbn. unfold rec. rewrite E, P. rewrite IH by lia. unfold own_components at 2. rewrite E. auto.
Qed.
Lemma chain_has r x : (r < List.length (recs G))%nat -> In x (chain_steps G r r) <-> has_component G r x.
Proof.
  intros L. destruct (lineage_exists G order r L) as (l & A). rewrite (chain_spec r r l (Nat.le_refl r) A), in_flat_map. unfold has_component. split.
  - intros (y & I & J). apply in_rev in I. eauto.
  - intros (l' & y & A' & I & J). rewrite (lineage_unique G _ _ _ A' A) in I. exists y. rewrite <- in_rev. auto.
Qed.
Lemma first_some_none {A B} (f : A -> option B) l : first_some f l = None -> forall x, In x l -> f x = None.
Proof.
  induction l as [|y l IH]; cbn; intros H x; [tauto|]. destruct (f y) eqn:E; [discriminate|]. intros [->|I]; auto.
Qed.
Lemma first_some_some {A B} (f : A -> option B) l y : first_some f l = Some y -> exists x, In x l /\ f x = Some y.
Proof. induction l as [|z l IH]; cbn; intros H; [discriminate|]. destruct (f z) eqn:E; [injection H as <-; eauto|]. destruct (IH H) as (x & I & Q). eauto. Qed.
Lemma assoc_none_not {A} k (d : list (text * A)) : assoc k d = None -> forall x, ~ In (k, x) d.
Proof.
  induction d as [|[k' y] d IH]; cbn; intros H x; [tauto|]. destruct (text_eqb k' k) eqn:E; [discriminate|].
  intros [I|I]; [|exact (IH H x I)]. injection I as -> ->. rewrite text_eqb_refl in E. discriminate.
Qed.
Lemma assoc_some_in {A} k (d : list (text * A)) x : assoc k d = Some x -> In (k, x) d.
Proof.
  induction d as [|[k' y] d IH]; cbn; intros H; [discriminate|]. destruct (text_eqb k' k) eqn:E; auto.
  apply text_eqb_eq in E. subst. injection H as ->. auto.
Qed.
Lemma freezing_none r k : (r < List.length (recs G))%nat -> get_freezing G r k = None -> forall f, ~ freezes G r k f.
Proof.
  intros L H f (q & C & I). destruct (lineage_exists G order r L) as (l & A). unfold get_freezing in H.
  rewrite (freezing_steps_nearest G order r r l k (Nat.le_refl r) A) in H.
  assert (J : In q (rev l)) by (rewrite <- in_rev; apply (lineage_in G r l A); auto).
  exact (assoc_none_not _ _ (first_some_none _ _ H q J) f I).
Qed.
Lemma freezing_some r k f : (r < List.length (recs G))%nat -> get_freezing G r k = Some f -> freezes G r k f.
Proof.
  intros L H. destruct (lineage_exists G order r L) as (l & A). unfold get_freezing in H.
  rewrite (freezing_steps_nearest G order r r l k (Nat.le_refl r) A) in H. apply first_some_some in H as (q & I & E).
  exists q. split; [apply (lineage_in G r l A); apply in_rev; auto|]. apply assoc_some_in. auto.
Qed.
End TYPES.
Lemma t_lookup_exact file (d : list component) tk x : t_lookup file N_comp (map (fun y => (c_name y, y)) d) tk None = Ok x ->
  In x d /\ c_name x = tok_text tk.
Proof.
  unfold t_lookup. destruct (t_find _ _) as [[k y]|] eqn:F; [|discriminate]. destruct (text_eqb k (tok_text tk)) eqn:E; [|discriminate].
  intros H. injection H as ->. apply text_eqb_eq in E. subst. apply t_find_in in F. apply in_map_iff in F as (z & Z & I). injection Z as <- <-. auto.
Qed.
Lemma with_rec_order v rt : wf_types (v_types v) -> (forall q, r_parent rt = Some q -> (q < List.length (recs (v_types v)))%nat) ->
  wf_types (with_rec v rt).
Proof.
  intros O P r q (x & E & Q). cbn in E. apply nth_extended in E as [E|[-> ->]]; auto. apply O. exists x. auto.
Qed.

Ltac dinv H :=
  cbv beta iota in H;
  match type of H with
  | dbind _ _ _ = DOk _ _ =>
      let a := fresh "a" in let s := fresh "s" in let H1 := fresh "H" in
      apply dbind_ok in H as (a & s & H1 & H); try (match type of a with unit => destruct a end)
  | dret _ _ = DOk _ _ => first [injection H as <- <- | injection H as <-]
  | dget _ = DOk _ _ => injection H as <- <-
  | dset _ _ = DOk _ _ => first [injection H as <- <- | injection H as <-]
  | derror _ _ = DOk _ _ => discriminate H
  | dcrash _ = DOk _ _ => discriminate H
  | dfuel _ = DOk _ _ => discriminate H
  end.
Ltac pc H := let Q := fresh "Heqb" in apply pcond_cases in H as [(Q & H) | (Q & H)].
Ltac dok H := let q := fresh "q" in let H1 := fresh "H" in apply dp_ok in H as (q & H & ->).

Section SOUND.
Variable file : Z.
Variable src : text.
Variable lint : bool.
Variable compiles : text -> bool.
Variable matches : text -> text -> option bool.
Variable n : nat.
Variable c : cunit.
Variable p : nat.
Variable imports : option (list nat).
Hypothesis pkg : cu_pkg c = Some p.
Hypothesis imps : cu_imports c = imports.

Notation loc_of := (tok_loc file).
Notation names_in := (names_in p imports).

Lemma names_eq v : names_of v c = names_in v.
Proof. unfold names_of, DeclSyntax.names_in. rewrite pkg, imps. auto. Qed.

(** The parser gets from [q] over the tokens [ts] to the state [s']. *)
Definition to (sec : list sect) (q : ps) (ts : list token) (v' : env) (s' : st) : Prop :=
  exists q', s' = St v' c sec q' /\ reads (at_ q) ts (at_ q').
Definition at_number (v : env) (k : nat) : env := Env (v_types v) (v_objs v) (v_secs v) (v_stab v) (v_pkgs v) k.
Lemma at_number_self v : at_number v (v_next v) = v. Proof. destruct v; auto. Qed.

Lemma described_sound q tk q' : parse_described_name file q = POk tk q' -> exists ts, described tk ts /\ reads (at_ q) ts (at_ q').
Proof.
  unfold parse_described_name. intros H. apply pbind_ok in H as (a & q1 & H1 & H). apply match_ok in H1 as (K & R & _).
  pc H.
  - apply pbind_ok in H as (s & q2 & H2 & H). injection H as <- <-. apply match_ok in H2 as (K2 & R2 & _).
    exists [a; s]. split; [constructor; auto|]. eapply (reads_app _ [a]); eauto.
  - injection H as <- <-. exists [a]. split; [constructor; auto|auto].
Qed.
Lemma current_sound sec v q x s' : current (St v c sec q) = DOk x s' -> x = p /\ s' = St v c sec q.
Proof. unfold current. cbn. rewrite pkg. intros H. injection H as <- <-. auto. Qed.
Lemma register_sound sec v q name l e u s' : register p name l e (St v c sec q) = DOk u s' -> (p < List.length (v_pkgs v))%nat ->
  exists pkgs, entered (v_stab v) (v_pkgs v) p name e pkgs /\
    s' = St (Env (v_types v) (v_objs v) (v_secs v) (v_stab v) pkgs (v_next v)) c sec q.
Proof.
  unfold register, may_register. intros H L. dinv H. apply with_names_ok in H0 as (q1 & H0 & ->). apply lift_ok in H0 as (H0 & ->).
  dinv H. unfold add_entry. cbn. eexists. split; [|reflexivity]. apply registrable_free in H0.
  rewrite names_eq in H0. unfold p_symbols in H0. cbn in H0. apply free_app in H0 as [F1 F2].
  destruct (nth_error (v_pkgs v) p) as [d|] eqn:E; [|apply nth_error_None in E; lia].
  exists d. split; [apply replaced_change with (f := fun d => d ++ [(name, e)]); auto|]. split; auto.
  rewrite (nth_error_nth _ _ _ E) in F1. auto.
Qed.

(** ** Enumerations *)
Lemma literals_sound m sec e pre nm b q b' s' pkg0 G0 objs secs stab pkgs k l0 :
  e = List.length pre ->
  enum_literals_loop file m e b (St (Env (Types (recs G0) (tups G0) (pre ++ [EnumType pkg0 nm l0])) objs secs stab pkgs k) c sec q) = DOk b' s' ->
  NoDup (map simplified_name l0) ->
  exists l ts, literals l ts /\ NoDup (map simplified_name (l0 ++ l)) /\ (b' = true <-> b = true /\ l = []) /\
    to sec q ts (Env (Types (recs G0) (tups G0) (pre ++ [EnumType pkg0 nm (l0 ++ l)])) objs secs stab pkgs k) s'.
Proof.
  intros ->. revert b q l0. induction m as [|m IH]; intros b q l0 H Nd; cbn [enum_literals_loop] in H; [dinv H|].
  apply dcond_cases in H as [(Pk & H)|(Pk & H)].
  - dinv H. exists [], []. rewrite app_nil_r. split; [constructor|]. split; auto. split; [tauto|]. exists q. split; auto. constructor.
  - dinv H. dok H0. apply described_sound in H0 as (t1 & D1 & R1). dinv H. dinv H0. dinv H. apply dlift_ok in H0 as (F & ->).
    dinv H. dinv H0. cbn in H, F. unfold change_enum, set_types in H. cbn in H. rewrite change_last in H. cbn in H.
    unfold enum_literals in F. cbn in F. rewrite nth_last in F. cbn in F. apply registrable_free in F.
    apply IH in H as (l & ts & Hl & Nd' & Eb & q' & -> & R2).
    + exists (tok_text a :: l), (t1 ++ ts). split; [constructor; auto|]. rewrite <- app_assoc in Nd' |- *. cbn in Nd' |- *. split; auto.
      split; [split; [intros X; apply Eb in X as [X _]; discriminate|intros [_ X]; discriminate]|].
      exists q'. split; auto. eapply reads_app; eauto.
    + rewrite map_app. cbn. apply SourceManProofs.NoDup_snoc; auto. intros I. apply in_map_iff in I as (x & E & I).
      apply (F x x); auto. apply in_map_iff. eauto.
Qed.
Lemma enum_sound sec v q u s' : parse_enum_declaration file n (St v c sec q) = DOk u s' -> (p < List.length (v_pkgs v))%nat ->
  exists ts v', enum_decl p v ts v' /\ to sec q ts v' s'.
Proof.
  unfold parse_enum_declaration. intros H L.
  dinv H. dok H0. apply match_kw_ok in H0 as (K1 & R1 & _).
  dinv H. dok H0. apply described_sound in H0 as (tn & D1 & R2).
  dinv H. apply current_sound in H0 as (-> & ->). dinv H. dinv H0.
  dinv H. apply register_sound in H0 as (pkgs & En & ->); auto. dinv H. dinv H0.
  dinv H. dok H0. apply match_ok in H0 as (K3 & R3 & _).
  dinv H. cbn in H0. unfold add_enum, set_types in H0. cbn in H0. apply literals_sound in H0 as (l & tl & Hl & Nd & Eb & q' & -> & R4); auto; [|constructor].
  dinv H. dok H0. apply match_ok in H0 as (K5 & R5 & _).
  match type of H with (if ?b then _ else _) _ = _ => destruct b; [dinv H|] end. dinv H.
  eexists (_ :: tn ++ _ :: tl ++ [_]), _. split.
  - apply enum_declared with (pkgs := pkgs) (lits := l) (name := a0); eauto. intros ->. assert (false = true) by (apply Eb; auto). discriminate.
  - eexists. split; [reflexivity|]. eapply (reads_app _ [_]); [exact R1|]. eapply reads_app; [exact R2|].
    eapply (reads_app _ [_]); [exact R3|]. eapply reads_app; [exact R4|]. exact R5.
Qed.

(** ** Names of types *)
Lemma lookup_known N tk e : s_lookup file (default_scope N) tk None = Ok e -> known N (tok_text tk) e.
Proof.
  unfold default_scope, known. cbn. destruct (t_contains _ _); intros H; apply t_lookup_entry in H as [H _]; auto.
Qed.
Lemma qualified_sound N r q e tk q' : parse_qualified_name file N (default_scope N) (Some r) q = POk (e, tk) q' ->
  (forall p, r (N_pkg p) = false) -> r e = true /\ exists ts, qualified N e tk ts /\ reads (at_ q) ts (at_ q').
Proof.
  intros H Np. apply qualified_name_sound in H as (Re & _ & ts & R & _ & [(-> & K & L)|(tp & dot & q0 & -> & K1 & K2 & K3 & L & V & E)]).
  - split; auto. exists [tk]. split; auto. apply q_here; auto; [apply lookup_known; auto|]. intros p' ->. rewrite Np in Re. discriminate.
  - split; auto. exists [tp; dot; tk]. split; auto. eapply q_package; eauto. apply lookup_known; auto.
Qed.
Lemma member_sound sec v q x s' : member file (St v c sec q) = DOk x s' ->
  exists ts, qualified (names_in v) (N_type (TRec (fst x))) (snd x) ts /\ to sec q ts v s'.
Proof.
  unfold member. intros H. apply dbind_ok in H as ([e tk] & s1 & H1 & H). apply with_names_ok in H1 as (q1 & H1 & ->).
  rewrite names_eq in H1. apply qualified_sound in H1 as (_ & ts & Q & R); [|reflexivity].
  destruct e as [[| | | | | | | | |]| | | | |]; dinv H. exists ts. split; auto. exists q1. auto.
Qed.
Lemma members_sound m sec v q l s' : union_members file m (St v c sec q) = DOk l s' -> forall q0 x tx, 
  qualified (names_in v) (N_type (TRec (fst x))) (snd x) tx -> reads (at_ q0) tx (at_ q) ->
  exists ts, members (names_in v) (map fst (x :: l)) ts /\ to sec q0 ts v s'.
Proof.
  revert q l s'. induction m as [|m IH]; intros q l s' H q0 x tx Qx Rx; cbn [union_members] in H; [dinv H|].
  apply dcond_cases in H as [(Pk & H)|(Pk & H)].
  - dinv H. dok H0. apply match_ok in H0 as (K & R & _). dinv H. apply member_sound in H0 as (t1 & Q1 & q2 & -> & R1).
    dinv H. destruct (IH _ _ _ H0 _ _ _ Q1 R1) as (ts & M & q3 & -> & R3). clear H0. dinv H.
    exists (tx ++ a :: ts). split; [eapply mb_more; eauto|]. exists q3. split; auto.
    eapply reads_app; [exact Rx|]. eapply (reads_app _ [_]); eauto.
  - dinv H. exists tx. split; [econstructor; eauto|]. exists q. auto.
Qed.
Lemma duplicates_reads G seen l q u q' : duplicates file G seen l q = POk u q' -> at_ q' = at_ q.
Proof.
  revert seen q. induction l as [|[r tk] l IH]; intros seen q H; cbn in H; [injection H as <- <-; auto|].
  destruct (existsb _ _); eauto. apply pbind_ok in H as (x & q1 & H1 & H). injection H1 as _ <-. apply IH in H. auto.
Qed.
Lemma type_sound sec v k q a s' : parse_component_type file n (St (at_number v k) c sec q) = DOk a s' ->
  exists ts k', type_part true (names_in v) k a ts k' /\ to sec q ts (at_number v k') s'.
Proof.
  unfold parse_component_type. intros H. apply dcond_cases in H as [(Pk & H)|(Pk & H)].
  - unfold parse_union_type in H. dinv H. dok H0. apply match_ok in H0 as (K & R & _).
    dinv H. apply member_sound in H0 as (t1 & Q1 & q2 & -> & R1).
    dinv H. destruct (members_sound _ _ _ _ _ _ H0 _ _ _ Q1 R1) as (ts & M & q3 & -> & R3). clear H0.
    dinv H. dok H0. apply match_ok in H0 as (K4 & R4 & _). dinv H. dinv H0. dinv H. dok H0. apply duplicates_reads in H0.
    dinv H. injection H1 as <- <-. dinv H. eexists (_ :: ts ++ [_]), (S k). split.
    + apply tp_union; eauto. discriminate.
    + eexists. split; [reflexivity|]. rewrite H0. eapply (reads_app _ [_]); eauto. eapply reads_app; eauto.
  - apply dbind_ok in H as ([e tk] & s1 & H1 & H). apply with_names_ok in H1 as (q1 & H1 & ->). rewrite names_eq in H1.
    apply qualified_sound in H1 as (_ & ts & Q & R); [|reflexivity].
    destruct e; dinv H. exists ts, k. split; [econstructor; eauto|]. exists q1. auto.
Qed.
Lemma array_sound sec v k q a b s' : parse_array_part file a (St (at_number v k) c sec q) = DOk b s' ->
  exists ts k', array_part k a b ts k' /\ to sec q ts (at_number v k') s'.
Proof.
  unfold parse_array_part. intros H. apply dcond_cases in H as [(Pk & H)|(Pk & H)].
  - dinv H. dok H0. apply match_ok in H0 as (K1 & R1 & _). dinv H. dok H0. apply match_ok in H0 as (K2 & R2 & _).
    dinv H. dok H0. unfold int_of in H0. destruct (tk_value a1) eqn:V; try discriminate. injection H0 as <- <-.
    dinv H. dok H0. apply match_ok in H0 as (K3 & R3 & _). dinv H. dok H0.
    assert (U : exists th, upper a3 th /\ reads (at_ q2) [th] (at_ q3)).
    { unfold upper_bound in H0. pc H0; [|pc H0].
      - apply pbind_ok in H0 as (th & q' & H1 & H0). apply match_ok in H1 as (K & R & _). apply pbind_ok in H0 as (z' & q'' & H1 & H0).
        injection H0 as <- <-. unfold int_of in H1. destruct (tk_value th) eqn:Vh; try discriminate. injection H1 as <- <-.
        exists th. split; auto. constructor; auto.
      - apply pbind_ok in H0 as (th & q' & H1 & H0). apply match_ok in H1 as (K & R & _). injection H0 as <- <-.
        exists th. split; auto. constructor; auto. apply reads_first in R. unfold peek_op, next_is in Heqb0. rewrite R in Heqb0.
        apply is_op_true in Heqb0. tauto.
      - destruct (nt (at_ q2)); discriminate. }
    clear H0. destruct U as (th & U & R4). dinv H. dok H0. apply match_ok in H0 as (K5 & R5 & _). dinv H. injection H0 as <- <-. dinv H.
    eexists [_; _; _; th; _], (S k). split; [econstructor; eauto|]. eexists. split; [reflexivity|].
    do 4 (eapply (reads_app _ [_]); [eassumption|]). eassumption.
  - dinv H. exists [], k. split; [constructor|]. exists q. split; auto. constructor.
Qed.

(** ** Tuples *)
Lemma field_sound sec v k u al reason rq q x s' : parse_tuple_field file n u al reason rq (St (at_number v k) c sec q) = DOk x s' ->
  exists ts k', field_decl true (names_in v) u k (fst x) ts k' /\ to sec q ts (at_number v k') s' /\
    (c_opt (fst x) = true -> al = true) /\ (rq = true -> c_opt (fst x) = true).
Proof.
  unfold parse_tuple_field. intros H. dinv H. dok H0. apply described_sound in H0 as (tn & Dn & R1). dinv H.
  assert (X : exists to q1, option_word "optional" a0 to /\ s = St (at_number v k) c sec q1 /\ reads (at_ q0) to (at_ q1) /\
     (a0 = true -> al = true) /\ (rq = true -> a0 = true)).
  { apply dcond_cases in H0 as [(Pk & H0)|(Pk & H0)].
    - dinv H0. dok H1. apply match_kw_ok in H1 as (K & R & _). destruct al; dinv H0. exists [a1], q1. split; [constructor; exact K|]. auto.
    - dinv H0. exists [], q0. split; [constructor|]. split; auto. split; [constructor|]. destruct rq; [discriminate|]. split; discriminate. }
  clear H0. destruct X as (to & q1 & Ow & -> & R2 & Ho & Hr). dinv H. apply type_sound in H0 as (ta & k' & Ta & q2 & -> & R3). dinv H.
  exists (tn ++ to ++ ta), k'. cbn. split; [constructor; auto|]. split; auto. exists q2. split; auto.
  eapply reads_app; eauto. eapply reads_app; eauto.
Qed.
Lemma separator_sound q l q' : parse_separator q = POk l q' ->
  (exists sep tk, l = [sep] /\ separator_symbol sep tk /\ reads (at_ q) [tk] (at_ q')) \/ (l = [] /\ q' = q /\ peek IDENTIFIER q = false).
Proof.
  unfold parse_separator. destruct (nt (at_ q)) as [tk|] eqn:Nt.
  - destruct (sep_of tk) as [sep|] eqn:Sp.
    + intros H. apply pbind_ok in H as (x & q1 & H1 & H). injection H as <- <-. left. exists sep, tk. split; auto. split.
      * unfold sep_of in Sp. destruct (is_kind IDENTIFIER tk) eqn:K1; [injection Sp as <-; apply is_kind_true in K1; constructor; auto|].
        destruct (is_kind AT tk) eqn:K2; [injection Sp as <-; apply is_kind_true in K2; constructor; auto|].
        destruct (is_kind COLON tk) eqn:K3; [injection Sp as <-; apply is_kind_true in K3; constructor; auto|].
        destruct (is_kind SEMICOLON tk) eqn:K4; [injection Sp as <-; apply is_kind_true in K4; constructor; auto|discriminate].
      * unfold p_advance in H1. rewrite Nt in H1.
        destruct (fetch (Some tk) (rest (at_ q))) as [[n' l']|e [n' l']|] eqn:F; try discriminate. injection H1 as _ <-. cbn.
        econstructor; eauto. constructor.
    + intros H. injection H as <- <-. right. split; auto. split; auto. unfold peek, next_is. rewrite Nt. unfold sep_of in Sp.
      destruct (is_kind IDENTIFIER tk); auto. discriminate.
  - intros H. injection H as <- <-. right. split; auto. split; auto. unfold peek, next_is. rewrite Nt. auto.
Qed.
Lemma register_field_sound cs x v sec q cs' s' : register_field cs x (St v c sec q) = DOk cs' s' ->
  cs' = cs ++ [x] /\ s' = St v c sec q /\ free_name (comp_table cs) (c_name (fst x)).
Proof.
  unfold register_field. intros H. dinv H. apply dlift_ok in H0 as (F & ->). dinv H. apply registrable_free in F. auto.
Qed.
Definition distinct_fields (cs : list (component * loc)) : Prop := NoDup (map (fun x => simplified_name (c_name x)) (map fst cs)).
Lemma distinct_snoc cs x : distinct_fields cs -> free_name (comp_table cs) (c_name (fst x)) -> distinct_fields (cs ++ [x]).
Proof.
  unfold distinct_fields. intros H F. rewrite !map_app. apply SourceManProofs.NoDup_snoc; auto. intros I.
  apply in_map_iff in I as (y & E & I). apply in_map_iff in I as (z & <- & I). apply (F (c_name (fst z)) (fst z)); auto.
  apply in_map_iff. eauto.
Qed.
Lemma last_field u b reason rq sec v q x s' : peek IDENTIFIER q = false -> 
  parse_tuple_field file n u b reason rq (St v c sec q) = DOk x s' -> False.
Proof.
  intros Pk H. destruct (no_field file n u b reason rq (St v c sec q) Pk) as (e & E). rewrite E in H. discriminate.
Qed.
(** After a field without separator *)
Lemma plain_sound m u rq sec v k q cs hs' cs' seps' s' :
  tuple_fields file n m u false rq false cs [] (St (at_number v k) c sec q) = DOk (hs', cs', seps') s' -> distinct_fields cs ->
  exists l ts k', hs' = false /\ seps' = [] /\ map fst cs' = map fst cs ++ l /\ distinct_fields cs' /\
    plain_fields true (names_in v) u k l ts k' /\ (forall x, In x l -> c_opt x = false) /\ to sec q ts (at_number v k') s'.
Proof.
  revert rq k q cs. induction m as [|m IH]; intros rq k q cs H Nd; cbn [tuple_fields] in H; [dinv H|].
  apply dcond_cases in H as [(Pk & H)|(Pk & H)].
  - apply dbind_ok in H as ([[hs1 al1] seps1] & s1 & H1 & H). apply dcond_cases in H1 as [(Pk1 & H1)|(Pk1 & H1)].
    + apply dbind_ok in H1 as (x & s2 & _ & H1). dinv H1.
    + injection H1 as <- <- <- <-. dinv H. apply field_sound in H0 as (tc & k1 & F & (q1 & -> & R1) & Ho & _).
      dinv H. apply register_field_sound in H0 as (-> & -> & Fr).
      apply IH in H as (l & ts & k' & -> & -> & E & Nd' & Pl & Op & q2 & -> & R2); [|apply distinct_snoc; auto].
      exists (fst a :: l), (tc ++ ts), k'. split; auto. split; auto. split; [rewrite E, map_app, <- app_assoc; auto|]. split; auto.
      split; [econstructor; eauto|]. split; [|exists q2; split; auto; eapply reads_app; eauto].
      intros x [<-|I]; auto. destruct (c_opt (fst a)); auto. specialize (Ho eq_refl). discriminate.
  - injection H as <- <- <- <-. exists [], [], k. rewrite app_nil_r. split; auto. split; auto. split; auto. split; auto.
    split; [constructor|]. split; [intros x []|]. exists q. split; auto. constructor.
Qed.
(** After a separator *)
Lemma separated_sound m u rq sec v k q cs seps hs' cs' seps' s' :
  tuple_fields file n m u true rq true cs seps (St (at_number v k) c sec q) = DOk (hs', cs', seps') s' -> distinct_fields cs ->
  exists l sl ts k', hs' = true /\ seps' = seps ++ sl /\ map fst cs' = map fst cs ++ l /\ distinct_fields cs' /\
    separated_fields true (names_in v) u k l sl ts k' /\ to sec q ts (at_number v k') s' /\
    (rq = true -> forall x, In x l -> c_opt x = true) /\
    (forall a d b e, l = a ++ d :: b -> In e b -> c_opt d = true -> c_opt e = true).
Proof.
  revert rq k q cs seps. induction m as [|m IH]; intros rq k q cs seps H Nd; cbn [tuple_fields] in H; [dinv H|].
  apply dcond_cases in H as [(Pk & H)|(Pk & H)].
  - apply dbind_ok in H as ([[hs1 al1] seps1] & s1 & H1 & H). apply dcond_cases in H1 as [(Pk1 & H1)|(Pk1 & H1)]; [|discriminate].
    dinv H1. dok H0. apply match_kw_ok in H0 as (K & R & _). dinv H1. dok H0. apply separator_sound in H0.
    dinv H1. unfold add_separator in H2. destruct H0 as [(sep & tk & -> & Ss & R1)|(-> & -> & Pk2)].
    2:{ dinv H2. injection H1 as <- <- <- <-. apply dbind_ok in H as (x & s2 & H & _). destruct (last_field _ _ _ _ _ _ _ _ _ Pk2 H). }
    destruct (Nat.eqb _ _); dinv H2. injection H1 as <- <- <- <-.
    dinv H. apply field_sound in H0 as (tc & k1 & F & (q2 & -> & R2) & _ & Hr).
    dinv H. apply register_field_sound in H0 as (-> & -> & Fr).
    apply IH in H as (l & sl & ts & k' & -> & -> & E & Nd' & Sf & (q3 & -> & R3) & Op & Ol); [|apply distinct_snoc; auto].
    eexists (fst _ :: l), (sep :: sl), (_ :: tk :: tc ++ ts), k'. split; auto. split; [rewrite <- app_assoc; auto|].
    split; [rewrite E, map_app, <- app_assoc; reflexivity|]. split; auto. split; [econstructor; eauto|].
    split; [exists q3; split; auto; eapply (reads_app _ [_]); eauto; eapply (reads_app _ [_]); eauto; eapply reads_app; eauto|].
    split.
    + intros -> x [<-|I]; auto.
    + intros b d r e El Ie Od. destruct b as [|b0 b]; cbn in El; injection El; [intros <- <-|intros Eb Ea].
      * apply Op; auto. rewrite Od, orb_true_r. auto.
      * eapply Ol; eauto.
  - injection H as <- <- <- <-. exists [], [], [], k. rewrite !app_nil_r. split; auto. split; auto. split; auto. split; auto.
    split; [constructor|]. split; [exists q; split; auto; constructor|]. split; [intros _ x []|]. intros b d r e El. destruct b; discriminate.
Qed.
Lemma tuple_sound sec v q u s' : parse_tuple_declaration file n (St v c sec q) = DOk u s' -> (p < List.length (v_pkgs v))%nat ->
  exists ts v', tuple_decl p imports true v ts v' /\ to sec q ts v' s'.
Proof.
  unfold parse_tuple_declaration. intros H L.
  dinv H. dok H0. apply match_kw_ok in H0 as (K1 & R1 & _).
  dinv H. dok H0. apply described_sound in H0 as (tn & D1 & R2).
  dinv H. dok H0. apply match_ok in H0 as (K3 & R3 & _). dinv H. dinv H0.
  set (w := List.length (tups (v_types v))) in H.
  dinv H. rewrite <- (at_number_self v) in H0 at 1. apply field_sound in H0 as (tc & k1 & F & (q3 & -> & R4) & Ho & _).
  dinv H. apply register_field_sound in H0 as (-> & -> & _). cbn [app] in H.
  assert (Nd : distinct_fields [a2]) by (repeat constructor; intros []).
  apply dbind_ok in H as ([[hs cs] seps] & s1 & Hf & H).
  assert (X : exists ts k', to sec q3 ts (at_number v k') s1 /\ distinct_fields cs /\ (hs = true <-> seps <> []) /\
     fields_decl true (names_in v) w (v_next v) (map fst cs) seps (tc ++ ts) k').
  { assert (Oc : c_opt (fst a2) = false) by (destruct (c_opt (fst a2)); auto; specialize (Ho eq_refl); discriminate).
    destruct n as [|m] eqn:En; [discriminate|]. cbn [tuple_fields] in Hf. rewrite <- En in Hf.
    apply dcond_cases in Hf as [(Pk & Hf)|(Pk & Hf)].
    - apply dbind_ok in Hf as ([[hs1 al1] seps1] & s2 & H1 & Hf). apply dcond_cases in H1 as [(Pk1 & H1)|(Pk1 & H1)].
      + dinv H1. dok H0. apply match_kw_ok in H0 as (K & R & _). dinv H1. dok H0. apply separator_sound in H0.
        dinv H1. unfold add_separator in H2. destruct H0 as [(sep & tk & -> & Ss & R5)|(-> & -> & Pk2)].
        2:{ dinv H2. injection H1 as <- <- <- <-. apply dbind_ok in Hf as (x & s3 & Hf & _). destruct (last_field _ _ _ _ _ _ _ _ _ Pk2 Hf). }
        destruct (Nat.eqb _ _); dinv H2. injection H1 as <- <- <- <-. cbn [app] in Hf.
        dinv Hf. apply field_sound in H0 as (t5 & k5 & F5 & (q7 & -> & R6) & _ & Hr).
        dinv Hf. apply register_field_sound in H0 as (-> & -> & Fr).
        apply separated_sound in Hf as (l & sl & ts & k' & -> & -> & E & Nd' & Sf & (q6 & -> & R7) & Op & Ol); [|apply distinct_snoc; auto].
        eexists (_ :: tk :: t5 ++ ts), k'. split.
        { exists q6. split; auto. eapply (reads_app _ [_]); eauto; eapply (reads_app _ [_]); eauto; eapply reads_app; eauto. }
        split; auto. split; [split; auto; discriminate|]. rewrite E. cbn [map app]. eapply fs_separated; eauto.
        * econstructor; eauto.
        * discriminate.
        * intros b d r e El Ie Od. destruct b as [|b0 b]; cbn in El; injection El; [intros <- <-|intros Eb Ea].
          -- apply Op; auto.
          -- eapply Ol; eauto.
      + injection H1 as <- <- <- <-. dinv Hf. apply field_sound in H0 as (t5 & k5 & F5 & (q5 & -> & R5) & Ho5 & _).
        dinv Hf. apply register_field_sound in H0 as (-> & -> & Fr).
        apply plain_sound in Hf as (l & ts & k' & -> & -> & E & Nd' & Pl & Op & q6 & -> & R6); [|apply distinct_snoc; auto].
        exists (t5 ++ ts), k'. split; [exists q6; split; auto; eapply reads_app; eauto|]. split; auto. split; [split; [discriminate|congruence]|].
        rewrite E. cbn [map app]. eapply fs_plain; eauto; [econstructor; eauto|].
        intros x [<-|[<-|I]]; auto. destruct (c_opt (fst a3)); auto. specialize (Ho5 eq_refl). discriminate.
    - injection Hf as <- <- <- <-. exists [], k1. split; [exists q3; split; auto; constructor|]. split; auto.
      split; [split; [discriminate|congruence]|]. cbn. eapply fs_plain; eauto; [constructor|]. intros x [<-|[]]. auto. }
  clear Hf. destruct X as (ts & k' & (q4 & -> & R5) & Nd' & Hs & Fs).
  dinv H. dok H0. apply match_ok in H0 as (K6 & R6 & _). dinv H. dinv H0. dinv H.
  assert (X : s = St (at_number v k') c sec q5 /\ (hs = true -> exists u, nesting (v_types v) cs = Ok u)).
  { destruct hs; [apply dlift_ok in H0 as (H0 & ->); eauto|]. dinv H0. split; auto. discriminate. }
  clear H0. destruct X as (-> & Ns). dinv H. apply current_sound in H0 as (-> & ->).
  dinv H. apply register_sound in H0 as (pkgs & En & ->); auto. dinv H.
  eexists (_ :: tn ++ _ :: (tc ++ ts) ++ [_]), _. split.
  - eapply tuple_declared with (pkgs := pkgs) (name := a0); eauto. intros Sn x w' wt Ix Et U. destruct (Ns (proj2 Hs Sn)) as (y & Ey). eapply nesting_ok; eauto.
  - eexists. split; [reflexivity|]. eapply (reads_app _ [_]); [exact R1|]. eapply reads_app; [exact R2|].
    eapply (reads_app _ [_]); [exact R3|]. eapply reads_app; [eapply reads_app; [exact R4|exact R5]|]. exact R6.
Qed.

(** ** Records *)
Definition in_body (v : env) (rt : rectype) (k : nat) : env := Env (with_rec v rt) (v_objs v) (v_secs v) (v_stab v) (v_pkgs v) k.
Lemma in_body_at v rt k k' : at_number (in_body v rt k) k' = in_body v rt k'. Proof. auto. Qed.
Lemma in_body_change v rt k f : change_rec (List.length (recs (v_types v))) f (in_body v rt k) = in_body v (f rt) k.
Proof. unfold change_rec, set_types, in_body, with_rec. cbn. rewrite change_last. auto. Qed.
Lemma in_body_length v rt : (List.length (recs (v_types v)) < List.length (recs (with_rec v rt)))%nat.
Proof. cbn. rewrite app_length. cbn. lia. Qed.
Section BODY.
Variable v : env.
Hypothesis order : wf_types (v_types v).
Hypothesis tuples : tuples_ok (v_types v).
Notation r := (List.length (recs (v_types v))).
Notation below rt := (forall q, r_parent rt = Some q -> (q < r)%nat).
Lemma with_rec_tuples rt : tuples_ok (with_rec v rt).
Proof. intros u ut U. destruct (tuples u ut U) as [A B C F H I J K]. constructor; auto. Qed.
Lemma value_of_sound sec v1 a q x s' : value_of file src n a (St v1 c sec q) = DOk x s' ->
  wf_types (v_types v1) -> tuples_ok (v_types v1) ->
  exists ts ns, value file src (v_types v1) (v_objs v1) (names_in v1) true a x ts ns /\ to sec q ts v1 s'.
Proof.
  unfold value_of. intros H O T. apply with_names_ok in H as (q' & H & ->). rewrite names_eq in H.
  destruct (value_sound file src _ _ _ O T _ _ _ _ _ _ H) as (ts & ns & V & R & _). exists ts, ns. split; auto. exists q'. auto.
Qed.
Lemma freeze_sound sec rt k q u s' : below rt ->
  parse_freeze file src n r (St (in_body v rt k) c sec q) = DOk u s' ->
  exists kw tk eq x y tx ns, word "freeze" kw /\ tk_kind tk = IDENTIFIER /\ tk_kind eq = ASSIGN /\
    has_component (with_rec v rt) r x /\ c_name x = tok_text tk /\ (forall f, ~ freezes (with_rec v rt) r (c_name x) f) /\
    value file src (with_rec v rt) (v_objs v) (names_in v) true (c_typ x) y tx ns /\
    to sec q (kw :: tk :: eq :: tx) (in_body v (add_frozen (c_name x) (k, y) rt) (S k)) s'.
Proof.
  intros P H. assert (O := with_rec_order v rt order P). assert (L := in_body_length v rt). unfold parse_freeze in H.
  dinv H. dok H0. apply match_kw_ok in H0 as (K1 & R1 & _). dinv H. dok H0. apply match_ok in H0 as (K2 & R2 & _).
  dinv H. dinv H0. dinv H. apply dlift_ok in H0 as (Lk & ->). unfold components_of in Lk. apply t_lookup_exact in Lk as [Ix Nx].
  apply (chain_has _ O _ _ L) in Ix. unfold is_frozen in H. cbn [in_body v_types] in H.
  destruct (get_freezing _ _ _) eqn:Fz; [dinv H|]. assert (F := freezing_none _ O _ _ L Fz). clear Fz.
  dinv H. dok H0. apply match_ok in H0 as (K3 & R3 & _). dinv H. apply value_of_sound in H0 as (tx & ns & V & q3 & -> & R4); [|exact O|apply with_rec_tuples].
  dinv H. injection H0 as <- <-. dinv H.
  eexists _, _, _, _, _, tx, ns. do 7 (split; [eassumption|]). exists q3. split.
  - f_equal. cbn [in_body v_types v_next v_objs v_secs v_stab v_pkgs].
    exact (in_body_change v rt (S k) _).
  - do 3 (eapply (reads_app _ [_]); [eassumption|]). exact R4.
Qed.
Lemma declare_sound sec rt k q u s' : below rt ->
  declare_component file n r (St (in_body v rt k) c sec q) = DOk u s' ->
  exists name tn opt to' a ta k1 b tb k2, described name tn /\ option_word "optional" opt to' /\
    type_part true (names_in v) k a ta k1 /\ array_part k1 a b tb k2 /\ r_final rt = false /\
    (forall x, has_component (with_rec v rt) r x -> simplified_name (c_name x) <> simplified_name (tok_text name)) /\
    to sec q (tn ++ to' ++ ta ++ tb) (in_body v (add_comp (Comp (tok_text name) b opt (TRec r)) rt) k2) s'.
Proof.
  intros P H. assert (O := with_rec_order v rt order P). assert (L := in_body_length v rt). unfold declare_component in H.
  apply dbind_ok in H as ([x l] & s1 & H1 & H). unfold parse_record_component in H1. dinv H1. dok H0. apply described_sound in H0 as (tn & Dn & R1).
  dinv H1.
  assert (X : exists to q1, option_word "optional" a0 to /\ s = St (in_body v rt k) c sec q1 /\ reads (at_ q0) to (at_ q1)).
  { apply dcond_cases in H0 as [(Pk & H0)|(Pk & H0)].
    - dinv H0. dok H2. apply match_kw_ok in H2 as (K & R & _). dinv H0. exists [a1], q1. split; [constructor; exact K|]. auto.
    - dinv H0. exists [], q0. split; [constructor|]. split; auto. constructor. }
  clear H0. destruct X as (to' & q1 & Ow & -> & R2). dinv H1.
  apply (type_sound sec (in_body v rt k) k) in H0 as (ta & k1 & Ta & q2 & -> & R3). rewrite in_body_at in H1.
  dinv H1. apply (array_sound sec (in_body v rt k) k1) in H0 as (tb & k2 & Tb & q3 & -> & R4). rewrite in_body_at in H1.
  injection H1 as <- <- <-. dinv H. dinv H0. cbn [in_body v_types] in H. unfold rec at 1 in H. unfold with_rec at 1 in H. cbn [recs] in H.
  rewrite nth_last in H. destruct (r_final rt) eqn:Fi; [dinv H|]. dinv H. apply dlift_ok in H0 as (Rg & ->). apply registrable_free in Rg.
  dinv H. rewrite in_body_change.
  exists a, tn, a0, to', a1, ta, k1, a2, tb, k2. split; [exact Dn|]. split; [exact Ow|]. split; [exact Ta|]. split; [exact Tb|]. split; [reflexivity|]. split.
  - intros x Hx. apply (chain_has _ O _ _ L) in Hx. apply (Rg (c_name x) x). unfold components_of. apply in_map_iff. exists x. auto.
  - exists q3. split; [reflexivity|]. do 3 (eapply reads_app; [eassumption|]). eassumption.
Qed.
Lemma body_sound m sec rt k q u s' : below rt ->
  record_body file src n m r (St (in_body v rt k) c sec q) = DOk u s' ->
  exists ts rt' k', body_decl file src p imports true v rt k ts rt' k' /\ to sec q ts (in_body v rt' k') s'.
Proof.
  revert rt k q. induction m as [|m IH]; intros rt k q P H; cbn [record_body] in H; [dinv H|].
  apply dcond_cases in H as [(Pk & H)|(Pk & H)].
  - dinv H. exists [], rt, k. split; [constructor|]. exists q. split; auto. constructor.
  - dinv H. apply dcond_cases in H0 as [(Pk' & H0)|(Pk' & H0)].
    + apply freeze_sound in H0 as (kw & tk & eq & x & y & tx & ns & K1 & K2 & K3 & Hx & Nx & F & V & q1 & -> & R1); auto.
      apply IH in H as (ts & rt' & k' & B & q2 & -> & R2); [|exact P]. exists (kw :: tk :: eq :: tx ++ ts), rt', k'. split.
      * destruct rt. eapply bd_freeze; eauto. discriminate.
      * exists q2. split; auto. change (kw :: tk :: eq :: tx ++ ts) with ((kw :: tk :: eq :: tx) ++ ts). eapply reads_app; eauto.
    + apply declare_sound in H0 as (name & tn & opt & to' & a & ta & k1 & b & tb & k2 & Dn & Ow & Ta & Tb & Fi & Fr & q1 & -> & R1); auto.
      apply IH in H as (ts & rt' & k' & B & q2 & -> & R2); [|exact P]. exists (tn ++ to' ++ ta ++ tb ++ ts), rt', k'. split.
      * destruct rt as [? ? ? ? ? fi ? ?]. cbn in Fi. subst fi. eapply bd_component; eauto.
      * exists q2. split; auto. eapply reads_app in R2; [|exact R1]. rewrite <- !app_assoc in R2. exact R2.
Qed.
End BODY.
Lemma modifier_sound sec v q x s' :
  dcond (peek_kw (t "abstract")) (let# _ := dp (p_match_kw file (t "abstract")) in dret (true, false))
      (dcond (peek_kw (t "final")) (let# _ := dp (p_match_kw file (t "final")) in dret (false, true))
         (dret (false, false))) (St v c sec q) = DOk x s' ->
  exists ts, modifier (fst x) (snd x) ts /\ to sec q ts v s'.
Proof.
  intros H. apply dcond_cases in H as [(_ & H)|(_ & H)]; [|apply dcond_cases in H as [(_ & H)|(_ & H)]].
  - dinv H. dok H0. apply match_kw_ok in H0 as (K & R & _). dinv H. exists [a]. split; [constructor; exact K|]. eexists; eauto.
  - dinv H. dok H0. apply match_kw_ok in H0 as (K & R & _). dinv H. exists [a]. split; [constructor; exact K|]. eexists; eauto.
  - dinv H. exists []. split; [constructor|]. exists q. split; auto. constructor.
Qed.
Lemma extends_sound sec v q x s' : parse_extends file (St v c sec q) = DOk x s' ->
  exists ts, extends_part (names_in v) x ts /\ to sec q ts v s'.
Proof.
  unfold parse_extends. intros H. apply dcond_cases in H as [(_ & H)|(_ & H)].
  - dinv H. dok H0. apply match_kw_ok in H0 as (K & R & _). apply dbind_ok in H as ([r tk] & s1 & H1 & H).
    apply member_sound in H1 as (ts & Q & q1 & -> & R1). dinv H. exists (a :: ts). split; [econstructor; eauto|].
    exists q1. split; auto. eapply (reads_app _ [_]); eauto.
  - dinv H. exists []. split; [constructor|]. exists q. split; auto. constructor.
Qed.
(** Names denote what exists. *)
Lemma entry_exists v q name e : names_ok v -> entry (p_symbols (names_in v) q) name e -> entry_valid (v_types v) (v_objs v) (v_pkgs v) e.
Proof.
  intros O H. apply t_find_in in H. eapply (symbols_valid v (names_in v)); [reflexivity|reflexivity|exact O|exact H].
Qed.
Lemma qualified_valid v e tk ts : names_ok v -> qualified (names_in v) e tk ts -> entry_valid (v_types v) (v_objs v) (v_pkgs v) e.
Proof.
  intros O Q. destruct Q as [e tk _ [K|[_ K]] _|e tp dot tk q _ _ _ _ _ K].
  - eapply entry_exists; eauto.
  - apply t_find_in in K. eapply no_stab; eauto.
  - eapply entry_exists; eauto.
Qed.
Lemma record_sound sec v q u s' : parse_record_declaration file src lint n (St v c sec q) = DOk u s' -> (p < List.length (v_pkgs v))%nat ->
  decl_ok matches v ->
  exists ts v', record_decl file src p imports true v ts v' /\ to sec q ts v' s'.
Proof.
  unfold parse_record_declaration. intros H L [Ot On]. assert (Or := ok_order _ _ Ot). assert (Tu := ok_tuples _ _ Ot).
  apply dbind_ok in H as ([abs fin] & s1 & H1 & H). apply modifier_sound in H1 as (tm & Md & q1 & -> & R1). cbn [fst snd] in Md.
  dinv H. dok H0. apply match_kw_ok in H0 as (K2 & R2 & _).
  dinv H. dok H0. apply described_sound in H0 as (tn & D1 & R3).
  dinv H. apply extends_sound in H0 as (te & Ex & q3 & -> & R4). dinv H. dinv H0.
  assert (Pr : forall r, a1 = Some r -> (r < List.length (recs (v_types v)))%nat).
  { destruct Ex as [|kw r' tk ts Kw Qr]; intros r E1; [discriminate|]. injection E1 as <-. apply qualified_valid in Qr; auto.
    apply (ev_type _ _ _ _ Qr _ eq_refl). }
  dinv H. assert (X : exists q4, s = St v c sec q4 /\ at_ q4 = at_ q3).
  { destruct (_ && _); [dok H0; injection H0 as <-; eauto|dinv H0; eauto]. }
  clear H0. destruct X as (q4 & -> & E4). dinv H. apply current_sound in H0 as (-> & ->).
  dinv H. apply register_sound in H0 as (pkgs & En & ->); auto. dinv H. dinv H0.
  dinv H. dok H0. apply match_ok in H0 as (K5 & R5 & _). rewrite E4 in R5.
  dinv H. set (v1 := Env (v_types v) (v_objs v) (v_secs v) (v_stab v) pkgs (v_next v)).
  apply (body_sound v1 Or Tu n sec (RecType p (tok_text a0) a1 [] [] (is_final_type (v_types v) a1) abs []) (v_next v)) in H0
    as (tb & rt & k' & B & q6 & -> & R6); [|exact Pr].
  dinv H. dok H0. apply match_ok in H0 as (K7 & R7 & _).
  exists (tm ++ a :: tn ++ te ++ a2 :: tb ++ [a3]), (Env (with_rec v (finish fin rt)) (v_objs v) (v_secs v) (v_stab v) pkgs k'). split.
  - econstructor; eauto. unfold is_final_type. destruct a1 as [r|]; [|constructor].
    specialize (Pr r eq_refl). unfold rec. destruct (nth_error (recs (v_types v)) r) as [x|] eqn:Q; [econstructor; eauto|].
    apply nth_error_None in Q. lia.
  - exists q7. split.
    + destruct fin.
      * dinv H. f_equal. change (List.length (recs (v_types v))) with (List.length (recs (v_types v1))). rewrite in_body_change. reflexivity.
      * dinv H. destruct rt. reflexivity.
    + eapply reads_app; [exact R1|]. eapply (reads_app _ [_]); [exact R2|]. eapply reads_app; [exact R3|]. eapply reads_app; [exact R4|].
      eapply (reads_app _ [_]); [exact R5|]. eapply reads_app; [exact R6|]. exact R7.
Qed.
(** ** Check blocks *)
Lemma scope_exists G a : wf_types G -> match a with TRec r => (r < List.length (recs G))%nat | TTup u => (u < List.length (tups G))%nat | _ => False end ->
  exists cs, scope_of G a cs /\ components_of G a = map (fun x => (c_name x, x)) cs.
Proof.
  intros O. unfold components_of. destruct a as [| | | | | |u|r| |]; try contradiction; intros L.
  2:{ destruct (lineage_exists G O r L) as (l & A). eexists. split; [econstructor; eauto|]. rewrite (chain_spec G O r r l (Nat.le_refl r) A). auto. }
  destruct (nth_error (tups G) u) as [ut|] eqn:E; [|apply nth_error_None in E; lia].
  exists (u_comps ut). split; [econstructor; eauto|]. unfold tup. rewrite E. auto.
Qed.
Lemma severity_sound q x q' : parse_severity file q = POk x q' -> exists ts, severity_part x ts /\ reads (at_ q) ts (at_ q').
Proof.
  unfold parse_severity. intros H. pc H.
  - apply pbind_ok in H as (tk & q1 & H1 & H). apply match_ok in H1 as (K & R & _).
    destruct (has_text (t "warning") tk) eqn:E1; [apply has_text_true in E1; injection H as <- <-; exists [tk]; split; auto; constructor; split; auto|].
    destruct (has_text (t "error") tk) eqn:E2; [apply has_text_true in E2; injection H as <- <-; exists [tk]; split; auto; constructor; split; auto|].
    destruct (has_text (t "fatal") tk) eqn:E3; [apply has_text_true in E3; injection H as <- <-; exists [tk]; split; auto; constructor; split; auto|discriminate].
  - injection H as <- <-. exists []. split; constructor.
Qed.
Lemma tail_sound G a cs q ex has q1 anchor q2 : components_of G a = map (fun x => (c_name x, x)) cs ->
  check_tail file q = POk (ex, has) q1 -> parse_anchor file G a has q1 = POk anchor q2 ->
  exists ts, tail_part cs ex anchor ts /\ reads (at_ q) ts (at_ q2).
Proof.
  intros Ec H1 H2. unfold check_tail in H1.
  assert (An : has = true -> exists tk x, tk_kind tk = IDENTIFIER /\ In x cs /\ c_name x = tok_text tk /\ anchor = Some (c_name x) /\ reads (at_ q1) [tk] (at_ q2)).
  { intros ->. unfold parse_anchor in H2. apply pbind_ok in H2 as (tk & q3 & M & H2). apply match_ok in M as (K & R & _).
    apply pbind_ok in H2 as (x & q4 & Lk & H2). apply lift_ok in Lk as (Lk & ->). injection H2 as <- <-. rewrite Ec in Lk. apply t_lookup_exact in Lk as [Ix Nx].
    exists tk, x. auto 8. }
  assert (No : has = false -> anchor = None /\ q2 = q1).
  { intros ->. injection H2 as <- <-. auto. }
  pc H1; [|injection H1 as <- <- <-; destruct (No eq_refl) as [-> ->]; exists []; split; constructor].
  apply pbind_ok in H1 as (comma & q3 & M & H1). apply match_ok in M as (K & R & _). pc H1; [|pc H1].
  - injection H1 as <- <- <-. destruct (An eq_refl) as (tk & x & Kt & Ix & Nx & -> & Rt). exists [comma; tk]. split; [econstructor; eauto|].
    eapply (reads_app _ [_]); eauto.
  - unfold details in H1. apply pbind_ok in H1 as (ts & q4 & M & H1). apply match_ok in M as (Ks & Rs & _). pc H1.
    + apply pbind_ok in H1 as (comma' & q5 & M & H1). apply match_ok in M as (Kc & Rc & _). injection H1 as <- <- <-.
      destruct (An eq_refl) as (tk & x & Kt & Ix & Nx & -> & Rt). exists [comma; ts; comma'; tk]. split; [econstructor; eauto|].
      do 3 (eapply (reads_app _ [_]); [eassumption|]). eassumption.
    + injection H1 as <- <- <-. destruct (No eq_refl) as [-> ->]. exists [comma; ts]. split; [econstructor; eauto|]. eapply (reads_app _ [_]); eauto.
  - destruct (nt (at_ q3)); discriminate.
Qed.
Hypothesis regex : forall p x, compiles p = true -> matches p x <> None.
Lemma check_sound v a cs q x q' : no_objects matches v -> scope_of (v_types v) a cs -> components_of (v_types v) a = map (fun x => (c_name x, x)) cs ->
  parse_check file lint compiles matches n v (names_in v) a q = POk x q' ->
  exists ts, check_decl file compiles matches p imports true v a x ts /\ reads (at_ q) ts (at_ q').
Proof.
  intros O Sc Ec H. assert (Dc := declared_here compiles matches regex c v O). rewrite names_eq in Dc. unfold parse_check in H. apply pbind_ok in H as (e & q1 & H1 & H).
  assert (We := H1). apply (parsed_typed file lint _ _ compiles _ Dc _ _ (type_scope (v_types v) a)) in We;
    [|apply agree_check with (W := World (v_objs v) matches) (compiles := compiles); auto].
  apply parse_expression_sound in H1 as (r & te & Sy & R1 & El).
  apply (elab_means file lint _ _ compiles _ Dc _ _ _ _ _ Sy) in El.
  destruct (e_typ e) as [[| | | | | | | | |]|] eqn:Te; try discriminate.
  apply pbind_ok in H as (comma & q2 & M & H). apply match_ok in M as (K2 & R2 & _).
  apply pbind_ok in H as (sev & q3 & M & H). apply severity_sound in M as (tv & Sv & R3).
  apply pbind_ok in H as (msg & q4 & M & H). unfold parse_message in M. apply pbind_ok in M as (mt & q5 & M1 & M). apply match_ok in M1 as (K4 & R4 & _).
  apply pbind_ok in M as (u & q6 & M2 & M). injection M as <- <-. assert (E6 : at_ q6 = at_ q5).
  { destruct (existsb _ _); injection M2 as _ <-; auto. }
  apply pbind_ok in H as ([ex has] & q7 & M7 & H). apply pbind_ok in H as (an & q8 & M8 & H). injection H as <- <-.
  destruct (tail_sound _ _ _ _ _ _ _ _ _ Ec M7 M8) as (ta & Ta & R7). rewrite E6 in R7.
  exists (te ++ comma :: tv ++ mt :: ta). split.
  - eapply cd_check with (cs := cs); eauto; [| |discriminate].
    + unfold check_scope in El. rewrite Ec, map_map in El. exact El.
    + eapply wt_scope; [|exact We]. apply assoc_same.
      * rewrite map_map. cbn. change (NoDup (map c_name cs)).
        destruct Sc as [r0 l A|u0 ut U].
        -- eapply Permutation_NoDup; [|apply (dc_rec _ _ _ _ Dc r0)]. apply Permutation_map.
           rewrite <- (chain_spec _ (dc_order _ _ _ _ Dc) r0 r0 l (Nat.le_refl r0) A). symmetry. eapply chain_perm; eauto.
        -- apply (dc_tup _ _ _ _ Dc _ _ U).
      * intros y I. unfold type_scope in I. apply in_map_iff in I as (z & <- & I). apply in_map_iff. exists z. split; auto.
        destruct Sc as [r0 l A|u0 ut U]; cbn in I.
        -- rewrite <- (chain_spec _ (dc_order _ _ _ _ Dc) r0 r0 l (Nat.le_refl r0) A).
           eapply Permutation_in; [symmetry; eapply chain_perm; eauto|exact I].
        -- unfold tup in I. rewrite U in I. auto.
  - eapply reads_app; [exact R1|]. eapply (reads_app _ [_]); [exact R2|]. eapply reads_app; [exact R3|]. eapply (reads_app _ [_]); [exact R4|]. exact R7.
Qed.
Definition checkable (G : types) (a : ty) : Prop :=
  match a with TRec r => (r < List.length (recs G))%nat | TTup u => (u < List.length (tups G))%nat | _ => False end.
Lemma add_check_sound v a x : wf_types (v_types v) -> checkable (v_types v) a ->
  checked_type v x a (add_check a x v) /\ wf_types (v_types (add_check a x v)) /\ checkable (v_types (add_check a x v)) a.
Proof.
  intros O L. destruct a as [| | | | | |u|r| |]; try contradiction; cbn [add_check checkable] in *.
  2:{ destruct (nth_error (recs (v_types v)) r) as [rt|] eqn:E; [|apply nth_error_None in E; lia]. split; [|split].
    + destruct rt. eapply ct_rec. exact (replaced_change _ _ (add_rec_check x) _ E).
    + intros s q (rt' & E' & P). apply O. cbn in E'. destruct (Nat.eq_dec r s) as [->|Ns].
      * rewrite change_same, E in E'. injection E' as <-. exists rt. auto.
      * rewrite change_other in E' by auto. exists rt'. auto.
    + cbn. rewrite change_length. auto. }
  - destruct (nth_error (tups (v_types v)) u) as [ut|] eqn:E; [|apply nth_error_None in E; lia]. split; [|split]; auto.
    + destruct ut. eapply ct_tup. exact (replaced_change _ _ (add_tup_check x) _ E).
    + cbn. rewrite change_length. auto.
Qed.
Lemma check_loop_sound m a sec v q u s' : no_objects matches v -> checkable (v_types v) a ->
  check_loop file lint compiles matches n m a (St v c sec q) = DOk u s' ->
  exists ts v', checks_decl file compiles matches p imports true a v ts v' /\ to sec q ts v' s'.
Proof.
  revert v q. induction m as [|m IH]; intros v q No L H; cbn [check_loop] in H; [dinv H|].
  assert (O : wf_types (v_types v)) by (destruct No as [_ [Ot _]]; apply (ok_order _ _ Ot)).
  apply dcond_cases in H as [(Pk & H)|(Pk & H)].
  - dinv H. exists [], v. split; [constructor|]. exists q. split; auto. constructor.
  - dinv H. apply with_names_ok in H0 as (q1 & H0 & ->).
    assert (Ck := check_parsed file lint compiles matches regex n c v a q a0 q1 No H0). rewrite names_eq in H0.
    destruct (scope_exists _ a O L) as (cs & Sc & Ec). destruct (check_sound _ _ _ _ _ _ No Sc Ec H0) as (tc & Cd & R1). clear H0.
    dinv H. dinv H0. cbn in H. destruct (add_check_sound v a a0 O L) as (Ct & O' & L').
    assert (V : valid (v_types v) a) by (destruct a; try contradiction; exact L).
    assert (No' : no_objects matches (add_check a a0 v)) by (apply add_check_ok; auto).
    apply IH in H as (ts & v' & Cs & q2 & -> & R2); auto. exists (tc ++ ts), v'. split; [econstructor; eauto|].
    exists q2. split; auto. eapply reads_app; eauto.
Qed.
Lemma composite_checkable v a : entry_valid (v_types v) (v_objs v) (v_pkgs v) (N_type a) -> is_composite (N_type a) = true -> checkable (v_types v) a.
Proof. intros V C. destruct a; try discriminate; apply (ev_type _ _ _ _ V _ eq_refl). Qed.
Lemma block_sound sec v q u s' : parse_check_block file lint compiles matches n (St v c sec q) = DOk u s' -> no_objects matches v ->
  exists ts v', block_decl file compiles matches p imports true v ts v' /\ to sec q ts v' s'.
Proof.
  unfold parse_check_block. intros H No. assert (No' := No). destruct No' as [Ob [Ot On]]. assert (Or := ok_order _ _ Ot).
  dinv H. dok H0. apply match_kw_ok in H0 as (K1 & R1 & _). dinv H. dok H0. apply match_ok in H0 as (K2 & R2 & _).
  dinv H. apply current_sound in H0 as (-> & ->). dinv H. apply with_names_ok in H0 as (q2 & H0 & ->). rewrite names_eq in H0.
  apply lift_ok in H0 as (Lk & ->). apply t_lookup_entry in Lk as [En Cp]. destruct a1 as [b| | | | |]; try discriminate.
  assert (Lb : checkable (v_types v) b) by (eapply composite_checkable; [eapply entry_exists; eauto|auto]).
  dinv H. dok H0. apply match_ok in H0 as (K3 & R3 & _). dinv H. apply check_loop_sound in H0 as (ts & v' & Cs & q3 & -> & R4); auto.
  dinv H. dok H0. apply match_ok in H0 as (K5 & R5 & _). dinv H.
  eexists (_ :: _ :: _ :: ts ++ [_]), v'. split.
  - econstructor; eauto. destruct (scope_exists _ b Or Lb) as (cs & Sc & _). eauto.
  - eexists. split; [reflexivity|]. do 3 (eapply (reads_app _ [_]); [eassumption|]). eapply reads_app; eauto.
Qed.

(** ** Files with types *)
Lemma item_sound sec v q u s' : rsl_item file src lint compiles matches n (St v c sec q) = DOk u s' ->
  (p < List.length (v_pkgs v))%nat -> no_objects matches v ->
  exists ts v', type_item file src compiles matches p imports true v ts v' /\ to sec q ts v' s'.
Proof.
  unfold rsl_item, parse_type_declaration. intros H L No. assert (O : decl_ok matches v) by (apply No).
  apply dcond_cases in H as [(_ & H)|(_ & H)]; [|apply dcond_cases in H as [(_ & H)|(_ & H)]; [|apply dcond_cases in H as [(_ & H)|(_ & H)]]].
  - apply block_sound in H as (ts & v' & Hd & T); auto. exists ts, v'. split; auto. apply ti_block. auto.
  - apply enum_sound in H as (ts & v' & Hd & T); auto. exists ts, v'. split; auto. apply ti_enum. auto.
  - apply tuple_sound in H as (ts & v' & Hd & T); auto. exists ts, v'. split; auto. apply ti_tuple. auto.
  - apply record_sound in H as (ts & v' & Hd & T); auto. exists ts, v'. split; auto. apply ti_record. auto.
Qed.
Lemma attempt_ok rec m f s b s' : attempt rec m f s = DOk b s' -> b = true -> m s = DOk tt s'.
Proof.
  unfold attempt. destruct (m s) as [[] s1|e s1| |]; intros H E; try discriminate.
  - injection H as _ <-. auto.
  - destruct rec; [|discriminate]. destruct ((let# _ := _ in _) s1); try discriminate. injection H as <- _. discriminate.
Qed.
Lemma entered_length stab pkgs name e pkgs' : entered stab pkgs p name e pkgs' -> List.length pkgs' = List.length pkgs.
Proof. intros (d & (a & b & -> & _ & ->) & _). rewrite !app_length. auto. Qed.
Lemma checks_pkgs lax a v ts v' : checks_decl file compiles matches p imports lax a v ts v' -> v_pkgs v' = v_pkgs v.
Proof. induction 1 as [|v x tc v1 ts v' Cd Ct Cs IH]; auto. rewrite IH. destruct Ct; auto. Qed.
Lemma item_pkgs lax v ts v' : type_item file src compiles matches p imports lax v ts v' -> List.length (v_pkgs v') = List.length (v_pkgs v).
Proof.
  intros [? ? Hd|? ? Hd|? ? Hd|? ? Hd]; destruct Hd; cbn; eauto using entered_length. erewrite checks_pkgs; eauto.
Qed.
Lemma rsl_loop_false m rec s b s' : rsl_loop file src lint compiles matches n m rec false s = DOk b s' -> b = false.
Proof.
  revert s. induction m as [|m IH]; intros s H; cbn [rsl_loop] in H; [discriminate|]. unfold dcond in H. destruct (peek_eof (s_ps s)).
  - injection H as <- _. auto.
  - apply dbind_ok in H as (g & s1 & _ & H). eauto.
Qed.
Lemma run_item v : no_objects matches v ->
  run_ c v (rsl_item file src lint compiles matches n) (fun _ => no_objects matches) (no_objects matches).
Proof. intros O. unfold rsl_item. apply run_cond; [eapply run_checks|eapply run_type]; eauto. Qed.
Lemma rsl_loop_sound m rec ok sec v q s' : rsl_loop file src lint compiles matches n m rec ok (St v c sec q) = DOk true s' ->
  (p < List.length (v_pkgs v))%nat -> no_objects matches v ->
  exists ts v', type_items file src compiles matches p imports true v ts v' /\ to sec q ts v' s' /\ peek_eof (s_ps s') = true.
Proof.
  revert ok v q. induction m as [|m IH]; intros ok v q H L O; cbn [rsl_loop] in H; [dinv H|].
  apply dcond_cases in H as [(Pk & H)|(Pk & H)].
  - injection H as -> <-. exists [], v. split; [constructor|]. split; auto. exists q. split; auto. constructor.
  - dinv H. destruct a; [|rewrite andb_false_r in H; apply rsl_loop_false in H; discriminate].
    apply attempt_ok in H0; auto.
    pose proof (run_item v O (St v c sec q) eq_refl eq_refl) as Inv. rewrite H0 in Inv. destruct Inv as [Inv _].
    apply item_sound in H0 as (t1 & v1 & It & q1 & -> & R1); auto. cbn in Inv.
    apply IH in H as (ts & v' & Is & (q2 & -> & R2) & Ef); auto; [|rewrite (item_pkgs _ _ _ _ It); auto].
    exists (t1 ++ ts), v'. split; [econstructor; eauto|]. split; auto. exists q2. split; auto. eapply reads_app; eauto.
Qed.

(** ** Record objects *)
Lemma value_null G objs N lax a x ts ns : value file src G objs N lax a x ts ns -> is_null x = false.
Proof. destruct 1; auto. Qed.
Lemma filled_null id l cs : filled id l [] cs (null_components id l cs).
Proof. revert id. induction cs as [|x cs IH]; intros id; cbn; [constructor|]. apply fl_null; auto. Qed.
Lemma filled_keys id l g cs fs : filled id l g cs fs -> map fst fs = map c_name cs.
Proof. induction 1; cbn; f_equal; auto. Qed.
Lemma filled_assoc id l g cs fs x f : filled id l g cs fs -> NoDup (map c_name cs) -> In x cs -> assoc (c_name x) fs = Some f ->
  In (c_name x, f) g \/ ((forall f, ~ In (c_name x, f) g) /\ is_null (snd f) = true).
Proof.
  induction 1 as [id l g|id l g y cs f' fs Ig H IH|id l g y cs fs Ng H IH]; cbn; intros Nd I A; [contradiction|..]; inversion Nd as [|? ? Ni Nd']; subst.
  - destruct (text_eqb (c_name y) (c_name x)) eqn:E.
    + apply text_eqb_eq in E. injection A as ->. rewrite <- E. auto.
    + destruct I as [->|I]; [rewrite text_eqb_refl in E; discriminate|auto].
  - destruct (text_eqb (c_name y) (c_name x)) eqn:E.
    + apply text_eqb_eq in E. injection A as <-. right. split; auto. rewrite <- E. auto.
    + destruct I as [->|I]; [rewrite text_eqb_refl in E; discriminate|auto].
Qed.
Lemma filled_more id l g cs fs k f : filled id l g cs fs -> ~ In k (map c_name cs) -> filled id l (g ++ [(k, f)]) cs fs.
Proof.
  induction 1 as [id l g|id l g y cs f' fs Ig H IH|id l g y cs fs Ng H IH]; cbn; intros Ni; [constructor|apply fl_given; auto|apply fl_null; auto].
  - apply in_or_app. auto.
  - intros f0 I. apply in_app_or in I as [I|[I|[]]]; [exact (Ng f0 I)|]. injection I as -> _. apply Ni. auto.
Qed.
Lemma filled_put id l g cs fs x f : filled id l g cs fs -> NoDup (map c_name cs) -> In x cs -> (forall f, ~ In (c_name x, f) g) ->
  filled id l (g ++ [(c_name x, f)]) cs (set_field fs (c_name x) f).
Proof.
  induction 1 as [id l g|id l g y cs f' fs Ig H IH|id l g y cs fs Ng H IH]; cbn; intros Nd I Nx; [contradiction|..]; inversion Nd as [|? ? Ni Nd']; subst.
  - destruct (text_eqb (c_name y) (c_name x)) eqn:E.
    + apply text_eqb_eq in E. rewrite E in Ig. destruct (Nx _ Ig).
    + apply fl_given; [apply in_or_app; auto|]. apply IH; auto. destruct I as [->|I]; auto. rewrite text_eqb_refl in E. discriminate.
  - destruct (text_eqb (c_name y) (c_name x)) eqn:E.
    + apply text_eqb_eq in E. rewrite <- E. apply fl_given; [apply in_or_app; right; left; auto|]. apply filled_more; auto.
    + apply fl_null.
      * intros f0 I0. apply in_app_or in I0 as [I0|[I0|[]]]; [exact (Ng f0 I0)|]. injection I0 as E' _. rewrite E', text_eqb_refl in E. discriminate.
      * apply IH; auto. destruct I as [->|I]; auto. rewrite text_eqb_refl in E. discriminate.
Qed.

Definition with_object (v : env) (ob : object) (path : list sect) (k : nat) : env :=
  Env (v_types v) (v_objs v ++ [ob]) (v_secs v ++ [path]) (v_stab v) (v_pkgs v) k.
Definition fields_set (ob : object) (fs : list (text * field)) : object := Object (o_pkg ob) (o_name ob) (o_loc ob) (o_typ ob) fs.
Lemma field_of_sound sec v ob path k q name f s' : field_of (List.length (v_objs v)) name (St (with_object v ob path k) c sec q) = DOk f s' ->
  assoc name (o_fields ob) = Some f /\ s' = St (with_object v ob path k) c sec q.
Proof.
  unfold field_of. intros H. dinv H. dinv H0. cbn [with_object v_objs] in H. cbn [s_env with_object v_objs] in H. rewrite nth_last in H.
  destruct (assoc _ _); dinv H. auto.
Qed.
Lemma assign_sound sec v ob path k q name f u s' : assign (List.length (v_objs v)) name f (St (with_object v ob path k) c sec q) = DOk u s' ->
  s' = St (with_object v (put name f ob) path k) c sec q.
Proof.
  unfold assign. intros H. dinv H. apply field_of_sound in H0 as (_ & ->). destruct (is_null _); dinv H.
  f_equal. unfold change_object, with_object. cbn. rewrite change_last. auto.
Qed.
Section OBJECT.
Variable v : env.
Variable ob : object.
Variable path : list sect.
Variable id0 : nat.
Variable cs : list component.
Notation r := (o_typ ob).
Hypothesis order : wf_types (v_types v).
Hypothesis tuples : tuples_ok (v_types v).
Hypothesis valid_r : (r < List.length (recs (v_types v)))%nat.
Hypothesis comps : components (v_types v) r cs.
Hypothesis distinct : NoDup (map c_name cs).
Lemma comp_in x : In x (chain_steps (v_types v) r r) <-> In x cs.
Proof.
  rewrite (chain_has _ order _ _ valid_r). destruct comps as (l & A & ->). rewrite in_flat_map. unfold has_component. split.
  - intros (l' & s & A' & I & J). rewrite (lineage_unique _ _ _ _ A' A) in I. eauto.
  - intros (s & I & J). eauto.
Qed.
Definition solid (g : given) : Prop := forall k f, In (k, f) g -> is_null (snd f) = false.
Lemma assignments_sound m sec k q g fs u s' : filled id0 (o_loc ob) g cs fs -> solid g ->
  assignments file src n m r (List.length (v_objs v)) (St (with_object v (fields_set ob fs) path k) c sec q) = DOk u s' ->
  exists ts g' k' fs', assigns file src p imports true v ob id0 cs g k ts g' k' /\ filled id0 (o_loc ob) g' cs fs' /\ solid g' /\
    to sec q ts (with_object v (fields_set ob fs') path k') s'.
Proof.
  revert k q g fs. induction m as [|m IH]; intros k q g fs Fl So H; cbn [assignments] in H; [dinv H|].
  apply dcond_cases in H as [(Pk & H)|(Pk & H)].
  - dinv H. exists [], g, k, fs. split; [constructor|]. split; auto. split; auto. exists q. split; auto. constructor.
  - dinv H. unfold assignment in H0. dinv H0. dok H1. apply match_ok in H1 as (K1 & R1 & _). dinv H0. dinv H1. dinv H0.
    apply dlift_ok in H1 as (Lk & ->). unfold components_of in Lk. apply t_lookup_exact in Lk as [Ix Nx]. cbn [with_object v_types] in Ix.
    cbn [s_env with_object v_types] in Ix. apply comp_in in Ix. dinv H0. apply field_of_sound in H1 as (Af & ->). cbn [fields_set o_fields] in Af.
    destruct (is_null (snd a1)) eqn:Nu; cbn [negb] in H0; [|dinv H0].
    destruct (filled_assoc _ _ _ _ _ _ _ Fl distinct Ix Af) as [Ig|[Ng _]]; [rewrite (So _ _ Ig) in Nu; discriminate|].
    unfold is_frozen in H0. cbn [s_env with_object v_types] in H0. destruct (get_freezing _ _ _) eqn:Fz; [dinv H0|].
    assert (F := freezing_none _ order _ _ valid_r Fz). clear Fz.
    dinv H0. dok H1. apply match_ok in H1 as (K2 & R2 & _). dinv H0.
    apply value_of_sound in H1 as (tx & ns & V & q3 & -> & R3); [|exact order|exact tuples].
    dinv H0. injection H1 as <- <-. change (Env _ _ _ _ _ _) with (with_object v (fields_set ob fs) path (S k)) in H0.
    apply assign_sound in H0. subst s.
    change (put (c_name a0) (k, a3) (fields_set ob fs)) with (fields_set ob (set_field fs (c_name a0) (k, a3))) in H.
    assert (Fl' := filled_put _ _ _ _ _ _ (k, a3) Fl distinct Ix Ng).
    assert (So' : solid (g ++ [(c_name a0, (k, a3))])).
    { intros k0 f0 I. apply in_app_or in I as [I|[I|[]]]; eauto. injection I as _ <-. cbn. eapply value_null; eauto. }
    apply IH with (g := g ++ [(c_name a0, (k, a3))]) in H as (ts & g' & k' & fs' & As & Fl2 & So2 & q4 & -> & R4); auto.
    eexists (_ :: _ :: tx ++ ts), g', k', fs'. split; [|split; [auto|split; [auto|]]].
    + eapply as_more; eauto. discriminate.
    + exists q4. split; auto. do 2 (eapply (reads_app _ [_]); [eassumption|]). eapply reads_app; eauto.
Qed.
Lemma complete_sound l todo sec q g u s' : forall id k pre fs, filled id (o_loc ob) g todo fs -> solid g ->
  NoDup (map fst pre ++ map c_name todo) ->
  complete l r (List.length (v_objs v)) todo (St (with_object v (fields_set ob (pre ++ fs)) path k) c sec q) = DOk u s' ->
  exists fs', finished (v_types v) r id (o_loc ob) g todo fs' /\ s' = St (with_object v (fields_set ob (pre ++ fs')) path k) c sec q.
Proof.
  induction todo as [|x todo IH]; intros id k pre fs Fl So Nd H; cbn [complete] in H.
  - dinv H. inversion Fl; subst. exists []. split; [constructor|auto].
  - assert (Np : ~ In (c_name x) (map fst pre)).
    { intros I. apply NoDup_remove_2 in Nd. apply Nd. apply in_or_app. auto. }
    assert (As : forall f d, assoc (c_name x) (pre ++ (c_name x, f) :: d) = Some f).
    { intros f d. clear - Np. induction pre as [|[k' y] pre IHp]; cbn in *; [rewrite text_eqb_refl; auto|].
      destruct (text_eqb k' (c_name x)) eqn:E; [apply text_eqb_eq in E; destruct Np; auto|]. auto. }
    assert (Sf : forall f f' d, set_field (pre ++ (c_name x, f) :: d) (c_name x) f' = pre ++ (c_name x, f') :: d).
    { intros f f' d. clear - Np. induction pre as [|[k' y] pre IHp]; cbn in *; [rewrite text_eqb_refl; auto|].
      destruct (text_eqb k' (c_name x)) eqn:E; [apply text_eqb_eq in E; destruct Np; auto|]. rewrite IHp; auto. }
    assert (Nd' : forall f, NoDup (map fst (pre ++ [(c_name x, f : field)]) ++ map c_name todo)).
    { intros f. rewrite map_app, <- app_assoc. auto. }
    assert (Go : forall f fs0, filled (S id) (o_loc ob) g todo fs0 -> 
       complete l r (List.length (v_objs v)) todo (St (with_object v (fields_set ob (pre ++ (c_name x, f) :: fs0)) path k) c sec q) = DOk u s' ->
       exists fs', finished (v_types v) r (S id) (o_loc ob) g todo fs' /\ s' = St (with_object v (fields_set ob (pre ++ (c_name x, f) :: fs')) path k) c sec q).
    { intros f fs0 Fl0 H0. replace (pre ++ (c_name x, f) :: fs0) with ((pre ++ [(c_name x, f)]) ++ fs0) in H0 by (rewrite <- app_assoc; auto).
      apply IH with (id := S id) in H0 as (fs' & Fi & ->); auto. exists fs'. split; auto. rewrite <- app_assoc. auto. }
    dinv H. apply field_of_sound in H0 as (Af & ->). cbn [fields_set o_fields] in Af.
    assert (X : (exists f fs1, fs = (c_name x, f) :: fs1 /\ In (c_name x, f) g /\ filled (S id) (o_loc ob) g todo fs1) \/
      (exists fs1, fs = (c_name x, (id, XNull (o_loc ob))) :: fs1 /\ (forall f, ~ In (c_name x, f) g) /\ filled (S id) (o_loc ob) g todo fs1))
      by (clear - Fl; inversion Fl; subst; eauto 6).
    destruct X as [(f & fs1 & -> & Ig & Fl0)|(fs1 & -> & Ng & Fl0)]; rewrite As in Af; injection Af as <-.
    + rewrite (So _ _ Ig) in H. dinv H. dinv H0. apply Go in H as (fs' & Fi & ->); auto. eexists. split; [apply fin_given; eauto|auto].
    + cbn [snd is_null] in H. dinv H. dinv H0. dinv H1. cbn [s_env with_object v_types] in H0.
      destruct (get_freezing _ _ _) as [f|] eqn:Fz.
      * apply assign_sound in H0. subst s. unfold put in H. cbn [fields_set o_pkg o_name o_loc o_typ o_fields] in H. rewrite Sf in H.
        apply Go in H as (fs' & Fi & ->); auto. eexists. split; [eapply fin_frozen; eauto; apply freezing_some; eauto|auto].
      * destruct (c_opt x) eqn:Op; dinv H0. apply Go in H as (fs' & Fi & ->); auto. eexists. split; [eapply fin_null; eauto; apply freezing_none; auto|auto].
Qed.
End OBJECT.

(** Types that are named exist. *)
Definition named_types (v : env) : Prop :=
  (forall k r, In (k, N_type (TRec r)) (v_stab v) -> (r < List.length (recs (v_types v)))%nat) /\
  (forall d k r, In d (v_pkgs v) -> In (k, N_type (TRec r)) d -> (r < List.length (recs (v_types v)))%nat).
Lemma named_entry v q name r : named_types v -> entry (p_symbols (names_in v) q) name (N_type (TRec r)) -> (r < List.length (recs (v_types v)))%nat.
Proof.
  intros [A B] H. apply t_find_in in H. unfold p_symbols in H. cbn in H. apply in_app_or in H as [H|H]; eauto.
  destruct (nth_in_or_default q (v_pkgs v) []) as [J|J]; eauto. rewrite J in H. contradiction.
Qed.
Lemma named_qualified v r tk ts : named_types v -> qualified (names_in v) (N_type (TRec r)) tk ts -> (r < List.length (recs (v_types v)))%nat.
Proof.
  clear imps. intros O Q. inversion Q as [e tk0 _ [K|[_ K]] _|e tp dot tk0 q _ _ _ _ _ K]; subst.
  - eapply named_entry; eauto.
  - apply t_find_in in K. destruct O as [A _]. cbn in K. eapply A. exact K.
  - eapply named_entry; eauto.
Qed.
Record ready_objects (v : env) : Prop := ReadyObjects {
  rdy_types : types_ok matches (v_types v);
  rdy_named : named_types v;
  rdy_pkg : (p < List.length (v_pkgs v))%nat
}.
Lemma components_exist G r : wf_types G -> (r < List.length (recs G))%nat -> components G r (all_components G r).
Proof. intros O L. destruct (lineage_exists G O r L) as (l & A). exists l. split; auto. apply all_components_spec; auto. Qed.
Lemma object_sound sec v q u s' : parse_object file src n (St v c sec q) = DOk u s' -> ready_objects v ->
  exists ts v', object_decl file src p imports true (rev sec) v ts v' /\ to sec q ts v' s'.
Proof.
  unfold parse_object. intros H [Ot Nt L]. assert (Or := ok_order _ _ Ot). assert (Tu := ok_tuples _ _ Ot).
  apply dbind_ok in H as ([r tk] & s1 & H1 & H). apply member_sound in H1 as (tq & Qr & q1 & -> & R1). cbn [fst snd] in Qr.
  assert (Lr := named_qualified _ _ _ _ Nt Qr). dinv H. dinv H0. unfold rec in H.
  destruct (nth_error (recs (v_types v)) r) as [rt|] eqn:Er; [|dinv H]. destruct (r_abstract rt) eqn:Ab; [dinv H|].
  dinv H. dok H0. apply match_ok in H0 as (K2 & R2 & _). dinv H. apply current_sound in H0 as (-> & ->).
  dinv H. unfold sections in H0. cbn in H0. injection H0 as <- <-.
  dinv H. apply register_sound in H0 as (pkgs & En & ->); auto. dinv H. dinv H0.
  dinv H. dok H0. apply match_ok in H0 as (K3 & R3 & _).
  set (v1 := Env (v_types v) (v_objs v) (v_secs v) (v_stab v) pkgs (v_next v)) in *.
  set (cs := all_components (v_types v) r) in *.
  set (ob := Object p (tok_text a) (loc_of a) r []).
  assert (Cs : components (v_types v) r cs) by (apply components_exist; auto).
  assert (Nd : NoDup (map c_name cs)) by (apply (ok_distinct matches); auto).
  change (St (add_object _ _ v1) c sec q2) with (St (with_object v1 (fields_set ob (null_components (v_next v) (loc_of a) cs)) (rev sec)
    (List.length (null_components (v_next v) (loc_of a) cs) + v_next v)%nat) c sec q2) in H.
  assert (Ln : List.length (null_components (v_next v) (loc_of a) cs) = List.length cs).
  { rewrite <- (map_length fst), (filled_keys _ _ _ _ _ (filled_null (v_next v) (loc_of a) cs)), map_length. auto. }
  rewrite Ln in H. dinv H.
  apply (assignments_sound v1 ob (rev sec) (v_next v) cs Or Tu Lr Cs Nd) with (g := []) in H0
    as (ts & g & k' & fs & As & Fl & So & q4 & -> & R4); [|apply filled_null|intros ? ? []].
  dinv H. apply (complete_sound v1 ob (rev sec) Or Lr) with (pre := []) (g := g) (id := v_next v) in H0 as (fs' & Fi & ->); auto.
  dinv H. dok H0. apply match_ok in H0 as (K5 & R5 & _). dinv H.
  eexists (tq ++ _ :: _ :: ts ++ [_]), _. split.
  - eapply object_declared with (rt := rt); eauto.
  - eexists. split; [reflexivity|]. eapply reads_app; [exact R1|]. do 2 (eapply (reads_app _ [_]); [eassumption|]). eapply reads_app; eauto.
Qed.
Lemma object_ready path lax v ts v' : object_decl file src p imports lax path v ts v' -> ready_objects v -> ready_objects v'.
Proof.
  intros H [Ot [N1 N2] L]. destruct H. constructor; cbn; auto.
  - split; auto. cbn. intros d k r' Id I. destruct H6 as (d0 & (x & y & E & _ & ->) & _).
    assert (X : In d (v_pkgs v) \/ d = d0 ++ [(tok_text name, N_obj (List.length (v_objs v)))]).
    { rewrite E. apply in_app_or in Id as [Id|[Id|Id]]; [left; apply in_or_app; auto|auto|left; apply in_or_app; right; right; auto]. }
    destruct X as [X| ->]; eauto. apply in_app_or in I as [I|[I|[]]]; [|discriminate]. eapply N2; eauto. rewrite E. apply in_or_app. right. left. auto.
  - erewrite entered_length; eauto.
Qed.
Scheme oi_mind := Minimality for object_item Sort Prop with ois_mind := Minimality for object_items Sort Prop.
Combined Scheme oi_all from oi_mind, ois_mind.
Lemma items_ready lax : (forall path v ts v', object_item file src p imports lax path v ts v' -> ready_objects v -> ready_objects v') /\
  (forall path v ts v', object_items file src p imports lax path v ts v' -> ready_objects v -> ready_objects v').
Proof. apply oi_all; intros; eauto using object_ready. Qed.
Lemma entry_sound m : (forall sec v q u s', parse_entry file src n m (St v c sec q) = DOk u s' -> ready_objects v ->
    exists ts v', object_item file src p imports true (rev sec) v ts v' /\ to sec q ts v' s') /\
  (forall sec v q u s', entries_loop file src n m (St v c sec q) = DOk u s' -> ready_objects v ->
    exists ts v', object_items file src p imports true (rev sec) v ts v' /\ to sec q ts v' s').
Proof.
  induction m as [|m [IHe IHl]]; split; intros sec v q u s' H O; cbn [parse_entry entries_loop] in H; try (dinv H; fail).
  - apply dcond_cases in H as [(_ & H)|(_ & H)].
    + dinv H. dok H0. apply match_kw_ok in H0 as (K1 & R1 & _). dinv H. dok H0. apply match_ok in H0 as (K2 & R2 & _).
      dinv H. unfold enter in H0. cbn in H0. injection H0 as <-.
      dinv H. dok H0. apply match_ok in H0 as (K3 & R3 & _). dinv H. apply IHl in H0 as (ts & v' & Os & q3 & -> & R4); auto.
      dinv H. dok H0. apply match_ok in H0 as (K5 & R5 & _). unfold leave in H. cbn in H. injection H as _ <-.
      eexists (_ :: _ :: _ :: ts ++ [_]), v'. split.
      * apply oi_section; eauto.
      * eexists. split; [reflexivity|]. do 3 (eapply (reads_app _ [_]); [eassumption|]). eapply reads_app; eauto.
    + apply object_sound in H as (ts & v' & Hd & T); auto. exists ts, v'. split; auto. constructor. auto.
  - apply dcond_cases in H as [(_ & H)|(_ & H)].
    + dinv H. exists [], v. split; [constructor|]. exists q. split; auto. constructor.
    + dinv H. apply IHe in H0 as (t1 & v1 & Hi & q1 & -> & R1); auto. assert (O1 := proj1 (items_ready true) _ _ _ _ Hi O).
      apply IHl in H as (ts & v' & Hs & q2 & -> & R2); auto. exists (t1 ++ ts), v'. split; [econstructor; eauto|]. exists q2. split; auto. eapply reads_app; eauto.
Qed.
Lemma trlc_loop_false m rec s b s' : trlc_loop file src n m rec false s = DOk b s' -> b = false.
Proof.
  revert s. induction m as [|m IH]; intros s H; cbn [trlc_loop] in H; [discriminate|]. unfold dcond in H. destruct (_ || _).
  - apply dbind_ok in H as (g & s1 & _ & H). eauto.
  - injection H as <- _. auto.
Qed.
Lemma trlc_loop_sound m rec ok sec v q s' : trlc_loop file src n m rec ok (St v c sec q) = DOk true s' -> ready_objects v ->
  exists ts v', object_items file src p imports true (rev sec) v ts v' /\ to sec q ts v' s'.
Proof.
  revert ok v q. induction m as [|m IH]; intros ok v q H O; cbn [trlc_loop] in H; [dinv H|].
  apply dcond_cases in H as [(_ & H)|(_ & H)].
  - dinv H. destruct a; [|rewrite andb_false_r in H; apply trlc_loop_false in H; discriminate].
    apply attempt_ok in H0; auto. apply entry_sound in H0 as (t1 & v1 & Hi & q1 & -> & R1); auto. assert (O1 := proj1 (items_ready true) _ _ _ _ Hi O).
    apply IH in H as (ts & v' & Hs & q2 & -> & R2); auto. exists (t1 ++ ts), v'. split; [econstructor; eauto|]. exists q2. split; auto. eapply reads_app; eauto.
  - injection H as -> <-. exists [], v. split; [constructor|]. exists q. split; auto. constructor.
Qed.
End SOUND.
