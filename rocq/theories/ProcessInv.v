(** The invariants of the whole run. *)
From Coq Require Import Relations.
From Verif Require Import Base Lexer SymTab Ast Eval Typing TypesProofs ParserBase ParserExpr ParserProofs ParserValue Lint ParserDecl ParserFile
  Resolve ExprTyping ValueSyntax ValueTyping Growth DeclInv DeclRsl DeclTrlc DeclFrame Process.
From Verif Require Checks ChecksProofs SourceMan SourceManProofs.
Import SourceMan (fkind, RSL, TRLC).
From Coq Require Import ZifyBool ZifyNat ZifyN.
Open Scope Z_scope.

Scheme vt_mind := Minimality for vt Sort Prop with tf_mind := Minimality for tup_fields Sort Prop.
Combined Scheme vt_all from vt_mind, tf_mind.

(** ** Tables *)
Definition simple_names (d : ntable) : list text := map (fun x => simplified_name (fst x)) d.
Lemma find_none (d : ntable) name : t_find d name = None -> ~ In (simplified_name name) (simple_names d).
Proof.
  unfold simple_names. induction d as [|[k a] d IH]; [cbn; tauto|]. cbn [t_find map fst In]. destruct (text_eqb _ _) eqn:E; [discriminate|].
  intros H [J|J]; [|apply IH; auto]. rewrite J, text_eqb_refl in E. discriminate.
Qed.
(** The names in each package, those of packages and those of predefined
    entities are pairwise different. *)
Definition distinct_tables (v : env) : Prop :=
  NoDup (simple_names (v_stab v)) /\
  forall p d, nth_error (v_pkgs v) p = Some d -> NoDup (simple_names (d ++ v_stab v)).
Record tabled (v v' : env) : Prop := Tabled {
  tb_stab : v_stab v' = v_stab v;
  tb_pkgs : List.length (v_pkgs v') = List.length (v_pkgs v);
  tb_distinct : distinct_tables v -> distinct_tables v'
}.
Lemma tabled_refl v : tabled v v. Proof. constructor; auto. Qed.
Lemma tabled_trans a b c : tabled a b -> tabled b c -> tabled a c.
Proof. intros [A B C] [D E F]. constructor; auto; congruence. Qed.
Lemma tabled_same v v' : v_stab v' = v_stab v -> v_pkgs v' = v_pkgs v -> tabled v v'.
Proof. intros A B. constructor; [auto|congruence|]. unfold distinct_tables. rewrite A, B. auto. Qed.
Lemma tabled_entry v p name e : t_find (nth p (v_pkgs v) [] ++ v_stab v) name = None -> tabled v (add_entry p name e v).
Proof.
  intros F. apply find_none in F. constructor; cbn; auto.
  - apply change_length.
  - intros [A B]. split; auto. cbn. intros q d Eq. destruct (Nat.eq_dec p q) as [<-|N].
    + rewrite change_same in Eq. destruct (nth_error (v_pkgs v) p) as [d0|] eqn:E0; [|discriminate]. cbn in Eq. injection Eq as <-.
      rewrite (nth_error_nth _ _ _ E0) in F. specialize (B _ _ E0). unfold simple_names in *. rewrite <- app_assoc, map_app. cbn.
      rewrite map_app in B, F. apply NoDup_Add with (a := simplified_name name) (l := map (fun x => simplified_name (fst x)) d0 ++ map (fun x => simplified_name (fst x)) (v_stab v)).
      * apply Add_app.
      * auto.
    + rewrite change_other in Eq by auto. eauto.
Qed.
Lemma tabled_rsl file src lint compiles matches n rec : framed tabled (parse_rsl_file file src lint compiles matches n rec).
Proof. apply fr_rsl_file; eauto using tabled_refl, tabled_entry, tabled_trans; intros; apply tabled_same; reflexivity. Qed.
Lemma tabled_trlc file src n rec : framed tabled (parse_trlc_file file src n rec).
Proof. apply fr_trlc_file; eauto using tabled_refl, tabled_entry, tabled_trans; intros; apply tabled_same; reflexivity. Qed.

(** ** Preambles *)
Definition is_named (e : entity) : bool := match e with N_type (TInt | TDec | TBool | TStr | TMarkup) | N_fun _ => true | _ => false end.
Record blank (v : env) : Prop := Blank {
  bl_types : v_types v = Types [] [] [];
  bl_objs : v_objs v = [];
  bl_pkgs : forall d, In d (v_pkgs v) -> d = [];
  bl_stab : forall k e, In (k, e) (v_stab v) -> is_named e = true \/ exists p, e = N_pkg p /\ (p < List.length (v_pkgs v))%nat;
  bl_named : forall p, (p < List.length (v_pkgs v))%nat -> exists k, In (k, N_pkg p) (v_stab v);
  bl_distinct : NoDup (simple_names (v_stab v))
}.
Lemma blank_start : blank env0.
Proof.
  constructor; cbn; auto.
  - intros d [].
  - intros k e H. left. decompose [or] H; try contradiction; match goal with H : _ = _ |- _ => injection H as <- <- end; reflexivity.
  - intros p H. lia.
  - vm_compute. repeat constructor; cbn; intros H; decompose [or] H; (discriminate || contradiction).
Qed.

Lemma blank_decl matches v : blank v -> no_objects matches v.
Proof.
  intros [A B C D E F]. constructor; auto. constructor.
  - rewrite A. constructor; [intros [|r] rt H|intros [|u] ut H|intros [|i] en H]; discriminate.
  - constructor; auto.
    + intros k e I. destruct (D _ _ I) as [N|(p & -> & L)].
      * split; [|intros o ->; discriminate]. constructor.
        -- intros a ->. destruct a; try discriminate; split; try reflexivity; exact Logic.I.
        -- intros o ->. discriminate.
        -- intros p ->. discriminate.
        -- destruct e; try discriminate; reflexivity.
      * split; [|discriminate]. constructor; try discriminate; auto. intros q Eq. injection Eq as <-. auto.
    + intros d k e I J. rewrite (C _ I) in J. destruct J.
Qed.
Lemma blank_tables v : blank v -> distinct_tables v.
Proof. intros [A B C D E F]. split; auto. intros p d H. apply nth_error_In in H. rewrite (C _ H). auto. Qed.

(** The package of a file exists. *)
Definition in_range (v : env) (c : cunit) : Prop := forall p, cu_pkg c = Some p -> (p < List.length (v_pkgs v))%nat.
Record more (v v' : env) : Prop := More { mo_blank : blank v'; mo_length : (List.length (v_pkgs v) <= List.length (v_pkgs v'))%nat }.
Lemma more_refl v : blank v -> more v v. Proof. constructor; auto. Qed.
Lemma more_trans a b c : more a b -> more b c -> more a c. Proof. intros [A B] [C D]. constructor; auto; lia. Qed.
Lemma more_range v v' c : more v v' -> in_range v c -> in_range v' c.
Proof. intros [_ L] H p E. specialize (H p E). lia. Qed.

Definition pre {A} (m : D A) (Q : env -> cunit -> A -> env -> cunit -> Prop) : Prop :=
  forall s, blank (s_env s) -> in_range (s_env s) (s_cu s) ->
    match m s with
    | DOk a s' => more (s_env s) (s_env s') /\ in_range (s_env s') (s_cu s') /\ Q (s_env s) (s_cu s) a (s_env s') (s_cu s')
    | DErr _ s' => more (s_env s) (s_env s') /\ in_range (s_env s') (s_cu s')
    | DCrash | DFuel => True
    end.
Definition kept {A} (v : env) (c : cunit) (a : A) (v' : env) (c' : cunit) : Prop := cu_pkg c' = cu_pkg c.
Lemma pre_bind {A B} (m : D A) (k : A -> D B) Q Q' : pre m Q -> (forall a, pre (k a) (Q' a)) ->
  pre (dbind m k) (fun v c b v' c' => exists a v1 c1, Q v c a v1 c1 /\ Q' a v1 c1 b v' c').
Proof.
  intros H K s B1 R1. unfold dbind. specialize (H s B1 R1). destruct (m s) as [a s1|e s1| |]; auto. destruct H as (M & R & H).
  specialize (K a s1 (mo_blank _ _ M) R). destruct (k a s1) as [b s2|e s2| |]; auto.
  - destruct K as (M2 & R2 & K). split; [eapply more_trans; eauto|]. split; eauto 10.
  - destruct K as (M2 & R2). split; [eapply more_trans; eauto|auto].
Qed.
Lemma pre_weaken {A} (m : D A) (Q Q' : env -> cunit -> A -> env -> cunit -> Prop) :
  pre m Q -> (forall v c a v' c', Q v c a v' c' -> Q' v c a v' c') -> pre m Q'.
Proof. intros H K s B R. specialize (H s B R). destruct (m s); auto. destruct H as (? & ? & ?). auto. Qed.
Lemma pre_ret {A} (a : A) : pre (dret a) kept.
Proof. intros s B R. cbn. split; [apply more_refl; auto|]. split; auto. reflexivity. Qed.
Lemma pre_error {A} e Q : pre (@derror A e) Q. Proof. intros s B R. cbn. split; [apply more_refl; auto|]. auto. Qed.
Lemma pre_names {A} (m : env -> names -> P A) : pre (with_names m) kept.
Proof. intros s B R. unfold with_names. destruct (m _ _ _); cbn; auto; split; auto using more_refl. split; auto. reflexivity. Qed.
Lemma pre_cond {A} b (x y : D A) Q : pre x Q -> pre y Q -> pre (dcond b x y) Q.
Proof. intros H K s B R. unfold dcond. destruct (b (s_ps s)); [apply (H s B R)|apply (K s B R)]. Qed.
Lemma pre_import file tk : pre (add_import file tk) kept.
Proof.
  intros s B R. unfold add_import, dbind, dcu. destruct (text_eqb _ _); [apply (pre_error _ kept s B R)|].
  destruct (existsb _ _); [apply (pre_names (fun _ _ => pnote _) s B R)|]. cbn. split; [apply more_refl; auto|]. split; auto. reflexivity.
Qed.
Lemma pre_imports file m : pre (imports_loop file m) kept.
Proof.
  induction m as [|m IH]; cbn [imports_loop]; [intros s B R; exact I|]. apply pre_cond; [|apply pre_ret].
  eapply pre_weaken.
  - apply pre_bind; [apply pre_names|]. intros a. apply pre_bind; [apply pre_names|]. intros tk.
    apply pre_bind; [apply pre_import|]. intros u. apply IH.
  - cbn. unfold kept. intros v c a v' c' (a1 & v1 & c1 & E1 & a2 & v2 & c2 & E2 & a3 & v3 & c3 & E3 & E4). congruence.
Qed.
Lemma pre_declare file tk : pre (declare_package file tk) (fun v c p v' c' => (p < List.length (v_pkgs v'))%nat).
Proof.
  intros s B R. unfold declare_package, dbind, dget, dlift, dp, with_names, registrable. cbn [s_env].
  destruct (t_find (v_stab (s_env s)) (tok_text tk)) as [[k a]|] eqn:F; cbn.
  - split; [apply more_refl; auto|auto].
  - destruct B as [B1 B2 B3 B4 B5 B6]. apply find_none in F. split; [|split].
    + constructor; cbn; [|rewrite app_length; cbn; lia]. constructor; cbn; auto.
      * intros d I. apply in_app_or in I as [I|[<-|[]]]; auto.
      * intros k e I. apply in_app_or in I as [I|[I|[]]].
        -- destruct (B4 _ _ I) as [?|(p & -> & L)]; auto. right. exists p. rewrite app_length. split; auto. lia.
        -- injection I as <- <-. right. eexists. split; auto. rewrite app_length. cbn. lia.
      * intros p L. rewrite app_length in L. cbn in L. destruct (Nat.eq_dec p (List.length (v_pkgs (s_env s)))) as [->|N].
        -- eexists. apply in_or_app. right. left. reflexivity.
        -- destruct (B5 p) as (k & I); [lia|]. exists k. apply in_or_app. auto.
      * unfold simple_names. rewrite map_app. cbn [map fst]. apply SourceManProofs.NoDup_snoc; auto.
    + intros p E. cbn. rewrite app_length. cbn in E. specialize (R p E). lia.
    + rewrite app_length. cbn. lia.
Qed.
Lemma lookup_in {A} file (f : A -> entity) d tk pr a : t_lookup file f d tk pr = Ok a -> exists k, In (k, a) d.
Proof. intros H. apply t_lookup_in in H. eauto. Qed.
Lemma pre_find file tk : pre (find_package file tk) (fun v c p v' c' => (p < List.length (v_pkgs v'))%nat).
Proof.
  intros s B R. unfold find_package, dbind, with_names, e_lookup. cbn [n_stab names_of].
  destruct (t_lookup file (fun e => e) (v_stab (s_env s)) tk (Some is_package)) as [e|e| |] eqn:L; cbn; auto.
  - destruct (lookup_in _ _ _ _ _ _ L) as (k & I). destruct e; cbn; auto. split; [apply more_refl; auto|]. split; auto.
    destruct B as [B1 B2 B3 B4 B5 B6]. destruct (B4 _ _ I) as [N|(q & E & Lq)]; [discriminate|]. injection E as <-. auto.
  - split; [apply more_refl; auto|auto].
Qed.
Lemma pre_then {A B} (m : D A) (k : A -> D B) (Q : cunit -> Prop) Q0 : pre m Q0 ->
  (forall a, pre (k a) (fun _ _ _ _ c' => Q c')) -> pre (dbind m k) (fun _ _ _ _ c' => Q c').
Proof. intros H K. eapply pre_weaken; [exact (pre_bind m k Q0 (fun _ _ _ _ _ c' => Q c') H K)|]. cbn. intros v c b v' c' (? & ? & ? & _ & ?). auto. Qed.
Lemma pre_get : pre dget kept.
Proof. intros s B R. cbn. split; [apply more_refl; auto|]. split; auto. reflexivity. Qed.
Lemma pre_preamble file n k : pre (parse_preamble file n k) (fun _ _ _ _ c' => cu_pkg c' <> None).
Proof.
  unfold parse_preamble. eapply pre_then; [apply pre_names|]. intros u. eapply pre_then; [apply pre_names|]. intros tk.
  eapply pre_then; [apply pre_get|]. intros v s B R. cbv zeta.
  set (dec := match k with RSL => true | TRLC => negb (t_contains (v_stab v) (tok_text tk)) end).
  assert (H : pre (if dec then declare_package file tk else find_package file tk) (fun v c p v' c' => (p < List.length (v_pkgs v'))%nat)).
  { destruct dec; [apply pre_declare|apply pre_find]. }
  unfold dbind at 1. specialize (H s B R). destruct ((if dec then declare_package file tk else find_package file tk) s) as [p s1|e s1| |]; auto.
  destruct H as (M & R1 & H).
  unfold dbind, set_cu. assert (K := pre_imports file n (St (s_env s1) (CU (Some p) (tok_text tk) (cu_raw (s_cu s1)) (cu_imports (s_cu s1))) (s_sec s1) (s_ps s1))).
  cbn in K. specialize (K (mo_blank _ _ M)). destruct (imports_loop file n _) as [a s2|e s2| |]; auto.
  - destruct K as (M2 & R2 & K). { intros q E. injection E as <-. auto. } split; [eapply more_trans; eauto|]. split; auto. rewrite K. discriminate.
  - destruct K as (M2 & R2). { intros q E. injection E as <-. auto. } split; [eapply more_trans; eauto|auto].
Qed.

(** All files *)
Record parser_ok (v : env) (pa : parser) : Prop := ParserOk {
  pk_range : in_range v (pa_cu pa);
  pk_ok : pa_ok pa = true -> cu_pkg (pa_cu pa) <> None
}.
Lemma parser_more v v' pa : more v v' -> parser_ok v pa -> parser_ok v' pa.
Proof. intros M [A B]. constructor; auto. eapply more_range; eauto. Qed.
Lemma preamble_ok pa v pa' v' ms : blank v -> in_range v (pa_cu pa) -> parser_preamble pa v = Ok (pa', v', ms) -> more v v' /\ parser_ok v' pa'.
Proof.
  intros B R H. unfold parser_preamble, launch in H.
  assert (K := pre_preamble (pa_id pa) (fuel_for pa) (pa_kind pa) (St v (pa_cu pa) [] (PS (pa_pos pa) [])) B R).
  destruct (parse_preamble _ _ _ _) as [a s|e s| |]; cbn in *; try discriminate; injection H as <- <- <-.
  - destruct K as (M & R' & K). split; auto. constructor; auto.
  - destruct K as (M & R'). split; auto. constructor; cbn; auto. discriminate.
Qed.
Lemma preambles_ok l v l' v' ms : blank v -> (forall pa, In pa l -> cu_pkg (pa_cu pa) = None) -> preambles l v = Ok (l', v', ms) ->
  more v v' /\ forall pa, In pa l' -> parser_ok v' pa.
Proof.
  revert v l' v' ms. induction l as [|pa l IH]; cbn [preambles]; intros v l' v' ms B N H.
  - injection H as <- <- <-. split; [apply more_refl; auto|intros pa []].
  - apply bind_ok in H as ([[pa1 v1] ms1] & E1 & H). apply bind_ok in H as ([[l2 v2] ms2] & E2 & H). injection H as <- <- <-.
    apply preamble_ok in E1 as [M1 P1]; auto.
    + apply IH in E2 as [M2 P2]; [|apply M1|intros q I; apply N; cbn; auto]. split; [eapply more_trans; eauto|].
      intros q [<-|I]; auto. eapply parser_more; eauto.
    + intros p E. rewrite N in E by (cbn; auto). discriminate.
Qed.
Lemma resolve_all_ok v w l g l' g' ms : (forall pa, In pa l -> parser_ok w pa) -> resolve_all l v g = (l', g', ms) ->
  forall pa, In pa l' -> parser_ok w pa.
Proof.
  revert g l' g' ms. induction l as [|pa l IH]; cbn [resolve_all]; intros g l' g' ms H E q I.
  - injection E as <- <- <-. destruct I.
  - destruct (import_names v pa) as [[pa1 names] ms1] eqn:E1. destruct (resolve_all l v _) as [[l2 g2] ms2] eqn:E2.
    injection E as <- <- <-. destruct I as [<-|I]; [|eapply IH; eauto; intros; apply H; cbn; auto].
    unfold import_names in E1. assert (P := H pa (or_introl eq_refl)). destruct (pa_ok pa) eqn:Ok.
    + destruct (imported _ _ _) as [ps es]. injection E1 as <- <- <-. destruct P as [A B]. constructor; auto.
    + injection E1 as <- <- <-. auto.
Qed.
Lemma container_ok l v g l' v' g' ms : blank v -> (forall pa, In pa l -> cu_pkg (pa_cu pa) = None) ->
  container l v g = Ok (l', v', g', ms) -> more v v' /\ forall pa, In pa l' -> parser_ok v' pa.
Proof.
  intros B N H. unfold container in H. apply bind_ok in H as ([[l1 v1] ms1] & E1 & H).
  destruct (resolve_all l1 v1 _) as [[l2 g2] ms2] eqn:E2. injection H as <- <- <- <-.
  apply preambles_ok in E1 as [M P]; auto. split; auto. eapply resolve_all_ok; eauto.
Qed.
Lemma open_new fs l ms : open_all fs = Ok (l, ms) -> forall pa, In pa l -> cu_pkg (pa_cu pa) = None.
Proof.
  revert l ms. induction fs as [|f fs IH]; cbn [open_all]; intros l ms H pa I.
  - injection H as <- <-. destruct I.
  - apply bind_ok in H as ([o m1] & E1 & H). apply bind_ok in H as ([l2 m2] & E2 & H). cbn in H. injection H as <- <-.
    unfold open_file in E1. destruct (items (i_src f)); [|discriminate]. destruct (p_advance _); try discriminate; injection E1 as <- <-.
    + destruct I as [<-|I]; [reflexivity|eauto].
    + eauto.
Qed.
Lemma insert_in p q l : In q (insert_parser p l) <-> q = p \/ In q l.
Proof. induction l as [|x l IH]; cbn; [intuition|]. destruct (pa_id p <=? pa_id x); cbn; rewrite ?IH; intuition. Qed.
Lemma by_name_in q l : In q (by_name l) <-> In q l.
Proof. induction l as [|x l IH]; cbn; [tauto|]. rewrite insert_in. fold (by_name l). rewrite IH. intuition. Qed.
Lemma build_ok fs gr : build_graph fs = Ok gr ->
  blank (gr_env gr) /\ (forall pa, In pa (gr_rsl gr) \/ In pa (gr_trlc gr) -> parser_ok (gr_env gr) pa).
Proof.
  intros H. unfold build_graph in H. apply bind_ok in H as ([l ms0] & E0 & H).
  apply bind_ok in H as ([[[rsl v1] g1] ms1] & E1 & H). apply bind_ok in H as ([[[trlc v2] g2] ms2] & E2 & H). injection H as <-. cbn.
  assert (N : forall k pa, In pa (by_name (of_kind k l)) -> cu_pkg (pa_cu pa) = None).
  { intros k pa I. apply (proj1 (by_name_in _ _)) in I. apply filter_In in I as [I _]. eapply open_new; eauto. }
  apply container_ok in E1 as [M1 P1]; eauto using blank_start. apply container_ok in E2 as [M2 P2]; eauto; [|apply M1].
  split; [apply M2|]. intros pa [I|I]; auto. eapply parser_more; eauto.
Qed.

Section RUN.
Variable compiles : text -> bool.
Variable matches : text -> text -> option bool.
Variable pick : list SourceMan.node -> nat.
Variable lint recovery : bool.
Hypothesis regex : forall p x, compiles p = true -> matches p x <> None.

(** ** Types *)
Lemma types_file pa v ok v' ms c : no_objects matches v -> cu_pkg (pa_cu pa) = Some c ->
  parse_types compiles matches lint recovery pa v = Ok (ok, v', ms) -> no_objects matches v' /\ tabled v v'.
Proof.
  intros O Ep H. unfold parse_types, launch in H.
  set (s := St v (pa_cu pa) [] (PS (pa_pos pa) [])) in *.
  assert (K := run_rsl_file (pa_id pa) (pa_src pa) lint compiles matches regex (fuel_for pa) (pa_cu pa) c Ep recovery v O s eq_refl eq_refl).
  assert (T := tabled_rsl (pa_id pa) (pa_src pa) lint compiles matches (fuel_for pa) recovery s).
  destruct (parse_rsl_file _ _ _ _ _ _ _ _) as [a s1|e s1| |]; cbn in H; try discriminate; injection H as <- <- <-; cbn; tauto.
Qed.
Lemma types_files l order v ok ok' v' ms : no_objects matches v ->
  parse_rsl_files compiles matches lint recovery l order v ok = Ok (ok', v', ms) -> no_objects matches v' /\ tabled v v'.
Proof.
  revert v ok ok' v' ms. induction order as [|nd order IH]; cbn [parse_rsl_files]; intros v ok ok' v' ms O H.
  - injection H as <- <- <-. split; auto using tabled_refl.
  - destruct (find (has_node nd) l) as [pa|] eqn:F; [|discriminate].
    apply find_some in F as [_ F]. unfold has_node, node_of in F. destruct (cu_pkg (pa_cu pa)) as [c|] eqn:Ep; [|discriminate].
    apply bind_ok in H as ([[ok1 v1] ms1] & E1 & H). apply bind_ok in H as ([[ok2 v2] ms2] & E2 & H). injection H as <- <- <-.
    eapply types_file in E1 as [O1 T1]; eauto. apply IH in E2 as [O2 T2]; auto. split; auto. eapply tabled_trans; eauto.
Qed.

(** ** Objects *)
Section OBJECTS.
Variable G : types.
Hypothesis types : types_ok matches G.
Record objects_fine (v : env) : Prop := ObjectsFine {
  of_types : v_types v = G;
  of_names : names_ok v;
  of_all : forall o ob, nth_error (v_objs v) o = Some ob -> object_ok G (v_objs v) ob /\ listed v o ob;
  of_entries : forall q d k o, nth_error (v_pkgs v) q = Some d -> In (k, N_obj o) d ->
    exists ob, nth_error (v_objs v) o = Some ob /\ o_pkg ob = q /\ o_name ob = k
}.
Lemma objects_here p v : objects_fine v -> (p < List.length (v_pkgs v))%nat -> objects_ok G p v.
Proof. intros [A B C D] L. constructor; auto. Qed.
Lemma objects_there p v : objects_ok G p v -> objects_fine v.
Proof. intros [A B C D E]. constructor; auto. Qed.
Lemma objects_file pa v ok v' ms : objects_fine v -> parser_ok v pa -> pa_ok pa = true ->
  parse_objects recovery pa v = Ok (ok, v', ms) ->
  objects_fine v' /\ tabled v v' /\ (ok = true -> all_complete G v -> all_complete G v').
Proof.
  intros O P Okp H. unfold parse_objects, launch in H. destruct (cu_pkg (pa_cu pa)) as [c|] eqn:Ep; [|destruct (pk_ok _ _ P Okp Ep)].
  assert (L := pk_range _ _ P _ Ep).
  set (s := St v (pa_cu pa) [] (PS (pa_pos pa) [])) in *.
  assert (K := run_trlc_file (pa_id pa) (pa_src pa) matches (fuel_for pa) G types (pa_cu pa) c Ep recovery v (objects_here _ _ O L) s eq_refl eq_refl).
  assert (T := tabled_trlc (pa_id pa) (pa_src pa) (fuel_for pa) recovery s).
  destruct (parse_trlc_file _ _ _ _ _) as [a s1|e s1| |]; cbn in H; try discriminate; injection H as <- <- <-; cbn.
  - destruct K as [[K1 K2] K3], T as [T1 _]. split; [|split; auto]. eapply objects_there; eauto.
  - destruct K as [K1 K3], T as [T1 _]. split; [|split; auto; discriminate]. eapply objects_there; eauto.
Qed.
Lemma parser_tabled v v' pa : tabled v v' -> parser_ok v pa -> parser_ok v' pa.
Proof. intros T [A B]. constructor; auto. intros p E. rewrite (tb_pkgs _ _ T). auto. Qed.
Lemma objects_files l v ok ok' v' ms : objects_fine v -> (forall pa, In pa l -> parser_ok v pa /\ pa_ok pa = true) ->
  parse_trlc_files recovery l v ok = Ok (ok', v', ms) ->
  objects_fine v' /\ tabled v v' /\ (ok' = true -> ok = true /\ (all_complete G v -> all_complete G v')).
Proof.
  revert v ok ok' v' ms. induction l as [|pa l IH]; cbn [parse_trlc_files]; intros v ok ok' v' ms O P H.
  - injection H as <- <- <-. split; auto. split; auto using tabled_refl.
  - apply bind_ok in H as ([[ok1 v1] ms1] & E1 & H). apply bind_ok in H as ([[ok2 v2] ms2] & E2 & H). injection H as <- <- <-.
    destruct (P pa (or_introl eq_refl)) as [P1 P2]. eapply objects_file in E1 as (O1 & T1 & C1); eauto.
    apply IH in E2 as (O2 & T2 & C2); auto.
    + split; auto. split; [eapply tabled_trans; eauto|]. intros Ok. destruct (C2 Ok) as [A B]. apply Bool.andb_true_iff in A as [A1 A2]. auto.
    + intros pa' I. destruct (P pa' (or_intror I)). split; auto. eapply parser_tabled; eauto.
Qed.

(** ** References *)
Lemma vt_vt0 W : (forall a v, vt G W a v -> (forall l b p n tgt, has_ref v l b p n tgt -> linkable b) -> vt0 G (w_objs W) a v) /\
  (forall cs d, tup_fields G W cs d -> (forall k x l b p n tgt, In (k, x) d -> has_ref x l b p n tgt -> linkable b) -> tup_fields0 G (w_objs W) cs d).
Proof.
  apply vt_all; intros.
  - apply vt0_lit. intros. eapply H. econstructor; eauto.
  - apply vt0_sign; auto.
  - apply vt0_arr; auto. intros x I. apply H0; auto. intros. eapply H1. econstructor; eauto.
  - eapply vt0_tup; eauto. apply H1. intros. eapply H2. econstructor; eauto.
  - apply vt0_ref; cbn; auto. eauto.
  - apply vt0_ref; cbn; auto. eauto.
  - constructor.
  - apply tf0_value; [apply H0; intros; eapply H3; [left; reflexivity|eauto]|apply H2; intros; eapply H3; [right; eauto|eauto]].
  - apply tf0_null; auto. apply H1. intros. eapply H2; [right; eauto|eauto].
Qed.

Record same_head (ob ob' : object) : Prop := SameHead {
  sh_pkg : o_pkg ob' = o_pkg ob; sh_name : o_name ob' = o_name ob; sh_loc : o_loc ob' = o_loc ob; sh_typ : o_typ ob' = o_typ ob
}.
Definition same_heads (objs objs' : list object) : Prop :=
  List.length objs' = List.length objs /\
  forall o ob, nth_error objs o = Some ob -> exists ob', nth_error objs' o = Some ob' /\ same_head ob ob'.
Lemma heads_refl objs : same_heads objs objs.
Proof. split; auto. intros o ob E. exists ob. split; auto. constructor; auto. Qed.
Lemma heads_trans a b c : same_heads a b -> same_heads b c -> same_heads a c.
Proof.
  intros [A1 A2] [B1 B2]. split; [congruence|]. intros o ob E. destruct (A2 _ _ E) as (ob1 & E1 & [H1 H2 H3 H4]).
  destruct (B2 _ _ E1) as (ob2 & E2 & [K1 K2 K3 K4]). exists ob2. split; auto. constructor; congruence.
Qed.
Lemma heads_objects a b : same_heads a b -> same_objects a b.
Proof. intros [_ H] o ob E. destruct (H _ _ E) as (ob' & E' & [A B C D]). eauto. Qed.

(** A value without its targets *)
Fixpoint forget (v : vexpr) : vexpr :=
  match v with
  | XNull l => XNull l
  | XLit l k refs => XLit l k (map forget refs)
  | XUnary l a op x => XUnary l a op x
  | XArr l a vs => XArr l a (map forget vs)
  | XTup l u vs => XTup l u (map (fun kx => (fst kx, forget (snd kx))) vs)
  | XRef l _ p n _ => XRef l None p n None
  end.
Lemma forget_resolve objs N v : forall v', resolve_value G objs N v = Ok v' -> forget v' = forget v.
Proof.
  induction v using vexpr_ind3; intros v' Rv.
  - injection Rv as <-. auto.
  - rewrite resolve_lit in Rv. apply bind_ok in Rv as (rs & E & Rv). injection Rv as <-. cbn. f_equal. apply each_ok in E.
    clear - E H. induction E; cbn; auto. f_equal; [apply H; cbn; auto|apply IHE; intros; apply H; cbn; auto].
  - injection Rv as <-. auto.
  - rewrite resolve_arr in Rv. apply bind_ok in Rv as (rs & E & Rv). injection Rv as <-. cbn. f_equal. apply each_ok in E.
    clear - E H. induction E; cbn; auto. f_equal; [apply H; cbn; auto|apply IHE; intros; apply H; cbn; auto].
  - rewrite resolve_tup in Rv. apply bind_ok in Rv as (rs & E & Rv). injection Rv as <-. cbn. f_equal. apply each_ok in E.
    clear - E H. induction E as [|[k x] [k' y] l1 l2 Hx]; cbn; auto. unfold on_field in Hx. apply bind_ok in Hx as (z & Z & Hx). injection Hx as <- <-.
    f_equal; [f_equal; apply (H k); cbn; auto|apply IHE; intros; eapply H; cbn; eauto].
  - cbn in Rv. apply bind_ok in Rv as ([a0 t0] & E & Rv). injection Rv as <-. auto.
Qed.
Lemma resolved_type objs N v : wf_types G -> forall v' l a p n tgt, resolve_value G objs N v = Ok v' -> has_ref v' l a p n tgt -> a <> None.
Proof.
  intros Or. induction v using vexpr_ind3; intros v' l' a' p' n' tgt' Rv Hr.
  - injection Rv as <-. inversion Hr.
  - rewrite resolve_lit in Rv. apply bind_ok in Rv as (rs & E & Rv). injection Rv as <-. apply each_ok in E.
    inversion Hr as [|? ? ? y ? ? ? ? ? Iy Hy| |]; subst. destruct (forall2_in_r _ _ _ _ E Iy) as (x & I & X). eapply H; eauto.
  - injection Rv as <-. inversion Hr.
  - rewrite resolve_arr in Rv. apply bind_ok in Rv as (rs & E & Rv). injection Rv as <-. apply each_ok in E.
    inversion Hr as [| |? ? ? y ? ? ? ? ? Iy Hy|]; subst. destruct (forall2_in_r _ _ _ _ E Iy) as (x & I & X). eapply H; eauto.
  - rewrite resolve_tup in Rv. apply bind_ok in Rv as (rs & E & Rv). injection Rv as <-. apply each_ok in E.
    inversion Hr as [| | |? ? ? ky y ? ? ? ? ? Iy Hy]; subst. destruct (forall2_in_r _ _ _ _ E Iy) as ([k x] & I & X).
    unfold on_field in X. apply bind_ok in X as (z & Z & X). injection X as <- <-. eapply H; eauto.
  - cbn in Rv. apply bind_ok in Rv as ([a0 t0] & E & Rv). injection Rv as <-. cbn in Hr. inversion Hr; subst.
    destruct (ref_ok _ _ _ Or _ _ _ _ _ _ E) as (o1 & ob & _ & _ & _ & ->). destruct a; discriminate.
Qed.

Lemma resolved_link objs N v : forall v' l a p n tgt, resolve_value G objs N v = Ok v' -> has_ref v' l a p n tgt -> linkable a.
Proof.
  induction v using vexpr_ind3; intros v' l' a' p' n' tgt' Rv Hr.
  - injection Rv as <-. inversion Hr.
  - rewrite resolve_lit in Rv. apply bind_ok in Rv as (rs & E & Rv). injection Rv as <-. apply each_ok in E.
    inversion Hr as [|? ? ? y ? ? ? ? ? Iy Hy| |]; subst. destruct (forall2_in_r _ _ _ _ E Iy) as (x & I & X). eapply H; eauto.
  - injection Rv as <-. inversion Hr.
  - rewrite resolve_arr in Rv. apply bind_ok in Rv as (rs & E & Rv). injection Rv as <-. apply each_ok in E.
    inversion Hr as [| |? ? ? y ? ? ? ? ? Iy Hy|]; subst. destruct (forall2_in_r _ _ _ _ E Iy) as (x & I & X). eapply H; eauto.
  - rewrite resolve_tup in Rv. apply bind_ok in Rv as (rs & E & Rv). injection Rv as <-. apply each_ok in E.
    inversion Hr as [| | |? ? ? ky y ? ? ? ? ? Iy Hy]; subst. destruct (forall2_in_r _ _ _ _ E Iy) as ([k x] & I & X).
    unfold on_field in X. apply bind_ok in X as (z & Z & X). injection X as <- <-. eapply H; eauto.
  - cbn in Rv. apply bind_ok in Rv as ([a0 t0] & E & Rv). injection Rv as <-. cbn in Hr. inversion Hr; subst.
    unfold resolve_ref in E. apply bind_ok in E as (e & _ & E). destruct e; try discriminate. destruct (nth_error objs _); [|discriminate].
    destruct a as [[]|]; try discriminate.
    + destruct (is_subclass_of _ _ _); [|discriminate]. injection E as <- <-. intros b Eb. injection Eb as <-. auto.
    + destruct (is_compatible _ _ _); [|discriminate]. injection E as <- <-. intros b Eb. injection Eb as <-. auto.
    + injection E as <- <-. intros b Eb. injection Eb as <-. auto.
Qed.

(** Objects whose references may be unresolved ... *)
Record ready (objs : list object) (ob : object) : Prop := Ready {
  rd_type : exists rt, rec G (o_typ ob) = Some rt /\ r_abstract rt = false;
  rd_keys : map fst (o_fields ob) = map c_name (all_components G (o_typ ob));
  rd_fields : forall c, In c (all_components G (o_typ ob)) ->
    exists f, assoc (c_name c) (o_fields ob) = Some f /\ fits0 G objs (c_typ c) (c_opt c) (snd f) /\
      forall g, get_freezing G (o_typ ob) (c_name c) = Some g -> fst f = fst g /\ forget (snd f) = forget (snd g)
}.
(** ... and are resolved. *)
Definition refers (objs : list object) (x : vexpr) : Prop :=
  forall l a p n tgt, has_ref x l a p n tgt ->
    exists o ob b, tgt = Some o /\ nth_error objs o = Some ob /\ o_pkg ob = p /\ o_name ob = n /\ a = Some b /\ fits_ref G ob b.
Record settled (objs : list object) (ob : object) : Prop := Settled {
  st_fields : forall c, In c (all_components G (o_typ ob)) ->
    exists f, assoc (c_name c) (o_fields ob) = Some f /\ fits G (World objs matches) (c_typ c) (c_opt c) (snd f);
  st_refs : forall k f, assoc k (o_fields ob) = Some f -> refers objs (snd f)
}.
Lemma ready_mono objs objs' ob : same_heads objs objs' -> ready objs ob -> ready objs' ob.
Proof.
  intros S [A B C]. constructor; auto. intros c I. destruct (C c I) as (f & E & F & Fz). exists f. split; auto. split; auto.
  destruct F as [V|N]; [left|right; auto]. eapply (vt0_mono G G objs objs'); eauto; [split; eauto|]. apply heads_objects; auto.
Qed.
Lemma assoc_forall2 {A} (Q : A -> A -> Prop) (d d' : list (text * A)) k x :
  Forall2 (fun a b => fst b = fst a /\ Q (snd a) (snd b)) d d' -> assoc k d = Some x -> exists y, assoc k d' = Some y /\ Q x y.
Proof.
  induction 1 as [|[k1 x1] [k2 x2] l l' [E Qx]]; cbn in *; [discriminate|]. subst k2. destruct (text_eqb k1 k); eauto.
  intros H1. injection H1 as <-. eauto.
Qed.
Lemma assoc_forall2_r {A} (Q : A -> A -> Prop) (d d' : list (text * A)) k y :
  Forall2 (fun a b => fst b = fst a /\ Q (snd a) (snd b)) d d' -> assoc k d' = Some y -> exists x, assoc k d = Some x /\ Q x y.
Proof.
  induction 1 as [|[k1 x1] [k2 x2] l l' [E Qx]]; cbn in *; [discriminate|]. subst k2. destruct (text_eqb k1 k); eauto.
  intros H1. injection H1 as <-. eauto.
Qed.
Lemma resolve_fields objs N ob ob' : resolve_object G objs N ob = Ok ob' ->
  same_head ob ob' /\
  Forall2 (fun a b : text * field => fst b = fst a /\ fst (snd b) = fst (snd a) /\ resolve_value G objs N (snd (snd a)) = Ok (snd (snd b)))
    (o_fields ob) (o_fields ob').
Proof.
  intros H. unfold resolve_object in H. apply bind_ok in H as (fs & E & H). injection H as <-. cbn. split; [constructor; auto|].
  apply each_ok in E. clear - E. induction E as [|[k [i x]] [k' [i' x']] l l' H]; constructor; auto.
  apply bind_ok in H as (y & Y & H). injection H as <- <- <-. auto.
Qed.
Lemma resolve_settles v ob ob' objs' : types_ok matches G -> objects_fine v -> ready (v_objs v) ob ->
  resolve_object G (v_objs v) (final_names v) ob = Ok ob' -> same_heads (v_objs v) objs' -> ready objs' ob' /\ settled objs' ob'.
Proof.
  intros Ty O R H S. assert (Or := ok_order _ _ Ty). apply resolve_fields in H as [[H1 H2 H3 H4] F].
  pose (Qf := fun f f' : field => fst f' = fst f /\ resolve_value G (v_objs v) (final_names v) (snd f) = Ok (snd f')).
  assert (F' : Forall2 (fun a b : text * field => fst b = fst a /\ Qf (snd a) (snd b)) (o_fields ob) (o_fields ob')) by exact F.
  assert (So := heads_objects _ _ S).
  assert (Fit : forall c, In c (all_components G (o_typ ob')) -> exists f f', assoc (c_name c) (o_fields ob) = Some f /\ assoc (c_name c) (o_fields ob') = Some f' /\
    fst f' = fst f /\ resolve_value G (v_objs v) (final_names v) (snd f) = Ok (snd f') /\ fits G (World objs' matches) (c_typ c) (c_opt c) (snd f') /\
    (forall g, get_freezing G (o_typ ob') (c_name c) = Some g -> fst f = fst g /\ forget (snd f) = forget (snd g))).
  { intros c I. rewrite H4 in *. destruct (rd_fields _ _ R c I) as (f & E & Fi & Fz). destruct (assoc_forall2 Qf _ _ _ _ F' E) as (f' & E' & Q1 & Q2).
    exists f, f'. split; auto. split; auto. split; auto. split; auto. split; auto. destruct Fi as [V|(Op & l & Nl)].
    - left. eapply (proj1 (resolved_typed G (v_objs v) (final_names v) Or (World objs' matches) So)); eauto.
    - right. split; auto. exists l. rewrite Nl in Q2. cbn in Q2. injection Q2 as <-. auto. }
  split; constructor.
  - rewrite H4. apply R.
  - rewrite H4, <- (rd_keys _ _ R). clear - F. induction F as [|a b l l' [E _]]; cbn; congruence.
  - intros c I. destruct (Fit c I) as (f & f' & E & E' & Q1 & Q2 & Fi & Fz). exists f'. split; auto. split.
    + destruct Fi as [V|N]; [left|right; auto]. apply (proj1 (vt_vt0 (World objs' matches))); auto. intros. eapply resolved_link; eauto.
    + intros g Eg. destruct (Fz g Eg) as [Z1 Z2]. split; [congruence|]. rewrite <- Z2. eapply forget_resolve; eauto.
  - intros c I. destruct (Fit c I) as (f & f' & E & E' & Q1 & Q2 & Fi & Fz). eauto.
  - intros k f' Ek. destruct (assoc_forall2_r Qf _ _ _ _ F' Ek) as (f & E & Q1 & Q2). intros l a p n tgt Hr.
    destruct (resolved_refs G (v_objs v) (final_names v) Or _ _ _ _ _ _ _ Q2 Hr) as (a0 & t0 & o & ob1 & _ & -> & _ & (D1 & D2 & D3) & _).
    destruct S as [_ S]. destruct (S _ _ D2) as (ob2 & E2 & [K1 K2 K3 K4]).
    assert (L : o_pkg ob1 = p /\ o_name ob1 = n).
    { unfold entry in D1. apply t_find_in in D1. unfold p_symbols in D1. cbn in D1. apply in_app_or in D1 as [D1|D1].
      - destruct (nth_error (v_pkgs v) p) as [d|] eqn:Ep.
        + rewrite (nth_error_nth _ _ _ Ep) in D1. destruct (of_entries _ O _ _ _ _ Ep D1) as (ob3 & E3 & X1 & X2).
          rewrite D2 in E3. injection E3 as <-. auto.
        + apply nth_error_None in Ep. rewrite nth_overflow in D1 by auto. destruct D1.
      - destruct (no_stab _ (of_names _ O) _ _ D1) as [_ Nn]. destruct (Nn o eq_refl). }
    destruct L as [L1 L2]. destruct a as [b|]; [|destruct (resolved_type _ _ _ Or _ _ _ _ _ _ Q2 Hr eq_refl)].
    exists o, ob2, b. split; auto. split; auto. split; [congruence|]. split; [congruence|]. split; auto.
    eapply fits_ref_mono; eauto. split; eauto.
Qed.

Lemma settled_mono objs objs' ob : same_heads objs objs' -> settled objs ob -> settled objs' ob.
Proof.
  intros S [A B]. assert (So := heads_objects _ _ S). constructor.
  - intros c I. destruct (A c I) as (f & E & [V|N]); exists f; (split; [auto|]); [left|right; auto]. revert V. generalize (snd f) (c_typ c).
    assert (M : (forall a v, vt G (World objs matches) a v -> vt G (World objs' matches) a v) /\
                (forall cs d, tup_fields G (World objs matches) cs d -> tup_fields G (World objs' matches) cs d)).
    { apply vt_all; intros.
      - apply vt_lit.
      - apply vt_sign; auto.
      - apply vt_arr; auto.
      - eapply vt_tup; eauto.
      - destruct (So _ _ H) as (ob' & E' & Et). eapply vt_rec; eauto. unfold fits_record in *. rewrite Et. auto.
      - destruct (So _ _ H) as (ob' & E' & Et). eapply vt_union; eauto. unfold fits_union in *. rewrite Et. auto.
      - constructor.
      - apply tf_value; auto.
      - apply tf_null; auto. }
    intros x a. apply M.
  - intros k f E l a p n tgt Hr. destruct (B k f E _ _ _ _ _ Hr) as (o & ob1 & b & -> & O & P1 & P2 & -> & F).
    destruct S as [_ S]. destruct (S _ _ O) as (ob2 & E2 & [K1 K2 K3 K4]). exists o, ob2, b. repeat (split; auto; try congruence).
    eapply fits_ref_mono; eauto. split; eauto.
Qed.
Lemma change_heads objs o ob ob' : nth_error objs o = Some ob -> same_head ob ob' -> same_heads objs (change objs o (fun _ => ob')).
Proof.
  intros E H. split; [apply change_length|]. intros i x Ei. destruct (Nat.eq_dec o i) as [<-|N].
  - rewrite change_same, E. rewrite E in Ei. injection Ei as <-. cbn. eauto.
  - rewrite change_other by auto. exists x. split; auto. constructor; auto.
Qed.
Lemma fine_change v o ob ob' : objects_fine v -> nth_error (v_objs v) o = Some ob -> same_head ob ob' ->
  ready (change (v_objs v) o (fun _ => ob')) ob' -> objects_fine (change_object o (fun _ => ob') v).
Proof.
  intros [A B C D] E H R. assert (S := change_heads _ _ _ _ E H). constructor; cbn; auto.
  - eapply names_grow; eauto; cbn; auto using keeps_refl. rewrite change_length. auto.
  - intros i x Ei. destruct (Nat.eq_dec o i) as [<-|N].
    + rewrite change_same, E in Ei. cbn in Ei. injection Ei as <-. destruct (C _ _ E) as [_ L]. split.
      * destruct R as [R1 R2 R3]. constructor; auto. intros c f I Ef. destruct (R3 c I) as (f' & E' & [V|(_ & Nl)] & _); rewrite Ef in E'; injection E' as <-; auto.
      * destruct H as [H1 H2 H3 H4]. unfold listed in *. rewrite H1, H2. auto.
    + rewrite change_other in Ei by auto. destruct (C _ _ Ei). split; auto. eapply object_mono; eauto. apply heads_objects. auto.
  - intros q d k i Eq I. destruct (D _ _ _ _ Eq I) as (x & Ex & X1 & X2). destruct S as [_ S]. destruct (S _ _ Ex) as (y & Ey & [Y1 Y2 Y3 Y4]).
    exists y. split; auto. split; congruence.
Qed.

Lemma references os v ok v' ms : types_ok matches G -> objects_fine v -> (forall o ob, nth_error (v_objs v) o = Some ob -> ready (v_objs v) ob) ->
  resolve_references os v ok = Ok (true, v', ms) ->
  objects_fine v' /\ tabled v v' /\ same_heads (v_objs v) (v_objs v') /\ v_secs v' = v_secs v /\ v_pkgs v' = v_pkgs v /\
  (forall o ob, nth_error (v_objs v') o = Some ob -> ready (v_objs v') ob) /\
  (forall o ob, In o os -> nth_error (v_objs v') o = Some ob -> settled (v_objs v') ob) /\
  (forall o ob, nth_error (v_objs v) o = Some ob -> settled (v_objs v) ob -> exists ob', nth_error (v_objs v') o = Some ob' /\ settled (v_objs v') ob').
Proof.
  intros Ty. revert v ok v' ms. induction os as [|o os IH]; cbn [resolve_references]; intros v ok v' ms O R H.
  - injection H as -> <- <-. split; auto. split; auto using tabled_refl. split; auto using heads_refl. split; auto. split; auto. split; auto. split; [|eauto].
    intros o ob [].
  - destruct (nth_error (v_objs v) o) as [ob|] eqn:E; [|discriminate]. rewrite (of_types _ O) in H.
    destruct (resolve_object G (v_objs v) (final_names v) ob) as [ob1|e| |] eqn:Re; try discriminate.
    + assert (Hd : same_head ob ob1) by (eapply resolve_fields; eauto).
      assert (S1 := change_heads _ _ _ _ E Hd).
      destruct (resolve_settles v ob ob1 (change (v_objs v) o (fun _ => ob1)) Ty O (R _ _ E) Re S1) as [Rd Se].
      assert (O1 := fine_change _ _ _ _ O E Hd Rd).
      apply IH in H as (O2 & T2 & S2 & X2 & P2 & R2 & D2 & K2); auto.
      * assert (Pres : forall i x, nth_error (v_objs v) i = Some x -> settled (v_objs v) x -> exists x', nth_error (v_objs v') i = Some x' /\ settled (v_objs v') x').
        { intros i x Ei Sx. destruct (Nat.eq_dec o i) as [<-|N].
          - destruct (K2 o ob1) as (x' & E' & X'); eauto. cbn. rewrite change_same, E. auto.
          - apply (K2 i x); [cbn; rewrite change_other by auto; auto|]. cbn. eapply settled_mono; eauto. }
        split; auto. split; [eapply tabled_trans; [apply tabled_same|exact T2]; reflexivity|]. split; [eapply heads_trans; eauto|]. split; auto. split; auto. split; auto. split; auto.
        intros i x [<-|I] Ei; eauto. destruct (K2 o ob1) as (x' & E' & X'); [cbn; rewrite change_same, E; auto|exact Se|]. congruence.
      * intros i x Ei. cbn in Ei. destruct (Nat.eq_dec o i) as [<-|N].
        -- rewrite change_same, E in Ei. cbn in Ei. injection Ei as <-. exact Rd.
        -- rewrite change_other in Ei by auto. cbn. eapply ready_mono; eauto.
    + apply bind_ok in H as ([[ok2 v2] ms2] & E2 & H). injection H as -> <- <-. exfalso. clear - E2.
      revert v ms2 E2. induction os as [|o os IH]; cbn [resolve_references]; intros v ms2 E2; [discriminate|].
      destruct (nth_error (v_objs v) o); [|discriminate]. destruct (resolve_object _ _ _ _); try discriminate; eauto.
      apply bind_ok in E2 as ([[ok3 v3] ms3] & E3 & E2). injection E2 as -> <- <-. eauto.
Qed.

(** All objects are visited. *)
Lemma insert_entry_in x y d : In x (insert_entry y d) <-> x = y \/ In x d.
Proof. induction d as [|z d IH]; cbn [insert_entry]; [cbn; intuition|]. destruct (SourceMan.text_leb _ _); cbn; rewrite ?IH; cbn; intuition. Qed.
Lemma table_values_in x d : In x (table_values d) <-> In x d.
Proof. induction d as [|y d IH]; cbn; [tauto|]. rewrite insert_entry_in. fold (table_values d). rewrite IH. intuition. Qed.
Lemma all_listed v o ob : objects_fine v -> nth_error (v_objs v) o = Some ob -> In o (all_objects v).
Proof.
  intros O E. destruct (of_all _ O _ _ E) as [_ (d & Ed & I)].
  destruct (no_named _ (of_names _ O) (o_pkg ob)) as (k & Ik). { apply nth_error_Some. congruence. }
  unfold all_objects. apply in_flat_map. exists (N_obj o). split; [|cbn; auto].
  unfold all_values. apply in_flat_map. exists (o_pkg ob). split.
  - unfold packages. apply in_flat_map. exists (k, N_pkg (o_pkg ob)). split; [apply table_values_in; auto|cbn; auto].
  - apply in_map_iff. exists (o_name ob, N_obj o). split; auto. apply table_values_in. rewrite (nth_error_nth _ _ _ Ed). auto.
Qed.
Lemma complete_ready v : objects_fine v -> all_complete G v -> forall o ob, nth_error (v_objs v) o = Some ob -> ready (v_objs v) ob.
Proof.
  intros O C o ob E. destruct (of_all _ O _ _ E) as [[A B F] _]. constructor; auto. intros c I.
  destruct (C _ _ E c I) as [(f & Ef & Ff) Fz]. exists f. split; auto. split; auto. intros g Eg. apply Fz in Eg. rewrite Ef in Eg. injection Eg as <-. auto.
Qed.
End OBJECTS.
End RUN.

(** ** Checks *)
Section ACCEPTED.
Import Checks ChecksProofs.
Variable W : world.
Variable G : types.
(** Nothing is wrong here: the check holds, or it is only a warning. *)
Definition fine_site (s : site) : Prop := outcome W s Holds \/ (outcome W s Fails /\ ck_sev (s_check s) = Sev_warning).
Lemma seq_true {A} (r : run A) (k : A -> run bool) b : snd (seq r k) = Returned b -> exists a, snd r = Returned a /\ snd (k a) = Returned b.
Proof. destruct r as [ms [a| |]]; cbn; try discriminate. destruct (k a) as [ms' e] eqn:E. cbn. intros ->. exists a. rewrite E. auto. Qed.
Lemma perform_fine c l fs : snd (perform W c l fs) = Returned true -> fine_site (Site c l fs).
Proof.
  unfold perform. destruct (evaluate W (Some fs) (ck_expr c)) as [v|e| |] eqn:E; try discriminate.
  - destruct (v_val v) as [[p a]|] eqn:Ev.
    + destruct p as [| | |[]| | | |]; try discriminate.
      * intros _. left. eapply out_true; eauto.
      * destruct (get_real_location c l fs); [|discriminate]. destruct (ck_sev c) eqn:Sv; try discriminate. intros _. right. split; auto. eapply out_false; eauto.
    + destruct (get_real_location c l fs); discriminate.
  - destruct (internal (snd e)); discriminate.
Qed.
Lemma list_fine cs l fs ok : snd (perform_list W cs l fs ok) = Returned true -> ok = true /\ forall c, In c cs -> fine_site (Site c l fs).
Proof.
  revert ok. induction cs as [|c cs IH]; intros ok H; cbn [perform_list] in H.
  - injection H as ->. split; auto. intros c [].
  - apply seq_true in H as (b & H1 & H2). apply IH in H2 as [A B]. apply Bool.andb_true_iff in A as [-> ->].
    split; auto. intros c' [<-|I]; auto. apply perform_fine. auto.
Qed.
Lemma value_fine a : forall v, snd (perform_type_checks W G a v) = Returned true -> forall s, In s (value_sites G a v) -> fine_site s.
Proof.
  induction a; intros v; cbn; try (intros _ s []; fail).
  - destruct v; cbn; try (intros _ s []; fail); try discriminate. change (nth_error (tups G) u) with (tup G u).
    destruct (tup G u) as [ut|]; [|discriminate]. intros H s I. apply in_map_iff in I as (c & <- & I). apply list_fine in H as [_ H]. auto.
  - destruct v; try (intros _ s []; fail); try discriminate. intros H. induction vs as [|x vs IH]; cbn; [intros s []|].
    apply seq_true in H as (b & H1 & H2). destruct b; [|discriminate]. intros s I. apply in_app_or in I as [I|I]; eauto.
Qed.
Lemma components_fine cs fs ok : snd (component_checks W G cs fs ok) = Returned true ->
  ok = true /\ forall s, In s (flat_map (component_sites G fs) cs) -> fine_site s.
Proof.
  revert ok. induction cs as [|c cs IH]; intros ok H; cbn [component_checks] in H.
  - injection H as ->. split; auto. intros s [].
  - destruct (assoc (c_name c) fs) as [v|] eqn:E; [|discriminate]. apply seq_true in H as (b & H1 & H2). apply IH in H2 as [A B].
    apply Bool.andb_true_iff in A as [-> ->]. split; auto. intros s I. cbn in I. apply in_app_or in I as [I|I]; auto.
    unfold component_sites in I. rewrite E in I. eapply value_fine; eauto.
Qed.
Lemma object_fine o : snd (perform_checks W G o) = Returned true -> forall s, In s (object_sites G o) -> fine_site s.
Proof.
  unfold perform_checks. intros H. apply seq_true in H as (ok & H1 & H2). apply list_fine in H2 as [-> B]. apply components_fine in H1 as [_ A].
  intros s I. unfold object_sites in I. apply in_app_or in I as [I|I]; auto. unfold record_sites in I. apply in_map_iff in I as (c & <- & I). auto.
Qed.
Lemma all_fine os ok : snd (perform_all W G os ok) = Returned true ->
  ok = true /\ forall o s, In o os -> In s (object_sites G o) -> fine_site s.
Proof.
  revert ok. induction os as [|o os IH]; intros ok H; cbn [perform_all] in H.
  - injection H as ->. split; auto. intros o s [].
  - destruct (perform_checks W G o) as [ms [r| |]] eqn:E; [| |discriminate].
    + apply seq_true in H as (u & _ & H). apply IH in H as [A B]. apply Bool.andb_true_iff in A as [-> ->]. split; auto.
      intros o' s [<-|I] J; eauto. eapply object_fine; eauto. rewrite E. auto.
    + apply seq_true in H as (u & _ & H). apply IH in H as [A B]. discriminate.
Qed.
End ACCEPTED.
