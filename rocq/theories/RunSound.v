(** The symbol table of an accepted run is what the files declare. *)
From Coq Require Import Permutation Relations Sorted.
From Verif Require Import Base Lexer SymTab Ast Eval Typing TypesProofs ParserBase ParserExpr ParserProofs ExprSyntax ParserValue ExprTyping
  ValueSyntax ValueParserSound ValueTyping Lint ParserDecl ParserFile Resolve Growth DeclInv DeclRsl DeclTrlc DeclFrame DeclSyntax DeclSound Process ProcessInv RunSyntax RunGraph.
From Verif Require SourceMan SourceManProofs Checks.
Import SourceMan (fkind, RSL, TRLC).
From Coq Require Import ZifyBool ZifyNat ZifyN.
Open Scope Z_scope.

(** ** References *)
Lemma bare_forget v : bare v = forget v. Proof. reflexivity. Qed.
Lemma bare_resolve G objs N ob ob' : resolve_object G objs N ob = Ok ob' -> bare_object ob' = bare_object ob.
Proof.
  intros H. apply resolve_fields in H as [[A B C D] F]. unfold bare_object. rewrite A, B, C, D. f_equal.
  clear - F. induction F as [|x y l l' (E1 & E2 & E3)]; cbn; auto. rewrite E1, E2, (forget_resolve _ _ _ _ _ E3 : bare _ = bare _), IHF. auto.
Qed.
Lemma bare_change objs o ob ob' : nth_error objs o = Some ob -> bare_object ob' = bare_object ob -> map bare_object (change objs o (fun _ => ob')) = map bare_object objs.
Proof.
  revert o. induction objs as [|x l IH]; intros [|o] E H; cbn in *; try discriminate.
  - injection E as ->. rewrite H. auto.
  - rewrite IH; auto.
Qed.
Lemma linked_refl v : linked_env v v. Proof. repeat apply conj; auto. Qed.
Lemma linked_trans a b c : linked_env a b -> linked_env b c -> linked_env a c.
Proof. intros (A1 & A2 & A3 & A4 & A5) (B1 & B2 & B3 & B4 & B5). repeat apply conj; congruence. Qed.
Lemma references_linked os v ok ok' v' ms : resolve_references os v ok = Ok (ok', v', ms) -> linked_env v v'.
Proof.
  revert v ok ok' v' ms. induction os as [|o os IH]; cbn [resolve_references]; intros v ok ok' v' ms H.
  - injection H as <- <- <-. apply linked_refl.
  - destruct (nth_error (v_objs v) o) as [ob|] eqn:E; [|discriminate].
    destruct (resolve_object _ _ _ _) as [ob'|e| |] eqn:R; try discriminate.
    + apply IH in H. eapply linked_trans; [|exact H]. repeat apply conj; auto. cbn. eapply bare_change; eauto using bare_resolve.
    + apply bind_ok in H as ([[ok2 v2] ms2] & E2 & H). injection H as <- <- <-. eauto.
Qed.

(** ** One file *)
Lemma end_ok file (ok : bool) s b s' : (let# _ := dp (p_match_eof file) in dret ok) s = DOk b s' -> b = ok /\ s' = s /\ nt (at_ (s_ps s)) = None.
Proof.
  destruct s as [v c sec q]. unfold dp, dbind, dret, with_names, p_match_eof. cbn. destruct (nt (at_ q)); cbn; intros H; try discriminate. injection H as <- <-. auto.
Qed.
Section RUN.
Variable compiles : text -> bool.
Variable matches : text -> text -> option bool.
Variable pick : list SourceMan.node -> nat.
Variable lint recovery : bool.
Hypothesis regex : forall p x, compiles p = true -> matches p x <> None.

Lemma types_file_sound ns pa v v' ms : proper ns -> ready_file ns pa -> no_objects matches v -> (List.length ns <= List.length (v_pkgs v))%nat ->
  parse_types compiles matches lint recovery pa v = Ok (true, v', ms) ->
  exists name l body p ps, file_is (input_of pa) name l body /\ entry (package_table ns) (tok_text name) (N_pkg p) /\
    imports_are (package_table ns) l ps /\ type_items (pa_id pa) (pa_src pa) compiles matches p (Some ps) true v body v'.
Proof.
  intros Pr (name & l & ts & raw & p & ps & [Sy Rd Ec On Np Okp En] & Im) O L H.
  unfold parse_types, launch in H. rewrite Ec in H. destruct (parse_rsl_file _ _ _ _ _ _ _ _) as [a s1|e s1| |] eqn:E; cbn in H; try discriminate.
  injection H as -> <- <-. unfold parse_rsl_file in E. dinv E. apply end_ok in E as (<- & -> & Ne). eapply (rsl_loop_sound _ _ _ _ _ _ (CU (Some p) (tok_text name) raw (Some ps)) p (Some ps) eq_refl eq_refl) in H as (body & v' & Ty & (q' & -> & R) & _); eauto.
  2:{ assert (p < List.length ns)%nat by (apply nth_error_Some; congruence). lia. }
  cbn in Ne.
  exists name, l, body, p, ps. split; [|split; [apply package_entry; auto|split; auto]]. exists ts. split; auto. eapply read_all; [eapply read_more; eauto|auto].
Qed.
Lemma objects_file_sound ns pa v v' ms : proper ns -> ready_file ns pa -> types_ok matches (v_types v) -> named_types v -> (List.length ns <= List.length (v_pkgs v))%nat ->
  parse_objects recovery pa v = Ok (true, v', ms) ->
  exists name l body p ps, file_is (input_of pa) name l body /\ entry (package_table ns) (tok_text name) (N_pkg p) /\
    imports_are (package_table ns) l ps /\ object_items (pa_id pa) (pa_src pa) p (Some ps) true [] v body v' /\ ready_objects matches p v'.
Proof.
  intros Pr (name & l & ts & raw & p & ps & [Sy Rd Ec On Np Okp En] & Im) O Nt L H.
  unfold parse_objects, launch in H. rewrite Ec in H. destruct (parse_trlc_file _ _ _ _ _) as [a s1|e s1| |] eqn:E; cbn in H; try discriminate.
  injection H as -> <- <-. unfold parse_trlc_file in E. dinv E.
  assert (Rdy : ready_objects matches p v). { constructor; auto. assert (p < List.length ns)%nat by (apply nth_error_Some; congruence). lia. }
  apply end_ok in E as (<- & -> & Ne).
  eapply (trlc_loop_sound _ _ compiles matches _ (CU (Some p) (tok_text name) raw (Some ps)) p (Some ps) eq_refl eq_refl) in H as (body & v' & Ty & (q' & -> & R)); eauto.
  cbn in Ne.
  exists name, l, body, p, ps. split; [|split; [apply package_entry; auto|split; auto]].
  - exists ts. split; auto. eapply read_all; [eapply read_more; eauto|auto].
  - split; auto. eapply (proj2 (items_ready _ _ _ _ _ _)); eauto.
Qed.

(** ** All files of a kind *)
Lemma types_files_sound ns l order v ok v' ms : proper ns -> (forall pa, In pa l -> ready_file ns pa /\ pa_kind pa = RSL) ->
  no_objects matches v -> (List.length ns <= List.length (v_pkgs v))%nat ->
  parse_rsl_files compiles matches lint recovery l order v ok = Ok (true, v', ms) ->
  exists pas, Forall2 (fun nd pa => find (has_node nd) l = Some pa) order pas /\
    types_of compiles matches true (package_table ns) (map input_of pas) v v'.
Proof.
  intros Pr Rd. revert v ok v' ms. induction order as [|nd order IH]; cbn [parse_rsl_files]; intros v ok v' ms O L H.
  - injection H as _ <- _. exists []. split; constructor.
  - destruct (find (has_node nd) l) as [pa|] eqn:F; [|discriminate]. pose proof (find_some _ _ F) as [Ip Hn].
    apply bind_ok in H as ([[ok1 v1] ms1] & E1 & H). apply bind_ok in H as ([[ok2 v2] ms2] & E2 & H). injection H as -> <- <-.
    assert (ok && ok1 = true). { clear - E2. revert v1 ms2 E2. generalize (ok && ok1). induction order as [|nd order IH]; cbn [parse_rsl_files]; intros b v ms H; [injection H; auto|].
      destruct (find _ _); [|discriminate]. apply bind_ok in H as ([[ok1' v1'] ms1] & E1 & H). apply bind_ok in H as ([[ok2' v2'] ms2] & E2 & H). injection H as -> <- <-.
      apply IH in E2. apply Bool.andb_true_iff in E2 as [-> _]. auto. }
    apply Bool.andb_true_iff in H as [_ ->]. destruct (Rd _ Ip) as [Rp K].
    assert (X : no_objects matches v1 /\ tabled v v1). { destruct Rp as (name & im & ts & raw & p & ps & [_ _ Ec _ _ _ _] & _). eapply types_file in E1; eauto. rewrite Ec. reflexivity. }
    destruct X as [O1 T1]. eapply types_file_sound in E1 as (name & im & body & p & ps & Fi & En & Im & Ty); eauto.
    apply IH in E2 as (pas & F2 & Ts); auto; [|rewrite (tb_pkgs _ _ T1); auto].
    exists (pa :: pas). split; [constructor; auto|]. cbn [map]. eapply types_more; eauto.
Qed.
Lemma objects_files_sound ns l v ok v' ms : proper ns -> (forall pa, In pa l -> ready_file ns pa /\ pa_kind pa = TRLC) ->
  types_ok matches (v_types v) -> named_types v -> (List.length ns <= List.length (v_pkgs v))%nat ->
  parse_trlc_files recovery l v ok = Ok (true, v', ms) ->
  objects_of true (package_table ns) (map input_of l) v v'.
Proof.
  intros Pr. revert v ok v' ms. induction l as [|pa l IH]; cbn [parse_trlc_files]; intros v ok v' ms Rd O Nt L H.
  - injection H as _ <- _. constructor.
  - apply bind_ok in H as ([[ok1 v1] ms1] & E1 & H). apply bind_ok in H as ([[ok2 v2] ms2] & E2 & H). injection H as -> <- <-.
    assert (ok && ok1 = true). { clear - E2. revert v1 ms2 E2. generalize (ok && ok1). induction l as [|nd order IH]; cbn [parse_trlc_files]; intros b v ms H; [injection H; auto|].
      apply bind_ok in H as ([[ok1' v1'] ms1] & E1 & H). apply bind_ok in H as ([[ok2' v2'] ms2] & E2 & H). injection H as -> <- <-.
      apply IH in E2. apply Bool.andb_true_iff in E2 as [-> _]. auto. }
    apply Bool.andb_true_iff in H as [_ ->]. destruct (Rd pa (or_introl eq_refl)) as [Rp K].
    assert (T1 : tabled v v1). { unfold parse_objects, launch in E1. pose proof (tabled_trlc (pa_id pa) (pa_src pa) (fuel_for pa) recovery (St v (pa_cu pa) [] (PS (pa_pos pa) []))) as T.
      destruct (parse_trlc_file _ _ _ _ _) as [a s1|e s1| |]; cbn in E1; try discriminate; injection E1 as -> <- <-; apply T. }
    eapply objects_file_sound in E1 as (name & im & body & p & ps & Fi & En & Im & Ob & [O1 Nt1 L1]); eauto.
    apply IH in E2; auto; [|intros; apply Rd; cbn; auto|rewrite (tb_pkgs _ _ T1); auto].
    cbn [map]. eapply objects_more; eauto.
Qed.
End RUN.

(** ** Which files are used *)
(** The tokens before an error *)
Fixpoint lead (l : list ParserBase.item) : list token :=
  match l with ITok tk :: l' => if not_comment tk then tk :: lead l' else lead l' | _ => [] end.
Lemma lead_app all more : lead (map ITok all ++ more) = filter not_comment all ++ lead more.
Proof. induction all as [|tk all IH]; cbn; auto. destruct (not_comment tk); cbn; rewrite IH; auto. Qed.
Lemma imports_agree l1 t1 l2 t2 x y : imports_part l1 t1 -> imports_part l2 t2 -> t1 ++ x = t2 ++ y ->
  (forall tk y', y = tk :: y' -> ~ word "import" tk) -> exists l3, l2 = l1 ++ l3.
Proof.
  intros A. revert l2 t2. induction A as [|kw tk l1 t1 W K A IH]; intros l2 t2 B E Ny; [exists l2; auto|].
  inversion B as [|kw' tk' l2' t2' W' K' B']; subst; cbn in E.
  - destruct (Ny kw _ (eq_sym E) W).
  - injection E as -> -> E. destruct (IH _ _ B' E Ny) as (l3 & ->). exists l3. auto.
Qed.
Lemma starts_agree f name l ts q name' l' : preamble_part name l ts -> has_read (i_src f) ts q -> (forall tk, nt q = Some tk -> ~ word "import" tk) ->
  starts f name' l' -> name' = name /\ exists l3, l = l' ++ l3.
Proof.
  intros Pp (li & all & Ei & Et & El & Ec) Ne (ts' & Pp' & li' & all' & more & Ei' & El' & Et').
  rewrite Ei in Ei'. injection Ei' as <-.
  assert (L1 : lead li = ts ++ match nt q with Some tk => tk :: lead (rest q) | None => [] end).
  { rewrite El, lead_app, <- Et. f_equal. destruct (nt q); auto. cbn. rewrite Ec. auto. }
  assert (L2 : lead li = ts' ++ lead more) by (rewrite El', lead_app, <- Et'; auto).
  rewrite L1 in L2. clear - Pp Pp' L2 Ne. destruct Pp as [kw name l t0 W K A D]. destruct Pp' as [kw' name' l' t0' W' K' A' D']. cbn in L2. injection L2 as -> -> L2. split; auto.
  eapply imports_agree; eauto. intros tk y' E. destruct (nt q); [injection E as <- _; auto|discriminate].
Qed.
Lemma unreadable_starts f name l : (exists e, unreadable f e) -> ~ starts f name l.
Proof.
  intros (e & cs & more & E & F) (ts & Pp & li & all & more' & E' & El & Et). rewrite E in E'. injection E' as <-.
  apply (f_equal lead) in El. rewrite !lead_app, F, <- Et in El. destruct Pp; discriminate.
Qed.
Section FILE.
Variable ns : list text.
Variable pa : parser.
Hypothesis ready : ready_file ns pa.
Lemma ready_declares P : declares (input_of pa) P <-> SourceManProofs.declares (file_of pa) P.
Proof.
  destruct ready as (name & l & ts & raw & p & ps & [Sy Rd Ec On Np Okp En] & Im).
  unfold SourceManProofs.declares, file_of, parsed_of. cbn. rewrite Ec. cbn. split.
  - intros (name' & l' & St & <-). eapply starts_agree in St as (-> & _); eauto.
  - intros (i & c & E). injection E as <- _ _. exists name, l. split; auto. exists ts. split; auto. eapply read_begins; eauto.
Qed.
Lemma ready_imports Q : imports_name (input_of pa) Q <-> SourceManProofs.imports_pkg (file_of pa) Q.
Proof.
  destruct ready as (name & l & ts & raw & p & ps & [Sy Rd Ec On Np Okp En] & Im).
  unfold SourceManProofs.imports_pkg, file_of, parsed_of. cbn. rewrite Ec. cbn. split.
  - intros (name' & l' & tk & St & I & <-). eapply starts_agree in St as (-> & l3 & El); eauto. do 3 eexists. split; [reflexivity|].
    apply On. apply in_map. rewrite El. apply in_or_app. auto.
  - intros (n & i & c & E & I). injection E as <- <- <-. apply On in I. apply in_map_iff in I as (tk & E & I). exists name, l, tk. split; auto. exists ts. split; auto. eapply read_begins; eauto.
Qed.
Lemma ready_pkg P : SourceMan.p_pkg (parsed_of pa) = Some P <-> declares (input_of pa) P.
Proof.
  rewrite ready_declares. destruct ready as (name & l & ts & raw & p & ps & [Sy Rd Ec On Np Okp En] & Im).
  unfold SourceManProofs.declares, file_of, parsed_of. cbn. rewrite Ec. cbn. split; [intros E; injection E as <-; eauto|intros (i & c & E); injection E as <- _ _; auto].
Qed.
Lemma ready_in : exists P, declares (input_of pa) P /\ In P ns.
Proof.
  destruct ready as (name & l & ts & raw & p & ps & [Sy Rd Ec On Np Okp En] & Im). exists (tok_text name). split.
  - exists name, l. split; auto. exists ts. split; auto. eapply read_begins; eauto.
  - eapply nth_error_In; eauto.
Qed.
End FILE.

Section GRAPH.
Variable fs : list input_file.
Variable gr : graph_result.
Variables rns more : list text.
Hypothesis bt : built fs gr rns more.
Let rsl := map file_of (gr_rsl gr).
Let trlc := map file_of (gr_trlc gr).
Lemma kinds_rsl : Forall (fun f => SourceMan.f_kind f = RSL) rsl.
Proof. apply Forall_forall. intros f I. apply in_map_iff in I as (pa & <- & I). apply (bt_rsl _ _ _ _ bt) in I as [_ K]. exact K. Qed.
Lemma kinds_trlc : Forall (fun f => SourceMan.f_kind f = TRLC) trlc.
Proof. apply Forall_forall. intros f I. apply in_map_iff in I as (pa & <- & I). apply (bt_trlc _ _ _ _ bt) in I as [_ K]. exact K. Qed.
Lemma ready_any pa : In pa (gr_rsl gr ++ gr_trlc gr) -> exists ns, ready_file ns pa.
Proof. intros I. apply in_app_or in I as [I|I]; [apply (bt_rsl _ _ _ _ bt) in I as [R _]|apply (bt_trlc _ _ _ _ bt) in I as [R _]]; eauto. Qed.
Lemma fine_files : SourceManProofs.all_fine rsl trlc.
Proof.
  intros p I. unfold rsl, trlc in I. rewrite <- (bt_files _ _ _ _ bt), (bt_parsed _ _ _ _ bt) in I. apply in_map_iff in I as (pa & <- & I).
  apply ready_any in I as (ns & name & l & ts & raw & p & ps & [_ _ _ _ _ Okp _] & _). exact Okp.
Qed.
Lemma file_kind pa : In pa (gr_rsl gr ++ gr_trlc gr) -> In pa (match pa_kind pa with RSL => gr_rsl gr | TRLC => gr_trlc gr end).
Proof. intros I. apply in_app_or in I as [I|I]; [destruct (bt_rsl _ _ _ _ bt _ I) as [_ ->]|destruct (bt_trlc _ _ _ _ bt _ I) as [_ ->]]; auto. Qed.
Lemma used_in pa : In pa (gr_rsl gr ++ gr_trlc gr) -> In (input_of pa) fs.
Proof.
  intros I. destruct (bt_split _ _ _ _ bt) as (bad & Pm & _). eapply Permutation_in; [symmetry; exact Pm|]. apply in_or_app. right. apply in_map. auto.
Qed.
Lemma used_from f name l : In f fs -> starts f name l -> exists pa, In pa (gr_rsl gr ++ gr_trlc gr) /\ input_of pa = f.
Proof.
  intros I St. destruct (bt_split _ _ _ _ bt) as (bad & Pm & U). eapply Permutation_in in I; [|exact Pm]. apply in_app_or in I as [I|I].
  - apply U in I. destruct (unreadable_starts _ _ _ I St).
  - apply in_map_iff in I as (pa & <- & I). eauto.
Qed.
Lemma declares_from f P : In f fs -> declares f P -> exists pa, In pa (gr_rsl gr ++ gr_trlc gr) /\ input_of pa = f /\ SourceManProofs.declares (file_of pa) P.
Proof.
  intros I D. assert (D0 := D). destruct D as (name & l & St & E). destruct (used_from _ _ _ I St) as (pa & Ip & <-). exists pa. split; auto. split; auto.
  destruct (ready_any _ Ip) as (ns & R). apply (ready_declares _ _ R). auto.
Qed.
Lemma file_in pa : In pa (gr_rsl gr ++ gr_trlc gr) -> In (file_of pa) (match pa_kind pa with RSL => rsl | TRLC => trlc end).
Proof. intros I. apply file_kind in I. destruct (pa_kind pa); apply in_map; auto. Qed.
Lemma needs_same a b : needs fs a b <-> SourceManProofs.needs rsl trlc a b.
Proof.
  assert (Fk : forall pa k, In pa (gr_rsl gr ++ gr_trlc gr) -> i_kind (input_of pa) = k -> In (file_of pa) (match k with RSL => rsl | TRLC => trlc end)).
  { intros pa k I <-. apply file_in. auto. }
  assert (Fa : forall pa, In pa (gr_rsl gr ++ gr_trlc gr) -> In (file_of pa) (rsl ++ trlc)).
  { intros pa I. apply in_or_app. apply file_in in I. destruct (pa_kind pa); auto. }
  assert (Im : forall pa Q, In pa (gr_rsl gr ++ gr_trlc gr) -> imports_name (input_of pa) Q <-> SourceManProofs.imports_pkg (file_of pa) Q).
  { intros pa Q I. destruct (ready_any _ I) as (ns & R). apply (ready_imports _ _ R). }
  assert (De : forall pa Q, In pa (gr_rsl gr ++ gr_trlc gr) -> declares (input_of pa) Q <-> SourceManProofs.declares (file_of pa) Q).
  { intros pa Q I. destruct (ready_any _ I) as (ns & R). apply (ready_declares _ _ R). }
  assert (Bk : forall f, In f (rsl ++ trlc) -> exists pa, f = file_of pa /\ In pa (gr_rsl gr ++ gr_trlc gr)).
  { intros f I. unfold rsl, trlc in I. rewrite <- map_app in I. apply in_map_iff in I as (pa & <- & I). eauto. }
  assert (Kr : forall f, In f rsl -> exists pa, f = file_of pa /\ In pa (gr_rsl gr ++ gr_trlc gr) /\ i_kind (input_of pa) = RSL).
  { intros f I. apply in_map_iff in I as (pa & <- & I). exists pa. split; auto. split; [apply in_or_app; auto|]. apply (bt_rsl _ _ _ _ bt) in I as [_ K]. exact K. }
  assert (Kt : forall f, In f trlc -> exists pa, f = file_of pa /\ In pa (gr_rsl gr ++ gr_trlc gr) /\ i_kind (input_of pa) = TRLC).
  { intros f I. apply in_map_iff in I as (pa & <- & I). exists pa. split; auto. split; [apply in_or_app; auto|]. apply (bt_trlc _ _ _ _ bt) in I as [_ K]. exact K. }
  split; intros H; [destruct H as [P f I D|P Q f f' I K D M I' K' D'|P Q f f' I K D M I' D']|destruct H as [P f I D|P Q f f' I D M I' D'|P Q f f' I D M I' D']].
  - apply declares_from in D as (pa & Ip & <- & D); auto. eapply SourceManProofs.needs_types; eauto.
  - apply declares_from in D as (pa & Ip & <- & D); auto. apply declares_from in D' as (pb & Ib & <- & D'); auto.
    eapply SourceManProofs.needs_rsl; [exact (Fk _ _ Ip K)|eauto|apply Im; eauto|exact (Fk _ _ Ib K')|eauto].
  - apply declares_from in D as (pa & Ip & <- & D); auto. apply declares_from in D' as (pb & Ib & <- & D'); auto.
    eapply SourceManProofs.needs_trlc; [exact (Fk _ _ Ip K)|eauto|apply Im; eauto|eauto|eauto].
  - apply Bk in I as (pa & -> & Ip). apply (needs_types fs P (input_of pa)); [apply used_in; eauto|apply De; eauto].
  - apply Kr in I as (pa & -> & Ip & K). apply Kr in I' as (pb & -> & Ib & K').
    apply (needs_rsl fs P Q (input_of pa) (input_of pb)); [apply used_in; eauto|auto|apply De; eauto|apply Im; eauto|apply used_in; eauto|auto|apply De; auto].
  - apply Kt in I as (pa & -> & Ip & K). apply Bk in I' as (pb & -> & Ib).
    apply (needs_trlc fs P Q (input_of pa) (input_of pb)); [apply used_in; eauto|auto|apply De; eauto|apply Im; eauto|apply used_in; eauto|apply De; auto].
Qed.
Lemma reach_same a b : clos_refl_trans _ (needs fs) a b <-> clos_refl_trans _ (SourceManProofs.needs rsl trlc) a b.
Proof.
  split; (induction 1 as [? ? H| |]; [apply rt_step; apply needs_same; auto|apply rt_refl|eapply rt_trans; eauto]).
Qed.
Lemma needed_same n : needed fs n <-> SourceManProofs.needed rsl trlc n.
Proof.
  split; intros (w & Pw & R); exists w; (split; [|apply reach_same; auto]).
  - destruct Pw as (f & I & Pr & K & D). apply declares_from in D as (pa & Ip & <- & D); auto. exists (file_of pa). split; [|split; [exact Pr|split; [auto|]]].
    + unfold rsl, trlc. rewrite <- map_app. apply in_map. auto.
    + symmetry. exact K.
  - destruct Pw as (f & I & Pr & D & K). unfold rsl, trlc in I. rewrite <- map_app in I. apply in_map_iff in I as (pa & <- & I).
    exists (input_of pa). split; [apply used_in; auto|]. split; [exact Pr|]. split; [symmetry; exact K|]. destruct (ready_any _ I) as (ns & Rd). apply (ready_declares _ _ Rd). auto.
Qed.
Lemma file_needed_same pa : In pa (gr_rsl gr ++ gr_trlc gr) ->
  file_needed fs (input_of pa) <-> exists P, SourceManProofs.declares (file_of pa) P /\ SourceManProofs.needed rsl trlc (P, pa_kind pa).
Proof.
  intros I. destruct (ready_any _ I) as (ns & Rd). split; intros (P & D & N); exists P; (split; [apply (ready_declares _ _ Rd); auto|apply needed_same; auto]).
Qed.
Lemma selected_needed required pa : (forall n, In n required <-> SourceManProofs.needed rsl trlc n) -> In pa (gr_rsl gr ++ gr_trlc gr) ->
  selected required pa = true <-> file_needed fs (input_of pa).
Proof.
  intros Rq I. rewrite file_needed_same by auto.
  assert (Ib : In (parsed_of pa) (SourceMan.b_files (SourceMan.build rsl trlc))).
  { unfold rsl, trlc. rewrite <- (bt_files _ _ _ _ bt), (bt_parsed _ _ _ _ bt). apply in_map. auto. }
  exact (SourceManProofs.selected_iff rsl trlc kinds_rsl kinds_trlc fine_files required (parsed_of pa) Rq Ib).
Qed.
Lemma one_file pa pb P : In pa (gr_rsl gr) -> In pb (gr_rsl gr) -> declares (input_of pa) P -> declares (input_of pb) P -> pa = pb.
Proof.
  intros Ia Ib Da Db.
  apply (ready_declares _ _ (proj1 (bt_rsl _ _ _ _ bt _ Ia))) in Da. apply (ready_declares _ _ (proj1 (bt_rsl _ _ _ _ bt _ Ib))) in Db.
  apply In_nth_error in Ia as (i & Ei), Ib as (j & Ej).
  assert (i = j). { eapply (SourceManProofs.rsl_packages_distinct rsl trlc kinds_rsl fine_files i j (file_of pa) (file_of pb)); eauto; apply map_nth_error; auto. }
  congruence.
Qed.
Lemma distinct_files : NoDup (gr_rsl gr).
Proof.
  apply NoDup_nth_error. intros i j L E. destruct (nth_error (gr_rsl gr) i) as [pa|] eqn:Ei; [|apply nth_error_None in Ei; lia]. symmetry in E.
  destruct (ready_in _ _ (proj1 (bt_rsl _ _ _ _ bt _ (nth_error_In _ _ Ei)))) as (P & D & _).
  apply (ready_declares _ _ (proj1 (bt_rsl _ _ _ _ bt _ (nth_error_In _ _ Ei)))) in D.
  eapply (SourceManProofs.rsl_packages_distinct rsl trlc kinds_rsl fine_files i j (file_of pa) (file_of pa)); eauto; apply map_nth_error; auto.
Qed.
End GRAPH.

Lemma node_ready ns nd pa : ready_file ns pa -> has_node nd pa = true <-> declares (input_of pa) (fst nd) /\ pa_kind pa = snd nd.
Proof.
  intros Rd. rewrite <- (ready_pkg _ _ Rd). unfold has_node, node_of. destruct Rd as (name & l & ts & raw & p & ps & [Sy R Ec On Np Okp En] & Im).
  unfold parsed_of. rewrite Ec. cbn. rewrite SourceManProofs.node_eqb_eq. destruct nd as [P k]. cbn. split.
  - intros E. injection E as <- <-. auto.
  - intros [E <-]. injection E as <-. auto.
Qed.
Lemma split_perm {A} (f : A -> bool) l : Permutation l (filter (fun x => negb (f x)) l ++ filter f l).
Proof.
  induction l as [|x l IH]; cbn; auto. destruct (f x); cbn; auto. rewrite IH at 1. apply Permutation_middle.
Qed.
Lemma filter_sorted {A B} (R : B -> B -> Prop) (g : A -> B) f l : StronglySorted R (map g l) -> StronglySorted R (map g (filter f l)).
Proof.
  induction l as [|x l IH]; cbn; intros H; auto. inversion H as [|? ? Sl Fl]; subst. destruct (f x); cbn; auto. constructor; auto.
  rewrite Forall_forall in *. intros y I. apply Fl. apply in_map_iff in I as (z & <- & I). apply filter_In in I as [I _]. apply in_map. auto.
Qed.
Section MAIN.
Variable compiles : text -> bool.
Variable matches : text -> text -> option bool.
Variable pick : list SourceMan.node -> nat.
Variable lint recovery : bool.
Hypothesis regex : forall p x, compiles p = true -> matches p x <> None.
Lemma steps_accepted fs gr required order v1 ms1 v2 ms2 v3 ms3 : build_graph fs = Ok gr ->
  SourceMan.closure pick (Datatypes.S (List.length (SourceMan.gdom (SourceMan.b_graph (gr_state gr))))) (SourceMan.b_graph (gr_state gr))
    (SourceMan.initial_work (gr_state gr)) [] = Some required ->
  SourceMan.waves (Datatypes.S (List.length (SourceMan.rsl_work (gr_state gr) required))) (SourceMan.b_graph (gr_state gr))
    (SourceMan.rsl_work (gr_state gr) required) [] = Some (order, false) ->
  parse_rsl_files compiles matches lint recovery (gr_rsl gr) order (gr_env gr) true = Ok (true, v1, ms1) ->
  forallb pa_ok (gr_rsl gr ++ gr_trlc gr) = true ->
  parse_trlc_files recovery (filter (fun pa => pa_ok pa && selected required pa) (gr_trlc gr)) v1 true = Ok (true, v2, ms2) ->
  resolve_references (all_objects v2) v2 true = Ok (true, v3, ms3) ->
  exists bad idle rsl trlc rsl_names more, accepted compiles matches true fs v3 bad idle rsl trlc rsl_names more v1 v2.
Proof.
  intros Eg Cl Wv E1 Okp E2 E3. assert (Bl := proj1 (build_ok _ _ Eg)).
  destruct (build_refine _ _ Eg Okp) as (rns & more & bt). destruct (bt_proper _ _ _ _ bt) as [Pr Pa].
  set (rsl := map file_of (gr_rsl gr)) in *. set (trlc := map file_of (gr_trlc gr)) in *.
  assert (kr := kinds_rsl _ _ _ _ bt). assert (kt := kinds_trlc _ _ _ _ bt). assert (Fn := fine_files _ _ _ _ bt). fold rsl trlc in kr, kt, Fn.
  assert (Rq : forall n, In n required <-> SourceManProofs.needed rsl trlc n).
  { destruct (SourceManProofs.closure_needed rsl trlc kr kt Fn pick) as (rq & E & Rq). unfold SourceMan.initial_work in Cl, E.
    rewrite (bt_graph _ _ _ _ bt), (bt_files _ _ _ _ bt) in Cl. fold rsl trlc in Cl. rewrite Cl in E. injection E as <-. auto. }
  assert (Od : NoDup order /\ Permutation order (SourceMan.rsl_work (SourceMan.build rsl trlc) required) /\
    forall a n b m, order = a ++ n :: b -> SourceManProofs.needs rsl trlc n m -> In m a).
  { destruct (SourceManProofs.order_spec rsl trlc kr kt Fn required Rq) as (o & cy & E & Nd & _ & Or & Pm & _). unfold SourceMan.rsl_work in Wv, E.
    rewrite (bt_graph _ _ _ _ bt), (bt_files _ _ _ _ bt) in Wv. fold rsl trlc in Wv. rewrite Wv in E. injection E as <- <-. auto. }
  destruct Od as (Nd & Pm & Or).
  destruct (SourceManProofs.rsl_work_needed rsl trlc kr kt Fn required Rq) as [_ Wk].
  assert (Dr : forall pa, In pa (gr_rsl gr) -> ready_file rns pa) by (intros pa I; apply (bt_rsl _ _ _ _ bt); auto).
  assert (Kr : forall pa, In pa (gr_rsl gr) -> pa_kind pa = RSL) by (intros pa I; apply (bt_rsl _ _ _ _ bt); auto).
  assert (Ln : (List.length (rns ++ more) <= List.length (v_pkgs (gr_env gr)))%nat) by (rewrite (bt_env _ _ _ _ bt); cbn; rewrite map_length; auto).
  destruct (types_files _ _ _ _ regex _ _ _ _ _ _ _ (blank_decl matches _ Bl) E1) as [N1 T1].
  apply (types_files_sound _ _ _ _ regex rns) in E1 as (pas & F2 & Ts); auto using blank_decl; [|rewrite app_length in Ln; lia].
  destruct N1 as [Ob [Ty Nm]].
  assert (Fs : forall nd pa, In (nd, pa) (combine order pas) -> In pa (gr_rsl gr) /\ declares (input_of pa) (fst nd) /\ snd nd = RSL).
  { clear - F2 Dr Kr. induction F2 as [|nd pa o l F]; cbn; [intros ? ? []|]. intros nd' pa' [E|I]; auto. injection E as <- <-. apply find_some in F as [I F].
    apply (node_ready rns) in F as [D K]; auto. rewrite <- K. auto. }
  assert (Pin : forall pa, In pa pas -> exists nd, In (nd, pa) (combine order pas)).
  { clear - F2. induction F2; cbn; [intros ? []|]. intros pa [<-|I]; eauto. apply IHF2 in I as (nd & I). eauto. }
  assert (Oin : forall nd, In nd order -> exists pa, In (nd, pa) (combine order pas)).
  { clear - F2. induction F2; cbn; [intros ? []|]. intros pa [<-|I]; eauto. apply IHF2 in I as (nd & I). eauto. }
  assert (Sel : forall pa, In pa (gr_rsl gr ++ gr_trlc gr) -> selected required pa = true <-> file_needed fs (input_of pa)).
  { intros pa I. apply (selected_needed _ _ _ _ bt); auto. }
  assert (Ps : Permutation pas (filter (selected required) (gr_rsl gr))).
  { apply NoDup_Permutation.
    - clear - F2 Fs Nd. induction F2 as [|nd pa o l F F2 IH]; cbn in *; constructor; inversion Nd; subst; auto. intros I. apply H1.
      assert (X : exists nd', In (nd', pa) (combine o l)). { clear - F2 I. induction F2; cbn in *; [destruct I|]. destruct I as [<-|I]; eauto. apply IHF2 in I as (n' & I). eauto. }
      destruct X as (nd' & X). destruct (Fs nd pa) as (I1 & (n1 & l1 & S1 & E1) & K1); auto. destruct (Fs nd' pa) as (I2 & D2 & K2); auto.
      assert (nd' = nd). { apply find_some in F as [_ F]. assert (G : find (has_node nd') (gr_rsl gr) = Some pa). { clear - F2 X. induction F2; cbn in *; [destruct X|]. destruct X as [E|X]; auto. injection E as -> ->. auto. }
        apply find_some in G as [_ G]. unfold has_node in *. destruct (node_of pa); [|discriminate]. apply SourceManProofs.node_eqb_eq in F, G. congruence. }
      subst nd'. apply in_combine_l in X. auto.
    - apply NoDup_filter. apply (distinct_files _ _ _ _ bt).
    - intros pa. rewrite filter_In. split.
      + intros I. apply Pin in I as (nd & I). assert (In nd order) by (apply in_combine_l in I; auto). apply Fs in I as (I & D & K). split; auto.
        apply Sel; [apply in_or_app; auto|]. exists (fst nd). split; auto. change (i_kind (input_of pa)) with (pa_kind pa). rewrite (Kr _ I), <- K.
        apply (needed_same _ _ _ _ bt). eapply Permutation_in in H; [|exact Pm]. apply Wk in H as (_ & _ & H). destruct nd; auto.
      + intros [I S]. apply Sel in S as (P & D & S); [|apply in_or_app; auto]. change (i_kind (input_of pa)) with (pa_kind pa) in S. rewrite (Kr _ I) in S.
        assert (X : In (P, RSL) order). { eapply Permutation_in; [symmetry; exact Pm|]. apply Wk. cbn. split; auto. split; [|apply (needed_same _ _ _ _ bt); auto].
          exists (file_of pa). split; [apply in_map; auto|]. apply (ready_declares rns); auto. }
        apply Oin in X as (pb & X). assert (In pb pas) by (apply in_combine_r in X; auto). apply Fs in X as (Ib & Db & _).
        rewrite (one_file _ _ _ _ bt pa pb P); auto. }
  set (keep := fun pa => pa_ok pa && selected required pa) in *.
  assert (Kp : forall pa, In pa (gr_trlc gr) -> keep pa = selected required pa).
  { intros pa I. unfold keep. rewrite forallb_forall in Okp. rewrite (Okp pa) by (apply in_or_app; auto). auto. }
  destruct (bt_split _ _ _ _ bt) as (bad & Sp & Ub).
  exists bad, (map input_of (filter (fun pa => negb (selected required pa)) (gr_rsl gr) ++ filter (fun pa => negb (keep pa)) (gr_trlc gr))),
    (map input_of pas), (map input_of (filter keep (gr_trlc gr))), rns, more.
  assert (Ip : forall pa, In pa pas -> In pa (gr_rsl gr) /\ selected required pa = true).
  { intros pa I. eapply Permutation_in in I; [|exact Ps]. apply filter_In in I. auto. }
  constructor.
  - rewrite Sp. apply Permutation_app_head. rewrite <- !map_app. apply Permutation_map. rewrite Ps.
    rewrite (split_perm (selected required) (gr_rsl gr)) at 1. rewrite (split_perm keep (gr_trlc gr)) at 1.
    rewrite <- !app_assoc. apply Permutation_app_head. rewrite !app_assoc. apply Permutation_app_tail. apply Permutation_app_comm.
  - exact Ub.
  - intros f I Nf. apply in_map_iff in I as (pa & <- & I). apply in_app_or in I as [I|I]; apply filter_In in I as [I X]; apply Bool.negb_true_iff in X.
    + apply Sel in Nf; [congruence|apply in_or_app; auto].
    + rewrite (Kp _ I) in X. apply Sel in Nf; [congruence|apply in_or_app; auto].
  - intros f I. apply in_map_iff in I as (pa & <- & I). apply Ip in I as [I X]. split; [exact (Kr _ I)|]. apply Sel; auto. apply in_or_app; auto.
  - intros f I. apply in_map_iff in I as (pa & <- & I). apply filter_In in I as [I X]. rewrite (Kp _ I) in X. split; [apply (bt_trlc _ _ _ _ bt _ I)|]. apply Sel; auto. apply in_or_app; auto.
  - intros a f b P Q E D N. apply map_eq_app in E as (pa1 & pl & -> & <- & E). apply map_eq_cons in E as (pa & pa2 & -> & <- & <-).
    apply Forall2_app_inv_r in F2 as (o1 & o2 & Fa & Fb & ->). inversion Fb as [|nd ? o2' ? F Fb']; subst.
    apply find_some in F as [I F]. assert (Rd := Dr _ I). apply (node_ready rns) in F as [D' K]; auto. rewrite (Kr _ I) in K.
    assert (fst nd = P). { apply (ready_pkg _ _ Rd) in D, D'. congruence. }
    destruct nd as [P' k]. cbn in *. subst. apply (needs_same _ _ _ _ bt) in N. eapply Or in N; eauto.
    clear - Fa N Dr. induction Fa as [|nd pa o l F Fa IH]; [destruct N|]. destruct N as [->|N].
    + apply find_some in F as [I F]. apply (node_ready rns) in F as [F _]; auto. exists (input_of pa). cbn. auto.
    + destruct (IH N) as (g & I & D). exists g. cbn. auto.
  - apply filter_sorted. apply (bt_sorted _ _ _ _ bt).
  - intros P. split.
    + intros I. apply (bt_rns _ _ _ _ bt) in I as (pa & I & E). apply (ready_pkg rns) in E; auto. exists (input_of pa). split; [apply (used_in _ _ _ _ bt), in_or_app; auto|]. split; auto. exact (Kr _ I).
    + intros (f & I & K & D). destruct (declares_from _ _ _ _ bt _ _ I D) as (pa & Iq & <- & _). apply (file_kind _ _ _ _ bt) in Iq. cbn in K. rewrite K in Iq.
      destruct (ready_in _ _ (Dr _ Iq)) as (P' & D' & J). apply (ready_pkg _ _ (Dr _ Iq)) in D, D'. congruence.
  - intros P. split.
    + intros I. apply in_app_or in I as [I|I].
      * apply (bt_rns _ _ _ _ bt) in I as (pa & I & E). apply (ready_pkg rns) in E; auto. exists (input_of pa). split; auto. apply (used_in _ _ _ _ bt), in_or_app; auto.
      * apply (bt_more _ _ _ _ bt) in I as (pa & I & E). apply (ready_pkg _ _ (proj1 (bt_trlc _ _ _ _ bt _ I))) in E; auto. exists (input_of pa). split; auto. apply (used_in _ _ _ _ bt), in_or_app; auto.
    + intros (f & I & D). destruct (declares_from _ _ _ _ bt _ _ I D) as (pa & Iq & <- & _). apply in_app_or in Iq as [Iq|Iq].
      * destruct (ready_in _ _ (Dr _ Iq)) as (P' & D' & J). apply (ready_pkg _ _ (Dr _ Iq)) in D, D'. apply in_or_app. left. congruence.
      * assert (Rd := proj1 (bt_trlc _ _ _ _ bt _ Iq)). destruct (ready_in _ _ Rd) as (P' & D' & J). apply (ready_pkg _ _ Rd) in D, D'. congruence.
  - exact Pa.
  - intros f g P If Ig Kf Kg Df Dg.
    assert (X : forall f, In f (map input_of (filter (fun pa => negb (selected required pa)) (gr_rsl gr) ++ filter (fun pa => negb (keep pa)) (gr_trlc gr)) ++ map input_of pas) ->
      i_kind f = RSL -> exists pa, f = input_of pa /\ In pa (gr_rsl gr)).
    { intros h I K. apply in_app_or in I as [I|I]; apply in_map_iff in I as (pa & <- & I); exists pa; split; auto; [|apply Ip; auto].
      apply in_app_or in I as [I|I]; apply filter_In in I as [I _]; auto. apply (bt_trlc _ _ _ _ bt) in I as [_ I]. cbn in K. congruence. }
    apply X in If as (pa & -> & If); auto. apply X in Ig as (pb & -> & Ig); auto. f_equal. eapply (one_file _ _ _ _ bt); eauto.
  - rewrite <- (bt_env _ _ _ _ bt). auto.
  - eapply objects_files_sound in E2; eauto.
    + intros pa I. apply filter_In in I as [I _]. apply (bt_trlc _ _ _ _ bt). auto.
    + split.
      * intros k r I. apply (no_stab _ Nm) in I as [V _]. assert (X := ev_type _ _ _ _ V _ eq_refl). apply X.
      * intros d k r Id I. apply (no_pkgs _ Nm _ _ _ Id) in I as [V _]. assert (X := ev_type _ _ _ _ V _ eq_refl). apply X.
    + rewrite (tb_pkgs _ _ T1). auto.
  - eapply references_linked; eauto.
Qed.
Theorem run_accepted fs v ms : process compiles matches pick lint recovery fs = Ok (Some v, ms) ->
  exists bad idle rsl trlc rsl_names more v1 v2, accepted compiles matches true fs v bad idle rsl trlc rsl_names more v1 v2.
Proof.
  intros H. unfold Process.process in H. apply bind_ok in H as (gr & Eg & H).
  destruct (SourceMan.closure _ _ _ _ _) as [required|] eqn:Cl; [|discriminate].
  destruct (SourceMan.waves _ _ _ _) as [[order cyc]|] eqn:Wv; [|discriminate].
  apply bind_ok in H as ([[ok1 v1] ms1] & E1 & H). cbv zeta in H.
  destruct (forallb pa_ok (gr_rsl gr ++ gr_trlc gr) && ok1 && negb cyc) eqn:Oks.
  2:{ exfalso. rewrite Bool.andb_true_r in H. destruct (negb recovery) eqn:Rc; [discriminate|]. cbn [negb] in H. rewrite Bool.andb_false_r in H. cbn [bind] in H.
      apply bind_ok in H as ([[ok2 v2] ms2] & E2 & H). destruct ok2; [|discriminate]. cbn [negb] in H.
      apply bind_ok in H as ([[ok3 v3] ms3] & E3 & H). destruct ok3; discriminate. }
  apply Bool.andb_true_iff in Oks as [Oks Cy]. apply Bool.andb_true_iff in Oks as [Okp ->]. apply Bool.negb_true_iff in Cy. subst cyc.
  cbn [negb] in H. rewrite Bool.andb_false_r in H.
  apply bind_ok in H as (lm & _ & H). apply bind_ok in H as ([[ok2 v2] ms2] & E2 & H). destruct ok2; [|discriminate]. cbn [negb] in H.
  apply bind_ok in H as ([[ok3 v3] ms3] & E3 & H). destruct ok3; [|discriminate]. cbn [negb] in H.
  apply bind_ok in H as ([ok4 ms4] & E4 & H). destruct ok4; [|discriminate]. injection H as <- <-.
  destruct (steps_accepted _ _ _ _ _ _ _ _ _ _ Eg Cl Wv E1 Okp E2 E3) as (? & ? & ? & ? & ? & ? & ?). eauto 10.
Qed.
End MAIN.
