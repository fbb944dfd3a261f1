(** A run on valid files returns what they declare. *)
From Coq Require Import Permutation Relations Sorted.
From Verif Require Import Base Lexer SymTab Ast Eval Typing TypesProofs ParserBase ParserExpr ParserProofs ExprSyntax ParserValue ExprTyping
  ValueSyntax ValueParserSound ValueTyping Lint ParserDecl ParserFile Resolve Growth DeclInv DeclRsl DeclTrlc DeclFrame DeclFuel DeclSyntax DeclSound DeclComplete
  Process ProcessInv ProcessRun RunSyntax RunGraph RunSound RunMessages RunValid.
From Verif Require Notes SourceMan SourceManProofs Checks.
Import SourceMan (fkind, RSL, TRLC).
From Coq Require Import ZifyBool ZifyNat ZifyN.
Open Scope Z_scope.

(** ** Tokens *)

(** The tokens that can be read from a position *)
Definition ahead (q : pos) : list token := match nt q with Some tk => tk :: lead (rest q) | None => [] end.
Lemma fetch_lead prev l tk ts : lead l = tk :: ts -> exists l', fetch prev l = Got (Some tk, l') /\ lead l' = ts.
Proof.
  revert prev. induction l as [|[x|e|] l IH]; cbn; intros prev H; try discriminate. unfold not_comment in H.
  destruct (kind_eq_dec (tk_kind x) COMMENT); [apply IH; auto|]. injection H as -> <-. eauto.
Qed.
Lemma fetch_clean prev all : filter not_comment all = [] -> fetch prev (map ITok all) = Got (None, []).
Proof.
  revert prev. induction all as [|x l IH]; cbn; intros prev H; auto. unfold not_comment in H at 1.
  destruct (kind_eq_dec (tk_kind x) COMMENT); [apply IH; auto|discriminate].
Qed.
Lemma reads_ahead us : forall q x more, ahead q = us ++ x :: more -> exists q', reads q us q' /\ nt q' = Some x.
Proof.
  induction us as [|tk us IH]; intros q x more H; unfold ahead in H; (destruct (nt q) as [y|] eqn:E; [|discriminate]); cbn in H.
  - injection H as -> _. exists q. split; [constructor|auto].
  - injection H as -> H. assert (X : exists z zs, us ++ x :: more = z :: zs) by (destruct us; cbn; eauto). destruct X as (z & zs & X).
    rewrite X in H. destruct (fetch_lead (Some tk) _ _ _ H) as (l' & F & L).
    destruct (IH (Pos (Some tk) (Some z) l') x more) as (q' & R & N); [unfold ahead; cbn; rewrite L; auto|].
    exists q'. split; auto. econstructor; eauto.
Qed.
Lemma reads_end us : forall q all, ahead q = us -> (nt q = None -> rest q = []) -> rest q = map ITok all -> exists q', reads q us q' /\ nt q' = None.
Proof.
  induction us as [|tk us IH]; intros q all H Z C; unfold ahead in H; (destruct (nt q) as [y|] eqn:E; [|try discriminate]).
  - discriminate.
  - exists q. split; [constructor|auto].
  - injection H as -> H. destruct us as [|z us].
    + assert (F : fetch (Some tk) (rest q) = Got (None, [])).
      { rewrite C in *. apply fetch_clean. rewrite <- (app_nil_r (map ITok all)), lead_app in H. cbn in H. rewrite app_nil_r in H. auto. }
      exists (Pos (Some tk) None []). split; auto. econstructor; eauto. constructor.
    + destruct (fetch_lead (Some tk) _ _ _ H) as (l' & F & L). pose proof (fetch_spec _ _ _ _ F) as (cs & _ & El & _).
      assert (Y : exists all', l' = map ITok all').
      { rewrite C in El. apply map_eq_app in El as (a & b & _ & _ & Eb). eauto. } destruct Y as (all' & ->).
      destruct (IH (Pos (Some tk) (Some z) (map ITok all')) all') as (q' & R & N); auto.
      * unfold ahead. cbn. rewrite L. auto.
      * cbn. discriminate.
      * exists q'. split; auto. econstructor; eauto.
Qed.
Lemma read_ahead src ts q l : has_read src ts q -> items src = Some l -> lead l = ts ++ ahead q.
Proof.
  intros (l' & all & E & Et & El & Ec) E'. rewrite E in E'. injection E' as <-. rewrite El, lead_app, <- Et. f_equal. unfold ahead.
  destruct (nt q); cbn; auto. rewrite Ec. auto.
Qed.
Lemma begins_reads src ts q us x : has_read src ts q -> begins src (ts ++ us ++ [x]) -> exists q', reads q us q' /\ nt q' = Some x.
Proof.
  intros H (l & all & more & E & El & Et). apply (reads_ahead us q x (lead more)).
  pose proof (read_ahead _ _ _ _ H E) as L. rewrite El, lead_app, <- Et in L. rewrite <- !app_assoc in L. apply app_inv_head in L. auto.
Qed.
Lemma tokens_reads src ts q us : has_read src ts q -> tokens_of src (ts ++ us) -> exists q', reads q us q' /\ nt q' = None.
Proof.
  intros H (all & E & Et). unfold lex in E. apply lex_items in E. pose proof (read_ahead _ _ _ _ H E) as L.
  rewrite <- (app_nil_r (map ITok all)), lead_app, <- Et in L. cbn in L. rewrite app_nil_r in L. apply app_inv_head in L.
  destruct H as (l & al & E' & _ & El & Ec). unfold items in *. rewrite E in E'. injection E' as <-.
  assert (C : exists al', rest q = map ITok al').
  { destruct (nt q) as [tk|]; [|exists []; auto]. apply map_eq_app in El as (a & b & _ & _ & El). destruct b as [|y b]; [discriminate|]. injection El as _ El. eauto. }
  destruct C as (al' & C). apply (reads_end us q al'); auto. intros N. rewrite N in Ec. auto.
Qed.

(** ** Opening files *)
Lemma opens_items f name l : opens f name l -> exists li tk ts, items (i_src f) = Some li /\ lead li = tk :: ts.
Proof.
  intros (ts & Pp & [(all & E & Et)|(x & (li & all & more & E & El & Et) & _)]).
  - unfold lex in E. apply lex_items in E. exists (map ITok all). destruct Pp as [kw ? ? ts]. exists kw. eexists. split; [exact E|].
    rewrite <- (app_nil_r (map ITok all)), lead_app, <- Et. reflexivity.
  - exists li. destruct Pp as [kw ? ? ts]. exists kw. eexists. split; [exact E|]. rewrite El, lead_app, <- Et. reflexivity.
Qed.
Lemma opens_starts f name l : opens f name l -> starts f name l.
Proof.
  intros (ts & Pp & H). exists ts. split; auto. destruct H as [(all & E & Et)|(x & (li & all & more & E & El & Et) & _)].
  - unfold lex in E. apply lex_items in E. exists (map ITok all), all, []. rewrite app_nil_r. auto.
  - clear - E El Et. exists li.
    assert (X : exists a b, all = a ++ b /\ ts = filter not_comment a).
    { clear E El. revert ts Et. induction all as [|y all IH]; cbn; intros ts Et; [destruct ts; discriminate|]. destruct ts as [|t0 ts]; [exists [], (y :: all); auto|].
      destruct (not_comment y) eqn:C.
      - cbn in Et. injection Et as -> Et. destruct (IH _ Et) as (a & b & -> & ->). exists (y :: a), b. cbn. rewrite C. auto.
      - destruct (IH _ Et) as (a & b & -> & X). exists (y :: a), b. cbn. rewrite C. auto. }
    destruct X as (a & b & -> & ->). exists a, (map ITok b ++ more). rewrite map_app, <- app_assoc in El. auto.
Qed.
Lemma fetch_failed prev cs e more : filter not_comment cs = [] -> exists p, fetch prev (map ITok cs ++ IErr e :: more) = ParserBase.Failed e p.
Proof.
  revert prev. induction cs as [|x l IH]; cbn; intros prev H; eauto. unfold not_comment in H at 1.
  destruct (kind_eq_dec (tk_kind x) COMMENT); [apply IH; auto|discriminate].
Qed.
Lemma open_all_do fs : (forall f, In f fs -> (exists e, unreadable f e) \/ exists name l, opens f name l) -> exists l ms, open_all fs = Ok (l, ms).
Proof.
  induction fs as [|f fs IH]; cbn [open_all]; intros H; [eauto|].
  destruct IH as (l & ms & E); [intros; apply H; cbn; auto|].
  assert (X : exists o m, open_file f = Ok (o, m)).
  { unfold open_file. destruct (H f (or_introl eq_refl)) as [(e & cs & more & Ei & F)|(name & im & O)].
    - rewrite Ei. unfold p_advance. cbn [at_ nt rest]. destruct (fetch_failed None cs e more F) as ([? ?] & ->). eauto.
    - apply opens_items in O as (li & tk & ts & Ei & L). rewrite Ei. unfold p_advance. cbn [at_ nt rest]. destruct (fetch_lead None _ _ _ L) as (l' & -> & _). eauto. }
  destruct X as (o & m & X). rewrite X. cbn. rewrite E. cbn. eauto.
Qed.

(** ** Sorted lists *)
Lemma sorted_same {A} (R : A -> A -> Prop) l l' : (forall x, ~ R x x) -> (forall x y, R x y -> ~ R y x) ->
  StronglySorted R l -> StronglySorted R l' -> (forall x, In x l <-> In x l') -> l = l'.
Proof.
  intros Ir As S. revert l'. induction S as [|x l S IH F]; intros l' S' E.
  - destruct l' as [|y l']; auto. destruct (proj2 (E y) (or_introl eq_refl)).
  - destruct S' as [|y l' S' F']; [destruct (proj1 (E x) (or_introl eq_refl))|].
    rewrite Forall_forall in F, F'.
    assert (x = y). { destruct (proj1 (E x) (or_introl eq_refl)) as [|I]; auto. destruct (proj2 (E y) (or_introl eq_refl)) as [|J]; auto. destruct (As x y); auto. }
    subst y. f_equal. apply IH; auto. intros z. split; intros I.
    + destruct (proj1 (E z) (or_intror I)) as [<-|]; auto. destruct (Ir x); auto.
    + destruct (proj2 (E z) (or_intror I)) as [<-|]; auto. destruct (Ir x); auto.
Qed.
Lemma strictly_sorted l : NoDup (map i_id l) -> StronglySorted named_before l -> StronglySorted before l.
Proof.
  intros N S. induction S as [|x l S IH F]; constructor; inversion N as [|? ? Nx N']; subst; auto.
  rewrite Forall_forall in *. intros y I. specialize (F y I). unfold named_before, before in *. assert (i_id x <> i_id y); [|lia].
  intros E. apply Nx. rewrite E. apply in_map. auto.
Qed.
Lemma before_same l l' : StronglySorted before l -> StronglySorted before l' -> (forall x, In x l <-> In x l') -> l = l'.
Proof. apply sorted_same; unfold before; intros; lia. Qed.

(** ** Preambles *)

(** Imports, each once *)
Fixpoint firsts (seen : list text) (l : list token) : list token :=
  match l with
  | [] => []
  | tk :: l' => if existsb (fun x => text_eqb x (tok_text tk)) seen then firsts seen l' else tk :: firsts (seen ++ [tok_text tk]) l'
  end.
Lemma seen_in k seen : existsb (fun x => text_eqb x k) seen = true <-> In k seen.
Proof.
  rewrite existsb_exists. split; [intros (x & I & E); apply text_eqb_eq in E; subst; auto|]. intros I. exists k. split; auto. apply text_eqb_refl.
Qed.
Lemma existsb_map {A B} (f : A -> B) p l : existsb p (map f l) = existsb (fun x => p (f x)) l.
Proof. induction l; cbn; auto. rewrite IHl. auto. Qed.
Lemma imports_loop_do file m v c sec q l ts p' : imports_part l ts -> reads (at_ q) ts p' -> (forall tk, nt p' = Some tk -> ~ word "import" tk) ->
  (forall tk, In tk l -> tok_text tk <> cu_name c) -> (List.length l < m)%nat ->
  exists q', imports_loop file m (St v c sec q) =
      DOk tt (St v (CU (cu_pkg c) (cu_name c) (cu_raw c ++ firsts (map tok_text (cu_raw c)) l) (cu_imports c)) sec q') /\ at_ q' = p'.
Proof.
  intros Ip. revert m c q. induction Ip as [|kw tk l ts W K Ip IH]; intros m c q R Ne D L; (destruct m as [|m]; [cbn in L; lia|]); cbn [imports_loop].
  - inversion R; subst. rewrite dcond_false.
    + exists q. cbn [firsts]. rewrite app_nil_r. destruct c; auto.
    + unfold peek_kw, next_is. destruct (nt (at_ q)) as [tk|]; auto. destruct (is_kw (t "import") tk) eqn:E; auto. apply is_kw_true in E. destruct (Ne tk eq_refl E).
  - rewrite dcond_true by (eapply kw_true; eauto).
    destruct (match_kw_do file (t "import") q kw _ _ R W) as (q1 & E1 & R1 & _). rewrite (dbind_do _ _ _ _ _ (dp_do _ _ _ _ _ _ _ E1)).
    destruct (match_do file IDENTIFIER q1 tk _ _ R1 K) as (q2 & E2 & R2 & _). rewrite (dbind_do _ _ _ _ _ (dp_do _ _ _ _ _ _ _ E2)).
    assert (Ns : text_eqb (tok_text tk) (cu_name c) = false). { destruct (text_eqb _ _) eqn:E; auto. apply text_eqb_eq in E. destruct (D tk (or_introl eq_refl) E). }
    cbn [firsts]. rewrite existsb_map.
    destruct (existsb (fun x => text_eqb (tok_text x) (tok_text tk)) (cu_raw c)) eqn:Ex.
    + rewrite (dbind_do _ _ _ tt (St v c sec (PS (at_ q2) (out q2 ++ [Note_lint (tok_loc file tk) L_duplicate_import])))).
      * apply (IH m c (PS (at_ q2) (out q2 ++ [Note_lint (tok_loc file tk) L_duplicate_import]))); auto; [intros; apply D; cbn; auto|cbn in L; lia].
      * unfold add_import, dcu. unfold dbind at 1. cbn [s_cu]. rewrite Ns, Ex. reflexivity.
    + set (c1 := CU (cu_pkg c) (cu_name c) (cu_raw c ++ [tk]) (cu_imports c)). rewrite (dbind_do _ _ _ tt (St v c1 sec q2)).
      * destruct (IH m c1 q2) as (q' & E & P); auto; [intros; apply D; cbn; auto|cbn in L; lia|]. exists q'. split; auto. rewrite E. unfold c1. cbn [cu_pkg cu_name cu_raw cu_imports].
        rewrite map_app, <- app_assoc. auto.
      * unfold add_import, dcu. unfold dbind at 1. cbn [s_cu]. rewrite Ns, Ex. reflexivity.
Qed.
Lemma imports_length l ts : imports_part l ts -> (List.length l <= List.length ts)%nat.
Proof. induction 1; cbn; lia. Qed.
Lemma proper_free ns k more : proper (ns ++ k :: more) -> free_name (package_table ns) k.
Proof.
  unfold proper. intros P. rewrite app_assoc, map_app in P. change (map simplified_name (k :: more)) with (simplified_name k :: map simplified_name more) in P. apply NoDup_remove_2 in P. intros k' x I E. apply P. apply in_or_app. left.
  rewrite <- E. rewrite <- table_keys. apply in_map. apply (in_map fst) in I. auto.
Qed.
Lemma proper_app ns more : proper (ns ++ more) -> proper ns.
Proof. unfold proper. rewrite app_assoc, map_app. intros P. apply SourceManProofs.NoDup_app_iff in P. tauto. Qed.
Lemma preamble_do file n k ns q name l ts p' p ns' : proper ns -> preamble_part name l ts -> reads (at_ q) ts p' ->
  (forall tk, nt p' = Some tk -> ~ word "import" tk) -> next_names k ns (tok_text name) p ns' -> (List.length l < n)%nat ->
  exists q', parse_preamble file n k (St (start_env ns) no_unit [] q) =
    DOk tt (St (start_env ns') (CU (Some p) (tok_text name) (firsts [] l) None) [] q') /\ at_ q' = p'.
Proof.
  intros P Pp R Ne Nx L. destruct Pp as [kw name l ts W K Ip D]. unfold parse_preamble.
  destruct (match_kw_do file (t "package") q kw _ _ R W) as (q1 & E1 & R1 & _). rewrite (dbind_do _ _ _ _ _ (dp_do _ _ _ _ _ _ _ E1)).
  destruct (match_do file IDENTIFIER q1 name _ _ R1 K) as (q2 & E2 & R2 & _). rewrite (dbind_do _ _ _ _ _ (dp_do _ _ _ _ _ _ _ E2)).
  rewrite dget_do. cbv zeta. cbn [s_env]. change (v_stab (start_env ns)) with (package_table ns).
  rewrite (dbind_do _ _ _ p (St (start_env ns') no_unit [] q2)).
  - unfold set_cu. unfold dbind at 1. cbn [s_env s_cu s_sec s_ps cu_raw cu_imports no_unit].
    destruct (imports_loop_do file n (start_env ns') (CU (Some p) (tok_text name) [] None) [] q2 l ts p' Ip R2 Ne D L) as (q' & E & X). exists q'. split; auto.
  - destruct Nx as [(F & -> & ->)|(-> & E & ->)].
    + assert (C : t_contains (package_table ns) (tok_text name) = false) by (unfold t_contains; apply t_find_none in F; rewrite F; auto).
      rewrite C. replace (match k with RSL => true | TRLC => negb false end) with true by (destruct k; auto).
      unfold declare_package. rewrite dget_do. cbv zeta. cbn [s_env]. change (v_stab (start_env ns)) with (package_table ns).
      rewrite (dbind_do _ _ _ tt _ (dlift_do _ _ _ _ _ _ (registrable_do _ _ _ _ F))). rewrite dset_do.
      change (v_pkgs (start_env ns)) with (map (fun _ : text => @nil (text * entity)) ns). rewrite map_length. 
      replace (start_env (ns ++ [tok_text name])) with (Env (Types [] [] []) [] [] (package_table ns ++ [(tok_text name, N_pkg (List.length ns))]) (map (fun _ : text => @nil (text * entity)) ns ++ [[]]) 0)
        by (unfold start_env; rewrite table_snoc, map_app; reflexivity). reflexivity.
    + assert (En := proj2 (package_entry _ _ _ P) E). unfold entry in En.
      assert (C : t_contains (package_table ns) (tok_text name) = true) by (unfold t_contains; rewrite En; apply text_eqb_refl).
      rewrite C. cbn [negb]. unfold find_package. unfold dbind, with_names. cbn [s_env s_cu s_sec s_ps]. unfold lift, e_lookup, t_lookup.
      change (n_stab (names_of (start_env ns) no_unit)) with (package_table ns). rewrite En, text_eqb_refl. reflexivity.
Qed.

(** *** All preambles *)
Inductive steps (k : fkind) : list text -> list text -> list text -> Prop :=
| st_none ns : steps k ns [] ns
| st_more ns P l p ns1 ns' : next_names k ns P p ns1 -> steps k ns1 l ns' -> steps k ns (P :: l) ns'.
Definition named (pa : parser) (P : text) : Prop := exists name im, opens (input_of pa) name im /\ tok_text name = P.
Lemma opens_reads pa name im : opened pa -> opens (input_of pa) name im ->
  exists ts p', preamble_part name im ts /\ reads (pa_pos pa) ts p' /\ (forall tk, nt p' = Some tk -> ~ word "import" tk).
Proof.
  intros [_ Hr] (ts & Pp & [T|(x & B & Nx)]); exists ts; cbn in *.
  - destruct (tokens_reads _ [] _ ts Hr T) as (p' & R & N). exists p'. split; auto. split; auto. rewrite N. discriminate.
  - destruct (begins_reads _ [] _ ts x Hr B) as (p' & R & N). exists p'. split; auto. split; auto. rewrite N. intros tk E. injection E as <-. auto.
Qed.
Lemma reads_fuel pa ts p' : reads (pa_pos pa) ts p' -> (List.length ts <= 1 + List.length (rest (pa_pos pa)))%nat.
Proof. intros R. apply reads_rem in R. unfold rem in R. destruct (nt (pa_pos pa)); cbn in R; lia. Qed.
Lemma preambles_do k l : forall ns names ns', proper ns -> (forall pa, In pa l -> opened pa /\ pa_kind pa = k) -> Forall2 named l names -> steps k ns names ns' ->
  exists l' ms, preambles l (start_env ns) = Ok (l', start_env ns', ms) /\
    Forall2 (fun pa pa' => input_of pa' = input_of pa /\ pa_ok pa' = true /\
      exists name im p, opens (input_of pa) name im /\ pa_cu pa' = CU (Some p) (tok_text name) (firsts [] im) None) l l'.
Proof.
  induction l as [|pa l IH]; intros ns names ns' P O F St; inversion F as [|? P0 ? names' Nm F']; subst; inversion St as [|? ? ? p ns1 ? Nx St']; subst.
  - exists [], []. split; [reflexivity|constructor].
  - destruct (O pa (or_introl eq_refl)) as [Oc K]. destruct Nm as (name & im & Op & <-).
    destruct (opens_reads _ _ _ Oc Op) as (ts & p' & Pp & R & Ne).
    assert (Lf : (List.length im < fuel_for pa)%nat).
    { pose proof (reads_fuel _ _ _ R). destruct Pp as [? ? ? ts' ? ? Ip ?]. apply imports_length in Ip. unfold fuel_for. cbn in *. lia. }
    destruct (preamble_do (pa_id pa) (fuel_for pa) k ns (PS (pa_pos pa) []) name im ts p' p ns1 P Pp R Ne Nx Lf) as (q' & E & _).
    destruct (next_proper _ _ _ _ _ P Nx) as (P1 & _).
    destruct (IH ns1 names' ns' P1 (fun pa I => O pa (or_intror I)) F' St') as (l' & ms & E' & F2).
    cbn [preambles]. unfold parser_preamble, launch. rewrite (proj1 Oc), K, E. cbn [bind s_env]. rewrite E'. cbn [bind]. do 2 eexists. split; [reflexivity|].
    constructor; auto. split; [reflexivity|]. split; [reflexivity|]. exists name, im, p. auto.
Qed.
(** What is known of a file with its imports *)
Definition begun_with (ns : list text) (pa : parser) : Prop :=
  exists name im p, opens (input_of pa) name im /\
    pa_cu pa = CU (Some p) (tok_text name) (firsts [] im) (Some (fst (imported (pa_id pa) (package_table ns) (firsts [] im)))).
Lemma resolve_do ns l : forall g, (forall pa, In pa l -> pa_ok pa = true /\
    exists name im p, opens (input_of pa) name im /\ pa_cu pa = CU (Some p) (tok_text name) (firsts [] im) None) ->
  exists l' g' ms, resolve_all l (start_env ns) g = (l', g', ms) /\
    Forall2 (fun pa pa' => input_of pa' = input_of pa /\ pa_ok pa' = true /\ begun_with ns pa') l l'.
Proof.
  induction l as [|pa l IH]; intros g H; cbn [resolve_all]; [do 3 eexists; split; [reflexivity|constructor]|].
  destruct (H pa (or_introl eq_refl)) as (Ok & name & im & p & Op & Ec). unfold import_names. rewrite Ok. change (v_stab (start_env ns)) with (package_table ns).
  rewrite Ec. cbn [cu_pkg cu_name cu_raw]. destruct (imported (pa_id pa) (package_table ns) (firsts [] im)) as [ps es] eqn:Im.
  destruct (IH (add_edges g pa (map (package_name (package_table ns)) ps))) as (l' & g' & ms & E & F); [intros; apply H; cbn; auto|].
  rewrite E. do 3 eexists. split; [reflexivity|]. constructor; auto. split; [reflexivity|]. split; [reflexivity|]. exists name, im, p. split; [exact Op|]. cbn [pa_cu pa_id]. rewrite Im. reflexivity.
Qed.

(** *** Names *)
Lemma starts_lead f name l : starts f name l -> exists li kw ts, items (i_src f) = Some li /\ lead li = kw :: name :: ts.
Proof.
  intros (ts & Pp & li & all & more & E & El & Et). destruct Pp as [kw name l ts]. exists li, kw, (ts ++ lead more). split; auto. rewrite El, lead_app, <- Et. auto.
Qed.
Lemma starts_name f n1 l1 n2 l2 : starts f n1 l1 -> starts f n2 l2 -> n1 = n2.
Proof. intros A B. apply starts_lead in A as (a & ? & ? & Ea & La). apply starts_lead in B as (b & ? & ? & Eb & Lb). congruence. Qed.
Lemma declares_one f P Q : declares f P -> declares f Q -> P = Q.
Proof. intros (n & l & S & <-) (n' & l' & S' & <-). rewrite (starts_name _ _ _ _ _ S S'). auto. Qed.
Lemma declares_named pa P : (exists e, unreadable (input_of pa) e) \/ (exists name l, opens (input_of pa) name l) -> declares (input_of pa) P -> named pa P.
Proof.
  intros [U|(name & im & Op)] (n & l & S & <-); [destruct (unreadable_starts _ _ _ U S)|]. exists name, im. split; auto.
  rewrite (starts_name _ _ _ _ _ (opens_starts _ _ _ Op) S). auto.
Qed.
Lemma rsl_steps ns names : proper (ns ++ names) -> steps RSL ns names (ns ++ names).
Proof.
  revert ns. induction names as [|P l IH]; intros ns H; [rewrite app_nil_r; constructor|].
  econstructor; [left; split; [eapply proper_free; eauto|split; reflexivity]|]. replace (ns ++ P :: l) with ((ns ++ [P]) ++ l) in * by (rewrite <- app_assoc; auto). auto.
Qed.
Lemma trlc_steps ns names new : new_names ns names new -> proper (ns ++ new) -> steps TRLC ns names (ns ++ new).
Proof.
  induction 1 as [ns|ns P l new I N IH|ns P l new I N IH]; intros Pr; [rewrite app_nil_r; constructor| |].
  - apply In_nth_error in I as (p & I). econstructor; [right; split; [auto|split; eauto]|]. auto.
  - econstructor; [left; split; [eapply proper_free; eauto|split; reflexivity]|]. replace (ns ++ P :: new) with ((ns ++ [P]) ++ new) in * by (rewrite <- app_assoc; auto). auto.
Qed.
Lemma start_env_inj a b : start_env a = start_env b -> a = b.
Proof.
  intros E. apply (f_equal v_stab) in E. apply (f_equal (map fst)) in E. cbn [v_stab start_env] in E. rewrite !table_keys in E. apply app_inv_head in E. auto.
Qed.
Lemma prefix_same {A} (a b c d : list A) : a ++ b = c ++ d -> NoDup (a ++ b) -> incl a c -> incl c a -> a = c.
Proof.
  revert c. induction a as [|x a IH]; intros [|y c] E N I J; auto.
  - destruct (J y); cbn; auto.
  - destruct (I x); cbn; auto.
  - cbn in E. injection E as -> E. cbn in N. inversion N as [|? ? Ny N']; subst. f_equal. apply IH; auto.
    + intros z Iz. destruct (I z) as [->|]; cbn; auto. destruct Ny. apply in_or_app. auto.
    + intros z Iz. destruct (J z) as [->|]; cbn; auto. destruct Ny. rewrite E. apply in_or_app. auto.
Qed.
Lemma proper_nodup ns : proper ns -> NoDup ns.
Proof.
  unfold proper. rewrite map_app. intros P. apply SourceManProofs.NoDup_app_iff in P as (_ & P & _). clear - P. induction ns; cbn in *; constructor; inversion P; subst; auto.
  intros I. apply (in_map simplified_name) in I. auto.
Qed.
Lemma forall2_in {A B} (R : A -> B -> Prop) l l' y : Forall2 R l l' -> In y l' -> exists x, In x l /\ R x y.
Proof. induction 1 as [|x z l l' Rxz F IH]; [intros []|]. intros [<-|I]; [exists x; cbn; auto|]. apply IH in I as (w & I & X). exists w. cbn. auto. Qed.
Lemma forall2_in_l {A B} (R : A -> B -> Prop) l l' x : Forall2 R l l' -> In x l -> exists y, In y l' /\ R x y.
Proof. induction 1 as [|z y l l' Rxz F IH]; [intros []|]. intros [<-|I]; [exists y; cbn; auto|]. apply IH in I as (w & I & X). exists w. cbn. auto. Qed.
Lemma input_surj f : exists pa, input_of pa = f.
Proof. exists (Parser (i_id f) (i_kind f) (i_primary f) (i_src f) true no_unit (Pos None None [])). destruct f; auto. Qed.

(** *** The graph *)
Section BUILD.
Variable fs : list input_file.
Variables rsl_names more : list text.
Variables rf tf : list input_file.
Variable tn : list text.
Hypothesis ids : NoDup (map i_id fs).
Hypothesis files : forall f, In f fs -> (exists e, unreadable f e) \/ exists name l, opens f name l.
Hypothesis rf_in : forall f, In f rf <-> In f fs /\ i_kind f = RSL /\ exists P, declares f P.
Hypothesis rf_sorted : StronglySorted before rf.
Hypothesis rf_names : Forall2 declares rf rsl_names.
Hypothesis tf_in : forall f, In f tf <-> In f fs /\ i_kind f = TRLC /\ exists P, declares f P.
Hypothesis tf_sorted : StronglySorted before tf.
Hypothesis tf_names : Forall2 declares tf tn.
Hypothesis new : new_names rsl_names tn more.
Hypothesis distinct : proper (rsl_names ++ more).
Lemma opened_files k l ms sf : open_all fs = Ok (l, ms) -> (forall f, In f sf <-> In f fs /\ i_kind f = k /\ exists P, declares f P) -> StronglySorted before sf ->
  map input_of (by_name (of_kind k l)) = sf.
Proof.
  intros E Hs Ss. apply open_refine in E as (O & bad & Pm & U & _). apply before_same; auto.
  - apply strictly_sorted; [|apply by_name_sorted]. eapply (Permutation_NoDup (l := map i_id (map input_of (of_kind k l)))).
    + apply Permutation_map, Permutation_map. symmetry. apply by_name_perm.
    + assert (N : NoDup (map i_id (map input_of l))).
      { eapply Permutation_NoDup in ids; [|apply Permutation_map; exact Pm]. rewrite map_app in ids. apply SourceManProofs.NoDup_app_iff in ids. tauto. }
      clear - N. induction l as [|pa l IH]; cbn; [constructor|]. cbn in N. inversion N as [|? ? Nx N']; subst.
      destruct (SourceMan.fkind_eqb (pa_kind pa) k); cbn; auto. constructor; auto. intros I. apply Nx.
      apply in_map_iff in I as (f & <- & I). apply in_map_iff in I as (pb & <- & I). apply filter_In in I as [I _]. apply in_map, in_map. auto.
  - intros f. rewrite Hs. split.
    + intros I. apply in_map_iff in I as (pa & <- & I). apply (proj1 (by_name_in _ _)) in I. apply filter_In in I as [I K]. apply SourceManProofs.fkind_eqb_eq in K.
      assert (If : In (input_of pa) fs). { eapply Permutation_in; [symmetry; exact Pm|]. apply in_or_app. right. apply in_map. auto. }
      split; auto. split; auto. destruct (files _ If) as [(e & cs & mo & Ei & Fc)|(name & im & Op)].
      * exfalso. destruct (O _ I) as [_ (li & all & Ei' & Et & El & Ec)]. change (i_src (input_of pa)) with (pa_src pa) in Ei. rewrite Ei in Ei'. injection Ei' as <-.
        assert (X : forall cs all x tl e mo, filter not_comment cs = [] -> filter not_comment all = [] -> map ITok cs ++ IErr e :: mo = map ITok all ++ ITok x :: tl -> not_comment x = true -> False).
        { clear. induction cs as [|c cs IH]; intros [|y all] x tl e mo Fc Fa E N; cbn in *; try discriminate.
          - injection E as -> E. rewrite N in Fc. discriminate.
          - injection E as -> E. destruct (not_comment y); [discriminate|]. eauto. }
        destruct (nt (pa_pos pa)) as [x|]; [eapply X; [exact Fc|symmetry; exact Et|exact El|exact Ec]|].
        rewrite app_nil_r in El. clear - El. revert all El. induction cs as [|c cs IH]; intros [|y all] El; cbn in El; try discriminate. injection El as _ El. eauto.
      * exists (tok_text name), name, im. split; auto. apply opens_starts. auto.
    + intros (I & K & P & D). eapply Permutation_in in I; [|exact Pm]. apply in_app_or in I as [I|I].
      * destruct D as (n & l0 & S & _). destruct (unreadable_starts _ _ _ (U _ I) S).
      * apply in_map_iff in I as (pa & <- & I). apply in_map. apply (proj2 (by_name_in _ _)). apply filter_In. split; auto. apply SourceManProofs.fkind_eqb_eq. auto.
Qed.
Lemma files_named k l ms sf sn : open_all fs = Ok (l, ms) -> (forall f, In f sf <-> In f fs /\ i_kind f = k /\ exists P, declares f P) -> StronglySorted before sf ->
  Forall2 declares sf sn -> Forall2 named (by_name (of_kind k l)) sn.
Proof.
  intros E Hs Ss F. assert (M := opened_files _ _ _ _ E Hs Ss). assert (Hin : forall f, In f sf -> In f fs) by (intros f I; apply Hs; auto). clear Hs Ss. subst sf. revert sn F Hin.
  induction (by_name (of_kind k l)) as [|pa l' IH]; intros sn F Hin; inversion F as [|? P ? sn' D F']; subst; constructor.
  - apply declares_named; auto. apply files. apply Hin. left. auto.
  - apply IH; auto. intros f I. apply Hin. right. auto.
Qed.
Lemma build_do : exists gr, build_graph fs = Ok gr /\ forallb pa_ok (gr_rsl gr ++ gr_trlc gr) = true /\ built fs gr rsl_names more /\
  map input_of (gr_trlc gr) = tf /\
  (forall pa, In pa (gr_rsl gr) -> begun_with rsl_names pa) /\ (forall pa, In pa (gr_trlc gr) -> begun_with (rsl_names ++ more) pa).
Proof.
  destruct (open_all_do fs files) as (l & ms0 & E0). pose proof (open_refine _ _ _ E0) as (O1 & _).
  assert (Of : forall k pa, In pa (by_name (of_kind k l)) -> opened pa /\ pa_kind pa = k).
  { intros k pa I. apply (proj1 (by_name_in _ _)) in I. apply filter_In in I as [I X]. split; [apply O1; auto|]. apply SourceManProofs.fkind_eqb_eq. auto. }
  assert (Pr := proper_app _ _ distinct).
  destruct (preambles_do RSL (by_name (of_kind RSL l)) [] rsl_names rsl_names proper_nil (Of RSL) (files_named _ _ _ _ _ E0 rf_in rf_sorted rf_names) (rsl_steps [] rsl_names Pr))
    as (l1 & ms1 & E1 & F1).
  destruct (preambles_do TRLC (by_name (of_kind TRLC l)) rsl_names tn (rsl_names ++ more) Pr (Of TRLC) (files_named _ _ _ _ _ E0 tf_in tf_sorted tf_names) (trlc_steps _ _ _ new distinct))
    as (l2 & ms2 & E2 & F2).
  assert (Fn : forall l l' : list parser, Forall2 (fun pa pa' => input_of pa' = input_of pa /\ pa_ok pa' = true /\
      exists name im p, opens (input_of pa) name im /\ pa_cu pa' = CU (Some p) (tok_text name) (firsts [] im) None) l l' ->
    forall pa, In pa l' -> pa_ok pa = true /\ exists name im p, opens (input_of pa) name im /\ pa_cu pa = CU (Some p) (tok_text name) (firsts [] im) None).
  { clear. intros l l' F pa I. destruct (forall2_in _ _ _ _ F I) as (pb & _ & E & Ok & X). rewrite <- E in X. auto. }
  destruct (resolve_do rsl_names l1 (fold_left add_node (map parsed_of l1) []) (Fn _ _ F1)) as (r1 & g1 & n1 & R1 & G1).
  destruct (resolve_do (rsl_names ++ more) l2 (fold_left add_node (map parsed_of l2) g1) (Fn _ _ F2)) as (r2 & g2 & n2 & R2 & G2).
  assert (Eg : exists gr, build_graph fs = Ok gr /\ gr_rsl gr = r1 /\ gr_trlc gr = r2 /\ gr_env gr = start_env (rsl_names ++ more)).
  { unfold build_graph. rewrite E0. cbn [bind]. unfold container. change env0 with (start_env []). rewrite E1. cbn [bind]. rewrite R1. cbn [bind]. rewrite E2. cbn [bind]. rewrite R2. cbn [bind].
    eexists. split; [reflexivity|]. auto. }
  destruct Eg as (gr & Eg & <- & <- & Ee). exists gr. split; auto.
  assert (Ok : forallb pa_ok (gr_rsl gr ++ gr_trlc gr) = true).
  { apply forallb_forall. intros pa I. apply in_app_or in I as [I|I]; [destruct (forall2_in _ _ _ _ G1 I) as (? & _ & _ & ? & _)|destruct (forall2_in _ _ _ _ G2 I) as (? & _ & _ & ? & _)]; auto. }
  split; auto. destruct (build_refine _ _ Eg Ok) as (rns & more' & bt).
  assert (Same : forall (a b : list parser) (Q : parser -> parser -> Prop), Forall2 (fun pa pa' => input_of pa' = input_of pa /\ Q pa pa') a b -> map input_of b = map input_of a).
  { clear. intros a b Q. induction 1 as [|x y a b [E _] F IH]; cbn; auto. rewrite E, IH. auto. }
  assert (Ir : map input_of (gr_rsl gr) = rf). { rewrite (Same _ _ _ G1), (Same _ _ _ F1). eapply opened_files; eauto. }
  assert (It : map input_of (gr_trlc gr) = tf). { rewrite (Same _ _ _ G2), (Same _ _ _ F2). eapply opened_files; eauto. }
  assert (En : rns ++ more' = rsl_names ++ more). { apply start_env_inj. rewrite <- Ee. symmetry. apply (bt_env _ _ _ _ bt). }
  assert (Er : rns = rsl_names).
  { eapply prefix_same; [exact En| | |].
    - rewrite En. apply proper_nodup. auto.
    - intros P I. apply (bt_rns _ _ _ _ bt) in I as (pa & I & E). apply (ready_pkg _ _ (proj1 (bt_rsl _ _ _ _ bt _ I))) in E.
      assert (J : In (input_of pa) rf) by (rewrite <- Ir; apply in_map; auto). destruct (forall2_in_l _ _ _ _ rf_names J) as (Q & IQ & D). rewrite (declares_one _ _ _ E D). auto.
    - intros P I. destruct (forall2_in _ _ _ _ rf_names I) as (f & J & D). rewrite <- Ir in J. apply in_map_iff in J as (pa & <- & J).
      destruct (ready_in _ _ (proj1 (bt_rsl _ _ _ _ bt _ J))) as (Q & D' & IQ). rewrite (declares_one _ _ _ D D'). auto. }
  subst rns. apply app_inv_head in En. subst more'. split; auto. split; auto. split; intros pa I.
  - destruct (forall2_in _ _ _ _ G1 I) as (? & _ & _ & _ & B). auto.
  - destruct (forall2_in _ _ _ _ G2 I) as (? & _ & _ & _ & B). auto.
Qed.
End BUILD.

(** ** The order of files *)
Lemma leb_lt a b : SourceMan.text_leb a b = true -> a = b \/ text_lt a b.
Proof.
  revert b. induction a as [|x a IH]; intros [|y b]; cbn; intros H; auto; try discriminate; [right; constructor|].
  apply Bool.orb_true_iff in H as [H|H]; [right; apply tlt_less; lia|]. apply Bool.andb_true_iff in H as [E H]. apply N.eqb_eq in E. subst y.
  destruct (IH _ H) as [->|L]; [auto|]. right. apply tlt_same. auto.
Qed.
Lemma leb_total a b : SourceMan.text_leb a b = false -> SourceMan.text_leb b a = true.
Proof.
  revert b. induction a as [|x a IH]; intros [|y b]; cbn; intros H; auto; try discriminate.
  apply Bool.orb_false_iff in H as [H1 H2]. apply Bool.orb_true_iff. destruct (N.eqb_spec x y) as [->|E]; [right|left; lia].
  cbn in H2. rewrite N.eqb_refl. cbn. auto.
Qed.
Lemma leb_trans a b c : SourceMan.text_leb a b = true -> SourceMan.text_leb b c = true -> SourceMan.text_leb a c = true.
Proof.
  revert b c. induction a as [|x a IH]; intros [|y b] [|z c]; cbn; intros H K; auto; try discriminate.
  apply Bool.orb_true_iff in H, K. apply Bool.orb_true_iff.
  destruct H as [H|H], K as [K|K]; rewrite ?Bool.andb_true_iff in *; try (left; lia). destruct H as [E1 H], K as [E2 K]. right. split; [lia|eauto].
Qed.
Lemma lt_irrefl a : ~ text_lt a a.
Proof. induction a; intros H; inversion H; subst; auto; lia. Qed.
Lemma lt_asym a b : text_lt a b -> ~ text_lt b a.
Proof. induction 1; intros K; inversion K; subst; auto; try lia. Qed.
Lemma insert_leb n l : StronglySorted (fun a b : SourceMan.node => SourceMan.text_leb (fst a) (fst b) = true) l ->
  StronglySorted (fun a b : SourceMan.node => SourceMan.text_leb (fst a) (fst b) = true) (SourceMan.insert n l).
Proof.
  induction 1 as [|m l S IH F]; cbn; [repeat constructor|]. destruct (SourceMan.text_leb (fst n) (fst m)) eqn:E.
  - constructor; [constructor; auto|]. constructor; auto. rewrite Forall_forall in *. intros y I. eapply leb_trans; eauto.
  - constructor; auto. rewrite Forall_forall in *. intros y I. eapply Permutation_in in I; [|symmetry; apply SourceManProofs.insert_perm].
    destruct I as [<-|I]; auto. apply leb_total. auto.
Qed.
Lemma sort_leb l : StronglySorted (fun a b : SourceMan.node => SourceMan.text_leb (fst a) (fst b) = true) (SourceMan.sort l).
Proof. induction l; cbn; [constructor|]. apply insert_leb. auto. Qed.
Definition node_lt (a b : SourceMan.node) : Prop := text_lt (fst a) (fst b).
Lemma leb_sorted s : NoDup s -> (forall n, In n s -> snd n = RSL) -> StronglySorted (fun a b : SourceMan.node => SourceMan.text_leb (fst a) (fst b) = true) s ->
  StronglySorted node_lt s.
Proof.
  intros N K S. induction S as [|x s S IH F]; constructor; inversion N as [|? ? Nx N']; subst.
  - apply IH; auto. intros; apply K; cbn; auto.
  - rewrite Forall_forall in *. intros y I. destruct (leb_lt _ _ (F y I)) as [E|]; auto. destruct Nx.
    replace x with y; auto. destruct x as [x kx], y as [y ky]. cbn in E. subst. rewrite (K (y, ky) (or_intror I) : ky = RSL), (K (y, kx) (or_introl eq_refl) : kx = RSL). auto.
Qed.
Definition types_node (P : text) : SourceMan.node := (P, RSL).
Lemma sort_exact l names : NoDup l -> StronglySorted text_lt names -> (forall n, In n l <-> exists P, In P names /\ n = types_node P) ->
  SourceMan.sort l = map types_node names.
Proof.
  intros N S H. assert (Pm := SourceManProofs.sort_perm l). apply (sorted_same node_lt).
  - intros x. apply lt_irrefl.
  - intros x y. apply lt_asym.
  - apply leb_sorted; [eapply Permutation_NoDup; eauto| |apply sort_leb].
    intros n I. eapply Permutation_in in I; [|symmetry; exact Pm]. apply H in I as (P & _ & ->). auto.
  - clear - S. induction S as [|x l S IH F]; constructor; auto. rewrite Forall_forall in *. intros y I. apply in_map_iff in I as (P & <- & I). unfold node_lt. cbn. auto.
  - intros n. rewrite in_map_iff. split.
    + intros I. eapply Permutation_in in I; [|symmetry; exact Pm]. apply H in I as (P & I & ->). eauto.
    + intros (P & <- & I). eapply Permutation_in; [exact Pm|]. apply H. eauto.
Qed.
Lemma waves_do fs g done files : (forall P d, In d (SourceMan.gget g (types_node P)) <-> needs fs (types_node P) d) -> rounds fs done files ->
  exists names, Forall2 declares files names /\ forall fuel work, NoDup work -> (forall n, In n work <-> exists P, In P names /\ n = types_node P) -> (List.length work < fuel)%nat ->
    SourceMan.waves fuel g work (map types_node done) = Some (map types_node names, false).
Proof.
  intros Eg. induction 1 as [done|done w names rest Nw Fw Sw Dw Dr R IH].
  - exists []. split; [constructor|]. intros fuel work Nd H L. destruct work as [|n work]; [destruct fuel; auto|]. destruct (proj1 (H n) (or_introl eq_refl)) as (P & [] & _).
  - destruct IH as (rnames & Fr & IH). exists (names ++ rnames). split; [apply Forall2_app; auto|]. intros fuel work Nd H L.
    destruct fuel as [|fuel]; [lia|].
    set (cand := filter (fun n => forallb (fun d => SourceMan.mem d (map types_node done)) (SourceMan.gget g n)) work).
    assert (Rdy : forall P, (forallb (fun d => SourceMan.mem d (map types_node done)) (SourceMan.gget g (types_node P)) = true) <->
      forall Q, needs fs (types_node P) (types_node Q) -> In Q done).
    { intros P. rewrite forallb_forall. split.
      - intros X Q N. apply Eg in N. apply X in N. apply SourceManProofs.mem_In in N. apply in_map_iff in N as (Q' & E & I). injection E as <-. auto.
      - intros X d N. apply Eg in N. apply SourceManProofs.mem_In. inversion N; subst; try discriminate. apply in_map_iff. exists Q. split; auto. }
    assert (Cin : forall n, In n cand <-> exists P, In P names /\ n = types_node P).
    { intros n. unfold cand. rewrite filter_In, H. split.
      - intros [(P & I & ->) X]. rewrite Rdy in X. exists P. split; auto. apply in_app_or in I as [I|I]; auto.
        destruct (forall2_in _ _ _ _ Fr I) as (f & If & D). destruct (Dr _ _ If D) as (Q & Nq & Ni). destruct (Ni (X _ Nq)).
      - intros (P & I & ->). split; [exists P; split; auto; apply in_or_app; auto|]. apply Rdy. intros Q N. eapply Dw; eauto. }
    assert (Nc : NoDup cand) by (apply NoDup_filter; auto).
    assert (Se := sort_exact _ _ Nc Sw Cin).
    assert (Ne : exists P, In P names). { destruct Fw as [|? P ? ? ? ?]; [congruence|]. exists P. cbn. auto. } destruct Ne as (P0 & I0).
    assert (C0 : In (types_node P0) cand) by (apply Cin; eauto).
    assert (W0 : In (types_node P0) work) by (apply filter_In in C0; tauto).
    set (more := filter (fun n => negb (SourceMan.mem n cand)) work).
    replace (SourceMan.waves (Datatypes.S fuel) g work (map types_node done)) with
      (match SourceMan.waves fuel g more (map types_node done ++ SourceMan.sort cand) with
       | Some (order, cyc) => Some (SourceMan.sort cand ++ order, cyc)
       | None => None
       end).
    2:{ cbn [SourceMan.waves]. fold cand. fold more. destruct work as [|n0 work0]; [destruct W0|]. destruct cand; [destruct C0|]. auto. }
    rewrite Se, <- map_app, IH, <- map_app; auto.
    + apply NoDup_filter. auto.
    + intros n. unfold more. rewrite filter_In, H. split.
      * intros [(P & I & ->) X]. exists P. split; auto. apply in_app_or in I as [I|I]; auto. apply Bool.negb_true_iff in X.
        assert (Y : SourceMan.mem (types_node P) cand = true) by (apply SourceManProofs.mem_In, Cin; eauto). congruence.
      * intros (P & I & ->). split; [exists P; split; auto; apply in_or_app; auto|]. apply Bool.negb_true_iff.
        destruct (SourceMan.mem (types_node P) cand) eqn:M; auto. exfalso. apply SourceManProofs.mem_In in M. apply Cin in M as (P' & I' & E). injection E as <-.
        destruct (forall2_in _ _ _ _ Fr I) as (f & If & D). destruct (Dr _ _ If D) as (Q & Nq & Ni). apply Ni. eapply Dw; eauto.
    + unfold more. assert (X : forall l : list SourceMan.node, In (types_node P0) l -> (List.length (filter (fun n => negb (SourceMan.mem n cand)) l) < List.length l)%nat); [|specialize (X _ W0); lia].
      clear - C0. assert (Le : forall l : list SourceMan.node, (List.length (filter (fun n => negb (SourceMan.mem n cand)) l) <= List.length l)%nat).
      { induction l as [|x l IH]; cbn; auto. destruct (negb _); cbn; lia. }
      induction l as [|x l IH]; intros []; cbn.
      * subst x. rewrite (proj2 (SourceManProofs.mem_In _ _) C0). cbn. specialize (Le l). lia.
      * specialize (IH H). destruct (negb _); cbn; lia.
Qed.

(** ** Bodies of files *)
Lemma imports_exact l1 t1 l2 t2 x y : imports_part l1 t1 -> imports_part l2 t2 -> t1 ++ x = t2 ++ y ->
  (forall tk z, x = tk :: z -> ~ word "import" tk) -> (forall tk z, y = tk :: z -> ~ word "import" tk) -> l1 = l2 /\ t1 = t2.
Proof.
  intros A. revert l2 t2. induction A as [|kw tk l1 t1 W K A IH]; intros l2 t2 B E Nx Ny; inversion B as [|kw' tk' l2' t2' W' K' B']; subst; auto; cbn in E.
  - destruct (Nx kw' _ E W').
  - destruct (Ny kw _ (eq_sym E) W).
  - injection E as -> -> E. destruct (IH _ _ B' E Nx Ny) as [-> ->]. auto.
Qed.
Lemma preamble_exact n1 l1 t1 n2 l2 t2 x y : preamble_part n1 l1 t1 -> preamble_part n2 l2 t2 -> t1 ++ x = t2 ++ y ->
  (forall tk z, x = tk :: z -> ~ word "import" tk) -> (forall tk z, y = tk :: z -> ~ word "import" tk) -> n1 = n2 /\ l1 = l2 /\ t1 = t2.
Proof.
  intros [? ? ? ? ? ? A ?] [? ? ? ? ? ? B ?] E Nx Ny. cbn in E. injection E as -> -> E. destruct (imports_exact _ _ _ _ _ _ A B E Nx Ny) as [-> ->]. auto.
Qed.
Lemma packages_imported file d seen l ps : packages_of d seen l ps -> fst (imported file d (firsts seen l)) = ps.
Proof.
  induction 1 as [seen|seen tk l ps I H IH|seen tk l q ps I En H IH|seen tk l ps I En H IH]; cbn [firsts]; auto.
  - rewrite (proj2 (seen_in _ _) I). auto.
  - assert (E : existsb (fun x => text_eqb x (tok_text tk)) seen = false). { destruct (existsb _ _) eqn:E; auto. apply seen_in in E. contradiction. }
    rewrite E. cbn [imported]. destruct (imported file d (firsts (seen ++ [tok_text tk]) l)) as [ps0 es]. cbn in IH. subst ps0.
    unfold e_lookup, t_lookup. unfold entry in En. rewrite En, text_eqb_refl. reflexivity.
  - assert (E : existsb (fun x => text_eqb x (tok_text tk)) seen = false). { destruct (existsb _ _) eqn:E; auto. apply seen_in in E. contradiction. }
    rewrite E. cbn [imported]. destruct (imported file d (firsts (seen ++ [tok_text tk]) l)) as [ps0 es]. cbn in IH. subst ps0.
    destruct (e_lookup file d tk (Some is_package)) as [e| | |] eqn:L; auto. apply t_lookup_entry in L as [L _]. destruct e; auto. destruct (En _ L).
Qed.
Lemma file_do ns pa name l body p ps : proper ns -> ready_file ns pa -> begun_with ns pa -> file_is (input_of pa) name l body ->
  (forall tk z, body = tk :: z -> ~ word "import" tk) -> entry (package_table ns) (tok_text name) (N_pkg p) -> packages_of (package_table ns) [] l ps ->
  exists raw q', pa_cu pa = CU (Some p) (tok_text name) raw (Some ps) /\ reads (pa_pos pa) body q' /\ nt q' = None.
Proof.
  intros Pr (n1 & l1 & t1 & raw & p1 & ps1 & [Sy Rd Ec On Np Okp En] & _) (n2 & l2 & p2 & (t2 & Pp2 & O2) & Ec2) (ts & Pp & T) Nb E Po.
  assert (Tk : forall t2' n2' l2' z, preamble_part n2' l2' t2' -> (forall tk z', z = tk :: z' -> ~ word "import" tk) -> t2' ++ z = ts ++ body -> n2' = name /\ l2' = l /\ t2' = ts).
  { intros. eapply preamble_exact; eauto. }
  assert (Hl : exists li, items (pa_src pa) = Some li /\ lead li = ts ++ body).
  { destruct T as (all & El & Et). unfold lex in El. apply lex_items in El. exists (map ITok all). split; auto. rewrite <- (app_nil_r (map ITok all)), lead_app, <- Et, app_nil_r. auto. }
  destruct Hl as (li & El & Ll).
  assert (X1 : n1 = name /\ l1 = l /\ t1 = ts).
  { apply (Tk t1 n1 l1 (ahead (pa_pos pa)) Sy); [|rewrite <- Ll; symmetry; apply read_ahead with (src := pa_src pa); auto].
    intros tk z' Ea. unfold ahead in Ea. destruct (nt (pa_pos pa)) as [tk'|] eqn:N; [|discriminate]. injection Ea as <- _. apply En. auto. }
  assert (X2 : n2 = name /\ l2 = l /\ t2 = ts).
  { destruct O2 as [(all & El2 & Et)|(x & (li2 & all & more & El2 & Em & Et) & Nx)].
    - apply (Tk t2 n2 l2 [] Pp2); [discriminate|]. unfold lex in El2. apply lex_items in El2. change (i_src (input_of pa)) with (pa_src pa) in El2. unfold items in El. rewrite El in El2. injection El2 as ->.
      rewrite <- Ll, <- (app_nil_r (map ITok all)), lead_app, <- Et. auto.
    - apply (Tk t2 n2 l2 (x :: lead more) Pp2); [intros ? ? X; injection X as <- _; auto|]. change (i_src (input_of pa)) with (pa_src pa) in El2. rewrite El in El2. injection El2 as ->.
      rewrite <- Ll, Em, lead_app, <- Et, <- app_assoc. auto. }
  destruct X1 as (-> & -> & ->), X2 as (-> & -> & ->). rewrite Ec in Ec2. injection Ec2 as <- -> ->.
  rewrite (packages_imported _ _ _ _ _ Po) in Ec. apply package_entry in E; auto.
  assert (p1 = p). { eapply (NoDup_nth_error ns); [apply proper_nodup; auto|apply nth_error_Some; congruence|congruence]. } subst p1.
  destruct (tokens_reads _ _ _ _ Rd T) as (q' & R & N). eauto 6.
Qed.
Lemma type_word file src compiles matches p imports lax v ts v' tk z : type_items file src compiles matches p imports lax v ts v' -> ts = tk :: z -> ~ word "import" tk.
Proof.
  destruct 1 as [|v ts v1 us v' It Is]; [discriminate|]. destruct It as [ts v2 D|ts v2 D|ts v2 D|ts v2 D]; destruct D.
  - cbn. intros E. injection E as <- _. eapply other_word; [eassumption|reflexivity].
  - cbn. intros E. injection E as <- _. eapply other_word; [eassumption|reflexivity].
  - match goal with M : modifier _ _ _ |- _ => destruct M end; cbn; intros E; injection E as <- _; eapply other_word; try eassumption; reflexivity.
  - cbn. intros E. injection E as <- _. eapply other_word; [eassumption|reflexivity].
Qed.
Lemma object_word file src p imports path v ts v' tk z : object_items file src p imports false path v ts v' -> ts = tk :: z -> ~ word "import" tk.
Proof.
  destruct 1 as [|path v ts v1 us v' It Is]; [discriminate|]. intros E. apply item_first with (us := us) in It as (x & tl & Ex & X).
  rewrite E in Ex. injection Ex as <- _. destruct X as [X|X]; [apply not_word; congruence|eapply other_word; [exact X|reflexivity]].
Qed.

(** ** Declarations *)
Lemma eof_do file (b : bool) s : nt (at_ (s_ps s)) = None -> (let# _ := dp (p_match_eof file) in dret b) s = DOk b s.
Proof. destruct s as [v c sec q]. unfold dp, dbind, dret, with_names, p_match_eof. cbn. intros ->. auto. Qed.
Lemma rem_fuel pa : (rem (pa_pos pa) < fuel_for pa)%nat.
Proof. unfold rem, fuel_for. destruct (nt (pa_pos pa)); cbn; lia. Qed.
Section RUN.
Variable compiles : text -> bool.
Variable matches : text -> text -> option bool.
Variable pick : list SourceMan.node -> nat.
Variable lint recovery : bool.
Hypothesis regex : forall p x, compiles p = true -> matches p x <> None.
Lemma spotless s q : (errc (s_ps s) <= errc q)%nat -> out q = [] -> existsb is_error (messages s) = false.
Proof.
  unfold errc, messages. intros M E. rewrite E in M. cbn in M. induction (out (s_ps s)) as [|[e|l x] ns IH]; cbn in *; auto; lia.
Qed.
Lemma parse_types_do ns pa name l body p ps v v' : proper ns -> ready_file ns pa -> begun_with ns pa -> file_is (input_of pa) name l body ->
  entry (package_table ns) (tok_text name) (N_pkg p) -> packages_of (package_table ns) [] l ps ->
  type_items (pa_id pa) (pa_src pa) compiles matches p (Some ps) false v body v' -> registered v -> no_objects matches v -> frozen_once (v_types v) ->
  exists ms, parse_types compiles matches lint recovery pa v = Ok (true, v', ms) /\ existsb is_error ms = false /\
    registered v' /\ no_objects matches v' /\ frozen_once (v_types v').
Proof.
  intros Pr Rd Bw Fi En Po Ti Rg No Fo.
  assert (Nw : forall tk z, body = tk :: z -> ~ word "import" tk) by (intros tk z E; eapply type_word; eauto).
  destruct (file_do _ _ _ _ _ _ _ Pr Rd Bw Fi Nw En Po) as (raw & q' & Ec & R & Ne).
  assert (Lf := rem_fuel pa).
  assert (Cp : cu_pkg (pa_cu pa) = Some p) by (rewrite Ec; auto). assert (Ci : cu_imports (pa_cu pa) = Some ps) by (rewrite Ec; auto).
  destruct (rsl_loop_runs (pa_id pa) (pa_src pa) lint compiles matches (fuel_for pa) (pa_cu pa) p (Some ps) Cp Ci regex _ _ _ Ti (fuel_for pa) recovery [] (PS (pa_pos pa) []) q' Rg No Lf Lf R Ne)
    as (q1 & E1 & R1 & M1).
  eexists. split; [|split; [|eapply (items_once (pa_id pa) (pa_src pa) lint compiles matches (fuel_for pa) (pa_cu pa) p (Some ps)) with (q := PS (pa_pos pa) []); eauto]].
  2:{ eapply (spotless (St v' (pa_cu pa) [] q1)); [exact (proj2 M1)|reflexivity]. }
  unfold parse_types, launch, parse_rsl_file. rewrite (dbind_do _ _ _ _ _ E1). cbv beta.
  rewrite eof_do; [cbn; reflexivity|]. cbn [s_ps]. inversion R1; subst. auto.
Qed.
Lemma types_files_do ns l : proper ns -> (forall pa, In pa l -> ready_file ns pa /\ begun_with ns pa) ->
  forall files v v', valid_types compiles matches (package_table ns) files v v' -> forall pas order, map input_of pas = files -> (forall pa, In pa pas -> In pa l) ->
  Forall2 (fun nd pa => find (has_node nd) l = Some pa) order pas -> registered v -> no_objects matches v -> frozen_once (v_types v) ->
  exists ms, parse_rsl_files compiles matches lint recovery l order v true = Ok (true, v', ms) /\ existsb is_error ms = false /\ no_objects matches v' /\ frozen_once (v_types v').
Proof.
  intros Pr Rd. induction 1 as [v|f fs name im body p ps v v1 v' Fi En Po Ti V IH]; intros pas order Em Il F Rg No Fo.
  - apply map_eq_nil in Em. subst pas. inversion F; subst. cbn. eauto.
  - destruct pas as [|pa pas]; [discriminate|]. cbn in Em. injection Em as <- Em. inversion F as [|nd ? order' ? Fd F']; subst.
    destruct (Rd pa) as [Rp Bp]; [apply Il; cbn; auto|].
    destruct (parse_types_do _ _ _ _ _ _ _ _ _ Pr Rp Bp Fi En Po Ti Rg No Fo) as (ms & E1 & Sp1 & Rg1 & No1 & Fo1).
    destruct (IH pas order' eq_refl) as (ms2 & E2 & Sp2 & No2 & Fo2); auto. { intros x I. apply Il. cbn. auto. }
    cbn [parse_rsl_files]. rewrite Fd, E1. cbn [bind andb]. rewrite E2. cbn [bind]. eexists. split; [reflexivity|]. split; auto. rewrite existsb_app, Sp1, Sp2. auto.
Qed.
Lemma parse_objects_do ns pa name l body p ps v v' : proper ns -> ready_file ns pa -> begun_with ns pa -> file_is (input_of pa) name l body ->
  entry (package_table ns) (tok_text name) (N_pkg p) -> packages_of (package_table ns) [] l ps ->
  object_items (pa_id pa) (pa_src pa) p (Some ps) false [] v body v' -> ready_objects matches p v -> frozen_once (v_types v) ->
  exists ms, parse_objects recovery pa v = Ok (true, v', ms) /\ existsb is_error ms = false.
Proof.
  intros Pr Rd Bw Fi En Po Ti Rdy Fo.
  assert (Nw : forall tk z, body = tk :: z -> ~ word "import" tk) by (intros tk z E; eapply object_word; eauto).
  destruct (file_do _ _ _ _ _ _ _ Pr Rd Bw Fi Nw En Po) as (raw & q' & Ec & R & Ne).
  assert (Lf := rem_fuel pa).
  assert (Cp : cu_pkg (pa_cu pa) = Some p) by (rewrite Ec; auto). assert (Ci : cu_imports (pa_cu pa) = Some ps) by (rewrite Ec; auto).
  destruct (trlc_loop_runs (pa_id pa) (pa_src pa) compiles matches (fuel_for pa) (pa_cu pa) p (Some ps) Cp Ci regex _ _ _ _ Ti (fuel_for pa) recovery [] (PS (pa_pos pa) []) q' eq_refl Rdy Fo Lf Lf R Ne)
    as (q1 & E1 & R1 & M1).
  eexists. split; [|eapply (spotless (St v' (pa_cu pa) [] q1)); [exact (proj2 M1)|reflexivity]].
  unfold parse_objects, launch, parse_trlc_file. rewrite (dbind_do _ _ _ _ _ E1). cbv beta.
  rewrite eof_do; [cbn; reflexivity|]. cbn [s_ps]. inversion R1; subst. auto.
Qed.
Lemma fine_named G v : objects_fine G v -> named_types v.
Proof.
  intros O. assert (Nm := of_names _ _ O). split.
  - intros k r I. apply (no_stab _ Nm) in I as [V _]. assert (X := ev_type _ _ _ _ V _ eq_refl). apply X.
  - intros d k r Id I. apply (no_pkgs _ Nm _ _ _ Id) in I as [V _]. assert (X := ev_type _ _ _ _ V _ eq_refl). apply X.
Qed.
Lemma objects_files_do G ns : types_ok matches G -> frozen_once G -> proper ns ->
  forall files v v', valid_objects (package_table ns) files v v' -> forall pas, map input_of pas = files ->
  (forall pa, In pa pas -> ready_file ns pa /\ begun_with ns pa /\ parser_ok v pa /\ pa_ok pa = true) -> objects_fine G v ->
  exists ms, parse_trlc_files recovery pas v true = Ok (true, v', ms) /\ existsb is_error ms = false.
Proof.
  intros Ty Fo Pr. induction 1 as [v|f fs name im body p ps v v1 v' Fi En Po Ti V IH]; intros pas Em Rd O.
  - apply map_eq_nil in Em. subst pas. cbn. eauto.
  - destruct pas as [|pa pas]; [discriminate|]. cbn in Em. injection Em as <- Em.
    destruct (Rd pa) as (Rp & Bp & Pp & Okp); [cbn; auto|].
    assert (Nw : forall tk z, body = tk :: z -> ~ word "import" tk) by (intros tk z E; eapply object_word; eauto).
    assert (Lp : (p < List.length (v_pkgs v))%nat). { destruct (file_do _ _ _ _ _ _ _ Pr Rp Bp Fi Nw En Po) as (raw & q' & Ec & _). apply (pk_range _ _ Pp). rewrite Ec. auto. }
    assert (Eg := of_types _ _ O).
    destruct (parse_objects_do ns pa name im body p ps v v1) as (ms & E1 & Sp1); auto.
    { constructor; auto; [rewrite Eg; auto|eapply fine_named; eauto]. } { rewrite Eg. auto. }
    destruct (objects_file matches recovery G Ty _ _ _ _ _ O Pp Okp E1) as (O1 & T1 & _).
    destruct (IH pas Em) as (ms2 & E2 & Sp2); auto.
    { intros x I. destruct (Rd x) as (A & B & C & D); [cbn; auto|]. repeat split; auto; eapply parser_tabled; eauto. }
    cbn [parse_trlc_files]. rewrite E1. cbn [bind andb]. rewrite E2. cbn [bind]. eexists. split; [reflexivity|]. rewrite existsb_app, Sp1, Sp2. auto.
Qed.
End RUN.

(** ** References *)
Scheme links_mut := Minimality for links Sort Prop
  with all_links_mut := Minimality for all_links Sort Prop
  with field_links_mut := Minimality for field_links Sort Prop.
Combined Scheme links_all from links_mut, all_links_mut, field_links_mut.
Lemma links_again v : (forall x y, links v x y -> links v y y) /\ (forall xs ys, all_links v xs ys -> all_links v ys ys) /\
  (forall xs ys, field_links v xs ys -> field_links v ys ys).
Proof.
  apply links_all; intros; try (constructor; auto; fail).
  apply ln_ref. destruct H as [p0 d n0 o0 ob E I Eo|a0 p0 d n0 o0 ob E I Eo F]; eapply link_type; eauto. apply rt_refl.
Qed.
Definition typed_as (objs objs' : list object) : Prop := forall o ob, nth_error objs o = Some ob -> exists ob', nth_error objs' o = Some ob' /\ o_typ ob' = o_typ ob.
Lemma link_do v objs l a p n b o : wf_types (v_types v) -> distinct_tables v -> typed_as (v_objs v) objs -> link v a p n b o ->
  resolve_ref (v_types v) objs (final_names v) l a p n = Ok (Some b, Some o).
Proof.
  intros Wf [_ Dt] Ty H.
  assert (X : exists d ob, nth_error (v_pkgs v) p = Some d /\ In (n, N_obj o) d /\ nth_error (v_objs v) o = Some ob /\
    match a with Some a => fits_ref (v_types v) ob a | None => True end /\ Some b = match a with Some _ => a | None => Some (TRec (o_typ ob)) end).
  { destruct H; eauto 8. }
  destruct X as (d & ob & E & I & Eo & F & ->). destruct (Ty _ _ Eo) as (ob' & Eo' & Et). rewrite <- Et. apply ref_do; auto. split; [|split; auto].
  - unfold entry, p_symbols. cbn. rewrite (nth_error_nth _ _ _ E). apply find_entry; [apply (Dt _ _ E)|]. apply in_or_app. auto.
  - destruct a as [a|]; auto. unfold fits_ref in *. rewrite Et. auto.
Qed.
Lemma links_do v objs : wf_types (v_types v) -> distinct_tables v -> typed_as (v_objs v) objs ->
  (forall x y, links v x y -> resolve_value (v_types v) objs (final_names v) x = Ok y) /\
  (forall xs ys, all_links v xs ys -> each (resolve_value (v_types v) objs (final_names v)) xs = Ok ys) /\
  (forall xs ys, field_links v xs ys -> each (on_field (v_types v) objs (final_names v)) xs = Ok ys).
Proof.
  intros Wf Dt Ty. apply links_all; intros; auto.
  - rewrite resolve_lit, H0. auto.
  - rewrite resolve_arr, H0. auto.
  - rewrite resolve_tup, H0. auto.
  - cbn. rewrite (link_do v objs l a p n b o); auto.
  - cbn. rewrite H0, H2. auto.
  - cbn. unfold on_field at 1. cbn. rewrite H0. cbn. rewrite H2. auto.
Qed.
Lemma object_links v objs ob ob' : wf_types (v_types v) -> distinct_tables v -> typed_as (v_objs v) objs -> linked_object v ob ob' ->
  resolve_object (v_types v) objs (final_names v) ob = Ok ob' /\ resolve_object (v_types v) objs (final_names v) ob' = Ok ob'.
Proof.
  intros Wf Dt Ty [p n l r fs fs' F]. destruct (links_do v objs Wf Dt Ty) as [Lk _]. unfold resolve_object. cbn.
  set (f := fun kf : text * field => let '(k, (id, x)) := kf in do v' <- resolve_value (v_types v) objs (final_names v) x ; Ok (k, (id, v'))).
  assert (X : each f fs = Ok fs' /\ each f fs' = Ok fs').
  { induction F as [|[k [i x]] [k' [i' y]] fs fs' (E1 & E2 & L) F [IH1 IH2]]; cbn in *; auto. subst.
    rewrite (Lk _ _ L), (Lk _ _ (proj1 (links_again v) _ _ L)). cbn. rewrite IH1, IH2. auto. }
  destruct X as [-> ->]. auto.
Qed.
Definition with_objs (v : env) (objs : list object) : env := Env (v_types v) objs (v_secs v) (v_stab v) (v_pkgs v) (v_next v).
Lemma nth_same {A} (l l' : list A) : List.length l = List.length l' -> (forall i x, nth_error l i = Some x -> nth_error l' i = Some x) -> l = l'.
Proof.
  revert l'. induction l as [|x l IH]; intros [|y l'] E H; cbn in E; try discriminate; auto. pose proof (H 0%nat x eq_refl) as X. injection X as ->.
  f_equal. apply IH; [lia|]. intros i z. apply (H (Datatypes.S i) z).
Qed.
Lemma forall2_nth {A B} (R : A -> B -> Prop) l l' : Forall2 R l l' -> forall i x, nth_error l i = Some x -> exists y, nth_error l' i = Some y /\ R x y.
Proof. induction 1; intros [|i] z E; cbn in *; try discriminate; eauto. injection E as <-. eauto. Qed.
Lemma forall2_length {A B} (R : A -> B -> Prop) l l' : Forall2 R l l' -> List.length l = List.length l'.
Proof. induction 1; cbn; auto. Qed.
Section LINKING.
Variables v2 v : env.
Hypothesis wf : wf_types (v_types v2).
Hypothesis tables : distinct_tables v2.
Hypothesis linked_objs : Forall2 (linked_object v2) (v_objs v2) (v_objs v).
(** Some objects are linked. *)
Definition mixed (objs : list object) : Prop := List.length objs = List.length (v_objs v2) /\
  forall o ob, nth_error objs o = Some ob -> nth_error (v_objs v2) o = Some ob \/ nth_error (v_objs v) o = Some ob.
Lemma mixed_typed objs : mixed objs -> typed_as (v_objs v2) objs.
Proof.
  intros [L M] o ob E. assert (X : (o < List.length objs)%nat) by (rewrite L; apply nth_error_Some; congruence).
  destruct (nth_error objs o) as [ob'|] eqn:E'; [|apply nth_error_None in E'; lia]. exists ob'. split; auto.
  destruct (M _ _ E') as [X'|X']; [congruence|]. destruct (forall2_nth _ _ _ linked_objs _ _ E) as (y & Ey & Ly). rewrite Ey in X'. injection X' as <-. destruct Ly. auto.
Qed.
Lemma linking os : forall objs, (forall o, In o os -> (o < List.length (v_objs v2))%nat) -> mixed objs ->
  exists objs', resolve_references os (with_objs v2 objs) true = Ok (true, with_objs v2 objs', []) /\ mixed objs' /\
    forall o ob, nth_error (v_objs v) o = Some ob -> In o os \/ nth_error objs o = Some ob -> nth_error objs' o = Some ob.
Proof.
  induction os as [|o os IH]; intros objs Lo Mx.
  - exists objs. split; auto. split; auto. intros o ob E [[]|X]; auto.
  - cbn [resolve_references]. assert (Lx : (o < List.length objs)%nat) by (destruct Mx as [-> _]; apply Lo; cbn; auto).
    change (v_objs (with_objs v2 objs)) with objs. destruct (nth_error objs o) as [ob|] eqn:E; [|apply nth_error_None in E; lia].
    assert (X : exists y, nth_error (v_objs v) o = Some y /\ resolve_object (v_types v2) objs (final_names v2) ob = Ok y).
    { destruct (proj2 Mx _ _ E) as [Y|Y].
      - destruct (forall2_nth _ _ _ linked_objs _ _ Y) as (y & Ey & Ly). exists y. split; auto. apply object_links; auto using mixed_typed.
      - exists ob. split; auto. assert (Z : (o < List.length (v_objs v2))%nat) by (apply Lo; cbn; auto). destruct (nth_error (v_objs v2) o) as [x|] eqn:Ex; [|apply nth_error_None in Ex; lia].
        destruct (forall2_nth _ _ _ linked_objs _ _ Ex) as (y & Ey & Ly). rewrite Ey in Y. injection Y as ->. eapply object_links; eauto using mixed_typed. }
    destruct X as (y & Ey & Ry). change (v_types (with_objs v2 objs)) with (v_types v2). change (final_names (with_objs v2 objs)) with (final_names v2). rewrite Ry.
    change (change_object o (fun _ => y) (with_objs v2 objs)) with (with_objs v2 (change objs o (fun _ => y))).
    destruct (IH (change objs o (fun _ => y))) as (objs' & E' & Mx' & F); [intros; apply Lo; cbn; auto| |].
    { split; [rewrite change_length; apply Mx|]. intros i x Ei. destruct (Nat.eq_dec o i) as [<-|N].
      - rewrite change_same, E in Ei. cbn in Ei. injection Ei as <-. auto.
      - rewrite change_other in Ei by auto. apply Mx. auto. }
    exists objs'. split; auto. split; auto. intros i x Ex H. apply F; auto. destruct (Nat.eq_dec o i) as [<-|N].
    + right. rewrite change_same, E. cbn. congruence.
    + rewrite change_other by auto. destruct H as [[H|H]|H]; auto. contradiction.
Qed.
End LINKING.
Lemma all_linked G v2 v : wf_types (v_types v2) -> distinct_tables v2 -> objects_fine G v2 -> linked v2 v ->
  resolve_references (all_objects v2) v2 true = Ok (true, v, []).
Proof.
  intros Wf Dt O (E1 & E2 & E3 & E4 & E5 & F).
  destruct (linking v2 v Wf Dt F (all_objects v2) (v_objs v2)) as (objs' & E & Mx & X).
  - intros o I. unfold all_objects, all_values in I. apply in_flat_map in I as (e & I & Ie). destruct e; try contradiction. destruct Ie as [<-|[]].
    apply in_flat_map in I as (p & _ & I). apply in_map_iff in I as ([k e] & Ee & I). cbn in Ee. subst e. apply (proj1 (table_values_in _ _)) in I.
    destruct (nth_error (v_pkgs v2) p) as [d|] eqn:Ed; [rewrite (nth_error_nth _ _ _ Ed) in I|rewrite nth_overflow in I; [destruct I|apply nth_error_None; auto]].
    destruct (of_entries _ _ O _ _ _ _ Ed I) as (ob & Eo & _). apply nth_error_Some. congruence.
  - split; auto.
  - replace (with_objs v2 (v_objs v2)) with v2 in E by (destruct v2; auto). rewrite E. f_equal. f_equal. f_equal.
    assert (Eo : v_objs v = objs').
    { apply nth_same; [rewrite (proj1 Mx); symmetry; eapply forall2_length; eauto|]. intros o ob Ev. apply X; auto. left.
      assert (L : (o < List.length (v_objs v2))%nat) by (rewrite (forall2_length _ _ _ F); apply nth_error_Some; congruence).
      destruct (nth_error (v_objs v2) o) as [x|] eqn:Ex; [|apply nth_error_None in Ex; lia]. eapply all_listed; eauto. }
    subst objs'. destruct v; cbn in *. subst. reflexivity.
Qed.

(** ** Checks *)
Lemma assoc_fields o k f : assoc k (o_fields o) = Some f -> assoc k (Checks.fields_of o) = Some (snd f).
Proof. unfold Checks.fields_of. induction (o_fields o) as [|[k' [i x]] l IH]; cbn; [discriminate|]. destruct (text_eqb k' k); auto. intros E. injection E as <-. auto. Qed.
Lemma tup_fields_key G W cs vs c : tup_fields G W cs vs -> In c cs -> exists x, assoc (c_name c) vs = Some x.
Proof.
  induction cs as [|c' cs IH] in vs |- *; intros H I; [destruct I|]. inversion H; subst; cbn; (destruct (text_eqb (c_name c') (c_name c)) eqn:E; [eauto|]);
    (destruct I as [<-|I]; [rewrite text_eqb_refl in E; discriminate|eauto]).
Qed.
Section CHECKED.
Variable matches : text -> text -> option bool.
Variable v : env.
Notation G := (v_types v).
Notation W := (World (v_objs v) matches).
Hypothesis types : types_ok matches G.
Lemma value_placed a x : vt G W a x -> forall s, In s (ChecksProofs.value_sites G a x) -> exists l, ChecksProofs.place s l.
Proof.
  intros H. assert (M : (forall a x, vt G W a x -> forall s, In s (ChecksProofs.value_sites G a x) -> exists l, ChecksProofs.place s l) /\
    (forall cs d, tup_fields G W cs d -> True)); [|destruct M; eauto].
  clear H a x. apply vt_all; auto; try (cbn; contradiction).
  - intros l k refs s I. destruct k as [| |? []| |]; destruct I.
  - intros l a op l' k refs A _ _ s I. destruct A as [-> | ->]; destruct I.
  - intros l i lo hi el vs H1 IH s I. cbn in I. apply in_flat_map in I as (x & Ix & I). eauto.
  - intros l u ut vs E Tf _ s I. cbn in I. rewrite E in I. apply in_map_iff in I as (c & <- & I).
    destruct (ck_anchor c) as [k|] eqn:A; [|eexists; apply ChecksProofs.place_object; auto].
    destruct (co_anchor _ _ _ _ (uo_checks _ _ _ _ (ty_tups _ _ types _ _ E) _ I) _ A) as (y & Iy & <-). cbn in Iy. unfold tup in Iy. rewrite E in Iy.
    destruct (tup_fields_key _ _ _ _ _ Tf Iy) as (z & Ez). eexists. eapply ChecksProofs.place_anchor; eauto.
Qed.
Lemma value_shaped a x : vt G W a x -> ChecksProofs.shaped G a x.
Proof.
  intros H. assert (M : (forall a x, vt G W a x -> ChecksProofs.shaped G a x) /\ (forall cs d, tup_fields G W cs d -> True)); [|apply M; auto].
  clear H a x. apply vt_all; cbn; auto.
  - intros l k refs. destruct k as [| |? []| |]; cbn; auto.
  - intros l a op l' k refs A _ _. destruct A as [-> | ->]; cbn; auto.
  - intros l i lo hi el vs H1 IH. apply Forall_forall. auto.
  - intros l u ut vs E _ _. apply nth_error_Some. congruence.
Qed.
Lemma object_placed ob : ready G (v_objs v) ob -> settled matches G (v_objs v) ob ->
  ChecksProofs.shaped_object G ob /\ forall s, In s (ChecksProofs.object_sites G ob) -> exists l, ChecksProofs.place s l.
Proof.
  intros [(rt & Er & _) _ _] [Sf _]. split.
  - intros c I. destruct (Sf c I) as (f & E & Ft). exists (snd f). split; [apply assoc_fields; auto|]. destruct Ft as [Vt|(_ & l & ->)]; [apply value_shaped; auto|].
    destruct (c_typ c); cbn; auto.
  - intros s I. unfold ChecksProofs.object_sites in I. apply in_app_or in I as [I|I].
    + apply in_flat_map in I as (c & Ic & I). destruct (Sf c Ic) as (f & E & Ft). unfold ChecksProofs.component_sites in I. rewrite (assoc_fields _ _ _ E) in I.
      destruct Ft as [Vt|(_ & l & Ef)]; [eapply value_placed; eauto|]. rewrite Ef in I. destruct (c_typ c); destruct I.
    + unfold ChecksProofs.record_sites in I. apply in_map_iff in I as (c & <- & I).
      destruct (ck_anchor c) as [k|] eqn:A; [|eexists; apply ChecksProofs.place_object; auto].
      assert (Or := ok_order _ _ types). assert (L : (o_typ ob < List.length (recs G))%nat) by (apply nth_error_Some; unfold rec in Er; congruence).
      destruct (lineage_exists G Or _ L) as (ln & Ln). rewrite (iter_checks_spec G Or _ _ Ln) in I. apply in_flat_map in I as (r & Ir & I).
      apply (lineage_in G _ _ Ln) in Ir. unfold own_checks in I. destruct (nth_error (recs G) r) as [rt'|] eqn:Er'; [|destruct I].
      destruct (co_anchor _ _ _ _ (ro_checks _ _ _ _ (ty_recs _ _ types _ _ Er') _ I) _ A) as (y & Iy & <-). cbn in Iy.
      destruct (Sf y (components_inherited G Or _ _ _ L Ir Iy)) as (f & E & _). eexists. eapply ChecksProofs.place_anchor; [eauto|]. apply assoc_fields. eauto.
Qed.
Lemma checks_do : (forall o ob, nth_error (v_objs v) o = Some ob -> ready G (v_objs v) ob) ->
  (forall o ob, nth_error (v_objs v) o = Some ob -> settled matches G (v_objs v) ob) ->
  (forall ob s, In ob (v_objs v) -> In s (ChecksProofs.object_sites G ob) ->
    ChecksProofs.outcome W s ChecksProofs.Holds \/ (ChecksProofs.outcome W s ChecksProofs.Fails /\ ck_sev (ChecksProofs.s_check s) = Sev_warning)) ->
  exists ms, run_checks matches v = Ok (true, ms).
Proof.
  intros Rd Se Fn.
  assert (Li : forall ob, In ob (listed_objects v) -> exists o, nth_error (v_objs v) o = Some ob).
  { intros ob I. unfold listed_objects in I. apply in_flat_map in I as (o & _ & I). destruct (nth_error (v_objs v) o) as [x|] eqn:E; [|destruct I]. destruct I as [<-|[]]. eauto. }
  assert (D : forall ob, In ob (listed_objects v) -> ChecksProofs.decided_object W G ob /\ forall s, In s (ChecksProofs.object_sites G ob) -> ~ ChecksProofs.rejects W s).
  { intros ob I. apply Li in I as (o & E). destruct (object_placed ob (Rd _ _ E) (Se _ _ E)) as [Sh Pl]. apply nth_error_In in E. split.
    - split; auto. intros s I. split; auto. destruct (Fn _ _ E I) as [H|[H _]]; eauto.
    - intros s I [[F N]|(e & U)]; destruct (Fn _ _ E I) as [H|[H N']]; try contradiction.
      + pose proof (ChecksProofs.outcome_fun _ _ _ _ H F). discriminate.
      + pose proof (ChecksProofs.outcome_fun _ _ _ _ H U). discriminate.
      + pose proof (ChecksProofs.outcome_fun _ _ _ _ H U). discriminate. }
  destruct (ChecksProofs.perform_all_spec W G (listed_objects v) true) as (_ & b & Sb & B); [intros ob I; apply D; auto|].
  assert (b = true). { apply B. split; auto. intros ob I. apply D in I as [D1 D2]. apply ChecksProofs.object_accepted; auto. }
  subst b. unfold run_checks. destruct (Checks.perform_all _ _ _ _) as [ms e]. cbn in Sb. subst e. eauto.
Qed.
End CHECKED.

(** ** All files *)
Lemma types_wf matches G : types_ok matches G -> wf_types G.
Proof. apply ok_order. Qed.
Section MAIN.
Variable compiles : text -> bool.
Variable matches : text -> text -> option bool.
Variable pick : list SourceMan.node -> nat.
Variable lint recovery : bool.
Hypothesis regex : forall p x, compiles p = true -> matches p x <> None.
Theorem run_laid fs rsl trlc rsl_names more v1 v2 v : RunValid.laid_out compiles matches fs rsl trlc rsl_names more v1 v2 v ->
  forall lr, (if lint then run_linter v1 else Ok []) = lr ->
  match lr with
  | Ok _ => unchecked matches v /\ exists ms, (forall m, In m ms -> is_error m = true -> overlooked fs m) /\
      process compiles matches pick lint recovery fs =
        bind (run_checks matches v) (fun '(ok, ms') => Ok (if ok then Some v else None, ms ++ ms'))
  | Crash => process compiles matches pick lint recovery fs = Crash
  | _ => True
  end.
Proof.
  intros V lr Li. destruct (va_rsl_names _ _ _ _ _ _ _ _ _ _ V) as (rf & Rin & Rs & Rn). destruct (va_more _ _ _ _ _ _ _ _ _ _ V) as (tf & tn & Tin & Tsr & Tn & Nn).
  destruct (build_do fs rsl_names more rf tf tn (va_ids _ _ _ _ _ _ _ _ _ _ V) (va_files _ _ _ _ _ _ _ _ _ _ V) Rin Rs Rn Tin Tsr Tn Nn (va_distinct _ _ _ _ _ _ _ _ _ _ V))
    as (gr & Eg & Okp & bt & Etf & Br & Bt).
  destruct (build_ok _ _ Eg) as [Bl Pk]. destruct (bt_proper _ _ _ _ bt) as [Pr Pa].
  set (rs := map file_of (gr_rsl gr)) in *. set (ts := map file_of (gr_trlc gr)) in *.
  assert (kr := kinds_rsl _ _ _ _ bt). assert (kt := kinds_trlc _ _ _ _ bt). assert (Fn := fine_files _ _ _ _ bt). fold rs ts in kr, kt, Fn.
  assert (Dr : forall pa, In pa (gr_rsl gr) -> ready_file rsl_names pa) by (intros pa I; apply (bt_rsl _ _ _ _ bt); auto).
  assert (Kr : forall pa, In pa (gr_rsl gr) -> pa_kind pa = RSL) by (intros pa I; apply (bt_rsl _ _ _ _ bt); auto).
  assert (Dt : forall pa, In pa (gr_trlc gr) -> ready_file (rsl_names ++ more) pa) by (intros pa I; apply (bt_trlc _ _ _ _ bt); auto).
  assert (Kt : forall pa, In pa (gr_trlc gr) -> pa_kind pa = TRLC) by (intros pa I; apply (bt_trlc _ _ _ _ bt); auto).
  unfold process. rewrite Eg. cbn [bind].
  destruct (SourceManProofs.closure_needed rs ts kr kt Fn pick) as (required & Cl & Rq).
  unfold SourceMan.initial_work in Cl. fold rs ts in Cl.
  unfold SourceMan.initial_work. rewrite (bt_graph _ _ _ _ bt), (bt_files _ _ _ _ bt). fold rs ts. rewrite Cl. clear Cl.
  destruct (SourceManProofs.rsl_work_needed rs ts kr kt Fn required Rq) as [Wn Wk].
  (** The order of files with types *)
  destruct (SourceManProofs.build_spec rs ts kr kt Fn) as (_ & _ & _ & _ & _ & _ & _ & _ & _ & Ed).
  destruct (waves_do fs (SourceMan.b_graph (SourceMan.build rs ts)) [] rsl) as (names & Fd & Wv).
  { intros P d. rewrite Ed. symmetry. apply (needs_same _ _ _ _ bt). }
  { exact (va_order _ _ _ _ _ _ _ _ _ _ V). }
  assert (Rf : forall f P, In f rsl -> declares f P -> exists pa, In pa (gr_rsl gr) /\ input_of pa = f /\ needed fs (types_node P)).
  { intros f P I D. apply (va_rsl _ _ _ _ _ _ _ _ _ _ V) in I as (I & K & P' & D' & Nd). destruct (declares_from _ _ _ _ bt _ _ I D) as (pa & Ip & <- & _).
    apply (file_kind _ _ _ _ bt) in Ip. change (i_kind (input_of pa)) with (pa_kind pa) in K, Nd. rewrite K in Ip, Nd. exists pa. split; auto. split; auto.
    apply (ready_pkg _ _ (Dr _ Ip)) in D, D'. assert (P' = P) by congruence. subst. auto. }
  specialize (Wv (Datatypes.S (List.length (SourceMan.rsl_work (SourceMan.build rs ts) required))) (SourceMan.rsl_work (SourceMan.build rs ts) required) Wn).
  unfold SourceMan.rsl_work in Wv |- *. rewrite (bt_files _ _ _ _ bt). fold rs ts.
  change (map types_node []) with (@nil SourceMan.node) in Wv. rewrite Wv; clear Wv; [|intros n; split|lia].
  2:{ intros I. apply Wk in I as (K & (f & If & D) & Nd). destruct n as [P k]. cbn in K, D. subst k. apply in_map_iff in If as (pa & <- & Ip).
      apply (ready_declares _ _ (Dr _ Ip)) in D. assert (J : In (input_of pa) rsl).
      { apply (va_rsl _ _ _ _ _ _ _ _ _ _ V). split; [apply (used_in _ _ _ _ bt), in_or_app; auto|]. split; [exact (Kr _ Ip)|]. exists P. split; auto.
        change (i_kind (input_of pa)) with (pa_kind pa). rewrite (Kr _ Ip). apply (needed_same _ _ _ _ bt). auto. }
      destruct (forall2_in_l _ _ _ _ Fd J) as (P' & I' & D'). exists P'. split; auto. apply (ready_pkg _ _ (Dr _ Ip)) in D, D'. unfold types_node. congruence. }
  2:{ intros (P & I & ->). destruct (forall2_in _ _ _ _ Fd I) as (f & If & D). destruct (Rf _ _ If D) as (pa & Ip & <- & Nd). apply Wk. split; auto. split.
      - exists (file_of pa). split; [apply in_map; auto|]. apply (ready_declares _ _ (Dr _ Ip)). auto.
      - apply (needed_same _ _ _ _ bt). auto. }
  assert (Hp : exists pas, map input_of pas = rsl /\ (forall pa, In pa pas -> In pa (gr_rsl gr)) /\
    Forall2 (fun nd pa => find (has_node nd) (gr_rsl gr) = Some pa) (map types_node names) pas).
  { clear - Fd Rf Dr Kr bt. induction Fd as [|f P fl names D Fd IH]; [exists []; repeat split; [intros ? []|constructor]|].
    destruct IH as (pas & Em & Ip & F); [intros; apply Rf; cbn; auto|]. destruct (Rf f P) as (pa & I & E & _); cbn; auto.
    exists (pa :: pas). split; [cbn; congruence|]. split; [intros x [<-|J]; auto|]. constructor; auto. subst f.
    destruct (find (has_node (types_node P)) (gr_rsl gr)) as [pb|] eqn:Ef.
    - apply find_some in Ef as [Ib Hb]. apply (node_ready _ _ _ (Dr _ Ib)) in Hb as [Db _]. f_equal. eapply (one_file _ _ _ _ bt); eauto.
    - exfalso. assert (X := List.find_none _ _ Ef _ I). assert (Y : has_node (types_node P) pa = true) by (apply (node_ready _ _ _ (Dr _ I)); split; auto; apply Kr; auto). congruence. }
  destruct Hp as (pas & Em & Il & Fp). rewrite (bt_env _ _ _ _ bt) in *.
  destruct (types_files_do compiles matches lint recovery regex rsl_names (gr_rsl gr) Pr (fun pa I => conj (Dr pa I) (Br pa I)) rsl _ _ (va_types _ _ _ _ _ _ _ _ _ _ V) pas (map types_node names) Em Il Fp)
    as (ms1 & E1 & Sp1 & N1 & Fo); [split; [intros [|r] s x y X; discriminate|intros [|r] x X; discriminate]|apply blank_decl; auto|intros r k f f' (q & _ & X); unfold own_frozen in X; cbn in X; destruct q; destruct X|].
  rewrite E1. cbn [bind]. rewrite Okp. cbn [andb negb]. rewrite Bool.andb_false_r.
  assert (T1 : tabled (start_env (rsl_names ++ more)) v1) by (eapply types_files in E1 as [_ T1]; eauto using blank_decl).
  assert (El : (if lint && true then run_linter v1 else Ok []) = lr) by (rewrite Bool.andb_true_r; auto).
  rewrite El. destruct lr as [lm| | |]; auto. cbn [bind].
  (** Objects *)
  destruct N1 as [Ob [Ty Nm]].
  assert (F1 : objects_fine (v_types v1) v1).
  { constructor; auto; rewrite Ob.
    - intros [|o] ob Q; discriminate.
    - intros q d k o Eq I. apply nth_error_In in Eq. destruct (no_pkgs _ Nm _ _ _ Eq I) as [X _]. assert (L := ev_obj _ _ _ _ X o eq_refl).
      rewrite Ob in L. cbn in L. lia. }
  set (keep := fun pa => pa_ok pa && selected required pa) in *.
  assert (Sel : forall pa, In pa (gr_trlc gr) -> keep pa = true <-> file_needed fs (input_of pa)).
  { intros pa I. unfold keep. rewrite forallb_forall in Okp. rewrite (Okp pa) by (apply in_or_app; auto). cbn [andb]. apply (selected_needed _ _ _ _ bt); auto. apply in_or_app; auto. }
  assert (Et : map input_of (filter keep (gr_trlc gr)) = trlc).
  { apply before_same; [|exact (va_sorted _ _ _ _ _ _ _ _ _ _ V)|].
    - apply filter_sorted. rewrite Etf. auto.
    - intros f. rewrite (va_trlc _ _ _ _ _ _ _ _ _ _ V). split.
      + intros I. apply in_map_iff in I as (pa & <- & I). apply filter_In in I as [I X]. split; [apply (used_in _ _ _ _ bt), in_or_app; auto|]. split; [exact (Kt _ I)|]. apply Sel; auto.
      + intros (I & K & Nd). assert (D := Nd). destruct D as (P & D & _). destruct (declares_from _ _ _ _ bt _ _ I D) as (pa & Ip & <- & _).
        apply (file_kind _ _ _ _ bt) in Ip. change (i_kind (input_of pa)) with (pa_kind pa) in K. rewrite K in Ip. apply in_map. apply filter_In. split; auto. apply Sel; auto. }
  assert (Pk1 : forall pa, In pa (filter keep (gr_trlc gr)) -> parser_ok v1 pa /\ pa_ok pa = true).
  { intros pa I. apply filter_In in I as [I X]. apply Bool.andb_true_iff in X as [X _]. split; auto. eapply parser_tabled; eauto. }
  destruct (objects_files_do compiles matches recovery regex (v_types v1) (rsl_names ++ more) Ty Fo Pa trlc v1 v2 (va_objects _ _ _ _ _ _ _ _ _ _ V) (filter keep (gr_trlc gr)) Et) as (ms2 & E2 & Sp2); auto.
  { intros pa I. destruct (Pk1 _ I). apply filter_In in I as [I _]. auto. }
  rewrite E2. cbn [bind negb].
  destruct (objects_files matches recovery (v_types v1) Ty _ _ _ _ _ _ F1 Pk1 E2) as (F2 & T2 & C2). destruct (C2 eq_refl) as [_ C2'].
  assert (Ac : all_complete (v_types v1) v2). { apply C2'. intros o ob E. rewrite Ob in E. destruct o; discriminate. }
  (** References *)
  assert (Tp := of_types _ _ F2).
  assert (E3 : resolve_references (all_objects v2) v2 true = Ok (true, v, [])).
  { eapply all_linked; eauto.
    - rewrite Tp. eapply types_wf; eauto.
    - apply (tb_distinct _ _ T2). apply (tb_distinct _ _ T1). apply blank_tables. auto.
    - exact (va_linked _ _ _ _ _ _ _ _ _ _ V). }
  rewrite E3. cbn [bind negb].
  split; [eapply (unchecked_result compiles matches pick lint recovery regex) with (sel := selected required); eauto; rewrite (bt_env _ _ _ _ bt); eauto|].
  eexists. split; [|instantiate (1 := (((gr_msgs gr ++ ms1 ++ []) ++ lm ++ ms2) ++ [])); destruct (run_checks matches v) as [[[] ms4]| | |]; reflexivity].
  assert (Sl : existsb is_error lm = false).
  { destruct (existsb is_error lm) eqn:X; auto. exfalso. destruct lint; cbn in Li; [apply lint_messages in Li; apply Li; exact X|]. injection Li as <-. discriminate. }
  assert (No : forall ms m, existsb is_error ms = false -> In m ms -> is_error m = true -> overlooked fs m).
  { clear. intros ms m N I E. assert (X : existsb is_error ms = true) by (apply existsb_exists; eauto). congruence. }
  intros m I E. rewrite ?app_nil_r in I. repeat rewrite in_app_iff in I. destruct I as [[I|I]|[I|I]]; eauto.
  eapply graph_overlooked; eauto.
Qed.
Theorem run_valid fs rsl trlc rsl_names more v1 v2 v : RunValid.valid compiles matches fs rsl trlc rsl_names more v1 v2 v ->
  forall lr, (if lint then run_linter v1 else Ok []) = lr ->
  match lr with
  | Ok _ => exists ms, process compiles matches pick lint recovery fs = Ok (Some v, ms) /\ forall m, In m ms -> is_error m = true -> overlooked fs m
  | Crash => process compiles matches pick lint recovery fs = Crash
  | _ => True
  end.
Proof.
  intros V lr Li. assert (K := run_laid _ _ _ _ _ _ _ _ V lr Li). destruct lr as [lm| | |]; auto. destruct K as (Un & ms & Ov & ->).
  destruct (checks_do matches v (un_types _ _ Un) (un_ready _ _ Un) (un_settled _ _ Un) (va_checks _ _ _ _ _ _ _ _ _ _ V)) as (ms4 & E4).
  rewrite E4. cbn [bind]. eexists. split; [reflexivity|]. apply check_messages in E4. intros m I E. apply in_app_or in I as [I|I]; auto.
  exfalso. assert (X : false = true); [|discriminate]. symmetry. apply E4. apply existsb_exists. eauto.
Qed.
End MAIN.
