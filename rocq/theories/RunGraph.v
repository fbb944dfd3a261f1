(** Preambles, packages and the dependency graph of a run. *)
From Coq Require Import Permutation Relations Sorted.
From Verif Require Import Base Lexer SymTab Ast Eval Typing TypesProofs ParserBase ParserExpr ParserProofs ExprSyntax ParserValue ExprTyping
  ValueSyntax ValueParserSound Lint ParserDecl ParserFile Resolve Growth DeclInv DeclRsl DeclSyntax DeclSound Process ProcessInv RunSyntax.
From Verif Require Notes SourceMan SourceManProofs.
Import SourceMan (fkind, RSL, TRLC).
From Coq Require Import ZifyBool ZifyNat ZifyN.
Open Scope Z_scope.

(** ** Tokens *)
Lemma lex_items src n s ts : lex_from src n s = Lexed ts <-> items_from src n s = Some (map ITok ts).
Proof.
  revert s ts. induction n as [|n IH]; intros s ts; cbn; [split; discriminate|].
  destruct (next_token src s) as [s' r]. destruct r as [tk| |e| |].
  - specialize (IH s'). split.
    + destruct (lex_from src n s') as [us| | |] eqn:E; try discriminate. intros H. injection H as <-. rewrite (proj1 (IH us) eq_refl). auto.
    + destruct (items_from src n s') as [l|] eqn:E; [|discriminate]. cbn. intros H. injection H as H. destruct ts as [|t0 ts]; [discriminate|].
      cbn in H. injection H as <- ->. rewrite (proj2 (IH ts) eq_refl). auto.
  - split; intros H; injection H as H; [subst; auto|]. destruct ts; [auto|discriminate].
  - split; [discriminate|]. destruct (items_from src n s'); [|discriminate]. cbn. intros H. destruct ts; discriminate.
  - split; [discriminate|]. intros H. destruct ts as [|? [|]]; discriminate.
  - split; discriminate.
Qed.

(** The position from which the tokens of the list are read *)
Lemma fetch_spec prev l n l' : fetch prev l = Got (n, l') ->
  exists cs, forallb (fun tk => negb (not_comment tk)) cs = true /\
    match n with
    | Some tk => l = map ITok (cs ++ [tk]) ++ l' /\ not_comment tk = true
    | None => l = map ITok cs /\ l' = []
    end.
Proof.
  revert prev. induction l as [|[tk|e|] l IH]; cbn; intros prev H; try discriminate.
  - injection H as <- <-. exists []. auto.
  - destruct (kind_eq_dec (tk_kind tk) COMMENT) as [K|K].
    + apply IH in H as (cs & C & H). exists (tk :: cs). split; [cbn; unfold not_comment at 1; destruct (kind_eq_dec _ _); [auto|contradiction]|].
      destruct n; [destruct H as [-> ?]; auto|destruct H as [-> ->]; auto].
    + injection H as <- <-. exists []. cbn. split; auto. split; auto. unfold not_comment. destruct (kind_eq_dec _ _); [contradiction|auto].
Qed.
Lemma comments_out cs : forallb (fun tk => negb (not_comment tk)) cs = true -> filter not_comment cs = [].
Proof.
  induction cs as [|tk cs IH]; cbn; auto. intros H. apply Bool.andb_true_iff in H as [H1 H2].
  destruct (not_comment tk); [discriminate|auto].
Qed.
(** All that was read up to a position *)
Definition has_read (src : text) (ts : list token) (q : pos) : Prop :=
  exists l all, items src = Some l /\ ts = filter not_comment all /\
    l = map ITok all ++ match nt q with Some tk => ITok tk :: rest q | None => [] end /\
    match nt q with Some tk => not_comment tk = true | None => rest q = [] end.
Lemma read_more src ts q us q' : has_read src ts q -> reads q us q' -> has_read src (ts ++ us) q'.
Proof.
  intros H R. revert ts H. induction R as [q|q tk n l us q' N F R IH]; intros ts (li & all & E & Et & El & Ec); [rewrite app_nil_r; exists li, all; auto|].
  rewrite N in El, Ec. apply fetch_spec in F as (cs & C & F).
  replace (ts ++ tk :: us) with ((ts ++ [tk]) ++ us) by (rewrite <- app_assoc; auto). apply IH.
  exists li, (all ++ [tk] ++ cs). split; auto. split.
  - rewrite !filter_app, (comments_out _ C), app_nil_r, <- Et. cbn. rewrite Ec. auto.
  - cbn [nt rest]. destruct n as [tk'|].
    + destruct F as [F F']. rewrite F in El. split; auto. rewrite El. rewrite !map_app, <- !app_assoc. cbn. auto.
    + destruct F as [F ->]. rewrite F in El. split; auto. rewrite El. rewrite !map_app, <- !app_assoc, app_nil_r. cbn. auto.
Qed.
Lemma read_begins src ts q : has_read src ts q -> begins src ts.
Proof. intros (l & all & A & B & C & _). exists l, all. eexists. eauto. Qed.
Lemma read_all src ts q : has_read src ts q -> nt q = None -> tokens_of src ts.
Proof.
  intros (l & all & A & B & C & _) N. rewrite N, app_nil_r in C. exists all. split; auto. unfold lex. apply lex_items. subst l. exact A.
Qed.

(** ** Packages *)
Definition proper (ns : list text) : Prop := NoDup (map simplified_name (SourceMan.builtin_names ++ ns)).
Lemma table_keys ns : map fst (package_table ns) = SourceMan.builtin_names ++ ns.
Proof.
  unfold package_table. rewrite map_app. f_equal. generalize 0%nat. induction ns as [|k ns IH]; intros i; cbn; auto. f_equal. auto.
Qed.
Lemma table_in ns k p : In (k, N_pkg p) (package_table ns) <-> nth_error ns p = Some k.
Proof.
  unfold package_table. rewrite in_app_iff.
  assert (X : ~ In (k, N_pkg p) builtin_table) by (cbn; intros H; decompose [or] H; (contradiction || discriminate)).
  assert (Y : forall i q, In (k, N_pkg q) (combine ns (map N_pkg (seq i (List.length ns)))) <-> (i <= q)%nat /\ nth_error ns (q - i) = Some k).
  { clear. induction ns as [|k' ns IH]; intros i q; cbn.
    - split; [contradiction|]. intros [_ H]. destruct (q - i)%nat; discriminate.
    - rewrite IH. split.
      + intros [H|[L H]]; [injection H as -> ->; rewrite Nat.sub_diag; auto|]. split; [lia|]. replace (q - i)%nat with (Datatypes.S (q - Datatypes.S i)) by lia. auto.
      + intros [L H]. destruct (Nat.eq_dec q i) as [->|Nq]; [rewrite Nat.sub_diag in H; cbn in H; left; congruence|].
        right. split; [lia|]. replace (q - i)%nat with (Datatypes.S (q - Datatypes.S i)) in H by lia. auto. }
  rewrite Y. rewrite Nat.sub_0_r. intuition lia.
Qed.
Lemma find_entry {A} (d : list (text * A)) k x : NoDup (map (fun y => simplified_name (fst y)) d) -> In (k, x) d -> t_find d k = Some (k, x).
Proof.
  induction d as [|[k' x'] d IH]; cbn; intros N I; [contradiction|]. inversion N as [|? ? Ni N']; subst.
  destruct I as [I|I]; [injection I as -> ->; rewrite text_eqb_refl; auto|].
  destruct (text_eqb _ _) eqn:E; [|auto]. apply text_eqb_eq in E. exfalso. apply Ni. apply (in_map (fun y => simplified_name (fst y))) in I. change (In (simplified_name k) (map (fun y => simplified_name (fst y)) d)) in I. rewrite <- E in I. exact I.
Qed.
Lemma proper_table ns : proper ns -> NoDup (map (fun y => simplified_name (fst y)) (package_table ns)).
Proof. unfold proper. rewrite <- table_keys, map_map. auto. Qed.
Lemma package_entry ns k p : proper ns -> entry (package_table ns) k (N_pkg p) <-> nth_error ns p = Some k.
Proof.
  intros P. unfold entry. rewrite <- table_in. split; [apply t_find_in|]. apply find_entry. apply proper_table. auto.
Qed.
Lemma free_similar ns k : free_name (package_table ns) k <-> SourceMan.similar_mem k (SourceMan.builtin_names ++ ns) = false.
Proof.
  rewrite <- table_keys. unfold free_name, SourceMan.similar_mem. rewrite <- Bool.not_true_iff_false, existsb_exists. split.
  - intros H (m & I & E). apply text_eqb_eq in E. apply in_map_iff in I as ([k' x] & <- & I). apply (H _ _ I). cbn. auto.
  - intros H k' x I E. apply H. exists k'. split; [apply (in_map fst) in I; auto|]. apply text_eqb_eq. auto.
Qed.
Lemma contains_mem ns k : proper ns -> t_contains (package_table ns) k = SourceMan.name_mem k (SourceMan.builtin_names ++ ns).
Proof.
  intros P. unfold t_contains. apply Bool.eq_iff_eq_true. rewrite SourceManProofs.name_mem_In, <- table_keys. split.
  - destruct (t_find _ _) as [[k' x]|] eqn:F; [|discriminate]. intros E. apply text_eqb_eq in E. subst. apply t_find_in in F. apply (in_map fst) in F. auto.
  - intros I. apply in_map_iff in I as ([k' x] & E & I). cbn in E. subst. rewrite (find_entry _ _ _ (proper_table _ P) I). apply text_eqb_refl.
Qed.
Lemma package_mem ns k p : proper ns -> entry (package_table ns) k (N_pkg p) -> SourceMan.name_mem k ns = true.
Proof. intros P E. apply package_entry in E; auto. apply SourceManProofs.name_mem_In. eapply nth_error_In; eauto. Qed.
Lemma combine_snoc {A B} (l : list A) (m : list B) a b : List.length l = List.length m -> combine (l ++ [a]) (m ++ [b]) = combine l m ++ [(a, b)].
Proof. revert m. induction l as [|x l IH]; intros [|y m]; cbn; intros E; try discriminate; auto. f_equal. apply IH. lia. Qed.
Lemma table_snoc ns k : package_table (ns ++ [k]) = package_table ns ++ [(k, N_pkg (List.length ns))].
Proof.
  unfold package_table. rewrite app_length. change (List.length [k]) with 1%nat. rewrite seq_app, map_app, <- app_assoc. f_equal.
  apply combine_snoc. rewrite map_length, seq_length. auto.
Qed.
Lemma proper_snoc ns k : proper ns -> free_name (package_table ns) k -> proper (ns ++ [k]).
Proof.
  unfold proper. intros P F. rewrite app_assoc, map_app. apply SourceManProofs.NoDup_snoc; auto.
  intros I. rewrite <- table_keys, map_map in I. apply in_map_iff in I as ([k' x] & E & I). apply (F k' x); auto.
Qed.
Lemma proper_nil : proper [].
Proof. unfold proper. vm_compute. repeat constructor; cbn; intros H; decompose [or] H; (discriminate || contradiction). Qed.

(** ** Preambles *)

(** Imports without repetitions *)
Definition once (name : text) (l raw : list token) : Prop :=
  NoDup (map tok_text raw) /\ (forall k, In k (map tok_text raw) <-> In k (map tok_text l)) /\ ~ In name (map tok_text raw) /\ incl raw l.
Lemma imports_sound file m v c sec q u s' : imports_loop file m (St v c sec q) = DOk u s' ->
  NoDup (map tok_text (cu_raw c)) -> ~ In (cu_name c) (map tok_text (cu_raw c)) ->
  exists l ts raw q', imports_part l ts /\ reads (at_ q) ts (at_ q') /\ s' = St v (CU (cu_pkg c) (cu_name c) raw (cu_imports c)) sec q' /\
    NoDup (map tok_text raw) /\ ~ In (cu_name c) (map tok_text raw) /\
    (forall k, In k (map tok_text raw) <-> In k (map tok_text (cu_raw c ++ l))) /\ incl raw (cu_raw c ++ l) /\ (forall tk, In tk l -> tok_text tk <> cu_name c) /\
    peek_kw (t "import") q' = false.
Proof.
  revert c q. induction m as [|m IH]; intros c q H Nd Ni; cbn [imports_loop] in H; [discriminate|].
  apply dcond_cases in H as [(_ & H)|(Pk & H)].
  - dinv H. dok H0. apply match_kw_ok in H0 as (K1 & R1 & _). dinv H. dok H0. apply match_ok in H0 as (K2 & R2 & _).
    apply dbind_ok in H as ([] & s2 & H0 & H). unfold add_import, dcu in H0. unfold dbind at 1 in H0. cbn [s_cu] in H0.
    destruct (text_eqb (tok_text a0) (cu_name c)) eqn:E; [discriminate|].
    assert (Ne : tok_text a0 <> cu_name c) by (intros X; rewrite X, text_eqb_refl in E; discriminate).
    destruct (existsb _ _) eqn:Ex.
    + apply dp_ok in H0 as (q2 & H0 & ->). unfold pnote in H0. injection H0 as <-. cbn in H.
      apply existsb_exists in Ex as (x & Ix & Ex). apply text_eqb_eq in Ex.
      apply IH in H as (l & ts & raw & q2 & Ip & R3 & -> & A & B & C & C' & D & Pk); auto. exists (a0 :: l), (a :: a0 :: ts), raw, q2.
      split; [constructor; auto|]. split; [do 2 (eapply (reads_app _ [_]); [eassumption|]); auto|]. split; auto. split; auto. split; auto. split.
      * intros k. rewrite C. rewrite !map_app, !in_app_iff. cbn. split; [tauto|]. intros [I|[<-|I]]; auto. left. rewrite <- Ex. apply in_map. auto.
      * split; [intros y I; apply C' in I; apply in_app_or in I as [I|I]; apply in_or_app; cbn; auto|]. split; auto. intros tk [<-|I]; auto.
    + injection H0 as <-. cbn in H. apply IH in H as (l & ts & raw & q2 & Ip & R3 & -> & A & B & C & C' & D & Pk).
      * exists (a0 :: l), (a :: a0 :: ts), raw, q2. split; [constructor; auto|]. split; [do 2 (eapply (reads_app _ [_]); [eassumption|]); auto|].
        split; auto. split; auto. split; auto. split.
        -- intros k. rewrite C. cbn [cu_raw]. rewrite <- app_assoc. tauto.
        -- cbn [cu_raw] in C'. rewrite <- app_assoc in C'. split; auto. split; auto. intros tk [<-|I]; auto.
      * cbn. rewrite map_app. apply SourceManProofs.NoDup_snoc; auto. intros I. apply in_map_iff in I as (x & Ex' & Ix).
        assert (X : existsb (fun x => text_eqb (tok_text x) (tok_text a0)) (cu_raw c) = true).
        { apply existsb_exists. exists x. split; auto. apply text_eqb_eq. auto. } congruence.
      * cbn. rewrite map_app, in_app_iff. cbn. intros [I|[I|[]]]; auto.
  - injection H as _ <-. exists [], [], (cu_raw c), q. split; [constructor|]. split; [constructor|]. split; [destruct c; auto|].
    rewrite app_nil_r. repeat split; auto using incl_refl.
Qed.
(** The packages after a preamble *)
Definition next_names (k : fkind) (ns : list text) (name : text) (p : nat) (ns' : list text) : Prop :=
  (free_name (package_table ns) name /\ p = List.length ns /\ ns' = ns ++ [name]) \/
  (k = TRLC /\ nth_error ns p = Some name /\ ns' = ns).
Lemma preamble_sound file n k ns q s' u : proper ns ->
  parse_preamble file n k (St (start_env ns) no_unit [] q) = DOk u s' ->
  exists name l raw ts p ns' q', preamble_part name l ts /\ reads (at_ q) ts (at_ q') /\
    s' = St (start_env ns') (CU (Some p) (tok_text name) raw None) [] q' /\ once (tok_text name) l raw /\ next_names k ns (tok_text name) p ns' /\
    peek_kw (t "import") q' = false.
Proof.
  intros P H. unfold parse_preamble in H. dinv H. dok H0. apply match_kw_ok in H0 as (K1 & R1 & _). dinv H. dok H0. apply match_ok in H0 as (K2 & R2 & _).
  dinv H. dinv H0. apply dbind_ok in H as (p & s1 & H0 & H).
  assert (X : exists ns', s1 = St (start_env ns') no_unit [] q1 /\ next_names k ns (tok_text a0) p ns').
  { destruct (match k with RSL => true | TRLC => _ end) eqn:Dk.
    - unfold declare_package in H0. dinv H0. dinv H1. apply dbind_ok in H0 as (u1 & s1' & H1 & H0). apply dlift_ok in H1 as (Rg & ->).
      apply registrable_free in Rg. dinv H0. dinv H1. dinv H0. exists (ns ++ [tok_text a0]). split.
      + unfold start_env. rewrite table_snoc, map_app. cbn [v_types v_objs v_secs v_stab v_pkgs v_next s_env s_cu s_sec s_ps map]. rewrite map_length. auto.
      + left. cbn. rewrite map_length. auto.
    - destruct k; [discriminate|]. unfold find_package in H0. apply dbind_ok in H0 as (e & s1' & H1 & H0).
      apply with_names_ok in H1 as (q2 & H1 & ->). apply lift_ok in H1 as (H1 & ->). apply t_lookup_entry in H1 as (En & _). cbn in En.
      destruct e; try discriminate. injection H0 as <- <-. exists ns. split; auto. right. split; auto. split; auto.
      apply package_entry; auto. }
  destruct X as (ns' & -> & Nx). clear H0. unfold set_cu in H. unfold dbind at 1 in H. cbn [s_env s_cu s_sec s_ps] in H.
  apply imports_sound in H as (l & ts & raw & q3 & Ip & R3 & -> & A & B & C & C' & D & Pk); cbn; [|constructor|auto].
  exists a0, l, raw, (a :: a0 :: ts), p, ns', q3. split; [constructor; auto|]. split; [do 2 (eapply (reads_app _ [_]); [eassumption|]); auto|].
  cbn. split; auto. split; auto. split; auto.
Qed.
Lemma next_proper k ns name p ns' : proper ns -> next_names k ns name p ns' -> proper ns' /\ nth_error ns' p = Some name /\ exists more, ns' = ns ++ more.
Proof.
  intros P [(F & -> & ->)|(_ & E & ->)].
  - split; [apply proper_snoc; auto|]. split; [rewrite nth_error_app2, Nat.sub_diag; auto|eauto].
  - split; auto. split; auto. exists []. rewrite app_nil_r. auto.
Qed.

(** ** Agreement with SourceMan.v *)
Definition input_of (pa : parser) : input_file := Input (pa_id pa) (pa_kind pa) (pa_primary pa) (pa_src pa).
Definition file_of (pa : parser) : SourceMan.file := SourceMan.p_file (parsed_of pa).
(** A file after its preamble; [d] are the names that can be imported. *)
Record begun (ns : list text) (pa : parser) (name : token) (l : list token) (ts : list token) (raw : list token) (p : nat) (imp : option (list nat)) : Prop := Begun {
  be_syntax : preamble_part name l ts;
  be_read : has_read (pa_src pa) ts (pa_pos pa);
  be_cu : pa_cu pa = CU (Some p) (tok_text name) raw imp;
  be_once : once (tok_text name) l raw;
  be_package : nth_error ns p = Some (tok_text name);
  be_ok : pa_ok pa = true;
  be_end : forall tk, nt (pa_pos pa) = Some tk -> ~ word "import" tk
}.
Definition preambled (ns : list text) (pa : parser) : Prop := exists name l ts raw p, begun ns pa name l ts raw p None.
Definition ready_file (ns : list text) (pa : parser) : Prop :=
  exists name l ts raw p ps, begun ns pa name l ts raw p (Some ps) /\ imports_are (package_table ns) l ps.

Lemma add_imports_once pkg l acc : NoDup (acc ++ l) -> ~ In pkg l -> SourceMan.add_imports pkg l acc = (acc ++ l, true).
Proof.
  revert acc. induction l as [|k l IH]; intros acc Nd Ni; cbn; [rewrite app_nil_r; auto|].
  destruct (text_eqb k pkg) eqn:E; [apply text_eqb_eq in E; destruct Ni; cbn; auto|].
  destruct (SourceMan.name_mem k acc) eqn:M.
  - exfalso. apply SourceManProofs.name_mem_In in M. apply NoDup_remove_2 in Nd. apply Nd. apply in_or_app. auto.
  - rewrite IH; rewrite <- ?app_assoc; auto. intros I. apply Ni. cbn. auto.
Qed.
Lemma parsed_step k ns name p ns' (fs : list SourceMan.parsed) (g : SourceMan.graph) (e : Z) pa l raw : proper ns -> next_names k ns (tok_text name) p ns' ->
  pa_kind pa = k -> pa_cu pa = CU (Some p) (tok_text name) raw None -> once (tok_text name) l raw -> pa_ok pa = true ->
  SourceMan.preamble_step (SourceMan.BState ns g fs e) (file_of pa) = SourceMan.BState ns' (add_node g (parsed_of pa)) (fs ++ [parsed_of pa]) e.
Proof.
  intros P Nx K Ec (On & _ & Os & _) Ok. unfold SourceMan.preamble_step, SourceMan.parse_preamble, file_of, add_node, parsed_of. cbn [SourceMan.b_pkgs SourceMan.p_file SourceMan.f_pre SourceMan.f_kind].
  rewrite Ec, Ok. cbn [cu_pkg cu_name cu_raw SourceMan.p_pkg SourceMan.p_ok].
  rewrite (add_imports_once _ _ [] On Os). cbn [app].
  destruct Nx as [(F & -> & ->)|(-> & E & ->)].
  - rewrite (proj1 (free_similar _ _) F).
    assert (D : match pa_kind pa with RSL => true | TRLC => negb (SourceMan.name_mem (tok_text name) (SourceMan.builtin_names ++ ns)) end = true).
    { destruct (pa_kind pa); auto. apply Bool.negb_true_iff. rewrite <- contains_mem by auto. unfold t_contains. apply t_find_none in F. rewrite F. auto. }
    rewrite D. cbn. rewrite Z.add_0_r. auto.
  - rewrite K. cbn [negb].
    assert (I : In (tok_text name) ns) by (eapply nth_error_In; eauto).
    assert (D : SourceMan.name_mem (tok_text name) (SourceMan.builtin_names ++ ns) = true) by (apply SourceManProofs.name_mem_In; apply in_or_app; auto).
    rewrite D. cbn [negb]. rewrite (proj2 (SourceManProofs.name_mem_In _ _) I). cbn. rewrite Z.add_0_r. auto.
Qed.
Lemma begun_more ns more pa name l ts raw p imp : begun ns pa name l ts raw p imp -> begun (ns ++ more) pa name l ts raw p imp.
Proof. intros [A B C D E F J]. constructor; auto. rewrite nth_error_app1; auto. apply nth_error_Some. congruence. Qed.
(** Messages that do not prevent a result *)
Definition soft_msg (m : msg) : Prop := exists x, m = Msg_note x /\ Notes.soft x.
Lemma soft_messages s : Forall Notes.soft (out (s_ps s)) -> Forall soft_msg (messages s).
Proof. intros F. unfold messages. apply Forall_forall. intros m I. apply in_map_iff in I as (x & <- & I). rewrite Forall_forall in F. exists x. auto. Qed.
Definition hint (x : note) : Prop := match x with Note_lint _ _ => True | Note_error _ => False end.
Definition hint_msg (m : msg) : Prop := exists x, m = Msg_note x /\ hint x.
Lemma hint_messages s : Forall hint (out (s_ps s)) -> Forall hint_msg (messages s).
Proof. intros F. unfold messages. apply Forall_forall. intros m I. apply in_map_iff in I as (x & <- & I). rewrite Forall_forall in F. exists x. auto. Qed.
(** [tk] names a package that is not declared. *)
Definition unknown_import (ns : list text) (l : list parser) (m : msg) : Prop :=
  exists pa tk e, In pa l /\ In tk (cu_raw (pa_cu pa)) /\ ~ In (tok_text tk) ns /\ m = Msg_note (Note_error (E_name (tok_loc (pa_id pa) tk) e)).
Definition unread (bad : list input_file) (m : msg) : Prop :=
  exists f e, In f bad /\ unreadable f e /\ m = Msg_note (Note_error (E_lex e)).
Definition opened (pa : parser) : Prop := pa_cu pa = no_unit /\ has_read (pa_src pa) [] (pa_pos pa).
Lemma preambles_refine k l ns l' v' ms : proper ns -> (forall pa, In pa l -> opened pa /\ pa_kind pa = k) ->
  preambles l (start_env ns) = Ok (l', v', ms) -> forallb pa_ok l' = true ->
  Forall hint_msg ms /\ exists more, v' = start_env (ns ++ more) /\ proper (ns ++ more) /\ (forall pa, In pa l' -> preambled (ns ++ more) pa) /\
    map input_of l' = map input_of l /\ (forall P, In P more -> In (Some P) (map SourceMan.p_pkg (map parsed_of l'))) /\
    forall g fs e, fold_left SourceMan.preamble_step (map file_of l') (SourceMan.BState ns g fs e) =
      SourceMan.BState (ns ++ more) (fold_left add_node (map parsed_of l') g) (fs ++ map parsed_of l') e.
Proof.
  revert ns l' v' ms. induction l as [|pa l IH]; cbn [preambles]; intros ns l' v' ms P O H Ok.
  - injection H as <- <- <-. split; auto. exists []. rewrite app_nil_r. split; auto. split; auto. split; [intros pa []|]. split; auto. split; [intros P' []|]. intros. cbn. rewrite app_nil_r. auto.
  - apply bind_ok in H as ([[pa1 v1] ms1] & E1 & H). apply bind_ok in H as ([[l2 v2] ms2] & E2 & H). injection H as <- <- <-.
    cbn in Ok. apply Bool.andb_true_iff in Ok as [Ok1 Ok2].
    destruct (O pa (or_introl eq_refl)) as [[Oc Or] Ok']. unfold parser_preamble, launch in E1. rewrite Oc in E1.
    match type of E1 with context [parse_preamble ?a ?b ?c ?s0] => pose proof (Notes.dquiet_preamble hint (fun _ _ => I) a b c s0) as Q; destruct (parse_preamble a b c s0) as [u s|e s| |] eqn:Pr end;
      cbn in E1; try discriminate; injection E1 as <- <- <-; [|discriminate].
    assert (Sm : Forall hint_msg (messages s)) by (apply hint_messages; destruct Q as (nl & -> & Fl); auto). clear Q.
    apply preamble_sound in Pr as (name & im & raw & ts & p & ns1 & q' & Sy & Rd & -> & Oe & Nx & Pk); auto. cbn in Rd.
    destruct (next_proper _ _ _ _ _ P Nx) as (P1 & Np & m1 & ->).
    assert (M1 : forall P', In P' m1 -> P' = tok_text name).
    { intros P' I. destruct Nx as [(_ & _ & E)|(_ & _ & E)]; [apply app_inv_head in E; subst; destruct I as [<-|[]]; auto|]. rewrite <- (app_nil_r ns) in E at 2. apply app_inv_head in E. subst. destruct I. }
    set (pa1 := set_ok true (St (start_env (ns ++ m1)) (CU (Some p) (tok_text name) raw None) [] q') pa) in *.
    assert (B : begun (ns ++ m1) (set_ok true (St (start_env (ns ++ m1)) (CU (Some p) (tok_text name) raw None) [] q') pa) name im ts raw p None).
    { constructor; auto; cbn.
      - apply (read_more _ [] _ _ _ Or Rd).
      - intros tk N W. unfold peek_kw, next_is in Pk. rewrite N in Pk. unfold is_kw, is_kind, has_text in Pk. destruct W as [-> ->] in Pk.
        rewrite text_eqb_refl in Pk. discriminate. }
    apply IH in E2 as (Sm2 & m2 & -> & P2 & Pb & Im & M2 & St); auto; [|intros; apply O; cbn; auto]. rewrite <- app_assoc in *. split; [apply Forall_app; auto|]. exists (m1 ++ m2).
    split; auto. split; auto. split; [|split; [|split]].
    + intros pa' [<-|I]; auto. do 5 eexists. rewrite app_assoc. apply begun_more. exact B.
    + cbn. f_equal. auto.
    + intros P' I. apply in_app_or in I as [I|I]; [left; rewrite (M1 _ I); auto|right; auto].
    + intros g fs e. cbn [map fold_left].
      rewrite (parsed_step (pa_kind pa) ns name p (ns ++ m1) fs g e pa1 im raw P Nx eq_refl eq_refl Oe eq_refl), St. cbn [map fold_left]. rewrite <- app_assoc. auto.
Qed.

(** Imports *)
Lemma package_named ns p k : nth_error ns p = Some k -> package_name (package_table ns) p = k.
Proof.
  intros E. unfold package_name. set (f := fun x : text * entity => match snd x with N_pkg q => Nat.eqb q p | _ => false end).
  destruct (find f (package_table ns)) as [[k' e]|] eqn:F.
  - apply find_some in F as [I X]. unfold f in X. cbn in X. destruct e; try discriminate. apply Nat.eqb_eq in X. subst. apply table_in in I. congruence.
  - exfalso. apply table_in in E. apply (List.find_none _ _ F) in E. unfold f in E. cbn in E. rewrite Nat.eqb_refl in E. discriminate.
Qed.
Lemma lookup_names file d tk c e : e_lookup file d tk c = Err e -> exists e', e = E_name (tok_loc file tk) e'.
Proof.
  unfold e_lookup, t_lookup. destruct (t_find _ _) as [[? ?]|]; [|injection 1 as <-; eauto].
  destruct (text_eqb _ _); [destruct c as [c|]; [destruct (c _)|]|]; try discriminate; injection 1 as <-; eauto.
Qed.
Lemma imported_names file ns l ps es : proper ns -> imported file (package_table ns) l = (ps, es) ->
  map (package_name (package_table ns)) ps = filter (fun i => SourceMan.name_mem i ns) (map tok_text l) /\ imports_are (package_table ns) l ps /\
  forall e, In e es -> exists tk e', In tk l /\ ~ In (tok_text tk) ns /\ e = E_name (tok_loc file tk) e'.
Proof.
  intros P. revert ps es. induction l as [|tk l IH]; cbn [imported]; intros ps es H.
  - injection H as <- <-. split; auto. split; [|intros e []]. intros q. split; [intros []|intros (tk & [] & _)].
  - destruct (imported file (package_table ns) l) as [ps0 es0]. destruct (IH _ _ eq_refl) as (A & B & C). clear IH.
    assert (X : (exists q, nth_error ns q = Some (tok_text tk) /\ ps = q :: ps0 /\ es = es0) \/ (~ In (tok_text tk) ns /\ ps = ps0 /\ exists e, es = E_name (tok_loc file tk) e :: es0)).
    { destruct (e_lookup file (package_table ns) tk (Some is_package)) as [e|e| |] eqn:E.
      - apply t_lookup_entry in E as [En Ip]. destruct e as [| |q| | |]; try discriminate. injection H as <- <-. left. exists q. split; auto. apply package_entry; auto.
      - injection H as <- <-. right. split; [|split; [auto|]]; [|apply lookup_names in E as (e' & ->); eauto]. intros I. apply In_nth_error in I as (q & I). apply package_entry in I; auto.
        unfold e_lookup, t_lookup in E. unfold entry in I. rewrite I, text_eqb_refl in E. discriminate.
      - exfalso. unfold e_lookup, t_lookup in E. destruct (t_find _ _) as [[? ?]|]; [|discriminate]. destruct (text_eqb _ _); [|discriminate]. destruct (is_package _); discriminate.
      - exfalso. unfold e_lookup, t_lookup in E. destruct (t_find _ _) as [[? ?]|]; [|discriminate]. destruct (text_eqb _ _); [|discriminate]. destruct (is_package _); discriminate. }
    destruct X as [(q & E & -> & ->)|(Ni & -> & e & ->)].
    + split.
      * cbn [map filter]. rewrite (proj2 (SourceManProofs.name_mem_In _ _) (nth_error_In _ _ E)). rewrite (package_named _ _ _ E), A. auto.
      * split; [|intros e I; apply C in I as (tk' & e' & I & N & ->); exists tk', e'; repeat split; auto; right; auto]. intros q'. split.
        -- intros [<-|I]; [exists tk; split; [left; auto|apply package_entry; auto]|]. apply B in I as (tk' & I & En). exists tk'. split; [right|]; auto.
        -- intros (tk' & [<-|I] & En); [|right; apply B; eauto]. left. apply package_entry in En; auto.
           assert (Nd : NoDup ns). { unfold proper in P. rewrite map_app in P. apply SourceManProofs.NoDup_app_iff in P as (_ & P & _). clear - P. induction ns; cbn in *; constructor; inversion P; subst; auto. intros I. apply (in_map simplified_name) in I. auto. }
           eapply NoDup_nth_error; eauto; [apply nth_error_Some; congruence|congruence].
    + split.
      * cbn [map filter]. destruct (SourceMan.name_mem (tok_text tk) ns) eqn:M; [apply SourceManProofs.name_mem_In in M; contradiction|auto].
      * split; [|intros e0 [<-|I]; [exists tk, e; repeat split; auto; left; auto|apply C in I as (tk' & e' & I & N & ->); exists tk', e'; repeat split; auto; right; auto]].
        intros q'. rewrite (B q'). split; intros (tk' & I & En); exists tk'; (split; [|auto]); [right; auto|].
        destruct I as [<-|I]; auto. apply package_entry in En; auto. apply nth_error_In in En. contradiction.
Qed.
Lemma imports_same d l raw ps : (forall k, In k (map tok_text raw) <-> In k (map tok_text l)) -> imports_are d raw ps -> imports_are d l ps.
Proof.
  intros S I q. rewrite (I q). split; intros (tk & J & E); apply (in_map tok_text) in J; apply S in J; apply in_map_iff in J as (tk' & E' & J); exists tk'; rewrite E'; auto.
Qed.
Lemma resolve_refine ns l g l2 g2 ms : proper ns -> (forall pa, In pa l -> preambled ns pa) -> resolve_all l (start_env ns) g = (l2, g2, ms) ->
  (forall pa, In pa l2 -> ready_file ns pa) /\ map input_of l2 = map input_of l /\ map parsed_of l2 = map parsed_of l /\ (forall m, In m ms -> unknown_import ns l2 m) /\
  forall fs e, exists e', fold_left SourceMan.import_step (map parsed_of l) (SourceMan.BState ns g fs e) = SourceMan.BState ns g2 fs e'.
Proof.
  intros P. revert g l2 g2 ms. induction l as [|pa l IH]; cbn [resolve_all]; intros g l2 g2 ms O H.
  - injection H as <- <- <-. split; [intros pa []|]. split; auto. split; auto. split; [intros m []|]. intros. exists e. auto.
  - destruct (O pa (or_introl eq_refl)) as (name & im & ts & raw & p & [Sy Rd Ec On Np Ok En]).
    unfold import_names in H. rewrite Ok in H. change (v_stab (start_env ns)) with (package_table ns) in H.
    destruct (imported (pa_id pa) (package_table ns) (cu_raw (pa_cu pa))) as [ps es] eqn:Im.
    destruct (resolve_all l (start_env ns) _) as [[l3 g3] ms3] eqn:Ra. injection H as <- <- <-.
    apply IH in Ra as (A & B & C & U & D); [|intros; apply O; cbn; auto]. rewrite Ec in Im. cbn in Im. apply imported_names in Im as (Nm & Ia & Iu); auto.
    split; [|split; [|split; [|split]]].
    + intros pa' [<-|I]; auto. exists name, im, ts, raw, p, ps. split; [|eapply imports_same; eauto; apply On]. constructor; auto. cbn. rewrite Ec. auto.
    + cbn. f_equal. auto.
    + cbn [map]. f_equal; auto. unfold parsed_of. cbn. rewrite Ok. auto.
    + intros m I. apply in_app_or in I as [I|I].
      * apply in_map_iff in I as (e & <- & I). apply Iu in I as (tk & e' & I & N & ->). do 3 eexists. split; [left; reflexivity|]. cbn. rewrite Ec. cbn. eauto.
      * apply U in I as (pa' & tk & e & I & X). do 3 eexists. split; [right; exact I|]. exact X.
    + intros fs e. cbn [map fold_left].
      replace (SourceMan.import_step (SourceMan.BState ns g fs e) (parsed_of pa)) with
        (SourceMan.BState ns (add_edges g pa (map (package_name (package_table ns)) ps)) fs
          (e + Z.of_nat (List.length (map tok_text raw) - List.length (filter (fun i => SourceMan.name_mem i ns) (map tok_text raw))))); [apply D|].
      rewrite Nm. unfold SourceMan.import_step, parsed_of, add_edges, SourceMan.resolve_imports. rewrite Ec, Ok. reflexivity.
Qed.

(** ** All files *)
Lemma fetch_fails prev l e p : fetch prev l = ParserBase.Failed e p -> exists cs more, l = map ITok cs ++ IErr e :: more /\ filter not_comment cs = [].
Proof.
  revert prev. induction l as [|[tk|e'|] l IH]; cbn; intros prev H; try discriminate.
  - destruct (kind_eq_dec (tk_kind tk) COMMENT) as [K|K]; [|discriminate]. apply IH in H as (cs & more & -> & F). exists (tk :: cs), more.
    split; auto. cbn. unfold not_comment at 1. destruct (kind_eq_dec _ _); [auto|contradiction].
  - injection H as -> <-. exists [], l. auto.
Qed.
Lemma open_refine fs l ms : open_all fs = Ok (l, ms) ->
  (forall pa, In pa l -> opened pa) /\ exists bad, Permutation fs (bad ++ map input_of l) /\ (forall f, In f bad -> exists e, unreadable f e) /\ forall m, In m ms -> unread bad m.
Proof.
  revert l ms. induction fs as [|f fs IH]; cbn [open_all]; intros l ms H.
  - injection H as <- <-. split; [intros pa []|]. exists []. split; auto. split; [intros f []|intros m []].
  - apply bind_ok in H as ([o m1] & E1 & H). apply bind_ok in H as ([l2 m2] & E2 & H). cbn in H. injection H as <- <-.
    apply IH in E2 as (A & bad & B & U & V). unfold open_file in E1. destruct (items (i_src f)) as [li|] eqn:Ei; [|discriminate]. unfold p_advance in E1. cbn in E1.
    destruct (fetch None li) as [[n l']|e [n l']|] eqn:F; try discriminate; injection E1 as <- <-.
    + split.
      * intros pa [<-|I]; auto. split; auto. cbn.
        apply fetch_spec in F as (cs & C & F). exists li, cs. split; auto. split; [rewrite (comments_out _ C); auto|]. cbn.
        destruct n as [tk|]; [destruct F as [-> ?]|destruct F as [-> ->]]; (split; [|auto]).
        -- rewrite map_app, <- app_assoc. auto.
        -- rewrite app_nil_r. auto.
      * exists bad. split; [|auto]. cbn [map]. replace (input_of _) with f by (destruct f; auto). rewrite B at 1. apply Permutation_middle.
    + assert (Uf : unreadable f e) by (apply fetch_fails in F as (cs & more & -> & F); exists cs, more; auto).
      split; auto. exists (f :: bad). split; [cbn; auto|]. split; [intros f' [<-|I]; eauto|].
      intros m I. apply in_app_or in I as [[<-|[]]|I]; [exists f, e; repeat split; auto; left; auto|]. apply V in I as (f' & e' & I & X). exists f', e'. split; [right|]; auto.
Qed.
Lemma inputs_kind k (l l' : list parser) : map input_of l' = map input_of l -> (forall pa, In pa l -> pa_kind pa = k) ->
  forall pa, In pa l' -> pa_kind pa = k /\ exists pa0, In pa0 l /\ input_of pa0 = input_of pa.
Proof.
  intros E K pa I. apply (in_map input_of) in I. rewrite E in I. apply in_map_iff in I as (pa0 & X & I). split; [|eauto].
  rewrite <- (K _ I). change (i_kind (input_of pa) = i_kind (input_of pa0)). congruence.
Qed.
Lemma kinds_of k ps : (forall pa, In pa ps -> pa_kind pa = k) -> Forall (fun f => SourceMan.f_kind f = k) (map SourceMan.p_file (map parsed_of ps)).
Proof. intros H. rewrite map_map. apply Forall_forall. intros f I. apply in_map_iff in I as (pa & <- & I). cbn. auto. Qed.
Lemma insert_perm p l : Permutation (insert_parser p l) (p :: l).
Proof. induction l as [|q l IH]; cbn; auto. destruct (pa_id p <=? pa_id q); auto. rewrite IH. apply perm_swap. Qed.
Lemma by_name_perm l : Permutation (by_name l) l.
Proof. induction l as [|p l IH]; cbn; auto. rewrite insert_perm. auto. Qed.
Lemma kinds_perm l : Permutation l (of_kind RSL l ++ of_kind TRLC l).
Proof.
  induction l as [|p l IH]; cbn; auto. destruct (pa_kind p); cbn; [auto|]. rewrite IH at 1. apply Permutation_middle.
Qed.
Lemma insert_sorted p l : StronglySorted named_before (map input_of l) -> StronglySorted named_before (map input_of (insert_parser p l)).
Proof.
  induction l as [|q l IH]; cbn; intros H; [repeat constructor|]. inversion H as [|? ? Sl Fl]; subst. destruct (Z.leb_spec (pa_id p) (pa_id q)).
  - cbn. constructor; auto. constructor; auto. rewrite Forall_forall in *. intros f I. apply Fl in I. unfold named_before in *. cbn in *. lia.
  - cbn. constructor; auto. rewrite Forall_forall in *. intros f I. apply in_map_iff in I as (pa & <- & I). apply insert_in in I as [->|I].
    + unfold named_before. cbn. lia.
    + apply Fl. apply in_map. auto.
Qed.
Lemma by_name_sorted l : StronglySorted named_before (map input_of (by_name l)).
Proof. induction l as [|p l IH]; cbn; [constructor|]. apply insert_sorted. auto. Qed.
Record built (fs : list input_file) (gr : graph_result) (rns more : list text) : Prop := Built {
  bt_env : gr_env gr = start_env (rns ++ more);
  bt_proper : proper rns /\ proper (rns ++ more);
  bt_rsl : forall pa, In pa (gr_rsl gr) -> ready_file rns pa /\ pa_kind pa = RSL;
  bt_trlc : forall pa, In pa (gr_trlc gr) -> ready_file (rns ++ more) pa /\ pa_kind pa = TRLC;
  bt_split : exists bad, Permutation fs (bad ++ map input_of (gr_rsl gr ++ gr_trlc gr)) /\ forall f, In f bad -> exists e, unreadable f e;
  bt_msgs : forall m, In m (gr_msgs gr) -> unread fs m \/ hint_msg m \/ unknown_import rns (gr_rsl gr) m \/ unknown_import (rns ++ more) (gr_trlc gr) m;
  bt_sorted : StronglySorted named_before (map input_of (gr_trlc gr));
  bt_rns : forall P, In P rns -> exists pa, In pa (gr_rsl gr) /\ SourceMan.p_pkg (parsed_of pa) = Some P;
  bt_more : forall P, In P more -> exists pa, In pa (gr_trlc gr) /\ SourceMan.p_pkg (parsed_of pa) = Some P;
  bt_parsed : SourceMan.b_files (gr_state gr) = map parsed_of (gr_rsl gr ++ gr_trlc gr);
  bt_graph : SourceMan.b_graph (gr_state gr) = SourceMan.b_graph (SourceMan.build (map file_of (gr_rsl gr)) (map file_of (gr_trlc gr)));
  bt_files : SourceMan.b_files (gr_state gr) = SourceMan.b_files (SourceMan.build (map file_of (gr_rsl gr)) (map file_of (gr_trlc gr)))
}.
Theorem build_refine fs gr : build_graph fs = Ok gr -> forallb pa_ok (gr_rsl gr ++ gr_trlc gr) = true -> exists rns more, built fs gr rns more.
Proof.
  intros H Ok. unfold build_graph in H. apply bind_ok in H as ([l ms0] & E0 & H).
  apply bind_ok in H as ([[[rsl v1] g1] ms1] & E1 & H). apply bind_ok in H as ([[[trlc v2] g2] ms2] & E2 & H). injection H as <-. cbn [gr_rsl gr_trlc] in Ok.
  rewrite forallb_app in Ok. apply Bool.andb_true_iff in Ok as [Okr Okt].
  apply open_refine in E0 as (O1 & bad & O2 & O3 & O4).
  assert (Of : forall k pa, In pa (by_name (of_kind k l)) -> opened pa /\ pa_kind pa = k).
  { intros k pa I. apply (proj1 (by_name_in _ _)) in I. apply filter_In in I as [I X]. split; [apply O1; auto|]. apply SourceManProofs.fkind_eqb_eq. auto. }
  unfold container in E1, E2. apply bind_ok in E1 as ([[l1 w1] m1] & P1 & E1). destruct (resolve_all l1 w1 _) as [[r1 h1] n1] eqn:R1. injection E1 as <- <- <- <-.
  apply bind_ok in E2 as ([[l2 w2] m2] & P2 & E2). destruct (resolve_all l2 w2 _) as [[r2 h2] n2] eqn:R2. injection E2 as <- <- <- <-.
  assert (Same : forall l v g l' g' m, resolve_all l v g = (l', g', m) -> map pa_ok l' = map pa_ok l).
  { clear. induction l as [|pa l IH]; cbn [resolve_all]; intros v g l' g' m H; [injection H as <- <- <-; auto|].
    destruct (import_names v pa) as [[pa' nm] m1] eqn:E. destruct (resolve_all l v _) as [[l2 g2] m2] eqn:E2. injection H as <- <- <-. cbn. rewrite (IH _ _ _ _ _ E2). f_equal.
    unfold import_names in E. destruct (pa_ok pa) eqn:Ok; [destruct (imported _ _ _)|]; injection E as <- <- <-; auto. }
  assert (Oks : forall l l' : list parser, map pa_ok l' = map pa_ok l -> forallb pa_ok l' = true -> forallb pa_ok l = true).
  { clear. intros l l' E H. apply forallb_forall. intros x I. rewrite forallb_forall in H. apply (in_map pa_ok) in I. rewrite <- E in I. apply in_map_iff in I as (y & <- & I). auto. }
  change env0 with (start_env []) in P1. apply (preambles_refine RSL) in P1 as (Sm1 & rns & -> & Pr & Pb & Im & Nm1 & St1); [|apply proper_nil|apply Of|eapply Oks; [eapply Same; eauto|auto]].
  cbn [app] in *. apply resolve_refine in R1 as (Rd1 & Im1 & Pa1 & Ui1 & Is1); auto.
  apply (preambles_refine TRLC) in P2 as (Sm2 & more & -> & Pr2 & Pb2 & Im2 & Nm2 & St2); [|auto|apply Of|eapply Oks; [eapply Same; eauto|auto]].
  apply resolve_refine in R2 as (Rd2 & Im3 & Pa2 & Ui2 & Is2); auto.
  exists rns, more.
  assert (K1 := inputs_kind RSL _ _ (eq_trans Im1 Im) (fun pa I => proj2 (Of RSL pa I))).
  assert (K2 := inputs_kind TRLC _ _ (eq_trans Im3 Im2) (fun pa I => proj2 (Of TRLC pa I))).
  assert (F1 : map file_of r1 = map file_of l1) by (unfold file_of; rewrite <- !(map_map parsed_of SourceMan.p_file), Pa1; auto).
  assert (F2 : map file_of r2 = map file_of l2) by (unfold file_of; rewrite <- !(map_map parsed_of SourceMan.p_file), Pa2; auto).
  assert (Bu : exists e, SourceMan.build (map file_of r1) (map file_of r2) = SourceMan.BState (rns ++ more) h2 (map parsed_of (r1 ++ r2)) e).
  { unfold SourceMan.build, SourceMan.container_step. cbv zeta. rewrite F1, St1. cbn [SourceMan.b_files app].
    rewrite (SourceManProofs.of_kind_all RSL) by (rewrite <- Pa1; apply kinds_of; intros; apply K1; auto).
    destruct (Is1 (map parsed_of l1) 0) as (e1 & ->). rewrite F2, St2. cbn [SourceMan.b_files].
    rewrite SourceManProofs.of_kind_app, (SourceManProofs.of_kind_none TRLC (map parsed_of l1)), (SourceManProofs.of_kind_all TRLC (map parsed_of l2)).
    - cbn [app]. destruct (Is2 (map parsed_of l1 ++ map parsed_of l2) e1) as (e2 & ->). exists e2. rewrite map_app, Pa1, Pa2. auto.
    - rewrite <- Pa2. apply kinds_of. intros; apply K2; auto.
    - rewrite <- Pa1. eapply Forall_impl; [|apply kinds_of; intros; apply K1; eauto]. cbn. intros; congruence. }
  destruct Bu as (e & Bu). constructor; cbn [gr_env gr_rsl gr_trlc gr_state gr_msgs]; auto.
  - intros pa I. split; auto. apply K1. auto.
  - intros pa I. split; auto. apply K2. auto.
  - exists bad. split; auto. rewrite map_app, Im1, Im, Im3, Im2, <- map_app, !by_name_perm, <- kinds_perm. auto.
  - rewrite Forall_forall in Sm1, Sm2. intros m I. apply in_app_or in I as [I|I]; [left; apply O4 in I as (f & e0 & I & X); exists f, e0; split; [apply (Permutation_in _ (Permutation_sym O2)); apply in_or_app; auto|auto]|right].
    apply in_app_or in I as [I|I]; apply in_app_or in I as [I|I]; auto.
  - rewrite Im3, Im2. apply by_name_sorted.
  - intros P I. apply Nm1 in I. rewrite <- Pa1, map_map in I. apply in_map_iff in I as (pa & E & I). eauto.
  - intros P I. apply Nm2 in I. rewrite <- Pa2, map_map in I. apply in_map_iff in I as (pa & E & I). eauto.
  - rewrite Bu. auto.
  - rewrite Bu. auto.
Qed.
