(** Every declaration that is written as the manual says is accepted, and
    declares what DeclSyntax says. *)
From Coq Require Import Relations Permutation.
From Verif Require Import Base Lexer SymTab Ast Eval Typing TypesProofs ParserBase ParserProofs ParserExpr ParserValue ExprSyntax ExprMeaning
  ExprParserSound ExprParserComplete ExprTyping ExprMeaningProofs ValueSyntax ValueParserSound ValueParserComplete ValueTyping Lint ParserDecl
  ParserFile Growth DeclInv DeclRsl DeclTrlc DeclFuel DeclSyntax DeclSound.
From Verif Require SourceManProofs Notes.
From Coq Require Import ZifyBool ZifyNat ZifyN.
Open Scope Z_scope.

(** ** Steps *)
Lemma dbind_do {A B} (m : D A) (k : A -> D B) s a s1 : m s = DOk a s1 -> dbind m k s = k a s1.
Proof. unfold dbind. intros ->. auto. Qed.
Lemma dcond_true {A} b (x y : D A) v c sec q : b q = true -> dcond b x y (St v c sec q) = x (St v c sec q).
Proof. unfold dcond. cbn. intros ->. auto. Qed.
Lemma dcond_false {A} b (x y : D A) v c sec q : b q = false -> dcond b x y (St v c sec q) = y (St v c sec q).
Proof. unfold dcond. cbn. intros ->. auto. Qed.
Lemma dp_do {A} (m : P A) v c sec q a q' : m q = POk a q' -> dp m (St v c sec q) = DOk a (St v c sec q').
Proof. unfold dp, with_names. cbn. intros ->. auto. Qed.
Lemma dlift_do {A} (r : res perr A) v c sec q a : r = Ok a -> dlift r (St v c sec q) = DOk a (St v c sec q).
Proof. intros ->. reflexivity. Qed.
Lemma dget_do {B} (k : env -> D B) s : dbind dget k s = k (s_env s) s. Proof. reflexivity. Qed.
Lemma dset_do {B} f (k : unit -> D B) v c sec q : dbind (dset f) k (St v c sec q) = k tt (St (f v) c sec q). Proof. reflexivity. Qed.

(** *** The next token *)
Definition starts (P : token -> Prop) (ts : list token) : Prop := exists tk tl, ts = tk :: tl /\ P tk.
Lemma starts_weaken (P Q : token -> Prop) ts : (forall tk, P tk -> Q tk) -> starts P ts -> starts Q ts.
Proof. intros H (tk & tl & E & X). exists tk, tl. auto. Qed.
Lemma starts_app P a b : starts P a -> starts P (a ++ b).
Proof. intros (tk & tl & -> & X). exists tk, (tl ++ b). auto. Qed.
Lemma starts_cons (P : token -> Prop) tk tl : P tk -> starts P (tk :: tl).
Proof. intros X. exists tk, tl. auto. Qed.
Lemma pk_true k q tk ts p' : reads (at_ q) (tk :: ts) p' -> tk_kind tk = k -> peek k q = true.
Proof. intros R K. erewrite peek_reads by eauto. apply is_kind_true. auto. Qed.
Lemma pk_false k q tk ts p' : reads (at_ q) (tk :: ts) p' -> tk_kind tk <> k -> peek k q = false.
Proof. intros R K. erewrite peek_reads by eauto. apply is_kind_false. auto. Qed.
Lemma pk_starts k q us p' : reads (at_ q) us p' -> starts (fun tk => tk_kind tk <> k) us -> peek k q = false.
Proof. intros R (tk & tl & -> & K). eapply pk_false; eauto. Qed.
Lemma kw_true w q tk ts p' : reads (at_ q) (tk :: ts) p' -> word w tk -> peek_kw (t w) q = true.
Proof. intros R [K V]. unfold peek_kw. erewrite next_reads by eauto. apply is_kw_true. auto. Qed.
Lemma kw_false w q tk ts p' : reads (at_ q) (tk :: ts) p' -> ~ word w tk -> peek_kw (t w) q = false.
Proof.
  intros R H. unfold peek_kw. erewrite next_reads by eauto. destruct (is_kw (t w) tk) eqn:E; auto. apply is_kw_true in E. destruct (H E).
Qed.
Lemma kw_starts w q us p' : reads (at_ q) us p' -> starts (fun tk => ~ word w tk) us -> peek_kw (t w) q = false.
Proof. intros R (tk & tl & -> & K). eapply kw_false; eauto. Qed.
Lemma not_word w tk : tk_kind tk <> KEYWORD -> ~ word w tk.
Proof. intros H [K _]. auto. Qed.
Lemma other_word w w' tk : word w' tk -> text_eqb (t w') (t w) = false -> ~ word w tk.
Proof. intros [_ V] E [_ V']. rewrite V in V'. injection V' as V'. rewrite V', text_eqb_refl in E. discriminate. Qed.
Lemma word_kind w tk : word w tk -> tk_kind tk = KEYWORD. Proof. intros [K _]; auto. Qed.

Lemma registrable_do {A} (f : A -> entity) d name l : free_name d name -> registrable f d name l = Ok tt.
Proof. intros H. unfold registrable. apply t_find_none in H. rewrite H. auto. Qed.
Lemma replaced_do {A} (l l' : list A) i x y : replaced l i x y l' -> nth_error l i = Some x /\ forall f, f x = y -> change l i f = l'.
Proof.
  intros (a & b & -> & <- & ->). split; [rewrite nth_error_app2, Nat.sub_diag; auto|].
  intros f <-. induction a; cbn; auto. rewrite IHa. auto.
Qed.

Ltac norm R := repeat (progress (cbn [app] in R; rewrite <- ?app_assoc in R)).
(** Reduce a test on the next token. *)
Ltac kinds := first
  [ assumption | congruence | discriminate
  | apply not_word; congruence
  | eapply other_word; [eassumption|reflexivity]
  | intros [? ?]; congruence
  | match goal with W : word _ ?tk |- tk_kind ?tk <> _ => rewrite (word_kind _ _ W); discriminate end ].

(** *** Reported errors *)
Definition mistake (x : note) : bool := match x with Note_error _ => true | Note_lint _ _ => false end.
Definition errc (q : ps) : nat := List.length (filter mistake (out q)).
Lemma errc_same q q' : out q' = out q -> errc q' = errc q.
Proof. unfold errc. congruence. Qed.
Lemma errc_note q q' ns : out q' = out q ++ ns -> errc q' = (errc q + List.length (filter mistake ns))%nat.
Proof. unfold errc. intros ->. rewrite filter_app, app_length. auto. Qed.
(** Between the states the tokens [ts] are read, without errors. *)
Notation uses q' ts q := (rem (at_ q') + List.length ts <= rem (at_ q) /\ errc q' <= errc q)%nat.
Lemma match_go file k s tk ts p' : reads (at_ s) (tk :: ts) p' -> tk_kind tk = k ->
  exists s1, p_match file k s = POk tk s1 /\ reads (at_ s1) ts p' /\ (rem (at_ s1) < rem (at_ s) /\ errc s1 = errc s)%nat /\ out s1 = out s.
Proof. intros R K. destruct (ValueParserComplete.match_go file k s tk ts p' R K) as (s1 & E & R1 & M & O). exists s1. split; auto. split; auto. split; auto. split; auto. apply errc_same. auto. Qed.
Lemma match_kw_do file w s tk ts p' : reads (at_ s) (tk :: ts) p' -> tk_kind tk = KEYWORD /\ tk_value tk = VText w ->
  exists s1, p_match_kw file w s = POk tk s1 /\ reads (at_ s1) ts p' /\ (rem (at_ s1) < rem (at_ s) /\ errc s1 = errc s)%nat.
Proof.
  intros R K. destruct (ParserProofs.match_kw_do file w s tk ts p' R K) as (s1 & E & R1 & M). exists s1. split; auto. split; auto. split; auto.
  apply match_kw_ok in E as (_ & _ & O). apply errc_same. auto.
Qed.

(** Different record types have different names. *)
Definition own_names (G : types) : Prop := forall r s x y, nth_error (recs G) r = Some x -> nth_error (recs G) s = Some y ->
  r_pkg x = r_pkg y -> r_name x = r_name y -> r = s.

(** Record types are found under their names. *)
Definition registered (v : env) : Prop := own_names (v_types v) /\
  forall r x, nth_error (recs (v_types v)) r = Some x -> exists d, nth_error (v_pkgs v) (r_pkg x) = Some d /\ In (r_name x, N_type (TRec r)) d.
Lemma entered_fresh v p name e pkgs r x : registered v -> entered (v_stab v) (v_pkgs v) p name e pkgs ->
  nth_error (recs (v_types v)) r = Some x -> r_pkg x = p -> r_name x <> name.
Proof.
  intros [_ Rg] (d & Rp & F & _) E P N. destruct (replaced_do _ _ _ _ _ Rp) as [Nt _]. destruct (Rg _ _ E) as (d' & E' & I). rewrite P, Nt in E'.
  injection E' as <-. rewrite N in I. exact (F _ _ I eq_refl).
Qed.
Lemma entered_own v p name e pkgs rt : registered v -> entered (v_stab v) (v_pkgs v) p name e pkgs -> r_pkg rt = p -> r_name rt = name ->
  own_names (with_rec v rt).
Proof.
  intros Rg En P N r s x y Ex Ey Ep Nm. unfold with_rec in *. cbn [recs] in *.
  apply nth_extended in Ex as [Ex|[-> ->]]; apply nth_extended in Ey as [Ey|[-> ->]]; auto.
  - destruct Rg as [On _]. eapply On; eauto.
  - destruct (entered_fresh v p name e pkgs r x Rg En Ex); congruence.
  - destruct (entered_fresh v p name e pkgs s y Rg En Ey); congruence.
Qed.

Section COMPLETE.
Variable file : Z.
Variable src : text.
Variable lint : bool.
Variable compiles : text -> bool.
Variable matches : text -> text -> option bool.
Variable n : nat.
Variable c : cunit.
Variable p : nat.
Variable imports : option (list nat).
Hypothesis pkg : cu_pkg c = Some p.
Hypothesis imps : cu_imports c = imports.

Notation loc_of := (tok_loc file).
Notation names_in := (names_in p imports).

(** [m] reads the tokens [ts], of which [us] follow. *)
Definition runs {A} (m : D A) (sec : list sect) (v : env) (q : ps) (ts us : list token) (p' : pos) (a : A) (v' : env) : Prop :=
  exists q', m (St v c sec q) = DOk a (St v' c sec q') /\ reads (at_ q') us p' /\ uses q' ts q.

Ltac step L := let q1 := fresh "q" in let E := fresh "E" in let R := fresh "R" in let M := fresh "M" in
  destruct L as (q1 & E & R & M); rewrite (dbind_do _ _ _ _ _ E); clear E; cbv beta iota.
Ltac steps L q1 R M := let E := fresh "E" in
  destruct L as (q1 & E & R & M); rewrite (dbind_do _ _ _ _ _ E); clear E; cbv beta iota.

Lemma match_runs k sec v q tk us p' : reads (at_ q) (tk :: us) p' -> tk_kind tk = k ->
  runs (dp (p_match file k)) sec v q [tk] us p' tk v.
Proof.
  intros R K. destruct (match_go file k q tk us p' R K) as (q1 & E & R1 & M & _). exists q1. split; [apply dp_do; auto|]. split; auto. cbn. lia.
Qed.
Lemma word_runs w sec v q tk us p' : reads (at_ q) (tk :: us) p' -> word w tk ->
  runs (dp (p_match_kw file (t w))) sec v q [tk] us p' tk v.
Proof.
  intros R K. destruct (match_kw_do file (t w) q tk us p' R K) as (q1 & E & R1 & M). exists q1. split; [apply dp_do; auto|]. split; auto. cbn. lia.
Qed.
Lemma described_runs sec v q tk ts us p' : described tk ts -> reads (at_ q) (ts ++ us) p' -> starts (fun tk => tk_kind tk <> STRING) us ->
  runs (dp (parse_described_name file)) sec v q ts us p' tk v.
Proof.
  intros D R S. unfold parse_described_name, runs. destruct D as [tk K|tk s K Ks]; norm R.
  - destruct (match_go file IDENTIFIER q tk us p' R K) as (q1 & E & R1 & M & _). exists q1. split; [|split; auto; cbn; lia].
    apply dp_do. rewrite (pbind_do _ _ _ _ _ E). rewrite pcond_false; auto. eapply pk_starts; eauto.
  - destruct (match_go file IDENTIFIER q tk (s :: us) p' R K) as (q1 & E & R1 & M & _).
    destruct (match_go file STRING q1 s us p' R1 Ks) as (q2 & E2 & R2 & M2 & _). exists q2. split; [|split; auto; cbn; lia].
    apply dp_do. rewrite (pbind_do _ _ _ _ _ E). rewrite pcond_true by (eapply pk_true; eauto). rewrite (pbind_do _ _ _ _ _ E2). auto.
Qed.
Lemma current_do sec v q : current (St v c sec q) = DOk p (St v c sec q).
Proof. unfold current. cbn. rewrite pkg. auto. Qed.
Definition with_pkgs (v : env) (pkgs : list ntable) : env := Env (v_types v) (v_objs v) (v_secs v) (v_stab v) pkgs (v_next v).
Lemma register_do sec v q name l e pkgs : entered (v_stab v) (v_pkgs v) p name e pkgs ->
  register p name l e (St v c sec q) = DOk tt (St (with_pkgs v pkgs) c sec q).
Proof.
  intros (d & Rp & F1 & F2). destruct (replaced_do _ _ _ _ _ Rp) as [Nt Ch].
  unfold register, may_register. rewrite (dbind_do _ _ _ tt (St v c sec q)).
  - unfold dset. cbn. unfold add_entry. rewrite (Ch (fun d => d ++ [(name, e)])); auto.
  - unfold with_names. cbn. unfold p_symbols. cbn. rewrite (nth_error_nth _ _ _ Nt), registrable_do; auto.
    apply free_app. auto.
Qed.

(** ** Enumerations *)
Lemma described_first tk ts us : described tk ts -> starts (fun tk => tk_kind tk = IDENTIFIER) (ts ++ us).
Proof. destruct 1; apply starts_cons; auto. Qed.
Lemma literals_first l ts ket us : literals l ts -> tk_kind ket = C_KET ->
  starts (fun tk => tk_kind tk = IDENTIFIER \/ tk_kind tk = C_KET) (ts ++ ket :: us).
Proof.
  intros H K. destruct H as [|tk tn l ts D H]; [apply starts_cons; auto|].
  rewrite <- app_assoc. eapply starts_weaken; [|eapply described_first; eauto]. auto.
Qed.
Lemma literals_runs l ts : literals l ts -> forall m sec e pre nm b q pkg0 G0 objs secs stab pkgs k l0 ket us p',
  e = List.length pre -> tk_kind ket = C_KET -> (rem (at_ q) < m)%nat ->
  NoDup (map simplified_name (l0 ++ l)) -> reads (at_ q) (ts ++ ket :: us) p' ->
  runs (enum_literals_loop file m e b) sec
    (Env (Types (recs G0) (tups G0) (pre ++ [EnumType pkg0 nm l0])) objs secs stab pkgs k) q ts (ket :: us) p'
    (match l with [] => b | _ => false end)
    (Env (Types (recs G0) (tups G0) (pre ++ [EnumType pkg0 nm (l0 ++ l)])) objs secs stab pkgs k).
Proof.
  induction 1 as [|tk tn l ts D H IH]; intros m sec e pre nm b q pkg0 G0 objs secs stab pkgs k l0 ket us p' -> K L Nd R; norm R;
    (destruct m as [|m]; [lia|]); cbn [enum_literals_loop].
  - exists q. rewrite app_nil_r. rewrite dcond_true by (eapply pk_true; eauto). split; auto. split; auto. cbn. lia.
  - assert (X := literals_first _ _ _ us H K).
    assert (Y : starts (fun tk => tk_kind tk <> C_KET) (tn ++ ts ++ ket :: us)).
    { eapply starts_weaken; [|eapply described_first; eauto]. cbn. congruence. }
    unfold runs. rewrite dcond_false by (eapply pk_starts; eauto).
    steps (described_runs sec (Env (Types (recs G0) (tups G0) (pre ++ [EnumType pkg0 nm l0])) objs secs stab pkgs k) q tk tn (ts ++ ket :: us) p' D R
      ltac:(eapply starts_weaken; [|exact X]; cbn; intros ? [?|?]; congruence)) q1 R1 M1.
    rewrite dget_do. cbn [s_env]. rewrite (dbind_do _ _ _ tt (St (Env (Types (recs G0) (tups G0) (pre ++ [EnumType pkg0 nm l0])) objs secs stab pkgs k) c sec q1)).
    2:{ apply dlift_do, registrable_do. unfold enum_literals. cbn. rewrite nth_last. cbn. intros x y I E.
        apply in_map_iff in I as (z & Z & I). injection Z as <- <-. rewrite map_app in Nd. cbn in Nd. apply NoDup_remove_2 in Nd. apply Nd.
        apply in_or_app. left. rewrite <- E. apply in_map. auto. }
    rewrite dset_do. unfold change_enum, set_types. cbn [v_types v_objs v_secs v_stab v_pkgs v_next recs tups enums].
    rewrite change_last. cbn [en_pkg en_name en_lits add_lit].
    assert (Lt : (1 <= List.length tn)%nat) by (destruct D; cbn; lia).
    destruct (IH m sec _ pre nm false q1 pkg0 G0 objs secs stab pkgs k (l0 ++ [tok_text tk]) ket us p' eq_refl K ltac:(lia)
       ltac:(rewrite <- app_assoc; exact Nd) R1) as (q2 & E2 & R2 & M2).
    exists q2. rewrite <- app_assoc in E2. cbn [app] in E2. split; [|split; auto; rewrite app_length; lia].
    replace (match l with [] => false | _ => false end) with false in E2 by (destruct l; auto). exact E2.
Qed.
Lemma enum_runs sec v q ts us p' v' : enum_decl p v ts v' -> reads (at_ q) (ts ++ us) p' -> (rem (at_ q) < n)%nat ->
  runs (parse_enum_declaration file n) sec v q ts us p' tt v'.
Proof.
  intros D R L. destruct D as [kw name tn bra lits tl ket pkgs Kw Dn Kb Hl Kk Ne Nd En]. norm R. unfold parse_enum_declaration, runs.
  steps (word_runs "enum" sec v q kw _ p' R Kw) q1 R1 M1.
  steps (described_runs sec v q1 name tn _ p' Dn R1 ltac:(apply starts_cons; congruence)) q2 R2 M2.
  rewrite (dbind_do _ _ _ _ _ (current_do _ _ _)). rewrite dget_do. cbn [s_env].
  rewrite (dbind_do _ _ _ _ _ (register_do sec v q2 _ _ _ _ En)). rewrite dset_do.
  unfold add_enum, set_types, with_pkgs. cbn [v_types v_objs v_secs v_stab v_pkgs v_next].
  match goal with |- context [St ?v0 c sec q2] => steps (match_runs C_BRA sec v0 q2 bra _ p' R2 Kb) q3 R3 M3 end.
  cbn [List.length app] in *.
  steps (literals_runs lits tl Hl n sec _ (enums (v_types v)) (tok_text name) true q3 p (v_types v) (v_objs v) (v_secs v) (v_stab v) pkgs (v_next v)
    [] ket us p' eq_refl Kk ltac:(lia) Nd R3) q4 R4 M4.
  match goal with |- context [St ?v0 c sec q4] => steps (match_runs C_KET sec v0 q4 ket us p' R4 Kk) q5 R5 M5 end.
  exists q5. destruct lits as [|x lits]; [contradiction|]. split; [reflexivity|]. split; auto. cbn. rewrite !app_length. cbn. rewrite app_length. cbn in *. lia.
Qed.

(** ** Names of types *)
Lemma known_lookup N tk e r : known N (tok_text tk) e -> r e = true -> s_lookup file (default_scope N) tk (Some r) = Ok e /\
  s_lookup file (default_scope N) tk None = Ok e.
Proof.
  intros K Re. assert (X : s_lookup file (default_scope N) tk None = Ok e).
  { unfold default_scope. cbn. destruct K as [En|[Nc En]].
    - assert (C : t_contains (p_symbols N (n_current N)) (tok_text tk) = true) by (unfold t_contains; rewrite En; apply text_eqb_refl).
      rewrite C. apply entry_lookup; auto.
    - rewrite Nc. apply entry_lookup; auto. }
  split; auto. apply s_lookup_required; auto.
Qed.
Lemma qualified_go N r q e tk ts us p' : qualified N e tk ts -> r e = true -> reads (at_ q) (ts ++ us) p' ->
  exists q', parse_qualified_name file N (default_scope N) (Some r) q = POk (e, tk) q' /\ reads (at_ q') us p' /\
    uses q' ts q.
Proof.
  intros H Re R. unfold parse_qualified_name, qualified_rest. destruct H as [e tk K Kn Np|e tp dot tk x K Kd Kt Kn V En]; cbn [app] in R.
  - destruct (match_go file _ q tk us p' R K) as (q1 & E & R1 & M & _). rewrite (pbind_do _ _ _ _ _ E).
    destruct (known_lookup _ _ _ _ Kn Re) as [L1 L2]. rewrite (lift_do _ _ _ _ L2). exists q1.
    split; [|split; auto; cbn; lia]. destruct e; cbv beta iota; try (rewrite (lift_do _ _ _ _ L1); reflexivity). destruct (Np p0 eq_refl).
  - destruct (match_go file _ q tp _ p' R K) as (q1 & E & R1 & M & _). rewrite (pbind_do _ _ _ _ _ E).
    destruct (known_lookup _ _ _ (fun _ => true) Kn eq_refl) as [_ L2]. rewrite (lift_do _ _ _ _ L2). cbv beta iota. rewrite V.
    destruct (match_go file _ q1 dot _ p' R1 Kd) as (q2 & E2 & R2 & M2 & _). rewrite (pbind_do _ _ _ _ _ E2).
    destruct (match_go file _ q2 tk _ p' R2 Kt) as (q3 & E3 & R3 & M3 & _). rewrite (pbind_do _ _ _ _ _ E3).
    rewrite (lift_do _ _ _ _ (entry_lookup file _ tk _ (Some r) En Re)). exists q3. split; auto. split; auto. cbn. lia.
Qed.
Lemma qualified_first N e tk ts us : qualified N e tk ts -> starts (fun tk => tk_kind tk = IDENTIFIER) (ts ++ us).
Proof. destruct 1; apply starts_cons; auto. Qed.
Lemma member_runs sec v q r tk ts us p' : qualified (names_in v) (N_type (TRec r)) tk ts -> reads (at_ q) (ts ++ us) p' ->
  runs (member file) sec v q ts us p' (r, tk) v.
Proof.
  intros Q R. unfold member, runs. destruct (qualified_go _ is_record_entity q _ _ _ us p' Q eq_refl R) as (q1 & E & R1 & M).
  rewrite <- (names_eq c p imports pkg imps) in E.
  rewrite (dbind_do _ _ _ (N_type (TRec r), tk) (St v c sec q1)).
  - exists q1. auto.
  - unfold with_names. cbn. rewrite E. auto.
Qed.
Lemma members_runs v rs ts : members (names_in v) rs ts -> forall m sec q us p', (rem (at_ q) < m)%nat ->
  starts (fun tk => tk_kind tk <> COMMA) us -> reads (at_ q) (ts ++ us) p' ->
  exists x l q1, member file (St v c sec q) = DOk x (St v c sec q1) /\ map fst (x :: l) = rs /\
    exists q2, union_members file m (St v c sec q1) = DOk l (St v c sec q2) /\ reads (at_ q2) us p' /\
      uses q2 ts q.
Proof.
  induction 1 as [r tk ts Q|r tk ts comma rs us0 Q K H IH]; intros m sec q us p' L S R; (destruct m as [|m]; [lia|]).
  - destruct (member_runs sec v q r tk ts us p' Q R) as (q1 & E & R1 & M). exists (r, tk), [], q1. split; auto. split; auto.
    exists q1. cbn [union_members]. rewrite dcond_false by (eapply pk_starts; eauto). auto.
  - norm R. destruct (member_runs sec v q r tk ts _ p' Q R) as (q1 & E & R1 & M).
    destruct (match_runs COMMA sec v q1 comma _ p' R1 K) as (q2 & E2 & R2 & M2). cbn in M2.
    destruct (IH m sec q2 us p' ltac:(lia) S R2) as (x & l & q3 & E3 & El & q4 & E4 & R4 & M4).
    exists (r, tk), (x :: l), q1. split; auto. split; [cbn in *; congruence|]. exists q4. split; [|split; auto; rewrite app_length; cbn; lia].
    cbn [union_members]. rewrite dcond_true by (eapply pk_true; eauto). rewrite (dbind_do _ _ _ _ _ E2), (dbind_do _ _ _ _ _ E3), (dbind_do _ _ _ _ _ E4). auto.
Qed.
Lemma duplicates_go G seen l q : own_names G -> NoDup (map fst l) -> (forall r, In r (map fst l) -> ~ In r seen) ->
  duplicates file G seen l q = POk tt q.
Proof.
  intros On. revert seen. induction l as [|[r tk] l IH]; intros seen Nd Ns; cbn [duplicates]; auto. inversion Nd; subst.
  replace (existsb (same_name G r) seen) with false.
  - apply IH; auto. intros x I [->|J]; [auto|]. eapply Ns; [right; exact I|exact J].
  - symmetry. apply not_true_is_false. intros X. apply existsb_exists in X as (x & I & X). unfold same_name, rec in X.
    destruct (nth_error (recs G) r) as [a|] eqn:Ea; [|discriminate]. destruct (nth_error (recs G) x) as [b|] eqn:Eb; [|discriminate].
    apply andb_true_iff in X as [X1 X2]. apply Nat.eqb_eq in X1. apply text_eqb_eq in X2. rewrite <- (On _ _ _ _ Ea Eb X1 X2) in I.
    eapply Ns; [left; reflexivity|exact I].
Qed.
Lemma type_first lx N k a ts k' us : type_part lx N k a ts k' -> starts (fun tk => tk_kind tk = IDENTIFIER \/ tk_kind tk = S_BRA) (ts ++ us).
Proof.
  destruct 1 as [a tk ts Q|bra rs ts ket K1 M K2 Nd].
  - eapply starts_weaken; [|eapply qualified_first; eauto]. auto.
  - apply starts_cons. auto.
Qed.
Lemma type_runs sec v k q a ts k' us p' : own_names (v_types v) -> type_part false (names_in v) k a ts k' -> (rem (at_ q) < n)%nat -> reads (at_ q) (ts ++ us) p' ->
  runs (parse_component_type file n) sec (at_number v k) q ts us p' a (at_number v k').
Proof.
  intros On T L R. unfold parse_component_type, runs. assert (F := type_first _ _ _ _ _ _ us T). destruct T as [a tk ts Q|bra rs ts ket K1 Hm K2 Nd].
  - rewrite dcond_false by (eapply pk_starts; [exact R|]; eapply starts_weaken; [|eapply qualified_first; eauto]; cbn; congruence).
    destruct (qualified_go _ is_type q _ _ _ us p' Q eq_refl R) as (q1 & E & R1 & M).
    rewrite <- (names_eq c p imports pkg imps) in E. rewrite (dbind_do _ _ _ (N_type a, tk) (St (at_number v k) c sec q1)).
    + exists q1. auto.
    + unfold with_names. cbn. unfold names_of in *. cbn. rewrite E. auto.
  - norm R. rewrite dcond_true by (eapply pk_true; eauto). unfold parse_union_type.
    steps (match_runs S_BRA sec (at_number v k) q bra _ p' R K1) q1 R1 M1. cbn in M1.
    destruct (members_runs (at_number v k) rs ts Hm n sec q1 (ket :: us) p' ltac:(lia) ltac:(apply starts_cons; congruence) R1)
      as (x & l & q2 & E2 & El & q3 & E3 & R3 & M3).
    rewrite (dbind_do _ _ _ _ _ E2), (dbind_do _ _ _ _ _ E3).
    steps (match_runs S_KET sec (at_number v k) q3 ket _ p' R3 K2) q4 R4 M4. cbn in M4. rewrite dget_do. cbn [s_env].
    assert (E5 := duplicates_go (v_types (at_number v k)) [] (x :: l) q4 On ltac:(rewrite El; auto) ltac:(auto)). rewrite (dbind_do _ _ _ _ _ (dp_do _ _ _ _ _ _ _ E5)).
    rewrite El. exists q4. split; [reflexivity|]. split; auto. cbn. rewrite app_length. cbn. lia.
Qed.
Lemma array_runs sec v k q a b ts k' us p' : array_part k a b ts k' -> starts (fun tk => tk_kind tk <> S_BRA) us -> reads (at_ q) (ts ++ us) p' ->
  runs (parse_array_part file a) sec (at_number v k) q ts us p' b (at_number v k').
Proof.
  intros T S R. unfold parse_array_part, runs. destruct T as [|bra tl lo range th hi ket K1 K2 V2 K3 U K5]; norm R.
  - rewrite dcond_false by (eapply pk_starts; eauto). exists q. split; [reflexivity|]. split; auto. cbn. lia.
  - rewrite dcond_true by (eapply pk_true; eauto).
    steps (match_runs S_BRA sec (at_number v k) q bra _ p' R K1) q1 R1 M1.
    steps (match_runs INTEGER sec (at_number v k) q1 tl _ p' R1 K2) q2 R2 M2.
    rewrite (dbind_do _ _ _ lo (St (at_number v k) c sec q2)) by (apply dp_do; unfold int_of; rewrite V2; auto).
    steps (match_runs RANGE sec (at_number v k) q2 range _ p' R2 K3) q3 R3 M3.
    assert (X : exists q4, upper_bound file q3 = POk hi q4 /\ reads (at_ q4) (ket :: us) p' /\ (rem (at_ q4) < rem (at_ q3) /\ errc q4 <= errc q3)%nat).
    { unfold upper_bound. destruct U as [th z Ku Vu|th Ku Vu].
      - rewrite pcond_true by (eapply pk_true; eauto). destruct (match_go file _ q3 th _ p' R3 Ku) as (q4 & E & R4 & M4 & _).
        rewrite (pbind_do _ _ _ _ _ E). unfold int_of. rewrite Vu. exists q4. split; auto. split; auto. lia.
      - rewrite pcond_false by (eapply pk_false; eauto; congruence).
        rewrite pcond_true by (unfold peek_op; erewrite next_reads by eauto; apply is_op_true; auto).
        destruct (match_go file _ q3 th _ p' R3 Ku) as (q4 & E & R4 & M4 & _). rewrite (pbind_do _ _ _ _ _ E). exists q4. split; auto. split; auto. lia. }
    destruct X as (q4 & E4 & R4 & M4). rewrite (dbind_do _ _ _ _ _ (dp_do _ _ _ _ _ _ _ E4)).
    steps (match_runs S_KET sec (at_number v k) q4 ket _ p' R4 K5) q5 R5 M5.
    exists q5. split; [reflexivity|]. split; auto. cbn in *. lia.
Qed.

(** ** Tuples *)
Lemma field_first lx N u k x ts k' us : field_decl lx N u k x ts k' -> starts (fun tk => tk_kind tk = IDENTIFIER) (ts ++ us).
Proof. destruct 1. rewrite <- app_assoc. eapply described_first; eauto. Qed.
Lemma option_first w b to us : option_word w b to -> starts (fun tk => tk_kind tk = IDENTIFIER \/ tk_kind tk = S_BRA) us ->
  starts (fun tk => tk_kind tk <> STRING) (to ++ us) /\ (b = false -> starts (fun tk => ~ word w tk) (to ++ us)).
Proof.
  intros O S. destruct O as [tk W|]; cbn [app].
  - split; [apply starts_cons; kinds|discriminate].
  - split; [|intros _]; eapply starts_weaken; try exact S; cbn; intros tk [K|K]; kinds.
Qed.
Lemma field_runs sec v u k q x ts k' al reason rq us p' : own_names (v_types v) -> field_decl false (names_in v) u k x ts k' ->
  (c_opt x = true -> al = true) -> (rq = true -> c_opt x = true) -> (rem (at_ q) < n)%nat -> reads (at_ q) (ts ++ us) p' ->
  exists l, runs (parse_tuple_field file n u al reason rq) sec (at_number v k) q ts us p' (x, l) (at_number v k').
Proof.
  intros On D Ha Hr L R. destruct D as [name tn opt to a ta k' Dn Ow Ta]. cbn in Ha, Hr. exists (loc_of name). unfold parse_tuple_field, runs. norm R.
  assert (F := type_first _ _ _ _ _ _ us Ta). destruct (option_first _ _ _ _ Ow F) as [F1 F2].
  steps (described_runs sec (at_number v k) q name tn _ p' Dn R F1) q1 R1 M1.
  assert (X : runs (dcond (fun s => rq || peek_kw (t "optional") s)
      (let# tk := dp (p_match_kw file (t "optional")) in if al then dret true else derror (E_msg (loc_of tk) reason)) (dret false))
      sec (at_number v k) q1 to (ta ++ us) p' opt (at_number v k)).
  { unfold runs. destruct Ow as [tk W|]; cbn [app] in R1.
    - rewrite dcond_true by (erewrite kw_true by eauto; apply orb_true_r).
      steps (word_runs "optional" sec (at_number v k) q1 tk _ p' R1 W) q2 R2 M2. rewrite (Ha eq_refl). exists q2. auto.
    - assert (rq = false) by (destruct rq; auto; specialize (Hr eq_refl); discriminate). subst rq.
      rewrite dcond_false by (cbn [orb]; eapply kw_starts; eauto). exists q1. split; [reflexivity|]. split; auto. cbn. lia. }
  steps X q2 R2 M2. steps (type_runs sec v k q2 a ta k' us p' On Ta ltac:(lia) R2) q3 R3 M3.
  exists q3. split; [reflexivity|]. split; auto. rewrite !app_length. lia.
Qed.
Lemma register_field_do cs x v sec q : free_name (comp_table cs) (c_name (fst x)) ->
  register_field cs x (St v c sec q) = DOk (cs ++ [x]) (St v c sec q).
Proof. intros F. unfold register_field. rewrite (dbind_do _ _ _ _ _ (dlift_do _ _ _ _ _ _ (registrable_do _ _ _ _ F))). auto. Qed.
Definition distinct_comps (l : list component) : Prop := NoDup (map (fun x => simplified_name (c_name x)) l).
Lemma distinct_free cs x l : distinct_comps (map fst cs ++ x :: l) -> free_name (comp_table cs) (c_name x).
Proof.
  unfold distinct_comps. intros H k y I E. rewrite map_app in H. cbn in H. apply NoDup_remove_2 in H. apply H. apply in_or_app. left.
  apply in_map_iff in I as (z & Z & I). injection Z as <- <-. rewrite <- E. apply in_map_iff. exists (fst z). split; auto. apply in_map. auto.
Qed.
Lemma field_length lx N u k x ts k' : field_decl lx N u k x ts k' -> (1 <= List.length ts)%nat.
Proof. destruct 1 as [? ? ? ? ? ? ? D]. rewrite app_length. destruct D; cbn; lia. Qed.
Lemma plain_first N u k l ts k' ket us : plain_fields false N u k l ts k' -> tk_kind ket = C_KET ->
  starts (fun tk => tk_kind tk = IDENTIFIER \/ tk_kind tk = C_KET) (ts ++ ket :: us).
Proof.
  intros H K. destruct H as [|k x tc k1 cs ts k' F H]; [apply starts_cons; auto|]. rewrite <- app_assoc.
  eapply starts_weaken; [|eapply field_first; eauto]. auto.
Qed.
Lemma plain_runs v u k l ts k' : own_names (v_types v) -> plain_fields false (names_in v) u k l ts k' -> forall m sec al q cs ket us p',
  tk_kind ket = C_KET -> (forall x, In x l -> c_opt x = false) -> distinct_comps (map fst cs ++ l) -> (rem (at_ q) < m)%nat ->
  (rem (at_ q) < n)%nat -> reads (at_ q) (ts ++ ket :: us) p' ->
  exists cs', map fst cs' = map fst cs ++ l /\
    runs (tuple_fields file n m u false false al cs []) sec (at_number v k) q ts (ket :: us) p' (false, cs', []) (at_number v k').
Proof.
  intros On. induction 1 as [k|k x tc k1 l ts k' F H IH]; intros m sec al q cs ket us p' K Op Nd Lm Ln R; (destruct m as [|m]; [lia|]); norm R.
  - exists cs. rewrite app_nil_r. split; auto. unfold runs. cbn [tuple_fields].
    rewrite dcond_false by (erewrite kw_false, pk_false by (eauto; kinds); auto). exists q. split; [reflexivity|]. split; auto. cbn. lia.
  - assert (F1 := field_first _ _ _ _ _ _ _ (ts ++ ket :: us) F). assert (Lt := field_length _ _ _ _ _ _ _ F).
    assert (E0 : peek_kw (t "separator") q = false) by (eapply kw_starts; [exact R|]; eapply starts_weaken; [|exact F1]; cbn; intros; kinds).
    assert (E1 : peek IDENTIFIER q = true) by (destruct F1 as (tk & tl & E1 & K1); rewrite E1 in R; eapply pk_true; eauto).
    destruct (field_runs sec v u k q x tc k1 false M_optional_separators false _ p' On F
      ltac:(rewrite Op by (left; auto); discriminate) ltac:(discriminate) Ln R) as (l0 & q1 & E2 & R1 & M1).
    destruct (IH m sec false q1 (cs ++ [(x, l0)]) ket us p' K) as (cs' & Ec & q2 & E3 & R2 & M2); auto; try lia.
    { intros y I. apply Op. right. auto. }
    { rewrite map_app, <- app_assoc. auto. }
    exists cs'. split; [rewrite Ec, map_app, <- app_assoc; auto|]. exists q2. split; [|split; auto; rewrite app_length; lia].
    cbn [tuple_fields]. rewrite dcond_true by (rewrite E0, E1; auto).
    rewrite (dbind_do _ _ _ (false, false, []) (St (at_number v k) c sec q)) by (rewrite dcond_false; auto).
    cbv beta iota. rewrite (dbind_do _ _ _ _ _ E2). cbv beta iota.
    rewrite (dbind_do _ _ _ _ _ (register_field_do cs (x, l0) _ _ _ (distinct_free _ _ _ Nd))). cbn [fst]. rewrite (Op x) by (left; auto). exact E3.
Qed.
Lemma separator_go sep tk q us p' : separator_symbol sep tk -> reads (at_ q) (tk :: us) p' ->
  exists q', parse_separator q = POk [sep] q' /\ reads (at_ q') us p' /\ (rem (at_ q') < rem (at_ q) /\ errc q' <= errc q)%nat.
Proof.
  intros S R. destruct (take_do file (fun _ => true) (fun l => E_expected l COMMA) q tk us p' R eq_refl) as (q1 & E & R1 & M).
  assert (Er : errc q1 = errc q) by (apply errc_same; apply take_ok in E as (_ & _ & O); auto).
  exists q1. split; [|split; [auto|lia]]. unfold parse_separator. unfold p_take in E. rewrite (reads_first _ _ _ _ R) in *.
  assert (X : sep_of tk = Some sep).
  { unfold sep_of. destruct S as [tk K|tk K|tk K|tk K]; unfold is_kind; rewrite K; reflexivity. }
  rewrite X. unfold pbind in *. destruct (p_advance q); try discriminate. injection E as <-. auto.
Qed.
Lemma separated_runs v u k l sl ts k' : own_names (v_types v) -> separated_fields false (names_in v) u k l sl ts k' -> forall m sec hs rq q cs seps ket us p',
  tk_kind ket = C_KET -> (rq = true -> forall x, In x l -> c_opt x = true) ->
  (forall a d b e, l = a ++ d :: b -> In e b -> c_opt d = true -> c_opt e = true) ->
  distinct_comps (map fst cs ++ l) -> List.length cs = Datatypes.S (List.length seps) -> (rem (at_ q) < m)%nat ->
  (rem (at_ q) < n)%nat -> reads (at_ q) (ts ++ ket :: us) p' ->
  exists cs', map fst cs' = map fst cs ++ l /\
    runs (tuple_fields file n m u hs rq true cs seps) sec (at_number v k) q ts (ket :: us) p'
      (match l with [] => hs | _ => true end, cs', seps ++ sl) (at_number v k').
Proof.
  intros On. induction 1 as [k|k kw sep tk x tc k1 l sl ts k' W S F H IH]; intros m sec hs rq q cs seps ket us p' K Hr Ho Nd Le Lm Ln R;
    (destruct m as [|m]; [lia|]); norm R.
  - exists cs. rewrite !app_nil_r. split; auto. unfold runs. cbn [tuple_fields].
    rewrite dcond_false by (erewrite kw_false, pk_false by (eauto; kinds); auto). exists q. split; [reflexivity|]. split; auto. cbn. lia.
  - assert (E0 : peek_kw (t "separator") q = true) by (eapply kw_true; eauto).
    destruct (word_runs "separator" sec (at_number v k) q kw _ p' R W) as (q1 & E1 & R1 & M1). cbn in M1.
    destruct (separator_go _ _ _ _ _ S R1) as (q2 & E2 & R2 & M2).
    destruct (field_runs sec v u k q2 x tc k1 true M_optional_separators rq _ p' On F
      ltac:(auto) ltac:(intros Q; apply Hr; auto; left; auto) ltac:(lia) R2) as (l0 & q3 & E3 & R3 & M3).
    destruct (IH m sec true (rq || c_opt x) q3 (cs ++ [(x, l0)]) (seps ++ [sep]) ket us p' K) as (cs' & Ec & q4 & E4 & R4 & M4); auto; try lia.
    { intros Q y I. apply orb_true_iff in Q as [Q|Q]; [apply Hr; auto; right; auto|]. eapply (Ho [] x l y); eauto. }
    { intros a d b e E I O. eapply (Ho (x :: a) d b e); eauto. rewrite E. auto. }
    { rewrite map_app, <- app_assoc. auto. }
    { rewrite !app_length. cbn. lia. }
    exists cs'. split; [rewrite Ec, map_app, <- app_assoc; auto|]. exists q4. split; [|split; auto; cbn; rewrite app_length; lia].
    cbn [tuple_fields]. rewrite dcond_true by (rewrite E0; auto).
    rewrite (dbind_do _ _ _ (true, true, seps ++ [sep]) (St (at_number v k) c sec q2)).
    2:{ rewrite dcond_true by (rewrite E0; apply orb_true_r). rewrite (dbind_do _ _ _ _ _ E1). cbv beta iota.
        rewrite (dbind_do _ _ _ _ _ (dp_do _ _ _ _ _ _ _ E2)). unfold add_separator.
        rewrite Le, Nat.eqb_refl. reflexivity. }
    cbv beta iota. rewrite (dbind_do _ _ _ _ _ E3). cbv beta iota.
    rewrite (dbind_do _ _ _ _ _ (register_field_do cs (x, l0) _ _ _ (distinct_free _ _ _ Nd))). cbn [fst].
    rewrite <- app_assoc in E4. cbn [app] in E4. rewrite E4. destruct l; auto.
Qed.
Lemma insert_in x y l : In x (insert_field y l) -> x = y \/ In x l.
Proof. induction l as [|z l IH]; cbn; [intuition|]. destruct (SourceMan.text_leb _ _); cbn; intuition. Qed.
Lemma sorted_from x l : In x (sorted_fields l) -> In x l.
Proof. induction l as [|y l IH]; cbn; auto. intros I. apply insert_in in I as [->|I]; auto. Qed.
Lemma nesting_do G cs : (forall x w wt, In x (map fst cs) -> c_typ x = TTup w -> nth_error (tups G) w = Some wt -> u_seps wt = []) -> nesting G cs = Ok tt.
Proof.
  intros H. unfold nesting. destruct (find _ _) as [x|] eqn:F; auto. apply find_some in F as [I B]. apply sorted_from in I.
  unfold has_separators in B. destruct (c_typ (fst x)) eqn:T; try discriminate. unfold tup in B. destruct (nth_error _ _) as [wt|] eqn:E; [|discriminate].
  rewrite (H (fst x) u wt) in B; auto. discriminate. apply in_map. auto.
Qed.
Lemma at_number_pkgs v k pkgs : with_pkgs (at_number v k) pkgs = at_number (with_pkgs v pkgs) k. Proof. reflexivity. Qed.
Lemma fields_runs v u k cs seps ts k' : own_names (v_types v) -> fields_decl false (names_in v) u k cs seps ts k' -> forall sec q ket us p',
  tk_kind ket = C_KET -> distinct_comps cs -> (rem (at_ q) < n)%nat -> reads (at_ q) (ts ++ ket :: us) p' ->
  exists x cs' q1 q2 hs k1, map fst cs' = cs /\ (hs = true -> seps <> []) /\
    parse_tuple_field file n u false M_optional_first false (St (at_number v k) c sec q) = DOk x (St (at_number v k1) c sec q1) /\
    tuple_fields file n n u false false true [x] [] (St (at_number v k1) c sec q1) = DOk (hs, cs', seps) (St (at_number v k') c sec q2) /\
    reads (at_ q2) (ket :: us) p' /\ uses q2 ts q.
Proof.
  intros On D sec q ket us p' K Nd L R. destruct D as [x tc k1 cs ts k' F H Op|x tc k1 cs seps ts k' F H Ns Oc Ho]; norm R.
  - destruct (field_runs sec v u k q x tc k1 false M_optional_first false _ p' On F
      ltac:(rewrite Op by (left; auto); discriminate) ltac:(discriminate) L R) as (l0 & q1 & E1 & R1 & M1).
    destruct (plain_runs v u k1 cs ts k' On H n sec true q1 [(x, l0)] ket us p' K) as (cs' & Ec & q2 & E2 & R2 & M2); auto; try lia.
    { intros y I. apply Op. right. auto. }
    exists (x, l0), cs', q1, q2, false, k1. split; auto. split; [discriminate|]. split; auto. split; auto. split; auto. rewrite app_length. lia.
  - destruct (field_runs sec v u k q x tc k1 false M_optional_first false _ p' On F
      ltac:(rewrite Oc; discriminate) ltac:(discriminate) L R) as (l0 & q1 & E1 & R1 & M1).
    destruct (separated_runs v u k1 cs seps ts k' On H n sec false false q1 [(x, l0)] [] ket us p' K) as (cs' & Ec & q2 & E2 & R2 & M2); auto; try lia; try discriminate.
    exists (x, l0), cs', q1, q2, (match cs with [] => false | _ => true end), k1. split; auto. split; [auto|]. split; auto. split; [exact E2|]. split; auto.
    rewrite app_length. lia.
Qed.
Lemma tuple_runs sec v q ts us p' v' : own_names (v_types v) -> tuple_decl p imports false v ts v' -> reads (at_ q) (ts ++ us) p' -> (rem (at_ q) < n)%nat ->
  runs (parse_tuple_declaration file n) sec v q ts us p' tt v'.
Proof.
  intros On D R L. destruct D as [kw name tn bra cs seps ts k' ket pkgs Kw Dn Kb Fs Kk Nd Ns En]. norm R. unfold parse_tuple_declaration, runs.
  steps (word_runs "tuple" sec v q kw _ p' R Kw) q1 R1 M1.
  steps (described_runs sec v q1 name tn _ p' Dn R1 ltac:(apply starts_cons; congruence)) q2 R2 M2.
  steps (match_runs C_BRA sec v q2 bra _ p' R2 Kb) q3 R3 M3. rewrite dget_do. cbn [s_env]. cbn [List.length] in M1, M3.
  destruct (fields_runs v _ _ _ _ _ _ On Fs sec q3 ket us p' Kk Nd ltac:(lia) R3) as (x & cs' & q4 & q5 & hs & k1 & Ec & Hh & E4 & E5 & R5 & M5).
  rewrite at_number_self in E4. rewrite (dbind_do _ _ _ _ _ E4). cbv beta iota.
  rewrite (dbind_do _ _ _ [x] (St (at_number v k1) c sec q4)) by (apply (register_field_do []); intros ? ? []).
  rewrite (dbind_do _ _ _ _ _ E5). cbv beta iota.
  steps (match_runs C_KET sec (at_number v k') q5 ket _ p' R5 Kk) q6 R6 M6. rewrite dget_do. cbn [s_env]. cbn [List.length] in M6.
  rewrite (dbind_do _ _ _ tt (St (at_number v k') c sec q6)).
  2:{ destruct hs; auto. apply dlift_do. apply nesting_do. rewrite Ec. intros y w wt I T E. eapply Ns; eauto. }
  rewrite (dbind_do _ _ _ _ _ (current_do _ _ _)).
  rewrite (dbind_do _ _ _ _ _ (register_do sec (at_number v k') q6 _ _ _ _ En)). exists q6. split; [|split; auto].
  - rewrite Ec. reflexivity.
  - cbn. rewrite !app_length. cbn. rewrite app_length. cbn. lia.
Qed.

(** ** Records *)
Lemma chain_names G r : types_ok matches G -> (r < List.length (recs G))%nat ->
  NoDup (map (fun x => simplified_name (c_name x)) (chain_steps G r r)).
Proof.
  intros Ot L. assert (Or := ok_order _ _ Ot). destruct (lineage_exists G Or r L) as (l & A).
  rewrite (chain_spec G Or r r l (Nat.le_refl r) A). eapply Permutation_NoDup; [|apply (ok_similar _ _ Ot r)].
  apply Permutation_map. rewrite (all_components_spec G Or r l A). apply Permutation_flat_map. apply Permutation_rev.
Qed.
Lemma component_lookup G r x tk : types_ok matches G -> (r < List.length (recs G))%nat -> In x (chain_steps G r r) -> c_name x = tok_text tk ->
  t_lookup file N_comp (components_of G (TRec r)) tk None = Ok x.
Proof. intros Ot L I E. unfold components_of. apply lookup_distinct; auto. apply chain_names; auto. Qed.
Lemma not_frozen G r k : wf_types G -> (r < List.length (recs G))%nat -> (forall f, ~ freezes G r k f) -> get_freezing G r k = None.
Proof. intros O L H. destruct (get_freezing G r k) eqn:E; auto. apply freezing_some in E; auto. destruct (H _ E). Qed.

Lemma value_runs sec v a x tx ns q tk us p' : value file src (v_types v) (v_objs v) (names_in v) false a x tx ns -> ns = [] ->
  types_ok matches (v_types v) -> complete_type (v_types v) a -> (rem (at_ q) < n)%nat -> ends (v_types v) a (Some tk) ->
  reads (at_ q) (tx ++ tk :: us) p' -> runs (value_of file src n a) sec v q tx (tk :: us) p' x v.
Proof.
  intros V -> Ot Ct L En R. apply reads_split in R as (p1 & R1 & R2).
  rewrite <- (reads_first _ _ _ _ R2) in En.
  destruct (value_complete file src _ _ _ (ok_order _ _ Ot) (ok_tuples _ _ Ot) _ _ _ _ _ _ _ V Ct L R1 En) as (q1 & E & A & O).
  apply errc_note in O. cbn in O. exists q1. rewrite A. split; [|split; auto; apply reads_rem in R1; lia].
  rewrite <- (names_eq c p imports pkg imps) in E. unfold value_of, with_names. cbn [s_env s_cu s_sec s_ps]. rewrite E. auto.
Qed.
Lemma ends_next G a ts ket us : not_separator G a ts -> tk_kind ket = C_KET -> starts (fun tk => tk_kind tk <> DOT) (ts ++ ket :: us) ->
  exists tk tl, ts ++ ket :: us = tk :: tl /\ ends G a (Some tk).
Proof.
  intros Ns K (tk & tl & E & Kd). exists tk, tl. split; auto. unfold ends. destruct a; auto.
  - intros ut U _ tk' E'. injection E' as <-. split; auto. intros sep I S. destruct ts as [|tk0 ts0]; cbn in E.
    + injection E as <- _. destruct S; congruence.
    + injection E as <- _. eapply (Ns u ut tk0 ts0 sep); eauto.
  - intros tk' E'. injection E' as <-. auto.
  - intros tk' E'. injection E' as <-. auto.
Qed.

Lemma run_at {A} v (m : D A) Q E sec q a v' q' : run_ c v m Q E -> m (St v c sec q) = DOk a (St v' c sec q') -> Q a v'.
Proof. intros H Em. specialize (H (St v c sec q) eq_refl eq_refl). rewrite Em in H. apply H. Qed.
Lemma own_last v rt rt' : r_pkg rt = r_pkg rt' -> r_name rt = r_name rt' -> own_names (with_rec v rt) -> own_names (with_rec v rt').
Proof.
  intros P N On r s x y Ex Ey. unfold with_rec in *. cbn [recs] in *.
  assert (X : forall i z, nth_error (recs (v_types v) ++ [rt']) i = Some z ->
     exists z', nth_error (recs (v_types v) ++ [rt]) i = Some z' /\ r_pkg z' = r_pkg z /\ r_name z' = r_name z).
  { intros i z E. apply nth_extended in E as [E|[-> ->]].
    - exists z. split; auto. rewrite nth_before; auto. apply nth_error_Some. congruence.
    - exists rt. split; auto. apply nth_last. }
  destruct (X _ _ Ex) as (x' & Ex' & P1 & N1), (X _ _ Ey) as (y' & Ey' & P2 & N2). intros. apply (On _ _ _ _ Ex' Ey'); congruence.
Qed.
Section BODY.
Variable v0 : env.
Variable name0 : text.
Variable v : env.
Hypothesis no_obj : no_objects matches v0.
Hypothesis same : v_types v = v_types v0.
Hypothesis regex : forall p x, compiles p = true -> matches p x <> None.
Notation r := (List.length (recs (v_types v))).
Notation within rt k := (body matches p v0 name0 (in_body v rt k) rt).
Lemma within_ok rt k : within rt k -> types_ok matches (with_rec v rt).
Proof. intros B. apply (body_ok compiles matches regex p _ _ _ _ no_obj B). Qed.
Lemma within_same rt k rt' : body matches p v0 name0 (in_body v rt k) rt' -> within rt k.
Proof.
  intros B. assert (T := bd_types _ _ _ _ _ _ B). cbn in T. rewrite <- same in T. unfold with_rec in T. injection T as T.
  apply app_inj_tail in T as [_ ->]. auto.
Qed.
Lemma component_in rt k x : within rt k -> has_component (with_rec v rt) r x -> In x (chain_steps (with_rec v rt) r r) /\ complete_type (with_rec v rt) (c_typ x).
Proof.
  intros B H. assert (Ot := within_ok _ _ B). assert (Or := ok_order _ _ Ot). apply (chain_has _ Or _ _ (in_body_length src compiles matches v rt)) in H. split; auto.
  eapply component_complete; eauto. apply (chain_components (with_rec v rt) r r x Or (Nat.le_refl r)). exact H.
Qed.
Lemma freeze_runs sec rt k q kw tk eq x y tx ns t1 us p' : within rt k -> word "freeze" kw -> tk_kind tk = IDENTIFIER -> tk_kind eq = ASSIGN ->
  has_component (with_rec v rt) r x -> c_name x = tok_text tk -> (forall f, ~ freezes (with_rec v rt) r (c_name x) f) ->
  value file src (with_rec v rt) (v_objs v) (names_in v) false (c_typ x) y tx ns -> ns = [] -> (rem (at_ q) < n)%nat ->
  ends (with_rec v rt) (c_typ x) (Some t1) -> reads (at_ q) (kw :: tk :: eq :: tx ++ t1 :: us) p' ->
  runs (parse_freeze file src n r) sec (in_body v rt k) q (kw :: tk :: eq :: tx) (t1 :: us) p' tt
    (in_body v (add_frozen (c_name x) (k, y) rt) (Datatypes.S k)).
Proof.
  intros B Kw K1 K2 Hx Nx Fz V Nn L En R. assert (Ot := within_ok _ _ B). assert (Or := ok_order _ _ Ot).
  destruct (component_in _ _ _ B Hx) as [Ix Cx]. assert (Lr := in_body_length src compiles matches v rt). unfold parse_freeze, runs.
  steps (word_runs "freeze" sec (in_body v rt k) q kw _ p' R Kw) q1 R1 M1.
  steps (match_runs IDENTIFIER sec (in_body v rt k) q1 tk _ p' R1 K1) q2 R2 M2. rewrite dget_do. cbn [s_env].
  rewrite (dbind_do _ _ _ x (St (in_body v rt k) c sec q2)) by (apply dlift_do; apply component_lookup; auto).
  unfold is_frozen. cbn [in_body v_types]. rewrite (not_frozen _ _ _ Or Lr Fz).
  steps (match_runs ASSIGN sec (in_body v rt k) q2 eq _ p' R2 K2) q3 R3 M3. cbn [List.length] in *.
  steps (value_runs sec (in_body v rt k) (c_typ x) y tx ns q3 t1 us p' V Nn Ot Cx ltac:(lia) En R3) q4 R4 M4.
  exists q4. split; [|split; auto; cbn; lia].
  unfold fresh, dbind, dset. cbn [s_env s_cu s_sec s_ps in_body v_types v_objs v_secs v_stab v_pkgs v_next].
  match goal with |- DOk tt (St ?w _ _ _) = _ => change w with (change_rec r (add_frozen (c_name x) (k, y)) (in_body v rt (Datatypes.S k))) end.
  rewrite in_body_change. auto.
Qed.
Lemma component_runs sec rt k q name tn opt to' a ta k1 b tb k2 us p' : own_names (with_rec v rt) -> described name tn -> option_word "optional" opt to' ->
  type_part false (names_in v) k a ta k1 -> array_part k1 a b tb k2 -> (rem (at_ q) < n)%nat ->
  starts (fun tk => tk_kind tk <> S_BRA) us -> reads (at_ q) (tn ++ to' ++ ta ++ tb ++ us) p' ->
  runs (parse_record_component file n r) sec (in_body v rt k) q (tn ++ to' ++ ta ++ tb) us p' (Comp (tok_text name) b opt (TRec r), loc_of name) (in_body v rt k2).
Proof.
  intros On Dn Ow Ta Tb L S R. unfold parse_record_component, runs.
  assert (F := type_first _ _ _ _ _ _ (tb ++ us) Ta). destruct (option_first _ _ _ _ Ow F) as [F1 F2].
  steps (described_runs sec (in_body v rt k) q name tn _ p' Dn R F1) q1 R1 M1.
  assert (X : runs (dcond (peek_kw (t "optional")) (let# _ := dp (p_match_kw file (t "optional")) in dret true) (dret false))
      sec (in_body v rt k) q1 to' (ta ++ tb ++ us) p' opt (in_body v rt k)).
  { unfold runs. destruct Ow as [tk W|]; cbn [app] in R1.
    - rewrite dcond_true by (eapply kw_true; eauto).
      steps (word_runs "optional" sec (in_body v rt k) q1 tk _ p' R1 W) q2 R2 M2. exists q2. auto.
    - rewrite dcond_false by (eapply kw_starts; eauto). exists q1. split; [reflexivity|]. split; auto. cbn. lia. }
  steps X q2 R2 M2.
  steps (type_runs sec (in_body v rt k) k q2 a ta k1 _ p' On Ta ltac:(lia) R2) q3 R3 M3. rewrite in_body_at.
  steps (array_runs sec (in_body v rt k1) k1 q3 a b tb k2 us p' Tb S R3) q4 R4 M4. rewrite in_body_at.
  exists q4. split; [reflexivity|]. split; auto. rewrite !app_length. lia.
Qed.
Lemma declare_runs sec rt k q name tn opt to' a ta k1 b tb k2 us p' : own_names (with_rec v rt) -> within rt k -> described name tn -> option_word "optional" opt to' ->
  type_part false (names_in v) k a ta k1 -> array_part k1 a b tb k2 -> r_final rt = false ->
  (forall x, has_component (with_rec v rt) r x -> simplified_name (c_name x) <> simplified_name (tok_text name)) ->
  (rem (at_ q) < n)%nat -> starts (fun tk => tk_kind tk <> S_BRA) us -> reads (at_ q) (tn ++ to' ++ ta ++ tb ++ us) p' ->
  runs (declare_component file n r) sec (in_body v rt k) q (tn ++ to' ++ ta ++ tb) us p' tt
    (in_body v (add_comp (Comp (tok_text name) b opt (TRec r)) rt) k2).
Proof.
  intros On B Dn Ow Ta Tb Fi Fr L S R. assert (Ot := within_ok _ _ B). assert (Or := ok_order _ _ Ot). assert (Lr := in_body_length src compiles matches v rt).
  unfold declare_component, runs.
  steps (component_runs sec rt k q name tn opt to' a ta k1 b tb k2 us p' On Dn Ow Ta Tb L S R) q1 R1 M1.
  rewrite dget_do. cbn [s_env in_body v_types]. unfold rec at 1, with_rec at 1. cbn [recs]. rewrite nth_last, Fi.
  rewrite (dbind_do _ _ _ tt (St (in_body v rt k2) c sec q1)).
  2:{ apply dlift_do, registrable_do. intros z y I. unfold components_of in I. apply in_map_iff in I as (u & U & I). injection U as <- <-.
      apply Fr. apply (chain_has _ Or _ _ Lr). exact I. }
  exists q1. split; [|auto]. unfold dset. cbn [s_env s_cu s_sec s_ps]. rewrite in_body_change. auto.
Qed.
Lemma body_first rt k ts rt' k' ket us : body_decl file src p imports false v rt k ts rt' k' -> tk_kind ket = C_KET ->
  starts (fun tk => tk_kind tk = IDENTIFIER \/ word "freeze" tk \/ tk_kind tk = C_KET) (ts ++ ket :: us).
Proof.
  intros D K. destruct D; [apply starts_cons; auto|..].
  - rewrite <- !app_assoc. eapply starts_weaken; [|eapply described_first; eauto]. auto.
  - apply starts_cons. auto.
Qed.
Lemma body_runs rt k ts rt' k' : body_decl file src p imports false v rt k ts rt' k' -> forall m sec q ket us p',
  own_names (with_rec v rt) -> within rt k -> tk_kind ket = C_KET -> (rem (at_ q) < m)%nat -> (rem (at_ q) < n)%nat -> reads (at_ q) (ts ++ ket :: us) p' ->
  runs (record_body file src n m r) sec (in_body v rt k) q ts (ket :: us) p' tt (in_body v rt' k') /\ within rt' k'.
Proof.
  induction 1 as [rt k|pk nm pa cs fz abs cks k name tn opt to a ta k1 b tb k2 ts rt' k' Dn Ow Ta Tb Fr D IH
    |pk nm pa cs fz fin abs cks k kw tk eq x y tx ns ts rt' k' Kw K1 K2 Hx Nx Fz V Ns D IH];
    intros m sec q ket us p' On B K Lm Ln R; (destruct m as [|m]; [lia|]); norm R.
  - split; auto. unfold runs. cbn [record_body]. rewrite dcond_true by (eapply pk_true; eauto). exists q. split; [reflexivity|]. split; auto. cbn. lia.
  - assert (F := body_first _ _ _ _ _ _ us D K). assert (Lt : (1 <= List.length tn)%nat) by (destruct Dn; cbn; lia).
    destruct (declare_runs sec _ k q name tn opt to a ta k1 b tb k2 _ p' On B Dn Ow Ta Tb eq_refl Fr Ln
      ltac:(eapply starts_weaken; [|exact F]; cbn; intros ? [?|[?|?]]; kinds) R) as (q1 & E1 & R1 & M1).
    assert (B1 := run_declare file src compiles matches regex n c p v0 name0 _ _ no_obj B). rewrite <- same in B1.
    destruct (run_at _ _ _ _ _ _ _ _ _ B1 E1) as (rt1 & B2). clear B1. apply within_same in B2. rename B2 into B1.
    rewrite !app_length in M1.
    destruct (IH m sec q1 ket us p' ltac:(eapply own_last; [| |exact On]; reflexivity) B1 K ltac:(lia) ltac:(lia) R1) as ((q2 & E2 & R2 & M2) & B2). split; auto.
    exists q2. split; [|split; auto; rewrite !app_length; lia]. cbn [record_body].
    assert (F0 := described_first _ _ (to ++ ta ++ tb ++ ts ++ ket :: us) Dn).
    rewrite dcond_false by (eapply pk_starts; [exact R|]; eapply starts_weaken; [|exact F0]; cbn; intros; kinds).
    rewrite (dbind_do _ _ _ _ _ (eq_trans (dcond_false _ _ _ _ _ _ _ ltac:(eapply kw_starts; [exact R|]; eapply starts_weaken; [|exact F0]; cbn; intros; kinds)) E1)).
    exact E2.
  - assert (F := body_first _ _ _ _ _ _ us D K).
    destruct (ends_next (with_rec v (RecType pk nm pa cs fz fin abs cks)) (c_typ x) ts ket us (proj1 (Ns eq_refl)) K
       ltac:(eapply starts_weaken; [|exact F]; cbn; intros ? [?|[?|?]]; kinds)) as (t1 & tl & El & En). rewrite El in R.
    destruct (freeze_runs sec _ k q kw tk eq x y tx ns t1 tl p' B Kw K1 K2 Hx Nx Fz V (proj2 (Ns eq_refl)) Ln En R) as (q1 & E1 & R1 & M1).
    assert (B1 := run_freeze file src compiles matches regex n c p v0 name0 _ _ no_obj B). rewrite <- same in B1.
    destruct (run_at _ _ _ _ _ _ _ _ _ B1 E1) as (rt1 & B2). clear B1. apply within_same in B2. rename B2 into B1. rewrite <- El in R1. cbn [List.length] in M1.
    destruct (IH m sec q1 ket us p' ltac:(eapply own_last; [| |exact On]; reflexivity) B1 K ltac:(lia) ltac:(lia) R1) as ((q2 & E2 & R2 & M2) & B2). split; auto.
    exists q2. split; [|split; auto; cbn; rewrite !app_length; lia]. cbn [record_body].
    rewrite dcond_false by (eapply pk_false; [exact R|]; kinds).
    rewrite (dbind_do _ _ _ _ _ (eq_trans (dcond_true _ _ _ _ _ _ _ (kw_true "freeze" q kw _ _ R Kw)) E1)).
    exact E2.
Qed.
End BODY.

Hypothesis regex : forall p x, compiles p = true -> matches p x <> None.
Lemma modifier_runs sec v q abs fin ts us p' : modifier abs fin ts -> starts (word "type") us -> reads (at_ q) (ts ++ us) p' ->
  runs (dcond (peek_kw (t "abstract")) (let# _ := dp (p_match_kw file (t "abstract")) in dret (true, false))
      (dcond (peek_kw (t "final")) (let# _ := dp (p_match_kw file (t "final")) in dret (false, true))
         (dret (false, false)))) sec v q ts us p' (abs, fin) v.
Proof.
  intros M F R. unfold runs. destruct M as [|tk W|tk W]; norm R.
  - rewrite !dcond_false. 2, 3: eapply kw_starts; [exact R|]; eapply starts_weaken; [|exact F]; cbn; intros ? W; eapply other_word; [exact W|reflexivity].
    exists q. split; [reflexivity|]. split; auto. cbn. lia.
  - rewrite dcond_true by (eapply kw_true; eauto). steps (word_runs "abstract" sec v q tk _ p' R W) q1 R1 M1. exists q1. auto.
  - rewrite dcond_false by (eapply kw_false; [exact R|]; eapply other_word; [exact W|reflexivity]).
    rewrite dcond_true by (eapply kw_true; eauto). steps (word_runs "final" sec v q tk _ p' R W) q1 R1 M1. exists q1. auto.
Qed.
Lemma extends_runs sec v q r ts us p' : extends_part (names_in v) r ts -> starts (fun tk => tk_kind tk = C_BRA) us -> reads (at_ q) (ts ++ us) p' ->
  runs (parse_extends file) sec v q ts us p' r v.
Proof.
  intros E F R. unfold parse_extends, runs. destruct E as [|kw r tk ts W Q]; norm R.
  - rewrite dcond_false by (eapply kw_starts; [exact R|]; eapply starts_weaken; [|exact F]; cbn; intros; kinds).
    exists q. split; [reflexivity|]. split; auto. cbn. lia.
  - rewrite dcond_true by (eapply kw_true; eauto). steps (word_runs "extends" sec v q kw _ p' R W) q1 R1 M1.
    steps (member_runs sec v q1 r tk ts _ p' Q R1) q2 R2 M2. exists q2. split; [reflexivity|]. split; auto. cbn in *. lia.
Qed.
Lemma extends_starts N r ts bra us : extends_part N r ts -> tk_kind bra = C_BRA -> starts (fun tk => tk_kind tk <> STRING) (ts ++ bra :: us).
Proof. intros [|kw r' tk ts' [W _] _] K; apply starts_cons; kinds. Qed.
Lemma record_runs sec v q ts v' us p' : registered v -> record_decl file src p imports false v ts v' -> no_objects matches v -> (rem (at_ q) < n)%nat ->
  reads (at_ q) (ts ++ us) p' -> runs (parse_record_declaration file src lint n) sec v q ts us p' tt v'.
Proof.
  intros Rg D No L R. destruct D as [abs fin tm kw name tn parent te inh bra rt tb k' ket pkgs Md Kw Dn Ex Fi Kb Kk En B]. norm R.
  unfold parse_record_declaration, runs.
  steps (modifier_runs sec v q abs fin tm _ p' Md (starts_cons _ _ _ Kw) R) q1 R1 M1.
  steps (word_runs "type" sec v q1 kw _ p' R1 Kw) q2 R2 M2.
  steps (described_runs sec v q2 name tn _ p' Dn R2 (extends_starts _ _ _ _ _ Ex Kb)) q3 R3 M3.
  steps (extends_runs sec v q3 parent te _ p' Ex (starts_cons _ _ _ Kb) R3) q4 R4 M4.
  rewrite dget_do. cbn [s_env].
  assert (X : exists q5, (if lint && is_final_type (v_types v) parent && negb fin then dp (pnote (Note_lint (loc_of name) L_clarify_final)) else dret tt) (St v c sec q4)
    = DOk tt (St v c sec q5) /\ at_ q5 = at_ q4 /\ errc q5 = errc q4).
  { destruct (_ && _ && _); eexists; (split; [reflexivity|]); split; auto. unfold errc. cbn. rewrite filter_app. cbn. rewrite app_nil_r. auto. }
  destruct X as (q5 & E5 & A5 & Ec5). rewrite (dbind_do _ _ _ _ _ E5). cbv beta.
  rewrite (dbind_do _ _ _ _ _ (current_do sec v q5)). cbv beta.
  rewrite (dbind_do _ _ _ _ _ (register_do sec v q5 _ _ _ _ En)). cbv beta. rewrite dset_do. cbn [s_env s_cu s_sec s_ps].
  assert (Ei : is_final_type (v_types v) parent = inh).
  { destruct Fi as [|r rt0 Er]; auto. unfold is_final_type, rec. rewrite Er. auto. }
  rewrite Ei. rewrite <- A5 in R4.
  set (rt0 := RecType p (tok_text name) parent [] [] inh abs []) in *. set (v1 := with_pkgs v pkgs) in *.
  change (add_rec rt0 v1) with (in_body v1 rt0 (v_next v)).
  steps (match_runs C_BRA sec (in_body v1 rt0 (v_next v)) q5 bra _ p' R4 Kb) q6 R6 M6.
  assert (Bd : body matches p v (tok_text name) (in_body v1 rt0 (v_next v)) rt0).
  { assert (Pr : forall r, parent = Some r -> (r < List.length (recs (v_types v)))%nat).
    { destruct Ex as [|kw' r' tk ts Kw' Qr]; intros r E1; [discriminate|]. injection E1 as <-.
      apply qualified_valid in Qr; [|apply No]. apply (ev_type _ _ _ _ Qr _ eq_refl). }
    assert (S := body_start src compiles matches regex p v (tok_text name) parent inh abs No Pr). cbv zeta in S.
    destruct En as (d & Rp & _ & _). destruct (replaced_do _ _ _ _ _ Rp) as [_ Ch].
    assert (Ev : add_rec rt0 (add_entry p (tok_text name) (N_type (TRec (List.length (recs (v_types v))))) v) = in_body v1 rt0 (v_next v)).
    { unfold add_entry, add_rec, in_body, with_rec. cbn. rewrite (Ch (fun d => d ++ [(tok_text name, N_type (TRec (List.length (recs (v_types v)))))]) eq_refl). auto. }
    rewrite <- Ev. exact S. }
  change (Env (v_types v) (v_objs v) (v_secs v) (v_stab v) pkgs (v_next v)) with v1 in B. cbn [List.length] in *. rewrite A5 in M6.
  destruct (body_runs v (tok_text name) v1 No eq_refl regex _ _ _ _ _ B n sec q6 ket us p' (entered_own v _ _ _ _ rt0 Rg En eq_refl eq_refl) Bd Kk ltac:(lia) ltac:(lia) R6) as ((q7 & E7 & R7 & M7) & B7).
  change (List.length (recs (v_types v1))) with (List.length (recs (v_types v))) in E7. rewrite (dbind_do _ _ _ _ _ E7). cbv beta.
  steps (match_runs C_KET sec (in_body v1 rt k') q7 ket _ p' R7 Kk) q8 R8 M8. exists q8.
  split; [|split; auto; repeat (rewrite app_length; cbn [List.length]); cbn in *; lia].
  change (List.length (recs (v_types v))) with (List.length (recs (v_types v1))).
  destruct fin; [unfold dset; cbn [s_env s_cu s_sec s_ps]; rewrite in_body_change; reflexivity|]. unfold dret. destruct rt. reflexivity.
Qed.

(** ** Check blocks *)
Definition goes {A} (m : P A) (q : ps) (ts us : list token) (p' : pos) (a : A) : Prop :=
  exists q', m q = POk a q' /\ reads (at_ q') us p' /\ uses q' ts q.
Ltac gos L q1 R M := let E := fresh "E" in
  destruct L as (q1 & E & R & M); rewrite (pbind_do _ _ _ _ _ E); clear E; cbv beta iota.
Lemma match_goes k q tk us p' : reads (at_ q) (tk :: us) p' -> tk_kind tk = k -> goes (p_match file k) q [tk] us p' tk.
Proof. intros R K. destruct (match_go file k q tk us p' R K) as (q1 & E & R1 & M & _). exists q1. split; auto. split; auto. cbn. lia. Qed.
Lemma scope_components G a cs : wf_types G -> scope_of G a cs -> components_of G a = map (fun x => (c_name x, x)) cs.
Proof.
  intros O [r l A|u ut U]; unfold components_of.
  - rewrite (chain_spec G O r r l (Nat.le_refl r) A). auto.
  - unfold tup. rewrite U. auto.
Qed.
Lemma scope_names G a cs : types_ok matches G -> scope_of G a cs -> NoDup (map (fun x => simplified_name (c_name x)) cs).
Proof.
  intros Ot [r l A|u ut U].
  - eapply Permutation_NoDup; [|apply (ok_similar _ _ Ot r)].
    apply Permutation_map. rewrite (all_components_spec G (ok_order _ _ Ot) r l A). apply Permutation_flat_map. apply Permutation_rev.
  - apply (uo_names _ _ _ _ (ty_tups _ _ Ot _ _ U)).
Qed.
Lemma severity_goes q x ts us p' : severity_part x ts -> starts (fun tk => tk_kind tk = STRING) us -> reads (at_ q) (ts ++ us) p' ->
  goes (parse_severity file) q ts us p' x.
Proof.
  intros S F R. unfold parse_severity, goes. destruct S as [|tk W|tk W|tk W]; norm R.
  - rewrite pcond_false by (eapply pk_starts; [exact R|]; eapply starts_weaken; [|exact F]; cbn; intros; congruence).
    exists q. split; [reflexivity|]. split; auto. cbn. lia.
  - rewrite pcond_true by (eapply pk_true; [exact R|apply W]). gos (match_goes KEYWORD q tk us p' R (word_kind _ _ W)) q1 R1 M1.
    unfold has_text. destruct W as [_ W]. rewrite W. exists q1. split; [vm_compute; reflexivity|]. auto.
  - rewrite pcond_true by (eapply pk_true; [exact R|apply W]). gos (match_goes KEYWORD q tk us p' R (word_kind _ _ W)) q1 R1 M1.
    unfold has_text. destruct W as [_ W]. rewrite W. exists q1. split; [vm_compute; reflexivity|]. auto.
  - rewrite pcond_true by (eapply pk_true; [exact R|apply W]). gos (match_goes KEYWORD q tk us p' R (word_kind _ _ W)) q1 R1 M1.
    unfold has_text. destruct W as [_ W]. rewrite W. exists q1. split; [vm_compute; reflexivity|]. auto.
Qed.
Lemma message_goes q tk us p' : reads (at_ q) (tk :: us) p' -> tk_kind tk = STRING -> ~ In 10%N (tok_text tk) -> goes (parse_message file) q [tk] us p' tk.
Proof.
  intros R K Nl. unfold parse_message, goes. gos (match_goes STRING q tk us p' R K) q1 R1 M1.
  replace (existsb _ _) with false; [exists q1; split; [reflexivity|]; split; auto|]. symmetry. apply not_true_is_false. intros X. apply existsb_exists in X as (x & I & X).
  apply N.eqb_eq in X. subst x. auto.
Qed.
Lemma anchor_goes G a cs q tk x us p' : types_ok matches G -> scope_of G a cs -> tk_kind tk = IDENTIFIER -> In x cs -> c_name x = tok_text tk ->
  reads (at_ q) (tk :: us) p' -> goes (parse_anchor file G a true) q [tk] us p' (Some (c_name x)).
Proof.
  intros Ot Sc K I E R. unfold parse_anchor, goes. gos (match_goes IDENTIFIER q tk us p' R K) q1 R1 M1.
  rewrite (scope_components _ _ _ (ok_order _ _ Ot) Sc).
  rewrite (lift_do _ _ _ _ (lookup_distinct file c_name N_comp cs x tk (scope_names _ _ _ Ot Sc) I E)). exists q1. auto.
Qed.
Lemma tail_goes G a cs q ex an ts us p' : types_ok matches G -> scope_of G a cs -> tail_part cs ex an ts ->
  starts (fun tk => tk_kind tk <> COMMA) us -> reads (at_ q) (ts ++ us) p' ->
  goes (let* (extra, has) := check_tail file in let* anchor := parse_anchor file G a has in pret (extra, anchor)) q ts us p' (ex, an).
Proof.
  intros Ot Sc Ta F R. unfold goes. destruct Ta as [|comma tk K1 K2|comma tk x K1 K2 I E|comma ts comma' tk x K1 K2 K3 K4 I E]; norm R.
  - rewrite (pbind_do _ _ q (None, false) q). 2:{ unfold check_tail. rewrite pcond_false by (eapply pk_starts; eauto). reflexivity. }
    exists q. split; [reflexivity|]. split; auto. cbn. lia.
  - destruct (match_goes COMMA q comma _ p' R K1) as (q1 & E1 & R1 & M1). destruct (match_goes STRING q1 tk _ p' R1 K2) as (q2 & E2 & R2 & M2).
    rewrite (pbind_do _ _ q (Some (tok_text tk), false) q2).
    + exists q2. split; [reflexivity|]. split; auto. cbn in *. lia.
    + unfold check_tail. rewrite pcond_true by (eapply pk_true; eauto). rewrite (pbind_do _ _ _ _ _ E1).
      rewrite pcond_false by (eapply pk_false; [exact R1|congruence]). rewrite pcond_true by (eapply pk_true; eauto). unfold details.
      rewrite (pbind_do _ _ _ _ _ E2). rewrite pcond_false by (eapply pk_starts; eauto). reflexivity.
  - destruct (match_goes COMMA q comma _ p' R K1) as (q1 & E1 & R1 & M1).
    rewrite (pbind_do _ _ q (None, true) q1).
    + gos (anchor_goes G a cs q1 tk x us p' Ot Sc K2 I E R1) q2 R2 M2. exists q2. split; [reflexivity|]. split; auto. cbn in *. lia.
    + unfold check_tail. rewrite pcond_true by (eapply pk_true; eauto). rewrite (pbind_do _ _ _ _ _ E1).
      rewrite pcond_true by (eapply pk_true; eauto). reflexivity.
  - destruct (match_goes COMMA q comma _ p' R K1) as (q1 & E1 & R1 & M1). destruct (match_goes STRING q1 ts _ p' R1 K2) as (q2 & E2 & R2 & M2).
    destruct (match_goes COMMA q2 comma' _ p' R2 K3) as (q3 & E3 & R3 & M3).
    rewrite (pbind_do _ _ q (Some (tok_text ts), true) q3).
    + gos (anchor_goes G a cs q3 tk x us p' Ot Sc K4 I E R3) q4 R4 M4. exists q4. split; [reflexivity|]. split; auto. cbn in *. lia.
    + unfold check_tail. rewrite pcond_true by (eapply pk_true; eauto). rewrite (pbind_do _ _ _ _ _ E1).
      rewrite pcond_false by (eapply pk_false; [exact R1|congruence]). rewrite pcond_true by (eapply pk_true; eauto). unfold details.
      rewrite (pbind_do _ _ _ _ _ E2). rewrite pcond_true by (eapply pk_true; eauto). rewrite (pbind_do _ _ _ _ _ E3). reflexivity.
Qed.
Lemma names_distinct G : types_ok matches G -> ExprMeaningProofs.distinct_names G.
Proof.
  intros Ot. constructor.
  - apply (ty_enums _ _ Ot).
  - intros u ut U. apply (uo_names _ _ _ _ (ty_tups _ _ Ot _ _ U)).
  - intros u ut x U. apply (uo_own _ _ _ _ (ty_tups _ _ Ot _ _ U)).
  - apply (ok_similar _ _ Ot).
Qed.
Lemma syn_first lv r te us : syn lv r te -> starts (fun tk => tk_kind tk <> COMMA /\ tk_kind tk <> C_KET) (te ++ us).
Proof.
  intros S. apply syn_starts in S as (tk & tl & -> & S). apply starts_cons. assert (X : start tk).
  { destruct lv; cbn in S; unfold start, factor_start in *; tauto. }
  destruct X as [[[X|[X|X]]|[X|X]]|[X|X]]; [|split; congruence|split; congruence|destruct X as [K _]; split; congruence..].
  inversion X; subst; split; try congruence; match goal with H : keyword _ _ |- _ => destruct H; congruence end.
Qed.
Lemma check_goes v a q x ts us p' : check_decl file compiles matches p imports false v a x ts -> no_objects matches v -> (rem (at_ q) < n)%nat ->
  starts (fun tk => tk_kind tk <> COMMA) us -> reads (at_ q) (ts ++ us) p' ->
  goes (parse_check file lint compiles matches n v (names_in v) a) q ts us p' x.
Proof.
  intros D No L F R. destruct D as [cs r te e comma sev tv msg ex an ta Sc Sy Me We Te Kc Sv Km Nl Ta]. norm R.
  assert (Ot : types_ok matches (v_types v)) by apply No.
  assert (Dc := declared_here compiles matches regex c v No). rewrite (names_eq c p imports pkg imps) in Dc.
  assert (El := means_elab file lint _ _ compiles _ Dc (names_distinct _ Ot) _ _ _ _ Me We).
  apply reads_split in R as (p1 & R1 & R2).
  destruct (parse_expression_complete file lint _ _ compiles _ n _ r te q p1 e Sy R1 El) as (q1 & E1 & A1); auto.
  { rewrite (reads_first _ _ _ _ R2). tokb. }
  assert (Er : (errc q1 <= errc q)%nat).
  { assert (Q := Notes.quiet_expression (fun x => mistake x = false) (fun _ _ => eq_refl) file lint (v_types v) (World (v_objs v) matches) compiles (names_in v) n
      [map (fun c => (c_name c, N_comp c)) cs; p_symbols (names_in v) p; v_stab v] q). rewrite E1 in Q. destruct Q as (ns & O & Q).
    apply errc_note in O. replace (filter mistake ns) with (@nil note) in O; [cbn in O; lia|]. clear - Q. induction Q as [|x l H Q IH]; cbn; auto. rewrite H. auto. }
  assert (Es : check_scope (v_types v) (names_in v) a = [map (fun c => (c_name c, N_comp c)) cs; p_symbols (names_in v) p; v_stab v]).
  { unfold check_scope. rewrite (scope_components _ _ _ (ok_order _ _ Ot) Sc), map_map. auto. }
  unfold parse_check, goes. rewrite Es. rewrite (pbind_do _ _ _ _ _ E1). rewrite Te.
  rewrite <- A1 in R2. apply reads_rem in R1. rewrite <- A1 in R1.
  gos (match_goes COMMA q1 comma _ p' R2 Kc) q2 R3 M2.
  gos (severity_goes q2 sev tv _ p' Sv (starts_cons _ _ _ Km) R3) q3 R4 M3.
  gos (message_goes q3 msg _ p' R4 Km (Nl eq_refl)) q4 R5 M4.
  destruct (tail_goes _ a cs q4 ex an ta us p' Ot Sc Ta F R5) as (q5 & E5 & R6 & M5).
  exists q5. split; [|split; auto; repeat (rewrite app_length; cbn [List.length]); cbn in *; lia].
  unfold pbind in *. destruct (check_tail file q4) as [[ex' has] q6| | |]; try discriminate.
  destruct (parse_anchor file (v_types v) a has q6) as [an' q7| | |]; try discriminate. injection E5 as -> -> ->. reflexivity.
Qed.
Lemma checked_do v x a v' : checked_type v x a v' -> v' = add_check a x v.
Proof.
  intros [r pk nm pa cs fz fin abs cks l Rp|u pk nm cs seps cks l Rp]; destruct (replaced_do _ _ _ _ _ Rp) as [_ Ch]; cbn [add_check].
  - unfold change_rec, set_types. rewrite (Ch (add_rec_check x)); auto.
  - unfold change_tup, set_types. rewrite (Ch (add_tup_check x)); auto.
Qed.
Lemma checks_first a v ts v' ket us : checks_decl file compiles matches p imports false a v ts v' -> tk_kind ket = C_KET ->
  starts (fun tk => tk_kind tk <> COMMA) (ts ++ ket :: us).
Proof.
  intros [|? ? ? ? ? ? D _ _] K; [apply starts_cons; congruence|]. destruct D. rewrite <- !app_assoc.
  eapply starts_weaken; [|eapply syn_first; eauto]. cbn. tauto.
Qed.
Lemma check_loop_runs a v ts v' : checks_decl file compiles matches p imports false a v ts v' -> forall m sec q ket us p',
  no_objects matches v -> checkable (v_types v) a -> tk_kind ket = C_KET -> (rem (at_ q) < m)%nat -> (rem (at_ q) < n)%nat ->
  reads (at_ q) (ts ++ ket :: us) p' -> runs (check_loop file lint compiles matches n m a) sec v q ts (ket :: us) p' tt v'.
Proof.
  induction 1 as [v|v x tc v1 ts v' Cd Ct Cs IH]; intros m sec q ket us p' No Ca K Lm Ln R; (destruct m as [|m]; [lia|]); norm R; unfold runs; cbn [check_loop].
  - rewrite dcond_true by (eapply pk_true; eauto). exists q. split; [reflexivity|]. split; auto. cbn. lia.
  - assert (S : starts (fun tk => tk_kind tk <> C_KET) (tc ++ ts ++ ket :: us)).
    { destruct Cd. rewrite <- !app_assoc. eapply starts_weaken; [|eapply syn_first; eauto]. cbn. tauto. }
    assert (Ne : (1 <= List.length tc)%nat).
    { destruct Cd. repeat (rewrite app_length; cbn [List.length]). lia. }
    rewrite dcond_false by (eapply pk_starts; eauto).
    destruct (check_goes v a q x tc _ p' Cd No Ln (checks_first _ _ _ _ _ us Cs K) R) as (q1 & E1 & R1 & M1).
    rewrite <- (names_eq c p imports pkg imps) in E1.
    assert (Ck := check_parsed file lint compiles matches regex n c v a q x q1 No E1).
    rewrite (dbind_do _ _ _ x (St v c sec q1)) by (unfold with_names; cbn [s_env s_cu s_sec s_ps]; rewrite E1; auto). cbv beta.
    rewrite dset_do. rewrite (checked_do _ _ _ _ Ct) in IH.
    assert (O : wf_types (v_types v)) by (destruct No as [_ [Ot _]]; apply (ok_order _ _ Ot)).
    destruct (add_check_sound src compiles matches regex v a x O Ca) as (_ & O' & L').
    assert (V : valid (v_types v) a) by (destruct a; try contradiction; exact Ca).
    destruct (IH m sec q1 ket us p') as (q2 & E2 & R2 & M2); auto; try lia.
    { apply add_check_ok; auto. }
    exists q2. split; [exact E2|]. split; auto. rewrite app_length. lia.
Qed.
Lemma block_runs sec v q ts v' us p' : block_decl file compiles matches p imports false v ts v' -> no_objects matches v -> (rem (at_ q) < n)%nat ->
  reads (at_ q) (ts ++ us) p' -> runs (parse_check_block file lint compiles matches n) sec v q ts us p' tt v'.
Proof.
  intros D No L R. destruct D as [kw tk a bra ts v' ket Kw K1 En K2 K3 Cs (cs & Sc)]. norm R. unfold parse_check_block, runs.
  steps (word_runs "checks" sec v q kw _ p' R Kw) q1 R1 M1.
  steps (match_runs IDENTIFIER sec v q1 tk _ p' R1 K1) q2 R2 M2.
  rewrite (dbind_do _ _ _ _ _ (current_do sec v q2)). cbv beta.
  assert (Cp : is_composite (N_type a) = true) by (destruct Sc; auto).
  rewrite (dbind_do _ _ _ (N_type a) (St v c sec q2)).
  2:{ unfold with_names. cbn [s_env s_cu s_sec s_ps]. rewrite (names_eq c p imports pkg imps).
      unfold lift. rewrite (entry_lookup file _ tk _ (Some is_composite) En Cp). auto. }
  cbv beta iota. steps (match_runs C_BRA sec v q2 bra _ p' R2 K2) q3 R3 M3. cbn [List.length] in *.
  assert (Ca : checkable (v_types v) a).
  { eapply composite_checkable; [eapply entry_exists; [apply No|exact En]|auto]. }
  steps (check_loop_runs a v ts v' Cs n sec q3 ket us p' No Ca K3 ltac:(lia) ltac:(lia) R3) q4 R4 M4.
  steps (match_runs C_KET sec v' q4 ket _ p' R4 K3) q5 R5 M5. exists q5. split; [reflexivity|]. split; auto.
  cbn in *. rewrite app_length. cbn. lia.
Qed.

(** ** Files with types *)
Lemma kw_first w w' q tk ts p' : reads (at_ q) (tk :: ts) p' -> word w' tk -> text_eqb (t w') (t w) = false -> peek_kw (t w) q = false.
Proof. intros R W E. eapply kw_false; [exact R|]. eapply other_word; eauto. Qed.
Lemma entered_kept stab pkgs pk name e pkgs' i d x : entered stab pkgs pk name e pkgs' -> nth_error pkgs i = Some d -> In x d ->
  exists d', nth_error pkgs' i = Some d' /\ In x d'.
Proof.
  intros (d0 & Rp & _) E I. destruct (replaced_do _ _ _ _ _ Rp) as [E0 Ch]. rewrite <- (Ch (fun d => d ++ [(name, e)]) eq_refl).
  destruct (Nat.eq_dec pk i) as [<-|Ne].
  - rewrite change_same, E0. rewrite E0 in E. injection E as ->. eexists. split; [reflexivity|]. apply in_or_app. auto.
  - rewrite change_other; eauto.
Qed.
Lemma entered_there stab pkgs pk name e pkgs' : entered stab pkgs pk name e pkgs' -> exists d, nth_error pkgs' pk = Some d /\ In (name, e) d.
Proof.
  intros (d0 & Rp & _). destruct (replaced_do _ _ _ _ _ Rp) as [E0 Ch]. rewrite <- (Ch (fun d => d ++ [(name, e)]) eq_refl).
  rewrite change_same, E0. eexists. split; [reflexivity|]. apply in_or_app. right. left. auto.
Qed.
Lemma body_named v rt k ts rt' k' : body_decl file src p imports false v rt k ts rt' k' -> r_pkg rt' = r_pkg rt /\ r_name rt' = r_name rt.
Proof. induction 1; auto. Qed.
Lemma checks_registered a v ts v' : checks_decl file compiles matches p imports false a v ts v' -> registered v -> registered v'.
Proof.
  induction 1 as [v|v x tc v1 ts v' Cd Ct Cs IH]; auto. intros [On Rg]. apply IH.
  assert (X : v_pkgs v1 = v_pkgs v /\ forall i y, nth_error (recs (v_types v1)) i = Some y ->
     exists z, nth_error (recs (v_types v)) i = Some z /\ r_pkg z = r_pkg y /\ r_name z = r_name y).
  { destruct Ct as [r pk nm pa cs fz fin abs cks l Rp|u pk nm cs seps cks l Rp]; cbn; (split; [auto|]); [|eauto].
    intros i y E. destruct (replaced_do _ _ _ _ _ Rp) as [E0 Ch]. rewrite <- (Ch (fun _ => RecType pk nm pa cs fz fin abs (cks ++ [x])) eq_refl) in E.
    destruct (Nat.eq_dec r i) as [->|Ns]; [rewrite change_same, E0 in E; injection E as <-; eauto|rewrite change_other in E; eauto]. }
  destruct X as [Ep X]. split.
  - intros r s y z Ey Ez P N. apply X in Ey as (y' & Ey & P1 & N1). apply X in Ez as (z' & Ez & P2 & N2). eapply On; eauto; congruence.
  - intros r y Ey. apply X in Ey as (y' & Ey & P1 & N1). rewrite Ep, <- P1, <- N1. auto.
Qed.
Lemma item_registered v ts v' : type_item file src compiles matches p imports false v ts v' -> registered v -> registered v'.
Proof.
  intros [? ? D|? ? D|? ? D|? ? D] [On Rg].
  - destruct D as [kw name tn bra lits tl ket pkgs Kw Dn Kb Hl Kk Ne Nd En]. split; [exact On|]. cbn. intros r x E. destruct (Rg _ _ E) as (d & Ed & I).
    eapply entered_kept; eauto.
  - destruct D as [kw name tn bra cs seps ts0 k' ket pkgs Kw Dn Kb Fs Kk Nd Ns En]. split; [exact On|]. cbn. intros r x E. destruct (Rg _ _ E) as (d & Ed & I).
    eapply entered_kept; eauto.
  - destruct D as [abs fin tm kw name tn parent te inh bra rt tb k' ket pkgs Md Kw Dn Ex Fi Kb Kk En B].
    apply body_named in B as [Bp Bn]. cbn in Bp, Bn. split.
    + eapply (own_last v (RecType p (tok_text name) parent [] [] inh abs [])); [| |eapply entered_own; [split; eauto|exact En|reflexivity|reflexivity]]; cbn; auto.
    + cbn. intros r x E. apply nth_extended in E as [E|[-> ->]].
      * destruct (Rg _ _ E) as (d & Ed & I). eapply entered_kept; eauto.
      * cbn. rewrite Bp, Bn. eapply entered_there; eauto.
  - destruct D. eapply checks_registered; eauto. split; auto.
Qed.
Lemma item_runs sec v q ts v' us p' : registered v -> type_item file src compiles matches p imports false v ts v' -> no_objects matches v -> (rem (at_ q) < n)%nat ->
  reads (at_ q) (ts ++ us) p' ->
  runs (rsl_item file src lint compiles matches n) sec v q ts us p' tt v' /\ no_objects matches v' /\ (exists tk tl, ts = tk :: tl).
Proof.
  intros Rg D No L R.
  assert (X : runs (rsl_item file src lint compiles matches n) sec v q ts us p' tt v' /\ (exists tk tl, ts = tk :: tl)).
  { unfold rsl_item, parse_type_declaration, runs. destruct D as [ts v' D|ts v' D|ts v' D|ts v' D].
    - destruct (enum_runs sec v q ts us p' v' D R L) as (q1 & E & R1 & M). destruct D. norm R.
      split; [|eauto]. exists q1. split; auto. etransitivity; [|exact E].
      rewrite dcond_false by (eapply kw_first; [exact R|eassumption|reflexivity]). rewrite dcond_true by (eapply kw_true; eauto). auto.
    - destruct (tuple_runs sec v q ts us p' v' (proj1 Rg) D R L) as (q1 & E & R1 & M). destruct D. norm R.
      split; [|eauto]. exists q1. split; auto. etransitivity; [|exact E].
      rewrite !dcond_false by (eapply kw_first; [exact R|eassumption|reflexivity]). rewrite dcond_true by (eapply kw_true; eauto). auto.
    - destruct (record_runs sec v q ts v' us p' Rg D No L R) as (q1 & E & R1 & M). destruct D as [abs fin tm]. norm R.
      split; [|destruct tm; cbn; eauto]. exists q1. split; auto. etransitivity; [|exact E].
      assert (F : exists w tk tl, tm ++ kw :: tn ++ te ++ bra :: tb ++ ket :: us = tk :: tl /\ word w tk /\ text_eqb (t w) (t "checks") = false /\
        text_eqb (t w) (t "enum") = false /\ text_eqb (t w) (t "tuple") = false).
      { match goal with H : modifier _ _ _ |- _ => destruct H end; do 3 eexists; (split; [reflexivity|]); eauto. }
      destruct F as (w & tk & tl & Et & W & E1 & E2 & E3). rewrite Et in R. rewrite !dcond_false by (eapply kw_first; eauto). auto.
    - destruct (block_runs sec v q ts v' us p' D No L R) as (q1 & E & R1 & M). destruct D. norm R.
      split; [|eauto]. exists q1. split; auto. etransitivity; [|exact E].
      rewrite dcond_true by (eapply kw_true; eauto). auto. }
  destruct X as [X Y]. split; auto. split; auto. destruct X as (q1 & E & _).
  exact (run_at _ _ _ _ _ _ _ _ _ (run_item file src lint compiles matches n c p pkg regex v No) E).
Qed.
Lemma attempt_do rec m f s s' : m s = DOk tt s' -> attempt rec m f s = DOk true s'.
Proof. unfold attempt. intros ->. auto. Qed.
Lemma not_eof q tk ts p' : reads (at_ q) (tk :: ts) p' -> peek_eof q = false.
Proof. intros R. unfold peek_eof. rewrite (reads_first _ _ _ _ R). auto. Qed.
Lemma rsl_loop_runs v ts v' : type_items file src compiles matches p imports false v ts v' -> forall m rec sec q p',
  registered v -> no_objects matches v -> (rem (at_ q) < m)%nat -> (rem (at_ q) < n)%nat -> reads (at_ q) ts p' -> nt p' = None ->
  runs (rsl_loop file src lint compiles matches n m rec true) sec v q ts [] p' true v'.
Proof.
  induction 1 as [v|v ts v1 us v' It Is IH]; intros m rec sec q p' Rg No Lm Ln R Ef; (destruct m as [|m]; [lia|]); unfold runs; cbn [rsl_loop].
  - inversion R; subst. exists q. split; [|split; auto; cbn; lia]. unfold dcond. cbn [s_ps]. unfold peek_eof. rewrite Ef. auto.
  - destruct (item_runs sec v q ts v1 us p' Rg It No Ln R) as ((q1 & E1 & R1 & M1) & No1 & tk & tl & ->). cbn [app] in R.
    unfold dcond. cbn [s_ps]. rewrite (not_eof _ _ _ _ R). rewrite (dbind_do _ _ _ _ _ (attempt_do _ _ _ _ _ E1)). cbn [andb List.length] in *.
    destruct (IH m rec sec q1 p' (item_registered _ _ _ It Rg)) as (q2 & E2 & R2 & M2); auto; try lia.
    exists q2. split; auto. split; auto. cbn [app List.length]. rewrite app_length. lia.
Qed.

(** ** Record objects *)
(** No component is frozen twice. *)
Definition frozen_once (G : types) : Prop := forall r k f f', freezes G r k f -> freezes G r k f' -> f = f'.
Lemma frozen_do G r k f : wf_types G -> (r < List.length (recs G))%nat -> frozen_once G -> freezes G r k f -> get_freezing G r k = Some f.
Proof.
  intros O L On F. destruct (get_freezing G r k) eqn:E.
  - apply freezing_some in E; auto. rewrite (On _ _ _ _ F E). auto.
  - destruct (freezing_none _ O _ _ L E _ F).
Qed.
Lemma nodup_key {A B} (l : list (A * B)) k x y : NoDup (map fst l) -> In (k, x) l -> In (k, y) l -> x = y.
Proof.
  induction l as [|[k' z] l IH]; cbn; [contradiction|]. intros Nd [I|I] [J|J]; inversion Nd as [|? ? Ni Nd']; subst.
  - congruence.
  - injection I as -> ->. destruct Ni. exact (in_map fst _ _ J).
  - injection J as -> ->. destruct Ni. exact (in_map fst _ _ I).
  - auto.
Qed.
Lemma nodup_last {A} (l : list A) x : NoDup l -> ~ In x l -> NoDup (l ++ [x]).
Proof. intros Nd Ni. apply NoDup_rev in Nd. rewrite <- (rev_involutive (l ++ [x])). apply NoDup_rev. rewrite rev_app_distr. constructor; auto. rewrite <- in_rev. auto. Qed.
Ltac given_twice := exfalso; match goal with H : forall f, ~ In (?k, f) ?g, I : In (?k, _) ?g |- _ => exact (H _ I) end.
Lemma filled_det id l g cs fs fs' : filled id l g cs fs -> filled id l g cs fs' -> NoDup (map fst g) -> fs = fs'.
Proof.
  intros H. revert fs'. induction H as [id l g|id l g y cs f fs Ig H IH|id l g y cs fs Ng H IH]; intros fs' H' Nd; inversion H' as [|? ? f' fs1 Ig' H1|? ? fs1 Ng' H1]; subst; auto.
  - rewrite (nodup_key _ _ _ _ Nd Ig Ig'), (IH _ H1 Nd). auto.
  - given_twice.
  - given_twice.
  - rewrite (IH _ H1 Nd). auto.
Qed.
Lemma filled_free id l g cs fs x : filled id l g cs fs -> NoDup (map c_name cs) -> In x cs -> (forall f, ~ In (c_name x, f) g) ->
  exists f, assoc (c_name x) fs = Some f /\ is_null (snd f) = true.
Proof.
  induction 1 as [id l g|id l g y cs f' fs Ig H IH|id l g y cs fs Ng H IH]; cbn; intros Nd I Nx; [contradiction|..]; inversion Nd as [|? ? Ni Nd']; subst.
  - destruct (text_eqb (c_name y) (c_name x)) eqn:E.
    + apply text_eqb_eq in E. rewrite E in Ig. destruct (Nx _ Ig).
    + destruct I as [->|I]; [rewrite text_eqb_refl in E; discriminate|auto].
  - destruct (text_eqb (c_name y) (c_name x)) eqn:E.
    + eexists. split; [reflexivity|]. auto.
    + destruct I as [->|I]; [rewrite text_eqb_refl in E; discriminate|auto].
Qed.
Lemma field_of_do sec v ob path k q name f : assoc name (o_fields ob) = Some f ->
  field_of (List.length (v_objs v)) name (St (with_object v ob path k) c sec q) = DOk f (St (with_object v ob path k) c sec q).
Proof. intros E. unfold field_of. rewrite dget_do. cbn [s_env with_object v_objs]. rewrite nth_last, E. auto. Qed.
Lemma assign_do sec v ob path k q name f f' : assoc name (o_fields ob) = Some f' -> is_null (snd f') = true ->
  assign (List.length (v_objs v)) name f (St (with_object v ob path k) c sec q) = DOk tt (St (with_object v (put name f ob) path k) c sec q).
Proof.
  intros E Nu. unfold assign. rewrite (dbind_do _ _ _ _ _ (field_of_do _ _ _ _ _ _ _ _ E)). rewrite Nu. unfold dset. cbn [s_env s_cu s_sec s_ps].
  do 2 f_equal. unfold change_object, with_object. cbn. rewrite change_last. auto.
Qed.
Section OBJECT.
Variable v : env.
Variable ob : object.
Variable path : list sect.
Variable id0 : nat.
Variable cs : list component.
Notation r := (o_typ ob).
Hypothesis Ot : types_ok matches (v_types v).
Hypothesis valid_r : (r < List.length (recs (v_types v)))%nat.
Hypothesis once : frozen_once (v_types v).
Hypothesis comps : components (v_types v) r cs.
Hypothesis distinct : NoDup (map c_name cs).
Let order : wf_types (v_types v) := ok_order _ _ Ot.
Lemma comp_chain x : In x cs -> In x (chain_steps (v_types v) r r).
Proof. apply comp_in; auto. Qed.
Lemma assigns_first g k ts g' k' ket us : assigns file src p imports false v ob id0 cs g k ts g' k' -> tk_kind ket = C_KET ->
  starts (fun tk => tk_kind tk = IDENTIFIER \/ tk_kind tk = C_KET) (ts ++ ket :: us).
Proof. intros D K. destruct D; apply starts_cons; auto. Qed.
Lemma assignments_runs g k ts g' k' : assigns file src p imports false v ob id0 cs g k ts g' k' -> forall m sec q fs ket us p',
  filled id0 (o_loc ob) g cs fs -> solid g -> NoDup (map fst g) -> tk_kind ket = C_KET -> (rem (at_ q) < m)%nat -> (rem (at_ q) < n)%nat ->
  reads (at_ q) (ts ++ ket :: us) p' ->
  exists fs', filled id0 (o_loc ob) g' cs fs' /\ solid g' /\
    runs (assignments file src n m r (List.length (v_objs v))) sec (with_object v (fields_set ob fs) path k) q ts (ket :: us) p' tt
      (with_object v (fields_set ob fs') path k').
Proof.
  induction 1 as [g k|g k tk eq x y tx ns ts g' k' fs0 K1 K2 Ix Nx Ng Fz Fl0 V Ns As IH]; intros m sec q fs ket us p' Fl So Nd K Lm Ln R;
    (destruct m as [|m]; [lia|]); norm R; unfold runs; cbn [assignments].
  - exists fs. split; auto. split; auto. rewrite dcond_true by (eapply pk_true; eauto). exists q. split; [reflexivity|]. split; auto. cbn. lia.
  - rewrite (filled_det _ _ _ _ _ _ Fl0 Fl Nd) in V. clear Fl0 fs0. set (w := with_object v (fields_set ob fs) path k).
    assert (F := assigns_first _ _ _ _ _ _ us As K).
    destruct (ends_next (v_types v) (c_typ x) ts ket us (proj1 (Ns eq_refl)) K
       ltac:(eapply starts_weaken; [|exact F]; cbn; intros ? [?|?]; kinds)) as (t1 & tl & El & En). rewrite El in R.
    destruct (filled_free _ _ _ _ _ _ Fl distinct Ix Ng) as (f0 & Af & Nu).
    assert (Cx : complete_type (v_types v) (c_typ x)).
    { eapply component_complete; eauto. apply (chain_components (v_types v) r r x order (Nat.le_refl r)). apply comp_chain. auto. }
    destruct (match_runs IDENTIFIER sec w q tk _ p' R K1) as (q1 & E1 & R1 & M1).
    destruct (match_runs ASSIGN sec w q1 eq _ p' R1 K2) as (q2 & E2 & R2 & M2). cbn [List.length] in *.
    destruct (value_runs sec w (c_typ x) y tx ns q2 t1 tl p' V (proj2 (Ns eq_refl)) Ot Cx ltac:(lia) En R2) as (q3 & E3 & R3 & M3).
    set (f := (k, y) : field) in *.
    assert (E : assignment file src n r (List.length (v_objs v)) (St w c sec q) =
      DOk tt (St (with_object v (fields_set ob (set_field fs (c_name x) f)) path (Datatypes.S k)) c sec q3)).
    { unfold assignment. rewrite (dbind_do _ _ _ _ _ E1). rewrite dget_do. cbn [s_env].
      rewrite (dbind_do _ _ _ x (St w c sec q1)) by (apply dlift_do; apply component_lookup; auto using comp_chain).
      assert (Ef : field_of (List.length (v_objs v)) (c_name x) (St w c sec q1) = DOk f0 (St w c sec q1)) by (apply field_of_do; exact Af).
      rewrite (dbind_do _ _ _ _ _ Ef). rewrite Nu. cbn [negb].
      unfold is_frozen. cbn [w with_object v_types]. rewrite (not_frozen _ _ _ order valid_r Fz).
      fold w. rewrite (dbind_do _ _ _ _ _ E2), (dbind_do _ _ _ _ _ E3).
      rewrite (dbind_do _ _ _ k (St (with_object v (fields_set ob fs) path (Datatypes.S k)) c sec q3)) by reflexivity.
      rewrite (assign_do _ v (fields_set ob fs) _ _ _ _ f f0 Af Nu). reflexivity. }
    assert (So' : solid (g ++ [(c_name x, f)])).
    { intros k0 f1 I. apply in_app_or in I as [I|[I|[]]]; eauto. injection I as _ <-. cbn. eapply value_null; eauto. }
    assert (Nd' : NoDup (map fst (g ++ [(c_name x, f)]))).
    { rewrite map_app. cbn. apply nodup_last; auto. intros I. apply in_map_iff in I as ([k0 f1] & Ek & I). cbn in Ek. subst k0. exact (Ng _ I). }
    rewrite <- El in R3.
    destruct (IH m sec q3 _ ket us p' (filled_put _ _ _ _ _ _ f Fl distinct Ix Ng) So' Nd' K ltac:(lia) ltac:(lia) R3) as (fs' & Fl' & So2 & q4 & E4 & R4 & M4).
    exists fs'. split; auto. split; auto. exists q4. split; [|split; auto; rewrite app_length; lia].
    rewrite dcond_false by (eapply pk_false; [exact R|congruence]). rewrite (dbind_do _ _ _ _ _ E). exact E4.
Qed.
Lemma assigns_keys g k ts g' k' : assigns file src p imports false v ob id0 cs g k ts g' k' -> NoDup (map fst g) -> NoDup (map fst g').
Proof.
  induction 1; auto. intros Nd. apply IHassigns. rewrite map_app. apply nodup_last; auto. intros I. apply in_map_iff in I as ([k0 f1] & Ek & I).
  cbn in Ek. subst k0. match goal with H : forall f, ~ In _ g |- _ => exact (H _ I) end.
Qed.
Lemma complete_do l todo sec q g : forall id k pre fs fs', filled id (o_loc ob) g todo fs -> solid g -> NoDup (map fst g) ->
  NoDup (map fst pre ++ map c_name todo) -> finished (v_types v) r id (o_loc ob) g todo fs' ->
  complete l r (List.length (v_objs v)) todo (St (with_object v (fields_set ob (pre ++ fs)) path k) c sec q) =
    DOk tt (St (with_object v (fields_set ob (pre ++ fs')) path k) c sec q).
Proof.
  induction todo as [|x todo IH]; intros id k pre fs fs' Fl So Ndg Nd Fi; cbn [complete].
  - inversion Fl; subst. inversion Fi; subst. auto.
  - assert (Np : ~ In (c_name x) (map fst pre)).
    { intros I. apply NoDup_remove_2 in Nd. apply Nd. apply in_or_app. auto. }
    assert (As : forall f d, assoc (c_name x) (pre ++ (c_name x, f) :: d) = Some f).
    { intros f d. clear - Np. induction pre as [|[k' y] pre IHp]; cbn in *; [rewrite text_eqb_refl; auto|].
      destruct (text_eqb k' (c_name x)) eqn:E; [apply text_eqb_eq in E; destruct Np; auto|]. auto. }
    assert (Sf : forall f f' d, set_field (pre ++ (c_name x, f) :: d) (c_name x) f' = pre ++ (c_name x, f') :: d).
    { intros f f' d. clear - Np. induction pre as [|[k' y] pre IHp]; cbn in *; [rewrite text_eqb_refl; auto|].
      destruct (text_eqb k' (c_name x)) eqn:E; [apply text_eqb_eq in E; destruct Np; auto|]. rewrite IHp; auto. }
    assert (Go : forall f fs0 fs1, filled (Datatypes.S id) (o_loc ob) g todo fs0 -> finished (v_types v) r (Datatypes.S id) (o_loc ob) g todo fs1 ->
       complete l r (List.length (v_objs v)) todo (St (with_object v (fields_set ob (pre ++ (c_name x, f) :: fs0)) path k) c sec q) =
       DOk tt (St (with_object v (fields_set ob (pre ++ (c_name x, f) :: fs1)) path k) c sec q)).
    { intros f fs0 fs1 Fl0 Fi0. replace (pre ++ (c_name x, f) :: fs0) with ((pre ++ [(c_name x, f)]) ++ fs0) by (rewrite <- app_assoc; auto).
      replace (pre ++ (c_name x, f) :: fs1) with ((pre ++ [(c_name x, f)]) ++ fs1) by (rewrite <- app_assoc; auto).
      apply (IH (Datatypes.S id)); auto. rewrite map_app, <- app_assoc. auto. }
    assert (X : (exists f fs1, fs = (c_name x, f) :: fs1 /\ In (c_name x, f) g /\ filled (Datatypes.S id) (o_loc ob) g todo fs1) \/
      (exists fs1, fs = (c_name x, (id, XNull (o_loc ob))) :: fs1 /\ (forall f, ~ In (c_name x, f) g) /\ filled (Datatypes.S id) (o_loc ob) g todo fs1))
      by (clear - Fl; inversion Fl; subst; eauto 6).
    destruct X as [(f & fs1 & -> & Ig & Fl0)|(fs1 & -> & Ng & Fl0)].
    + rewrite (dbind_do _ _ _ _ _ (field_of_do _ _ (fields_set ob (pre ++ (c_name x, f) :: fs1)) _ _ _ _ _ (As f fs1))). rewrite (So _ _ Ig).
      inversion Fi; subst; try given_twice.
      match goal with H : In (c_name x, ?f0) g |- _ => replace f0 with f in * by (eapply nodup_key; eauto) end.
      exact (Go f _ _ Fl0 ltac:(eassumption)).
    + rewrite (dbind_do _ _ _ _ _ (field_of_do _ _ (fields_set ob (pre ++ (c_name x, (id, XNull (o_loc ob))) :: fs1)) _ _ _ _ _ (As _ fs1))). cbn [snd is_null].
      inversion Fi as [|? ? ? ? Ig|? ? f fs2 _ Fz Fi0|? ? fs2 _ Nf Op Fi0]; subst; [given_twice|..].
      * rewrite (dbind_do _ _ _ tt (St (with_object v (fields_set ob (pre ++ (c_name x, f) :: fs1)) path k) c sec q)); [exact (Go f _ _ Fl0 Fi0)|].
        rewrite dget_do. cbn [s_env with_object v_types]. rewrite (frozen_do _ _ _ _ order valid_r once Fz).
        rewrite (assign_do _ _ (fields_set ob (pre ++ (c_name x, (id, XNull (o_loc ob))) :: fs1)) _ _ _ _ f _ (As _ fs1) eq_refl).
        unfold put. cbn [fields_set o_pkg o_name o_loc o_typ o_fields]. rewrite Sf. auto.
      * rewrite (dbind_do _ _ _ tt (St (with_object v (fields_set ob (pre ++ (c_name x, (id, XNull (o_loc ob))) :: fs1)) path k) c sec q));
          [exact (Go _ _ _ Fl0 Fi0)|].
        rewrite dget_do. cbn [s_env with_object v_types]. rewrite (not_frozen _ _ _ order valid_r Nf), Op. auto.
Qed.
End OBJECT.

Lemma object_runs sec v q ts v' us p' : object_decl file src p imports false (rev sec) v ts v' -> ready_objects matches p v -> frozen_once (v_types v) ->
  (rem (at_ q) < n)%nat -> reads (at_ q) (ts ++ us) p' -> runs (parse_object file src n) sec v q ts us p' tt v'.
Proof.
  intros D [Ot Nt Lp] On L R. destruct D as [r rt tk tq name bra cs g ts k' ket fs pkgs Q Er Ab K1 K2 K3 Cs En As Fi]. norm R.
  assert (Or := ok_order _ _ Ot). assert (Lr : (r < List.length (recs (v_types v)))%nat) by (apply nth_error_Some; congruence).
  assert (Ec : all_components (v_types v) r = cs).
  { destruct Cs as (l & A & ->). apply all_components_spec; auto. }
  assert (Nd : NoDup (map c_name cs)) by (rewrite <- Ec; apply (ok_distinct matches); auto).
  unfold parse_object, runs.
  steps (member_runs sec v q r tk tq _ p' Q R) q1 R1 M1. rewrite dget_do. cbn [s_env]. unfold rec. rewrite Er, Ab.
  steps (match_runs IDENTIFIER sec v q1 name _ p' R1 K1) q2 R2 M2.
  rewrite (dbind_do _ _ _ _ _ (current_do sec v q2)). cbv beta.
  rewrite (dbind_do _ _ _ (rev sec) (St v c sec q2)) by reflexivity.
  rewrite (dbind_do _ _ _ _ _ (register_do sec v q2 _ _ _ _ En)). cbv beta. rewrite dset_do. cbn [s_env s_cu s_sec s_ps]. rewrite Ec.
  set (v1 := with_pkgs v pkgs) in *. set (ob := Object p (tok_text name) (loc_of name) r []).
  change (add_object _ _ v1) with (with_object v1 (fields_set ob (null_components (v_next v) (loc_of name) cs)) (rev sec)
    (List.length (null_components (v_next v) (loc_of name) cs) + v_next v)%nat).
  assert (Ln : List.length (null_components (v_next v) (loc_of name) cs) = List.length cs).
  { rewrite <- (map_length fst), (filled_keys _ _ _ _ _ (filled_null (v_next v) (loc_of name) cs)), map_length. auto. }
  rewrite Ln. set (w := with_object v1 _ _ _).
  steps (match_runs C_BRA sec w q2 bra _ p' R2 K2) q3 R3 M3. cbn [List.length] in *.
  destruct (assignments_runs v1 ob (rev sec) (v_next v) cs Ot Lr Cs Nd _ _ _ _ _ As n sec q3 (null_components (v_next v) (loc_of name) cs) ket us p'
    (filled_null _ _ _) ltac:(intros ? ? []) (NoDup_nil _) K3 ltac:(lia) ltac:(lia) R3) as (fs' & Fl & So & q4 & E4 & R4 & M4).
  rewrite (dbind_do _ _ _ _ _ E4). cbv beta.
  assert (Ng : NoDup (map fst g)) by (eapply assigns_keys; [exact As|constructor]).
  assert (E5 := complete_do v1 ob (rev sec) Ot Lr On (loc_of name) cs sec q4 g (v_next v) k' [] fs' fs Fl So Ng Nd Fi). cbn [app] in E5.
  rewrite (dbind_do _ _ _ _ _ E5). cbv beta. set (w' := with_object v1 _ _ _).
  steps (match_runs C_KET sec w' q4 ket _ p' R4 K3) q6 R6 M6. exists q6. split; [reflexivity|]. split; auto.
  repeat (rewrite app_length; cbn [List.length]). cbn in *. lia.
Qed.
Lemma object_first path v ts v' us : object_decl file src p imports false path v ts v' -> starts (fun tk => tk_kind tk = IDENTIFIER) (ts ++ us).
Proof. intros D. destruct D. rewrite <- !app_assoc. eapply qualified_first; eauto. Qed.
Lemma item_first path v ts v' us : object_item file src p imports false path v ts v' ->
  starts (fun tk => tk_kind tk = IDENTIFIER \/ word "section" tk) (ts ++ us).
Proof. intros [? ? ? ? D|]; [eapply starts_weaken; [|eapply object_first; eauto]; auto|apply starts_cons; auto]. Qed.
Lemma object_length path v ts v' : object_item file src p imports false path v ts v' -> (1 <= List.length ts)%nat.
Proof. intros D. destruct (item_first _ _ _ _ [] D) as (tk & tl & E & _). rewrite app_nil_r in E. subst ts. cbn. lia. Qed.
Lemma object_types path v ts v' : object_decl file src p imports false path v ts v' -> v_types v' = v_types v.
Proof. intros D. destruct D. auto. Qed.
Lemma items_types : (forall path v ts v', object_item file src p imports false path v ts v' -> v_types v' = v_types v) /\
  (forall path v ts v', object_items file src p imports false path v ts v' -> v_types v' = v_types v).
Proof. apply oi_all; intros; eauto using object_types. congruence. Qed.
Lemma entry_runs : (forall path v ts v', object_item file src p imports false path v ts v' -> forall m sec q us p',
    path = rev sec -> ready_objects matches p v -> frozen_once (v_types v) -> (rem (at_ q) < m)%nat -> (rem (at_ q) < n)%nat -> reads (at_ q) (ts ++ us) p' ->
    runs (parse_entry file src n m) sec v q ts us p' tt v') /\
  (forall path v ts v', object_items file src p imports false path v ts v' -> forall m sec q ket us p',
    path = rev sec -> ready_objects matches p v -> frozen_once (v_types v) -> tk_kind ket = C_KET ->
    (rem (at_ q) + 1 < m)%nat -> (rem (at_ q) < n)%nat -> reads (at_ q) (ts ++ ket :: us) p' ->
    runs (entries_loop file src n m) sec v q ts (ket :: us) p' tt v').
Proof.
  apply oi_all.
  - intros path v ts v' D m sec q us p' -> Rd On Lm Ln R. destruct m as [|m]; [lia|].
    destruct (object_runs sec v q ts v' us p' D Rd On Ln R) as (q1 & E & R1 & M). exists q1. split; auto. cbn [parse_entry].
    assert (F := object_first _ _ _ _ us D). rewrite dcond_false; auto. eapply kw_starts; [exact R|]. eapply starts_weaken; [|exact F]. cbn. intros. kinds.
  - intros path v kw name bra ts v' ket Kw K1 K2 K3 _ IH m sec q us p' -> Rd On Lm Ln R. destruct m as [|m]; [lia|]. norm R. unfold runs. cbn [parse_entry].
    rewrite dcond_true by (eapply kw_true; eauto).
    steps (word_runs "section" sec v q kw _ p' R Kw) q1 R1 M1. steps (match_runs STRING sec v q1 name _ p' R1 K1) q2 R2 M2.
    rewrite (dbind_do _ _ _ tt (St v c ((tok_loc file name, tok_text name) :: sec) q2)) by reflexivity.
    steps (match_runs C_BRA ((tok_loc file name, tok_text name) :: sec) v q2 bra _ p' R2 K2) q3 R3 M3. cbn [List.length] in *.
    steps (IH m ((tok_loc file name, tok_text name) :: sec) q3 ket us p' eq_refl Rd On K3 ltac:(lia) ltac:(lia) R3) q4 R4 M4.
    steps (match_runs C_KET ((tok_loc file name, tok_text name) :: sec) v' q4 ket _ p' R4 K3) q5 R5 M5. exists q5. split; [reflexivity|]. split; auto.
    repeat (rewrite app_length; cbn [List.length]). cbn in *. lia.
  - intros path v m sec q ket us p' -> Rd On K Lm Ln R. destruct m as [|m]; [lia|]. unfold runs. cbn [entries_loop]. norm R.
    rewrite dcond_true by (eapply pk_true; eauto). exists q. split; [reflexivity|]. split; auto. cbn. lia.
  - intros path v ts v1 us v' Hi IHi Hs IHs m sec q ket vs p' -> Rd On K Lm Ln R. destruct m as [|m]; [lia|]. norm R.
    assert (F := item_first _ _ _ _ (us ++ ket :: vs) Hi). assert (Le := object_length _ _ _ _ Hi).
    destruct (IHi m sec q _ p' eq_refl Rd On ltac:(lia) Ln R) as (q1 & E1 & R1 & M1).
    assert (Rd1 := proj1 (items_ready file src matches p imports false) _ _ _ _ Hi Rd).
    rewrite <- (proj1 items_types _ _ _ _ Hi) in On.
    destruct (IHs m sec q1 ket vs p' eq_refl Rd1 On K ltac:(lia) ltac:(lia) R1) as (q2 & E2 & R2 & M2).
    exists q2. split; [|split; auto; rewrite app_length; lia]. cbn [entries_loop].
    rewrite dcond_false by (eapply pk_starts; [exact R|]; eapply starts_weaken; [|exact F]; cbn; intros ? [?|?]; kinds).
    rewrite (dbind_do _ _ _ _ _ E1). auto.
Qed.
Lemma trlc_loop_runs path v ts v' : object_items file src p imports false path v ts v' -> forall m rec sec q p',
  path = rev sec -> ready_objects matches p v -> frozen_once (v_types v) -> (rem (at_ q) < m)%nat -> (rem (at_ q) < n)%nat -> reads (at_ q) ts p' -> nt p' = None ->
  runs (trlc_loop file src n m rec true) sec v q ts [] p' true v'.
Proof.
  induction 1 as [path v|path v ts v1 us v' Hi Hs IH]; intros m rec sec q p' -> Rd On Lm Ln R Ef; (destruct m as [|m]; [lia|]); unfold runs; cbn [trlc_loop].
  - inversion R; subst. exists q. split; [|split; auto; cbn; lia]. unfold dcond. cbn [s_ps]. unfold peek_kw, peek, next_is. rewrite Ef. auto.
  - assert (F := item_first _ _ _ _ us Hi). assert (Le := object_length _ _ _ _ Hi).
    destruct (proj1 entry_runs _ _ _ _ Hi n sec q us p' eq_refl Rd On Ln Ln R) as (q1 & E1 & R1 & M1).
    assert (Rd1 := proj1 (items_ready file src matches p imports false) _ _ _ _ Hi Rd).
    rewrite <- (proj1 items_types _ _ _ _ Hi) in On.
    destruct (IH m rec sec q1 p' eq_refl Rd1 On) as (q2 & E2 & R2 & M2); auto; try lia.
    exists q2. split; [|split; auto; rewrite app_length; lia].
    unfold dcond. cbn [s_ps]. assert (Pk : peek_kw (t "section") q || peek IDENTIFIER q = true).
    { destruct F as (tk & tl & E & [K|W]); rewrite E in R; [erewrite (pk_true IDENTIFIER) by eauto|erewrite kw_true by eauto]; auto using orb_true_r. }
    rewrite Pk. rewrite (dbind_do _ _ _ _ _ (attempt_do _ _ _ _ _ E1)). exact E2.
Qed.

(** ** Components are frozen at most once *)
Lemma frozen_alike G G' : (forall r q, extends G r q <-> extends G' r q) -> (forall r, own_frozen G r = own_frozen G' r) -> frozen_once G -> frozen_once G'.
Proof.
  intros E F On r k f f' (q & C & I) (q' & C' & I'). rewrite <- F in I, I'.
  assert (X : forall a b, clos_refl_trans nat (extends G') a b -> clos_refl_trans nat (extends G) a b).
  { induction 1; [apply rt_step, E; auto|apply rt_refl|eapply rt_trans; eauto]. }
  apply (On r k); [exists q|exists q']; auto.
Qed.
Lemma alike_recs G G' : (forall r, option_map (fun rt => (r_parent rt, r_frozen rt)) (nth_error (recs G) r) =
  option_map (fun rt => (r_parent rt, r_frozen rt)) (nth_error (recs G') r)) -> frozen_once G -> frozen_once G'.
Proof.
  intros H. apply frozen_alike.
  - intros r q. unfold extends. specialize (H r).
    destruct (nth_error (recs G) r) as [a|], (nth_error (recs G') r) as [b|]; try discriminate; [injection H as H1 H2|];
      (split; intros (rt & E & P); [|]); try discriminate; injection E as <-; eexists; (split; [reflexivity|congruence]).
  - intros r. unfold own_frozen. specialize (H r).
    destruct (nth_error (recs G) r) as [a|], (nth_error (recs G') r) as [b|]; try discriminate; auto. injection H as H1 H2. auto.
Qed.
Lemma reaches_below G r q : wf_types G -> clos_refl_trans nat (extends G) r q -> (q <= r)%nat.
Proof. intros O C. induction C as [? ? E| |]; [apply O in E; lia|auto|lia]. Qed.
Lemma start_once v rt : wf_types (v_types v) -> (forall q, r_parent rt = Some q -> (q < List.length (recs (v_types v)))%nat) ->
  r_frozen rt = [] -> frozen_once (v_types v) -> frozen_once (with_rec v rt).
Proof.
  intros O P Fz On. assert (O' := with_rec_order v rt O P). set (L := List.length (recs (v_types v))) in *.
  assert (Ex : forall a b, extends (with_rec v rt) a b -> (a < L)%nat -> extends (v_types v) a b).
  { intros a b (x & E & Q) La. unfold with_rec in E. cbn in E. rewrite nth_before in E by auto. exists x. auto. }
  assert (Low : forall a b, clos_refl_trans nat (extends (with_rec v rt)) a b -> (a < L)%nat -> clos_refl_trans nat (extends (v_types v)) a b).
  { intros a b C. apply clos_rt_rt1n in C. induction C as [|a b d E C IH]; intros La; [apply rt_refl|].
    eapply rt_trans; [apply rt_step; apply Ex; eauto|]. apply IH. apply O' in E. lia. }
  assert (Of : forall a k f, In (k, f) (own_frozen (with_rec v rt) a) -> (a < L)%nat /\ In (k, f) (own_frozen (v_types v) a)).
  { intros a k f I. unfold own_frozen, with_rec in I. cbn in I. destruct (nth_error (recs (v_types v) ++ [rt]) a) as [x|] eqn:E; [|contradiction].
    apply nth_extended in E as [E|[-> ->]]; [|rewrite Fz in I; contradiction]. split; [apply nth_error_Some; congruence|].
    unfold own_frozen. rewrite E. auto. }
  assert (Dn : forall r k f, freezes (with_rec v rt) r k f -> (r < L)%nat /\ freezes (v_types v) r k f \/
     r = L /\ exists q, r_parent rt = Some q /\ freezes (v_types v) q k f).
  { intros r k f (q & C & I). apply Of in I as [Lq I]. destruct (Nat.lt_ge_cases r L) as [Lr|Lr].
    - left. split; auto. exists q. auto.
    - right. apply clos_rt_rt1n in C. destruct C as [|b d E C]; [lia|]. destruct E as (x & E & Q). unfold with_rec in E. cbn in E.
      assert (r = L). { assert (nth_error (recs (v_types v) ++ [rt]) r <> None) by congruence. apply nth_error_Some in H. rewrite app_length in H. cbn in H. fold L in H. lia. }
      split; auto. subst r. unfold L in E. rewrite nth_last in E. injection E as <-. exists b. split; auto. exists d. split; auto.
      apply Low; [apply clos_rt1n_rt; auto|apply P; auto]. }
  intros r k f f' F F'. apply Dn in F as [[Lr F]|[-> (q & Pq & F)]]; apply Dn in F' as [[Lr' F']|[E (q' & Pq' & F')]]; try lia; try (eapply On; eauto; fail).
  rewrite Pq in Pq'. injection Pq' as <-. eapply On; eauto.
Qed.
Lemma body_once v rt k ts rt' k' : body_decl file src p imports false v rt k ts rt' k' -> wf_types (v_types v) ->
  (forall q, r_parent rt = Some q -> (q < List.length (recs (v_types v)))%nat) -> frozen_once (with_rec v rt) -> frozen_once (with_rec v rt').
Proof.
  induction 1 as [rt k|pk nm pa cs fz abs cks k name tn opt to a ta k1 b tb k2 ts rt' k' Dn Ow Ta Tb Fr D IH
    |pk nm pa cs fz fin abs cks k kw tk eq x y tx ns ts rt' k' Kw K1 K2 Hx Nx Fz V Ns D IH]; intros O P On; auto.
  - apply IH; auto. eapply alike_recs; [|exact On]. intros r. unfold with_rec. cbn [recs].
    destruct (Nat.lt_trichotomy r (List.length (recs (v_types v)))) as [L|[->|L]].
    + rewrite !nth_before by auto. auto.
    + rewrite !nth_last. auto.
    + rewrite !(proj2 (nth_error_None _ _)); auto; rewrite app_length; cbn; lia.
  - apply IH; auto. clear IH. set (rt1 := RecType pk nm pa cs fz fin abs cks) in *. set (rt2 := RecType _ _ _ _ (fz ++ _) _ _ _).
    assert (O2 : wf_types (with_rec v rt2)) by (apply with_rec_order; auto).
    assert (Ex : forall a b, extends (with_rec v rt2) a b -> extends (with_rec v rt1) a b).
    { intros a b (z & E & Q). unfold with_rec in E. cbn in E. apply nth_extended in E as [E|[-> ->]].
      - exists z. split; auto. unfold with_rec. cbn. rewrite nth_before; auto. apply nth_error_Some. congruence.
      - exists rt1. split; auto. unfold with_rec. cbn. apply nth_last. }
    assert (Cl : forall a b, clos_refl_trans nat (extends (with_rec v rt2)) a b -> clos_refl_trans nat (extends (with_rec v rt1)) a b).
    { induction 1; [apply rt_step, Ex; auto|apply rt_refl|eapply rt_trans; eauto]. }
    assert (Dn : forall r z f, freezes (with_rec v rt2) r z f -> freezes (with_rec v rt1) r z f \/
      r = List.length (recs (v_types v)) /\ z = c_name x /\ f = (k, y)).
    { intros r z f (q & C & I). unfold own_frozen, with_rec in I. cbn [recs] in I.
      destruct (nth_error (recs (v_types v) ++ [rt2]) q) as [w|] eqn:E; [|contradiction]. apply nth_extended in E as [E|[-> ->]].
      - left. exists q. split; auto. unfold own_frozen, with_rec. cbn [recs]. rewrite nth_before, E; auto. apply nth_error_Some. congruence.
      - cbn [rt2 r_frozen] in I. apply in_app_or in I as [I|[I|[]]].
        + left. exists (List.length (recs (v_types v))). split; auto. unfold own_frozen, with_rec. cbn [recs]. rewrite nth_last. auto.
        + injection I as <- <-. right. split; auto. apply clos_rt_rt1n in C. inversion C as [|b c0 E C']; auto. subst.
          apply clos_rt1n_rt in C'. apply (reaches_below _ _ _ O2) in C'. destruct (O2 _ _ E). 
          * destruct E as (z & E & _). assert (L : nth_error (recs (with_rec v rt2)) (Datatypes.S b) <> None) by congruence.
            apply nth_error_Some in L. unfold with_rec in L. cbn in L. rewrite app_length in L. cbn in L. lia.
          * destruct E as (z & E & _). assert (L : nth_error (recs (with_rec v rt2)) (Datatypes.S m) <> None) by congruence.
            apply nth_error_Some in L. unfold with_rec in L. cbn in L. rewrite app_length in L. cbn in L. lia. }
    intros r z f f' F F'. apply Dn in F as [F|(-> & -> & ->)]; apply Dn in F' as [F'|(E1 & E2 & E3)].
    + eapply On; eauto.
    + subst. destruct (Fz _ F).
    + destruct (Fz _ F').
    + congruence.
Qed.
Lemma checks_once a v ts v' : checks_decl file compiles matches p imports false a v ts v' -> frozen_once (v_types v) -> frozen_once (v_types v').
Proof.
  induction 1 as [v|v x tc v1 ts v' Cd Ct Cs IH]; auto. intros On. apply IH. destruct Ct as [r pk nm pa cs fz fin abs cks l Rp|u pk nm cs seps cks l Rp]; cbn.
  - eapply alike_recs; [|exact On]. intros s. cbn. destruct (replaced_do _ _ _ _ _ Rp) as [E Ch]. rewrite <- (Ch (fun _ => RecType pk nm pa cs fz fin abs (cks ++ [x])) eq_refl).
    destruct (Nat.eq_dec r s) as [->|Ns]; [rewrite change_same, E; auto|rewrite change_other; auto].
  - eapply alike_recs; [|exact On]. auto.
Qed.
Lemma item_once v ts v' : type_item file src compiles matches p imports false v ts v' -> no_objects matches v -> frozen_once (v_types v) -> frozen_once (v_types v').
Proof.
  intros [? ? D|? ? D|? ? D|? ? D] No On.
  - destruct D. cbn. eapply alike_recs; [|exact On]. auto.
  - destruct D. cbn. eapply alike_recs; [|exact On]. auto.
  - assert (Or : wf_types (v_types v)) by (apply (ok_order matches); apply No).
    destruct D as [abs fin tm kw name tn parent te inh bra rt tb k' ket pkgs Md Kw Dn Ex Fi Kb Kk En B]. cbn.
    assert (Pr : forall r, parent = Some r -> (r < List.length (recs (v_types v)))%nat).
    { destruct Ex as [|kw' r' tk ts0 Kw' Qr]; intros r E1; [discriminate|]. injection E1 as <-.
      apply qualified_valid in Qr; [|apply No]. apply (ev_type _ _ _ _ Qr _ eq_refl). }
    assert (X := body_once _ _ _ _ _ _ B Or Pr (start_once (with_pkgs v pkgs) (RecType p (tok_text name) parent [] [] inh abs []) Or Pr eq_refl On)).
    eapply alike_recs; [|exact X]. intros r. unfold with_rec. cbn [recs v_types].
    destruct (Nat.lt_trichotomy r (List.length (recs (v_types v)))) as [L|[->|L]].
    + rewrite !nth_before by auto. auto.
    + rewrite !nth_last. auto.
    + rewrite !(proj2 (nth_error_None _ _)); auto; rewrite app_length; cbn; lia.
  - destruct D. eapply checks_once; eauto.
Qed.
Lemma items_once v ts v' : type_items file src compiles matches p imports false v ts v' -> forall q p',
  registered v -> no_objects matches v -> frozen_once (v_types v) -> (rem (at_ q) < n)%nat -> reads (at_ q) ts p' ->
  registered v' /\ no_objects matches v' /\ frozen_once (v_types v').
Proof.
  induction 1 as [v|v ts v1 us v' It Is IH]; intros q p' Rg No On Ln R; auto.
  destruct (item_runs [] v q ts v1 us p' Rg It No Ln R) as ((q1 & E1 & R1 & M1) & No1 & _). apply (IH q1 p'); auto; [eapply item_registered; eauto| |lia]. eapply item_once; eauto.
Qed.
End COMPLETE.
