(** Iteration by section follows the text of the files. *)
From Verif Require Import Base Lexer LexSpec LexerThm SymTab Ast Eval ParserBase ExprSyntax ParserDecl DeclSyntax DeclSound Process RunSyntax RunMeaning Sections.
From Verif Require SourceMan SourceManProofs.
From Coq Require Import ZifyBool ZifyNat ZifyN.
Open Scope Z_scope.

(** ** Specification *)

(** The outline of a file: objects (by number) and sections *)
Inductive node : Type :=
| Obj (o : nat)
| Sec (s : sect) (ns : list node).

Fixpoint objects_in (n : node) : list nat :=
  match n with Obj o => [o] | Sec _ ns => flat_map objects_in ns end.
Fixpoint sections_in (n : node) : list sect :=
  match n with Obj _ => [] | Sec s ns => s :: flat_map sections_in ns end.

(** The outline of the tokens of a file; the objects are numbered from [k]. *)
Inductive outline (file : Z) (objs : list object) : nat -> list token -> list node -> nat -> Prop :=
| ol_none k : outline file objs k [] [] k
| ol_object k tq name bra body ket ob us ns k' :
    tk_kind name = IDENTIFIER -> tk_kind bra = C_BRA -> tk_kind ket = C_KET ->
    nth_error objs k = Some ob -> o_name ob = tok_text name -> o_loc ob = tok_loc file name ->
    outline file objs (S k) us ns k' ->
    outline file objs k ((tq ++ name :: bra :: body ++ [ket]) ++ us) (Obj k :: ns) k'
| ol_section k kw name bra body inner k1 ket us ns k' :
    word "section" kw -> tk_kind name = STRING -> tk_kind bra = C_BRA -> tk_kind ket = C_KET ->
    outline file objs k body inner k1 -> outline file objs k1 us ns k' ->
    outline file objs k ((kw :: name :: bra :: body ++ [ket]) ++ us) (Sec (tok_loc file name, tok_text name) inner :: ns) k'.

(** What a reader expects: every section that has objects is announced before
    its objects, with the number of sections around it; objects have the level
    of the section that they are in, or 0. *)
Fixpoint listing (level : nat) (n : node) : list event :=
  match n with
  | Obj o => [Ev_object o (level - 1)]
  | Sec s ns =>
      match flat_map objects_in ns with
      | [] => []
      | _ => Ev_section (snd s) level :: flat_map (listing (S level)) ns
      end
  end.
(** The outline of a file of package [d_pkg] *)
Record doc := Doc { d_file : Z; d_pkg : nat; d_nodes : list node }.
Definition doc_listing (d : doc) : list event :=
  match flat_map objects_in (d_nodes d) with
  | [] => []
  | _ => Ev_file (d_file d) :: flat_map (listing 0) (d_nodes d)
  end.

(** ** Induction *)
Lemma NoDup_split {A} (a b : list A) : NoDup (a ++ b) -> NoDup a /\ NoDup b /\ (forall x, In x a -> In x b -> False).
Proof. intros N. apply SourceManProofs.NoDup_app_iff in N as (X & Y & Z). repeat split; auto. Qed.
Lemma NoDup_app_l {A} (a b : list A) : NoDup (a ++ b) -> NoDup a. Proof. intros N. apply NoDup_split in N. tauto. Qed.
Lemma NoDup_app_r {A} (a b : list A) : NoDup (a ++ b) -> NoDup b. Proof. intros N. apply NoDup_split in N. tauto. Qed.
Lemma NoDup_app_disj {A} (a b : list A) x : NoDup (a ++ b) -> In x a -> In x b -> False. Proof. intros N. apply NoDup_split in N as (_ & _ & N). apply N. Qed.
Lemma NoDup_app_mid {A} (a b c : list A) : NoDup ((a ++ b) ++ c) -> NoDup (a ++ c).
Proof.
  intros N. apply NoDup_split in N as (N & C & D). apply NoDup_split in N as (N & _ & _). apply SourceManProofs.NoDup_app_iff. split; auto. split; auto.
  intros x I J. eapply D; eauto. apply in_app_iff. auto.
Qed.
Lemma node_ind2 (P : node -> Prop) : (forall o, P (Obj o)) -> (forall s ns, (forall n, In n ns -> P n) -> P (Sec s ns)) -> forall n, P n.
Proof.
  intros H1 H2. fix IH 1. intros [o|s ns]; [apply H1|]. apply H2. revert ns. fix IHl 1. intros [|m ns] n I; [contradiction|].
  destruct I as [<-|I]; [apply IH|apply (IHl ns n I)].
Qed.
Lemma same_section_eq a b : same_section a b = true <-> a = b.
Proof.
  destruct a as [[f [l c s e]] n], b as [[f' [l' c' s' e']] n']. unfold same_section, sref_eqb. cbn [fst snd l_file l_ref sr_line sr_col sr_start sr_end].
  rewrite !Bool.andb_true_iff, text_eqb_eq, !Z.eqb_eq. split; [intuition congruence|]. intros E. injection E. intuition.
Qed.
Lemma seen_in s seen : existsb (same_section s) seen = true <-> In s seen.
Proof.
  rewrite existsb_exists. split; [intros (x & I & E); apply same_section_eq in E; congruence|]. intros I. exists s. split; auto. apply same_section_eq. auto.
Qed.
Lemma seen_out s seen : ~ In s seen -> existsb (same_section s) seen = false.
Proof. intros N. destruct (existsb _ _) eqn:E; auto. apply seen_in in E. contradiction. Qed.

(** ** Entering sections *)
Fixpoint announce (level : nat) (path : list sect) : list event :=
  match path with [] => [] | s :: path' => Ev_section (snd s) level :: announce (S level) path' end.
Lemma enter_done pre : forall level path seen, incl pre seen -> enter_sections level (pre ++ path) seen = enter_sections (List.length pre + level) path seen.
Proof.
  induction pre as [|s pre IH]; intros level path seen I; cbn; auto. rewrite (proj2 (seen_in s seen)) by (apply I; cbn; auto).
  rewrite IH by (intros x J; apply I; cbn; auto). f_equal. lia.
Qed.
Lemma enter_new path : forall level seen, NoDup path -> (forall s, In s path -> ~ In s seen) -> enter_sections level path seen = (announce level path, seen ++ path).
Proof.
  induction path as [|s path IH]; intros level seen N F; cbn; [rewrite app_nil_r; auto|]. inversion N; subst.
  rewrite seen_out by (apply F; cbn; auto). rewrite IH; auto.
  - rewrite <- app_assoc. auto.
  - intros x I J. apply in_app_iff in J as [J|[<-|[]]]; [|contradiction]. eapply F; eauto. cbn. auto.
Qed.

(** ** One file after its name was announced *)
Fixpoint located (pre : list sect) (n : node) : list (nat * list sect) :=
  match n with Obj o => [(o, pre)] | Sec s ns => flat_map (located (pre ++ [s])) ns end.
Fixpoint walk (xs : list (nat * list sect)) (seen : list sect) : list event * list sect :=
  match xs with
  | [] => ([], seen)
  | (o, path) :: xs' =>
      let '(a, s1) := enter_sections 0 path seen in
      let '(b, s2) := walk xs' s1 in
      (a ++ Ev_object o (List.length path - 1) :: b, s2)
  end.
Lemma walk_app xs ys seen : walk (xs ++ ys) seen = let '(a, s1) := walk xs seen in let '(b, s2) := walk ys s1 in (a ++ b, s2).
Proof.
  revert seen. induction xs as [|[o p] xs IH]; intros seen; cbn; [destruct (walk ys seen); auto|].
  destruct (enter_sections 0 p seen) as [a s1]. rewrite IH. destruct (walk xs s1) as [b s2]. destruct (walk ys s2) as [c s3]. rewrite <- app_assoc. auto.
Qed.
Lemma located_objects n : forall pre, map fst (located pre n) = objects_in n.
Proof.
  induction n as [o|s ns IH] using node_ind2; intros pre; cbn; auto. induction ns as [|m ns IHn]; cbn; auto.
  rewrite map_app, IH by (cbn; auto). f_equal. apply IHn. intros k I. apply IH. cbn. auto.
Qed.
Lemma forest_objects ns pre : map fst (flat_map (located pre) ns) = flat_map objects_in ns.
Proof. induction ns as [|n ns IH]; cbn; auto. rewrite map_app, located_objects, IH. auto. Qed.

(** [pend] are sections that are entered with the next object. *)
Definition walks (n : node) : Prop := forall pre pend seen,
  incl pre seen -> NoDup (pend ++ sections_in n) -> (forall s, In s (pend ++ sections_in n) -> ~ In s seen) ->
  (objects_in n = [] -> walk (located (pre ++ pend) n) seen = ([], seen)) /\
  (objects_in n <> [] -> exists more, walk (located (pre ++ pend) n) seen =
     (announce (List.length pre) pend ++ listing (List.length (pre ++ pend)) n, seen ++ pend ++ more) /\ incl more (sections_in n)).
Lemma forest_walks ns : (forall n, In n ns -> walks n) -> forall pre pend seen,
  incl pre seen -> NoDup (pend ++ flat_map sections_in ns) -> (forall s, In s (pend ++ flat_map sections_in ns) -> ~ In s seen) ->
  (flat_map objects_in ns = [] -> walk (flat_map (located (pre ++ pend)) ns) seen = ([], seen)) /\
  (flat_map objects_in ns <> [] -> exists more, walk (flat_map (located (pre ++ pend)) ns) seen =
     (announce (List.length pre) pend ++ flat_map (listing (List.length (pre ++ pend))) ns, seen ++ pend ++ more) /\ incl more (flat_map sections_in ns)).
Proof.
  induction ns as [|n ns IH]; intros Hn pre pend seen I N F; cbn [flat_map] in *; [split; [auto|contradiction]|].
  assert (Nn : NoDup (pend ++ sections_in n)). { rewrite app_assoc in N. apply NoDup_app_l in N. auto. }
  assert (Fn : forall s, In s (pend ++ sections_in n) -> ~ In s seen). { intros s J. apply F. rewrite !in_app_iff in *. tauto. }
  destruct (Hn n (or_introl eq_refl) pre pend seen I Nn Fn) as [W1 W2]. rewrite walk_app.
  destruct (objects_in n) as [|o os] eqn:En.
  - rewrite W1 by auto. assert (Nr : NoDup (pend ++ flat_map sections_in ns)).
    { rewrite app_assoc in N. apply NoDup_app_mid in N. auto. }
    destruct (IH ltac:(intros; apply Hn; cbn; auto) pre pend seen I Nr) as [V1 V2].
    { intros s J. apply F. rewrite !in_app_iff in *. tauto. }
    assert (Ln : listing (List.length (pre ++ pend)) n = []) by (destruct n as [|s' ns']; cbn in *; [discriminate|rewrite En; auto]).
    split; intros E; cbn [app] in E.
    + rewrite V1 by auto. auto.
    + destruct (V2 E) as (more & X & Y). rewrite X, Ln. exists more. split; auto. apply incl_appr. auto.
  - clear W1. destruct W2 as (more & X & Y); [discriminate|]. rewrite X. split; [discriminate|]. intros _.
    assert (Nr : NoDup ([] ++ flat_map sections_in ns)). { cbn. rewrite app_assoc in N. apply NoDup_app_r in N. auto. }
    destruct (IH ltac:(intros; apply Hn; cbn; auto) (pre ++ pend) [] (seen ++ pend ++ more)) as [V1 V2]; auto.
    { intros s J. rewrite !in_app_iff in *. destruct J; auto. }
    { cbn. intros s J K. rewrite !in_app_iff in K. destruct K as [K|[K|K]].
      - eapply F; [|exact K]. rewrite !in_app_iff. auto.
      - rewrite app_assoc in N. eapply NoDup_app_disj; [exact N| |exact J]. rewrite in_app_iff. auto.
      - apply Y in K. rewrite app_assoc in N. eapply NoDup_app_disj; [exact N| |exact J]. rewrite in_app_iff. auto. }
    rewrite app_nil_r in V1, V2. destruct (flat_map objects_in ns) as [|o' os'] eqn:Er.
    + rewrite V1 by auto. exists more. rewrite app_nil_r.
      assert (Ln : flat_map (listing (List.length (pre ++ pend))) ns = []).
      { clear - Er. induction ns as [|m ns IH]; cbn in *; auto. apply app_eq_nil in Er as [E1 E2]. rewrite IH by auto. rewrite app_nil_r.
        destruct m as [|s' ns']; cbn in *; [discriminate|rewrite E1; auto]. }
      rewrite Ln, app_nil_r. split; auto. apply incl_appl. auto.
    + destruct V2 as (more' & X' & Y'); [discriminate|]. rewrite X'. exists (more ++ more'). cbn [announce app]. split.
      * f_equal; [rewrite <- app_assoc; auto|rewrite <- !app_assoc; auto].
      * apply incl_app; [apply incl_appl|apply incl_appr]; auto.
Qed.
Lemma node_walks n : walks n.
Proof.
  induction n as [o|s ns IH] using node_ind2; intros pre pend seen I N F.
  - cbn in *. rewrite app_nil_r in N, F. split; [discriminate|]. intros _. exists []. rewrite enter_done, enter_new by auto. split; [|apply incl_nil_l].
    rewrite Nat.add_0_r, app_nil_r. auto.
  - cbn [sections_in objects_in located listing] in *.
    destruct (forest_walks ns IH pre (pend ++ [s]) seen I) as [W1 W2].
    + rewrite <- app_assoc. auto.
    + intros x J. apply F. rewrite <- app_assoc in J. auto.
    + rewrite app_assoc in W1, W2. split; auto. intros E. destruct (W2 E) as (more & X & Y). exists (s :: more). rewrite X. split.
      * destruct (flat_map objects_in ns); [contradiction|].
        assert (A : forall k l, announce k (l ++ [s]) = announce k l ++ [Ev_section (snd s) (k + List.length l)]).
        { clear. intros k l. revert k. induction l as [|x l IH]; intros k; cbn; [rewrite Nat.add_0_r; auto|]. rewrite IH. replace (k + S (List.length l))%nat with (S k + List.length l)%nat by lia. auto. }
        rewrite A, <- app_assoc. cbn [app]. rewrite !app_length. cbn [List.length].
        replace (List.length pre + List.length pend + 1)%nat with (S (List.length pre + List.length pend)) by lia. rewrite <- (app_assoc pend). auto.
      * apply incl_cons; cbn; auto. apply incl_tl. auto.
Qed.
Lemma doc_walk ns seen : NoDup (flat_map sections_in ns) -> (forall s, In s (flat_map sections_in ns) -> ~ In s seen) ->
  exists more, walk (flat_map (located []) ns) seen = (flat_map (listing 0) ns, seen ++ more) /\ incl more (flat_map sections_in ns).
Proof.
  intros N F. destruct (forest_walks ns (fun n _ => node_walks n) [] [] seen) as [W1 W2]; auto.
  - apply incl_nil_l.
  - cbn in W1, W2. destruct (flat_map objects_in ns) as [|o os] eqn:E.
    + exists []. rewrite W1, app_nil_r by auto. split; [|apply incl_nil_l]. f_equal.
      clear - E. induction ns as [|m ns IH]; cbn in *; auto. apply app_eq_nil in E as [E1 E2]. rewrite <- IH by auto. rewrite app_nil_r.
      destruct m as [|s' ns']; cbn in *; [discriminate|rewrite E1; auto].
    + apply W2. discriminate.
Qed.

(** ** Outlines *)
Definition agree (objs objs' : list object) : Prop :=
  forall k ob, nth_error objs' k = Some ob -> exists ob', nth_error objs k = Some ob' /\ o_name ob' = o_name ob /\ o_loc ob' = o_loc ob.
Lemma agree_app objs a b : agree objs (a ++ b) -> agree objs a.
Proof. intros A k ob E. apply A. rewrite nth_error_app1; auto. apply nth_error_Some. congruence. Qed.

Lemma outline_sections file objs k ts ns k' : outline file objs k ts ns k' -> NoDup (map tk_start ts) ->
  NoDup (flat_map sections_in ns) /\ forall s, In s (flat_map sections_in ns) -> exists tk, In tk ts /\ s = (tok_loc file tk, tok_text tk).
Proof.
  assert (Dj : forall (a b : list token) x y, NoDup (map tk_start (a ++ b)) -> In x a -> In y b -> tk_start x = tk_start y -> False).
  { intros a b x y N I J E. rewrite map_app in N. eapply NoDup_app_disj; [exact N|apply in_map; exact I|]. rewrite E. apply in_map. auto. }
  assert (St : forall tk tk', (tok_loc file tk, tok_text tk) = (tok_loc file tk', tok_text tk') -> tk_start tk = tk_start tk') by (intros tk tk' E; injection E; auto).
  induction 1 as [k|k tq name bra body ket ob us ns k' K1 K2 K3 E1 E2 E3 O IH|k kw name bra body inner k1 ket us ns k' K0 K1 K2 K3 Oi IHi O IH]; intros N.
  - split; [constructor|intros s []].
  - pose proof N as N'. rewrite map_app in N'. apply NoDup_app_r in N'. destruct (IH N') as [A B]. cbn. split; auto.
    intros s I. destruct (B s I) as (tk & J & ->). exists tk. split; auto. apply in_app_iff. auto.
  - pose proof N as N'. rewrite map_app in N'. destruct (NoDup_split _ _ N') as (Na & Nb & _). destruct (IH Nb) as [A B].
    assert (Ni : NoDup (map tk_start (body ++ [ket]))) by (cbn in Na; inversion Na as [|? ? _ Na']; inversion Na' as [|? ? _ Na'']; inversion Na''; auto).
    rewrite map_app in Ni. apply NoDup_app_l in Ni. destruct (IHi Ni) as [Ai Bi].
    cbn [flat_map sections_in]. split.
    + apply SourceManProofs.NoDup_app_iff. split; [constructor; auto|split; auto].
      * intros I. destruct (Bi _ I) as (tk & J & E). apply St in E. cbn in Na. inversion Na as [|? ? _ Na']; subst. inversion Na' as [|? ? X _]; subst. apply X.
        rewrite E. cbn. right. apply in_map. apply in_app_iff. auto.
      * intros x I J. destruct (B x J) as (tk & Jt & ->). destruct I as [E|I].
        -- apply St in E. eapply Dj; [exact N| |exact Jt|exact E]. cbn. auto.
        -- destruct (Bi _ I) as (tk' & J' & E). apply St in E. eapply Dj; [exact N| |exact Jt|symmetry; exact E]. cbn. do 3 right. apply in_app_iff. auto.
    + intros s I. rewrite in_app_iff in I. destruct I as [[<-|I]|I].
      * exists name. split; auto. cbn. auto.
      * destruct (Bi _ I) as (tk & J & E). exists tk. split; auto. cbn. do 3 right. rewrite <- app_assoc. apply in_app_iff. auto.
      * destruct (B _ I) as (tk & J & E). exists tk. split; auto. apply in_app_iff. auto.
Qed.
Lemma segmented_starts off rest ts : segmented off rest ts -> NoDup (map tk_start ts) /\ forall tk, In tk ts -> off <= tk_start tk.
Proof.
  induction 1 as [off rest _|off ws txt after tk ts _ Lx S1 S2 H [IH1 IH2]]; cbn; [split; [constructor|intros ? []]|].
  apply lexeme_nonempty in Lx. assert (List.length txt <> 0%nat) by (destruct txt; [congruence|discriminate]).
  split.
  - constructor; auto. intros I. apply in_map_iff in I as (tk' & E & J). apply IH2 in J. lia.
  - intros tk' [<-|J]; [lia|]. apply IH2 in J. lia.
Qed.
Lemma filter_starts (f : token -> bool) ts : NoDup (map tk_start ts) -> NoDup (map tk_start (filter f ts)).
Proof.
  induction ts as [|x ts IH]; cbn; intros N; [constructor|]. inversion N; subst. destruct (f x); cbn; auto. constructor; auto.
  intros I. apply in_map_iff in I as (y & E & J). apply filter_In in J as [J _]. apply H1. rewrite <- E. apply in_map. auto.
Qed.
Lemma file_starts f name l body : file_is f name l body -> NoDup (map tk_start body).
Proof.
  intros (ts & _ & all & Lx & E). assert (S := lex_spec (i_src f)). rewrite Lx in S. destruct S as [S _]. apply segmented_starts in S as [S _].
  apply (filter_starts not_comment) in S. rewrite <- E, map_app in S. apply NoDup_app_r in S. auto.
Qed.

(** ** Objects of a file *)
Definition grown (p : nat) (v v' : env) (file : Z) (n : nat) : Prop :=
  (exists obs, v_objs v' = v_objs v ++ obs /\ List.length obs = n /\ (forall ob, In ob obs -> l_file (o_loc ob) = file)) /\
  v_stab v' = v_stab v /\
  (forall q, table_objects (nth q (v_pkgs v') []) = table_objects (nth q (v_pkgs v) []) ++ if Nat.eqb q p then seq (List.length (v_objs v)) n else []).
Lemma grown_trans p a b c file n m : grown p a b file n -> grown p b c file m -> grown p a c file (n + m).
Proof.
  intros ((o1 & A1 & L1 & F1) & S1 & T1) ((o2 & A2 & L2 & F2) & S2 & T2). split; [|split; [congruence|]].
  - exists (o1 ++ o2). rewrite A2, A1, app_assoc, app_length. split; auto. split; [lia|]. intros ob I. apply in_app_iff in I as [I|I]; auto.
  - intros q. rewrite T2, T1, A1, app_length, L1, <- app_assoc. f_equal. destruct (Nat.eqb q p); auto. rewrite seq_app. auto.
Qed.
Lemma table_objects_app a b : table_objects (a ++ b) = table_objects a ++ table_objects b.
Proof. unfold table_objects. apply flat_map_app. Qed.

Definition item_shape (file : Z) (p : nat) (path : list sect) (v : env) (ts : list token) (v' : env) : Prop :=
  exists n m, grown p v v' file m /\ objects_in n = seq (List.length (v_objs v)) m /\ v_secs v' = v_secs v ++ map snd (located path n) /\
    forall objs us ns k', agree objs (v_objs v') -> outline file objs (List.length (v_objs v')) us ns k' ->
      outline file objs (List.length (v_objs v)) (ts ++ us) (n :: ns) k'.
Definition items_shape (file : Z) (p : nat) (path : list sect) (v : env) (ts : list token) (v' : env) : Prop :=
  exists ns m, grown p v v' file m /\ flat_map objects_in ns = seq (List.length (v_objs v)) m /\ v_secs v' = v_secs v ++ map snd (flat_map (located path) ns) /\
    forall objs, agree objs (v_objs v') -> outline file objs (List.length (v_objs v)) ts ns (List.length (v_objs v')).
Lemma shapes file src p imports lax :
  (forall path v ts v', object_item file src p imports lax path v ts v' -> item_shape file p path v ts v') /\
  (forall path v ts v', object_items file src p imports lax path v ts v' -> items_shape file p path v ts v').
Proof.
  apply oi_all.
  - intros path v ts v' D. destruct D as [r rt tk tq name bra cs g ts k' ket fs pkgs Q R Ra K1 K2 K3 C En As Fi]. cbn [v_objs v_secs].
    exists (Obj (List.length (v_objs v))), 1%nat. split; [|split; [auto|split; [auto|]]].
    + split; [|split; [auto|]].
      * eexists. split; [reflexivity|]. split; auto. intros ob [<-|[]]. auto.
      * intros q. cbn [v_pkgs]. destruct En as (d & (a & b & Ep & La & ->) & _). rewrite Ep, <- La. destruct (Nat.eqb q (List.length a)) eqn:Eq.
        -- apply Nat.eqb_eq in Eq. subst q. rewrite !app_nth2, Nat.sub_diag by lia. cbn [nth]. rewrite table_objects_app. auto.
        -- rewrite app_nil_r. apply Nat.eqb_neq in Eq. destruct (Nat.lt_ge_cases q (List.length a)); [rewrite !app_nth1 by lia; auto|].
           rewrite !app_nth2 by lia. destruct (q - List.length a)%nat eqn:X; [lia|]. auto.
    + intros objs us ns k'' A O. cbn [v_objs] in A, O. rewrite app_length in O. cbn [List.length] in O. rewrite Nat.add_comm in O.
      destruct (A (List.length (v_objs v)) (Object p (tok_text name) (tok_loc file name) r fs)) as (ob & Eo & N1 & N2).
      { rewrite nth_error_app2, Nat.sub_diag by lia. auto. }
      eapply ol_object; eauto.
  - intros path v kw name bra ts v' ket Kw K1 K2 K3 _ (ns & m & Gr & Os & Ss & Ol).
    exists (Sec (tok_loc file name, tok_text name) ns), m. split; auto. split; auto. split; auto.
    intros objs us ns' k' A O. eapply ol_section; eauto.
  - intros path v. exists [], 0%nat. split; [|split; [auto|split; [cbn; rewrite app_nil_r; auto|]]].
    + split; [exists []; rewrite app_nil_r; cbn; intuition|]. split; auto. intros q. cbn. destruct (Nat.eqb q p); rewrite app_nil_r; auto.
    + intros. constructor.
  - intros path v ts v1 us v' _ (n & m & G1 & O1 & S1 & L1) _ (ns & m' & G2 & O2 & S2 & L2). exists (n :: ns), (m + m')%nat.
    pose proof G1 as ((obs & A1 & Lo & _) & _). pose proof G2 as ((obs2 & A2 & _) & _).
    split; [eapply grown_trans; eauto|]. split.
    + cbn. rewrite O1, O2, seq_app, A1, app_length, Lo. auto.
    + split; [rewrite S2, S1; cbn; rewrite map_app, app_assoc; auto|]. intros objs A. apply L1; [|apply L2; auto]. rewrite A2 in A. eapply agree_app; eauto.
Qed.
